(** Basic vocabulary shared by the whole model.

    Strings are lists of Unicode scalar values.  [&str] values of the Rust code are
    modelled by such lists; byte offsets into a [&str] are modelled by character
    offsets (every offset the modelled code slices at is a character boundary; the
    byte-level facts this relies on are proved in Utf8.v). *)
From Coq Require Import List NArith ZArith Lia Bool Arith Permutation.
From Coq Require Import ZifyBool ZifyNat ZifyN.
Import ListNotations.
Set Implicit Arguments.

Notation char := N (only parsing).
Definition str := list N.

(** Outcome of a function that may panic or may not terminate. *)
Inductive Res (A : Type) : Type :=
| Ret (a : A)
| Panic
| NoFuel.
Arguments Ret {A} a.
Arguments Panic {A}.
Arguments NoFuel {A}.

Definition bindR {A B} (x : Res A) (f : A -> Res B) : Res B :=
  match x with Ret a => f a | Panic => Panic | NoFuel => NoFuel end.

Notation "x <- e ;; f" := (bindR e (fun x => f))
  (at level 61, e at next level, right associativity).

(** ** Decidable equality of strings ([==] on [str]). *)
Fixpoint str_eqb (a b : str) : bool :=
  match a, b with
  | [], [] => true
  | x :: a', y :: b' => N.eqb x y && str_eqb a' b'
  | _, _ => false
  end.

Lemma str_eqb_eq : forall a b, str_eqb a b = true <-> a = b.
Proof.
  induction a as [|x a IH]; intros [|y b]; simpl; split; intro H; try congruence.
  - apply andb_true_iff in H. destruct H as [H1 H2].
    apply N.eqb_eq in H1. apply IH in H2. congruence.
  - inversion H; subst. rewrite N.eqb_refl. simpl. apply IH. reflexivity.
Qed.

Lemma str_eqb_refl : forall a, str_eqb a a = true.
Proof. intro a. apply str_eqb_eq. reflexivity. Qed.

Lemma str_eqb_neq : forall a b, str_eqb a b = false <-> a <> b.
Proof.
  intros a b. rewrite <- str_eqb_eq. destruct (str_eqb a b); split; congruence.
Qed.

(** ** Prefixes and suffixes ([str::starts_with], [strip_prefix], ...). *)
Fixpoint strip_prefix (p w : str) : option str :=
  match p, w with
  | [], _ => Some w
  | x :: p', y :: w' => if N.eqb x y then strip_prefix p' w' else None
  | _ :: _, [] => None
  end.

Definition starts_with (p w : str) : bool :=
  match strip_prefix p w with Some _ => true | None => false end.

Definition strip_suffix (p w : str) : option str :=
  option_map (@rev N) (strip_prefix (rev p) (rev w)).

Definition ends_with (p w : str) : bool :=
  match strip_suffix p w with Some _ => true | None => false end.

Lemma strip_prefix_spec : forall p w r, strip_prefix p w = Some r <-> w = p ++ r.
Proof.
  induction p as [|x p IH]; intros w r; simpl.
  - split; congruence.
  - destruct w as [|y w]; [split; intro H; discriminate|].
    destruct (N.eqb_spec x y) as [->|Hne].
    + rewrite IH. split; intro H; [subst; reflexivity | inversion H; reflexivity].
    + split; intro H; [discriminate | inversion H; congruence].
Qed.

Lemma strip_suffix_spec : forall p w r, strip_suffix p w = Some r <-> w = r ++ p.
Proof.
  intros p w r. unfold strip_suffix.
  destruct (strip_prefix (rev p) (rev w)) as [q|] eqn:E; simpl.
  - apply strip_prefix_spec in E.
    assert (Hw : w = rev q ++ p).
    { rewrite <- (rev_involutive w), E, rev_app_distr, rev_involutive. reflexivity. }
    split; intro H.
    + injection H as <-. exact Hw.
    + f_equal. subst w. apply app_inv_tail in H. exact H.
  - split; [discriminate|]. intros ->.
    assert (strip_prefix (rev p) (rev (r ++ p)) = Some (rev r)) as E2.
    { apply strip_prefix_spec. apply rev_app_distr. }
    congruence.
Qed.

Lemma starts_with_spec : forall p w, starts_with p w = true <-> exists r, w = p ++ r.
Proof.
  intros p w. unfold starts_with. destruct (strip_prefix p w) as [r|] eqn:E.
  - apply strip_prefix_spec in E. split; eauto.
  - split; [discriminate|]. intros [r H]. apply strip_prefix_spec in H. congruence.
Qed.

Lemma ends_with_spec : forall p w, ends_with p w = true <-> exists r, w = r ++ p.
Proof.
  intros p w. unfold ends_with. destruct (strip_suffix p w) as [r|] eqn:E.
  - apply strip_suffix_spec in E. split; eauto.
  - split; [discriminate|]. intros [r H]. apply strip_suffix_spec in H. congruence.
Qed.

Lemma starts_with_refl : forall w, starts_with w w = true.
Proof. intro w. apply starts_with_spec. exists []. rewrite app_nil_r. reflexivity. Qed.

Lemma starts_with_app : forall p r, starts_with p (p ++ r) = true.
Proof. intros. apply starts_with_spec. eauto. Qed.

Lemma ends_with_app : forall p r, ends_with p (r ++ p) = true.
Proof. intros. apply ends_with_spec. eauto. Qed.

(** ** Substring search ([str::find] with a string pattern, as a character offset). *)
Fixpoint find_sub (p w : str) : option nat :=
  if starts_with p w then Some 0
  else match w with
       | [] => None
       | _ :: w' => option_map S (find_sub p w')
       end.

(** [str::split_once]. *)
Definition split_once (p w : str) : option (str * str) :=
  match find_sub p w with
  | Some i => Some (firstn i w, skipn (i + length p) w)
  | None => None
  end.

Lemma find_sub_sound : forall p w i,
  find_sub p w = Some i ->
  w = firstn i w ++ p ++ skipn (i + length p) w /\ i <= length w.
Proof.
  intros p w. induction w as [|x w IH]; intros i H; simpl in H.
  - destruct (starts_with p []) eqn:E; [|discriminate].
    injection H as <-. apply starts_with_spec in E. destruct E as [r E].
    symmetry in E. apply app_eq_nil in E. destruct E as [-> ->]. simpl. auto.
  - destruct (starts_with p (x :: w)) eqn:E.
    + injection H as <-. apply starts_with_spec in E. destruct E as [r E].
      rewrite E. simpl. rewrite skipn_app, skipn_all, Nat.sub_diag. simpl. split; [reflexivity|lia].
    + destruct (find_sub p w) as [j|] eqn:F; [|discriminate]. simpl in H. injection H as <-.
      destruct (IH j eq_refl) as [H1 H2]. simpl. split; [f_equal; exact H1|lia].
Qed.

Lemma find_sub_none : forall p w, find_sub p w = None <-> (forall u v, w <> u ++ p ++ v).
Proof.
  intros p w. induction w as [|x w IH]; simpl.
  - destruct (starts_with p []) eqn:E.
    + split; [discriminate|]. intros H. apply starts_with_spec in E. destruct E as [r E].
      exfalso. apply (H [] r). exact E.
    + split; [|reflexivity]. intros _ u v H.
      symmetry in H. apply app_eq_nil in H. destruct H as [-> H].
      apply app_eq_nil in H. destruct H as [-> ->]. discriminate E.
  - destruct (starts_with p (x :: w)) eqn:E.
    + split; [discriminate|]. intros H. apply starts_with_spec in E. destruct E as [r E].
      exfalso. apply (H [] r). exact E.
    + destruct (find_sub p w) as [j|] eqn:F; simpl.
      * split; [discriminate|]. intro H. exfalso.
        apply find_sub_sound in F. destruct F as [F _].
        apply (H (x :: firstn j w) (skipn (j + length p) w)). simpl. f_equal. exact F.
      * split; [|reflexivity]. intros _ u v H. destruct u as [|y u].
        -- simpl in H. assert (starts_with p (x :: w) = true) by (rewrite H; apply starts_with_app).
           congruence.
        -- simpl in H. injection H as _ H. apply (proj1 IH eq_refl u v). exact H.
Qed.

(** [find_sub] finds the leftmost occurrence. *)
Lemma find_sub_first : forall p w i u v,
  find_sub p w = Some i -> w = u ++ p ++ v -> i <= length u.
Proof.
  intros p w. induction w as [|x w IH]; intros i u v H Hw; simpl in H.
  - destruct (starts_with p []); [injection H as <-; lia|discriminate].
  - destruct (starts_with p (x :: w)) eqn:E; [injection H as <-; lia|].
    destruct (find_sub p w) as [j|] eqn:F; [|discriminate]. simpl in H. injection H as <-.
    destruct u as [|y u].
    + simpl in Hw. rewrite Hw, starts_with_app in E. discriminate.
    + simpl in Hw. injection Hw as _ Hw. specialize (IH j u v eq_refl Hw). simpl. lia.
Qed.

Lemma split_once_sound : forall p w a b,
  split_once p w = Some (a, b) -> w = a ++ p ++ b.
Proof.
  intros p w a b H. unfold split_once in H.
  destruct (find_sub p w) as [i|] eqn:F; [|discriminate].
  injection H as <- <-. apply find_sub_sound in F. apply F.
Qed.

(** ** Searching loops: [for x in l { ...; continue; ...; return Some(r) }]. *)
Fixpoint first_some {A B} (f : A -> option B) (l : list A) : option B :=
  match l with
  | [] => None
  | x :: l' => match f x with Some b => Some b | None => first_some f l' end
  end.

Lemma first_some_some : forall A B (f : A -> option B) l b,
  first_some f l = Some b -> exists x, In x l /\ f x = Some b.
Proof.
  intros A B f l b. induction l as [|x l IH]; simpl; [discriminate|].
  destruct (f x) as [b'|] eqn:E.
  - intro H. injection H as <-. eauto.
  - intro H. destruct (IH H) as [y [Hy1 Hy2]]. eauto.
Qed.

Lemma first_some_none : forall A B (f : A -> option B) l,
  first_some f l = None <-> (forall x, In x l -> f x = None).
Proof.
  intros A B f l. induction l as [|x l IH]; simpl.
  - split; [intros _ x []|reflexivity].
  - destruct (f x) as [b|] eqn:E.
    + split; [discriminate|]. intro H. rewrite <- (H x (or_introl eq_refl)). congruence.
    + rewrite IH. split.
      * intros H y [->|Hy]; auto.
      * intros H y Hy. auto.
Qed.

Lemma first_some_exists : forall A B (f : A -> option B) l,
  (exists b, first_some f l = Some b) <-> (exists x b, In x l /\ f x = Some b).
Proof.
  intros A B f l. split.
  - intros [b H]. apply first_some_some in H. destruct H as [x [H1 H2]]. eauto.
  - intros [x [b [H1 H2]]]. destruct (first_some f l) as [b'|] eqn:E; [eauto|].
    rewrite first_some_none in E. rewrite (E x H1) in H2. discriminate.
Qed.

Lemma first_some_ext : forall A B (f g : A -> option B) l,
  (forall x, In x l -> f x = g x) -> first_some f l = first_some g l.
Proof.
  intros A B f g l. induction l as [|x l IH]; simpl; intro H; [reflexivity|].
  rewrite (H x (or_introl eq_refl)). destruct (g x); [reflexivity|]. apply IH. auto.
Qed.

(** The same loop when the body may panic or run out of fuel. *)
Fixpoint firstR {A B} (f : A -> Res (option B)) (l : list A) : Res (option B) :=
  match l with
  | [] => Ret None
  | x :: l' =>
      match f x with
      | Ret (Some b) => Ret (Some b)
      | Ret None => firstR f l'
      | Panic => Panic
      | NoFuel => NoFuel
      end
  end.

Lemma firstR_some : forall A B (f : A -> Res (option B)) l b,
  firstR f l = Ret (Some b) -> exists x, In x l /\ f x = Ret (Some b).
Proof.
  intros A B f l b. induction l as [|x l IH]; simpl; [discriminate|].
  destruct (f x) as [[b'|]| |] eqn:E; try discriminate.
  - intro H. injection H as <-. eauto.
  - intro H. destruct (IH H) as [y [Hy1 Hy2]]. eauto.
Qed.

Lemma firstR_none : forall A B (f : A -> Res (option B)) l,
  firstR f l = Ret None <-> (forall x, In x l -> f x = Ret None).
Proof.
  intros A B f l. induction l as [|x l IH]; simpl.
  - split; [intros _ x []|reflexivity].
  - destruct (f x) as [[b|]| |] eqn:E.
    + split; [discriminate|]. intro H. rewrite <- (H x (or_introl eq_refl)). congruence.
    + rewrite IH. split.
      * intros H y [->|Hy]; auto.
      * intros H y Hy. auto.
    + split; [discriminate|]. intro H. rewrite <- (H x (or_introl eq_refl)). congruence.
    + split; [discriminate|]. intro H. rewrite <- (H x (or_introl eq_refl)). congruence.
Qed.

Lemma firstR_ext : forall A B (f g : A -> Res (option B)) l,
  (forall x, In x l -> f x = g x) -> firstR f l = firstR g l.
Proof.
  intros A B f g l. induction l as [|x l IH]; simpl; intro H; [reflexivity|].
  rewrite (H x (or_introl eq_refl)). destruct (g x) as [[b|]| |]; try reflexivity.
  apply IH. auto.
Qed.

(** If every body returns normally so does the loop. *)
Lemma firstR_ret : forall A B (f : A -> Res (option B)) l,
  (forall x, In x l -> exists o, f x = Ret o) -> exists o, firstR f l = Ret o.
Proof.
  intros A B f l. induction l as [|x l IH]; simpl; intro H; [eauto|].
  destruct (H x (or_introl eq_refl)) as [[b|] E]; rewrite E; [eauto|]. apply IH. auto.
Qed.

Lemma firstR_exists : forall A B (f : A -> Res (option B)) l,
  (forall x, In x l -> exists o, f x = Ret o) ->
  ((exists b, firstR f l = Ret (Some b)) <-> (exists x b, In x l /\ f x = Ret (Some b))).
Proof.
  intros A B f l Hret. split.
  - intros [b H]. apply firstR_some in H. destruct H as [x [H1 H2]]. eauto.
  - intros [x [b [H1 H2]]]. destruct (firstR_ret f l Hret) as [[b'|] E]; [eauto|].
    rewrite firstR_none in E. rewrite (E x H1) in H2. discriminate.
Qed.

Definition is_someb {A} (o : option A) : bool :=
  match o with Some _ => true | None => false end.

(** Substring of a string by character offsets, [&w[a..b]]. *)
Definition slice {A} (w : list A) (a b : nat) : list A := firstn (b - a) (skipn a w).

Lemma slice_length : forall A (w : list A) a b,
  a <= b -> b <= length w -> length (slice w a b) = b - a.
Proof.
  intros A w a b H1 H2. unfold slice. rewrite firstn_length, skipn_length. lia.
Qed.

Lemma skipn_skipn' : forall A (l : list A) a b, skipn a (skipn b l) = skipn (b + a) l.
Proof.
  intros A l a b. revert l. induction b as [|b IH]; intro l; [reflexivity|].
  destruct l as [|x l]; simpl; [apply skipn_nil|apply IH].
Qed.

Lemma slice_skip : forall A (w : list A) a b,
  a <= b -> skipn a w = slice w a b ++ skipn b w.
Proof.
  intros A w a b H. unfold slice.
  replace (skipn b w) with (skipn (b - a) (skipn a w)).
  - symmetry. apply firstn_skipn.
  - rewrite skipn_skipn'. f_equal. lia.
Qed.

Lemma skipn_nth_error : forall A (l : list A) n x,
  nth_error l n = Some x -> skipn n l = x :: skipn (S n) l.
Proof.
  intros A l. induction l as [|y l IH]; intros [|n] x H; simpl in *; try discriminate.
  - injection H as <-. reflexivity.
  - apply IH. exact H.
Qed.

Lemma firstn_S_nth_error : forall A (l : list A) n x,
  nth_error l n = Some x -> firstn (S n) l = firstn n l ++ [x].
Proof.
  intros A l. induction l as [|y l IH]; intros [|n] x H; simpl in *; try discriminate.
  - injection H as <-. reflexivity.
  - f_equal. apply IH. exact H.
Qed.

(** Membership in a list of characters ([slice::contains]). *)
Definition memb (x : N) (l : list N) : bool := existsb (N.eqb x) l.

Lemma memb_In : forall x l, memb x l = true <-> In x l.
Proof.
  intros x l. unfold memb. rewrite existsb_exists. split.
  - intros [y [H1 H2]]. apply N.eqb_eq in H2. subst. exact H1.
  - intro H. exists x. split; [exact H|apply N.eqb_refl].
Qed.

Lemma memb_false : forall x l, memb x l = false <-> ~ In x l.
Proof.
  intros x l. rewrite <- memb_In. destruct (memb x l); split; congruence.
Qed.

(** [core::result::Result]. *)
Inductive result (A E : Type) : Type :=
| Ok (a : A)
| Err (e : E).
Arguments Ok {A E} a.
Arguments Err {A E} e.

(** [str::find] with a predicate on characters, as a character offset. *)
Fixpoint find_char (f : N -> bool) (w : str) : option nat :=
  match w with
  | [] => None
  | c :: w' => if f c then Some 0 else option_map S (find_char f w')
  end.

Lemma find_char_some : forall f w i, find_char f w = Some i ->
  exists u c v, w = u ++ c :: v /\ length u = i /\ f c = true /\ forallb (fun x => negb (f x)) u = true.
Proof.
  intros f w. induction w as [|c w IH]; intros i H; simpl in H; [discriminate|].
  destruct (f c) eqn:E.
  - injection H as <-. exists [], c, w. auto.
  - destruct (find_char f w) as [j|]; [|discriminate]. simpl in H. injection H as <-.
    destruct (IH j eq_refl) as [u [d [v [H1 [H2 [H3 H4]]]]]].
    exists (c :: u), d, v. subst w. simpl. rewrite E, H2, H4. auto.
Qed.

Lemma find_char_app : forall f u c v, f c = true -> forallb (fun x => negb (f x)) u = true ->
  find_char f (u ++ c :: v) = Some (length u).
Proof.
  intros f u c v Hc. induction u as [|d u IH]; simpl; intro H.
  - rewrite Hc. reflexivity.
  - apply andb_true_iff in H. destruct H as [H1 H2]. destruct (f d); [discriminate|].
    rewrite IH; auto.
Qed.

Lemma find_char_none : forall f w, find_char f w = None <-> forallb (fun x => negb (f x)) w = true.
Proof.
  intros f w. induction w as [|c w IH]; simpl; [tauto|].
  destruct (f c); simpl; [split; discriminate|]. rewrite <- IH.
  destruct (find_char f w); simpl; split; congruence.
Qed.

Lemma skipn_app_exact : forall A (u v : list A) n, n = length u -> skipn n (u ++ v) = v.
Proof. intros A u v n ->. rewrite skipn_app, skipn_all, Nat.sub_diag. reflexivity. Qed.

Lemma firstn_app_exact : forall A (u v : list A) n, n = length u -> firstn n (u ++ v) = u.
Proof. intros A u v n ->. rewrite firstn_app, firstn_all, Nat.sub_diag. simpl. apply app_nil_r. Qed.

Lemma Forall2_length : forall A B (R : A -> B -> Prop) l l', Forall2 R l l' -> length l = length l'.
Proof. intros A B R l l' H. induction H; simpl; congruence. Qed.

(** ** Loops with a step function.  [run2 k] performs up to [2^k] steps, stopping early. *)
Section Loop.
Context {S R : Type}.
Variable step : S -> S + R.

Fixpoint run (n : nat) (s : S) : S + R :=
  match n with
  | O => inl s
  | Datatypes.S n' => match step s with inl s' => run n' s' | inr r => inr r end
  end.

Fixpoint run2 (k : nat) (s : S) : S + R :=
  match k with
  | O => step s
  | Datatypes.S k' => match run2 k' s with inl s' => run2 k' s' | inr r => inr r end
  end.

Lemma run_add : forall a b s,
  run (a + b) s = match run a s with inl s' => run b s' | inr r => inr r end.
Proof.
  induction a as [|a IH]; intros b s; [reflexivity|]. cbn [run Nat.add].
  destruct (step s); [apply IH|reflexivity].
Qed.

Lemma run2_run : forall k s, run2 k s = run (2 ^ k) s.
Proof.
  induction k as [|k IH]; intro s.
  - cbn. destruct (step s); reflexivity.
  - cbn [run2]. replace (2 ^ Datatypes.S k) with (2 ^ k + 2 ^ k) by (cbn; lia).
    rewrite run_add, IH. destruct (run (2 ^ k) s); [apply IH|reflexivity].
Qed.

Lemma run_mono : forall a b s r, a <= b -> run a s = inr r -> run b s = inr r.
Proof.
  intros a b s r Hab H. replace b with (a + (b - a)) by lia. rewrite run_add, H. reflexivity.
Qed.
End Loop.
