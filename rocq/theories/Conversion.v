(** ICONV/OCONV conversion tables: aff.rs 1068-1249. *)
From Coq Require Import List NArith ZArith Lia Bool Arith Permutation Sorted.
From Coq Require Import ZifyBool ZifyNat ZifyN.
From Verif Require Import Base Utf8 Affix.
Import ListNotations.
Set Implicit Arguments.

(** aff.rs 1069-1075. *)
Record conversion := mkConv { cv_from : str; cv_to : str; cv_anchor : bool }.

(** [ByteSet] (aff.rs 1080-1091): four 64-bit words. *)
Definition byteset := list N.
Definition byteset_empty : byteset := [0; 0; 0; 0]%N.
Fixpoint update_nth {A} (n : nat) (f : A -> A) (l : list A) : list A :=
  match l with
  | [] => []
  | x :: l' => match n with O => f x :: l' | S n' => x :: update_nth n' f l' end
  end.
Definition byteset_insert (s : byteset) (b : N) : byteset :=
  update_nth (N.to_nat (N.shiftr b 6)) (fun x => N.lor x (N.shiftl 1 (N.land b 63))) s.
Definition byteset_contains (s : byteset) (b : N) : bool :=
  negb (N.land (nth (N.to_nat (N.shiftr b 6)) s 0%N) (N.shiftl 1 (N.land b 63)) =? 0)%N.

(** aff.rs 1100-1119. *)
Record conv_table := mkConvTable {
  ct_inner : list conversion;
  ct_start : byteset;
  ct_non_ascii : bool }.

Definition is_ascii (s : str) : bool := forallb (fun c => (c <? 128)%N) s.

Definition first_byte (s : str) : option N := hd_error (enc s).

(** The closure at aff.rs 1126-1140. *)
Definition conv_entry (p : str * str) : conversion :=
  match strip_suffix [95%N] (fst p) with
  | Some from => mkConv from (snd p) true
  | None => mkConv (fst p) (snd p) false
  end.

Definition conv_leb (a b : conversion) : bool := lex_leb (enc (cv_from a)) (enc (cv_from b)).

(** [From<Vec<(&str, &str)>>] (aff.rs 1121-1156), given the result of the (unstable) sort. *)
Definition conv_of_sorted (entries inner : list conversion) : conv_table :=
  mkConvTable inner
    (fold_left (fun s c => match first_byte (cv_from c) with Some b => byteset_insert s b | None => s end)
       entries byteset_empty)
    (negb (match inner with [] => true | _ => false end) &&
     forallb (fun c => negb (is_ascii (cv_from c))) inner).

Definition conv_from (pairs : list (str * str)) : conv_table :=
  let entries := map conv_entry pairs in
  conv_of_sorted entries (sort_by conv_leb entries).

Definition opt_eqb (a b : option N) : bool :=
  match a, b with Some x, Some y => (x =? y)%N | None, None => true | _, _ => false end.

(** [tail == from] or [tail.starts_with(from)] (aff.rs 1181-1186). *)
Definition conv_applies (c : conversion) (tail : str) : bool :=
  if cv_anchor c then str_eqb tail (cv_from c) else starts_with (cv_from c) tail.

(** The scan of the run of patterns with the right first byte (aff.rs 1175-1194). *)
Fixpoint best_match (first : N) (tail : str) (l : list conversion) (best : option conversion)
  : option conversion :=
  match l with
  | [] => best
  | c :: l' =>
      if negb (opt_eqb (first_byte (cv_from c)) (Some first)) then best
      else
        let better := conv_applies c tail &&
                      match best with None => true | Some b => (blen (cv_from b) <? blen (cv_from c))%N end in
        best_match first tail l' (if better then Some c else best)
  end.

(** [match_at] (aff.rs 1166-1195). *)
Definition match_at (t : conv_table) (tail : str) : option conversion :=
  match first_byte tail with
  | None => None
  | Some first =>
      let start := partition_point (fun c => opt_lt (first_byte (cv_from c)) first) (ct_inner t) in
      best_match first tail (skipn start (ct_inner t)) None
  end.

(** The [while] loop of [convert] (aff.rs 1232-1245); the state is the word and the
    position. *)
Fixpoint convert_loop (fuel : nat) (t : conv_table) (word : str) (i : nat) : Res str :=
  if (i <? length word)%nat then
    match fuel with
    | O => NoFuel
    | S fuel' =>
        match match_at t (skipn i word) with
        | None => convert_loop fuel' t word (i + 1)
        | Some c =>
            convert_loop fuel' t
              (firstn i word ++ cv_to c ++ skipn (i + length (cv_from c)) word)
              (i + length (cv_to c))
        end
    end
  else Ret word.

(** [convert] (aff.rs 1202-1248). *)
Definition convert (t : conv_table) (word : str) : Res str :=
  match ct_inner t with
  | [] => Ret word
  | _ :: _ =>
      if ct_non_ascii t && is_ascii word then Ret word
      else if negb (existsb (byteset_contains (ct_start t)) (enc word)) then Ret word
      else convert_loop (length word) t word 0
  end.

(** ** Specification *)
(** The entry can be used at the beginning of [tail]. *)
Definition usable (c : conversion) (tail : str) : Prop :=
  cv_from c <> [] /\
  exists r, tail = cv_from c ++ r /\ (cv_anchor c = true -> r = []).

(** Leftmost-longest conversion with the entries [l]. *)
Inductive Converts (l : list conversion) : str -> str -> Prop :=
| Conv_end : Converts l [] []
| Conv_copy : forall x w out, (forall c, In c l -> ~ usable c (x :: w)) ->
    Converts l w out -> Converts l (x :: w) (x :: out)
| Conv_use : forall c r out, In c l -> usable c (cv_from c ++ r) ->
    (forall c', In c' l -> usable c' (cv_from c ++ r) -> length (cv_from c') <= length (cv_from c)) ->
    Converts l r out -> Converts l (cv_from c ++ r) (cv_to c ++ out).

(** ** Byte sets *)
Lemma byteset_update_length : forall A n (f : A -> A) l, length (update_nth n f l) = length l.
Proof. intros A n f l. revert n. induction l as [|x l IH]; intros [|n]; simpl; auto. Qed.

Lemma nth_update_nth : forall A n m (f : A -> A) l d, m < length l ->
  nth m (update_nth n f l) d = if (n =? m)%nat then f (nth m l d) else nth m l d.
Proof.
  intros A n m f l d. revert n m. induction l as [|x l IH]; intros n m H; [simpl in H; lia|].
  destruct n as [|n], m as [|m]; simpl; try reflexivity. apply IH. simpl in H. lia.
Qed.

Lemma land_bit : forall x i, negb (N.land x (N.shiftl 1 i) =? 0)%N = N.testbit x i.
Proof.
  intros x i. rewrite N.shiftl_1_l. destruct (N.testbit x i) eqn:E.
  - destruct (N.eqb_spec (N.land x (2 ^ i)) 0) as [H|H]; [|reflexivity].
    assert (N.testbit (N.land x (2 ^ i)) i = false) as Q by (rewrite H; apply N.bits_0).
    rewrite N.land_spec, E, N.pow2_bits_true in Q. discriminate.
  - destruct (N.eqb_spec (N.land x (2 ^ i)) 0) as [H|H]; [reflexivity|]. exfalso. apply H.
    apply N.bits_inj_0. intro n. rewrite N.land_spec.
    destruct (N.eq_dec n i) as [->|Hne]; [rewrite E; reflexivity|].
    rewrite N.pow2_bits_false by congruence. apply andb_false_r.
Qed.

Lemma byte_split : forall a b, (N.shiftr a 6 = N.shiftr b 6 -> N.land a 63 = N.land b 63 -> a = b)%N.
Proof.
  intros a b H1 H2. rewrite !N.shiftr_div_pow2 in H1. change 63%N with (N.ones 6) in H2.
  rewrite !N.land_ones in H2. change (2 ^ 6)%N with 64%N in *.
  rewrite (N.div_mod a 64), (N.div_mod b 64) by lia. congruence.
Qed.

Lemma byteset_insert_spec : forall s a b, length s = 4 -> (a < 256)%N -> (b < 256)%N ->
  byteset_contains (byteset_insert s a) b = (a =? b)%N || byteset_contains s b.
Proof.
  intros s a b Hs Ha Hb. unfold byteset_contains, byteset_insert. rewrite !land_bit.
  assert (forall x, (x < 256)%N -> N.to_nat (N.shiftr x 6) < 4) as Hq.
  { intros x Hx. rewrite N.shiftr_div_pow2. change (2 ^ 6)%N with 64%N.
    assert (x / 64 < 4)%N by (apply N.div_lt_upper_bound; lia). lia. }
  rewrite nth_update_nth by (rewrite Hs; apply Hq; exact Hb).
  destruct (Nat.eqb_spec (N.to_nat (N.shiftr a 6)) (N.to_nat (N.shiftr b 6))) as [E|E].
  - apply N2Nat.inj in E. rewrite N.lor_spec, N.shiftl_1_l, N.pow2_bits_eqb.
    destruct (N.eqb_spec a b) as [->|Hne].
    + rewrite N.eqb_refl. rewrite orb_true_r. reflexivity.
    + destruct (N.eqb_spec (N.land a 63) (N.land b 63)) as [E2|E2].
      * exfalso. apply Hne. apply byte_split; assumption.
      * apply orb_false_r.
  - destruct (N.eqb_spec a b) as [->|]; [contradiction|]. reflexivity.
Qed.

Lemma byteset_fold : forall l s b, length s = 4 -> (b < 256)%N ->
  Forall (fun c => scalars (cv_from c)) l ->
  byteset_contains (fold_left (fun s c => match first_byte (cv_from c) with Some b => byteset_insert s b | None => s end) l s) b
  = true <-> (byteset_contains s b = true \/ exists c, In c l /\ first_byte (cv_from c) = Some b).
Proof.
  induction l as [|c l IH]; intros s b Hs Hb Hl; cbn [fold_left].
  - split; [auto|]. intros [H|[c [[] _]]]. exact H.
  - inversion Hl as [|? ? Hc Hl']; subst. destruct (first_byte (cv_from c)) as [a|] eqn:E.
    + rewrite IH; [|unfold byteset_insert; rewrite byteset_update_length; exact Hs|exact Hb|exact Hl'].
      assert (a < 256)%N as Ha.
      { unfold first_byte in E. destruct (cv_from c) as [|x w]; [discriminate|].
        inversion Hc as [|? ? Hx Hw]; subst. pose proof (enc1_bytes x Hx) as B.
        cbn [enc flat_map] in E. pose proof (enc1_nonempty x). destruct (enc1 x) as [|y r]; [simpl in *; lia|].
        simpl in E. injection E as <-. inversion B; subst. assumption. }
      rewrite byteset_insert_spec by assumption. rewrite orb_true_iff, N.eqb_eq. split.
      * intros [[->|H]|[c' [H1 H2]]]; [right; exists c; simpl; auto|auto|right; exists c'; simpl; auto].
      * intros [H|[c' [[<-|H1] H2]]]; [auto|left; left; congruence|right; eauto].
    + rewrite IH by assumption. split.
      * intros [H|[c' [H1 H2]]]; [auto|right; exists c'; simpl; auto].
      * intros [H|[c' [[<-|H1] H2]]]; [auto|congruence|right; eauto].
Qed.

(** ** Matching at a position *)
Lemma first_byte_app : forall a b, a <> [] -> first_byte (a ++ b) = first_byte a.
Proof.
  intros [|c a] b H; [contradiction|]. unfold first_byte. rewrite enc_app.
  cbn [enc flat_map]. pose proof (enc1_nonempty c). destruct (enc1 c); [simpl in *; lia|]. reflexivity.
Qed.

Lemma first_byte_some : forall s, s <> [] -> exists b, first_byte s = Some b.
Proof.
  intros [|c s] H; [contradiction|]. unfold first_byte. cbn [enc flat_map].
  pose proof (enc1_nonempty c). destruct (enc1 c) as [|b r]; [simpl in *; lia|]. exists b. reflexivity.
Qed.

Lemma first_byte_nil : first_byte [] = None. Proof. reflexivity. Qed.

Lemma conv_applies_usable : forall c tail, cv_from c <> [] -> (conv_applies c tail = true <-> usable c tail).
Proof.
  intros c tail Hne. unfold conv_applies, usable. destruct (cv_anchor c).
  - rewrite str_eqb_eq. split.
    + intros ->. split; [exact Hne|]. exists []. rewrite app_nil_r. auto.
    + intros [_ [r [-> H]]]. rewrite (H eq_refl), app_nil_r. reflexivity.
  - rewrite starts_with_spec. split.
    + intros [r ->]. split; [exact Hne|]. exists r. split; [reflexivity|discriminate].
    + intros [_ [r [-> _]]]. eauto.
Qed.

Lemma usable_first : forall c tail, usable c tail -> first_byte (cv_from c) = first_byte tail.
Proof. intros c tail [Hne [r [-> _]]]. symmetry. apply first_byte_app. exact Hne. Qed.

Definition sorted_conv (l : list conversion) : Prop :=
  StronglySorted (fun a b => lex_leb (enc (cv_from a)) (enc (cv_from b)) = true) l.

Lemma first_byte_mono : forall a b, lex_leb (enc (cv_from a)) (enc (cv_from b)) = true ->
  match first_byte (cv_from a), first_byte (cv_from b) with
  | None, _ => True | Some _, None => False | Some x, Some y => (x <= y)%N end.
Proof.
  intros a b H. pose proof (@lex_nth_mono [] _ _ H) as M. cbn [app] in M. unfold first_byte.
  destruct (enc (cv_from a)), (enc (cv_from b)); exact M.
Qed.

(** Usable prefixes of the same text: byte length and character length agree. *)
Lemma usable_blen : forall c c' tail, usable c tail -> usable c' tail ->
  (blen (cv_from c) <= blen (cv_from c'))%N -> length (cv_from c) <= length (cv_from c').
Proof.
  intros c c' tail [_ [r [-> _]]] [_ [r' [E _]]] H.
  destruct (le_gt_dec (length (cv_from c)) (length (cv_from c'))) as [|Hgt]; [assumption|]. exfalso.
  assert (exists q, cv_from c = cv_from c' ++ q /\ q <> []) as [q [Eq Hq]].
  { pose proof (f_equal (firstn (length (cv_from c))) E) as F. rewrite firstn_app_exact in F by reflexivity.
    rewrite firstn_app in F. rewrite firstn_all2 in F by lia.
    eexists. split; [exact F|]. intro Q. pose proof (f_equal (@length _) F) as L.
    rewrite Q, app_length in L. simpl in L. lia. }
  rewrite Eq, blen_app in H. assert (0 < blen q)%N.
  { destruct (N.eq_dec (blen q) 0) as [Z|]; [apply blen_nil in Z; contradiction|lia]. }
  lia.
Qed.

Lemma best_match_spec : forall first tail l best,
  first_byte tail = Some first ->
  (forall b, best = Some b -> usable b tail) ->
  (forall c, In c l -> first_byte (cv_from c) = Some first) ->
  match best_match first tail l best with
  | None => best = None /\ forall c, In c l -> ~ usable c tail
  | Some b => (best = Some b \/ In b l) /\ usable b tail /\
      (forall c, best = Some c \/ In c l -> usable c tail -> (blen (cv_from c) <= blen (cv_from b))%N)
  end.
Proof.
  intros first tail l. induction l as [|c l IH]; intros best Hf Hb Hl; cbn [best_match].
  - destruct best as [b|].
    + split; [auto|]. split; [apply Hb; reflexivity|]. intros c [E|[]] _. injection E as <-. lia.
    + split; [reflexivity|]. intros c [].
  - rewrite (Hl c (or_introl eq_refl)). cbn [opt_eqb]. rewrite N.eqb_refl. cbn [negb].
    assert (Hne : cv_from c <> []).
    { intro E. pose proof (Hl c (or_introl eq_refl)) as Q. rewrite E in Q. discriminate. }
    pose proof (@conv_applies_usable c tail Hne) as Hu.
    destruct (conv_applies c tail && _) eqn:Eb.
    + apply andb_true_iff in Eb. destruct Eb as [Ea Ebl]. apply Hu in Ea.
      specialize (IH (Some c) Hf). destruct (best_match first tail l (Some c)) as [b|] eqn:Em.
      * destruct IH as [H1 [H2 H3]].
        { intros b0 E. injection E as <-. exact Ea. }
        { intros c0 Hc0. apply Hl. right. exact Hc0. }
        split; [destruct H1 as [H1|H1]; [injection H1 as <-; right; left; reflexivity|right; right; exact H1]|].
        split; [exact H2|]. intros c0 [Hc0|[<-|Hc0]] Hu0.
        -- subst best. transitivity (blen (cv_from c)); [lia|]. apply H3; [left; reflexivity|exact Ea].
        -- apply H3; [left; reflexivity|exact Ea].
        -- apply H3; [right; exact Hc0|exact Hu0].
      * destruct IH as [H1 _]; [intros b0 E; injection E as <-; exact Ea|intros c0 Hc0; apply Hl; right; exact Hc0|].
        discriminate.
    + specialize (IH best Hf Hb (fun c0 Hc0 => Hl c0 (or_intror Hc0))).
      destruct (best_match first tail l best) as [b|].
      * destruct IH as [H1 [H2 H3]]. split; [destruct H1; [left|right; right]; assumption|].
        split; [exact H2|]. intros c0 [Hc0|[<-|Hc0]] Hu0.
        -- apply H3; [left; exact Hc0|exact Hu0].
        -- apply Hu in Hu0. rewrite Hu0 in Eb. cbn [andb] in Eb. destruct best as [b0|]; [|discriminate].
           transitivity (blen (cv_from b0)); [lia|]. apply H3; [left; reflexivity|apply Hb; reflexivity].
        -- apply H3; [right; exact Hc0|exact Hu0].
      * destruct IH as [-> H2]. split; [reflexivity|]. intros c0 [<-|Hc0]; [|apply H2; exact Hc0].
        intro Hu0. apply Hu in Hu0. rewrite Hu0 in Eb. discriminate.
Qed.

(** The scan stops at the first entry with another first byte. *)
Lemma best_match_app : forall first tail u v best,
  (forall c, In c u -> first_byte (cv_from c) = Some first) ->
  (match v with [] => True | c :: _ => first_byte (cv_from c) <> Some first end) ->
  best_match first tail (u ++ v) best = best_match first tail u best.
Proof.
  intros first tail u v. induction u as [|c u IH]; intros best Hu Hv; cbn [app best_match].
  - destruct v as [|c v]; [reflexivity|]. cbn [best_match].
    destruct (opt_eqb (first_byte (cv_from c)) (Some first)) eqn:E; [|reflexivity].
    exfalso. apply Hv. destruct (first_byte (cv_from c)) as [x|]; [|discriminate]. simpl in E.
    apply N.eqb_eq in E. congruence.
  - destruct (negb _); [reflexivity|]. apply IH; [intros c0 Hc0; apply Hu; right; exact Hc0|exact Hv].
Qed.

Theorem match_at_spec : forall t tail, sorted_conv (ct_inner t) -> tail <> [] ->
  match match_at t tail with
  | None => forall c, In c (ct_inner t) -> ~ usable c tail
  | Some b => In b (ct_inner t) /\ usable b tail /\
      (forall c, In c (ct_inner t) -> usable c tail -> length (cv_from c) <= length (cv_from b))
  end.
Proof.
  intros t tail Hs Hne. unfold match_at. destruct (first_byte_some Hne) as [first Ef]. rewrite Ef.
  set (inner := ct_inner t) in *.
  set (f := fun c => opt_lt (first_byte (cv_from c)) first).
  assert (Mf : forall x y, In x inner -> In y inner -> lex_leb (enc (cv_from x)) (enc (cv_from y)) = true ->
                 f y = true -> f x = true).
  { intros x y _ _ H. pose proof (first_byte_mono _ _ H) as M. unfold f, opt_lt.
    destruct (first_byte (cv_from x)), (first_byte (cv_from y)); try contradiction; try reflexivity. lia. }
  rewrite (partition_point_sorted _ Hs Mf).
  pose proof (sorted_partitioned _ Hs Mf) as E1.
  assert (Esk : skipn (length (filter f inner)) inner = filter (fun x => negb (f x)) inner).
  { transitivity (skipn (length (filter f inner)) (filter f inner ++ filter (fun x => negb (f x)) inner)).
    - f_equal. exact E1.
    - apply skipn_app_exact. reflexivity. }
  rewrite Esk.
  set (ge := filter (fun x => negb (f x)) inner) in *.
  assert (Hsg : sorted_conv ge) by (apply StronglySorted_filter; exact Hs).
  set (g := fun c => opt_eqb (first_byte (cv_from c)) (Some first)).
  assert (Hge : forall x, In x ge -> exists b, first_byte (cv_from x) = Some b /\ (first <= b)%N).
  { intros x Hx. apply filter_In in Hx. destruct Hx as [_ Hx]. unfold f, opt_lt in Hx.
    destruct (first_byte (cv_from x)) as [b|]; [|discriminate]. exists b. split; [reflexivity|lia]. }
  assert (Mg : forall x y, In x ge -> In y ge -> lex_leb (enc (cv_from x)) (enc (cv_from y)) = true ->
                 g y = true -> g x = true).
  { intros x y Hx Hy H. pose proof (first_byte_mono _ _ H) as M. unfold g, opt_eqb.
    destruct (Hge x Hx) as [bx [Ex Hbx]]. destruct (Hge y Hy) as [by' [Ey Hby]]. rewrite Ex, Ey in *. lia. }
  pose proof (sorted_partitioned _ Hsg Mg) as E2.
  set (run := filter g ge) in *.
  assert (Hrun : forall c, In c run -> first_byte (cv_from c) = Some first).
  { intros c Hc. apply filter_In in Hc. destruct Hc as [_ Hc]. unfold g, opt_eqb in Hc.
    destruct (first_byte (cv_from c)) as [b|]; [|discriminate]. apply N.eqb_eq in Hc. congruence. }
  rewrite E2. rewrite best_match_app.
  - assert (Hin : forall c, In c run -> In c inner).
    { intros c Hc. apply filter_In in Hc. destruct Hc as [Hc _]. apply filter_In in Hc. apply Hc. }
    assert (Hback : forall c, In c inner -> usable c tail -> In c run).
    { intros c Hc Hu. pose proof (usable_first Hu) as Hfb. rewrite Ef in Hfb.
      apply filter_In. split.
      - apply filter_In. split; [exact Hc|]. unfold f, opt_lt. rewrite Hfb. lia.
      - unfold g, opt_eqb. rewrite Hfb. apply N.eqb_refl. }
    pose proof (@best_match_spec first tail run None Ef) as B.
    specialize (B ltac:(discriminate) Hrun).
    destruct (best_match first tail run None) as [b|].
    + destruct B as [[B1|B1] [B2 B3]]; [discriminate|]. split; [apply Hin; exact B1|]. split; [exact B2|].
      intros c Hc Hu. eapply usable_blen; [exact Hu|exact B2|]. apply B3; [right; apply Hback; assumption|exact Hu].
    + intros c Hc Hu. destruct B as [_ B]. apply (B c); [apply Hback; assumption|exact Hu].
  - exact Hrun.
  - destruct (filter (fun x => negb (g x)) ge) as [|c v] eqn:Ev; [exact I|].
    assert (In c (filter (fun x => negb (g x)) ge)) as Hc by (rewrite Ev; left; reflexivity).
    apply filter_In in Hc. destruct Hc as [_ Hc]. intro Q. unfold g, opt_eqb in Hc. rewrite Q, N.eqb_refl in Hc. discriminate.
Qed.

(** ** The conversion loop *)
Lemma convert_loop_spec : forall t, sorted_conv (ct_inner t) ->
  forall fuel tail pre, length tail <= fuel ->
  exists out, convert_loop fuel t (pre ++ tail) (length pre) = Ret (pre ++ out) /\ Converts (ct_inner t) tail out.
Proof.
  intros t Hs. induction fuel as [|fuel IH]; intros tail pre Hf.
  - destruct tail; [|simpl in Hf; lia]. cbn [convert_loop]. rewrite app_nil_r, Nat.ltb_irrefl.
    exists []. rewrite app_nil_r. split; [reflexivity|constructor].
  - destruct tail as [|x w].
    { cbn [convert_loop]. rewrite app_nil_r, Nat.ltb_irrefl. exists []. rewrite app_nil_r.
      split; [reflexivity|constructor]. }
    cbn [convert_loop]. replace (length pre <? length (pre ++ x :: w)) with true
      by (rewrite app_length; simpl; lia).
    rewrite skipn_app_exact by reflexivity.
    pose proof (@match_at_spec t (x :: w) Hs ltac:(discriminate)) as M.
    destruct (match_at t (x :: w)) as [c|].
    + destruct M as [M1 [M2 M3]]. pose proof M2 as [Mne [r [Er _]]].
      rewrite firstn_app_exact by reflexivity. rewrite Er in *.
      replace (length pre + length (cv_from c)) with (length (pre ++ cv_from c)) by apply app_length.
      replace (skipn (length (pre ++ cv_from c)) (pre ++ cv_from c ++ r)) with r
        by (rewrite app_assoc, skipn_app_exact by reflexivity; reflexivity).
      rewrite app_assoc.
      replace (length pre + length (cv_to c)) with (length (pre ++ cv_to c)) by apply app_length.
      destruct (IH r (pre ++ cv_to c)) as [out [E C]].
      { rewrite app_length in Hf. destruct (cv_from c); [contradiction|simpl in Hf; lia]. }
      rewrite E. exists (cv_to c ++ out). rewrite app_assoc. split; [reflexivity|].
      apply Conv_use; assumption.
    + change (pre ++ x :: w) with (pre ++ [x] ++ w). rewrite app_assoc.
      replace (length pre + 1) with (length (pre ++ [x])) by (rewrite app_length; reflexivity).
      destruct (IH w (pre ++ [x])) as [out [E C]]; [simpl in Hf; lia|].
      rewrite E. exists (x :: out). rewrite <- app_assoc. split; [reflexivity|].
      apply Conv_copy; assumption.
Qed.

(** When no entry is usable anywhere the text is unchanged. *)
Lemma Converts_same : forall l w, (forall u v, w = u ++ v -> forall c, In c l -> ~ usable c v) -> Converts l w w.
Proof.
  intros l w. induction w as [|x w IH]; intro H; [constructor|]. apply Conv_copy.
  - apply (H [] (x :: w) eq_refl).
  - apply IH. intros u v E. apply (H (x :: u) v). simpl. congruence.
Qed.

Definition conv_table_ok (t : conv_table) : Prop :=
  sorted_conv (ct_inner t) /\
  Forall (fun c => scalars (cv_from c)) (ct_inner t) /\
  (forall b, (b < 256)%N -> byteset_contains (ct_start t) b = true <->
     exists c, In c (ct_inner t) /\ first_byte (cv_from c) = Some b) /\
  (ct_non_ascii t = true -> forall c, In c (ct_inner t) -> is_ascii (cv_from c) = false).

Theorem convert_spec : forall t w, conv_table_ok t -> scalars w ->
  exists out, convert t w = Ret out /\ Converts (ct_inner t) w out.
Proof.
  intros t w [Hs [Hsc [Hb Hna]]] Hw. unfold convert.
  destruct (ct_inner t) as [|c0 l] eqn:Ei.
  { exists w. split; [reflexivity|]. apply Converts_same. intros u v _ c []. }
  rewrite <- Ei in *. destruct (ct_non_ascii t && is_ascii w) eqn:E1.
  { exists w. split; [reflexivity|]. apply andb_true_iff in E1. destruct E1 as [E1 E2].
    apply Converts_same. intros u v -> c Hc [Hne [r [-> _]]].
    pose proof (Hna E1 c Hc) as Q. unfold is_ascii in *. rewrite !forallb_app in E2.
    apply andb_true_iff in E2. destruct E2 as [_ E2]. apply andb_true_iff in E2. destruct E2 as [E2 _]. congruence. }
  destruct (existsb (byteset_contains (ct_start t)) (enc w)) eqn:E2; cbn [negb].
  - destruct (@convert_loop_spec t Hs (length w) w [] (le_n _)) as [out [E C]].
    exists out. split; [exact E|exact C].
  - exists w. split; [reflexivity|]. apply Converts_same. intros u v Ew c Hc Hu.
    pose proof (usable_first Hu) as Hf. destruct Hu as [Hne [r [Er _]]].
    destruct (first_byte_some Hne) as [b Eb].
    assert (existsb (byteset_contains (ct_start t)) (enc w) = true); [|congruence].
    apply existsb_exists. exists b. split.
    + subst w. rewrite enc_app. apply in_or_app. right. rewrite Er, enc_app. apply in_or_app. left.
      unfold first_byte in Eb. destruct (enc (cv_from c)); [discriminate|]. simpl in Eb. injection Eb as ->. left. reflexivity.
    + apply Hb.
      * rewrite Forall_forall in Hsc. specialize (Hsc c Hc). unfold first_byte in Eb.
        destruct (cv_from c) as [|y s]; [contradiction|]. inversion Hsc as [|? ? Hy _]; subst.
        pose proof (enc1_bytes y Hy) as B. cbn [enc flat_map] in Eb. pose proof (enc1_nonempty y).
        destruct (enc1 y) as [|z q]; [simpl in *; lia|]. simpl in Eb. injection Eb as ->. inversion B; subst. assumption.
      * eauto.
Qed.

Theorem conv_of_sorted_ok : forall pairs inner, Forall (fun p => scalars (fst p)) pairs ->
  Permutation (map conv_entry pairs) inner -> sorted_conv inner ->
  conv_table_ok (conv_of_sorted (map conv_entry pairs) inner).
Proof.
  intros pairs inner Hsc HP HS. set (entries := map conv_entry pairs) in *.
  assert (Hse : Forall (fun c => scalars (cv_from c)) entries).
  { apply Forall_forall. intros c Hc. apply in_map_iff in Hc. destruct Hc as [p [<- Hp]].
    rewrite Forall_forall in Hsc. specialize (Hsc p Hp). unfold conv_entry.
    destruct (strip_suffix [95%N] (fst p)) as [f|] eqn:E; [|exact Hsc]. apply strip_suffix_spec in E.
    rewrite E in Hsc. apply Forall_app in Hsc. apply Hsc. }
  unfold conv_table_ok, conv_of_sorted. cbn [ct_inner ct_start ct_non_ascii].
  split; [|split; [|split]].
  - exact HS.
  - eapply Permutation_Forall; eassumption.
  - intros b Hbb. rewrite byteset_fold by (try reflexivity; assumption). split.
    + intros [H|[c [H1 H2]]].
      * exfalso. unfold byteset_contains, byteset_empty in H. rewrite land_bit in H.
        assert (Z : forall n, nth n [0; 0; 0; 0]%N 0%N = 0%N) by (intros [|[|[|[|[|n]]]]]; reflexivity).
        rewrite Z, N.bits_0 in H. discriminate.
      * exists c. split; [|exact H2]. eapply Permutation_in; eassumption.
    + intros [c [H1 H2]]. right. exists c. split; [|exact H2].
      eapply Permutation_in; [apply Permutation_sym; exact HP|exact H1].
  - intros H c Hc. apply andb_true_iff in H. destruct H as [_ H]. rewrite forallb_forall in H.
    apply H in Hc. destruct (is_ascii (cv_from c)); [discriminate|reflexivity].
Qed.

Theorem conv_from_ok : forall pairs, Forall (fun p => scalars (fst p)) pairs ->
  conv_table_ok (conv_from pairs) /\ Permutation (map conv_entry pairs) (ct_inner (conv_from pairs)).
Proof.
  intros pairs Hsc. unfold conv_from. split; [|apply sort_by_perm].
  apply conv_of_sorted_ok; [exact Hsc|apply sort_by_perm|].
  apply sort_by_sorted; [intros x y; apply lex_leb_total|intros x y z; apply lex_leb_trans].
Qed.

Lemma Converts_incl : forall l l' w out, (forall c, In c l <-> In c l') -> Converts l w out -> Converts l' w out.
Proof.
  intros l l' w out H C. induction C as [|x w out N C IH|c r out I U M C IH].
  - constructor.
  - constructor; [|exact IH]. intros c Hc. apply N, H, Hc.
  - apply Conv_use; [apply H, I|exact U| |exact IH]. intros c' Hc'. apply M, H, Hc'.
Qed.

Lemma Converts_unused : forall l w out, Converts l w out ->
  (forall c u v, In c l -> w = u ++ v -> ~ usable c v) -> out = w.
Proof.
  intros l w out C. induction C as [|x w out N C IH|c r out I U M C IH]; intro H.
  - reflexivity.
  - f_equal. apply IH. intros c u v Hc E. apply (H c (x :: u) v Hc). rewrite E. reflexivity.
  - exfalso. apply (H c [] (cv_from c ++ r) I eq_refl U).
Qed.

(** The result is determined by the table when equal patterns have equal replacements. *)
Theorem Converts_det : forall l w a b,
  (forall c c', In c l -> In c' l -> cv_from c = cv_from c' -> cv_to c = cv_to c') ->
  Converts l w a -> Converts l w b -> a = b.
Proof.
  intros l w a b Hd H. revert b. induction H as [|x w out Hno H IH|c r out Hc Hu Hmax H IH]; intros b Hb.
  - inversion Hb as [|? ? ? ?|c r out Hc Hu ? ? E]; [reflexivity|].
    destruct Hu as [Hne _]. destruct (cv_from c); [contradiction|discriminate].
  - inversion Hb as [|x' w' out' Hno' Hb'|c r out' Hc Hu Hmax Hb' E]; subst.
    + f_equal. apply IH. assumption.
    + exfalso. apply (Hno c Hc). rewrite <- E. exact Hu.
  - remember (cv_from c ++ r) as w eqn:Ew.
    destruct Hb as [|x' w' out' Hno' Hb'|c' r' out' Hc' Hu' Hmax' Hb'].
    + destruct Hu as [Hne _]. symmetry in Ew. apply app_eq_nil in Ew. destruct Ew as [E _]. contradiction.
    + exfalso. apply (Hno' c Hc). exact Hu.
    + assert (length (cv_from c) = length (cv_from c')) as L.
      { apply Nat.le_antisymm; [apply Hmax'|apply Hmax]; assumption. }
      assert (cv_from c' = cv_from c /\ r' = r) as [E1 E2].
      { pose proof (f_equal (firstn (length (cv_from c'))) Ew) as F1.
        pose proof (f_equal (skipn (length (cv_from c'))) Ew) as F2.
        rewrite firstn_app_exact in F1 by reflexivity. rewrite skipn_app_exact in F2 by reflexivity.
        rewrite firstn_app_exact in F1 by congruence. rewrite skipn_app_exact in F2 by congruence. auto. }
      subst r'. rewrite (Hd c c' Hc Hc' (eq_sym E1)). f_equal. apply IH. exact Hb'.
Qed.
