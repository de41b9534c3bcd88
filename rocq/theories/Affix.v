(** Prefix and suffix rules and the index used to look them up: aff.rs 180-489 and
    539-708. *)
From Coq Require Import List NArith ZArith Lia Bool Arith Permutation Sorted.
From Coq Require Import ZifyBool ZifyNat ZifyN.
From Verif Require Import Base Utf8 Flags Condition.
Import ListNotations.
Set Implicit Arguments.

(** aff.rs 183-205.  [K] is a parameter of the Rust type; here the table a rule sits in
    decides its kind. *)
Record affix := mkAffix {
  a_flag : N;
  a_cross : bool;
  a_strip : option str;
  a_add : str;
  a_cond : option condition;
  a_flags : flagset }.

(** The two [AffixKind]s (aff.rs 249-251). *)
Inductive kind := Pfx | Sfx.

(** [Affix::is_modifying] (aff.rs 243-245). *)
Definition is_modifying (a : affix) : bool :=
  is_someb (a_strip a) || negb (match a_add a with [] => true | _ => false end).

Definition strip_text (a : affix) : str := match a_strip a with Some s => s | None => [] end.

(** [Prefix::to_stem_into] (aff.rs 348-362).  The slice drops [add.len()] bytes, which is
    [length add] characters because [add] is a prefix of the word ([bytes_starts_with]);
    whether the scratch buffer is inline or on the heap (aff.rs 44-61) is not visible. *)
Definition prefix_to_stem (a : affix) (word : str) : str :=
  let stripped := skipn (length (a_add a)) word in
  match a_strip a with Some strip => strip ++ stripped | None => stripped end.

(** [Suffix::to_stem_into] (aff.rs 420-434). *)
Definition suffix_to_stem (a : affix) (word : str) : str :=
  let stripped := firstn (length word - length (a_add a)) word in
  match a_strip a with Some strip => stripped ++ strip | None => stripped end.

(** [Prefix::to_derived] (aff.rs 375-385); the [expect] panics when [strip] is not a prefix. *)
Definition prefix_to_derived (a : affix) (word : str) : Res str :=
  match a_strip a with
  | Some strip => match strip_prefix strip word with
                  | Some stripped => Ret (a_add a ++ stripped)
                  | None => Panic
                  end
  | None => Ret (a_add a ++ word)
  end.

(** [Suffix::to_derived] (aff.rs 447-457). *)
Definition suffix_to_derived (a : affix) (word : str) : Res str :=
  match a_strip a with
  | Some strip => match strip_suffix strip word with
                  | Some stem => Ret (stem ++ a_add a)
                  | None => Panic
                  end
  | None => Ret (word ++ a_add a)
  end.

(** ** The index *)

(** [AffixKind::nth_byte] (aff.rs 283-285, 309-312). *)
Definition nth_byte (k : kind) (bytes : list N) (i : nat) : option N :=
  match k with
  | Pfx => nth_error bytes i
  | Sfx => if (i + 1 <=? length bytes)%nat then nth_error bytes (length bytes - (i + 1)) else None
  end.

(** Lexicographic [Ord] of byte slices, as [a <= b]. *)
Fixpoint lex_leb (a b : list N) : bool :=
  match a, b with
  | [], _ => true
  | _ :: _, [] => false
  | x :: a', y :: b' => if (x <? y)%N then true else if (x =? y)%N then lex_leb a' b' else false
  end.

(** [AffixKind::cmp] (aff.rs 287-289, 314-316) as "not greater". *)
Definition key (k : kind) (a : affix) : list N :=
  match k with Pfx => enc (a_add a) | Sfx => rev (enc (a_add a)) end.
Definition affix_leb (k : kind) (a b : affix) : bool := lex_leb (key k a) (key k b).

(** [sort_unstable_by] (aff.rs 558).  The sort of the model is insertion sort; the facts
    about the index hold for every sorted arrangement of the rules. *)
Fixpoint insert_by {A} (leb : A -> A -> bool) (x : A) (l : list A) : list A :=
  match l with
  | [] => [x]
  | y :: l' => if leb x y then x :: l else y :: insert_by leb x l'
  end.
Definition sort_by {A} (leb : A -> A -> bool) (l : list A) : list A := fold_right (insert_by leb) [] l.

(** [slice::partition_point]: the halving loop of the standard library. *)
Fixpoint pp_base {A} (fuel : nat) (f : A -> bool) (l : list A) (base size : nat) : nat :=
  match fuel with
  | O => base
  | S fuel' =>
      if (size <=? 1)%nat then base
      else
        let half := (size / 2)%nat in
        let mid := (base + half)%nat in
        let base' := match nth_error l mid with
                     | Some x => if f x then mid else base
                     | None => base
                     end in
        pp_base fuel' f l base' (size - half)
  end.
Definition partition_point {A} (f : A -> bool) (l : list A) : nat :=
  match l with
  | [] => 0
  | _ => let b := pp_base (length l) f l 0 (length l) in
         match nth_error l b with
         | Some x => if f x then b + 1 else b
         | None => b
         end
  end.

(** aff.rs 540-545. *)
Record affix_index := mkIndex {
  i_table : list affix;
  i_first_byte : list N;
  i_prefix_idx : list nat;
  i_all_flags : flagset }.

(** [iter().position(|affix| nth_byte(affix, 0).expect(..) > byte)] (aff.rs 575-579). *)
Fixpoint position_gt (k : kind) (byte : N) (l : list affix) : Res (option nat) :=
  match l with
  | [] => Ret None
  | a :: l' =>
      match nth_byte k (enc (a_add a)) 0 with
      | None => Panic
      | Some b => if (byte <? b)%N then Ret (Some 0)
                  else r <- position_gt k byte l' ;; Ret (option_map S r)
      end
  end.

(** The [while] loop (aff.rs 565-583); the last element is pushed at 586. *)
Fixpoint first_bytes (fuel : nat) (k : kind) (table : list affix) (idx : nat)
  : Res (list N * list nat) :=
  if (idx <? length table)%nat then
    match fuel with
    | O => NoFuel
    | S fuel' =>
        match nth_error table idx with
        | None => Panic
        | Some a =>
            match nth_byte k (enc (a_add a)) 0 with
            | None => Panic
            | Some byte =>
                p <- position_gt k byte (skipn idx table) ;;
                match p with
                | None => Ret ([byte], [idx; length table])
                | Some n => r <- first_bytes fuel' k table (idx + n) ;;
                            Ret (byte :: fst r, idx :: snd r)
                end
            end
        end
    end
  else Ret ([], [length table]).

(** Everything in [From<Vec<Affix>>] after the sort (aff.rs 560-599). *)
Definition index_of_sorted (k : kind) (table : list affix) : Res affix_index :=
  let idx := partition_point (fun a => match enc (a_add a) with [] => true | _ => false end) table in
  r <- first_bytes (length table) k table idx ;;
  flags <- flagset_from (flat_map a_flags table) ;;
  Ret (mkIndex table (fst r) (snd r) flags).

Definition index_from (k : kind) (rules : list affix) : Res affix_index :=
  index_of_sorted k (sort_by (affix_leb k) rules).

(** State of [AffixesIter] (aff.rs 627-634): the table slice and [bytes_matched]. *)
Definition iter_state := (list affix * nat)%type.

Fixpoint position_eq (byte : N) (l : list N) : option nat :=
  match l with
  | [] => None
  | b :: l' => if (b =? byte)%N then Some 0 else option_map S (position_eq byte l')
  end.

(** [&table[start..end]]: panics when out of range. *)
Definition slice_checked {A} (l : list A) (a b : nat) : Res (list A) :=
  if (a <=? b)%nat && (b <=? length l)%nat then Ret (slice l a b) else Panic.

(** [Option<u8>] comparison with [Some(byte)]; [None] is smaller than every [Some]. *)
Definition opt_lt (o : option N) (b : N) : bool := match o with None => true | Some x => (x <? b)%N end.
Definition opt_le (o : option N) (b : N) : bool := match o with None => true | Some x => (x <=? b)%N end.

(** The [loop] of [next] (aff.rs 670-706). *)
Fixpoint next_loop (fuel : nat) (k : kind) (word : list N) (st : iter_state)
  : Res (option (affix * iter_state)) :=
  match fst st with
  | [] => Ret None
  | item :: rest =>
      if (length (enc (a_add item)) =? snd st)%nat then Ret (Some (item, (rest, snd st)))
      else
        match nth_byte k word (snd st) with
        | None => Ret None
        | Some byte =>
            let start := partition_point (fun a => opt_lt (nth_byte k (enc (a_add a)) (snd st)) byte) (fst st) in
            let end_ := partition_point (fun a => opt_le (nth_byte k (enc (a_add a)) (snd st)) byte) (fst st) in
            if (start =? end_)%nat then Ret None
            else match fuel with
                 | O => NoFuel
                 | S fuel' =>
                     t <- slice_checked (fst st) start end_ ;;
                     next_loop fuel' k word (t, snd st + 1)
                 end
        end
  end.

(** [AffixesIter::next] (aff.rs 639-707). *)
Definition iter_next (k : kind) (idx : affix_index) (word : list N) (st : iter_state)
  : Res (option (affix * iter_state)) :=
  if (snd st =? 0)%nat then
    match fst st with
    | [] => Ret None
    | item :: rest =>
        match a_add item with
        | [] => Ret (Some (item, (rest, 0)))
        | _ :: _ =>
            match nth_byte k word 0 with
            | None => Ret None
            | Some byte =>
                match position_eq byte (i_first_byte idx) with
                | None => Ret None
                | Some j =>
                    match nth_error (i_prefix_idx idx) 0, nth_error (i_prefix_idx idx) j,
                          nth_error (i_prefix_idx idx) (j + 1) with
                    | Some e, Some a, Some b =>
                        if (e <=? a)%nat && (e <=? b)%nat then
                          t <- slice_checked (fst st) (a - e) (b - e) ;;
                          next_loop (S (length word)) k word (t, 1)
                        else Panic
                    | _, _, _ => Panic
                    end
                end
            end
        end
    end
  else next_loop (S (length word)) k word st.

(** Running the iterator to its end. *)
Fixpoint iter_collect (fuel : nat) (k : kind) (idx : affix_index) (word : list N) (st : iter_state)
  : Res (list affix) :=
  match fuel with
  | O => NoFuel
  | S fuel' =>
      r <- iter_next k idx word st ;;
      match r with
      | None => Ret []
      | Some (item, st') => l <- iter_collect fuel' k idx word st' ;; Ret (item :: l)
      end
  end.

(** [affixes_of(word)] run to its end (aff.rs 604-615). *)
Definition affixes_of_bytes (k : kind) (idx : affix_index) (word : list N) : Res (list affix) :=
  iter_collect (S (length (i_table idx))) k idx word (i_table idx, 0).

Definition affixes_of (k : kind) (idx : affix_index) (word : str) : Res (list affix) :=
  affixes_of_bytes k idx (enc word).

(** ** Facts about sorting and binary search *)
Lemma insert_by_perm : forall A (leb : A -> A -> bool) x l, Permutation (x :: l) (insert_by leb x l).
Proof.
  intros A leb x l. induction l as [|y l IH]; simpl; [reflexivity|].
  destruct (leb x y); [reflexivity|]. rewrite perm_swap. constructor. exact IH.
Qed.

Lemma sort_by_perm : forall A (leb : A -> A -> bool) l, Permutation l (sort_by leb l).
Proof.
  intros A leb l. induction l as [|x l IH]; simpl; [reflexivity|].
  rewrite <- insert_by_perm. constructor. exact IH.
Qed.

Lemma insert_by_sorted : forall A (leb : A -> A -> bool),
  (forall x y, leb x y = true \/ leb y x = true) ->
  (forall x y z, leb x y = true -> leb y z = true -> leb x z = true) ->
  forall x l, StronglySorted (fun a b => leb a b = true) l ->
              StronglySorted (fun a b => leb a b = true) (insert_by leb x l).
Proof.
  intros A leb Htot Htrans x l. induction l as [|y l IH]; simpl; intro H.
  - constructor; [constructor|constructor].
  - inversion H as [|? ? H1 H2]; subst. destruct (leb x y) eqn:E.
    + constructor; [exact H|]. constructor; [exact E|].
      eapply Forall_impl; [|exact H2]. intros z Hz. eapply Htrans; eassumption.
    + assert (leb y x = true) as Hyx by (destruct (Htot x y); congruence).
      constructor; [apply IH; exact H1|]. apply Forall_forall. intros z Hz.
      apply (Permutation_in _ (Permutation_sym (insert_by_perm leb x l))) in Hz.
      destruct Hz as [<-|Hz]; [exact Hyx|]. rewrite Forall_forall in H2. apply H2. exact Hz.
Qed.

Lemma sort_by_sorted : forall A (leb : A -> A -> bool),
  (forall x y, leb x y = true \/ leb y x = true) ->
  (forall x y z, leb x y = true -> leb y z = true -> leb x z = true) ->
  forall l, StronglySorted (fun a b => leb a b = true) (sort_by leb l).
Proof.
  intros A leb Htot Htrans l. induction l as [|x l IH]; simpl; [constructor|].
  apply insert_by_sorted; assumption.
Qed.

Lemma lex_leb_total : forall a b, lex_leb a b = true \/ lex_leb b a = true.
Proof.
  induction a as [|x a IH]; intros [|y b]; simpl; auto.
  destruct (N.ltb_spec x y); [auto|]. destruct (N.eqb_spec x y) as [->|Hne].
  - rewrite N.ltb_irrefl, N.eqb_refl. apply IH.
  - right. destruct (N.ltb_spec y x); [reflexivity|lia].
Qed.

Lemma lex_leb_trans : forall a b c, lex_leb a b = true -> lex_leb b c = true -> lex_leb a c = true.
Proof.
  induction a as [|x a IH]; intros [|y b] [|z c] H1 H2; simpl in *; try congruence.
  destruct (N.ltb_spec x y); destruct (N.ltb_spec y z); destruct (N.ltb_spec x z);
    destruct (N.eqb_spec x y); destruct (N.eqb_spec y z); destruct (N.eqb_spec x z);
    try reflexivity; try discriminate; try lia.
  eapply IH; eassumption.
Qed.

(** [partition_point] on a slice of the form "all true, then all false". *)
Definition partitioned {A} (f : A -> bool) (l : list A) : Prop :=
  exists u v, l = u ++ v /\ (forall x, In x u -> f x = true) /\ (forall x, In x v -> f x = false).

Lemma pp_base_inv : forall A (f : A -> bool) u v,
  (forall x, In x u -> f x = true) -> (forall x, In x v -> f x = false) ->
  forall fuel base size, size <= fuel -> 0 < size ->
  base + size <= length (u ++ v) ->
  (base = 0 \/ base < length u) -> length u <= base + size ->
  let b := pp_base fuel f (u ++ v) base size in
  (b = 0 \/ b < length u) /\ length u <= b + 1 /\ b < length (u ++ v).
Proof.
  intros A f u v Hu Hv. induction fuel as [|fuel IH]; intros base size Hf Hsz Hlen Hb Hend; [lia|].
  cbn [pp_base]. destruct (Nat.leb_spec size 1) as [H1|H1].
  - cbn zeta. split; [exact Hb|]. split; lia.
  - assert (0 < size / 2) as Hh1 by (apply Nat.div_str_pos; lia).
    assert (size / 2 < size) as Hh2 by (apply Nat.div_lt; lia).
    destruct (nth_error (u ++ v) (base + size / 2)) as [x|] eqn:E.
    2:{ apply nth_error_None in E. lia. }
    destruct (Nat.ltb_spec (base + size / 2) (length u)) as [Hlt|Hge].
    + rewrite nth_error_app1 in E by exact Hlt. rewrite (Hu x (nth_error_In _ _ E)).
      apply IH; lia.
    + rewrite nth_error_app2 in E by exact Hge. rewrite (Hv x (nth_error_In _ _ E)).
      apply IH; lia.
Qed.

Theorem partition_point_app : forall A (f : A -> bool) u v,
  (forall x, In x u -> f x = true) -> (forall x, In x v -> f x = false) ->
  partition_point f (u ++ v) = length u.
Proof.
  intros A f u v Hu Hv. unfold partition_point. destruct (u ++ v) as [|z l] eqn:E.
  - apply app_eq_nil in E. destruct E as [-> ->]. reflexivity.
  - rewrite <- E. assert (0 < length (u ++ v)) as Hpos by (rewrite E; simpl; lia).
    pose proof (@pp_base_inv _ f u v Hu Hv (length (u ++ v)) 0 (length (u ++ v))) as P.
    cbn zeta in P. destruct P as [P1 [P2 P3]]; try lia; [rewrite app_length; lia|].
    set (b := pp_base (length (u ++ v)) f (u ++ v) 0 (length (u ++ v))) in *. clearbody b.
    destruct (nth_error (u ++ v) b) as [x|] eqn:Ex; [|apply nth_error_None in Ex; lia].
    destruct (Nat.ltb_spec b (length u)) as [Hlt|Hge].
    + rewrite nth_error_app1 in Ex by exact Hlt. rewrite (Hu x (nth_error_In _ _ Ex)). lia.
    + rewrite nth_error_app2 in Ex by exact Hge. rewrite (Hv x (nth_error_In _ _ Ex)). lia.
Qed.

(** A list sorted by [R] on which [f] can only switch from true to false. *)
Lemma sorted_partitioned : forall A (R : A -> A -> Prop) (f : A -> bool) l,
  StronglySorted R l -> (forall x y, In x l -> In y l -> R x y -> f y = true -> f x = true) ->
  l = filter f l ++ filter (fun x => negb (f x)) l.
Proof.
  intros A R f l H. induction H as [|x l H IH H2]; intro Hm; [reflexivity|].
  assert (l = filter f l ++ filter (fun x => negb (f x)) l) as E.
  { apply IH. intros a b Ha Hb. apply Hm; right; assumption. }
  cbn [filter]. destruct (f x) eqn:Ex; cbn [negb app].
  - rewrite <- E. reflexivity.
  - assert (filter f l = []) as ->.
    { destruct (filter f l) as [|y r] eqn:Ef; [reflexivity|].
      assert (In y (filter f l)) as Hy by (rewrite Ef; left; reflexivity).
      apply filter_In in Hy. destruct Hy as [Hy1 Hy2].
      rewrite Forall_forall in H2. rewrite (Hm x y) in Ex; try congruence.
      - left; reflexivity.
      - right; exact Hy1.
      - apply H2. exact Hy1. }
    cbn [app]. f_equal. clear -E Ex H2 Hm.
    assert (forall y, In y l -> f y = false) as Hall.
    { intros y Hy. destruct (f y) eqn:Ey; [|reflexivity]. rewrite Forall_forall in H2.
      rewrite (Hm x y) in Ex; try congruence; [left; reflexivity|right; exact Hy|apply H2; exact Hy]. }
    clear -Hall. induction l as [|y l IH]; [reflexivity|]. cbn [filter].
    rewrite (Hall y (or_introl eq_refl)). cbn [negb]. f_equal. apply IH.
    intros z Hz. apply Hall. right. exact Hz.
Qed.

Lemma partition_point_sorted : forall A (R : A -> A -> Prop) (f : A -> bool) l,
  StronglySorted R l -> (forall x y, In x l -> In y l -> R x y -> f y = true -> f x = true) ->
  partition_point f l = length (filter f l).
Proof.
  intros A R f l Hs Hm. rewrite (sorted_partitioned _ Hs Hm) at 1.
  apply partition_point_app; intros x Hx; apply filter_In in Hx; destruct Hx as [_ Hx];
    [exact Hx|destruct (f x); [discriminate|reflexivity]].
Qed.

(** ** The key order *)
Lemma nth_byte_key : forall k a i, nth_byte k (enc (a_add a)) i = nth_error (key k a) i.
Proof.
  intros [|] a i; [reflexivity|]. unfold nth_byte, key. set (l := enc (a_add a)).
  destruct (Nat.leb_spec (i + 1) (length l)) as [H|H].
  - replace (length l - (i + 1)) with (length l - S i) by lia.
    assert (i < length l) as Hi by lia. clear H.
    rewrite <- (rev_involutive l) at 1. set (r := rev l).
    assert (length l = length r) as El by (unfold r; rewrite rev_length; reflexivity).
    rewrite El in *. clearbody r.
    destruct (nth_error r i) as [x|] eqn:E; [|apply nth_error_None in E; lia].
    apply nth_error_split in E. destruct E as [u [v [-> Hu]]].
    rewrite rev_app_distr. cbn [rev]. rewrite <- app_assoc. cbn [app].
    rewrite nth_error_app2; rewrite rev_length, app_length in *; cbn [length] in *; [|lia].
    replace (length u + S (length v) - S i - length v) with 0 by lia. reflexivity.
  - symmetry. apply nth_error_None. rewrite rev_length. lia.
Qed.

Lemma key_length : forall k a, length (key k a) = length (enc (a_add a)).
Proof. intros [|] a; [reflexivity|]. apply rev_length. Qed.

(** The word's bytes in comparison order. *)
Definition wkey (k : kind) (w : list N) : list N := match k with Pfx => w | Sfx => rev w end.

Lemma nth_byte_wkey : forall k w i, nth_byte k w i = nth_error (wkey k w) i.
Proof.
  intros [|] w i; [reflexivity|]. unfold nth_byte, wkey.
  destruct (Nat.leb_spec (i + 1) (length w)) as [H|H].
  - replace (length w - (i + 1)) with (length w - S i) by lia.
    assert (i < length w) as Hi by lia. clear H.
    rewrite <- (rev_involutive w) at 1. set (r := rev w).
    assert (length w = length r) as El by (unfold r; rewrite rev_length; reflexivity).
    rewrite El in *. clearbody r.
    destruct (nth_error r i) as [x|] eqn:E; [|apply nth_error_None in E; lia].
    apply nth_error_split in E. destruct E as [u [v [-> Hu]]].
    rewrite rev_app_distr. cbn [rev]. rewrite <- app_assoc. cbn [app].
    rewrite nth_error_app2; rewrite rev_length, app_length in *; cbn [length] in *; [|lia].
    replace (length u + S (length v) - S i - length v) with 0 by lia. reflexivity.
  - symmetry. apply nth_error_None. rewrite rev_length. lia.
Qed.

Definition sorted_by_key (k : kind) (l : list affix) : Prop :=
  StronglySorted (fun a b => lex_leb (key k a) (key k b) = true) l.

Lemma lex_same_prefix : forall p a b, lex_leb (p ++ a) (p ++ b) = lex_leb a b.
Proof.
  induction p as [|x p IH]; intros a b; [reflexivity|]. cbn [app lex_leb].
  rewrite N.ltb_irrefl, N.eqb_refl. apply IH.
Qed.

(** Byte [m] is monotone among keys that share their first [m] bytes. *)
Lemma lex_nth_mono : forall p a b, lex_leb (p ++ a) (p ++ b) = true ->
  match nth_error a 0, nth_error b 0 with
  | None, _ => True
  | Some _, None => False
  | Some x, Some y => (x <= y)%N
  end.
Proof.
  intros p a b H. rewrite lex_same_prefix in H. destruct a as [|x a], b as [|y b]; simpl in *; try exact I.
  - discriminate.
  - destruct (N.ltb_spec x y); [lia|]. destruct (N.eqb_spec x y); [lia|discriminate].
Qed.

(** ** The loop phase of the iterator *)
Definition shares (k : kind) (w : list N) (m : nat) (a : affix) : Prop :=
  exists r, key k a = firstn m (wkey k w) ++ r.

Definition is_prefix_of (p w : list N) : bool :=
  match strip_prefix p w with Some _ => true | None => false end.

Lemma nth_shares : forall k w m a r, m <= length (wkey k w) ->
  key k a = firstn m (wkey k w) ++ r -> nth_error (key k a) m = nth_error r 0.
Proof.
  intros k w m a r Hm E. rewrite E. rewrite nth_error_app2; rewrite firstn_length, Nat.min_l by exact Hm; [|lia].
  rewrite Nat.sub_diag. reflexivity.
Qed.

Lemma filter_filter_imp : forall A (f g : A -> bool) l,
  (forall x, In x l -> f x = true -> g x = true) -> filter f (filter g l) = filter f l.
Proof.
  intros A f g l. induction l as [|x l IH]; intro H; [reflexivity|]. cbn [filter].
  destruct (g x) eqn:Eg; cbn [filter].
  - destruct (f x); [f_equal|]; apply IH; intros y Hy; apply H; right; exact Hy.
  - destruct (f x) eqn:Ef; [rewrite (H x (or_introl eq_refl) Ef) in Eg; discriminate|].
    apply IH; intros y Hy; apply H; right; exact Hy.
Qed.

Lemma filter_none : forall A (f : A -> bool) l, (forall x, In x l -> f x = false) -> filter f l = [].
Proof.
  intros A f l. induction l as [|x l IH]; intro H; [reflexivity|]. cbn [filter].
  rewrite (H x (or_introl eq_refl)). apply IH. intros y Hy. apply H. right. exact Hy.
Qed.

Lemma filter_all : forall A (f : A -> bool) l, (forall x, In x l -> f x = true) -> filter f l = l.
Proof.
  intros A f l. induction l as [|x l IH]; intro H; [reflexivity|]. cbn [filter].
  rewrite (H x (or_introl eq_refl)). f_equal. apply IH. intros y Hy. apply H. right. exact Hy.
Qed.

Lemma filter_ext_in' : forall A (f g : A -> bool) l, (forall x, In x l -> f x = g x) -> filter f l = filter g l.
Proof.
  intros A f g l. induction l as [|x l IH]; intro H; [reflexivity|]. cbn [filter].
  rewrite (H x (or_introl eq_refl)). destruct (g x); [f_equal|]; apply IH; intros y Hy; apply H; right; exact Hy.
Qed.

Lemma StronglySorted_filter : forall A (R : A -> A -> Prop) f l,
  StronglySorted R l -> StronglySorted R (filter f l).
Proof.
  intros A R f l H. induction H as [|x l H IH H2]; [constructor|]. cbn [filter].
  destruct (f x); [|exact IH]. constructor; [exact IH|]. apply Forall_forall. intros y Hy.
  apply filter_In in Hy. rewrite Forall_forall in H2. apply H2. apply Hy.
Qed.

Lemma filter_length_le' : forall A (f : A -> bool) l, length (filter f l) <= length l.
Proof. intros A f l. induction l as [|x l IH]; simpl; [lia|]. destruct (f x); simpl; lia. Qed.

(** Narrowing to the rules whose byte [m] is [byte]. *)
Lemma slice_equal_range : forall A (R : A -> A -> Prop) (g : A -> option N) (byte : N) l,
  StronglySorted R l ->
  (forall x y, In x l -> In y l -> R x y ->
     match g x, g y with None, _ => True | Some _, None => False | Some a, Some b => (a <= b)%N end) ->
  let start := partition_point (fun a => opt_lt (g a) byte) l in
  let end_ := partition_point (fun a => opt_le (g a) byte) l in
  start <= end_ /\ end_ <= length l /\
  slice l start end_ = filter (fun a => match g a with Some b => (b =? byte)%N | None => false end) l.
Proof.
  intros A R g byte l Hs Hm. cbn zeta.
  assert (M1 : forall x y, In x l -> In y l -> R x y -> opt_lt (g y) byte = true -> opt_lt (g x) byte = true).
  { intros x y Hx Hy Hr. specialize (Hm x y Hx Hy Hr). unfold opt_lt.
    destruct (g x), (g y); try reflexivity; try contradiction. lia. }
  assert (M2 : forall x y, In x l -> In y l -> R x y -> opt_le (g y) byte = true -> opt_le (g x) byte = true).
  { intros x y Hx Hy Hr. specialize (Hm x y Hx Hy Hr). unfold opt_le.
    destruct (g x), (g y); try reflexivity; try contradiction. lia. }
  rewrite (partition_point_sorted _ Hs M1), (partition_point_sorted _ Hs M2).
  pose proof (sorted_partitioned _ Hs M2) as E2.
  assert (Hs2 : StronglySorted R (filter (fun a => opt_le (g a) byte) l)) by (apply StronglySorted_filter; exact Hs).
  assert (E1 : filter (fun a => opt_le (g a) byte) l =
               filter (fun a => opt_lt (g a) byte) l ++
               filter (fun a => match g a with Some b => (b =? byte)%N | None => false end) l).
  { rewrite (@sorted_partitioned _ R (fun a => opt_lt (g a) byte) _ Hs2) at 1.
    - f_equal.
      + apply filter_filter_imp. intros x _. unfold opt_lt, opt_le. destruct (g x); [lia|reflexivity].
      + clear. induction l as [|x l IH]; [reflexivity|]. cbn [filter]. unfold opt_le, opt_lt in *.
        destruct (g x) as [b|] eqn:Eg; cbn [filter]; rewrite ?Eg; cbn [negb]; [|exact IH].
        destruct (N.leb_spec b byte); cbn [filter]; rewrite ?Eg.
        * destruct (N.ltb_spec b byte); cbn [negb].
          -- destruct (N.eqb_spec b byte); [lia|exact IH].
          -- destruct (N.eqb_spec b byte); [f_equal; exact IH|lia].
        * destruct (N.eqb_spec b byte); [lia|exact IH].
    - intros x y Hx Hy Hr Hf. apply filter_In in Hx, Hy. eapply M1; [apply Hx|apply Hy|exact Hr|exact Hf]. }
  split; [rewrite E1, app_length; lia|]. split; [apply filter_length_le'|].
  rewrite E2 at 1. rewrite E1. unfold slice. rewrite <- app_assoc, skipn_app_exact by reflexivity.
  apply firstn_app_exact. rewrite app_length. lia.
Qed.

Lemma is_prefix_of_spec : forall p w, is_prefix_of p w = true <-> exists r, w = p ++ r.
Proof. apply starts_with_spec. Qed.

Lemma prefix_nth : forall p w m, is_prefix_of p w = true -> m < length p -> nth_error p m = nth_error w m.
Proof.
  intros p w m H Hm. apply is_prefix_of_spec in H. destruct H as [r ->].
  symmetry. apply nth_error_app1. exact Hm.
Qed.

Definition hits (k : kind) (w : list N) (a : affix) : bool := is_prefix_of (key k a) (wkey k w).

(** One call of the loop yields the first remaining hit and leaves a state from which
    exactly the later hits are found. *)
Lemma next_loop_spec : forall fuel k w table m,
  length (wkey k w) - m < fuel -> m <= length (wkey k w) -> sorted_by_key k table ->
  Forall (shares k w m) table ->
  exists o, next_loop fuel k w (table, m) = Ret o /\
    match o with
    | None => filter (hits k w) table = []
    | Some (item, (table', m')) =>
        filter (hits k w) table = item :: filter (hits k w) table' /\
        m <= m' /\ (m' = 0 -> m = 0) /\ m' <= length (wkey k w) /\ sorted_by_key k table' /\
        Forall (shares k w m') table' /\ length table' < length table
    end.
Proof.
  induction fuel as [|fuel IH]; intros k w table m Hf Hm Hs Hsh; [lia|].
  cbn [next_loop fst snd]. destruct table as [|item rest].
  { exists None. auto. }
  inversion Hs as [|? ? Hs1 Hs2]; subst. inversion Hsh as [|? ? Hi Hr]; subst.
  destruct (Nat.eqb_spec (length (enc (a_add item))) m) as [El|Nl].
  - exists (Some (item, (rest, m))). split; [reflexivity|]. cbn [filter].
    assert (hits k w item = true) as ->.
    { destruct Hi as [r Er]. unfold hits. apply is_prefix_of_spec.
      exists (skipn m (wkey k w)). assert (r = []) as ->.
      { pose proof (f_equal (@length _) Er) as L. rewrite key_length, app_length, firstn_length in L.
        destruct r; [reflexivity|simpl in L; lia]. }
      rewrite Er, app_nil_r. symmetry. apply firstn_skipn. }
    repeat split; auto.
  - (* every remaining key is longer than [m] *)
    assert (Hlong : forall a, In a (item :: rest) -> exists x r, key k a = firstn m (wkey k w) ++ x :: r).
    { assert (exists x r, key k item = firstn m (wkey k w) ++ x :: r) as [x0 [r0 E0]].
      { destruct Hi as [r Er]. destruct r as [|x r]; [|eauto].
        exfalso. pose proof (f_equal (@length _) Er) as L.
        rewrite key_length, app_length, firstn_length in L. simpl in L. lia. }
      intros a [<-|Ha]; [eauto|].
      rewrite Forall_forall in Hr, Hs2. destruct (Hr a Ha) as [r Er]. specialize (Hs2 a Ha). simpl in Hs2.
      rewrite E0, Er, lex_same_prefix in Hs2. destruct r as [|x r]; [discriminate|eauto]. }
    rewrite nth_byte_wkey. destruct (nth_error (wkey k w) m) as [byte|] eqn:Eb.
    2:{ exists None. split; [reflexivity|]. apply filter_none. intros a Ha.
        destruct (Hlong a Ha) as [x [r Er]]. unfold hits.
        destruct (is_prefix_of (key k a) (wkey k w)) eqn:Ep; [|reflexivity].
        apply is_prefix_of_spec in Ep. destruct Ep as [q Eq]. apply nth_error_None in Eb.
        pose proof (f_equal (@length _) Eq) as L. rewrite Er, !app_length, firstn_length in L. simpl in L. lia. }
    set (g := fun a => nth_byte k (enc (a_add a)) m).
    pose proof (@slice_equal_range affix _ g byte (item :: rest) Hs) as SE.
    assert (SEm : forall x y, In x (item :: rest) -> In y (item :: rest) ->
              lex_leb (key k x) (key k y) = true ->
              match g x, g y with None, _ => True | Some _, None => False | Some a, Some b => (a <= b)%N end).
    { intros x y Hx Hy Hle. unfold g. rewrite !nth_byte_key.
      destruct (Hlong x Hx) as [x1 [r1 E1]]. destruct (Hlong y Hy) as [x2 [r2 E2]].
      rewrite (@nth_shares _ _ _ _ _ Hm E1), (@nth_shares _ _ _ _ _ Hm E2). rewrite E1, E2 in Hle.
      apply (@lex_nth_mono _ _ _ Hle). }
    specialize (SE SEm). cbn zeta in SE. clear SEm.
    change (fun a : affix => opt_lt (g a) byte) with (fun a => opt_lt (nth_byte k (enc (a_add a)) m) byte) in SE.
    change (fun a : affix => opt_le (g a) byte) with (fun a => opt_le (nth_byte k (enc (a_add a)) m) byte) in SE.
    set (start := partition_point (fun a => opt_lt (nth_byte k (enc (a_add a)) m) byte) (item :: rest)) in *.
    set (end_ := partition_point (fun a => opt_le (nth_byte k (enc (a_add a)) m) byte) (item :: rest)) in *.
    destruct SE as [SE1 [SE2 SE3]].
    assert (Hfil : filter (hits k w) (slice (item :: rest) start end_) = filter (hits k w) (item :: rest)).
    { rewrite SE3. apply filter_filter_imp. intros a Ha Hh. unfold g. rewrite nth_byte_key.
      destruct (Hlong a Ha) as [x [r Er]].
      rewrite (@prefix_nth _ _ _ Hh) by (rewrite Er, app_length, firstn_length; simpl; lia).
      rewrite Eb. apply N.eqb_refl. }
    destruct (Nat.eqb_spec start end_) as [Ese|Nse].
    { exists None. split; [reflexivity|]. rewrite <- Hfil. unfold slice.
      rewrite Ese, Nat.sub_diag. reflexivity. }
    unfold slice_checked. replace ((start <=? end_) && (end_ <=? length (item :: rest))) with true by lia.
    cbn [bindR]. set (t := slice (item :: rest) start end_) in *.
    assert (length t <= length (item :: rest)) as Hlt.
    { rewrite SE3. apply filter_length_le'. }
    assert (m < length (wkey k w)) as Hmw by (apply nth_error_Some; congruence).
    destruct (IH k w t (m + 1)) as [o [Eo Ho]].
    + lia.
    + lia.
    + rewrite SE3. apply StronglySorted_filter. exact Hs.
    + rewrite SE3. apply Forall_forall. intros a Ha. apply filter_In in Ha. destruct Ha as [Ha1 Ha2].
      unfold g in Ha2. rewrite nth_byte_key in Ha2. destruct (Hlong a Ha1) as [x [r Er]].
      rewrite (@nth_shares _ _ _ _ _ Hm Er) in Ha2. cbn [nth_error] in Ha2. apply N.eqb_eq in Ha2. subst x.
      exists r. rewrite Nat.add_1_r, (@firstn_S_nth_error _ _ _ _ Eb), <- app_assoc. exact Er.
    + exists o. split; [exact Eo|]. rewrite <- Hfil. destruct o as [[it [t' m']]|]; [|exact Ho].
      destruct Ho as [H1 [H2 [H3 [H4 [H5 [H6 H7]]]]]]. repeat split; try assumption; try lia.
Qed.

(** Collecting in the loop phase. *)
Lemma iter_collect_loop : forall fuel k idx w table m,
  length table < fuel -> 0 < m -> m <= length (wkey k w) -> sorted_by_key k table ->
  Forall (shares k w m) table ->
  iter_collect fuel k idx w (table, m) = Ret (filter (hits k w) table).
Proof.
  induction fuel as [|fuel IH]; intros k idx w table m Hf Hm0 Hm Hs Hsh; [lia|].
  cbn [iter_collect]. unfold iter_next. cbn [snd fst]. destruct (Nat.eqb_spec m 0); [lia|].
  assert (Hwl : length (wkey k w) = length w) by (destruct k; [reflexivity|apply rev_length]).
  destruct (@next_loop_spec (S (length w)) k w table m) as [o [E Ho]]; try assumption; [lia|].
  rewrite E. cbn [bindR]. destruct o as [[item [t' m']]|]; [|rewrite Ho; reflexivity].
  destruct Ho as [H1 [H2 [H3 [H4 [H5 [H6 H7]]]]]].
  rewrite IH; try assumption; try lia. cbn [bindR]. rewrite H1. reflexivity.
Qed.

(** ** Building the first-byte index *)
Definition first_of (k : kind) (a : affix) : option N := nth_byte k (enc (a_add a)) 0.

Definition idx_ok (k : kind) (table : list affix) (idx : nat) (fb : list N) (ix : list nat) : Prop :=
  length ix = length fb + 1 /\ nth_error ix 0 = Some idx /\
  (forall a, In a (skipn idx table) -> exists b, first_of k a = Some b /\ In b fb) /\
  (forall j b, nth_error fb j = Some b ->
     exists s e, nth_error ix j = Some s /\ nth_error ix (j + 1) = Some e /\ idx <= s /\ s <= e /\
       e <= length table /\
       slice table s e = filter (fun a => match first_of k a with Some c => (c =? b)%N | None => false end)
                           (skipn idx table)).

Lemma position_gt_spec : forall k byte l,
  (forall a, In a l -> exists b, first_of k a = Some b) ->
  exists r, position_gt k byte l = Ret r /\
    match r with
    | None => forall a b, In a l -> first_of k a = Some b -> (b <= byte)%N
    | Some n => n < length l /\ (forall a b, In a (firstn n l) -> first_of k a = Some b -> (b <= byte)%N) /\
                (exists a b, nth_error l n = Some a /\ first_of k a = Some b /\ (byte < b)%N)
    end.
Proof.
  intros k byte l. induction l as [|a l IH]; intro H; cbn [position_gt].
  - exists None. split; [reflexivity|]. intros a b [].
  - destruct (H a (or_introl eq_refl)) as [b Eb]. unfold first_of in Eb. rewrite Eb.
    destruct (N.ltb_spec byte b) as [Hlt|Hge].
    + exists (Some 0). split; [reflexivity|]. split; [simpl; lia|]. split; [intros ? ? []|].
      exists a, b. auto.
    + destruct IH as [r [Er Hr]]; [intros; apply H; right; assumption|]. rewrite Er. cbn [bindR].
      exists (option_map S r). split; [reflexivity|]. destruct r as [n|]; cbn [option_map].
      * destruct Hr as [H1 [H2 H3]]. split; [simpl; lia|]. split.
        -- intros a' b' Ha' Hb'. cbn [firstn] in Ha'. destruct Ha' as [<-|Ha'].
           ++ unfold first_of in Hb'. rewrite Eb in Hb'. injection Hb' as <-. exact Hge.
           ++ eapply H2; eassumption.
        -- exact H3.
      * intros a' b' [<-|Ha'] Hb'.
        -- unfold first_of in Hb'. rewrite Eb in Hb'. injection Hb' as <-. exact Hge.
        -- eapply Hr; eassumption.
Qed.

Lemma sorted_first_mono : forall k x y, lex_leb (key k x) (key k y) = true ->
  forall a b, first_of k x = Some a -> first_of k y = Some b -> (a <= b)%N.
Proof.
  intros k x y H a b Ha Hb. unfold first_of in *. rewrite nth_byte_key in Ha, Hb.
  pose proof (@lex_nth_mono [] _ _ H) as M. cbn [app] in M. rewrite Ha, Hb in M. exact M.
Qed.

Lemma StronglySorted_skipn : forall A (R : A -> A -> Prop) n l, StronglySorted R l -> StronglySorted R (skipn n l).
Proof.
  intros A R n. induction n as [|n IH]; intros l H; [exact H|].
  destruct l as [|x l]; [exact H|]. inversion H; subst. apply IH. assumption.
Qed.

Lemma SS_app_le : forall A (R : A -> A -> Prop) u v, StronglySorted R (u ++ v) ->
  forall x y, In x u -> In y v -> R x y.
Proof.
  intros A R u v. induction u as [|z u IH]; intros H x y Hx Hy; [destruct Hx|].
  cbn [app] in H. inversion H as [|? ? H1 H2]; subst. destruct Hx as [<-|Hx].
  - rewrite Forall_forall in H2. apply H2. apply in_or_app. right. exact Hy.
  - apply IH; assumption.
Qed.

Lemma first_bytes_spec : forall fuel k table idx,
  sorted_by_key k table -> idx <= length table -> length table - idx <= fuel ->
  (forall a, In a (skipn idx table) -> exists b, first_of k a = Some b) ->
  exists fb ix, first_bytes fuel k table idx = Ret (fb, ix) /\ idx_ok k table idx fb ix.
Proof.
  induction fuel as [|fuel IH]; intros k table idx Hs Hidx Hf Hne.
  - assert (idx = length table) as -> by lia. cbn [first_bytes]. rewrite Nat.ltb_irrefl.
    exists [], [length table]. split; [reflexivity|]. repeat split; try reflexivity.
    + intros a Ha. rewrite skipn_all in Ha. destruct Ha.
    + intros j b Hj. destruct j; discriminate.
  - cbn [first_bytes]. destruct (Nat.ltb_spec idx (length table)) as [Hlt|Hge].
    2:{ assert (idx = length table) as -> by lia.
        exists [], [length table]. split; [reflexivity|]. repeat split; try reflexivity.
        + intros a Ha. rewrite skipn_all in Ha. destruct Ha.
        + intros j b Hj. destruct j; discriminate. }
    destruct (nth_error table idx) as [a0|] eqn:E0; [|apply nth_error_None in E0; lia].
    pose proof (@skipn_nth_error _ _ _ _ E0) as Esk.
    destruct (Hne a0) as [byte Eb]; [rewrite Esk; left; reflexivity|].
    unfold first_of in Eb. rewrite Eb. fold (first_of k a0) in Eb.
    destruct (@position_gt_spec k byte (skipn idx table) Hne) as [r [Er Hr]]. rewrite Er. cbn [bindR].
    assert (Hs' : sorted_by_key k (skipn idx table)) by (apply StronglySorted_skipn; exact Hs).
    assert (Hge0 : forall a b, In a (skipn idx table) -> first_of k a = Some b -> (byte <= b)%N).
    { intros a b Ha Hb. rewrite Esk in Ha, Hs'. destruct Ha as [<-|Ha].
      - rewrite Eb in Hb. injection Hb as <-. lia.
      - inversion Hs' as [|? ? _ H2]; subst. rewrite Forall_forall in H2.
        eapply sorted_first_mono; [apply H2; exact Ha|exact Eb|exact Hb]. }
    destruct r as [n|].
    + destruct Hr as [Hn [Hle [a1 [b1 [Ea1 [Eb1 Hb1]]]]]].
      assert (0 < n) as Hn0.
      { destruct n as [|n]; [|lia]. rewrite Esk in Ea1. cbn [nth_error] in Ea1. injection Ea1 as <-.
        rewrite Eb in Eb1. injection Eb1 as <-. lia. }
      rewrite skipn_length in Hn.
      assert (Hsplit : skipn idx table = firstn n (skipn idx table) ++ skipn (idx + n) table).
      { rewrite <- skipn_skipn'. symmetry. apply firstn_skipn. }
      destruct (IH k table (idx + n)) as [fb [ix [E [I1 [I2 [I3 I4]]]]]]; try assumption; try lia.
      { intros a Ha. apply Hne. rewrite Hsplit. apply in_or_app. right. exact Ha. }
      rewrite E. cbn [bindR fst snd].
      assert (Hgt : forall a b, In a (skipn (idx + n) table) -> first_of k a = Some b -> (byte < b)%N).
      { intros a b Ha Hb. rewrite <- skipn_skipn' in Ha. rewrite (@skipn_nth_error _ _ _ _ Ea1) in Ha.
        destruct Ha as [<-|Ha]; [rewrite Eb1 in Hb; injection Hb as <-; exact Hb1|].
        assert (lex_leb (key k a1) (key k a) = true) as Hk.
        { assert (sorted_by_key k (skipn n (skipn idx table))) as Q by (apply StronglySorted_skipn; exact Hs').
          rewrite (@skipn_nth_error _ _ _ _ Ea1) in Q. inversion Q as [|? ? _ Q2]; subst.
          rewrite Forall_forall in Q2. apply Q2. exact Ha. }
        pose proof (@sorted_first_mono k _ _ Hk _ _ Eb1 Hb). lia. }
      exists (byte :: fb), (idx :: ix). split; [reflexivity|]. repeat split.
      * cbn [length]. lia.
      * intros a Ha. rewrite Hsplit in Ha. apply in_app_or in Ha. destruct Ha as [Ha|Ha].
        -- destruct (Hne a) as [b Hb]; [rewrite Hsplit; apply in_or_app; left; exact Ha|].
           exists b. split; [exact Hb|]. left. pose proof (Hle a b Ha Hb).
           pose proof (Hge0 a b). rewrite Hsplit in H0. specialize (H0 (in_or_app _ _ _ (or_introl Ha)) Hb). lia.
        -- destruct (I3 a Ha) as [b [Hb1' Hb2]]. exists b. split; [exact Hb1'|]. right. exact Hb2.
      * intros j b Hj. destruct j as [|j].
        -- cbn [nth_error] in Hj. injection Hj as <-. exists idx, (idx + n).
           split; [reflexivity|]. split; [exact I2|]. split; [lia|]. split; [lia|]. split; [lia|].
           rewrite Hsplit, filter_app.
           rewrite (@filter_none _ _ (skipn (idx + n) table)).
           2:{ intros a Ha. destruct (first_of k a) as [c|] eqn:Ec; [|reflexivity].
               pose proof (Hgt a c Ha Ec). lia. }
           rewrite app_nil_r, filter_all.
           ++ unfold slice. f_equal. lia.
           ++ intros a Ha. assert (In a (skipn idx table)) as Ha' by (rewrite Hsplit; apply in_or_app; left; exact Ha).
              destruct (Hne a Ha') as [c Ec]. rewrite Ec.
              pose proof (Hle a c Ha Ec). pose proof (Hge0 a c Ha' Ec). lia.
        -- cbn [nth_error] in Hj. destruct (I4 j b Hj) as [s [e [J1 [J2 [J3 [J4 [J5 J6]]]]]]].
           exists s, e. repeat split; try assumption; try lia. rewrite J6, Hsplit, filter_app.
           rewrite (@filter_none _ _ (firstn n (skipn idx table))); [reflexivity|].
           intros a Ha. destruct (first_of k a) as [c|] eqn:Ec; [|reflexivity].
           pose proof (Hle a c Ha Ec) as L1.
           assert (byte < b)%N as L2.
           { assert (In b fb) as Hin by (eapply nth_error_In; exact Hj).
             (* some rule of the rest starts with [b] or the slice is empty *)
             clear -I4 Hj Hgt J1 J2 J3 J4 J5 J6 E IH Hin.
             assert (forall fuel k table idx fb ix, first_bytes fuel k table idx = Ret (fb, ix) ->
                       forall b, In b fb -> exists a, In a (skipn idx table) /\ first_of k a = Some b) as FB.
             { clear. induction fuel as [|fuel IH]; intros k table idx fb ix H b Hb; cbn [first_bytes] in H.
               - destruct (idx <? length table); [discriminate|]. injection H as <- <-. destruct Hb.
               - destruct (idx <? length table); [|injection H as <- <-; destruct Hb].
                 destruct (nth_error table idx) as [a|] eqn:Ea; [|discriminate].
                 destruct (nth_byte k (enc (a_add a)) 0) as [byte|] eqn:Eb; [|discriminate].
                 destruct (position_gt k byte (skipn idx table)) as [[n|]| |] eqn:Ep; try discriminate;
                   cbn [bindR] in H.
                 + destruct (first_bytes fuel k table (idx + n)) as [[fb' ix']| |] eqn:Ef; try discriminate.
                   cbn [bindR fst snd] in H. injection H as <- <-. destruct Hb as [<-|Hb].
                   * exists a. rewrite (@skipn_nth_error _ _ _ _ Ea). split; [left; reflexivity|exact Eb].
                   * destruct (IH _ _ _ _ _ Ef b Hb) as [a' [Ha1 Ha2]]. exists a'. split; [|exact Ha2].
                     rewrite <- skipn_skipn' in Ha1.
                     rewrite <- (firstn_skipn n (skipn idx table)). apply in_or_app. right. exact Ha1.
                 + injection H as <- <-. destruct Hb as [<-|[]].
                   exists a. rewrite (@skipn_nth_error _ _ _ _ Ea). split; [left; reflexivity|exact Eb]. }
             destruct (FB _ _ _ _ _ _ E b Hin) as [a [Ha1 Ha2]]. eapply Hgt; eassumption. }
           lia.
    + exists [byte], [idx; length table]. split; [reflexivity|]. repeat split.
      * intros a Ha. destruct (Hne a Ha) as [b Hb]. exists b. split; [exact Hb|]. left.
        pose proof (Hr a b Ha Hb). pose proof (Hge0 a b Ha Hb). lia.
      * intros j b Hj. destruct j as [|j]; [|destruct j; discriminate].
        cbn [nth_error] in Hj. injection Hj as <-. exists idx, (length table).
        repeat split; try lia. rewrite filter_all.
        -- unfold slice. apply firstn_all2. rewrite skipn_length. lia.
        -- intros a Ha. destruct (Hne a Ha) as [b Hb]. rewrite Hb.
           pose proof (Hr a b Ha Hb). pose proof (Hge0 a b Ha Hb). lia.
Qed.

(** ** The whole lookup *)
Definition add_empty (a : affix) : bool := match enc (a_add a) with [] => true | _ => false end.

Lemma enc_nil : forall s, enc s = [] <-> s = [].
Proof.
  intros [|c s]; [tauto|]. split; [|discriminate]. cbn [enc flat_map]. intro H.
  apply app_eq_nil in H. destruct H as [H _]. pose proof (enc1_nonempty c). rewrite H in *. simpl in *. lia.
Qed.

Lemma key_nil : forall k a, key k a = [] <-> a_add a = [].
Proof.
  intros k a. rewrite <- enc_nil. destruct k; simpl; [tauto|]. split; intro H.
  - rewrite <- (rev_involutive (enc (a_add a))), H. reflexivity.
  - rewrite H. reflexivity.
Qed.

Lemma add_empty_mono : forall k x y, lex_leb (key k x) (key k y) = true -> add_empty y = true -> add_empty x = true.
Proof.
  intros k x y H Hy. unfold add_empty in *.
  assert (key k y = []) as Ky by (apply key_nil; apply enc_nil; destruct (enc (a_add y)); congruence).
  rewrite Ky in H. assert (key k x = []) as Kx by (destruct (key k x); [reflexivity|discriminate]).
  apply key_nil in Kx. rewrite Kx. reflexivity.
Qed.

Theorem index_of_sorted_total : forall k table, sorted_by_key k table ->
  Forall (fun a => Forall valid_flag (a_flags a)) table ->
  exists idx, index_of_sorted k table = Ret idx /\ i_table idx = table /\
    idx_ok k table (length (filter add_empty table)) (i_first_byte idx) (i_prefix_idx idx) /\
    wf_flagset (i_all_flags idx) /\
    (forall f, In f (i_all_flags idx) <-> exists a, In a table /\ In f (a_flags a)).
Proof.
  intros k table Hs Hf. unfold index_of_sorted.
  change (fun a : affix => match enc (a_add a) with [] => true | _ => false end) with add_empty.
  assert (M : forall x y, In x table -> In y table -> lex_leb (key k x) (key k y) = true ->
                add_empty y = true -> add_empty x = true).
  { intros x y _ _. apply add_empty_mono. }
  rewrite (partition_point_sorted _ Hs M).
  pose proof (sorted_partitioned _ Hs M) as Esp.
  destruct (@first_bytes_spec (length table) k table (length (filter add_empty table))) as [fb [ix [E I]]].
  - exact Hs.
  - apply filter_length_le'.
  - lia.
  - intros a Ha. rewrite Esp in Ha at 2. rewrite skipn_app_exact in Ha by reflexivity.
    apply filter_In in Ha. destruct Ha as [_ Ha]. unfold first_of. rewrite nth_byte_key.
    destruct (key k a) as [|b r] eqn:Ek; [|exists b; reflexivity].
    apply key_nil in Ek. unfold add_empty in Ha. rewrite Ek in Ha. discriminate.
  - rewrite E. cbn [bindR fst snd].
    destruct (@flagset_from_total (flat_map a_flags table)) as [fs Efs].
    { apply Forall_forall. intros f Hin. apply in_flat_map in Hin. destruct Hin as [a [Ha1 Ha2]].
      rewrite Forall_forall in Hf. specialize (Hf a Ha1). rewrite Forall_forall in Hf. apply Hf. exact Ha2. }
    rewrite Efs. cbn [bindR]. eexists. split; [reflexivity|]. cbn [i_table i_first_byte i_prefix_idx i_all_flags].
    split; [reflexivity|]. split; [exact I|]. split; [eapply flagset_from_wf; exact Efs|].
    intro f. rewrite (@flagset_from_In _ _ f Efs), in_flat_map. tauto.
Qed.

Lemma position_eq_spec : forall byte l,
  match position_eq byte l with
  | Some j => nth_error l j = Some byte
  | None => ~ In byte l
  end.
Proof.
  intros byte l. induction l as [|b l IH]; cbn [position_eq]; [intros []|].
  destruct (N.eqb_spec b byte) as [->|Hne]; [reflexivity|].
  destruct (position_eq byte l); cbn [option_map]; [exact IH|].
  intros [H|H]; [contradiction|apply IH; exact H].
Qed.

(** Collecting from a state that still holds rules with empty [add]. *)
Lemma iter_collect_start : forall k idx w rest fb ix,
  let table := i_table idx in
  sorted_by_key k table -> i_first_byte idx = fb -> i_prefix_idx idx = ix ->
  idx_ok k table (length (filter add_empty table)) fb ix ->
  forall fuel empties,
  (forall a, In a empties -> a_add a = []) ->
  skipn (length (filter add_empty table)) table = rest ->
  length empties + length rest < fuel ->
  iter_collect fuel k idx w (empties ++ rest, 0) = Ret (empties ++ filter (hits k w) rest).
Proof.
  intros k idx w rest fb ix table Hs Hfb Hix [I1 [I2 [I3 I4]]].
  assert (Hwl : length (wkey k w) = length w) by (destruct k; [reflexivity|apply rev_length]).
  induction fuel as [|fuel IH]; intros empties He Hr Hf; [lia|].
  destruct empties as [|e empties].
  - cbn [app iter_collect]. unfold iter_next. cbn [snd fst]. change (0 =? 0) with true. cbv iota.
    destruct rest as [|item rest']; [reflexivity|].
    assert (Hrest : forall a, In a (item :: rest') -> exists b, first_of k a = Some b /\ In b fb).
    { intros a Ha. apply I3. rewrite Hr. exact Ha. }
    destruct (a_add item) as [|c0 s0] eqn:Eadd.
    { exfalso. destruct (Hrest item (or_introl eq_refl)) as [b [Hb _]]. unfold first_of in Hb.
      rewrite nth_byte_key in Hb. assert (key k item = []) as Kn by (apply key_nil; exact Eadd).
      rewrite Kn in Hb. discriminate. }
    assert (Hkey : forall a, In a (item :: rest') -> exists b r, key k a = b :: r /\ In b fb).
    { intros a Ha. destruct (Hrest a Ha) as [b [Hb1 Hb2]]. unfold first_of in Hb1. rewrite nth_byte_key in Hb1.
      destruct (key k a) as [|b' r]; [discriminate|]. cbn [nth_error] in Hb1. injection Hb1 as ->. eauto. }
    rewrite nth_byte_wkey. destruct (wkey k w) as [|byte wr] eqn:Ew.
    { cbn [nth_error bindR]. rewrite filter_none; [reflexivity|]. intros a Ha.
      destruct (Hkey a Ha) as [b [r [Ek _]]]. unfold hits. rewrite Ek, Ew. reflexivity. }
    change (nth_error (byte :: wr) 0) with (Some byte). cbv iota. rewrite Hfb. pose proof (position_eq_spec byte fb) as Hp.
    destruct (position_eq byte fb) as [j|].
    2:{ cbn [bindR]. rewrite filter_none; [reflexivity|]. intros a Ha.
        destruct (Hkey a Ha) as [b [r [Ek Hb]]]. unfold hits. rewrite Ek, Ew. unfold is_prefix_of.
        cbn [strip_prefix]. destruct (N.eqb_spec b byte) as [->|]; [contradiction|reflexivity]. }
    rewrite Hix, I2. destruct (I4 j byte Hp) as [s [e [J1 [J2 [J3 [J4 [J5 J6]]]]]]].
    rewrite J1, J2. replace ((_ <=? s) && (_ <=? e)) with true by lia.
    unfold slice_checked.
    set (eo := length (filter add_empty table)) in *.
    assert (Hlen : length (item :: rest') = length table - eo) by (rewrite <- Hr; apply skipn_length).
    replace ((s - eo <=? e - eo) && (e - eo <=? length (item :: rest'))) with true by lia.
    cbn [bindR].
    assert (Esl : slice (item :: rest') (s - eo) (e - eo) =
                  filter (fun a => match first_of k a with Some c => (c =? byte)%N | None => false end) (item :: rest')).
    { rewrite <- Hr. rewrite <- J6. unfold slice. rewrite skipn_skipn'. f_equal; [lia|]. f_equal. lia. }
    assert (Hfilt : filter (hits k w) (slice (item :: rest') (s - eo) (e - eo)) = filter (hits k w) (item :: rest')).
    { rewrite Esl. apply filter_filter_imp. intros a Ha Hh. destruct (Hkey a Ha) as [b [r [Ek _]]].
      unfold first_of. rewrite nth_byte_key, Ek. cbn [nth_error]. unfold hits in Hh. rewrite Ek, Ew in Hh.
      unfold is_prefix_of in Hh. cbn [strip_prefix] in Hh. destruct (b =? byte)%N; [reflexivity|discriminate]. }
    assert (Hsr : sorted_by_key k (item :: rest')).
    { rewrite <- Hr. apply StronglySorted_skipn. exact Hs. }
    destruct (@next_loop_spec (S (length w)) k w (slice (item :: rest') (s - eo) (e - eo)) 1) as [o [Eo Ho]].
    + rewrite Ew. lia.
    + rewrite Ew. simpl. lia.
    + rewrite Esl. apply StronglySorted_filter. exact Hsr.
    + rewrite Esl. apply Forall_forall. intros a Ha. apply filter_In in Ha. destruct Ha as [Ha1 Ha2].
      unfold first_of in Ha2. rewrite nth_byte_key in Ha2. destruct (Hkey a Ha1) as [b [r [Ek _]]].
      rewrite Ek in Ha2. cbn [nth_error] in Ha2. apply N.eqb_eq in Ha2. subst b.
      exists r. rewrite Ew. exact Ek.
    + rewrite Eo. cbn [bindR]. rewrite Hfilt in Ho. destruct o as [[it [t' m']]|]; [|rewrite Ho; reflexivity].
      destruct Ho as [H1 [H2 [H3 [H4 [H5 [H6 H7]]]]]].
      rewrite iter_collect_loop; try assumption; try lia.
      * cbn [bindR]. rewrite H1. reflexivity.
      * rewrite Esl in H7. pose proof (filter_length_le' (fun a => match first_of k a with Some c => (c =? byte)%N | None => false end) (item :: rest')). lia.
  - cbn [app iter_collect]. unfold iter_next. cbn [snd fst]. change (0 =? 0) with true. cbv iota.
    rewrite (He e (or_introl eq_refl)). cbn [bindR]. rewrite IH.
    + reflexivity.
    + intros a Ha. apply He. right. exact Ha.
    + exact Hr.
    + cbn [length] in Hf. lia.
Qed.

(** The rule's text matches the word. *)
Definition applies (k : kind) (a : affix) (w : str) : bool :=
  match k with Pfx => starts_with (a_add a) w | Sfx => ends_with (a_add a) w end.

Lemma hits_applies : forall k a w, scalars (a_add a) -> scalars w -> hits k (enc w) a = applies k a w.
Proof.
  intros k a w Ha Hw. apply eq_true_iff_eq. unfold hits. rewrite is_prefix_of_spec. unfold applies, key, wkey.
  destruct k.
  - rewrite starts_with_spec. split.
    + intros [r E]. destruct (@enc_prefix _ _ _ Ha Hw E) as [r' [E' _]]. eauto.
    + intros [r ->]. exists (enc r). apply enc_app.
  - rewrite ends_with_spec. split.
    + intros [r E]. assert (enc w = rev r ++ enc (a_add a)) as E2.
      { rewrite <- (rev_involutive (enc w)), E, rev_app_distr, rev_involutive. reflexivity. }
      destruct (@enc_suffix _ _ _ Ha Hw E2) as [r' [E' _]]. eauto.
    + intros [r ->]. exists (rev (enc r)). rewrite enc_app, rev_app_distr. reflexivity.
Qed.

Definition index_wf (k : kind) (idx : affix_index) : Prop :=
  sorted_by_key k (i_table idx) /\
  idx_ok k (i_table idx) (length (filter add_empty (i_table idx))) (i_first_byte idx) (i_prefix_idx idx) /\
  Forall (fun a => scalars (a_add a)) (i_table idx) /\
  wf_flagset (i_all_flags idx) /\
  (forall f, In f (i_all_flags idx) <-> exists a, In a (i_table idx) /\ In f (a_flags a)).

Theorem affixes_of_spec : forall k idx w, index_wf k idx -> scalars w ->
  affixes_of k idx w = Ret (filter (fun a => applies k a w) (i_table idx)).
Proof.
  intros k idx w [Hs [Hok [Hsc _]]] Hw. unfold affixes_of, affixes_of_bytes.
  assert (M : forall x y, In x (i_table idx) -> In y (i_table idx) -> lex_leb (key k x) (key k y) = true ->
                add_empty y = true -> add_empty x = true).
  { intros x y _ _. apply add_empty_mono. }
  pose proof (sorted_partitioned _ Hs M) as Esp.
  set (emp := filter add_empty (i_table idx)) in *.
  set (ne := filter (fun x => negb (add_empty x)) (i_table idx)) in *.
  assert (He : forall a, In a emp -> a_add a = []).
  { intros a Ha. apply filter_In in Ha. destruct Ha as [_ Ha]. apply enc_nil. unfold add_empty in Ha.
    destruct (enc (a_add a)); [reflexivity|discriminate]. }
  rewrite Esp at 2. rewrite (@iter_collect_start k idx (enc w) ne _ _ Hs eq_refl eq_refl Hok); try assumption.
  - f_equal. rewrite Esp at 1. rewrite filter_app. f_equal.
    + symmetry. apply filter_all. intros a Ha. unfold applies. rewrite (He a Ha).
      destruct k; [apply (@starts_with_app [])|]. apply ends_with_spec. exists w. rewrite app_nil_r. reflexivity.
    + apply filter_ext_in'. intros a Ha. apply hits_applies; [|exact Hw].
      rewrite Forall_forall in Hsc. apply Hsc. apply filter_In in Ha. apply Ha.
  - rewrite Esp at 2. apply skipn_app_exact. reflexivity.
  - rewrite Esp at 1. rewrite app_length. lia.
Qed.

Theorem index_from_spec : forall k rules,
  Forall (fun a => Forall valid_flag (a_flags a)) rules -> Forall (fun a => scalars (a_add a)) rules ->
  exists idx, index_from k rules = Ret idx /\ Permutation rules (i_table idx) /\ index_wf k idx.
Proof.
  intros k rules Hf Hsc. unfold index_from. set (table := sort_by (affix_leb k) rules).
  assert (Hp : Permutation rules table) by apply sort_by_perm.
  assert (Hs : sorted_by_key k table).
  { apply sort_by_sorted.
    - intros x y. apply lex_leb_total.
    - intros x y z. apply lex_leb_trans. }
  destruct (@index_of_sorted_total k table Hs) as [idx [E [E1 [E2 [E3 E4]]]]].
  - eapply Permutation_Forall; eassumption.
  - exists idx. split; [exact E|]. rewrite E1. split; [exact Hp|]. unfold index_wf. rewrite E1.
    repeat split; try assumption; try apply E2; try apply E4.
    eapply Permutation_Forall; eassumption.
Qed.

(** ** C09: stripping and deriving are inverse *)
Lemma prefix_strip_derive : forall a stem word,
  prefix_to_derived a stem = Ret word ->
  starts_with (a_add a) word = true /\ prefix_to_stem a word = stem.
Proof.
  intros a stem word H. unfold prefix_to_derived, prefix_to_stem in *.
  destruct (a_strip a) as [s|].
  - destruct (strip_prefix s stem) as [r|] eqn:E; [|discriminate]. injection H as <-.
    apply strip_prefix_spec in E. subst stem. split; [apply starts_with_app|].
    rewrite skipn_app_exact by reflexivity. reflexivity.
  - injection H as <-. split; [apply starts_with_app|]. apply skipn_app_exact. reflexivity.
Qed.

Lemma prefix_derive_strip : forall a word, starts_with (a_add a) word = true ->
  prefix_to_derived a (prefix_to_stem a word) = Ret word.
Proof.
  intros a word H. apply starts_with_spec in H. destruct H as [r ->].
  unfold prefix_to_derived, prefix_to_stem. rewrite skipn_app_exact by reflexivity.
  destruct (a_strip a) as [s|]; [|reflexivity].
  replace (strip_prefix s (s ++ r)) with (Some r); [reflexivity|]. symmetry. apply strip_prefix_spec. reflexivity.
Qed.

Lemma prefix_derived_total : forall a stem, (exists w, prefix_to_derived a stem = Ret w) <-> starts_with (strip_text a) stem = true.
Proof.
  intros a stem. unfold prefix_to_derived, strip_text, starts_with. destruct (a_strip a) as [s|].
  - destruct (strip_prefix s stem); split; eauto; intros; try discriminate. destruct H as [w H]. discriminate.
  - split; eauto.
Qed.

Lemma suffix_strip_derive : forall a stem word,
  suffix_to_derived a stem = Ret word ->
  ends_with (a_add a) word = true /\ suffix_to_stem a word = stem.
Proof.
  intros a stem word H. unfold suffix_to_derived, suffix_to_stem in *.
  destruct (a_strip a) as [s|].
  - destruct (strip_suffix s stem) as [r|] eqn:E; [|discriminate]. injection H as <-.
    apply strip_suffix_spec in E. subst stem. split; [apply ends_with_app|].
    rewrite firstn_app_exact by (rewrite app_length; lia). reflexivity.
  - injection H as <-. split; [apply ends_with_app|]. apply firstn_app_exact. rewrite app_length. lia.
Qed.

Lemma suffix_derive_strip : forall a word, ends_with (a_add a) word = true ->
  suffix_to_derived a (suffix_to_stem a word) = Ret word.
Proof.
  intros a word H. apply ends_with_spec in H. destruct H as [r ->].
  unfold suffix_to_derived, suffix_to_stem. rewrite firstn_app_exact by (rewrite app_length; lia).
  destruct (a_strip a) as [s|]; [|reflexivity].
  replace (strip_suffix s (r ++ s)) with (Some r); [reflexivity|]. symmetry. apply strip_suffix_spec. reflexivity.
Qed.

Lemma suffix_derived_total : forall a stem, (exists w, suffix_to_derived a stem = Ret w) <-> ends_with (strip_text a) stem = true.
Proof.
  intros a stem. unfold suffix_to_derived, strip_text, ends_with. destruct (a_strip a) as [s|].
  - destruct (strip_suffix s stem); split; eauto; intros; try discriminate. destruct H as [w H]. discriminate.
  - split; eauto.
Qed.
