(** Flag sets (src/lib.rs 344-417) and the searches they use
    (src/umbra_slice.rs 170-188, core::slice::binary_search). *)
From Coq Require Import List NArith ZArith Lia Bool Arith Permutation Sorted.
From Coq Require Import ZifyBool ZifyNat ZifyN.
From Verif Require Import Base.
Import ListNotations.

(** A flag is a [NonZeroU16] (lib.rs 344). *)
Notation flag := N (only parsing).
Definition valid_flag (f : flag) : Prop := (0 < f < 65536)%N.

(** A flag set is the sorted slice stored in it (lib.rs 356).  Its compact in-memory
    representation is modelled in Umbra.v. *)
Definition flagset := list flag.

(** [slice::sort_unstable] on flags.  Equal flags are indistinguishable, so the sorted
    result is unique ([sorted_perm_unique] below) and any sorting algorithm models it. *)
Fixpoint insert_flag (x : flag) (l : list flag) : list flag :=
  match l with
  | [] => [x]
  | y :: l' => if (x <=? y)%N then x :: l else y :: insert_flag x l'
  end.
Definition sort_flags (l : list flag) : list flag := fold_right insert_flag [] l.

(** [Vec::dedup]: drops every element equal to its predecessor. *)
Fixpoint dedup_flags (l : list flag) : list flag :=
  match l with
  | [] => []
  | x :: l' =>
      match l' with
      | [] => [x]
      | y :: _ => if (x =? y)%N then dedup_flags l' else x :: dedup_flags l'
      end
  end.

(** [u16::MAX as usize]. *)
Definition u16_max : N := 65535%N.

(** [From<Vec<Flag>> for FlagSet] (lib.rs 358-365); the [assert!] and the [unwrap] of
    [try_from] both check the length. *)
Definition flagset_from (l : list flag) : Res flagset :=
  let s := dedup_flags (sort_flags l) in
  if (N.of_nat (length s) <=? u16_max)%N then Ret s else Panic.

(** [core::slice::binary_search(t).is_ok()]: branch-free halving as in the standard
    library. [size] halves each round; fuel = length is always enough. *)
Fixpoint bsearch_base (fuel : nat) (l : list flag) (x : flag) (base size : nat) : nat :=
  match fuel with
  | O => base
  | S fuel' =>
      if (size <=? 1)%nat then base
      else
        let half := (size / 2)%nat in
        let mid := (base + half)%nat in
        let base' := if (x <? nth mid l 0)%N then base else mid in
        bsearch_base fuel' l x base' (size - half)
  end.
Definition binary_search_ok (l : list flag) (x : flag) : bool :=
  match l with
  | [] => false
  | _ => (nth (bsearch_base (length l) l x 0 (length l)) l 0 =? x)%N
  end.

(** Number of flags stored inline: 3 in the prefix, 4 in the suffix
    (umbra_slice.rs 99-107, 129). *)
Definition flag_inline_len : nat := 7.

(** [UmbraSlice::sorted_contains] / [FlagSet::contains]
    (umbra_slice.rs 176-187, lib.rs 406-410). *)
Definition contains (fs : flagset) (f : flag) : bool :=
  if (length fs <=? flag_inline_len)%nat then memb f fs else binary_search_ok fs f.

(** The [has_flag!] macro (checker.rs 13-20). *)
Definition has_flag (fs : flagset) (f : option flag) : bool :=
  match f with Some f' => contains fs f' | None => false end.

(** [FlagSet::has_intersection] (lib.rs 384-402): simultaneous walk. *)
Fixpoint has_intersection_fuel (n : nat) (xs ys : flagset) : bool :=
  match n with
  | O => false
  | S n' =>
      match xs, ys with
      | x :: xs', y :: ys' =>
          match (x ?= y)%N with
          | Eq => true
          | Gt => has_intersection_fuel n' xs ys'
          | Lt => has_intersection_fuel n' xs' ys
          end
      | _, _ => false
      end
  end.
Definition has_intersection (xs ys : flagset) : bool :=
  has_intersection_fuel (S (length xs + length ys)) xs ys.

(** [FlagSet::with_flag] (lib.rs 412-416). *)
Definition with_flag (fs : flagset) (f : flag) : Res flagset := flagset_from (fs ++ [f]).

(** ** Facts *)

(** Strictly increasing: what every [FlagSet] value satisfies. *)
Definition wf_flagset (fs : flagset) : Prop := StronglySorted N.lt fs.

Lemma insert_flag_perm : forall x l, Permutation (x :: l) (insert_flag x l).
Proof.
  intros x l. induction l as [|y l IH]; simpl; [reflexivity|].
  destruct (x <=? y)%N; [reflexivity|].
  rewrite perm_swap. constructor. exact IH.
Qed.

Lemma sort_flags_perm : forall l, Permutation l (sort_flags l).
Proof.
  induction l as [|x l IH]; simpl; [reflexivity|].
  rewrite <- insert_flag_perm. constructor. exact IH.
Qed.

Lemma insert_flag_sorted : forall x l,
  StronglySorted N.le l -> StronglySorted N.le (insert_flag x l).
Proof.
  intros x l. induction l as [|y l IH]; simpl; intro H.
  - repeat constructor.
  - inversion H as [|? ? H1 H2]; subst. destruct (N.leb_spec x y).
    + constructor; [exact H|]. constructor; [exact H0|].
      eapply Forall_impl; [|exact H2]. intros a Ha. simpl in Ha. lia.
    + constructor; [apply IH; exact H1|].
      eapply Permutation_Forall; [apply insert_flag_perm|].
      constructor; [lia|exact H2].
Qed.

Lemma sort_flags_sorted : forall l, StronglySorted N.le (sort_flags l).
Proof.
  induction l as [|x l IH]; simpl; [constructor|]. apply insert_flag_sorted. exact IH.
Qed.

(** Sorted permutations of the same flags coincide, so modelling [sort_unstable] by
    insertion sort loses nothing. *)
Theorem sorted_perm_unique : forall a b : list flag,
  StronglySorted N.le a -> StronglySorted N.le b -> Permutation a b -> a = b.
Proof.
  induction a as [|x a IH]; intros b Ha Hb HP.
  - apply Permutation_nil in HP. congruence.
  - destruct b as [|y b]; [apply Permutation_sym, Permutation_nil in HP; discriminate|].
    inversion Ha as [|? ? Ha1 Ha2]; subst. inversion Hb as [|? ? Hb1 Hb2]; subst.
    assert (x = y) as ->.
    { assert (In y (x :: a)) as Hy by (rewrite HP; left; reflexivity).
      assert (In x (y :: b)) as Hx by (rewrite <- HP; left; reflexivity).
      destruct Hy as [->|Hy]; [reflexivity|]. destruct Hx as [->|Hx]; [reflexivity|].
      rewrite Forall_forall in Ha2, Hb2. apply Ha2 in Hy. apply Hb2 in Hx. lia. }
    f_equal. apply IH; [assumption|assumption|]. eapply Permutation_cons_inv. exact HP.
Qed.

Lemma dedup_flags_In : forall l x, In x (dedup_flags l) <-> In x l.
Proof.
  induction l as [|a l IH]; intro x; [simpl; tauto|].
  destruct l as [|b l]; [simpl; tauto|].
  change (dedup_flags (a :: b :: l)) with
    (if (a =? b)%N then dedup_flags (b :: l) else a :: dedup_flags (b :: l)).
  destruct (N.eqb_spec a b) as [->|Hne].
  - rewrite IH. simpl. tauto.
  - simpl (In x (a :: _)). rewrite IH. simpl. tauto.
Qed.

Lemma dedup_flags_sorted : forall l, StronglySorted N.le l -> StronglySorted N.lt (dedup_flags l).
Proof.
  induction l as [|a l IH]; intro H; [constructor|].
  inversion H as [|? ? H1 H2]; subst.
  destruct l as [|b l]; [repeat constructor|].
  change (dedup_flags (a :: b :: l)) with
    (if (a =? b)%N then dedup_flags (b :: l) else a :: dedup_flags (b :: l)).
  destruct (N.eqb_spec a b) as [->|Hne]; [apply IH; exact H1|].
  constructor; [apply IH; exact H1|].
  apply Forall_forall. intros x Hx. apply (dedup_flags_In (b :: l)) in Hx.
  inversion H1 as [|? ? H3 H4]; subst. rewrite Forall_forall in H2, H4.
  assert (a <= b)%N by (apply H2; left; reflexivity).
  destruct Hx as [<-|Hx]; [lia|]. apply H4 in Hx. lia.
Qed.

Lemma flagset_from_wf : forall l fs, flagset_from l = Ret fs -> wf_flagset fs.
Proof.
  intros l fs H. unfold flagset_from in H. destruct (_ <=? _)%N; [|discriminate].
  injection H as <-. apply dedup_flags_sorted, sort_flags_sorted.
Qed.

Lemma flagset_from_In : forall l fs x, flagset_from l = Ret fs -> (In x fs <-> In x l).
Proof.
  intros l fs x H. unfold flagset_from in H. destruct (_ <=? _)%N; [|discriminate].
  injection H as <-. rewrite dedup_flags_In. split; apply Permutation_in;
    [symmetry|]; apply sort_flags_perm.
Qed.

Lemma wf_NoDup : forall fs, wf_flagset fs -> NoDup fs.
Proof.
  induction 1 as [|x fs H IH H2]; [constructor|].
  constructor; [|exact IH]. intro Hin. rewrite Forall_forall in H2. apply H2 in Hin. lia.
Qed.

(** The [assert!] in [FlagSet::from] never fires: there are only 65535 non-zero 16-bit
    flags. *)
Lemma sorted_bound : forall fs (lo : N), StronglySorted N.lt fs ->
  Forall (fun f => lo < f < 65536)%N fs -> (N.of_nat (length fs) + lo <= 65535 \/ fs = [])%N.
Proof.
  induction fs as [|x fs IH]; intros lo Hs Hf; [auto|]. left.
  inversion Hs as [|? ? Hs1 Hs2]; subst. inversion Hf as [|? ? Hx Hf']; subst.
  assert (Forall (fun f => x < f < 65536)%N fs) as Hf2.
  { apply Forall_forall. intros y Hy. rewrite Forall_forall in Hs2, Hf'.
    specialize (Hs2 y Hy). specialize (Hf' y Hy). lia. }
  destruct (IH x Hs1 Hf2) as [H| ->]; simpl length; lia.
Qed.

Theorem flagset_from_total : forall l, Forall valid_flag l -> exists fs, flagset_from l = Ret fs.
Proof.
  intros l Hl. unfold flagset_from.
  set (s := dedup_flags (sort_flags l)).
  assert (StronglySorted N.lt s) as Hs by (apply dedup_flags_sorted, sort_flags_sorted).
  assert (Forall (fun f => 0 < f < 65536)%N s) as Hf.
  { apply Forall_forall. intros x Hx. unfold s in Hx. apply (proj1 (dedup_flags_In _ _)) in Hx.
    rewrite Forall_forall in Hl. apply Hl. eapply Permutation_in; [|exact Hx].
    symmetry. apply sort_flags_perm. }
  destruct (sorted_bound s 0 Hs Hf) as [H| H].
  - assert ((N.of_nat (length s) <=? u16_max)%N = true) as ->; [|eauto].
    apply N.leb_le. unfold u16_max. clearbody s. lia.
  - rewrite H. simpl. eauto.
Qed.

(** Binary search. *)
Lemma ss_nth : forall l i j, StronglySorted N.lt l -> i < j -> j < length l ->
  (nth i l 0 < nth j l 0)%N.
Proof.
  induction l as [|x l IH]; intros i j Hs Hij Hj; [simpl in Hj; lia|].
  inversion Hs as [|? ? H1 H2]; subst. destruct j as [|j]; [lia|].
  destruct i as [|i]; simpl.
  - rewrite Forall_forall in H2. apply H2. apply nth_In. simpl in Hj. lia.
  - apply IH; [exact H1|lia|simpl in Hj; lia].
Qed.

(** Loop invariant: if [x] occurs, it occurs within the window. *)
Lemma bsearch_base_correct : forall fuel l x base size,
  StronglySorted N.lt l -> size <= fuel -> 0 < size -> base + size <= length l ->
  (exists k, base <= k < base + size /\ nth k l 0%N = x) ->
  nth (bsearch_base fuel l x base size) l 0%N = x.
Proof.
  induction fuel as [|fuel IH]; intros l x base size Hs Hf Hsz Hlen [k [Hk Hx]]; [lia|].
  cbn [bsearch_base]. destruct (size <=? 1) eqn:E.
  - apply Nat.leb_le in E. assert (k = base) by lia. subst k. exact Hx.
  - apply Nat.leb_gt in E.
    assert (0 < size / 2) as Hh1 by (apply Nat.div_str_pos; lia).
    assert (size / 2 < size) as Hh2 by (apply Nat.div_lt; lia).
    set (half := size / 2) in *. cbv zeta.
    destruct (N.ltb_spec x (nth (base + half) l 0%N)) as [Hlt|Hge].
    + apply IH; try assumption; try lia. exists k. split; [|exact Hx].
      assert (k < base + half).
      { destruct (Nat.lt_ge_cases k (base + half)) as [|Hc]; [assumption|].
        destruct (Nat.eq_dec k (base + half)) as [->|Hn]; [rewrite Hx in Hlt; lia|].
        pose proof (ss_nth l (base + half) k Hs ltac:(lia) ltac:(lia)). lia. }
      assert (2 * half <= size) by (unfold half; apply Nat.mul_div_le; lia).
      lia.
    + apply IH; try assumption; try lia. exists k. split; [|exact Hx].
      assert (base + half <= k); [|lia].
      destruct (Nat.lt_ge_cases k (base + half)) as [Hc|]; [|assumption].
      pose proof (ss_nth l k (base + half) Hs ltac:(lia) ltac:(lia)). lia.
Qed.

Lemma bsearch_base_range : forall fuel l x base size, size <= fuel ->
  0 < size -> base <= bsearch_base fuel l x base size < base + size.
Proof.
  induction fuel as [|fuel IH]; intros l x base size Hf Hsz; cbn [bsearch_base]; [lia|].
  destruct (size <=? 1) eqn:E; [apply Nat.leb_le in E; lia|]. apply Nat.leb_gt in E.
  assert (0 < size / 2) as Hh1 by (apply Nat.div_str_pos; lia).
  assert (size / 2 < size) as Hh2 by (apply Nat.div_lt; lia).
  set (half := size / 2) in *. cbv zeta.
  destruct (x <? nth (base + half) l 0)%N.
  - specialize (IH l x base (size - half) ltac:(lia) ltac:(lia)). lia.
  - specialize (IH l x (base + half) (size - half) ltac:(lia) ltac:(lia)). lia.
Qed.

Lemma binary_search_ok_spec : forall l x, StronglySorted N.lt l ->
  (binary_search_ok l x = true <-> In x l).
Proof.
  intros l x Hs. unfold binary_search_ok. destruct l as [|a l]; [simpl; split; [discriminate|tauto]|].
  set (L := a :: l) in *. split.
  - intro H. apply N.eqb_eq in H. rewrite <- H. apply nth_In.
    pose proof (bsearch_base_range (length L) L x 0 (length L) (le_n _)) as R.
    simpl in *. lia.
  - intro H. apply N.eqb_eq. apply bsearch_base_correct; try assumption; try (simpl; lia).
    destruct (In_nth L x 0%N H) as [k [H1 H2]]. exists k. split; [lia|exact H2].
Qed.

Theorem contains_spec : forall fs f, wf_flagset fs -> (contains fs f = true <-> In f fs).
Proof.
  intros fs f H. unfold contains. destruct (length fs <=? flag_inline_len).
  - apply memb_In.
  - apply binary_search_ok_spec. exact H.
Qed.

(** Membership tests never report an absent flag, sorted or not. *)
Lemma contains_In : forall fs f, contains fs f = true -> In f fs.
Proof.
  intros fs f. unfold contains. destruct (length fs <=? flag_inline_len); [apply memb_In|].
  unfold binary_search_ok. destruct fs as [|a l]; [discriminate|]. set (L := a :: l).
  intro H. apply N.eqb_eq in H. rewrite <- H. apply nth_In.
  pose proof (bsearch_base_range (length L) L f 0 (length L) (le_n _)) as R.
  simpl in *. lia.
Qed.

Lemma has_intersection_fuel_spec : forall n xs ys,
  StronglySorted N.lt xs -> StronglySorted N.lt ys -> length xs + length ys < n ->
  (has_intersection_fuel n xs ys = true <-> exists f, In f xs /\ In f ys).
Proof.
  induction n as [|n IH]; intros xs ys Hx Hy Hn; [lia|]. cbn [has_intersection_fuel].
  destruct xs as [|x xs]; [split; [discriminate|intros [f [[] _]]]|].
  destruct ys as [|y ys]; [split; [discriminate|intros [f [_ []]]]|].
  inversion Hx as [|? ? Hx1 Hx2]; subst. inversion Hy as [|? ? Hy1 Hy2]; subst.
  rewrite Forall_forall in Hx2, Hy2.
  destruct (N.compare_spec x y) as [->|Hlt|Hgt].
  - split; [|reflexivity]. intros _. exists y. simpl. auto.
  - rewrite IH; [|assumption|assumption|simpl in *; lia]. split; intros [f [H1 H2]].
    + exists f. simpl. tauto.
    + exists f. split; [|exact H2]. destruct H1 as [<-|H1]; [|exact H1]. exfalso.
      destruct H2 as [<-|H2]; [lia|]. apply Hy2 in H2. lia.
  - rewrite IH; [|assumption|assumption|simpl in *; lia]. split; intros [f [H1 H2]].
    + exists f. simpl. tauto.
    + exists f. split; [exact H1|]. destruct H2 as [<-|H2]; [|exact H2]. exfalso.
      destruct H1 as [<-|H1]; [lia|]. apply Hx2 in H1. lia.
Qed.

Theorem has_intersection_spec : forall xs ys, wf_flagset xs -> wf_flagset ys ->
  (has_intersection xs ys = true <-> exists f, In f xs /\ In f ys).
Proof.
  intros xs ys Hx Hy. apply has_intersection_fuel_spec; [exact Hx|exact Hy|lia].
Qed.

Theorem with_flag_spec : forall fs f, Forall valid_flag fs -> valid_flag f ->
  exists fs', with_flag fs f = Ret fs' /\ wf_flagset fs' /\
              (forall g, In g fs' <-> g = f \/ In g fs).
Proof.
  intros fs f Hfs Hf. unfold with_flag.
  destruct (flagset_from_total (fs ++ [f])) as [fs' E].
  { apply Forall_app. split; [exact Hfs|]. constructor; [exact Hf|constructor]. }
  exists fs'. split; [exact E|]. split; [eapply flagset_from_wf; exact E|].
  intro g. rewrite (flagset_from_In _ _ g E), in_app_iff. simpl. intuition congruence.
Qed.
