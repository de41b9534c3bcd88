(** Characters and bytes: the string operations of [ByteCompound] on the encoding of a text. *)
From Coq Require Import List NArith ZArith Lia Bool Arith.
From Verif Require Import Base Utf8 Unicode Flags Affix Aff Checker CompoundSpec ByteCompound.
Import ListNotations.
Local Open Scope nat_scope.
Set Implicit Arguments.

(** The byte offset of the [i]th character. *)
Definition boff (w : str) (i : nat) : nat := length (enc (firstn i w)).

Lemma boff_0 : forall w, boff w 0 = 0. Proof. reflexivity. Qed.
Lemma boff_all : forall w, boff w (length w) = length (enc w).
Proof. intro w. unfold boff. rewrite firstn_all. reflexivity. Qed.
Lemma boff_app : forall u v, boff (u ++ v) (length u) = length (enc u).
Proof. intros u v. unfold boff. rewrite firstn_app_exact by reflexivity. reflexivity. Qed.
Lemma boff_split : forall w a b, a <= b -> boff w b = boff w a + length (enc (slice w a b)).
Proof.
  intros w a b H. unfold boff. rewrite (firstn_split w H), enc_app, app_length. reflexivity.
Qed.
Lemma boff_le : forall w a b, a <= b -> boff w a <= boff w b.
Proof. intros w a b H. rewrite (@boff_split w a b H). lia. Qed.
Lemma enc_length : forall w, length w <= length (enc w).
Proof.
  induction w as [|c w IH]; [reflexivity|]. cbn [enc flat_map length]. rewrite app_length.
  pose proof (enc1_nonempty c). fold (enc w). lia.
Qed.
Lemma boff_lt : forall w a b, a < b -> b <= length w -> boff w a < boff w b.
Proof.
  intros w a b H Hb. rewrite (@boff_split w a b) by lia.
  pose proof (enc_length (slice w a b)). rewrite slice_length in H0 by lia. lia.
Qed.
Lemma boff_inj : forall w a b, a <= length w -> b <= length w -> boff w a = boff w b -> a = b.
Proof.
  intros w a b Ha Hb E. destruct (Nat.lt_trichotomy a b) as [H|[H|H]]; [|exact H|];
  [pose proof (@boff_lt w a b H Hb)|pose proof (@boff_lt w b a H Ha)]; lia.
Qed.
Lemma boff_len : forall w i, i <= length w -> boff w i <= length (enc w).
Proof. intros w i H. rewrite <- boff_all. apply boff_le. exact H. Qed.
Lemma boff_skip : forall w s i, boff (skipn s w) i + boff w s = boff w (s + i).
Proof.
  intros w s i. rewrite (@boff_split w s (s + i)) by lia. unfold slice. replace (s + i - s) with i by lia. unfold boff. lia.
Qed.

Lemma firstn_boff : forall w i, firstn (boff w i) (enc w) = enc (firstn i w).
Proof.
  intros w i. rewrite <- (firstn_skipn i w) at 2. rewrite enc_app. apply firstn_app_exact. reflexivity.
Qed.
Lemma skipn_boff : forall w i, skipn (boff w i) (enc w) = enc (skipn i w).
Proof.
  intros w i. rewrite <- (firstn_skipn i w) at 2. rewrite enc_app. apply skipn_app_exact. reflexivity.
Qed.
Lemma slice_boff : forall w a b, a <= b -> slice (enc w) (boff w a) (boff w b) = enc (slice w a b).
Proof.
  intros w a b H. unfold slice at 1. rewrite skipn_boff, (@boff_split w a b H).
  replace (boff w a + length (enc (slice w a b)) - boff w a) with (length (enc (slice w a b))) by lia.
  rewrite <- (firstn_skipn (b - a) (skipn a w)). rewrite enc_app. apply firstn_app_exact. reflexivity.
Qed.
Lemma boundary_boff : forall w i, scalars w -> i <= length w -> boundary (enc w) (boff w i) = true.
Proof.
  intros w i Hw Hi. apply boundary_spec; [exact Hw|apply boff_len; exact Hi|].
  exists (firstn i w), (skipn i w). rewrite firstn_skipn. auto.
Qed.
Lemma cut_boff : forall w a b, scalars w -> a <= b -> b <= length w ->
  b_cut (enc w) (boff w a) (boff w b) = Ret (enc (slice w a b)).
Proof.
  intros w a b Hw Ha Hb. unfold b_cut.
  rewrite (proj2 (Nat.leb_le _ _) (@boff_le w a b Ha)), (proj2 (Nat.leb_le _ _) (@boff_len w b Hb)).
  rewrite !boundary_boff by (assumption || lia). cbn [andb]. rewrite slice_boff by exact Ha. reflexivity.
Qed.
Lemma from_boff : forall w a, scalars w -> a <= length w -> b_from (enc w) (boff w a) = Ret (enc (skipn a w)).
Proof.
  intros w a Hw Ha. unfold b_from. rewrite <- boff_all, cut_boff by (assumption || lia).
  unfold slice. rewrite firstn_all2 by (rewrite skipn_length; lia). reflexivity.
Qed.
Lemma upto_boff : forall w a, scalars w -> a <= length w -> b_cut (enc w) 0 (boff w a) = Ret (enc (firstn a w)).
Proof.
  intros w a Hw Ha. pose proof (@cut_boff w 0 a Hw (Nat.le_0_l _) Ha) as E. rewrite boff_0 in E. rewrite E.
  unfold slice. rewrite Nat.sub_0_r. reflexivity.
Qed.
Lemma text_enc : forall w, scalars w -> b_text (enc w) = Ret w.
Proof. intros w Hw. unfold b_text. rewrite dec_enc by exact Hw. reflexivity. Qed.
Lemma get_from_boff : forall w a, scalars w -> a <= length w -> b_get_from (enc w) (boff w a) = Some (enc (skipn a w)).
Proof.
  intros w a Hw Ha. unfold b_get_from, b_get. pose proof (@from_boff w a Hw Ha) as E. unfold b_from in E. rewrite E. reflexivity.
Qed.
Lemma replace_app : forall u p v r, scalars (u ++ p ++ v) ->
  b_replace (enc (u ++ p ++ v)) (length (enc u)) (length (enc u) + length (enc p)) (enc r) = Ret (enc (u ++ r ++ v)).
Proof.
  intros u p v r H. unfold b_replace. rewrite !enc_app.
  pose proof (@boundary_boff (u ++ p ++ v) (length u) H ltac:(rewrite app_length; lia)) as B1.
  rewrite boff_app, !enc_app in B1. rewrite B1.
  pose proof H as H'. rewrite app_assoc in H'.
  pose proof (@boundary_boff ((u ++ p) ++ v) (length (u ++ p)) H' ltac:(rewrite (app_length (u ++ p)); lia)) as B2.
  rewrite boff_app, !enc_app, app_length, <- app_assoc in B2. rewrite B2.
  rewrite !app_length.
  rewrite (leb_correct (length (enc u)) (length (enc u) + length (enc p))) by lia.
  rewrite (leb_correct (length (enc u) + length (enc p)) (length (enc u) + (length (enc p) + length (enc v)))) by lia.
  cbn [andb].
  rewrite firstn_app_exact by reflexivity. rewrite (app_assoc (enc u) (enc p)), (@skipn_app_exact _ (enc u ++ enc p)) by (rewrite app_length; reflexivity).
  reflexivity.
Qed.
Lemma insert_app : forall u v c, scalars (u ++ v) -> b_insert (enc (u ++ v)) (length (enc u)) c = Ret (enc (u ++ c :: v)).
Proof.
  intros u v c H. unfold b_insert.
  pose proof (@boundary_boff (u ++ v) (length u) H ltac:(rewrite app_length; lia)) as B1.
  rewrite boff_app in B1. rewrite B1. rewrite !enc_app, app_length, (leb_correct (length (enc u)) (length (enc u) + length (enc v))) by lia. cbn [andb].
  rewrite firstn_app_exact, skipn_app_exact by reflexivity. reflexivity.
Qed.

Lemma starts_enc : forall p w, scalars p -> scalars w -> starts_with (enc p) (enc w) = starts_with p w.
Proof.
  intros p w Hp Hw. apply eq_true_iff_eq. rewrite !starts_with_spec. split; intros [r H].
  - destruct (enc_prefix p w r Hp Hw H) as (r' & E & _). eauto.
  - subst w. exists (enc r). apply enc_app.
Qed.
Lemma ends_enc : forall p w, scalars p -> scalars w -> ends_with (enc p) (enc w) = ends_with p w.
Proof.
  intros p w Hp Hw. apply eq_true_iff_eq. rewrite !ends_with_spec. split; intros [r H].
  - destruct (enc_suffix p w r Hp Hw H) as (r' & E & _). eauto.
  - subst w. exists (enc r). apply enc_app.
Qed.
Lemma str_eqb_enc : forall a b, scalars a -> scalars b -> str_eqb (enc a) (enc b) = str_eqb a b.
Proof.
  intros a b Ha Hb. apply eq_true_iff_eq. rewrite !str_eqb_eq. split; [apply enc_inj; assumption|congruence].
Qed.

(** ** The offsets of the characters *)
Lemma indices_cons : forall h t r, cont h = false -> Forall (fun b => cont b = true) t ->
  b_indices ((h :: t) ++ r) = 0 :: map (fun i => i + length (h :: t)) (b_indices r).
Proof.
  intros h t r Hh Ht. unfold b_indices. rewrite app_length, seq_app, filter_app. cbn [Nat.add].
  assert (filter (fun i => negb (cont (nth i ((h :: t) ++ r) 0%N))) (seq 0 (length (h :: t))) = [0]) as E1.
  { cbn [length seq filter app nth]. rewrite Hh. cbn [negb]. f_equal.
    rewrite <- seq_shift.
    assert (forall l : list nat, (forall i, In i l -> i < length t) ->
      filter (fun i => negb (cont (nth i (h :: t ++ r) 0%N))) (map S l) = []) as Q.
    { induction l as [|i l IH]; intro Hl; [reflexivity|]. cbn [map filter nth].
      rewrite app_nth1 by (apply Hl; left; reflexivity).
      rewrite (proj1 (Forall_forall _ _) Ht (nth i t 0%N)) by (apply nth_In, Hl; left; reflexivity).
      cbn [negb]. apply IH. intros j Hj. apply Hl. right. exact Hj. }
    apply Q. intros i Hi. apply in_seq in Hi. lia. }
  rewrite E1. cbn [app]. f_equal.
  assert (forall l : list nat, 
    filter (fun i => negb (cont (nth i ((h :: t) ++ r) 0%N))) (map (fun i => i + length (h :: t)) l) =
    map (fun i => i + length (h :: t)) (filter (fun i => negb (cont (nth i r 0%N))) l)) as Q.
  { induction l as [|i l IH]; [reflexivity|]. cbn [map]. cbn [filter]. rewrite app_nth2 by lia.
    replace (i + length (h :: t) - length (h :: t)) with i by lia.
    destruct (negb (cont (nth i r 0%N))); cbn [map]; rewrite IH; reflexivity. }
  rewrite <- Q. f_equal. generalize (length r) as n. generalize (length (h :: t)) as m.
  clear. intros m n. assert (forall a, seq (a + m) n = map (fun i => i + m) (seq a n)) as Q.
  { induction n as [|n IH]; intro a; [reflexivity|]. cbn [seq map]. f_equal. apply (IH (S a)). }
  apply (Q 0).
Qed.
Lemma indices_enc : forall w, scalars w -> b_indices (enc w) = map (boff w) (seq 0 (length w)).
Proof.
  induction w as [|c w IH]; intro Hw; [reflexivity|]. inversion Hw as [|? ? Hc Hw']; subst.
  destruct (enc1_shape c Hc) as (h & t & E & Hh & Ht).
  cbn [enc flat_map]. fold (enc w). rewrite E, indices_cons by assumption.
  cbn [length seq map]. f_equal. rewrite <- seq_shift, map_map, (IH Hw'), map_map.
  apply map_ext. intro i. unfold boff. change (enc (firstn (S i) (c :: w))) with (enc1 c ++ enc (firstn i w)). rewrite app_length, E. apply Nat.add_comm.
Qed.

Lemma take_while_app : forall p (l r : list nat), (forall x, In x l -> p x = true) ->
  b_take_while p (l ++ r) = l ++ b_take_while p r.
Proof.
  intros p l r H. induction l as [|x l IH]; [reflexivity|]. cbn [app b_take_while].
  rewrite (H x (or_introl eq_refl)), IH by (intros y Hy; apply H; right; exact Hy). reflexivity.
Qed.
Lemma nth_error_map_seq : forall (f : nat -> nat) a n i,
  nth_error (map f (seq a n)) i = if i <? n then Some (f (a + i)) else None.
Proof.
  intros f a n i. destruct (Nat.ltb_spec i n) as [H|H].
  - apply map_nth_error. rewrite (nth_error_nth' _ 0) by (rewrite seq_length; lia). rewrite seq_nth by lia. reflexivity.
  - apply nth_error_None. rewrite map_length, seq_length. exact H.
Qed.
Lemma nth_error_rev : forall A (l : list A) i, i < length l -> nth_error (rev l) i = nth_error l (length l - 1 - i).
Proof.
  intros A l. induction l as [|x l IH] using rev_ind; intros i H; [cbn in H; lia|].
  rewrite rev_app_distr. cbn [rev app]. rewrite app_length in *. cbn [length] in *. destruct i as [|i]; cbn [nth_error].
  - rewrite nth_error_app2 by lia. replace (length l + 1 - 1 - 0 - length l) with 0 by lia. reflexivity.
  - rewrite IH by lia. rewrite nth_error_app1 by lia. f_equal. lia.
Qed.

(** [bytes_within] yields the offsets of the positions of [within]. *)
Lemma within_boff : forall w start margin, scalars w -> start <= length w -> 0 < margin ->
  b_within (enc w) (boff w start) margin = Ret (map (boff w) (within w start margin)).
Proof.
  intros w start margin Hw Hs Hm. unfold b_within, within. rewrite from_boff by assumption. cbn [bindR].
  rewrite indices_enc by (apply scalars_skipn; exact Hw). rewrite nth_error_map_seq, skipn_length. cbn [Nat.add].
  destruct (Nat.ltb_spec (start + margin) (length w)) as [L|L];
    [rewrite (proj2 (Nat.ltb_lt _ _)) by lia|rewrite (proj2 (Nat.ltb_ge _ _)) by lia; reflexivity].
  rewrite boff_skip. set (sb := start + margin) in *.
  assert (FIN : forall e, sb <= e -> e <= length w ->
    (part <- b_cut (enc w) (boff w sb) (boff w e) ;; Ret (map (fun b => b + boff w sb) (b_indices part))) =
    Ret (map (boff w) (seq sb (e - sb)))).
  { intros e H1 H2. rewrite cut_boff by assumption. cbn [bindR]. rewrite indices_enc by (apply scalars_slice; exact Hw).
    rewrite slice_length, map_map by assumption. f_equal.
    assert (forall n a, a + n <= e - sb ->
      map (fun x => boff (slice w sb e) x + boff w sb) (seq a n) = map (boff w) (seq (sb + a) n)) as Q.
    { induction n as [|n IH]; intros a Ha; [reflexivity|]. cbn [seq map]. rewrite IH by lia.
      replace (sb + S a) with (S (sb + a)) by lia. f_equal. rewrite <- boff_skip. f_equal.
      unfold boff, slice. rewrite firstn_firstn, Nat.min_l by lia. reflexivity. }
    rewrite Q by lia. rewrite Nat.add_0_r. reflexivity. }
  destruct (margin =? 1).
  - rewrite <- boff_all. apply FIN; lia.
  - rewrite indices_enc by exact Hw.
    replace (length w) with (sb + (length w - sb)) at 1 by lia. rewrite seq_app, map_app, rev_app_distr. cbn [Nat.add].
    rewrite take_while_app.
    2: { intros x Hx. apply in_rev, in_map_iff in Hx. destruct Hx as (i & <- & Hi). apply in_seq in Hi.
         apply Nat.leb_le, boff_le. lia. }
    assert (b_take_while (fun b => boff w sb <=? b) (rev (map (boff w) (seq 0 sb))) = []) as ->.
    { destruct sb as [|p] eqn:E; [reflexivity|]. rewrite seq_S, map_app, rev_app_distr. cbn [map rev app b_take_while Nat.add].
      rewrite (proj2 (Nat.leb_gt _ _)); [reflexivity|]. apply boff_lt; lia. }
    rewrite app_nil_r.
    destruct (Nat.ltb_spec (margin - 2) (length w - sb)) as [G|G].
    + rewrite nth_error_rev by (rewrite map_length, seq_length; exact G).
      rewrite map_length, seq_length, nth_error_map_seq, (proj2 (Nat.ltb_lt _ _)) by lia.
      replace (sb + (length w - sb - 1 - (margin - 2))) with (length w - 1 - (margin - 2)) by lia.
      apply FIN; lia.
    + rewrite (proj2 (nth_error_None _ _)) by (rewrite rev_length, map_length, seq_length; exact G). reflexivity.
Qed.

Lemma prev_boff : forall w i, scalars w -> i <= length w ->
  b_prev (enc w) (boff w i) = Ret (option_map (fun q => (boff w (fst q), snd q)) (prev_codepoint w i)).
Proof.
  intros w i Hw Hi. unfold b_prev, prev_codepoint. rewrite upto_boff by assumption. cbn [bindR].
  rewrite text_enc by (apply scalars_firstn; exact Hw). cbn [bindR].
  destruct (rev (firstn i w)) as [|c r] eqn:E; [reflexivity|]. cbn [option_map fst snd]. do 3 f_equal.
  apply rev_snoc in E.
  assert (length r < length w) as L.
  { apply (f_equal (@length N)) in E. rewrite app_length, rev_length, firstn_length in E. cbn [length] in E. lia. }
  unfold boff at 1. rewrite E, enc_app, app_length. cbn [enc flat_map]. rewrite app_nil_r.
  assert (boff w (length r) = length (enc (rev r))) as ->; [|lia].
  rewrite <- (firstn_skipn i w), E, <- app_assoc, <- (rev_length r) at 1. apply boff_app.
Qed.

Lemma three_boff : forall w i, scalars w -> i <= length w -> b_three_equal (enc w) (boff w i) = Ret (are_three_chars_equal w i).
Proof.
  intros w i Hw Hi. unfold b_three_equal. rewrite from_boff, upto_boff by assumption. cbn [bindR].
  rewrite !text_enc by (apply scalars_skipn || apply scalars_firstn; exact Hw). reflexivity.
Qed.
Lemma upper_boff : forall U w i, scalars w -> i <= length w ->
  b_uppercase_at U (enc w) (boff w i) = Ret (has_uppercase_at_boundary U w i).
Proof.
  intros U w i Hw Hi. unfold b_uppercase_at. rewrite from_boff, upto_boff by assumption. cbn [bindR].
  rewrite !text_enc by (apply scalars_skipn || apply scalars_firstn; exact Hw). reflexivity.
Qed.
