(** Properties C32 and C35: the in-place edits of a string's bytes, and the similarity measures
    by which n-gram suggestions are ranked. *)
From Coq Require Import String Ascii List NArith ZArith Lia Bool Arith Permutation.
From Verif Require Import Base Utf8 Unicode Aff Parser BufferOps Ngram NgramMeasures Examples.
Import ListNotations.
Local Open Scope string_scope.
Local Open Scope list_scope.
Local Open Scope nat_scope.
Set Implicit Arguments.

(** ** C32 *)

(** The bytes of a [String] that reads [w]: [String]'s own invariant, see C26. *)
Definition reads (bytes : list N) (w : str) : Prop := dec bytes = Some w.
(** The byte index of what follows [u]. *)
Notation after u := (length (enc u)).

Lemma reads_enc : forall bytes w, reads bytes w -> bytes = enc w /\ scalars w.
Proof. intros bytes w H. apply dec_spec in H. exact H. Qed.
Lemma reads_of : forall w, scalars w -> reads (enc w) w.
Proof. intros w H. apply dec_enc. exact H. Qed.
Lemma scalars_perm : forall a b : str, Permutation a b -> scalars a -> scalars b.
Proof.
  intros a b P H. apply Forall_forall. intros x I. apply (proj1 (Forall_forall _ _) H).
  exact (Permutation_in x (Permutation_sym P) I).
Qed.

(** Two neighbours are exchanged, the index of the second is returned, and the same call with
    the characters exchanged undoes it. *)
Theorem C32_swap_adjacent : forall dbg bytes u a b v, reads bytes (u ++ a :: b :: v) ->
  exists bytes', swap_adjacent_chars dbg bytes (after u) a b = Ret (bytes', after (u ++ [b])) /\
    reads bytes' (u ++ b :: a :: v) /\ length bytes' = length bytes /\
    swap_adjacent_chars dbg bytes' (after u) b a = Ret (bytes, after (u ++ [a])).
Proof.
  intros dbg bytes u a b v R. apply reads_enc in R. destruct R as [-> W].
  assert (W' : scalars (u ++ b :: a :: v)).
  { eapply scalars_perm; [|exact W]. apply Permutation_app_head. apply perm_swap. }
  exists (enc (u ++ b :: a :: v)). split; [apply swap_adjacent_spec; exact W|]. split; [apply reads_of; exact W'|].
  split; [|apply swap_adjacent_spec; exact W'].
  rewrite !enc_app, !enc_cons, !app_length. lia.
Qed.

(** Two characters at a distance are exchanged; calling again with the returned index undoes
    it. *)
Theorem C32_swap_distant : forall dbg bytes u a m b v, reads bytes (u ++ a :: m ++ b :: v) ->
  exists bytes' i, swap_distant_chars dbg bytes (after u) a (after (u ++ a :: m)) b = Ret (bytes', i) /\
    reads bytes' (u ++ b :: m ++ a :: v) /\ i = after (u ++ b :: m) /\ length bytes' = length bytes /\
    swap_distant_chars dbg bytes' (after u) b i a = Ret (bytes, after (u ++ a :: m)).
Proof.
  intros dbg bytes u a m b v R. apply reads_enc in R. destruct R as [-> W].
  assert (P : Permutation (u ++ a :: m ++ b :: v) (u ++ b :: m ++ a :: v)).
  { apply Permutation_app_head. etransitivity; [|apply Permutation_sym, perm_skip, Permutation_sym, Permutation_middle].
    etransitivity; [apply perm_skip, Permutation_sym, Permutation_middle|]. apply perm_swap. }
  exists (enc (u ++ b :: m ++ a :: v)), (after (u ++ b :: m)). split; [apply swap_distant_spec|].
  split; [apply reads_of; exact (scalars_perm P W)|]. split; [reflexivity|]. split; [|apply swap_distant_spec].
  rewrite !enc_app, !enc_cons, !enc_app, !enc_cons, !app_length. lia.
Qed.

(** One character is replaced by another of any length; replacing it back undoes it. *)
Theorem C32_replace : forall dbg bytes u a b v, reads bytes (u ++ a :: v) -> scalar b ->
  exists bytes', replace_char_at dbg bytes (after u) a b = Ret bytes' /\
    reads bytes' (u ++ b :: v) /\ length bytes' + clen a = length bytes + clen b /\
    replace_char_at dbg bytes' (after u) b a = Ret bytes.
Proof.
  intros dbg bytes u a b v R Hb. apply reads_enc in R. destruct R as [-> W].
  assert (W2 := W). apply Forall_app in W2. destruct W2 as [Wu Wv]. inversion Wv; subst.
  assert (W' : scalars (u ++ b :: v)) by (apply Forall_app; split; [exact Wu|constructor; assumption]).
  exists (enc (u ++ b :: v)). split; [apply replace_char_spec; assumption|]. split; [apply reads_of; exact W'|].
  split; [|apply replace_char_spec; assumption].
  rewrite !enc_app, !enc_cons, !app_length. unfold clen. lia.
Qed.

(** [move_char_suggest] walks a character through its right neighbours (suggester.rs 779-806)
    or its left neighbours (820-838) by adjacent swaps. *)
Fixpoint walk_right (dbg : bool) (a : N) (m : str) (bytes : list N) (cursor : nat) : Res (list N * nat) :=
  match m with
  | [] => Ret (bytes, cursor)
  | c :: m' => r <- swap_adjacent_chars dbg bytes cursor a c ;; walk_right dbg a m' (fst r) (snd r)
  end.
(** [m] from right to left; the index of each is where it stands in the word. *)
Fixpoint walk_left (dbg : bool) (a : N) (back : str) (bytes : list N) (start : nat) : Res (list N) :=
  match back with
  | [] => Ret bytes
  | c :: back' => r <- swap_adjacent_chars dbg bytes (start + after (rev back')) c a ;; walk_left dbg a back' (fst r) start
  end.

(** After any number of steps to the right the buffer is the word with the character moved, and
    one rotation brings the word back. *)
Theorem C32_move_right : forall dbg bytes u a m v, reads bytes (u ++ a :: m ++ v) ->
  exists bytes', walk_right dbg a m bytes (after u) = Ret (bytes', after (u ++ m)) /\
    reads bytes' (u ++ m ++ a :: v) /\
    on_slice (after u) (after (u ++ m ++ [a])) (rotate_right (clen a)) bytes' = Ret bytes.
Proof.
  intros dbg bytes u a m v R. apply reads_enc in R. destruct R as [-> W].
  assert (P : Permutation (u ++ a :: m ++ v) (u ++ m ++ a :: v)).
  { apply Permutation_app_head. apply Permutation_middle. }
  exists (enc (u ++ m ++ a :: v)). split; [|split; [apply reads_of; exact (scalars_perm P W)|apply rotate_right_spec]].
  clear P. revert u W. induction m as [|c m IH]; intros u W; cbn [walk_right app]; [rewrite app_nil_r; reflexivity|].
  cbn [app] in W. rewrite swap_adjacent_spec by exact W. cbn [bindR fst snd].
  assert (W' : scalars ((u ++ [c]) ++ a :: m ++ v)).
  { rewrite <- app_assoc. cbn [app]. eapply scalars_perm; [|exact W]. apply Permutation_app_head, perm_swap. }
  specialize (IH (u ++ [c]) W'). rewrite <- !app_assoc in IH. cbn [app] in IH. exact IH.
Qed.
Theorem C32_move_left : forall dbg bytes u a m v, reads bytes (u ++ m ++ a :: v) ->
  exists bytes', walk_left dbg a (rev m) bytes (after u) = Ret bytes' /\
    reads bytes' (u ++ a :: m ++ v) /\
    on_slice (after u) (after (u ++ a :: m)) (rotate_left (clen a)) bytes' = Ret bytes.
Proof.
  intros dbg bytes u a m v R. apply reads_enc in R. destruct R as [-> W].
  assert (P : Permutation (u ++ m ++ a :: v) (u ++ a :: m ++ v)).
  { apply Permutation_app_head. apply Permutation_sym, Permutation_middle. }
  exists (enc (u ++ a :: m ++ v)). split; [|split; [apply reads_of; exact (scalars_perm P W)|apply rotate_left_spec]].
  clear P. revert v W. induction m as [|c m IH] using rev_ind; intros v W; [reflexivity|].
  rewrite rev_app_distr. cbn [rev app walk_left]. rewrite rev_involutive.
  rewrite <- !app_assoc in *. cbn [app] in *.
  replace (after u + after m) with (after (u ++ m)) by (rewrite enc_app, app_length; reflexivity).
  replace (u ++ m ++ c :: a :: v) with ((u ++ m) ++ c :: a :: v) in * by (rewrite <- app_assoc; reflexivity).
  rewrite swap_adjacent_spec by exact W. cbn [bindR fst snd].
  assert (W' : scalars (u ++ m ++ a :: c :: v)).
  { rewrite app_assoc. eapply scalars_perm; [|exact W]. apply Permutation_app_head, perm_swap. }
  specialize (IH (c :: v) W'). rewrite <- !app_assoc. exact IH.
Qed.

(** One-, two-, three- and four-byte characters. *)
Example C32_example :
  let w := lit "a" ++ 0x1F600%N :: [0xDF; 0x20AC]%N ++ 98%N :: lit "c" in
  let w' := lit "a" ++ 98%N :: [0xDF; 0x20AC]%N ++ 0x1F600%N :: lit "c" in
  reads (enc w) w /\ reads (enc w') w' /\
  swap_distant_chars true (enc w) 1 0x1F600%N 10 98%N = Ret (enc w', 7) /\
  replace_char_at true (enc w) 1 0x1F600%N 98%N = Ret (enc (lit "ab" ++ [0xDF; 0x20AC; 98; 99]%N)).
Proof. repeat split; vm_compute; reflexivity. Qed.

(** ** C35 *)

(** The characters both words start with; the first one may differ in case. *)
Theorem C35_common_prefix : forall U h left right,
  match left, right with
  | l :: left', r :: right' =>
      (l = r \/ is_char_eq_lowercase U h l r = true ->
         exists n, CommonPrefix left' right' n /\ left_common_substring_length U h left right = S n) /\
      (l <> r -> is_char_eq_lowercase U h l r = false -> left_common_substring_length U h left right = 0)
  | _, _ => left_common_substring_length U h left right = 0
  end.
Proof. exact left_common_spec. Qed.
(** The row-by-row computation finds the longest common subsequence. *)
Theorem C35_longest_common_subsequence : forall left right n,
  longest_common_subsequence_length left right = n <-> IsLcs left right n.
Proof.
  intros left right n. split; [intros <-; apply lcs_spec|]. intros H. exact (IsLcs_det (lcs_spec left right) H).
Qed.
(** The places where both words have the same character, and whether the words are one exchange
    of two characters apart. *)
Theorem C35_same_position : forall left right n,
  fst (count_eq_at_same_pos left right) = n <->
  Counts (fun i => exists c, nth_error left i = Some c /\ nth_error right i = Some c)
    (seq 0 (Nat.min (length left) (length right))) n.
Proof.
  intros left right n. split; [intros <-; apply count_spec|]. intros H. exact (Counts_det (count_spec left right) H).
Qed.
Theorem C35_swapped : forall left right, snd (count_eq_at_same_pos left right) = true <-> Swapped left right.
Proof. exact swapped_spec. Qed.

Lemma GramSum_det : forall left right steps k a b, GramSum left right steps k a -> GramSum left right steps k b -> a = b.
Proof.
  intros left right steps k a b H. revert b.
  induction H as [k|steps k n C L|steps k n s C L H IH]; intros b Hb; inversion Hb; subst; try reflexivity;
    match goal with C1 : GramCount _ _ _ ?x, C2 : GramCount _ _ _ ?y |- _ => pose proof (Counts_det C1 C2); subst end;
    try reflexivity; try lia; f_equal; apply IH; assumption.
Qed.
Lemma same_gram : forall (l g1 g2 v1 v2 : str) k, l = g1 ++ v1 -> length g1 = k -> l = g2 ++ v2 -> length g2 = k -> g1 = g2.
Proof.
  intros l g1 g2 v1 v2 k -> L1 E L2. apply (f_equal (firstn k)) in E.
  rewrite <- L1 in E at 1. rewrite <- L2 in E at 1. rewrite !firstn_app, !firstn_all, !Nat.sub_diag, !firstn_O, !app_nil_r in E. exact E.
Qed.
Lemma Weighs_det : forall left right k l a b, Weighs left right k l a -> Weighs left right k l b -> a = b.
Proof.
  intros left right k l a b H. revert b.
  induction H as [|i l s g v E L I H IH|i l s g v E L I M H IH|i l s g v E L I M1 M2 H IH]; intros b Hb;
    inversion Hb as [|i' l' s' g' v' E' L' I' H'|i' l' s' g' v' E' L' I' M' H'|i' l' s' g' v' E' L' I' M1' M2' H']; clear Hb;
    try reflexivity; pose proof (@same_gram _ _ _ _ _ _ E L E' L') as G; rewrite <- ?G in I';
    try contradiction; try (f_equal; apply IH; assumption); exfalso; intuition.
Qed.
Lemma WeightedSum_det : forall left right l a b, WeightedSum left right l a -> WeightedSum left right l b -> a = b.
Proof.
  intros left right l a b H. revert b. induction H as [|k l a s A H IH]; intros b Hb; inversion Hb; subst; [reflexivity|].
  f_equal; [eapply Weighs_det; eassumption|apply IH; assumption].
Qed.

(** For [k] from one up to [n] the places of [left] whose [k] characters occur in [right] are
    counted; the counting stops after a round that finds less than two. *)
Theorem C35_ngrams : forall n left right s,
  ngram_similarity n left right = s <-> GramSum left right (Nat.min n (length left)) 1 s.
Proof.
  intros n left right s. split; [intros <-; apply ngram_similarity_spec|]. intros H. exact (GramSum_det (ngram_similarity_spec n left right) H).
Qed.
Theorem C35_ngrams_weighted : forall n left right s,
  ngram_similarity_weighted n left right = s <-> WeightedSum left right (seq 1 (Nat.min n (length left))) s.
Proof.
  intros n left right s. split; [intros <-; apply ngram_weighted_spec|]. intros H. exact (WeightedSum_det (ngram_weighted_spec n left right) H).
Qed.
(** A longer right-hand word loses what it has in excess of two characters; the other measure
    takes the difference either way. *)
Theorem C35_length_penalty : forall n left right,
  ngram_similarity_longer_worse n left right =
    (if nonempty right then ngram_similarity n left right - Z.max 0 (Z.of_nat (length right) - Z.of_nat (length left) - 2) else 0)%Z /\
  ngram_similarity_any_mismatch n left right =
    (if nonempty right then ngram_similarity n left right - Z.max 0 (Z.abs (Z.of_nat (length right) - Z.of_nat (length left)) - 2) else 0)%Z.
Proof. intros. split; [apply ngram_longer_worse_spec|apply ngram_any_mismatch_spec]. Qed.

Lemma WeightedSum_bound : forall left right l s, WeightedSum left right l s -> (forall k, In k l -> 1 <= k) ->
  (- 2 * Z.of_nat (length l) * Z.of_nat (length left + 1) <= s <= Z.of_nat (length l) * Z.of_nat (length left + 1))%Z.
Proof.
  induction 1 as [|k l a s A H IH]; intros K; [cbn; lia|]. specialize (IH (fun j I => K j (or_intror I))).
  apply Weighs_bound in A. rewrite seq_length in A. cbn [length] in *. nia.
Qed.
(** All measures stay within bounds set by the lengths of the words, far inside the machine
    integers. *)
Theorem C35_bounds : forall U h n left right,
  left_common_substring_length U h left right <= Nat.min (length left) (length right) /\
  longest_common_subsequence_length left right <= Nat.min (length left) (length right) /\
  fst (count_eq_at_same_pos left right) <= Nat.min (length left) (length right) /\
  (0 <= ngram_similarity n left right <= Z.of_nat (Nat.min n (length left)) * Z.of_nat (length left + 1))%Z /\
  (- 2 * Z.of_nat (Nat.min n (length left)) * Z.of_nat (length left + 1) <= ngram_similarity_weighted n left right
     <= Z.of_nat (Nat.min n (length left)) * Z.of_nat (length left + 1))%Z.
Proof.
  intros U h n left right. split; [apply left_common_bound|]. split; [apply lcs_bound|]. split; [apply count_bound|].
  split; [apply ngram_similarity_bound|].
  pose proof (WeightedSum_bound (ngram_weighted_spec n left right)) as B. rewrite seq_length in B. apply B.
  intros k I. apply in_seq in I. lia.
Qed.

(** A word compared with itself: everything agrees. *)
Theorem C35_self : forall U h w,
  longest_common_subsequence_length w w = length w /\ fst (count_eq_at_same_pos w w) = length w /\
  snd (count_eq_at_same_pos w w) = false /\ left_common_substring_length U h w w = length w.
Proof.
  intros U h w. split; [|split; [|split]].
  - apply C35_longest_common_subsequence. split.
    + exists w. assert (Subseq w w) by (induction w; constructor; assumption). auto.
    + intros s H _. exact (Subseq_length H).
  - unfold count_eq_at_same_pos. cbn [fst]. apply count_refl.
  - apply not_true_iff_false. rewrite C35_swapped. intros (u & a & m & b & v & D & E1 & E2). rewrite E1 in E2.
    apply app_inv_head in E2. congruence.
  - destruct w as [|c w]; [reflexivity|]. destruct (C35_common_prefix U h (c :: w) (c :: w)) as [H _].
    destruct (H (or_introl eq_refl)) as (n & C & ->). cbn [length]. f_equal.
    refine (CommonPrefix_det C _). exists w, [], []. rewrite app_nil_r. auto.
Qed.
(** The measures that compare two words alike. *)
Theorem C35_symmetric : forall left right,
  longest_common_subsequence_length left right = longest_common_subsequence_length right left /\
  fst (count_eq_at_same_pos left right) = fst (count_eq_at_same_pos right left) /\
  snd (count_eq_at_same_pos left right) = snd (count_eq_at_same_pos right left).
Proof.
  intros left right. split; [|split].
  - apply C35_longest_common_subsequence. destruct (lcs_spec right left) as [(s & A & B & L) M]. split; [exists s; auto|auto].
  - apply C35_same_position. rewrite Nat.min_comm. pose proof (count_spec right left) as C.
    assert (G : forall (P Q : nat -> Prop) l n, (forall i, P i <-> Q i) -> Counts P l n -> Counts Q l n).
    { intros P Q l n E H. induction H; constructor; try assumption; [apply E; assumption|]. intros X. apply E in X. contradiction. }
    refine (G _ _ _ _ _ C). intros i. split; intros (c & A & B); eauto.
  - apply eq_true_iff_eq. rewrite !C35_swapped. split; intros (u & a & m & b & v & D & A & B); exists u, b, m, a, v; auto.
Qed.

Example C35_example :
  longest_common_subsequence_length (lit "kitten") (lit "sitting") = 4 /\
  count_eq_at_same_pos (lit "converse") (lit "convesre") = (6, true) /\
  ngram_similarity 3 (lit "actual") (lit "akshual") = 7%Z /\
  ngram_similarity_weighted 3 (lit "actual") (lit "akshual") = (-3)%Z /\
  left_common_substring_length ascii_unicode Standard (lit "abcd") (lit "abxd") = 2.
Proof. repeat split; vm_compute; reflexivity. Qed.

Print Assumptions C32_swap_adjacent.
Print Assumptions C32_swap_distant.
Print Assumptions C32_replace.
Print Assumptions C32_move_right.
Print Assumptions C32_move_left.
Print Assumptions C35_common_prefix.
Print Assumptions C35_longest_common_subsequence.
Print Assumptions C35_same_position.
Print Assumptions C35_swapped.
Print Assumptions C35_ngrams.
Print Assumptions C35_ngrams_weighted.
Print Assumptions C35_length_penalty.
Print Assumptions C35_bounds.
Print Assumptions C35_self.
Print Assumptions C35_symmetric.
