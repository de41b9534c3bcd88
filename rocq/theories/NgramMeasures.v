(** The similarity measures of suggester/ngram.rs against their mathematical definitions. *)
From Coq Require Import List NArith ZArith Lia Bool Arith Permutation.
From Coq Require Import ZifyBool ZifyNat ZifyN.
From Verif Require Import Base Utf8 Unicode Flags Affix Aff Checker Bag Ngram Rep.
Import ListNotations.
Set Implicit Arguments.

(** ** Common prefix *)
(** [n] characters at the start agree and no more. *)
Definition CommonPrefix (a b : str) (n : nat) : Prop :=
  exists u x y, a = u ++ x /\ b = u ++ y /\ length u = n /\
    match x, y with c :: _, d :: _ => c <> d | _, _ => True end.
Lemma CommonPrefix_cons : forall c a b n, CommonPrefix a b n -> CommonPrefix (c :: a) (c :: b) (S n).
Proof. intros c a b n (u & x & y & -> & -> & <- & H). exists (c :: u), x, y. auto. Qed.
Lemma mismatch_spec : forall a b,
  match index_of_mismatch a b with
  | Some i => CommonPrefix a b i /\ i < length a
  | None => CommonPrefix a b (length a)
  end.
Proof.
  induction a as [|c a IH]; intros b; cbn [index_of_mismatch].
  - exists [], [], b. auto.
  - destruct b as [|d b].
    + split; [exists [], (c :: a), []; auto|cbn; lia].
    + destruct (N.eqb_spec d c) as [->|Hn].
      * specialize (IH b). destruct (index_of_mismatch a b) as [i|]; cbn [option_map length].
        -- destruct IH as [IH L]. split; [apply CommonPrefix_cons, IH|lia].
        -- apply CommonPrefix_cons, IH.
      * split; [|cbn; lia]. exists [], (c :: a), (d :: b). repeat split; auto.
Qed.
Lemma CommonPrefix_det : forall a b m n, CommonPrefix a b m -> CommonPrefix a b n -> m = n.
Proof.
  assert (G : forall u x y v x' y' : str, u ++ x = v ++ x' -> u ++ y = v ++ y' ->
    match x, y with c :: _, d :: _ => c <> d | _, _ => True end -> length v <= length u).
  { induction u as [|c u IH]; intros x y v x' y' E1 E2 H; cbn in E1, E2.
    - subst x y. destruct v as [|d v]; cbn in H; [lia|contradiction].
    - destruct v as [|d v]; [cbn; lia|]. cbn in E1, E2. injection E1 as _ E1. injection E2 as _ E2.
      cbn [length]. specialize (IH x y v x' y' E1 E2 H). lia. }
  intros a b m n (u & x & y & -> & -> & <- & H) (v & x' & y' & E1 & E2 & <- & H').
  pose proof (G _ _ _ _ _ _ E1 E2 H). symmetry in E1, E2. pose proof (G _ _ _ _ _ _ E1 E2 H'). lia.
Qed.

(** The first characters may also differ in case only; then comes the common prefix. *)
Theorem left_common_spec : forall U h left right,
  match left, right with
  | l :: left', r :: right' =>
      (l = r \/ is_char_eq_lowercase U h l r = true ->
         exists n, CommonPrefix left' right' n /\ left_common_substring_length U h left right = S n) /\
      (l <> r -> is_char_eq_lowercase U h l r = false -> left_common_substring_length U h left right = 0)
  | _, _ => left_common_substring_length U h left right = 0
  end.
Proof.
  intros U h [|l left] [|r right]; try reflexivity. cbn [left_common_substring_length].
  split.
  - intros H. replace (negb (l =? r)%N && negb (is_char_eq_lowercase U h l r)) with false.
    2: { symmetry. destruct H as [->|H]; [rewrite N.eqb_refl; reflexivity|rewrite H, andb_false_r; reflexivity]. }
    pose proof (mismatch_spec left right) as M. destruct (index_of_mismatch left right) as [i|].
    + exists i. split; [apply M|lia].
    + exists (length left). split; [exact M|reflexivity].
  - intros H1 H2. rewrite H2. apply N.eqb_neq in H1. rewrite H1. reflexivity.
Qed.
Theorem left_common_bound : forall U h left right,
  left_common_substring_length U h left right <= Nat.min (length left) (length right).
Proof.
  intros U h left right. pose proof (left_common_spec U h left right) as H.
  destruct left as [|l left]; destruct right as [|r right]; try (rewrite H; cbn; lia).
  destruct H as [H1 H2]. destruct (N.eq_dec l r) as [E|E]; [|destruct (is_char_eq_lowercase U h l r) eqn:L].
  3: { rewrite H2 by auto. lia. }
  all: destruct H1 as (n & (u & x & y & -> & -> & <- & _) & ->); [auto|]; cbn [length]; rewrite !app_length; lia.
Qed.

(** ** Longest common subsequence *)
Inductive Subseq : str -> str -> Prop :=
| Subseq_nil : Subseq [] []
| Subseq_take : forall c s w, Subseq s w -> Subseq (c :: s) (c :: w)
| Subseq_skip : forall c s w, Subseq s w -> Subseq s (c :: w).
Definition IsLcs (a b : str) (n : nat) : Prop :=
  (exists s, Subseq s a /\ Subseq s b /\ length s = n) /\
  (forall s, Subseq s a -> Subseq s b -> length s <= n).

Lemma Subseq_nil_l : forall w, Subseq [] w.
Proof. induction w; constructor; assumption. Qed.
Lemma Subseq_length : forall s w, Subseq s w -> length s <= length w.
Proof. induction 1; cbn; lia. Qed.
Lemma Subseq_app : forall s w t v, Subseq s w -> Subseq t v -> Subseq (s ++ t) (w ++ v).
Proof. intros s w t v H Ht. induction H; cbn [app]; [exact Ht| |]; constructor; assumption. Qed.
Lemma Subseq_rev : forall s w, Subseq s w -> Subseq (rev s) (rev w).
Proof.
  induction 1 as [|c s w H IH|c s w H IH]; cbn [rev]; [constructor| |].
  - apply Subseq_app; [exact IH|]. constructor. constructor.
  - rewrite <- (app_nil_r (rev s)). apply Subseq_app; [exact IH|]. apply Subseq_skip, Subseq_nil.
Qed.
Lemma IsLcs_rev : forall a b n, IsLcs (rev a) (rev b) n -> IsLcs a b n.
Proof.
  intros a b n [(s & A & B & L) M]. split.
  - exists (rev s). rewrite <- (rev_involutive a), <- (rev_involutive b). rewrite rev_length.
    split; [apply Subseq_rev, A|]. split; [apply Subseq_rev, B|exact L].
  - intros t A' B'. rewrite <- rev_length. apply M; apply Subseq_rev; assumption.
Qed.
Theorem IsLcs_det : forall a b m n, IsLcs a b m -> IsLcs a b n -> m = n.
Proof. intros a b m n [(s & A & B & <-) M] [(t & C & D & <-) M']. pose proof (M t C D). pose proof (M' s A B). lia. Qed.

Fixpoint lcs (a : str) : str -> nat :=
  match a with
  | [] => fun _ => 0
  | c :: a' => fix go (b : str) : nat :=
      match b with
      | [] => 0
      | d :: b' => if (c =? d)%N then S (lcs a' b') else Nat.max (lcs a' b) (go b')
      end
  end.
Lemma lcs_cons : forall c a d b, lcs (c :: a) (d :: b) = if (c =? d)%N then S (lcs a b) else Nat.max (lcs a (d :: b)) (lcs (c :: a) b).
Proof. reflexivity. Qed.
Lemma lcs_nil_r : forall a, lcs a [] = 0.
Proof. destruct a; reflexivity. Qed.
Theorem lcs_IsLcs : forall a b, IsLcs a b (lcs a b).
Proof.
  induction a as [|c a IHa]; intros b.
  - split; [exists []; repeat split; [constructor|apply Subseq_nil_l]|]. intros s H _. apply Subseq_length in H. exact H.
  - induction b as [|d b IHb].
    + split; [exists []; repeat split; [apply Subseq_nil_l|constructor]|]. intros s _ H. apply Subseq_length in H. exact H.
    + rewrite lcs_cons. destruct (N.eqb_spec c d) as [<-|Hn].
      * destruct (IHa b) as [(s & A & B & L) M]. split.
        -- exists (c :: s). repeat split; [constructor; assumption|constructor; assumption|cbn; lia].
        -- intros t A' B'. assert (T : forall t, Subseq t (c :: a) -> exists t', Subseq t' a /\ length t <= S (length t') /\
             (t = c :: t' \/ t = t')).
           { intros t' H. inversion H; subst; eexists; (split; [eassumption|]); cbn; split; try lia; auto. }
           inversion A' as [|x s1 w1 A1|x s1 w1 A1]; inversion B' as [|y s2 w2 B1|y s2 w2 B1]; subst.
           ++ injection H2 as ->. cbn [length]. specialize (M _ A1 B1). lia.
           ++ cbn [length]. assert (Subseq s1 b).
              { clear - B1. remember (c :: s1) as t. revert Heqt. induction B1; intros E; try discriminate.
                - injection E as -> ->. apply Subseq_skip. exact B1.
                - apply Subseq_skip, IHB1, E. }
              specialize (M _ A1 H). lia.
           ++ cbn [length]. assert (Subseq s2 a).
              { clear - A1. remember (c :: s2) as t. revert Heqt. induction A1; intros E; try discriminate.
                - injection E as -> ->. apply Subseq_skip. exact A1.
                - apply Subseq_skip, IHA1, E. }
              specialize (M _ H B1). lia.
           ++ specialize (M _ A1 B1). lia.
      * destruct (IHa (d :: b)) as [(s & A & B & L) M]. destruct IHb as [(s' & A' & B' & L') M']. split.
        -- destruct (Nat.max_spec (lcs a (d :: b)) (lcs (c :: a) b)) as [[_ ->]|[_ ->]].
           ++ exists s'. repeat split; [exact A'|apply Subseq_skip, B'|exact L'].
           ++ exists s. repeat split; [apply Subseq_skip, A|exact B|exact L].
        -- intros t At Bt. inversion At as [|x s1 w1 A1|x s1 w1 A1]; subst.
           ++ inversion Bt as [|y s2 w2 B1|y s2 w2 B1]; subst; [contradiction|]. specialize (M' _ At B1). lia.
           ++ specialize (M _ A1 Bt). lia.
Qed.

(** The rows of the table, for the characters of [left] seen so far, last first. *)
Definition row_of (p : str) (done rest : str) : list nat :=
  map (fun j => lcs p (rev (done ++ firstn j rest))) (seq 1 (length rest)).
Lemma row_of_cons : forall p done c rest, row_of p done (c :: rest) = lcs p (rev (done ++ [c])) :: row_of p (done ++ [c]) rest.
Proof.
  intros p done c rest. unfold row_of. cbn [length seq map]. f_equal. rewrite <- seq_shift, map_map. apply map_ext.
  intros j. cbn [firstn]. rewrite <- app_assoc. reflexivity.
Qed.
Lemma lcs_row_is : forall l p rest done,
  lcs_row l rest (row_of p done rest) (lcs p (rev done)) (lcs (l :: p) (rev done)) =
  (row_of (l :: p) done rest, lcs (l :: p) (rev (done ++ rest))).
Proof.
  intros l p. induction rest as [|r rest IH]; intros done.
  - rewrite app_nil_r. reflexivity.
  - rewrite !row_of_cons. cbn [lcs_row].
    assert (V : (if (l =? r)%N then lcs p (rev done) + 1 else Nat.max (lcs p (rev (done ++ [r]))) (lcs (l :: p) (rev done))) =
                lcs (l :: p) (rev (done ++ [r]))).
    { rewrite rev_app_distr. cbn [rev app]. rewrite lcs_cons. destruct (l =? r)%N; [lia|reflexivity]. }
    rewrite V, IH, <- app_assoc. reflexivity.
Qed.
Lemma lcs_go_is : forall left p right, lcs_go left right (row_of p [] right) (lcs p (rev right)) = lcs (rev left ++ p) (rev right).
Proof.
  induction left as [|l left IH]; intros p right; [reflexivity|]. cbn [lcs_go rev].
  pose proof (lcs_row_is l p right []) as R. cbn [rev app] in R. rewrite !lcs_nil_r in R. rewrite R, IH, <- app_assoc. reflexivity.
Qed.
Theorem lcs_spec : forall left right, IsLcs left right (longest_common_subsequence_length left right).
Proof.
  intros left right. apply IsLcs_rev. unfold longest_common_subsequence_length.
  assert (Z : repeat 0 (length right) = row_of [] [] right).
  { unfold row_of. cbn [lcs]. generalize 1. induction (length right) as [|n IH]; intros m; [reflexivity|]. cbn. f_equal. apply IH. }
  rewrite Z. change 0 with (lcs [] (rev right)). rewrite lcs_go_is, app_nil_r. apply lcs_IsLcs.
Qed.
Theorem lcs_bound : forall left right,
  longest_common_subsequence_length left right <= Nat.min (length left) (length right).
Proof.
  intros left right. destruct (lcs_spec left right) as [(s & A & B & <-) _]. apply Subseq_length in A, B. lia.
Qed.

(** ** n-grams *)
Definition Within (p w : str) : Prop := exists u v, w = u ++ p ++ v.
Lemma contains_str_spec : forall p w, contains_str p w = true <-> Within p w.
Proof.
  intros p w. unfold contains_str, Within. destruct (find_sub p w) as [i|] eqn:E; cbn [is_someb].
  - split; [|reflexivity]. intros _. destruct (find_sub_split _ _ E) as (a & b & Ew & _). eauto.
  - split; [discriminate|]. intros (a & b & Ew). exfalso. exact (proj1 (find_sub_none p w) E a b Ew).
Qed.

(** [Counts P l n]: [n] elements of [l] have the property. *)
Inductive Counts {A} (P : A -> Prop) : list A -> nat -> Prop :=
| Counts_nil : Counts P [] 0
| Counts_yes : forall x l n, P x -> Counts P l n -> Counts P (x :: l) (S n)
| Counts_no : forall x l n, ~ P x -> Counts P l n -> Counts P (x :: l) n.
Lemma Counts_det : forall A (P : A -> Prop) l m n, Counts P l m -> Counts P l n -> m = n.
Proof. intros A P l m n H. revert n. induction H; intros k Hk; inversion Hk; subst; try contradiction; auto. Qed.
Lemma Counts_bound : forall A (P : A -> Prop) l n, Counts P l n -> n <= length l.
Proof. induction 1; cbn; lia. Qed.

(** How many of the [k]-grams of [left], by starting position, occur in [right]. *)
Definition GramCount (left right : str) (k n : nat) : Prop :=
  Counts (fun i => exists g, length g = k /\ (exists v, skipn i left = g ++ v) /\ Within g right) (seq 0 (S (length left - k))) n.

Lemma gram_at : forall (left : str) i k, i + k <= length left ->
  exists v, skipn i left = slice left i (i + k) ++ v /\ length (slice left i (i + k)) = k.
Proof.
  intros left i k H. unfold slice. replace (i + k - i) with k by lia. exists (skipn k (skipn i left)).
  rewrite firstn_skipn. split; [reflexivity|]. rewrite firstn_length, skipn_length. lia.
Qed.
Lemma round_count : forall left right k, k <= length left ->
  exists n, GramCount left right k n /\ ngram_round left right k = Z.of_nat n.
Proof.
  intros left right k Hk. unfold GramCount, ngram_round.
  assert (G : forall l s, (forall i, In i l -> i + k <= length left) -> exists n,
    Counts (fun i => exists g, length g = k /\ (exists v, skipn i left = g ++ v) /\ Within g right) l n /\
    fold_left (fun s i => if contains_str (slice left i (i + k)) right then (s + 1)%Z else s) l s = (s + Z.of_nat n)%Z).
  { induction l as [|i l IH]; intros s H; [exists 0; split; [constructor|cbn; lia]|].
    cbn [fold_left]. destruct (gram_at left i k (H i (or_introl eq_refl))) as (v & E & L).
    destruct (contains_str (slice left i (i + k)) right) eqn:C.
    - destruct (IH (s + 1)%Z) as (n & Cn & En); [intros; apply H; right; assumption|]. exists (S n). split; [|lia].
      constructor; [|exact Cn]. exists (slice left i (i + k)). split; [exact L|]. split; [eauto|]. apply contains_str_spec, C.
    - destruct (IH s) as (n & Cn & En); [intros; apply H; right; assumption|]. exists n. split; [|exact En].
      constructor; [|exact Cn]. intros (g & Lg & (v' & Eg) & W). rewrite E in Eg.
      assert (g = slice left i (i + k)).
      { pose proof (f_equal (firstn k) Eg) as F. rewrite !firstn_app_exact in F by congruence. congruence. }
      subst g. apply contains_str_spec in W. congruence. }
  destruct (G (seq 0 (S (length left - k))) 0%Z) as (n & C & E).
  - intros i Hi. apply in_seq in Hi. lia.
  - exists n. split; [exact C|]. rewrite E. lia.
Qed.

(** The sum over [k = 1, 2, ...] up to [n], ending with the first [k] for which fewer than two
    [k]-grams occur. *)
Inductive GramSum (left right : str) : nat -> nat -> Z -> Prop :=
| GramSum_none : forall k, GramSum left right 0 k 0
| GramSum_last : forall steps k n, GramCount left right k n -> n < 2 -> GramSum left right (S steps) k (Z.of_nat n)
| GramSum_more : forall steps k n s, GramCount left right k n -> 2 <= n -> GramSum left right steps (S k) s ->
    GramSum left right (S steps) k (Z.of_nat n + s).
Lemma ngram_go_spec : forall left right steps k score, k + steps <= S (length left) ->
  exists s, GramSum left right steps k s /\ ngram_go steps k left right score = (score + s)%Z.
Proof.
  intros left right. induction steps as [|steps IH]; intros k score Hk; cbn [ngram_go].
  - exists 0%Z. split; [constructor|lia].
  - destruct (@round_count left right k ltac:(lia)) as (n & C & ->). destruct (Z.ltb_spec (Z.of_nat n) 2) as [L|L].
    + exists (Z.of_nat n). split; [apply GramSum_last with (n := n); [exact C|lia]|reflexivity].
    + destruct (IH (S k) (score + Z.of_nat n)%Z ltac:(lia)) as (s & G & ->). exists (Z.of_nat n + s)%Z. split; [|lia].
      apply GramSum_more; [exact C|lia|exact G].
Qed.
Theorem ngram_similarity_spec : forall n left right,
  GramSum left right (Nat.min n (length left)) 1 (ngram_similarity n left right).
Proof.
  intros n left right. unfold ngram_similarity.
  destruct (ngram_go_spec left right (Nat.min n (length left)) 1 0 ltac:(lia)) as (s & G & ->). rewrite Z.add_0_l. exact G.
Qed.
Lemma GramSum_bound : forall left right steps k s, GramSum left right steps k s -> 1 <= k ->
  (0 <= s <= Z.of_nat steps * Z.of_nat (length left + 1))%Z.
Proof.
  induction 1 as [k|steps k n C L|steps k n s C L H IH]; intros Hk; [lia| |];
    pose proof (Counts_bound C) as B; rewrite seq_length in B; [lia|]. specialize (IH ltac:(lia)). lia.
Qed.
Theorem ngram_similarity_bound : forall n left right,
  (0 <= ngram_similarity n left right <= Z.of_nat (Nat.min n (length left)) * Z.of_nat (length left + 1))%Z.
Proof. intros n left right. exact (GramSum_bound (ngram_similarity_spec n left right) (le_n _)). Qed.
Theorem ngram_longer_worse_spec : forall n left right,
  ngram_similarity_longer_worse n left right =
  (if nonempty right then ngram_similarity n left right - Z.max 0 (Z.of_nat (length right) - Z.of_nat (length left) - 2) else 0)%Z.
Proof. intros n left [|r right]; [reflexivity|]. cbn [ngram_similarity_longer_worse nonempty]. destruct (Z.ltb_spec 0 (Z.of_nat (length (r :: right)) - Z.of_nat (length left) - 2)); lia. Qed.
Theorem ngram_any_mismatch_spec : forall n left right,
  ngram_similarity_any_mismatch n left right =
  (if nonempty right then ngram_similarity n left right - Z.max 0 (Z.abs (Z.of_nat (length right) - Z.of_nat (length left)) - 2) else 0)%Z.
Proof. intros n left [|r right]; [reflexivity|]. cbn [ngram_similarity_any_mismatch nonempty]. destruct (Z.ltb_spec 0 (Z.abs (Z.of_nat (length (r :: right)) - Z.of_nat (length left)) - 2)); lia. Qed.

(** The weighted count: an occurring [k]-gram counts one; a missing one costs one, and two at
    either end. *)
Inductive Weighs (left right : str) (k : nat) : list nat -> Z -> Prop :=
| Weighs_nil : Weighs left right k [] 0
| Weighs_found : forall i l s g v, skipn i left = g ++ v -> length g = k -> Within g right ->
    Weighs left right k l s -> Weighs left right k (i :: l) (1 + s)
| Weighs_end : forall i l s g v, skipn i left = g ++ v -> length g = k -> ~ Within g right -> i = 0 \/ i + k = length left ->
    Weighs left right k l s -> Weighs left right k (i :: l) (-2 + s)
| Weighs_inside : forall i l s g v, skipn i left = g ++ v -> length g = k -> ~ Within g right -> i <> 0 -> i + k <> length left ->
    Weighs left right k l s -> Weighs left right k (i :: l) (-1 + s).
Lemma weighted_round_spec : forall left right k, k <= length left ->
  Weighs left right k (seq 0 (S (length left - k))) (weighted_round left right k).
Proof.
  intros left right k Hk. unfold weighted_round.
  assert (G : forall l s, (forall i, In i l -> i + k <= length left) -> exists n, Weighs left right k l n /\
    fold_left (fun s i =>
      if contains_str (slice left i (i + k)) right then (s + 1)%Z
      else if (i =? 0)%nat || (i =? length left - k)%nat then (s - 2)%Z else (s - 1)%Z) l s = (s + n)%Z).
  { induction l as [|i l IH]; intros s H; [exists 0%Z; split; [constructor|cbn; lia]|].
    cbn [fold_left]. pose proof (H i (or_introl eq_refl)) as Hi. destruct (gram_at left i k Hi) as (v & E & L).
    assert (HI : forall i, In i l -> i + k <= length left) by (intros; apply H; right; assumption).
    destruct (contains_str (slice left i (i + k)) right) eqn:C.
    - destruct (IH (s + 1)%Z HI) as (n & Cn & En). exists (1 + n)%Z. split; [|lia].
      eapply Weighs_found; [exact E|exact L|apply contains_str_spec, C|exact Cn].
    - assert (W : ~ Within (slice left i (i + k)) right) by (rewrite <- contains_str_spec; congruence).
      destruct ((i =? 0)%nat || (i =? length left - k)%nat) eqn:B.
      + destruct (IH (s - 2)%Z HI) as (n & Cn & En). exists (-2 + n)%Z. split; [|lia].
        eapply Weighs_end; [exact E|exact L|exact W| |exact Cn]. lia.
      + destruct (IH (s - 1)%Z HI) as (n & Cn & En). exists (-1 + n)%Z. split; [|lia].
        eapply Weighs_inside; [exact E|exact L|exact W| | |exact Cn]; lia. }
  destruct (G (seq 0 (S (length left - k))) 0%Z) as (n & W & E).
  - intros i Hi. apply in_seq in Hi. lia.
  - cbv zeta in E. rewrite E, Z.add_0_l. exact W.
Qed.
Inductive WeightedSum (left right : str) : list nat -> Z -> Prop :=
| WeightedSum_nil : WeightedSum left right [] 0
| WeightedSum_cons : forall k l a s, Weighs left right k (seq 0 (S (length left - k))) a -> WeightedSum left right l s ->
    WeightedSum left right (k :: l) (a + s).
Theorem ngram_weighted_spec : forall n left right,
  WeightedSum left right (seq 1 (Nat.min n (length left))) (ngram_similarity_weighted n left right).
Proof.
  intros n left right. unfold ngram_similarity_weighted.
  assert (G : forall l s, (forall k, In k l -> k <= length left) -> exists t, WeightedSum left right l t /\
    fold_left (fun s k => (s + weighted_round left right k)%Z) l s = (s + t)%Z).
  { induction l as [|k l IH]; intros s H; [exists 0%Z; split; [constructor|cbn; lia]|]. cbn [fold_left].
    destruct (IH (s + weighted_round left right k)%Z) as (t & T & E); [intros; apply H; right; assumption|].
    exists (weighted_round left right k + t)%Z. split; [|lia]. constructor; [|exact T].
    apply weighted_round_spec, H. left. reflexivity. }
  destruct (G (seq 1 (Nat.min n (length left))) 0%Z) as (t & T & E).
  - intros k Hk. apply in_seq in Hk. lia.
  - rewrite E, Z.add_0_l. exact T.
Qed.
Lemma Weighs_bound : forall left right k l s, Weighs left right k l s -> (- 2 * Z.of_nat (length l) <= s <= Z.of_nat (length l))%Z.
Proof. induction 1; cbn [length]; lia. Qed.

(** ** Same positions *)
Lemma count_spec : forall left right,
  Counts (fun i => exists c, nth_error left i = Some c /\ nth_error right i = Some c) (seq 0 (Nat.min (length left) (length right)))
    (fst (count_eq_at_same_pos left right)).
Proof.
  intros left right. unfold count_eq_at_same_pos. cbn [fst].
  assert (G : forall l r n (f g : nat -> option N), (forall i c, nth_error l i = Some c <-> f (n + i) = Some c) ->
    (forall i c, nth_error r i = Some c <-> g (n + i) = Some c) ->
    Counts (fun i => exists c, f i = Some c /\ g i = Some c) (seq n (Nat.min (length l) (length r)))
      (length (filter (fun p : N * N => (fst p =? snd p)%N) (combine l r)))).
  { induction l as [|a l IH]; intros r n f g Hf Hg; [constructor|]. destruct r as [|b r]; [constructor|].
    cbn [combine filter fst snd length Nat.min seq].
    assert (R : Counts (fun i => exists c, f i = Some c /\ g i = Some c) (seq (S n) (Nat.min (length l) (length r)))
      (length (filter (fun p : N * N => (fst p =? snd p)%N) (combine l r)))).
    { apply IH; intros i c; replace (S n + i) with (n + S i) by lia; [apply (Hf (S i))|apply (Hg (S i))]. }
    pose proof (proj1 (Hf 0 a) eq_refl) as Fa. pose proof (proj1 (Hg 0 b) eq_refl) as Gb. rewrite Nat.add_0_r in Fa, Gb.
    destruct (N.eqb_spec a b) as [->|Hn]; cbn [length]; constructor; try exact R; [eauto|].
    intros (c & C1 & C2). congruence. }
  apply G; intros i c; reflexivity.
Qed.
Theorem count_bound : forall left right, fst (count_eq_at_same_pos left right) <= Nat.min (length left) (length right).
Proof. intros left right. pose proof (Counts_bound (count_spec left right)) as B. rewrite seq_length in B. exact B. Qed.

(** Two places differ and their characters are exchanged. *)
Definition Swapped (left right : str) : Prop :=
  exists u a m b v, a <> b /\ left = u ++ a :: m ++ b :: v /\ right = u ++ b :: m ++ a :: v.
Lemma same_count : forall left right, length left = length right ->
  length (filter (fun p : N * N => (fst p =? snd p)%N) (combine left right)) = length left -> left = right.
Proof.
  induction left as [|a left IH]; intros [|b right] L E; try discriminate; [reflexivity|]. cbn in L, E. injection L as L.
  destruct (N.eqb_spec a b) as [->|Hn]; cbn [length] in E.
  - f_equal. apply IH; [exact L|lia].
  - exfalso. assert (X : forall l r : str, length (filter (fun p : N * N => (fst p =? snd p)%N) (combine l r)) <= length l).
    { induction l as [|x l IHl]; intros [|y r]; cbn; try lia. specialize (IHl r). destruct (x =? y)%N; cbn; lia. }
    specialize (X left right). lia.
Qed.
Lemma count_le : forall l r : str, length (filter (fun p : N * N => (fst p =? snd p)%N) (combine l r)) <= length l.
Proof. induction l as [|x l IHl]; intros [|y r]; cbn; try lia. specialize (IHl r). destruct (x =? y)%N; cbn; lia. Qed.
Lemma count_refl : forall l : str, length (filter (fun p : N * N => (fst p =? snd p)%N) (combine l l)) = length l.
Proof. induction l as [|x l IHl]; [reflexivity|]. cbn. rewrite N.eqb_refl. cbn. f_equal. exact IHl. Qed.
Lemma combine_app : forall (A B : Type) (a : list A) (b : list B) a' b', length a = length b ->
  combine (a ++ a') (b ++ b') = combine a b ++ combine a' b'.
Proof. intros A B. induction a as [|x a IH]; intros [|y b] a' b' L; try discriminate; [reflexivity|]. cbn. f_equal. apply IH. injection L as L. exact L. Qed.

Lemma find_swap_second : forall left right l1 r1, length left = length right ->
  length left - length (filter (fun p : N * N => (fst p =? snd p)%N) (combine left right)) = 1 ->
  (find_swap left right (Some (l1, r1)) = true <-> exists m v, left = m ++ r1 :: v /\ right = m ++ l1 :: v /\ l1 <> r1).
Proof.
  induction left as [|a left IH]; intros [|b right] l1 r1 L E; try discriminate. cbn in L. injection L as L.
  cbn [find_swap combine filter fst snd length] in *. destruct (N.eqb_spec a b) as [->|Hn].
  - rewrite IH; [|exact L|cbn [length] in E; pose proof (count_le left right); lia]. split.
    + intros (m & v & -> & -> & D). exists (b :: m), v. auto.
    + intros (m & v & E1 & E2 & D). destruct m as [|c m]; cbn in E1, E2.
      * injection E1 as E1 _. injection E2 as E2 _. congruence.
      * injection E1 as _ ->. injection E2 as _ ->. exists m, v. auto.
  - assert (left = right) as <- by (apply same_count; [exact L|pose proof (count_le left right); lia]).
    rewrite andb_true_iff, !N.eqb_eq. split.
    + intros [-> ->]. exists [], left. auto.
    + intros (m & v & E1 & E2 & D). destruct m as [|c m]; cbn in E1, E2.
      * injection E1 as -> _. injection E2 as -> _. auto.
      * injection E1 as -> _. injection E2 as -> _. contradiction.
Qed.
Lemma find_swap_first : forall left right, length left = length right ->
  length left - length (filter (fun p : N * N => (fst p =? snd p)%N) (combine left right)) = 2 ->
  (find_swap left right None = true <-> Swapped left right).
Proof.
  induction left as [|a left IH]; intros [|b right] L E; try discriminate. cbn in L. injection L as L.
  cbn [find_swap combine filter fst snd length] in *. destruct (N.eqb_spec a b) as [->|Hn].
  - rewrite IH; [|exact L|cbn [length] in E; pose proof (count_le left right); lia]. split.
    + intros (u & x & m & y & v & D & -> & ->). exists (b :: u), x, m, y, v. auto.
    + intros (u & x & m & y & v & D & E1 & E2). destruct u as [|c u]; cbn in E1, E2.
      * injection E1 as E1 _. injection E2 as E2 _. congruence.
      * injection E1 as _ ->. injection E2 as _ ->. exists u, x, m, y, v. auto.
  - rewrite find_swap_second; [|exact L|pose proof (count_le left right); lia]. split.
    + intros (m & v & -> & -> & D). exists [], a, m, b, v. auto.
    + intros (u & x & m & y & v & D & E1 & E2). destruct u as [|c u]; cbn in E1, E2.
      * injection E1 as -> ->. injection E2 as -> ->. exists m, v. auto.
      * injection E1 as -> _. injection E2 as -> _. contradiction.
Qed.
Theorem swapped_spec : forall left right, snd (count_eq_at_same_pos left right) = true <-> Swapped left right.
Proof.
  intros left right. unfold count_eq_at_same_pos. cbn [snd].
  set (n := length (filter (fun p : N * N => (fst p =? snd p)%N) (combine left right))).
  destruct ((length left =? length right)%nat && (Nat.min (length left) (length right) - n =? 2)%nat) eqn:E.
  - apply andb_true_iff in E. destruct E as [E1 E2]. apply Nat.eqb_eq in E1, E2. rewrite <- E1, Nat.min_id in E2.
    apply find_swap_first; [exact E1|exact E2].
  - split; [discriminate|]. intros (u & a & m & b & v & D & E1 & E2). exfalso.
    assert (L : length left = length right) by (subst left right; repeat (rewrite app_length; cbn [length]); lia).
    rewrite <- L, Nat.eqb_refl, Nat.min_id in E. cbn [andb] in E. apply Nat.eqb_neq in E. apply E. unfold n. subst left right.
    rewrite combine_app by reflexivity. cbn [combine]. rewrite combine_app by reflexivity. cbn [combine].
    rewrite filter_app. cbn [filter fst snd]. destruct (N.eqb_spec a b) as [|_]; [contradiction|].
    rewrite filter_app. cbn [filter fst snd]. destruct (N.eqb_spec b a) as [->|_]; [contradiction|].
    rewrite !app_length. cbn [length]. rewrite !app_length. cbn [length]. rewrite !count_refl. lia.
Qed.
