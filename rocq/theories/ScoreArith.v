(** The arithmetic of suggester/ngram.rs on machine integers.  Ngram.v computes scores in [Z] and
    lengths in [nat]; here every operation on [isize] and [usize] is checked against the range of
    the type, and an operation that leaves it panics (as it does with overflow checks; without
    them it would wrap).  A cast [as isize] that changes the value counts as a fault as well. *)
From Coq Require Import List NArith ZArith Lia Bool Arith Permutation.
From Coq Require Import ZifyBool ZifyNat ZifyN.
From Verif Require Import Base Utf8 Unicode Flags Affix Aff Checker Bag Ngram Rep NgramMeasures NgramProps.
Import ListNotations.
Set Implicit Arguments.

Section Machine.
(** [isize::MAX]; [isize::MIN] is [- hi - 1] and [usize::MAX] is [2 * hi + 1]. *)
Variable hi : Z.

Definition isize (z : Z) : Res Z := if (- hi - 1 <=? z)%Z && (z <=? hi)%Z then Ret z else Panic.
Definition usize (n : nat) : Res nat := if (Z.of_nat n <=? 2 * hi + 1)%Z then Ret n else Panic.
(** [a - b] in [usize]. *)
Definition usub (a b : nat) : Res nat := if (b <=? a)%nat then Ret (a - b) else Panic.
(** [n as isize]. *)
Definition as_isize (n : nat) : Res Z := if (Z.of_nat n <=? hi)%Z then Ret (Z.of_nat n) else Panic.

(** ngram.rs 568-587. *)
Definition m_left_common (U : unicode) (h : case_handling) (left right : str) : Res nat :=
  match left, right with
  | l :: left', r :: right' =>
      if negb (l =? r)%N && negb (is_char_eq_lowercase U h l r) then Ret 0
      else match index_of_mismatch left' right' with
           | Some idx => usize (idx + 1)
           | None => usize (length left)
           end
  | _, _ => Ret 0
  end.

(** ngram.rs 609-628. *)
Definition m_round (left right : str) (k : nat) : Res Z :=
  last <- usub (length left) k ;;
  foldR (fun s i =>
      j <- usize (i + k) ;;
      if contains_str (slice left i j) right then isize (s + 1) else Ret s)
    (seq 0 (S last)) 0%Z.
Fixpoint m_go (steps k : nat) (left right : str) (score : Z) : Res Z :=
  match steps with
  | O => Ret score
  | S steps' =>
      k_score <- m_round left right k ;;
      score' <- isize (score + k_score) ;;
      if (k_score <? 2)%Z then Ret score' else m_go steps' (S k) left right score'
  end.
Definition m_similarity (n : nat) (left right : str) : Res Z :=
  m_go (Nat.min n (length left)) 1 left right 0.

(** ngram.rs 596-606. *)
Definition m_longer_worse (n : nat) (left right : str) : Res Z :=
  match right with
  | [] => Ret 0%Z
  | _ :: _ =>
      score <- m_similarity n left right ;;
      r <- as_isize (length right) ;;
      l <- as_isize (length left) ;;
      d0 <- isize (r - l) ;;
      d <- isize (d0 - 2) ;;
      if (0 <? d)%Z then isize (score - d) else Ret score
  end.
(** The penalty of lines 635-638 and 676-679. *)
Definition m_mismatch (score : Z) (left right : str) : Res Z :=
  r <- as_isize (length right) ;;
  l <- as_isize (length left) ;;
  d0 <- isize (r - l) ;;
  d1 <- isize (Z.abs d0) ;;
  d <- isize (d1 - 2) ;;
  if (0 <? d)%Z then isize (score - d) else Ret score.
(** ngram.rs 630-640. *)
Definition m_any_mismatch (n : nat) (left right : str) : Res Z :=
  match right with
  | [] => Ret 0%Z
  | _ :: _ => score <- m_similarity n left right ;; m_mismatch score left right
  end.

(** ngram.rs 643-669. *)
Fixpoint m_lcs_row (l : N) (right : str) (row : list nat) (row1_prev row2_prev : nat) : Res (list nat * nat) :=
  match row, right with
  | row2_current :: row', r :: right' =>
      v <- (if (l =? r)%N then usize (row1_prev + 1) else Ret (Nat.max row2_current row2_prev)) ;;
      p <- m_lcs_row l right' row' row2_current v ;;
      Ret (v :: fst p, snd p)
  | _, _ => Ret ([], row2_prev)
  end.
Fixpoint m_lcs_go (left right : str) (row : list nat) (row1_prev : nat) : Res nat :=
  match left with
  | [] => Ret row1_prev
  | l :: left' => p <- m_lcs_row l right row 0 0 ;; m_lcs_go left' right (fst p) (snd p)
  end.
Definition m_lcs (left right : str) : Res nat := m_lcs_go left right (repeat 0 (length right)) 0.

(** ngram.rs 683-704. *)
Definition m_weighted_round (left right : str) (k : nat) : Res Z :=
  last <- usub (length left) k ;;
  foldR (fun s i =>
      j <- usize (i + k) ;;
      if contains_str (slice left i j) right then isize (s + 1)
      else
        s1 <- isize (s - 1) ;;
        if (i =? 0)%nat then isize (s1 - 1)
        else e <- usub (length left) k ;; if (i =? e)%nat then isize (s1 - 1) else Ret s1)
    (seq 0 (S last)) 0%Z.
Definition m_weighted (n : nat) (left right : str) : Res Z :=
  foldR (fun s k => r <- m_weighted_round left right k ;; isize (s + r)) (seq 1 (Nat.min n (length left))) 0%Z.
(** ngram.rs 671-681. *)
Definition m_any_mismatch_weighted (n : nat) (left right : str) : Res Z :=
  match right with
  | [] => Ret 0%Z
  | _ :: _ => score <- m_weighted n left right ;; m_mismatch score left right
  end.

(** ngram.rs 706-730. *)
Definition m_count_eq (left right : str) : Res (nat * bool) :=
  let n := Nat.min (length left) (length right) in
  count <- usize (length (filter (fun p => (fst p =? snd p)%N) (combine left right))) ;;
  if (length left =? length right)%nat then
    d <- usub n count ;;
    Ret (count, if (d =? 2)%nat then find_swap left right None else false)
  else Ret (count, false).

Section Suggest.
Variable hp : heaps.
Variable k : checker.
Variable words : list (str * flagset).
Notation opts := (ad_options (ck_aff k)).
Notation U := (ck_u k).
Notation case := (o_case opts).

(** ngram.rs 81-117. *)
Definition m_root_step (word : str) (roots : list (Z * (str * flagset))) (entry : str * flagset)
  : Res (list (Z * (str * flagset))) :=
  if ineligible k (snd entry) then Ret roots
  else
    stem <- chars_str (fst entry) ;;
    c <- m_left_common U case word stem ;;
    s0 <- as_isize c ;;
    lower <- chars_str (lowercase U case stem) ;;
    n <- m_longer_worse 3 word lower ;;
    score <- isize (s0 + n) ;;
    Ret (push_bounded hp 100 roots (score, entry)).

(** ngram.rs 119-137. *)
Definition m_threshold (word : str) : Res Z :=
  t <- foldR (fun t i =>
      n <- m_any_mismatch (length word) word (firstn i word ++ mangle 0 (skipn i word)) ;;
      isize (t + n))
    (firstn 3 (seq 1 (length word))) 0%Z ;;
  isize (Z.quot t 3).

(** ngram.rs 160-190. *)
Definition m_guess_step (word : str) (limit : Z) (guesses : list (Z * str)) (expanded : str) : Res (list (Z * str)) :=
  e <- chars_str expanded ;;
  c <- m_left_common U case word e ;;
  s0 <- as_isize c ;;
  n <- m_any_mismatch (length word) word (lowercase U case e) ;;
  score <- isize (s0 + n) ;;
  Ret (if (score <? limit)%Z then guesses else push_bounded hp 200 guesses (score, expanded)).

(** ngram.rs 207-252. *)
Fixpoint m_rescore (word : str) (l : list (Z * str)) : Res (list (Z * str)) :=
  match l with
  | [] => Ret []
  | (score, guess) :: l' =>
      lower <- chars_str (lowercase U case guess) ;;
      lcs <- m_lcs word lower ;;
      if (length word =? length lower)%nat && (length word =? lcs)%nat then
        s <- isize (score + 2000) ;; Ret ((s, guess) :: l')
      else
        a <- m_any_mismatch_weighted 2 word lower ;;
        b <- m_any_mismatch_weighted 2 lower word ;;
        ngram2 <- isize (a + b) ;;
        ngram4 <- m_any_mismatch 4 word lower ;;
        left_common <- m_left_common U case word lower ;;
        p <- m_count_eq word lower ;;
        lcs' <- as_isize lcs ;;
        t0 <- isize (2 * lcs') ;;
        wl <- as_isize (length word) ;;
        ll <- as_isize (length lower) ;;
        d0 <- isize (wl - ll) ;;
        d1 <- isize (Z.abs d0) ;;
        t1 <- isize (t0 - d1) ;;
        c0 <- as_isize left_common ;;
        c1 <- isize (c0 + ngram2) ;;
        c2 <- isize (c1 + ngram4) ;;
        s1 <- isize (t1 + c2) ;;
        s2 <- (if (fst p =? 0)%nat then Ret s1 else isize (s1 + 1)) ;;
        s3 <- (if snd p then isize (s2 + 10) else Ret s2) ;;
        five <- isize (5 * ngram2) ;;
        both <- usize (length word + length lower) ;;
        factor <- usub 10 (N.to_nat (o_max_diff opts)) ;;
        product <- usize (both * factor) ;;
        bar <- as_isize product ;;
        s4 <- (if (five <? bar)%Z then isize (s3 - 1000) else Ret s3) ;;
        r <- m_rescore word l' ;; Ret ((s4, guess) :: r)
  end.

(** ngram.rs 72-292. *)
Definition m_ngram_suggest (word : str) (out : list str) : Res (list str) :=
  word <- chars_str word ;;
  roots <- foldR (m_root_step word) words [] ;;
  limit <- m_threshold word ;;
  guesses <- foldR (fun g root =>
               expanded <- expand_stem_for_ngram k (fst (snd root)) (snd (snd root)) word ;;
               foldR (m_guess_step word limit) expanded g) roots [] ;;
  scored <- m_rescore word (hp_into_sorted_vec hp guesses) ;;
  let sorted := hp_sort_unstable hp scored in
  let selective := match sorted with (s, _) :: _ => (1000 <? s)%Z | [] => false end in
  let old := length out in
  most <- usize (old + N.to_nat (o_max_ngram opts)) ;;
  let max := Nat.min max_suggestions most in
  Ret (push_guesses k selective old max sorted out).
End Suggest.

(** ** Nothing leaves its range *)
Hypothesis POS : (0 <= hi)%Z.
Lemma isize_ok : forall z, (- hi - 1 <= z <= hi)%Z -> isize z = Ret z.
Proof. intros z H. unfold isize. replace (_ && _) with true; [reflexivity|]. symmetry. lia. Qed.
Lemma usize_ok : forall n, (Z.of_nat n <= hi)%Z -> usize n = Ret n.
Proof. intros n H. unfold usize. replace (_ <=? _)%Z with true; [reflexivity|]. symmetry. lia. Qed.
Lemma as_isize_ok : forall n, (Z.of_nat n <= hi)%Z -> as_isize n = Ret (Z.of_nat n).
Proof. intros n H. unfold as_isize. replace (_ <=? _)%Z with true; [reflexivity|]. symmetry. lia. Qed.
Lemma usub_ok : forall a b, b <= a -> usub a b = Ret (a - b).
Proof. intros a b H. unfold usub. replace (_ <=? _) with true; [reflexivity|]. symmetry. lia. Qed.

Lemma m_left_common_ok : forall U h left right, (Z.of_nat (length left) <= hi)%Z ->
  m_left_common U h left right = Ret (left_common_substring_length U h left right).
Proof.
  intros U h [|l left] [|r right] H; try reflexivity. cbn [m_left_common left_common_substring_length].
  destruct (_ && _); [reflexivity|]. pose proof (mismatch_spec left right) as M. destruct (index_of_mismatch left right) as [i|].
  - apply usize_ok. cbn [length] in H. lia.
  - apply usize_ok. exact H.
Qed.

Lemma round_fold : forall left right k l s, (forall i, In i l -> Z.of_nat (i + k) <= hi)%Z -> (0 <= s)%Z -> (s + Z.of_nat (length l) <= hi)%Z ->
  exists r, foldR (fun s i => j <- usize (i + k) ;; if contains_str (slice left i j) right then isize (s + 1) else Ret s) l s = Ret r /\
    r = fold_left (fun s i => if contains_str (slice left i (i + k)) right then (s + 1)%Z else s) l s /\ (s <= r <= s + Z.of_nat (length l))%Z.
Proof.
  intros left right k. induction l as [|i l IH]; intros s HI H0 HS; [exists s; cbn; split; [reflexivity|split; [reflexivity|lia]]|].
  cbn [foldR fold_left length] in *. rewrite usize_ok by (apply HI; left; reflexivity). cbn [bindR].
  destruct (contains_str _ _).
  - rewrite isize_ok by lia. cbn [bindR]. destruct (IH (s + 1)%Z) as (r & E & F & B); [intros; apply HI; right; assumption|lia|lia|].
    exists r. split; [exact E|]. split; [exact F|lia].
  - cbn [bindR]. destruct (IH s) as (r & E & F & B); [intros; apply HI; right; assumption|lia|lia|]. exists r. split; [exact E|]. split; [exact F|lia].
Qed.
Lemma m_round_ok : forall left right k, 1 <= k <= length left -> (Z.of_nat (length left) <= hi)%Z ->
  m_round left right k = Ret (ngram_round left right k) /\ (0 <= ngram_round left right k <= Z.of_nat (length left))%Z.
Proof.
  intros left right k H HL. unfold m_round, ngram_round. rewrite usub_ok by lia. cbn [bindR].
  destruct (@round_fold left right k (seq 0 (S (length left - k))) 0%Z) as (r & E & F & B).
  - intros i Hi. apply in_seq in Hi. lia.
  - lia.
  - rewrite seq_length. lia.
  - rewrite E, <- F. rewrite seq_length in B. split; [reflexivity|lia].
Qed.
Lemma m_go_ok : forall left right steps k s, 1 <= k -> k + steps <= S (length left) -> (0 <= s)%Z ->
  (Z.of_nat (length left) <= hi)%Z -> (s + Z.of_nat (steps * length left) <= hi)%Z ->
  m_go steps k left right s = Ret (ngram_go steps k left right s) /\
  (s <= ngram_go steps k left right s <= s + Z.of_nat (steps * length left))%Z.
Proof.
  intros left right. induction steps as [|n IH]; intros k s H1 H2 H3 H4 H5; [cbn; split; [reflexivity|lia]|].
  cbn [m_go ngram_go]. destruct (@m_round_ok left right k) as [-> B]; [lia|exact H4|]. cbn [bindR].
  rewrite Nat.mul_succ_l in *. rewrite isize_ok by lia. cbn [bindR]. destruct (_ <? 2)%Z; [split; [reflexivity|lia]|].
  destruct (IH (S k) (s + ngram_round left right k)%Z) as [-> B2]; try lia. split; [reflexivity|lia].
Qed.
Lemma m_similarity_ok : forall n left right, (Z.of_nat (length left) <= hi)%Z -> (Z.of_nat (Nat.min n (length left) * length left) <= hi)%Z ->
  m_similarity n left right = Ret (ngram_similarity n left right) /\
  (0 <= ngram_similarity n left right <= Z.of_nat (Nat.min n (length left) * length left))%Z.
Proof.
  intros n left right H1 H2. unfold m_similarity, ngram_similarity.
  destruct (@m_go_ok left right (Nat.min n (length left)) 1 0%Z) as [-> B]; try lia. split; [reflexivity|lia].
Qed.
Lemma m_longer_worse_ok : forall n left right,
  (Z.of_nat (Nat.min n (length left) * length left) + Z.of_nat (length left) + Z.of_nat (length right) + 2 <= hi)%Z ->
  m_longer_worse n left right = Ret (ngram_similarity_longer_worse n left right) /\
  (- Z.of_nat (length right) <= ngram_similarity_longer_worse n left right <= Z.of_nat (Nat.min n (length left) * length left))%Z.
Proof.
  intros n left right H. unfold m_longer_worse, ngram_similarity_longer_worse. destruct right as [|c right]; [split; [reflexivity|lia]|].
  remember (c :: right) as w eqn:Ew. clear Ew. destruct (@m_similarity_ok n left w) as [-> B]; try lia. cbn [bindR].
  rewrite !as_isize_ok by lia. cbn [bindR]. rewrite isize_ok by lia. cbn [bindR]. rewrite isize_ok by lia. cbn [bindR].
  destruct (0 <? _)%Z eqn:E; [rewrite isize_ok by lia|]; (split; [reflexivity|lia]).
Qed.
Lemma m_mismatch_ok : forall s left right, (Z.abs s + Z.of_nat (length left) + Z.of_nat (length right) + 2 <= hi)%Z ->
  let d := (Z.abs (Z.of_nat (length right) - Z.of_nat (length left)) - 2)%Z in
  let r := if (0 <? d)%Z then (s - d)%Z else s in
  m_mismatch s left right = Ret r /\ (Z.abs r <= Z.abs s + Z.of_nat (length left) + Z.of_nat (length right))%Z.
Proof.
  intros s left right H. cbv zeta. unfold m_mismatch. rewrite !as_isize_ok by lia. cbn [bindR]. rewrite isize_ok by lia. cbn [bindR].
  rewrite isize_ok by lia. cbn [bindR]. rewrite isize_ok by lia. cbn [bindR].
  destruct (0 <? _)%Z eqn:E; [rewrite isize_ok by lia|]; (split; [reflexivity|lia]).
Qed.
Lemma m_any_mismatch_ok : forall n left right,
  (Z.of_nat (Nat.min n (length left) * length left) + Z.of_nat (length left) + Z.of_nat (length right) + 2 <= hi)%Z ->
  m_any_mismatch n left right = Ret (ngram_similarity_any_mismatch n left right) /\
  (Z.abs (ngram_similarity_any_mismatch n left right) <=
   Z.of_nat (Nat.min n (length left) * length left) + Z.of_nat (length left) + Z.of_nat (length right))%Z.
Proof.
  intros n left right H. unfold m_any_mismatch, ngram_similarity_any_mismatch. destruct right as [|c right]; [split; [reflexivity|lia]|].
  remember (c :: right) as w eqn:Ew. clear Ew. destruct (@m_similarity_ok n left w) as [-> B]; try lia. cbn [bindR].
  destruct (@m_mismatch_ok (ngram_similarity n left w) left w) as [-> B2]; [lia|]. split; [reflexivity|]. cbv zeta in *. lia.
Qed.

Lemma weighted_fold : forall left right k l s, k <= length left -> (forall i, In i l -> Z.of_nat (i + k) <= hi)%Z ->
  (Z.abs s + 2 * Z.of_nat (length l) <= hi)%Z ->
  exists r, foldR (fun s i => j <- usize (i + k) ;; if contains_str (slice left i j) right then isize (s + 1)
      else s1 <- isize (s - 1) ;; if (i =? 0)%nat then isize (s1 - 1)
           else e <- usub (length left) k ;; if (i =? e)%nat then isize (s1 - 1) else Ret s1) l s = Ret r /\
    r = fold_left (fun s i => if contains_str (slice left i (i + k)) right then (s + 1)%Z
      else if (i =? 0)%nat || (i =? length left - k)%nat then (s - 2)%Z else (s - 1)%Z) l s /\
    (Z.abs r <= Z.abs s + 2 * Z.of_nat (length l))%Z.
Proof.
  intros left right k l s HK. revert s. induction l as [|i l IH]; intros s HI HS; [exists s; cbn; split; [reflexivity|split; [reflexivity|lia]]|].
  cbn [foldR fold_left length] in *. rewrite usize_ok by (apply HI; left; reflexivity). cbn [bindR].
  assert (HI' : forall i, In i l -> (Z.of_nat (i + k) <= hi)%Z) by (intros; apply HI; right; assumption).
  assert (STEP : forall x, (Z.abs x <= Z.abs s + 2)%Z -> exists r, foldR (fun s i => j <- usize (i + k) ;; if contains_str (slice left i j) right then isize (s + 1)
      else s1 <- isize (s - 1) ;; if (i =? 0)%nat then isize (s1 - 1)
           else e <- usub (length left) k ;; if (i =? e)%nat then isize (s1 - 1) else Ret s1) l x = Ret r /\
    r = fold_left (fun s i => if contains_str (slice left i (i + k)) right then (s + 1)%Z
      else if (i =? 0)%nat || (i =? length left - k)%nat then (s - 2)%Z else (s - 1)%Z) l x /\
    (Z.abs r <= Z.abs s + 2 * Z.of_nat (S (length l)))%Z).
  { intros x Hx. destruct (IH x HI') as (r & E & F & B); [lia|]. exists r. split; [exact E|]. split; [exact F|lia]. }
  destruct (contains_str _ _).
  - rewrite isize_ok by lia. cbn [bindR]. apply STEP. lia.
  - rewrite isize_ok by lia. cbn [bindR]. destruct (i =? 0) eqn:E0; cbn [orb].
    + rewrite isize_ok by lia. cbn [bindR]. replace (s - 1 - 1)%Z with (s - 2)%Z by lia. apply STEP. lia.
    + rewrite usub_ok in * by lia. cbn [bindR] in *. destruct (i =? length left - k).
      * rewrite isize_ok by lia. cbn [bindR]. replace (s - 1 - 1)%Z with (s - 2)%Z by lia. apply STEP. lia.
      * cbn [bindR]. apply STEP. lia.
Qed.
Lemma m_weighted_round_ok : forall left right k, 1 <= k <= length left -> (2 * Z.of_nat (length left) <= hi)%Z ->
  m_weighted_round left right k = Ret (weighted_round left right k) /\ (Z.abs (weighted_round left right k) <= 2 * Z.of_nat (length left))%Z.
Proof.
  intros left right k H HL. unfold m_weighted_round, weighted_round.
  destruct (@weighted_fold left right k (seq 0 (S (length left - k))) 0%Z) as (r & E & F & B).
  - lia.
  - intros i Hi. apply in_seq in Hi. lia.
  - rewrite seq_length. lia.
  - rewrite seq_length in B. rewrite <- F. rewrite usub_ok in * by lia. cbn [bindR] in *. rewrite E. split; [reflexivity|lia].
Qed.
Lemma m_weighted_ok : forall left right n, (2 * Z.of_nat (length left) <= hi)%Z ->
  (2 * Z.of_nat (Nat.min n (length left) * length left) <= hi)%Z ->
  m_weighted n left right = Ret (ngram_similarity_weighted n left right) /\
  (Z.abs (ngram_similarity_weighted n left right) <= 2 * Z.of_nat (Nat.min n (length left) * length left))%Z.
Proof.
  intros left right n H0 H. unfold m_weighted, ngram_similarity_weighted.
  assert (G : forall m a s, 1 <= a -> a + m <= S (length left) -> (Z.abs s + 2 * Z.of_nat (m * length left) <= hi)%Z ->
    foldR (fun s k => r <- m_weighted_round left right k ;; isize (s + r)) (seq a m) s =
      Ret (fold_left (fun s k => (s + weighted_round left right k)%Z) (seq a m) s) /\
    (Z.abs (fold_left (fun s k => (s + weighted_round left right k)%Z) (seq a m) s) <= Z.abs s + 2 * Z.of_nat (m * length left))%Z).
  { induction m as [|m IH]; intros a s Ha Hm Hs; [cbn; split; [reflexivity|lia]|]. rewrite Nat.mul_succ_l in *. cbn [seq foldR fold_left].
    destruct (@m_weighted_round_ok left right a) as [-> B]; [lia|exact H0|]. cbn [bindR]. rewrite isize_ok by lia. cbn [bindR].
    destruct (IH (S a) (s + weighted_round left right a)%Z) as [-> B2]; try lia. split; [reflexivity|lia]. }
  destruct (G (Nat.min n (length left)) 1 0%Z) as [E B]; try lia. split; [exact E|lia].
Qed.
Lemma m_any_mismatch_weighted_ok : forall n left right,
  (2 * Z.of_nat (Nat.min n (length left) * length left) + 2 * Z.of_nat (length left) + Z.of_nat (length right) + 2 <= hi)%Z ->
  m_any_mismatch_weighted n left right = Ret (ngram_similarity_any_mismatch_weighted n left right) /\
  (Z.abs (ngram_similarity_any_mismatch_weighted n left right) <=
   2 * Z.of_nat (Nat.min n (length left) * length left) + Z.of_nat (length left) + Z.of_nat (length right))%Z.
Proof.
  intros n left right H. unfold m_any_mismatch_weighted, ngram_similarity_any_mismatch_weighted. destruct right as [|c right]; [split; [reflexivity|lia]|].
  remember (c :: right) as w eqn:Ew. clear Ew. destruct (@m_weighted_ok left w n) as [-> B]; try lia. cbn [bindR].
  destruct (@m_mismatch_ok (ngram_similarity_weighted n left w) left w) as [-> B2]; [lia|]. split; [reflexivity|]. cbv zeta in *. lia.
Qed.

Lemma m_lcs_row_ok : forall l b right row r1 r2, (Z.of_nat b + 1 <= hi)%Z -> Forall (fun x => x <= b) row -> r1 <= b -> r2 <= S b ->
  m_lcs_row l right row r1 r2 = Ret (lcs_row l right row r1 r2) /\
  Forall (fun x => x <= S b) (fst (lcs_row l right row r1 r2)) /\ snd (lcs_row l right row r1 r2) <= S b.
Proof.
  intros l b. induction right as [|r right IH]; intros [|c row] r1 r2 HB HF H1 H2; try (cbn; auto; fail).
  apply Forall_cons_iff in HF. destruct HF as [Hc HF]. cbn [m_lcs_row lcs_row].
  set (v := if (l =? r)%N then r1 + 1 else Nat.max c r2).
  assert (V : v <= S b) by (unfold v; destruct (l =? r)%N; lia).
  replace (if (l =? r)%N then usize (r1 + 1) else Ret (Nat.max c r2)) with (Ret v) by (unfold v; destruct (l =? r)%N; [rewrite usize_ok by lia|]; reflexivity).
  cbn [bindR]. destruct (IH row c v HB HF Hc V) as (-> & F & S'). cbn [bindR]. destruct (lcs_row l right row c v) as [rest last]. cbn [fst snd] in *.
  split; [reflexivity|]. split; [constructor; assumption|exact S'].
Qed.
Lemma m_lcs_ok : forall left right, (Z.of_nat (length left) <= hi)%Z -> m_lcs left right = Ret (longest_common_subsequence_length left right).
Proof.
  intros left right H. unfold m_lcs, longest_common_subsequence_length.
  assert (G : forall left b row prev, (Z.of_nat (b + length left) <= hi)%Z -> Forall (fun x => x <= b) row -> prev <= b ->
    m_lcs_go left right row prev = Ret (lcs_go left right row prev)).
  { clear. induction left as [|l left IH]; intros b row prev HB HF HP; [reflexivity|]. cbn [m_lcs_go lcs_go length] in *.
    destruct (@m_lcs_row_ok l b right row 0 0) as (-> & F & P); [lia|exact HF|lia|lia|]. cbn [bindR].
    destruct (lcs_row l right row 0 0) as [row' last]. cbn [fst snd] in *. apply (IH (S b)); [lia|exact F|exact P]. }
  apply (G left 0); [cbn; lia| |lia]. apply Forall_forall. intros x Hx. apply repeat_spec in Hx. lia.
Qed.
Lemma m_count_eq_ok : forall left right, (Z.of_nat (length left) <= hi)%Z -> m_count_eq left right = Ret (count_eq_at_same_pos left right).
Proof.
  intros left right H. unfold m_count_eq, count_eq_at_same_pos. pose proof (count_le left right) as C.
  pose proof (count_bound left right) as C2. cbn [fst count_eq_at_same_pos] in C2.
  rewrite usize_ok by lia. cbn [bindR]. destruct (_ =? length right) eqn:E; cbn [andb]; [|reflexivity].
  rewrite usub_ok by exact C2. reflexivity.
Qed.
End Machine.
