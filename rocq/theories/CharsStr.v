(** [CharsStr] (suggester/ngram.rs 421-566) on the bytes of a string, with its unchecked accesses,
    and the similarity measures as they are computed through it. *)
From Coq Require Import List NArith ZArith Lia Bool Arith.
From Coq Require Import ZifyBool ZifyNat ZifyN.
From Verif Require Import Base Utf8 Unicode Ngram.
Import ListNotations.
Set Implicit Arguments.

(** A result, a panic, or undefined behaviour. *)
Inductive Out (A : Type) := Val (a : A) | Panics | Undefined.
Arguments Val {A}. Arguments Panics {A}. Arguments Undefined {A}.
Definition bindO {A B} (m : Out A) (f : A -> Out B) : Out B :=
  match m with Val a => f a | Panics => Panics | Undefined => Undefined end.
Notation "x <=! m ;; k" := (bindO m (fun x => k)) (at level 61, m at next level, right associativity).
Fixpoint foldO {S A} (f : S -> A -> Out S) (l : list A) (s : S) : Out S :=
  match l with [] => Val s | a :: l' => s' <=! f s a ;; foldO f l' s' end.

(** [str::get_unchecked(a..b)]: undefined unless the range is in bounds and both ends are
    character boundaries. *)
Definition get_unchecked (bytes : list N) (a b : nat) : Out (list N) :=
  if (a <=? b) && (b <=? length bytes) && boundary bytes a && boundary bytes b then Val (slice bytes a b) else Undefined.
(** [str::char_indices], the positions only. *)
Fixpoint char_positions (fuel off : nat) (bytes : list N) : list nat :=
  match fuel with
  | O => []
  | S fuel' => match dec1 bytes with
               | Some (_, rest) => off :: char_positions fuel' (off + (length bytes - length rest)) rest
               | None => []
               end
  end.
(** [as u16]. *)
Definition as_u16 (n : nat) : N := (N.of_nat n mod 65536)%N.

(** ngram.rs 476-480. *)
Record chars := mkChars { cs_inner : list N; cs_indices : list N }.
(** ngram.rs 497-512. *)
Definition chars_new (bytes : list N) : Out chars :=
  if (N.of_nat (length bytes) <=? 65535)%N
  then Val (mkChars bytes (map as_u16 (char_positions (length bytes) 0 bytes) ++ [as_u16 (length bytes)]))
  else Panics.
(** ngram.rs 514-517, 519-523. *)
Definition len_chars (v : chars) : nat := length (cs_indices v) - 1.
Definition chars_empty (v : chars) : bool := (length (cs_indices v) =? 1)%nat.
(** [self.char_indices[i] as usize]: bounds checked. *)
Definition index_at (v : chars) (i : nat) : Out nat :=
  match nth_error (cs_indices v) i with Some x => Val (N.to_nat x) | None => Panics end.
(** ngram.rs 529-541. *)
Definition char_slice (v : chars) (a b : nat) : Out (list N) :=
  start <=! index_at v a ;; end_ <=! index_at v b ;; get_unchecked (cs_inner v) start end_.
(** ngram.rs 543-551. *)
Definition str_char_at (v : chars) (i : nat) : Out (list N) :=
  start <=! index_at v i ;; end_ <=! index_at v (i + 1) ;; get_unchecked (cs_inner v) start end_.
(** ngram.rs 553-562.  [slice::windows(2)], all items. *)
Fixpoint windows2 (l : list N) : list (N * N) :=
  match l with a :: (b :: _) as l' => (a, b) :: windows2 l' | _ => [] end.
Fixpoint mapO {A B} (f : A -> Out B) (l : list A) : Out (list B) :=
  match l with [] => Val [] | a :: l' => b <=! f a ;; r <=! mapO f l' ;; Val (b :: r) end.
Definition char_iter (v : chars) : Out (list (list N)) :=
  mapO (fun w => get_unchecked (cs_inner v) (N.to_nat (fst w)) (N.to_nat (snd w))) (windows2 (cs_indices v)).

(** *** The measures *)
(** ngram.rs 609-628. *)
Definition b_round (left : chars) (right : list N) (k : nat) : Out Z :=
  foldO (fun s i => kgram <=! char_slice left i (i + k) ;; Val (if contains_str kgram right then (s + 1)%Z else s))
    (seq 0 (S (len_chars left - k))) 0%Z.
Fixpoint b_go (steps k : nat) (left : chars) (right : list N) (score : Z) : Out Z :=
  match steps with
  | O => Val score
  | S steps' => k_score <=! b_round left right k ;;
      if (k_score <? 2)%Z then Val (score + k_score)%Z else b_go steps' (S k) left right (score + k_score)
  end.
Definition b_similarity (n : nat) (left : chars) (right : list N) : Out Z := b_go (Nat.min n (len_chars left)) 1 left right 0.
(** ngram.rs 596-606. *)
Definition b_longer_worse (n : nat) (left right : chars) : Out Z :=
  if chars_empty right then Val 0%Z
  else score <=! b_similarity n left (cs_inner right) ;;
       let d := (Z.of_nat (len_chars right) - Z.of_nat (len_chars left) - 2)%Z in
       Val (if (0 <? d)%Z then (score - d)%Z else score).
(** ngram.rs 630-640; [right.chars().count()]. *)
Definition b_any_mismatch (n : nat) (left : chars) (right : list N) : Out Z :=
  match right with
  | [] => Val 0%Z
  | _ :: _ => score <=! b_similarity n left right ;;
      let d := (Z.abs (Z.of_nat (length (char_positions (length right) 0 right)) - Z.of_nat (len_chars left)) - 2)%Z in
      Val (if (0 <? d)%Z then (score - d)%Z else score)
  end.
(** ngram.rs 683-704, 671-681. *)
Definition b_weighted_round (left : chars) (right : list N) (k : nat) : Out Z :=
  foldO (fun s i => kgram <=! char_slice left i (i + k) ;;
      Val (if contains_str kgram right then (s + 1)%Z
           else if (i =? 0)%nat || (i =? len_chars left - k)%nat then (s - 2)%Z else (s - 1)%Z))
    (seq 0 (S (len_chars left - k))) 0%Z.
Definition b_weighted (n : nat) (left : chars) (right : list N) : Out Z :=
  foldO (fun s k => r <=! b_weighted_round left right k ;; Val (s + r)%Z) (seq 1 (Nat.min n (len_chars left))) 0%Z.
Definition b_any_mismatch_weighted (n : nat) (left right : chars) : Out Z :=
  if chars_empty right then Val 0%Z
  else score <=! b_weighted n left (cs_inner right) ;;
       let d := (Z.abs (Z.of_nat (len_chars right) - Z.of_nat (len_chars left)) - 2)%Z in
       Val (if (0 <? d)%Z then (score - d)%Z else score).
(** ngram.rs 643-669.  One row: the entries from [j] on. *)
Fixpoint b_lcs_row (l : list N) (right : chars) (j : nat) (row : list nat) (row1_prev row2_prev : nat) : Out (list nat * nat) :=
  match row with
  | row2_current :: row' =>
      r <=! str_char_at right j ;;
      let v := if str_eqb l r then row1_prev + 1 else Nat.max row2_current row2_prev in
      p <=! b_lcs_row l right (j + 1) row' row2_current v ;;
      Val (v :: fst p, snd p)
  | [] => Val ([], row2_prev)
  end.
Fixpoint b_lcs_go (left : list (list N)) (right : chars) (row : list nat) (row1_prev : nat) : Out nat :=
  match left with
  | [] => Val row1_prev
  | l :: left' => p <=! b_lcs_row l right 0 row 0 0 ;; b_lcs_go left' right (fst p) (snd p)
  end.
Definition b_lcs (left right : chars) : Out nat :=
  it <=! char_iter left ;; b_lcs_go it right (repeat 0 (len_chars right)) 0.
(** ngram.rs 706-730. *)
Fixpoint b_find_swap (left right : list (list N)) (first : option (list N * list N)) : bool :=
  match left, right with
  | l :: left', r :: right' =>
      if str_eqb l r then b_find_swap left' right' first
      else match first with
           | Some (l1, r1) => str_eqb l1 r && str_eqb r1 l
           | None => b_find_swap left' right' (Some (l, r))
           end
  | _, _ => false
  end.
Definition b_count_eq (left right : chars) : Out (nat * bool) :=
  let n := Nat.min (len_chars left) (len_chars right) in
  li <=! char_iter left ;; ri <=! char_iter right ;;
  let count := length (filter (fun p => str_eqb (fst p) (snd p)) (combine li ri)) in
  Val (count, if (len_chars left =? len_chars right)%nat && (n - count =? 2)%nat then b_find_swap li ri None else false).

(** ** Proofs *)
Lemma foldO_val : forall S A (f : S -> A -> Out S) g l s, (forall s a, In a l -> f s a = Val (g s a)) -> foldO f l s = Val (fold_left g l s).
Proof.
  intros S A f g l. induction l as [|a l IH]; intros s H; [reflexivity|]. cbn [foldO fold_left]. rewrite H by (left; reflexivity).
  cbn [bindO]. apply IH. intros. apply H. right. assumption.
Qed.
Lemma mapO_val : forall A B (f : A -> Out B) g l, (forall a, In a l -> f a = Val (g a)) -> mapO f l = Val (map g l).
Proof.
  intros A B f g l H. induction l as [|a l IH]; [reflexivity|]. cbn [mapO map]. rewrite H by (left; reflexivity). cbn [bindO].
  rewrite IH by (intros; apply H; right; assumption). reflexivity.
Qed.

Lemma positions_enc : forall s fuel off, scalars s -> length (enc s) <= fuel ->
  char_positions fuel off (enc s) = map (fun i => off + length (enc (firstn i s))) (seq 0 (length s)).
Proof.
  induction s as [|c s IH]; intros fuel off Hs Hf; [destruct fuel; reflexivity|]. apply Forall_cons_iff in Hs. destruct Hs as [Hc Hs].
  change (enc (c :: s)) with (enc1 c ++ enc s) in *. pose proof (enc1_nonempty c) as P. rewrite app_length in Hf.
  destruct fuel as [|fuel]; [lia|]. cbn [char_positions]. rewrite dec1_enc1 by exact Hc. rewrite app_length.
  replace (length (enc1 c) + length (enc s) - length (enc s)) with (length (enc1 c)) by lia. rewrite IH by (assumption || lia).
  cbn [length seq map firstn]. f_equal; [cbn; lia|]. rewrite <- seq_shift, map_map. apply map_ext. intros i. cbn [firstn].
  change (enc (c :: firstn i s)) with (enc1 c ++ enc (firstn i s)). rewrite app_length. lia.
Qed.

Section View.
Variable s : str.
Hypothesis Hs : scalars s.
Definition at_char (i : nat) : nat := length (enc (firstn i s)).
Definition view : chars := mkChars (enc s) (map (fun i => N.of_nat (at_char i)) (seq 0 (S (length s)))).

Lemma at_char_le : forall i, at_char i <= length (enc s).
Proof. intros i. unfold at_char. rewrite <- (firstn_skipn i s) at 2. rewrite enc_app, app_length. lia. Qed.
Lemma new_view : (blen s <= 65535)%N -> chars_new (enc s) = Val view.
Proof.
  intros HB. pose proof (blen_enc s) as BE. unfold chars_new. destruct (N.leb_spec (N.of_nat (length (enc s))) 65535) as [L|L]; [|lia].
  rewrite positions_enc by (assumption || lia). unfold view. f_equal. f_equal. rewrite seq_S, map_app, map_map. cbn [map]. f_equal.
  - apply map_ext. intros i. unfold as_u16. rewrite N.mod_small; [reflexivity|]. pose proof (at_char_le i). unfold at_char in *. lia.
  - unfold as_u16, at_char. cbn [Nat.add]. rewrite firstn_all. rewrite N.mod_small by lia. reflexivity.
Qed.
Lemma len_view : len_chars view = length s.
Proof. unfold len_chars, view. cbn [cs_indices]. rewrite map_length, seq_length. lia. Qed.
Lemma empty_view : chars_empty view = match s with [] => true | _ => false end.
Proof. unfold chars_empty, view. cbn [cs_indices]. rewrite map_length, seq_length. destruct s; reflexivity. Qed.
Lemma nth_seq : forall n i a, nth_error (seq a n) i = if i <? n then Some (a + i) else None.
Proof.
  induction n as [|n IH]; intros i a; [destruct i; reflexivity|]. destruct i as [|i]; [cbn; f_equal; lia|]. cbn [seq nth_error].
  rewrite IH. change (S i <? S n) with (i <? n). destruct (i <? n); [f_equal; lia|reflexivity].
Qed.
Lemma index_view : forall i, index_at view i = if i <=? length s then Val (at_char i) else Panics.
Proof.
  intros i. unfold index_at, view. cbn [cs_indices]. rewrite nth_error_map, nth_seq. change (i <? S (length s)) with (i <=? length s).
  destruct (i <=? length s); cbn [option_map]; [|reflexivity]. rewrite Nnat.Nat2N.id. reflexivity.
Qed.
Lemma at_boundary : forall i, boundary (enc s) (at_char i) = true.
Proof.
  intros i. apply boundary_spec; [exact Hs|apply at_char_le|]. exists (firstn i s), (skipn i s). split; [symmetry; apply firstn_skipn|reflexivity].
Qed.
Lemma at_mono : forall a b, a <= b -> at_char a <= at_char b.
Proof.
  intros a b L. unfold at_char. replace a with (Nat.min a b) by lia. rewrite <- firstn_firstn.
  rewrite <- (firstn_skipn a (firstn b s)) at 2. rewrite enc_app, app_length. lia.
Qed.
Lemma slice_enc : forall a b, a <= b -> slice (enc s) (at_char a) (at_char b) = enc (slice s a b).
Proof.
  intros a b L. unfold slice. pose proof (firstn_skipn a s) as E1. set (u := firstn a s) in *. set (t := skipn a s) in *.
  assert (EU : at_char a = length (enc u)) by reflexivity.
  assert (EB : firstn b s = u ++ firstn (b - a) t).
  { destruct (Nat.le_gt_cases a (length s)) as [La|La].
    - assert (LU : length u = a) by (unfold u; rewrite firstn_length; lia). rewrite <- E1, firstn_app, LU, firstn_all2 by lia. reflexivity.
    - unfold t. rewrite (skipn_all2 s) by lia. rewrite firstn_nil, app_nil_r. unfold u. rewrite !firstn_all2 by lia. reflexivity. }
  unfold at_char at 1. rewrite EB, enc_app, app_length, EU. replace (length (enc u) + length (enc (firstn (b - a) t)) - length (enc u))
    with (length (enc (firstn (b - a) t))) by lia.
  rewrite <- E1, enc_app, skipn_app, Nat.sub_diag, skipn_all2 by lia. cbn [skipn app].
  rewrite <- (firstn_skipn (b - a) t) at 2. rewrite enc_app, firstn_app, Nat.sub_diag, firstn_all2 by lia. cbn [firstn]. apply app_nil_r.
Qed.
Lemma unchecked_view : forall a b, a <= b -> get_unchecked (enc s) (at_char a) (at_char b) = Val (enc (slice s a b)).
Proof.
  intros a b L. unfold get_unchecked. rewrite !at_boundary. pose proof (at_mono L). pose proof (at_char_le b).
  destruct (Nat.leb_spec (at_char a) (at_char b)); [|lia]. destruct (Nat.leb_spec (at_char b) (length (enc s))); [|lia].
  cbn [andb]. rewrite slice_enc by exact L. reflexivity.
Qed.
Lemma slice_view : forall a b, a <= b ->
  char_slice view a b = if b <=? length s then Val (enc (slice s a b)) else Panics.
Proof.
  intros a b L. unfold char_slice. rewrite !index_view. cbn [cs_inner view].
  destruct (Nat.leb_spec b (length s)).
  - destruct (Nat.leb_spec a (length s)); [|lia]. cbn [bindO]. apply unchecked_view, L.
  - destruct (a <=? length s); reflexivity.
Qed.
Lemma slice_one : forall i c, nth_error s i = Some c -> slice s i (i + 1) = [c].
Proof. intros i c H. unfold slice. replace (i + 1 - i) with 1 by lia. rewrite (skipn_nth_error _ _ H). reflexivity. Qed.
Lemma at_view : forall i, str_char_at view i = match nth_error s i with Some c => Val (enc1 c) | None => Panics end.
Proof.
  intros i. unfold str_char_at. fold (char_slice view i (i + 1)). rewrite slice_view by lia. destruct (nth_error s i) as [c|] eqn:E.
  - assert (i < length s) by (apply nth_error_Some; congruence). destruct (Nat.leb_spec (i + 1) (length s)); [|lia].
    rewrite (slice_one _ E). cbn. rewrite app_nil_r. reflexivity.
  - apply nth_error_None in E. destruct (Nat.leb_spec (i + 1) (length s)); [lia|reflexivity].
Qed.
Lemma windows_map : forall (f : nat -> N) n a, windows2 (map f (seq a (S n))) = map (fun i => (f i, f (S i))) (seq a n).
Proof.
  intros f n. induction n as [|n IH]; intros a; [reflexivity|].
  change (windows2 (map f (seq a (S (S n))))) with ((f a, f (S a)) :: windows2 (map f (seq (S a) (S n)))). rewrite IH. reflexivity.
Qed.
Lemma iter_view : char_iter view = Val (map enc1 s).
Proof.
  unfold char_iter, view. cbn [cs_inner cs_indices]. rewrite windows_map.
  rewrite mapO_val with (g := fun w => slice (enc s) (N.to_nat (fst w)) (N.to_nat (snd w))).
  - f_equal. rewrite map_map. cbn [fst snd]. transitivity (map (fun i => enc (slice s i (i + 1))) (seq 0 (length s))).
    + apply map_ext. intros i. rewrite !Nnat.Nat2N.id. rewrite Nat.add_1_r. apply slice_enc. lia.
    + clear. assert (G : forall t u, map (fun i => enc (slice (u ++ t) i (i + 1))) (seq (length u) (length t)) = map enc1 t).
      { induction t as [|c t IH]; intros u; [reflexivity|]. cbn [length seq map]. f_equal.
        - unfold slice. replace (length u + 1 - length u) with 1 by lia. rewrite skipn_app, Nat.sub_diag, skipn_all. cbn. apply app_nil_r.
        - specialize (IH (u ++ [c])). rewrite app_length, <- app_assoc in IH. cbn [length app] in IH. rewrite Nat.add_1_r in IH. exact IH. }
      exact (G s []).
  - intros w Hw. apply in_map_iff in Hw. destruct Hw as (i & <- & _). cbn [fst snd]. rewrite !Nnat.Nat2N.id.
    rewrite unchecked_view by lia. rewrite slice_enc by lia. reflexivity.
Qed.
End View.

(** Searching bytes is searching characters. *)
Lemma bytes_contains : forall p w, scalars p -> scalars w -> p <> [] -> contains_str (enc p) (enc w) = contains_str p w.
Proof.
  intros p w Hp Hw N. unfold contains_str. destruct (find_sub p w) as [i|] eqn:E; destruct (find_sub (enc p) (enc w)) as [j|] eqn:F; try reflexivity; cbn; exfalso.
  - apply find_sub_sound in E. destruct E as [E _]. apply (proj1 (find_sub_none _ _) F (enc (firstn i w)) (enc (skipn (i + length p) w))).
    rewrite <- !enc_app, <- E. reflexivity.
  - apply find_sub_sound in F. destruct F as [F _]. apply enc_substring in F; try assumption. destruct F as (u & v & F & _).
    exact (proj1 (find_sub_none _ _) E u v F).
Qed.
Lemma enc1_eqb : forall a b, scalar a -> scalar b -> str_eqb (enc1 a) (enc1 b) = (a =? b)%N.
Proof.
  intros a b Ha Hb. assert (E : forall c, enc1 c = enc [c]) by (intros c; cbn; symmetry; apply app_nil_r). rewrite !E.
  rewrite bytes_eqb by (repeat constructor; assumption). cbn. apply andb_true_r.
Qed.

Section Measures.
Variables s t : str.
Hypothesis Hs : scalars s.
Hypothesis Ht : scalars t.

Lemma kgram_view : forall i k, 1 <= k <= length s -> In i (seq 0 (S (length s - k))) ->
  exists g, char_slice (view s) i (i + k) = Val (enc g) /\ g = slice s i (i + k) /\ contains_str (enc g) (enc t) = contains_str g t.
Proof.
  intros i k Hk Hi. apply in_seq in Hi. exists (slice s i (i + k)). rewrite slice_view by (assumption || lia).
  destruct (Nat.leb_spec (i + k) (length s)); [|lia]. split; [reflexivity|]. split; [reflexivity|]. apply bytes_contains; [|exact Ht|].
  - unfold slice. apply Forall_forall. intros x Hx. apply (proj1 (Forall_forall _ _) Hs).
    rewrite <- (firstn_skipn i s). apply in_or_app. right. rewrite <- (firstn_skipn (i + k - i) (skipn i s)). apply in_or_app. left. exact Hx.
  - intros E. apply (f_equal (@length N)) in E. unfold slice in E. rewrite firstn_length, skipn_length in E. cbn [length] in E. lia.
Qed.
Lemma round_view : forall k, 1 <= k <= length s -> b_round (view s) (enc t) k = Val (ngram_round s t k).
Proof.
  intros k Hk. unfold b_round, ngram_round. rewrite len_view. apply foldO_val. intros z i Hi.
  destruct (kgram_view Hk Hi) as (g & -> & -> & E). cbn [bindO]. rewrite E. reflexivity.
Qed.
Lemma similarity_view : forall n, b_similarity n (view s) (enc t) = Val (ngram_similarity n s t).
Proof.
  intros n. unfold b_similarity, ngram_similarity. rewrite len_view.
  assert (G : forall steps k z, 1 <= k -> k + steps <= S (length s) -> b_go steps k (view s) (enc t) z = Val (ngram_go steps k s t z)).
  { induction steps as [|m IH]; intros k z H1 H2; [reflexivity|]. cbn [b_go ngram_go]. rewrite round_view by lia. cbn [bindO]. cbv zeta.
    destruct (_ <? _)%Z; [reflexivity|]. apply IH; lia. }
  apply G; lia.
Qed.
Lemma weighted_view : forall n, b_weighted n (view s) (enc t) = Val (ngram_similarity_weighted n s t).
Proof.
  intros n. unfold b_weighted, ngram_similarity_weighted. rewrite len_view. apply foldO_val. intros z k Hk. apply in_seq in Hk.
  assert (E : b_weighted_round (view s) (enc t) k = Val (weighted_round s t k)); [|rewrite E; reflexivity].
  unfold b_weighted_round, weighted_round. rewrite len_view. apply foldO_val. intros z' i Hi.
  destruct (@kgram_view i k ltac:(lia) Hi) as (g & -> & -> & E). cbn [bindO]. rewrite E. reflexivity.
Qed.
Lemma longer_worse_view : forall n, b_longer_worse n (view s) (view t) = Val (ngram_similarity_longer_worse n s t).
Proof.
  intros n. unfold b_longer_worse, ngram_similarity_longer_worse. rewrite empty_view, !len_view by exact Ht. cbn [cs_inner view]. rewrite similarity_view.
  destruct t; reflexivity.
Qed.
Lemma any_mismatch_view : forall n, b_any_mismatch n (view s) (enc t) = Val (ngram_similarity_any_mismatch n s t).
Proof.
  intros n. unfold b_any_mismatch, ngram_similarity_any_mismatch. rewrite similarity_view, len_view, positions_enc by (assumption || lia).
  rewrite map_length, seq_length. destruct t as [|c t']; [reflexivity|].
  destruct (enc (c :: t')) as [|b y] eqn:E; [|reflexivity]. cbn in E. apply app_eq_nil in E. pose proof (enc1_nonempty c). destruct E as [E _]. rewrite E in *. cbn in *. lia.
Qed.
Lemma any_mismatch_weighted_view : forall n, b_any_mismatch_weighted n (view s) (view t) = Val (ngram_similarity_any_mismatch_weighted n s t).
Proof.
  intros n. unfold b_any_mismatch_weighted, ngram_similarity_any_mismatch_weighted. rewrite empty_view, !len_view by exact Ht. cbn [cs_inner view]. rewrite weighted_view.
  destruct t; reflexivity.
Qed.
Lemma lcs_row_view : forall l, scalar l -> forall v u row p1 p2, t = u ++ v -> length row = length v ->
  b_lcs_row (enc1 l) (view t) (length u) row p1 p2 = Val (lcs_row l v row p1 p2).
Proof.
  intros l Hl v. induction v as [|r v IH]; intros u row p1 p2 E L; destruct row as [|x row]; try discriminate; [reflexivity|].
  cbn [b_lcs_row lcs_row]. rewrite at_view by exact Ht.
  assert (NE : nth_error t (length u) = Some r) by (rewrite E, nth_error_app2, Nat.sub_diag by lia; reflexivity).
  rewrite NE. cbn [bindO]. cbv zeta.
  assert (Hr : scalar r) by (apply (proj1 (Forall_forall _ _) Ht); rewrite E; apply in_or_app; right; left; reflexivity).
  rewrite enc1_eqb by assumption. set (w := if (l =? r)%N then _ else _).
  specialize (IH (u ++ [r]) row x w). rewrite app_length in IH. cbn [length] in IH. rewrite IH.
  - cbn [bindO]. destruct (lcs_row l v row x w). reflexivity.
  - rewrite <- app_assoc. exact E.
  - cbn in L. lia.
Qed.
Lemma lcs_row_length : forall l v row p1 p2, length row = length v -> length (fst (lcs_row l v row p1 p2)) = length v.
Proof.
  intros l v. induction v as [|r v IH]; intros [|x row] p1 p2 L; try discriminate; [reflexivity|]. cbn [lcs_row]. cbv zeta.
  set (w := if (l =? r)%N then _ else _). specialize (IH row x w ltac:(cbn in L; lia)). destruct (lcs_row l v row x w). cbn in *. lia.
Qed.
Lemma lcs_view : b_lcs (view s) (view t) = Val (longest_common_subsequence_length s t).
Proof.
  unfold b_lcs, longest_common_subsequence_length. rewrite iter_view by exact Hs. cbn [bindO]. rewrite len_view.
  assert (G : forall w row p, scalars w -> length row = length t -> b_lcs_go (map enc1 w) (view t) row p = Val (lcs_go w t row p)).
  { induction w as [|l w IH]; intros row p Hw L; [reflexivity|]. apply Forall_cons_iff in Hw. destruct Hw as [Hl Hw]. cbn [map b_lcs_go lcs_go].
    pose proof (@lcs_row_view l Hl t [] row 0 0 eq_refl L) as LV. cbn [length] in LV. rewrite LV. cbn [bindO]. pose proof (@lcs_row_length l t row 0 0 L) as LL.
    destruct (lcs_row l t row 0 0) as [row' last]. cbn [fst snd] in *. apply IH; assumption. }
  apply G; [exact Hs|apply repeat_length].
Qed.
Lemma count_eq_view : b_count_eq (view s) (view t) = Val (count_eq_at_same_pos s t).
Proof.
  unfold b_count_eq, count_eq_at_same_pos. rewrite !iter_view by assumption. cbn [bindO]. rewrite !len_view. cbv zeta.
  assert (C : forall a b, scalars a -> scalars b ->
    length (filter (fun p => str_eqb (fst p) (snd p)) (combine (map enc1 a) (map enc1 b))) = length (filter (fun p => (fst p =? snd p)%N) (combine a b))).
  { induction a as [|x a IH]; intros [|y b] Ha Hb; try reflexivity. apply Forall_cons_iff in Ha. apply Forall_cons_iff in Hb. destruct Ha as [Hx Ha]. destruct Hb as [Hy Hb].
    cbn [map combine filter fst snd]. rewrite enc1_eqb by assumption. destruct (x =? y)%N; cbn [length]; rewrite IH by assumption; reflexivity. }
  assert (F : forall a b o, scalars a -> scalars b -> match o with Some (x, y) => scalar x /\ scalar y | None => True end ->
    b_find_swap (map enc1 a) (map enc1 b) (option_map (fun p => (enc1 (fst p), enc1 (snd p))) o) = find_swap a b o).
  { induction a as [|x a IH]; intros [|y b] o Ha Hb Ho; try reflexivity. apply Forall_cons_iff in Ha. apply Forall_cons_iff in Hb. destruct Ha as [Hx Ha]. destruct Hb as [Hy Hb].
    cbn [map b_find_swap find_swap]. rewrite enc1_eqb by assumption. destruct (x =? y)%N; [apply IH; assumption|].
    destruct o as [[l1 r1]|]; cbn [option_map fst snd]; [destruct Ho; rewrite !enc1_eqb by assumption; reflexivity|].
    exact (IH b (Some (x, y)) Ha Hb (conj Hx Hy)). }
  rewrite C by assumption. pose proof (F s t None Hs Ht I) as FE. cbn [option_map] in FE. rewrite FE. reflexivity.
Qed.
End Measures.
