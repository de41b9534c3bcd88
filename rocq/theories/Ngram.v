(** n-gram suggestions: suggester/ngram.rs. *)
From Coq Require Import List NArith ZArith Lia Bool Arith Permutation.
From Coq Require Import ZifyBool ZifyNat ZifyN.
From Verif Require Import Base Utf8 Unicode Flags Affix Aff Checker Bag.
Import ListNotations.
Set Implicit Arguments.

(** ** Similarity measures.  A [CharsStr] (ngram.rs 478-566) is the string itself: [len_chars],
    [char_slice], [char_at] and [char_iter] are [length], [slice], [nth] and the list. *)

(** [CharsStr::new] (ngram.rs 497-512). *)
Definition chars_str (s : str) : Res str := if (blen s <=? 65535)%N then Ret s else Panic.

(** [str::contains]. *)
Definition contains_str (p w : str) : bool := is_someb (find_sub p w).

(** ngram.rs 589-594. *)
Fixpoint index_of_mismatch (left right : str) : option nat :=
  match left with
  | [] => None
  | l :: left' =>
      match right with
      | r :: right' => if (r =? l)%N then option_map S (index_of_mismatch left' right') else Some 0
      | [] => Some 0
      end
  end.

(** ngram.rs 568-587. *)
Definition left_common_substring_length (U : unicode) (h : case_handling) (left right : str) : nat :=
  match left, right with
  | l :: left', r :: right' =>
      if negb (l =? r)%N && negb (is_char_eq_lowercase U h l r) then 0
      else match index_of_mismatch left' right' with
           | Some idx => idx + 1
           | None => length left
           end
  | _, _ => 0
  end.

(** ngram.rs 609-628.  One round of the outer loop, then the loop. *)
Definition ngram_round (left right : str) (k : nat) : Z :=
  fold_left (fun s i => if contains_str (slice left i (i + k)) right then (s + 1)%Z else s)
    (seq 0 (S (length left - k))) 0%Z.
Fixpoint ngram_go (steps k : nat) (left right : str) (score : Z) : Z :=
  match steps with
  | O => score
  | S steps' =>
      let k_score := ngram_round left right k in
      let score' := (score + k_score)%Z in
      if (k_score <? 2)%Z then score' else ngram_go steps' (S k) left right score'
  end.
Definition ngram_similarity (n : nat) (left right : str) : Z :=
  ngram_go (Nat.min n (length left)) 1 left right 0.

(** ngram.rs 596-606. *)
Definition ngram_similarity_longer_worse (n : nat) (left right : str) : Z :=
  match right with
  | [] => 0%Z
  | _ :: _ =>
      let score := ngram_similarity n left right in
      let d := (Z.of_nat (length right) - Z.of_nat (length left) - 2)%Z in
      if (0 <? d)%Z then (score - d)%Z else score
  end.
(** ngram.rs 630-640. *)
Definition ngram_similarity_any_mismatch (n : nat) (left right : str) : Z :=
  match right with
  | [] => 0%Z
  | _ :: _ =>
      let score := ngram_similarity n left right in
      let d := (Z.abs (Z.of_nat (length right) - Z.of_nat (length left)) - 2)%Z in
      if (0 <? d)%Z then (score - d)%Z else score
  end.

(** ngram.rs 643-669.  One row: [row1_prev] is the entry up and to the left, [row2_prev] the
    entry to the left; the new row and the last entry. *)
Fixpoint lcs_row (l : N) (right : str) (row : list nat) (row1_prev row2_prev : nat) : list nat * nat :=
  match row, right with
  | row2_current :: row', r :: right' =>
      let v := if (l =? r)%N then row1_prev + 1 else Nat.max row2_current row2_prev in
      let '(rest, last) := lcs_row l right' row' row2_current v in
      (v :: rest, last)
  | _, _ => ([], row2_prev)
  end.
Fixpoint lcs_go (left right : str) (row : list nat) (row1_prev : nat) : nat :=
  match left with
  | [] => row1_prev
  | l :: left' => let '(row', last) := lcs_row l right row 0 0 in lcs_go left' right row' last
  end.
Definition longest_common_subsequence_length (left right : str) : nat :=
  lcs_go left right (repeat 0 (length right)) 0.

(** ngram.rs 683-704. *)
Definition weighted_round (left right : str) (k : nat) : Z :=
  fold_left (fun s i =>
      if contains_str (slice left i (i + k)) right then (s + 1)%Z
      else if (i =? 0)%nat || (i =? length left - k)%nat then (s - 2)%Z else (s - 1)%Z)
    (seq 0 (S (length left - k))) 0%Z.
Definition ngram_similarity_weighted (n : nat) (left right : str) : Z :=
  fold_left (fun s k => (s + weighted_round left right k)%Z) (seq 1 (Nat.min n (length left))) 0%Z.
(** ngram.rs 671-681. *)
Definition ngram_similarity_any_mismatch_weighted (n : nat) (left right : str) : Z :=
  match right with
  | [] => 0%Z
  | _ :: _ =>
      let score := ngram_similarity_weighted n left right in
      let d := (Z.abs (Z.of_nat (length right) - Z.of_nat (length left)) - 2)%Z in
      if (0 <? d)%Z then (score - d)%Z else score
  end.

(** ngram.rs 706-730. *)
Fixpoint find_swap (left right : str) (first : option (N * N)) : bool :=
  match left, right with
  | l :: left', r :: right' =>
      if (l =? r)%N then find_swap left' right' first
      else match first with
           | Some (l1, r1) => (l1 =? r)%N && (r1 =? l)%N
           | None => find_swap left' right' (Some (l, r))
           end
  | _, _ => false
  end.
Definition count_eq_at_same_pos (left right : str) : nat * bool :=
  let n := Nat.min (length left) (length right) in
  let count := length (filter (fun p => (fst p =? snd p)%N) (combine left right)) in
  (count, if (length left =? length right)%nat && (n - count =? 2)%nat then find_swap left right None else false).

(** ** Heaps *)

(** [BinaryHeap] and the sorts of the standard library.  A heap is its vector, whose first
    element is the one with the smallest score ([MinScored], ngram.rs 54-69); [hp_push] and
    [hp_pop] rearrange the vector in a way the standard library does not specify, and so do the
    two sorts among equal scores. *)
Record heaps := mkHeaps {
  hp_push : forall A, list (Z * A) -> Z * A -> list (Z * A);
  hp_pop : forall A, list (Z * A) -> list (Z * A);
  hp_into_sorted_vec : forall A, list (Z * A) -> list (Z * A);
  hp_sort_unstable : forall A, list (Z * A) -> list (Z * A);
  hp_inv : forall A, list (Z * A) -> Prop }.

Definition descending {A} (l : list (Z * A)) : Prop :=
  forall a x b y c, l = a ++ x :: b ++ y :: c -> (fst y <= fst x)%Z.

Record wf_heaps (hp : heaps) : Prop := {
  wh_nil : forall A, hp_inv hp ([] : list (Z * A));
  wh_push : forall A l (x : Z * A), hp_inv hp l -> hp_inv hp (hp_push hp l x) /\ Permutation (x :: l) (hp_push hp l x);
  wh_pop : forall A (x : Z * A) l, hp_inv hp (x :: l) -> hp_inv hp (hp_pop hp (x :: l)) /\ Permutation l (hp_pop hp (x :: l));
  wh_top : forall A (x : Z * A) l, hp_inv hp (x :: l) -> Forall (fun y => (fst x <= fst y)%Z) l;
  wh_sorted_vec : forall A (l : list (Z * A)), hp_inv hp l ->
    Permutation l (hp_into_sorted_vec hp l) /\ descending (hp_into_sorted_vec hp l);
  wh_sort : forall A (l : list (Z * A)), Permutation l (hp_sort_unstable hp l) /\ descending (hp_sort_unstable hp l) }.

Fixpoint foldR {S A} (f : S -> A -> Res S) (l : list A) (s : S) : Res S :=
  match l with
  | [] => Ret s
  | a :: l' => s' <- f s a ;; foldR f l' s'
  end.

Section Ngram.
Variable hp : heaps.
Variable k : checker.
(** [self.checker.words]: all entries in iteration order. *)
Variable words : list (str * flagset).
Notation aff := (ck_aff k).
Notation opts := (ad_options (ck_aff k)).
Notation U := (ck_u k).
Notation case := (o_case opts).

(** ngram.rs 109-116, 184-189: keep the [cap] best. *)
Definition push_bounded {A} (cap : nat) (h : list (Z * A)) (x : Z * A) : list (Z * A) :=
  if negb (length h =? cap)%nat then hp_push hp h x
  else match h with
       | top :: _ => if (fst top <? fst x)%Z then hp_push hp (hp_pop hp h) x else h
       | [] => h
       end.

(** ngram.rs 82-88. *)
Definition ineligible (flags : flagset) : bool :=
  contains flags (o_forbidden opts) || has_flag flags (o_no_suggest opts) ||
  has_flag flags (o_only_in_compound opts) || contains flags hidden_homonym_flag.

(** ngram.rs 81-117. *)
Definition root_step (word : str) (roots : list (Z * (str * flagset))) (entry : str * flagset)
  : Res (list (Z * (str * flagset))) :=
  if ineligible (snd entry) then Ret roots
  else
    stem <- chars_str (fst entry) ;;
    lower <- chars_str (lowercase U case stem) ;;
    let score := (Z.of_nat (left_common_substring_length U case word stem) +
                  ngram_similarity_longer_worse 3 word lower)%Z in
    Ret (push_bounded 100 roots (score, entry)).

(** ngram.rs 127-133. *)
Fixpoint mangle (i : nat) (w : str) : str :=
  match w with
  | [] => []
  | c :: w' => (if (i mod 4 =? 0)%nat then 42%N else c) :: mangle (S i) w'
  end.
(** ngram.rs 119-137: the positions 1, 2, 3 that exist; [isize] division truncates. *)
Definition threshold (word : str) : Z :=
  Z.quot (fold_left (fun t i =>
      (t + ngram_similarity_any_mismatch (length word) word (firstn i word ++ mangle 0 (skipn i word)))%Z)
    (firstn 3 (seq 1 (length word))) 0%Z) 3.

(** ngram.rs 317-350: the test of one suffix. *)
Definition suffix_fits (flags : flagset) (stem word : str) (a : affix) : bool :=
  contains flags (a_flag a) && is_outer_affix_valid k Sfx FULL_WORD a && negb (is_circumfix k a) &&
  ends_with (strip_text a) stem && scond a stem &&
  (negb (nonempty (a_add a)) || ends_with (a_add a) word).
(** ngram.rs 363-384, 395-416: the test of one prefix. *)
Definition prefix_fits (flags : flagset) (stem word : str) (a : affix) : bool :=
  contains flags (a_flag a) && is_outer_affix_valid k Pfx FULL_WORD a && negb (is_circumfix k a) &&
  starts_with (strip_text a) stem && pcond a stem &&
  (negb (nonempty (a_add a)) || starts_with (a_add a) word).

Fixpoint mapR {A B} (f : A -> Res B) (l : list A) : Res (list B) :=
  match l with
  | [] => Ret []
  | a :: l' => b <- f a ;; r <- mapR f l' ;; Ret (b :: r)
  end.

(** ngram.rs 294-421.  [expanded_list] and [cross_affix] are kept as one list of pairs.  The
    prefixed forms of the suffixed words are built from [stem], not from the suffixed word
    (line 386). *)
Definition expand_stem_for_ngram (stem : str) (flags : flagset) (word : str) : Res (list str) :=
  let base := if has_flag flags (o_need_affix opts) then [] else [(stem, false)] in
  match flags with
  | [] => Ret (map fst base)
  | _ :: _ =>
      sfx <- mapR (fun a => e <- suffix_to_derived a stem ;; Ret (e, a_cross a))
               (filter (suffix_fits flags stem word) (i_table (ad_suffixes aff))) ;;
      let suffixed := base ++ sfx in
      crossed <- mapR (fun e : str * bool =>
                   if snd e
                   then mapR (fun a => prefix_to_derived a stem)
                          (filter (prefix_fits flags (fst e) word) (i_table (ad_prefixes aff)))
                   else Ret []) suffixed ;;
      pfx <- mapR (fun a => prefix_to_derived a stem)
               (filter (prefix_fits flags stem word) (i_table (ad_prefixes aff))) ;;
      Ret (map fst suffixed ++ concat crossed ++ pfx)
  end.

(** ngram.rs 160-190. *)
Definition guess_step (word : str) (limit : Z) (guesses : list (Z * str)) (expanded : str) : Res (list (Z * str)) :=
  e <- chars_str expanded ;;
  let score := (Z.of_nat (left_common_substring_length U case word e) +
                ngram_similarity_any_mismatch (length word) word (lowercase U case e))%Z in
  Ret (if (score <? limit)%Z then guesses else push_bounded 200 guesses (score, expanded)).

(** ngram.rs 207-252.  The loop stops at the first word with the same characters in the same
    order. *)
Fixpoint rescore (word : str) (l : list (Z * str)) : Res (list (Z * str)) :=
  match l with
  | [] => Ret []
  | (score, guess) :: l' =>
      lower <- chars_str (lowercase U case guess) ;;
      let lcs := longest_common_subsequence_length word lower in
      if (length word =? length lower)%nat && (length word =? lcs)%nat then
        Ret ((score + 2000, guess)%Z :: l')
      else
        let ngram2 := (ngram_similarity_any_mismatch_weighted 2 word lower +
                       ngram_similarity_any_mismatch_weighted 2 lower word)%Z in
        let ngram4 := ngram_similarity_any_mismatch 4 word lower in
        let left_common := left_common_substring_length U case word lower in
        let '(same_pos, swapped) := count_eq_at_same_pos word lower in
        let s1 := (2 * Z.of_nat lcs - Z.abs (Z.of_nat (length word) - Z.of_nat (length lower)) +
                   (Z.of_nat left_common + ngram2 + ngram4))%Z in
        let s2 := if (same_pos =? 0)%nat then s1 else (s1 + 1)%Z in
        let s3 := if swapped then (s2 + 10)%Z else s2 in
        let s4 := if (5 * ngram2 <? Z.of_nat (length word + length lower) * (10 - Z.of_N (o_max_diff opts)))%Z
                  then (s3 - 1000)%Z else s3 in
        r <- rescore word l' ;; Ret ((s4, guess) :: r)
  end.

(** ngram.rs 265-291. *)
Fixpoint push_guesses (selective : bool) (old max : nat) (l : list (Z * str)) (out : list str) : list str :=
  match l with
  | [] => out
  | (score, guess) :: l' =>
      if (length out =? max)%nat then out
      else if selective && (score <=? 1000)%Z then out
      else if (score <? -100)%Z && (negb (old =? length out)%nat || o_only_max_diff opts) then out
      else if existsb (fun s => contains_str s guess) out then
        if (score <? -100)%Z then out else push_guesses selective old max l' out
      else push_guesses selective old max l' (out ++ [guess])
  end.

(** ngram.rs 72-292. *)
Definition ngram_suggest (word : str) (out : list str) : Res (list str) :=
  word <- chars_str word ;;
  roots <- foldR (root_step word) words [] ;;
  let limit := threshold word in
  guesses <- foldR (fun g root =>
               expanded <- expand_stem_for_ngram (fst (snd root)) (snd (snd root)) word ;;
               foldR (guess_step word limit) expanded g) roots [] ;;
  scored <- rescore word (hp_into_sorted_vec hp guesses) ;;
  let sorted := hp_sort_unstable hp scored in
  let selective := match sorted with (s, _) :: _ => (1000 <? s)%Z | [] => false end in
  let old := length out in
  let max := Nat.min max_suggestions (old + N.to_nat (o_max_ngram opts)) in
  Ret (push_guesses selective old max sorted out).

End Ngram.
