(** How the n-gram step (suggester/ngram.rs) ranks and chooses its guesses: the two scores, the
    threshold and the final choice, specified without the functions that compute them. *)
From Coq Require Import List NArith ZArith Lia Bool Arith Permutation.
From Coq Require Import ZifyBool ZifyNat ZifyN.
From Verif Require Import Base Utf8 Unicode Flags Affix Aff Checker Bag AffixSpec Ngram NgramMeasures NgramProps.
Import ListNotations.
Set Implicit Arguments.

(** ** Specification of the scores *)
Section Scores.
Variable U : unicode.
Variable h : case_handling.
Notation lower := (lowercase U h).

(** [l] is the letter [r] or its lower-case form. *)
Definition SameLetter (l r : N) : Prop :=
  l = r \/ u_lower U r = [l] \/ (h = Turkic /\ ((l = 305 /\ r = 73) \/ (l = 105 /\ r = 304)))%N.
(** The length of the common beginning of [w] and [x]: the first letters may differ in case. *)
Inductive Overlap (w x : str) : nat -> Prop :=
| Overlap_yes : forall l w' r x' n, w = l :: w' -> x = r :: x' -> SameLetter l r -> CommonPrefix w' x' n -> Overlap w x (S n)
| Overlap_no : (forall l w' r x', w = l :: w' -> x = r :: x' -> ~ SameLetter l r) -> Overlap w x 0.

(** n-grams of [w] up to length [n] found in [x], less what [x] is longer than [w] in excess of
    two characters; the second kind takes the difference of the lengths either way; the third
    counts with weights. *)
Definition LongerWorse (n : nat) (w x : str) (s : Z) : Prop :=
  (x = [] /\ s = 0%Z) \/
  (x <> [] /\ exists g, GramSum w x (Nat.min n (length w)) 1 g /\
     s = (g - Z.max 0 (Z.of_nat (length x) - Z.of_nat (length w) - 2))%Z).
Definition OtherLengthWorse (n : nat) (w x : str) (s : Z) : Prop :=
  (x = [] /\ s = 0%Z) \/
  (x <> [] /\ exists g, GramSum w x (Nat.min n (length w)) 1 g /\
     s = (g - Z.max 0 (Z.abs (Z.of_nat (length x) - Z.of_nat (length w)) - 2))%Z).
Definition WeightedWorse (n : nat) (w x : str) (s : Z) : Prop :=
  (x = [] /\ s = 0%Z) \/
  (x <> [] /\ exists g, WeightedSum w x (seq 1 (Nat.min n (length w))) g /\
     s = (g - Z.max 0 (Z.abs (Z.of_nat (length x) - Z.of_nat (length w)) - 2))%Z).

(** The score of a stem, and the first score of one of its forms. *)
Definition StemScore (w stem : str) (s : Z) : Prop :=
  exists c g, Overlap w stem c /\ LongerWorse 3 w (lower stem) g /\ s = (Z.of_nat c + g)%Z.
Definition FormScore (w e : str) (s : Z) : Prop :=
  exists c g, Overlap w e c /\ OtherLengthWorse (length w) w (lower e) g /\ s = (Z.of_nat c + g)%Z.

(** [w] with every fourth letter from position [i] on replaced by an asterisk. *)
Definition Mangled (i : nat) (w m : str) : Prop :=
  length m = length w /\
  forall j c, nth_error w j = Some c ->
    (i <= j -> (exists q, j = i + 4 * q) -> nth_error m j = Some 42%N) /\
    (j < i \/ (forall q, j <> i + 4 * q) -> nth_error m j = Some c).
Inductive MangledSum (w : str) : list nat -> Z -> Prop :=
| MangledSum_nil : MangledSum w [] 0
| MangledSum_cons : forall i l m g s, Mangled i w m -> OtherLengthWorse (length w) w m g -> MangledSum w l s ->
    MangledSum w (i :: l) (g + s).
(** The score a form needs: a third of the scores of three mangled copies of the word. *)
Definition Threshold (w : str) (t : Z) : Prop :=
  exists s, MangledSum w (match length w with 0 => [] | 1 => [1] | 2 => [1; 2] | _ => [1; 2; 3] end) s /\ t = Z.quot s 3.

(** The second score, of a form whose lower-case text is [x]. *)
Definition SecondScore (max_diff : N) (w x : str) (t : Z) : Prop :=
  exists (lcs : nat) (g2a g2b g4 : Z) (c n : nat) (same bonus penalty : Z),
    IsLcs w x lcs /\ WeightedWorse 2 w x g2a /\ WeightedWorse 2 x w g2b /\ OtherLengthWorse 4 w x g4 /\ Overlap w x c /\
    Counts (fun i => exists c, nth_error w i = Some c /\ nth_error x i = Some c) (seq 0 (Nat.min (length w) (length x))) n /\
    ((n = 0 /\ same = 0%Z) \/ (n <> 0 /\ same = 1%Z)) /\
    ((Swapped w x /\ bonus = 10) \/ (~ Swapped w x /\ bonus = 0))%Z /\
    ((5 * (g2a + g2b) < Z.of_nat (length w + length x) * (10 - Z.of_N max_diff) /\ penalty = 1000) \/
     (Z.of_nat (length w + length x) * (10 - Z.of_N max_diff) <= 5 * (g2a + g2b) /\ penalty = 0))%Z /\
    t = (2 * Z.of_nat lcs - Z.abs (Z.of_nat (length w) - Z.of_nat (length x)) + Z.of_nat c + (g2a + g2b) + g4 + same + bonus - penalty)%Z.
(** Scores are replaced in order, up to a form that is the word itself but for case: it gets
    2000 more and the forms after it keep their first scores. *)
Inductive Rescored (max_diff : N) (w : str) : list (Z * str) -> list (Z * str) -> Prop :=
| Rescored_nil : Rescored max_diff w [] []
| Rescored_same : forall s e l, lower e = w -> Rescored max_diff w ((s, e) :: l) ((s + 2000, e)%Z :: l)
| Rescored_other : forall s e l t r, lower e <> w -> SecondScore max_diff w (lower e) t -> Rescored max_diff w l r ->
    Rescored max_diff w ((s, e) :: l) ((t, e) :: r).
End Scores.

(** ** Specification of the choice *)
Definition HasOne (old : list str) (g : str) : Prop := exists s, In s old /\ Within s g.
(** The guesses that contain no suggestion that stands before them. *)
Inductive FreshOnes : list str -> list str -> list str -> Prop :=
| FreshOnes_nil : forall old, FreshOnes old [] []
| FreshOnes_take : forall old g l r, ~ HasOne old g -> FreshOnes (old ++ [g]) l r -> FreshOnes old (g :: l) (g :: r)
| FreshOnes_skip : forall old g l r, HasOne old g -> FreshOnes old l r -> FreshOnes old (g :: l) r.
(** Of the guesses, sorted by their second scores: only those above 1000 if there are any; of
    these the ones from -100 up that contain no suggestion already there, as many as there is
    room for; and if there is none, a single worse one unless ONLYMAXDIFF forbids it.  When
    the edits made more than sixteen suggestions the room is unlimited. *)
Definition Chosen (max_ngram : N) (only_max_diff : bool) (out : list str) (final : list (Z * str)) (added : list str) : Prop :=
  exists cands fresh room,
    cands = (match filter (fun g => (1000 <? fst g)%Z) final with [] => final | best => best end) /\
    FreshOnes out (map snd (filter (fun g => (-100 <=? fst g)%Z) cands)) fresh /\
    (length out <= 16 -> room = Nat.min (16 - length out) (N.to_nat max_ngram)) /\ (16 < length out -> room = S (length fresh)) /\
    ((room = 0 /\ added = []) \/
     (room <> 0 /\ fresh <> [] /\ added = firstn room fresh) \/
     (room <> 0 /\ fresh = [] /\ only_max_diff = false /\
        exists s g rest, filter (fun g => (fst g <? -100)%Z) cands = (s, g) :: rest /\ ~ HasOne out g /\ added = [g]) \/
     (room <> 0 /\ fresh = [] /\ added = [] /\
        (only_max_diff = true \/
         match filter (fun g => (fst g <? -100)%Z) cands with [] => True | g :: _ => HasOne out (snd g) end))).

(** ** Specification of the forms *)

(** [r] lists the elements of [l] that have the property, in order. *)
Inductive Picked {A} (P : A -> Prop) : list A -> list A -> Prop :=
| Picked_nil : Picked P [] []
| Picked_keep : forall x l r, P x -> Picked P l r -> Picked P (x :: l) (x :: r)
| Picked_drop : forall x l r, ~ P x -> Picked P l r -> Picked P (x :: l) r.
Section FormList.
Variable k : checker.
Notation A := (ck_aff k).
Notation opts := (ad_options (ck_aff k)).
(** The prefixes of the entry that fit [mid], put in front of the stem. *)
Definition Prefixed (word stem : str) (flags : flagset) (mid : str) (forms : list str) : Prop :=
  exists ps, Picked (fun p => UsableAffix k Pfx flags word p /\ fits Pfx p mid /\ exists r, mid = strip_text p ++ r) (rules A Pfx) ps /\
    Forall2 (fun p e => derives Pfx p stem e) ps forms.
(** All forms of an entry, in the order in which they are made. *)
Definition Expanded (word stem : str) (flags : flagset) (forms : list str) : Prop :=
  exists base ss sforms crossed pforms,
    ((marked (o_need_affix opts) flags /\ base = []) \/ (~ marked (o_need_affix opts) flags /\ base = [stem])) /\
    Picked (fun s => UsableAffix k Sfx flags word s /\ exists e, attaches Sfx s stem e) (rules A Sfx) ss /\
    Forall2 (fun s e => derives Sfx s stem e) ss sforms /\
    Forall2 (fun sm l => (a_cross (fst sm) = true /\ Prefixed word stem flags (snd sm) l) \/ (a_cross (fst sm) = false /\ l = []))
      (combine ss sforms) crossed /\
    Prefixed word stem flags stem pforms /\
    forms = base ++ sforms ++ concat crossed ++ pforms.
End FormList.

(** ** Proofs: scores *)
Section ScoreProofs.
Variable U : unicode.
Variable h : case_handling.
Notation lower := (lowercase U h).

Lemma same_letter : forall l r, (l = r \/ is_char_eq_lowercase U h l r = true) <-> SameLetter U h l r.
Proof.
  intros l r. unfold SameLetter, is_char_eq_lowercase.
  assert (S1 : match u_lower U r with [x] => (l =? x)%N | _ => false end = true <-> u_lower U r = [l]).
  { destruct (u_lower U r) as [|x [|]]; split; intros H; try discriminate; [apply N.eqb_eq in H; congruence|injection H as ->; apply N.eqb_refl]. }
  destruct h.
  all: rewrite ?orb_true_iff, ?andb_true_iff, S1, ?N.eqb_eq; unfold ch_dotless_i, ch_I, ch_i, ch_dotted_I.
  all: split; [tauto|]; intros [H|[H|[H H']]]; [auto|auto|first [discriminate|tauto]].
Qed.
Lemma overlap_is : forall w x, Overlap U h w x (left_common_substring_length U h w x).
Proof.
  intros w x. pose proof (left_common_spec U h w x) as H.
  destruct w as [|l w]; [rewrite H; apply Overlap_no; discriminate|]. destruct x as [|r x]; [rewrite H; apply Overlap_no; discriminate|].
  destruct H as [H1 H2].
  assert (D : (l = r \/ is_char_eq_lowercase U h l r = true) \/ (l <> r /\ is_char_eq_lowercase U h l r = false)).
  { destruct (N.eq_dec l r), (is_char_eq_lowercase U h l r); auto. }
  destruct D as [D|[D1 D2]].
  - destruct (H1 D) as (n & C & ->). eapply Overlap_yes; [reflexivity|reflexivity|apply same_letter; exact D|exact C].
  - rewrite (H2 D1 D2). apply Overlap_no. intros a b c e E1 E2 SL. injection E1 as <- <-. injection E2 as <- <-.
    apply same_letter in SL. destruct SL; congruence.
Qed.
Lemma longer_worse_is : forall n w x, LongerWorse n w x (ngram_similarity_longer_worse n w x).
Proof.
  intros n w x. rewrite ngram_longer_worse_spec. destruct x as [|c x]; [left; auto|right]. split; [discriminate|].
  eexists. split; [apply ngram_similarity_spec|reflexivity].
Qed.
Lemma other_worse_is : forall n w x, OtherLengthWorse n w x (ngram_similarity_any_mismatch n w x).
Proof.
  intros n w x. rewrite ngram_any_mismatch_spec. destruct x as [|c x]; [left; auto|right]. split; [discriminate|].
  eexists. split; [apply ngram_similarity_spec|reflexivity].
Qed.
Lemma weighted_worse_is : forall n w x, WeightedWorse n w x (ngram_similarity_any_mismatch_weighted n w x).
Proof.
  intros n w [|c x]; [left; auto|right]. split; [discriminate|].
  eexists. split; [apply ngram_weighted_spec|]. cbn [ngram_similarity_any_mismatch_weighted].
  destruct (Z.ltb_spec 0 (Z.abs (Z.of_nat (length (c :: x)) - Z.of_nat (length w)) - 2)); lia.
Qed.

Lemma mangle_length : forall w i, length (mangle i w) = length w.
Proof. induction w as [|c w IH]; intros i; [reflexivity|]. cbn [mangle length]. f_equal. apply IH. Qed.
Lemma mangle_nth : forall w i j, nth_error (mangle i w) j =
  match nth_error w j with Some c => Some (if ((i + j) mod 4 =? 0)%nat then 42%N else c) | None => None end.
Proof.
  induction w as [|c w IH]; intros i j; [destruct j; reflexivity|]. destruct j as [|j]; cbn [mangle nth_error].
  - rewrite Nat.add_0_r. reflexivity.
  - rewrite IH. replace (S i + j) with (i + S j) by lia. reflexivity.
Qed.
Lemma nth_error_skipn : forall (w : str) i j, nth_error (skipn i w) j = nth_error w (i + j).
Proof. induction w as [|c w IH]; intros [|i] j; try reflexivity; [destruct j; reflexivity|]. apply IH. Qed.
Lemma nth_error_firstn : forall (w : str) i j, j < i -> nth_error (firstn i w) j = nth_error w j.
Proof. induction w as [|c w IH]; intros [|i] [|j] L; try reflexivity; try lia. cbn. apply IH. lia. Qed.
Lemma mangled_is : forall i w, i <= length w -> Mangled i w (firstn i w ++ mangle 0 (skipn i w)).
Proof.
  intros i w L. split.
  { rewrite app_length, mangle_length, firstn_length, skipn_length. lia. }
  intros j c E. assert (LF : length (firstn i w) = i) by (rewrite firstn_length; lia). split.
  - intros LJ [q EQ]. rewrite nth_error_app2 by lia. rewrite LF, mangle_nth, nth_error_skipn.
    replace (i + (j - i)) with j by lia. rewrite E. replace (0 + (j - i)) with (q * 4) by lia. rewrite Nat.mod_mul by lia. reflexivity.
  - intros D. destruct (Nat.lt_ge_cases j i) as [LJ|LJ].
    + rewrite nth_error_app1 by lia. rewrite nth_error_firstn by exact LJ. exact E.
    + destruct D as [D|D]; [lia|]. rewrite nth_error_app2 by lia. rewrite LF, mangle_nth, nth_error_skipn.
      replace (i + (j - i)) with j by lia. rewrite E. destruct (Nat.eqb_spec ((0 + (j - i)) mod 4) 0) as [M|M]; [|reflexivity].
      exfalso. pose proof (Nat.div_mod (0 + (j - i)) 4 ltac:(lia)) as DM. apply (D ((0 + (j - i)) / 4)). lia.
Qed.
Lemma threshold_is : forall w, Threshold w (threshold w).
Proof.
  intros w. unfold Threshold, threshold.
  assert (G : forall l s0, (forall i, In i l -> i <= length w) -> exists s, MangledSum w l s /\
    fold_left (fun t i => (t + ngram_similarity_any_mismatch (length w) w (firstn i w ++ mangle 0 (skipn i w)))%Z) l s0 = (s0 + s)%Z).
  { induction l as [|i l IH]; intros s0 B; [exists 0%Z; split; [constructor|cbn; lia]|]. cbn [fold_left].
    destruct (IH (s0 + ngram_similarity_any_mismatch (length w) w (firstn i w ++ mangle 0 (skipn i w)))%Z) as (s & M & E).
    { intros j I. apply B. right. exact I. }
    eexists. split; [econstructor; [apply mangled_is, B; left; reflexivity|apply other_worse_is|exact M]|]. rewrite E. lia. }
  assert (F : firstn 3 (seq 1 (length w)) = match length w with 0 => [] | 1 => [1] | 2 => [1; 2] | _ => [1; 2; 3] end)
    by (destruct (length w) as [|[|[|]]]; reflexivity).
  rewrite <- F. destruct (G (firstn 3 (seq 1 (length w))) 0%Z) as (s & M & E).
  - intros i I. rewrite F in I. destruct (length w) as [|[|[|]]]; cbn [In] in I; lia.
  - exists s. split; [exact M|]. rewrite E. reflexivity.
Qed.

Lemma Subseq_full : forall s w, Subseq s w -> length s = length w -> s = w.
Proof.
  induction 1 as [|c s w H IH|c s w H IH]; intros L; [reflexivity|f_equal; apply IH; cbn in L; lia|].
  exfalso. apply Subseq_length in H. cbn in L. lia.
Qed.
Lemma full_lcs : forall w x, (length w =? length x)%nat && (length w =? longest_common_subsequence_length w x)%nat = true <-> x = w.
Proof.
  intros w x. rewrite andb_true_iff, !Nat.eqb_eq. destruct (lcs_spec w x) as [(s & S1 & S2 & L) MX]. split.
  - intros [E1 E2]. rewrite <- E2 in L. pose proof (Subseq_full S1 L). pose proof (Subseq_full S2 ltac:(lia)). congruence.
  - intros ->. split; [reflexivity|]. assert (W : Subseq w w) by (clear; induction w; constructor; assumption).
    pose proof (MX w W W). pose proof (Subseq_length S1). lia.
Qed.
End ScoreProofs.

(** ** Proofs: the choice *)
Lemma has_one : forall old g, existsb (fun s => contains_str s g) old = true <-> HasOne old g.
Proof.
  intros old g. rewrite existsb_exists. unfold HasOne. split; intros (s & I & C); exists s; (split; [exact I|]); apply contains_str_spec; exact C.
Qed.
Lemma has_none : forall old g, existsb (fun s => contains_str s g) old = false <-> ~ HasOne old g.
Proof. intros old g. rewrite <- has_one, not_true_iff_false. reflexivity. Qed.
Lemma descending_cons : forall A (x : Z * A) l, descending (x :: l) -> descending l /\ Forall (fun y => (fst y <= fst x)%Z) l.
Proof.
  intros A x l D. split.
  - intros a y b z c E. apply (D (x :: a) y b z c). rewrite E. reflexivity.
  - apply Forall_forall. intros y I. apply in_split in I. destruct I as (b & c & ->). exact (D [] x b y c eq_refl).
Qed.
Lemma filter_none : forall A (f : A -> bool) l, Forall (fun x => f x = false) l -> filter f l = [].
Proof. induction 1 as [|x l E _ IH]; [reflexivity|]. cbn. rewrite E. exact IH. Qed.
Section Choice.
Variable k : checker.
Notation opts := (ad_options (ck_aff k)).

Lemma push_full : forall sel old max l out, length out = max -> push_guesses k sel old max l out = out.
Proof. intros sel old max [|[s g] l] out E; [reflexivity|]. cbn [push_guesses]. rewrite E, Nat.eqb_refl. reflexivity. Qed.
Lemma push_selective : forall old max l out, descending l ->
  push_guesses k true old max l out = push_guesses k false old max (filter (fun g => (1000 <? fst g)%Z) l) out.
Proof.
  intros old max. induction l as [|[s g] l IH]; intros out D; [reflexivity|]. destruct (descending_cons D) as [D' F].
  cbn [push_guesses filter fst andb]. destruct (Z.ltb_spec 1000 s) as [L|L].
  - destruct (Z.leb_spec s 1000); [lia|]. cbn [push_guesses andb]. rewrite !IH by exact D'. reflexivity.
  - rewrite filter_none.
    + destruct (Z.leb_spec s 1000); [|lia]. cbn [push_guesses]. destruct (length out =? max)%nat; reflexivity.
    + eapply Forall_impl; [|exact F]. cbn [fst]. intros y Hy. apply Z.ltb_ge. lia.
Qed.
Lemma descending_split : forall A (l : list (Z * A)), descending l ->
  l = filter (fun g => (-100 <=? fst g)%Z) l ++ filter (fun g => (fst g <? -100)%Z) l.
Proof.
  intros A. induction l as [|x l IH]; intros D; [reflexivity|]. destruct (descending_cons D) as [D' F].
  cbn [filter]. destruct (Z.leb_spec (-100) (fst x)) as [L|L].
  - destruct (Z.ltb_spec (fst x) (-100)); [lia|]. cbn [app]. f_equal. apply IH, D'.
  - destruct (Z.ltb_spec (fst x) (-100)); [|lia].
    assert (N1 : filter (fun g => (-100 <=? fst g)%Z) l = []).
    { apply filter_none. eapply Forall_impl; [|exact F]. intros y Hy. cbv beta in Hy. apply Z.leb_gt. lia. }
    rewrite N1. cbn [app]. f_equal. specialize (IH D'). rewrite N1 in IH. exact IH.
Qed.
Lemma push_good : forall old max R G out, Forall (fun g => (-100 <= fst g)%Z) G ->
  exists fresh, FreshOnes out (map snd G) fresh /\
    push_guesses k false old max (G ++ R) out =
      if (length out <=? max)%nat && (max - length out <=? length fresh)%nat
      then out ++ firstn (max - length out) fresh
      else push_guesses k false old max R (out ++ fresh).
Proof.
  intros old max R. induction G as [|[s g] G IH]; intros out F.
  - exists []. split; [constructor|]. cbn [app map length]. rewrite firstn_nil, app_nil_r.
    destruct ((length out <=? max)%nat && (max - length out <=? 0)%nat) eqn:E; [|reflexivity].
    apply push_full. lia.
  - apply Forall_cons_iff in F. destruct F as [Fs FG]. cbn [fst] in Fs. cbn [app push_guesses map snd andb].
    destruct (Z.ltb_spec s (-100)); [lia|]. cbn [andb].
    destruct (existsb (fun s0 => contains_str s0 g) out) eqn:X.
    + destruct (IH out FG) as (fresh & FO & E). exists fresh. split; [apply FreshOnes_skip; [apply has_one; exact X|exact FO]|].
      rewrite E. destruct (Nat.eqb_spec (length out) max) as [EL|EL]; [|reflexivity].
      replace (max - length out) with 0 by lia. cbn [firstn]. rewrite app_nil_r.
      destruct (Nat.leb_spec (length out) max); [|lia]. reflexivity.
    + destruct (IH (out ++ [g]) FG) as (fresh & FO & E). exists (g :: fresh). split; [apply FreshOnes_take; [apply has_none; exact X|exact FO]|].
      rewrite E. clear E IH. rewrite app_length. cbn [length].
      destruct (Nat.eqb_spec (length out) max) as [EL|EL].
      * replace (max - length out) with 0 by lia. cbn [firstn]. rewrite app_nil_r. destruct (Nat.leb_spec (length out) max); [|lia]. reflexivity.
      * destruct (Nat.leb_spec (length out) max) as [L1|L1]; cbn [andb].
        -- destruct (Nat.leb_spec (length out + 1) max); [|lia]. cbn [andb].
           replace (max - length out) with (S (max - (length out + 1))) by lia. cbn [firstn].
           destruct (Nat.leb_spec (max - (length out + 1)) (length fresh));
             destruct (Nat.leb_spec (S (max - (length out + 1))) (S (length fresh))); try lia; rewrite <- app_assoc; reflexivity.
        -- destruct (Nat.leb_spec (length out + 1) max); [lia|]. cbn [andb]. rewrite <- app_assoc. reflexivity.
Qed.
Lemma push_bad : forall old max R out, Forall (fun g => (fst g < -100)%Z) R -> length out <> max ->
  push_guesses k false old max R out =
    match R with
    | [] => out
    | (_, g) :: _ => if negb (old =? length out)%nat || o_only_max_diff opts || existsb (fun s => contains_str s g) out then out else out ++ [g]
    end.
Proof.
  intros old max [|[s g] R] out F N; [reflexivity|]. apply Forall_cons_iff in F. destruct F as [Fs FR]. cbn [fst] in Fs.
  cbn [push_guesses andb]. destruct (Nat.eqb_spec (length out) max); [contradiction|].
  destruct (Z.ltb_spec s (-100)); [|lia]. cbn [andb].
  destruct (negb (old =? length out)%nat || o_only_max_diff opts) eqn:E; [reflexivity|].
  destruct (existsb (fun s0 => contains_str s0 g) out); [reflexivity|]. cbn [orb].
  destruct R as [|[s' g'] R]; [reflexivity|]. apply Forall_cons_iff in FR. destruct FR as [Fs' _]. cbn [fst] in Fs'.
  cbn [push_guesses andb]. destruct (_ =? max)%nat; [reflexivity|]. destruct (Z.ltb_spec s' (-100)); [|lia]. cbn [andb].
  apply orb_false_iff in E. destruct E as [E _]. apply negb_false_iff, Nat.eqb_eq in E.
  rewrite app_length. cbn [length]. destruct (Nat.eqb_spec old (length out + 1)); [lia|]. reflexivity.
Qed.

Theorem push_guesses_exact : forall final out, descending final ->
  exists added, push_guesses k (match final with (s, _) :: _ => (1000 <? s)%Z | [] => false end) (length out)
    (Nat.min max_suggestions (length out + N.to_nat (o_max_ngram opts))) final out = out ++ added /\
    Chosen (o_max_ngram opts) (o_only_max_diff opts) out final added.
Proof.
  intros final out D. set (max := Nat.min max_suggestions (length out + N.to_nat (o_max_ngram opts))).
  set (cands := match filter (fun g => (1000 <? fst g)%Z) final with [] => final | best => best end).
  assert (E1 : push_guesses k (match final with (s, _) :: _ => (1000 <? s)%Z | [] => false end) (length out) max final out =
               push_guesses k false (length out) max cands out /\ descending cands).
  { unfold cands. destruct final as [|[s g] l]; [split; [reflexivity|exact D]|]. destruct (Z.ltb_spec 1000 s) as [L|L].
    - rewrite push_selective by exact D. cbn [filter fst]. destruct (Z.ltb_spec 1000 s); [|lia]. split; [reflexivity|].
      destruct (descending_cons D) as [D' F]. assert (G : forall l' : list (Z * str), descending l' -> descending (filter (fun g => (1000 <? fst g)%Z) l')).
      { clear. induction l' as [|x l' IH]; intros D; [exact D|]. destruct (descending_cons D) as [D' F]. cbn [filter].
        destruct (Z.ltb_spec 1000 (fst x)); [|apply IH, D']. intros a y b z c E. destruct a as [|a0 a]; cbn [app] in E; injection E as <- E.
        - assert (I : In z (filter (fun g => (1000 <? fst g)%Z) l')) by (rewrite E; apply in_or_app; right; left; reflexivity).
          apply filter_In in I. rewrite Forall_forall in F. apply F, I.
        - exact (IH D' a y b z c E). }
      pose proof (G _ D) as X. cbn [filter fst] in X. destruct (Z.ltb_spec 1000 s); [exact X|lia].
    - replace (filter (fun g0 => (1000 <? fst g0)%Z) ((s, g) :: l)) with (@nil (Z * str)); [split; [reflexivity|exact D]|].
      symmetry. apply filter_none. destruct (descending_cons D) as [_ F]. constructor; [apply Z.ltb_ge; exact L|].
      eapply Forall_impl; [|exact F]. intros y Hy. cbn [fst] in Hy. apply Z.ltb_ge. lia. }
  destruct E1 as [E1 DC]. rewrite E1. clear E1.
  pose proof (descending_split DC) as SP.
  set (good := filter (fun g => (-100 <=? fst g)%Z) cands) in *. set (bad := filter (fun g => (fst g <? -100)%Z) cands) in *.
  assert (FG : Forall (fun g => (-100 <= fst g)%Z) good) by (apply Forall_forall; intros x I; apply filter_In in I; lia).
  assert (FB : Forall (fun g => (fst g < -100)%Z) bad) by (apply Forall_forall; intros x I; apply filter_In in I; lia).
  destruct (@push_good (length out) max bad good out FG) as (fresh & FO & E2).
  rewrite SP. rewrite E2. clear E2.
  set (room := if (length out <=? 16)%nat then Nat.min (16 - length out) (N.to_nat (o_max_ngram opts)) else S (length fresh)).
  assert (R1 : length out <= 16 -> room = Nat.min (16 - length out) (N.to_nat (o_max_ngram opts)) /\ room = max - length out /\ length out <= max).
  { intros L. unfold room. destruct (Nat.leb_spec (length out) 16); [|lia]. unfold max, max_suggestions. split; [reflexivity|]. lia. }
  assert (R2 : 16 < length out -> room = S (length fresh) /\ max < length out).
  { intros L. unfold room. destruct (Nat.leb_spec (length out) 16); [lia|]. unfold max, max_suggestions. split; [reflexivity|]. lia. }
  assert (CH : forall added,
    ((room = 0 /\ added = []) \/ (room <> 0 /\ fresh <> [] /\ added = firstn room fresh) \/
     (room <> 0 /\ fresh = [] /\ o_only_max_diff opts = false /\
        exists s g rest, bad = (s, g) :: rest /\ ~ HasOne out g /\ added = [g]) \/
     (room <> 0 /\ fresh = [] /\ added = [] /\
        (o_only_max_diff opts = true \/ match bad with [] => True | g :: _ => HasOne out (snd g) end))) ->
    Chosen (o_max_ngram opts) (o_only_max_diff opts) out final added).
  { intros added H. exists cands, fresh, room. split; [reflexivity|]. split; [exact FO|].
    split; [intros L; apply (R1 L)|]. split; [intros L; apply (R2 L)|]. exact H. }
  destruct ((length out <=? max)%nat && (max - length out <=? length fresh)%nat) eqn:EB.
  - assert (L16 : length out <= 16) by (destruct (Nat.le_gt_cases (length out) 16) as [|L]; [assumption|destruct (R2 L); lia]).
    destruct (R1 L16) as (_ & R & _). exists (firstn room fresh). rewrite R. split; [reflexivity|]. rewrite <- R. apply CH.
    destruct (Nat.eq_dec room 0) as [Z0|Z0]; [left; split; [exact Z0|rewrite Z0; reflexivity]|].
    right. left. split; [exact Z0|]. split; [|reflexivity]. intros EF. rewrite EF in EB. cbn [length] in EB. lia.
  - assert (Z0 : room <> 0).
    { destruct (Nat.le_gt_cases (length out) 16) as [L|L]; [destruct (R1 L) as (_ & R & ?); lia|destruct (R2 L); lia]. }
    assert (TAKE : fresh <> [] -> firstn room fresh = fresh).
    { intros _. apply firstn_all2. destruct (Nat.le_gt_cases (length out) 16) as [L|L]; [destruct (R1 L) as (_ & R & ?); lia|destruct (R2 L); lia]. }
    rewrite (@push_bad (length out) max bad (out ++ fresh) FB).
    2: { rewrite app_length. destruct (Nat.le_gt_cases (length out) 16) as [L|L]; [destruct (R1 L) as (_ & R & ?); lia|destruct (R2 L); lia]. }
    rewrite app_length. destruct fresh as [|f fresh].
    + cbn [length]. rewrite app_nil_r, Nat.add_0_r, Nat.eqb_refl. cbn [negb orb].
      destruct bad as [|[s g] bad'] eqn:EBAD.
      { exists []. rewrite app_nil_r. split; [reflexivity|]. apply CH. right. right. right. auto. }
      destruct (o_only_max_diff opts) eqn:EO; cbn [orb].
      { exists []. rewrite app_nil_r. split; [reflexivity|]. apply CH. right. right. right. auto. }
      destruct (existsb (fun s0 => contains_str s0 g) out) eqn:X.
      { exists []. rewrite app_nil_r. split; [reflexivity|]. apply CH. right. right. right. split; [exact Z0|]. split; [reflexivity|].
        split; [reflexivity|]. right. apply has_one. exact X. }
      exists [g]. split; [reflexivity|]. apply CH. right. right. left. split; [exact Z0|]. split; [reflexivity|]. split; [reflexivity|].
      exists s, g, bad'. split; [reflexivity|]. split; [apply has_none; exact X|reflexivity].
    + exists (f :: fresh). split.
      * destruct bad as [|[s g] bad']; [reflexivity|]. cbn [length].
        destruct (Nat.eqb_spec (length out) (length out + S (length fresh))); [lia|]. reflexivity.
      * apply CH. right. left. split; [exact Z0|]. split; [discriminate|]. symmetry. apply TAKE. discriminate.
Qed.
End Choice.

(** ** Proofs: the forms *)
Lemma picked_filter : forall A (P : A -> Prop) f l, (forall x, In x l -> (f x = true <-> P x)) -> Picked P l (filter f l).
Proof.
  intros A P f. induction l as [|x l IH]; intros H; [constructor|]. cbn [filter].
  pose proof (H x (or_introl eq_refl)) as Hx. destruct (f x) eqn:E; constructor; try (apply Hx; reflexivity); try (apply IH; intros; apply H; right; assumption).
  intros X. apply Hx in X. discriminate.
Qed.
Lemma mapR_all : forall X Y (f : X -> Res Y) l r, mapR f l = Ret r -> Forall2 (fun x y => f x = Ret y) l r.
Proof.
  intros X Y f. induction l as [|x l IH]; intros r H; cbn [mapR] in H; [injection H as <-; constructor|].
  destruct (f x) as [y| |] eqn:E; try discriminate. cbn [bindR] in H. destruct (mapR f l) as [r'| |]; try discriminate.
  injection H as <-. constructor; [exact E|]. apply IH. reflexivity.
Qed.
Lemma Forall2_map_r : forall A B C (P : A -> C -> Prop) (f : B -> C) l l', Forall2 (fun a b => P a (f b)) l l' -> Forall2 P l (map f l').
Proof. induction 1; constructor; assumption. Qed.
Lemma Forall2_weaken : forall A B (P Q : A -> B -> Prop) l l', (forall a b, P a b -> Q a b) -> Forall2 P l l' -> Forall2 Q l l'.
Proof. induction 2; constructor; auto. Qed.
Section FormProofs.
Variable k : checker.
Hypothesis WF : wf_checker k.
Notation A := (ck_aff k).
Notation opts := (ad_options (ck_aff k)).

Lemma prefixed_is : forall word stem flags mid forms, wf_flagset flags ->
  mapR (fun a => prefix_to_derived a stem) (filter (prefix_fits k flags mid word) (i_table (ad_prefixes A))) = Ret forms ->
  Prefixed k word stem flags mid forms.
Proof.
  intros word stem flags mid forms W H. exists (filter (prefix_fits k flags mid word) (i_table (ad_prefixes A))). split.
  - apply picked_filter. intros p I. rewrite <- (prefix_fits_spec WF mid word p W), filter_In. change (i_table (ad_prefixes A)) with (rules A Pfx). tauto.
  - eapply Forall2_weaken; [|apply mapR_all; exact H]. intros p e. apply prefix_derived_is.
Qed.
Theorem expanded_is : forall word stem flags forms, wf_flagset flags -> expand_stem_for_ngram k stem flags word = Ret forms ->
  Expanded k word stem flags forms.
Proof.
  intros word stem flags forms W H.
  assert (H' : (sfx <- mapR (fun a => e <- suffix_to_derived a stem ;; Ret (e, a_cross a))
               (filter (suffix_fits k flags stem word) (i_table (ad_suffixes A))) ;;
      let suffixed := (if has_flag flags (o_need_affix opts) then [] else [(stem, false)]) ++ sfx in
      crossed <- mapR (fun e : str * bool =>
                   if snd e
                   then mapR (fun a => prefix_to_derived a stem)
                          (filter (prefix_fits k flags (fst e) word) (i_table (ad_prefixes A)))
                   else Ret []) suffixed ;;
      pfx <- mapR (fun a => prefix_to_derived a stem)
               (filter (prefix_fits k flags stem word) (i_table (ad_prefixes A))) ;;
      Ret (map fst suffixed ++ concat crossed ++ pfx)) = Ret forms).
  { destruct flags as [|f0 flags]; [|exact H].
    assert (N1 : filter (suffix_fits k [] stem word) (i_table (ad_suffixes A)) = []) by (apply filter_none, Forall_forall; reflexivity).
    assert (N2 : forall mid, filter (prefix_fits k [] mid word) (i_table (ad_prefixes A)) = []) by (intros; apply filter_none, Forall_forall; reflexivity).
    rewrite N1, N2. cbn [mapR bindR]. cbv zeta. rewrite app_nil_r. cbn [expand_stem_for_ngram] in H.
    destruct (has_flag [] (o_need_affix opts)); cbn [mapR snd bindR concat map fst app] in *; exact H. }
  clear H. set (base := if has_flag flags (o_need_affix opts) then [] else [(stem, false)]) in *.
  match type of H' with bindR ?m _ = _ => destruct m as [sfx| |] eqn:ES end; try discriminate. cbn [bindR] in H'. cbv zeta in H'.
  match type of H' with bindR ?m _ = _ => destruct m as [crossed| |] eqn:EC end; try discriminate. cbn [bindR] in H'.
  match type of H' with bindR ?m _ = _ => destruct m as [pfx| |] eqn:EP end; try discriminate. cbn [bindR] in H'.
  injection H' as <-.
  apply mapR_all in ES. apply mapR_all in EC.
  apply Forall2_app_inv_l in EC. destruct EC as (cb & cs & EB & EC & ->).
  assert (CB : concat cb = []).
  { unfold base in EB. destruct (has_flag flags (o_need_affix opts)); [inversion EB; reflexivity|].
    inversion EB as [|? ? ? ? X1 X2]; subst. cbn [snd] in X1. injection X1 as <-. inversion X2; subst. reflexivity. }
  exists (map fst base), (filter (suffix_fits k flags stem word) (i_table (ad_suffixes A))), (map fst sfx), cs, pfx.
  split; [|split; [|split; [|split; [|split]]]].
  - unfold base. destruct (has_flag flags (o_need_affix opts)) eqn:HF.
    + left. split; [apply (has_flag_spec _ W); exact HF|reflexivity].
    + right. split; [apply (has_flag_false _ W); exact HF|reflexivity].
  - apply picked_filter. intros s I. rewrite <- (suffix_fits_spec WF stem word s W), filter_In. change (i_table (ad_suffixes A)) with (rules A Sfx). tauto.
  - apply Forall2_map_r. eapply Forall2_weaken; [|exact ES]. intros s [e c] E. cbn [fst].
    destruct (suffix_to_derived s stem) as [e'| |] eqn:D; try discriminate. injection E as -> _. apply suffix_derived_is. exact D.
  - revert cs EC. clear -WF W ES. induction ES as [|s [e c] ss sfx E ES IH]; intros cs EC; inversion EC as [|? l ? cs' X1 X2]; subst; [constructor|].
    cbn [map combine fst]. constructor; [|apply IH; exact X2]. cbn [fst snd] in *.
    destruct (suffix_to_derived s stem) as [e'| |]; try discriminate. injection E as _ <-.
    destruct (a_cross s); [left; split; [reflexivity|]; apply prefixed_is; assumption|right]. injection X1 as <-. auto.
  - apply prefixed_is; assumption.
  - rewrite map_app, concat_app, CB, <- app_assoc. reflexivity.
Qed.
End FormProofs.

(** ** The whole step *)
Section Whole.
Variable hp : heaps.
Hypothesis WH : wf_heaps hp.
Variable k : checker.
Hypothesis WF : wf_checker k.
Variable words : list (str * flagset).
Hypothesis WW : Forall (fun e => wf_flagset (snd e)) words.
Notation A := (ck_aff k).
Notation opts := (ad_options (ck_aff k)).
Notation U := (ck_u k).
Notation case := (o_case (ad_options (ck_aff k))).

(** What the n-gram step adds to the suggestions [out] for [word]. *)
Definition NgramAdds (word : str) (out added : list str) : Prop :=
  exists eligible rest stems roots forms ranked limit guesses sorted scored final,
    (* the entries that may be suggested, with their scores; a best hundred of them *)
    Permutation words (eligible ++ rest) /\ Forall (fun e => Eligible k (snd e)) eligible /\ Forall (fun e => ~ Eligible k (snd e)) rest /\
    Forall2 (fun e x => snd x = e /\ StemScore U case word (fst e) (fst x)) eligible stems /\
    Best 100 stems roots /\
    (* their forms, with their scores; a best two hundred of those that reach the threshold *)
    Forall2 (fun x l => Expanded k word (fst (snd x)) (snd (snd x)) l) roots forms /\
    Forall2 (fun e x => snd x = e /\ FormScore U case word e (fst x)) (concat forms) ranked /\
    Threshold word limit /\ Best 200 (filter (fun x => (limit <=? fst x)%Z) ranked) guesses /\
    (* sorted, given their second scores, sorted again *)
    Permutation guesses sorted /\ descending sorted /\
    Rescored U case (o_max_diff opts) word sorted scored /\
    Permutation scored final /\ descending final /\
    Chosen (o_max_ngram opts) (o_only_max_diff opts) out final added.

Lemma Ret_inj : forall X (x y : X), Ret x = Ret y -> x = y.
Proof. congruence. Qed.
Lemma rescored_is : forall word l r, rescore k word l = Ret r -> Rescored U case (o_max_diff opts) word l r.
Proof.
  intros word l. induction l as [|[s g] l IH]; intros r H; cbn [rescore] in H; [injection H as <-; constructor|].
  destruct (chars_str (lowercase U case g)) as [low| |] eqn:EL; try discriminate. cbn [bindR] in H. destruct (chars_str_ret _ EL) as [-> _].
  destruct ((length word =? length (lowercase U case g))%nat && _) eqn:EQ.
  { injection H as <-. constructor. apply full_lcs. exact EQ. }
  assert (NE : lowercase U case g <> word) by (intros X; apply full_lcs in X; congruence).
  set (low := lowercase U case g) in *.
  pose proof (count_spec word low) as CS. pose proof (swapped_spec word low) as SS.
  destruct (count_eq_at_same_pos word low) as [sp sw]. cbn [fst snd] in CS, SS.
  destruct (rescore k word l) as [r'| |] eqn:E; cbn [bindR] in H; try discriminate. apply Ret_inj in H. rewrite <- H. clear H.
  apply Rescored_other; [exact NE| |apply IH; reflexivity]. fold low. cbv zeta.
  set (g2a := ngram_similarity_any_mismatch_weighted 2 word low). set (g2b := ngram_similarity_any_mismatch_weighted 2 low word).
  set (g4 := ngram_similarity_any_mismatch 4 word low). set (c := left_common_substring_length U case word low).
  set (lcs := longest_common_subsequence_length word low).
  exists lcs, g2a, g2b, g4, c, sp, (if (sp =? 0)%nat then 0 else 1)%Z, (if sw then 10 else 0)%Z,
    (if (5 * (g2a + g2b) <? Z.of_nat (length word + length low) * (10 - Z.of_N (o_max_diff opts)))%Z then 1000 else 0)%Z.
  split; [apply lcs_spec|]. split; [apply weighted_worse_is|]. split; [apply weighted_worse_is|]. split; [apply other_worse_is|].
  split; [apply overlap_is|]. split; [exact CS|]. split; [destruct (Nat.eqb_spec sp 0); auto|]. split.
  { destruct sw; [left; split; [apply SS; reflexivity|reflexivity]|right]. split; [intros X; apply SS in X; discriminate|reflexivity]. }
  split; [destruct (Z.ltb_spec (5 * (g2a + g2b)) (Z.of_nat (length word + length low) * (10 - Z.of_N (o_max_diff opts)))); auto|].
  destruct (Z.ltb (5 * (g2a + g2b)) (Z.of_nat (length word + length low) * (10 - Z.of_N (o_max_diff opts))));
    destruct sw, (sp =? 0)%nat; lia.
Qed.
Lemma filter_perm : forall X (f : X -> bool) l, Permutation l (filter f l ++ filter (fun x => negb (f x)) l).
Proof.
  intros X f. induction l as [|x l IH]; [constructor|]. cbn [filter]. destruct (f x); cbn [negb app]; [constructor; exact IH|].
  etransitivity; [apply perm_skip; exact IH|]. apply Permutation_middle.
Qed.

Theorem ngram_exact : forall word out r, ngram_suggest hp k words word out = Ret r ->
  exists added, r = out ++ added /\ NgramAdds word out added.
Proof.
  intros word out r H. unfold ngram_suggest in H.
  destruct (chars_str word) as [w'| |] eqn:E0; try discriminate. cbn [bindR] in H. destruct (chars_str_ret _ E0) as [-> _].
  destruct (foldR (root_step hp k word) words []) as [roots| |] eqn:E1; cbn [bindR] in H; try discriminate.
  destruct (@roots_best hp WH k _ _ _ _ _ (@wh_nil _ WH _) (Best_nil _ _) E1) as [I1 B1]. simpl app in B1.
  match type of H with bindR ?m _ = _ => destruct m as [guesses| |] eqn:E2 end; cbn [bindR] in H; try discriminate.
  destruct (@all_guesses_best hp WH k _ _ _ _ _ (@wh_nil _ WH _) (Best_nil _ _) E2) as (ls & EL & I2 & B2). simpl app in B2.
  destruct (rescore k word (hp_into_sorted_vec hp guesses)) as [scored| |] eqn:E3; cbn [bindR] in H; try discriminate.
  destruct (@wh_sorted_vec _ WH _ _ I2) as [P1 D1]. destruct (@wh_sort _ WH _ scored) as [P2 D2].
  set (final := hp_sort_unstable hp scored) in *.
  destruct (@push_guesses_exact k final out D2) as (added & EA & CH). injection H as <-. exists added. split; [exact EA|].
  exists (filter (fun e => negb (ineligible k (snd e))) words), (filter (fun e => negb (negb (ineligible k (snd e)))) words),
    (map (fun e => (root_score k word e, e)) (filter (fun e => negb (ineligible k (snd e))) words)), roots, ls,
    (map (fun e => (guess_score k word e, e)) (concat ls)), (threshold word), guesses, (hp_into_sorted_vec hp guesses), scored, final.
  split; [apply filter_perm|]. split.
  { apply Forall_forall. intros e I. apply filter_In in I. destruct I as [I N]. apply negb_true_iff in N.
    apply ineligible_spec; [exact (proj1 (Forall_forall _ _) WW _ I)|exact N]. }
  split.
  { apply Forall_forall. intros e I X. apply filter_In in I. destruct I as [I N]. rewrite negb_involutive in N.
    apply ineligible_spec in X; [congruence|exact (proj1 (Forall_forall _ _) WW _ I)]. }
  split.
  { apply Forall2_map_r. generalize (filter (fun e => negb (ineligible k (snd e))) words). intros l. induction l as [|e l IH]; constructor; [|exact IH].
    split; [reflexivity|]. do 2 eexists. split; [apply overlap_is|]. split; [apply longer_worse_is|reflexivity]. }
  split; [exact B1|]. split.
  { apply mapR_all in EL. assert (IR : forall x, In x roots -> wf_flagset (snd (snd x))).
    { intros x I. apply (@Best_In _ _ _ _ _ B1) in I. apply in_map_iff in I. destruct I as (e & <- & I). apply filter_In in I.
      exact (proj1 (Forall_forall _ _) WW _ (proj1 I)). }
    clear -EL IR WF. induction EL as [|x l roots ls E EL IH]; constructor.
    - apply expanded_is; [exact WF|apply IR; left; reflexivity|exact E].
    - apply IH. intros y I. apply IR. right. exact I. }
  split.
  { apply Forall2_map_r. generalize (concat ls). intros l. induction l as [|e l IH]; constructor; [|exact IH].
    split; [reflexivity|]. do 2 eexists. split; [apply overlap_is|]. split; [apply other_worse_is|reflexivity]. }
  split; [apply threshold_is|]. split; [exact B2|]. split; [exact P1|]. split; [exact D1|].
  split; [apply rescored_is; exact E3|]. split; [exact P2|]. split; [exact D2|exact CH].
Qed.
End Whole.
