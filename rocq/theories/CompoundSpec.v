(** Flag-based compounding (checker.rs 1387-2347) against a specification of compound words. *)
From Coq Require Import List NArith ZArith Lia Bool Arith.
From Coq Require Import ZifyBool ZifyNat ZifyN.
From Verif Require Import Base Utf8 Unicode Flags Condition Affix CompoundRule Conversion Aff Checker AffixSpec Rep.
Import ListNotations.
Set Implicit Arguments.

(** ** Specification *)
Section Spec.
Variable U : unicode.
Variable A : affdata.
Variable entry : str -> flagset -> Prop.
Notation opts := (ad_options A).

Definition position_flag (m : mode) : option N :=
  match m with
  | AT_BEGIN => o_compound_begin opts
  | AT_MIDDLE => o_compound_middle opts
  | AT_END => o_compound_end opts
  | FULL_WORD => None
  end.

Definition changes_text (a : affix) : Prop := a_strip a <> None \/ a_add a <> [].

(** [w] may stand at position [m] of a compound, as (a form of) the entry of [e]. *)
Definition Reads (m : mode) (w : str) (e : cresult) : Prop :=
  (entry w (cr_flags e) /\ cr_stem e = w /\ ~ marked (o_need_affix opts) (cr_flags e) /\
   (marked (o_compound opts) (cr_flags e) \/ marked (position_flag m) (cr_flags e)) /\
   ~ In hidden_homonym_flag (cr_flags e) /\ cr_modified e = false) \/
  (exists kd a, OneAffix A entry kd m SkipHiddenHomonym w a (cr_stem e) (cr_flags e) /\
                (cr_modified e = true <-> changes_text a)) \/
  (exists p s, PrefixSuffix A entry m SkipHiddenHomonym w p s (cr_stem e) (cr_flags e) /\
               (cr_modified e = true <-> changes_text p \/ changes_text s)).

(** The same; without COMPOUNDSYLLABLE an affix adds no words and no syllables. *)
Definition Part (m : mode) (w : str) (e : cresult) : Prop :=
  Reads m w e /\ (ad_vowels A = [] -> cr_words e = 0%N /\ cr_syllables e = 0%Z).

Definition Forbidden (e : cresult) : Prop := In (o_forbidden opts) (cr_flags e).

(** Three equal characters around the boundary of [l] and [r]. *)
Definition TripleAt (l r : str) : Prop :=
  exists c, (exists l' r', l = l' ++ [c] /\ r = c :: c :: r') \/
            (exists l' r', l = l' ++ [c; c] /\ r = c :: r').

(** An upper-case letter next to a letter at the boundary. *)
Definition CaseAt (l r : str) : Prop :=
  exists a b l' r', l = l' ++ [a] /\ r = b :: r' /\
    ((u_is_upper U b = true /\ u_is_alpha U a = true) \/ (u_is_upper U a = true /\ u_is_alpha U b = true)).

Definition BoundaryOK (l r : str) : Prop :=
  (o_check_triple opts = true -> ~ TripleAt l r) /\ (o_check_case opts = true -> ~ CaseAt l r).

Definition opt_in (o : option N) (fs : flagset) : Prop := forall f, o = Some f -> In f fs.

(** A CHECKCOMPOUNDPATTERN forbids the boundary. *)
Definition PatternAt (l r : str) (e1 e2 : cresult) : Prop :=
  exists p, In p (ad_patterns A) /\
    (exists l', l = l' ++ cp_begin p) /\ (exists r', r = cp_end p ++ r') /\
    opt_in (cp_first_flag p) (cr_flags e1) /\ opt_in (cp_second_flag p) (cr_flags e2) /\
    ~ (cp_unaffixed p = true /\ cr_modified e1 = true).

Definition Similar (w : str) : Prop :=
  RepSimilar (ad_reps A) (fun x => exists flags, SimpleWord A entry SkipHiddenHomonym x flags) w.

Definition min_part : nat := match o_min_length opts with Some n => N.to_nat n | None => 3 end.

(** One boundary.  [Join left rest m p1 e1 second Q R]: the text [rest], which follows
    [left], begins with the part [p1] of entry [e1], after which the text [second] remains
    to be explained; [Q] restricts the entry that comes next, [R] is the REP restriction on
    it when it begins a longer compound. *)
Inductive Join (left rest : str) (m : mode) (p1 : str) (e1 : cresult)
  : str -> (cresult -> Prop) -> (cresult -> Prop) -> Prop :=
| Join_plain : forall r,
    rest = p1 ++ r -> min_part <= length p1 -> min_part <= length r -> BoundaryOK (left ++ p1) r ->
    Join left rest m p1 e1 r
      (fun e2 => ~ PatternAt (left ++ p1) r e1 e2)
      (fun e2 => forall s, r = cr_stem e2 ++ s -> ~ Similar (p1 ++ cr_stem e2))
| Join_triple : forall r c x, (* SIMPLIFIEDTRIPLE: "ab" + "bb.." written "abb.." *)
    o_simplified_triple opts = true ->
    rest = p1 ++ r -> min_part <= length p1 -> min_part <= length r -> BoundaryOK (left ++ p1) r ->
    left ++ p1 = x ++ [c; c] ->
    Join left rest m p1 e1 (c :: r)
      (fun e2 => ~ PatternAt (left ++ p1) (c :: r) e1 e2)
      (fun e2 => forall s, r = cr_stem e2 ++ s -> ~ Similar (p1 ++ cr_stem e2))
| Join_pattern : forall pat rep q r, (* CHECKCOMPOUNDPATTERN with a replacement *)
    In pat (ad_patterns A) -> cp_replacement pat = Some rep ->
    rest = q ++ rep ++ r -> p1 = q ++ cp_begin pat ->
    min_part <= length q -> min_part <= length (rep ++ r) ->
    opt_in (cp_first_flag pat) (cr_flags e1) ->
    (o_check_triple opts = true -> ~ TripleAt (left ++ p1) (cp_end pat ++ r)) ->
    Join left rest m p1 e1 (cp_end pat ++ r)
      (fun e2 => opt_in (cp_second_flag pat) (cr_flags e2))
      (fun e2 => forall s, cp_end pat ++ r = cr_stem e2 ++ s -> ~ Similar (p1 ++ cr_stem e2))
| Join_pattern_triple : forall pat rep q r c x,
    o_simplified_triple opts = true ->
    In pat (ad_patterns A) -> cp_replacement pat = Some rep ->
    rest = q ++ rep ++ r -> p1 = q ++ cp_begin pat ->
    min_part <= length q -> min_part <= length (rep ++ r) ->
    opt_in (cp_first_flag pat) (cr_flags e1) ->
    (o_check_triple opts = true -> ~ TripleAt (left ++ p1) (cp_end pat ++ r)) ->
    left ++ p1 = x ++ [c; c] ->
    Join left rest m p1 e1 (c :: cp_end pat ++ r)
      (fun e2 => opt_in (cp_second_flag pat) (cr_flags e2))
      (fun e2 => forall t s, cr_stem e2 = c :: t -> cp_end pat ++ r = t ++ s -> ~ Similar (p1 ++ t)).

(** [Compound fu m left rest parts]: the text [rest], following [left], is a compound of
    [parts]; [m] is the position of its first part. *)
Inductive Compound (fu : forceucase) : mode -> str -> str -> list (str * cresult) -> Prop :=
| Compound_last : forall m left rest p1 e1 second Q R e2,
    Part m p1 e1 -> ~ Forbidden e1 -> Join left rest m p1 e1 second Q R ->
    Part AT_END second e2 -> ~ Forbidden e2 -> Q e2 ->
    (o_check_duplicate opts = true -> e1 <> e2) ->
    (o_check_rep opts = true -> ~ Similar rest) ->
    (fu = ForbidBadForceucase -> ~ marked (o_force_upper opts) (cr_flags e2)) ->
    Compound fu m left rest [(p1, e1); (second, e2)]
| Compound_more : forall m left rest p1 e1 second Q R w2 e2 ps,
    Part m p1 e1 -> ~ Forbidden e1 -> Join left rest m p1 e1 second Q R ->
    Compound fu AT_MIDDLE (left ++ p1) second ((w2, e2) :: ps) -> Q e2 ->
    (o_check_rep opts = true -> ~ Similar rest /\ R e2) ->
    Compound fu m left rest ((p1, e1) :: (w2, e2) :: ps).
End Spec.

(** ** Helper functions against their meaning *)
Lemma within_In : forall w start m i, 0 < m ->
  (In i (within w start m) <-> start + m <= i /\ i + m <= length w).
Proof.
  intros w start m i Hm. unfold within. destruct (Nat.ltb_spec (start + m) (length w)) as [H|H].
  - destruct (Nat.eqb_spec m 1) as [->|Hne].
    + rewrite in_seq. lia.
    + destruct (Nat.ltb_spec (m - 2) (length w - (start + m))) as [H2|H2].
      * rewrite in_seq. lia.
      * simpl. lia.
  - simpl. lia.
Qed.

Lemma snoc_cases : forall (l : str), l = [] \/ exists l' c, l = l' ++ [c].
Proof. intro l. destruct (rev l) as [|c r] eqn:E.
  - left. rewrite <- (rev_involutive l), E. reflexivity.
  - right. exists (rev r), c. rewrite <- (rev_involutive l), E. reflexivity. Qed.

Lemma rev_snoc : forall (l : str) c r, rev l = c :: r -> l = rev r ++ [c].
Proof. intros l c r E. rewrite <- (rev_involutive l), E. reflexivity. Qed.

Lemma three_chars_spec : forall w i,
  are_three_chars_equal w i = true <-> TripleAt (firstn i w) (skipn i w).
Proof.
  intros w i. unfold are_three_chars_equal, TripleAt.
  set (l := firstn i w). set (r := skipn i w). clearbody l r. split.
  - destruct r as [|ch ahead]; [discriminate|]. destruct (rev l) as [|prev behind] eqn:El; [discriminate|].
    intro H. apply andb_true_iff in H. destruct H as [H1 H2]. apply N.eqb_eq in H1. subst prev.
    apply rev_snoc in El. apply orb_true_iff in H2. destruct H2 as [H2|H2]; exists ch.
    + left. destruct ahead as [|nx ah]; [discriminate|]. apply N.eqb_eq in H2. subst nx. exists (rev behind), ah. auto.
    + right. destruct behind as [|pp bh]; [discriminate|]. apply N.eqb_eq in H2. subst pp.
      exists (rev bh), ahead. split; [|reflexivity]. rewrite El. simpl. rewrite <- app_assoc. reflexivity.
  - intros [c [[l' [r' [-> ->]]]|[l' [r' [-> ->]]]]].
    + rewrite rev_app_distr. simpl. rewrite !N.eqb_refl. reflexivity.
    + rewrite rev_app_distr. simpl. rewrite !N.eqb_refl. apply orb_true_r.
Qed.

Lemma uppercase_boundary_spec : forall U w i,
  has_uppercase_at_boundary U w i = true <-> CaseAt U (firstn i w) (skipn i w).
Proof.
  intros U w i. unfold has_uppercase_at_boundary, CaseAt.
  set (l := firstn i w). set (r := skipn i w). clearbody l r. split.
  - destruct r as [|b r']; [discriminate|]. destruct (rev l) as [|a behind] eqn:El; [discriminate|].
    intro H. apply rev_snoc in El. rewrite orb_true_iff, !andb_true_iff in H.
    exists a, b, (rev behind), r'. tauto.
  - intros (a & b & l' & r' & -> & -> & H). rewrite rev_app_distr. simpl.
    rewrite orb_true_iff, !andb_true_iff. exact H.
Qed.

Lemma prev_codepoint_spec : forall w i pi pc, prev_codepoint w i = Some (pi, pc) ->
  firstn i w = firstn pi w ++ [pc] /\ length (firstn i w) = S pi /\ pi < length w.
Proof.
  intros w i pi pc H. unfold prev_codepoint in H. destruct (rev (firstn i w)) as [|c r] eqn:E; [discriminate|].
  injection H as <- <-. apply rev_snoc in E. pose proof (f_equal (@length N) E) as L.
  rewrite app_length, rev_length in L. simpl in L. rewrite firstn_length in L.
  split; [|rewrite firstn_length; split; lia]. rewrite E. f_equal.
  rewrite <- (firstn_firstn w (length r) i) at 1 || idtac.
  replace (firstn (length r) w) with (firstn (length r) (firstn i w)).
  - rewrite E. rewrite firstn_app_exact; [reflexivity|rewrite rev_length; reflexivity].
  - rewrite firstn_firstn. f_equal. lia.
Qed.

Lemma flag_missing_spec : forall o fs, wf_flagset fs -> (flag_missing o fs = false <-> opt_in o fs).
Proof.
  intros [f|] fs H; unfold flag_missing, opt_in.
  - rewrite negb_false_iff, contains_spec by exact H. split; [congruence|auto].
  - split; [discriminate|reflexivity].
Qed.

Lemma cr_eqb_eq : forall a b, cr_eqb a b = true <-> a = b.
Proof.
  intros [s1 f1 w1 y1 m1] [s2 f2 w2 y2 m2]. unfold cr_eqb. cbn.
  rewrite !andb_true_iff, !str_eqb_eq, N.eqb_eq, Z.eqb_eq, Bool.eqb_true_iff. split.
  - intros [[[[-> ->] ->] ->] ->]. reflexivity.
  - intro H. inversion H. auto.
Qed.

Lemma is_modifying_spec : forall a, is_modifying a = true <-> changes_text a.
Proof.
  intro a. unfold is_modifying, changes_text. rewrite orb_true_iff, negb_true_iff.
  destruct (a_strip a); destruct (a_add a); simpl; intuition congruence.
Qed.

(** ** Soundness *)
Record wf_compound (k : checker) : Prop := {
  wfc_checker : wf_checker k;
  wfc_reps : wf_reps (ad_reps (ck_aff k));
  wfc_reps_scalars : Forall (fun e => scalars (fst e) /\ scalars (snd e)) (rp_table (ad_reps (ck_aff k)));
  wfc_patterns : Forall (fun p => scalars (cp_begin p) /\ scalars (cp_end p)) (ad_patterns (ck_aff k));
  wfc_min : o_min_length (ad_options (ck_aff k)) <> Some 0%N }.

Section Sound.
Variable k : checker.
Hypothesis WFC : wf_compound k.
Notation WF := (wfc_checker WFC).
Notation A := (ck_aff k).
Notation opts := (ad_options (ck_aff k)).
Notation U := (ck_u k).
Notation entry := (fun stem flags => In flags (ck_get k stem)).

Lemma reads_sound : forall m w e, scalars w ->
  check_word_in_compound k m w = Ret (Some e) -> Reads A entry m w e /\ wf_flagset (cr_flags e).
Proof.
  intros m w e Hw H. unfold check_word_in_compound in H.
  destruct (first_some _ (ck_get k w)) as [r|] eqn:E1.
  { injection H as <-. apply first_some_some in E1. destruct E1 as [flags [Hf E]].
    pose proof (wf_entries WF _ _ Hf) as Wf.
    apply some_guard in E. destruct E as [G E]. apply some_guard in E. destruct E as [G0 E].
    apply some_guard in E. destruct E as [G1 E]. injection E as <-. cbn [cr_flags].
    split; [|exact Wf]. left. cbn [cr_flags cr_stem cr_modified].
    unfold need_affix in G. rewrite has_flag_false in G by exact Wf.
    rewrite nand_negb, !has_flag_spec in G0 by exact Wf. rewrite contains_false in G1 by exact Wf.
    repeat match goal with |- _ /\ _ => split end; try assumption; try reflexivity. }
  destruct (strip_suffix_only k m w SkipHiddenHomonym) as [f|] eqn:E2.
  { destruct (@one_affix_sound k WF Sfx m w SkipHiddenHomonym f Hw E2) as [a [st [fl [-> HH]]]].
    cbn [form1 af_suffixes af_stem af_flags] in H.
    destruct (syllable_modifier_with_suffix k m fl a) as [sm| |]; cbn [bindR] in H; try discriminate.
    injection H as <-. cbn [cr_flags]. split.
    - right. left. exists Sfx, a. cbn [cr_stem cr_flags cr_modified]. split; [exact HH|apply is_modifying_spec].
    - destruct HH as (_ & _ & _ & _ & _ & _ & He & _). exact (wf_entries WF _ _ He). }
  destruct (strip_prefix_only k m w SkipHiddenHomonym) as [f|] eqn:E3.
  { destruct (@one_affix_sound k WF Pfx m w SkipHiddenHomonym f Hw E3) as [a [st [fl [-> HH]]]].
    cbn [form1 af_prefixes af_stem af_flags] in H. injection H as <-. cbn [cr_flags]. split.
    - right. left. exists Pfx, a. cbn [cr_stem cr_flags cr_modified]. split; [exact HH|apply is_modifying_spec].
    - destruct HH as (_ & _ & _ & _ & _ & _ & He & _). exact (wf_entries WF _ _ He). }
  destruct (strip_prefix_then_suffix_commutative k m w SkipHiddenHomonym) as [f|] eqn:E4; [|discriminate].
  destruct (@commutative_sound k WF m w SkipHiddenHomonym f Hw E4) as [p [s [st [fl [-> HH]]]]].
  cbn [af_prefixes af_suffixes af_stem af_flags] in H.
  destruct (syllable_modifier_with_suffix k m fl s) as [sm| |]; cbn [bindR] in H; try discriminate.
  injection H as <-. cbn [cr_flags]. split.
  - right. right. exists p, s. cbn [cr_stem cr_flags cr_modified]. split; [exact HH|].
    rewrite orb_true_iff, !is_modifying_spec. tauto.
  - destruct HH as (_ & _ & _ & _ & _ & _ & _ & _ & He & _). exact (wf_entries WF _ _ He).
Qed.

Lemma no_extra : forall m w e, ad_vowels A = [] -> check_word_in_compound k m w = Ret (Some e) ->
  cr_words e = 0%N /\ cr_syllables e = 0%Z.
Proof.
  intros m w e HV H.
  unfold check_word_in_compound, num_words_modifier, syllable_modifier, syllable_modifier_with_suffix in H.
  rewrite HV in H. cbn [nonempty negb] in H. rewrite orb_true_r, andb_false_r in H. cbn [andb] in H.
  destruct (first_some _ (ck_get k w)) as [r|] eqn:E1.
  { injection H as <-. apply first_some_some in E1. destruct E1 as (f & _ & E1).
    repeat match type of E1 with context [if ?b then _ else _] => destruct b end; try discriminate. injection E1 as <-. auto. }
  destruct (strip_suffix_only k m w SkipHiddenHomonym) as [f|].
  { destruct (af_suffixes f) as [|sx l]; [discriminate|]. cbn in H. injection H as <-. auto. }
  destruct (strip_prefix_only k m w SkipHiddenHomonym) as [f|].
  { destruct (af_prefixes f) as [|sx l]; [discriminate|]. injection H as <-. auto. }
  destruct (strip_prefix_then_suffix_commutative k m w SkipHiddenHomonym) as [f|]; [|discriminate].
  destruct (af_prefixes f), (af_suffixes f); try discriminate. cbn in H. injection H as <-. auto.
Qed.

Lemma part_sound : forall m w e, scalars w ->
  check_word_in_compound k m w = Ret (Some e) -> Part A entry m w e /\ wf_flagset (cr_flags e).
Proof.
  intros m w e Hw H. destruct (@reads_sound m w e Hw H) as [HR HF]. split; [|exact HF].
  split; [exact HR|]. intro HV. exact (@no_extra m w e HV H).
Qed.

Lemma forbidden_spec : forall fs, wf_flagset fs ->
  (is_forbidden k fs = false <-> ~ In (o_forbidden opts) fs).
Proof. intros fs H. apply contains_false. exact H. Qed.

Lemma pattern_matches_spec : forall p l r e1 e2, wf_flagset (cr_flags e1) -> wf_flagset (cr_flags e2) ->
  (pattern_matches p (l ++ r) (length l) e1 e2 = true <->
    (exists l', l = l' ++ cp_begin p) /\ (exists r', r = cp_end p ++ r') /\
    opt_in (cp_first_flag p) (cr_flags e1) /\ opt_in (cp_second_flag p) (cr_flags e2) /\
    ~ (cp_unaffixed p = true /\ cr_modified e1 = true)).
Proof.
  intros p l r e1 e2 W1 W2. unfold pattern_matches.
  rewrite firstn_app_exact, skipn_app_exact by reflexivity.
  rewrite <- (flag_missing_spec (cp_first_flag p) W1), <- (flag_missing_spec (cp_second_flag p) W2).
  rewrite <- ends_with_spec, <- starts_with_spec.
  destruct (ends_with (cp_begin p) l), (starts_with (cp_end p) r); cbn [negb andb];
    try (split; [discriminate|tauto || (intros [? [? _]]; discriminate)]).
  destruct (flag_missing (cp_first_flag p) (cr_flags e1)); [split; [discriminate|intros (_ & _ & H & _); discriminate]|].
  destruct (flag_missing (cp_second_flag p) (cr_flags e2)); [split; [discriminate|intros (_ & _ & _ & H & _); discriminate]|].
  destruct (cp_unaffixed p), (cr_modified e1); cbn [andb]; split; intro H; try discriminate; try reflexivity;
    repeat split; try reflexivity; try (intros [? ?]; discriminate).
  destruct H as (_ & _ & _ & _ & H). exfalso. apply H. auto.
Qed.

Lemma forbidden_by_patterns_spec : forall l r e1 e2, wf_flagset (cr_flags e1) -> wf_flagset (cr_flags e2) ->
  (forbidden_by_patterns k (l ++ r) (length l) e1 e2 = true <-> PatternAt A l r e1 e2).
Proof.
  intros l r e1 e2 W1 W2. unfold forbidden_by_patterns, PatternAt. rewrite existsb_exists.
  split; intros [p [H1 H2]]; exists p; (split; [exact H1|]); apply pattern_matches_spec; assumption.
Qed.

(** Similarity of the code with the checker's simple words. *)
Lemma simple_ok_spec : forall w, scalars w ->
  (simple_ok k w = true <-> exists flags, SimpleWord A entry SkipHiddenHomonym w flags).
Proof.
  intros w Hw. unfold simple_ok. destruct (check_simple_word k w SkipHiddenHomonym) as [f|] eqn:E; simpl.
  - split; [|reflexivity]. intros _. exists f. exact (@simple_word_sound k WF w _ f Hw E).
  - split; [discriminate|]. intros [fl H]. destruct (@simple_word_complete k WF w _ fl Hw H) as [f E']. congruence.
Qed.

Lemma reps_In_scalars : forall f t,
  In (f, t) (whole_reps (ad_reps A)) \/ In (f, t) (start_reps (ad_reps A)) \/
  In (f, t) (end_reps (ad_reps A)) \/ In (f, t) (any_reps (ad_reps A)) -> scalars f /\ scalars t.
Proof.
  intros f t H. assert (In (f, t) (rp_table (ad_reps A))) as Hin.
  { unfold whole_reps, start_reps, end_reps, any_reps, slice in H.
    destruct H as [H|[H|[H|H]]].
    - rewrite <- (firstn_skipn (rp_whole (ad_reps A))). apply in_or_app. auto.
    - rewrite <- (firstn_skipn (rp_whole (ad_reps A))). apply in_or_app. right.
      rewrite <- (firstn_skipn (rp_start (ad_reps A) - rp_whole (ad_reps A))). apply in_or_app. auto.
    - rewrite <- (firstn_skipn (rp_start (ad_reps A))). apply in_or_app. right.
      rewrite <- (firstn_skipn (rp_end (ad_reps A) - rp_start (ad_reps A))). apply in_or_app. auto.
    - rewrite <- (firstn_skipn (rp_end (ad_reps A))). apply in_or_app. auto. }
  exact (proj1 (Forall_forall _ _) (wfc_reps_scalars WFC) _ Hin).
Qed.

Lemma similar_spec : forall w, scalars w -> (is_rep_similar k w = true <-> Similar A entry w).
Proof.
  intros w Hw. rewrite (@is_rep_similar_spec k w (wfc_reps WFC)). unfold Similar, RepSimilar.
  split; intro H; destruct H as [(f & t & H1 & H2 & H3)|[(f & t & r & H1 & H2 & H3)|
     [(f & t & r & H1 & H2 & H3)|(f & t & u & v & H1 & H2 & H3)]]].
  - left. exists f, t. conj; auto. apply simple_ok_spec; [|exact H3]. apply (@reps_In_scalars f t). auto.
  - right. left. exists f, t, r. conj; auto. apply simple_ok_spec; [|exact H3].
    assert (scalars t) by (apply (@reps_In_scalars f t); auto). subst w. apply Forall_app in Hw. apply Forall_app. tauto.
  - right. right. left. exists f, t, r. conj; auto. apply simple_ok_spec; [|exact H3].
    assert (scalars t) by (apply (@reps_In_scalars f t); auto). subst w. apply Forall_app in Hw. apply Forall_app. tauto.
  - right. right. right. exists f, t, u, v. conj; auto. apply simple_ok_spec; [|exact H3].
    assert (scalars t) by (apply (@reps_In_scalars f t); auto). apply Occ_app in H2. subst w.
    unfold scalars in *. rewrite !Forall_app in *. tauto.
  - left. exists f, t. conj; auto. apply simple_ok_spec; [|exact H3]. apply (@reps_In_scalars f t). auto.
  - right. left. exists f, t, r. conj; auto. apply simple_ok_spec; [|exact H3].
    assert (scalars t) by (apply (@reps_In_scalars f t); auto). subst w. apply Forall_app in Hw. apply Forall_app. tauto.
  - right. right. left. exists f, t, r. conj; auto. apply simple_ok_spec; [|exact H3].
    assert (scalars t) by (apply (@reps_In_scalars f t); auto). subst w. apply Forall_app in Hw. apply Forall_app. tauto.
  - right. right. right. exists f, t, u, v. conj; auto. apply simple_ok_spec; [|exact H3].
    assert (scalars t) by (apply (@reps_In_scalars f t); auto). apply Occ_app in H2. subst w.
    unfold scalars in *. rewrite !Forall_app in *. tauto.
Qed.

Definition CMiddle := @Compound U A entry.

(** COMPOUNDWORDMAX bounds the number of parts, [num] of which were already counted. *)
Definition Bound (num n : nat) : Prop :=
  forall mx, o_max_words opts = Some mx -> ad_vowels A = [] ->
    (N.of_nat (num + n) <= mx + 2)%N /\ (o_simplified_triple opts = false -> (N.of_nat (num + n) <= mx)%N).

Definition rec_sound (rec : str -> nat -> nat -> forceucase -> Res (option cresult)) : Prop :=
  forall word start num fu e, scalars word -> start <= length word ->
    rec word start num fu = Ret (Some e) ->
    wf_flagset (cr_flags e) /\
    exists w2 ps, Compound U A entry fu AT_MIDDLE (firstn start word) (skipn start word) ((w2, e) :: ps) /\
                  Bound num (length ((w2, e) :: ps)).

Lemma add_part_ge : forall num e, num <= add_part k num e.
Proof. intros. unfold add_part. destruct (has_flag _ _); lia. Qed.

Lemma skipn_split : forall (w : str) s i, s <= i -> skipn s w = slice w s i ++ skipn i w.
Proof.
  intros w s i H. unfold slice. rewrite <- (firstn_skipn (i - s) (skipn s w)) at 1. f_equal.
  rewrite skipn_skipn'. f_equal. lia.
Qed.
Lemma firstn_split : forall (w : str) s i, s <= i -> firstn i w = firstn s w ++ slice w s i.
Proof.
  intros w s i H. unfold slice. rewrite <- (firstn_skipn s (firstn i w)), firstn_firstn.
  rewrite Nat.min_l by exact H. f_equal. rewrite skipn_firstn_comm. reflexivity.
Qed.

Lemma fp_spec : forall w i e1 e2, i <= length w -> wf_flagset (cr_flags e1) -> wf_flagset (cr_flags e2) ->
  (forbidden_by_patterns k w i e1 e2 = true <-> PatternAt A (firstn i w) (skipn i w) e1 e2).
Proof.
  intros w i e1 e2 Hi W1 W2. rewrite <- forbidden_by_patterns_spec by assumption.
  rewrite firstn_skipn, firstn_length_le by exact Hi. reflexivity.
Qed.

Lemma scalars_skipn : forall n (w : str), scalars w -> scalars (skipn n w).
Proof. intros n w H. rewrite <- (firstn_skipn n w) in H. apply Forall_app in H. tauto. Qed.
Lemma scalars_firstn : forall n (w : str), scalars w -> scalars (firstn n w).
Proof. intros n w H. rewrite <- (firstn_skipn n w) in H. apply Forall_app in H. tauto. Qed.
Lemma scalars_slice : forall a b (w : str), scalars w -> scalars (slice w a b).
Proof. intros. apply scalars_firstn, scalars_skipn. assumption. Qed.

Lemma rep_check_spec : forall w, scalars w ->
  rep_check k w = false -> o_check_rep opts = true -> ~ Similar A entry w.
Proof.
  intros w Hw H Hr. unfold rep_check in H. rewrite Hr in H. cbn [andb] in H.
  rewrite <- similar_spec by exact Hw. congruence.
Qed.

Lemma rep_check_part2_spec : forall w start i e2, scalars w -> start <= i ->
  rep_check_part2 k w start i e2 = false -> o_check_rep opts = true ->
  forall s, skipn i w = cr_stem e2 ++ s -> ~ Similar A entry (slice w start i ++ cr_stem e2).
Proof.
  intros w start i e2 Hw Hs H Hr s Es. unfold rep_check_part2 in H. rewrite Hr in H. cbn [andb] in H.
  assert (starts_with (cr_stem e2) (skipn i w) = true) as E by (apply starts_with_spec; eauto).
  rewrite E in H. cbn [andb] in H.
  assert (slice w start (i + length (cr_stem e2)) = slice w start i ++ cr_stem e2) as E2.
  { unfold slice at 1. rewrite (skipn_split w Hs), Es.
    destruct (Nat.le_gt_cases i (length w)) as [Hi|Hi].
    - assert (length (slice w start i) = i - start) as L by (rewrite slice_length; lia).
      rewrite firstn_app, firstn_all2 by lia. f_equal.
      rewrite L. apply firstn_app_exact. lia.
    - rewrite skipn_all2 in Es by lia. destruct (cr_stem e2); [|discriminate]. cbn [length app] in *.
      subst s. rewrite !app_nil_r. apply firstn_all2. unfold slice. rewrite firstn_length. lia. }
  rewrite E2 in H. rewrite <- similar_spec; [congruence|]. rewrite <- E2. apply scalars_slice. exact Hw.
Qed.

Lemma min_pos : 0 < min_chars k.
Proof.
  unfold min_chars. pose proof (wfc_min WFC). destruct (o_min_length opts) as [n|]; [|lia].
  destruct (N.eq_dec n 0); [subst; congruence|lia].
Qed.

Lemma reaches_max_bound : forall num n, reaches_max k n = false -> num <= n -> Bound num 2.
Proof.
  intros num n H Hn mx Hm Hv. unfold reaches_max in H. rewrite Hm in H. lia.
Qed.

Lemma second_rejected_spec : forall word rw i fu e1 e2,
  i <= length word -> scalars rw -> wf_flagset (cr_flags e1) -> wf_flagset (cr_flags e2) ->
  second_rejected k word rw i fu e1 e2 = false ->
  ~ Forbidden A e2 /\ ~ PatternAt A (firstn i word) (skipn i word) e1 e2 /\
  (o_check_duplicate opts = true -> e1 <> e2) /\ (o_check_rep opts = true -> ~ Similar A entry rw) /\
  (fu = ForbidBadForceucase -> ~ marked (o_force_upper opts) (cr_flags e2)).
Proof.
  intros word rw i fu e1 e2 Hi Hrw W1 W2 H. unfold second_rejected in H. rewrite !orb_false_iff in H.
  destruct H as [[[[H1 H2] H3] H4] H5]. conj.
  - apply forbidden_spec; assumption.
  - rewrite <- fp_spec by assumption. congruence.
  - intros Hd He. rewrite Hd in H3. cbn [andb] in H3. apply cr_eqb_eq in He. congruence.
  - apply rep_check_spec; assumption.
  - intros -> Hm. cbn in H5. rewrite <- has_flag_spec in Hm by exact W2. congruence.
Qed.

Section StepSound.
Variable rec : str -> nat -> nat -> forceucase -> Res (option cresult).
Hypothesis REC : rec_sound rec.

Section At.
Variables (m : mode) (word : str) (start i : nat) (fu : forceucase).
Hypothesis Hsc : scalars word.
Hypothesis Hin : In i (within word start (min_chars k)).

Lemma At_bounds : start + min_chars k <= i /\ i + min_chars k <= length word.
Proof. apply within_In; [apply min_pos|exact Hin]. Qed.

Notation left := (firstn start word).
Notation rest := (skipn start word).
Notation p1 := (slice word start i).

Definition Result num e1 : Prop :=
  exists w2 e2 ps, Compound U A entry fu m left rest ((w2, e1) :: e2 :: ps) /\
                   Bound num (length (e2 :: ps) + 1).

Lemma simplified_sound : forall num0 num e1 e, num0 <= num ->
  Part A entry m p1 e1 -> ~ Forbidden A e1 -> wf_flagset (cr_flags e1) ->
  BoundaryOK U A (left ++ p1) (skipn i word) ->
  try_simplified_triple k rec word start i num fu e1 = Ret (Some e) -> e = e1 /\ Result num0 e1.
Proof.
  intros num0 num e1 e Hnum HP HF W1 HB H. pose proof At_bounds as [B1 B2]. pose proof min_pos as MP.
  unfold try_simplified_triple in H.
  destruct (o_simplified_triple opts) eqn:Est; cbn [negb] in H; [|discriminate].
  destruct (prev_codepoint word i) as [[pi pc]|] eqn:E1; [|discriminate].
  destruct (Nat.eqb_spec pi 0) as [|Hpi]; [discriminate|].
  destruct (prev_codepoint word pi) as [[pi2 pc2]|] eqn:E2; [|discriminate].
  destruct (N.eqb_spec pc pc2) as [<-|]; cbn [negb] in H; [|discriminate].
  destruct (prev_codepoint_spec _ _ E1) as (F1 & L1 & _). destruct (prev_codepoint_spec _ _ E2) as (F2 & L2 & _).
  rewrite firstn_length in L1.
  assert (left ++ p1 = firstn pi2 word ++ [pc; pc]) as ELP.
  { rewrite <- firstn_split by lia. rewrite F1, F2, <- app_assoc. reflexivity. }
  set (triple := firstn pi word ++ pc :: skipn pi word) in *.
  assert (skipn pi word = pc :: skipn i word) as ESP.
  { assert (word = firstn pi word ++ [pc] ++ skipn i word) as EW.
    { rewrite app_assoc, <- F1. symmetry. apply firstn_skipn. }
    rewrite EW at 1. rewrite skipn_app_exact by (rewrite firstn_length; lia). reflexivity. }
  assert (triple = (left ++ p1) ++ pc :: skipn i word) as ET.
  { unfold triple. rewrite ESP, <- firstn_split by lia. rewrite F1, <- app_assoc. reflexivity. }
  assert (length (left ++ p1) = i) as LLP by (rewrite <- firstn_split by lia; rewrite firstn_length; lia).
  assert (firstn i triple = left ++ p1) as ETF by (rewrite ET; apply firstn_app_exact; symmetry; exact LLP).
  assert (skipn i triple = pc :: skipn i word) as ETS by (rewrite ET; apply skipn_app_exact; symmetry; exact LLP).
  assert (i <= length triple) as HiT by (rewrite ET, app_length, LLP; lia).
  assert (scalars triple) as HscT.
  { pose proof (scalars_firstn i Hsc) as S1. pose proof (scalars_skipn pi Hsc) as S2.
    rewrite ET, <- firstn_split by lia. apply Forall_app. split; [exact S1|]. rewrite <- ESP. exact S2. }
  clearbody triple.
  assert (exists (Q R : cresult -> Prop), (forall e2, Q e2 <-> ~ PatternAt A (firstn i triple) (skipn i triple) e1 e2) /\
            (forall e2, (forall s, skipn i word = cr_stem e2 ++ s -> ~ Similar A entry (p1 ++ cr_stem e2)) -> R e2) /\
            Join U A entry left rest m p1 e1 (pc :: skipn i word) Q R) as (Q & R & HQ & HR & HJ).
  { eexists. eexists. split; [|split]; [| |eapply Join_triple with (x := firstn pi2 word)]; try assumption.
    - intro e2. rewrite ETF, ETS. reflexivity.
    - intros e2 H2. exact H2.
    - apply skipn_split. lia.
    - change (min_part A) with (min_chars k). rewrite slice_length by lia. lia.
    - change (min_part A) with (min_chars k). rewrite skipn_length. lia. }
  assert (RecCase : triple_recursive k rec triple word start i num fu e1 = Ret (Some e) -> e = e1 /\ Result num0 e1).
  { clear H. intro H. unfold triple_recursive in H.
    destruct (rec triple i (num + 1) fu) as [[e2|]| |] eqn:ER; cbn [bindR] in H; try discriminate.
    destruct (REC HscT HiT ER) as (W2 & w2 & ps & HC & HBd).
    destruct (forbidden_by_patterns k triple i e1 e2) eqn:EP; [discriminate|].
    destruct (rep_check k rest || rep_check_part2 k word start i e2) eqn:ERC; [discriminate|].
    injection H as <-. split; [reflexivity|]. apply orb_false_iff in ERC. destruct ERC as [ERC1 ERC2].
    exists p1, (w2, e2), ps. split.
    - eapply Compound_more; try exact HJ; try assumption.
      + rewrite ETF, ETS in HC. exact HC.
      + apply HQ. rewrite <- fp_spec by assumption. congruence.
      + intro Hr. split; [apply rep_check_spec; [apply scalars_skipn; exact Hsc|exact ERC1|exact Hr]|].
        apply HR. apply rep_check_part2_spec; try assumption. lia.
    - intros mx Hm Hv. destruct (HBd mx Hm Hv) as [X1 X2]. cbn [length] in *. split; [lia|]. intro Hs. specialize (X2 Hs). lia. }
  rewrite ETS in H.
  destruct (check_word_in_compound k AT_END (pc :: skipn i word)) as [[e2|]| |] eqn:EC; cbn [bindR] in H; try discriminate;
    [|apply RecCase; exact H].
  assert (scalars (pc :: skipn i word)) as S2 by (rewrite <- ETS; apply scalars_skipn; exact HscT).
  destruct (@part_sound AT_END _ e2 S2 EC) as [HP2 W2].
  destruct (second_rejected k triple rest i fu e1 e2) eqn:ESR; [apply RecCase; exact H|].
  destruct (@second_rejected_spec triple rest i fu e1 e2 HiT (scalars_skipn start Hsc) W1 W2 ESR) as (K1 & K2 & K3 & K4 & K5).
  destruct (exceeds_max k num) eqn:EX; [discriminate|]. injection H as <-. split; [reflexivity|].
  exists p1, (pc :: skipn i word, e2), []. split.
  - eapply Compound_last; try exact HJ; try assumption. apply HQ. exact K2.
  - intros mx Hm Hv. unfold exceeds_max in EX. rewrite Hm in EX. cbn [length]. split; [lia|congruence].
Qed.

Lemma join_plain : forall e1, BoundaryOK U A (left ++ p1) (skipn i word) ->
  Join U A entry left rest m p1 e1 (skipn i word)
    (fun e2 => ~ PatternAt A (left ++ p1) (skipn i word) e1 e2)
    (fun e2 => forall s, skipn i word = cr_stem e2 ++ s -> ~ Similar A entry (p1 ++ cr_stem e2)).
Proof.
  intros e1 HB. pose proof At_bounds as [B1 B2]. apply Join_plain; try assumption.
  - apply skipn_split. lia.
  - change (min_part A) with (min_chars k). rewrite slice_length by lia. lia.
  - change (min_part A) with (min_chars k). rewrite skipn_length. lia.
Qed.

Lemma recursive_sound : forall num0 num e1 e, num0 <= num ->
  Part A entry m p1 e1 -> ~ Forbidden A e1 -> wf_flagset (cr_flags e1) ->
  BoundaryOK U A (left ++ p1) (skipn i word) ->
  try_recursive k rec word start i num fu e1 = Ret (Some e) -> e = e1 /\ Result num0 e1.
Proof.
  intros num0 num e1 e Hnum HP HF W1 HB H. pose proof At_bounds as [B1 B2]. pose proof min_pos as MP.
  pose proof (@simplified_sound num0 num e1 e Hnum HP HF W1 HB) as STS.
  unfold try_recursive in H.
  destruct (rec word i (num + 1) fu) as [[e2|]| |] eqn:ER; cbn [bindR] in H; try discriminate; [|auto].
  assert (i <= length word) as Hi by lia.
  destruct (REC Hsc Hi ER) as (W2 & w2 & ps & HC & HBd).
  destruct (forbidden_by_patterns k word i e1 e2) eqn:EP; [auto|].
  destruct (rep_check k rest || rep_check_part2 k word start i e2) eqn:ERC; [auto|].
  injection H as <-. split; [reflexivity|]. apply orb_false_iff in ERC. destruct ERC as [ERC1 ERC2].
  exists p1, (w2, e2), ps. split.
  - eapply Compound_more; try exact (join_plain _ HB); try assumption.
    + rewrite <- firstn_split by lia. exact HC.
    + cbv beta. rewrite <- (@firstn_split word start i) by lia. rewrite <- fp_spec by assumption. congruence.
    + intro Hr. split; [apply rep_check_spec; [apply scalars_skipn; exact Hsc|exact ERC1|exact Hr]|].
      apply rep_check_part2_spec; try assumption. lia.
  - intros mx Hm Hv. destruct (HBd mx Hm Hv) as [X1 X2]. cbn [length] in *. split; [lia|]. intro Hs. specialize (X2 Hs). lia.
Qed.

Lemma classic_sound : forall num e,
  compound_classic k rec m word start i num fu = Ret (Some e) -> wf_flagset (cr_flags e) /\ Result num e.
Proof.
  intros num e H. pose proof At_bounds as [B1 B2]. pose proof min_pos as MP. unfold compound_classic in H.
  destruct (check_word_in_compound k m p1) as [[e1|]| |] eqn:EC1; cbn [bindR] in H; try discriminate.
  destruct (@part_sound m _ e1 (scalars_slice start i Hsc) EC1) as [HP1 W1].
  destruct (is_forbidden k (cr_flags e1)) eqn:EF; [discriminate|]. apply forbidden_spec in EF; [|exact W1].
  destruct (o_check_triple opts && are_three_chars_equal word i) eqn:ET; [discriminate|].
  destruct (o_check_case opts && has_uppercase_at_boundary U word i) eqn:ECs; [discriminate|].
  assert (BoundaryOK U A (left ++ p1) (skipn i word)) as HB.
  { rewrite <- firstn_split by lia. split.
    - intros E. rewrite E in ET. cbn [andb] in ET. rewrite <- three_chars_spec. congruence.
    - intros E. rewrite E in ECs. cbn [andb] in ECs. rewrite <- uppercase_boundary_spec. congruence. }
  pose proof (@recursive_sound num (add_part k num e1) e1 e (add_part_ge num e1) HP1 EF W1 HB) as TR.
  assert (TR' : try_recursive k rec word start i (add_part k num e1) fu e1 = Ret (Some e) ->
                wf_flagset (cr_flags e) /\ Result num e).
  { intro X. destruct (TR X) as [-> Y]. auto. }
  destruct (check_word_in_compound k AT_END (skipn i word)) as [[e2|]| |] eqn:EC2; cbn [bindR] in H; try discriminate; [|auto].
  destruct (@part_sound AT_END _ e2 (scalars_skipn i Hsc) EC2) as [HP2 W2].
  destruct (second_rejected k word rest i fu e1 e2) eqn:ESR; [auto|].
  assert (i <= length word) as Hi by lia.
  destruct (@second_rejected_spec word rest i fu e1 e2 Hi (scalars_skipn start Hsc) W1 W2 ESR) as (K1 & K2 & K3 & K4 & K5).
  assert (HC : Compound U A entry fu m left rest [(p1, e1); (skipn i word, e2)]).
  { eapply Compound_last; try exact (join_plain _ HB); try assumption.
    cbv beta. rewrite <- (@firstn_split word start i) by lia. exact K2. }
  pose proof (add_part_ge num e1). pose proof (add_part_ge (add_part k num e1) e2).
  destruct (reaches_max k (add_part k (add_part k num e1) e2)) eqn:EM.
  - destruct (nonempty (ad_vowels A)) eqn:EV; cbn [negb] in H; [|discriminate].
    destruct (usize_add_i16 _ _ _) as [ns| |]; cbn [bindR] in H; try discriminate.
    destruct (_ <? ns)%N; [auto|]. injection H as <-. split; [exact W1|].
    exists p1, (skipn i word, e2), []. split; [exact HC|]. intros mx Hm Hv. rewrite Hv in EV. discriminate.
  - injection H as <-. split; [exact W1|]. exists p1, (skipn i word, e2), []. split; [exact HC|].
    apply (@reaches_max_bound _ _ EM). lia.
Qed.

Lemma pattern_sound : forall num pat e, In pat (ad_patterns A) ->
  pattern_step k rec m word start i num fu pat = Ret (inl (Some e)) -> wf_flagset (cr_flags e) /\ Result num e.
Proof.
  intros num pat e Hpat H. pose proof At_bounds as [B1 B2]. pose proof min_pos as MP. unfold pattern_step in H.
  destruct (cp_replacement pat) as [rep|] eqn:Erep; [|discriminate].
  destruct (starts_with rep (skipn i word)) eqn:Est; cbn [negb] in H; [|discriminate].
  apply starts_with_spec in Est. destruct Est as [r Er].
  assert (skipn (i + length rep) word = r) as Er'.
  { rewrite <- skipn_skipn'. rewrite Er. apply skipn_app_exact. reflexivity. }
  rewrite Er' in H.
  set (scratch := firstn i word ++ (cp_begin pat ++ cp_end pat) ++ r) in *.
  set (j := i + length (cp_begin pat)) in *.
  set (q := p1) in *. set (p := q ++ cp_begin pat).
  assert (length (firstn i word) = i) as Li by (rewrite firstn_length; lia).
  assert (scratch = (left ++ p) ++ cp_end pat ++ r) as ES.
  { unfold scratch, p, q. rewrite (@firstn_split word start i) by lia. rewrite <- !app_assoc. reflexivity. }
  assert (length (left ++ p) = j) as LJ.
  { unfold p, q, j. rewrite app_assoc, <- firstn_split by lia. rewrite app_length, Li. reflexivity. }
  assert (firstn j scratch = left ++ p) as ESF by (rewrite ES; apply firstn_app_exact; symmetry; exact LJ).
  assert (skipn j scratch = cp_end pat ++ r) as ESS by (rewrite ES; apply skipn_app_exact; symmetry; exact LJ).
  assert (length left = start) as Lst by (rewrite firstn_length; lia).
  assert (start <= j) as Hsj by (unfold j; lia).
  assert (j <= length scratch) as Hj by (rewrite ES, app_length, LJ; lia).
  assert (firstn start scratch = left) as ESL.
  { rewrite ES, <- app_assoc. apply firstn_app_exact. symmetry. exact Lst. }
  assert (slice scratch start j = p) as ESP.
  { pose proof (@firstn_split scratch start j Hsj) as X. rewrite ESF, ESL in X. apply app_inv_head in X. symmetry. exact X. }
  destruct (proj1 (Forall_forall _ _) (wfc_patterns WFC) _ Hpat) as [Sb Se].
  assert (scalars r) as Sr by (rewrite <- Er'; apply scalars_skipn; exact Hsc).
  assert (scalars scratch) as SS0.
  { unfold scratch. unfold scalars. rewrite !Forall_app. conj; try assumption. apply scalars_firstn. exact Hsc. }
  assert (scalars rest) as Srest by (apply scalars_skipn; exact Hsc).
  assert (rest = q ++ rep ++ r) as ERest by (rewrite <- Er; apply skipn_split; lia).
  assert (min_part A <= length q) as Mq.
  { change (min_part A) with (min_chars k). unfold q. rewrite slice_length by lia. lia. }
  assert (min_part A <= length (rep ++ r)) as Mr.
  { change (min_part A) with (min_chars k). rewrite <- Er, skipn_length. lia. }
  clearbody scratch.
  rewrite ESP in H.
  destruct (check_word_in_compound k m p) as [[e1|]| |] eqn:EC1; cbn [bindR] in H; try discriminate.
  assert (scalars p) as Sp by (rewrite <- ESP; apply scalars_slice; exact SS0).
  destruct (@part_sound m _ e1 Sp EC1) as [HP1 W1].
  destruct (is_forbidden k (cr_flags e1)) eqn:EF; [discriminate|]. apply forbidden_spec in EF; [|exact W1].
  destruct (flag_missing (cp_first_flag pat) (cr_flags e1)) eqn:EM1; [discriminate|].
  apply flag_missing_spec in EM1; [|exact W1].
  destruct (o_check_triple opts && are_three_chars_equal scratch j) eqn:ET; [discriminate|].
  assert (o_check_triple opts = true -> ~ TripleAt (left ++ p) (cp_end pat ++ r)) as HT.
  { intro E. rewrite E in ET. cbn [andb] in ET. rewrite <- ESF, <- ESS, <- three_chars_spec. congruence. }
  assert (JP := @Join_pattern U A entry left rest m p e1 pat rep q r Hpat Erep ERest eq_refl Mq Mr EM1 HT).
  (* the plain second part, for either text *)
  assert (PL : forall txt second Q R cont res, skipn j txt = second -> scalars txt ->
    Join U A entry left rest m p e1 second Q R ->
    (forall e2, opt_in (cp_second_flag pat) (cr_flags e2) -> Q e2) ->
    pattern_plain k pat word txt start j num fu e1 cont = Ret (inl (Some res)) ->
    cont tt = Ret (inl (Some res)) \/ (res = e1 /\ Result num e1)).
  { clear H. intros txt second Q R cont res Hsec Stxt HJ HQ H. unfold pattern_plain in H. rewrite Hsec in H.
    destruct (check_word_in_compound k AT_END second) as [[e2|]| |] eqn:EC2; cbn [bindR] in H; try discriminate;
      [|left; exact H].
    assert (scalars second) as S2 by (rewrite <- Hsec; apply scalars_skipn; exact Stxt).
    destruct (@part_sound AT_END _ e2 S2 EC2) as [HP2 W2].
    destruct (is_forbidden k (cr_flags e2) || flag_missing (cp_second_flag pat) (cr_flags e2) ||
         (o_check_duplicate opts && cr_eqb e1 e2) || rep_check k rest ||
         (fu_forbid fu && has_flag (cr_flags e2) (o_force_upper opts))) eqn:EG; [left; exact H|].
    rewrite !orb_false_iff in EG. destruct EG as [[[[G1 G2] G3] G4] G5].
    destruct (reaches_max k num) eqn:EMx; [discriminate|]. injection H as <-. right. split; [reflexivity|].
    exists p, (second, e2), []. split.
    - eapply Compound_last; try exact HJ; try assumption.
      + apply forbidden_spec; assumption.
      + apply HQ. apply flag_missing_spec; assumption.
      + intros Hd He. rewrite Hd in G3. cbn [andb] in G3. apply cr_eqb_eq in He. congruence.
      + apply rep_check_spec; assumption.
      + intros -> Hm. cbn in G5. rewrite <- has_flag_spec in Hm by exact W2. congruence.
    - apply (@reaches_max_bound _ _ EMx). lia. }
  assert (FIN : e = e1 /\ Result num e1 -> wf_flagset (cr_flags e) /\ Result num e).
  { intros [-> X]. auto. }
  apply (PL scratch (cp_end pat ++ r) _ _ _ e ESS SS0 JP) in H; [|intros e2 X; exact X].
  destruct H as [H|H]; [|exact (FIN H)].
  destruct (rec scratch j (num + 1) fu) as [r1| |] eqn:ER; cbn [bindR] in H; try discriminate.
  match type of H with (if ?c then _ else _) = _ => destruct c eqn:EG end.
  { destruct r1 as [e2|]; [|discriminate]. injection H as <-.
    rewrite andb_true_iff, !negb_true_iff, orb_false_iff in EG. destruct EG as [G1 [G2 G3]].
    destruct (REC SS0 Hj ER) as (W2 & w2 & ps & HC & HBd). split; [exact W1|].
    exists p, (w2, e2), ps. split.
    - eapply Compound_more; try exact JP; try assumption.
      + rewrite ESF, ESS in HC. exact HC.
      + apply flag_missing_spec; assumption.
      + intro Hr. split; [apply rep_check_spec; assumption|].
        intros s Es. rewrite <- ESP. rewrite <- ESS in Es.
        exact (@rep_check_part2_spec scratch start j e2 SS0 Hsj G3 Hr s Es).
    - intros mx Hm Hv. destruct (HBd mx Hm Hv) as [X1 X2]. cbn [length] in *. split; [lia|]. intro Hs. specialize (X2 Hs). lia. }
  clear r1 ER EG.
  destruct (o_simplified_triple opts) eqn:Esim; cbn [negb] in H; [|discriminate].
  destruct (prev_codepoint scratch j) as [[pi pc]|] eqn:E1; [|discriminate].
  destruct (Nat.eqb_spec pi 0) as [|Hpi]; [discriminate|].
  destruct (prev_codepoint scratch pi) as [[pi2 pc2]|] eqn:E2; [|discriminate].
  destruct (N.eqb_spec pc pc2) as [<-|]; cbn [negb] in H; [|discriminate].
  destruct (prev_codepoint_spec _ _ E1) as (F1 & L1 & _). destruct (prev_codepoint_spec _ _ E2) as (F2 & L2 & _).
  assert (left ++ p = firstn pi2 scratch ++ [pc; pc]) as ELP.
  { rewrite <- ESF, F1, F2, <- app_assoc. reflexivity. }
  assert (JT := @Join_pattern_triple U A entry left rest m p e1 pat rep q r pc _ Esim Hpat Erep ERest eq_refl Mq Mr EM1 HT ELP).
  rewrite ESF, ESS in H. set (triple := (left ++ p) ++ pc :: cp_end pat ++ r) in *.
  assert (firstn j triple = left ++ p) as ETF by (apply firstn_app_exact; symmetry; exact LJ).
  assert (skipn j triple = pc :: cp_end pat ++ r) as ETS by (apply skipn_app_exact; symmetry; exact LJ).
  assert (j <= length triple) as HjT by (unfold triple; rewrite app_length, LJ; lia).
  assert (scalars triple) as ST.
  { assert (scalars (left ++ p)) as X by (rewrite <- ESF; apply scalars_firstn; exact SS0).
    unfold triple. apply Forall_app. split; [exact X|]. constructor.
    - rewrite ELP in X. apply Forall_app in X. destruct X as [_ X]. inversion X. assumption.
    - apply Forall_app. split; assumption. }
  clearbody triple.
  apply (PL triple (pc :: cp_end pat ++ r) _ _ _ e ETS ST JT) in H; [|intros e2 X; exact X].
  destruct H as [H|H]; [|exact (FIN H)].
  destruct (rec triple j (num + 1) fu) as [[e2|]| |] eqn:ER; cbn [bindR] in H; try discriminate.
  destruct (REC ST HjT ER) as (W2 & w2 & ps & HC & HBd).
  destruct (flag_missing (cp_second_flag pat) (cr_flags e2)) eqn:EM2; [discriminate|].
  apply flag_missing_spec in EM2; [|exact W2].
  destruct (rep_check k rest) eqn:ERC; [discriminate|].
  rewrite ETS in H.
  match type of H with (if ?c then _ else _) = _ => destruct c eqn:EG end; [discriminate|].
  injection H as <-. split; [exact W1|].
  exists p, (w2, e2), ps. split.
  - eapply Compound_more; try exact JT; try assumption.
    + rewrite ETF, ETS in HC. exact HC.
    + intro Hr. split; [apply rep_check_spec; assumption|].
      intros t s Et Es. rewrite Hr in EG. cbn [andb] in EG.
      assert (starts_with (cr_stem e2) (pc :: cp_end pat ++ r) = true) as X.
      { apply starts_with_spec. exists s. rewrite Et, Es. reflexivity. }
      rewrite X in EG. cbn [andb] in EG. rewrite Et in EG. cbn [length] in EG.
      replace (j + S (length t) - 1) with (j + length t) in EG by lia.
      assert (slice scratch start (j + length t) = p ++ t) as Y.
      { unfold slice. rewrite (@skipn_split scratch start j Hsj), ESP, ESS, Es, app_assoc.
        apply firstn_app_exact. rewrite app_length. rewrite <- LJ, app_length, Lst. lia. }
      assert (start <=? j + length t = true) as Z1 by (apply Nat.leb_le; lia).
      assert (j + length t <=? length scratch = true) as Z2.
      { apply Nat.leb_le. rewrite ES, app_length, LJ, Es, app_length. lia. }
      rewrite Z1, Z2, Y in EG. cbn [andb] in EG.
      rewrite <- similar_spec; [congruence|]. rewrite <- Y. apply scalars_slice. exact SS0.
  - intros mx Hm Hv. destruct (HBd mx Hm Hv) as [X1 X2]. cbn [length] in *. split; [lia|]. intro Hs. specialize (X2 Hs). lia.
Qed.

Lemma pattern_loop_sound : forall num e ps, incl ps (ad_patterns A) ->
  pattern_loop k rec m word start i num fu ps = Ret (Some e) -> wf_flagset (cr_flags e) /\ Result num e.
Proof.
  intros num e ps. induction ps as [|pat ps IH]; intros Hi H; cbn [pattern_loop] in H; [discriminate|].
  destruct (pattern_step k rec m word start i num fu pat) as [[o|u]| |] eqn:E; cbn [bindR] in H; try discriminate.
  - injection H as ->. apply (@pattern_sound num pat); [apply Hi; left; reflexivity|exact E].
  - apply IH; [|exact H]. intros x Hx. apply Hi. right. exact Hx.
Qed.
End At.

Lemma impl_sound : forall m word start num fu e, scalars word -> start <= length word ->
  compound_impl k rec m word start num fu = Ret (Some e) ->
  wf_flagset (cr_flags e) /\
  exists w1 p2 ps, Compound U A entry fu m (firstn start word) (skipn start word) ((w1, e) :: p2 :: ps) /\
                   Bound num (length ((w1, e) :: p2 :: ps)).
Proof.
  intros m word start num fu e Hsc Hst H. unfold compound_impl in H. apply firstR_some in H.
  destruct H as [i [Hin H]].
  assert (wf_flagset (cr_flags e) /\ Result m word start fu num e) as [X (w1 & p2 & ps & Y1 & Y2)].
  { destruct (compound_classic k rec m word start i num fu) as [[e'|]| |] eqn:E; cbn in H; try discriminate.
    - injection H as ->. apply (@classic_sound m word start i fu Hsc Hin); exact E.
    - apply (@pattern_loop_sound m word start i fu Hsc Hin _ _ (ad_patterns A)); [apply incl_refl|exact H]. }
  split; [exact X|]. exists w1, p2, ps. split; [exact Y1|].
  cbn [length] in *. replace (S (S (length ps))) with (S (length ps) + 1) by lia. exact Y2.
Qed.
End StepSound.

Lemma middle_sound : forall fuel, rec_sound (compound_middle k fuel).
Proof.
  induction fuel as [|fuel IH]; intros word start num fu e Hsc Hst H; cbn [compound_middle] in H; [discriminate|].
  destruct (@impl_sound _ IH AT_MIDDLE word start num fu e Hsc Hst H) as [X (w1 & p2 & ps & Y)].
  split; [exact X|]. exists w1, (p2 :: ps). exact Y.
Qed.

(** Whatever depth is explored: an accepted compound is one of the specification. *)
Theorem compound_sound : forall fuel m word fu e, scalars word ->
  check_compound_flags k fuel m word fu = Ret (Some e) ->
  exists w1 p2 ps, Compound U A entry fu m [] word ((w1, e) :: p2 :: ps) /\
                   Bound 0 (length ((w1, e) :: p2 :: ps)).
Proof.
  intros fuel m word fu e Hsc H. unfold check_compound_flags in H.
  destruct (@impl_sound _ (@middle_sound fuel) m word 0 0 fu e Hsc (Nat.le_0_l _) H) as [_ X]. exact X.
Qed.
End Sound.
