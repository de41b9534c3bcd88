(** COMPOUNDWORDMAX with COMPOUNDSYLLABLE, COMPOUNDROOT and SYLLABLENUM (checker.rs 1447-1593,
    2147-2298) against a specification of how the parts and the syllables are counted. *)
From Coq Require Import List NArith ZArith Lia Bool Arith.
From Coq Require Import ZifyBool ZifyNat ZifyN.
From Verif Require Import Base Utf8 Unicode Flags Condition Affix CompoundRule Conversion Aff Checker AffixSpec Rep CompoundSpec CompoundTotal.
Import ListNotations.
Set Implicit Arguments.

(** ** Specification *)
Section Spec.
Variable U : unicode.
Variable A : affdata.
Variable entry : str -> flagset -> Prop.
Notation opts := (ad_options A).
Notation vowels := (ad_vowels A).

(** The vowels of a text (a vowel listed twice counts twice). *)
Fixpoint syllables (w : str) : N :=
  match w with [] => 0%N | c :: w' => (N.of_nat (count_occ N.eq_dec vowels c) + syllables w')%N end.

(** A root counts for two words. *)
Definition root (f : flagset) (n : N) : Prop :=
  (marked (o_root opts) f /\ n = 1%N) \/ (~ marked (o_root opts) f /\ n = 0%N).

(** A prefix counts for as many words as it has syllables, and for at least one. *)
Definition prefix_words (p : affix) : N := if nonempty vowels then N.max (syllables (a_add p)) 1 else 0%N.

(** At the end of the compound: an entry with flag I (73) and not J (74) has a syllable less. *)
Definition stem_syllables (m : mode) (f : flagset) (z : Z) : Prop :=
  (m = AT_END /\ vowels <> [] /\ In 73%N f /\ ~ In 74%N f /\ z = (-1)%Z) \/
  (~ (m = AT_END /\ vowels <> [] /\ In 73%N f /\ ~ In 74%N f) /\ z = 0%Z).

(** The syllables of the suffix do not count; nor does one more if it ends in "i" (105) after
    a letter other than "y" (121) and "t" (116); SYLLABLENUM gives some back to the suffixes
    of flags c (99), J (74) and, on entries with flag J, I (73). *)
Definition suffix_syllables (m : mode) (f : flagset) (s : affix) (z : Z) : Prop :=
  (~ (m = AT_END /\ vowels <> []) /\ z = 0%Z) \/
  (m = AT_END /\ vowels <> [] /\ exists i b, z = (- Z.of_N (syllables (a_add s)) - i + b)%Z /\
    (((exists r c, a_add s = r ++ [c; 105%N] /\ c <> 121%N /\ c <> 116%N) /\ i = 1%Z) \/
     (~ (exists r c, a_add s = r ++ [c; 105%N] /\ c <> 121%N /\ c <> 116%N) /\ i = 0%Z)) /\
    ((o_syllable_num opts = true /\ a_flag s = 99%N /\ b = 2%Z) \/
     (o_syllable_num opts = true /\ a_flag s = 74%N /\ b = 1%Z) \/
     (o_syllable_num opts = true /\ a_flag s = 73%N /\ In 74%N f /\ b = 1%Z) \/
     (~ (o_syllable_num opts = true /\ (a_flag s = 99%N \/ a_flag s = 74%N \/ (a_flag s = 73%N /\ In 74%N f))) /\ b = 0%Z))).

(** [w] may stand at position [m], counts for [1 + n] words and changes the number of
    syllables by [z]. *)
Inductive Scored (m : mode) (w : str) : N -> Z -> Prop :=
| Sc_stem : forall f n z, entry w f -> ~ marked (o_need_affix opts) f ->
    (marked (o_compound opts) f \/ marked (position_flag A m) f) -> ~ In hidden_homonym_flag f ->
    root f n -> stem_syllables m f z -> Scored m w n z
| Sc_suffix : forall s st f n z, OneAffix A entry Sfx m SkipHiddenHomonym w s st f ->
    root f n -> suffix_syllables m f s z -> Scored m w n z
| Sc_prefix : forall p st f n, OneAffix A entry Pfx m SkipHiddenHomonym w p st f ->
    root f n -> Scored m w (prefix_words p + n)%N 0%Z
| Sc_both : forall p s st f n z, PrefixSuffix A entry m SkipHiddenHomonym w p s st f ->
    root f n -> suffix_syllables m f s z -> Scored m w (prefix_words p + n)%N z.

(** [rest], after [left], is cut into parts that count for [t] words together; [z] is what the
    last part changes in the number of syllables. *)
Inductive Split : mode -> str -> str -> N -> Z -> Prop :=
| Split_two : forall m left p l n1 z1 n2 z2,
    min_part A <= length p -> min_part A <= length l -> BoundaryOK U A (left ++ p) l ->
    Scored m p n1 z1 -> Scored AT_END l n2 z2 -> Split m left (p ++ l) (2 + n1 + n2)%N z2
| Split_more : forall m left p r n1 z1 t z,
    min_part A <= length p -> min_part A <= length r -> BoundaryOK U A (left ++ p) r ->
    Scored m p n1 z1 -> Split AT_MIDDLE (left ++ p) r t z -> Split m left (p ++ r) (1 + n1 + t)%N z.

(** Few enough words, or few enough syllables (a negative number of them is not). *)
Definition Allowed (t : N) (s : Z) : Prop :=
  forall mx, o_max_words opts = Some mx ->
    (t <= mx)%N \/ (vowels <> [] /\ (0 <= s <= Z.of_N (match o_syllable_max opts with Some n => n | None => 0%N end))%Z).

(** Which of its readings a part has does not change how it counts. *)
Definition Unambiguous : Prop := forall m w n1 z1 n2 z2, Scored m w n1 z1 -> Scored m w n2 z2 -> n1 = n2 /\ z1 = z2.
End Spec.

(** ** The code *)
Section Code.
Variable k : checker.
Hypothesis WFC : wf_compound k.
Notation WF := (wfc_checker WFC).
Notation A := (ck_aff k).
Notation opts := (ad_options (ck_aff k)).
Notation U := (ck_u k).
Notation entry := (fun stem flags => In flags (ck_get k stem)).

Hypothesis STRICT : strict k = true.
Hypothesis NoPat : ad_patterns A = [].
Hypothesis NoTriple : o_simplified_triple opts = false.
Hypothesis NoDup : o_check_duplicate opts = false.
Hypothesis NoRep : o_check_rep opts = false.
Hypothesis NoForce : o_force_upper opts = None.
Hypothesis NoForbidden : forall s f, entry s f -> ~ In (o_forbidden opts) f.
Hypothesis Small : forall kd a, In a (rules A kd) -> (syllables A (a_add a) <= 32000)%N.
Hypothesis SylMax : (match o_syllable_max opts with Some n => n | None => 0%N end <= 65535)%N.
Hypothesis UN : Unambiguous A entry.

Lemma SH : Shrinks A.
Proof. constructor; [rewrite NoTriple; discriminate|]. intros p r H. rewrite NoPat in H. destruct H. Qed.

Lemma count_spec : forall w, count_syllables k w = syllables A w.
Proof.
  intro w. unfold count_syllables.
  assert (G : forall w n, fold_left (fun n c => (n + N.of_nat (length (filter (N.eqb c) (ad_vowels A))))%N) w n = (n + syllables A w)%N).
  { clear w. induction w as [|c w IH]; intro n; [cbn; lia|]. cbn [fold_left syllables]. rewrite IH.
    assert (length (filter (N.eqb c) (ad_vowels A)) = count_occ N.eq_dec (ad_vowels A) c) as ->; [|lia].
    generalize (ad_vowels A). intro l. induction l as [|v l IHl]; [reflexivity|]. cbn [filter count_occ]. destruct (N.eqb_spec c v) as [<-|E].
    - destruct (N.eq_dec c c); [|contradiction]. cbn [length]. rewrite IHl. reflexivity.
    - destruct (N.eq_dec v c); [congruence|]. exact IHl. }
  rewrite G. lia.
Qed.

Lemma root_spec : forall f, wf_flagset f -> root A f (if has_flag f (o_root opts) then 1 else 0)%N.
Proof.
  intros f Wf. unfold root. pose proof (has_flag_spec (o_root opts) Wf) as H. destruct (has_flag f (o_root opts)).
  - left. split; [apply H; reflexivity|reflexivity].
  - right. split; [|reflexivity]. intro X. apply H in X. discriminate X.
Qed.

Lemma not_strict : nonempty (ad_vowels A) = true -> ck_overflow_checks k = false.
Proof. intro H. unfold strict in STRICT. rewrite H in STRICT. destruct (ck_overflow_checks k); [discriminate STRICT|reflexivity]. Qed.

Lemma i16_small : forall c z, (-32768 <= z <= 32767)%Z -> i16_op c z = Ret z.
Proof. intros c z H. unfold i16_op. replace ((-32768 <=? z)%Z && (z <=? 32767)%Z) with true by lia. reflexivity. Qed.

Lemma stem_spec : forall m f, wf_flagset f -> stem_syllables A m f (syllable_modifier k m f).
Proof.
  intros m f Wf. unfold stem_syllables, syllable_modifier. pose proof (contains_spec f 73 Wf) as H1. pose proof (contains_spec f 74 Wf) as H2.
  assert (HE : is_end m = true <-> m = AT_END) by (destruct m; cbn; split; congruence).
  assert (HV : nonempty (ad_vowels A) = true <-> ad_vowels A <> []) by (destruct (ad_vowels A); cbn; split; congruence).
  destruct (is_end m && nonempty (ad_vowels A) && contains f 73 && negb (contains f 74)) eqn:E.
  - left. rewrite !andb_true_iff, negb_true_iff in E. destruct E as [[[E1 E2] E3] E4]. rewrite <- HE, <- HV, <- H1, <- H2, E4. auto using diff_false_true.
  - right. split; [|reflexivity]. rewrite <- HE, <- HV, <- H1, <- H2. intros (E1 & E2 & E3 & E4). apply not_true_is_false in E4. rewrite E1, E2, E3, E4 in E. discriminate E.
Qed.

Lemma suffix_spec : forall m f s z, wf_flagset f -> In s (rules A Sfx) ->
  syllable_modifier_with_suffix k m f s = Ret z -> suffix_syllables A m f s z.
Proof.
  intros m f s z Wf Hs H. unfold syllable_modifier_with_suffix in H. unfold suffix_syllables.
  assert (HE : is_end m = true <-> m = AT_END) by (destruct m; cbn; split; congruence).
  assert (HV : nonempty (ad_vowels A) = true <-> ad_vowels A <> []) by (destruct (ad_vowels A); cbn; split; congruence).
  destruct (negb (is_end m) || negb (nonempty (ad_vowels A))) eqn:E.
  - left. injection H as <-. split; [|reflexivity]. intros [X Y]. apply HE in X. apply HV in Y. rewrite X, Y in E. discriminate E.
  - apply orb_false_iff in E. destruct E as [E1 E2]. apply negb_false_iff in E1, E2. right. split; [apply HE, E1|]. split; [apply HV, E2|].
    pose proof (Small _ _ Hs) as SM. rewrite count_spec in H.
    assert (W : i16_wrap (Z.of_N (syllables A (a_add s))) = Z.of_N (syllables A (a_add s))).
    { unfold i16_wrap. rewrite Z.mod_small by lia. lia. }
    rewrite W, i16_small in H by lia. cbn [bindR] in H.
    set (ex := match rev (a_add s) with 105%N :: c :: _ => negb (c =? 121)%N && negb (c =? 116)%N | _ => false end) in H.
    assert (EX : (ex = true <-> exists r c, a_add s = r ++ [c; 105%N] /\ c <> 121%N /\ c <> 116%N)).
    { assert (R : forall c0 c rr, rev (a_add s) = c0 :: c :: rr <-> a_add s = rev rr ++ [c; c0]).
      { intros c0 c rr. split; intro Q.
        - rewrite <- (rev_involutive (a_add s)), Q. cbn [rev]. rewrite <- app_assoc. reflexivity.
        - rewrite Q, rev_app_distr, rev_involutive. reflexivity. }
      unfold ex. split.
      - destruct (rev (a_add s)) as [|c0 [|c rr]] eqn:Q; try discriminate.
        + destruct (N.eqb_spec c0 105) as [->|N1]; [discriminate|]. destruct c0 as [|p]; try discriminate. intro X. exfalso.
          revert X N1. repeat (destruct p as [p|p|]; try discriminate; try congruence).
        + destruct (N.eq_dec c0 105) as [->|N1].
          * intro X. apply andb_true_iff in X. destruct X as [X1 X2]. apply negb_true_iff in X1, X2. apply N.eqb_neq in X1, X2.
            exists (rev rr), c. split; [apply R; reflexivity|]. auto.
          * intro X. exfalso. destruct c0 as [|p]; [discriminate|]. revert X N1. repeat (destruct p as [p|p|]; try discriminate; try congruence).
      - intros (r & c & Q & X1 & X2). replace r with (rev (rev r)) in Q by apply rev_involutive. apply R in Q. rewrite Q.
        apply N.eqb_neq in X1, X2. rewrite X1, X2. reflexivity. }
    clearbody ex. rewrite i16_small in H by (destruct ex; lia). cbn [bindR] in H.
    pose proof (contains_spec f 74 Wf) as C74.
    exists (if ex then 1 else 0)%Z. destruct (o_syllable_num opts) eqn:SN.
    + destruct (N.eqb_spec (a_flag s) 99) as [F1|F1].
      { rewrite i16_small in H by (destruct ex; lia). injection H as <-. exists 2%Z. split; [lia|]. split; [|auto].
        destruct ex; [left|right]; split; try reflexivity; [apply EX; reflexivity|]. intro X. apply EX in X. discriminate X. }
      destruct (N.eqb_spec (a_flag s) 74) as [F2|F2].
      { rewrite i16_small in H by (destruct ex; lia). injection H as <-. exists 1%Z. split; [lia|]. split; [|auto].
        destruct ex; [left|right]; split; try reflexivity; [apply EX; reflexivity|]. intro X. apply EX in X. discriminate X. }
      destruct (N.eqb_spec (a_flag s) 73) as [F3|F3].
      { rewrite i16_small in H by (destruct ex; destruct (contains f 74); lia). injection H as <-. exists (if contains f 74 then 1 else 0)%Z. split; [lia|]. split.
        - destruct ex; [left|right]; split; try reflexivity; [apply EX; reflexivity|]. intro X. apply EX in X. discriminate X.
        - destruct (contains f 74) eqn:C; [right; right; left; split; [reflexivity|]; split; [exact F3|]; split; [apply C74; reflexivity|reflexivity]|].
          right. right. right. split; [|reflexivity]. intros (_ & [X|[X|[_ X]]]); [congruence|congruence|]. apply C74 in X. discriminate X. }
      injection H as <-. exists 0%Z. split; [lia|]. split.
      { destruct ex; [left|right]; split; try reflexivity; [apply EX; reflexivity|]. intro X. apply EX in X. discriminate X. }
      right. right. right. split; [|reflexivity]. intros (_ & [X|[X|[X _]]]); congruence.
    + injection H as <-. exists 0%Z. split; [lia|]. split.
      { destruct ex; [left|right]; split; try reflexivity; [apply EX; reflexivity|]. intro X. apply EX in X. discriminate X. }
      right. right. right. split; [|reflexivity]. intros (X & _). discriminate X.
Qed.

Lemma prefix_spec : forall p, In p (rules A Pfx) -> num_words_modifier k p = prefix_words A p.
Proof.
  intros p Hp. unfold num_words_modifier, prefix_words. rewrite count_spec. pose proof (Small _ _ Hp) as SM.
  destruct (ad_vowels A); [reflexivity|]. cbn [nonempty]. apply N.mod_small. lia.
Qed.

Definition extra (e : cresult) : N := (cr_words e + (if has_flag (cr_flags e) (o_root opts) then 1 else 0))%N.
Lemma add_extra : forall num e, add_part k num e = num + N.to_nat (extra e).
Proof. intros num e. unfold add_part, extra. destruct (has_flag (cr_flags e) (o_root opts)); lia. Qed.

Lemma scored_sound : forall m w e, scalars w -> check_word_in_compound k m w = Ret (Some e) -> Scored A entry m w (extra e) (cr_syllables e).
Proof.
  intros m w e Hw H. unfold check_word_in_compound in H. unfold extra.
  destruct (first_some _ (ck_get k w)) as [r|] eqn:E1.
  { injection H as <-. apply first_some_some in E1. destruct E1 as [flags [Hf E]].
    pose proof (wf_entries WF _ _ Hf) as Wf.
    apply some_guard in E. destruct E as [G E]. apply some_guard in E. destruct E as [G0 E].
    apply some_guard in E. destruct E as [G1 E]. injection E as <-. cbn [cr_flags cr_words cr_syllables].
    unfold need_affix in G. rewrite has_flag_false in G by exact Wf.
    rewrite nand_negb, !has_flag_spec in G0 by exact Wf. rewrite contains_false in G1 by exact Wf.
    apply (@Sc_stem A entry m w flags); try assumption; [apply root_spec, Wf|apply stem_spec, Wf]. }
  destruct (strip_suffix_only k m w SkipHiddenHomonym) as [f|] eqn:E2.
  { destruct (@one_affix_sound k WF Sfx m w SkipHiddenHomonym f Hw E2) as [a [st [fl [-> HH]]]].
    cbn [form1 af_suffixes af_stem af_flags] in H.
    destruct (syllable_modifier_with_suffix k m fl a) as [sm| |] eqn:SM; cbn [bindR] in H; try discriminate.
    injection H as <-. cbn [cr_flags cr_words cr_syllables]. assert (Wf : wf_flagset fl) by (destruct HH as (_ & _ & _ & _ & _ & _ & He & _); exact (wf_entries WF _ _ He)).
    apply (@Sc_suffix A entry m w a st fl); [exact HH|apply root_spec, Wf|]. apply suffix_spec; [exact Wf|apply HH|exact SM]. }
  destruct (strip_prefix_only k m w SkipHiddenHomonym) as [f|] eqn:E3.
  { destruct (@one_affix_sound k WF Pfx m w SkipHiddenHomonym f Hw E3) as [a [st [fl [-> HH]]]].
    cbn [form1 af_prefixes af_stem af_flags] in H. injection H as <-. cbn [cr_flags cr_words cr_syllables].
    assert (Wf : wf_flagset fl) by (destruct HH as (_ & _ & _ & _ & _ & _ & He & _); exact (wf_entries WF _ _ He)).
    rewrite prefix_spec by apply HH. apply (@Sc_prefix A entry m w a st fl); [exact HH|apply root_spec, Wf]. }
  destruct (strip_prefix_then_suffix_commutative k m w SkipHiddenHomonym) as [f|] eqn:E4; [|discriminate].
  destruct (@commutative_sound k WF m w SkipHiddenHomonym f Hw E4) as [p [s [st [fl [-> HH]]]]].
  cbn [af_prefixes af_suffixes af_stem af_flags] in H.
  destruct (syllable_modifier_with_suffix k m fl s) as [sm| |] eqn:SM; cbn [bindR] in H; try discriminate.
  injection H as <-. cbn [cr_flags cr_words cr_syllables].
  assert (Wf : wf_flagset fl) by (destruct HH as (_ & _ & _ & _ & _ & _ & _ & _ & He & _); exact (wf_entries WF _ _ He)).
  rewrite prefix_spec by apply HH. apply (@Sc_both A entry m w p s st fl); [exact HH|apply root_spec, Wf|].
  apply suffix_spec; [exact Wf|apply HH|exact SM].
Qed.

Lemma scored_part : forall m w n z, Scored A entry m w n z -> exists e, Part A entry m w e.
Proof.
  intros m w n z H. destruct H as [f n z He H1 H2 H3 _ _|s st f n z HO _ _|p st f n HO _|p s st f n z HO _ _].
  - exists (mkCR w f 0 0 false). split; [left; auto 7|auto].
  - exists (mkCR st f 0 0 (is_modifying s)). split; [|auto]. right. left. exists Sfx, s. split; [exact HO|apply is_modifying_spec].
  - exists (mkCR st f 0 0 (is_modifying p)). split; [|auto]. right. left. exists Pfx, p. split; [exact HO|apply is_modifying_spec].
  - exists (mkCR st f 0 0 (is_modifying p || is_modifying s)). split; [|auto]. right. right. exists p, s. split; [exact HO|].
    cbn [cr_modified]. rewrite orb_true_iff, !is_modifying_spec. tauto.
Qed.

Lemma scored_complete : forall m w n z, scalars w -> Scored A entry m w n z ->
  exists e, check_word_in_compound k m w = Ret (Some e) /\ extra e = n /\ cr_syllables e = z.
Proof.
  intros m w n z Hw H. destruct (scored_part H) as [e0 HP]. destruct (@part_complete k WFC STRICT m w e0 Hw HP) as [e E].
  exists e. split; [exact E|]. exact (UN (scored_sound m Hw E) H).
Qed.

Lemma part_fine : forall m w e, scalars w -> check_word_in_compound k m w = Ret (Some e) -> is_forbidden k (cr_flags e) = false.
Proof.
  intros m w e Hw H. destruct (@part_sound k WFC m w e Hw H) as [HP W]. apply forbidden_spec; [exact W|].
  destruct HP as [[HP|[(kd & a & HP & _)|(p & s & HP & _)]] _].
  - exact (@NoForbidden w _ (proj1 HP)).
  - unfold OneAffix in HP. decompose [and] HP. eapply NoForbidden. eassumption.
  - unfold PrefixSuffix in HP. decompose [and] HP. eapply NoForbidden. eassumption.
Qed.

Lemma second_fine : forall w rw i fu e1 e2, scalars (skipn i w) ->
  check_word_in_compound k AT_END (skipn i w) = Ret (Some e2) -> second_rejected k w rw i fu e1 e2 = false.
Proof.
  intros w rw i fu e1 e2 Hw H. unfold second_rejected, forbidden_by_patterns, rep_check.
  rewrite NoPat, NoDup, NoRep, NoForce. cbn [existsb andb has_flag]. rewrite (part_fine _ Hw H). cbn [orb]. apply andb_false_r.
Qed.

Lemma recursive_spec : forall rec word start i num fu e1 r, rec word i (num + 1) fu = Ret r ->
  try_recursive k rec word start i num fu e1 = Ret (match r with Some _ => Some e1 | None => None end).
Proof.
  intros rec word start i num fu e1 r H. unfold try_recursive. rewrite H. cbn [bindR]. destruct r as [e2|].
  - unfold forbidden_by_patterns, rep_check, rep_check_part2. rewrite NoPat, NoRep. reflexivity.
  - unfold try_simplified_triple. rewrite NoTriple. reflexivity.
Qed.

Lemma boundary_spec : forall word i,
  o_check_triple opts && are_three_chars_equal word i = false /\ o_check_case opts && has_uppercase_at_boundary U word i = false <->
  BoundaryOK U A (firstn i word) (skipn i word).
Proof.
  intros word i. unfold BoundaryOK. rewrite <- three_chars_spec, <- uppercase_boundary_spec.
  destruct (o_check_triple opts), (o_check_case opts), (are_three_chars_equal word i), (has_uppercase_at_boundary U word i); cbn [andb];
    split; intros [X Y]; try discriminate; split; intros; try discriminate; try reflexivity;
    try (exfalso; apply X; reflexivity); try (exfalso; apply Y; reflexivity).
Qed.

(** Whether the two last parts are too many. *)
Definition over (num : nat) (n2 : N) : Prop := exists mx, o_max_words opts = Some mx /\ (mx < N.of_nat num + 2 + n2)%N.
Lemma reaches_spec : forall num n2, reaches_max k (num + N.to_nat n2) = true <-> over num n2.
Proof.
  intros num n2. unfold reaches_max, over. destruct (o_max_words opts) as [mx|].
  - rewrite N.leb_le. split; [intro H; exists mx; split; [reflexivity|lia]|]. intros (mx' & E & H). injection E as <-. lia.
  - split; [discriminate|]. intros (mx & E & _). discriminate E.
Qed.
Lemma scored_words : forall m w n z, ad_vowels A = [] -> Scored A entry m w n z -> (n <= 1)%N.
Proof.
  intros m w n z V H. assert (RT : forall f n, root A f n -> (n <= 1)%N) by (intros f n0 [[_ ->]|[_ ->]]; lia).
  destruct H as [f n z He H1 H2 H3 R _|s st f n z HO R _|p st f n HO R|p s st f n z HO R _]; apply RT in R; unfold prefix_words; rewrite ?V; cbn [nonempty]; lia.
Qed.
Lemma split_words : forall m left rest t z, Split U A entry m left rest t z -> (2 <= t)%N.
Proof. intros m left rest t z H. destruct H as [|? ? ? ? ? ? ? ? ? ? ? ? H]; [lia|]. destruct H; lia. Qed.

Lemma scored_syllables : forall m w n z, Scored A entry m w n z -> (-40000 <= z)%Z.
Proof.
  assert (ST : forall m f z, stem_syllables A m f z -> (-40000 <= z)%Z) by (intros m f z [(_ & _ & _ & _ & ->)|[_ ->]]; lia).
  assert (SX : forall m f s z, In s (rules A Sfx) -> suffix_syllables A m f s z -> (-40000 <= z)%Z).
  { intros m f s z Hs [[_ ->]|(_ & _ & i & b & -> & H1 & H2)]; [lia|]. pose proof (Small _ _ Hs).
    assert (i <= 1)%Z by (destruct H1 as [[_ ->]|[_ ->]]; lia).
    assert (0 <= b)%Z by (destruct H2 as [(_ & _ & ->)|[(_ & _ & ->)|[(_ & _ & _ & ->)|[_ ->]]]]; lia). lia. }
  intros m w n z H. destruct H as [f n z He H1 H2 H3 _ HZ|s st f n z HO _ HZ|p st f n HO _|p s st f n z HO _ HZ]; try lia.
  - exact (ST _ _ _ HZ).
  - eapply SX; [|exact HZ]. apply HO.
  - eapply SX; [|exact HZ]. apply HO.
Qed.

Notation smax := (match o_syllable_max opts with Some n => n | None => 0%N end).
Lemma syllables_spec : forall n z, ad_vowels A <> [] -> (-40000 <= z)%Z ->
  exists ns, usize_add_i16 (ck_overflow_checks k) n z = Ret ns /\
    ((smax <? ns)%N = false <-> (0 <= Z.of_N n + z <= Z.of_N smax)%Z).
Proof.
  intros n z V HZ. rewrite not_strict by (destruct (ad_vowels A); [contradiction|reflexivity]). unfold usize_add_i16.
  pose proof SylMax as SM. destruct (Z.leb_spec 0 z) as [L|L]; [|destruct (Z.leb_spec 0 (Z.of_N n + z)) as [L2|L2]]; eexists; (split; [reflexivity|]); lia.
Qed.

Theorem split_spec : forall fuel m word start num fu, scalars word -> start <= length word -> length word - start <= fuel ->
  ((exists e, compound_impl k (compound_middle k fuel) m word start num fu = Ret (Some e)) <->
   exists t z, Split U A entry m (firstn start word) (skipn start word) t z /\
     Allowed A (N.of_nat num + t) (Z.of_N (syllables A word) + z)).
Proof.
  induction fuel as [fuel IH] using lt_wf_ind. intros m word start num fu Hsc Hst Hf. pose proof (min_pos WFC) as MP.
  (* what a cut position gives *)
  assert (CL : forall i, In i (within word start (min_chars k)) ->
    ((exists e, compound_classic k (compound_middle k fuel) m word start i num fu = Ret (Some e)) <->
     exists n1 z1, BoundaryOK U A (firstn i word) (skipn i word) /\ Scored A entry m (slice word start i) n1 z1 /\
       ((exists n2 z2, Scored A entry AT_END (skipn i word) n2 z2 /\ Allowed A (N.of_nat num + (2 + n1 + n2)) (Z.of_N (syllables A word) + z2)) \/
        (exists t z, Split U A entry AT_MIDDLE (firstn i word) (skipn i word) t z /\ Allowed A (N.of_nat num + (1 + n1 + t)) (Z.of_N (syllables A word) + z))))).
  { intros i Hin. apply within_In in Hin; [|exact MP]. destruct Hin as [B1 B2].
    destruct fuel as [|fuel]; [lia|].
    assert (REC : forall n, exists r, compound_middle k (S fuel) word i n fu = Ret r /\
       (r <> None <-> exists t z, Split U A entry AT_MIDDLE (firstn i word) (skipn i word) t z /\ Allowed A (N.of_nat n + t) (Z.of_N (syllables A word) + z))).
    { intro n. cbn [compound_middle]. assert (IH' := IH fuel ltac:(lia) AT_MIDDLE word i n fu Hsc ltac:(lia) ltac:(lia)).
      pose proof (@middle_settled k WFC SH fuel AT_MIDDLE word i n fu Hsc ltac:(lia) ltac:(lia)) as ST. rewrite STRICT in ST.
      apply settled_true in ST. destruct ST as [r E]. exists r. split; [exact E|]. rewrite <- IH', E. destruct r; split; try congruence; try eauto.
      intros [e X]. discriminate X. }
    pose proof (scalars_slice start i Hsc) as SS. pose proof (scalars_skipn i Hsc) as SK.
    unfold compound_classic. pose proof (@part_settled k WFC m _ SS) as S1. rewrite STRICT in S1. apply settled_true in S1. destruct S1 as [[e1|] E1]; rewrite E1; cbn [bindR].
    2: { split; [intros [e X]; discriminate X|]. intros (n1 & z1 & _ & H & _). destruct (scored_complete SS H) as (e & X & _). congruence. }
    rewrite (part_fine _ SS E1). pose proof (boundary_spec word i) as BS.
    destruct (o_check_triple opts && are_three_chars_equal word i) eqn:T1.
    { split; [intros [e X]; discriminate X|]. intros (n1 & z1 & B & _). apply BS in B. destruct B as [X _]. congruence. }
    destruct (o_check_case opts && has_uppercase_at_boundary U word i) eqn:T2.
    { split; [intros [e X]; discriminate X|]. intros (n1 & z1 & B & _). apply BS in B. destruct B as [_ X]. congruence. }
    assert (B : BoundaryOK U A (firstn i word) (skipn i word)) by (apply BS; auto). clear BS T1 T2.
    pose proof (scored_sound _ SS E1) as C1. set (n1 := extra e1) in *. rewrite (add_extra num e1). fold n1.
    set (num1 := num + N.to_nat n1).
    destruct (REC (num1 + 1)) as (r & ER & RS).
    assert (TR : (exists e, try_recursive k (compound_middle k (S fuel)) word start i num1 fu e1 = Ret (Some e)) <->
      exists t z, Split U A entry AT_MIDDLE (firstn i word) (skipn i word) t z /\ Allowed A (N.of_nat num + (1 + n1 + t)) (Z.of_N (syllables A word) + z)).
    { rewrite (@recursive_spec _ _ _ _ _ _ e1 r ER). assert (EQ : forall t, (N.of_nat (num1 + 1) + t = N.of_nat num + (1 + n1 + t))%N) by (intro t; unfold num1; lia).
      setoid_rewrite EQ in RS. rewrite <- RS. destruct r; split; try congruence; try eauto. intros [e X]. discriminate X. }
    assert (GO : forall P : Prop, (exists n1' z1', BoundaryOK U A (firstn i word) (skipn i word) /\ Scored A entry m (slice word start i) n1' z1' /\
       ((exists n2 z2, Scored A entry AT_END (skipn i word) n2 z2 /\ Allowed A (N.of_nat num + (2 + n1' + n2)) (Z.of_N (syllables A word) + z2)) \/
        (exists t z, Split U A entry AT_MIDDLE (firstn i word) (skipn i word) t z /\ Allowed A (N.of_nat num + (1 + n1' + t)) (Z.of_N (syllables A word) + z)))) <->
       ((exists n2 z2, Scored A entry AT_END (skipn i word) n2 z2 /\ Allowed A (N.of_nat num + (2 + n1 + n2)) (Z.of_N (syllables A word) + z2)) \/
        (exists t z, Split U A entry AT_MIDDLE (firstn i word) (skipn i word) t z /\ Allowed A (N.of_nat num + (1 + n1 + t)) (Z.of_N (syllables A word) + z)))).
    { intros _. split.
      - intros (n1' & z1' & _ & C & H). destruct (UN C1 C) as [<- _]. exact H.
      - intro H. exists n1, (cr_syllables e1). auto. }
    rewrite (GO True). clear GO.
    pose proof (@part_settled k WFC AT_END _ SK) as S2. rewrite STRICT in S2. apply settled_true in S2. destruct S2 as [[e2|] E2]; rewrite E2; cbn [bindR].
    2: { rewrite TR. split; [auto|]. intros [(n2 & z2 & H & _)|H]; [|exact H]. destruct (scored_complete SK H) as (e & X & _). congruence. }
    rewrite (second_fine word _ i fu e1 SK E2). pose proof (scored_sound _ SK E2) as C2. set (n2 := extra e2) in *. set (z2 := cr_syllables e2) in *.
    rewrite (add_extra num1 e2). fold n2.
    assert (AL : forall n2' z2', Scored A entry AT_END (skipn i word) n2' z2' -> n2' = n2 /\ z2' = z2) by (intros n2' z2' C; destruct (UN C2 C) as [<- <-]; auto).
    pose proof (reaches_spec num1 n2) as RM. destruct (reaches_max k (num1 + N.to_nat n2)).
    - destruct (proj1 RM eq_refl) as (mx & EM & OV). destruct (nonempty (ad_vowels A)) eqn:V; cbn [negb].
      + assert (V' : ad_vowels A <> []) by (intro X; rewrite X in V; discriminate V). rewrite count_spec. fold z2.
        destruct (@syllables_spec (syllables A word) z2 V' (scored_syllables C2)) as (ns & EN & NS). rewrite EN. cbn [bindR].
        destruct (smax <? ns)%N.
        * rewrite TR. split; [auto|]. intros [(n2' & z2' & C & AW)|H]; [exfalso|exact H]. destruct (AL _ _ C) as [-> ->].
          destruct (AW mx EM) as [X|[_ X]]; [unfold num1 in OV; lia|]. apply NS in X. discriminate X.
        * split; [|intros _; eexists; reflexivity]. intros _. left. exists n2, z2. split; [exact C2|]. intros mx' _. right. split; [exact V'|]. apply NS. reflexivity.
      + assert (V' : ad_vowels A = []) by (destruct (ad_vowels A); [reflexivity|discriminate V]).
        split; [intros [e X]; discriminate X|]. intros [(n2' & z2' & C & AW)|(t & z & S & AW)].
        * destruct (AL _ _ C) as [-> ->]. destruct (AW mx EM) as [X|[X _]]; [unfold num1 in OV; lia|contradiction].
        * destruct (AW mx EM) as [X|[X _]]; [|contradiction]. pose proof (split_words S). pose proof (scored_words V' C2). unfold num1 in OV. lia.
    - split; [|intros _; eexists; reflexivity]. intros _. left. exists n2, z2. split; [exact C2|]. intros mx EM. left.
      destruct (N.le_gt_cases (N.of_nat num + (2 + n1 + n2)) mx) as [L|L]; [exact L|]. exfalso.
      assert (false = true); [|discriminate]. apply RM. exists mx. split; [exact EM|]. unfold num1. lia. }
  assert (SL : forall i, start <= i -> firstn i word = firstn start word ++ slice word start i) by (intros i L; apply firstn_split, L).
  assert (SK2 : forall i, start <= i -> skipn start word = slice word start i ++ skipn i word) by (intros i L; apply skipn_split, L).
  split.
  - intros [e H]. unfold compound_impl in H. apply firstR_some in H. destruct H as (i & Hin & H). rewrite NoPat in H.
    assert (X : exists e, compound_classic k (compound_middle k fuel) m word start i num fu = Ret (Some e)).
    { destruct (compound_classic k (compound_middle k fuel) m word start i num fu) as [[x|]| |]; try discriminate H. eauto. }
    apply CL in X; [|exact Hin]. apply within_In in Hin; [|exact MP]. destruct Hin as [B1 B2].
    assert (L1 : min_part A <= length (slice word start i)) by (change (min_part A) with (min_chars k); rewrite slice_length; lia).
    assert (L2 : min_part A <= length (skipn i word)) by (change (min_part A) with (min_chars k); rewrite skipn_length; lia).
    destruct X as (n1 & z1 & B & C & [(n2 & z2 & C2 & AW)|(t & z & S & AW)]); rewrite (SK2 i) by lia; rewrite (SL i) in * by lia.
    + eexists _, _. split; [|exact AW]. eapply Split_two; eassumption.
    + eexists _, _. split; [|exact AW]. eapply Split_more; eassumption.
  - intros (t & z & S & AW).
    assert (X : exists i, In i (within word start (min_chars k)) /\ exists e, compound_classic k (compound_middle k fuel) m word start i num fu = Ret (Some e)).
    { remember (firstn start word) as left eqn:EL. remember (skipn start word) as rest eqn:ER.
      assert (LL : length left = start) by (rewrite EL, firstn_length; lia). assert (WD : left ++ rest = word) by (subst; apply firstn_skipn).
      destruct S as [m left p l n1 z1 n2 z2 M1 M2 B C1 C2|m left p r n1 z1 t z M1 M2 B C1 S].
      - exists (start + length p). assert (F : firstn (start + length p) word = left ++ p) by (rewrite <- WD, app_assoc; apply firstn_app_exact; rewrite app_length; lia).
        assert (K : skipn (start + length p) word = l) by (rewrite <- WD, app_assoc; apply skipn_app_exact; rewrite app_length; lia).
        assert (SP : slice word start (start + length p) = p).
        { pose proof (SL (start + length p) ltac:(lia)) as Q. rewrite F in Q. apply app_inv_head in Q. symmetry. exact Q. }
        assert (IN : In (start + length p) (within word start (min_chars k))).
        { apply within_In; [exact MP|]. change (min_chars k) with (min_part A). pose proof (f_equal (@length N) WD) as Q. rewrite !app_length in Q. unfold str in *. lia. }
        split; [exact IN|]. apply CL; [exact IN|]. rewrite F, K, SP. exists n1, z1. split; [exact B|]. split; [exact C1|]. left. eauto.
      - exists (start + length p). assert (F : firstn (start + length p) word = left ++ p) by (rewrite <- WD, app_assoc; apply firstn_app_exact; rewrite app_length; lia).
        assert (K : skipn (start + length p) word = r) by (rewrite <- WD, app_assoc; apply skipn_app_exact; rewrite app_length; lia).
        assert (SP : slice word start (start + length p) = p).
        { pose proof (SL (start + length p) ltac:(lia)) as Q. rewrite F in Q. apply app_inv_head in Q. symmetry. exact Q. }
        assert (IN : In (start + length p) (within word start (min_chars k))).
        { apply within_In; [exact MP|]. change (min_chars k) with (min_part A). pose proof (f_equal (@length N) WD) as Q. rewrite !app_length in Q. unfold str in *. lia. }
        split; [exact IN|]. apply CL; [exact IN|]. rewrite F, K, SP. exists n1, z1. split; [exact B|]. split; [exact C1|]. right. eauto. }
    destruct X as (i & Hin & e & E). exact (@impl_hit k WFC SH STRICT fuel m word start num fu i e Hsc Hst Hf Hin E).
Qed.

Corollary split_iff : forall fuel word fu, scalars word -> length word <= fuel ->
  ((exists e, check_compound_flags k fuel AT_BEGIN word fu = Ret (Some e)) <->
   exists t z, Split U A entry AT_BEGIN [] word t z /\ Allowed A t (Z.of_N (syllables A word) + z)).
Proof. intros fuel word fu Hw Hf. exact (@split_spec fuel AT_BEGIN word 0 0 fu Hw (Nat.le_0_l _) ltac:(lia)). Qed.
End Code.
