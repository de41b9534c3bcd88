(** COMPOUNDRULE compounds (checker.rs 2349-2433) against a specification. *)
From Coq Require Import List NArith ZArith Lia Bool Arith.
From Coq Require Import ZifyBool ZifyNat ZifyN.
From Verif Require Import Base Utf8 Unicode Flags Condition Affix CompoundRule Conversion Aff Checker AffixSpec Rep CompoundSpec CompoundTotal.
Import ListNotations.
Set Implicit Arguments.

(** ** Specification *)
Section Spec.
Variable A : affdata.
Variable entry : str -> flagset -> Prop.
Notation opts := (ad_options A).

(** A dictionary entry that may stand alone. *)
Definition RulePart (w : str) (flags : flagset) : Prop :=
  entry w flags /\ ~ marked (o_need_affix opts) flags.

(** [word] splits into parts whose flag sets, in order, are in the language of a rule. *)
Definition RuleCompound (fu : forceucase) (word : str) : Prop :=
  exists ws fss, word = concat ws /\ 2 <= length ws /\
    Forall (fun w => min_part A <= length w) ws /\
    Forall2 RulePart ws fss /\
    (exists r, In r (rt_rules (ad_rules A)) /\ rule_lang r fss) /\
    (fu = ForbidBadForceucase -> ~ marked (o_force_upper opts) (last fss [])).
End Spec.

Section Rules.
Variable k : checker.
Hypothesis WF : wf_checker k.
Hypothesis MIN : o_min_length (ad_options (ck_aff k)) <> Some 0%N.
Notation A := (ck_aff k).
Notation opts := (ad_options (ck_aff k)).
Notation entry := (fun stem flags => In flags (ck_get k stem)).

Lemma rmin_pos : 0 < min_chars k.
Proof.
  unfold min_chars. destruct (o_min_length opts) as [n|] eqn:E; [|lia].
  destruct (N.eq_dec n 0); [subst; congruence|lia].
Qed.

Lemma rule_part_some : forall w f, rule_part k w = Some f -> RulePart A entry w f /\ wf_flagset f.
Proof.
  intros w f H. unfold rule_part in H. apply find_some in H. destruct H as [Hin H].
  pose proof (wf_entries WF _ _ Hin) as Wf. apply andb_true_iff in H. destruct H as [H1 _].
  split; [|exact Wf]. split; [exact Hin|]. apply negb_true_iff in H1. unfold need_affix in H1.
  apply has_flag_false in H1; assumption.
Qed.

Lemma last_snoc : forall (X : Type) (l : list X) x d, last (l ++ [x]) d = x.
Proof. intros X l x d. induction l as [|y l IH]; [reflexivity|]. cbn [app last]. destruct (l ++ [x]) eqn:E; [destruct l; discriminate|exact IH]. Qed.

Lemma last_app_cons : forall (X : Type) (l r : list X) d, r <> [] -> last (l ++ r) d = last r d.
Proof.
  intros X l r d H. induction l as [|y l IH]; [reflexivity|]. cbn [app last].
  destruct (l ++ r) eqn:E; [apply app_eq_nil in E; destruct E; contradiction|exact IH].
Qed.

Lemma rules_sound_go : forall fuel word data start fu e, Forall wf_flagset data -> start <= length word ->
  rules_impl k fuel word data start fu = Ret (Some e) ->
  exists ws fss, skipn start word = concat ws /\ 2 <= length ws /\
    Forall (fun w => min_part A <= length w) ws /\
    Forall2 (RulePart A entry) ws fss /\
    (exists r, In r (rt_rules (ad_rules A)) /\ rule_lang r (data ++ fss)) /\
    (fu = ForbidBadForceucase -> ~ marked (o_force_upper opts) (last fss [])).
Proof.
  induction fuel as [|fuel IH]; intros word data start fu e Hd Hst H; cbn [rules_impl] in H; [discriminate|].
  apply firstR_some in H. destruct H as [i [Hin H]].
  pose proof rmin_pos as MP. apply (within_In _ _ _ MP) in Hin. destruct Hin as [B1 B2].
  assert (min_part A <= length (slice word start i)) as M1.
  { change (min_part A) with (min_chars k). rewrite slice_length by lia. lia. }
  destruct (rule_part k (slice word start i)) as [f1|] eqn:E1; [|discriminate].
  destruct (@rule_part_some _ _ E1) as [R1 W1].
  assert (REC : rules_impl k fuel word (data ++ [f1]) i fu = Ret (Some e) ->
    exists ws fss, skipn start word = concat ws /\ 2 <= length ws /\
    Forall (fun w => min_part A <= length w) ws /\ Forall2 (RulePart A entry) ws fss /\
    (exists r, In r (rt_rules (ad_rules A)) /\ rule_lang r (data ++ fss)) /\
    (fu = ForbidBadForceucase -> ~ marked (o_force_upper opts) (last fss []))).
  { clear H. intro H. apply IH in H; [|apply Forall_app; split; [exact Hd|constructor; [exact W1|constructor]]|lia].
    destruct H as (ws & fss & X1 & X2 & X3 & X4 & X5 & X6).
    exists (slice word start i :: ws), (f1 :: fss). conj.
    - cbn [concat]. rewrite <- X1. apply skipn_split. lia.
    - cbn [length]. lia.
    - constructor; assumption.
    - constructor; assumption.
    - rewrite <- app_assoc in X5. exact X5.
    - intro Hf. replace (last (f1 :: fss) []) with (last fss []); [exact (X6 Hf)|].
      destruct fss; [|reflexivity]. inversion X4; subst. cbn in X2. lia. }
  destruct (rule_part k (skipn i word)) as [f2|] eqn:E2; cbn [bindR] in H; [|exact (REC H)].
  destruct (@rule_part_some _ _ E2) as [R2 W2].
  assert (Forall wf_flagset ((data ++ [f1]) ++ [f2])) as Wd.
  { rewrite !Forall_app. conj; try assumption; constructor; try assumption; constructor. }
  destruct (any_rule_matches_spec (ad_rules A) Wd) as [b [Eb Hb]]. rewrite Eb in H. cbn [bindR] in H.
  destruct (b && negb (fu_forbid fu && has_flag f2 (o_force_upper opts))) eqn:EG; [|exact (REC H)].
  apply andb_true_iff in EG. destruct EG as [-> EG]. apply negb_true_iff in EG.
  exists [slice word start i; skipn i word], [f1; f2]. conj.
  - cbn [concat]. rewrite app_nil_r. apply skipn_split. lia.
  - cbn. lia.
  - constructor; [exact M1|constructor; [|constructor]]. change (min_part A) with (min_chars k). rewrite skipn_length. lia.
  - constructor; [exact R1|constructor; [exact R2|constructor]].
  - rewrite <- app_assoc in Hb. apply Hb. reflexivity.
  - intros ->. cbn [fu_forbid andb] in EG. cbn [last]. apply has_flag_false in EG; assumption.
Qed.

Theorem rules_sound : forall word fu e, check_compound_with_rules k word fu = Ret (Some e) ->
  RuleCompound A entry fu word.
Proof.
  intros word fu e H. unfold check_compound_with_rules in H.
  apply rules_sound_go in H; [exact H|constructor|lia].
Qed.

(** The search always ends. *)
Lemma rules_settled_go : forall fuel word data start fu, Forall wf_flagset data -> start <= length word ->
  length word - start < fuel -> exists r, rules_impl k fuel word data start fu = Ret r.
Proof.
  induction fuel as [|fuel IH]; intros word data start fu Hd Hst Hf; [lia|]. cbn [rules_impl].
  apply firstR_ret. intros i Hin. pose proof rmin_pos as MP. apply (within_In _ _ _ MP) in Hin. destruct Hin as [B1 B2].
  destruct (rule_part k (slice word start i)) as [f1|] eqn:E1; [|eauto].
  destruct (@rule_part_some _ _ E1) as [R1 W1].
  assert (REC : exists r, rules_impl k fuel word (data ++ [f1]) i fu = Ret r).
  { apply IH; [apply Forall_app; split; [exact Hd|constructor; [exact W1|constructor]]|lia|lia]. }
  destruct (rule_part k (skipn i word)) as [f2|] eqn:E2; cbn [bindR]; [|exact REC].
  destruct (@rule_part_some _ _ E2) as [R2 W2].
  assert (Forall wf_flagset ((data ++ [f1]) ++ [f2])) as Wd.
  { rewrite !Forall_app. conj; try assumption; constructor; try assumption; constructor. }
  destruct (any_rule_matches_spec (ad_rules A) Wd) as [b [Eb Hb]]. rewrite Eb. cbn [bindR].
  destruct (_ && _); [eauto|exact REC].
Qed.

Theorem rules_settled : forall word fu, exists r, check_compound_with_rules k word fu = Ret r.
Proof. intros. apply rules_settled_go; [constructor|lia|lia]. Qed.

(** Only the first homonym that may be used is tried, so completeness is for dictionaries
    in which the choice is unique. *)
Hypothesis RTF : wf_flagset (rt_flags (ad_rules A)) /\
  forall f, In f (rt_flags (ad_rules A)) <-> exists r e, In r (rt_rules (ad_rules A)) /\ In e r /\ f = re_flag e.
Hypothesis UNIQUE : forall w f1 f2, RulePart A entry w f1 -> RulePart A entry w f2 -> f1 = f2.

Lemma elem_lang_flags : forall e ws w, elem_lang e ws -> In w ws -> In (re_flag e) w.
Proof.
  intros e ws w H Hin. unfold elem_lang in H. destruct (re_mod e) as [[]|].
  - destruct H as [->|[w' [-> H]]]; [destruct Hin|]. destruct Hin as [<-|[]]. exact H.
  - rewrite Forall_forall in H. exact (H _ Hin).
  - destruct H as [w' [-> H]]. destruct Hin as [<-|[]]. exact H.
Qed.

Lemma rule_lang_flags : forall r ws w, rule_lang r ws -> In w ws -> exists e, In e r /\ In (re_flag e) w.
Proof.
  induction r as [|e r IH]; intros ws w H Hin; cbn [rule_lang] in H; [subst; destruct Hin|].
  destruct H as (u & v & -> & H1 & H2). apply in_app_or in Hin. destruct Hin as [Hin|Hin].
  - exists e. split; [left; reflexivity|]. exact (@elem_lang_flags e u w H1 Hin).
  - destruct (IH v w H2 Hin) as [e' [X Y]]. exists e'. split; [right; exact X|exact Y].
Qed.

Lemma rule_part_complete : forall w f, RulePart A entry w f ->
  (exists r e, In r (rt_rules (ad_rules A)) /\ In e r /\ In (re_flag e) f) -> rule_part k w = Some f.
Proof.
  intros w f [Hin Hn] (r & e & Hr & He & Hf). unfold rule_part.
  pose proof (wf_entries WF _ _ Hin) as Wf.
  destruct (find _ (ck_get k w)) as [f'|] eqn:E.
  - f_equal. apply (@UNIQUE w); [|split; assumption]. apply (@rule_part_some w f'). exact E.
  - exfalso. pose proof (find_none _ _ E _ Hin) as X. cbv beta in X.
    unfold need_affix in X. apply has_flag_false in Hn; [|exact Wf]. rewrite Hn in X. cbn [negb andb] in X.
    assert (has_any_flags (ad_rules A) f = true) as Y; [|congruence].
    unfold has_any_flags. apply has_intersection_spec; [exact (proj1 RTF)|exact Wf|]. exists (re_flag e). split; [|exact Hf].
    apply (proj2 RTF). eauto.
Qed.

Lemma rules_complete_go : forall ws fss fuel word data start fu, Forall wf_flagset data -> start <= length word ->
  length word - start < fuel ->
  skipn start word = concat ws -> 2 <= length ws -> Forall (fun w => min_part A <= length w) ws ->
  Forall2 (RulePart A entry) ws fss ->
  (exists r, In r (rt_rules (ad_rules A)) /\ rule_lang r (data ++ fss)) ->
  (fu = ForbidBadForceucase -> ~ marked (o_force_upper opts) (last fss [])) ->
  exists e, rules_impl k fuel word data start fu = Ret (Some e).
Proof.
  induction ws as [|w1 ws IH]; intros fss fuel word data start fu Hd Hst Hf E HL HM HF [r [Hr HR]] Hfu; [cbn in HL; lia|].
  destruct fuel as [|fuel]; [lia|]. inversion HF as [|? f1 ? fss' R1 HF']; subst. inversion HM as [|? ? M1 HM']; subst.
  change (min_part A) with (min_chars k) in M1, HM'. pose proof rmin_pos as MP.
  cbn [concat] in E. set (i := start + length w1).
  pose proof (f_equal (@length N) E) as LE. rewrite skipn_length, app_length in LE.
  assert (slice word start i = w1) as SL.
  { unfold slice. rewrite E. apply firstn_app_exact. unfold i. lia. }
  assert (skipn i word = concat ws) as SK.
  { unfold i. rewrite <- skipn_skipn', E. apply skipn_app_exact. reflexivity. }
  assert (FLAGS : forall f, In f (f1 :: fss') -> exists r e, In r (rt_rules (ad_rules A)) /\ In e r /\ In (re_flag e) f).
  { intros f Hin. destruct (@rule_lang_flags r _ f HR) as [e [X Y]]; [apply in_or_app; right; exact Hin|]. eauto. }
  assert (ws <> [] /\ min_chars k <= length (concat ws)) as [Hne HM2].
  { destruct ws as [|w2 ws2]; [cbn in HL; lia|]. split; [discriminate|]. inversion HM' as [|? ? M2 _].
    cbn [concat]. rewrite app_length. lia. }
  assert (In i (within word start (min_chars k))) as Hin.
  { apply within_In; [exact MP|]. unfold i. lia. }
  destruct (@rules_settled_go (S fuel) word data start fu Hd Hst Hf) as [[e|] RS]; [eauto|]. exfalso.
  cbn [rules_impl] in RS. rewrite firstR_none in RS. specialize (RS i Hin). cbv beta in RS. rewrite SL in RS.
  rewrite (@rule_part_complete w1 f1 R1 (FLAGS _ (or_introl eq_refl))) in RS.
  assert (wf_flagset f1) as W1 by (exact (wf_entries WF _ _ (proj1 R1))).
  assert (Wd1 : Forall wf_flagset (data ++ [f1])).
  { apply Forall_app. split; [exact Hd|constructor; [exact W1|constructor]]. }
  destruct ws as [|w2 [|w3 ws3]]; [contradiction Hne; reflexivity| |].
  - (* the last two parts *)
    clearbody i. inversion HF' as [|? f2 ? fss2 R2 HF2]; subst. inversion HF2; subst.
    cbn [concat] in SK. rewrite app_nil_r in SK. rewrite SK in RS.
    rewrite (@rule_part_complete w2 f2 R2 (FLAGS _ (or_intror (or_introl eq_refl)))) in RS.
    assert (wf_flagset f2) as W2 by (exact (wf_entries WF _ _ (proj1 R2))).
    assert (Forall wf_flagset ((data ++ [f1]) ++ [f2])) as Wd.
    { apply Forall_app. split; [exact Wd1|constructor; [exact W2|constructor]]. }
    destruct (any_rule_matches_spec (ad_rules A) Wd) as [b [Eb Hb]]. rewrite Eb in RS. cbn [bindR] in RS.
    assert (b = true) as ->.
    { apply Hb. exists r. split; [exact Hr|]. rewrite <- app_assoc. exact HR. }
    cbn [last] in Hfu. cbn [andb] in RS.
    assert (fu_forbid fu && has_flag f2 (o_force_upper opts) = false) as X.
    { destruct fu; try reflexivity. cbn [fu_forbid andb]. apply has_flag_false; [exact W2|]. apply Hfu. reflexivity. }
    rewrite X in RS. cbn [negb] in RS. discriminate.
  - destruct (IH fss' fuel word (data ++ [f1]) i fu Wd1) as [e RE]; try assumption.
    + unfold i. lia.
    + unfold i. lia.
    + cbn [length]. lia.
    + exists r. split; [exact Hr|]. rewrite <- app_assoc. exact HR.
    + intro X. specialize (Hfu X). destruct fss' as [|f2 fss2]; [inversion HF'|]. exact Hfu.
    + destruct (rule_part k (skipn i word)) as [f2|] eqn:E2; cbn [bindR] in RS; [|congruence].
      destruct (@rule_part_some _ _ E2) as [R2 W2].
      assert (Forall wf_flagset ((data ++ [f1]) ++ [f2])) as Wd.
      { apply Forall_app. split; [exact Wd1|constructor; [exact W2|constructor]]. }
      destruct (any_rule_matches_spec (ad_rules A) Wd) as [b [Eb Hb]]. rewrite Eb in RS. cbn [bindR] in RS.
      destruct (_ && _); [discriminate|congruence].
Qed.

Theorem rules_iff : forall word fu,
  (exists e, check_compound_with_rules k word fu = Ret (Some e)) <-> RuleCompound A entry fu word.
Proof.
  intros word fu. split.
  - intros [e H]. exact (@rules_sound word fu e H).
  - intros (ws & fss & X1 & X2 & X3 & X4 & X5 & X6). unfold check_compound_with_rules.
    apply (@rules_complete_go ws fss); try assumption; [constructor|lia|lia].
Qed.
End Rules.
