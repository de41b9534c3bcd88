(** Properties C15, C16, C17 and C47: compound words and REP similarity.
    [RuleCompound] (RuleCompound.v), [Compound] and [Part] (CompoundSpec.v), [PlainCompound]
    (CompoundTotal.v) and [RepSimilar] (Rep.v) say what a compound is in terms of the
    entries and the options alone. *)
From Coq Require Import String Ascii List NArith ZArith Lia Bool Arith Permutation.
From Verif Require Import Base Utf8 Unicode Flags Condition Affix Aff Checker AffixSpec CompoundRule Rep CompoundSpec CompoundTotal
  RuleCompound Spell CheckSpec CheckMono CheckProps Parser ParserSafe Lib LibSpec LibProps Examples Properties_Affix.
Import ListNotations.
Local Open Scope string_scope.
Local Open Scope list_scope.
Local Open Scope nat_scope.
Set Implicit Arguments.

(** ** The specifications do not care how the entries are presented *)
Section Same.
Variable U : unicode.
Variable A : affdata.
Variables e1 e2 : str -> flagset -> Prop.
Hypothesis E : forall s f, e1 s f <-> e2 s f.
Let E12 : forall s f, e1 s f -> e2 s f. Proof. intros. apply E. assumption. Qed.
Let E21 : forall s f, e2 s f -> e1 s f. Proof. intros. apply E. assumption. Qed.

Lemma RepSimilar_mono : forall t (o1 o2 : str -> Prop) w, (forall x, o1 x -> o2 x) -> RepSimilar t o1 w -> RepSimilar t o2 w.
Proof.
  intros t o1 o2 w H. unfold RepSimilar.
  intros [(a & b & X & Y & Z)|[(a & b & r & X & Y & Z)|[(a & b & r & X & Y & Z)|(a & b & u & v & X & Y & Z)]]].
  - left. exists a, b. auto.
  - right. left. exists a, b, r. auto.
  - right. right. left. exists a, b, r. auto.
  - right. right. right. exists a, b, u, v. auto.
Qed.
Lemma Similar_back : forall w, Similar A e2 w -> Similar A e1 w.
Proof.
  intros w. apply RepSimilar_mono. intros x [f H]. exists f. eapply simple_mono; [exact E21|exact H].
Qed.
Lemma Part_same : forall m w e, Part A e1 m w e -> Part A e2 m w e.
Proof.
  intros m w e [[H|[(kd & a & H & X)|(p & s & H & X)]] HV]; (split; [|exact HV]).
  - left. decompose [and] H. clear H. repeat (split; [auto; fail|]). auto.
  - right. left. exists kd, a. split; [|exact X]. eapply OneAffix_mono; [exact E12|exact H].
  - right. right. exists p, s. split; [|exact X]. eapply PrefixSuffix_mono; [exact E12|exact H].
Qed.
Lemma Join_same : forall l r m p e s Q R, Join U A e1 l r m p e s Q R ->
  exists R' : cresult -> Prop, Join U A e2 l r m p e s Q R' /\ forall e', R e' -> R' e'.
Proof.
  intros l r m p e s Q R H. destruct H; eexists; (split; [econstructor; eassumption|]); cbv beta.
  - intros e' H' s Hs X. exact (H' s Hs (Similar_back X)).
  - intros e' H' s Hs X. exact (H' s Hs (Similar_back X)).
  - intros e' H' s Hs X. exact (H' s Hs (Similar_back X)).
  - intros e' H' t s Ht Hs X. exact (H' t s Ht Hs (Similar_back X)).
Qed.
Lemma Compound_same : forall fu m l r ps, Compound U A e1 fu m l r ps -> Compound U A e2 fu m l r ps.
Proof.
  intros fu m l r ps H. induction H.
  - destruct (Join_same H1) as (R' & J & HR). eapply Compound_last; try exact J; try (apply Part_same; assumption); try assumption.
    intros Hc X. exact (H6 Hc (Similar_back X)).
  - destruct (Join_same H1) as (R' & J & HR). eapply Compound_more; try exact J; try (apply Part_same; assumption); try assumption.
    intros Hc. destruct (H4 Hc) as [X Y]. split; [intro Z; exact (X (Similar_back Z))|exact (HR _ Y)].
Qed.
Lemma Plain_same : forall n w, PlainCompoundOf U A e1 n w -> PlainCompoundOf U A e2 n w.
Proof.
  intros n w (a & ms & z & H0 & H1 & [x H2] & H3 & [y H4] & H5). exists a, ms, z. split; [exact H0|]. split; [exact H1|].
  split; [exists x; apply Part_same, H2|]. split; [|split; [exists y; apply Part_same, H4|exact H5]].
  eapply Forall_impl; [|exact H3]. cbv beta. intros b [e H]. exists e. apply Part_same, H.
Qed.
Lemma Rule_same : forall fu w, RuleCompound A e1 fu w -> RuleCompound A e2 fu w.
Proof.
  intros fu w (ws & fss & H1 & H2 & H3 & H4 & H5). exists ws, fss. split; [exact H1|]. split; [exact H2|]. split; [exact H3|].
  split; [|exact H5]. clear H1 H2 H3 H5. induction H4 as [|a b l1 l2 [X Y] Z IH]; constructor; [split; [apply E12, X|exact Y]|exact IH].
Qed.
End Same.

Section Dict.
Variable pl : platform.
Hypothesis WP : wf_platform pl.
Variable d : dictionary.
Hypothesis R : Reachable pl d.
Notation k := (checker_of pl d false false).
Notation U := (pl_unicode pl).
Notation opts := (ad_options (d_aff d)).

Let OK : dict_ok pl d := reachable_ok WP R.
Let wfc : wf_compound k. Proof. apply dict_wf_compound; [exact WP|exact OK]. Qed.
Let iff_known : forall s f, In f (ck_get k s) <-> listed d s f.
Proof. intros. rewrite (entries_get WP). apply entries_In. Qed.
Let iff_known' : forall s f, listed d s f <-> In f (ck_get k s).
Proof. intros. symmetry. apply iff_known. Qed.
Let minok : o_min_length opts <> Some 0%N := wfc_min wfc.

Lemma rule_table_facts : wf_flagset (rt_flags (ad_rules (d_aff d))) /\
  forall f, In f (rt_flags (ad_rules (d_aff d))) <->
    exists r e, In r (rt_rules (ad_rules (d_aff d))) /\ In e r /\ f = re_flag e.
Proof.
  destruct (do_aff OK) as (x & LP & CO).
  destruct (aff_facts WP LP CO) as (_ & _ & _ & _ & _ & _ & _ & _ & _ & _ & _ & _ & RT & _).
  unfold rule_table_from in RT. destruct (flagset_from _) as [fs| |] eqn:EF; try discriminate. cbn in RT. injection RT as <-.
  cbn [rt_flags rt_rules]. split; [exact (flagset_from_wf _ _ EF)|]. intro f. rewrite (flagset_from_In _ _ f EF).
  rewrite in_flat_map. split.
  - intros (r & Hr & Hf). apply in_map_iff in Hf. destruct Hf as (e & <- & He). eauto.
  - intros (r & e & Hr & He & ->). exists r. split; [exact Hr|]. apply in_map, He.
Qed.

(** ** C15 *)
Theorem C15_rule_compounds_split : forall w fu e,
  check_compound_with_rules k w fu = Ret (Some e) -> RuleCompound (d_aff d) (listed d) fu w.
Proof.
  intros w fu e H. eapply Rule_same; [exact iff_known|]. exact (@rules_sound k (wfc_checker wfc) minok w fu e H).
Qed.

Theorem C15_rule_compounds_iff : forall w fu,
  (forall s f1 f2, RulePart (d_aff d) (listed d) s f1 -> RulePart (d_aff d) (listed d) s f2 -> f1 = f2) ->
  ((exists e, check_compound_with_rules k w fu = Ret (Some e)) <-> RuleCompound (d_aff d) (listed d) fu w).
Proof.
  intros w fu HU. split; [intros [e H]; exact (C15_rule_compounds_split w fu H)|].
  intro H. apply (@rules_iff k (wfc_checker wfc) minok rule_table_facts).
  - intros s f1 f2 [X1 X2] [Y1 Y2]. apply (HU s); split; try assumption; apply iff_known; assumption.
  - eapply Rule_same; [exact iff_known'|exact H].
Qed.

(** At the interface: such a word is accepted when no entry is forbidden. *)
Theorem own_attempt : wf_full k -> strict k = true -> forall w fuel0,
  scalars w ->
  (forall fu hh fuel, fuel0 <= fuel -> fu = AllowBadForceucase \/ fu = ForbidBadForceucase ->
     exists f, check_word k fuel w fu hh = Ret (Some f)) ->
  exists f, Own k w (Some f).
Proof.
  intros WF ST w fuel0 Hw H.
  assert (PC : ck_lower_as_title k = false /\ ck_lower_as_upper k = false) by (split; reflexivity).
  destruct (own_total WF PC ST Hw) as [[f|] HO]; [eauto|]. exfalso.
  apply (own_plan WF PC ST None Hw) in HO.
  destruct (@plan_self k PC w) as [fu [hh [rest Ep]]]. rewrite Ep in HO. inversion HO as [|a l Ha Hl]; subst.
  destruct Ha as [n En]. specialize (En (n + fuel0) ltac:(lia)). unfold try_one in En. cbn [at_word at_fu at_hh at_filter] in En.
  destruct (H fu hh (n + fuel0) ltac:(lia)) as [f Ef]; [destruct fu; auto|]. rewrite Ef in En. discriminate.
Qed.

Theorem C15_rule_compounds_accepted : forall w,
  Shrinks (d_aff d) -> strict k = true -> scalars w -> ordinary k w ->
  (forall stem f, listed d stem f -> ~ Blocked k f) ->
  (forall s f1 f2, RulePart (d_aff d) (listed d) s f1 -> RulePart (d_aff d) (listed d) s f2 -> f1 = f2) ->
  RuleCompound (d_aff d) (listed d) ForbidBadForceucase w ->
  Eventually (fun fuel => dict_check pl d fuel w) (Ret true).
Proof.
  intros w SH ST Hw HO HB HU HR.
  pose proof (@dict_wf_full pl WP d OK false false SH) as WF.
  assert (HR' : forall fu, RuleCompound (d_aff d) (listed d) fu w).
  { intro fu. destruct HR as (ws & fss & H1 & H2 & H3 & H4 & H5 & H6). exists ws, fss.
    repeat (split; [assumption|]). intros _. apply H6. reflexivity. }
  assert (NE : nonempty (rt_rules (ad_rules (d_aff d))) = true).
  { destruct HR as (ws & fss & _ & _ & _ & _ & (r & Hr & _) & _). destruct (rt_rules (ad_rules (d_aff d))); [destruct Hr|reflexivity]. }
  assert (exists f, Own k w (Some f)) as [f Hf].
  { apply (@own_attempt WF ST w (length w + 1) Hw). intros fu hh fuel HL _. unfold check_word.
    destruct (check_simple_word k w hh) as [f|]; [eauto|]. unfold check_compound.
    cbn [ck_aff checker_of]. rewrite NE. destruct (proj2 (@C15_rule_compounds_iff w fu HU) (HR' fu)) as [e He].
    assert (X : exists r, (if allows_compounding opts then check_compound_flags k fuel AT_BEGIN w fu else Ret None) = Ret r).
    { destruct (allows_compounding opts); [|eauto].
      pose proof (@compound_settled k wfc SH fuel AT_BEGIN w fu Hw ltac:(lia)) as S. rewrite ST in S.
      destruct (check_compound_flags k fuel AT_BEGIN w fu) as [r| |]; cbn in S; try discriminate; try contradiction. eauto. }
    destruct X as [[r|] ->]; cbn [bindR option_map]; [eauto|]. rewrite He. cbn. eauto. }
  eapply (@no_blocked_accepts k WF); try eassumption; try (split; reflexivity).
  intros stem g Hg. apply (HB stem g). apply iff_known, Hg.
Qed.

(** ** C16 *)
Theorem C16_compounds_split : forall fuel w fu e, scalars w ->
  check_compound_flags k fuel AT_BEGIN w fu = Ret (Some e) ->
  exists parts, Compound U (d_aff d) (listed d) fu AT_BEGIN [] w parts /\ 2 <= length parts.
Proof.
  intros fuel w fu e Hw H. destruct (@compound_sound k wfc fuel AT_BEGIN w fu e Hw H) as (w1 & p2 & ps & HC & _).
  exists ((w1, e) :: p2 :: ps). split; [|cbn; lia]. eapply Compound_same; [exact iff_known|exact HC].
Qed.

(** Options under which the choice among homonyms and decompositions is immaterial. *)
Record PlainCompounding : Prop := {
  pc_patterns : ad_patterns (d_aff d) = [];
  pc_triple : o_simplified_triple opts = false;
  pc_duplicate : o_check_duplicate opts = false;
  pc_rep : o_check_rep opts = false;
  pc_force : o_force_upper opts = None;
  pc_forbidden : forall stem f, listed d stem f -> ~ In (o_forbidden opts) f }.

Lemma part_listed : forall e m w x, Part (d_aff d) e m w x -> exists stem, e stem (cr_flags x).
Proof.
  intros e m w x [[H|[(kd & a & H & _)|(p & s & H & _)]] _].
  - decompose [and] H. eauto.
  - unfold OneAffix in H. decompose [and] H. eauto.
  - unfold PrefixSuffix in H. decompose [and] H. eauto.
Qed.

Lemma plain_forbidden : PlainCompounding -> forall m x e,
  Part (d_aff d) (fun s f => In f (ck_get k s)) m x e -> ~ Forbidden (d_aff d) e.
Proof.
  intros PC m x e HP HX. destruct (part_listed HP) as [st Hst]. apply iff_known in Hst. exact (@pc_forbidden PC st _ Hst HX).
Qed.

Theorem C16_plain_compounds_iff : PlainCompounding -> o_max_words opts = None -> strict k = true -> forall fuel w fu, scalars w -> length w <= fuel ->
  ((exists e, check_compound_flags k fuel AT_BEGIN w fu = Ret (Some e)) <->
   PlainCompound U (d_aff d) (listed d) w).
Proof.
  intros PC P6 ST fuel w fu Hw HF. pose proof (plain_forbidden PC) as NF. destruct PC as [P1 P2 P3 P4 P5 P7].
  assert (SH : Shrinks (d_aff d)) by (apply plain_shrinks; assumption).
  assert (PO : PlainOptions k) by (constructor; try assumption; left; exact P6).
  rewrite (@compound_iff k wfc SH ST PO P6 fu AT_BEGIN w fuel Hw HF).
  rewrite (@plain_compound_iff U (d_aff d) (fun s f => In f (ck_get k s)) P1 P2 P3 P4 P5 NF fu w).
  split; intros [n H]; exists n; (eapply Plain_same; [|exact H]); [exact iff_known|exact iff_known'].
Qed.

(** At the interface: with compounding allowed, every plain compound is accepted. *)
Theorem C16_plain_compounds_accepted : forall w,
  PlainCompounding -> o_max_words opts = None -> allows_compounding opts = true -> strict k = true -> scalars w -> ordinary k w ->
  (forall stem f, listed d stem f -> ~ Blocked k f) ->
  PlainCompound U (d_aff d) (listed d) w ->
  Eventually (fun fuel => dict_check pl d fuel w) (Ret true).
Proof.
  intros w PC PM AC ST Hw HO HB HP.
  assert (SH : Shrinks (d_aff d)) by (apply plain_shrinks; [exact (pc_triple PC)|exact (pc_patterns PC)]).
  pose proof (@dict_wf_full pl WP d OK false false SH) as WF.
  assert (exists f, Own k w (Some f)) as [f Hf].
  { apply (@own_attempt WF ST w (length w) Hw). intros fu hh fuel HL _. unfold check_word.
    destruct (check_simple_word k w hh) as [f|]; [eauto|]. unfold check_compound.
    cbn [ck_aff checker_of]. rewrite AC. destruct (proj2 (@C16_plain_compounds_iff PC PM ST fuel w fu Hw HL) HP) as [e He].
    rewrite He. cbn. eauto. }
  eapply (@no_blocked_accepts k WF); try eassumption; try (split; reflexivity).
  intros stem g Hg. apply (HB stem g). apply iff_known, Hg.
Qed.

(** ** C17 *)
(** Full statement: with COMPOUNDWORDMAX [mx] and no COMPOUNDSYLLABLE every word found has a
    decomposition of at most [mx] parts.  That is false with SIMPLIFIEDTRIPLE
    ([C17_simplified_triple_refuted] below); then [mx + 2] parts are possible and no more. *)
Theorem C17_max_parts : forall mx, o_max_words opts = Some mx -> ad_vowels (d_aff d) = [] ->
  forall fuel w fu e, scalars w -> check_compound_flags k fuel AT_BEGIN w fu = Ret (Some e) ->
  exists parts, Compound U (d_aff d) (listed d) fu AT_BEGIN [] w parts /\
    (N.of_nat (length parts) <= mx + 2)%N /\
    (o_simplified_triple opts = false -> (N.of_nat (length parts) <= mx)%N).
Proof.
  intros mx Hm Hv fuel w fu e Hw H. destruct (@compound_sound k wfc fuel AT_BEGIN w fu e Hw H) as (w1 & p2 & ps & HC & HB).
  exists ((w1, e) :: p2 :: ps). split; [eapply Compound_same; [exact iff_known|exact HC]|].
  exact (HB mx Hm Hv).
Qed.

(** The limit is exactly COMPOUNDWORDMAX: under the plain options a word is found iff it has a
    decomposition of at most that many parts. *)
Theorem C17_max_parts_iff : forall mx, PlainCompounding -> o_max_words opts = Some mx -> ad_vowels (d_aff d) = [] ->
  o_root opts = None -> strict k = true ->
  forall fuel w fu, scalars w -> length w <= fuel ->
  ((exists e, check_compound_flags k fuel AT_BEGIN w fu = Ret (Some e)) <->
   exists n, PlainCompoundOf U (d_aff d) (listed d) n w /\ (N.of_nat n <= mx)%N).
Proof.
  intros mx PC Hm Hv Hr ST fuel w fu Hw HF. pose proof (plain_forbidden PC) as NF. destruct PC as [P1 P2 P3 P4 P5 P7].
  assert (SH : Shrinks (d_aff d)) by (apply plain_shrinks; assumption).
  assert (PO : PlainOptions k) by (constructor; try assumption; right; auto).
  rewrite (@compound_max_iff k wfc SH ST PO mx Hm fu AT_BEGIN w fuel Hw HF).
  split.
  - intros [ps [H L]]. exists (length ps). split; [|exact L]. eapply Plain_same; [exact iff_known|].
    apply (@plain_compound_of_iff U (d_aff d) (fun s f => In f (ck_get k s)) P1 P2 P3 P4 P5 NF fu). eauto.
  - intros [n [H L]]. eapply Plain_same in H; [|exact iff_known'].
    apply (@plain_compound_of_iff U (d_aff d) (fun s f => In f (ck_get k s)) P1 P2 P3 P4 P5 NF fu) in H.
    destruct H as [ps [H <-]]. eauto.
Qed.

(** ** C47 *)
Theorem C47_rep_similar_iff : forall w, scalars w ->
  (is_rep_similar k w = true <->
   RepSimilar (ad_reps (d_aff d)) (fun x => exists flags, SimpleWord (d_aff d) (listed d) SkipHiddenHomonym x flags) w).
Proof.
  intros w Hw. rewrite (@similar_spec k wfc w Hw). unfold Similar.
  split; apply RepSimilar_mono; intros x [f H]; exists f; (eapply simple_mono; [|exact H]); intros; apply iff_known; assumption.
Qed.
End Dict.

(** ** Cases that meet the hypotheses *)
Definition cmp_aff : str := lit "COMPOUNDMIN 2
COMPOUNDFLAG C
COMPOUNDBEGIN B
COMPOUNDEND E
SFX S Y 1
SFX S 0 s .
".
Definition cmp_dic : str := lit "4
foo/C
bar/B
bazz/E
alone/S
".
Definition cmp : dictionary := Eval vm_compute in (the (built ex_pl cmp_aff cmp_dic) <: dictionary).
Lemma cmp_reachable : Reachable ex_pl cmp. Proof. ex_dict cmp_aff cmp_dic. Qed.

Lemma cmp_plain : PlainCompounding cmp.
Proof.
  constructor; try reflexivity. intros stem f H.
  repeat (destruct H as [H|H]; [injection H as <- <-; vm_compute; intuition discriminate|]). destruct H.
Qed.

Ltac direct_part w f := exists (mkCR w f 0 0 false); split; [|auto]; left; cbn [cr_flags cr_stem cr_modified];
  repeat match goal with |- _ /\ _ => split end;
  [cbn; tauto|reflexivity|intros [? [? _]]; discriminate| |vm_compute; intuition discriminate|reflexivity].

Lemma cmp_split : PlainCompoundOf ascii_unicode (d_aff cmp) (listed cmp) 3 (lit "barfoobazz").
Proof.
  exists (lit "bar"), [lit "foo"], (lit "bazz"). repeat match goal with |- _ /\ _ => split end; try reflexivity.
  - direct_part (lit "bar") [66%N]. right. exists 66%N. split; [reflexivity|left; reflexivity].
  - constructor; [|constructor]. direct_part (lit "foo") [67%N]. left. exists 67%N. split; [reflexivity|left; reflexivity].
  - direct_part (lit "bazz") [69%N]. right. exists 69%N. split; [reflexivity|left; reflexivity].
  - repeat (constructor; [vm_compute; lia|]). constructor.
  - split; [intros _; split; discriminate|]. split; [intros _; split; discriminate|]. split; [intro X; contradiction X; reflexivity|exact I].
Qed.

Example C16_example :
  Eventually (fun fuel => dict_check ex_pl cmp fuel (lit "barfoobazz")) (Ret true) /\
  Eventually (fun fuel => dict_check ex_pl cmp fuel (lit "foobar")) (Ret false) /\
  ~ PlainCompound ascii_unicode (d_aff cmp) (listed cmp) (lit "foobar").
Proof.
  split; [|split; [settle 60|]].
  - refine (@C16_plain_compounds_accepted ex_pl ex_pl_wf cmp cmp_reachable (lit "barfoobazz") cmp_plain eq_refl eq_refl eq_refl _ _ _ _).
    + apply lit_scalars; reflexivity.
    + apply ordinary_dec. reflexivity.
    + intros stem f H [X|[X _]]; [|discriminate]. exact (@pc_forbidden cmp cmp_plain stem f H X).
    + exists 3. exact cmp_split.
  - intro H. apply (@C16_plain_compounds_iff ex_pl ex_pl_wf cmp cmp_reachable cmp_plain eq_refl eq_refl 10 (lit "foobar") ForbidBadForceucase) in H.
    + destruct H as [e H]. vm_compute in H. discriminate.
    + apply lit_scalars; reflexivity.
    + vm_compute. lia.
Qed.

(** COMPOUNDWORDMAX 2. *)
Definition two_aff : str := lit "COMPOUNDMIN 2
COMPOUNDFLAG C
COMPOUNDWORDMAX 2
".
Definition two_dic : str := lit "2
foo/C
bar/C
".
Definition two : dictionary := Eval vm_compute in (the (built ex_pl two_aff two_dic) <: dictionary).
Lemma two_reachable : Reachable ex_pl two. Proof. ex_dict two_aff two_dic. Qed.
Lemma two_plain : PlainCompounding two.
Proof.
  constructor; try reflexivity. intros stem f H.
  repeat (destruct H as [H|H]; [injection H as <- <-; vm_compute; intuition discriminate|]). destruct H.
Qed.

Example C17_example :
  Eventually (fun fuel => dict_check ex_pl two fuel (lit "foobar")) (Ret true) /\
  Eventually (fun fuel => dict_check ex_pl two fuel (lit "foobarfoo")) (Ret false) /\
  ~ (exists n, PlainCompoundOf ascii_unicode (d_aff two) (listed two) n (lit "foobarfoo") /\ (N.of_nat n <= 2)%N).
Proof.
  split; [settle 60|]. split; [settle 60|]. intro H.
  apply (@C17_max_parts_iff ex_pl ex_pl_wf two two_reachable 2 two_plain eq_refl eq_refl eq_refl eq_refl 10 _ ForbidBadForceucase) in H.
  - destruct H as [e H]. vm_compute in H. discriminate.
  - apply lit_scalars; reflexivity.
  - vm_compute. lia.
Qed.

(** With SIMPLIFIEDTRIPLE the limit is not enforced on the parts around the dropped letter:
    "ababschiffahrt" (ab + ab + schiff + fahrt) is accepted under COMPOUNDWORDMAX 2, and no
    decomposition of at most two parts exists. *)
Definition ship_aff : str := lit "COMPOUNDMIN 2
COMPOUNDFLAG C
COMPOUNDWORDMAX 2
SIMPLIFIEDTRIPLE
".
Definition ship_dic : str := lit "3
ab/C
schiff/C
fahrt/C
".
Definition ship : dictionary := Eval vm_compute in (the (built ex_pl ship_aff ship_dic) <: dictionary).
Lemma ship_reachable : Reachable ex_pl ship. Proof. ex_dict ship_aff ship_dic. Qed.

Lemma ship_part : forall m w e, Part (d_aff ship) (listed ship) m w e -> length w <= 6.
Proof.
  intros m w e [[H|[(kd & a & H & _)|(p & s & H & _)]] _].
  - decompose [and] H. destruct H0 as [E|[E|[E|[]]]]; injection E as <- _; cbn; lia.
  - unfold OneAffix in H. destruct H as [H _]. destruct kd; destruct H.
  - unfold PrefixSuffix in H. destruct H as [H _]. destruct H.
Qed.
Lemma ship_two_parts : forall fu m l w ps, Compound ascii_unicode (d_aff ship) (listed ship) fu m l w ps ->
  length w <= 6 * length ps.
Proof.
  intros fu m l w ps H. induction H as [m left rest p1 e1 second Q R e2 HP HF HJ HP2 HF2 HQ HD HRp HFu
    |m left rest p1 e1 second Q R w2 e2 ps HP HF HJ HC IH HQ HRp].
  - apply ship_part in HP. apply ship_part in HP2. inversion HJ; subst; cbn [length] in *.
    + rewrite app_length. lia.
    + rewrite app_length. lia.
    + destruct H.
    + destruct H0.
  - apply ship_part in HP. inversion HJ; subst; cbn [length] in *.
    + rewrite app_length. lia.
    + rewrite app_length. lia.
    + destruct H.
    + destruct H0.
Qed.

Theorem C17_simplified_triple_refuted :
  o_max_words (ad_options (d_aff ship)) = Some 2%N /\ ad_vowels (d_aff ship) = [] /\
  (forall fu ps, Compound ascii_unicode (d_aff ship) (listed ship) fu AT_BEGIN [] (lit "ababschiffahrt") ps -> 2 < length ps) /\
  Eventually (fun fuel => dict_check ex_pl ship fuel (lit "ababschiffahrt")) (Ret true).
Proof.
  split; [reflexivity|]. split; [reflexivity|]. split; [|settle 60].
  intros fu ps H. apply ship_two_parts in H. cbn in H. lia.
Qed.

(** COMPOUNDRULE. *)
Definition num_aff : str := lit "COMPOUNDMIN 1
COMPOUNDRULE 1
COMPOUNDRULE ab*c
".
Definition num_dic : str := lit "4
twenty/a
hundred/b
one/bc
other
".
Definition nums : dictionary := Eval vm_compute in (the (built ex_pl num_aff num_dic) <: dictionary).
Lemma nums_reachable : Reachable ex_pl nums. Proof. ex_dict num_aff num_dic. Qed.
Lemma nums_unique : forall s f1 f2, RulePart (d_aff nums) (listed nums) s f1 -> RulePart (d_aff nums) (listed nums) s f2 -> f1 = f2.
Proof.
  intros s f1 f2 [H1 _] [H2 _].
  repeat (destruct H1 as [H1|H1]; [injection H1 as <- <-;
    repeat (destruct H2 as [H2|H2]; [(discriminate H2 || (injection H2 as <-; reflexivity))|]); destruct H2|]). destruct H1.
Qed.

Example C15_example :
  Eventually (fun fuel => dict_check ex_pl nums fuel (lit "twentyhundredhundredone")) (Ret true) /\
  Eventually (fun fuel => dict_check ex_pl nums fuel (lit "hundredone")) (Ret false) /\
  ~ RuleCompound (d_aff nums) (listed nums) ForbidBadForceucase (lit "hundredone").
Proof.
  split; [|split; [settle 60|]].
  - refine (@C15_rule_compounds_accepted ex_pl ex_pl_wf nums nums_reachable (lit "twentyhundredhundredone") _ eq_refl _ _ _ nums_unique _).
    + apply plain_shrinks; reflexivity.
    + apply lit_scalars; reflexivity.
    + apply ordinary_dec. reflexivity.
    + intros stem f H [X|[X _]]; [|discriminate].
      repeat (destruct H as [H|H]; [injection H as <- <-; vm_compute in X; intuition discriminate|]). destruct H.
    + apply (@C15_rule_compounds_iff ex_pl ex_pl_wf nums nums_reachable _ _ nums_unique). eexists. vm_compute. reflexivity.
  - intro H. apply (@C15_rule_compounds_iff ex_pl ex_pl_wf nums nums_reachable _ _ nums_unique) in H.
    destruct H as [e H]. vm_compute in H. discriminate.
Qed.

(** REP. *)
Definition rep_aff : str := lit "REP 2
REP f ph
REP ^a o
".
Definition rep_dic : str := lit "2
photo
ox
".
Definition repd : dictionary := Eval vm_compute in (the (built ex_pl rep_aff rep_dic) <: dictionary).
Lemma repd_reachable : Reachable ex_pl repd. Proof. ex_dict rep_aff rep_dic. Qed.
Example C47_example :
  RepSimilar (ad_reps (d_aff repd)) (fun x => exists flags, SimpleWord (d_aff repd) (listed repd) SkipHiddenHomonym x flags) (lit "foto") /\
  RepSimilar (ad_reps (d_aff repd)) (fun x => exists flags, SimpleWord (d_aff repd) (listed repd) SkipHiddenHomonym x flags) (lit "ax") /\
  ~ RepSimilar (ad_reps (d_aff repd)) (fun x => exists flags, SimpleWord (d_aff repd) (listed repd) SkipHiddenHomonym x flags) (lit "xa").
Proof.
  repeat match goal with |- _ /\ _ => split end;
    try (rewrite <- (@C47_rep_similar_iff ex_pl ex_pl_wf repd repd_reachable); [vm_compute; (reflexivity || discriminate)|apply lit_scalars; reflexivity]).
Qed.

Print Assumptions C15_rule_compounds_split.
Print Assumptions C15_rule_compounds_iff.
Print Assumptions C15_rule_compounds_accepted.
Print Assumptions C16_compounds_split.
Print Assumptions C16_plain_compounds_iff.
Print Assumptions C16_plain_compounds_accepted.
Print Assumptions C17_max_parts.
Print Assumptions C17_max_parts_iff.
Print Assumptions C17_simplified_triple_refuted.
Print Assumptions C47_rep_similar_iff.
