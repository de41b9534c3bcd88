(** Property C82: what forbids a word does so whether or not the search for compounds ends.
    C20, C21 and C25 are about dictionaries where check returns; here there is no such condition. *)
From Coq Require Import String Ascii List NArith ZArith Lia Bool Arith Permutation.
From Verif Require Import Base Utf8 Unicode Flags Bag Condition Affix Conversion Aff Checker AffixSpec CompoundRule Rep CompoundSpec
  CompoundTotal RuleCompound Spell CheckSpec CheckMono CheckProps Parser ParserSafe Lib LibSpec LibProps Examples
  Properties_Affix Properties_Compound Properties_Check Properties_Dict Properties_Sound.
Import ListNotations.
Local Open Scope string_scope.
Local Open Scope list_scope.
Local Open Scope nat_scope.
Set Implicit Arguments.

Section Dict.
Variable pl : platform.
Hypothesis WP : wf_platform pl.
Variable d : dictionary.
Hypothesis R : Reachable pl d.
Notation k := (checker_of pl d false false).
Notation U := (pl_unicode pl).
Notation A := (d_aff d).
Notation opts := (ad_options (d_aff d)).
Notation h := (o_case (ad_options (d_aff d))).

(** The reasons that need no entry. *)
Definition WithoutEntries (w : str) : Prop :=
  Converts (ct_inner (ad_iconv A)) w [] \/
  exists v n, Converts (ct_inner (ad_iconv A)) w (v ++ dots n) /\ no_final_dot v /\ Numeral v.

Lemma glued_never : forall (P : str -> Prop), (forall x, ~ P x) -> forall n x, ~ Glued d P n x.
Proof. intros P HP n x G. induction G; [eapply HP; eassumption|assumption..]. Qed.

Lemma unbreakable_glued : forall (P : str -> Prop) n x, Unbreakable k x -> Glued d P n x -> P x.
Proof.
  intros P n x (U1 & U2 & U3) G. destruct G as [n w H|n p w HI _|n p w HI _|n p u v HI _ _ _].
  - exact H.
  - exfalso. exact (U1 _ _ HI eq_refl).
  - exfalso. exact (U2 _ _ HI eq_refl).
  - exfalso. exact (U3 _ _ _ HI eq_refl).
Qed.

(** ** C82 *)
(** When every entry is forbidden, or carries WARN under FORBIDWARN, no entry makes any word
    acceptable: neither by affixes, compounding, breaking or recasing, nor with the options of the
    checker. *)
Theorem C82_all_barred : (forall s f, listed d s f -> Barred d f) ->
  forall lt lu fuel w, scalars w -> check (checker_of pl d lt lu) fuel w = Ret true -> WithoutEntries w.
Proof.
  intros HB lt lu fuel w Hw H.
  assert (NX : forall x, ~ FoundRecased pl d x).
  { intros x (v & fu & hh & f & _ & HF & NB). apply NB. apply (finds_iff WP) in HF. destruct (found_entry HF) as [st Hst].
    rewrite (entries_get WP) in Hst. apply entries_In in Hst. exact (HB _ _ Hst). }
  destruct (C81_any_options WP R _ _ _ Hw H) as [_ [C|v n C D N|v n C D N G|v n C D N G]].
  - left. exact C.
  - right. exists v, n. auto.
  - destruct (glued_never NX G).
  - destruct (glued_never NX G).
Qed.

(** After [remove_stem], what is accepted has a reason in which the stem does not occur, except
    inside a compound made by COMPOUNDRULE. *)
Theorem C82_removed : forall stem b d', remove_stem pl d stem = Ret (b, d') ->
  forall x, scalars x -> accepted pl d' x -> Reason d (ExplainedWithout pl d stem) x.
Proof.
  intros stem b d' E x Hx Y.
  destruct (C25_remove_effect WP R stem) as (b2 & d2 & E2 & RD & EA & _). rewrite E in E2. injection E2 as <- <-.
  destruct (C81_accepted_words WP RD Hx Y) as [_ H]. destruct H as [C|v n C D N|v n C D N G|v n C D N G]; rewrite EA in C.
  - apply Reason_empty. exact C.
  - apply Reason_numeral with (v := v) (n := n); assumption.
  - rewrite EA in G. apply Reason_words with (v := v) (n := n); try assumption. exact (removed_glued WP R _ E G).
  - apply Reason_dotted with (v := v) (n := n); try assumption. exact (removed_glued WP R _ E G).
Qed.

Theorem C82_removed_ordinary : forall stem b d', remove_stem pl d stem = Ret (b, d') ->
  forall x, scalars x -> ordinary k x -> Unbreakable k x -> ~ ExplainedWithout pl d stem x -> ~ accepted pl d' x.
Proof.
  intros stem b d' E x Hx HO HU HN Y.
  destruct (C25_remove_effect WP R stem) as (b2 & d2 & E2 & RD & EA & _). rewrite E in E2. injection E2 as <- <-.
  assert (ORD : ordinary (checker_of pl d' false false) x) by (destruct HO; constructor; cbn [ck_aff checker_of] in *; try rewrite EA; assumption).
  apply HN. apply (unbreakable_glued (n := 9) HU). apply (removed_glued WP R _ E).
  exact (C81_ordinary_words WP RD Hx ORD Y).
Qed.

(** A title-case or all-caps word whose lower-case and title-case forms are found only with KEEPCASE. *)
Theorem C82_keepcase : forall x, scalars x -> ordinary k x -> Unbreakable k x ->
  classify_casing U x = CInit \/ classify_casing U x = CAll ->
  o_checksharps opts = false -> ~ In 39%N x ->
  (forall hh f, ~ Finds pl d AllowBadForceucase hh x f) ->
  (forall v f, v = lowercase U h x \/ titlecase U h x = Ret v -> Finds pl d AllowBadForceucase AcceptHiddenHomonym v f ->
     marked (o_keep_case opts) f) ->
  ~ accepted pl d x.
Proof.
  intros x Hx HO HU HC HSh HA HX HK Y.
  pose proof (unbreakable_glued HU (C81_ordinary_words WP R Hx HO Y)) as (v & fu & hh & ok & f & HR & HF & HOk & _).
  inversion HR; subst; try (exact (HX _ _ HF)); try (destruct HC; congruence);
    try (apply HA; apply in_or_app; left; apply in_or_app; right; left; reflexivity).
  - destruct HOk as [HOk|[HOk _]]; [|congruence]. apply HOk. exact (HK _ _ (or_introl eq_refl) HF).
  - apply HOk. exact (HK _ _ (or_introl eq_refl) HF).
  - apply HOk. eapply HK; [right; eassumption|exact HF].
Qed.

(** Nothing found for any casing of the word: not accepted. *)
Theorem C82_unknown : forall x, scalars x -> ordinary k x -> Unbreakable k x ->
  (forall v fu hh ok f, Reading pl d x v fu hh ok -> Finds pl d fu hh v f -> ok f -> Barred d f) -> ~ accepted pl d x.
Proof.
  intros x Hx HO HU HN Y.
  pose proof (unbreakable_glued HU (C81_ordinary_words WP R Hx HO Y)) as (v & fu & hh & ok & f & HR & HF & HOk & HB).
  exact (HB (HN _ _ _ _ _ HR HF HOk)).
Qed.
End Dict.

(** ** C16: the guards *)
(** The checker looks for compounds only when one of the compound flags is set, or when there
    are rules.  This loses nothing: whatever is a compound by the specification is so thanks to a
    flag that is set, or a rule that exists. *)
Theorem C16_guard_loses_nothing : forall U A (e : str -> flagset -> Prop) fu m left w parts,
  Compound U A e fu m left w parts -> m <> FULL_WORD -> allows_compounding (ad_options A) = true.
Proof.
  intros U A e fu m left w parts H Hm.
  assert (P : exists p c, Part A e m p c) by (inversion H; subst; eauto).
  destruct P as (p & c & P & _).
  assert (G : exists fs, marked (o_compound (ad_options A)) fs \/ marked (position_flag A m) fs).
  { assert (X : forall fs, compound_part A m fs -> marked (o_compound (ad_options A)) fs \/ marked (position_flag A m) fs)
      by (intros fs HX; destruct m; [contradiction|exact HX..]).
    destruct P as [(_ & _ & _ & HF & _)|[(kd & a & HO & _)|(q & s & HO & _)]].
    - eauto.
    - destruct HO as (_ & _ & _ & _ & _ & _ & _ & _ & _ & [HC|HC]); eauto.
    - destruct HO as (_ & _ & _ & _ & _ & _ & _ & _ & _ & _ & [HC|[HC|HC]] & _); eauto. }
  destruct G as (fs & [(g & E & _)|(g & E & _)]); unfold allows_compounding; [rewrite E; reflexivity|].
  destruct m; cbn [position_flag] in E; try discriminate E; rewrite E; cbn [is_someb]; rewrite ?orb_true_r; reflexivity.
Qed.

Theorem C16_guards : forall pl d fu hh w flags, Finds pl d fu hh w flags <->
  SimpleWord (d_aff d) (listed d) hh w flags \/
  (exists w1 e p2 ps, cr_flags e = flags /\
     Compound (pl_unicode pl) (d_aff d) (listed d) fu AT_BEGIN [] w ((w1, e) :: p2 :: ps)) \/
  (RuleCompound (d_aff d) (listed d) fu w /\ exists part, listed d part flags).
Proof.
  intros pl d fu hh w flags. unfold Finds. split; (intros [H|[H|H]]; [left; exact H|right; left|right; right]).
  - apply H.
  - apply H.
  - split; [|exact H]. destruct H as (w1 & e & p2 & ps & _ & HC).
    exact (C16_guard_loses_nothing HC ltac:(discriminate)).
  - split; [|exact H]. destruct H as [(ws & fss & _ & _ & _ & _ & (r & HI & _) & _) _]. intro E. rewrite E in HI. exact HI.
Qed.

(** ** A dictionary where the search for compounds need not end *)
Section Plain.
Variable A : affdata.
Variable e : str -> flagset -> Prop.
Variable U : unicode.
Hypothesis NP : i_table (ad_prefixes A) = [].
Hypothesis NS : i_table (ad_suffixes A) = [].
Hypothesis NC : ad_patterns A = [].

Lemma plain_rules : forall kd a, In a (rules A kd) -> False.
Proof. intros [|] a H; unfold rules in H; [rewrite NP in H|rewrite NS in H]; destruct H. Qed.

Lemma plain_simple : forall hh w f, SimpleWord A e hh w f -> e w f.
Proof.
  intros hh w f H. pose proof plain_rules as RR. unfold SimpleWord in H.
  destruct H as [[H _]|[(kd & a & st & H)|[(p & s & st & H)|[[E H]|[E H]]]]]; [exact H|exfalso..].
  - exact (RR _ _ (proj1 H)).
  - exact (RR _ _ (proj1 H)).
  - destruct H as [(o & i & st & H & _)|[(x & o & i & st & H & _)|(x & o & i & st & H & _)]]; eauto.
  - destruct H as [(o & i & st & H & _)|[(x & o & i & st & (H & _) & _)|(x & o & i & st & H & _)]]; eauto.
Qed.

Lemma plain_compound : forall fu w w1 c ps, Compound U A e fu AT_BEGIN [] w ((w1, c) :: ps) ->
  e w1 (cr_flags c) /\ exists r, w = w1 ++ r.
Proof.
  intros fu w w1 c ps H. pose proof plain_rules as RR.
  assert (P : Part A e AT_BEGIN w1 c /\ exists s Q T, Join U A e [] w AT_BEGIN w1 c s Q T) by (inversion H; subst; eauto 6).
  destruct P as [[[(HE & _)|[(kd & a & HO & _)|(p & s & HO & _)]] _] (s' & Q & T & J)].
  - split; [exact HE|]. destruct J; try (eexists; eassumption); rewrite NC in *; contradiction.
  - destruct (RR _ _ (proj1 HO)).
  - destruct (RR _ _ (proj1 HO)).
Qed.
End Plain.

Definition nv_aff : str := lit "COMPOUNDFLAG C
COMPOUNDMIN 1
SIMPLIFIEDTRIPLE
KEEPCASE K
FORBIDDENWORD F
".
Definition nv_dic : str := lit "3
kelvin/K
book/C
stool/C
".
Definition nv : dictionary := Eval vm_compute in (the (built ex_pl nv_aff nv_dic) <: dictionary).
Lemma nv_reachable : Reachable ex_pl nv. Proof. ex_dict nv_aff nv_dic. Qed.
Lemma nv_grows : ~ Shrinks (d_aff nv).
Proof. intros [H _]. specialize (H eq_refl). vm_compute in H. lia. Qed.

Lemma nv_finds : forall fu hh w f, Finds ex_pl nv fu hh w f -> exists s r, listed nv s f /\ w = s ++ r.
Proof.
  intros fu hh w f [H|[(_ & w1 & c & p2 & ps & <- & H)|(X & _)]].
  - exists w, []. split; [|rewrite app_nil_r; reflexivity]. exact (@plain_simple (d_aff nv) _ eq_refl eq_refl _ _ _ H).
  - destruct (@plain_compound (d_aff nv) _ _ eq_refl eq_refl eq_refl _ _ _ _ _ H) as [H1 [r ->]]. eauto.
  - exfalso. apply X. reflexivity.
Qed.
Lemma nv_listed : forall s f, listed nv s f -> (s = lit "kelvin" /\ f = lit "K") \/ (s = lit "book" /\ f = lit "C") \/ (s = lit "stool" /\ f = lit "C").
Proof. intros s f H. unfold listed in H. cbn in H. repeat (destruct H as [H|H]; [inversion H; subst; auto|]). destruct H. Qed.

Example C82_keepcase_example : ~ Shrinks (d_aff nv) /\ accepted ex_pl nv (lit "kelvin") /\ ~ accepted ex_pl nv (lit "Kelvin").
Proof.
  split; [exact nv_grows|]. split; [settle 50|].
  apply (@C82_keepcase ex_pl ex_pl_wf nv nv_reachable).
  - apply lit_scalars; reflexivity.
  - apply ordinary_dec; reflexivity.
  - apply unbreakable_dec; reflexivity.
  - left. reflexivity.
  - reflexivity.
  - cbn. intuition discriminate.
  - intros hh f H. destruct (nv_finds H) as (s & r & HL & E). destruct (nv_listed HL) as [[-> _]|[[-> _]|[-> _]]]; discriminate E.
  - intros v f HV H. destruct (nv_finds H) as (s & r & HL & E). destruct (nv_listed HL) as [[-> ->]|HL'].
    + exists 75%N. split; [reflexivity|left; reflexivity].
    + exfalso. destruct HV as [-> | HV]; [|injection HV as <-]; destruct HL' as [[-> _]|[-> _]]; discriminate E.
Qed.

Example C16_guard_example : exists fu parts,
  Compound (pl_unicode ex_pl) (d_aff nv) (listed nv) fu AT_BEGIN [] (lit "bookstool") parts.
Proof.
  assert (Y : accepted ex_pl nv (lit "bookstool")) by settle 50.
  assert (UB : Unbreakable (checker_of ex_pl nv false false) (lit "bookstool")) by (apply unbreakable_dec; reflexivity).
  assert (OD : ordinary (checker_of ex_pl nv false false) (lit "bookstool")) by (apply ordinary_dec; reflexivity).
  assert (SC : scalars (lit "bookstool")) by (apply lit_scalars; reflexivity).
  destruct (unbreakable_glued UB (C81_ordinary_words ex_pl_wf nv_reachable SC OD Y)) as (v & fu & hh & ok & f & HR & HF & _).
  assert (C : classify_casing (pl_unicode ex_pl) (lit "bookstool") = CNone) by reflexivity.
  inversion HR; subst; try (exfalso; congruence).
  apply C16_guards in HF. destruct HF as [HF|[(w1 & e & p2 & ps & _ & HF)|[(ws & fss & _ & _ & _ & _ & (r & HI & _) & _) _]]].
  - apply (@plain_simple (d_aff nv) _ eq_refl eq_refl) in HF. destruct (nv_listed HF) as [[E _]|[[E _]|[E _]]]; discriminate E.
  - eauto.
  - destruct HI.
Qed.

Definition nv_cut : dictionary := Eval vm_compute in (match remove_stem ex_pl nv (lit "book") with Ret (_, x) => x | _ => nv end).
Lemma nv_cut_eq : remove_stem ex_pl nv (lit "book") = Ret (true, nv_cut). Proof. vm_compute. reflexivity. Qed.

Example C82_removed_example :
  accepted ex_pl nv (lit "bookstool") /\ accepted ex_pl nv_cut (lit "stoolstool") /\
  ~ accepted ex_pl nv_cut (lit "bookstool") /\ ~ accepted ex_pl nv_cut (lit "Book") /\
  Reason nv (ExplainedWithout ex_pl nv (lit "book")) (lit "stoolstool").
Proof.
  assert (Y : accepted ex_pl nv_cut (lit "stoolstool")) by settle 50.
  assert (W : forall v fu hh f, v = lit "bookstool" \/ v = lit "Book" \/ v = lit "book" ->
    SimpleWord (d_aff nv) (fun s f => s <> lit "book" /\ listed nv s f) hh v f \/
    (exists w1 c p2 ps, Compound (pl_unicode ex_pl) (d_aff nv) (fun s f => s <> lit "book" /\ listed nv s f) fu AT_BEGIN [] v ((w1, c) :: p2 :: ps)) -> False).
  { intros v fu hh f HV H.
    assert (X : exists s r g, (s <> lit "book" /\ listed nv s g) /\ v = s ++ r).
    { destruct H as [H|(w1 & c & p2 & ps & H)].
      - exists v, [], f. split; [exact (@plain_simple (d_aff nv) _ eq_refl eq_refl _ _ _ H)|rewrite app_nil_r; reflexivity].
      - destruct (@plain_compound (d_aff nv) _ _ eq_refl eq_refl eq_refl _ _ _ _ _ H) as [H1 [r ->]]. eauto. }
    destruct X as (s & r & g & [N L] & E). destruct (nv_listed L) as [[-> _]|[[-> _]|[-> _]]]; [|exact (N eq_refl)|];
      destruct HV as [-> |[-> | ->]]; discriminate E. }
  assert (Q : forall x, x = lit "bookstool" \/ x = lit "Book" -> ~ ExplainedWithout ex_pl nv (lit "book") x).
  { intros x HX (v & fu & hh & ok & f & HR & _ & _ & H).
    assert (HV : v = lit "bookstool" \/ v = lit "Book" \/ v = lit "book").
    { destruct HX as [-> | ->].
      - assert (C : classify_casing (pl_unicode ex_pl) (lit "bookstool") = CNone) by reflexivity.
        inversion HR; subst; try (exfalso; congruence). left. reflexivity.
      - assert (C : classify_casing (pl_unicode ex_pl) (lit "Book") = CInit) by reflexivity.
        inversion HR; subst; try (exfalso; congruence); [right; left; reflexivity|right; right; reflexivity]. }
    destruct H as [H|[(_ & w1 & c & p2 & ps & _ & H)|(X & _)]]; [| |exact (X eq_refl)].
    - exact (W v fu hh f HV (or_introl H)).
    - apply (W v fu hh f HV). right. eauto. }
  split; [settle 50|]. split; [exact Y|]. split; [|split].
  - apply (@C82_removed_ordinary ex_pl ex_pl_wf nv nv_reachable _ _ _ nv_cut_eq);
      [apply lit_scalars; reflexivity|apply ordinary_dec; reflexivity|apply unbreakable_dec; reflexivity|apply Q; left; reflexivity].
  - apply (@C82_removed_ordinary ex_pl ex_pl_wf nv nv_reachable _ _ _ nv_cut_eq);
      [apply lit_scalars; reflexivity|apply ordinary_dec; reflexivity|apply unbreakable_dec; reflexivity|apply Q; right; reflexivity].
  - apply (@C82_removed ex_pl ex_pl_wf nv nv_reachable _ _ _ nv_cut_eq); [apply lit_scalars; reflexivity|exact Y].
Qed.

Example C82_unknown_example : ~ accepted ex_pl nv (lit "stuhl").
Proof.
  apply (@C82_unknown ex_pl ex_pl_wf nv nv_reachable);
    [apply lit_scalars; reflexivity|apply ordinary_dec; reflexivity|apply unbreakable_dec; reflexivity|].
  intros v fu hh ok f HR HF _. exfalso.
  assert (C : classify_casing (pl_unicode ex_pl) (lit "stuhl") = CNone) by reflexivity.
  inversion HR; subst; try congruence.
  destruct (nv_finds HF) as (s & r & HL & E). destruct (nv_listed HL) as [[-> _]|[[-> _]|[-> _]]]; discriminate E.
Qed.

(** All entries forbidden, all of them usable in compounds. *)
Definition bb_dic : str := lit "2
book/CF
stool/CF
".
Definition bb : dictionary := Eval vm_compute in (the (built ex_pl nv_aff bb_dic) <: dictionary).
Lemma bb_reachable : Reachable ex_pl bb. Proof. ex_dict nv_aff bb_dic. Qed.
Example C82_all_barred_example :
  check (checker_of ex_pl bb true true) 50 (lit "12.") = Ret true /\
  (forall s f, listed bb s f -> Barred bb f) /\
  (forall fuel, check (checker_of ex_pl bb true true) fuel (lit "bookstool") <> Ret true).
Proof.
  assert (HB : forall s f, listed bb s f -> Barred bb f).
  { intros s f H. left. unfold listed in H. cbn in H. repeat (destruct H as [H|H]; [inversion H; subst; cbn; tauto|]). destruct H. }
  split; [vm_compute; reflexivity|]. split; [exact HB|]. intros fuel H.
  assert (X : forall w out, Converts (ct_inner (ad_iconv (d_aff bb))) w out -> out = w).
  { intros w out HC. induction HC as [|x w out Hno H1 IH|c r out Hc Hu Hmax H1 IH]; [reflexivity|f_equal; exact IH|destruct Hc]. }
  assert (Hw : scalars (lit "bookstool")) by (apply lit_scalars; reflexivity).
  destruct (C82_all_barred ex_pl_wf bb_reachable HB true true fuel Hw H) as [C|(v & n & C & D & N)].
  - apply X in C. discriminate C.
  - apply X in C. assert (n = 0) as ->.
    { destruct n; [reflexivity|]. exfalso. assert (L : rev (v ++ dots (S n)) = rev (lit "bookstool")) by (rewrite C; reflexivity).
      rewrite rev_app_distr, dots_rev in L. discriminate L. }
    unfold dots in C. cbn [repeat] in C. rewrite app_nil_r in C. subst v. apply is_number_spec in N. discriminate N.
Qed.

Print Assumptions C82_all_barred.
Print Assumptions C82_removed.
Print Assumptions C82_removed_ordinary.
Print Assumptions C82_keepcase.
Print Assumptions C82_unknown.
Print Assumptions C16_guard_loses_nothing.
Print Assumptions C16_guards.
