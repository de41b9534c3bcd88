(** Property C60: the boundary checks on compounds (CHECKCOMPOUNDDUP, CHECKCOMPOUNDTRIPLE,
    CHECKCOMPOUNDCASE, SIMPLIFIEDTRIPLE, FORCEUCASE, CHECKCOMPOUNDPATTERN) reject exactly
    what they say.  [Compound] (CompoundSpec.v) states them on the parts of a word. *)
From Coq Require Import String Ascii List NArith ZArith Lia Bool Arith Permutation.
From Verif Require Import Base Utf8 Unicode Flags Condition Affix Aff Checker AffixSpec CompoundRule Rep CompoundSpec CompoundTotal
  CompoundExact RuleCompound Spell CheckSpec CheckMono CheckProps Parser ParserSafe Lib LibSpec LibProps Examples Properties_Affix
  Properties_Compound Properties_Check.
Import ListNotations.
Local Open Scope string_scope.
Local Open Scope list_scope.
Local Open Scope nat_scope.
Set Implicit Arguments.

Section Dict.
Variable pl : platform.
Hypothesis WP : wf_platform pl.
Variable d : dictionary.
Hypothesis R : Reachable pl d.
Notation k := (checker_of pl d false false).
Notation U := (pl_unicode pl).
Notation opts := (ad_options (d_aff d)).

Let OK : dict_ok pl d := reachable_ok WP R.
Let wfc : wf_compound k. Proof. apply dict_wf_compound; [exact WP|exact OK]. Qed.
Let iff_known : forall s f, In f (ck_get k s) <-> listed d s f.
Proof. intros. rewrite (entries_get WP). apply entries_In. Qed.
Let iff_known' : forall s f, listed d s f <-> In f (ck_get k s).
Proof. intros. symmetry. apply iff_known. Qed.

(** No COMPOUNDWORDMAX; a part can be read in one way only.  With CHECKCOMPOUNDREP or a
    pattern that asks for a flag of the part after the boundary, the compounds of a rest also
    begin with the same part.  Everything else is allowed. *)
Record BoundaryChecked : Prop := {
  bc_shrinks : Shrinks (d_aff d);
  bc_strict : strict k = true;
  bc_max : o_max_words opts = None;
  bc_stems : forall f, ~ listed d [] f;
  bc_first : (o_check_rep opts = false /\ forall p, In p (ad_patterns (d_aff d)) -> cp_second_flag p = None) \/
    (forall fu l r w2 e2 ps w2' e2' ps', Compound U (d_aff d) (listed d) fu AT_MIDDLE l r ((w2, e2) :: ps) ->
       Compound U (d_aff d) (listed d) fu AT_MIDDLE l r ((w2', e2') :: ps') -> e2 = e2');
  bc_unique : forall m w e1 e2, Part (d_aff d) (listed d) m w e1 -> Part (d_aff d) (listed d) m w e2 -> e1 = e2 }.

(** ** C60 *)
Theorem C60_compounds_iff : BoundaryChecked -> forall fuel w fu, scalars w -> length w <= fuel ->
  ((exists e, check_compound_flags k fuel AT_BEGIN w fu = Ret (Some e)) <->
   exists parts, Compound U (d_aff d) (listed d) fu AT_BEGIN [] w parts).
Proof.
  intros [SH ST NM NE FI UN] fuel w fu Hw HF.
  rewrite (@exact_iff k wfc SH ST NM); try assumption.
  2:{ intros f X. apply (NE f). apply iff_known, X. }
  2:{ destruct FI as [FI|FI]; [left; exact FI|right]. intros fu' l r w2 e2 ps w2' e2' ps' H1 H2.
      eapply FI; (eapply Compound_same; [exact iff_known|eassumption]). }
  2:{ intros m x e1 e2 H1 H2. eapply UN; (eapply Part_same; [exact iff_known|eassumption]). }
  split; intros [ps H]; exists ps; (eapply Compound_same; [|exact H]); [exact iff_known|exact iff_known'].
Qed.

(** At the interface: a word that is not (a form of) an entry itself is accepted exactly
    when it is such a compound. *)
Theorem C60_accepted_iff : BoundaryChecked -> allows_compounding opts = true -> rt_rules (ad_rules (d_aff d)) = [] ->
  o_forbid_warn opts = false ->
  forall w, scalars w -> ordinary k w -> Unbreakable k w -> classify_casing U w <> CInit -> classify_casing U w <> CAll ->
  (forall f, ~ SimpleWord (d_aff d) (listed d) AcceptHiddenHomonym w f) ->
  (accepted pl d w <-> exists parts, Compound U (d_aff d) (listed d) ForbidBadForceucase AT_BEGIN [] w parts).
Proof.
  intros BC AC NRL NW w Hw HO HU C1 C2 NS.
  pose proof (bc_shrinks BC) as SH. pose proof (bc_strict BC) as ST.
  pose proof (@dict_wf_full pl WP d OK false false SH) as WF.
  assert (PC : ck_lower_as_title k = false /\ ck_lower_as_upper k = false) by (split; reflexivity).
  assert (FC : forall f, Own k w (Some f) ->
    exists w1 e ps, cr_flags e = f /\ ~ Forbidden (d_aff d) e /\
      Compound U (d_aff d) (listed d) ForbidBadForceucase AT_BEGIN [] w ((w1, e) :: ps)).
  { intros f Hf. destruct (own_reading WP R SH ST Hw Hf) as (v & fu & hh & ok & HR & HFd & _).
    inversion HR; subst; try congruence. destruct HFd as [X|[(_ & w1 & e & p2 & ps & E & HC)|(X & _)]].
    - exfalso. exact (NS f X).
    - exists w1, e, (p2 :: ps). split; [exact E|]. split; [|exact HC]. inversion HC; assumption.
    - congruence. }
  split.
  - intro Y. apply (C18_break_iff WP R SH ST Hw HO) in Y. destruct (unbreakable_own HU Y) as [f [Hf _]].
    destruct (FC f Hf) as (w1 & e & ps & _ & _ & HC). eauto.
  - intro HC. destruct (own_total WF PC ST Hw) as [[f|] Hr].
    + apply (C18_whole_words_accepted WP R SH ST Hw HO). exists f. split; [exact Hr|].
      destruct (FC f Hr) as (w1 & e & ps & <- & HF & _). intros [X|[X _]]; [exact (HF X)|congruence].
    + exfalso. apply (own_plan WF PC ST None Hw) in Hr.
      assert (EP : plan k w = [mkAttempt w ForbidBadForceucase AcceptHiddenHomonym anything]).
      { unfold plan. change (ck_u k) with U. destruct (classify_casing U w); try congruence; reflexivity. }
      rewrite EP in Hr. apply Forall_cons_iff in Hr. destruct Hr as [[n En] _].
      specialize (En (n + length w) ltac:(lia)). unfold try_one in En. cbn [at_word at_fu at_hh at_filter] in En.
      destruct (proj2 (@C60_compounds_iff BC (n + length w) w ForbidBadForceucase Hw ltac:(lia)) HC) as [e He].
      unfold check_word in En. destruct (check_simple_word k w AcceptHiddenHomonym) as [f|]; [discriminate|].
      unfold check_compound in En. cbn [ck_aff checker_of] in En. rewrite AC, He in En. discriminate.
Qed.

(** When a part can be read in one way only: no affixes, and no stem is listed twice. *)
Theorem one_reading : rules (d_aff d) Pfx = [] -> rules (d_aff d) Sfx = [] -> ad_vowels (d_aff d) = [] ->
  (forall stem f1 f2, listed d stem f1 -> listed d stem f2 -> f1 = f2) ->
  forall m w e1 e2, Part (d_aff d) (listed d) m w e1 -> Part (d_aff d) (listed d) m w e2 -> e1 = e2.
Proof.
  intros NP NSx NV UL m w.
  assert (X : forall e, Part (d_aff d) (listed d) m w e -> exists f, listed d w f /\ e = mkCR w f 0 0 false).
  { intros e [[H|[(kd & a & H & _)|(p & s & H & _)]] HV].
    - destruct H as (H1 & H2 & _ & _ & _ & H3). destruct (HV NV) as [H4 H5]. exists (cr_flags e). split; [exact H1|].
      destruct e as [a b c y z]. cbn in *. subst. reflexivity.
    - exfalso. unfold OneAffix in H. destruct H as [H _]. destruct kd; [rewrite NP in H|rewrite NSx in H]; destruct H.
    - exfalso. unfold PrefixSuffix in H. destruct H as [H _]. rewrite NP in H. destruct H. }
  intros e1 e2 H1 H2. destruct (X e1 H1) as (f1 & L1 & ->). destruct (X e2 H2) as (f2 & L2 & ->).
  rewrite (UL w f1 f2 L1 L2). reflexivity.
Qed.
End Dict.

(** ** Example *)
Definition bnd_aff : str := lit "COMPOUNDMIN 2
COMPOUNDFLAG C
CHECKCOMPOUNDDUP
CHECKCOMPOUNDTRIPLE
CHECKCOMPOUNDCASE
SIMPLIFIEDTRIPLE
FORCEUCASE U
FORBIDDENWORD X
CHECKCOMPOUNDPATTERN 2
CHECKCOMPOUNDPATTERN r b
CHECKCOMPOUNDPATTERN o b u
".
Definition bnd_dic : str := lit "8
foo/C
bar/C
schiff/C
fahrt/C
lampe/CU
bad/CX
bass/C
Kiel/C
".
Definition bnd : dictionary := Eval vm_compute in (the (built ex_pl bnd_aff bnd_dic) <: dictionary).
Lemma bnd_reachable : Reachable ex_pl bnd. Proof. ex_dict bnd_aff bnd_dic. Qed.

Lemma bnd_checked : BoundaryChecked ex_pl bnd.
Proof.
  constructor; try reflexivity.
  - constructor; [intros _; vm_compute; lia|]. intros p r Hp Hr. vm_compute in Hp.
    destruct Hp as [<-|[<-|[]]]; cbn in Hr; [discriminate|]. injection Hr as <-. vm_compute. lia.
  - intros f Hf. vm_compute in Hf. repeat (destruct Hf as [Hf|Hf]; [discriminate Hf|]). destruct Hf.
  - left. split; [reflexivity|]. intros p Hp. vm_compute in Hp. destruct Hp as [<-|[<-|[]]]; reflexivity.
  - apply one_reading; try reflexivity. intros stem f1 f2 H1 H2. vm_compute in H1, H2.
    repeat (destruct H1 as [H1|H1]; [injection H1 as <- <-;
      repeat (destruct H2 as [H2|H2]; [try discriminate H2; injection H2 as <-; reflexivity|]); destruct H2|]). destruct H1.
Qed.

Lemma bnd_simple : forall hh w f, SimpleWord (d_aff bnd) (listed bnd) hh w f -> listed bnd w f.
Proof.
  intros hh w f H. destruct H as [H|[(kd & a & st & H)|[(p & s & st & H)|[[_ H]|[E _]]]]].
  - apply H.
  - exfalso. destruct H as [H _]. destruct kd; destruct H.
  - exfalso. destruct H as [H _]. destruct H.
  - exfalso. destruct H as [(o & i & st & H)|[(x & o & i & st & H)|(x & o & i & st & H)]]; destruct H as [H _]; destruct H.
  - discriminate E.
Qed.
Lemma bnd_iff : forall w, scalars w -> ordinaryb (checker_of ex_pl bnd false false) w = true -> unbreakableb (checker_of ex_pl bnd false false) w = true ->
  classify_casing ascii_unicode w <> CInit -> classify_casing ascii_unicode w <> CAll ->
  (forall f, ~ listed bnd w f) ->
  (accepted ex_pl bnd w <-> exists parts, Compound ascii_unicode (d_aff bnd) (listed bnd) ForbidBadForceucase AT_BEGIN [] w parts).
Proof.
  intros w Hw HO HU C1 C2 NL. apply (C60_accepted_iff ex_pl_wf bnd_reachable bnd_checked); try assumption; try reflexivity.
  - apply ordinary_dec, HO.
  - apply unbreakable_dec, HU.
  - intros f H. exact (NL f (bnd_simple H)).
Qed.

Ltac bnd_part w f := split; [|auto]; left; cbn [cr_flags cr_stem cr_modified];
  repeat match goal with |- _ /\ _ => split end;
  [vm_compute; tauto|reflexivity|intros [? [? _]]; discriminate
  |left; exists 67%N; split; [reflexivity|left; reflexivity]|vm_compute; intuition discriminate|reflexivity].

(** [bass] + [schiff] is written with two s. *)
Example C60_example :
  accepted ex_pl bnd (lit "foofahrt") /\ rejected ex_pl bnd (lit "foofoo") /\ rejected ex_pl bnd (lit "barbass") /\
  accepted ex_pl bnd (lit "fouass") /\ rejected ex_pl bnd (lit "foolampe") /\ accepted ex_pl bnd (lit "Foolampe") /\
  rejected ex_pl bnd (lit "fooKiel") /\ rejected ex_pl bnd (lit "badfoo") /\
  accepted ex_pl bnd (lit "basschiff") /\
  Compound ascii_unicode (d_aff bnd) (listed bnd) ForbidBadForceucase AT_BEGIN [] (lit "basschiff")
    [(lit "bass", mkCR (lit "bass") [67%N] 0 0 false); (lit "schiff", mkCR (lit "schiff") [67%N] 0 0 false)] /\
  ~ (exists parts, Compound ascii_unicode (d_aff bnd) (listed bnd) ForbidBadForceucase AT_BEGIN [] (lit "foofoo") parts).
Proof.
  split; [settle 60|]. split; [settle 60|]. split; [settle 60|]. split; [settle 60|]. split; [settle 60|]. split; [settle 60|].
  split; [settle 60|]. split; [settle 60|]. split; [settle 60|].
  split.
  - eapply Compound_last.
    + bnd_part (lit "bass") [67%N].
    + vm_compute. intuition discriminate.
    + apply (@Join_triple _ _ _ [] (lit "basschiff") AT_BEGIN (lit "bass") _ (lit "chiff") 115%N (lit "ba")); try reflexivity.
      * vm_compute. lia.
      * vm_compute. lia.
      * split; [intros _|intros _].
        -- intros (c & [(l' & r' & E1 & E2)|(l' & r' & E1 & E2)]).
           ++ injection E2 as <- E2. discriminate.
           ++ injection E2 as <- E2. apply (f_equal (@rev N)) in E1. cbn in E1. rewrite rev_app_distr in E1. discriminate.
        -- intros (a & b & l' & r' & E1 & E2 & [[X _]|[X _]]).
           ++ injection E2 as <- _. discriminate X.
           ++ apply (f_equal (@rev N)) in E1. cbn in E1. rewrite rev_app_distr in E1. injection E1 as <- _. discriminate X.
    + bnd_part (lit "schiff") [67%N].
    + vm_compute. intuition discriminate.
    + intros (p & Hp & [l' E1] & [r' E2] & _). vm_compute in Hp. destruct Hp as [<-|[<-|[]]].
      * injection E2 as E2. discriminate.
      * injection E2 as E2. discriminate.
    + intros _ X. discriminate.
    + discriminate.
    + intros _ [f [E X]]. injection E as <-. vm_compute in X. intuition discriminate.
  - intro H. apply bnd_iff in H; try reflexivity; try discriminate.
    + assert (X : rejected ex_pl bnd (lit "foofoo")) by (settle 60). pose proof (eventually_det H X) as Y. discriminate Y.
    + apply lit_scalars. reflexivity.
    + intros f Hf. vm_compute in Hf. repeat (destruct Hf as [Hf|Hf]; [discriminate Hf|]). destruct Hf.
Qed.

Print Assumptions C60_compounds_iff.
Print Assumptions C60_accepted_iff.

(** ** Without one of the conditions *)
(** The search takes the first way to cut the rest, so a pattern that forbids it hides the
    others: [xxo]+[barfo]+[oz] breaks no rule, but [bar]+[fooz] is found first and the
    pattern forbids [xxo]+[bar]. *)
Definition hid_aff : str := lit "COMPOUNDMIN 2
COMPOUNDFLAG C
CHECKCOMPOUNDPATTERN 1
CHECKCOMPOUNDPATTERN o b/F
".
Definition hid_dic : str := lit "5
xxo/C
bar/CF
fooz/C
barfo/C
oz/C
".
Definition hid : dictionary := Eval vm_compute in (the (built ex_pl hid_aff hid_dic) <: dictionary).
Lemma hid_reachable : Reachable ex_pl hid. Proof. ex_dict hid_aff hid_dic. Qed.

Theorem C60_every_compound_refuted : exists d w parts, Reachable ex_pl d /\ scalars w /\
  Compound ascii_unicode (d_aff d) (listed d) ForbidBadForceucase AT_BEGIN [] w parts /\ rejected ex_pl d w.
Proof.
  exists hid, (lit "xxobarfooz"),
    [(lit "xxo", mkCR (lit "xxo") [67%N] 0 0 false); (lit "barfo", mkCR (lit "barfo") [67%N] 0 0 false); (lit "oz", mkCR (lit "oz") [67%N] 0 0 false)].
  split; [exact hid_reachable|]. split; [apply lit_scalars; reflexivity|]. split; [|settle 60].
  eapply Compound_more.
  - bnd_part (lit "xxo") [67%N].
  - vm_compute. intuition discriminate.
  - apply (@Join_plain _ _ _ [] (lit "xxobarfooz") AT_BEGIN (lit "xxo") _ (lit "barfooz")); [reflexivity|vm_compute; lia|vm_compute; lia|].
    split; discriminate.
  - eapply Compound_last.
    + bnd_part (lit "barfo") [67%N].
    + vm_compute. intuition discriminate.
    + apply (@Join_plain _ _ _ ([] ++ lit "xxo") (lit "barfooz") AT_MIDDLE (lit "barfo") _ (lit "oz")); [reflexivity|vm_compute; lia|vm_compute; lia|].
      split; discriminate.
    + bnd_part (lit "oz") [67%N].
    + vm_compute. intuition discriminate.
    + intros (p & Hp & _ & [r' E2] & _). vm_compute in Hp. destruct Hp as [<-|[]]. discriminate.
    + discriminate.
    + discriminate.
    + intros _ [f [E _]]. discriminate.
  - intros (p & Hp & _ & _ & _ & X & _). vm_compute in Hp. destruct Hp as [<-|[]]. specialize (X 70%N eq_refl). vm_compute in X.
    intuition discriminate.
  - discriminate.
Qed.

Print Assumptions C60_every_compound_refuted.
