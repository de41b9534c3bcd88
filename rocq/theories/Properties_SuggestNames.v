(** Property C71: what the answers of [suggest] do not depend on. *)
From Coq Require Import String Ascii List NArith ZArith Lia Bool Arith Permutation.
From Verif Require Import Base Utf8 Unicode Flags Bag Condition Affix Conversion Aff Checker AffixSpec CompoundRule Rep CompoundSpec
  CompoundTotal RuleCompound Spell CheckSpec CheckMono CheckProps Parser ParserSafe Lib LibSpec LibProps ParserProps Examples FlagNames NamesProps
  BufferOps Ngram Suggester SuggestSpec SuggestLow SuggestMono SuggestProps LibSuggest SuggestNames Properties_Suggest
  Properties_Affix Properties_Compound Properties_Check Properties_Dict Properties_Syllable Properties_Names.
Import ListNotations.
Local Open Scope string_scope.
Local Open Scope list_scope.
Local Open Scope nat_scope.
Set Implicit Arguments.

(** ** The standard library does not know about flags *)
(** Word lists with the same stems in the same order and related flags. *)
Definition SameWords (SF : flagset -> flagset -> Prop) (l m : list (str * flagset)) : Prop :=
  Forall2 (fun e e' => fst e' = fst e /\ SF (snd e) (snd e')) l m.
(** Heaps are ordered by scores, and the table of words by the hashes of the stems: neither looks at flags. *)
Record uniform_runtime (rn : runtime) : Prop := {
  ur_heaps : uniform_heaps (rn_heaps rn);
  ur_iter : forall SF l m, SameWords SF l m -> SameWords SF (rn_iter rn l) (rn_iter rn m) }.

Lemma insert_uniform : forall A B (R : A -> B -> Prop) l m x y, Forall2 (scored R) l m -> scored R x y ->
  Forall2 (scored R) (insert_by (@score_leb A) x l) (insert_by (@score_leb B) y m).
Proof.
  intros A B R l m x y H Hx. induction H as [|a b l m Ha H IH]; cbn [insert_by]; [constructor; [exact Hx|constructor]|].
  replace (score_leb y b) with (score_leb x a) by (unfold score_leb; rewrite (proj1 Ha), (proj1 Hx); reflexivity).
  destruct (score_leb x a); constructor; try assumption. constructor; assumption.
Qed.
Lemma sorted_heaps_uniform : uniform_heaps sorted_heaps.
Proof.
  constructor; cbn.
  - intros A B R l m x y. apply insert_uniform.
  - intros A B R l m H. destruct H; [constructor|assumption].
Qed.
Lemma ex_rn_uniform : uniform_runtime ex_rn.
Proof. constructor; [exact sorted_heaps_uniform|]. intros SF l m H. exact H. Qed.

(** ** From the data to the simulation *)
(** The data [suggest] looks at and [check] does not. *)
Record SameMore (ren : N -> N) (Used : N -> Prop) (a b : affdata) : Prop := {
  sm_reps : ad_reps b = ad_reps a;
  sm_sims : ad_sims b = ad_sims a;
  sm_keyboard : ad_keyboard b = ad_keyboard a;
  sm_try : ad_try b = ad_try a;
  sm_oconv : ad_oconv b = ad_oconv a;
  sm_no_suggest : SameFlag ren Used (o_no_suggest (ad_options a)) (o_no_suggest (ad_options b));
  sm_max_ngram : o_max_ngram (ad_options b) = o_max_ngram (ad_options a);
  sm_max_diff : o_max_diff (ad_options b) = o_max_diff (ad_options a);
  sm_only_max_diff : o_only_max_diff (ad_options b) = o_only_max_diff (ad_options a);
  sm_no_split : o_no_split_sugs (ad_options b) = o_no_split_sugs (ad_options a) }.

Section Bridge.
Variable pl : platform.
Hypothesis WP : wf_platform pl.
Variable rn : runtime.
Hypothesis WN : wf_runtime rn.
Hypothesis UR : uniform_runtime rn.
Variables d d' : dictionary.
Hypothesis R : Reachable pl d.
Hypothesis R' : Reachable pl d'.
Variable ren : N -> N.
Variable Used : N -> Prop.
Variable SF : flagset -> flagset -> Prop.
Hypothesis SF_same : forall f g, SF f g -> SameFlags ren Used f g.
Hypothesis SA : SameAff ren Used SF (d_aff d) (d_aff d').
Hypothesis SM : SameMore ren Used (d_aff d) (d_aff d').
Hypothesis SW : SameWords SF (d_words d) (d_words d').
Hypothesis CP : (exists x, In x (i_table (ad_prefixes (d_aff d))) /\ a_flags x <> []) <-> (exists x, In x (i_table (ad_prefixes (d_aff d'))) /\ a_flags x <> []).
Hypothesis CS : (exists x, In x (i_table (ad_suffixes (d_aff d))) /\ a_flags x <> []) <-> (exists x, In x (i_table (ad_suffixes (d_aff d'))) /\ a_flags x <> []).
Hypothesis HH : ren hidden_homonym_flag = hidden_homonym_flag /\ Used hidden_homonym_flag.
Hypothesis SYL : ad_vowels (d_aff d) <> [] -> (ren 73 = 73 /\ Used 73)%N /\ (ren 74 = 74 /\ Used 74)%N /\
  forall x y, Used x -> y = 73%N \/ y = 74%N \/ y = 99%N -> (ren x = y <-> x = y).

Theorem same_suggest : forall lt lu ng fuel w out,
  suggest (suggester_of pl rn d' lt lu ng) fuel w out = suggest (suggester_of pl rn d lt lu ng) fuel w out.
Proof.
  intros lt lu ng fuel w out. set (RF := fun f g => SameFlags ren Used f g /\ wf_flagset f /\ wf_flagset g).
  assert (HAS : forall f g x, RF f g -> Used x -> contains g (ren x) = contains f x).
  { intros f g x (H & Wf & Wg) U. apply contains_same; auto. }
  assert (AG : Agree (checker_of pl d lt lu) (checker_of pl d' lt lu) ren Used RF).
  { apply (@br_agree pl WP d d' R R' ren Used SF); try assumption. apply entries_related. exact SW. }
  pose proof (reachable_ok WP R) as OK. pose proof (reachable_ok WP R') as OK'.
  destruct (do_aff OK) as (x & LP & CO). destruct (aff_facts WP LP CO) as (_ & _ & P3 & P4 & _).
  destruct (do_aff OK') as (x' & LP' & CO'). destruct (aff_facts WP LP' CO') as (_ & _ & Q3 & Q4 & _).
  assert (TA : forall l m, Forall affix_ok l -> Forall affix_ok m -> Forall2 (SameAffix ren Used SF) l m -> Forall2 (RA ren Used RF) l m).
  { intros l m H1 H2 H. pose proof (forall2_both H H1 H2) as H3. revert H3. apply forall2_weak.
    intros a b (S & (_ & (X1 & _) & _) & (_ & (Y1 & _) & _)). destruct S. unfold RA. repeat (split; [assumption|]). split; [|auto].
    split; [apply SF_same; assumption|]. split; assumption. }
  rewrite (@agree_suggest (suggester_of pl rn d lt lu ng) (suggester_of pl rn d' lt lu ng) ren Used RF HAS AG); [reflexivity| |exact (ur_heaps UR)].
  destruct SM. constructor; try reflexivity; try assumption.
  - pose proof (ur_iter UR SW) as W. pose proof (@words_wf pl WP rn WN d R lt lu ng) as F1. pose proof (@words_wf pl WP rn WN d' R' lt lu ng) as F2.
    pose proof (forall2_both W F1 F2) as H. revert H. apply forall2_weak. intros e e' ((E & S) & W1 & W2). split; [exact E|]. split; [apply SF_same; exact S|split; assumption].
  - apply TA; [exact P3|exact Q3|]. exact (sf_prefixes SA).
  - apply TA; [exact P4|exact Q4|]. exact (sf_suffixes SA).
Qed.
End Bridge.

(** ** C71 *)
(** What is left of the data without FULLSTRIP, COMPOUNDMORESUFFIXES, MAXCPDSUGS, SUBSTANDARD, SUGSWITHDOTS, FLAG and AF, and without
    WARN unless FORBIDWARN is given. *)
Definition read_options (o : options) : options := mkOptions
  (o_complex_prefixes o) false (o_checksharps o) (o_forbid_warn o) (o_only_in_compound o) (o_circumfix o) (o_forbidden o) (o_keep_case o)
  (o_need_affix o) (if o_forbid_warn o then o_warn o else None)
  (o_compound o) (o_compound_begin o) (o_compound_middle o) (o_compound_end o) (o_min_length o) (o_max_words o) (o_permit o) (o_forbid o)
  (o_root o) (o_force_upper o)
  false (o_check_duplicate o) (o_check_rep o) (o_check_case o) (o_check_triple o) (o_simplified_triple o) (o_syllable_num o) (o_syllable_max o)
  0%N (o_no_suggest o) None (o_max_ngram o) (o_max_diff o) (o_only_max_diff o) (o_no_split_sugs o) false (o_case o).
Definition read_data (a : affdata) : affdata := mkAff
  (ad_prefixes a) (ad_suffixes a) (ad_breaks a) (ad_rules a) (ad_vowels a) (ad_patterns a) (ad_iconv a) (ad_oconv a)
  (ad_reps a) (ad_sims a) (ad_ignore a) (ad_keyboard a) (ad_try a) (read_options (ad_options a)) FShort [].
Lemma read_checked : forall a, checked_data (read_data a) = checked_data a.
Proof. intros []. unfold checked_data, read_data, checked_options, read_options. cbn. destruct (o_forbid_warn ad_options); reflexivity. Qed.

Theorem C71_suggest_ignores_unread_directives : forall pl rn d d', wf_platform pl -> wf_runtime rn -> Reachable pl d -> Reachable pl d' ->
  uniform_runtime rn -> d_words d' = d_words d -> read_data (d_aff d') = read_data (d_aff d) ->
  forall lt lu ng fuel w out, suggest (suggester_of pl rn d' lt lu ng) fuel w out = suggest (suggester_of pl rn d lt lu ng) fuel w out.
Proof.
  intros pl rn d d' WP WN R R' UR EW E. pose proof (f_equal ad_prefixes E) as E1. pose proof (f_equal ad_suffixes E) as E2. cbn in E1, E2.
  apply (@same_suggest pl WP rn WN UR d d' R R' (fun x => x) (fun _ => True) eq).
  - intros f g -> x _. tauto.
  - apply checked_same. rewrite <- read_checked, E. apply read_checked.
  - pose proof (f_equal ad_options E) as EO. cbn [ad_options read_data] in EO.
    constructor; [exact (f_equal ad_reps E)|exact (f_equal ad_sims E)|exact (f_equal ad_keyboard E)|exact (f_equal ad_try E)|exact (f_equal ad_oconv E)| |
      exact (f_equal o_max_ngram EO)|exact (f_equal o_max_diff EO)|exact (f_equal o_only_max_diff EO)|exact (f_equal o_no_split_sugs EO)].
    split; [|auto]. pose proof (f_equal o_no_suggest EO) as E3. cbn in E3. rewrite E3. destruct (o_no_suggest (ad_options (d_aff d))); reflexivity.
  - unfold SameWords. rewrite EW. clear. induction (d_words d); constructor; auto.
  - rewrite E1. reflexivity.
  - rewrite E2. reflexivity.
  - split; [reflexivity|exact I].
  - intros _. split; [|split]; [split; [reflexivity|exact I]..|]. tauto.
Qed.

(** [d'] is [d] with every flag renamed, in the directives and in the word list. *)
Definition RenamedAll (ren : N -> N) (d d' : dictionary) : Prop :=
  SameAff ren (fun _ => True) (Renames ren) (d_aff d) (d_aff d') /\ SameMore ren (fun _ => True) (d_aff d) (d_aff d') /\
  SameWords (Renames ren) (d_words d) (d_words d').
Theorem C71_flags_are_names : forall pl rn d d' ren, wf_platform pl -> wf_runtime rn -> Reachable pl d -> Reachable pl d' -> uniform_runtime rn ->
  (forall x y, ren x = ren y -> x = y) -> ren hidden_homonym_flag = hidden_homonym_flag ->
  (ad_vowels (d_aff d) <> [] -> ren 73 = 73 /\ ren 74 = 74 /\ ren 99 = 99)%N ->
  RenamedAll ren d d' ->
  forall lt lu ng fuel w out, suggest (suggester_of pl rn d' lt lu ng) fuel w out = suggest (suggester_of pl rn d lt lu ng) fuel w out.
Proof.
  intros pl rn d d' ren WP WN R R' UR INJ HH SYL (SA & SM & SW).
  apply (@same_suggest pl WP rn WN UR d d' R R' ren (fun _ => True) (Renames ren)); try assumption.
  - intros f g. apply renames_same. exact INJ.
  - exact (renames_continue (sf_prefixes SA)).
  - exact (renames_continue (sf_suffixes SA)).
  - split; [exact HH|exact I].
  - exact (@renames_syllables ren (d_aff d) INJ SYL).
Qed.

(** The flags a directive gives a meaning, NOSUGGEST included. *)
Definition Noted (a : affdata) (x : N) : Prop := Mentioned a x \/ o_no_suggest (ad_options a) = Some x.
Theorem C71_unmentioned_flags_do_not_matter : forall pl rn d d', wf_platform pl -> wf_runtime rn -> Reachable pl d -> Reachable pl d' -> uniform_runtime rn ->
  d_aff d' = d_aff d ->
  SameWords (fun f g => forall x, Noted (d_aff d) x -> (In x g <-> In x f)) (d_words d) (d_words d') ->
  forall lt lu ng fuel w out, suggest (suggester_of pl rn d' lt lu ng) fuel w out = suggest (suggester_of pl rn d lt lu ng) fuel w out.
Proof.
  intros pl rn d d' WP WN R R' UR EA SW.
  apply (@same_suggest pl WP rn WN UR d d' R R' (fun x => x) (Noted (d_aff d)) (fun f g => forall x, Noted (d_aff d) x -> (In x g <-> In x f))).
  - intros f g H. exact H.
  - rewrite EA. apply mentioned_same; [intros x H; left; exact H|]. intros f x _. reflexivity.
  - rewrite EA. constructor; try reflexivity. split; [destruct (o_no_suggest _); reflexivity|]. intros x E. right. exact E.
  - exact SW.
  - rewrite EA. reflexivity.
  - rewrite EA. reflexivity.
  - split; [reflexivity|left; apply M_hidden].
  - intros V. split; [|split]; [split; [reflexivity|left; apply M_syllable; tauto]..|]. tauto.
Qed.

(** ** Cases *)
(** The same dictionary with flags written as letters, as numbers with directives nothing reads, and with a flag nothing mentions. *)
Definition sl_aff : str := lit "NOSUGGEST N
FORBIDDENWORD X
TRY osd
REP 1
REP f ph
SFX S Y 1
SFX S 0 s .
".
Definition sl_dic : str := lit "4
dog/S
dug/N
dig/X
phone/S
".
Definition sn_aff : str := lit "FLAG num
NOSUGGEST 2
FORBIDDENWORD 88
TRY osd
REP 1
REP f ph
SFX 4 Y 1
SFX 4 0 s .
".
Definition sn_dic : str := lit "4
dog/4
dug/2
dig/88
phone/4
".
Definition su_aff : str := lit "NOSUGGEST N
FORBIDDENWORD X
MAXCPDSUGS 0
SUGSWITHDOTS
SUBSTANDARD S
WARN S
FULLSTRIP
TRY osd
REP 1
REP f ph
SFX S Y 1
SFX S 0 s .
".
Definition sq_dic : str := lit "4
dog/SQ
dug/N
dig/XQ
phone/SZ
".
Definition sl : dictionary := Eval vm_compute in (the (built ex_pl sl_aff sl_dic) <: dictionary).
Definition sn : dictionary := Eval vm_compute in (the (built ex_pl sn_aff sn_dic) <: dictionary).
Definition su : dictionary := Eval vm_compute in (the (built ex_pl su_aff sl_dic) <: dictionary).
Definition sq : dictionary := Eval vm_compute in (the (built ex_pl sl_aff sq_dic) <: dictionary).
Lemma sl_reachable : Reachable ex_pl sl. Proof. ex_dict sl_aff sl_dic. Qed.
Lemma sn_reachable : Reachable ex_pl sn. Proof. ex_dict sn_aff sn_dic. Qed.
Lemma su_reachable : Reachable ex_pl su. Proof. ex_dict su_aff sl_dic. Qed.
Lemma sq_reachable : Reachable ex_pl sq. Proof. ex_dict sl_aff sq_dic. Qed.
Definition digits (x : N) : N := swap 78 2 (swap 83 4 x).
Lemma digits_inj : forall x y, digits x = digits y -> x = y.
Proof. intros x y H. repeat apply swap_inj in H. exact H. Qed.
Lemma sl_renamed : RenamedAll digits sl sn.
Proof.
  split; [|split].
  - constructor; try reflexivity.
    + same_affixes.
    + same_affixes.
    + constructor.
    + constructor.
    + constructor; try reflexivity; try (intros; same_flag); same_flag.
  - constructor; try reflexivity. same_flag.
  - repeat (constructor; [split; [reflexivity|renames]|]); constructor.
Qed.
Lemma sq_noted : forall x, Noted (d_aff sl) x -> In x [78; 88; 83; 65535]%N.
Proof.
  intros x [H|H]; [|injection H as <-; cbn; tauto]. destruct H as [p Hp|s Hs| |x Hx|x Hw Hx|r e Hr|p x Hp| |x V].
  - destruct Hp.
  - destruct Hs as [<-|[]]. cbn. tauto.
  - cbn. tauto.
  - cbn in Hx. repeat (destruct Hx as [Hx|Hx]; [discriminate Hx|]). destruct Hx.
  - discriminate Hw.
  - destruct Hr.
  - destruct Hp.
  - cbn. tauto.
  - exfalso. apply V. reflexivity.
Qed.
Example C71_example : wf_runtime ex_rn /\ uniform_runtime ex_rn /\ Reachable ex_pl sl /\ Reachable ex_pl sn /\ Reachable ex_pl su /\ Reachable ex_pl sq /\
  digits hidden_homonym_flag = hidden_homonym_flag /\ ad_vowels (d_aff sl) = [] /\ (forall x y, digits x = digits y -> x = y) /\ RenamedAll digits sl sn /\
  d_words su = d_words sl /\ read_data (d_aff su) = read_data (d_aff sl) /\ d_aff su <> d_aff sl /\
  d_aff sq = d_aff sl /\ d_words sq <> d_words sl /\
  SameWords (fun f g => forall x, Noted (d_aff sl) x -> (In x g <-> In x f)) (d_words sl) (d_words sq) /\
  suggests ex_pl ex_rn sl false false true (lit "dxg") [lit "dog"] /\ suggests ex_pl ex_rn sn false false true (lit "fones") [lit "phones"].
Proof.
  split; [exact ex_rn_wf|]. split; [exact ex_rn_uniform|]. split; [exact sl_reachable|]. split; [exact sn_reachable|]. split; [exact su_reachable|].
  split; [exact sq_reachable|]. split; [reflexivity|]. split; [reflexivity|]. split; [exact digits_inj|]. split; [exact sl_renamed|].
  split; [reflexivity|]. split; [reflexivity|]. split; [discriminate|]. split; [reflexivity|]. split; [discriminate|]. split.
  { repeat (constructor; [split; [reflexivity|]; intros x H; apply sq_noted in H; cbn in H; cbn; intuition (subst; discriminate || auto)|]). constructor. }
  split; [propose 20|propose 20].
Qed.

Print Assumptions C71_suggest_ignores_unread_directives.
Print Assumptions C71_flags_are_names.
Print Assumptions C71_unmentioned_flags_do_not_matter.
