(** Properties C67 to C69: what the answers of [check] do not depend on. *)
From Coq Require Import String Ascii List NArith ZArith Lia Bool Arith Permutation.
From Verif Require Import Base Utf8 Unicode Flags Bag Condition Affix Conversion Aff Checker AffixSpec CompoundRule Rep CompoundSpec
  CompoundTotal RuleCompound Spell CheckSpec CheckMono CheckProps Parser ParserSafe Lib LibSpec LibProps ParserProps Examples FlagNames NamesProps
  Properties_Affix Properties_Compound Properties_Check Properties_Dict Properties_Syllable.
Import ListNotations.
Local Open Scope string_scope.
Local Open Scope list_scope.
Local Open Scope nat_scope.
Set Implicit Arguments.

(** ** C67: the directives about suggestions do not change [check] *)
(** What is left of the options without FULLSTRIP, COMPOUNDMORESUFFIXES, MAXCPDSUGS, NOSUGGEST, SUBSTANDARD, MAXNGRAMSUGS, MAXDIFF,
    ONLYMAXDIFF, NOSPLITSUGS, SUGSWITHDOTS, and without WARN unless FORBIDWARN is given. *)
Definition checked_options (o : options) : options := mkOptions
  (o_complex_prefixes o) false (o_checksharps o) (o_forbid_warn o) (o_only_in_compound o) (o_circumfix o) (o_forbidden o) (o_keep_case o)
  (o_need_affix o) (if o_forbid_warn o then o_warn o else None)
  (o_compound o) (o_compound_begin o) (o_compound_middle o) (o_compound_end o) (o_min_length o) (o_max_words o) (o_permit o) (o_forbid o)
  (o_root o) (o_force_upper o)
  false (o_check_duplicate o) (o_check_rep o) (o_check_case o) (o_check_triple o) (o_simplified_triple o) (o_syllable_num o) (o_syllable_max o)
  0%N None None 0%N 0%N false false false (o_case o).
(** What is left of the data without OCONV, MAP, KEY, TRY, FLAG, AF, and without REP unless CHECKCOMPOUNDREP is given. (The second
    conversion table is a copy of the first one here.) *)
Definition checked_data (a : affdata) : affdata := mkAff
  (ad_prefixes a) (ad_suffixes a) (ad_breaks a) (ad_rules a) (ad_vowels a) (ad_patterns a) (ad_iconv a) (ad_iconv a)
  (if o_check_rep (ad_options a) then ad_reps a else mkReps [] 0 0 0) [] (ad_ignore a) [] [] (checked_options (ad_options a)) FShort [].

Lemma checked_same : forall a b, checked_data b = checked_data a -> SameAff (fun x => x) (fun _ => True) eq a b.
Proof.
  intros a b E.
  pose proof (f_equal ad_prefixes E) as E1. pose proof (f_equal ad_suffixes E) as E2. pose proof (f_equal ad_breaks E) as E3.
  pose proof (f_equal ad_rules E) as E4. pose proof (f_equal ad_vowels E) as E5. pose proof (f_equal ad_patterns E) as E6.
  pose proof (f_equal ad_iconv E) as E7. pose proof (f_equal ad_reps E) as E8. pose proof (f_equal ad_ignore E) as E9.
  pose proof (f_equal ad_options E) as EO. cbn in E1, E2, E3, E4, E5, E6, E7, E8, E9. change (checked_options (ad_options b) = checked_options (ad_options a)) in EO. clear E.
  assert (FL : forall (f : options -> option N), f (checked_options (ad_options a)) = f (ad_options a) ->
    f (checked_options (ad_options b)) = f (ad_options b) -> SameFlag (fun x => x) (fun _ => True) (f (ad_options a)) (f (ad_options b))).
  { intros f F1 F2. split; [|auto]. rewrite <- F1, <- F2, EO. destruct (f _); reflexivity. }
  assert (FE : forall T (f : options -> T), f (checked_options (ad_options a)) = f (ad_options a) ->
    f (checked_options (ad_options b)) = f (ad_options b) -> f (ad_options b) = f (ad_options a)).
  { intros T f F1 F2. rewrite <- F1, <- F2, EO. reflexivity. }
  constructor.
  - rewrite E1. induction (i_table (ad_prefixes a)); constructor; [constructor; auto|assumption].
  - rewrite E2. induction (i_table (ad_suffixes a)); constructor; [constructor; auto|assumption].
  - exact E3.
  - rewrite E4. induction (rt_rules (ad_rules a)) as [|r l IH]; constructor; [|exact IH]. induction r; constructor; auto.
  - exact E5.
  - rewrite E6. clear. induction (ad_patterns a) as [|p l IH]; constructor; [|exact IH]. constructor; try reflexivity.
    + split; [destruct (cp_first_flag p); reflexivity|auto].
    + split; [destruct (cp_second_flag p); reflexivity|auto].
  - exact E7.
  - exact E9.
  - intro ER. rewrite ER in E8. rewrite (FE _ o_check_rep eq_refl eq_refl), ER in E8. exact E8.
  - constructor; try (apply FL; reflexivity); try (apply FE; reflexivity).
    + split; [|auto]. cbn. f_equal. exact (FE _ o_forbidden eq_refl eq_refl).
    + intro W. pose proof (FE _ o_forbid_warn eq_refl eq_refl) as W'. rewrite W in W'. apply FL; unfold checked_options; [rewrite W|rewrite W']; reflexivity.
Qed.
Theorem C67_check_ignores_suggestion_directives : forall pl d d', wf_platform pl -> Reachable pl d -> Reachable pl d' ->
  (forall w, entries d' w = entries d w) -> checked_data (d_aff d') = checked_data (d_aff d) ->
  forall lt lu fuel w, check (checker_of pl d' lt lu) fuel w = check (checker_of pl d lt lu) fuel w.
Proof.
  intros pl d d' WP R R' EW E. pose proof (f_equal ad_prefixes E) as E1. pose proof (f_equal ad_suffixes E) as E2. cbn in E1, E2.
  apply (@same_check pl WP d d' R R' (fun x => x) (fun _ => True) eq).
  - intros f g -> x _. tauto.
  - apply checked_same. exact E.
  - intros w. rewrite EW. induction (entries d w); constructor; auto.
  - rewrite E1. reflexivity.
  - rewrite E2. reflexivity.
  - split; [reflexivity|exact I].
  - intros _. split; [|split]; [split; [reflexivity|exact I]..|]. tauto.
Qed.

(** ** C68: flags are names *)
(** [g] is [f] with every flag renamed. *)
Definition Renames (ren : N -> N) (f g : flagset) : Prop := forall y, In y g <-> exists x, In x f /\ y = ren x.
(** [d'] is [d] with every flag renamed, in the directives and in the word list. *)
Definition Renamed (ren : N -> N) (d d' : dictionary) : Prop :=
  SameAff ren (fun _ => True) (Renames ren) (d_aff d) (d_aff d') /\
  forall w, Forall2 (Renames ren) (entries d w) (entries d' w).

Lemma renames_continue : forall ren Used (a b : list affix), Forall2 (SameAffix ren Used (Renames ren)) a b ->
  ((exists x, In x a /\ a_flags x <> []) <-> (exists x, In x b /\ a_flags x <> [])).
Proof.
  intros ren Used a b H. destruct (forall2_in H) as [I1 I2]. split.
  - intros (x & Hx & Fx). destruct (I1 x Hx) as (y & Hy & S). exists y. split; [exact Hy|]. destruct (a_flags x) as [|f l] eqn:EF; [contradiction|].
    pose proof (sa_flags S) as SF. rewrite EF in SF. assert (I : In (ren f) (a_flags y)) by (apply SF; exists f; split; [left|]; reflexivity).
    intro N. rewrite N in I. destruct I.
  - intros (y & Hy & Fy). destruct (I2 y Hy) as (x & Hx & S). exists x. split; [exact Hx|]. destruct (a_flags y) as [|f l] eqn:EF; [contradiction|].
    pose proof (sa_flags S) as SF. rewrite EF in SF. destruct (proj1 (SF f) (or_introl eq_refl)) as (z & Hz & _). intro N. rewrite N in Hz. destruct Hz.
Qed.
Lemma renames_same : forall ren f g, (forall x y, ren x = ren y -> x = y) -> Renames ren f g -> SameFlags ren (fun _ => True) f g.
Proof.
  intros ren f g INJ H x _. rewrite (H (ren x)). split; [intros (z & Hz & E); apply INJ in E; subst z; exact Hz|intro Hx; exists x; split; [exact Hx|reflexivity]].
Qed.
Lemma renames_syllables : forall ren (a : affdata), (forall x y, ren x = ren y -> x = y) -> (ad_vowels a <> [] -> ren 73 = 73 /\ ren 74 = 74 /\ ren 99 = 99)%N ->
  ad_vowels a <> [] -> (ren 73 = 73 /\ True)%N /\ (ren 74 = 74 /\ True)%N /\ forall x y, True -> y = 73%N \/ y = 74%N \/ y = 99%N -> (ren x = y <-> x = y).
Proof.
  intros ren a INJ SYL V. destruct (SYL V) as (S1 & S2 & S3). split; [split; [exact S1|exact I]|]. split; [split; [exact S2|exact I]|].
  intros x y _ Y. split; [|intros ->; destruct Y as [->|[->| ->]]; assumption]. intro E. apply INJ. rewrite E. destruct Y as [->|[->| ->]]; symmetry; assumption.
Qed.
Theorem C68_flags_are_names : forall pl d d' ren, wf_platform pl -> Reachable pl d -> Reachable pl d' ->
  (forall x y, ren x = ren y -> x = y) -> ren hidden_homonym_flag = hidden_homonym_flag ->
  (** COMPOUNDSYLLABLE gives the flags I, J and c a meaning of their own *)
  (ad_vowels (d_aff d) <> [] -> ren 73 = 73 /\ ren 74 = 74 /\ ren 99 = 99)%N ->
  Renamed ren d d' ->
  forall lt lu fuel w, check (checker_of pl d' lt lu) fuel w = check (checker_of pl d lt lu) fuel w.
Proof.
  intros pl d d' ren WP R R' INJ HH SYL [SA SE].
  apply (@same_check pl WP d d' R R' ren (fun _ => True) (Renames ren)); try assumption.
  - intros f g. apply renames_same. exact INJ.
  - exact (renames_continue (sf_prefixes SA)).
  - exact (renames_continue (sf_suffixes SA)).
  - split; [exact HH|exact I].
  - exact (@renames_syllables ren (d_aff d) INJ SYL).
Qed.

(** ** C69: flags no directive mentions do not matter *)
(** The flags that directives [check] looks at give a meaning. *)
Inductive Mentioned (a : affdata) : N -> Prop :=
| M_prefix : forall p, In p (i_table (ad_prefixes a)) -> Mentioned a (a_flag p)
| M_suffix : forall s, In s (i_table (ad_suffixes a)) -> Mentioned a (a_flag s)
| M_forbidden : Mentioned a (o_forbidden (ad_options a))
| M_option : forall x, In (Some x) (map (fun f => f (ad_options a)) [o_only_in_compound; o_circumfix; o_keep_case; o_need_affix; o_compound;
    o_compound_begin; o_compound_middle; o_compound_end; o_permit; o_forbid; o_root; o_force_upper]) -> Mentioned a x
| M_warn : forall x, o_forbid_warn (ad_options a) = true -> o_warn (ad_options a) = Some x -> Mentioned a x
| M_rule : forall r e, In r (rt_rules (ad_rules a)) -> In e r -> Mentioned a (re_flag e)
| M_pattern : forall p x, In p (ad_patterns a) -> cp_first_flag p = Some x \/ cp_second_flag p = Some x -> Mentioned a x
| M_hidden : Mentioned a hidden_homonym_flag
| M_syllable : forall x, ad_vowels a <> [] -> x = 73%N \/ x = 74%N -> Mentioned a x.
(** The two flag sets differ only in flags that are not mentioned. *)
Definition Alike (a : affdata) (f g : flagset) : Prop := forall x, Mentioned a x -> (In x g <-> In x f).
Lemma mentioned_same : forall a (Used : N -> Prop) (SF : flagset -> flagset -> Prop), (forall x, Mentioned a x -> Used x) -> (forall f, SF f f) ->
  SameAff (fun x => x) Used SF a a.
Proof.
  intros a Used SF MU RS.
  assert (FO : forall f, In f [o_only_in_compound; o_circumfix; o_keep_case; o_need_affix; o_compound; o_compound_begin; o_compound_middle; o_compound_end;
      o_permit; o_forbid; o_root; o_force_upper] -> SameFlag (fun x => x) Used (f (ad_options a)) (f (ad_options a))).
  { intros f Hf. split; [destruct (f _); reflexivity|]. intros x E. apply MU, M_option. rewrite <- E. apply (in_map (fun f => f (ad_options a))). exact Hf. }
  constructor; try reflexivity.
  - assert (G : forall l, incl l (i_table (ad_prefixes a)) -> Forall2 (SameAffix (fun x => x) Used SF) l l).
    { induction l as [|x l IH]; intro H; constructor; [|apply IH; intros z Hz; apply H; right; exact Hz].
      constructor; try reflexivity; [apply MU, M_prefix, H; left; reflexivity|apply RS]. }
    apply G, incl_refl.
  - assert (G : forall l, incl l (i_table (ad_suffixes a)) -> Forall2 (SameAffix (fun x => x) Used SF) l l).
    { induction l as [|x l IH]; intro H; constructor; [|apply IH; intros z Hz; apply H; right; exact Hz].
      constructor; try reflexivity; [apply MU, M_suffix, H; left; reflexivity|apply RS]. }
    apply G, incl_refl.
  - assert (G : forall l, incl l (rt_rules (ad_rules a)) -> Forall2 (SameRule (fun x => x) Used) l l).
    { induction l as [|r l IH]; intro H; constructor; [|apply IH; intros z Hz; apply H; right; exact Hz].
      assert (G : forall q, incl q r -> SameRule (fun x => x) Used q q).
      { induction q as [|e q IHq]; intro Hq; constructor; [|apply IHq; intros z Hz; apply Hq; right; exact Hz].
        split; [reflexivity|]. split; [reflexivity|]. apply MU, M_rule with r; [apply H; left; reflexivity|apply Hq; left; reflexivity]. }
      apply G, incl_refl. }
    apply G, incl_refl.
  - assert (G : forall l, incl l (ad_patterns a) -> Forall2 (SamePattern (fun x => x) Used) l l).
    { induction l as [|p l IH]; intro H; constructor; [|apply IH; intros z Hz; apply H; right; exact Hz].
      constructor; try reflexivity; (split; [match goal with |- ?o = option_map _ ?o => destruct o; reflexivity end|]); intros x E;
        apply MU, M_pattern with p; auto; apply H; left; reflexivity. }
    apply G, incl_refl.
  - constructor; try reflexivity; try (apply FO; cbn; tauto).
    + split; [reflexivity|]. intros x E. injection E as <-. apply MU, M_forbidden.
    + intro W. split; [destruct (o_warn _); reflexivity|]. intros x E. apply MU. exact (@M_warn _ _ W E).
Qed.
Theorem C69_unmentioned_flags_do_not_matter : forall pl d d', wf_platform pl -> Reachable pl d -> Reachable pl d' -> d_aff d' = d_aff d ->
  (forall w, Forall2 (Alike (d_aff d)) (entries d w) (entries d' w)) ->
  forall lt lu fuel w, check (checker_of pl d' lt lu) fuel w = check (checker_of pl d lt lu) fuel w.
Proof.
  intros pl d d' WP R R' EA SE. apply (@same_check pl WP d d' R R' (fun x => x) (Mentioned (d_aff d)) (Alike (d_aff d))).
  - intros f g H. exact H.
  - rewrite EA. apply mentioned_same; [auto|]. intros f x _. reflexivity.
  - exact SE.
  - rewrite EA. reflexivity.
  - rewrite EA. reflexivity.
  - split; [reflexivity|apply M_hidden].
  - intros V. split; [|split]; [split; [reflexivity|apply M_syllable; tauto]..|]. tauto.
Qed.

(** ** Cases *)
Definition swap (a b x : N) : N := if (x =? a)%N then b else if (x =? b)%N then a else x.
Lemma swap_inj : forall a b x y, swap a b x = swap a b y -> x = y.
Proof. intros a b x y. unfold swap. repeat match goal with |- context [(?u =? ?v)%N] => destruct (N.eqb_spec u v) end; congruence. Qed.
Lemma renames_map : forall ren f g, (forall y, In y g <-> In y (map ren f)) -> Renames ren f g.
Proof.
  intros ren f g H y. rewrite H. rewrite in_map_iff. split; intros (x & Hx & E); exists x; split; auto.
Qed.
Lemma entries_related : forall (SF : flagset -> flagset -> Prop) d d',
  Forall2 (fun e e' => fst e' = fst e /\ SF (snd e) (snd e')) (d_words d) (d_words d') -> forall w, Forall2 SF (entries d w) (entries d' w).
Proof.
  intros SF d d' H w. unfold entries. induction H as [|e e' l m [E F] _ IH]; [constructor|]. cbn [filter]. rewrite E.
  destruct (str_eqb w (fst e)); cbn [map]; [constructor; assumption|exact IH].
Qed.
Ltac same_flag := split; [reflexivity|auto].
Ltac renames := apply renames_map; let y := fresh in intro y; vm_compute; tauto.
Ltac same_affixes := repeat (constructor; [constructor; [reflexivity|exact I|renames|reflexivity..]|]); constructor.
Ltac same_words := apply entries_related; repeat (constructor; [split; [reflexivity|renames]|]); constructor.

(** *** C67: a dictionary with and without directives about suggestions *)
Definition sd_dic : str := lit "3
foo/CS
bar/C!
foul/!
".
Definition sd : dictionary := Eval vm_compute in (the (built ex_pl (lit "COMPOUNDFLAG C
SFX S Y 1
SFX S 0 s .
") sd_dic) <: dictionary).
Definition sd2 : dictionary := Eval vm_compute in (the (built ex_pl (lit "COMPOUNDFLAG C
TRY abc
KEY qwe|asd
NOSUGGEST !
MAXNGRAMSUGS 0
MAXDIFF 2
ONLYMAXDIFF
REP 1
REP o a
MAP 1
MAP ae
OCONV 1
OCONV o u
WARN W
NOSPLITSUGS
SUGSWITHDOTS
FULLSTRIP
SFX S Y 1
SFX S 0 s .
") sd_dic) <: dictionary).
Lemma sd_reachable : Reachable ex_pl sd.
Proof. ex_dict (lit "COMPOUNDFLAG C
SFX S Y 1
SFX S 0 s .
") sd_dic. Qed.
Lemma sd2_reachable : Reachable ex_pl sd2.
Proof. ex_dict (lit "COMPOUNDFLAG C
TRY abc
KEY qwe|asd
NOSUGGEST !
MAXNGRAMSUGS 0
MAXDIFF 2
ONLYMAXDIFF
REP 1
REP o a
MAP 1
MAP ae
OCONV 1
OCONV o u
WARN W
NOSPLITSUGS
SUGSWITHDOTS
FULLSTRIP
SFX S Y 1
SFX S 0 s .
") sd_dic. Qed.
Example C67_example : Reachable ex_pl sd /\ Reachable ex_pl sd2 /\ (forall w, entries sd2 w = entries sd w) /\
  checked_data (d_aff sd2) = checked_data (d_aff sd) /\ d_aff sd2 <> d_aff sd /\ ad_reps (d_aff sd2) <> ad_reps (d_aff sd) /\
  accepted ex_pl sd2 (lit "barfoo") /\ accepted ex_pl sd (lit "foul") /\ rejected ex_pl sd2 (lit "faul").
Proof.
  split; [exact sd_reachable|]. split; [exact sd2_reachable|]. split; [reflexivity|]. split; [reflexivity|]. split; [discriminate|]. split; [discriminate|].
  split; [settle 20|]. split; [settle 20|settle 20].
Qed.

(** *** C68: the same dictionary with flags written as letters and as numbers *)
Definition fl_aff : str := lit "FORBIDDENWORD X
COMPOUNDMIN 1
COMPOUNDRULE 1
COMPOUNDRULE AB*
SFX S Y 1
SFX S 0 s/P .
PFX P Y 1
PFX P 0 re .
".
Definition fl_dic : str := lit "4
do/SP
un/A
one/BX
two/B
".
Definition fn_aff : str := lit "FLAG num
FORBIDDENWORD 88
COMPOUNDMIN 1
COMPOUNDRULE 1
COMPOUNDRULE (2)(3)*
SFX 4 Y 1
SFX 4 0 s/1005 .
PFX 1005 Y 1
PFX 1005 0 re .
".
Definition fn_dic : str := lit "4
do/1005,4
un/2
one/88,3
two/3
".
Definition fl : dictionary := Eval vm_compute in (the (built ex_pl fl_aff fl_dic) <: dictionary).
Definition fn : dictionary := Eval vm_compute in (the (built ex_pl fn_aff fn_dic) <: dictionary).
Lemma fl_reachable : Reachable ex_pl fl. Proof. ex_dict fl_aff fl_dic. Qed.
Lemma fn_reachable : Reachable ex_pl fn. Proof. ex_dict fn_aff fn_dic. Qed.
Definition numbered (x : N) : N := swap 65 2 (swap 66 3 (swap 83 4 (swap 80 1005 x))).
Lemma numbered_inj : forall x y, numbered x = numbered y -> x = y.
Proof. intros x y H. repeat apply swap_inj in H. exact H. Qed.
Lemma fl_renamed : Renamed numbered fl fn.
Proof.
  split; [|same_words]. constructor; try reflexivity.
  - same_affixes.
  - same_affixes.
  - repeat constructor.
  - constructor.
  - constructor; try reflexivity; try (intros; same_flag); same_flag.
Qed.
Example C68_example : Reachable ex_pl fl /\ Reachable ex_pl fn /\ numbered hidden_homonym_flag = hidden_homonym_flag /\ ad_vowels (d_aff fl) = [] /\
  (forall x y, numbered x = numbered y -> x = y) /\ Renamed numbered fl fn /\
  (forall stem f, listed fl stem f -> ~ listed fn stem f) /\
  accepted ex_pl fl (lit "redos") /\ accepted ex_pl fn (lit "untwotwo") /\ rejected ex_pl fn (lit "one").
Proof.
  split; [exact fl_reachable|]. split; [exact fn_reachable|]. split; [reflexivity|]. split; [reflexivity|]. split; [exact numbered_inj|]. split; [exact fl_renamed|].
  split. { intros stem f H K. repeat (destruct H as [H|H]; [injection H as <- <-; repeat (destruct K as [K|K]; [discriminate K|]); destruct K|]). destruct H. }
  split; [settle 20|]. split; [settle 20|settle 20].
Qed.

(** With COMPOUNDSYLLABLE it is not so: the flag I of [hu] is renamed to K. *)
Definition hk_dic : str := lit "3
foo/C
bar/CS
kei/CK
".
Definition hk : dictionary := Eval vm_compute in (the (built ex_pl hu_aff hk_dic) <: dictionary).
Lemma hk_reachable : Reachable ex_pl hk. Proof. ex_dict hu_aff hk_dic. Qed.
Theorem C68_syllable_flags_refuted : exists pl d d' ren w, wf_platform pl /\ Reachable pl d /\ Reachable pl d' /\
  (forall x y, ren x = ren y -> x = y) /\ ren hidden_homonym_flag = hidden_homonym_flag /\ Renamed ren d d' /\
  scalars w /\ accepted pl d w /\ rejected pl d' w.
Proof.
  exists ex_pl, hu, hk, (swap 73 75), (lit "foobarkei"). split; [exact ex_pl_wf|]. split; [exact hu_reachable|]. split; [exact hk_reachable|].
  split; [exact (@swap_inj 73 75)|]. split; [reflexivity|]. split.
  { split; [|same_words]. constructor; try reflexivity.
    - same_affixes.
    - same_affixes.
    - repeat constructor.
    - constructor.
    - constructor; try reflexivity; try (intros; same_flag); same_flag. }
  split; [apply lit_scalars; reflexivity|]. split; [settle 60|settle 60].
Qed.

(** *** C69: the word list of [sd] with other flags *)
Definition su_dic : str := lit "3
foo/CSZY
bar/C
foul
".
Definition su : dictionary := Eval vm_compute in (the (built ex_pl (lit "COMPOUNDFLAG C
SFX S Y 1
SFX S 0 s .
") su_dic) <: dictionary).
Lemma su_reachable : Reachable ex_pl su.
Proof. ex_dict (lit "COMPOUNDFLAG C
SFX S Y 1
SFX S 0 s .
") su_dic. Qed.
Lemma sd_mentioned : forall x, Mentioned (d_aff sd) x -> x = 67%N \/ x = 83%N \/ x = 65510%N \/ x = 65535%N.
Proof.
  intros x H. destruct H as [p H|s H| |x H|x H _|r e H|p x H|  |x H _]; vm_compute in H || vm_compute; auto 10; try contradiction; try discriminate.
  - destruct H as [<-|[]]. auto.
  - repeat (destruct H as [H|H]; [try discriminate H; injection H as <-; auto|]). destruct H.
Qed.
Example C69_example : Reachable ex_pl sd /\ Reachable ex_pl su /\ d_aff su = d_aff sd /\
  (forall w, Forall2 (Alike (d_aff sd)) (entries sd w) (entries su w)) /\
  entries su (lit "foo") <> entries sd (lit "foo") /\
  accepted ex_pl su (lit "foobar") /\ accepted ex_pl su (lit "foul") /\ rejected ex_pl su (lit "fouls").
Proof.
  split; [exact sd_reachable|]. split; [exact su_reachable|]. split; [reflexivity|]. split.
  { apply entries_related. repeat (constructor; [split; [reflexivity|]; intros x Mx; apply sd_mentioned in Mx; vm_compute; intuition congruence|]). constructor. }
  split; [discriminate|]. split; [settle 20|]. split; [settle 20|settle 20].
Qed.
(** Homonyms that differ only in such flags, under CHECKCOMPOUNDDUP. *)
Definition hd_aff : str := lit "COMPOUNDFLAG C
CHECKCOMPOUNDDUP
".
Definition hd_dic : str := lit "3
foo/C
foo/CZ
bar/C
".
Definition hd_dic2 : str := lit "3
foo/CY
foo/CY
bar/CQ
".
Definition hom1 : dictionary := Eval vm_compute in (the (built ex_pl hd_aff hd_dic) <: dictionary).
Definition hom2 : dictionary := Eval vm_compute in (the (built ex_pl hd_aff hd_dic2) <: dictionary).
Lemma hom1_reachable : Reachable ex_pl hom1.
Proof. ex_dict hd_aff hd_dic. Qed.
Lemma hom2_reachable : Reachable ex_pl hom2.
Proof. ex_dict hd_aff hd_dic2. Qed.
Lemma hom_mentioned : forall x, Mentioned (d_aff hom1) x -> x = 67%N \/ x = 65510%N \/ x = 65535%N.
Proof.
  intros x H. destruct H as [p H|s H| |x H|x H _|r e H|p x H|  |x H _]; vm_compute in H || vm_compute; auto 10; try contradiction; try discriminate.
  repeat (destruct H as [H|H]; [try discriminate H; injection H as <-; auto|]). destruct H.
Qed.
Example C69_homonyms_example : Reachable ex_pl hom1 /\ Reachable ex_pl hom2 /\ d_aff hom2 = d_aff hom1 /\
  (forall w, Forall2 (Alike (d_aff hom1)) (entries hom1 w) (entries hom2 w)) /\ o_check_duplicate (ad_options (d_aff hom1)) = true /\
  (exists f g, f <> g /\ entries hom1 (lit "foo") = [f; g]) /\ (exists f, entries hom2 (lit "foo") = [f; f]) /\
  rejected ex_pl hom1 (lit "foofoo") /\ rejected ex_pl hom2 (lit "foofoo") /\ accepted ex_pl hom2 (lit "foobar").
Proof.
  split; [exact hom1_reachable|]. split; [exact hom2_reachable|]. split; [reflexivity|]. split.
  { apply entries_related. repeat (constructor; [split; [reflexivity|]; intros x Mx; apply hom_mentioned in Mx; vm_compute; intuition congruence|]). constructor. }
  split; [reflexivity|]. split; [eexists _, _; split; [|reflexivity]; discriminate|]. split; [eexists; reflexivity|]. split; [settle 20|]. split; [settle 20|settle 20].
Qed.

Print Assumptions C67_check_ignores_suggestion_directives.
Print Assumptions C68_flags_are_names.
Print Assumptions C68_syllable_flags_refuted.
Print Assumptions C69_unmentioned_flags_do_not_matter.
