(** Property C70: the lines of an .aff text that [check] does not read. *)
From Coq Require Import String Ascii List NArith ZArith Lia Bool Arith Permutation.
From Verif Require Import Base Utf8 Unicode Flags Bag Condition Affix Conversion Aff Checker AffixSpec CompoundRule Rep
  Spell CheckSpec CheckMono CheckProps Parser ParserSafe Lib LibSpec LibProps ParserProps TableProps Grammar SilentLines Examples
  Properties_Affix Properties_Compound Properties_Check Properties_Dict Properties_Grammar Properties_Names.
Import ListNotations.
Local Open Scope string_scope.
Local Open Scope list_scope.
Local Open Scope nat_scope.
Set Implicit Arguments.

(** ** C70: lines about suggestions, and lines that name no directive, can be added to a text or dropped from it *)
Lemma collect_parts : forall pl x a, collect pl x = Ret a ->
  affix_index_from pl Pfx (erase_affixes (x_ignore x) (x_prefixes x)) = Ret (ad_prefixes a) /\
  affix_index_from pl Sfx (erase_affixes (x_ignore x) (x_suffixes x)) = Ret (ad_suffixes a) /\
  break_new (x_breaks x) = Ret (ad_breaks a) /\ rep_from (x_reps x) = Ret (ad_reps a) /\ rule_table_from (x_rules x) = Ret (ad_rules a) /\
  a = mkAff (ad_prefixes a) (ad_suffixes a) (ad_breaks a) (ad_rules a) (x_vowels x) (x_patterns x)
         (conversion_table_from pl (x_iconv x)) (conversion_table_from pl (x_oconv x))
         (ad_reps a) (x_sims x) (x_ignore x) (x_keyboard x) (x_try x) (x_options x) (x_flag_type x) (x_aliases x).
Proof.
  intros pl x a CO. unfold collect in CO.
  destruct (affix_index_from pl Pfx _) eqn:E1; cbn [bindR] in CO; try discriminate CO.
  destruct (affix_index_from pl Sfx _) eqn:E2; cbn [bindR] in CO; try discriminate CO.
  destruct (break_new _) eqn:E3; cbn [bindR] in CO; try discriminate CO. destruct (rep_from _) eqn:E4; cbn [bindR] in CO; try discriminate CO.
  destruct (rule_table_from _) eqn:E5; cbn [bindR] in CO; try discriminate CO. injection CO as <-. repeat split.
Qed.

(** Texts that leave the same settings after [bared] make data that [check] cannot tell apart. *)
Lemma bare_checked : forall pl rep warn x x' a a', bared rep warn x' = bared rep warn x ->
  (rep = false -> o_check_rep (x_options x) = false) -> (warn = false -> o_forbid_warn (x_options x) = false) ->
  collect pl x = Ret a -> collect pl x' = Ret a' -> checked_data a' = checked_data a.
Proof.
  intros pl rep warn x x' a a' E Hr Hw CO CO'.
  destruct (collect_parts _ _ CO) as (P1 & P2 & P3 & P4 & P5 & EA). destruct (collect_parts _ _ CO') as (P1' & P2' & P3' & P4' & P5' & EA').
  pose proof (f_equal x_prefixes E) as F1. pose proof (f_equal x_suffixes E) as F2. pose proof (f_equal x_breaks E) as F3.
  pose proof (f_equal x_reps E) as F4. pose proof (f_equal x_rules E) as F5. pose proof (f_equal x_ignore E) as F6.
  pose proof (f_equal x_vowels E) as F7. pose proof (f_equal x_patterns E) as F8. pose proof (f_equal x_iconv E) as F9.
  pose proof (f_equal x_options E) as FO. cbn [bared x_prefixes x_suffixes x_breaks x_reps x_rules x_ignore x_vowels x_patterns x_iconv x_options] in *.
  clear E.
  assert (EO : checked_options (x_options x') = checked_options (x_options x)).
  { pose proof (f_equal o_forbid_warn FO) as W. cbn in W. unfold checked_options. rewrite W.
    destruct (x_options x), (x_options x'). cbn in FO, W, Hw |- *. destruct warn.
    - injection FO. intros. subst. reflexivity.
    - rewrite (Hw eq_refl) in *. injection FO. intros. subst. reflexivity. }
  assert (ER : o_check_rep (x_options x') = o_check_rep (x_options x)) by exact (f_equal o_check_rep FO).
  rewrite F6, F1, P1 in P1'. rewrite F6, F2, P2 in P2'. rewrite F3, P3 in P3'. rewrite F5, P5 in P5'.
  injection P1' as P1'. injection P2' as P2'. injection P3' as P3'. injection P5' as P5'.
  rewrite EA, EA'. unfold checked_data.
  cbn [ad_prefixes ad_suffixes ad_breaks ad_rules ad_vowels ad_patterns ad_iconv ad_options ad_reps ad_ignore].
  rewrite EO, ER, <- P1', <- P2', <- P3', <- P5', F6, F7, F8, F9.
  destruct (o_check_rep (x_options x)) eqn:CR; [|reflexivity]. destruct rep; [|specialize (Hr eq_refl); congruence].
  rewrite F4, P4 in P4'. injection P4' as <-. reflexivity.
Qed.

Section Lines.
Variable pl : platform.
Hypothesis WP : wf_platform pl.

Lemma counts_rep : forall rep warn, counts rep warn (lit "CHECKCOMPOUNDREP") = true.
Proof. intros [|] [|]; reflexivity. Qed.
Lemma counts_warn : forall rep warn, counts rep warn (lit "FORBIDWARN") = true.
Proof. intros [|] [|]; reflexivity. Qed.

(** Switches that no line mentions are off. *)
Lemma switches_off : forall aff x, scalars aff -> parse_aff pl aff = Ret (Ok x) ->
  (mentions (lit "CHECKCOMPOUNDREP") (aff_words pl aff) = false -> o_check_rep (x_options x) = false) /\
  (mentions (lit "FORBIDWARN") (aff_words pl aff) = false -> o_forbid_warn (x_options x) = false).
Proof.
  intros aff x Ha PA. apply parse_aff_exact in PA; [|exact Ha]. split; intro M.
  - assert (I : In (lit "CHECKCOMPOUNDREP", fun w => VSwitch (o_check_rep (w_options w)), VSwitch false) settings).
    { unfold settings. cbn [In]. tauto. }
    pose proof (unmentioned I PA M) as E. cbn in E. injection E as E. exact E.
  - assert (I : In (lit "FORBIDWARN", fun w => VSwitch (o_forbid_warn (w_options w)), VSwitch false) settings).
    { unfold settings. cbn [In]. tauto. }
    pose proof (unmentioned I PA M) as E. cbn in E. injection E as E. exact E.
Qed.

Lemma checked_mentions : forall ls ls', checked_lines ls' = checked_lines ls ->
  mentions (lit "CHECKCOMPOUNDREP") ls' = mentions (lit "CHECKCOMPOUNDREP") ls /\ mentions (lit "FORBIDWARN") ls' = mentions (lit "FORBIDWARN") ls.
Proof.
  intros ls ls' E. unfold checked_lines in E. split.
  - apply (f_equal (mentions (lit "CHECKCOMPOUNDREP"))) in E. rewrite !mentions_counting in E by apply counts_rep. exact E.
  - apply (f_equal (mentions (lit "FORBIDWARN"))) in E. rewrite !mentions_counting in E by apply counts_warn. exact E.
Qed.

(** Calls read the flag type, the aliases, the ignored characters and the forbidding flag only. *)
Lemma calls_alike : forall cs d d' e e', d_words d' = d_words d -> ad_flag_type (d_aff d') = ad_flag_type (d_aff d) ->
  ad_aliases (d_aff d') = ad_aliases (d_aff d) -> ad_ignore (d_aff d') = ad_ignore (d_aff d) ->
  o_forbidden (ad_options (d_aff d')) = o_forbidden (ad_options (d_aff d)) ->
  do_calls pl d cs = Ret e -> do_calls pl d' cs = Ret e' -> d_words e' = d_words e /\ d_aff e = d_aff d /\ d_aff e' = d_aff d'.
Proof.
  induction cs as [|c cs IH]; intros d d' e e' E1 E2 E3 E4 E5 H H'.
  - cbn in H, H'. injection H as <-. injection H' as <-. auto.
  - cbn [do_calls] in H, H'.
    assert (X : forall d1 d1', do_call pl d c = Ret d1 -> do_call pl d' c = Ret d1' -> d_words d1' = d_words d1 /\ d_aff d1 = d_aff d /\ d_aff d1' = d_aff d').
    { intros d1 d1' C C'. destruct c as [line|w]; cbn [do_call] in C, C'.
      - unfold add in C, C'. rewrite E2, E3, E4, E1 in C'.
        destruct (parse_dic_line pl line _ _ _) as [[[word flags]|]| |]; cbn [bindR] in C, C'; try discriminate C;
          injection C as <-; injection C' as <-; cbn [snd d_words d_aff]; auto.
      - unfold remove_stem in C, C'. rewrite E5, E1 in C'.
        destruct (remove_go pl _ w (d_words d)) as [[b t]| |]; cbn [bindR] in C, C'; try discriminate C.
        injection C as <-. injection C' as <-. cbn [snd d_words d_aff]. auto. }
    destruct (do_call pl d c) as [d1| |]; cbn [bindR] in H; try discriminate H.
    destruct (do_call pl d' c) as [d1'| |]; cbn [bindR] in H'; try discriminate H'.
    destruct (X _ _ eq_refl eq_refl) as (W & A & A').
    destruct (IH d1 d1' e e') as (Y1 & Y2 & Y3); try assumption; rewrite ?A, ?A'; try assumption.
    split; [exact Y1|]. split; congruence.
Qed.

Definition proper_calls (cs : list call) : Prop := Forall (fun c => match c with CallAdd line => scalars line | CallRemove _ => True end) cs.

(** Two texts that agree on the lines [check] reads: the dictionaries accept the same words, also after the same calls. *)
Theorem C70_check_reads_only_its_lines : forall aff aff' dic d0 d0' cs d d', scalars aff -> scalars aff' -> scalars dic -> proper_calls cs ->
  new pl aff dic = Ret (Ok d0) -> new pl aff' dic = Ret (Ok d0') -> do_calls pl d0 cs = Ret d -> do_calls pl d0' cs = Ret d' ->
  checked_lines (aff_words pl aff') = checked_lines (aff_words pl aff) ->
  d_words d' = d_words d /\ forall lt lu fuel w, check (checker_of pl d' lt lu) fuel w = check (checker_of pl d lt lu) fuel w.
Proof.
  intros aff aff' dic d0 d0' cs d d' Ha Ha' Hd Hcs N N' DC DC' E.
  destruct (@new_ok pl aff dic d0 Ha N) as (x & _ & PA & PD & CO). destruct (@new_ok pl aff' dic d0' Ha' N') as (x' & _ & PA' & PD' & CO').
  destruct (checked_mentions _ _ E) as [M1 M2]. destruct (switches_off Ha PA) as [S1 S2].
  unfold checked_lines in E. rewrite M1, M2 in E. set (rep := mentions (lit "CHECKCOMPOUNDREP") _) in *. set (warn := mentions (lit "FORBIDWARN") _) in *.
  apply parse_aff_exact in PA; [|exact Ha]. apply parse_aff_exact in PA'; [|exact Ha'].
  pose proof (checked_text rep warn PA) as T.
  pose proof (checked_text rep warn PA') as T'. rewrite E in T'.
  assert (B : bared rep warn x' = bared rep warn x) by (eapply aff_once; [exact Ha|eexists; reflexivity|exact T'|exact T]).
  assert (W : d_words d0' = d_words d0).
  { rewrite <- (parse_dic_bare pl rep warn) in PD, PD'. rewrite B in PD'. congruence. }
  destruct (collect_parts _ _ CO) as (_ & _ & _ & _ & _ & EA). destruct (collect_parts _ _ CO') as (_ & _ & _ & _ & _ & EA').
  assert (X : d_words d' = d_words d /\ d_aff d = d_aff d0 /\ d_aff d' = d_aff d0').
  { apply (@calls_alike cs d0 d0'); [exact W| | | | |exact DC|exact DC']; rewrite EA, EA'; cbn [ad_flag_type ad_aliases ad_ignore ad_options].
    - exact (f_equal x_flag_type B).
    - exact (f_equal x_aliases B).
    - exact (f_equal x_ignore B).
    - exact (f_equal (fun x => o_forbidden (x_options x)) B). }
  destruct X as (W' & A & A'). split; [exact W'|].
  apply C67_check_ignores_suggestion_directives.
  - exact WP.
  - exists aff, dic, d0, cs. auto.
  - exists aff', dic, d0', cs. auto.
  - intro w. unfold entries. rewrite W'. reflexivity.
  - rewrite A, A'. eapply bare_checked; eassumption.
Qed.

(** Dropping all the other lines from a text that loads leaves a text that loads. *)
Theorem C70_other_lines_can_go : forall aff aff' dic d, scalars aff -> scalars aff' -> scalars dic ->
  new pl aff dic = Ret (Ok d) -> aff_words pl aff' = checked_lines (aff_words pl aff) ->
  exists d', new pl aff' dic = Ret (Ok d') /\
    forall lt lu fuel w, check (checker_of pl d' lt lu) fuel w = check (checker_of pl d lt lu) fuel w.
Proof.
  intros aff aff' dic d Ha Ha' Hd N E.
  assert (X : exists d', new pl aff' dic = Ret (Ok d')).
  { destruct (@new_ok pl aff dic d Ha N) as (x & _ & PA & PD & CO). apply parse_aff_exact in PA; [|exact Ha].
    unfold checked_lines in E. set (rep := mentions (lit "CHECKCOMPOUNDREP") _) in *. set (warn := mentions (lit "FORBIDWARN") _) in *.
    pose proof (checked_text rep warn PA) as T. rewrite <- E, bare_default in T. apply parse_aff_exact in T; [|exact Ha'].
    unfold new, parse. rewrite T. cbn [bindP]. rewrite parse_dic_bare, PD. cbn [bindP].
    destruct (collect_parts _ _ CO) as (P1 & P2 & P3 & P4 & P5 & EA). unfold collect. cbn [bared x_ignore x_prefixes x_suffixes x_breaks x_reps x_rules].
    rewrite P1, P2, P3, P5. cbn [bindR].
    assert (RR : exists r, rep_from (if rep then x_reps x else []) = Ret r) by (destruct rep; [eauto|eexists; reflexivity]).
    destruct RR as (r & ->). cbn [bindR]. eexists. reflexivity. }
  destruct X as (d' & N'). exists d'. split; [exact N'|].
  eapply C70_check_reads_only_its_lines with (aff := aff) (aff' := aff') (cs := []); try eassumption; [constructor|reflexivity..|].
  rewrite E. unfold checked_lines. rewrite !mentions_counting by (apply counts_rep || apply counts_warn).
  apply counting_twice.
Qed.
End Lines.

(** ** Example *)
Definition sl_aff : str := lit "COMPOUNDFLAG C
SFX S Y 1
SFX S 0 s .
".
Definition sl_aff2 : str := lit "# suggestions
TRY abc
HOME page
COMPOUNDFLAG C

REP 1
REP o a
WARN W
SFX S Y 1
SFX S 0 s .
MAP 1
MAP ae
NOSUGGEST !
OCONV 1
OCONV o u
".
Example C70_example : scalars sl_aff /\ scalars sl_aff2 /\ new ex_pl sl_aff sd_dic = Ret (Ok sd) /\
  (exists d2, new ex_pl sl_aff2 sd_dic = Ret (Ok d2) /\ d_aff d2 <> d_aff sd /\ accepted ex_pl d2 (lit "barfoo")) /\
  checked_lines (aff_words ex_pl sl_aff2) = checked_lines (aff_words ex_pl sl_aff) /\
  aff_words ex_pl sl_aff = checked_lines (aff_words ex_pl sl_aff2) /\ aff_words ex_pl sl_aff2 <> aff_words ex_pl sl_aff.
Proof.
  split; [apply lit_scalars; reflexivity|]. split; [apply lit_scalars; reflexivity|].
  split; [vm_compute; reflexivity|]. split; [eexists; split; [vm_compute; reflexivity|split; [discriminate|settle 20]]|].
  split; [vm_compute; reflexivity|]. split; [vm_compute; reflexivity|vm_compute; discriminate].
Qed.
(** With CHECKCOMPOUNDREP the REP lines are among the lines that count, and they do change the answers. *)
Definition sl_rep : str := lit "CHECKCOMPOUNDREP
COMPOUNDFLAG C
COMPOUNDMIN 1
REP 1
REP ar a
".
Definition sl_norep : str := lit "CHECKCOMPOUNDREP
COMPOUNDFLAG C
COMPOUNDMIN 1
".
Definition sl_dic : str := lit "3
bar/C
foo/C
bafoo".
Example C70_rep_example : exists d1 d2, new ex_pl sl_rep sl_dic = Ret (Ok d1) /\ new ex_pl sl_norep sl_dic = Ret (Ok d2) /\
  checked_lines (aff_words ex_pl sl_rep) <> checked_lines (aff_words ex_pl sl_norep) /\
  rejected ex_pl d1 (lit "barfoo") /\ accepted ex_pl d2 (lit "barfoo").
Proof.
  eexists _, _. split; [vm_compute; reflexivity|]. split; [vm_compute; reflexivity|]. split; [vm_compute; discriminate|]. split; settle 20.
Qed.

Print Assumptions C70_check_reads_only_its_lines.
Print Assumptions C70_other_lines_can_go.
