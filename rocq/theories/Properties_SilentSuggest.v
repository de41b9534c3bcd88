(** Property C72: the lines of an .aff text that [suggest] does not read. *)
From Coq Require Import String Ascii List NArith ZArith Lia Bool Arith Permutation.
From Verif Require Import Base Utf8 Unicode Flags Bag Condition Affix Conversion Aff Checker AffixSpec CompoundRule Rep
  Spell CheckSpec CheckMono CheckProps Parser ParserSafe Lib LibSpec LibProps ParserProps TableProps Grammar SilentLines Examples
  BufferOps Ngram Suggester SuggestSpec SuggestLow SuggestMono SuggestProps LibSuggest SuggestNames
  Properties_Affix Properties_Compound Properties_Check Properties_Dict Properties_Grammar Properties_Names Properties_Silent Properties_Suggest
  Properties_SuggestNames.
Import ListNotations.
Local Open Scope string_scope.
Local Open Scope list_scope.
Local Open Scope nat_scope.
Set Implicit Arguments.

(** ** C72: lines that name no directive, and lines with directives nothing reads, can be added to a text or dropped from it *)
(** Texts that leave the same settings after [half_bared] make data that [suggest] cannot tell apart. *)
Lemma half_bare_read : forall pl warn x x' a a', half_bared warn x' = half_bared warn x ->
  (warn = false -> o_forbid_warn (x_options x) = false) ->
  collect pl x = Ret a -> collect pl x' = Ret a' -> read_data a' = read_data a.
Proof.
  intros pl warn x x' a a' E Hw CO CO'.
  destruct (collect_parts _ _ CO) as (P1 & P2 & P3 & P4 & P5 & EA). destruct (collect_parts _ _ CO') as (P1' & P2' & P3' & P4' & P5' & EA').
  pose proof (f_equal x_prefixes E) as F1. pose proof (f_equal x_suffixes E) as F2. pose proof (f_equal x_breaks E) as F3.
  pose proof (f_equal x_reps E) as F4. pose proof (f_equal x_rules E) as F5. pose proof (f_equal x_ignore E) as F6.
  pose proof (f_equal x_vowels E) as F7. pose proof (f_equal x_patterns E) as F8. pose proof (f_equal x_iconv E) as F9.
  pose proof (f_equal x_oconv E) as F10. pose proof (f_equal x_sims E) as F11. pose proof (f_equal x_keyboard E) as F12. pose proof (f_equal x_try E) as F13.
  pose proof (f_equal x_options E) as FO.
  cbn [half_bared x_prefixes x_suffixes x_breaks x_reps x_rules x_ignore x_vowels x_patterns x_iconv x_oconv x_sims x_keyboard x_try x_options] in *.
  clear E.
  assert (EO : read_options (x_options x') = read_options (x_options x)).
  { pose proof (f_equal o_forbid_warn FO) as W. cbn in W. unfold read_options. rewrite W.
    destruct (x_options x), (x_options x'). cbn in FO, W, Hw |- *. destruct warn.
    - injection FO. intros. subst. reflexivity.
    - rewrite (Hw eq_refl) in *. injection FO. intros. subst. reflexivity. }
  rewrite F6, F1, P1 in P1'. rewrite F6, F2, P2 in P2'. rewrite F3, P3 in P3'. rewrite F4, P4 in P4'. rewrite F5, P5 in P5'.
  injection P1' as P1'. injection P2' as P2'. injection P3' as P3'. injection P4' as P4'. injection P5' as P5'.
  rewrite EA, EA'. unfold read_data.
  cbn [ad_prefixes ad_suffixes ad_breaks ad_rules ad_vowels ad_patterns ad_iconv ad_oconv ad_options ad_reps ad_ignore ad_sims ad_keyboard ad_try].
  rewrite EO, <- P1', <- P2', <- P3', <- P4', <- P5', F6, F7, F8, F9, F10, F11, F12, F13. reflexivity.
Qed.

Section Lines.
Variable pl : platform.
Hypothesis WP : wf_platform pl.
Variable rn : runtime.
Hypothesis WN : wf_runtime rn.
Hypothesis UR : uniform_runtime rn.

Lemma counts_too_warn : forall warn, counts_too warn (lit "FORBIDWARN") = true.
Proof. intros [|]; reflexivity. Qed.

(** Two texts that agree on the lines [suggest] reads: the dictionaries make the same suggestions, also after the same calls. *)
Theorem C72_suggest_reads_only_its_lines : forall aff aff' dic d0 d0' cs d d', scalars aff -> scalars aff' -> scalars dic -> proper_calls cs ->
  new pl aff dic = Ret (Ok d0) -> new pl aff' dic = Ret (Ok d0') -> do_calls pl d0 cs = Ret d -> do_calls pl d0' cs = Ret d' ->
  suggesting_lines (aff_words pl aff') = suggesting_lines (aff_words pl aff) ->
  d_words d' = d_words d /\ forall lt lu ng fuel w out,
    suggest (suggester_of pl rn d' lt lu ng) fuel w out = suggest (suggester_of pl rn d lt lu ng) fuel w out.
Proof.
  intros aff aff' dic d0 d0' cs d d' Ha Ha' Hd Hcs N N' DC DC' E.
  destruct (@new_ok pl aff dic d0 Ha N) as (x & _ & PA & PD & CO). destruct (@new_ok pl aff' dic d0' Ha' N') as (x' & _ & PA' & PD' & CO').
  assert (M : mentions (lit "FORBIDWARN") (aff_words pl aff') = mentions (lit "FORBIDWARN") (aff_words pl aff)).
  { pose proof (f_equal (mentions (lit "FORBIDWARN")) E) as M. unfold suggesting_lines in M. rewrite !mentions_counting in M by apply counts_too_warn. exact M. }
  destruct (@switches_off pl aff x Ha PA) as [_ S2].
  unfold suggesting_lines in E. rewrite M in E. set (warn := mentions (lit "FORBIDWARN") _) in *.
  apply parse_aff_exact in PA; [|exact Ha]. apply parse_aff_exact in PA'; [|exact Ha'].
  pose proof (suggesting_text warn PA) as T. pose proof (suggesting_text warn PA') as T'. rewrite E in T'.
  assert (B : half_bared warn x' = half_bared warn x) by (eapply aff_once; [exact Ha|eexists; reflexivity|exact T'|exact T]).
  assert (W : d_words d0' = d_words d0).
  { rewrite <- (parse_dic_half_bare pl warn) in PD, PD'. rewrite B in PD'. congruence. }
  destruct (collect_parts _ _ CO) as (_ & _ & _ & _ & _ & EA). destruct (collect_parts _ _ CO') as (_ & _ & _ & _ & _ & EA').
  assert (X : d_words d' = d_words d /\ d_aff d = d_aff d0 /\ d_aff d' = d_aff d0').
  { apply (@calls_alike pl cs d0 d0'); [exact W| | | | |exact DC|exact DC']; rewrite EA, EA'; cbn [ad_flag_type ad_aliases ad_ignore ad_options].
    - exact (f_equal x_flag_type B).
    - exact (f_equal x_aliases B).
    - exact (f_equal x_ignore B).
    - exact (f_equal (fun x => o_forbidden (x_options x)) B). }
  destruct X as (W' & A & A'). split; [exact W'|].
  apply C71_suggest_ignores_unread_directives; try assumption.
  - exists aff, dic, d0, cs. auto.
  - exists aff', dic, d0', cs. auto.
  - rewrite A, A'. eapply half_bare_read; eassumption.
Qed.

(** Dropping all the other lines from a text that loads leaves a text that loads. *)
Theorem C72_other_lines_can_go : forall aff aff' dic d, scalars aff -> scalars aff' -> scalars dic ->
  new pl aff dic = Ret (Ok d) -> aff_words pl aff' = suggesting_lines (aff_words pl aff) ->
  exists d', new pl aff' dic = Ret (Ok d') /\
    forall lt lu ng fuel w out, suggest (suggester_of pl rn d' lt lu ng) fuel w out = suggest (suggester_of pl rn d lt lu ng) fuel w out.
Proof.
  intros aff aff' dic d Ha Ha' Hd N E.
  assert (X : exists d', new pl aff' dic = Ret (Ok d')).
  { destruct (@new_ok pl aff dic d Ha N) as (x & _ & PA & PD & CO). apply parse_aff_exact in PA; [|exact Ha].
    unfold suggesting_lines in E. set (warn := mentions (lit "FORBIDWARN") _) in *.
    pose proof (suggesting_text warn PA) as T. rewrite <- E, half_bare_default in T. apply parse_aff_exact in T; [|exact Ha'].
    unfold new, parse. rewrite T. cbn [bindP]. rewrite parse_dic_half_bare, PD. cbn [bindP].
    destruct (collect_parts _ _ CO) as (P1 & P2 & P3 & P4 & P5 & EA). unfold collect. cbn [half_bared x_ignore x_prefixes x_suffixes x_breaks x_reps x_rules].
    rewrite P1, P2, P3, P4, P5. cbn [bindR]. eexists. reflexivity. }
  destruct X as (d' & N'). exists d'. split; [exact N'|].
  eapply C72_suggest_reads_only_its_lines with (aff := aff) (aff' := aff') (cs := []); try eassumption; [constructor|reflexivity..|].
  rewrite E. unfold suggesting_lines. rewrite !mentions_counting by apply counts_too_warn.
  apply counting_twice.
Qed.
End Lines.

(** ** Example *)
Definition ql_aff : str := lit "TRY osd
NOSUGGEST N
SFX S Y 1
SFX S 0 s .
".
Definition ql_aff2 : str := lit "# nothing here is read
MAXCPDSUGS 0
NAME something
TRY osd

SUGSWITHDOTS
NOSUGGEST N
WARN S
SUBSTANDARD S
FULLSTRIP
SFX S Y 1
SFX S 0 s .
".
Definition ql_dic : str := lit "2
dog/S
dug/N
".
Definition ql : dictionary := Eval vm_compute in (the (built ex_pl ql_aff ql_dic) <: dictionary).
Example C72_example : scalars ql_aff /\ scalars ql_aff2 /\ new ex_pl ql_aff ql_dic = Ret (Ok ql) /\
  (exists d2, new ex_pl ql_aff2 ql_dic = Ret (Ok d2) /\ d_aff d2 <> d_aff ql /\ suggests ex_pl ex_rn d2 false false true (lit "dxgs") [lit "dogs"]) /\
  suggesting_lines (aff_words ex_pl ql_aff2) = suggesting_lines (aff_words ex_pl ql_aff) /\
  aff_words ex_pl ql_aff = suggesting_lines (aff_words ex_pl ql_aff2) /\ aff_words ex_pl ql_aff2 <> aff_words ex_pl ql_aff.
Proof.
  split; [apply lit_scalars; reflexivity|]. split; [apply lit_scalars; reflexivity|].
  split; [vm_compute; reflexivity|]. split; [eexists; split; [vm_compute; reflexivity|split; [discriminate|propose 20]]|].
  split; [vm_compute; reflexivity|]. split; [vm_compute; reflexivity|vm_compute; discriminate].
Qed.

Print Assumptions C72_suggest_reads_only_its_lines.
Print Assumptions C72_other_lines_can_go.
