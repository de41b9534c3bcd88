(** Property C65: removing a stem only takes acceptances away, and only from texts that can be
    derived from that stem. *)
From Coq Require Import String Ascii List NArith ZArith Lia Bool Arith Permutation FunctionalExtensionality.
From Verif Require Import Base Utf8 Unicode Flags Bag Condition Affix Conversion Aff Checker AffixSpec CompoundRule Rep CompoundSpec
  CompoundTotal RuleCompound Spell CheckSpec CheckMono CheckProps Parser ParserSafe Lib LibSpec LibProps ParserProps Examples PlainAdd EntryChange
  Properties_Affix Properties_Compound Properties_Check Properties_Dict Properties_Add.
Import ListNotations.
Local Open Scope string_scope.
Local Open Scope list_scope.
Local Open Scope nat_scope.
Set Implicit Arguments.

(** The flag that marks forbidden words has no second meaning. *)
Definition ForbidsOnly (d : dictionary) : Prop :=
  let fb := o_forbidden (ad_options (d_aff d)) in
  (forall kd a, In a (rules (d_aff d) kd) -> a_flag a <> fb) /\
  o_need_affix (ad_options (d_aff d)) <> Some fb /\ o_only_in_compound (ad_options (d_aff d)) <> Some fb /\
  o_keep_case (ad_options (d_aff d)) <> Some fb /\ hidden_homonym_flag <> fb.
(** [v] is an entry of [stem], or is made from one by affixes. *)
Definition FormOf (d : dictionary) (stem : str) (hh : hidden_homonym) (v : str) : Prop :=
  exists f, SimpleWord (d_aff d) (fun s f => s = stem /\ listed d s f) hh v f.

Section Remove.
Variable pl : platform.
Hypothesis WP : wf_platform pl.
Variable d : dictionary.
Hypothesis R : Reachable pl d.
Let OK : dict_ok pl d := reachable_ok WP R.
Notation k := (checker_of pl d false false).
Variables (stem : str) (b : bool) (d' : dictionary).
Hypothesis REMOVE : remove_stem pl d stem = Ret (b, d').
Notation k' := (checker_of pl d' false false).
Hypothesis FO : ForbidsOnly d.
Hypothesis SH : Shrinks (d_aff d).
Hypothesis ST : strict k = true.
Hypothesis NOCOMP : allows_compounding (ad_options (d_aff d)) = false /\ rt_rules (ad_rules (d_aff d)) = [].
Notation fb := (o_forbidden (ad_options (d_aff d))).

Lemma remove_facts : d_aff d' = d_aff d /\ Reachable pl d' /\ (forall v, v <> stem -> entries d' v = ck_get k v) /\
  Forall2 (Plus fb) (ck_get k stem) (entries d' stem).
Proof.
  destruct (@C25_remove_effect pl WP d R stem) as (b2 & d2 & E & RD & EA & _ & _ & HS & HF & _). rewrite REMOVE in E. injection E as <- <-.
  split; [exact EA|]. split; [exact RD|]. split; [intros v N; rewrite (@entries_get pl WP); exact (HS v N)|].
  rewrite (@entries_get pl WP).
  assert (W : forall f, In f (entries d stem) -> wf_flagset f) by (intros f Hf; apply (@dict_entry_ok pl d OK stem f Hf)).
  assert (W' : forall f, In f (entries d' stem) -> wf_flagset f) by (intros f Hf; apply (@dict_entry_ok pl d' (reachable_ok WP RD) stem f Hf)).
  revert W W'. induction HF as [|f f' l l' H HF IH]; intros W W'; constructor.
  - split; [apply W; left; reflexivity|]. split; [apply W'; left; reflexivity|exact H].
  - apply IH; intros x Hx; [apply W|apply W']; right; exact Hx.
Qed.
Lemma left_checker : k' = with_entries k (entries d').
Proof.
  unfold with_entries, checker_of. cbn [ck_u ck_overflow_checks ck_aff ck_lower_as_title ck_lower_as_upper]. rewrite (proj1 remove_facts). f_equal.
  extensionality v. exact (@entries_get pl WP d' false false v).
Qed.
Lemma affixes_fresh : forall w a, In a (pfx_of k w) \/ In a (sfx_of k w) -> a_flag a <> fb.
Proof.
  intros w a H. destruct FO as [F _]. unfold pfx_of, sfx_of in H. cbn [ck_aff checker_of] in H. destruct H as [H|H].
  - destruct (affixes_of Pfx _ w) as [l| |] eqn:E; try (destruct H). apply (F Pfx). exact (affixes_of_incl _ _ _ E _ H).
  - destruct (affixes_of Sfx _ w) as [l| |] eqn:E; try (destruct H). apply (F Sfx). exact (affixes_of_incl _ _ _ E _ H).
Qed.

Theorem C65_only_removes : forall w, scalars w -> accepted pl d' w -> accepted pl d w.
Proof.
  intros w Hw HA. destruct remove_facts as (EA & RD & OTHERS & ONES). destruct FO as (_ & F2 & F1 & F4 & F3).
  pose proof (@dict_wf_full pl WP d OK false false SH) as WF.
  assert (WF' : wf_full k') by (apply (dict_wf_full WP (reachable_ok WP RD)); rewrite EA; exact SH).
  unfold accepted, dict_check in HA. rewrite left_checker in WF', HA.
  destruct (iconv_spec WF Hw) as (w' & E & _ & Hw').
  destruct (@check_spec_at (with_entries k (entries d')) WF' (conj eq_refl eq_refl) ST w w' Hw' E) as (c & Hc & C).
  pose proof (eventually_det Hc HA) as X. injection X as ->. pose proof (proj1 C eq_refl) as AC. clear C Hc.
  apply (@accepts_marked k (entries d') stem fb OTHERS ONES affixes_fresh F1 F2 F3 F4 NOCOMP (conj eq_refl eq_refl) WF ST) in AC; [|intros f' W' I|exact Hw'].
  - destruct (@check_spec_at k WF (conj eq_refl eq_refl) ST w w' Hw' E) as (c & Hc & C). rewrite (proj2 C AC) in Hc. exact Hc.
  - destruct (accepted_flags k f') eqn:Q; [|reflexivity]. exfalso. apply (accepted_spec k W') in Q. apply Q. left. exact I.
Qed.

Theorem C65_concerns_only_that_stem : forall w, scalars w ->
  (forall x v fu hh ok, Looked d w x -> Reading pl d x v fu hh ok -> ~ FormOf d stem hh v) ->
  forall fuel, dict_check pl d' fuel w = dict_check pl d fuel w.
Proof.
  intros w Hw H fuel. destruct remove_facts as (EA & RD & OTHERS & ONES). destruct FO as (_ & F2 & F1 & F4 & F3).
  pose proof (@dict_wf_full pl WP d OK false false SH) as WF.
  unfold dict_check. rewrite left_checker. apply check_frame; [assumption..|]. intros x Hx HL.
  destruct (@marked_casing k (entries d') stem fb OTHERS ONES affixes_fresh F1 F2 F3 F4 NOCOMP (conj eq_refl eq_refl) fuel x) as [E|[_ (a & Ia & N)]]; [exact E|exfalso].
  pose proof (plan_scalars WF _ Hx Ia) as Ha.
  set (kr := with_entries k (fun v => if str_eqb v stem then ck_get k v else [])) in *.
  assert (WR : wf_checker kr).
  { destruct (dict_wf_checker WP OK false false) as [W1 W2 W3 W4 W5]. constructor; try assumption.
    intros v f Hf. unfold kr, with_entries in Hf. cbn [ck_get] in Hf. destruct (str_eqb v stem); [exact (W5 v f Hf)|destruct Hf]. }
  destruct (check_simple_word kr (at_word a) (at_hh a)) as [f|] eqn:E; [|congruence].
  apply (simple_word_sound WR) in E; [|exact Ha].
  assert (FM : FormOf d stem (at_hh a) (at_word a)).
  { exists f. apply (@simple_mono (d_aff d) (fun s g => In g (ck_get kr s))); [|exact E]. intros s g Hg. unfold kr, with_entries in Hg. cbn [ck_get] in Hg.
    destruct (str_eqb s stem) eqn:Q; [|destruct Hg]. apply str_eqb_eq in Q. split; [exact Q|]. apply entries_In.
    rewrite <- (@entries_get pl WP d false false s). exact Hg. }
  destruct x as [|c x].
  - cbn [plan classify_casing] in Ia. destruct Ia as [<-|[]]. revert FM. cbn [at_hh at_word].
    apply (H [] [] ForbidBadForceucase AcceptHiddenHomonym any_flags HL). apply Reading_plain; discriminate.
  - destruct (@plan_reading pl d (c :: x) a ltac:(discriminate) Ia) as (ok & HR & _). exact (H _ _ _ _ _ HL HR FM).
Qed.
End Remove.

(** Whether a word is a form of a stem is decided by looking it up among the entries of the stem. *)
Lemma form_dec : forall pl d stem hh v, wf_platform pl -> Reachable pl d -> scalars v ->
  check_simple_word (with_entries (checker_of pl d false false)
    (fun s => if str_eqb s stem then ck_get (checker_of pl d false false) s else [])) v hh = None -> ~ FormOf d stem hh v.
Proof.
  intros pl d stem hh v WP R Hv E (f & H). set (k := checker_of pl d false false) in *.
  set (kr := with_entries k (fun s => if str_eqb s stem then ck_get k s else [])) in *.
  assert (WR : wf_checker kr).
  { destruct (dict_wf_checker WP (reachable_ok WP R) false false) as [W1 W2 W3 W4 W5]. constructor; try assumption.
    intros u g Hg. unfold kr, with_entries in Hg. cbn [ck_get] in Hg. destruct (str_eqb u stem); [exact (W5 u g Hg)|destruct Hg]. }
  destruct (simple_word_complete WR (word := v) (hh := hh) (flags := f) Hv) as [g Q]; [|congruence].
  apply (@simple_mono (d_aff d) (fun s g => s = stem /\ listed d s g)); [|exact H]. intros s g [-> L]. unfold kr, with_entries. cbn [ck_get].
  rewrite str_eqb_refl. unfold k. rewrite (@entries_get pl WP d false false stem). apply entries_In. exact L.
Qed.

(** ** Cases *)
(** [un-], [-s] and a second entry [tools]. *)
Definition rm_aff : str := lit "SFX S Y 1
SFX S 0 s .
PFX U Y 1
PFX U 0 un .
".
Definition rm : dictionary := Eval vm_compute in (the (built ex_pl rm_aff (lit "3
tool/SU
hammer/S
tools
")) <: dictionary).
Definition rm_removed : dictionary := Eval vm_compute in
  (the (match remove_stem ex_pl rm (lit "tool") with Ret (_, d) => Some d | _ => None end) <: dictionary).
Example C65_example : Reachable ex_pl rm /\ remove_stem ex_pl rm (lit "tool") = Ret (true, rm_removed) /\
  ForbidsOnly rm /\ Shrinks (d_aff rm) /\ strict (checker_of ex_pl rm false false) = true /\
  allows_compounding (ad_options (d_aff rm)) = false /\ rt_rules (ad_rules (d_aff rm)) = [] /\
  accepted ex_pl rm (lit "hammers-untools") /\ rejected ex_pl rm_removed (lit "hammers-untools") /\
  accepted ex_pl rm_removed (lit "Tools-hammer") /\ accepted ex_pl rm (lit "Tools-hammer") /\
  (forall x v fu hh ok, Looked rm (lit "Hammers") x -> Reading ex_pl rm x v fu hh ok -> ~ FormOf rm (lit "tool") hh v).
Proof.
  assert (RR : Reachable ex_pl rm) by (ex_dict rm_aff (lit "3
tool/SU
hammer/S
tools
")).
  split; [exact RR|]. split; [vm_compute; reflexivity|].
  split. { split; [intros [|] a [<-|[]]; discriminate|]. repeat split; discriminate. }
  split; [apply plain_shrinks; reflexivity|]. split; [reflexivity|]. split; [reflexivity|]. split; [reflexivity|].
  split; [settle 50|]. split; [settle 50|]. split; [settle 50|]. split; [settle 50|].
  intros x v fu hh ok (w' & HC & HP) HR.
  assert (w' = lit "Hammers") as -> by (exact (@no_iconv_same (checker_of ex_pl rm false false) eq_refl _ _ HC)).
  assert (x = lit "Hammers") as ->.
  { assert (UB : Unbreakable (checker_of ex_pl rm false false) (lit "Hammers")) by (apply unbreakable_dec; reflexivity).
    destruct HP as [HP|HP]; exact (piece_unbreakable UB HP). }
  inversion HR; subst; try discriminate; (apply (form_dec ex_pl_wf RR); [apply forallb_scalars; reflexivity|vm_compute; reflexivity]).
Qed.

(** With compounding, removing a stem can make a text acceptable: the compound that was found first
    and is confined to lower case is no longer found. *)
Definition rc : dictionary := Eval vm_compute in (the (built ex_pl pk_aff (lit "4
foo/CK
bar/C
fooba/C
r/C
")) <: dictionary).
Definition rc_removed : dictionary := Eval vm_compute in
  (the (match remove_stem ex_pl rc (lit "foo") with Ret (_, d) => Some d | _ => None end) <: dictionary).
Theorem C65_compound_refuted : Reachable ex_pl rc /\ remove_stem ex_pl rc (lit "foo") = Ret (true, rc_removed) /\ ForbidsOnly rc /\
  rejected ex_pl rc (lit "Foobar") /\ accepted ex_pl rc_removed (lit "Foobar").
Proof.
  split; [ex_dict pk_aff (lit "4
foo/CK
bar/C
fooba/C
r/C
")|]. split; [vm_compute; reflexivity|].
  split. { split; [intros [|] a []|]. repeat split; discriminate. }
  split; settle 50.
Qed.
(** Likewise if the file gives the forbidding flag a second meaning: here it also is NEEDAFFIX, so
    the removed entry no longer stands before the form of [tool]. *)
Definition rf_aff : str := lit "FORBIDDENWORD X
NEEDAFFIX X
KEEPCASE K
SFX S Y 1
SFX S 0 s .
".
Definition rf : dictionary := Eval vm_compute in (the (built ex_pl rf_aff (lit "2
tool/S
tools/K
")) <: dictionary).
Definition rf_removed : dictionary := Eval vm_compute in
  (the (match remove_stem ex_pl rf (lit "tools") with Ret (_, d) => Some d | _ => None end) <: dictionary).
Theorem C65_shared_flag_refuted : Reachable ex_pl rf /\ remove_stem ex_pl rf (lit "tools") = Ret (true, rf_removed) /\
  allows_compounding (ad_options (d_aff rf)) = false /\ rt_rules (ad_rules (d_aff rf)) = [] /\
  rejected ex_pl rf (lit "Tools") /\ accepted ex_pl rf_removed (lit "Tools").
Proof.
  split; [ex_dict rf_aff (lit "2
tool/S
tools/K
")|]. split; [vm_compute; reflexivity|]. split; [reflexivity|]. split; [reflexivity|]. split; settle 50.
Qed.

Print Assumptions C65_only_removes.
Print Assumptions C65_concerns_only_that_stem.
Print Assumptions C65_example.
Print Assumptions C65_compound_refuted.
Print Assumptions C65_shared_flag_refuted.
