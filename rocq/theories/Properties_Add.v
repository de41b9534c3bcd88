(** Property C64: adding a word without flags only adds acceptances, and only for the texts that
    are read as that word. *)
From Coq Require Import String Ascii List NArith ZArith Lia Bool Arith Permutation FunctionalExtensionality.
From Verif Require Import Base Utf8 Unicode Flags Bag Condition Affix Conversion Aff Checker AffixSpec CompoundRule Rep CompoundSpec
  CompoundTotal RuleCompound Spell CheckSpec CheckMono CheckProps Parser ParserSafe Lib LibSpec LibProps ParserProps Examples PlainAdd EntryChange
  Properties_Affix Properties_Compound Properties_Check Properties_Dict.
Import ListNotations.
Local Open Scope string_scope.
Local Open Scope list_scope.
Local Open Scope nat_scope.
Set Implicit Arguments.

(** No spelling has two entries with different flags. *)
Definition Uniform (d : dictionary) : Prop := forall s f g, listed d s f -> listed d s g -> f = g.
(** The hash table yields the entries of every spelling in the order it did before; the new
    entry is one more entry of [s]. *)
Definition InOrder (d d' : dictionary) (s : str) (f : flagset) : Prop :=
  (forall v, v <> s -> entries d' v = entries d v) /\
  exists a b, entries d s = a ++ b /\ entries d' s = a ++ f :: b.
(** The texts that [check] looks up as wholes for [w]: the pieces it falls into. *)
Definition Looked (d : dictionary) (w x : str) : Prop := exists w', Converts (ct_inner (ad_iconv (d_aff d))) w w' /\
  (Piece (ad_breaks (d_aff d)) 9 (filter (fun c => negb (memb c (ad_ignore (d_aff d)))) (trim_end_dots w')) x \/
   Piece (ad_breaks (d_aff d)) 9 w' x).

(** An unbreakable word is its only piece. *)
Lemma piece_unbreakable : forall k n w x, Unbreakable k w -> Piece (ad_breaks (ck_aff k)) n w x -> x = w.
Proof.
  intros k n w x (U1 & U2 & U3) H. destruct H as [n w|n p w x I H|n p w x I H|n p u v x I N H|n p u v x I N H]; [reflexivity|exfalso..].
  - exact (U1 p w I eq_refl).
  - exact (U2 p w I eq_refl).
  - exact (U3 p u v I eq_refl).
  - exact (U3 p u v I eq_refl).
Qed.

(** A lookup function that treats the pieces of [w] alike treats [w] alike. *)
Lemma break_frame : forall k get fuel n w,
  (forall x, Piece (ad_breaks (ck_aff k)) n w x -> spell_casing (with_entries k get) fuel x = spell_casing k fuel x) ->
  do_spell_break (with_entries k get) fuel n w = do_spell_break k fuel n w.
Proof.
  intros k get fuel. change (ad_breaks (ck_aff k)) with (ad_breaks (ck_aff (with_entries k get))). set (k' := with_entries k get).
  assert (EA : ad_breaks (ck_aff k') = ad_breaks (ck_aff k)) by reflexivity.
  assert (AF : accepted_flags k' = accepted_flags k) by reflexivity. rewrite EA.
  induction n as [|n IH]; intros w H; cbn [do_spell_break]; rewrite (H w (Piece_self _ _ _)), AF; [reflexivity|]. rewrite EA.
  apply bind_ext. intros [fl|] _; [reflexivity|].
  rewrite (@anyR_same _ (fun pattern => match strip_prefix pattern w with Some rest => do_spell_break k' fuel n rest | None => Ret false end)
      (fun pattern => match strip_prefix pattern w with Some rest => do_spell_break k fuel n rest | None => Ret false end)).
  2:{ intros p Hp. destruct (strip_prefix p w) as [r|] eqn:E; [|reflexivity]. apply strip_prefix_spec in E. subst w. apply IH.
      intros x Hx. apply H. apply Piece_start; assumption. }
  apply bind_ext. intros b1 _. destruct b1; [reflexivity|].
  rewrite (@anyR_same _ (fun pattern => match strip_suffix pattern w with Some rest => do_spell_break k' fuel n rest | None => Ret false end)
      (fun pattern => match strip_suffix pattern w with Some rest => do_spell_break k fuel n rest | None => Ret false end)).
  2:{ intros p Hp. destruct (strip_suffix p w) as [r|] eqn:E; [|reflexivity]. apply strip_suffix_spec in E. subst w. apply IH.
      intros x Hx. apply H. apply Piece_end; assumption. }
  apply bind_ext. intros b2 _. destruct b2; [reflexivity|].
  apply anyR_same. intros p Hp. destruct (split_once p w) as [[a b]|] eqn:E; [|reflexivity].
  apply split_first in E. destruct E as [E _]. subst w. destruct (nonempty b) eqn:NE; [|reflexivity]. cbn [negb].
  assert (b <> []) by (intros ->; discriminate).
  rewrite (IH a) by (intros x Hx; apply H, Piece_left; assumption). rewrite (IH b) by (intros x Hx; apply H, Piece_right; assumption).
  reflexivity.
Qed.
Lemma check_frame : forall pl d get fuel w, wf_platform pl -> Reachable pl d -> scalars w ->
  let k := checker_of pl d false false in
  (forall x, scalars x -> Looked d w x -> spell_casing (with_entries k get) fuel x = spell_casing k fuel x) ->
  check (with_entries k get) fuel w = check k fuel w.
Proof.
  intros pl d get fuel w WP R Hw k CF.
  assert (IC : conv_table_ok (ad_iconv (d_aff d)) /\ Forall (fun c => scalars (cv_to c)) (ct_inner (ad_iconv (d_aff d)))).
  { destruct (do_aff (reachable_ok WP R)) as (x & LP & CO). destruct (aff_facts WP LP CO) as (_ & _ & _ & _ & _ & _ & _ & I1 & I2 & _). split; [exact I1|exact I2]. }
  assert (PS : forall n v x, Piece (ad_breaks (d_aff d)) n v x -> scalars v -> scalars x).
  { intros n v x HP. induction HP as [n v|n p v x I HP IH|n p v x I HP IH|n p u v x I N HP IH|n p u v x I N HP IH]; intro Hv; [exact Hv| | | |];
      repeat (apply Forall_app in Hv; destruct Hv as [? Hv]); auto; apply IH; assumption. }
  unfold check. change (ck_aff (with_entries k get)) with (d_aff d). change (ck_aff k) with (d_aff d).
  destruct (max_word_len <? blen w)%N; [reflexivity|].
  destruct (convert_spec (proj1 IC) Hw) as (w' & E & C). rewrite E. pose proof (Converts_scalars (proj2 IC) C Hw) as Hw'. cbn [bindR]. destruct w' as [|c w']; [reflexivity|].
  destruct (is_number _); [reflexivity|]. unfold spell_break. rewrite !break_frame; [reflexivity|..].
  - intros x Hx. apply CF; [exact (PS _ _ _ Hx Hw')|]. exists (c :: w'). split; [exact C|]. right. exact Hx.
  - intros x Hx. apply CF; [apply (PS _ _ _ Hx); rewrite erase_chars_filter; apply scalars_filter, scalars_trim; exact Hw'|].
    exists (c :: w'). split; [exact C|]. left. rewrite <- erase_chars_filter. exact Hx.
Qed.

Section Add.
Variable pl : platform.
Hypothesis WP : wf_platform pl.
Variable d : dictionary.
Hypothesis R : Reachable pl d.
Let OK : dict_ok pl d := reachable_ok WP R.
Notation k := (checker_of pl d false false).
Variables (line s : str) (f : flagset) (d' : dictionary).
Hypothesis LINE : scalars line.
Hypothesis WORD : Parses pl d line s f.
Hypothesis ADD : add pl d line = Ret (Ok tt, d').
Notation k' := (checker_of pl d' false false).

(** If no spelling has two different entries, nothing depends on the order of the hash table. *)
Theorem C64_uniform_in_order : Uniform d -> InOrder d d' s f.
Proof.
  intros UF. destruct (@add_entries pl WP d line _ d' ADD) as [_ (w & g & HP & _ & P1 & P2)]. unfold Parses in WORD. rewrite WORD in HP.
  injection HP as <- <-.
  assert (UE : forall v x y, In x (entries d v) -> In y (entries d v) -> x = y).
  { intros v x y Hx Hy. apply entries_In in Hx, Hy. exact (UF v x y Hx Hy). }
  split.
  - intros v N. symmetry. apply uniform_perm; [exact (P1 v N)|exact (UE v)].
  - assert (I : In f (entries d' s)) by (apply (Permutation_in _ P2); left; reflexivity).
    apply in_split in I. destruct I as (a & b & E). exists a, b. split; [|exact E]. rewrite E in P2.
    apply (@Permutation_cons_app_inv _ _ a b f) in P2. apply uniform_perm; [exact P2|exact (UE s)].
Qed.

Hypothesis ORDER : InOrder d d' s f.
Lemma add_aff : d_aff d' = d_aff d.
Proof. exact (proj1 (@add_entries pl WP d line _ d' ADD)). Qed.
Lemma add_reach : Reachable pl d'.
Proof. apply (@reach_call pl d (CallAdd line) d' R LINE). cbn [do_call]. rewrite ADD. reflexivity. Qed.
Lemma new_checker : k' = with_entries k (entries d').
Proof.
  unfold with_entries, checker_of. cbn [ck_u ck_overflow_checks ck_aff ck_lower_as_title ck_lower_as_upper]. rewrite add_aff. f_equal.
  extensionality v. exact (@entries_get pl WP d' false false v).
Qed.
Lemma inserted : forall v, Inserted k (entries d') f v.
Proof.
  intro v. unfold Inserted. rewrite (@entries_get pl WP d false false v). destruct ORDER as [O1 O2].
  destruct (str_eqb v s) eqn:E.
  - apply str_eqb_eq in E. subst v. right. exact O2.
  - left. apply O1. intros ->. rewrite str_eqb_refl in E. discriminate.
Qed.

(** ** Only additions *)
Lemma adds_of : Shrinks (d_aff d) -> strict k = true ->
  (wf_full (with_entries k (entries d')) -> forall w w', scalars w' -> AcceptsAs k w w' -> AcceptsAs (with_entries k (entries d')) w w') ->
  forall w, scalars w -> accepted pl d w -> accepted pl d' w.
Proof.
  intros SH ST AG w Hw HA. pose proof (@dict_wf_full pl WP d OK false false SH) as WF.
  assert (WF' : wf_full k') by (apply (dict_wf_full WP (reachable_ok WP add_reach)); rewrite add_aff; exact SH).
  destruct (iconv_spec WF Hw) as (w' & E & _ & Hw').
  destruct (@check_spec_at k WF (conj eq_refl eq_refl) ST w w' Hw' E) as (b & Hb & B).
  pose proof (eventually_det Hb HA) as X. injection X as ->. pose proof (proj1 B eq_refl) as AC. clear B Hb.
  rewrite new_checker in WF'. apply (AG WF' w w' Hw') in AC.
  destruct (@check_spec_at (with_entries k (entries d')) WF' (conj eq_refl eq_refl) ST w w' Hw' E) as (b & Hb & B).
  rewrite (proj2 B AC) in Hb. unfold accepted, dict_check. rewrite new_checker. exact Hb.
Qed.

(** Without compounding, the new entry may have flags, as long as they do not bar it or confine it
    to one casing. *)
Theorem C64_flagged_only_adds : Shrinks (d_aff d) -> strict k = true ->
  allows_compounding (ad_options (d_aff d)) = false -> rt_rules (ad_rules (d_aff d)) = [] ->
  ~ Barred d f -> ~ marked (o_keep_case (ad_options (d_aff d))) f ->
  forall w, scalars w -> accepted pl d w -> accepted pl d' w.
Proof.
  intros SH ST NC NR HB HK. apply (adds_of SH ST). intro WF'.
  assert (Wf : wf_flagset f).
  { destruct (@add_entries pl WP d line _ d' ADD) as [_ (w & g & HP & _ & _ & P)]. unfold Parses in WORD. rewrite WORD in HP. injection HP as <- <-.
    destruct (@dict_entry_ok pl d' (reachable_ok WP add_reach) s f) as (_ & _ & Q); [|exact (proj1 Q)]. apply (Permutation_in _ P). left. reflexivity. }
  apply (@accepts_lift k (entries d') f); try assumption.
  - intros. apply grown_word; [exact inserted|split; assumption].
  - destruct (keep_case k f) eqn:E; [|reflexivity]. exfalso. apply HK. apply (@keep_spec k f Wf). exact E.
  - apply (accepted_spec k Wf). exact HB.
  - split; reflexivity.
Qed.

Hypothesis PLAIN : f = [].
Hypothesis NOREP : o_check_rep (ad_options (d_aff d)) = false.
Lemma wide : forall v, Widened k (entries d') v.
Proof. intro v. pose proof (inserted v) as H. unfold Inserted in H. rewrite PLAIN in H. exact H. Qed.
Theorem C64_only_adds : Shrinks (d_aff d) -> strict k = true -> forall w, scalars w -> accepted pl d w -> accepted pl d' w.
Proof.
  intros SH ST. apply (adds_of SH ST). intro WF'. apply accepts_grows; try assumption; [exact wide|split; reflexivity].
Qed.

(** ** Nothing else *)
Theorem C64_concerns_only_that_word : forall w, scalars w ->
  (forall x v fu hh ok, Looked d w x -> Reading pl d x v fu hh ok -> v <> s) ->
  forall fuel, dict_check pl d' fuel w = dict_check pl d fuel w.
Proof.
  intros w Hw H fuel. unfold dict_check.
  assert (CF : forall x, (forall v fu hh ok, Reading pl d x v fu hh ok -> v <> s) -> spell_casing k' fuel x = spell_casing k fuel x).
  { intros x HX. rewrite new_checker. apply casing_frame; [exact NOREP|exact (@wide_keeps k (entries d') wide)|reflexivity|reflexivity|].
    intros a Ha. rewrite (@entries_get pl WP d false false). apply (proj1 ORDER). destruct x as [|c x].
    - cbn [plan classify_casing] in Ha. destruct Ha as [<-|[]]. cbn [at_word]. apply (HX [] ForbidBadForceucase AcceptHiddenHomonym any_flags). apply Reading_plain; discriminate.
    - destruct (@plan_reading pl d (c :: x) a ltac:(discriminate) Ha) as (ok & HR & _). exact (HX _ _ _ _ HR). }
  rewrite new_checker. apply check_frame; [assumption..|]. intros x _ HL. rewrite <- new_checker. apply CF. intros v fu hh ok. apply (H x _ _ _ _ HL).
Qed.
End Add.

(** ** Cases *)
(** A dictionary with affixes, a break pattern and a homonym-free list, to which [tools] is added. *)
Definition pa_aff : str := lit "COMPOUNDFLAG C
COMPOUNDMIN 3
SFX S Y 1
SFX S 0 s .
".
Definition pa : dictionary := Eval vm_compute in (the (built ex_pl pa_aff (lit "2
tool/CS
bar/C
")) <: dictionary).
Definition pa_added : dictionary := Eval vm_compute in
  (the (match add ex_pl pa (lit "rebar") with Ret (Ok _, d) => Some d | _ => None end) <: dictionary).
Example C64_example : Reachable ex_pl pa /\ Parses ex_pl pa (lit "rebar") (lit "rebar") [] /\
  add ex_pl pa (lit "rebar") = Ret (Ok tt, pa_added) /\ Uniform pa /\ InOrder pa pa_added (lit "rebar") [] /\
  o_check_rep (ad_options (d_aff pa)) = false /\ Shrinks (d_aff pa) /\ strict (checker_of ex_pl pa false false) = true /\
  accepted ex_pl pa (lit "tools-toolbar") /\ accepted ex_pl pa_added (lit "tools-toolbar") /\
  rejected ex_pl pa (lit "tools-rebar") /\ accepted ex_pl pa_added (lit "tools-rebar") /\
  (forall x v fu hh ok, Looked pa (lit "Toolbra") x -> Reading ex_pl pa x v fu hh ok -> v <> lit "rebar").
Proof.
  split; [ex_dict pa_aff (lit "2
tool/CS
bar/C
")|]. split; [vm_compute; reflexivity|]. split; [vm_compute; reflexivity|].
  assert (UF : Uniform pa).
  { intros s f g Hf Hg. unfold listed, pa in Hf, Hg. cbn [d_words In] in Hf, Hg.
    repeat match goal with H : _ \/ _ |- _ => destruct H | H : False |- _ => destruct H end; congruence. }
  split; [exact UF|]. split; [apply (@C64_uniform_in_order ex_pl ex_pl_wf pa (lit "rebar")); [vm_compute; reflexivity|vm_compute; reflexivity|exact UF]|].
  split; [reflexivity|]. split; [apply plain_shrinks; reflexivity|]. split; [reflexivity|].
  split; [settle 50|]. split; [settle 50|]. split; [settle 50|]. split; [settle 50|].
  intros x v fu hh ok (w' & HC & HP) HR.
  assert (w' = lit "Toolbra") as -> by (exact (@no_iconv_same (checker_of ex_pl pa false false) eq_refl _ _ HC)).
  assert (x = lit "Toolbra") as ->.
  { assert (UB : Unbreakable (checker_of ex_pl pa false false) (lit "Toolbra")) by (apply unbreakable_dec; reflexivity).
    destruct HP as [HP|HP]; exact (piece_unbreakable UB HP). }
  inversion HR; subst; try discriminate.
Qed.

(** With CHECKCOMPOUNDREP a new word can take a compound away: [foobar] is similar to [foear]. *)
Definition pr_aff : str := lit "COMPOUNDFLAG C
COMPOUNDMIN 3
CHECKCOMPOUNDREP
REP 1
REP ob e
".
Definition pr : dictionary := Eval vm_compute in (the (built ex_pl pr_aff (lit "2
foo/C
bar/C
")) <: dictionary).
Definition pr_added : dictionary := Eval vm_compute in
  (the (match add ex_pl pr (lit "foear") with Ret (Ok _, d) => Some d | _ => None end) <: dictionary).
Theorem C64_checkcompoundrep_refuted : Reachable ex_pl pr /\ add ex_pl pr (lit "foear") = Ret (Ok tt, pr_added) /\
  Parses ex_pl pr (lit "foear") (lit "foear") [] /\ Uniform pr /\
  accepted ex_pl pr (lit "foobar") /\ rejected ex_pl pr_added (lit "foobar") /\
  forall fu hh ok, ~ Reading ex_pl pr (lit "foobar") (lit "foear") fu hh ok.
Proof.
  split; [ex_dict pr_aff (lit "2
foo/C
bar/C
")|]. split; [vm_compute; reflexivity|]. split; [vm_compute; reflexivity|].
  split.
  { intros s f g Hf Hg. unfold listed, pr in Hf, Hg. cbn [d_words In] in Hf, Hg.
    repeat match goal with H : _ \/ _ |- _ => destruct H | H : False |- _ => destruct H end; congruence. }
  split; [settle 50|]. split; [settle 50|]. intros fu hh ok H. inversion H; subst; discriminate.
Qed.

(** An entry with flags can take a compound away: its new compound is found first, and is confined
    to lower case. *)
Definition pk_aff : str := lit "COMPOUNDFLAG C
COMPOUNDMIN 1
KEEPCASE K
".
Definition pk : dictionary := Eval vm_compute in (the (built ex_pl pk_aff (lit "3
foo/CK
fooba/C
r/C
")) <: dictionary).
Definition pk_added : dictionary := Eval vm_compute in
  (the (match add ex_pl pk (lit "bar/C") with Ret (Ok _, d) => Some d | _ => None end) <: dictionary).
Theorem C64_flagged_compound_refuted : Reachable ex_pl pk /\ add ex_pl pk (lit "bar/C") = Ret (Ok tt, pk_added) /\
  Parses ex_pl pk (lit "bar/C") (lit "bar") (lit "C") /\ Uniform pk /\ ~ Barred pk (lit "C") /\
  ~ marked (o_keep_case (ad_options (d_aff pk))) (lit "C") /\ o_check_rep (ad_options (d_aff pk)) = false /\
  accepted ex_pl pk (lit "Foobar") /\ rejected ex_pl pk_added (lit "Foobar").
Proof.
  split; [ex_dict pk_aff (lit "3
foo/CK
fooba/C
r/C
")|]. split; [vm_compute; reflexivity|]. split; [vm_compute; reflexivity|].
  split.
  { intros s f g Hf Hg. unfold listed, pk in Hf, Hg. cbn [d_words In] in Hf, Hg.
    repeat match goal with H : _ \/ _ |- _ => destruct H | H : False |- _ => destruct H end; congruence. }
  split; [intros [[X|[]]|[X _]]; discriminate X|]. split; [intros (x & X & [<-|[]]); discriminate X|].
  split; [reflexivity|]. split; settle 50.
Qed.
Example C64_flagged_example : exists d', Reachable ex_pl lk /\ add ex_pl lk (lit "rock/S") = Ret (Ok tt, d') /\
  Parses ex_pl lk (lit "rock/S") (lit "rock") (lit "S") /\ Uniform lk /\
  allows_compounding (ad_options (d_aff lk)) = false /\ rt_rules (ad_rules (d_aff lk)) = [] /\
  ~ Barred lk (lit "S") /\ ~ marked (o_keep_case (ad_options (d_aff lk))) (lit "S") /\
  accepted ex_pl lk (lit "Locks") /\ accepted ex_pl d' (lit "Locks") /\ rejected ex_pl lk (lit "rocks") /\ accepted ex_pl d' (lit "rocks").
Proof.
  eexists. split; [exact (proj1 C25_conjugation_stays_refuted)|]. split; [vm_compute; reflexivity|]. split; [vm_compute; reflexivity|].
  split.
  { intros s f g Hf Hg. unfold listed, lk in Hf, Hg. cbn [d_words In] in Hf, Hg.
    repeat match goal with H : _ \/ _ |- _ => destruct H | H : False |- _ => destruct H end; congruence. }
  split; [reflexivity|]. split; [reflexivity|]. split; [intros [[X|[]]|[X _]]; discriminate X|].
  split; [intros (x & X & _); discriminate X|]. split; [settle 50|]. split; [settle 50|]. split; settle 50.
Qed.

Print Assumptions C64_uniform_in_order.
Print Assumptions C64_only_adds.
Print Assumptions C64_flagged_only_adds.
Print Assumptions C64_concerns_only_that_word.
Print Assumptions C64_checkcompoundrep_refuted.
Print Assumptions C64_flagged_compound_refuted.
