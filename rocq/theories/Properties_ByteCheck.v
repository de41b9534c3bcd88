(** Property C78: checking a word on its bytes.  [ByteCheck.b_check] is [check] with the byte
    offsets of the code; here it is shown to give the answer of the model on characters. *)
From Coq Require Import String Ascii List NArith ZArith Lia Bool Arith Permutation.
From Verif Require Import Base Utf8 Unicode Flags Condition Affix Conversion Aff Checker AffixSpec CompoundRule Rep CompoundSpec CompoundTotal
  RuleCompound Spell CheckSpec CheckMono CheckProps Parser ParserSafe Lib LibSpec LibProps Examples ByteCompound ByteOffsets
  ByteCompoundSpec ByteCheck ByteCheckSpec Properties_Affix Properties_Check Properties_Offsets.
Import ListNotations.
Local Open Scope string_scope.
Local Open Scope list_scope.
Local Open Scope nat_scope.
Set Implicit Arguments.

(** ** Where the word is cut *)
(** After the first apostrophe, unless nothing follows it. *)
Theorem C78_apostrophe : forall w, scalars w ->
  (forall u v, w = u ++ 39%N :: v -> ~ In 39%N u -> v <> [] ->
     b_apostrophe (enc w) = Ret (Some (enc (u ++ [39%N]), enc v))) /\
  (~ In 39%N w \/ (exists u, w = u ++ [39%N] /\ ~ In 39%N u) -> b_apostrophe (enc w) = Ret None).
Proof.
  intros w Hw. assert (FC : forall u v, ~ In 39%N u -> find_char (N.eqb 39) (u ++ 39%N :: v) = Some (length u)).
  { intros u v H. apply find_char_app; [reflexivity|]. apply forallb_forall. intros x Hx. apply negb_true_iff, N.eqb_neq. intros <-. exact (H Hx). }
  rewrite (@apostrophe_enc w Hw). unfold apostrophe_split. split.
  - intros u v -> H NE. rewrite FC by exact H. rewrite app_length. cbn [length]. destruct v as [|c v]; [contradiction|]. cbn [length].
    rewrite (proj2 (Nat.eqb_neq _ _)) by lia.
    assert (F1 : firstn (length u + 1) (u ++ 39%N :: c :: v) = u ++ [39%N]).
    { change (39%N :: c :: v) with ([39%N] ++ c :: v). rewrite app_assoc. apply firstn_app_exact. rewrite app_length. reflexivity. }
    assert (F2 : skipn (length u + 1) (u ++ 39%N :: c :: v) = c :: v).
    { change (39%N :: c :: v) with ([39%N] ++ c :: v). rewrite app_assoc. apply skipn_app_exact. rewrite app_length. reflexivity. }
    rewrite F1, F2. reflexivity.
  - intros [H|(u & -> & H)].
    + destruct (find_char (N.eqb 39) w) as [i|] eqn:E; [|reflexivity]. exfalso. apply find_char_some in E.
      destruct E as (u & c & v & -> & _ & Ec & _). apply N.eqb_eq in Ec. subst c. apply H, in_or_app. right. left. reflexivity.
    + rewrite FC by exact H. rewrite app_length. cbn [length]. replace (length u + 1 - 1) with (length u) by lia. rewrite Nat.eqb_refl. reflexivity.
Qed.
Print Assumptions C78_apostrophe.

(** At the first occurrence of a BREAK pattern, or at the pattern at either end. *)
Theorem C78_breaks : forall p w, scalars p -> scalars w ->
  (forall v, w = p ++ v -> b_strip_prefix p (enc w) = Ret (Some (enc v))) /\
  (forall v, w = v ++ p -> b_strip_suffix p (enc w) = Ret (Some (enc v))) /\
  (forall u v, w = u ++ p ++ v -> (forall u' v', w = u' ++ p ++ v' -> length u <= length u') ->
     b_split_once p (enc w) = Ret (Some (enc u, enc v))) /\
  ((forall v, w <> p ++ v) -> b_strip_prefix p (enc w) = Ret None) /\
  ((forall v, w <> v ++ p) -> b_strip_suffix p (enc w) = Ret None) /\
  ((forall u v, w <> u ++ p ++ v) -> b_split_once p (enc w) = Ret None).
Proof.
  intros p w Hp Hw. rewrite strip_prefix_enc, strip_suffix_enc, split_once_enc by assumption. repeat split.
  - intros v E. apply strip_prefix_spec in E. rewrite E. reflexivity.
  - intros v E. apply strip_suffix_spec in E. rewrite E. reflexivity.
  - intros u v E M. unfold split_once. destruct (find_sub p w) as [i|] eqn:F.
    + pose proof (@find_sub_first p w i u v F E) as L1. pose proof (find_sub_sound _ _ F) as [EF L].
      specialize (M _ _ EF). rewrite firstn_length in M. assert (i = length u) by lia. subst i.
      cbn [option_map both fst snd]. rewrite E. rewrite firstn_app_exact by reflexivity.
      rewrite app_assoc, skipn_app_exact by (rewrite app_length; reflexivity). reflexivity.
    + exfalso. exact (proj1 (find_sub_none _ _) F u v E).
  - intros H. destruct (strip_prefix p w) as [v|] eqn:E; [|reflexivity]. apply strip_prefix_spec in E. destruct (H v E).
  - intros H. destruct (strip_suffix p w) as [v|] eqn:E; [|reflexivity]. apply strip_suffix_spec in E. destruct (H v E).
  - intros H. unfold split_once. destruct (find_sub p w) as [i|] eqn:F; [|reflexivity]. pose proof (find_sub_sound _ _ F) as [EF _]. destruct (H _ _ EF).
Qed.
Print Assumptions C78_breaks.

(** Full stops at the end are dropped, and the lengths in bytes tell whether there were any. *)
Theorem C78_full_stops : forall v n, scalars v -> no_final_dot v ->
  b_trim_dots (enc (v ++ dots n)) = enc v /\
  ((length (b_trim_dots (enc (v ++ dots n))) =? length (enc (v ++ dots n))) = (n =? 0)).
Proof.
  intros v n Hv ND. assert (T : b_trim_dots (enc (v ++ dots n)) = enc v).
  { rewrite trim_enc. - f_equal. rewrite trim_dots. apply trim_id. exact ND.
    - apply Forall_app. split; [exact Hv|]. induction n; [constructor|]. constructor; [reflexivity|assumption]. }
  split; [exact T|]. rewrite T, enc_app, app_length. destruct n as [|n].
  - change (enc (dots 0)) with (@nil N). cbn [length]. rewrite Nat.add_0_r, !Nat.eqb_refl. reflexivity.
  - pose proof (enc_length (dots (S n))) as L. cbn [length dots] in L. rewrite (proj2 (Nat.eqb_neq (S n) 0)) by lia. apply Nat.eqb_neq. change (dots (S n)) with (46%N :: dots n). lia.
Qed.
Print Assumptions C78_full_stops.

Section Dict.
Variable pl : platform.
Hypothesis WP : wf_platform pl.
Variable d : dictionary.
Hypothesis R : Reachable pl d.
Let OK : dict_ok pl d := reachable_ok WP R.
Notation k := (checker_of pl d).

Lemma break_class_scalars : forall b, scalars b -> match break_class b with inl (inl x) | inl (inr x) | inr x => scalars x end.
Proof.
  intros b Hb. unfold break_class. destruct (strip_prefix [94%N] b) as [x|] eqn:E.
  - apply strip_prefix_spec in E. subst b. apply Forall_app in Hb. apply Hb.
  - destruct (strip_suffix [36%N] b) as [x|] eqn:E2; [|exact Hb]. apply strip_suffix_spec in E2. subst b. apply Forall_app in Hb. apply Hb.
Qed.
Lemma breaks_scalars : forall lt lu, Forall scalars (start_breaks (ad_breaks (ck_aff (k lt lu))) ++ end_breaks (ad_breaks (ck_aff (k lt lu))) ++
  middle_breaks (ad_breaks (ck_aff (k lt lu)))).
Proof.
  intros lt lu. cbn [ck_aff checker_of]. destruct (do_aff OK) as (x & LP & CO).
  destruct (@collect_ok pl (wp_sort_affixes WP) x LP) as (a' & E & H). rewrite CO in E. injection E as <-.
  destruct H as (_ & _ & _ & _ & -> & -> & -> & _). pose proof (lo_breaks LP) as B. rewrite Forall_forall in B.
  rewrite !Forall_app. repeat split; apply Forall_forall; intros s Hs; apply in_flat_map in Hs; destruct Hs as (b & Hb & Hs);
    destruct (B b Hb) as [_ SB]; apply break_class_scalars in SB; destruct (break_class b) as [[y|y]|y];
    solve [destruct Hs as [<-|[]]; exact SB | destruct Hs].
Qed.

(** ** C78 *)
(** Conversion before the check works on byte offsets; it yields the converted text. *)
Theorem C78_conversions : forall w, scalars w -> exists out,
  b_convert (ad_iconv (d_aff d)) (enc w) = Ret (enc out) /\ Converts (ct_inner (ad_iconv (d_aff d))) w out.
Proof.
  intros w Hw. destruct (do_aff OK) as (x & LP & CO). destruct (aff_facts WP LP CO) as (_ & _ & _ & _ & _ & _ & _ & I1 & I2 & _).
  destruct (convert_spec I1 Hw) as (out & E & C). exists out. rewrite convert_enc by assumption. rewrite E. auto.
Qed.

(** The answer on the bytes is the answer on the characters, with any options and in builds with
    and without debug assertions. *)
Theorem C78_check_agrees : forall lt lu dbg fuel w, scalars w ->
  b_check (k lt lu) dbg fuel (enc w) = check (k lt lu) fuel w.
Proof.
  intros lt lu dbg fuel w Hw. destruct (do_aff OK) as (x & LP & CO).
  destruct (aff_facts WP LP CO) as (_ & _ & _ & _ & _ & _ & _ & I1 & I2 & _).
  apply check_enc; [apply WP|apply dict_wf_compound; [exact WP|exact OK]|exact I1|exact I2|apply (replacements_scalars WP R)|apply breaks_scalars|exact Hw].
Qed.

(** In particular no slice taken while checking is out of bounds or off a character boundary,
    and no overwritten buffer stops being UTF-8. *)
Theorem C78_check_returns : Shrinks (d_aff d) ->
  pl_overflow_checks pl = false \/ ad_vowels (d_aff d) = [] -> forall dbg w, scalars w ->
  exists b, Eventually (fun fuel => b_check (k false false) dbg fuel (enc w)) (Ret b) /\
    (b = true <-> accepted pl d w) /\ (b = false <-> rejected pl d w).
Proof.
  intros SH HO dbg w Hw.
  assert (X : forall b, Eventually (fun fuel => dict_check pl d fuel w) (Ret b) -> Eventually (fun fuel => b_check (k false false) dbg fuel (enc w)) (Ret b)).
  { intros b [n E]. exists n. intros m Hm. rewrite C78_check_agrees by exact Hw. exact (E m Hm). }
  assert (Y : accepted pl d w -> rejected pl d w -> False).
  { intros [n E1] [m E2]. specialize (E1 (n + m) ltac:(lia)). specialize (E2 (n + m) ltac:(lia)). cbv beta in *. rewrite E1 in E2. discriminate. }
  destruct (C01_check_returns WP R SH HO Hw) as [A|A]; [exists true|exists false]; (split; [apply X; exact A|]); split; split; intro H;
    try reflexivity; try exact A; try discriminate; try (destruct (Y H A)); try (destruct (Y A H)).
Qed.
Theorem C78_never_panics : Shrinks (d_aff d) ->
  pl_overflow_checks pl = false \/ ad_vowels (d_aff d) = [] -> forall dbg fuel w, scalars w ->
  b_check (k false false) dbg fuel (enc w) <> Panic.
Proof.
  intros SH HO dbg fuel w Hw P. rewrite C78_check_agrees in P by exact Hw.
  apply check_settles in P; [|discriminate]. destruct P as [n E1].
  destruct (C01_check_returns WP R SH HO Hw) as [[m E2]|[m E2]]; specialize (E1 (n + m) ltac:(lia)); specialize (E2 (n + m) ltac:(lia));
    unfold dict_check in E2; cbv beta in E1; rewrite E1 in E2; discriminate.
Qed.
End Dict.
Print Assumptions C78_conversions.
Print Assumptions C78_check_agrees.
Print Assumptions C78_check_returns.
Print Assumptions C78_never_panics.

(** ** Example: [ﬁ] is read as [fi], words are broken at [—] and [L’'ETE] is [l’'Ete] *)
Definition narrow_aff : str := lit "ICONV 1
ICONV " ++ [64257%N] ++ lit " fi
BREAK 2
BREAK " ++ [8212%N] ++ lit "
BREAK ^" ++ [191%N] ++ lit "
CHECKSHARPS
".
Definition narrow_dic : str := lit "4
fin
stra" ++ [223%N] ++ lit "e
l" ++ [8217; 39]%N ++ lit "Ete
etc.
".
Definition narrow : dictionary := Eval vm_compute in (the (built ex_pl narrow_aff narrow_dic) <: dictionary).
Lemma narrow_reachable : Reachable ex_pl narrow. Proof. ex_dict narrow_aff narrow_dic. Qed.

Definition on_bytes (w : str) : Res bool := b_check (checker_of ex_pl narrow false false) true 9 (enc w).
Example C78_example :
  on_bytes ([191; 64257]%N ++ lit "n" ++ [8212%N] ++ [64257%N] ++ lit "n") = Ret true /\
  on_bytes (lit "fin" ++ [8212%N]) = Ret false /\
  on_bytes (lit "L" ++ [8217; 39]%N ++ lit "ETE") = Ret true /\
  on_bytes (lit "STRASSE") = Ret true /\
  on_bytes (lit "etc.") = Ret true /\ on_bytes (lit "etc") = Ret false /\
  b_apostrophe (enc ([233; 39; 233]%N)) = Ret (Some (enc [233; 39]%N, enc [233%N])) /\
  ad_vowels (d_aff narrow) = [] /\ Shrinks (d_aff narrow).
Proof.
  repeat (split; [vm_compute; reflexivity|]). apply plain_shrinks; reflexivity.
Qed.
Print Assumptions C78_example.
