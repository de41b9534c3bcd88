(** How deep [check] recurses.  [fuel] bounds the depth of [check_compound_impl], the only
    recursion of the checker without a limit of its own (checker.rs 1387 and below; breaking and
    CHECKSHARPS stop at fixed depths, 139-194 and 321-374): fuel as large as the longest spelling
    tried is enough. *)
From Coq Require Import List NArith ZArith Lia Bool Arith.
From Coq Require Import ZifyBool ZifyNat ZifyN.
From Verif Require Import Base Utf8 Unicode Flags Affix Conversion Aff Checker Bag AffixSpec CompoundRule Rep CompoundSpec CompoundTotal RuleCompound
  Spell CheckSpec CheckMono CheckProps BufferOps Ngram Suggester SuggestSpec SuggestLow SuggestMono Dedup SuggestProps Hangs.
Import ListNotations.
Set Implicit Arguments.

(** No character maps to more than [c] characters (in Unicode, three). *)
Definition case_growth (U : unicode) (c : nat) : Prop :=
  1 <= c /\ forall ch, scalar ch -> length (u_lower U ch) <= c /\ length (u_upper U ch) <= c.

Lemma flat_map_length : forall (f : N -> str) c w, (forall x, scalar x -> length (f x) <= c) -> scalars w -> length (flat_map f w) <= c * length w.
Proof.
  intros f c w H Hw. induction Hw as [|x w Hx Hw IH]; [cbn; lia|]. cbn [flat_map length]. rewrite app_length. specialize (H x Hx). lia.
Qed.

Section Case.
Variable U : unicode.
Variable c : nat.
Hypothesis G : case_growth U c.
Variable h : case_handling.
Let C1 : 1 <= c := proj1 G.

Let replaced : forall a b w, scalar b -> scalars w -> scalars (replace_char a b w) /\ length (replace_char a b w) = length w.
Proof.
  intros a b w Hb H. split; [|apply map_length]. induction H as [|x w Hx H IH]; [constructor|]. cbn. constructor; [destruct (_ =? _)%N; assumption|exact IH].
Qed.
Lemma lower_length : forall w, scalars w -> length (lowercase U h w) <= c * length w.
Proof.
  assert (L : forall w b, scalars w -> length (lower_go U b w) <= c * length w).
  { induction w as [|x w IH]; intros b H; [cbn; lia|]. apply Forall_cons_iff in H. destruct H as [Hx H]. cbn [lower_go length]. rewrite app_length.
    specialize (IH (x :: b) H).
    assert (length (if (x =? ch_Sigma)%N then if ignorable_then_cased U b && negb (ignorable_then_cased U w) then [ch_final_sigma] else [ch_sigma]
                     else u_lower U x) <= c).
    { destruct (x =? ch_Sigma)%N; [destruct (_ && _); cbn; lia|]. apply (proj2 G x Hx). }
    lia. }
  intros w H. destruct h; cbn [lowercase]; unfold str_lower; [|apply L, H].
  destruct (@replaced ch_I ch_dotless_i w eq_refl H) as [S1 L1]. destruct (@replaced ch_dotted_I ch_i _ eq_refl S1) as [S2 L2].
  rewrite <- L1, <- L2. apply L, S2.
Qed.
Lemma upper_length : forall w, scalars w -> length (uppercase U h w) <= c * length w.
Proof.
  assert (L : forall w, scalars w -> length (str_upper U w) <= c * length w).
  { intros w. apply flat_map_length. intros x Hx. apply (proj2 G x Hx). }
  intros w H. destruct h; cbn [uppercase]; [|apply L, H].
  destruct (@replaced ch_i ch_dotted_I w eq_refl H) as [S1 L1]. destruct (@replaced ch_dotless_i ch_I _ eq_refl S1) as [S2 L2].
  rewrite <- L1, <- L2. apply L, S2.
Qed.
Lemma lower_char_length : forall x, scalar x -> length (lower_char U h x) <= c.
Proof.
  intros x Hx. destruct h; cbn [lower_char]; [|apply (proj2 G x Hx)].
  repeat match goal with |- context [if ?b then _ else _] => destruct b end; cbn [length]; try lia; apply (proj2 G x Hx).
Qed.
Lemma upper_char_length : forall x, scalar x -> length (upper_char U h x) <= c.
Proof.
  intros x Hx. destruct h; cbn [upper_char]; [|apply (proj2 G x Hx)].
  repeat match goal with |- context [if ?b then _ else _] => destruct b end; cbn [length]; try lia; apply (proj2 G x Hx).
Qed.
Lemma title_length : forall w t, scalars w -> titlecase U h w = Ret t -> length t <= c * length w.
Proof.
  intros [|x w] t H E; [discriminate|]. cbn [titlecase] in E. injection E as <-. apply Forall_cons_iff in H. destruct H as [Hx H].
  rewrite app_length. pose proof (upper_char_length Hx). pose proof (@flat_map_length (lower_char U h) c w lower_char_length H). cbn [length]. lia.
Qed.
End Case.

Lemma title_scalars : forall U h w t, wf_unicode U -> scalars w -> titlecase U h w = Ret t -> scalars t.
Proof.
  intros U h [|x w] t WU H E; [discriminate|]. cbn [titlecase] in E. injection E as <-. apply Forall_cons_iff in H. destruct H as [Hx H].
  apply scalars_app_iff. split; [apply scalars_upper_char; assumption|]. apply scalars_flat_map; [intros; apply scalars_lower_char; assumption|exact H].
Qed.

Section Check.
Variable k : checker.
Hypothesis WF : wf_full k.
Notation A := (ck_aff k).
Notation opts := (ad_options (ck_aff k)).
Notation U := (ck_u k).
Notation case := (o_case (ad_options (ck_aff k))).
Variable c : nat.
Hypothesis G : case_growth U c.
Let C1 : 1 <= c := proj1 G.
Variable fuel : nat.

Lemma compound_within : forall m w fu, length w <= fuel -> live (check_compound k fuel m w fu).
Proof.
  intros m w fu L. unfold check_compound. apply orelse_live.
  - destruct (allows_compounding opts); [|exact I].
    apply (@middle_live k (wff_compound WF) (wff_shrinks WF) fuel m w 0 0 fu (Nat.le_0_l _)). lia.
  - destruct (nonempty _); [|exact I].
    destruct (@rules_settled k (wfc_checker (wff_compound WF)) (wfc_min (wff_compound WF)) w fu) as [r ->]. exact I.
Qed.
Lemma word_within : forall w fu hh, length w <= fuel -> live (check_word k fuel w fu hh).
Proof.
  intros w fu hh L. unfold check_word. destruct (check_simple_word k w hh); [exact I|]. apply settled_bind; [apply compound_within, L|]. intros. exact I.
Qed.
Lemma sharps_within : forall n pre rest r, length pre + length rest <= fuel -> live (do_spell_sharps k fuel n pre rest r).
Proof.
  assert (E : forall pre rest (r : nat), length pre + length rest <= fuel ->
    live (if (0 <? r)%nat then check_word k fuel (pre ++ rest) AllowBadForceucase AcceptHiddenHomonym else Ret None)).
  { intros pre rest r L. destruct (0 <? r); [|exact I]. apply word_within. rewrite app_length. lia. }
  induction n as [|n IH]; intros pre rest r L; cbn [do_spell_sharps]; [apply E, L|].
  destruct (find_sub ss rest) as [idx|] eqn:F; [|apply E, L].
  apply find_sub_sound in F. destruct F as [F FI]. apply (f_equal (@length N)) in F. rewrite !app_length, firstn_length in F.
  apply orelse_live; apply IH; rewrite !app_length, firstn_length, skipn_length; cbn [length ss] in *; lia.
Qed.
Lemma upper_within : forall w, scalars w -> c * length w <= fuel -> live (spell_casing_upper k fuel w).
Proof.
  intros w Hw L. assert (L0 : length w <= fuel) by nia. pose proof (@lower_length U c G case w Hw) as LL.
  assert (T : forall X (f : str -> Res X), (forall t, length t <= fuel -> live (f t)) -> live (bindR (titlecase U case w) f)).
  { intros X f H. destruct (titlecase U case w) as [t| |] eqn:E; [|reflexivity|destruct w; discriminate]. cbn [bindR]. apply H.
    pose proof (@title_length U c G case w t Hw E). lia. }
  unfold spell_casing_upper, spell_sharps. apply orelse_live; [apply word_within, L0|]. apply orelse_live; [|apply orelse_live; [|apply orelse_live]].
  - unfold apostrophe_split. destruct (find_char (N.eqb 39) w) as [idx|]; [|exact I]. destruct (_ =? _); [exact I|].
    pose proof (firstn_skipn (idx + 1) w) as FS. set (p1 := firstn (idx + 1) w) in *. set (p2 := skipn (idx + 1) w) in *. clearbody p1 p2. subst w.
    apply scalars_app_iff in Hw. destruct Hw as [H1 H2]. rewrite app_length in *.
    pose proof (@lower_length U c G case p1 H1) as LP.
    destruct (titlecase U case p2) as [t2| |] eqn:E2; [|reflexivity|destruct p2; discriminate]. cbn [bindR].
    pose proof (@title_length U c G case p2 t2 H2 E2) as L2.
    apply orelse_live; [apply word_within; rewrite app_length; nia|].
    destruct (titlecase U case p1) as [t1| |] eqn:E1; [|reflexivity|destruct p1; discriminate]. cbn [bindR].
    pose proof (@title_length U c G case p1 t1 H1 E1) as L1. apply word_within. rewrite app_length. nia.
  - destruct (_ && _); [|exact I]. apply orelse_live; [apply sharps_within; cbn [length]; lia|]. apply T. intros t Lt. apply sharps_within. cbn [length]. lia.
  - apply T. intros t Lt. apply settled_bind; [apply word_within, Lt|]. intros. exact I.
  - apply settled_bind; [apply word_within; lia|]. intros. exact I.
Qed.
Lemma title_within : forall w, scalars w -> c * length w <= fuel -> live (spell_casing_title k fuel w).
Proof.
  intros w Hw L. assert (L0 : length w <= fuel) by nia. pose proof (@lower_length U c G case w Hw) as LL.
  unfold spell_casing_title. apply orelse_live; [apply word_within, L0|]. cbv zeta. apply settled_bind; [apply word_within; lia|].
  intros [f|] _; [|exact I]. destruct (_ && _); exact I.
Qed.

(** The factor by which a spelling tried may be longer than the word: the options
    [check_lower_as_title] and [check_lower_as_upper] map the case twice. *)
Definition factor : nat := if ck_lower_as_title k || ck_lower_as_upper k then c * c else c.
Lemma factor_le : c <= factor. Proof. unfold factor. destruct (_ || _); nia. Qed.

Lemma casing_within : forall w, scalars w -> factor * length w <= fuel -> live (spell_casing k fuel w).
Proof.
  intros w Hw L. pose proof factor_le as FL. assert (L0 : c * length w <= fuel) by nia. assert (L1 : length w <= fuel) by nia.
  assert (X : forall b, live (check_word k fuel w ForbidBadForceucase AcceptHiddenHomonym ORELSE
    (if ck_lower_as_title k && b then t <- titlecase U case w ;; spell_casing_title k fuel t else Ret None) ORELSE
    (if ck_lower_as_upper k then spell_casing_upper k fuel (uppercase U case w) else Ret None))).
  { intros b. unfold factor in L. apply orelse_live; [apply word_within, L1|]. apply orelse_live.
    - destruct (ck_lower_as_title k); cbn [andb]; [|exact I]. destruct b; [|exact I].
      destruct (titlecase U case w) as [t| |] eqn:E; [|reflexivity|destruct w; discriminate]. cbn [bindR].
      apply title_within; [exact (@title_scalars U case w t (wff_unicode WF) Hw E)|]. pose proof (@title_length U c G case w t Hw E). cbn [orb] in L. nia.
    - destruct (ck_lower_as_upper k); [|exact I]. apply upper_within; [apply scalars_upper; [exact (wff_unicode WF)|exact Hw]|].
      pose proof (@upper_length U c G case w Hw). rewrite orb_true_r in L. nia. }
  unfold spell_casing. cbv zeta. destruct (classify_casing U w); try apply X; [|]; (apply upper_within || apply title_within); assumption.
Qed.
Lemma break_within : forall n w, scalars w -> factor * length w <= fuel -> live (do_spell_break k fuel n w).
Proof.
  assert (AN : forall X (f : X -> Res bool) l, (forall x, live (f x)) -> live (anyR f l)).
  { intros X f l H. induction l as [|x l IH]; [exact I|]. cbn [anyR]. apply settled_bind; [apply H|]. intros b _. destruct b; [exact I|exact IH]. }
  induction n as [|n IH]; intros w Hw L; cbn [do_spell_break]; apply settled_bind; try (apply casing_within; assumption);
    intros [f|] _; try exact I.
  assert (SUB : forall u v t, w = u ++ v ++ t -> live (do_spell_break k fuel n v)).
  { intros u v t ->. rewrite !scalars_app_iff in Hw. apply IH; [tauto|]. rewrite !app_length in L. nia. }
  apply settled_bind.
  { apply AN. intros p. destruct (strip_prefix p w) as [r|] eqn:E; [|exact I]. apply strip_prefix_spec in E.
    apply (SUB p r []). rewrite app_nil_r. exact E. }
  intros b1 _. destruct b1; [exact I|]. apply settled_bind.
  { apply AN. intros p. destruct (strip_suffix p w) as [r|] eqn:E; [|exact I]. apply strip_suffix_spec in E. exact (SUB [] r p E). }
  intros b2 _. destruct b2; [exact I|]. apply AN. intros p. destruct (split_once p w) as [[p1 p2]|] eqn:E; [|exact I].
  apply split_once_sound in E. destruct (negb _); [exact I|]. apply settled_bind; [exact (SUB [] p1 (p ++ p2) E)|].
  intros b _. destruct b; [|exact I]. apply (SUB (p1 ++ p) p2 []). rewrite app_nil_r, <- app_assoc. exact E.
Qed.

Theorem check_within : forall w, scalars w ->
  (forall w', Converts (ct_inner (ad_iconv A)) w w' -> factor * length w' <= fuel) -> live (check k fuel w).
Proof.
  intros w Hw L. unfold check, spell_break. destruct (max_word_len <? blen w)%N; [exact I|].
  destruct (convert_spec (wff_iconv WF) Hw) as (w' & -> & CV). cbn [bindR]. specialize (L w' CV).
  pose proof (Converts_scalars (wff_iconv_out WF) CV Hw) as Hw'. destruct w' as [|c0 w']; [exact I|].
  set (v := c0 :: w') in *. clearbody v.
  assert (TR : exists dots, v = trim_end_dots v ++ dots).
  { destruct (trim_split v) as (n & E & _). eauto. }
  destruct TR as [dots TR]. cbv zeta. destruct (is_number _); [exact I|]. apply settled_bind.
  - apply break_within.
    + rewrite TR in Hw'. apply scalars_app_iff in Hw'. destruct Hw' as [Hw' _]. unfold erase_chars.
      destruct (ad_ignore A); [exact Hw'|]. apply Forall_forall. intros x Hx. apply filter_In in Hx. exact (proj1 (Forall_forall _ _) Hw' x (proj1 Hx)).
    + assert (length (erase_chars (ad_ignore A) (trim_end_dots v)) <= length v); [|nia].
      apply (f_equal (@length N)) in TR. rewrite app_length in TR. unfold erase_chars. destruct (ad_ignore A); [lia|].
      assert (FL : forall (f : N -> bool) w, length (filter f w) <= length w).
      { intros f u. induction u as [|x u IH]; [apply le_n|]. cbn [filter]. destruct (f x); cbn [length]; lia. }
      specialize (FL (fun c => negb (memb c (n :: l))) (trim_end_dots v)). lia.
  - intros b _. destruct b; [exact I|]. destruct (negb _); [|exact I]. apply break_within; [exact Hw'|exact L].
Qed.
End Check.
