(** Entries without flags: what they change. *)
From Coq Require Import List NArith ZArith Lia Bool Arith Permutation FunctionalExtensionality.
From Verif Require Import Base Utf8 Unicode Flags Condition Affix AffixSpec CompoundRule Rep Conversion Aff Checker CompoundSpec CompoundTotal RuleCompound Spell CheckSpec CheckMono CheckProps.
Import ListNotations.
Set Implicit Arguments.

Lemma bind_ext : forall A B (x : Res A) (f g : A -> Res B), (forall a, x = Ret a -> f a = g a) -> bindR x f = bindR x g.
Proof. intros A B [a| |] f g H; [exact (H a eq_refl)|reflexivity|reflexivity]. Qed.

Definition flagged (f : flagset) : bool := nonempty f.

Lemma first_flagged : forall B (g : flagset -> option B) l, g [] = None -> first_some g (filter flagged l) = first_some g l.
Proof.
  intros B g l G. induction l as [|x l IH]; [reflexivity|]. cbn [filter first_some]. destruct x as [|a x]; cbn [flagged nonempty].
  - rewrite G. exact IH.
  - cbn [first_some]. rewrite IH. reflexivity.
Qed.

Lemma first_some_app : forall A B (g : A -> option B) l m, first_some g (l ++ m) = match first_some g l with Some x => Some x | None => first_some g m end.
Proof. intros A B g l m. induction l as [|x l IH]; [reflexivity|]. cbn [app first_some]. destruct (g x); [reflexivity|exact IH]. Qed.
Lemma contains_nil : forall f, contains [] f = false.
Proof. reflexivity. Qed.
Lemma has_nil : forall f, has_flag [] f = false.
Proof. intros [f|]; reflexivity. Qed.

Section Plain.
Variable k : checker.
(** The checker without the entries that have no flags. *)
Let get0 := fun v => filter flagged (ck_get k v).
Let k0 := with_entries k get0.

Ltac same := repeat
  match goal with
  | |- first_some ?f (ck_get k0 ?s) = first_some ?g (ck_get k ?s) =>
      change (first_some g (filter flagged (ck_get k s)) = first_some g (ck_get k s)); apply first_flagged; cbv zeta; rewrite ?contains_nil, ?andb_false_r; cbn [negb andb orb]; rewrite ?andb_false_r;
      repeat match goal with |- (if ?c then None else _) = None => destruct c; [reflexivity|] end; reflexivity
  | |- (if ?c then _ else _) = (if ?d then _ else _) => change c with d; destruct d; [reflexivity|]
  | |- first_some ?f ?l = first_some ?g ?m => change l with m; apply first_some_ext; intros ? _; cbv zeta
  end.

Lemma same_suffix : forall m w hh, strip_suffix_only k0 m w hh = strip_suffix_only k m w hh.
Proof. intros m w hh. unfold strip_suffix_only. same. Qed.
Lemma same_prefix : forall m w hh, strip_prefix_only k0 m w hh = strip_prefix_only k m w hh.
Proof. intros m w hh. unfold strip_prefix_only. same. Qed.
Lemma same_both : forall m w hh, strip_prefix_then_suffix_commutative k0 m w hh = strip_prefix_then_suffix_commutative k m w hh.
Proof. intros m w hh. unfold strip_prefix_then_suffix_commutative. same. Qed.
Lemma same_ss : forall w hh, strip_suffix_then_suffix k0 w hh = strip_suffix_then_suffix k w hh.
Proof. intros w hh. unfold strip_suffix_then_suffix. same. Qed.
Lemma same_pp : forall w hh, strip_prefix_then_prefix k0 w hh = strip_prefix_then_prefix k w hh.
Proof. intros w hh. unfold strip_prefix_then_prefix. same. Qed.
Lemma same_pss : forall w hh, strip_prefix_then_2_suffixes k0 w hh = strip_prefix_then_2_suffixes k w hh.
Proof. intros w hh. unfold strip_prefix_then_2_suffixes. same. Qed.
Lemma same_sps : forall w hh, strip_suffix_then_prefix_then_suffix k0 w hh = strip_suffix_then_prefix_then_suffix k w hh.
Proof. intros w hh. unfold strip_suffix_then_prefix_then_suffix. same. Qed.
Lemma same_spp : forall w hh, strip_suffix_then_2_prefixes k0 w hh = strip_suffix_then_2_prefixes k w hh.
Proof. intros w hh. unfold strip_suffix_then_2_prefixes. same. Qed.
Lemma same_psp : forall w hh, strip_prefix_then_suffix_then_prefix k0 w hh = strip_prefix_then_suffix_then_prefix k w hh.
Proof. intros w hh. unfold strip_prefix_then_suffix_then_prefix. same. Qed.

Lemma same_simple : forall w hh, check_simple_word k w hh =
  match check_direct k w hh with Some f => Some f | None => check_simple_word k0 w hh end.
Proof.
  intros w hh. unfold check_simple_word. rewrite same_suffix, same_prefix, same_both, same_pp, same_spp, same_psp, same_ss, same_pss, same_sps.
  change (o_complex_prefixes (ad_options (ck_aff k0))) with (o_complex_prefixes (ad_options (ck_aff k))).
  destruct (check_direct k w hh) as [f|] eqn:E; [reflexivity|]. destruct (check_direct k0 w hh) as [f|] eqn:E0; [|reflexivity]. exfalso.
  unfold check_direct in *. apply first_some_some in E0. rewrite first_some_none in E. destruct E0 as (x & I & E0).
  change (ck_get k0 w) with (filter flagged (ck_get k w)) in I. apply filter_In in I. pose proof (E x (proj1 I)) as E1.
  change (need_affix k0 x) with (need_affix k x) in E0. change (only_in_compound k0 x) with (only_in_compound k x) in E0. congruence.
Qed.
Lemma same_in_compound : forall m w, check_word_in_compound k0 m w = check_word_in_compound k m w.
Proof.
  intros m w. unfold check_word_in_compound. rewrite same_suffix, same_prefix, same_both.
  match goal with |- match first_some ?f (ck_get k0 w) with _ => _ end = match first_some ?g (ck_get k w) with _ => _ end =>
    assert (E : first_some f (ck_get k0 w) = first_some g (ck_get k w)) end.
  { change (first_some (fun flags =>
      if need_affix k flags then None
      else if negb (has_flag flags (o_compound (ad_options (ck_aff k)))) && negb (has_flag flags (mode_flag k m)) then None
      else if contains flags hidden_homonym_flag then None
      else Some (mkCR w flags 0 (syllable_modifier k m flags) false)) (filter flagged (ck_get k w)) = first_some (fun flags =>
      if need_affix k flags then None
      else if negb (has_flag flags (o_compound (ad_options (ck_aff k)))) && negb (has_flag flags (mode_flag k m)) then None
      else if contains flags hidden_homonym_flag then None
      else Some (mkCR w flags 0 (syllable_modifier k m flags) false)) (ck_get k w)).
    apply first_flagged. rewrite !has_nil. cbn [negb andb]. destruct (need_affix k []); reflexivity. }
  rewrite E. reflexivity.
Qed.
Lemma same_rule_part : forall w, rule_part k0 w = rule_part k w.
Proof.
  intros w. unfold rule_part. change (ck_get k0 w) with (filter flagged (ck_get k w)). change (ck_aff k0) with (ck_aff k).
  induction (ck_get k w) as [|x l IH]; [reflexivity|]. cbn [filter find]. destruct x as [|a x]; cbn [flagged nonempty].
  - replace (has_any_flags (ad_rules (ck_aff k)) []) with false; [rewrite andb_false_r; exact IH|].
    unfold has_any_flags, has_intersection. cbn [has_intersection_fuel]. destruct (rt_flags _); reflexivity.
  - cbn [find]. change (need_affix k0 (a :: x)) with (need_affix k (a :: x)). rewrite IH. reflexivity.
Qed.

(** Compounds do not change either, unless CHECKCOMPOUNDREP looks words up. *)
Hypothesis NOREP : o_check_rep (ad_options (ck_aff k)) = false.
Lemma no_rep : forall w, rep_check k0 w = rep_check k w.
Proof. intros w. unfold rep_check. change (ck_aff k0) with (ck_aff k). rewrite NOREP. reflexivity. Qed.
Lemma no_rep2 : forall w a i e, rep_check_part2 k0 w a i e = rep_check_part2 k w a i e.
Proof. intros w a i e. unfold rep_check_part2. change (ck_aff k0) with (ck_aff k). rewrite NOREP. reflexivity. Qed.
Lemma same_second : forall w r i fu e1 e2, second_rejected k0 w r i fu e1 e2 = second_rejected k w r i fu e1 e2.
Proof. intros. unfold second_rejected. rewrite no_rep. reflexivity. Qed.
Section Rec.
Variable rec : str -> nat -> nat -> forceucase -> Res (option cresult).
Lemma same_triple_rec : forall t w a i n fu e, triple_recursive k0 rec t w a i n fu e = triple_recursive k rec t w a i n fu e.
Proof.
  intros. unfold triple_recursive. apply bind_ext. intros [e2|] _; [|reflexivity]. rewrite no_rep, no_rep2. reflexivity.
Qed.
Lemma same_triple : forall w a i n fu e, try_simplified_triple k0 rec w a i n fu e = try_simplified_triple k rec w a i n fu e.
Proof.
  intros. unfold try_simplified_triple. change (ck_aff k0) with (ck_aff k). destruct (negb _); [reflexivity|].
  destruct (prev_codepoint w i) as [[pi pc]|]; [|reflexivity]. destruct (pi =? 0)%nat; [reflexivity|].
  destruct (prev_codepoint w pi) as [[pj pc2]|]; [|reflexivity]. destruct (negb _); [reflexivity|]. cbv zeta. rewrite same_in_compound.
  apply bind_ext. intros [e2|] _; rewrite ?same_second, same_triple_rec; reflexivity.
Qed.
Lemma same_recursive : forall w a i n fu e, try_recursive k0 rec w a i n fu e = try_recursive k rec w a i n fu e.
Proof.
  intros. unfold try_recursive. apply bind_ext. intros [e2|] _; rewrite same_triple; [|reflexivity]. rewrite no_rep, no_rep2. reflexivity.
Qed.
Lemma same_classic : forall m w a i n fu, compound_classic k0 rec m w a i n fu = compound_classic k rec m w a i n fu.
Proof.
  intros. unfold compound_classic. rewrite same_in_compound. apply bind_ext. intros [e1|] _; [|reflexivity].
  change (is_forbidden k0) with (is_forbidden k). change (ck_aff k0) with (ck_aff k). change (ck_u k0) with (ck_u k).
  change (add_part k0) with (add_part k). destruct (is_forbidden k (cr_flags e1)); [reflexivity|].
  destruct (_ && _); [reflexivity|]. destruct (_ && _); [reflexivity|]. cbv zeta. rewrite same_in_compound. apply bind_ext.
  intros [e2|] _; rewrite ?same_second, same_recursive; reflexivity.
Qed.
Lemma same_plain : forall p w s a j n fu e c c', (c tt = c' tt) -> pattern_plain k0 p w s a j n fu e c = pattern_plain k p w s a j n fu e c'.
Proof.
  intros p w s a j n fu e c c' H. unfold pattern_plain. rewrite same_in_compound. apply bind_ext. intros [e2|] _; [|exact H].
  rewrite no_rep, H. reflexivity.
Qed.
Lemma same_step : forall m w a i n fu p, pattern_step k0 rec m w a i n fu p = pattern_step k rec m w a i n fu p.
Proof.
  intros. unfold pattern_step. destruct (cp_replacement p) as [r|]; [|reflexivity]. destruct (negb _); [reflexivity|]. cbv zeta.
  rewrite same_in_compound. apply bind_ext. intros [e1|] _; [|reflexivity]. change (is_forbidden k0) with (is_forbidden k).
  change (ck_aff k0) with (ck_aff k). destruct (is_forbidden k (cr_flags e1)); [reflexivity|]. destruct (flag_missing _ _); [reflexivity|].
  destruct (_ && _); [reflexivity|]. apply same_plain. apply bind_ext. intros o _.
  replace (match o with Some e2 => negb (flag_missing (cp_second_flag p) (cr_flags e2)) &&
     negb (rep_check k0 (skipn a w) || rep_check_part2 k0 (firstn i w ++ (cp_begin p ++ cp_end p) ++ skipn (i + length r) w) a (i + length (cp_begin p)) e2) | None => false end)
    with (match o with Some e2 => negb (flag_missing (cp_second_flag p) (cr_flags e2)) &&
     negb (rep_check k (skipn a w) || rep_check_part2 k (firstn i w ++ (cp_begin p ++ cp_end p) ++ skipn (i + length r) w) a (i + length (cp_begin p)) e2) | None => false end)
    by (destruct o; [rewrite no_rep, no_rep2|]; reflexivity).
  destruct (match o with Some _ => _ | None => _ end); [reflexivity|]. destruct (negb _); [reflexivity|].
  destruct (prev_codepoint _ _) as [[pi pc]|]; [|reflexivity]. destruct (pi =? 0)%nat; [reflexivity|].
  destruct (prev_codepoint _ pi) as [[pj pc2]|]; [|reflexivity]. destruct (negb _); [reflexivity|]. apply same_plain.
  apply bind_ext. intros [e2|] _; [|reflexivity]. rewrite no_rep, NOREP. reflexivity.
Qed.
Lemma same_loop : forall m w a i n fu ps, pattern_loop k0 rec m w a i n fu ps = pattern_loop k rec m w a i n fu ps.
Proof.
  intros m w a i n fu ps. induction ps as [|p ps IH]; [reflexivity|]. cbn [pattern_loop]. rewrite same_step. apply bind_ext.
  intros [o|o] _; [reflexivity|exact IH].
Qed.
Lemma same_impl : forall m w a n fu, compound_impl k0 rec m w a n fu = compound_impl k rec m w a n fu.
Proof.
  intros m w a n fu. unfold compound_impl. change (min_chars k0) with (min_chars k). change (ad_patterns (ck_aff k0)) with (ad_patterns (ck_aff k)).
  induction (within w a (min_chars k)) as [|i l IH]; [reflexivity|]. cbn [firstR]. rewrite same_classic, same_loop, IH. reflexivity.
Qed.
End Rec.
Lemma same_middle : forall fuel, compound_middle k0 fuel = compound_middle k fuel.
Proof.
  induction fuel as [|fuel IH]; extensionality w; extensionality a; extensionality n; extensionality fu; [reflexivity|].
  cbn [compound_middle]. rewrite IH. apply same_impl.
Qed.
Lemma same_rules : forall fuel w data a fu, rules_impl k0 fuel w data a fu = rules_impl k fuel w data a fu.
Proof.
  induction fuel as [|fuel IH]; intros w data a fu; [reflexivity|]. cbn [rules_impl]. change (min_chars k0) with (min_chars k).
  induction (within w a (min_chars k)) as [|i l IHl]; [reflexivity|]. cbn [firstR]. rewrite !same_rule_part, IHl. change (ck_aff k0) with (ck_aff k).
  destruct (rule_part k (slice w a i)) as [f1|]; [|reflexivity].
  match goal with |- match ?x with _ => _ end = match ?y with _ => _ end => replace x with y; [reflexivity|] end.
  apply bind_ext. intros b _. destruct b; [reflexivity|]. symmetry. apply IH.
Qed.
Lemma same_compound : forall fuel m w fu, check_compound k0 fuel m w fu = check_compound k fuel m w fu.
Proof.
  intros. unfold check_compound, check_compound_flags, check_compound_with_rules. rewrite same_middle, same_impl, same_rules. reflexivity.
Qed.
Lemma same_word : forall fuel w fu hh, check_word k fuel w fu hh =
  match check_direct k w hh with Some f => Ret (Some f) | None => check_word k0 fuel w fu hh end.
Proof.
  intros. unfold check_word. rewrite (same_simple w hh). destruct (check_direct k w hh); [reflexivity|]. rewrite same_compound. reflexivity.
Qed.
End Plain.

(** ** Two dictionaries that differ in entries without flags *)
Section Two.
Variable k : checker.
Variable get : str -> list flagset.
Notation k' := (with_entries k get).
Hypothesis NOREP : o_check_rep (ad_options (ck_aff k)) = false.
Hypothesis KEEPS : forall v, filter flagged (get v) = filter flagged (ck_get k v).

Lemma same_base : with_entries k' (fun v => filter flagged (ck_get k' v)) = with_entries k (fun v => filter flagged (ck_get k v)).
Proof. unfold with_entries. cbn. f_equal. extensionality v. apply KEEPS. Qed.

(** A spelling with the same entries is found alike. *)
Lemma word_frame : forall fuel w fu hh, get w = ck_get k w -> check_word k' fuel w fu hh = check_word k fuel w fu hh.
Proof.
  intros fuel w fu hh E. rewrite (@same_word k' NOREP), (@same_word k NOREP), same_base.
  replace (check_direct k' w hh) with (check_direct k w hh); [reflexivity|]. unfold check_direct. cbn [ck_get with_entries]. rewrite E. reflexivity.
Qed.

(** The frame: a word none of whose spellings changed is checked alike. *)
Lemma casing_frame : forall fuel w, ck_lower_as_title k = false -> ck_lower_as_upper k = false ->
  (forall a, In a (plan k w) -> get (at_word a) = ck_get k (at_word a)) -> spell_casing k' fuel w = spell_casing k fuel w.
Proof.
  intros fuel w L1 L2 H. rewrite (@spell_casing_plan k' fuel w) by (right; split; assumption).
  rewrite (@spell_casing_plan k fuel w) by (right; split; assumption). change (plan k' w) with (plan k w).
  apply firstR_ext. intros a Ha. unfold try_one. rewrite word_frame by (apply H; exact Ha). reflexivity.
Qed.
End Two.

(** ** Only additions *)
Section Grow.
Variable k : checker.
Variable get : str -> list flagset.
Notation k' := (with_entries k get).
Hypothesis NOREP : o_check_rep (ad_options (ck_aff k)) = false.
(** [get] has more entries without flags; the others stay in order. *)
Definition Widened (v : str) : Prop := get v = ck_get k v \/ exists a b, ck_get k v = a ++ b /\ get v = a ++ [] :: b.
Hypothesis WIDE : forall v, Widened v.

Lemma wide_keeps : forall v, filter flagged (get v) = filter flagged (ck_get k v).
Proof. intros v. destruct (WIDE v) as [->|(a & b & -> & ->)]; [reflexivity|]. rewrite !filter_app. reflexivity. Qed.

Lemma direct_grows : forall w hh, check_direct k' w hh = check_direct k w hh \/ check_direct k' w hh = Some [].
Proof.
  intros w hh. unfold check_direct. cbn [ck_get with_entries]. destruct (WIDE w) as [->|(a & b & -> & ->)]; [left; reflexivity|].
  rewrite !first_some_app. change (need_affix k') with (need_affix k). change (only_in_compound k') with (only_in_compound k).
  destruct (first_some _ a) as [f|]; [left; reflexivity|]. right. cbn [first_some].
  unfold need_affix, only_in_compound. rewrite !has_nil. destruct hh; reflexivity.
Qed.
Lemma word_grows : forall fuel w fu hh, check_word k' fuel w fu hh = check_word k fuel w fu hh \/ check_word k' fuel w fu hh = Ret (Some []).
Proof.
  intros fuel w fu hh. rewrite (@same_word k' NOREP), (@same_word k NOREP), (@same_base k get wide_keeps).
  destruct (direct_grows w hh) as [-> | ->]; auto.
Qed.
End Grow.

(** If every spelling is found as before or as [nf], and [nf] is accepted, then [check] only
    accepts more. *)
Section Lift.
Variable k : checker.
Variable get : str -> list flagset.
Variable nf : flagset.
Notation k' := (with_entries k get).
Hypothesis word_grows : forall fuel w fu hh, check_word k' fuel w fu hh = check_word k fuel w fu hh \/ check_word k' fuel w fu hh = Ret (Some nf).
Hypothesis KEEP : keep_case k nf = false.
Hypothesis ACC : accepted_flags k nf = true.
Lemma attempts_grow : forall fuel l, (forall a, In a l -> at_filter a nf = true) ->
  firstR (try_one k' fuel) l = firstR (try_one k fuel) l \/ firstR (try_one k' fuel) l = Ret (Some nf).
Proof.
  intros fuel l. induction l as [|a l IH]; intro F; [left; reflexivity|]. specialize (IH (fun x I => F x (or_intror I))).
  assert (T : try_one k' fuel a = try_one k fuel a \/ try_one k' fuel a = Ret (Some nf)).
  { unfold try_one. destruct (word_grows fuel (at_word a) (at_fu a) (at_hh a)) as [-> | ->]; [left; reflexivity|right].
    cbn [bindR]. rewrite (F a (or_introl eq_refl)). reflexivity. }
  cbn [firstR]. destruct T as [-> | ->]; [|right; reflexivity]. destruct (try_one k fuel a) as [[f|]| |]; auto.
Qed.
Lemma filters_pass : forall w a, ck_lower_as_title k = false -> ck_lower_as_upper k = false -> In a (plan k w) -> at_filter a nf = true.
Proof. intros w a L1 L2 H. apply (@plan_filter_true k w a nf L1 L2 H KEEP). Qed.
Lemma casing_grows : forall fuel w, ck_lower_as_title k = false -> ck_lower_as_upper k = false ->
  spell_casing k' fuel w = spell_casing k fuel w \/ spell_casing k' fuel w = Ret (Some nf).
Proof.
  intros fuel w L1 L2. rewrite (@spell_casing_plan k' fuel w) by (right; split; assumption).
  rewrite (@spell_casing_plan k fuel w) by (right; split; assumption). change (plan k' w) with (plan k w).
  apply attempts_grow. intros a Ha. apply (filters_pass w); assumption.
Qed.
Lemma own_grows : forall w r r', ck_lower_as_title k = false -> ck_lower_as_upper k = false -> Own k w r -> Own k' w r' -> r' = r \/ r' = Some nf.
Proof.
  intros w r r' L1 L2 [n H] [m H']. specialize (H (n + m) ltac:(lia)). specialize (H' (n + m) ltac:(lia)). cbn in H, H'.
  destruct (casing_grows (n + m) w L1 L2) as [E|E]; rewrite H' in E; [left; congruence|right; congruence].
Qed.
Hypothesis WF' : wf_full k'.
Hypothesis OFF : ck_lower_as_title k = false /\ ck_lower_as_upper k = false.
Hypothesis STRICT : strict k = true.
Lemma broken_grows : forall n w, Broken k n w -> scalars w -> Broken k' n w.
Proof.
  assert (C : forall n w r, scalars w -> Own k w r -> (Own k' w r -> Broken k' n w) -> Broken k' n w).
  { intros n w r Hw HO HK. destruct (@own_total k' WF' OFF STRICT w Hw) as (r' & HO').
    destruct (@own_grows w r r' (proj1 OFF) (proj2 OFF) HO HO') as [-> | ->]; [exact (HK HO')|]. eapply Broken_own; [exact HO'|exact ACC]. }
  intros n w H. induction H as [n w f HO HA|n p w HO HI HB IH|n p w HO HI HB IH|n p u v HO HI HM HN HB1 IH1 HB2 IH2]; intro Hw.
  - apply (C _ _ _ Hw HO). intro X. eapply Broken_own; [exact X|exact HA].
  - apply (C _ _ _ Hw HO). intro X. apply Broken_start; [exact X|exact HI|]. apply IH. apply Forall_app in Hw. apply Hw.
  - apply (C _ _ _ Hw HO). intro X. apply Broken_end; [exact X|exact HI|]. apply IH. apply Forall_app in Hw. apply Hw.
  - apply (C _ _ _ Hw HO). intro X. apply Forall_app in Hw. destruct Hw as [Hu Hw]. apply Forall_app in Hw.
    apply Broken_middle; try assumption; [apply IH1; exact Hu|apply IH2; apply Hw].
Qed.
Lemma accepts_lift : forall w w', scalars w' -> AcceptsAs k w w' -> AcceptsAs k' w w'.
Proof.
  intros w w' Hw [L [H|[H|[H|[D H]]]]]; (split; [exact L|]); auto.
  - right. right. left. apply broken_grows; [exact H|]. apply scalars_filter, scalars_trim. exact Hw.
  - right. right. right. split; [exact D|]. apply broken_grows; assumption.
Qed.
End Lift.

Section Grown.
Variable k : checker.
Variable get : str -> list flagset.
Notation k' := (with_entries k get).
Hypothesis NOREP : o_check_rep (ad_options (ck_aff k)) = false.
Hypothesis WIDE : forall v, Widened k get v.
Hypothesis WF' : wf_full k'.
Hypothesis OFF : ck_lower_as_title k = false /\ ck_lower_as_upper k = false.
Hypothesis STRICT : strict k = true.
Lemma accepts_grows : forall w w', scalars w' -> AcceptsAs k w w' -> AcceptsAs k' w w'.
Proof.
  apply (@accepts_lift k get []); try assumption.
  - intros. apply word_grows; assumption.
  - apply has_nil.
  - unfold accepted_flags. rewrite has_nil, ?andb_false_r. reflexivity.
Qed.
End Grown.
