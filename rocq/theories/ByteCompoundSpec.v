(** The compound checker on bytes ([ByteCompound]) does what the model on characters does. *)
From Coq Require Import List NArith ZArith Lia Bool Arith.
From Verif Require Import Base Utf8 Unicode Flags Condition Affix CompoundRule Conversion Aff Checker AffixSpec Rep
  CompoundSpec CompoundTotal RuleCompound ByteCompound ByteOffsets.
Import ListNotations.
Local Open Scope nat_scope.
Set Implicit Arguments.

Lemma firstR_map : forall A B C (g : A -> B) (f : B -> Res (option C)) l,
  firstR f (map g l) = firstR (fun x => f (g x)) l.
Proof. intros A B C g f l. induction l as [|x l IH]; [reflexivity|]. cbn [map firstR]. rewrite IH. reflexivity. Qed.

Lemma front_boff : forall a b i s, s <= i -> firstn i a = firstn i b -> boff a s = boff b s.
Proof.
  intros a b i s H E. unfold boff. apply (f_equal (firstn s)) in E. rewrite !firstn_firstn, Nat.min_l in E by exact H.
  rewrite E. reflexivity.
Qed.
Lemma boff_stem : forall w i s r, skipn i w = s ++ r -> boff w i + length (enc s) = boff w (i + length s).
Proof.
  intros w i s r H. rewrite (@boff_split w i (i + length s)) by lia. f_equal. unfold slice.
  rewrite H, firstn_app_exact by lia. reflexivity.
Qed.
Lemma skipn_fits : forall (w s r : str) i, i <= length w -> skipn i w = s ++ r -> i + length s <= length w.
Proof.
  intros w s r i Hi H. apply (f_equal (@length N)) in H. rewrite skipn_length, app_length in H. lia.
Qed.
Lemma get_boff : forall w a b, scalars w -> a <= length w -> b <= length w ->
  b_get (enc w) (boff w a) (boff w b) = if a <=? b then Some (enc (slice w a b)) else None.
Proof.
  intros w a b Hw Ha Hb. unfold b_get. destruct (Nat.leb_spec a b) as [H|H].
  - rewrite cut_boff by assumption. reflexivity.
  - unfold b_cut. rewrite (proj2 (Nat.leb_gt _ _) (@boff_lt w b a H Ha)). reflexivity.
Qed.
Lemma prev_shape : forall w i pi pc, i <= length w -> prev_codepoint w i = Some (pi, pc) ->
  i = S pi /\ firstn i w = firstn pi w ++ [pc].
Proof.
  intros w i pi pc Hi H. unfold prev_codepoint in H. destruct (rev (firstn i w)) as [|c r] eqn:E; [discriminate|].
  injection H as <- <-. apply rev_snoc in E.
  assert (i = S (length r)) as Hr.
  { apply (f_equal (@length N)) in E. rewrite app_length, rev_length, firstn_length in E. cbn [length] in E. lia. }
  split; [exact Hr|]. rewrite E. f_equal. apply (f_equal (firstn (length r))) in E.
  rewrite firstn_firstn, Nat.min_l in E by lia. rewrite E. symmetry. apply firstn_app_exact. rewrite rev_length. reflexivity.
Qed.

Section Refine.
Variable k : checker.
Variable dbg : bool.
Hypothesis WFC : wf_compound k.
Hypothesis REPL : Forall (fun p => forall r, cp_replacement p = Some r -> scalars r) (ad_patterns (ck_aff k)).
Notation A := (ck_aff k).
Notation opts := (ad_options (ck_aff k)).

Lemma rule_scalars : forall kd a, In a (rules A kd) -> wf_affix a.
Proof.
  intros kd a H. destruct kd; [pose proof (wf_pfx_rules (wfc_checker WFC)) as W|pose proof (wf_sfx_rules (wfc_checker WFC)) as W];
  exact (proj1 (Forall_forall _ _) W a H).
Qed.
Lemma part_stem : forall m w e, scalars w -> check_word_in_compound k m w = Ret (Some e) -> scalars (cr_stem e).
Proof.
  intros m w e Hw H. destruct (@reads_sound k WFC m w e Hw H) as [[(_ & -> & _)|[(kd & a & (H1 & [D _] & _) & _)|
    (p & s & (P1 & P2 & _ & _ & _ & _ & _ & (mid & [D1 _] & [D2 _]) & _) & _)]] _]; [exact Hw| |].
  - exact (@derives_scalars kd a _ _ (rule_scalars _ _ H1) D Hw).
  - apply (@derives_scalars Sfx s _ mid (rule_scalars Sfx _ P2) D2).
    exact (@derives_scalars Pfx p _ _ (rule_scalars Pfx _ P1) D1 Hw).
Qed.

Lemma part_enc : forall m w, scalars w -> b_part k m (enc w) = check_word_in_compound k m w.
Proof. intros m w Hw. unfold b_part. rewrite text_enc by exact Hw. reflexivity. Qed.
Lemma simple_enc : forall w, scalars w -> b_simple k (enc w) = Ret (simple_ok k w).
Proof. intros w Hw. unfold b_simple. rewrite text_enc by exact Hw. reflexivity. Qed.

(** ** REP similarity *)
Definition pairs_ok (l : list (str * str)) : Prop := forall f t, In (f, t) l -> scalars f /\ scalars t.
Definition out (r : bool * str) : Res (bool * list N) := Ret (fst r, enc (snd r)).

Lemma head_replace : forall p v r, scalars (p ++ v) -> b_replace (enc (p ++ v)) 0 (length (enc p)) (enc r) = Ret (enc (r ++ v)).
Proof. intros p v r H. exact (@replace_app [] p v r H). Qed.
Lemma start_enc : forall l w, scalars w -> pairs_ok l -> b_rep_start k l (enc w) (enc w) = out (rep_start_loop k l w w).
Proof.
  induction l as [|[f t] l IH]; intros w Hw Hl; [reflexivity|]. cbn [b_rep_start rep_start_loop].
  destruct (Hl f t (or_introl eq_refl)) as [Hf Ht].
  assert (Hl' : pairs_ok l) by (intros f' t' H'; apply Hl; right; exact H').
  rewrite starts_enc by assumption. destruct (starts_with f w) eqn:S; [|apply IH; assumption].
  apply starts_with_spec in S. destruct S as [r ->].
  assert (scalars r) as Hr by (apply Forall_app in Hw; tauto).
  assert (scalars (t ++ r)) as Htr by (apply Forall_app; auto).
  rewrite head_replace by exact Hw. cbn [bindR]. rewrite simple_enc by exact Htr. cbn [bindR].
  pose proof (replace_range_app [] f r t) as E2. cbn [app length] in E2. rewrite E2.
  destruct (simple_ok k (t ++ r)); [reflexivity|].
  rewrite head_replace by exact Htr. cbn [bindR].
  pose proof (replace_range_app [] t r f) as E4. cbn [app length] in E4. rewrite E4. apply IH; assumption.
Qed.

Lemma tail_replace : forall u p r, scalars (u ++ p) ->
  b_replace (enc (u ++ p)) (length (enc u)) (length (enc (u ++ p))) (enc r) = Ret (enc (u ++ r)).
Proof.
  intros u p r H. pose proof (@replace_app u p [] r) as E. rewrite !app_nil_r in E. rewrite <- (E H).
  rewrite enc_app, app_length. reflexivity.
Qed.

Lemma end_enc : forall l w, scalars w -> pairs_ok l -> b_rep_end k l (enc w) (enc w) = out (rep_end_loop k l w w).
Proof.
  induction l as [|[f t] l IH]; intros w Hw Hl; [reflexivity|]. cbn [b_rep_end rep_end_loop].
  destruct (Hl f t (or_introl eq_refl)) as [Hf Ht].
  assert (Hl' : pairs_ok l) by (intros f' t' H'; apply Hl; right; exact H').
  rewrite ends_enc by assumption. destruct (ends_with f w) eqn:S; [|apply IH; assumption].
  apply ends_with_spec in S. destruct S as [r ->].
  assert (scalars r) as Hr by (apply Forall_app in Hw; tauto).
  assert (scalars (r ++ t)) as Hrt by (apply Forall_app; auto).
  assert (b_minus (length (enc (r ++ f))) (length (enc f)) = Ret (length (enc r))) as ->.
  { unfold b_minus. rewrite enc_app, app_length. rewrite (leb_correct (length (enc f)) (length (enc r) + length (enc f))) by lia.
    f_equal. lia. }
  cbn [bindR]. rewrite tail_replace by exact Hw. cbn [bindR]. rewrite simple_enc by exact Hrt. cbn [bindR].
  rewrite (@firstn_app_exact _ r f) by (rewrite app_length; lia).
  destruct (simple_ok k (r ++ t)); [reflexivity|]. rewrite tail_replace by exact Hrt. cbn [bindR].
  rewrite (@firstn_app_exact _ r t) by (rewrite app_length; lia). apply IH; assumption.
Qed.

Lemma at_enc : forall f t w idxs, scalars w -> scalars t ->
  (forall j, In j idxs -> exists u v, w = u ++ f ++ v /\ length u = j) ->
  b_rep_at k (map (boff w) idxs) f t (enc w) = out (rep_at_loop k idxs f t w).
Proof.
  intros f t w idxs Hw Ht. induction idxs as [|i idxs IH]; intro Hi; [reflexivity|]. cbn [map b_rep_at rep_at_loop].
  destruct (Hi i (or_introl eq_refl)) as (u & v & E & Hu).
  assert (boff w i = length (enc u)) as -> by (rewrite E, <- Hu; apply boff_app).
  assert (scalars (u ++ t ++ v)) as Hs.
  { rewrite E in Hw. unfold scalars in *. rewrite !Forall_app in *. tauto. }
  assert (replace_range w i (length f) t = u ++ t ++ v) as -> by (rewrite E, <- Hu; apply replace_range_app).
  assert (b_replace (enc w) (length (enc u)) (length (enc u) + length (enc f)) (enc t) = Ret (enc (u ++ t ++ v))) as ->.
  { rewrite E in *. apply replace_app. exact Hw. }
  cbn [bindR]. rewrite simple_enc by exact Hs. cbn [bindR]. destruct (simple_ok k (u ++ t ++ v)); [reflexivity|].
  rewrite replace_app by exact Hs. cbn [bindR]. rewrite <- Hu, replace_range_app, <- E.
  apply IH. intros j Hj. apply Hi. right. exact Hj.
Qed.

Lemma any_enc : forall l w, scalars w -> pairs_ok l -> (forall f t, In (f, t) l -> 0 < length f) ->
  b_rep_any k l (enc w) (enc w) = out (rep_any_loop k l w w) /\
  (fst (rep_any_loop k l w w) = false -> snd (rep_any_loop k l w w) = w).
Proof.
  induction l as [|[f t] l IH]; intros w Hw Hl Hne; [split; reflexivity|]. cbn [b_rep_any rep_any_loop].
  destruct (Hl f t (or_introl eq_refl)) as [Hf Ht].
  unfold b_matches. rewrite text_enc by exact Hw. cbn [bindR].
  assert (HO : forall j, In j (match_indices f w) -> exists u v, w = u ++ f ++ v /\ length u = j).
  { intros j Hj. apply match_indices_In in Hj; [|apply (Hne f t); left; reflexivity]. destruct Hj as (u & v & H & ->).
    exists u, v. split; [apply Occ_app; exact H|reflexivity]. }
  pose proof (@at_enc f t w _ Hw Ht HO) as E. unfold boff in E. rewrite E. unfold out at 1. cbn [bindR fst snd].
  destruct (@rep_at_loop_spec k f t w (match_indices f w) HO) as [_ R].
  destruct (fst (rep_at_loop k (match_indices f w) f t w)) eqn:F.
  - split; [unfold out; rewrite F; reflexivity|congruence].
  - rewrite (R eq_refl). apply IH; [exact Hw| |]; intros f' t' H'; [apply Hl|apply (Hne f' t')]; right; exact H'.
Qed.

Lemma assert_enc : forall A a (r : Res A), b_assert_eq dbg a a r = r.
Proof.
  intros B a r. unfold b_assert_eq. rewrite (proj2 (str_eqb_eq a a) eq_refl), andb_false_r. reflexivity.
Qed.

Lemma similar_enc : forall w, scalars w -> b_rep_similar k dbg (enc w) = Ret (is_rep_similar k w).
Proof.
  intros w Hw. unfold b_rep_similar, is_rep_similar.
  pose proof (@reps_In_scalars k WFC) as RS. set (t := ad_reps A) in *.
  assert (existsb (fun e => str_eqb (enc w) (enc (fst e)) && simple_ok k (snd e)) (whole_reps t) =
          existsb (fun e => str_eqb w (fst e) && simple_ok k (snd e)) (whole_reps t)) as ->.
  { assert (pairs_ok (whole_reps t)) as P by (intros f x H; apply RS; auto).
    clear RS. induction (whole_reps t) as [|[f x] l IH]; [reflexivity|]. cbn [existsb fst snd].
    rewrite IH by (intros f' x' H'; apply P; right; exact H').
    rewrite str_eqb_enc; [reflexivity|exact Hw|apply (P f x); left; reflexivity]. }
  destruct (existsb _ _); [reflexivity|]. destruct (only_whole_reps t); [reflexivity|].
  rewrite start_enc by (assumption || (intros f x H; apply RS; auto)). unfold out at 1. cbn [bindR fst snd].
  destruct (@rep_start_loop_spec k (start_reps t) w) as [_ R1].
  destruct (fst (rep_start_loop k (start_reps t) w w)); [reflexivity|]. rewrite (R1 eq_refl), assert_enc.
  rewrite end_enc by (assumption || (intros f x H; apply RS; auto)). unfold out at 1. cbn [bindR fst snd].
  destruct (@rep_end_loop_spec k (end_reps t) w) as [_ R2].
  destruct (fst (rep_end_loop k (end_reps t) w w)); [reflexivity|]. rewrite (R2 eq_refl), assert_enc.
  destruct (@any_enc (any_reps t) w Hw) as [E R3];
    [intros f x H; apply RS; auto|apply (proj1 (wfc_reps WFC))|].
  rewrite E. unfold out. cbn [bindR fst snd].
  destruct (fst (rep_any_loop k (any_reps t) w w)); [reflexivity|]. rewrite (R3 eq_refl). apply assert_enc.
Qed.

(** ** CHECKCOMPOUNDPATTERN *)
Lemma pattern_enc : forall p w i e1 e2, In p (ad_patterns A) -> scalars w -> i <= length w ->
  b_pattern_matches p (enc w) (boff w i) e1 e2 = pattern_matches p w i e1 e2.
Proof.
  intros p w i e1 e2 Hp Hw Hi.
  destruct (proj1 (Forall_forall _ _) (wfc_patterns WFC) _ Hp) as [Sb Se].
  assert (Sbe : scalars (cp_begin p ++ cp_end p)) by (apply Forall_app; auto).
  unfold b_pattern_matches, pattern_matches.
  destruct (ends_with (cp_begin p) (firstn i w)) eqn:E.
  - apply ends_with_spec in E. destruct E as [u E].
    assert (boff w i = length (enc u) + length (enc (cp_begin p))) as B.
    { unfold boff. rewrite E, enc_app, app_length. reflexivity. }
    rewrite B. rewrite (proj2 (Nat.ltb_ge _ _)) by lia.
    replace (length (enc u) + length (enc (cp_begin p)) - length (enc (cp_begin p))) with (length (enc u)) by lia.
    assert (W : w = u ++ (cp_begin p ++ skipn i w)) by (rewrite app_assoc, <- E, firstn_skipn; reflexivity).
    assert (length (enc u) = boff w (length u)) as -> by (rewrite W; symmetry; apply boff_app).
    assert (L : length u <= length w) by (rewrite W, app_length; lia).
    rewrite get_from_boff by assumption.
    assert (skipn (length u) w = cp_begin p ++ skipn i w) as ->.
    { rewrite W at 1. apply skipn_app_exact. reflexivity. }
    rewrite starts_enc by (first [assumption|apply Forall_app; split; [exact Sb|apply scalars_skipn; exact Hw]]).
    cbn [andb].
    assert (starts_with (cp_begin p ++ cp_end p) (cp_begin p ++ skipn i w) = starts_with (cp_end p) (skipn i w)) as ->.
    { apply eq_true_iff_eq. rewrite !starts_with_spec. split; intros [r H].
      - rewrite <- app_assoc in H. apply app_inv_head in H. eauto.
      - exists r. rewrite H, app_assoc. reflexivity. }
    reflexivity.
  - cbn [andb negb].
    destruct (boff w i <? length (enc (cp_begin p))) eqn:L; [reflexivity|]. apply Nat.ltb_ge in L.
    destruct (b_get_from (enc w) (boff w i - length (enc (cp_begin p)))) as [comp|] eqn:G; [|reflexivity].
    destruct (starts_with (enc (cp_begin p ++ cp_end p)) comp) eqn:S; [|reflexivity]. exfalso.
    unfold b_get_from, b_get, b_cut in G.
    set (x := boff w i - length (enc (cp_begin p))) in *.
    destruct (boundary (enc w) x) eqn:BX; [|rewrite andb_false_r in G; cbn [andb] in G; discriminate].
    assert (x <= length (enc w)) as LX by (pose proof (boff_len w Hi); lia).
    apply boundary_spec in BX; [|exact Hw|exact LX]. destruct BX as (u & v & -> & Hx).
    destruct (_ && _ && _ && _) in G; [|discriminate]. injection G as <-.
    rewrite Hx, (enc_app u v) in S. unfold slice in S. rewrite skipn_app_exact in S by reflexivity.
    rewrite app_length, firstn_all2 in S by lia.
    assert (Hv : scalars v) by (apply Forall_app in Hw; tauto).
    rewrite starts_enc in S by assumption. apply starts_with_spec in S. destruct S as [r ->].
    assert (i = length (u ++ cp_begin p)) as ->.
    { apply (@boff_inj (u ++ (cp_begin p ++ cp_end p) ++ r)); [exact Hi| |].
      - rewrite !app_length. lia.
      - replace (u ++ (cp_begin p ++ cp_end p) ++ r) with ((u ++ cp_begin p) ++ (cp_end p ++ r)) by (rewrite <- !app_assoc; reflexivity).
        rewrite boff_app, enc_app, app_length.
        replace ((u ++ cp_begin p) ++ (cp_end p ++ r)) with (u ++ (cp_begin p ++ cp_end p) ++ r) by (rewrite <- !app_assoc; reflexivity).
        unfold x in Hx. lia. }
    replace (u ++ (cp_begin p ++ cp_end p) ++ r) with ((u ++ cp_begin p) ++ (cp_end p ++ r)) in E by (rewrite <- !app_assoc; reflexivity).
    rewrite firstn_app_exact in E by reflexivity. rewrite ends_with_app in E. discriminate.
Qed.
Lemma forbidden_enc : forall w i e1 e2, scalars w -> i <= length w ->
  b_forbidden_by_patterns k (enc w) (boff w i) e1 e2 = forbidden_by_patterns k w i e1 e2.
Proof.
  intros w i e1 e2 Hw Hi. unfold b_forbidden_by_patterns, forbidden_by_patterns.
  assert (forall ps, incl ps (ad_patterns A) ->
    existsb (fun p => b_pattern_matches p (enc w) (boff w i) e1 e2) ps = existsb (fun p => pattern_matches p w i e1 e2) ps) as Q.
  { induction ps as [|p ps IH]; intro H; [reflexivity|]. cbn [existsb].
    rewrite pattern_enc, IH; [reflexivity| | |exact Hw|exact Hi];
      [intros x Hx; apply H; right; exact Hx|apply H; left; reflexivity]. }
  apply Q, incl_refl.
Qed.

Lemma rep_check_enc : forall w s, scalars w -> s <= length w ->
  b_rep_check k dbg (enc w) (boff w s) = Ret (rep_check k (skipn s w)).
Proof.
  intros w s Hw Hs. unfold b_rep_check, rep_check. destruct (o_check_rep opts); [|reflexivity].
  rewrite from_boff by assumption. cbn [bindR andb]. apply similar_enc, scalars_skipn. exact Hw.
Qed.
Lemma part2_enc : forall w s i e2, scalars w -> s <= i -> i <= length w -> scalars (cr_stem e2) ->
  b_rep_check_part2 k dbg (enc w) (boff w s) (boff w i) e2 = Ret (rep_check_part2 k w s i e2).
Proof.
  intros w s i e2 Hw Hs Hi Ht. unfold b_rep_check_part2, rep_check_part2. destruct (o_check_rep opts); [|reflexivity].
  rewrite get_from_boff by assumption. rewrite starts_enc by (try apply scalars_skipn; assumption). cbn [andb].
  destruct (starts_with (cr_stem e2) (skipn i w)) eqn:S; [|reflexivity]. cbn [andb].
  apply starts_with_spec in S. destruct S as [r E].
  rewrite (@boff_stem w i _ r E). pose proof (@skipn_fits w _ r i Hi E).
  rewrite cut_boff by (assumption || lia). cbn [bindR]. apply similar_enc, scalars_slice. exact Hw.
Qed.
Lemma rep_checks_enc : forall w s i e2, scalars w -> s <= i -> i <= length w -> scalars (cr_stem e2) ->
  b_rep_checks k dbg (enc w) (boff w s) (boff w i) e2 = Ret (rep_check k (skipn s w) || rep_check_part2 k w s i e2).
Proof.
  intros w s i e2 Hw Hs Hi Ht. unfold b_rep_checks. rewrite rep_check_enc by (assumption || lia). cbn [bindR].
  destruct (rep_check k (skipn s w)); [reflexivity|]. apply part2_enc; assumption.
Qed.

(** ** One level of the recursion *)
Section Step.
Variable rec : str -> nat -> nat -> forceucase -> Res (option cresult).
Variable brec : list N -> nat -> nat -> forceucase -> Res (option cresult).
Hypothesis REC : forall w s n fu, scalars w -> s <= length w -> brec (enc w) (boff w s) n fu = rec w s n fu.
Hypothesis RST : forall w s n fu e, scalars w -> s <= length w -> rec w s n fu = Ret (Some e) -> scalars (cr_stem e).

Lemma second_enc : forall w rw s i fu e1 e2, scalars w -> i <= length w -> scalars rw -> s <= length rw ->
  b_second_rejected k dbg (enc w) (enc rw) (boff rw s) (boff w i) fu e1 e2 =
  Ret (second_rejected k w (skipn s rw) i fu e1 e2).
Proof.
  intros w rw s i fu e1 e2 Hw Hi Hrw Hs. unfold b_second_rejected, second_rejected. rewrite forbidden_enc by assumption.
  destruct (is_forbidden k (cr_flags e2) || forbidden_by_patterns k w i e1 e2 || (o_check_duplicate opts && cr_eqb e1 e2));
    [reflexivity|]. rewrite rep_check_enc by assumption. cbn [bindR orb].
  destruct (rep_check k (skipn s rw)); reflexivity.
Qed.

Lemma triple_rec_enc : forall tr w s i num fu e1, scalars tr -> i <= length tr -> scalars w -> s <= i -> i <= length w ->
  boff tr i = boff w i ->
  b_triple_recursive k dbg brec (enc tr) (enc w) (boff w s) (boff w i) num fu e1 = triple_recursive k rec tr w s i num fu e1.
Proof.
  intros tr w s i num fu e1 Ht Hit Hw Hs Hi E. unfold b_triple_recursive, triple_recursive.
  rewrite <- E, REC, E by assumption. destruct (rec tr i (num + 1) fu) as [[e2|]| |] eqn:R; cbn [bindR]; try reflexivity.
  rewrite <- E, forbidden_enc, E by assumption. destruct (forbidden_by_patterns k tr i e1 e2); [reflexivity|].
  rewrite rep_checks_enc by (try assumption; exact (@RST tr i _ _ e2 Ht Hit R)). reflexivity.
Qed.

Lemma double_front : forall w i pi pc, i <= length w -> prev_codepoint w i = Some (pi, pc) ->
  firstn i (firstn pi w ++ pc :: skipn pi w) = firstn i w.
Proof.
  intros w i pi pc Hi P. destruct (@prev_shape w i pi pc Hi P) as [-> E]. rewrite E.
  change (pc :: skipn pi w) with ([pc] ++ skipn pi w). rewrite app_assoc. apply firstn_app_exact.
  rewrite app_length, firstn_length. cbn [length]. lia.
Qed.
Lemma prev_scalar : forall w i pi pc, scalars w -> prev_codepoint w i = Some (pi, pc) -> scalar pc.
Proof.
  intros w i pi pc Hw H. unfold prev_codepoint in H. destruct (rev (firstn i w)) as [|c r] eqn:E; [discriminate|].
  injection H as _ <-. apply (proj1 (Forall_forall _ _) (scalars_firstn i Hw)), in_rev. rewrite E. left. reflexivity.
Qed.

Lemma insert_boff : forall w i c, scalars w -> i <= length w -> b_insert (enc w) (boff w i) c = Ret (enc (firstn i w ++ c :: skipn i w)).
Proof.
  intros w i c Hw Hi. pose proof (@insert_app (firstn i w) (skipn i w) c) as E. rewrite firstn_skipn in E. exact (E Hw).
Qed.
Lemma double_scalars : forall w i c, scalars w -> scalar c -> scalars (firstn i w ++ c :: skipn i w).
Proof.
  intros w i c Hw Hc. apply Forall_app. split; [apply scalars_firstn; exact Hw|]. constructor; [exact Hc|]. apply scalars_skipn. exact Hw.
Qed.
Lemma double_length : forall (w : str) i c, length (firstn i w ++ c :: skipn i w) = S (length w).
Proof. intros w i c. rewrite app_length. cbn [length]. rewrite <- (firstn_skipn i w) at 3. rewrite app_length. lia. Qed.

Lemma simplified_enc : forall w s i num fu e1, scalars w -> s <= i -> i <= length w ->
  b_simplified_triple k dbg brec (enc w) (boff w s) (boff w i) num fu e1 = try_simplified_triple k rec w s i num fu e1.
Proof.
  intros w s i num fu e1 Hw Hs Hi. unfold b_simplified_triple, try_simplified_triple.
  destruct (o_simplified_triple opts); [|reflexivity]. cbn [negb]. rewrite prev_boff by assumption. cbn [bindR].
  destruct (prev_codepoint w i) as [[pi pc]|] eqn:P; cbn [option_map fst snd]; [|reflexivity].
  destruct (@prev_shape w i pi pc Hi P) as [Ei _]. assert (Hpi : pi <= length w) by lia.
  assert ((boff w pi =? 0) = (pi =? 0)) as ->.
  { destruct pi as [|pi]; [reflexivity|]. cbn [Nat.eqb]. apply Nat.eqb_neq.
    pose proof (@boff_lt w 0 (S pi) ltac:(lia) Hpi). rewrite boff_0 in H. lia. }
  destruct (pi =? 0); [reflexivity|]. rewrite prev_boff by assumption. cbn [bindR].
  destruct (prev_codepoint w pi) as [[pi2 pc2]|] eqn:P2; cbn [option_map fst snd]; [|reflexivity].
  destruct (negb (pc =? pc2)%N); [reflexivity|]. rewrite insert_boff by assumption. cbn [bindR].
  pose proof (@double_scalars w pi pc Hw (@prev_scalar w i pi pc Hw P)) as Ht.
  pose proof (@double_front w i pi pc Hi P) as F. pose proof (double_length w pi pc) as L.
  set (tr := firstn pi w ++ pc :: skipn pi w) in *.
  assert (E : boff tr i = boff w i) by (apply (@front_boff tr w i i); [lia|exact F]).
  rewrite <- E, from_boff, E by (assumption || lia). cbn [bindR]. rewrite part_enc by (apply scalars_skipn; exact Ht).
  destruct (check_word_in_compound k AT_END (skipn i tr)) as [[e2|]| |]; cbn [bindR]; try reflexivity.
  - rewrite <- E, second_enc, E by (assumption || lia). cbn [bindR].
    destruct (second_rejected k tr (skipn s w) i fu e1 e2); [|reflexivity].
    apply triple_rec_enc; assumption || lia.
  - apply triple_rec_enc; assumption || lia.
Qed.

Lemma recursive_enc : forall w s i num fu e1, scalars w -> s <= i -> i <= length w ->
  b_recursive k dbg brec (enc w) (boff w s) (boff w i) num fu e1 = try_recursive k rec w s i num fu e1.
Proof.
  intros w s i num fu e1 Hw Hs Hi. unfold b_recursive, try_recursive. rewrite REC by assumption.
  destruct (rec w i (num + 1) fu) as [[e2|]| |] eqn:R; cbn [bindR]; try reflexivity.
  - rewrite forbidden_enc by assumption. destruct (forbidden_by_patterns k w i e1 e2); [apply simplified_enc; assumption|].
    rewrite rep_checks_enc by (try assumption; exact (@RST w i _ _ e2 Hw Hi R)). cbn [bindR].
    destruct (_ || _); [apply simplified_enc; assumption|reflexivity].
  - apply simplified_enc; assumption.
Qed.

Lemma classic_enc : forall m w s i num fu, scalars w -> s <= i -> i <= length w ->
  b_classic k dbg brec m (enc w) (boff w s) (boff w i) num fu = compound_classic k rec m w s i num fu.
Proof.
  intros m w s i num fu Hw Hs Hi. unfold b_classic, compound_classic.
  rewrite cut_boff by assumption. cbn [bindR]. rewrite part_enc by (apply scalars_slice; exact Hw).
  destruct (check_word_in_compound k m (slice w s i)) as [[e1|]| |]; cbn [bindR]; try reflexivity.
  destruct (is_forbidden k (cr_flags e1)); [reflexivity|].
  rewrite three_boff, upper_boff by assumption.
  destruct (o_check_triple opts); cbn [bindR andb]; [destruct (are_three_chars_equal w i); [reflexivity|]|];
  (destruct (o_check_case opts); cbn [bindR andb]; [destruct (has_uppercase_at_boundary (ck_u k) w i); [reflexivity|]|]);
  (rewrite from_boff by assumption; cbn [bindR]; rewrite part_enc by (apply scalars_skipn; exact Hw);
   destruct (check_word_in_compound k AT_END (skipn i w)) as [[e2|]| |]; cbn [bindR]; try reflexivity;
   [|apply recursive_enc; assumption];
   rewrite second_enc by (assumption || lia); cbn [bindR];
   destruct (second_rejected k w (skipn s w) i fu e1 e2); [apply recursive_enc; assumption|];
   destruct (reaches_max k (add_part k (add_part k num e1) e2)); [|reflexivity];
   destruct (negb (nonempty (ad_vowels A))); [reflexivity|]; rewrite text_enc by exact Hw; cbn [bindR];
   destruct (usize_add_i16 _ _ _) as [ns| |]; cbn [bindR]; try reflexivity;
   destruct (_ <? _)%N; [apply recursive_enc; assumption|reflexivity]).
Qed.

(** *** Patterns with a replacement *)
Lemma plain_enc : forall p w sc s j num fu e1 bc c, scalars w -> scalars sc -> s <= length w -> j <= length sc ->
  bc tt = c tt ->
  b_pattern_plain k dbg p (enc w) (enc sc) (boff w s) (boff sc j) num fu e1 bc = pattern_plain k p w sc s j num fu e1 c.
Proof.
  intros p w sc s j num fu e1 bc c Hw Hsc Hs Hj Ec. unfold b_pattern_plain, pattern_plain.
  rewrite from_boff by assumption. cbn [bindR]. rewrite part_enc by (apply scalars_skipn; exact Hsc).
  destruct (check_word_in_compound k AT_END (skipn j sc)) as [[e2|]| |]; cbn [bindR]; try reflexivity; [|exact Ec].
  destruct (is_forbidden k (cr_flags e2) || flag_missing (cp_second_flag p) (cr_flags e2) || (o_check_duplicate opts && cr_eqb e1 e2));
    [exact Ec|]. rewrite rep_check_enc by assumption. cbn [bindR orb].
  destruct (rep_check k (skipn s w) || _); [exact Ec|]. destruct (reaches_max k num); reflexivity.
Qed.

Lemma rep_pattern_enc : forall w sc s j e2, scalars w -> scalars sc -> s <= length w -> s <= j -> j <= length sc ->
  boff sc s = boff w s -> scalars (cr_stem e2) ->
  b_rep_pattern k dbg (enc w) (enc sc) (boff w s) (boff sc j) e2 = Ret (rep_check k (skipn s w) || rep_check_part2 k sc s j e2).
Proof.
  intros w sc s j e2 Hw Hsc Hs Hsj Hj E Ht. unfold b_rep_pattern, rep_check, rep_check_part2.
  destruct (o_check_rep opts); [|reflexivity]. cbn [andb].
  rewrite from_boff by assumption. cbn [bindR]. rewrite similar_enc by (apply scalars_skipn; exact Hw). cbn [bindR].
  destruct (is_rep_similar k (skipn s w)); [reflexivity|]. rewrite from_boff by assumption. cbn [bindR orb].
  rewrite starts_enc by (try apply scalars_skipn; assumption).
  destruct (starts_with (cr_stem e2) (skipn j sc)) eqn:S; [|reflexivity]. cbn [andb].
  apply starts_with_spec in S. destruct S as [r Er].
  rewrite (@boff_stem sc j _ r Er), <- E. pose proof (@skipn_fits sc _ r j Hj Er).
  rewrite cut_boff by (assumption || lia). cbn [bindR]. apply similar_enc, scalars_slice. exact Hsc.
Qed.

Lemma rep_triple_enc : forall w sc s j pi pc e2, scalars w -> scalars sc -> s <= length w -> s <= j -> j <= length sc ->
  boff sc s = boff w s -> scalars (cr_stem e2) -> prev_codepoint sc j = Some (pi, pc) ->
  let tr := firstn j sc ++ pc :: skipn j sc in
  b_rep_pattern_triple k dbg (enc w) (enc sc) (enc tr) (boff w s) (boff sc j) pc e2 =
  Ret (rep_check k (skipn s w) ||
       (o_check_rep opts && starts_with (cr_stem e2) (skipn j tr) &&
        (let e := j + length (cr_stem e2) - 1 in
         (s <=? e) && (e <=? length sc) && is_rep_similar k (slice sc s e)))).
Proof.
  intros w sc s j pi pc e2 Hw Hsc Hs Hsj Hj E Ht P tr. unfold b_rep_pattern_triple, rep_check.
  destruct (o_check_rep opts); [|reflexivity]. cbn [andb].
  rewrite from_boff by assumption. cbn [bindR]. rewrite similar_enc by (apply scalars_skipn; exact Hw). cbn [bindR].
  destruct (is_rep_similar k (skipn s w)); [reflexivity|]. cbn [orb].
  pose proof (@double_scalars sc j pc Hsc (@prev_scalar sc j pi pc Hsc P)) as Htr. fold tr in Htr.
  pose proof (double_length sc j pc) as L. fold tr in L.
  assert (ST : skipn j tr = pc :: skipn j sc) by (apply skipn_app_exact; rewrite firstn_length; lia).
  assert (Etr : boff tr j = boff sc j).
  { unfold boff, tr. rewrite firstn_app_exact by (rewrite firstn_length; lia). reflexivity. }
  rewrite <- Etr, from_boff, Etr by (assumption || lia). cbn [bindR].
  rewrite starts_enc by (try apply scalars_skipn; assumption). rewrite ST.
  destruct (starts_with (cr_stem e2) (pc :: skipn j sc)) eqn:S; [|reflexivity]. cbn [andb].
  destruct (@prev_shape sc j pi pc Hj P) as [Ej F].
  assert (Bj : boff sc j = boff sc pi + length (enc1 pc)).
  { unfold boff at 1. rewrite F, enc_app, app_length. unfold boff. cbn [enc flat_map]. rewrite app_nil_r. reflexivity. }
  apply starts_with_spec in S. destruct S as [r Er].
  assert (X : exists e, b_minus (boff sc j + length (enc (cr_stem e2))) (length (enc1 pc)) = Ret (boff sc e) /\
    e = j + length (cr_stem e2) - 1 /\ e <= length sc).
  { unfold b_minus. rewrite (leb_correct (length (enc1 pc)) (boff sc j + length (enc (cr_stem e2)))) by lia.
    destruct (cr_stem e2) as [|c st] eqn:Es.
    - exists pi. cbn [enc flat_map length]. split; [f_equal; lia|lia].
    - cbn [app] in Er. injection Er as Ec Er. subst c. exists (j + length st).
      pose proof (@skipn_fits sc st r j Hj Er). cbn [length]. split; [|lia]. f_equal.
      change (enc (pc :: st)) with (enc1 pc ++ enc st). rewrite app_length, <- (@boff_stem sc j st r Er). lia. }
  destruct X as (e & -> & <- & He). cbn [bindR]. rewrite <- E, get_boff by (assumption || lia).
  rewrite (leb_correct e (length sc)) by exact He. rewrite andb_true_r.
  destruct (s <=? e); [|reflexivity]. cbn [andb]. apply similar_enc, scalars_slice. exact Hsc.
Qed.

Lemma step_enc : forall m w s i num fu p, In p (ad_patterns A) -> scalars w -> s <= i -> i <= length w ->
  b_pattern_step k dbg brec m (enc w) (boff w s) (boff w i) num fu p = pattern_step k rec m w s i num fu p.
Proof.
  intros m w s i num fu p Hp Hw Hs Hi. unfold b_pattern_step, pattern_step.
  destruct (proj1 (Forall_forall _ _) (wfc_patterns WFC) _ Hp) as [Sb Se].
  destruct (cp_replacement p) as [rp|] eqn:ER; [|reflexivity].
  pose proof (proj1 (Forall_forall _ _) REPL _ Hp _ ER) as Srp.
  rewrite from_boff by assumption. cbn [bindR]. rewrite starts_enc by (try apply scalars_skipn; assumption).
  destruct (starts_with rp (skipn i w)) eqn:S; [|reflexivity]. cbn [negb].
  apply starts_with_spec in S. destruct S as [r Er]. pose proof (@skipn_fits w rp r i Hi Er) as Lr.
  rewrite upto_boff by assumption. cbn [bindR]. rewrite (@boff_stem w i rp r Er), from_boff by (assumption || lia). cbn [bindR].
  rewrite <- !enc_app.
  set (sc := firstn i w ++ (cp_begin p ++ cp_end p) ++ skipn (i + length rp) w).
  assert (Hsc : scalars sc).
  { unfold sc. unfold scalars. rewrite !Forall_app. split; [apply scalars_firstn; exact Hw|]. split; [auto|]. apply scalars_skipn. exact Hw. }
  assert (Fi : firstn i sc = firstn i w).
  { unfold sc. apply firstn_app_exact. rewrite firstn_length. lia. }
  assert (Bs : boff sc s = boff w s) by (apply (@front_boff sc w i s); assumption).
  set (j := i + length (cp_begin p)).
  assert (Lsc : j <= length sc).
  { unfold sc, j. rewrite !app_length, firstn_length. lia. }
  assert (boff w i + length (enc (cp_begin p)) = boff sc j) as ->.
  { assert (boff w i = boff sc i) as -> by (symmetry; apply (@front_boff sc w i i); [lia|exact Fi]).
    apply (@boff_stem sc i (cp_begin p) (cp_end p ++ skipn (i + length rp) w)).
    unfold sc. rewrite skipn_app_exact by (rewrite firstn_length; lia). rewrite <- app_assoc. reflexivity. }
  assert (Hsj : s <= j) by (unfold j; lia).
  rewrite <- Bs, cut_boff by assumption. cbn [bindR]. rewrite part_enc by (apply scalars_slice; exact Hsc).
  destruct (check_word_in_compound k m (slice sc s j)) as [[e1|]| |]; cbn [bindR]; try reflexivity.
  destruct (is_forbidden k (cr_flags e1)); [reflexivity|].
  destruct (flag_missing (cp_first_flag p) (cr_flags e1)); [reflexivity|].
  rewrite three_boff by assumption.
  assert (CONT : forall (bx x : Res (option cresult + unit)), bx = x ->
    (t <- (if o_check_triple opts then Ret (are_three_chars_equal sc j) else Ret false) ;; if (t : bool) then Ret (inr tt) else bx) =
    (if o_check_triple opts && are_three_chars_equal sc j then Ret (inr tt) else x)).
  { intros bx x ->. destruct (o_check_triple opts); [|reflexivity]. cbn [bindR andb]. reflexivity. }
  apply CONT. clear CONT. rewrite Bs. apply plain_enc; [assumption|assumption|lia|assumption|].
  rewrite REC by assumption. destruct (rec sc j (num + 1) fu) as [r2| |] eqn:R; cbn [bindR]; try reflexivity.
  set (b := match r2 with
            | None => false
            | Some e2 => negb (flag_missing (cp_second_flag p) (cr_flags e2)) &&
                negb (rep_check k (skipn s w) || rep_check_part2 k sc s j e2)
            end).
  assert (match r2 with
          | None => Ret true
          | Some e2 => if flag_missing (cp_second_flag p) (cr_flags e2) then Ret true
                       else b_rep_pattern k dbg (enc w) (enc sc) (boff w s) (boff sc j) e2
          end = Ret (negb b)) as ->.
  { unfold b. destruct r2 as [e2|]; [|reflexivity]. destruct (flag_missing (cp_second_flag p) (cr_flags e2)); [reflexivity|].
    rewrite rep_pattern_enc by (try assumption; try lia; exact (@RST sc j _ _ e2 Hsc Lsc R)).
    cbn [negb andb]. rewrite negb_involutive. reflexivity. }
  cbn [bindR]. rewrite negb_involutive. destruct b; [reflexivity|].
  destruct (o_simplified_triple opts); [|reflexivity]. cbn [negb]. rewrite prev_boff by assumption. cbn [bindR].
  destruct (prev_codepoint sc j) as [[pi pc]|] eqn:P; cbn [option_map fst snd]; [|reflexivity].
  destruct (@prev_shape sc j pi pc Lsc P) as [Ej _]. assert (Hpi : pi <= length sc) by lia.
  assert ((boff sc pi =? 0) = (pi =? 0)) as ->.
  { clear Ej P. destruct pi as [|pi]; [reflexivity|]. cbn [Nat.eqb]. apply Nat.eqb_neq.
    pose proof (@boff_lt sc 0 (S pi) ltac:(lia) Hpi) as H. rewrite boff_0 in H. lia. }
  destruct (pi =? 0); [reflexivity|]. rewrite prev_boff by assumption. cbn [bindR].
  destruct (prev_codepoint sc pi) as [[pi2 pc2]|] eqn:P2; cbn [option_map fst snd]; [|reflexivity].
  destruct (negb (pc =? pc2)%N); [reflexivity|].
  rewrite upto_boff, from_boff by assumption. cbn [bindR].
  change (enc1 pc ++ enc (skipn j sc)) with (enc (pc :: skipn j sc)). rewrite <- enc_app.
  pose proof (@double_scalars sc j pc Hsc (@prev_scalar sc j pi pc Hsc P)) as Htr.
  pose proof (double_length sc j pc) as L.
  pose proof (fun e2 H => @rep_triple_enc w sc s j pi pc e2 Hw Hsc ltac:(lia) Hsj Lsc Bs H P) as RT. cbv zeta in RT.
  set (tr := firstn j sc ++ pc :: skipn j sc) in *.
  assert (Etr : boff tr j = boff sc j).
  { unfold boff, tr. rewrite firstn_app_exact by (rewrite firstn_length; lia). reflexivity. }
  rewrite <- Etr. apply plain_enc; [assumption|assumption|lia|lia|].
  rewrite REC by (assumption || lia). destruct (rec tr j (num + 1) fu) as [[e2|]| |] eqn:R2; cbn [bindR]; try reflexivity.
  destruct (flag_missing (cp_second_flag p) (cr_flags e2)); [reflexivity|].
  rewrite Etr, RT by (exact (@RST tr j _ _ e2 Htr ltac:(lia) R2)). cbn [bindR].
  destruct (rep_check k (skipn s w)); [reflexivity|]. cbn [orb]. reflexivity.
Qed.

Lemma loop_enc : forall m w s i num fu ps, incl ps (ad_patterns A) -> scalars w -> s <= i -> i <= length w ->
  b_pattern_loop k dbg brec m (enc w) (boff w s) (boff w i) num fu ps = pattern_loop k rec m w s i num fu ps.
Proof.
  intros m w s i num fu ps Hps Hw Hs Hi. induction ps as [|p ps IH]; [reflexivity|]. cbn [b_pattern_loop pattern_loop].
  rewrite step_enc by (try assumption; apply Hps; left; reflexivity).
  rewrite IH by (intros x Hx; apply Hps; right; exact Hx). reflexivity.
Qed.

Lemma impl_enc : forall m w s num fu, scalars w -> s <= length w ->
  b_compound_impl k dbg brec m (enc w) (boff w s) num fu = compound_impl k rec m w s num fu.
Proof.
  intros m w s num fu Hw Hs. unfold b_compound_impl, compound_impl.
  rewrite within_boff by (try assumption; apply min_pos; exact WFC). cbn [bindR]. rewrite firstR_map.
  apply firstR_ext. intros i Hi. apply within_In in Hi; [|apply min_pos; exact WFC].
  rewrite classic_enc, loop_enc by (try assumption; try lia; apply incl_refl). reflexivity.
Qed.

(** *** The stem of the part that is returned *)
Lemma triple_ret : forall tr w s i num fu e1 e, triple_recursive k rec tr w s i num fu e1 = Ret (Some e) -> e = e1.
Proof.
  intros tr w s i num fu e1 e H. unfold triple_recursive in H. destruct (rec tr i (num + 1) fu) as [[e2|]| |]; cbn [bindR] in H; try discriminate.
  destruct (forbidden_by_patterns k tr i e1 e2); [discriminate|]. destruct (_ || _); [discriminate|]. congruence.
Qed.
Lemma simplified_ret : forall w s i num fu e1 e, try_simplified_triple k rec w s i num fu e1 = Ret (Some e) -> e = e1.
Proof.
  intros w s i num fu e1 e H. unfold try_simplified_triple in H. destruct (negb _); [discriminate|].
  destruct (prev_codepoint w i) as [[pi pc]|]; [|discriminate]. destruct (pi =? 0); [discriminate|].
  destruct (prev_codepoint w pi) as [[pi2 pc2]|]; [|discriminate]. destruct (negb (pc =? pc2)%N); [discriminate|].
  destruct (check_word_in_compound k AT_END _) as [[e2|]| |]; cbn [bindR] in H; try discriminate;
    [|exact (triple_ret _ _ _ _ _ _ _ H)].
  destruct (second_rejected _ _ _ _ _ _ _); [exact (triple_ret _ _ _ _ _ _ _ H)|]. destruct (exceeds_max k num); congruence.
Qed.
Lemma recursive_ret : forall w s i num fu e1 e, try_recursive k rec w s i num fu e1 = Ret (Some e) -> e = e1.
Proof.
  intros w s i num fu e1 e H. unfold try_recursive in H. destruct (rec w i (num + 1) fu) as [[e2|]| |]; cbn [bindR] in H; try discriminate;
    [|exact (simplified_ret _ _ _ _ _ _ H)].
  destruct (forbidden_by_patterns k w i e1 e2); [exact (simplified_ret _ _ _ _ _ _ H)|].
  destruct (_ || _); [exact (simplified_ret _ _ _ _ _ _ H)|congruence].
Qed.
Lemma classic_stem : forall m w s i num fu e, scalars w -> compound_classic k rec m w s i num fu = Ret (Some e) -> scalars (cr_stem e).
Proof.
  intros m w s i num fu e Hw H. unfold compound_classic in H.
  destruct (check_word_in_compound k m (slice w s i)) as [[e1|]| |] eqn:C; cbn [bindR] in H; try discriminate.
  enough (e = e1) as -> by (exact (@part_stem m _ e1 (scalars_slice s i Hw) C)).
  destruct (is_forbidden k (cr_flags e1)); [discriminate|]. destruct (_ && _); [discriminate|].
  destruct (_ && _) in H; [discriminate|].
  destruct (check_word_in_compound k AT_END (skipn i w)) as [[e2|]| |]; cbn [bindR] in H; try discriminate;
    [|exact (recursive_ret _ _ _ _ _ _ H)].
  destruct (second_rejected _ _ _ _ _ _ _); [exact (recursive_ret _ _ _ _ _ _ H)|].
  destruct (reaches_max _ _); [|congruence]. destruct (negb _); [discriminate|].
  destruct (usize_add_i16 _ _ _) as [ns| |]; cbn [bindR] in H; try discriminate.
  destruct (_ <? _)%N; [exact (recursive_ret _ _ _ _ _ _ H)|congruence].
Qed.
Lemma plain_ret : forall p w sc s j num fu e1 c e, (c tt = Ret (inl (Some e)) -> e = e1) ->
  pattern_plain k p w sc s j num fu e1 c = Ret (inl (Some e)) -> e = e1.
Proof.
  intros p w sc s j num fu e1 c e Hc H. unfold pattern_plain in H.
  destruct (check_word_in_compound k AT_END (skipn j sc)) as [[e2|]| |]; cbn [bindR] in H; try discriminate; [|exact (Hc H)].
  destruct (_ || _); [exact (Hc H)|]. destruct (reaches_max k num); congruence.
Qed.
Lemma step_stem : forall m w s i num fu p e, In p (ad_patterns A) -> scalars w ->
  pattern_step k rec m w s i num fu p = Ret (inl (Some e)) -> scalars (cr_stem e).
Proof.
  intros m w s i num fu p e Hp Hw H. unfold pattern_step in H.
  destruct (proj1 (Forall_forall _ _) (wfc_patterns WFC) _ Hp) as [Sb Se].
  destruct (cp_replacement p) as [rp|]; [|discriminate]. destruct (negb _); [discriminate|].
  set (sc := firstn i w ++ (cp_begin p ++ cp_end p) ++ skipn (i + length rp) w) in *.
  assert (Hsc : scalars sc).
  { unfold sc. unfold scalars. rewrite !Forall_app. split; [apply scalars_firstn; exact Hw|]. split; [auto|]. apply scalars_skipn. exact Hw. }
  destruct (check_word_in_compound k m (slice sc s (i + length (cp_begin p)))) as [[e1|]| |] eqn:C; cbn [bindR] in H; try discriminate.
  enough (e = e1) as -> by (exact (@part_stem m _ e1 (scalars_slice _ _ Hsc) C)).
  destruct (is_forbidden k (cr_flags e1)); [discriminate|]. destruct (flag_missing _ _); [discriminate|].
  destruct (_ && _); [discriminate|]. revert H. apply plain_ret. intro H.
  destruct (rec sc _ (num + 1) fu) as [r2| |]; cbn [bindR] in H; try discriminate.
  destruct (match r2 with Some _ => _ | None => _ end) in H; [congruence|]. destruct (negb _); [discriminate|].
  destruct (prev_codepoint sc _) as [[pi pc]|]; [|discriminate]. destruct (pi =? 0); [discriminate|].
  destruct (prev_codepoint sc pi) as [[pi2 pc2]|]; [|discriminate]. destruct (negb (pc =? pc2)%N); [discriminate|].
  revert H. apply plain_ret. intro H. destruct (rec _ _ (num + 1) fu) as [[e2|]| |]; cbn [bindR] in H; try discriminate.
  destruct (flag_missing _ _); [discriminate|]. destruct (rep_check _ _); [discriminate|]. destruct (_ && _); congruence.
Qed.
Lemma loop_stem : forall m w s i num fu ps e, incl ps (ad_patterns A) -> scalars w ->
  pattern_loop k rec m w s i num fu ps = Ret (Some e) -> scalars (cr_stem e).
Proof.
  intros m w s i num fu ps e Hps Hw. induction ps as [|p ps IH]; cbn [pattern_loop]; intro H; [discriminate|].
  destruct (pattern_step k rec m w s i num fu p) as [[o|u]| |] eqn:E; cbn [bindR] in H; try discriminate.
  - injection H as ->. apply (@step_stem m w s i num fu p); [apply Hps; left; reflexivity|exact Hw|exact E].
  - apply IH; [|exact H]. intros x Hx. apply Hps. right. exact Hx.
Qed.
Lemma impl_stem : forall m w s num fu e, scalars w -> compound_impl k rec m w s num fu = Ret (Some e) -> scalars (cr_stem e).
Proof.
  intros m w s num fu e Hw H. unfold compound_impl in H. apply firstR_some in H. destruct H as (i & _ & H).
  destruct (compound_classic k rec m w s i num fu) as [[e'|]| |] eqn:C; cbn in H; try discriminate.
  - injection H as ->. exact (@classic_stem m w s i num fu e Hw C).
  - exact (@loop_stem m w s i num fu _ e (incl_refl _) Hw H).
Qed.
End Step.

(** ** The whole *)
Lemma middle_stem : forall fuel w s n fu e, scalars w -> compound_middle k fuel w s n fu = Ret (Some e) -> scalars (cr_stem e).
Proof.
  intros [|fuel] w s n fu e Hw H; cbn [compound_middle] in H; [discriminate|].
  exact (@impl_stem (compound_middle k fuel) AT_MIDDLE w s n fu e Hw H).
Qed.
Lemma middle_enc : forall fuel w s n fu, scalars w -> s <= length w ->
  b_compound_middle k dbg fuel (enc w) (boff w s) n fu = compound_middle k fuel w s n fu.
Proof.
  induction fuel as [|fuel IH]; intros w s n fu Hw Hs; cbn [b_compound_middle compound_middle]; [reflexivity|].
  apply impl_enc; [exact IH| |exact Hw|exact Hs]. intros w' s' n' fu' e Hw' _. apply middle_stem. exact Hw'.
Qed.
Lemma rule_part_enc : forall w, scalars w -> b_rule_part k (enc w) = Ret (rule_part k w).
Proof. intros w Hw. unfold b_rule_part. rewrite text_enc by exact Hw. reflexivity. Qed.
Lemma rules_enc : forall fuel w data s fu, scalars w -> s <= length w ->
  b_rules_impl k fuel (enc w) data (boff w s) fu = rules_impl k fuel w data s fu.
Proof.
  induction fuel as [|fuel IH]; intros w data s fu Hw Hs; cbn [b_rules_impl rules_impl]; [reflexivity|].
  rewrite within_boff by (try assumption; apply min_pos; exact WFC). cbn [bindR]. rewrite firstR_map.
  apply firstR_ext. intros i Hi. apply within_In in Hi; [|apply min_pos; exact WFC].
  rewrite cut_boff by (assumption || lia). cbn [bindR]. rewrite rule_part_enc by (apply scalars_slice; exact Hw). cbn [bindR].
  destruct (rule_part k (slice w s i)) as [f1|]; [|reflexivity].
  rewrite from_boff by (assumption || lia). cbn [bindR]. rewrite rule_part_enc by (apply scalars_skipn; exact Hw). cbn [bindR].
  rewrite text_enc by (apply scalars_slice; exact Hw). rewrite IH by (assumption || lia). reflexivity.
Qed.

Theorem check_compound_enc : forall fuel m w fu, scalars w ->
  b_check_compound k dbg fuel m (enc w) fu = check_compound k fuel m w fu.
Proof.
  intros fuel m w fu Hw. unfold b_check_compound, check_compound, check_compound_flags, check_compound_with_rules.
  rewrite indices_enc, map_length, seq_length by exact Hw.
  pose proof (@impl_enc (compound_middle k fuel) (b_compound_middle k dbg fuel) (@middle_enc fuel)
    (fun w' s' n' fu' e Hw' _ => @middle_stem fuel w' s' n' fu' e Hw') m w 0 0 fu Hw (Nat.le_0_l _)) as E0.
  rewrite boff_0 in E0. rewrite E0.
  pose proof (@rules_enc (S (length w)) w [] 0 fu Hw (Nat.le_0_l _)) as E. rewrite boff_0 in E. rewrite E. reflexivity.
Qed.

(** ** Nothing panics, whatever the depth *)
Hypothesis STRICT : strict k = true.
Definition calm {X} (r : Res X) : Prop := r <> Panic.

Lemma calm_settled : forall X (r : Res X), settled (strict k) r -> calm r.
Proof. intros X r H E. subst r. cbn in H. congruence. Qed.
Lemma calm_bind : forall X Y (a : Res X) (f : X -> Res Y), calm a -> (forall x, a = Ret x -> calm (f x)) -> calm (bindR a f).
Proof. intros X Y a f Ha Hf. destruct a; cbn [bindR]; [apply Hf; reflexivity|destruct (Ha eq_refl)|discriminate]. Qed.
Lemma part_calm : forall m w, scalars w -> calm (check_word_in_compound k m w).
Proof. intros m w Hw. apply calm_settled, (part_settled WFC). exact Hw. Qed.
Lemma calm_firstR : forall X Y (f : X -> Res (option Y)) l, (forall x, In x l -> calm (f x)) -> calm (firstR f l).
Proof.
  intros X Y f l H. induction l as [|x l IH]; cbn [firstR]; [discriminate|].
  pose proof (H x (or_introl eq_refl)) as Hx. destruct (f x) as [[y|]| |]; [discriminate| |destruct (Hx eq_refl)|discriminate].
  apply IH. intros y Hy. apply H. right. exact Hy.
Qed.

Section StepCalm.
Variable rec : str -> nat -> nat -> forceucase -> Res (option cresult).
Hypothesis REC : forall w s n fu, scalars w -> calm (rec w s n fu).

Ltac ret := match goal with |- calm (Ret _) => discriminate end.

Lemma triple_calm : forall tr w s i num fu e1, scalars tr -> calm (triple_recursive k rec tr w s i num fu e1).
Proof.
  intros tr w s i num fu e1 Ht. unfold triple_recursive. apply calm_bind; [apply REC; exact Ht|]. intros [e2|] _; [|ret].
  destruct (forbidden_by_patterns _ _ _ _ _); [ret|]. destruct (_ || _); ret.
Qed.
Lemma simplified_calm : forall w s i num fu e1, scalars w -> calm (try_simplified_triple k rec w s i num fu e1).
Proof.
  intros w s i num fu e1 Hw. unfold try_simplified_triple. destruct (negb _); [ret|].
  destruct (prev_codepoint w i) as [[pi pc]|] eqn:P; [|ret]. destruct (pi =? 0); [ret|].
  destruct (prev_codepoint w pi) as [[pi2 pc2]|]; [|ret]. destruct (negb (pc =? pc2)%N); [ret|].
  pose proof (@double_scalars w pi pc Hw (@prev_scalar w i pi pc Hw P)) as Ht.
  set (tr := firstn pi w ++ pc :: skipn pi w) in *.
  apply calm_bind; [apply part_calm, scalars_skipn; exact Ht|]. intros [e2|] _; [|apply triple_calm; exact Ht].
  destruct (second_rejected _ _ _ _ _ _ _); [apply triple_calm; exact Ht|]. destruct (exceeds_max k num); ret.
Qed.
Lemma recursive_calm : forall w s i num fu e1, scalars w -> calm (try_recursive k rec w s i num fu e1).
Proof.
  intros w s i num fu e1 Hw. unfold try_recursive. apply calm_bind; [apply REC; exact Hw|].
  intros [e2|] _; [|apply simplified_calm; exact Hw].
  destruct (forbidden_by_patterns _ _ _ _ _); [apply simplified_calm; exact Hw|].
  destruct (_ || _); [apply simplified_calm; exact Hw|ret].
Qed.
Lemma classic_calm : forall m w s i num fu, scalars w -> calm (compound_classic k rec m w s i num fu).
Proof.
  intros m w s i num fu Hw. unfold compound_classic. apply calm_bind; [apply part_calm, scalars_slice; exact Hw|].
  intros [e1|] _; [|ret]. destruct (is_forbidden k (cr_flags e1)); [ret|]. destruct (_ && _); [ret|]. destruct (_ && _); [ret|].
  apply calm_bind; [apply part_calm, scalars_skipn; exact Hw|]. intros [e2|] _; [|apply recursive_calm; exact Hw].
  destruct (second_rejected _ _ _ _ _ _ _); [apply recursive_calm; exact Hw|].
  destruct (reaches_max _ _); [|ret]. destruct (nonempty (ad_vowels A)) eqn:V; cbn [negb]; [|ret].
  apply calm_bind; [apply calm_settled, usize_settled; exact V|]. intros ns _.
  destruct (_ <? _)%N; [apply recursive_calm; exact Hw|ret].
Qed.
Lemma plain_calm : forall p w sc s j num fu e1 c, scalars sc -> calm (c tt) -> calm (pattern_plain k p w sc s j num fu e1 c).
Proof.
  intros p w sc s j num fu e1 c Hsc Hc. unfold pattern_plain. apply calm_bind; [apply part_calm, scalars_skipn; exact Hsc|].
  intros [e2|] _; [|exact Hc]. destruct (_ || _); [exact Hc|]. destruct (reaches_max k num); ret.
Qed.
Lemma step_calm : forall m w s i num fu p, In p (ad_patterns A) -> scalars w -> calm (pattern_step k rec m w s i num fu p).
Proof.
  intros m w s i num fu p Hp Hw. unfold pattern_step.
  destruct (proj1 (Forall_forall _ _) (wfc_patterns WFC) _ Hp) as [Sb Se].
  destruct (cp_replacement p) as [rp|]; [|ret]. destruct (negb _); [ret|].
  set (sc := firstn i w ++ (cp_begin p ++ cp_end p) ++ skipn (i + length rp) w).
  assert (Hsc : scalars sc).
  { unfold sc. unfold scalars. rewrite !Forall_app. split; [apply scalars_firstn; exact Hw|]. split; [auto|]. apply scalars_skipn. exact Hw. }
  set (j := i + length (cp_begin p)).
  apply calm_bind; [apply part_calm, scalars_slice; exact Hsc|]. intros [e1|] _; [|ret].
  destruct (is_forbidden k (cr_flags e1)); [ret|]. destruct (flag_missing _ _); [ret|]. destruct (_ && _); [ret|].
  apply plain_calm; [exact Hsc|]. apply calm_bind; [apply REC; exact Hsc|]. intros r2 _.
  destruct (match r2 with Some _ => _ | None => _ end); [ret|]. destruct (negb _); [ret|].
  destruct (prev_codepoint sc j) as [[pi pc]|] eqn:P; [|ret]. destruct (pi =? 0); [ret|].
  destruct (prev_codepoint sc pi) as [[pi2 pc2]|]; [|ret]. destruct (negb (pc =? pc2)%N); [ret|].
  pose proof (@double_scalars sc j pc Hsc (@prev_scalar sc j pi pc Hsc P)) as Htr.
  apply plain_calm; [exact Htr|]. apply calm_bind; [apply REC; exact Htr|]. intros [e2|] _; [|ret].
  destruct (flag_missing _ _); [ret|]. destruct (rep_check _ _); [ret|]. destruct (_ && _); ret.
Qed.
Lemma loop_calm : forall m w s i num fu ps, incl ps (ad_patterns A) -> scalars w -> calm (pattern_loop k rec m w s i num fu ps).
Proof.
  intros m w s i num fu ps Hps Hw. induction ps as [|p ps IH]; cbn [pattern_loop]; [ret|].
  apply calm_bind; [apply step_calm; [apply Hps; left; reflexivity|exact Hw]|]. intros [o|u] _; [ret|].
  apply IH. intros x Hx. apply Hps. right. exact Hx.
Qed.
Lemma impl_calm : forall m w s num fu, scalars w -> calm (compound_impl k rec m w s num fu).
Proof.
  intros m w s num fu Hw. unfold compound_impl. apply calm_firstR. intros i _.
  pose proof (@classic_calm m w s i num fu Hw) as C.
  destruct (compound_classic k rec m w s i num fu) as [[e|]| |]; [discriminate| |exact C|discriminate].
  apply loop_calm; [apply incl_refl|exact Hw].
Qed.
End StepCalm.

Lemma middle_calm : forall fuel w s n fu, scalars w -> calm (compound_middle k fuel w s n fu).
Proof.
  induction fuel as [|fuel IH]; intros w s n fu Hw; cbn [compound_middle]; [discriminate|]. apply impl_calm; assumption.
Qed.
Theorem check_compound_calm : forall fuel m w fu, scalars w -> check_compound k fuel m w fu <> Panic.
Proof.
  intros fuel m w fu Hw. unfold check_compound.
  assert (calm (if allows_compounding opts then check_compound_flags k fuel m w fu else Ret None)) as C1.
  { destruct (allows_compounding opts); [|discriminate]. apply impl_calm; [|exact Hw]. intros. apply middle_calm. assumption. }
  destruct (if allows_compounding opts then _ else _) as [[e|]| |]; [discriminate| |exact C1|discriminate].
  destruct (nonempty _); [|discriminate]. 
  destruct (@rules_settled k (wfc_checker WFC) (wfc_min WFC) w fu) as [r ->]. discriminate.
Qed.
End Refine.
