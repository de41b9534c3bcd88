(** [check] and [suggest] come to an end, whatever else may happen in them: every loop and every
    recursion is finite when compounding shrinks the word and ICONV makes no hyphens.  A panic
    counts as an end here; nothing is asked of the words. *)
From Coq Require Import List NArith ZArith Lia Bool Arith Permutation.
From Coq Require Import ZifyBool ZifyNat ZifyN.
From Verif Require Import Base Utf8 Unicode Flags Affix Conversion Aff Checker Bag AffixSpec CompoundRule Rep CompoundSpec CompoundTotal RuleCompound
  Spell CheckSpec CheckMono CheckProps BufferOps Ngram Suggester SuggestSpec SuggestLow SuggestMono Dedup SuggestProps.
Import ListNotations.
Set Implicit Arguments.

Notation live := (settled false).
Notation Ends := (Converges false).

Lemma live_iff : forall X (r : Res X), live r <-> r <> NoFuel.
Proof. intros X [x| |]; cbn; split; intros; try discriminate; auto; try contradiction. Qed.
Lemma live_foldR : forall S A (f : S -> A -> Res S) l s, (forall s a, live (f s a)) -> live (foldR f l s).
Proof. intros S A f l. induction l as [|a l IH]; intros s H; [exact I|]. cbn [foldR]. apply settled_bind; [apply H|]. intros. apply IH, H. Qed.
Lemma live_mapR : forall A B (f : A -> Res B) l, (forall a, live (f a)) -> live (mapR f l).
Proof.
  intros A B f l H. induction l as [|a l IH]; [exact I|]. cbn [mapR]. apply settled_bind; [apply H|]. intros.
  apply settled_bind; [exact IH|]. intros. exact I.
Qed.
Lemma live_debug : forall X d b (r : Res X), live r -> live (debug_assert d b r).
Proof. intros X d b r H. unfold debug_assert. destruct (d && negb b); [reflexivity|exact H]. Qed.

(** ** Compounding *)
Section Compound.
Variable k : checker.
Hypothesis WFC : wf_compound k.
Notation A := (ck_aff k).
Notation opts := (ad_options (ck_aff k)).

Ltac livet := repeat
  match goal with
  | |- live (Ret _) => exact I
  | |- live Panic => reflexivity
  | |- live (bindR _ _) => apply settled_bind; [|intros]
  | |- live (if ?b then _ else _) => destruct b
  | |- live (match ?x with _ => _ end) => destruct x
  end.

Lemma i16_live : forall b z, live (i16_op b z).
Proof. intros. unfold i16_op. livet. Qed.
Lemma usize_live : forall b n z, live (usize_add_i16 b n z).
Proof. intros. unfold usize_add_i16. livet. Qed.
Lemma swm_live : forall m f s, live (syllable_modifier_with_suffix k m f s).
Proof. intros. unfold syllable_modifier_with_suffix. livet; apply i16_live. Qed.
Lemma part_live : forall m w, live (check_word_in_compound k m w).
Proof. intros. unfold check_word_in_compound. livet; apply swm_live. Qed.

Hypothesis SH : Shrinks A.

Section Step.
Variable rec : str -> nat -> nat -> forceucase -> Res (option cresult).
Variables (word : str) (start : nat) (fu : forceucase).
Hypothesis Hrec : forall w' s' n', s' <= length w' -> length w' - s' < length word - start -> live (rec w' s' n' fu).
Variable i : nat.
Hypothesis Hin : In i (within word start (min_chars k)).

Ltac bounds := let B1 := fresh "B" in let B2 := fresh "B" in let MP := fresh "MP" in
  pose proof (@At_bounds k WFC word start i Hin) as [B1 B2]; pose proof (min_pos WFC) as MP.

Lemma simplified_live : forall num e1, live (try_simplified_triple k rec word start i num fu e1).
Proof.
  intros num e1. bounds. unfold try_simplified_triple.
  destruct (o_simplified_triple opts) eqn:Est; cbn [negb]; [|exact I].
  destruct (prev_codepoint word i) as [[pi pc]|] eqn:E1; [|exact I].
  destruct (Nat.eqb_spec pi 0) as [|Hpi]; [exact I|].
  destruct (prev_codepoint word pi) as [[pi2 pc2]|] eqn:E2; [|exact I].
  destruct (N.eqb_spec pc pc2) as [<-|]; cbn [negb]; [|exact I].
  set (triple := firstn pi word ++ pc :: skipn pi word) in *.
  assert (length triple = S (length word)) as LT.
  { destruct (prev_codepoint_spec _ _ E1) as (F1 & L1 & L1'). unfold triple. rewrite app_length. cbn [length].
    rewrite firstn_length, skipn_length. lia. }
  pose proof (shrinks_triple SH Est) as HM. change (min_part A) with (min_chars k) in HM.
  clearbody triple.
  assert (TRS : live (triple_recursive k rec triple word start i num fu e1)).
  { unfold triple_recursive. apply settled_bind; [apply Hrec; lia|]. intros. livet. }
  apply settled_bind; [apply part_live|]. intros. livet; exact TRS.
Qed.
Lemma recursive_live : forall num e1, live (try_recursive k rec word start i num fu e1).
Proof.
  intros num e1. bounds. unfold try_recursive. apply settled_bind; [apply Hrec; lia|]. intros. livet; apply simplified_live.
Qed.
Lemma classic_live : forall m num, live (compound_classic k rec m word start i num fu).
Proof. intros m num. unfold compound_classic. livet; try apply part_live; try apply recursive_live. apply usize_live. Qed.
Lemma pattern_plain_live : forall p txt j num e1 cont, live (cont tt) -> live (pattern_plain k p word txt start j num fu e1 cont).
Proof. intros p txt j num e1 cont Hc. unfold pattern_plain. livet; try apply part_live; exact Hc. Qed.
Lemma pattern_step_live : forall m num pat, In pat (ad_patterns A) -> live (pattern_step k rec m word start i num fu pat).
Proof.
  intros m num pat Hpat. bounds. unfold pattern_step.
  destruct (cp_replacement pat) as [rep|] eqn:Erep; [|exact I].
  destruct (starts_with rep (skipn i word)) eqn:Est; cbn [negb]; [|exact I].
  apply starts_with_spec in Est. destruct Est as [r Er].
  assert (skipn (i + length rep) word = r) as Er'.
  { rewrite <- skipn_skipn'. rewrite Er. apply skipn_app_exact. reflexivity. }
  rewrite Er'. pose proof (f_equal (@length N) Er) as LE. rewrite skipn_length, app_length in LE.
  set (scratch := firstn i word ++ (cp_begin pat ++ cp_end pat) ++ r) in *.
  assert (length scratch = i + length (cp_begin pat) + length (cp_end pat) + length r) as LS.
  { unfold scratch. rewrite !app_length, firstn_length. lia. }
  clearbody scratch. set (j := i + length (cp_begin pat)) in *.
  pose proof (shrinks_pattern SH _ Hpat Erep) as HS. change (min_part A) with (min_chars k) in HS.
  apply settled_bind; [apply part_live|]. intros [e1|] _; [|exact I].
  destruct (is_forbidden _ _); [exact I|]. destruct (flag_missing _ _); [exact I|]. destruct (_ && _); [exact I|].
  apply pattern_plain_live.
  apply settled_bind; [apply Hrec; unfold j; lia|]. intros r1 _.
  match goal with |- settled _ (if ?c then _ else _) => destruct c end; [exact I|].
  destruct (o_simplified_triple opts) eqn:Esim; cbn [negb]; [|exact I].
  destruct (prev_codepoint scratch j) as [[pi pc]|] eqn:E1; [|exact I].
  destruct (Nat.eqb_spec pi 0) as [|Hpi]; [exact I|].
  destruct (prev_codepoint scratch pi) as [[pi2 pc2]|] eqn:E2; [|exact I].
  destruct (N.eqb_spec pc pc2) as [<-|]; cbn [negb]; [|exact I].
  set (triple := firstn j scratch ++ pc :: skipn j scratch) in *.
  assert (length triple = S (length scratch)) as LT.
  { unfold triple. rewrite app_length. cbn [length]. rewrite firstn_length, skipn_length. lia. }
  clearbody triple.
  apply pattern_plain_live.
  apply settled_bind; [apply Hrec; unfold j in *; lia|]. intros. livet.
Qed.
Lemma pattern_loop_live : forall m num ps, incl ps (ad_patterns A) -> live (pattern_loop k rec m word start i num fu ps).
Proof.
  intros m num ps. induction ps as [|p ps IH]; intro H; [exact I|]. cbn [pattern_loop].
  apply settled_bind; [apply pattern_step_live; apply H; left; reflexivity|].
  intros [o|u] _; [exact I|]. apply IH. intros x Hx. apply H. right. exact Hx.
Qed.
End Step.

Lemma orelse_live : forall X (a b : Res (option X)), live a -> live b -> live (orelse a b).
Proof. intros X [[x|]| |] b Ha Hb; cbn in *; auto. Qed.
Lemma middle_live : forall fuel m word start num fu, start <= length word ->
  length word - start <= fuel -> live (compound_impl k (compound_middle k fuel) m word start num fu).
Proof.
  induction fuel as [|fuel IH]; intros m word start num fu Hst Hf; unfold compound_impl; apply settled_firstR;
    intros i Hin; apply orelse_live;
    (apply classic_live || (apply pattern_loop_live; [| |apply incl_refl])); try assumption;
    intros w' s' n' Hs' Hlt; try lia; cbn [compound_middle]; apply IH; try assumption; lia.
Qed.
End Compound.

(** ** [check] *)
Lemma ends_foldR : forall S A (f : nat -> S -> A -> Res S) l s, (forall s a, Ends (fun n => f n s a)) ->
  Ends (fun n => foldR (f n) l s).
Proof.
  intros S A f l. induction l as [|a l IH]; intros s H; [apply (@converges_const false _ (Ret s)); exact I|]. cbn [foldR].
  apply (@converges_bind false _ _ (fun n => f n s a) (fun s n => foldR (f n) l s)); [apply H|]. intros. apply IH, H.
Qed.
Lemma ends_mapR : forall A B (f : nat -> A -> Res B) l, (forall a, Ends (fun n => f n a)) -> Ends (fun n => mapR (f n) l).
Proof.
  intros A B f l H. induction l as [|a l IH]; [apply (@converges_const false _ (Ret [])); exact I|]. cbn [mapR].
  apply (@converges_bind false _ _ (fun n => f n a) (fun b n => r <- mapR (f n) l ;; Ret (b :: r))); [apply H|]. intros b _.
  apply (@converges_bind false _ _ (fun n => mapR (f n) l) (fun r _ => Ret (b :: r))); [exact IH|]. intros. apply converges_const. exact I.
Qed.
Lemma ends_loopR : forall S A (f : nat -> S -> A -> Res (S + S)) l s, (forall s a, Ends (fun n => f n s a)) ->
  Ends (fun n => loopR (f n) l s).
Proof.
  intros S A f l. induction l as [|a l IH]; intros s H; [apply (@converges_const false _ (Ret (inl s))); exact I|]. cbn [loopR].
  apply (@converges_bind false _ _ (fun n => f n s a) (fun r n => match r with inl s' => loopR (f n) l s' | inr s' => Ret (inr s') end));
    [apply H|]. intros [s'|s'] _; [apply IH, H|apply converges_const; exact I].
Qed.
Lemma ends_debug : forall X d b (f : nat -> Res X), Ends f -> Ends (fun n => debug_assert d b (f n)).
Proof. intros X d b f H. unfold debug_assert. destruct (d && negb b); [apply converges_const; reflexivity|exact H]. Qed.
Lemma ends_orelse : forall X (f g : nat -> Res (option X)), Ends f -> Ends g -> Ends (fun n => orelse (f n) (g n)).
Proof. intros. apply converges_orelse; assumption. Qed.
Lemma ends_else : forall X (f g : nat -> Res (option X)), Ends f -> Ends g -> Ends (fun n => f n ORELSE g n).
Proof. intros. apply converges_orelse; assumption. Qed.
Lemma ends_bind : forall X Y (f : nat -> Res X) (g : X -> nat -> Res Y),
  Ends f -> (forall x, Ends (g x)) -> Ends (fun n => bindR (f n) (fun x => g x n)).
Proof. intros. apply converges_bind; [assumption|intros; auto]. Qed.
Lemma ends_anyR : forall X (f : nat -> X -> Res bool) l, (forall x, Ends (fun n => f n x)) -> Ends (fun n => anyR (f n) l).
Proof. intros. apply (@converges_anyR false _ (fun x n => f n x)). intros. auto. Qed.

Create HintDb ends.
Ltac ends := repeat
  match goal with
  | |- Ends (fun _ => ?r) => apply (@converges_const false _ r)
  | |- live (Ret _) => exact I
  | |- live Panic => reflexivity
  | |- live (bindR _ _) => apply settled_bind; [|intros]
  | |- live (foldR _ _ _) => apply live_foldR; intros
  | |- live (mapR _ _) => apply live_mapR; intros
  | |- live (debug_assert _ _ _) => apply live_debug
  | |- live (match ?x with _ => _ end) => destruct x
  | |- Ends (fun n => bindR (@?f n) (fun x => @?g n x)) => refine (@ends_bind _ _ f (fun x n => g n x) _ _); [|intro]; cbv beta
  | |- Ends (fun n => orelse (@?f n) (@?g n)) => refine (@ends_orelse _ f g _ _); cbv beta
  | |- Ends (fun n => debug_assert ?d ?b (@?f n)) => refine (@ends_debug _ d b f _); cbv beta
  | |- Ends (fun n => foldR (@?f n) ?l ?s) => refine (@ends_foldR _ _ f l s _); cbv beta; intros
  | |- Ends (fun n => loopR (@?f n) ?l ?s) => refine (@ends_loopR _ _ f l s _); cbv beta; intros
  | |- Ends (fun n => mapR (@?f n) ?l) => refine (@ends_mapR _ _ f l _); cbv beta; intros
  | |- Ends (fun n => anyR (@?f n) ?l) => refine (@ends_anyR _ f l _); cbv beta; intros
  | |- Ends (fun n => match ?x with _ => _ end) => destruct x
  | |- _ => solve [auto with ends]
  | |- Ends (fun n => match _ with _ => _ end) => refine (@ends_else _ _ _ _ _)
  end.

Section Check.
Variable k : checker.
Hypothesis WF : wf_full k.
Notation A := (ck_aff k).
Notation opts := (ad_options (ck_aff k)).
Notation U := (ck_u k).
Notation case := (o_case (ad_options (ck_aff k))).

Lemma compound_ends : forall m w fu, Ends (fun n => check_compound k n m w fu).
Proof.
  intros m w fu. unfold check_compound. apply ends_orelse.
  - destruct (allows_compounding opts); [|apply converges_const; exact I].
    pose proof (@middle_live k (wff_compound WF) (wff_shrinks WF) (length w) m w 0 0 fu (Nat.le_0_l _) ltac:(lia)) as L.
    exists (check_compound_flags k (length w) m w fu). split; [exact L|]. exists (length w). intros fuel Hf.
    assert (R : refines (check_compound_flags k (length w) m w fu) (check_compound_flags k fuel m w fu)).
    { unfold check_compound_flags. apply CompoundTotal.impl_mono. apply middle_mono. exact Hf. }
    destruct R as [R|R]; [|congruence]. unfold check_compound_flags in R. rewrite R in L. destruct L.
  - apply converges_const. destruct (nonempty _); [|exact I].
    destruct (@rules_settled k (wfc_checker (wff_compound WF)) (wfc_min (wff_compound WF)) w fu) as [r ->]. exact I.
Qed.
Hint Resolve compound_ends : ends.
Lemma word_ends : forall w fu hh, Ends (fun n => check_word k n w fu hh).
Proof. intros. unfold check_word. ends. Qed.
Hint Resolve word_ends : ends.
Lemma title_live : forall w, live (titlecase U case w).
Proof. intros [|c w]; [reflexivity|exact I]. Qed.
Hint Resolve title_live : ends.
Lemma sharps_ends : forall n pre rest r, Ends (fun fuel => do_spell_sharps k fuel n pre rest r).
Proof. induction n as [|n IH]; intros; cbn [do_spell_sharps]; ends. Qed.
Hint Resolve sharps_ends : ends.
Lemma upper_ends : forall w, Ends (fun n => spell_casing_upper k n w).
Proof. intros. unfold spell_casing_upper, spell_sharps. ends. Qed.
Lemma casing_title_ends : forall w, Ends (fun n => spell_casing_title k n w).
Proof. intros. unfold spell_casing_title. ends. Qed.
Hint Resolve upper_ends casing_title_ends : ends.
Lemma spell_casing_ends : forall w, Ends (fun n => spell_casing k n w).
Proof. intros. unfold spell_casing. ends. Qed.
Hint Resolve spell_casing_ends : ends.
Lemma break_ends : forall n w, Ends (fun fuel => do_spell_break k fuel n w).
Proof. induction n as [|n IH]; intros; cbn [do_spell_break]; ends. Qed.
Hint Resolve break_ends : ends.
Lemma convert_live : forall t w, conv_table_ok t -> live (convert t w).
Proof.
  intros t w [Hs _]. unfold convert. destruct (ct_inner t) eqn:ET; [exact I|]. rewrite <- ET in Hs. destruct (_ && _); [exact I|]. destruct (negb _); [exact I|].
  destruct (@convert_loop_spec t Hs (length w) w [] (le_n _)) as (out & E & _). cbn [app length] in E. rewrite E. exact I.
Qed.
Theorem check_ends : forall w, Ends (fun n => check k n w).
Proof.
  intros w. unfold check, spell_break. pose proof (fun w => @convert_live _ w (wff_iconv WF)). ends.
Qed.
End Check.

(** ** [suggest] *)
Section Suggest.
Variable sg : suggester.
Hypothesis WF : wf_full (su_checker sg).
Notation k := (su_checker sg).
Notation aff := (ck_aff (su_checker sg)).
Notation opts := (ad_options (ck_aff (su_checker sg))).
Notation U := (ck_u (su_checker sg)).
Notation case := (o_case (ad_options (ck_aff (su_checker sg)))).


Ltac bytes := cbv zeta; ends.
Lemma on_slice_live : forall a b f l, (forall x, live (f x)) -> live (on_slice a b f l).
Proof. intros a b f l H. unfold on_slice. ends. Qed.
Lemma encode_live : forall c l, live (encode_into c l).
Proof. intros. unfold encode_into. ends. Qed.
Lemma rotate_left_live : forall n l, live (rotate_left n l).
Proof. intros. unfold rotate_left. ends. Qed.
Lemma rotate_right_live : forall n l, live (rotate_right n l).
Proof. intros. unfold rotate_right. ends. Qed.
Hint Resolve on_slice_live encode_live rotate_left_live rotate_right_live : ends.
Lemma in_place_live : forall X (f : list N -> Res (list N * X)) s, (forall b, live (f b)) -> live (in_place f s).
Proof. intros X f s H. unfold in_place. ends. Qed.
Lemma swap_adjacent_live : forall i a b s, live (swap_adjacent sg i a b s).
Proof. intros. apply in_place_live. intros. unfold swap_adjacent_chars. bytes. Qed.
Lemma swap_distant_live : forall i a j b s, live (swap_distant sg i a j b s).
Proof. intros. apply in_place_live. intros. unfold swap_distant_chars, swap_ranges. bytes. Qed.
Lemma replace_char_live : forall i a b s, live (in_place (plain (fun bs => replace_char_at (su_debug sg) bs i a b)) s).
Proof. intros. apply in_place_live. intros. unfold plain, replace_char_at. bytes. Qed.
Lemma attempts_live : forall w, live (max_attempts sg w).
Proof. intros. unfold max_attempts. bytes. Qed.
Lemma remove_live : forall i s, live (remove_at i s).
Proof. intros. unfold remove_at. ends. Qed.
Lemma insert_live : forall i c s, live (insert_at i c s).
Proof. intros. unfold insert_at. ends. Qed.
Lemma rotate_bytes_live : forall f n a b s, (forall n l, live (f n l)) -> live (rotate_bytes f n a b s).
Proof. intros. unfold rotate_bytes. apply settled_bind; [apply in_place_live; intros; unfold plain; ends|intros; exact I]. Qed.
Lemma k_word_ends : forall w fu hh, Ends (fun n => check_word k n w fu hh).
Proof. exact (word_ends WF). Qed.
Lemma k_check_ends : forall w, Ends (fun n => check k n w).
Proof. exact (check_ends WF). Qed.
Lemma k_compound_ends : forall m w fu, Ends (fun n => check_compound k n m w fu).
Proof. exact (compound_ends WF). Qed.
Hint Resolve swap_adjacent_live swap_distant_live replace_char_live attempts_live remove_live insert_live rotate_bytes_live
  k_word_ends k_check_ends k_compound_ends : ends.

Lemma add_ends : forall w out, Ends (fun n => add_suggestion_if_correct sg n w out).
Proof. intros. unfold add_suggestion_if_correct. ends. Qed.
Hint Resolve add_ends : ends.
Lemma try_ends : forall w out, Ends (fun n => try sg n w out).
Proof. intros. unfold try. ends. Qed.
Hint Resolve try_ends : ends.
Lemma parts_ends : forall n w, length w < n -> Ends (fun fuel => rep_parts sg fuel n w).
Proof.
  induction n as [|n IH]; intros w L; [lia|]. cbn [rep_parts]. destruct (find_char (N.eqb 32) w) as [j|] eqn:E; [|ends].
  apply ends_bind; [ends|]. intros [f|]; [|ends]. apply IH. apply find_char_some in E.
  destruct E as (u & c & v & -> & L' & _). rewrite skipn_length. rewrite app_length in L. cbn [length] in L. rewrite app_length. cbn [length]. lia.
Qed.
Lemma try_rep_ends : forall w out, Ends (fun n => try_rep_suggestion sg n w out).
Proof. intros. unfold try_rep_suggestion. pose proof (@parts_ends (S (length w)) w (le_n _)). ends. Qed.
Hint Resolve try_rep_ends : ends.
Lemma rep_ends : forall w out, Ends (fun n => rep_suggest sg n w out).
Proof. intros. unfold rep_suggest, rep_start_step, rep_end_step, rep_any_step, rep_at_step. cbv zeta. ends. Qed.

(** The attempts left bound the depth of the search for similar letters. *)
Lemma ends_loopR_inv : forall S A (I : S -> Prop) (f : nat -> S -> A -> Res (S + S)) l s,
  (forall s a, I s -> Ends (fun n => f n s a)) -> (forall n s a r, I s -> f n s a = Ret r -> I (final r)) -> I s ->
  Ends (fun n => loopR (f n) l s).
Proof.
  intros S A I f l. induction l as [|a l IH]; intros s H K Hs; [apply (@converges_const false _ (Ret (inl s))); exact Logic.I|].
  cbn [loopR].
  apply (@converges_bind false _ _ (fun n => f n s a) (fun r n => match r with inl s' => loopR (f n) l s' | inr s' => Ret (inr s') end));
    [apply H, Hs|].
  intros [s'|s'] [n E]; [|apply converges_const; exact Logic.I]. apply IH; try assumption. exact (K n s a (inl s') Hs (E n (le_n _))).
Qed.
Lemma loopR_inv : forall S A (I : S -> Prop) (f : S -> A -> Res (S + S)) l s r,
  (forall s a r, I s -> f s a = Ret r -> I (final r)) -> I s -> loopR f l s = Ret r -> I (final r).
Proof.
  intros S A I f l. induction l as [|a l IH]; intros s r K Hs E; cbn [loopR] in E; [injection E as <-; exact Hs|].
  destruct (f s a) as [[s'|s']| |] eqn:E1; cbn [bindR] in E; try discriminate.
  - eapply IH; [exact K|exact (K s a _ Hs E1)|exact E].
  - injection E as <-. exact (K s a _ Hs E1).
Qed.

Section Map.
Variable rec : nat -> str -> nat -> mstate -> Res mstate.
Variable B : N.
Hypothesis REC : forall w i m, (fst m < B)%N -> Ends (fun n => rec n w i m).
Hypothesis DOWN : forall n w i m m', rec n w i m = Ret m' -> (fst m' <= fst m)%N.
Notation I := (fun st : str * mstate => (fst (snd st) <= B)%N).

Lemma map_try_ends : forall w edit undo next st, I st -> (forall b, live (edit b)) -> (forall b, live (undo b)) ->
  Ends (fun n => map_try sg n (rec n) w edit undo next st).
Proof.
  intros w edit undo next [b [rem out]] Hst HE HU. cbn [fst snd] in Hst. unfold map_try.
  destruct (N.eqb_spec rem 0); [apply converges_const; exact Logic.I|].
  apply ends_bind; [apply converges_const, HE|]. intros b1. apply ends_bind; [apply try_ends|]. intros out1.
  apply ends_bind; [apply REC; cbn [fst]; lia|]. intros m. apply ends_bind; [apply converges_const, HU|]. intros b2.
  apply converges_const. apply live_debug. exact Logic.I.
Qed.
Lemma map_try_inv : forall n w edit undo next st r, I st -> map_try sg n (rec n) w edit undo next st = Ret r -> I (final r).
Proof using DOWN. clear REC.
  intros n w edit undo next [b [rem out]] r Hst E. cbn [fst snd] in Hst. unfold map_try in E.
  destruct (N.eqb_spec rem 0); [injection E as <-; exact Hst|].
  destruct (edit b) as [b1| |]; cbn [bindR] in E; try discriminate.
  destruct (try sg n b1 out) as [o1| |]; cbn [bindR] in E; try discriminate.
  destruct (rec n b1 next _) as [m| |] eqn:E1; cbn [bindR] in E; try discriminate. apply DOWN in E1. cbn [fst] in E1.
  destruct (undo b1) as [b2| |]; cbn [bindR] in E; try discriminate.
  unfold debug_assert in E. destruct (_ && _); [discriminate|]. injection E as <-. cbn [final fst snd]. lia.
Qed.
Lemma map_from_char_ends : forall w idx ch g st, I st -> Ends (fun n => map_from_char sg n (rec n) w idx ch g st).
Proof.
  intros w idx ch g st Hst. unfold map_from_char. cbv zeta.
  match goal with |- Ends (fun n => bindR (loopR (@?f n) ?l ?s) _) =>
    assert (IV : forall n s a r, I s -> f n s a = Ret r -> I (final r)) end.
  { cbv beta. intros n s a r Hs E. destruct (a =? ch)%N; [injection E as <-; exact Hs|]. eapply map_try_inv; [exact Hs|exact E]. }
  match goal with |- Ends (fun n => bindR (@?f n) (fun x => @?g n x)) => apply (@converges_bind false _ _ f (fun x n => g n x)) end.
  - apply ends_loopR_inv with (I := I); try assumption. intros s a Hs. destruct (a =? ch)%N; [ends|].
    apply map_try_ends; [exact Hs| |]; intros; ends.
  - intros [s|s] [n E]; [|ends]. specialize (E n (le_n _)). apply (@loopR_inv _ _ I) in E; [|exact (IV n)|exact Hst].
    apply ends_loopR_inv with (I := I); [| |exact E].
    + intros s' a Hs. apply map_try_ends; [exact Hs| |]; intros; exact Logic.I.
    + intros m s' a r Hs E'. eapply map_try_inv; [exact Hs|exact E'].
Qed.
Lemma map_from_char_inv : forall n w idx ch g st r, I st -> map_from_char sg n (rec n) w idx ch g st = Ret r -> I (final r).
Proof using DOWN. clear REC.
  intros n w idx ch g st r Hst E. unfold map_from_char in E. cbv zeta in E.
  match type of E with bindR ?x _ = _ => destruct x as [[s|s]| |] eqn:E1; cbn [bindR] in E; try discriminate end.
  all: apply (@loopR_inv _ _ I) in E1; [|intros s0 a r0 Hs0 E0; destruct (a =? ch)%N;
    [injection E0 as <-; exact Hs0|eapply map_try_inv; [exact Hs0|exact E0]]|exact Hst].
  - apply (@loopR_inv _ _ I) in E; [exact E| |exact E1]. intros s0 a r0 Hs0 E0. eapply map_try_inv; [exact Hs0|exact E0].
  - injection E as <-. exact E1.
Qed.
Lemma map_from_string_ends : forall w idx g st e, I st -> Ends (fun n => map_from_string sg n (rec n) w idx g st e).
Proof.
  intros w idx g st [pos x] Hst. unfold map_from_string. cbv zeta. destruct (find_sub x (skipn idx w)) as [i|]; [|ends].
  match goal with |- Ends (fun n => bindR (@?f n) (fun x => @?g n x)) => apply (@converges_bind false _ _ f (fun x n => g n x)) end.
  - apply ends_loopR_inv with (I := I); try assumption.
    + intros s a Hs. apply map_try_ends; [exact Hs| |]; intros; exact Logic.I.
    + intros m s' a r Hs E'. eapply map_try_inv; [exact Hs|exact E'].
  - intros [s|s] [n E]; [|ends]. specialize (E n (le_n _)). apply (@loopR_inv _ _ I) in E; [| |exact Hst].
    2: { intros s0 a r0 Hs0 E0. eapply map_try_inv; [exact Hs0|exact E0]. }
    apply ends_loopR_inv with (I := I); [| |exact E].
    + intros s' a Hs. destruct (fst a =? pos); [ends|]. apply map_try_ends; [exact Hs| |]; intros; exact Logic.I.
    + intros m s' a r Hs E'. destruct (fst a =? pos); [injection E' as <-; exact Hs|]. eapply map_try_inv; [exact Hs|exact E'].
Qed.
Lemma map_from_string_inv : forall n w idx g st e r, I st -> map_from_string sg n (rec n) w idx g st e = Ret r -> I (final r).
Proof using DOWN. clear REC.
  intros n w idx g st [pos x] r Hst E. unfold map_from_string in E. cbv zeta in E.
  destruct (find_sub x (skipn idx w)) as [i|]; [|injection E as <-; exact Hst].
  match type of E with bindR ?x _ = _ => destruct x as [[s|s]| |] eqn:E1; cbn [bindR] in E; try discriminate end.
  all: apply (@loopR_inv _ _ I) in E1; [|intros s0 a r0 Hs0 E0; eapply map_try_inv; [exact Hs0|exact E0]|exact Hst].
  - apply (@loopR_inv _ _ I) in E; [exact E| |exact E1]. intros s0 a r0 Hs0 E0.
    destruct (fst a =? pos); [injection E0 as <-; exact Hs0|]. eapply map_try_inv; [exact Hs0|exact E0].
  - injection E as <-. exact E1.
Qed.
Lemma map_at_ends : forall w st e, I st -> Ends (fun n => map_at sg n (rec n) w st e).
Proof.
  intros w st [idx ch] Hst. unfold map_at. apply ends_loopR_inv with (I := I); [| |exact Hst].
  - intros s g Hs. destruct (memb ch (sg_chars g)); [apply map_from_char_ends, Hs|].
    apply ends_loopR_inv with (I := I); [| |exact Hs].
    + intros. apply map_from_string_ends. assumption.
    + intros n s0 a r. apply map_from_string_inv.
  - intros n s g r Hs E. destruct (memb ch (sg_chars g)); [eapply map_from_char_inv; [exact Hs|exact E]|].
    apply (@loopR_inv _ _ I) in E; [exact E| |exact Hs]. intros s0 a r0. apply map_from_string_inv.
Qed.
Lemma map_at_inv : forall n w st e r, I st -> map_at sg n (rec n) w st e = Ret r -> I (final r).
Proof using DOWN. clear REC.
  intros n w st [idx ch] r Hst E. unfold map_at in E. apply (@loopR_inv _ _ I) in E; [exact E| |exact Hst].
  clear E. intros s g r1 Hs E. destruct (memb ch (sg_chars g)); [eapply map_from_char_inv; [exact Hs|exact E]|].
  apply (@loopR_inv _ _ I) in E; [exact E| |exact Hs]. intros s0 a r0. apply map_from_string_inv.
Qed.
Lemma map_body_ends : forall w i m, (fst m <= B)%N -> Ends (fun n => map_body sg n (rec n) w i m).
Proof.
  intros w i m Hm. unfold map_body. apply ends_bind; [|intros; ends]. apply ends_loopR_inv with (I := I); [| |exact Hm].
  - intros. apply map_at_ends. assumption.
  - intros n s a r. apply map_at_inv.
Qed.
Lemma map_body_inv : forall n w i m m', (fst m <= B)%N -> map_body sg n (rec n) w i m = Ret m' -> (fst m' <= B)%N.
Proof using DOWN. clear REC.
  intros n w i m m' Hm E. unfold map_body in E.
  match type of E with bindR ?x _ = _ => destruct x as [r| |] eqn:E1; cbn [bindR] in E; try discriminate end.
  apply (@loopR_inv _ _ I) in E1; [|intros s a r0; apply map_at_inv|exact Hm]. injection E as <-. exact E1.
Qed.
End Map.
Lemma map_impl_inv : forall d n w i m m', map_suggest_impl sg n d w i m = Ret m' -> (fst m' <= fst m)%N.
Proof.
  induction d as [|d IH]; intros n w i m m' E; [discriminate|]. cbn [map_suggest_impl] in E.
  apply (@map_body_inv (fun n => map_suggest_impl sg n d) (fst m)) in E; [exact E| |lia]. intros n0. apply IH.
Qed.
Lemma map_impl_ends : forall d w i m, N.to_nat (fst m) < d -> Ends (fun n => map_suggest_impl sg n d w i m).
Proof.
  induction d as [|d IH]; intros w i m H; [lia|]. cbn [map_suggest_impl].
  apply (@map_body_ends (fun n => map_suggest_impl sg n d) (fst m)); [| |lia].
  - intros w' i' m' H'. apply IH. lia.
  - intros n0. apply map_impl_inv.
Qed.
Lemma map_ends : forall w out, Ends (fun n => map_suggest sg n w out).
Proof.
  intros w out. unfold map_suggest. apply ends_bind; [ends|]. intros rem. apply ends_bind; [|intros; ends].
  destruct (@map_impl_ends (S (N.to_nat rem)) w 0 (rem, out) (le_n _)) as (r & Lr & n & E). exists r. split; [exact Lr|].
  exists (n + S (N.to_nat rem)). intros fuel Hf.
  pose proof (@map_impl_mono sg fuel fuel (le_n _) (Datatypes.S (N.to_nat rem)) fuel w 0 (rem, out) ltac:(lia)) as R.
  rewrite E in R by lia. destruct R as [-> |R]; [destruct Lr|symmetry; exact R].
Qed.
Hint Resolve rep_ends map_ends : ends.
Lemma adjacent_loop_ends : forall w r i b o, Ends (fun n => adjacent_loop sg n w r i b o).
Proof. intros w. induction r as [|c r IH]; intros i b o; cbn [adjacent_loop]; ends. Qed.
Hint Resolve adjacent_loop_ends : ends.
Lemma adjacent_ends : forall w out, Ends (fun n => adjacent_swap_suggest sg n w out).
Proof. intros. unfold adjacent_swap_suggest. ends. Qed.
Lemma distant_outer_ends : forall w r i s, Ends (fun n => distant_outer sg n w r i s).
Proof. intros w. induction r as [|c r IH]; intros i s; cbn [distant_outer]; ends. Qed.
Hint Resolve adjacent_ends distant_outer_ends : ends.
Lemma distant_ends : forall w out, Ends (fun n => distant_swap_suggest sg n w out).
Proof. intros. unfold distant_swap_suggest. ends. Qed.
Lemma keyboard_ends : forall w out, Ends (fun n => keyboard_suggest sg n w out).
Proof. intros. unfold keyboard_suggest, keyboard_step, kb_try. cbv zeta. ends. Qed.
Lemma extra_ends : forall w out, Ends (fun n => extra_char_suggest sg n w out).
Proof. intros. unfold extra_char_suggest. ends. Qed.
Lemma forgotten_ends : forall w out, Ends (fun n => forgotten_char_suggest sg n w out).
Proof. intros. unfold forgotten_char_suggest. ends. Qed.
Lemma wrong_ends : forall w out, Ends (fun n => wrong_char_suggest sg n w out).
Proof. intros. unfold wrong_char_suggest. ends. Qed.
Lemma doubled_loop_ends : forall w r i o, Ends (fun n => doubled_loop sg n w i r o).
Proof. intros w. induction r as [|c r IH]; intros i o; cbn [doubled_loop]; ends. Qed.
Hint Resolve doubled_loop_ends : ends.
Lemma doubled_ends : forall w out, Ends (fun n => doubled_two_chars_suggest sg n w out).
Proof. intros. unfold doubled_two_chars_suggest. ends. Qed.
Lemma move_right_ends : forall w r i s, Ends (fun n => move_right sg n w r i s).
Proof. intros w. induction r as [|c r IH]; intros i s; cbn [move_right]; cbv zeta; ends. Qed.
Lemma move_left_ends : forall w r s, Ends (fun n => move_left sg n w r s).
Proof. intros w. induction r as [|c r IH]; intros s; cbn [move_left]; cbv zeta; ends. Qed.
Hint Resolve move_right_ends move_left_ends : ends.
Lemma move_ends : forall w out, Ends (fun n => move_char_suggest sg n w out).
Proof. intros. unfold move_char_suggest. ends. Qed.
Lemma two_words_live : forall w out, live (two_words_suggest sg w out).
Proof.
  intros. unfold two_words_suggest, two_words_step. cbv zeta. ends. apply in_place_live. intros. unfold plain. ends.
  apply on_slice_live. intros. exact I.
Qed.
Hint Resolve distant_ends keyboard_ends extra_ends forgotten_ends wrong_ends doubled_ends move_ends two_words_live : ends.
Lemma low_ends : forall w out, Ends (fun n => suggest_low sg n w out).
Proof. intros. unfold suggest_low, uppercase_suggest. cbv zeta. ends. Qed.
Hint Resolve low_ends : ends.
Lemma k_title_live : forall w, live (titlecase U case w).
Proof. intros [|c w]; [reflexivity|exact I]. Qed.
Lemma lower_first_live : forall w, live (lower_first_char U case w).
Proof. intros [|c w]; [reflexivity|exact I]. Qed.
Lemma upper_at_live : forall w i, live (upper_char_at U case w i).
Proof. intros. unfold upper_char_at. ends. Qed.
Hint Resolve k_title_live lower_first_live upper_at_live : ends.
Lemma casing_ends : forall w out, Ends (fun n => by_casing sg n w out).
Proof. intros. unfold by_casing, low_and_first, fix_space. cbv zeta. ends. Qed.
Lemma rescore_live : forall word l, live (rescore k word l).
Proof. intros word. induction l as [|[sc g] l IH]; [exact I|]. cbn [rescore]. unfold chars_str. cbv zeta. ends. Qed.
Hint Resolve rescore_live : ends.
Lemma ngram_live : forall w hq out, live (by_ngram sg w hq out).
Proof.
  intros. unfold by_ngram, ngram_suggest, root_step, guess_step, expand_stem_for_ngram, chars_str, suffix_to_derived, prefix_to_derived.
  cbv zeta. ends.
Qed.
Hint Resolve casing_ends ngram_live : ends.

Hypothesis WO : conv_table_ok (ad_oconv aff).
Hypothesis TAME : Forall (fun c => ~ In 45%N (cv_to c)) (ct_inner (ad_iconv aff)).

Lemma hyphenless : forall l w w', Forall (fun c => ~ In 45%N (cv_to c)) l -> Converts l w w' -> ~ In 45%N w -> ~ In 45%N w'.
Proof.
  intros l w w' F H. induction H as [|x w out _ _ IH|c r out I _ _ _ IH]; intros N; [exact N| |].
  - intros [->|J]; [apply N; left; reflexivity|]. apply IH; [|exact J]. intro; apply N; right; assumption.
  - rewrite in_app_iff. intros [J|J]; [exact (proj1 (Forall_forall _ _) F c I J)|]. apply IH; [|exact J]. intro; apply N, in_or_app; right; assumption.
Qed.

Lemma dash_ends : forall (rec : nat -> str -> Res (list str)) word,
  (forall u part v, word = u ++ part ++ v -> ~ In 45%N part -> Ends (fun n => rec n part)) ->
  forall n i out, length word - i < n -> Ends (fun fuel => dash_loop sg fuel n (rec fuel) word i out).
Proof.
  intros rec word Hrec. induction n as [|n IH]; intros i out L; [lia|]. cbn [dash_loop]. cbv zeta.
  apply ends_bind; [ends|]. intros ok.
  assert (PART : forall u part v, word = u ++ part ++ v -> ~ In 45%N part ->
    forall b a out, Ends (fun fuel => if ok : bool then Ret out else tmp <- rec fuel part ;; foldR (dash_push sg fuel b a) tmp out)).
  { intros u part v E N b a out0. pose proof (Hrec u part v E N). unfold dash_push. cbv zeta. ends. }
  pose proof (firstn_skipn i word) as FS.
  destruct (find_char (N.eqb 45) (skipn i word)) as [j|] eqn:E; cbn [option_map].
  - apply find_char_some in E. destruct E as (u & c & v & E & <- & _ & NU).
    assert (SL : slice word i (i + length u) = u).
    { unfold slice. rewrite E. replace (i + length u - i) with (length u) by lia. apply firstn_app_exact. reflexivity. }
    rewrite SL. apply ends_bind.
    + apply (PART (firstn i word) u (c :: v)); [rewrite <- E, FS; reflexivity|].
      intros J. apply (proj1 (forallb_forall _ _) NU) in J. discriminate.
    + intros out1. apply IH. apply (f_equal (@length N)) in E. rewrite skipn_length, app_length in E. cbn [length] in E. lia.
  - apply ends_bind; [|intros; ends]. apply (PART (firstn i word) (skipn i word) []); [rewrite app_nil_r, FS; reflexivity|].
    apply find_char_none in E. intros J. apply (proj1 (forallb_forall _ _) E) in J. discriminate.
Qed.

Lemma impl_ends : forall m w out, scalars w ->
  (forall w', Converts (ct_inner (ad_iconv aff)) w w' -> In 45%N w' ->
     forall u part v, w' = u ++ part ++ v -> ~ In 45%N part -> Ends (fun n => suggest_impl sg n m part [])) ->
  Ends (fun n => suggest_impl sg n (S m) w out).
Proof.
  intros m w out Hw Hrec. destruct w as [|c w0]; [apply (@converges_const false _ (Ret out)); exact I|].
  cbn [suggest_impl]. destruct (convert_spec (wff_iconv WF) Hw) as (w' & -> & C). cbn [bindR].
  apply ends_bind; [ends|]. intros [[hq o1]|o1]; [|ends]. apply ends_bind; [ends|]. intros o2. cbv zeta.
  apply ends_bind.
  - unfold by_dash. destruct (memb 45 w' && _) eqn:B; [|ends]. apply andb_true_iff in B. destruct B as [B _]. apply memb_In in B.
    apply (@dash_ends (fun n part => suggest_impl sg n m part []) w'); [|lia]. intros u part v. exact (Hrec w' C B u part v).
  - intros o3. pose proof (fun w => @convert_live _ w WO). assert (forall l, live (deduplicate l)) by (intros l; rewrite deduplicate_is; exact I).
    unfold retain_step. cbv zeta. ends.
Qed.

Theorem suggest_ends : forall w out, scalars w -> Ends (fun n => suggest sg n w out).
Proof.
  intros w out Hw. unfold suggest. destruct (max_word_len <? blen w)%N; [ends|].
  assert (G1 : forall part m, scalars part -> ~ In 45%N part -> Ends (fun n => suggest_impl sg n (S m) part [])).
  { intros part m Hp Np. apply impl_ends; [exact Hp|]. intros w' C D. exfalso. revert D. exact (hyphenless TAME C Np). }
  assert (G2 : Ends (fun n => suggest_impl sg n 2 w [])).
  { apply impl_ends; [exact Hw|]. intros w' C _ u part v E N. apply G1; [|exact N].
    pose proof (Converts_scalars (wff_iconv_out WF) C Hw) as S'. rewrite E in S'. rewrite !scalars_app_iff in S'. tauto. }
  destruct G2 as (r & Lr & n & E). exists r. split; [exact Lr|]. exists (n + 2). intros fuel Hf.
  pose proof (@SuggestMono.impl_mono sg fuel fuel (le_n _) 2 fuel w [] ltac:(lia)) as R. rewrite E in R by lia.
  destruct R as [->|R]; [destruct Lr|]. symmetry. exact R.
Qed.
End Suggest.
