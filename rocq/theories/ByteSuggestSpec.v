(** [suggest] on bytes computes what [suggest] on characters computes. *)
From Coq Require Import List NArith ZArith Lia Bool Arith Permutation.
From Verif Require Import Base Utf8 Unicode Flags Condition Affix CompoundRule Conversion Aff Checker Bag BufferOps Ngram Suggester AffixSpec Rep
  CompoundSpec CompoundTotal RuleCompound Spell CheckSpec SuggestSpec SuggestLow SuggestProps Dedup SuggestImpl CharsStr Scratch ByteCompound ByteOffsets ByteCompoundSpec
  ByteCheck ByteCheckSpec ByteSuggest.
Import ListNotations.
Local Open Scope nat_scope.
Set Implicit Arguments.

(** ** Edits of a [String] *)
Lemma enc_cons : forall c v, enc (c :: v) = enc1 c ++ enc v. Proof. reflexivity. Qed.
Lemma enc_one : forall c, enc [c] = enc1 c. Proof. intros c. rewrite enc_cons. apply app_nil_r. Qed.
Lemma scalars_mid : forall u c v, scalars (u ++ c :: v) -> scalars u /\ scalar c /\ scalars v.
Proof. intros u c v H. apply Forall_app in H. destruct H as [A B]. inversion B; subst. auto. Qed.
Lemma scalars_put : forall u c v d, scalars (u ++ c :: v) -> scalar d -> scalars (u ++ d :: v).
Proof. intros u c v d H Hd. apply scalars_mid in H. destruct H as (A & _ & B). apply Forall_app. split; [exact A|]. constructor; assumption. Qed.
Lemma from_app : forall u v, scalars (u ++ v) -> b_from (enc (u ++ v)) (length (enc u)) = Ret (enc v).
Proof.
  intros u v H. rewrite <- (@boff_app u v), from_boff by (assumption || (rewrite app_length; lia)).
  rewrite skipn_app_exact by reflexivity. reflexivity.
Qed.
Lemma upto_app : forall u v, scalars (u ++ v) -> b_cut (enc (u ++ v)) 0 (length (enc u)) = Ret (enc u).
Proof.
  intros u v H. rewrite <- (@boff_app u v), upto_boff by (assumption || (rewrite app_length; lia)).
  rewrite firstn_app_exact by reflexivity. reflexivity.
Qed.
Lemma cut_app : forall u p v, scalars (u ++ p ++ v) -> b_cut (enc (u ++ p ++ v)) (length (enc u)) (length (enc (u ++ p))) = Ret (enc p).
Proof.
  intros u p v H. pose proof (@cut_boff (u ++ p ++ v) (length u) (length (u ++ p)) H) as C.
  rewrite boff_app in C. rewrite app_assoc, boff_app, <- app_assoc in C. rewrite C by (rewrite !app_length; lia).
  unfold slice. rewrite skipn_app_exact by reflexivity. rewrite firstn_app_exact by (rewrite app_length; lia). reflexivity.
Qed.
Lemma remove_app : forall u c v, scalars (u ++ c :: v) -> b_remove (enc (u ++ c :: v)) (length (enc u)) = Ret (enc (u ++ v)).
Proof.
  intros u c v H. pose proof (scalars_mid _ _ _ H) as (Hu & Hc & Hv). unfold b_remove. rewrite from_app by exact H. cbn [bindR].
  rewrite text_enc by (constructor; assumption). cbn [bindR]. rewrite !enc_app, enc_cons.
  rewrite firstn_app_exact by reflexivity. rewrite app_assoc, skipn_app_exact; [reflexivity|]. rewrite app_length. reflexivity.
Qed.
Lemma truncate_app : forall u v, scalars (u ++ v) -> b_truncate (enc (u ++ v)) (length (enc u)) = Ret (enc u).
Proof.
  intros u v H. unfold b_truncate. pose proof (@boundary_boff (u ++ v) (length u) H ltac:(rewrite app_length; lia)) as B.
  rewrite boff_app in B. rewrite B, leb_correct by (rewrite enc_app, app_length; lia).
  rewrite enc_app, firstn_app_exact by reflexivity. reflexivity.
Qed.
Lemma char_indices_enc : forall w, scalars w -> b_char_indices (enc w) = Ret (map (fun '(u, c, v) => (length (enc u), c)) (splits w)).
Proof.
  intros w Hw. unfold b_char_indices. rewrite text_enc by exact Hw. cbn [bindR]. f_equal.
  exact (char_indices_splits w []).
Qed.
Lemma liftR_ext : forall A B (x y : Res A) (f : A -> Res B), x = y -> bindR x f = bindR y f.
Proof. intros; subst; reflexivity. Qed.
Lemma ascii_scalar : forall c, (c < 128)%N -> scalar c.
Proof. intros c H. unfold scalar, scalarb. destruct (N.ltb_spec c 55296) as [L|L]; [reflexivity|exfalso; lia]. Qed.
Lemma find_byte : forall c w, (c < 128)%N -> scalars w -> find_sub [c] (enc w) = option_map (boff w) (find_char (N.eqb c) w).
Proof.
  intros c w Hc Hw. assert (E : enc [c] = [c]) by (rewrite enc_one; unfold enc1; rewrite (proj2 (N.ltb_lt _ _) Hc); reflexivity).
  rewrite <- E at 1. rewrite find_enc; [|constructor; [|constructor]|exact Hw].
  - rewrite find_char_sub. reflexivity.
  - apply ascii_scalar; exact Hc.
Qed.
Lemma byte1 : forall c, (c < 128)%N -> enc1 c = [c].
Proof. intros c Hc. unfold enc1. rewrite (proj2 (N.ltb_lt _ _) Hc). reflexivity. Qed.

Section Low.
Variable sg : suggester.
Variable fuel : nat.
Notation k := (su_checker sg).
Notation aff := (ck_aff (su_checker sg)).
Notation opts := (ad_options (ck_aff (su_checker sg))).
Notation U := (ck_u (su_checker sg)).
Notation case := (o_case (ad_options (ck_aff (su_checker sg)))).
Notation dbg := (su_debug sg).
Hypothesis WU : wf_unicode U.
Hypothesis WC : wf_compound k.
Hypothesis HR : Forall (fun p => forall r, cp_replacement p = Some r -> scalars r) (ad_patterns aff).
Hypothesis WR : wf_reps (ad_reps aff).
Hypothesis WG : Forall wf_sim (ad_sims aff).
Hypothesis WRS : Forall (fun e => scalars (fst e) /\ scalars (snd e)) (rp_table (ad_reps aff)).
Hypothesis WT : scalars (ad_try aff).
Hypothesis WK : scalars (ad_keyboard aff).

Lemma add_enc : forall w out, scalars w -> b_add sg fuel (enc w) out = add_suggestion_if_correct sg fuel w out.
Proof.
  intros w out Hw. unfold b_add, add_suggestion_if_correct. rewrite word_enc by assumption.
  apply bind_ext. intros [flags|] _; [|reflexivity]. rewrite text_enc by exact Hw. reflexivity.
Qed.
Lemma try_enc : forall w out, scalars w -> b_try sg fuel (enc w) out = try sg fuel w out.
Proof. intros w out Hw. unfold b_try, try. rewrite add_enc by exact Hw. reflexivity. Qed.
Lemma try_tries : forall w out, scalars w -> b_try sg fuel (enc w) out = tries sg fuel [w] out.
Proof. intros w out Hw. rewrite try_enc by exact Hw. apply try_fit. Qed.

Lemma uppercase_suggest_enc : forall w out, scalars w -> b_uppercase_suggest sg fuel (enc w) out = uppercase_suggest sg fuel w out.
Proof.
  intros w out Hw. unfold b_uppercase_suggest, uppercase_suggest. rewrite uppercase_enc by exact Hw. cbn [bindR].
  apply try_enc, scalars_upper; assumption.
Qed.

(** *** REP *)
Lemma rep_parts_enc : forall m n u rest j, scalars (u ++ rest) -> find_char (N.eqb 32) rest = Some j ->
  length rest <= m -> length rest < n ->
  b_rep_parts sg fuel m (enc (u ++ rest)) (length (enc u)) (length (enc (u ++ firstn j rest))) = rep_parts sg fuel n rest.
Proof.
  induction m as [|m IH]; intros n u rest j Hs F Hm Hn.
  - destruct rest; [discriminate|cbn in Hm; lia].
  - destruct n as [|n]; [lia|]. cbn [b_rep_parts rep_parts]. rewrite F.
    apply find_char_some in F. destruct F as (p & c & v & -> & Lp & Ec & _). apply N.eqb_eq in Ec. subst c.
    replace (firstn j (p ++ 32%N :: v)) with p by (rewrite firstn_app_exact by lia; reflexivity).
    rewrite cut_app by exact Hs. cbn [bindR].
    assert (Hp : scalars p) by (apply Forall_app in Hs; destruct Hs as [_ Hs]; apply Forall_app in Hs; apply Hs).
    rewrite word_enc by assumption. apply bind_ext. intros [f|] _; [|reflexivity]. cbv zeta.
    replace (skipn (S j) (p ++ 32%N :: v)) with v.
    2: { change (p ++ 32%N :: v) with (p ++ [32%N] ++ v). rewrite app_assoc, skipn_app_exact; [reflexivity|]. rewrite app_length. cbn. lia. }
    assert (EL : length (enc (u ++ p)) + 1 = length (enc (u ++ p ++ [32%N]))).
    { rewrite (app_assoc u p), (enc_app (u ++ p)), app_length. reflexivity. }
    rewrite EL.
    assert (EW : u ++ p ++ 32%N :: v = (u ++ p ++ [32%N]) ++ v) by (rewrite <- !app_assoc; reflexivity).
    rewrite EW in *. rewrite from_app by exact Hs. cbn [bindR].
    assert (Hv : scalars v) by (apply Forall_app in Hs; apply Hs).
    rewrite find_byte by (reflexivity || exact Hv). rewrite app_length in Hm, Hn. cbn [length] in Hm, Hn.
    destruct (find_char (N.eqb 32) v) as [i|] eqn:F; cbn [option_map].
    + rewrite <- (@IH n (u ++ p ++ [32%N]) v i Hs F) by lia. f_equal. rewrite (enc_app (u ++ p ++ [32%N]) (firstn i v)), app_length. reflexivity.
    + destruct n as [|n]; [lia|]. cbn [rep_parts]. rewrite F. reflexivity.
Qed.
Lemma try_rep_enc : forall w out, scalars w -> b_try_rep sg fuel (enc w) out = picks sg fuel [w] out.
Proof.
  intros w out Hw. rewrite <- try_rep_is. unfold b_try_rep, try_rep_suggestion. rewrite add_enc by exact Hw.
  apply bind_ext. intros [b o] _. cbn [fst snd]. destruct b; [reflexivity|].
  rewrite find_byte by (reflexivity || exact Hw). destruct (find_char (N.eqb 32) w) as [j|] eqn:F; cbn [option_map]; [|reflexivity].
  pose proof (enc_length w) as LE.
  assert (R : b_rep_parts sg fuel (S (length (enc w))) (enc w) 0 (boff w j) = rep_parts sg fuel (S (length w)) w).
  { apply (@rep_parts_enc _ _ [] w j Hw F); lia. }
  rewrite R.
  apply bind_ext. intros ok _. rewrite text_enc by exact Hw. destruct ok; reflexivity.
Qed.
Lemma rep_In : forall e, In e (whole_reps (ad_reps aff)) \/ In e (start_reps (ad_reps aff)) \/ In e (end_reps (ad_reps aff)) \/ In e (any_reps (ad_reps aff)) ->
  scalars (fst e) /\ scalars (snd e).
Proof.
  intros e H. assert (I : In e (rp_table (ad_reps aff))).
  { assert (FI : forall A (l : list A) n x, In x (firstn n l) -> In x l) by (intros A l n x Hx; rewrite <- (firstn_skipn n l); apply in_or_app; left; exact Hx).
    assert (SI : forall A (l : list A) n x, In x (skipn n l) -> In x l) by (intros A l n x Hx; rewrite <- (firstn_skipn n l); apply in_or_app; right; exact Hx).
    unfold whole_reps, start_reps, end_reps, any_reps, slice in H.
    destruct H as [H|[H|[H|H]]]; eauto using FI, SI. }
  exact (proj1 (Forall_forall _ _) WRS e I).
Qed.
Theorem rep_enc : forall w out, scalars w -> b_rep_suggest sg fuel (enc w) out = rep_suggest sg fuel w out.
Proof.
  intros w out Hw. rewrite rep_is by exact WR. destruct WR as [Hne How]. unfold b_rep_suggest, rep_forms. cbv zeta. set (t := ad_reps aff) in *.
  rewrite (@fold_picks_plain sg fuel _ _ (fun e : str * str => let '(from, to) := e in if str_eqb w from then [to] else [])).
  2: { intros [from to] o He. destruct (@rep_In (from, to)) as [Hf Ht]; [auto|]. cbn [fst snd] in *. rewrite str_eqb_enc by assumption.
       destruct (str_eqb w from); [apply try_rep_enc; exact Ht|rewrite picks_nil; reflexivity]. }
  destruct (only_whole_reps t) eqn:E.
  - destruct (How eq_refl) as (E1 & E2 & E3). rewrite E1, E2, E3. cbn [flat_map app]. rewrite app_nil_r. apply bind_ret.
  - clear How. rewrite picks_app. apply bind_ext. intros o0 _. rewrite picks_app.
    rewrite (@fold_picks sg fuel _ _ (fun e : str * str => let '(from, to) := e in
       match strip_prefix from w with Some r => [to ++ r] | None => [] end) (enc w)).
    2: { intros [from to] o He. destruct (@rep_In (from, to)) as [Hf Ht]; [auto|]. cbn [fst snd] in *.
      unfold b_rep_start. rewrite starts_enc by assumption. unfold starts_with. destruct (strip_prefix from w) as [r|] eqn:P; cbn [is_someb].
      - apply strip_prefix_spec in P. assert (Hr : scalars r) by (rewrite P in Hw; apply Forall_app in Hw; apply Hw).
        assert (Htr : scalars (to ++ r)) by (apply Forall_app; auto).
        pose proof (@replace_app [] from r to : scalars (from ++ r) -> b_replace (enc (from ++ r)) 0 (length (enc from)) (enc to) = Ret (enc (to ++ r))) as R1.
        pose proof (@replace_app [] to r from : scalars (to ++ r) -> b_replace (enc (to ++ r)) 0 (length (enc to)) (enc from) = Ret (enc (from ++ r))) as R2.
        rewrite P, R1 by (rewrite <- P; exact Hw). cbn [bindR]. rewrite try_rep_enc by exact Htr. apply bind_ext. intros o1 _.
        rewrite R2 by exact Htr. reflexivity.
      - rewrite picks_nil. reflexivity. }
    rewrite bind_assoc. apply bind_ext. intros o1 _. cbn [bindR fst]. rewrite str_eqb_refl, debug_assert_true, picks_app.
    rewrite (@fold_picks sg fuel _ _ (fun e : str * str => let '(from, to) := e in
       match strip_suffix from w with Some r => [r ++ to] | None => [] end) (enc w)).
    2: { intros [from to] o He. destruct (@rep_In (from, to)) as [Hf Ht]; [auto|]. cbn [fst snd] in *.
      unfold b_rep_end. rewrite ends_enc by assumption. unfold ends_with. destruct (strip_suffix from w) as [r|] eqn:P; cbn [is_someb].
      - apply strip_suffix_spec in P. assert (Hr : scalars r) by (rewrite P in Hw; apply Forall_app in Hw; apply Hw).
        assert (Htr : scalars (r ++ to)) by (apply Forall_app; auto).
        pose proof (@replace_app r from [] to) as R1. pose proof (@replace_app r to [] from) as R2. rewrite !app_nil_r in R1, R2.
        unfold b_minus. rewrite P, (enc_app r from), app_length, leb_correct by lia. cbn [bindR].
        replace (length (enc r) + length (enc from) - length (enc from)) with (length (enc r)) by lia.
        rewrite <- enc_app. rewrite R1 by (rewrite <- P; exact Hw). cbn [bindR]. rewrite try_rep_enc by exact Htr. apply bind_ext. intros o2 _.
        rewrite (enc_app r to) at 2. rewrite app_length, R2 by exact Htr. reflexivity.
      - rewrite picks_nil. reflexivity. }
    rewrite bind_assoc. apply bind_ext. intros o2 _. cbn [bindR fst]. rewrite str_eqb_refl, debug_assert_true.
    rewrite (@fold_picks sg fuel _ _ (fun e : str * str => let '(from, to) := e in
       map (fun i => firstn i w ++ to ++ skipn (i + length from) w) (match_indices from w)) (enc w)).
    2: { intros [from to] o He. destruct (@rep_In (from, to)) as [Hf Ht]; [auto|]. unfold b_rep_anywhere. cbn [fst snd] in *.
      unfold b_matches. rewrite text_enc by exact Hw. cbn [bindR]. rewrite foldR_map. rewrite <- flat_map_single. apply fold_picks.
      intros i o' Hi. unfold b_rep_place. apply match_indices_In in Hi; [|eauto]. destruct Hi as (u & v & HO & ->).
      assert (HW : w = u ++ from ++ v) by (apply Occ_app; exact HO).
      assert (Htr : scalars (u ++ to ++ v)).
      { rewrite HW in Hw. apply Forall_app in Hw. destruct Hw as [A B]. apply Forall_app in B. apply Forall_app. split; [exact A|]. apply Forall_app. split; [exact Ht|apply B]. }
      rewrite HW, firstn_app_exact by reflexivity.
      replace (skipn (length u + length from) (u ++ from ++ v)) with v.
      2: { rewrite app_assoc. symmetry. apply skipn_app_exact. rewrite app_length. reflexivity. }
      rewrite replace_app by (rewrite <- HW; exact Hw). cbn [bindR]. rewrite try_rep_enc by exact Htr. apply bind_ext. intros o3 _.
      rewrite replace_app by exact Htr. reflexivity. }
    rewrite bind_assoc.
    transitivity (o <- picks sg fuel (flat_map (fun e : str * str => let '(from, to) := e in
       map (fun i => firstn i w ++ to ++ skipn (i + length from) w) (match_indices from w)) (any_reps t)) o2 ;; Ret o).
    + apply bind_ext. intros o3 _. cbn [bindR fst snd]. rewrite str_eqb_refl, debug_assert_true. reflexivity.
    + apply bind_ret.
Qed.

(** *** Characters dropped, put in and put in place of others *)
Lemma attempts_enc : forall w, b_max_attempts sg (enc w) = max_attempts sg w.
Proof. intros w. unfold b_max_attempts, max_attempts. rewrite blen_enc. reflexivity. Qed.

Theorem extra_enc : forall w out, scalars w -> b_extra_suggest sg fuel (enc w) out = extra_char_suggest sg fuel w out.
Proof.
  intros w out Hw. rewrite extra_is. unfold b_extra_suggest. rewrite char_indices_enc by exact Hw. cbn [bindR]. rewrite foldR_map.
  rewrite (@fold_tries_plain sg fuel _ _ (fun '(u, _, v) => [u ++ v]) (splits w)).
  - unfold deletions. rewrite <- flat_map_single. f_equal. apply flat_map_ext. intros [[u c] v]. reflexivity.
  - intros [[u c] v] o H. apply splits_In in H. cbn [fst]. rewrite H in Hw |- *. rewrite remove_app by exact Hw. cbn [bindR]. apply try_tries.
    apply scalars_mid in Hw. apply Forall_app. split; apply Hw.
Qed.

Theorem forgotten_enc : forall w out, scalars w -> b_forgotten_suggest sg fuel (enc w) out = forgotten_char_suggest sg fuel w out.
Proof.
  intros w out Hw. unfold b_forgotten_suggest, forgotten_char_suggest. rewrite attempts_enc. apply bind_ext. intros rem _.
  rewrite char_indices_enc by exact Hw. cbn [bindR].
  assert (IX : map fst (map (fun '(u, c, v) => (length (enc u), c)) (splits w)) ++ [length (enc w)] = map (boff w) (seq 0 (S (length w)))).
  { rewrite seq_S, map_app. cbn [map Nat.add]. rewrite boff_all. f_equal. rewrite seq_splits, !map_map. apply map_ext_in.
    intros [[u c] v] H. apply splits_In in H. cbn [fst]. rewrite H, boff_app. reflexivity. }
  rewrite IX. clear IX.
  set (cand := fun c : N => map (fun i => firstn i w ++ c :: skipn i w) (seq 0 (S (length w)))).
  rewrite (@loop_brun sg fuel _ _ cand (enc w) (ad_try aff)).
  2: { intros c r o Hc. assert (Sc : scalar c) by exact (proj1 (Forall_forall _ _) WT c Hc). rewrite loopR_map.
       rewrite (@loop_brun sg fuel _ _ (fun i => [firstn i w ++ c :: skipn i w]) (enc w)).
       - unfold cand. rewrite flat_map_single. reflexivity.
       - intros i r' o' Hi. apply in_seq in Hi. rewrite brun_one. destruct (r' =? 0)%N; [reflexivity|].
         assert (SI : scalars (firstn i w ++ skipn i w)) by (rewrite firstn_skipn; exact Hw).
         assert (SI2 : scalars (firstn i w ++ c :: skipn i w)).
         { apply Forall_app in SI. apply Forall_app. split; [apply SI|]. constructor; [exact Sc|apply SI]. }
         pose proof (@insert_app (firstn i w) (skipn i w) c SI) as I1. rewrite firstn_skipn in I1. unfold boff. rewrite I1. cbn [bindR].
         rewrite try_enc by exact SI2. apply bind_ext. intros o1 _. rewrite remove_app by exact SI2. cbn [bindR]. rewrite firstn_skipn. reflexivity. }
  rewrite (@loop_brun sg fuel _ _ cand w (ad_try aff)).
  2: { intros c r o _. rewrite (@loop_brun sg fuel _ _ (fun i => [firstn i w ++ c :: skipn i w]) w).
       - unfold cand. rewrite flat_map_single. reflexivity.
       - intros i r' o' Hi. apply in_seq in Hi. rewrite brun_one. destruct (r' =? 0)%N; [reflexivity|].
         unfold insert_at. replace (i <=? length w)%nat with true by (symmetry; apply Nat.leb_le; lia). cbn [bindR].
         apply bind_ext. intros o1 _. assert (L : length (firstn i w) = i) by (rewrite firstn_length; lia).
         rewrite <- L at 1. rewrite remove_at_app. cbn [bindR]. rewrite firstn_skipn. reflexivity. }
  rewrite !brun_final. reflexivity.
Qed.

Theorem wrong_enc : forall w out, scalars w -> b_wrong_suggest sg fuel (enc w) out = wrong_char_suggest sg fuel w out.
Proof.
  intros w out Hw. unfold b_wrong_suggest, wrong_char_suggest. rewrite attempts_enc. apply bind_ext. intros rem _.
  rewrite char_indices_enc by exact Hw. cbn [bindR].
  set (cand := fun c : N => flat_map (fun '(u, a, v) => if (c =? a)%N then [] else [u ++ c :: v]) (splits w)).
  rewrite (@loop_brun sg fuel _ _ cand (enc w) (ad_try aff)).
  2: { intros c r o Hc. assert (Sc : scalar c) by exact (proj1 (Forall_forall _ _) WT c Hc). rewrite loopR_map. unfold cand.
       apply loop_brun. intros [[u a] v] r' o' Hi. apply splits_In in Hi. destruct (c =? a)%N; [rewrite brun_nil; reflexivity|].
       rewrite brun_one. destruct (r' =? 0)%N; [reflexivity|]. rewrite Hi in *. pose proof (scalars_mid _ _ _ Hw) as (Su & Sa & Sv).
       assert (Suv : scalars (u ++ v)) by (apply Forall_app; auto). pose proof (@scalars_put _ _ _ c Hw Sc) as S2.
       rewrite remove_app by exact Hw. cbn [bindR]. rewrite insert_app by exact Suv. cbn [bindR]. rewrite try_enc by exact S2.
       apply bind_ext. intros o1 _. rewrite remove_app by exact S2. cbn [bindR]. rewrite insert_app by exact Suv. reflexivity. }
  rewrite (@loop_brun sg fuel _ _ cand w (ad_try aff)).
  2: { intros c r o _. rewrite indexed_splits, loopR_map. unfold cand. apply loop_brun.
       intros [[u a] v] rem' o' Hi. apply splits_In in Hi. cbn [Nat.add]. destruct (c =? a)%N; [rewrite brun_nil; reflexivity|].
       rewrite brun_one. destruct (rem' =? 0)%N; [reflexivity|]. rewrite Hi. rewrite remove_at_app.
       cbn [bindR]. rewrite insert_at_app. cbn [bindR]. apply bind_ext. intros o1 _.
       rewrite remove_at_app. cbn [bindR]. rewrite insert_at_app. reflexivity. }
  rewrite !brun_final. reflexivity.
Qed.

(** *** Keys *)
Lemma positions_find : forall c w off, positions c off w =
  match find_sub [c] w with Some i => (off + i) :: positions c (S (off + i)) (skipn (S i) w) | None => [] end.
Proof.
  intros c w. induction w as [|x w IH]; intros off; [reflexivity|]. rewrite <- find_char_sub in *. cbn [positions find_char]. rewrite N.eqb_sym.
  destruct (c =? x)%N; [rewrite Nat.add_0_r; reflexivity|]. rewrite IH. destruct (find_char (N.eqb c) w) as [i|]; cbn [option_map]; [|reflexivity].
  replace (S off + i) with (off + S i) by lia. reflexivity.
Qed.
Lemma match_indices_one : forall c w, match_indices [c] w = positions c 0 w.
Proof.
  intros c w. unfold match_indices. assert (G : forall n w off, length w < n -> match_indices_go n [c] w off = positions c off w).
  { clear w. induction n as [|n IH]; intros w off L; [lia|]. cbn [match_indices_go]. rewrite positions_find.
    destruct (find_sub [c] w) as [i|] eqn:F; [|reflexivity]. apply find_sub_len in F. cbn [length] in F.
    rewrite !Nat.add_1_r, IH by (rewrite skipn_length; lia). reflexivity. }
  apply G. lia.
Qed.
Lemma positions_In : forall c w off p, In p (positions c off w) -> exists q r, w = q ++ c :: r /\ p = off + length q.
Proof.
  intros c w. induction w as [|x w IH]; intros off p H; [destruct H|]. cbn [positions] in H.
  assert (T : In p (positions c (S off) w) -> exists q r, x :: w = q ++ c :: r /\ p = off + length q).
  { intros I. apply IH in I. destruct I as (q & r & -> & ->). exists (x :: q), r. cbn. split; [reflexivity|lia]. }
  destruct (N.eqb_spec x c) as [->|_]; [|exact (T H)]. destruct H as [<-|H]; [|exact (T H)]. exists [], w. cbn. split; [reflexivity|lia].
Qed.

Definition opt_form (u v : str) (o : option N) : list str := match o with Some y => [u ++ y :: v] | None => [] end.
(** What one character may be exchanged for. *)
Definition key_forms (u : str) (c : N) (v : str) : list str :=
  (if str_eqb (u_upper U c) [c] then [] else [u ++ u_upper U c ++ v]) ++
  flat_map (fun p => opt_form u v (not_bar (hd_error (rev (firstn p (ad_keyboard aff))))) ++
                     opt_form u v (not_bar (hd_error (skipn (S p) (ad_keyboard aff))))) (positions c 0 (ad_keyboard aff)).
Lemma not_bar_some : forall o y, not_bar o = Some y -> o = Some y.
Proof. intros [x|] y; cbn; [destruct (x =? 124)%N; [discriminate|]; congruence|discriminate]. Qed.

Lemma key_step_chars : forall u c v out,
  keyboard_step sg fuel (u ++ c :: v) (u ++ c :: v, out) (length u, c) =
  (o <- tries sg fuel (key_forms u c v) out ;; Ret (u ++ c :: v, o)).
Proof.
  intros u c v out. set (w := u ++ c :: v).
  assert (KT : forall x out, kb_try sg fuel w (length u) c x (w, out) = (o <- tries sg fuel (opt_form u v x) out ;; Ret (w, o))).
  { clear out. intros [y|] out; [|cbn [opt_form kb_try]; rewrite tries_nil; reflexivity]. cbn [kb_try opt_form]. unfold w.
    rewrite remove_at_app. cbn [bindR]. rewrite insert_at_app. cbn [bindR]. rewrite <- try_fit. apply bind_ext. intros o _.
    rewrite remove_at_app. cbn [bindR]. rewrite insert_at_app. cbn [bindR]. rewrite str_eqb_refl, debug_assert_true. reflexivity. }
  unfold keyboard_step, key_forms. rewrite tries_app, bind_assoc.
  transitivity (o <- tries sg fuel (if str_eqb (u_upper U c) [c] then [] else [u ++ u_upper U c ++ v]) out ;;
    foldR (fun st m =>
      st2 <- kb_try sg fuel w (length u) c (not_bar (match m with O => None | S m' => nth_error (ad_keyboard aff) m' end)) st ;;
      kb_try sg fuel w (length u) c (not_bar (nth_error (ad_keyboard aff) (m + 1))) st2) (positions c 0 (ad_keyboard aff)) (w, o)).
  - destruct (str_eqb (u_upper U c) [c]); [rewrite tries_nil; reflexivity|]. cbv zeta. rewrite <- try_fit. unfold w.
    rewrite skipn_app_exact, firstn_app_exact by reflexivity. cbn [skipn]. rewrite bind_assoc. apply bind_ext. intros o _.
    rewrite firstn_app_exact by reflexivity. rewrite str_eqb_refl, debug_assert_true. reflexivity.
  - apply bind_ext. intros o _. apply fold_tries. intros p o' Hp. apply positions_In in Hp. destruct Hp as (q & r & EK & ->). cbn [Nat.add].
    rewrite KT, !bind_assoc, tries_app, !bind_assoc.
    assert (E1 : (match length q with O => None | S m' => nth_error (ad_keyboard aff) m' end) = hd_error (rev (firstn (length q) (ad_keyboard aff)))).
    { rewrite EK, firstn_app_exact by reflexivity. destruct q as [|q x _] using rev_ind; [reflexivity|].
      rewrite rev_app_distr, app_length, Nat.add_1_r. cbn [rev app hd_error]. rewrite <- app_assoc, nth_error_app2 by lia.
      rewrite Nat.sub_diag. reflexivity. }
    assert (E2 : nth_error (ad_keyboard aff) (length q + 1) = hd_error (skipn (S (length q)) (ad_keyboard aff))).
    { rewrite EK. change (q ++ c :: r) with (q ++ [c] ++ r). rewrite app_assoc, skipn_app_exact by (rewrite app_length; cbn; lia).
      rewrite nth_error_app2 by (rewrite app_length; cbn; lia). rewrite app_length. cbn [length]. rewrite Nat.sub_diag. destruct r; reflexivity. }
    rewrite E1, E2. apply bind_ext. intros o1 _. cbn [bindR]. rewrite KT. reflexivity.
Qed.
Lemma key_step_bytes : forall u c v out, scalars (u ++ c :: v) ->
  b_key_step sg fuel (enc (u ++ c :: v)) (enc (u ++ c :: v), out) (length (enc u), c) =
  (o <- tries sg fuel (key_forms u c v) out ;; Ret (enc (u ++ c :: v), o)).
Proof.
  intros u c v out Hw. pose proof (scalars_mid _ _ _ Hw) as (Su & Sc & Sv). assert (Suv : scalars (u ++ v)) by (apply Forall_app; auto).
  set (bs := enc (u ++ c :: v)).
  assert (KT : forall x out, (forall y, x = Some y -> scalar y) ->
    b_key_try sg fuel bs (length (enc u)) c x (bs, out) = (o <- tries sg fuel (opt_form u v x) out ;; Ret (bs, o))).
  { clear out. intros [y|] out Hy; [|cbn [opt_form b_key_try]; rewrite tries_nil; reflexivity]. cbn [b_key_try opt_form]. unfold bs.
    specialize (Hy y eq_refl). pose proof (@scalars_put _ _ _ y Hw Hy) as S2.
    rewrite remove_app by exact Hw. cbn [bindR]. rewrite insert_app by exact Suv. cbn [bindR]. rewrite try_tries by exact S2. apply bind_ext. intros o _.
    rewrite remove_app by exact S2. cbn [bindR]. rewrite insert_app by exact Suv. cbn [bindR]. rewrite str_eqb_refl, debug_assert_true. reflexivity. }
  unfold b_key_step, key_forms. cbv zeta. unfold b_matches. rewrite text_enc by exact WK. cbn [bindR]. rewrite match_indices_one, tries_app, bind_assoc.
  match goal with |- bindR ?x ?f = _ => transitivity (o <- tries sg fuel (if str_eqb (u_upper U c) [c] then [] else [u ++ u_upper U c ++ v]) out ;; f (bs, o)) end.
  - destruct (str_eqb (u_upper U c) [c]); [rewrite tries_nil; reflexivity|]. unfold bs. rewrite truncate_app by exact Hw. cbn [bindR].
    rewrite from_app by exact Hw. cbn [bindR]. rewrite text_enc by (constructor; assumption). cbn [bindR skipn]. cbv zeta.
    assert (SX : scalars (u ++ u_upper U c ++ v)).
    { apply Forall_app. split; [exact Su|]. apply Forall_app. split; [|exact Sv]. apply WU. exact Sc. }
    rewrite <- !enc_app, try_tries by exact SX. rewrite !bind_assoc. apply bind_ext. intros o _.
    rewrite truncate_app by exact SX. cbn [bindR]. rewrite <- enc_app, str_eqb_refl, debug_assert_true. reflexivity.
  - apply bind_ext. intros o _. rewrite foldR_map. apply fold_tries. intros p o' Hp. apply positions_In in Hp. destruct Hp as (q & r & EK & ->). cbn [Nat.add].
    rewrite EK, firstn_app_exact by reflexivity. pose proof WK as SK. rewrite EK in SK. pose proof (scalars_mid _ _ _ SK) as (Sq & _ & Sr).
    rewrite upto_app by exact SK. cbn [bindR]. rewrite text_enc by exact Sq. cbn [bindR].
    replace (skipn (S (length q)) (q ++ c :: r)) with r.
    2: { change (q ++ c :: r) with (q ++ [c] ++ r). rewrite app_assoc, skipn_app_exact; [reflexivity|]. rewrite app_length. cbn. lia. }
    rewrite KT.
    2: { intros y Hy. apply not_bar_some in Hy. apply (proj1 (Forall_forall _ _) Sq). apply in_rev. destruct (rev q); [discriminate|]. injection Hy as ->. left. reflexivity. }
    rewrite !bind_assoc, tries_app, !bind_assoc. apply bind_ext. intros o1 _. cbn [bindR].
    assert (EL : length (enc q) + clen c = length (enc (q ++ [c]))) by (rewrite enc_app, app_length, enc_one; reflexivity).
    rewrite EL. change (q ++ c :: r) with (q ++ [c] ++ r) in SK |- *. rewrite app_assoc in SK |- *. rewrite from_app by exact SK. cbn [bindR].
    rewrite text_enc by exact Sr. cbn [bindR]. rewrite KT; [reflexivity|].
    intros y Hy. apply not_bar_some in Hy. destruct r; [discriminate|]. injection Hy as ->. inversion Sr; assumption.
Qed.
Theorem keyboard_enc : forall w out, scalars w -> b_keyboard_suggest sg fuel (enc w) out = keyboard_suggest sg fuel w out.
Proof.
  intros w out Hw. unfold b_keyboard_suggest, keyboard_suggest. rewrite char_indices_enc by exact Hw. cbn [bindR].
  rewrite indexed_splits, !foldR_map.
  rewrite (@fold_tries sg fuel _ _ (fun '(u, c, v) => key_forms u c v) (enc w) (splits w)).
  2: { intros [[u c] v] o H. apply splits_In in H. rewrite H in *. apply key_step_bytes. exact Hw. }
  rewrite (@fold_tries sg fuel _ _ (fun '(u, c, v) => key_forms u c v) w (splits w)).
  2: { intros [[u c] v] o H. apply splits_In in H. rewrite H. apply key_step_chars. }
  rewrite !bind_assoc. reflexivity.
Qed.

(** *** Doubled characters *)
Lemma doubled_loop_enc : forall rest u out, scalars (u ++ rest) ->
  b_doubled_loop sg fuel (enc (u ++ rest)) (char_indices (length (enc u)) rest) out = doubled_loop sg fuel (u ++ rest) (length u) rest out.
Proof.
  induction rest as [|x rest IH]; intros u out Hw; [reflexivity|].
  destruct rest as [|y [|x2 [|y2 [|x3 [|z v]]]]]; try reflexivity.
  assert (LE : forall p c, length (enc p) + clen c = length (enc (p ++ [c]))) by (intros p c; rewrite enc_app, app_length, enc_one; reflexivity).
  assert (EW : u ++ x :: y :: x2 :: y2 :: x3 :: z :: v = (u ++ [x]) ++ y :: x2 :: y2 :: x3 :: z :: v) by (rewrite <- app_assoc; reflexivity).
  assert (IH' := IH (u ++ [x])). rewrite <- EW, <- LE, app_length, Nat.add_1_r in IH'.
  cbn [char_indices] in IH' |- *. cbn [b_doubled_loop doubled_loop].
  transitivity (out1 <- (if (x =? x2)%N && (y =? y2)%N && (x =? x3)%N
     then try sg fuel (firstn (length u + 3) (u ++ x :: y :: x2 :: y2 :: x3 :: z :: v) ++ skipn (length u + 5) (u ++ x :: y :: x2 :: y2 :: x3 :: z :: v)) out
     else Ret out) ;;
    b_doubled_loop sg fuel (enc (u ++ x :: y :: x2 :: y2 :: x3 :: z :: v))
      ((length (enc u) + clen x, y) :: (length (enc u) + clen x + clen y, x2) :: (length (enc u) + clen x + clen y + clen x2, y2)
        :: (length (enc u) + clen x + clen y + clen x2 + clen y2, x3) :: (length (enc u) + clen x + clen y + clen x2 + clen y2 + clen x3, z)
        :: char_indices (length (enc u) + clen x + clen y + clen x2 + clen y2 + clen x3 + clen z) v) out1).
  - apply liftR_ext. destruct ((x =? x2)%N && (y =? y2)%N && (x =? x3)%N); [|reflexivity].
    assert (EA : u ++ x :: y :: x2 :: y2 :: x3 :: z :: v = (u ++ [x; y; x2]) ++ [y2; x3] ++ z :: v) by (rewrite <- app_assoc; reflexivity).
    assert (EB : (u ++ [x; y; x2]) ++ [y2; x3] ++ z :: v = (u ++ [x; y; x2; y2; x3]) ++ z :: v) by (rewrite <- !app_assoc; reflexivity).
    rewrite EA. rewrite firstn_app_exact by (rewrite app_length; cbn; lia). rewrite EB at 2.
    rewrite skipn_app_exact by (rewrite app_length; cbn; lia).
    assert (E3 : length (enc u) + clen x + clen y + clen x2 = length (enc (u ++ [x; y; x2]))).
    { rewrite !LE, <- !app_assoc. reflexivity. }
    rewrite E3.
    assert (E5 : length (enc (u ++ [x; y; x2])) + clen y2 + clen x3 = length (enc (u ++ [x; y; x2])) + length (enc [y2; x3])).
    { rewrite !enc_cons. cbn [enc flat_map]. rewrite !app_length. unfold clen. cbn [length]. lia. }
    rewrite E5. rewrite EA in Hw. pose proof (@replace_app (u ++ [x; y; x2]) [y2; x3] (z :: v) [] Hw) as RA.
    change (enc []) with (@nil N) in RA. rewrite RA. cbn [bindR app]. apply try_enc.
    apply Forall_app in Hw. destruct Hw as [A B]. apply Forall_app in B. apply Forall_app. split; [exact A|apply B].
  - apply bind_ext. intros o _. apply IH'. exact Hw.
Qed.
Theorem doubled_enc : forall w out, scalars w -> b_doubled_suggest sg fuel (enc w) out = doubled_two_chars_suggest sg fuel w out.
Proof.
  intros w out Hw. unfold b_doubled_suggest, b_char_indices. rewrite text_enc by exact Hw. cbn [bindR].
  exact (@doubled_loop_enc w [] out Hw).
Qed.

(** *** Two words *)
Lemma foldR_ext : forall S A (f g : S -> A -> Res S) l s, (forall a s, In a l -> f s a = g s a) -> foldR f l s = foldR g l s.
Proof.
  intros S A f g l. induction l as [|a l IH]; intros s H; [reflexivity|]. cbn [foldR]. rewrite H by (left; reflexivity).
  apply bind_ext. intros s' _. apply IH. intros; apply H; right; assumption.
Qed.
Lemma enumerate_splits : forall (f : str * N * str -> nat * N) w, 
  combine (seq 0 (length (map f (splits w)))) (map f (splits w)) = map (fun e => (length (fst (fst e)), f e)) (splits w).
Proof.
  intros f w. rewrite map_length.
  assert (G : forall l n, combine (seq n (length l)) (map f l) = map (fun e => (fst e, f (snd e))) (combine (seq n (length l)) l)).
  { induction l as [|x l IH]; intros n; [reflexivity|]. cbn. f_equal. apply IH. }
  rewrite G. assert (L : length (splits w) = length w).
  { assert (E := seq_splits w). apply (f_equal (@length nat)) in E. rewrite seq_length, map_length in E. auto. }
  rewrite L.
  assert (E := seq_splits w). rewrite E. clear E G L.
  generalize (splits w). intros l. induction l as [|[[u c] v] l IH]; [reflexivity|]. cbn. f_equal. exact IH.
Qed.
Lemma cont_hyphen : forall u v, scalars (u ++ 32%N :: v) -> scalars (u ++ 45%N :: v).
Proof. intros u v H. eapply scalars_put; [exact H|]. apply ascii_scalar. reflexivity. Qed.
Theorem two_words_enc : forall w out, scalars w -> b_two_words_suggest sg (enc w) out = two_words_suggest sg w out.
Proof.
  intros w out Hw. unfold b_two_words_suggest, two_words_suggest.
  assert (EN : negb (length (enc w) =? 0) = nonempty w).
  { destruct w as [|c w]; [reflexivity|]. pose proof (enc_length (c :: w)) as L. cbn [length] in L. destruct (length (enc (c :: w))); [lia|reflexivity]. }
  rewrite EN. f_equal. destruct (o_no_split_sugs opts); [reflexivity|]. rewrite char_indices_enc by exact Hw. cbn [bindR].
  rewrite enumerate_splits, seq_splits, !foldR_map. apply foldR_ext. intros [[u c] v] o H. apply splits_In in H. cbn [fst].
  unfold b_two_words_step, two_words_step. rewrite H in *. pose proof (scalars_mid _ _ _ Hw) as (Su & Sc & Sv).
  rewrite upto_app by exact Hw. cbn [bindR]. rewrite text_enc by exact Su. cbn [bindR]. rewrite firstn_app_exact, skipn_app_exact by reflexivity. cbv zeta.
  destruct (check_simple_word k u SkipHiddenHomonym); [|reflexivity]. rewrite from_app by exact Hw. cbn [bindR].
  rewrite text_enc by (constructor; assumption). cbn [bindR].
  destruct (check_simple_word k (c :: v) SkipHiddenHomonym); [|reflexivity].
  assert (ES : enc u ++ [32%N] ++ enc (c :: v) = enc (u ++ 32%N :: c :: v)) by (rewrite enc_app, (enc_cons 32%N), byte1 by reflexivity; reflexivity).
  rewrite ES. assert (SS : scalars (u ++ 32%N :: c :: v)).
  { apply Forall_app. split; [exact Su|]. constructor; [apply ascii_scalar; reflexivity|]. constructor; assumption. }
  rewrite text_enc by exact SS. cbn [bindR]. destruct (_ && _ && _); [|reflexivity]. f_equal. unfold in_place, plain.
  generalize (on_slice (length (enc u)) (S (length (enc u))) (fun _ => Ret [45%N]) (enc (u ++ 32%N :: c :: v))). intros [hb| |]; [|reflexivity|reflexivity].
  cbn [bindR fst snd]. unfold b_text. destruct (dec hb); reflexivity.
Qed.

(** *** MAP *)
Definition encst (s : str * mstate) : list N * mstate := (enc (fst s), snd s).
Definition encsum (r : (str * mstate) + (str * mstate)) : (list N * mstate) + (list N * mstate) :=
  match r with inl s => inl (encst s) | inr s => inr (encst s) end.
(** Both steps do the same and leave the buffer holding the word. *)
Definition Sim (w : str) (f : list N * mstate -> Res ((list N * mstate) + (list N * mstate)))
    (g : str * mstate -> Res ((str * mstate) + (str * mstate))) : Prop :=
  forall m, f (enc w, m) = (r <- g (w, m) ;; Ret (encsum r)) /\ (forall r, g (w, m) = Ret r -> fst (final r) = w).
Lemma Sim_loop : forall A B w (f : list N * mstate -> B -> Res ((list N * mstate) + (list N * mstate))) (g : str * mstate -> A -> Res ((str * mstate) + (str * mstate))) (h : A -> B) l,
  (forall a, In a l -> Sim w (fun s => f s (h a)) (fun s => g s a)) -> Sim w (loopR f (map h l)) (loopR g l).
Proof.
  intros A B w f g h l. induction l as [|a l IH]; intros H m.
  - cbn. split; [reflexivity|]. intros r E. injection E as <-. reflexivity.
  - destruct (H a (or_introl eq_refl) m) as [E1 E2]. assert (IH' := IH ltac:(intros; apply H; right; assumption)). cbn [map loopR].
    rewrite E1, !bind_assoc. split.
    + apply bind_ext. intros r Er. specialize (E2 r Er). cbn [bindR]. destruct r as [[b m']|[b m']]; cbn [final fst] in E2; subst b; cbn [encsum encst fst snd].
      * apply IH'.
      * reflexivity.
    + intros r Er. destruct (g (w, m) a) as [r1| |]; try discriminate. specialize (E2 r1 eq_refl). cbn [bindR] in Er.
      destruct r1 as [[b m']|[b m']]; cbn [final fst] in E2; subst b; [exact (proj2 (IH' m') r Er)|]. injection Er as <-. reflexivity.
Qed.
Lemma Sim_loop_id : forall A w (f : list N * mstate -> A -> Res ((list N * mstate) + (list N * mstate))) (g : str * mstate -> A -> Res ((str * mstate) + (str * mstate))) l,
  (forall a, In a l -> Sim w (fun s => f s a) (fun s => g s a)) -> Sim w (loopR f l) (loopR g l).
Proof. intros A w f g l H. rewrite <- (map_id l) at 1. apply Sim_loop. exact H. Qed.
Lemma Sim_seq : forall w f1 g1 f2 g2, Sim w f1 g1 -> Sim w f2 g2 ->
  Sim w (fun s => r <- f1 s ;; match r with inr s => Ret (inr s) | inl s => f2 s end)
        (fun s => r <- g1 s ;; match r with inr s => Ret (inr s) | inl s => g2 s end).
Proof.
  intros w f1 g1 f2 g2 H1 H2 m. destruct (H1 m) as [E1 E2]. rewrite E1, !bind_assoc. split.
  - apply bind_ext. intros r Er. specialize (E2 r Er). cbn [bindR]. destruct r as [[b m']|[b m']]; cbn [final fst] in E2; subst b; cbn [encsum encst fst snd].
    + apply H2.
    + reflexivity.
  - intros r Er. destruct (g1 (w, m)) as [r1| |]; try discriminate. specialize (E2 r1 eq_refl). cbn [bindR] in Er.
    destruct r1 as [[b m']|[b m']]; cbn [final fst] in E2; subst b; [exact (proj2 (H2 m') r Er)|]. injection Er as <-. reflexivity.
Qed.
Lemma Sim_skip : forall w, Sim w (fun s => Ret (inl s)) (fun s => Ret (inl s)).
Proof. intros w m. split; [reflexivity|]. intros r E. injection E as <-. reflexivity. Qed.

Section MapTree.
Variable brec : list N -> nat -> mstate -> Res mstate.
Variable rec : str -> nat -> mstate -> Res mstate.
Hypothesis Hrec : forall w i m, scalars w -> i <= length w -> brec (enc w) (boff w i) m = rec w i m.
Variable w : str.
Hypothesis HW : scalars w.

Lemma Sim_try : forall bedit edit bundo undo bnext next w',
  scalars w' -> next <= length w' -> bnext = boff w' next ->
  bedit (enc w) = Ret (enc w') -> edit w = Ret w' -> bundo (enc w') = Ret (enc w) -> undo w' = Ret w ->
  Sim w (b_map_try sg fuel brec (enc w) bedit bundo bnext) (map_try sg fuel rec w edit undo next).
Proof.
  intros bedit edit bundo undo bnext next w' S' L -> E1 E2 E3 E4 [rem out]. unfold b_map_try, map_try.
  destruct (rem =? 0)%N.
  - split; [reflexivity|]. intros r E. injection E as <-. reflexivity.
  - rewrite E1, E2. cbn [bindR]. rewrite try_enc by exact S'. rewrite !bind_assoc. split.
    + apply bind_ext. intros o _. rewrite Hrec by assumption. rewrite !bind_assoc. apply bind_ext. intros m _. rewrite E3, E4. cbn [bindR].
      rewrite !str_eqb_refl, !debug_assert_true. reflexivity.
    + intros r E. destruct (try sg fuel w' out) as [o| |]; try discriminate. cbn [bindR] in E.
      destruct (rec w' next ((rem - 1)%N, o)) as [m| |]; try discriminate. cbn [bindR] in E. rewrite E4 in E. cbn [bindR] in E.
      rewrite str_eqb_refl, debug_assert_true in E. injection E as <-. reflexivity.
Qed.
Lemma Sim_range : forall u x v y, w = u ++ x ++ v -> scalars y ->
  Sim w (b_map_try sg fuel brec (enc w) (b_range (length (enc u)) (length (enc x)) (enc y)) (b_range (length (enc u)) (length (enc y)) (enc x)) (length (enc u) + length (enc y)))
        (map_try sg fuel rec w (range (length u) (length x) y) (range (length u) (length y) x) (length u + length y)).
Proof.
  intros u x v y E Hy. assert (S' : scalars (u ++ y ++ v)).
  { rewrite E in HW. apply Forall_app in HW. destruct HW as [A B]. apply Forall_app in B. apply Forall_app. split; [exact A|]. apply Forall_app. split; [exact Hy|apply B]. }
  apply Sim_try with (w' := u ++ y ++ v).
  - exact S'.
  - rewrite !app_length. lia.
  - rewrite <- (app_length u y), (app_assoc u y v), boff_app, enc_app, app_length. reflexivity.
  - unfold b_range. rewrite E. apply replace_app. rewrite <- E. exact HW.
  - unfold range. rewrite E, replace_range_app. reflexivity.
  - unfold b_range. rewrite E. apply replace_app. exact S'.
  - unfold range. rewrite E, replace_range_app. reflexivity.
Qed.
Lemma Sim_from_char : forall u ch v g, w = u ++ ch :: v -> wf_sim g ->
  Sim w (b_map_from_char sg fuel brec (enc w) (length (enc u)) ch g) (map_from_char sg fuel rec w (length u) ch g).
Proof.
  intros u ch v g E [Hc Hs]. unfold b_map_from_char, map_from_char.
  assert (EU : firstn (length u) w = u) by (rewrite E; apply firstn_app_exact; reflexivity). cbv zeta. rewrite EU.
  assert (SC : scalar ch) by (rewrite E in HW; apply (scalars_mid _ _ _ HW)).
  apply (@Sim_seq w (fun st => loopR _ (sg_chars g) st) (fun st => loopR _ (sg_chars g) st) (fun st => loopR _ (sg_strings g) st) (fun st => loopR _ (sg_strings g) st)).
  - apply Sim_loop_id. intros c Hin. destruct (c =? ch)%N; [apply Sim_skip|].
    assert (Sc : scalar c) by exact (proj1 (Forall_forall _ _) Hc c Hin).
    assert (S2 : scalars (u ++ c :: v)) by (rewrite E in HW; exact (scalars_put _ _ _ HW Sc)).
    assert (R1 : replace_char_at dbg (enc w) (length (enc u)) ch c = Ret (enc (u ++ c :: v))).
    { rewrite E. apply replace_char_spec; [rewrite <- E; exact HW|exact Sc]. }
    assert (R2 : replace_char_at dbg (enc (u ++ c :: v)) (length (enc u)) c ch = Ret (enc w)).
    { rewrite E. apply replace_char_spec; [exact S2|exact SC]. }
    apply Sim_try with (w' := u ++ c :: v).
    + exact S2.
    + rewrite app_length. cbn. lia.
    + replace (S (length u)) with (length (u ++ [c])) by (rewrite app_length; cbn; lia).
      change (u ++ c :: v) with (u ++ [c] ++ v). rewrite app_assoc, boff_app, enc_app, app_length, enc_one. reflexivity.
    + exact R1.
    + rewrite (@in_place_enc _ _ w (u ++ c :: v) tt S2); [reflexivity|]. unfold plain. rewrite R1. reflexivity.
    + exact R2.
    + rewrite (@in_place_enc _ _ (u ++ c :: v) w tt HW); [reflexivity|]. unfold plain. rewrite R2. reflexivity.
  - apply Sim_loop_id. intros s Hin. destruct (proj1 (Forall_forall _ _) Hs s Hin) as [_ Ss].
    pose proof (@Sim_range u [ch] v s E Ss) as R. rewrite !enc_one in R. exact R.
Qed.
Lemma Sim_from_string : forall u v g e, w = u ++ v -> wf_sim g -> In (snd e) (sg_strings g) ->
  Sim w (fun s => b_map_from_string sg fuel brec (enc w) (length (enc u)) g s e) (fun s => map_from_string sg fuel rec w (length u) g s e).
Proof.
  intros u v g [pos from] E [Hc Hs] Hfrom. cbn [snd] in Hfrom. destruct (proj1 (Forall_forall _ _) Hs from Hfrom) as [Hne Sf].
  unfold b_map_from_string, map_from_string.
  assert (EV : skipn (length u) w = v) by (rewrite E; apply skipn_app_exact; reflexivity).
  assert (BF : b_from (enc w) (length (enc u)) = Ret (enc v)) by (rewrite E; apply from_app; rewrite <- E; exact HW).
  rewrite EV, BF. cbn [bindR]. assert (Sv : scalars v) by (rewrite E in HW; apply Forall_app in HW; apply HW).
  rewrite find_enc by assumption. destruct (find_sub from v) as [j|] eqn:F; cbn [option_map]; [|apply Sim_skip].
  apply find_sub_sound in F. destruct F as [F Lj].
  set (p := firstn j v) in *. set (q := skipn (j + length from) v) in *.
  assert (Lp : length p = j) by (unfold p; apply firstn_length_le; exact Lj).
  assert (EW : w = (u ++ p) ++ from ++ q) by (rewrite E, F, <- !app_assoc; reflexivity).
  assert (LU : j + length u = length (u ++ p)) by (rewrite app_length; lia).
  assert (LB : boff v j + length (enc u) = length (enc (u ++ p))) by (rewrite enc_app, app_length; unfold boff; fold p; lia).
  cbv zeta. rewrite LU, LB.
  apply (@Sim_seq w (fun st => loopR _ (sg_chars g) st) (fun st => loopR _ (sg_chars g) st) (fun st => loopR _ (combine _ _) st) (fun st => loopR _ (combine _ _) st)).
  - apply Sim_loop_id. intros c Hin. assert (Sc : scalar c) by exact (proj1 (Forall_forall _ _) Hc c Hin).
    pose proof (@Sim_range (u ++ p) from q [c] EW ltac:(constructor; auto)) as R. rewrite !enc_one in R. cbn [length] in R. rewrite Nat.add_1_r in R. exact R.
  - apply Sim_loop_id. intros [pos2 to] Hin. cbn [fst snd]. destruct (pos2 =? pos); [apply Sim_skip|].
    apply in_combine_r in Hin. destruct (proj1 (Forall_forall _ _) Hs to Hin) as [_ St].
    exact (@Sim_range (u ++ p) from q to EW St).
Qed.
Lemma map_body_enc : forall i m, i <= length w -> b_map_body sg fuel brec (enc w) (boff w i) m = map_body sg fuel rec w i m.
Proof.
  intros i m Hi. unfold b_map_body, map_body. rewrite from_boff by assumption. cbn [bindR].
  rewrite char_indices_enc by (apply scalars_skipn; exact HW). cbn [bindR].
  replace (length w - i) with (length (skipn i w)) by (rewrite skipn_length; reflexivity). rewrite indexed_splits.
  assert (S : Sim w (loopR (b_map_at sg fuel brec (enc w) (boff w i)) (map (fun '(u, c, v) => (length (enc u), c)) (splits (skipn i w))))
                   (loopR (fun s e => map_at sg fuel rec w s ((fun '(u, c, v) => (i + length u, c)) e)) (splits (skipn i w)))).
  { apply Sim_loop. intros [[u c] v] H. apply splits_In in H.
    assert (EW : w = (firstn i w ++ u) ++ c :: v) by (rewrite <- (firstn_skipn i w) at 1; rewrite H, <- app_assoc; reflexivity).
    assert (LU : i + length u = length (firstn i w ++ u)) by (rewrite app_length, firstn_length_le by exact Hi; reflexivity).
    assert (LB : length (enc u) + boff w i = length (enc (firstn i w ++ u))) by (rewrite enc_app, app_length; unfold boff; lia).
    unfold b_map_at, map_at. cbv zeta. rewrite LU, LB. apply Sim_loop_id. intros g Hg. pose proof (proj1 (Forall_forall _ _) WG g Hg) as Wg.
    destruct (memb c (sg_chars g)).
    - eapply Sim_from_char; [exact EW|exact Wg].
    - apply Sim_loop_id. intros e He. destruct e as [pos s]. eapply Sim_from_string; [exact EW|exact Wg|]. apply in_combine_r in He. exact He. }
  destruct (S m) as [E1 E2]. rewrite E1, bind_assoc, loopR_map. apply bind_ext. intros r Er. cbn [bindR]. destruct r as [[b m']|[b m']]; reflexivity.
Qed.
End MapTree.
Lemma map_impl_enc : forall n w i m, scalars w -> i <= length w ->
  b_map_impl sg fuel n (enc w) (boff w i) m = map_suggest_impl sg fuel n w i m.
Proof.
  induction n as [|n IH]; intros w i m Hw Hi; [reflexivity|]. cbn [b_map_impl map_suggest_impl].
  apply map_body_enc; [intros; apply IH; assumption|exact Hw|exact Hi].
Qed.
Theorem map_enc : forall w out, scalars w -> b_map_suggest sg fuel (enc w) out = map_suggest sg fuel w out.
Proof.
  intros w out Hw. unfold b_map_suggest, map_suggest. rewrite attempts_enc. apply bind_ext. intros rem _.
  pose proof (@map_impl_enc fuel w 0 (rem, out) Hw ltac:(lia)) as M. change (boff w 0) with 0 in M. rewrite M. reflexivity.
Qed.

Theorem low_enc : forall w out, scalars w -> b_suggest_low sg fuel (enc w) out = suggest_low sg fuel w out.
Proof.
  intros w out Hw. unfold b_suggest_low, suggest_low. rewrite text_enc by exact Hw. cbn [bindR].
  rewrite uppercase_suggest_enc by exact Hw. apply bind_ext. intros o1 _. rewrite rep_enc by exact Hw. apply bind_ext. intros o2 _.
  rewrite map_enc by exact Hw. apply bind_ext. intros o3 _. rewrite word_enc by assumption. apply bind_ext. intros hq _.
  apply bind_ext. intros o4 _. apply bind_ext. intros o5 _. rewrite keyboard_enc by exact Hw. apply bind_ext. intros o6 _.
  rewrite extra_enc by exact Hw. apply bind_ext. intros o7 _. rewrite forgotten_enc by exact Hw. apply bind_ext. intros o8 _.
  apply bind_ext. intros o9 _. rewrite wrong_enc by exact Hw. apply bind_ext. intros o10 _. rewrite doubled_enc by exact Hw. apply bind_ext. intros o11 _.
  rewrite two_words_enc by exact Hw. reflexivity.
Qed.
End Low.

(** ** The whole of [suggest] *)
Lemma mapR_ext : forall A B (f g : A -> Res B) l, (forall a, In a l -> f a = g a) -> mapR f l = mapR g l.
Proof.
  intros A B f g l. induction l as [|a l IH]; intros H; [reflexivity|]. cbn [mapR]. rewrite H by (left; reflexivity).
  apply bind_ext. intros b _. rewrite IH by (intros; apply H; right; assumption). reflexivity.
Qed.
Lemma foldR_ext_inv : forall S A (I : S -> Prop) (f g : S -> A -> Res S) l s, I s -> (forall a s, I s -> In a l -> f s a = g s a) ->
  (forall a s r, I s -> g s a = Ret r -> I r) -> foldR f l s = foldR g l s.
Proof.
  intros S A I f g l. induction l as [|a l IH]; intros s Is H K; [reflexivity|]. cbn [foldR]. rewrite H by (assumption || (left; reflexivity)).
  apply bind_ext. intros s' E. apply IH; [exact (K _ _ _ Is E)|intros; apply H; [assumption|right; assumption]|exact K].
Qed.
Lemma enc_nonempty : forall c w, exists b bs, enc (c :: w) = b :: bs.
Proof.
  intros c w. pose proof (enc_length (c :: w)) as L. cbn [length] in L. destruct (enc (c :: w)) as [|b bs]; [cbn in L; lia|]. eauto.
Qed.
Lemma memb_byte : forall c w, (c < 128)%N -> scalars w -> is_someb (find_sub [c] (enc w)) = memb c w.
Proof.
  intros c w Hc Hw. rewrite find_byte by assumption. rewrite find_char_sub. rewrite <- memb_find. destruct (find_sub [c] w); reflexivity.
Qed.
Lemma boff_byte : forall u c v, (c < 128)%N -> boff (u ++ c :: v) (length u) + 1 = boff (u ++ c :: v) (S (length u)).
Proof.
  intros u c v Hc. assert (Ea : u ++ c :: v = (u ++ [c]) ++ v) by (rewrite <- app_assoc; reflexivity).
  assert (L : S (length u) = length (u ++ [c])) by (rewrite app_length; cbn; lia).
  rewrite boff_app, L, Ea, boff_app, enc_app, app_length, enc_one, byte1 by exact Hc. reflexivity.
Qed.
(** [word.len().checked_sub(len).and_then(|s| word.get(s..))] is the tail of that length. *)
Lemma tail_enc : forall v w (t : Res (list N)), scalars v -> scalars w -> t = Ret (enc v) ->
  (if length (enc w) <? length (enc v) then Ret false
   else match b_get_from (enc w) (length (enc w) - length (enc v)) with
        | None => Ret false
        | Some tail => t' <- t ;; Ret (str_eqb t' tail)
        end) = Ret (ends_with v w).
Proof.
  intros v w t Hv Hw ->. destruct (ends_with v w) eqn:E.
  - unfold ends_with in E. destruct (strip_suffix v w) as [r|] eqn:S; [|discriminate]. apply strip_suffix_spec in S. subst w.
    rewrite enc_app, app_length. rewrite (proj2 (Nat.ltb_ge _ _)) by lia. rewrite <- enc_app.
    replace (length (enc r) + length (enc v) - length (enc v)) with (boff (r ++ v) (length r)) by (rewrite boff_app; lia).
    rewrite get_from_boff by (assumption || (rewrite app_length; lia)). rewrite skipn_app_exact by reflexivity. cbn [bindR].
    rewrite str_eqb_refl. reflexivity.
  - destruct (length (enc w) <? length (enc v)) eqn:L; [reflexivity|]. apply Nat.ltb_ge in L.
    destruct (b_get_from (enc w) (length (enc w) - length (enc v))) as [tail|] eqn:G; [|reflexivity]. cbn [bindR].
    destruct (str_eqb (enc v) tail) eqn:Q; [|reflexivity]. exfalso. apply str_eqb_eq in Q. subst tail.
    unfold b_get_from, b_get, b_cut in G. destruct (_ && _ && _ && _) in G; [|discriminate]. injection G as G. unfold slice in G.
    rewrite firstn_all2 in G by (rewrite skipn_length; lia).
    assert (X : ends_with (enc v) (enc w) = true).
    { unfold ends_with. destruct (strip_suffix (enc v) (enc w)) as [r|] eqn:S; [reflexivity|]. exfalso.
      assert (Y : enc w = firstn (length (enc w) - length (enc v)) (enc w) ++ enc v) by (rewrite <- G at 2; rewrite firstn_skipn; reflexivity).
      apply strip_suffix_spec in Y. rewrite Y in S. discriminate. }
    rewrite ends_enc in X by assumption. congruence.
Qed.

Section Impl.
Variable sg : suggester.
Variable fuel : nat.
Notation k := (su_checker sg).
Notation aff := (ck_aff (su_checker sg)).
Notation opts := (ad_options (ck_aff (su_checker sg))).
Notation U := (ck_u (su_checker sg)).
Notation case := (o_case (ad_options (ck_aff (su_checker sg)))).
Notation dbg := (su_debug sg).
Hypothesis WU : wf_unicode U.
Hypothesis WC : wf_compound k.
Hypothesis HR : Forall (fun p => forall r, cp_replacement p = Some r -> scalars r) (ad_patterns aff).
Hypothesis HB : Forall scalars (start_breaks (ad_breaks aff) ++ end_breaks (ad_breaks aff) ++ middle_breaks (ad_breaks aff)).
Hypothesis WR : wf_reps (ad_reps aff).
Hypothesis WG : Forall wf_sim (ad_sims aff).
Hypothesis WRS : Forall (fun e => scalars (fst e) /\ scalars (snd e)) (rp_table (ad_reps aff)).
Hypothesis WT : scalars (ad_try aff).
Hypothesis WK : scalars (ad_keyboard aff).
Hypothesis WO : conv_table_ok (ad_oconv aff).
Hypothesis WOS : Forall (fun c => scalars (cv_to c)) (ct_inner (ad_oconv aff)).
Hypothesis WI : conv_table_ok (ad_iconv aff).
Hypothesis WIS : Forall (fun c => scalars (cv_to c)) (ct_inner (ad_iconv aff)).
Hypothesis WCK : wf_checker k.
Hypothesis WH : wf_heaps (su_heaps sg).
Hypothesis WW : Forall (fun e => scalars (fst e) /\ wf_flagset (snd e)) (su_words sg).

Let low : forall w out, scalars w -> b_suggest_low sg fuel (enc w) out = suggest_low sg fuel w out := @low_enc sg fuel WU WC HR WR WG WRS WT WK.
Let checked : forall w, scalars w -> b_check k dbg fuel (enc w) = check k fuel w.
Proof. intros w Hw. apply check_enc; assumption. Qed.
Lemma low_out : forall w out r, scalars w -> Forall scalars out -> suggest_low sg fuel w out = Ret r -> Forall scalars (snd r).
Proof.
  intros w out [hq r] Hw Ho H. destruct (@low_sound sg WR WG fuel w out hq r Hw H) as (l & -> & L).
  apply Forall_app. split; [exact Ho|exact (@low_scalars sg WR WG WU WRS WT WK w l Hw L)].
Qed.
Lemma upper_at_enc : forall s i, scalars s -> i <= length s -> b_upper_char_at sg (enc s) (boff s i) = encR (upper_char_at U case s i).
Proof.
  intros s i Hs Hi. unfold b_upper_char_at, upper_char_at. rewrite upto_boff, from_boff by assumption. cbn [bindR].
  unfold b_char_indices. rewrite text_enc by (apply scalars_skipn; exact Hs). cbn [bindR].
  destruct (skipn i s) as [|c v] eqn:E; [reflexivity|]. cbn [char_indices]. 
  assert (X : match char_indices (0 + clen c) v with (next, _) :: _ => b_from (enc s) (boff s i + next) | [] => Ret [] end = Ret (enc v)).
  { destruct v as [|x v]; [reflexivity|]. cbn [char_indices].
    assert (ES : s = (firstn i s ++ [c]) ++ x :: v) by (rewrite <- app_assoc; cbn [app]; rewrite <- E; symmetry; apply firstn_skipn).
    assert (EL : boff s i + (0 + clen c) = length (enc (firstn i s ++ [c]))) by (rewrite enc_app, app_length, enc_one; reflexivity).
    rewrite EL, ES at 1. apply from_app. rewrite <- ES. exact Hs. }
  rewrite X. cbn [bindR encR]. rewrite !enc_app. reflexivity.
Qed.
Lemma lower_first_enc : forall s, scalars s -> b_lower_first sg (enc s) = encR (lower_first_char U case s).
Proof.
  intros s Hs. unfold b_lower_first, lower_first_char, b_char_indices. rewrite text_enc by exact Hs. cbn [bindR].
  destruct s as [|c v]; [reflexivity|]. cbn [char_indices].
  assert (X : match char_indices (0 + clen c) v with (next, _) :: _ => b_from (enc (c :: v)) next | [] => Ret [] end = Ret (enc v)).
  { destruct v as [|x v]; [reflexivity|]. cbn [char_indices].
    assert (EL : 0 + clen c = length (enc [c])) by (rewrite enc_one; reflexivity).
    rewrite EL. exact (@from_app [c] (x :: v) Hs). }
  rewrite X. cbn [bindR encR]. rewrite !enc_app. reflexivity.
Qed.
Lemma bind_encR : forall A (r : Res str) (f : list N -> Res A) (g : str -> Res A), (forall w, r = Ret w -> f (enc w) = g w) -> bindR (encR r) f = bindR r g.
Proof. intros A r f g H. destruct r as [w| |]; [exact (H w eq_refl)|reflexivity|reflexivity]. Qed.
Lemma low_first_enc : forall w st, scalars w -> b_low_and_first sg fuel (enc w) st = low_and_first sg fuel w st.
Proof.
  intros w [hq out] Hw. unfold b_low_and_first, low_and_first. rewrite low by exact Hw. apply bind_ext. intros r _.
  rewrite checked by exact Hw. apply bind_ext. intros [|] _; [|reflexivity]. rewrite text_enc by exact Hw. reflexivity.
Qed.
Lemma low_first_out : forall w st r, scalars w -> Forall scalars (snd st) -> low_and_first sg fuel w st = Ret r -> Forall scalars (snd r).
Proof.
  intros w [hq out] r Hw Ho H. unfold low_and_first in H. destruct (suggest_low sg fuel w out) as [q| |] eqn:E; try discriminate.
  cbn [bindR] in H. destruct (check k fuel w) as [b| |]; try discriminate. injection H as <-. cbn [snd fst].
  pose proof (low_out Hw Ho E) as X. destruct b; [constructor; assumption|exact X].
Qed.
Lemma fix_enc : forall w out i, scalars w -> Forall scalars out -> b_fix_space sg (enc w) out i = fix_space sg w out i.
Proof.
  intros w out i Hw Ho. unfold b_fix_space, fix_space. destruct (nth_error out i) as [s|] eqn:E; [|reflexivity].
  assert (Ss : scalars s) by (apply (proj1 (Forall_forall _ _) Ho); eapply nth_error_In, E). cbv zeta.
  rewrite find_byte by (reflexivity || exact Ss). destruct (find_char (N.eqb 32) s) as [j|] eqn:F; [|reflexivity]. cbn [option_map].
  apply find_char_some in F. destruct F as (u & c & v & Es & <- & Hc & _). apply N.eqb_eq in Hc. subst c.
  assert (Ea : s = (u ++ [32%N]) ++ v) by (rewrite <- app_assoc; exact Es).
  assert (LA : length (u ++ [32%N]) = S (length u)) by (rewrite app_length; cbn; lia).
  assert (BA : boff s (length u) + 1 = boff s (S (length u))).
  { rewrite Es. apply boff_byte. reflexivity. }
  rewrite BA. assert (Lj : S (length u) <= length s) by (rewrite Ea, app_length; lia).
  assert (SK : skipn (S (length u)) s = v) by (rewrite Ea; apply skipn_app_exact; symmetry; exact LA).
  rewrite SK. assert (LV : length (enc s) = boff s (S (length u)) + length (enc v)).
  { rewrite <- LA. rewrite Ea. rewrite boff_app, (enc_app (u ++ [32%N])), app_length. reflexivity. }
  unfold b_minus. rewrite (proj2 (Nat.leb_le _ _)) by lia. cbn [bindR].
  replace (length (enc s) - boff s (S (length u))) with (length (enc v)) by lia.
  assert (Sv : scalars v) by (rewrite <- SK; apply scalars_skipn; exact Ss).
  rewrite (@tail_enc v w _ Sv Hw) by (rewrite from_boff by assumption; rewrite SK; reflexivity). cbn [bindR].
  destruct (ends_with v w); [reflexivity|]. rewrite upper_at_enc by assumption. apply bind_encR. intros t ET.
  rewrite text_enc by exact (upper_at_scalars sg WU _ Ss ET). reflexivity.
Qed.
Lemma fix_out : forall w out i r, Forall scalars out -> fix_space sg w out i = Ret r -> Forall scalars r.
Proof.
  intros w out i r Ho H. unfold fix_space in H. destruct (nth_error out i) as [s|] eqn:E; [|discriminate].
  assert (Ss : scalars s) by (apply (proj1 (Forall_forall _ _) Ho); eapply nth_error_In, E).
  destruct (find_char (N.eqb 32) s) as [j|]; [|injection H as <-; exact Ho]. destruct (ends_with _ w); [injection H as <-; exact Ho|].
  destruct (upper_char_at U case s (S j)) as [t| |] eqn:ET; try discriminate. injection H as <-.
  constructor; [exact (upper_at_scalars sg WU _ Ss ET)|]. apply Forall_app. split; apply Forall_forall; intros x Hx; apply (proj1 (Forall_forall _ _) Ho);
    [exact (In_firstn _ _ _ Hx)|exact (@In_skipn _ x out (S i) Hx)].
Qed.
Lemma casing_suggest_enc : forall w out, scalars w -> Forall scalars out -> b_by_casing sg fuel (enc w) out = by_casing sg fuel w out.
Proof.
  intros w out Hw Ho. unfold b_by_casing, by_casing. rewrite text_enc by exact Hw. cbn [bindR].
  assert (SL : scalars (lowercase U case w)) by (apply scalars_lower; assumption).
  assert (CP : forall c : casing, 
    (r1 <- b_suggest_low sg fuel (enc w) out ;;
      out1 <- (match find_sub [46%N] (enc w) with
               | Some dot =>
                   after_dot <- b_from (enc w) (dot + 1) ;;
                   a <- b_text after_dot ;;
                   match classify_casing U a with
                   | CInit => buffer <- b_insert (enc w) (dot + 1) 32 ;; t <- b_text buffer ;; Ret (t :: snd r1)
                   | _ => Ret (snd r1)
                   end
               | None => Ret (snd r1)
               end) ;;
      r2 <- (match c with
             | CPascal => l <- b_lower_first sg (enc w) ;; b_low_and_first sg fuel l (fst r1, out1)
             | _ => Ret (fst r1, out1)
             end) ;;
      lower <- b_lowercase k (enc w) ;;
      r3 <- b_low_and_first sg fuel lower r2 ;;
      r4 <- (match c with
             | CPascal => t <- b_titlecase k (enc w) ;; b_low_and_first sg fuel t r3
             | _ => Ret r3
             end) ;;
      out4 <- foldR (b_fix_space sg (enc w)) (seq 0 (length (snd r4))) (snd r4) ;;
      Ret (inl (fst r4, out4)) : Res ((bool * list str) + list str)) =
    (r1 <- suggest_low sg fuel w out ;;
      let out1 :=
        match find_char (N.eqb 46) w with
        | Some dot =>
            match classify_casing U (skipn (S dot) w) with
            | CInit => (firstn (S dot) w ++ 32%N :: skipn (S dot) w) :: snd r1
            | _ => snd r1
            end
        | None => snd r1
        end in
      r2 <- (match c with
             | CPascal => l <- lower_first_char U case w ;; low_and_first sg fuel l (fst r1, out1)
             | _ => Ret (fst r1, out1)
             end) ;;
      r3 <- low_and_first sg fuel (lowercase U case w) r2 ;;
      r4 <- (match c with
             | CPascal => t <- titlecase U case w ;; low_and_first sg fuel t r3
             | _ => Ret r3
             end) ;;
      out4 <- foldR (fix_space sg w) (seq 0 (length (snd r4))) (snd r4) ;;
      Ret (inl (fst r4, out4)))).
  { intros c. rewrite low by exact Hw. apply bind_ext. intros r1 E1. pose proof (low_out Hw Ho E1) as O1. cbv zeta.
    set (out1 := match find_char (N.eqb 46) w with Some dot => match classify_casing U (skipn (S dot) w) with CInit => (firstn (S dot) w ++ 32%N :: skipn (S dot) w) :: snd r1 | _ => snd r1 end | None => snd r1 end).
    assert (F1 : Forall scalars out1).
    { unfold out1. destruct (find_char (N.eqb 46) w) as [dot|]; [|exact O1]. destruct (classify_casing U (skipn (S dot) w)); try exact O1.
      constructor; [|exact O1]. apply double_scalars; [exact Hw|reflexivity]. }
    match goal with |- bindR ?x _ = _ => assert (X : x = Ret out1) end.
    { rewrite find_byte by (reflexivity || exact Hw). unfold out1. destruct (find_char (N.eqb 46) w) as [dot|] eqn:F; [|reflexivity]. cbn [option_map].
      apply find_char_some in F. destruct F as (u & c' & v & Es & <- & Hc & _). apply N.eqb_eq in Hc. subst c'.
      assert (BA : boff w (length u) + 1 = boff w (S (length u))).
      { rewrite Es. apply boff_byte. reflexivity. }
      assert (Lj : S (length u) <= length w) by (rewrite Es, app_length; cbn; lia).
      rewrite BA, from_boff by assumption. cbn [bindR]. rewrite text_enc by (apply scalars_skipn; exact Hw). cbn [bindR].
      destruct (classify_casing U (skipn (S (length u)) w)); try reflexivity. rewrite insert_boff by assumption. cbn [bindR].
      rewrite text_enc by (apply double_scalars; [exact Hw|reflexivity]). reflexivity. }
    rewrite X. cbn [bindR].
    match goal with |- bindR ?x ?f = bindR ?y ?g => assert (E2 : x = y /\ forall r, y = Ret r -> Forall scalars (snd r)) end.
    { destruct c; try (split; [reflexivity|intros r E; injection E as <-; exact F1]).
      rewrite lower_first_enc by exact Hw. split.
      - apply bind_encR. intros l El. apply low_first_enc. exact (lower_first_scalars sg WU Hw El).
      - intros r E. destruct (lower_first_char U case w) as [l| |] eqn:El; try discriminate. cbn [bindR] in E.
        exact (@low_first_out _ (fst r1, out1) _ (lower_first_scalars sg WU Hw El) F1 E). }
    destruct E2 as [-> P2]. apply bind_ext. intros r2 E2. specialize (P2 _ E2).
    rewrite lower_enc by assumption. cbn [bindR]. rewrite low_first_enc by exact SL. apply bind_ext. intros r3 E3. pose proof (@low_first_out _ _ _ SL P2 E3) as P3.
    match goal with |- bindR ?x ?f = bindR ?y ?g => assert (E4 : x = y /\ forall r, y = Ret r -> Forall scalars (snd r)) end.
    { destruct c; try (split; [reflexivity|intros r E; injection E as <-; exact P3]).
      rewrite title_enc by assumption. split.
      - apply bind_encR. intros l El. apply low_first_enc. exact (title_scalars sg WU Hw El).
      - intros r E. destruct (titlecase U case w) as [l| |] eqn:El; try discriminate. cbn [bindR] in E.
        exact (@low_first_out _ _ _ (title_scalars sg WU Hw El) P3 E). }
    destruct E4 as [-> P4]. apply bind_ext. intros r4 E4. specialize (P4 _ E4).
    rewrite (@foldR_ext_inv _ _ (Forall scalars) (b_fix_space sg (enc w)) (fix_space sg w)); [reflexivity|exact P4| |].
    - intros a s Is _. apply fix_enc; assumption.
    - intros a s r Is E. exact (fix_out _ _ Is E). }
  destruct (classify_casing U w).
  - match goal with |- bindR ?x ?f = bindR ?y ?g => assert (E : x = y) end.
    { destruct (o_force_upper opts); [|reflexivity]. apply check_compound_enc; assumption. }
    rewrite E. apply bind_ext. intros [f|] _; [reflexivity|]. rewrite low by exact Hw. reflexivity.
  - rewrite low by exact Hw. apply bind_ext. intros r1 _. rewrite lower_enc by assumption. cbn [bindR]. rewrite low by exact SL. reflexivity.
  - rewrite lower_enc by assumption. cbn [bindR]. cbv zeta.
    match goal with |- bindR ?x ?f = bindR ?y ?g => assert (E : x = y) end.
    { destruct (o_keep_case opts); [|reflexivity]. apply checked; assumption. }
    rewrite E. apply bind_ext. intros keep _. rewrite text_enc by exact SL. cbn [bindR]. rewrite low by exact SL. apply bind_ext. intros r1 _.
    rewrite title_enc by assumption. apply bind_encR. intros t Et. rewrite low by exact (title_scalars sg WU SL Et). reflexivity.
  - apply (CP CCamel).
  - apply (CP CPascal).
Qed.

Lemma dash_push_enc : forall w i out s j, scalars w -> scalars s -> i <= length w -> (forall j', j = Some j' -> j' <= length w) ->
  b_dash_push sg fuel (enc w) (boff w i) (option_map (boff w) j) out s = dash_push sg fuel (firstn i w) (option_map (fun j => skipn j w) j) out s.
Proof.
  intros w i out s j Hw Hs Hi Hj. unfold b_dash_push, dash_push. rewrite upto_boff by assumption. cbn [bindR].
  set (after := match option_map (fun j => skipn j w) j with Some a => a | None => [] end).
  assert (X : match option_map (boff w) j with Some j => b_from (enc w) j | None => Ret [] end = Ret (enc after) /\ scalars after).
  { unfold after. destruct j as [j|]; cbn [option_map]; [|split; [reflexivity|constructor]].
    rewrite from_boff by (exact Hw || exact (Hj j eq_refl)). split; [reflexivity|apply scalars_skipn; exact Hw]. }
  destruct X as [-> Sa]. cbn [bindR]. cbv zeta. rewrite <- !enc_app.
  assert (SB : scalars (firstn i w ++ s ++ after)).
  { apply Forall_app. split; [apply scalars_firstn; exact Hw|]. apply Forall_app. split; assumption. }
  rewrite word_enc by assumption. apply bind_ext. intros r _. rewrite text_enc by exact SB. reflexivity.
Qed.
Section Dash.
Variable brec : list N -> Res (list str).
Variable rec : str -> Res (list str).
Hypothesis Hrec : forall p, scalars p -> brec (enc p) = rec p.
Hypothesis Hout : forall p t, scalars p -> rec p = Ret t -> Forall scalars t.
Lemma dash_loop_enc : forall n m w i out, scalars w -> i <= length w -> length w - i < n -> length w - i < m ->
  b_dash_loop sg fuel n brec (enc w) (boff w i) out = dash_loop sg fuel m rec w i out.
Proof.
  induction n as [|n IH]; intros [|m] w i out Hw Hi Ln Lm; try lia. cbn [b_dash_loop dash_loop].
  rewrite from_boff by assumption. cbn [bindR]. cbv zeta. assert (SR : scalars (skipn i w)) by (apply scalars_skipn; exact Hw).
  rewrite find_byte by (reflexivity || exact SR).
  set (j := option_map (Nat.add i) (find_char (N.eqb 45) (skipn i w))).
  assert (J : option_map (fun idx => idx + boff w i) (option_map (boff (skipn i w)) (find_char (N.eqb 45) (skipn i w))) = option_map (boff w) j).
  { unfold j. destruct (find_char (N.eqb 45) (skipn i w)) as [x|]; [|reflexivity]. cbn [option_map]. rewrite boff_skip. reflexivity. }
  assert (JJ : forall j', j = Some j' -> i <= j' /\ S j' <= length w /\ exists u v, w = u ++ 45%N :: v /\ length u = j').
  { unfold j. intros j' Ej. destruct (find_char (N.eqb 45) (skipn i w)) as [x|] eqn:F; [|discriminate]. injection Ej as <-.
    apply find_char_some in F. destruct F as (u & c & v & Es & <- & Hc & _). apply N.eqb_eq in Hc. subst c.
    assert (EW : w = (firstn i w ++ u) ++ 45%N :: v) by (rewrite <- app_assoc, <- Es; symmetry; apply firstn_skipn).
    assert (LU : length (firstn i w ++ u) = i + length u) by (rewrite app_length, firstn_length_le by exact Hi; reflexivity).
    split; [lia|]. split; [rewrite EW, app_length, LU; cbn; lia|]. exists (firstn i w ++ u), v. auto. }
  rewrite J. clearbody j. clear J.
  set (part := match j with Some j => slice w i j | None => skipn i w end).
  assert (PE : match option_map (boff w) j with Some j => b_cut (enc w) (boff w i) j | None => Ret (enc (skipn i w)) end = Ret (enc part)).
  { unfold part. destruct j as [j|]; [|reflexivity]. destruct (JJ j eq_refl) as (A & B & _). cbn [option_map]. apply cut_boff; (exact Hw || lia). }
  assert (SP : scalars part) by (unfold part; destruct j; [apply scalars_slice; exact Hw|exact SR]).
  match goal with |- bindR ?x _ = _ => assert (PX : x = Ret (enc part)) end.
  { destruct j as [j|]; cbn [option_map] in *; exact PE. }
  rewrite PX. cbn [bindR]. rewrite checked by exact SP. apply bind_ext. intros ok _.
  match goal with |- bindR ?x ?f = bindR ?y ?g => assert (E : x = y) end.
  { destruct ok; [reflexivity|]. rewrite Hrec by exact SP. apply bind_ext. intros tmp Et. pose proof (Hout SP Et) as St. rewrite Forall_forall in St.
    apply foldR_ext. intros s o Hs. apply dash_push_enc; [exact Hw|exact (St s Hs)|exact Hi|]. intros j' Ej. destruct (JJ j' Ej) as (_ & B & _). lia. }
  rewrite E. apply bind_ext. intros out1 _. destruct j as [j|]; [|reflexivity]. cbn [option_map].
  destruct (JJ j eq_refl) as (A & B & u & v & EW & <-). replace (boff w (length u) + 1) with (boff w (S (length u))) by (rewrite EW; symmetry; apply boff_byte; reflexivity).
  apply IH; (exact Hw || lia).
Qed.
Lemma by_dash_enc : forall w out, scalars w -> Forall scalars out -> b_by_dash sg fuel brec (enc w) out = by_dash sg fuel rec w out.
Proof.
  intros w out Hw Ho. unfold b_by_dash, by_dash. rewrite memb_byte by (reflexivity || exact Hw).
  assert (E : existsb (fun s => is_someb (find_sub [45%N] (enc s))) out = existsb (memb 45) out).
  { clear - Ho. induction Ho as [|s l Hs _ IH]; [reflexivity|]. cbn [existsb]. rewrite IH, memb_byte by (reflexivity || exact Hs). reflexivity. }
  rewrite E. destruct (_ && _); [|reflexivity]. pose proof (enc_length w) as L.
  pose proof (@dash_loop_enc (S (length (enc w))) (S (length w)) w 0 out Hw ltac:(lia) ltac:(lia) ltac:(lia)) as D. exact D.
Qed.
End Dash.

Lemma retain_enc : forall out s, scalars s -> b_retain_step sg fuel out s = retain_step sg fuel out s.
Proof.
  intros out s Hs. unfold b_retain_step, retain_step. cbv zeta. rewrite memb_byte by (reflexivity || exact Hs). destruct (memb 32 s); [reflexivity|].
  assert (SL : scalars (lowercase U case s)) by (apply scalars_lower; assumption).
  rewrite checked by exact Hs. apply bind_ext. intros [|] _; [reflexivity|]. rewrite lower_enc by assumption. cbn [bindR].
  rewrite checked by exact SL. apply bind_ext. intros [|] _; [rewrite text_enc by exact SL; reflexivity|].
  rewrite title_enc by assumption. apply bind_encR. intros t Et. pose proof (title_scalars sg WU Hs Et) as St.
  rewrite checked by exact St. apply bind_ext. intros [|] _; [rewrite text_enc by exact St; reflexivity|reflexivity].
Qed.

Lemma casing_out : forall w hq out1, scalars w -> by_casing sg fuel w [] = Ret (inl (hq, out1)) -> Forall scalars out1.
Proof.
  intros w' hq out1 SW E1.
  assert (CI : (classify_casing U w' <> CAll -> Forall scalars out1) /\
      (classify_casing U w' = CAll -> exists l, out1 = map (uppercase U case) l /\ Forall scalars l)).
  { apply (@casing_invariant sg WR WG WU scalars w' SW) with (n := fuel) (hq := hq); [| | | |exact E1].
    - intros v l Hv L. exact (@low_scalars sg WR WG WU WRS WT WK v l (explored_scalars WU SW Hv) L).
    - intros v Hv _ _. exact (explored_scalars WU SW Hv).
    - intros a b _ Ew _ _. rewrite Ew in SW. apply scalars_app_iff in SW. destruct SW as [A B]. inversion B; subst.
      apply scalars_app_iff. split; [exact A|]. constructor; [assumption|]. constructor; [reflexivity|assumption].
    - intros u c v _ _ Hp. apply scalars_app_iff in Hp. destruct Hp as [A B]. inversion B as [|? ? B1 B2]; subst. inversion B2; subst.
      apply scalars_app_iff. split; [exact A|]. constructor; [assumption|]. apply scalars_app_iff.
      split; [apply scalars_upper_char; assumption|assumption]. }
  destruct CI as [C1 C2]. destruct (classify_casing U w') eqn:EC; try (apply C1; discriminate).
  destruct (C2 eq_refl) as (l & -> & F). apply Forall_map. eapply Forall_impl; [|exact F]. intros x Hx. apply scalars_upper; assumption.
Qed.
Theorem suggest_impl_enc : forall n w, scalars w -> b_suggest_impl sg fuel n (enc w) [] = suggest_impl sg fuel n w [].
Proof.
  induction n as [|n IH]; intros w Hw.
  - destruct w as [|c w]; [reflexivity|]. destruct (enc_nonempty c w) as (b & bs & E). rewrite E. reflexivity.
  - destruct w as [|c w]; [reflexivity|]. destruct (enc_nonempty c w) as (b & bs & E).
    assert (X : b_suggest_impl sg fuel (S n) (enc (c :: w)) [] =
      (bs <- b_convert (ad_iconv aff) (enc (c :: w)) ;;
          word <- b_text bs ;;
          r <- b_by_casing sg fuel bs [] ;;
          match r with
          | inr out1 => Ret out1
          | inl (hq, out1) =>
              out2 <- by_ngram sg word hq out1 ;;
              out3 <- b_by_dash sg fuel (fun part => b_suggest_impl sg fuel n part []) bs out2 ;;
              let c := classify_casing U word in
              out4 <- (match c with
                       | CInit | CPascal => mapR (fun s => b <- b_upper_char_at sg (enc s) 0 ;; b_text b) out3
                       | _ => Ret out3
                       end) ;;
              out5 <- (match c with
                       | CInit | CAll => foldR (b_retain_step sg fuel) out4 []
                       | _ => Ret out4
                       end) ;;
              out6 <- deduplicate out5 ;;
              mapR (fun s => b <- b_convert (ad_oconv aff) (enc s) ;; b_text b) out6
          end)) by (rewrite E; reflexivity).
    rewrite X. clear X E b bs. cbn [suggest_impl]. rewrite convert_enc by assumption. apply bind_encR. intros w' EC.
    destruct (convert_inv WI WIS Hw EC) as [_ SW]. rewrite text_enc by exact SW. cbn [bindR].
    rewrite casing_suggest_enc by (exact SW || constructor). apply bind_ext. intros [[hq out1]|o] E1; [|reflexivity].
    apply bind_ext. intros out2 E2.
    assert (IHO : forall p t, scalars p -> suggest_impl sg fuel n p [] = Ret t -> Forall scalars t).
    { intros p t. exact (@impl_scalars sg WR WG WRS WT WK WU WO WOS WI WIS WCK WH WW fuel n p t). }
    pose proof (casing_out SW E1) as O1.
    assert (O2 : Forall scalars out2).
    { destruct (@by_ngram_inv sg WCK WH WW w' hq out1 out2 E2) as (added & -> & F & _). apply Forall_app. split; [exact O1|].
      assert (FA : Forall scalars added) by (eapply Forall_impl; [|exact F]; intros e; apply ngram_form_scalars; assumption).
      unfold shown_as. destruct (classify_casing U w'); try exact FA.
      apply Forall_map. eapply Forall_impl; [|exact FA]. intros x Hx. apply scalars_upper; assumption. }
    rewrite (@by_dash_enc _ (fun part => suggest_impl sg fuel n part []) IH IHO w' out2 SW O2). apply bind_ext. intros out3 E3. cbv zeta.
    assert (O3 : Forall scalars out3).
    { destruct (by_dash_inv _ _ _ _ _ E3) as (dl & -> & F & _). apply Forall_app. split; [exact O2|].
      eapply Forall_impl; [|exact F]. intros x. apply dash_form_scalars; [exact SW|exact IHO]. }
    match goal with |- bindR ?x ?f = bindR ?y ?g => assert (E4 : x = y /\ forall r, y = Ret r -> Forall scalars r) end.
    { assert (M : mapR (fun s => b <- b_upper_char_at sg (enc s) 0 ;; b_text b) out3 = mapR (fun s => upper_char_at U case s 0) out3 /\
        forall r, mapR (fun s => upper_char_at U case s 0) out3 = Ret r -> Forall scalars r).
      { split.
        - apply mapR_ext. intros s Hs. pose proof (proj1 (Forall_forall _ _) O3 s Hs) as Ss.
          change 0 with (boff s 0) at 1. rewrite upper_at_enc by (exact Ss || lia). 
          destruct (upper_char_at U case s 0) as [t| |] eqn:Et; cbn [encR bindR]; [|reflexivity|reflexivity].
          apply text_enc. exact (upper_at_scalars sg WU _ Ss Et).
        - intros r Er. apply mapR_Forall2 in Er. eapply Forall2_Forall; [exact Er| |exact O3]. intros a b' Ea Ha. exact (upper_at_scalars sg WU _ Ha Ea). }
      destruct (classify_casing U w'); first [exact M | (split; [reflexivity|intros r Er; injection Er as <-; exact O3])]. }
    destruct E4 as [-> P4]. apply bind_ext. intros out4 E4. specialize (P4 _ E4).
    match goal with |- bindR ?x ?f = bindR ?y ?g => assert (E5 : x = y /\ forall r, y = Ret r -> Forall scalars r) end.
    { assert (M : foldR (b_retain_step sg fuel) out4 [] = foldR (retain_step sg fuel) out4 [] /\
        forall r, foldR (retain_step sg fuel) out4 [] = Ret r -> Forall scalars r).
      { split.
        - apply foldR_ext. intros s o Hs. apply retain_enc. exact (proj1 (Forall_forall _ _) P4 s Hs).
        - intros r Er. apply Forall_forall. intros x Hx. destruct (@retain_inv sg fuel _ _ Er _ Hx) as (s & Is & K).
          pose proof (proj1 (Forall_forall _ _) P4 s Is) as Ss. destruct K as [[-> _]|[_ [-> |[-> |ET]]]]; [exact Ss|exact Ss| |].
          + apply scalars_lower; assumption.
          + exact (title_scalars sg WU Ss ET). }
      destruct (classify_casing U w'); first [exact M | (split; [reflexivity|intros r Er; injection Er as <-; exact P4])]. }
    destruct E5 as [-> P5]. apply bind_ext. intros out5 E5. specialize (P5 _ E5). rewrite deduplicate_is. cbn [bindR].
    apply mapR_ext. intros s Hs. apply (proj1 (keep_first_In _ _)) in Hs. pose proof (proj1 (Forall_forall _ _) P5 s Hs) as Ss.
    rewrite convert_enc by assumption. destruct (convert (ad_oconv aff) s) as [t| |] eqn:Et; cbn [encR bindR]; [|reflexivity|reflexivity].
    apply text_enc. exact (proj2 (convert_inv WO WOS Ss Et)).
Qed.
Theorem suggest_enc : forall w out, scalars w -> b_suggest sg fuel (enc w) out = suggest sg fuel w out.
Proof.
  intros w out Hw. unfold b_suggest, suggest. rewrite suggest_impl_enc by exact Hw.
  replace (360 <? length (enc w)) with (max_word_len <? blen w)%N; [reflexivity|]. rewrite <- blen_enc.
  unfold max_word_len. destruct (Nat.ltb_spec 360 (length (enc w))); [apply N.ltb_lt|apply N.ltb_ge]; lia.
Qed.
End Impl.
