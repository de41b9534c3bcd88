(** The n-gram step in machine integers computes what the n-gram step on unbounded integers
    (Ngram.v) does, when the machine's integers are wide enough for the word's length. *)
From Coq Require Import List NArith ZArith Arith Lia Bool Permutation.
From Coq Require Import ZifyBool ZifyNat ZifyN.
From Verif Require Import Base Utf8 Unicode Flags Affix Aff Checker Bag Ngram Rep NgramMeasures NgramProps AffixSpec CheckSpec Depth ScoreArith.
Import ListNotations.
Set Implicit Arguments.

Section Whole.
Variable hi : Z.
Variable hp : heaps.
Hypothesis WH : wf_heaps hp.
Variable k : checker.
Hypothesis WF : wf_checker k.
Variable words : list (str * flagset).
Hypothesis WW : Forall (fun e => wf_flagset (snd e)) words.
Hypothesis WS : Forall (fun e => scalars (fst e)) words.
Notation opts := (ad_options (ck_aff k)).
Notation U := (ck_u k).
Notation case := (o_case opts).
Hypothesis MD : (o_max_diff opts <= 10)%N.
Hypothesis MN : (o_max_ngram opts <= 65535)%N.
Variable c : nat.
Hypothesis G : case_growth U c.

Variable word : str.
Let n := Z.of_nat (length word).
Let M := Z.of_nat c.
Hypothesis WIDE : (3 * (n * n) + 100 * n + 65535 * (M + 100) <= hi)%Z.

Let pos : (0 <= hi)%Z.
Proof. unfold n, M in *. nia. Qed.
Let M1 : (1 <= M)%Z.
Proof. destruct G as [H _]. unfold M. lia. Qed.
Let square : Z.of_nat (length word * length word) = (n * n)%Z.
Proof. unfold n. lia. Qed.
Let nn : (0 <= n /\ 0 <= n * n)%Z.
Proof. unfold n. nia. Qed.
Let few : forall m, (Z.of_nat (Nat.min m (length word) * length word) <= n * n)%Z.
Proof. intros m. rewrite <- square. apply inj_le. apply Nat.mul_le_mono_r. lia. Qed.
Let few' : forall m, (Z.of_nat (Nat.min m (length word) * length word) <= Z.of_nat m * n)%Z.
Proof. intros m. unfold n. nia. Qed.
Let short : forall s, (blen s <= 65535)%N -> (Z.of_nat (length s) <= 65535)%Z.
Proof. intros s H. pose proof (blen_length s). lia. Qed.

Lemma root_step_ok : forall roots e, m_root_step hi hp k word roots e = root_step hp k word roots e.
Proof.
  intros roots e. unfold m_root_step, root_step. destruct (ineligible k (snd e)); [reflexivity|].
  destruct (chars_str (fst e)) as [stem| |] eqn:E1; try reflexivity. cbn [bindR].
  rewrite m_left_common_ok by (try assumption; lia). cbn [bindR].
  pose proof (left_common_bound U case word stem) as LB.
  rewrite as_isize_ok by (try assumption; lia). cbn [bindR].
  destruct (chars_str (lowercase U case stem)) as [low| |] eqn:E2; try reflexivity. cbn [bindR].
  destruct (chars_str_ret _ E2) as [-> L2]. apply short in L2.
  destruct (@m_longer_worse_ok hi pos 3 word (lowercase U case stem)) as [-> B]; [specialize (few' 3); lia|]. cbn [bindR].
  rewrite isize_ok by (try assumption; specialize (few' 3); lia). reflexivity.
Qed.

Lemma mangle_length : forall w i, length (mangle i w) = length w.
Proof. induction w as [|x w IH]; intros i; [reflexivity|]. cbn. f_equal. apply IH. Qed.
Lemma threshold_ok : m_threshold hi word = Ret (threshold word).
Proof.
  unfold m_threshold, threshold.
  set (f := fun i => ngram_similarity_any_mismatch (length word) word (firstn i word ++ mangle 0 (skipn i word))).
  assert (B : forall i, m_any_mismatch hi (length word) word (firstn i word ++ mangle 0 (skipn i word)) = Ret (f i) /\
              (Z.abs (f i) <= n * n + 2 * n)%Z).
  { intros i. assert (L : length (firstn i word ++ mangle 0 (skipn i word)) = length word)
      by (rewrite app_length, mangle_length, <- app_length, firstn_skipn; reflexivity).
    destruct (@m_any_mismatch_ok hi pos (length word) word (firstn i word ++ mangle 0 (skipn i word))) as [E A].
    - rewrite L. specialize (few (length word)). lia.
    - rewrite L in A. specialize (few (length word)). split; [exact E|]. unfold f. lia. }
  assert (F : forall l t, (Z.abs t + Z.of_nat (length l) * (n * n + 2 * n) <= hi)%Z ->
    foldR (fun t i => x <- m_any_mismatch hi (length word) word (firstn i word ++ mangle 0 (skipn i word)) ;; isize hi (t + x)) l t =
      Ret (fold_left (fun t i => (t + f i)%Z) l t) /\
    (Z.abs (fold_left (fun t i => (t + f i)%Z) l t) <= Z.abs t + Z.of_nat (length l) * (n * n + 2 * n))%Z).
  { induction l as [|i l IH]; intros t H; [cbn; split; [reflexivity|lia]|]. cbn [foldR fold_left length] in *.
    destruct (B i) as [-> A]. cbn [bindR]. rewrite isize_ok by (try assumption; nia). cbn [bindR].
    destruct (IH (t + f i)%Z) as [-> A2]; [nia|]. split; [reflexivity|nia]. }
  assert (L : length (firstn 3 (seq 1 (length word))) <= 3) by (rewrite firstn_length; lia).
  destruct (F (firstn 3 (seq 1 (length word))) 0%Z) as [-> A]; [nia|]. cbn [bindR].
  set (t := fold_left _ _ _) in *. apply isize_ok.
  assert (Z.abs t <= 3 * (n * n + 2 * n))%Z by nia. pose proof (Z.quot_abs t 3 ltac:(lia)) as Q.
  assert (Z.quot (Z.abs t) (Z.abs 3) <= Z.abs t)%Z by (apply Z.quot_le_upper_bound; lia). lia.
Qed.

Lemma guess_step_ok : forall limit g e, scalars e -> m_guess_step hi hp k word limit g e = guess_step hp k word limit g e.
Proof.
  intros limit g e S1. unfold m_guess_step, guess_step.
  destruct (chars_str e) as [e'| |] eqn:E1; try reflexivity. cbn [bindR]. destruct (chars_str_ret _ E1) as [-> L]. apply short in L.
  rewrite m_left_common_ok by (try assumption; lia). cbn [bindR].
  pose proof (left_common_bound U case word e) as LB. rewrite as_isize_ok by (try assumption; lia). cbn [bindR].
  pose proof (@lower_length U c G case e S1) as LL.
  assert (LM : (Z.of_nat (length (lowercase U case e)) <= 65535 * M)%Z) by (unfold M; nia).
  destruct (@m_any_mismatch_ok hi pos (length word) word (lowercase U case e)) as [-> B]; [specialize (few (length word)); lia|]. cbn [bindR].
  rewrite isize_ok by (try assumption; specialize (few (length word)); lia). reflexivity.
Qed.

Lemma rescore_ok : forall l, Forall (fun g => fst g = guess_score k word (snd g)) l -> m_rescore hi k word l = rescore k word l.
Proof.
  intros l H. induction H as [|[s g] l HS _ IH]; [reflexivity|]. cbn [fst snd] in HS. cbn [m_rescore rescore].
  destruct (chars_str (lowercase U case g)) as [low| |] eqn:E1; try reflexivity. cbn [bindR].
  destruct (chars_str_ret _ E1) as [-> L]. apply short in L. set (low := lowercase U case g) in *.
  rewrite m_lcs_ok by (try assumption; lia). cbn [bindR].
  destruct (_ && _).
  { rewrite isize_ok; [reflexivity|]. subst s. unfold guess_score. fold low.
    pose proof (left_common_bound U case word g) as LB.
    destruct (@m_any_mismatch_ok hi pos (length word) word low) as [_ B]; specialize (few (length word)); lia. }
  set (m := Z.of_nat (length low)) in *.
  assert (F2 : (Z.of_nat (Nat.min 2 (length low) * length low) <= 2 * m)%Z) by (unfold m; nia).
  pose proof (few' 2) as W2. pose proof (few' 4) as W4.
  destruct (@m_any_mismatch_weighted_ok hi pos 2 word low) as [-> B1]; [lia|]. cbn [bindR].
  destruct (@m_any_mismatch_weighted_ok hi pos 2 low word) as [-> B2]; [lia|]. cbn [bindR].
  set (a := ngram_similarity_any_mismatch_weighted 2 word low) in *. set (b := ngram_similarity_any_mismatch_weighted 2 low word) in *.
  assert (AB : (Z.abs (a + b) <= 6 * n + 6 * m)%Z) by lia.
  rewrite (@isize_ok hi (a + b)) by lia. cbn [bindR].
  destruct (@m_any_mismatch_ok hi pos 4 word low) as [-> B4]; [lia|]. cbn [bindR].
  set (g4 := ngram_similarity_any_mismatch 4 word low) in *.
  rewrite m_left_common_ok by (try assumption; lia). cbn [bindR].
  rewrite m_count_eq_ok by (try assumption; lia). cbn [bindR].
  pose proof (left_common_bound U case word low) as LB. pose proof (lcs_bound word low) as LS.
  set (lcs := longest_common_subsequence_length word low) in *. set (lc := left_common_substring_length U case word low) in *.
  rewrite (@as_isize_ok hi (lcs)) by lia. cbn [bindR].
  rewrite (@isize_ok hi (2 * Z.of_nat lcs)) by lia. cbn [bindR].
  rewrite (@as_isize_ok hi (length word)) by lia. cbn [bindR].
  rewrite (@as_isize_ok hi (length low)) by lia. cbn [bindR].
  rewrite (@isize_ok hi (Z.of_nat (length word) - Z.of_nat (length low))) by lia. cbn [bindR].
  rewrite (@isize_ok hi (Z.abs _)) by lia. cbn [bindR].
  rewrite (@isize_ok hi (2 * Z.of_nat lcs - _)) by lia. cbn [bindR].
  rewrite (@as_isize_ok hi (lc)) by lia. cbn [bindR].
  rewrite (@isize_ok hi (Z.of_nat lc + (a + b))) by lia. cbn [bindR].
  rewrite (@isize_ok hi (Z.of_nat lc + (a + b) + g4)) by lia. cbn [bindR].
  set (s1 := (2 * Z.of_nat lcs - Z.abs (Z.of_nat (length word) - Z.of_nat (length low)) + (Z.of_nat lc + (a + b) + g4))%Z).
  assert (S1 : (Z.abs s1 <= 20 * n + 20 * m)%Z) by (unfold s1; lia).
  rewrite (@isize_ok hi (s1)) by lia. cbn [bindR].
  destruct (count_eq_at_same_pos word low) as [same swapped]. cbn [fst snd].
  replace (if (same =? 0)%nat then Ret s1 else isize hi (s1 + 1)) with (Ret (if (same =? 0)%nat then s1 else (s1 + 1)%Z))
    by (destruct (same =? 0)%nat; [|rewrite isize_ok by (try assumption; lia)]; reflexivity).
  cbn [bindR]. set (s2 := if (same =? 0)%nat then s1 else (s1 + 1)%Z). assert (S2 : (Z.abs s2 <= 20 * n + 20 * m + 1)%Z) by (unfold s2; destruct (same =? 0); lia).
  replace (if swapped then isize hi (s2 + 10) else Ret s2) with (Ret (if swapped then (s2 + 10)%Z else s2))
    by (destruct swapped; [rewrite isize_ok by (try assumption; lia)|]; reflexivity).
  cbn [bindR]. set (s3 := if swapped then (s2 + 10)%Z else s2). assert (S3 : (Z.abs s3 <= 20 * n + 20 * m + 11)%Z) by (unfold s3; destruct swapped; lia).
  rewrite (@isize_ok hi (5 * (a + b))) by lia. cbn [bindR].
  rewrite usize_ok by lia. cbn [bindR]. rewrite usub_ok by lia. cbn [bindR].
  assert (PB : (Z.of_nat ((length word + length low) * (10 - N.to_nat (o_max_diff opts))) =
                Z.of_nat (length word + length low) * (10 - Z.of_N (o_max_diff opts)))%Z) by (rewrite Nat2Z.inj_mul, Nat2Z.inj_sub by lia; lia).
  assert (PH : (Z.of_nat ((length word + length low) * (10 - N.to_nat (o_max_diff opts))) <= hi)%Z) by (rewrite PB; apply Z.le_trans with (Z.of_nat (length word + length low) * 10)%Z; [apply Z.mul_le_mono_nonneg_l; lia|lia]).
  rewrite usize_ok by exact PH. cbn [bindR]. rewrite as_isize_ok by exact PH. cbn [bindR]. rewrite PB.
  set (low_score := (5 * (a + b) <? _)%Z).
  replace (if low_score then isize hi (s3 - 1000) else Ret s3) with (Ret (if low_score then (s3 - 1000)%Z else s3))
    by (destruct low_score; [rewrite isize_ok by (try assumption; lia)|]; reflexivity).
  cbn [bindR]. rewrite IH. reflexivity.
Qed.

Let derived_scalars : forall kd a stem e, wf_affix a -> derives kd a stem e -> scalars stem -> scalars e.
Proof.
  intros kd a stem e (_ & HA & _) H Hs.
  destruct kd; destruct H as (r & -> & ->); apply scalars_app_iff in Hs; apply scalars_app_iff; tauto.
Qed.
Let form_scalars : forall v stem flags e, scalars stem -> Form k v stem flags e -> scalars e.
Proof.
  intros v stem flags e Hs H. inversion H as [NA|kd a e' UA AT|s p mid rest e' UA CR AT UP FP EM DE]; subst; [exact Hs| |].
  - destruct UA as (IA & _). destruct AT as (DA & _). exact (@derived_scalars kd _ _ _ (@rules_wf k WF kd a IA) DA Hs).
  - destruct UP as (IA & _). exact (@derived_scalars Pfx _ _ _ (@rules_wf k WF Pfx p IA) DE Hs).
Qed.

Lemma foldR_ext : forall S A (f g : S -> A -> Res S) l s, (forall s a, In a l -> f s a = g s a) -> foldR f l s = foldR g l s.
Proof.
  intros S A f g l. induction l as [|a l IH]; intros s H; [reflexivity|]. cbn [foldR]. rewrite H by (left; reflexivity).
  destruct (g s a); cbn [bindR]; try reflexivity. apply IH. intros; apply H; right; assumption.
Qed.

Theorem machine_ngram : forall out, (Z.of_nat (length out) + 65535 <= hi)%Z ->
  m_ngram_suggest hi hp k words word out = ngram_suggest hp k words word out.
Proof.
  intros out HO. unfold m_ngram_suggest, ngram_suggest.
  destruct (chars_str word) as [w'| |] eqn:E0; try reflexivity. cbn [bindR]. destruct (chars_str_ret _ E0) as [-> _].
  rewrite (@foldR_ext _ _ (m_root_step hi hp k word) (root_step hp k word)) by (intros; apply root_step_ok).
  destruct (foldR (root_step hp k word) words []) as [roots| |] eqn:E1; try reflexivity. cbn [bindR].
  rewrite threshold_ok. cbn [bindR].
  destruct (@roots_best _ WH k _ _ _ _ _ (@wh_nil _ WH _) (Best_nil _ _) E1) as [I1 B1]. simpl app in B1.
  assert (RS : forall root, In root roots -> In (snd root) words).
  { intros [sc e] HI. apply (@Best_In _ _ _ _ _ B1) in HI. apply in_map_iff in HI. destruct HI as (e' & E & HI). injection E as _ ->.
    apply filter_In in HI. apply HI. }
  erewrite (foldR_ext _ (fun g root => expanded <- expand_stem_for_ngram k (fst (snd root)) (snd (snd root)) word ;;
               foldR (guess_step hp k word (threshold word)) expanded g)).
  2:{ intros g root HI. apply RS in HI. destruct root as [sc [stem flags]]. cbn [fst snd] in *.
      destruct (expand_stem_for_ngram k stem flags word) as [l| |] eqn:EX; try reflexivity. cbn [bindR].
      apply foldR_ext. intros g' e He. apply guess_step_ok.
      assert (W : wf_flagset flags) by exact (proj1 (Forall_forall _ _) WW _ HI).
      assert (X : scalars stem) by exact (proj1 (Forall_forall _ _) WS _ HI).
      apply (@expand_spec k WF _ _ _ _ W EX) in He. eapply form_scalars; eassumption. }
  match goal with |- bindR ?m _ = _ => destruct m as [guesses| |] eqn:E2 end; try reflexivity. cbn [bindR].
  destruct (@all_guesses_best _ WH k _ _ _ _ _ (@wh_nil _ WH _) (Best_nil _ _) E2) as (ls & EL & I2 & B2). simpl app in B2.
  rewrite rescore_ok.
  2:{ destruct (@wh_sorted_vec _ WH _ _ I2) as [P1 _]. eapply Permutation_Forall; [exact P1|]. apply Forall_forall. intros [s g] HI.
      apply (@Best_In _ _ _ _ _ B2) in HI. apply filter_In in HI. destruct HI as [HI _]. apply in_map_iff in HI. destruct HI as (e & E & _).
      injection E as <- <-. reflexivity. }
  destruct (rescore k word (hp_into_sorted_vec hp guesses)) as [scored| |]; try reflexivity. cbn [bindR].
  rewrite usize_ok by lia. reflexivity.
Qed.
End Whole.
