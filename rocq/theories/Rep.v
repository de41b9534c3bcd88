(** REP similarity (checker.rs 1829-1898) against a specification without buffers. *)
From Coq Require Import List NArith ZArith Lia Bool Arith.
From Coq Require Import ZifyBool ZifyNat ZifyN.
From Verif Require Import Base Utf8 Unicode Flags Condition Affix CompoundRule Conversion Aff Checker AffixSpec.
Import ListNotations.
Set Implicit Arguments.

(** ** Specification *)

(** [Occ p w u v]: scanning [w] from the left and skipping over every match, the pattern
    [p] is met after [u] and before [v] (leftmost, non-overlapping occurrences). *)
Inductive Occ (p : str) : str -> str -> str -> Prop :=
| Occ_here : forall u v, (forall u' v', u ++ p ++ v = u' ++ p ++ v' -> length u <= length u') ->
    Occ p (u ++ p ++ v) u v
| Occ_later : forall u v u2 v2, (forall u' v', u ++ p ++ v = u' ++ p ++ v' -> length u <= length u') ->
    Occ p v u2 v2 -> Occ p (u ++ p ++ v) (u ++ p ++ u2) v2.

(** Some entry of the REP table, applied at one place, turns [w] into a word satisfying [ok]. *)
Definition RepSimilar (t : rep_table) (ok : str -> Prop) (w : str) : Prop :=
  (exists from to, In (from, to) (whole_reps t) /\ w = from /\ ok to) \/
  (exists from to r, In (from, to) (start_reps t) /\ w = from ++ r /\ ok (to ++ r)) \/
  (exists from to r, In (from, to) (end_reps t) /\ w = r ++ from /\ ok (r ++ to)) \/
  (exists from to u v, In (from, to) (any_reps t) /\ Occ from w u v /\ ok (u ++ to ++ v)).

(** ** Match positions *)
Lemma Occ_app : forall p w u v, Occ p w u v -> w = u ++ p ++ v.
Proof. induction 1; [reflexivity|]. subst v. rewrite <- !app_assoc. reflexivity. Qed.

Lemma find_sub_split : forall p w i, find_sub p w = Some i ->
  exists u v, w = u ++ p ++ v /\ length u = i /\
    (forall u' v', w = u' ++ p ++ v' -> length u <= length u').
Proof.
  intros p w i H. destruct (find_sub_sound _ _ H) as [E Hle]. exists (firstn i w), (skipn (i + length p) w).
  split; [exact E|]. rewrite firstn_length. split; [lia|]. intros u' v' E'.
  pose proof (@find_sub_first p w i u' v' H E'). lia.
Qed.

Lemma match_indices_go_In : forall fuel p w off, 0 < length p -> length w < fuel -> forall j,
  (In j (match_indices_go fuel p w off) <->
   exists u v, Occ p w u v /\ j = off + length u).
Proof.
  induction fuel as [|fuel IH]; intros p w off Hp Hf j; [lia|]. cbn [match_indices_go].
  destruct (find_sub p w) as [i|] eqn:F.
  - destruct (find_sub_split _ _ F) as [u [v [E [Hu Hfirst]]]].
    rewrite E. replace (skipn (i + length p) (u ++ p ++ v)) with v.
    2: { rewrite app_assoc. rewrite skipn_app_exact; [reflexivity|rewrite app_length; lia]. }
    assert (length v < fuel) as Hv by (rewrite E in Hf; rewrite !app_length in Hf; lia).
    cbn [In]. rewrite (IH p v (off + i + length p) Hp Hv j). split.
    + intros [H|[u2 [v2 [HO Hj]]]].
      * exists u, v. split; [|lia]. constructor. rewrite <- E. exact Hfirst.
      * exists (u ++ p ++ u2), v2. split; [apply Occ_later; [rewrite <- E; exact Hfirst|exact HO]|].
        rewrite !app_length. lia.
    + intros [u2 [v2 [HO Hj]]].
      assert (EQ : forall a b, u ++ p ++ v = a ++ p ++ b ->
                 (forall u' v', a ++ p ++ b = u' ++ p ++ v' -> length a <= length u') -> a = u /\ b = v).
      { intros a b Eab Ha. rewrite E in Hfirst. pose proof (Hfirst a b Eab). pose proof (Ha u v (eq_sym Eab)).
        assert (length a = length u) as Hl by lia.
        assert (a = u) as -> by (rewrite <- (@firstn_app_exact _ a (p ++ b) (length u)) by lia;
                                 rewrite <- Eab; apply firstn_app_exact; reflexivity).
        split; [reflexivity|]. apply app_inv_head in Eab. apply app_inv_head in Eab. congruence. }
      inversion HO as [a b Hmin Ew|a b c d Hmin HO2 Ew]; subst.
      * destruct (EQ _ _ (eq_sym Ew) Hmin) as [-> ->]. left. lia.
      * destruct (EQ _ _ (eq_sym Ew) Hmin) as [-> ->]. right. exists c, v2. split; [exact HO2|].
        rewrite ?app_length in *. lia.
  - split; [intros []|]. intros [u [v [HO _]]]. apply Occ_app in HO.
    exfalso. exact (proj1 (find_sub_none p w) F u v HO).
Qed.

Theorem match_indices_In : forall p w j, 0 < length p ->
  (In j (match_indices p w) <-> exists u v, Occ p w u v /\ j = length u).
Proof.
  intros p w j Hp. unfold match_indices. rewrite match_indices_go_In by (auto; lia). simpl. tauto.
Qed.

(** ** The loops: result and restored buffer. *)
Lemma replace_range_app : forall u p v r, replace_range (u ++ p ++ v) (length u) (length p) r = u ++ r ++ v.
Proof.
  intros u p v r. unfold replace_range. rewrite firstn_app_exact by reflexivity.
  replace (u ++ p ++ v) with ((u ++ p) ++ v) by (symmetry; apply app_assoc).
  rewrite skipn_app_exact by (rewrite app_length; lia). reflexivity.
Qed.

Section Loops.
Variable k : checker.
Notation ok := (fun w => simple_ok k w = true).

Lemma rep_start_loop_spec : forall l word,
  (fst (rep_start_loop k l word word) = true <->
     exists from to r, In (from, to) l /\ word = from ++ r /\ ok (to ++ r)) /\
  (fst (rep_start_loop k l word word) = false -> snd (rep_start_loop k l word word) = word).
Proof.
  induction l as [|[from to] l IH]; intro word; cbn [rep_start_loop].
  - split; [|reflexivity]. split; [discriminate|]. intros (? & ? & ? & [] & _).
  - destruct (starts_with from word) eqn:S.
    + apply starts_with_spec in S. destruct S as [r ->].
      pose proof (replace_range_app [] from r to) as E1. cbn [app length] in E1. rewrite E1.
      destruct (simple_ok k (to ++ r)) eqn:O; cbn [fst snd].
      * split; [|discriminate]. split; [|reflexivity]. intros _. exists from, to, r. simpl. auto.
      * pose proof (replace_range_app [] to r from) as E2. cbn [app length] in E2. rewrite E2.
        destruct (IH (from ++ r)) as [I1 I2]. split; [|exact I2]. rewrite I1. split.
        -- intros (f & t & r' & H & H'). exists f, t, r'. simpl. auto.
        -- intros (f & t & r' & [H|H] & H1 & H2); [|exists f, t, r'; auto].
           injection H as -> ->. apply app_inv_head in H1. subst r'. congruence.
    + destruct (IH word) as [I1 I2]. split; [|exact I2]. rewrite I1. split.
      * intros (f & t & r' & H & H'). exists f, t, r'. simpl. auto.
      * intros (f & t & r' & [H|H] & H1 & H2); [|exists f, t, r'; auto].
        injection H as -> ->. subst word. rewrite starts_with_app in S. discriminate.
Qed.

Lemma rep_end_loop_spec : forall l word,
  (fst (rep_end_loop k l word word) = true <->
     exists from to r, In (from, to) l /\ word = r ++ from /\ ok (r ++ to)) /\
  (fst (rep_end_loop k l word word) = false -> snd (rep_end_loop k l word word) = word).
Proof.
  induction l as [|[from to] l IH]; intro word; cbn [rep_end_loop].
  - split; [|reflexivity]. split; [discriminate|]. intros (? & ? & ? & [] & _).
  - destruct (ends_with from word) eqn:S.
    + apply ends_with_spec in S. destruct S as [r ->].
      rewrite (@firstn_app_exact _ r from) by (rewrite app_length; lia).
      destruct (simple_ok k (r ++ to)) eqn:O; cbn [fst snd].
      * split; [|discriminate]. split; [|reflexivity]. intros _. exists from, to, r. simpl. auto.
      * rewrite (@firstn_app_exact _ r to) by (rewrite app_length; lia).
        destruct (IH (r ++ from)) as [I1 I2]. split; [|exact I2]. rewrite I1. split.
        -- intros (f & t & r' & H & H'). exists f, t, r'. simpl. auto.
        -- intros (f & t & r' & [H|H] & H1 & H2); [|exists f, t, r'; auto].
           injection H as -> ->. apply app_inv_tail in H1. subst r'. congruence.
    + destruct (IH word) as [I1 I2]. split; [|exact I2]. rewrite I1. split.
      * intros (f & t & r' & H & H'). exists f, t, r'. simpl. auto.
      * intros (f & t & r' & [H|H] & H1 & H2); [|exists f, t, r'; auto].
        injection H as -> ->. subst word. rewrite ends_with_app in S. discriminate.
Qed.

Lemma rep_at_loop_spec : forall from to word idxs,
  (forall j, In j idxs -> exists u v, word = u ++ from ++ v /\ length u = j) ->
  (fst (rep_at_loop k idxs from to word) = true <->
     exists u v, In (length u) idxs /\ word = u ++ from ++ v /\ ok (u ++ to ++ v)) /\
  (fst (rep_at_loop k idxs from to word) = false -> snd (rep_at_loop k idxs from to word) = word).
Proof.
  intros from to word idxs. induction idxs as [|i idxs IH]; intro Hi; cbn [rep_at_loop].
  - split; [|reflexivity]. split; [discriminate|]. intros (? & ? & [] & _).
  - destruct (Hi i (or_introl eq_refl)) as [u [v [E Hu]]].
    assert (replace_range word i (length from) to = u ++ to ++ v) as E1.
    { rewrite E, <- Hu. apply replace_range_app. }
    rewrite E1. destruct (simple_ok k (u ++ to ++ v)) eqn:O; cbn [fst snd].
    + split; [|discriminate]. split; [|reflexivity]. intros _. exists u, v. simpl. auto.
    + rewrite <- Hu, replace_range_app, <- E.
      destruct IH as [I1 I2]; [intros j Hj; apply Hi; right; exact Hj|].
      split; [|exact I2]. rewrite I1. split.
      * intros (u' & v' & H & H'). exists u', v'. simpl. auto.
      * intros (u' & v' & [H|H] & H1 & H2); [|exists u', v'; auto].
        assert (u' = u) as ->.
        { rewrite <- (@firstn_app_exact _ u' (from ++ v') (length u')) by reflexivity.
          rewrite <- H1, <- H, E. apply firstn_app_exact. reflexivity. }
        rewrite E in H1. apply app_inv_head in H1. apply app_inv_head in H1. subst v'. congruence.
Qed.

Lemma rep_any_loop_spec : forall l word,
  (forall from to, In (from, to) l -> 0 < length from) ->
  (fst (rep_any_loop k l word word) = true <->
     exists from to u v, In (from, to) l /\ Occ from word u v /\ ok (u ++ to ++ v)).
Proof.
  induction l as [|[from to] l IH]; intros word Hl; cbn [rep_any_loop].
  - split; [discriminate|]. intros (? & ? & ? & ? & [] & _).
  - assert (0 < length from) as Hfrom by (apply (Hl from to); left; reflexivity).
    destruct (@rep_at_loop_spec from to word (match_indices from word)) as [R1 R2].
    { intros j Hj. apply match_indices_In in Hj; [|exact Hfrom]. destruct Hj as [u [v [HO ->]]].
      exists u, v. split; [apply Occ_app; exact HO|reflexivity]. }
    assert (R1' : fst (rep_at_loop k (match_indices from word) from to word) = true <->
                  exists u v, Occ from word u v /\ ok (u ++ to ++ v)).
    { rewrite R1. split.
      - intros (u & v & H1 & H2 & H3). apply match_indices_In in H1; [|exact Hfrom].
        destruct H1 as [u' [v' [HO Hlen]]]. pose proof (Occ_app HO) as E.
        assert (u' = u) as ->.
        { rewrite <- (@firstn_app_exact _ u' (from ++ v') (length u')) by reflexivity.
          rewrite <- E, <- Hlen, H2. apply firstn_app_exact. reflexivity. }
        rewrite H2 in E. apply app_inv_head in E. apply app_inv_head in E. subst v'. eauto.
      - intros (u & v & HO & Hok). exists u, v. split; [apply match_indices_In; eauto|].
        split; [apply Occ_app; exact HO|exact Hok]. }
    destruct (fst (rep_at_loop k (match_indices from word) from to word)) eqn:F.
    + rewrite F. split; [|reflexivity]. intros _. destruct (proj1 R1' eq_refl) as (u & v & H1 & H2).
      exists from, to, u, v. simpl. auto.
    + rewrite (R2 eq_refl). rewrite IH by (intros f t Hft; apply (Hl f t); right; exact Hft). split.
      * intros (f & t & u & v & H & H'). exists f, t, u, v. simpl. auto.
      * intros (f & t & u & v & [H|H] & H1 & H2); [|exists f, t, u, v; auto].
        injection H as -> ->. assert (false = true) by (apply R1'; eauto). discriminate.
Qed.

(** What [ReplacementTable::from] establishes ([rep_from_spec]). *)
Definition wf_reps (t : rep_table) : Prop :=
  (forall from to, In (from, to) (any_reps t) -> 0 < length from) /\
  (only_whole_reps t = true -> start_reps t = [] /\ end_reps t = [] /\ any_reps t = []).

(** The loops over the scratch buffer compute REP similarity. *)
Theorem is_rep_similar_spec : forall w, wf_reps (ad_reps (ck_aff k)) ->
  (is_rep_similar k w = true <-> RepSimilar (ad_reps (ck_aff k)) ok w).
Proof.
  intros w [Hne How]. unfold is_rep_similar, RepSimilar. set (t := ad_reps (ck_aff k)) in *.
  assert (HW : existsb (fun e => str_eqb w (fst e) && simple_ok k (snd e)) (whole_reps t) = true <->
               (exists from to, In (from, to) (whole_reps t) /\ w = from /\ ok to)).
  { rewrite existsb_exists. split.
    - intros [[f u] [H1 H2]]. apply andb_true_iff in H2. destruct H2 as [H2 H3]. apply str_eqb_eq in H2. exists f, u. auto.
    - intros (f & u & H1 & H2 & H3). exists (f, u). split; [exact H1|].
      simpl. rewrite H3. subst w. rewrite str_eqb_refl. reflexivity. }
  destruct (existsb _ (whole_reps t)).
  { split; [|reflexivity]. intros _. left. apply HW. reflexivity. }
  assert (HW' : ~ (exists from to, In (from, to) (whole_reps t) /\ w = from /\ ok to))
    by (rewrite <- HW; discriminate). clear HW.
  destruct (only_whole_reps t).
  { destruct (How eq_refl) as [-> [-> ->]]. split; [discriminate|].
    intros [H|[(? & ? & ? & [] & _)|[(? & ? & ? & [] & _)|(? & ? & ? & ? & [] & _)]]]. contradiction. }
  destruct (rep_start_loop_spec (start_reps t) w) as [S1 S2].
  destruct (fst (rep_start_loop k (start_reps t) w w)).
  { split; [|reflexivity]. intros _. right. left. apply S1. reflexivity. }
  rewrite (S2 eq_refl). destruct (rep_end_loop_spec (end_reps t) w) as [E1 E2].
  destruct (fst (rep_end_loop k (end_reps t) w w)).
  { split; [|reflexivity]. intros _. right. right. left. apply E1. reflexivity. }
  rewrite (E2 eq_refl). rewrite (rep_any_loop_spec (any_reps t) w Hne). split; [tauto|].
  intros [H|[H|[H|H]]]; [contradiction|apply S1 in H; discriminate|apply E1 in H; discriminate|exact H].
Qed.
End Loops.
