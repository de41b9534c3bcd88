(** What [suggest_low] proposes, and when it returns. *)
From Coq Require Import List NArith ZArith Lia Bool Arith Permutation.
From Coq Require Import ZifyBool ZifyNat ZifyN.
From Verif Require Import Base Utf8 Unicode Flags Affix Conversion Aff Checker Bag AffixSpec Rep CompoundSpec CompoundTotal
  CheckSpec CheckMono CheckProps BufferOps Ngram Suggester SuggestSpec SuggestLow SuggestMono Dedup.
Import ListNotations.
Set Implicit Arguments.

(** [r] has exactly the elements of [l] with the property, in order. *)
Inductive Selects (P : str -> Prop) : list str -> list str -> Prop :=
| Selects_nil : Selects P [] []
| Selects_keep : forall x l r, P x -> Selects P l r -> Selects P (x :: l) (x :: r)
| Selects_drop : forall x l r, ~ P x -> Selects P l r -> Selects P (x :: l) r.

Lemma Selects_In : forall P l r x, Selects P l r -> (In x r <-> In x l /\ P x).
Proof.
  intros P l r x H. induction H as [|y l r Hy H IH|y l r Hy H IH]; cbn [In].
  - tauto.
  - rewrite IH. split; [intros [->|[H1 H2]]; auto|]. intros [[->|H1] H2]; auto.
  - rewrite IH. split; [tauto|]. intros [[->|H1] H2]; [contradiction|auto].
Qed.
Lemma Selects_det : forall P l a b, Selects P l a -> Selects P l b -> a = b.
Proof.
  intros P l a b H. revert b. induction H as [|y l r Hy H IH|y l r Hy H IH]; intros b Hb; inversion Hb; subst; try contradiction; auto.
  f_equal. auto.
Qed.
Lemma Selects_app : forall P a b ra rb, Selects P a ra -> Selects P b rb -> Selects P (a ++ b) (ra ++ rb).
Proof. intros P a b ra rb H Hb. induction H; cbn [app]; [exact Hb| |]; constructor; auto. Qed.
Lemma keepR_selects : forall f (P : str -> Prop) l r, (forall x b, In x l -> f x = Ret b -> (b = true <-> P x)) ->
  keepR f l = Ret r -> Selects P l r.
Proof.
  intros f P. induction l as [|x l IH]; intros r H E; cbn [keepR] in E; [inversion E; constructor|].
  destruct (f x) as [b| |] eqn:F; try discriminate. cbn [bindR] in E.
  destruct (keepR f l) as [r'| |]; try discriminate. cbn [bindR] in E. inversion E; subst r.
  pose proof (H x b (or_introl eq_refl) F) as HP.
  assert (HS : Selects P l r') by (apply IH; [intros; apply H; [right; assumption|assumption]|reflexivity]).
  destruct b; constructor; try assumption; [apply HP; reflexivity|].
  intros HX. apply HP in HX. discriminate.
Qed.
Lemma keepR_eventually : forall (f : nat -> str -> Res bool) l,
  (forall x, In x l -> exists b, Eventually (fun n => f n x) (Ret b)) -> exists r, Eventually (fun n => keepR (f n) l) (Ret r).
Proof.
  intros f. induction l as [|x l IH]; intros H.
  - exists []. exists 0. reflexivity.
  - destruct (H x (or_introl eq_refl)) as [b [n1 Hb]]. destruct IH as [r [n2 Hr]]; [intros; apply H; right; assumption|].
    exists (if b then x :: r else r). exists (Nat.max n1 n2). intros fuel Hf. cbn [keepR].
    rewrite Hb, Hr by lia. reflexivity.
Qed.

Lemma In_firstn : forall A (x : A) l n, In x (firstn n l) -> In x l.
Proof. intros A x l n H. rewrite <- (firstn_skipn n l). apply in_app_iff. left. exact H. Qed.
Lemma In_skipn : forall A (x : A) l n, In x (skipn n l) -> In x l.
Proof. intros A x l n H. rewrite <- (firstn_skipn n l). apply in_app_iff. right. exact H. Qed.

Section Props.
Variable sg : suggester.
Notation k := (su_checker sg).
Notation aff := (ck_aff (su_checker sg)).
Notation opts := (ad_options (ck_aff (su_checker sg))).
Notation U := (ck_u (su_checker sg)).
Notation case := (o_case (ad_options (ck_aff (su_checker sg)))).

(** The checker finds the word, without its hidden forms. *)
Definition Knows (w : str) : Prop :=
  exists n f, check_word k n w ForbidBadForceucase SkipHiddenHomonym = Ret (Some f).
(** It finds it and neither forbids it nor, with FORBIDWARN, warns of it. *)
Definition Fit (w : str) : Prop := exists n, fit sg n w = Ret true.
(** All space-separated parts but the last are known. *)
Inductive Leading : str -> Prop :=
| Leading_last : forall w, ~ In 32%N w -> Leading w
| Leading_more : forall u v, ~ In 32%N u -> Knows u -> Leading v -> Leading (u ++ 32%N :: v).
Definition RepFit (w : str) : Prop := Fit w \/ (In 32%N w /\ Leading w).

Lemma cw_det : forall n1 n2 w fu hh a b, check_word k n1 w fu hh = Ret a -> check_word k n2 w fu hh = Ret b -> a = b.
Proof.
  intros n1 n2 w fu hh a b H1 H2. destruct (Nat.le_ge_cases n1 n2) as [L|L].
  - pose proof (@cw_mono sg n1 n2 L w fu hh) as [E|E]; congruence.
  - pose proof (@cw_mono sg n2 n1 L w fu hh) as [E|E]; congruence.
Qed.
Lemma fit_det : forall n1 n2 w a b, fit sg n1 w = Ret a -> fit sg n2 w = Ret b -> a = b.
Proof.
  intros n1 n2 w a b H1 H2. unfold fit in *.
  destruct (check_word k n1 w ForbidBadForceucase SkipHiddenHomonym) as [r1| |] eqn:E1; try discriminate.
  destruct (check_word k n2 w ForbidBadForceucase SkipHiddenHomonym) as [r2| |] eqn:E2; try discriminate.
  pose proof (cw_det _ _ _ _ _ E1 E2). subst r2. cbn [bindR] in *. congruence.
Qed.
Lemma fit_iff : forall n w b, fit sg n w = Ret b -> (b = true <-> Fit w).
Proof.
  intros n w b H. split; [intros ->; exists n; exact H|]. intros [m Hm]. exact (fit_det _ _ _ H Hm).
Qed.
Lemma no_space : forall w, forallb (fun x => negb (32 =? x)%N) w = true <-> ~ In 32%N w.
Proof.
  intros w. rewrite forallb_forall. split.
  - intros H I. specialize (H _ I). discriminate.
  - intros H x I. destruct (N.eqb_spec 32 x) as [<-|]; [contradiction|reflexivity].
Qed.
Lemma leading_split : forall u v, ~ In 32%N u -> Leading (u ++ 32%N :: v) -> Knows u /\ Leading v.
Proof.
  intros u v Hu H. inversion H as [w Hw E|u' v' Hu' HK HL E].
  - exfalso. apply Hw. apply in_app_iff. right. left. reflexivity.
  - assert (u = u' /\ v = v') as [-> ->]; [|split; assumption].
    clear H HK HL. revert u' Hu' E. induction u as [|c u IH]; intros u' Hu' E.
    + destruct u' as [|c' u']; inversion E; [auto|]. subst. exfalso. apply Hu'. left. reflexivity.
    + destruct u' as [|c' u']; inversion E; subst; [exfalso; apply Hu; left; reflexivity|].
      destruct (IH (fun X => Hu (or_intror X)) u' (fun X => Hu' (or_intror X)) H1) as [-> ->]. auto.
Qed.
Lemma parts_iff : forall fuel n w b, rep_parts sg fuel n w = Ret b -> (b = true <-> Leading w).
Proof.
  intros fuel. induction n as [|n IH]; intros w b H; [discriminate|]. cbn [rep_parts] in H.
  destruct (find_char (N.eqb 32) w) as [j|] eqn:F.
  - apply find_char_some in F. destruct F as (u & c & v & -> & Lu & Hc & Hu). apply N.eqb_eq in Hc. subst c j.
    rewrite firstn_app_exact in H by reflexivity. apply no_space in Hu.
    replace (skipn (S (length u)) (u ++ 32%N :: v)) with v in H.
    2: { replace (u ++ 32%N :: v) with ((u ++ [32%N]) ++ v) by (rewrite <- app_assoc; reflexivity).
         symmetry. apply skipn_app_exact. rewrite app_length. cbn. lia. }
    destruct (check_word k fuel u ForbidBadForceucase SkipHiddenHomonym) as [[f|]| |] eqn:C; try discriminate; cbn [bindR] in H.
    + apply IH in H. rewrite H. split; intros X.
      * constructor; [exact Hu|exists fuel, f; exact C|exact X].
      * apply leading_split in X; [apply X|exact Hu].
    + inversion H; subst b. split; [discriminate|]. intros X. apply leading_split in X; [|exact Hu].
      destruct X as [(n' & f & Hf) _]. pose proof (cw_det _ _ _ _ _ C Hf). discriminate.
  - apply find_char_none in F. inversion H; subst b. split; [|reflexivity]. intros _. apply Leading_last, no_space, F.
Qed.
Lemma rep_fit_iff : forall n w b, rep_fit sg n w = Ret b -> (b = true <-> RepFit w).
Proof.
  intros n w b H. unfold rep_fit in H. destruct (fit sg n w) as [g| |] eqn:F; try discriminate. cbn [bindR] in H.
  pose proof (fit_iff _ _ F) as FI. unfold RepFit. destruct g.
  - inversion H; subst b. split; [|reflexivity]. intros _. left. apply FI. reflexivity.
  - assert (NF : ~ Fit w) by (intros X; apply FI in X; discriminate).
    destruct (find_char (N.eqb 32) w) as [j|] eqn:E.
    + apply parts_iff in H. rewrite H. split; [|tauto]. intros X. right. split; [|exact X].
      apply find_char_some in E. destruct E as (u & c & v & -> & _ & Hc & _). apply N.eqb_eq in Hc. subst c.
      apply in_app_iff. right. left. reflexivity.
    + inversion H; subst b. apply find_char_none in E. apply no_space in E. split; [discriminate|]. tauto.
Qed.

(** What [suggest_low] proposes for a word. *)
Definition Low (w : str) (l : list str) : Prop :=
  exists l1 l2 l3 l4, l = l1 ++ l2 ++ l3 ++ l4 ++ two_word_forms sg w /\
    Selects Fit [uppercase U case w] l1 /\
    Selects RepFit (rep_forms (ad_reps aff) w) l2 /\
    Selects Fit (firstn (budget sg w) (map_forms (ad_sims aff) w)) l3 /\
    Selects Fit (edits sg w w) l4.
Theorem Low_det : forall w a b, Low w a -> Low w b -> a = b.
Proof.
  intros w a b (a1 & a2 & a3 & a4 & -> & A1 & A2 & A3 & A4) (b1 & b2 & b3 & b4 & -> & B1 & B2 & B3 & B4).
  rewrite (Selects_det A1 B1), (Selects_det A2 B2), (Selects_det A3 B3), (Selects_det A4 B4). reflexivity.
Qed.

Hypothesis WR : wf_reps (ad_reps aff).
Hypothesis WG : Forall wf_sim (ad_sims aff).

Lemma low_workable : forall n w out r, suggest_low sg n w out = Ret r ->
  w <> [] \/ (su_debug sg = false /\ allows_compounding opts = false).
Proof.
  intros n w out r H. destruct w as [|c w]; [right|left; discriminate].
  unfold suggest_low in H.
  destruct (uppercase_suggest sg n [] out) as [o1| |]; try discriminate. cbn [bindR] in H.
  destruct (rep_suggest sg n [] o1) as [o2| |]; try discriminate. cbn [bindR] in H.
  destruct (map_suggest sg n [] o2) as [o3| |] eqn:EM; try discriminate. cbn [bindR] in H.
  split.
  2: { unfold map_suggest, max_attempts in EM. destruct (allows_compounding opts); [discriminate|reflexivity]. }
  match type of H with bindR ?x _ = _ => destruct x as [q| |]; try discriminate end. cbn [bindR] in H.
  unfold adjacent_swap_suggest, debug_assert in H. destruct (su_debug sg); [discriminate|reflexivity].
Qed.
Theorem low_sound : forall n w out hq r, scalars w ->
  suggest_low sg n w out = Ret (hq, r) -> exists l, r = out ++ l /\ Low w l.
Proof.
  intros n w out hq r Hw H. pose proof (low_workable _ _ _ H) as Hn.
  assert (H' : suggest_low sg (n + S (length w)) w out = Ret (hq, r)).
  { pose proof (@low_mono sg n (n + S (length w)) ltac:(lia) w out) as [E|E]; congruence. }
  rewrite suggest_low_is in H' by (try assumption; lia). clear H. revert H'. set (m := n + S (length w)). intros H.
  destruct (keepR (fit sg m) [uppercase U case w]) as [l1| |] eqn:E1; try discriminate. cbn [bindR] in H.
  destruct (keepR (rep_fit sg m) (rep_forms (ad_reps aff) w)) as [l2| |] eqn:E2; try discriminate. cbn [bindR] in H.
  destruct (keepR (fit sg m) (firstn (budget sg w) (map_forms (ad_sims aff) w))) as [l3| |] eqn:E3; try discriminate.
  cbn [bindR] in H. destruct (high_quality sg m w (nonempty (l1 ++ l2 ++ l3))) as [q| |] eqn:E5; try discriminate. cbn [bindR] in H.
  destruct (keepR (fit sg m) (edits sg w w)) as [l4| |] eqn:E4; try discriminate. cbn [bindR] in H.
  inversion H; subst. eexists. split; [reflexivity|]. exists l1, l2, l3, l4. split; [reflexivity|].
  repeat split; (eapply keepR_selects; [|eassumption]); intros x b _ Hb; eapply fit_iff || eapply rep_fit_iff; exact Hb.
Qed.

(** ** Every candidate is a string *)
Hypothesis WU : wf_unicode U.
Hypothesis WRS : Forall (fun e => scalars (fst e) /\ scalars (snd e)) (rp_table (ad_reps aff)).
Hypothesis WT : scalars (ad_try aff).
Hypothesis WK : scalars (ad_keyboard aff).

Lemma scalars_cons_iff : forall c w, scalars (c :: w) <-> scalar c /\ scalars w.
Proof. intros c w. split; [intros H; inversion H; auto|intros [A B]; constructor; assumption]. Qed.
Ltac sc := rewrite ?scalars_app_iff, ?scalars_cons_iff, ?scalars_app_iff, ?scalars_cons_iff, ?scalars_app_iff, ?scalars_cons_iff,
  ?scalars_app_iff, ?scalars_cons_iff in *; try tauto.
Lemma scalars_of_In : forall c w, scalars w -> In c w -> scalar c.
Proof. intros c w H. apply (proj1 (Forall_forall _ _) H). Qed.

Lemma rep_table_In : forall e,
  In e (whole_reps (ad_reps aff)) \/ In e (start_reps (ad_reps aff)) \/ In e (end_reps (ad_reps aff)) \/ In e (any_reps (ad_reps aff)) ->
  In e (rp_table (ad_reps aff)).
Proof.
  intros e H. unfold whole_reps, start_reps, end_reps, any_reps, slice in H.
  destruct H as [H|[H|[H|H]]]; repeat (apply In_skipn in H || apply In_firstn in H); exact H.
Qed.
Lemma rep_forms_scalars : forall w x, scalars w -> In x (rep_forms (ad_reps aff) w) -> scalars x.
Proof.
  intros w x Hw H. apply rep_forms_In in H; [|exact WR].
  assert (G : forall from to, In (from, to) (rp_table (ad_reps aff)) -> scalars from /\ scalars to).
  { intros from to I. exact (proj1 (Forall_forall _ _) WRS _ I). }
  destruct H as [(from & to & I & -> & E)|[(from & to & r & I & -> & E)|[(from & to & r & I & -> & E)|(from & to & u & v & I & O & E)]]]; subst x.
  - destruct (G from to) as [_ T]; [apply rep_table_In; auto|exact T].
  - destruct (G from to) as [_ T]; [apply rep_table_In; auto|]. sc.
  - destruct (G from to) as [_ T]; [apply rep_table_In; auto|]. sc.
  - destruct (G from to) as [_ T]; [apply rep_table_In; auto|]. apply Occ_app in O. subst w. sc.
Qed.
Lemma exchange_scalars : forall g x y, wf_sim g -> Exchange g x y -> scalars y.
Proof.
  intros g x y [W1 W2] H. assert (G : forall s, In s (sg_strings g) -> scalars s).
  { intros s I. apply (proj1 (Forall_forall _ _) W2 _ I). }
  destruct H as [c d _ I _|c s _ I|s c _ I|p q s t _ I _].
  - constructor; [exact (scalars_of_In _ W1 I)|constructor].
  - apply G, I.
  - constructor; [exact (scalars_of_In _ W1 I)|constructor].
  - apply G. eapply nth_error_In, I.
Qed.
Lemma map_form_scalars : forall gs w x, Forall wf_sim gs -> MapForm gs w x -> scalars w -> scalars x.
Proof.
  intros gs w x W H. induction H as [g m x y v I E|g m x y v v' I E H IH]; intros S0;
    pose proof (exchange_scalars (proj1 (Forall_forall _ _) W _ I) E) as Y; sc.
Qed.
Lemma map_forms_scalars : forall w x, scalars w -> In x (map_forms (ad_sims aff) w) -> scalars x.
Proof. intros w x Hw H. apply map_forms_sound in H; [|exact WG]. exact (map_form_scalars WG H Hw). Qed.
Lemma edits_scalars : forall w x, scalars w -> In x (edits sg w w) -> scalars x.
Proof.
  intros w x Hw H. unfold edits in H. rewrite !in_app_iff in H.
  destruct H as [[H|H]|[H|[H|[H|[H|[H|[H|H]]]]]]].
  - apply adjacent_swaps_In in H. destruct H as (u & a & b & v & -> & ->). sc.
  - destruct w as [|a [|b [|c [|d0 [|e [|f w]]]]]]; cbn in H; try contradiction.
    + destruct H as [<-|[]]. sc.
    + destruct H as [<-|[<-|[]]]; sc.
  - apply In_firstn, swaps_In in H. destruct H as (u & a & m & b & v & -> & ->). sc.
  - apply key_slips_In in H. destruct H as (u & c & v & -> & [[_ ->]|(y & I & ->)]); sc.
    + repeat split; try tauto. apply (proj2 WU). tauto.
    + apply neighbours_In in I. destruct I as [_ [(u' & v' & E)|(u' & v' & E)]]; rewrite E in WK; sc.
  - apply deletions_In in H. destruct H as (u & c & v & -> & ->). sc.
  - apply In_firstn, insertions_In in H. destruct H as (c & u & v & I & -> & ->). pose proof (scalars_of_In _ WT I). sc.
  - apply In_firstn, in_app_iff in H. destruct H as [H|H].
    + apply moves_right_In in H. destruct H as (u & a & m & v & _ & -> & ->). sc.
    + apply moves_left_In in H. destruct H as (u & m & a & v & _ & -> & ->). sc.
  - apply In_firstn, replacements_In in H. destruct H as (c & u & a & v & I & _ & -> & ->). pose proof (scalars_of_In _ WT I). sc.
  - apply doublings_In in H. destruct H as (u & a & b & z & v & -> & ->). sc.
Qed.
Lemma two_word_In : forall w x, In x (two_word_forms sg w) ->
  exists u c v, w = u ++ c :: v /\ simple sg u = true /\ simple sg (c :: v) = true /\
    (x = u ++ 32%N :: c :: v \/ (x = u ++ 45%N :: c :: v /\ 1 < length u /\ v <> [])).
Proof.
  intros w x H. unfold two_word_forms in H. destruct (o_no_split_sugs opts); [destruct H|].
  apply in_flat_map in H. destruct H as [[[u c] v] [I H]]. apply splits_In in I. exists u, c, v. split; [exact I|].
  destruct (simple sg u && simple sg (c :: v)) eqn:E; [|destruct H]. apply andb_true_iff in E. destruct E as [E1 E2].
  split; [exact E1|]. split; [exact E2|]. destruct H as [<-|H]; [left; reflexivity|].
  destruct ((1 <? length u)%nat && (0 <? length v)%nat && _) eqn:E; [|destruct H].
  apply andb_true_iff in E. destruct E as [E _]. apply andb_true_iff in E. destruct E as [A B].
  destruct H as [<-|[]]. right. split; [reflexivity|]. apply Nat.ltb_lt in A, B. split; [exact A|]. intros ->. cbn in B. lia.
Qed.
Theorem low_scalars : forall w l, scalars w -> Low w l -> Forall scalars l.
Proof.
  intros w l Hw (l1 & l2 & l3 & l4 & -> & A1 & A2 & A3 & A4). apply Forall_forall. intros x H.
  rewrite !in_app_iff in H. destruct H as [H|[H|[H|[H|H]]]].
  - apply (Selects_In _ A1) in H. destruct H as [[<-|[]] _]. apply scalars_upper; assumption.
  - apply (Selects_In _ A2) in H. eapply rep_forms_scalars; [exact Hw|apply H].
  - apply (Selects_In _ A3) in H. eapply map_forms_scalars; [exact Hw|]. eapply In_firstn. apply H.
  - apply (Selects_In _ A4) in H. eapply edits_scalars; [exact Hw|apply H].
  - apply two_word_In in H. destruct H as (u & c & v & -> & _ & _ & H).
    assert (scalar 32%N) by reflexivity. assert (scalar 45%N) by reflexivity.
    destruct H as [->|[-> _]]; sc.
Qed.
Lemma low_nonempty : forall w l, ~ Fit [] -> Low w l -> Forall (fun x => x <> []) l.
Proof.
  intros w l NF (l1 & l2 & l3 & l4 & -> & A1 & A2 & A3 & A4). apply Forall_forall. intros x H E. subst x.
  rewrite !in_app_iff in H. destruct H as [H|[H|[H|[H|H]]]].
  - apply (Selects_In _ A1) in H. apply NF, H.
  - apply (Selects_In _ A2) in H. destruct H as [_ [F|[[] _]]]. apply NF, F.
  - apply (Selects_In _ A3) in H. apply NF, H.
  - apply (Selects_In _ A4) in H. apply NF, H.
  - apply two_word_In in H. destruct H as (u & c & v & _ & _ & _ & H).
    destruct H as [H|[H _]]; destruct u; discriminate.
Qed.

(** ** The strategies return *)
Hypothesis WFF : wf_full k.
Hypothesis PLAIN : ck_lower_as_title k = false /\ ck_lower_as_upper k = false.
Hypothesis STRICT : strict k = true.

Lemma cw_total : forall w fu hh, scalars w -> exists r, Eventually (fun n => check_word k n w fu hh) (Ret r).
Proof.
  intros w fu hh Hw. pose proof (@check_word_converges k WFF w fu hh Hw) as C. rewrite STRICT in C. apply converges_true in C. exact C.
Qed.
Lemma ck_total : forall w, scalars w -> exists r, Eventually (fun n => check k n w) (Ret r).
Proof.
  intros w Hw. pose proof (@check_converges k WFF PLAIN w Hw) as C. rewrite STRICT in C. apply converges_true in C. exact C.
Qed.
Lemma fit_total : forall w, scalars w -> exists b, Eventually (fun n => fit sg n w) (Ret b).
Proof.
  intros w Hw. destruct (@cw_total w ForbidBadForceucase SkipHiddenHomonym Hw) as [r [n E]].
  eexists. exists n. intros fuel Hf. unfold fit. rewrite E by exact Hf. reflexivity.
Qed.
Lemma parts_total : forall m w, length w < m -> scalars w -> exists b, Eventually (fun n => rep_parts sg n m w) (Ret b).
Proof.
  induction m as [|m IH]; intros w L Hw; [lia|].
  destruct (find_char (N.eqb 32) w) as [j|] eqn:F.
  - pose proof F as F'. apply find_char_some in F'. destruct F' as (u & c & v & E & Lu & Hc & _). subst j.
    assert (S1 : firstn (length u) w = u) by (subst w; apply firstn_app_exact; reflexivity).
    assert (S2 : skipn (S (length u)) w = v).
    { subst w. replace (u ++ c :: v) with ((u ++ [c]) ++ v) by (rewrite <- app_assoc; reflexivity).
      apply skipn_app_exact. rewrite app_length. cbn. lia. }
    assert (HS : scalars u /\ scalars v) by (subst w; sc).
    destruct (@cw_total u ForbidBadForceucase SkipHiddenHomonym (proj1 HS)) as [r [n E1]].
    destruct (IH v) as [b [n2 E2]]; [subst w; rewrite app_length in L; cbn [length] in L; lia|apply HS|].
    exists (match r with Some _ => b | None => false end). exists (n + n2). intros fuel Hf. cbn [rep_parts]. rewrite F, S1, S2, E1 by lia.
    cbn [bindR]. destruct r; [apply E2; lia|reflexivity].
  - exists true. exists 0. intros fuel _. cbn [rep_parts]. rewrite F. reflexivity.
Qed.
Lemma rep_fit_total : forall w, scalars w -> exists b, Eventually (fun n => rep_fit sg n w) (Ret b).
Proof.
  intros w Hw. destruct (fit_total Hw) as [b [n E]]. destruct (@parts_total (S (length w)) w (Nat.lt_succ_diag_r _) Hw) as [b2 [n2 E2]].
  exists (if b then true else match find_char (N.eqb 32) w with None => false | Some _ => b2 end). exists (n + n2).
  intros fuel Hf. unfold rep_fit. rewrite E by lia. cbn [bindR]. destruct b; [reflexivity|].
  destruct (find_char (N.eqb 32) w); [apply E2; lia|reflexivity].
Qed.
Theorem low_total : forall w, scalars w -> w <> [] -> exists hq l, Low w l /\
  forall out, Eventually (fun n => suggest_low sg n w out) (Ret (hq, out ++ l)).
Proof.
  intros w Hw Hn.
  destruct (@keepR_eventually (fit sg) [uppercase U case w]) as [l1 [n1 E1]].
  { intros x [<-|[]]. apply fit_total, scalars_upper; assumption. }
  destruct (@keepR_eventually (rep_fit sg) (rep_forms (ad_reps aff) w)) as [l2 [n2 E2]].
  { intros x I. apply rep_fit_total. eapply rep_forms_scalars; eassumption. }
  destruct (@keepR_eventually (fit sg) (firstn (budget sg w) (map_forms (ad_sims aff) w))) as [l3 [n3 E3]].
  { intros x I. apply fit_total. eapply map_forms_scalars; [eassumption|]. eapply In_firstn, I. }
  destruct (@keepR_eventually (fit sg) (edits sg w w)) as [l4 [n4 E4]].
  { intros x I. apply fit_total. eapply edits_scalars; eassumption. }
  destruct (@cw_total w AllowBadForceucase SkipHiddenHomonym Hw) as [r [n5 E5]].
  set (hq := if nonempty (l1 ++ l2 ++ l3) then true else if nonempty (ad_sims aff) then is_someb r else false).
  exists hq, (l1 ++ l2 ++ l3 ++ l4 ++ two_word_forms sg w).
  assert (EV : forall out, Eventually (fun n => suggest_low sg n w out) (Ret (hq, out ++ l1 ++ l2 ++ l3 ++ l4 ++ two_word_forms sg w))).
  { intros out. exists (S (length w) + n1 + n2 + n3 + n4 + n5). intros fuel Hf.
    rewrite suggest_low_is by (try (left; assumption); try assumption; lia). rewrite E1, E2, E3 by lia. cbn [bindR].
    unfold high_quality. rewrite E4, E5 by lia. unfold hq. destruct (nonempty (l1 ++ l2 ++ l3)); [reflexivity|].
    destruct (nonempty (ad_sims aff)); reflexivity. }
  split; [|exact EV]. destruct (EV []) as [n E]. specialize (E n (le_n _)).
  destruct (@low_sound n w [] hq _ Hw E) as [l [EL L]]. cbn [app] in EL. rewrite EL. exact L.
Qed.
End Props.
