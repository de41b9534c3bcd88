(** When [suggest] returns. *)
From Coq Require Import List NArith ZArith Lia Bool Arith Permutation.
From Coq Require Import ZifyBool ZifyNat ZifyN.
From Verif Require Import Base Utf8 Unicode Flags Affix Conversion Aff Checker Bag AffixSpec Rep CompoundSpec CompoundTotal
  CheckSpec CheckMono CheckProps BufferOps Ngram Suggester SuggestSpec SuggestLow SuggestMono Dedup SuggestProps.
Import ListNotations.
Set Implicit Arguments.

(** No character maps to nothing. *)
Definition case_total (U : unicode) : Prop :=
  forall c, scalar c -> u_upper U c <> [] /\ u_lower U c <> [].
Definition okstr (s : str) : Prop := scalars s /\ s <> [].

Section Case.
Variable U : unicode.
Hypothesis WU : wf_unicode U.
Hypothesis CT : case_total U.
Variable h : case_handling.

Lemma flat_map_nonempty : forall (f : N -> str) c w, f c <> [] -> flat_map f (c :: w) <> [].
Proof. intros f c w H E. cbn in E. apply app_eq_nil in E. tauto. Qed.
Lemma okstr_upper : forall w, okstr w -> okstr (uppercase U h w).
Proof.
  intros w [Hs Hn]. split; [apply scalars_upper; assumption|]. destruct w as [|c w]; [contradiction|].
  inversion Hs; subst. destruct h; cbn [uppercase]; unfold str_upper, replace_char; cbn [map]; apply flat_map_nonempty, CT; [|assumption].
  destruct (N.eqb_spec c ch_i); [reflexivity|]. destruct (N.eqb_spec c ch_dotless_i); [reflexivity|assumption].
Qed.
Lemma lower_go_nonempty : forall b c w, scalar c -> lower_go U b (c :: w) <> [].
Proof.
  intros b c w Hc E. cbn [lower_go] in E. apply app_eq_nil in E. destruct E as [E _].
  destruct (c =? ch_Sigma)%N; [destruct (_ && _) in E; discriminate|]. exact (proj2 (CT Hc) E).
Qed.
Lemma okstr_lower : forall w, okstr w -> okstr (lowercase U h w).
Proof.
  intros w [Hs Hn]. split; [apply scalars_lower; assumption|]. destruct w as [|c w]; [contradiction|].
  inversion Hs; subst. destruct h; cbn [lowercase]; unfold str_lower, replace_char; cbn [map]; apply lower_go_nonempty; [|assumption].
  destruct (N.eqb_spec c ch_I); [reflexivity|]. destruct (N.eqb_spec c ch_dotted_I); [reflexivity|assumption].
Qed.
Lemma upper_char_nonempty : forall c, scalar c -> upper_char U h c <> [].
Proof.
  intros c Hc. unfold upper_char. destruct h; [|apply CT, Hc].
  repeat match goal with |- (if ?b then _ else _) <> [] => destruct b end; try discriminate. apply CT, Hc.
Qed.
Lemma lower_char_nonempty : forall c, scalar c -> lower_char U h c <> [].
Proof.
  intros c Hc. unfold lower_char. destruct h; [|apply CT, Hc].
  repeat match goal with |- (if ?b then _ else _) <> [] => destruct b end; try discriminate. apply CT, Hc.
Qed.
Lemma okstr_title : forall w, okstr w -> exists t, titlecase U h w = Ret t /\ okstr t.
Proof.
  intros [|c w] [Hs Hn]; [contradiction|]. inversion Hs; subst. eexists. split; [reflexivity|]. split.
  - apply scalars_app_iff. split; [apply scalars_upper_char; assumption|].
    apply scalars_flat_map; [intros; apply scalars_lower_char; assumption|assumption].
  - intros E. apply app_eq_nil in E. destruct E as [E _]. revert E. apply upper_char_nonempty. assumption.
Qed.
Lemma okstr_lower_first : forall w, okstr w -> exists t, lower_first_char U h w = Ret t /\ okstr t.
Proof.
  intros [|c w] [Hs Hn]; [contradiction|]. inversion Hs; subst. eexists. split; [reflexivity|]. split.
  - apply scalars_app_iff. split; [apply scalars_lower_char; assumption|assumption].
  - intros E. apply app_eq_nil in E. destruct E as [E _]. revert E. apply lower_char_nonempty. assumption.
Qed.
Lemma okstr_upper_at : forall w u c v, okstr w -> w = u ++ c :: v -> exists t, upper_char_at U h w (length u) = Ret t /\ okstr t.
Proof.
  intros w u c v [Hs Hn] ->. unfold upper_char_at. rewrite skipn_app_exact, firstn_app_exact by reflexivity.
  eexists. split; [reflexivity|]. apply scalars_app_iff in Hs. destruct Hs as [H1 H2]. inversion H2; subst. split.
  - apply scalars_app_iff. split; [exact H1|]. apply scalars_app_iff. split; [apply scalars_upper_char; assumption|assumption].
  - intros E. apply app_eq_nil in E. destruct E as [_ E]. apply app_eq_nil in E. destruct E as [E _]. revert E.
    apply upper_char_nonempty. assumption.
Qed.
End Case.

Lemma foldR_eventually : forall S A (f : nat -> S -> A -> Res S) (I : S -> Prop) (l : list A),
  (forall s a, I s -> In a l -> exists s', Eventually (fun n => f n s a) (Ret s') /\ I s') ->
  forall s, I s -> exists s', Eventually (fun n => foldR (f n) l s) (Ret s') /\ I s'.
Proof.
  intros S A f I. induction l as [|a l IH]; intros H s Hs.
  - exists s. split; [exists 0; reflexivity|exact Hs].
  - destruct (H s a Hs (or_introl eq_refl)) as (s1 & E1 & I1).
    destruct (IH (fun s a Hs Ha => H s a Hs (or_intror Ha)) s1 I1) as (s2 & E2 & I2).
    exists s2. split; [|exact I2]. apply (@eventually_bind _ _ (fun n => f n s a) s1 (fun x n => foldR (f n) l x)); assumption.
Qed.
Lemma mapR_total : forall A B (f : A -> Res B) (P : A -> Prop) (Q : B -> Prop) l,
  (forall a, P a -> exists b, f a = Ret b /\ Q b) -> Forall P l -> exists r, mapR f l = Ret r /\ Forall Q r.
Proof.
  intros A B f P Q l H. induction 1 as [|a l Ha Hl IH]; [exists []; split; [reflexivity|constructor]|].
  destruct (H a Ha) as (b & E & Hb). destruct IH as (r & Er & Hr). exists (b :: r). cbn [mapR]. rewrite E. cbn [bindR]. rewrite Er.
  split; [reflexivity|constructor; assumption].
Qed.
Lemma ret_eventually : forall X (r : Res X) x, r = Ret x -> Eventually (fun _ => r) (Ret x).
Proof. intros X r x ->. apply eventually_const. Qed.

Section Total.
Variable sg : suggester.
Notation k := (su_checker sg).
Notation aff := (ck_aff (su_checker sg)).
Notation opts := (ad_options (ck_aff (su_checker sg))).
Notation U := (ck_u (su_checker sg)).
Notation case := (o_case (ad_options (ck_aff (su_checker sg)))).

Hypothesis WR : wf_reps (ad_reps aff).
Hypothesis WG : Forall wf_sim (ad_sims aff).
Hypothesis WRS : Forall (fun e => scalars (fst e) /\ scalars (snd e)) (rp_table (ad_reps aff)).
Hypothesis WT : scalars (ad_try aff).
Hypothesis WK : scalars (ad_keyboard aff).
Hypothesis WFF : wf_full k.
Hypothesis PLAIN : ck_lower_as_title k = false /\ ck_lower_as_upper k = false.
Hypothesis STRICT : strict k = true.
Hypothesis WO : conv_table_ok (ad_oconv aff).
Hypothesis WOS : Forall (fun c => scalars (cv_to c)) (ct_inner (ad_oconv aff)).
Hypothesis CT : case_total U.
Hypothesis NE : ~ Fit sg [].
Hypothesis TAME : Forall (fun c => cv_to c <> [] /\ ~ In 45%N (cv_to c)) (ct_inner (ad_iconv aff)).
Let WU : wf_unicode U := wff_unicode WFF.

Lemma low_ok : forall w, okstr w -> exists hq l, Low sg w l /\ Forall okstr l /\
  forall out, Eventually (fun n => suggest_low sg n w out) (Ret (hq, out ++ l)).
Proof.
  intros w [Hs Hn]. destruct (@low_total sg WR WG WU WRS WT WK WFF PLAIN STRICT w Hs Hn) as (hq & l & L & E).
  exists hq, l. split; [exact L|]. split; [|exact E].
  pose proof (@low_scalars sg WR WG WU WRS WT WK w l Hs L) as A. pose proof (low_nonempty NE L) as B.
  apply Forall_forall. intros x I. split; [exact (proj1 (Forall_forall _ _) A x I)|exact (proj1 (Forall_forall _ _) B x I)].
Qed.
Lemma check_total : forall w, scalars w -> exists r, Eventually (fun n => check k n w) (Ret r).
Proof. apply ck_total; assumption. Qed.

Lemma low_and_first_ok : forall w hq out, okstr w -> Forall okstr out ->
  exists hq' out', Eventually (fun n => low_and_first sg n w (hq, out)) (Ret (hq', out')) /\ Forall okstr out'.
Proof.
  intros w hq out Hw Ho. destruct (low_ok Hw) as (q & l & _ & OL & E). destruct (check_total (proj1 Hw)) as [b Eb].
  exists (hq || q), (if b then w :: out ++ l else out ++ l). split.
  - destruct (E out) as [n1 E1]. destruct Eb as [n2 E2]. exists (n1 + n2). intros n Hn. unfold low_and_first. rewrite E1, E2 by lia. reflexivity.
  - destruct b; [constructor; [exact Hw|]|]; apply Forall_app; split; assumption.
Qed.

Lemma fix_space_ok : forall w out i, Forall okstr out -> i < length out ->
  exists out', fix_space sg w out i = Ret out' /\ Forall okstr out' /\ length out' = length out.
Proof.
  intros w out i Ho Hi. unfold fix_space. destruct (nth_error out i) as [s|] eqn:E; [|apply nth_error_None in E; lia].
  assert (Hs : okstr s) by (apply (proj1 (Forall_forall _ _) Ho); eapply nth_error_In, E).
  destruct (find_char (N.eqb 32) s) as [j|] eqn:F; [|exists out; auto].
  apply find_char_some in F. destruct F as (u & c & v & Es & <- & _ & _).
  assert (SK : skipn (S (length u)) s = v).
  { subst s. replace (u ++ c :: v) with ((u ++ [c]) ++ v) by (rewrite <- app_assoc; reflexivity).
    apply skipn_app_exact. rewrite app_length. cbn. lia. }
  rewrite SK. destruct (ends_with v w) eqn:EW; [exists out; auto|].
  destruct v as [|d v]; [exfalso|].
  { assert (X : ends_with [] w = true); [|congruence]. rewrite <- (app_nil_r w). apply ends_with_app. }
  destruct (@okstr_upper_at U WU CT case s (u ++ [c]) d v Hs) as (t & ET & Ht).
  { rewrite Es, <- app_assoc. reflexivity. }
  rewrite app_length in ET. cbn [length] in ET. rewrite Nat.add_1_r in ET. rewrite ET. cbn [bindR].
  eexists. split; [reflexivity|]. split.
  - constructor; [exact Ht|]. rewrite Forall_forall in Ho. apply Forall_app. split; apply Forall_forall; intros x Hx; apply Ho;
      [eapply In_firstn, Hx|eapply In_skipn, Hx].
  - cbn [length]. rewrite app_length, firstn_length, skipn_length. lia.
Qed.
Lemma fix_spaces_ok : forall w l out, Forall okstr out -> (forall i, In i l -> i < length out) ->
  exists out', foldR (fix_space sg w) l out = Ret out' /\ Forall okstr out'.
Proof.
  intros w. induction l as [|i l IH]; intros out Ho Hl; [exists out; split; [reflexivity|exact Ho]|].
  destruct (@fix_space_ok w out i Ho (Hl i (or_introl eq_refl))) as (o1 & E1 & O1 & L1).
  destruct (IH o1 O1) as (o2 & E2 & O2); [intros; rewrite L1; apply Hl; right; assumption|].
  exists o2. cbn [foldR]. rewrite E1. cbn [bindR]. auto.
Qed.

Lemma scalar_space : scalar 32%N.
Proof. reflexivity. Qed.

Definition result_of (r : (bool * list str) + list str) : list str := match r with inl (_, l) => l | inr l => l end.
Lemma by_casing_ok : forall w, okstr w ->
  exists r, Eventually (fun n => by_casing sg n w []) (Ret r) /\ Forall okstr (result_of r).
Proof.
  intros w Hw. unfold by_casing. destruct (low_ok Hw) as (hq & l & _ & OL & E). pose proof (okstr_lower WU CT case Hw) as Hlow.
  destruct (low_ok Hlow) as (hq2 & l2 & _ & OL2 & E2).
  assert (CP : forall c, exists r, Eventually (fun n =>
      r1 <- suggest_low sg n w [] ;;
      let out1 :=
        match find_char (N.eqb 46) w with
        | Some dot =>
            match classify_casing U (skipn (S dot) w) with
            | CInit => (firstn (S dot) w ++ 32%N :: skipn (S dot) w) :: snd r1
            | _ => snd r1
            end
        | None => snd r1
        end in
      r2 <- (match c with
             | CPascal => l <- lower_first_char U case w ;; low_and_first sg n l (fst r1, out1)
             | _ => Ret (fst r1, out1)
             end) ;;
      r3 <- low_and_first sg n (lowercase U case w) r2 ;;
      r4 <- (match c with
             | CPascal => t <- titlecase U case w ;; low_and_first sg n t r3
             | _ => Ret r3
             end) ;;
      out4 <- foldR (fix_space sg w) (seq 0 (length (snd r4))) (snd r4) ;;
      Ret (inl (fst r4, out4) : (bool * list str) + list str)) (Ret r) /\ Forall okstr (result_of r)).
  { intros c. 
    set (out1 := match find_char (N.eqb 46) w with
        | Some dot =>
            match classify_casing U (skipn (S dot) w) with
            | CInit => (firstn (S dot) w ++ 32%N :: skipn (S dot) w) :: l
            | _ => l
            end
        | None => l
        end).
    assert (O1 : Forall okstr out1).
    { unfold out1. destruct (find_char (N.eqb 46) w) as [dot|]; [|exact OL].
      assert (X : okstr (firstn (S dot) w ++ 32%N :: skipn (S dot) w)).
      { split; [|destruct (firstn (S dot) w); discriminate].
        pose proof (proj1 Hw) as Hs. rewrite <- (firstn_skipn (S dot) w) in Hs. apply scalars_app_iff in Hs.
        apply scalars_app_iff. split; [apply Hs|]. constructor; [exact scalar_space|apply Hs]. }
      destruct (classify_casing U (skipn (S dot) w)); try exact OL. constructor; assumption. }
    assert (S2 : exists r2, Eventually (fun n => match c with
             | CPascal => l <- lower_first_char U case w ;; low_and_first sg n l (hq, out1)
             | _ => Ret (hq, out1)
             end) (Ret r2) /\ Forall okstr (snd r2)).
    { destruct c; try (exists (hq, out1); split; [apply eventually_const|exact O1]).
      destruct (okstr_lower_first WU CT case Hw) as (t & Et & Ht).
      destruct (low_and_first_ok hq Ht O1) as (q & o & Eo & Oo). exists (q, o). rewrite Et. cbn [bindR]. auto. }
    destruct S2 as ([q2 o2] & E2' & O2). cbn [snd] in O2.
    destruct (low_and_first_ok q2 Hlow O2) as (q3 & o3 & E3 & O3).
    assert (S4 : exists r4, Eventually (fun n => match c with
             | CPascal => t <- titlecase U case w ;; low_and_first sg n t (q3, o3)
             | _ => Ret (q3, o3)
             end) (Ret r4) /\ Forall okstr (snd r4)).
    { destruct c; try (exists (q3, o3); split; [apply eventually_const|exact O3]).
      destruct (okstr_title WU CT case Hw) as (t & Et & Ht).
      destruct (low_and_first_ok q3 Ht O3) as (q & o & Eo & Oo). exists (q, o). rewrite Et. cbn [bindR]. auto. }
    destruct S4 as ([q4 o4] & E4 & O4). cbn [snd] in O4.
    destruct (@fix_spaces_ok w (seq 0 (length o4)) o4 O4) as (o5 & E5 & O5); [intros i Hi; apply in_seq in Hi; lia|].
    exists (inl (q4, o5)). split; [|exact O5].
    destruct (E []) as [n1 E1]. destruct E2' as [n2 E2']. destruct E3 as [n3 E3]. destruct E4 as [n4 E4].
    exists (n1 + n2 + n3 + n4). intros fuel Hf. rewrite E1 by lia. cbn [bindR fst snd app]. fold out1.
    rewrite E2' by lia. cbn [bindR]. rewrite E3 by lia. cbn [bindR]. rewrite E4 by lia. cbn [bindR fst snd]. rewrite E5. reflexivity. }
  destruct (classify_casing U w).
  - (* none *)
    assert (F : exists forced, Eventually (fun n => match o_force_upper opts with
                 | Some _ => check_compound k n AT_BEGIN w AllowBadForceucase
                 | None => Ret None
                 end) (Ret forced)).
    { destruct (o_force_upper opts); [|eexists; apply eventually_const].
      pose proof (@check_compound_converges k WFF w AllowBadForceucase (proj1 Hw)) as C. rewrite STRICT in C.
      apply converges_true in C. exact C. }
    destruct F as [forced [n1 EF]]. destruct (E []) as [n2 E'].
    destruct forced as [x|].
    + destruct (okstr_title WU CT case Hw) as (t & Et & Ht). exists (inr [t]). split; [|constructor; [exact Ht|constructor]].
      exists n1. intros fuel Hf. rewrite EF by lia. cbn [bindR]. rewrite Et. reflexivity.
    + exists (inl (hq, l)). split; [|exact OL]. exists (n1 + n2). intros fuel Hf. rewrite EF by lia. cbn [bindR].
      rewrite E' by lia. reflexivity.
  - (* init *)
    exists (inl (hq || hq2, l ++ l2)). split; [|apply Forall_app; auto].
    destruct (E []) as [n1 E1]. destruct (E2 l) as [n2 E2']. exists (n1 + n2). intros fuel Hf.
    rewrite E1 by lia. cbn [bindR snd app]. rewrite E2' by lia. reflexivity.
  - (* all *)
    assert (KC : exists b, Eventually (fun n => match o_keep_case opts with Some _ => check k n (lowercase U case w) | None => Ret false end) (Ret b)).
    { destruct (o_keep_case opts); [apply check_total, Hlow|exists false; apply eventually_const]. }
    destruct KC as [b [n0 E0]]. destruct (okstr_title WU CT case Hlow) as (t & Et & Ht).
    destruct (low_ok Ht) as (hq3 & l3 & _ & OL3 & E3).
    set (out1 := if b then [lowercase U case w] else [] : list str).
    exists (inl (hq2 || hq3, map (uppercase U case) ((out1 ++ l2) ++ l3))). split.
    + destruct (E2 out1) as [n2 E2']. destruct (E3 (out1 ++ l2)) as [n3 E3']. exists (n0 + n2 + n3). intros fuel Hf.
      rewrite E0 by lia. cbn [bindR]. fold out1. rewrite E2' by lia. cbn [bindR]. rewrite Et. cbn [bindR snd].
      rewrite E3' by lia. reflexivity.
    + cbn [result_of]. apply Forall_map. eapply Forall_impl; [intros x Hx; apply okstr_upper; [exact WU|exact CT|exact Hx]|].
      apply Forall_app. split; [|exact OL3]. apply Forall_app. split; [|exact OL2]. unfold out1. destruct b; repeat constructor; apply Hlow.
  - exact (CP CCamel).
  - exact (CP CPascal).
Qed.

Lemma oconv_ok : forall s, scalars s -> exists t, convert (ad_oconv aff) s = Ret t /\ scalars t.
Proof.
  intros s Hs. destruct (convert_spec WO Hs) as (t & E & C). exists t. split; [exact E|].
  exact (Converts_scalars WOS C Hs).
Qed.
Lemma Converts_tame : forall l w v, Forall (fun c => cv_to c <> [] /\ ~ In 45%N (cv_to c)) l -> Converts l w v ->
  (w <> [] -> v <> []) /\ (~ In 45%N w -> ~ In 45%N v).
Proof.
  intros l w v T C. induction C as [|x w out N C IH|c r out I Us M C IH].
  - split; auto.
  - split; [discriminate|]. intros H [->|H']; [apply H; left; reflexivity|]. apply IH in H'; [exact H'|]. intros X. apply H. right. exact X.
  - rewrite Forall_forall in T. destruct (T c I) as [T1 T2]. split.
    + intros _ E. apply app_eq_nil in E. tauto.
    + intros H X. apply in_app_iff in X. destruct X as [X|X]; [contradiction|]. apply IH in X; [exact X|].
      intros Y. apply H. apply in_app_iff. right. exact Y.
Qed.

Lemma dash_push_ok : forall before after out s, scalars before -> (forall a, after = Some a -> scalars a) ->
  (before <> [] \/ exists a, after = Some a /\ a <> []) -> scalars s -> Forall okstr out ->
  exists out', Eventually (fun n => dash_push sg n before after out s) (Ret out') /\ Forall okstr out'.
Proof.
  intros before after out s Hb Ha Hne Hs Ho. unfold dash_push.
  set (buf := before ++ s ++ match after with Some a => a | None => [] end).
  assert (B : okstr buf).
  { split.
    - unfold buf. rewrite !scalars_app_iff. split; [exact Hb|]. split; [exact Hs|]. destruct after; [apply Ha; reflexivity|constructor].
    - unfold buf. intros E. apply app_eq_nil in E. destruct E as [E1 E2]. apply app_eq_nil in E2. destruct E2 as [_ E2].
      destruct Hne as [H|(a & -> & H)]; contradiction. }
  destruct (@cw_total sg WFF STRICT buf ForbidBadForceucase AcceptHiddenHomonym (proj1 B)) as [r [n E]].
  exists (match r with Some flags => if contains flags (o_forbidden opts) then out else out ++ [buf] | None => out ++ [buf] end). split.
  - exists n. intros fuel Hf. rewrite E by exact Hf. cbn [bindR]. destruct r as [f|]; [destruct (contains f (o_forbidden opts))|]; reflexivity.
  - assert (Forall okstr (out ++ [buf])) by (apply Forall_app; split; [exact Ho|repeat constructor; apply B]).
    destruct r as [f|]; [destruct (contains f (o_forbidden opts))|]; assumption.
Qed.

Lemma dash_loop_ok : forall (rec : nat -> str -> Res (list str)) word m i pre rest out,
  word = pre ++ rest -> length pre = i -> (pre = [] -> In 45%N rest) -> length rest < m ->
  scalars word -> Forall okstr out ->
  (forall u part v, word = u ++ part ++ v -> ~ In 45%N part -> exists l, Eventually (fun n => rec n part) (Ret l) /\ Forall scalars l) ->
  exists out', Eventually (fun n => dash_loop sg n m (rec n) word i out) (Ret out') /\ Forall okstr out'.
Proof.
  intros rec word. induction m as [|m IH]; intros i pre rest out EW LP HD LR Hw Ho Hrec; [lia|].
  assert (SK : skipn i word = rest) by (subst word i; apply skipn_app_exact; reflexivity).
  assert (FN : firstn i word = pre) by (subst word i; apply firstn_app_exact; reflexivity).
  assert (HP : scalars pre /\ scalars rest) by (rewrite EW in Hw; apply scalars_app_iff; exact Hw).
  destruct (find_char (N.eqb 45) rest) as [j|] eqn:F.
  - pose proof F as F'. apply find_char_some in F'. destruct F' as (u & c & v & Er & Lu & Hc & Hu). apply N.eqb_eq in Hc. subst c.
    assert (SL : slice word i (i + j) = u).
    { unfold slice. rewrite SK, Er. replace (i + j - i) with (length u) by lia. apply firstn_app_exact. reflexivity. }
    assert (NU : ~ In 45%N u).
    { intros X. apply (proj1 (forallb_forall _ _) Hu) in X. discriminate. }
    assert (S2 : skipn (i + j) word = 45%N :: v).
    { subst word. rewrite Er, app_assoc. apply skipn_app_exact. rewrite app_length. lia. }
    assert (HR : scalars u /\ scalars v /\ scalar 45%N).
    { destruct HP as [_ HP]. rewrite Er in HP. apply scalars_app_iff in HP. destruct HP as [A B]. inversion B; subst. auto. }
    destruct (check_total (proj1 HR)) as [b Eb].
    assert (ST : exists o1, Eventually (fun n => if b then Ret out
               else tmp <- rec n u ;; foldR (dash_push sg n pre (Some (45%N :: v))) tmp out) (Ret o1) /\ Forall okstr o1).
    { destruct b; [exists out; split; [apply eventually_const|exact Ho]|].
      destruct (Hrec pre u (45%N :: v)) as (l & El & Hl); [rewrite EW, Er; reflexivity|exact NU|].
      destruct (@foldR_eventually (list str) str (fun n => dash_push sg n pre (Some (45%N :: v))) (Forall okstr) l) with (s := out) as (o1 & E1 & O1).
      - intros o s Hs Hin. apply dash_push_ok; [apply HP| | | |exact Hs].
        + intros a Ea. inversion Ea; subst. constructor; [apply HR|apply HR].
        + right. eexists. split; [reflexivity|discriminate].
        + exact (proj1 (Forall_forall _ _) Hl s Hin).
      - exact Ho.
      - exists o1. split; [|exact O1].
        apply (@eventually_bind _ _ (fun n => rec n u) l (fun tmp n => foldR (dash_push sg n pre (Some (45%N :: v))) tmp out)); assumption. }
    destruct ST as (o1 & [n1 E1] & O1).
    destruct (IH (S (i + j)) (pre ++ u ++ [45%N]) v o1) as (o2 & [n2 E2] & O2); try assumption.
    { rewrite EW, Er, <- !app_assoc. reflexivity. }
    { rewrite !app_length. cbn [length]. lia. }
    { intros X. apply app_eq_nil in X. destruct X as [_ X]. apply app_eq_nil in X. destruct X. discriminate. }
    { rewrite Er, app_length in LR. cbn [length] in LR. lia. }
    exists o2. split; [|exact O2]. destruct Eb as [n3 Eb]. exists (n1 + n2 + n3). intros fuel Hf. cbn [dash_loop].
    rewrite SK, F. cbn [option_map]. rewrite SL, FN, S2, Eb by lia. cbn [bindR]. rewrite E1 by lia. cbn [bindR]. apply E2. lia.
  - assert (NR : ~ In 45%N rest).
    { apply find_char_none in F. intros X. apply (proj1 (forallb_forall _ _) F) in X. discriminate. }
    assert (NP : pre <> []) by (intros X; apply NR, HD, X).
    destruct (check_total (proj2 HP)) as [b Eb].
    assert (ST : exists o1, Eventually (fun n => if b then Ret out
               else tmp <- rec n rest ;; foldR (dash_push sg n pre None) tmp out) (Ret o1) /\ Forall okstr o1).
    { destruct b; [exists out; split; [apply eventually_const|exact Ho]|].
      destruct (Hrec pre rest []) as (l & El & Hl); [rewrite EW, app_nil_r; reflexivity|exact NR|].
      destruct (@foldR_eventually (list str) str (fun n => dash_push sg n pre None) (Forall okstr) l) with (s := out) as (o1 & E1 & O1).
      - intros o s Hs Hin. apply dash_push_ok; [apply HP|discriminate|left; exact NP| |exact Hs].
        exact (proj1 (Forall_forall _ _) Hl s Hin).
      - exact Ho.
      - exists o1. split; [|exact O1].
        apply (@eventually_bind _ _ (fun n => rec n rest) l (fun tmp n => foldR (dash_push sg n pre None) tmp out)); assumption. }
    destruct ST as (o1 & [n1 E1] & O1). destruct Eb as [n3 Eb]. exists o1. split; [|exact O1]. exists (n1 + n3). intros fuel Hf.
    cbn [dash_loop]. rewrite SK, F. cbn [option_map]. rewrite FN, Eb by lia. cbn [bindR]. rewrite E1 by lia. reflexivity.
Qed.

Lemma retain_ok : forall out s, Forall okstr out -> okstr s ->
  exists out', Eventually (fun n => retain_step sg n out s) (Ret out') /\ Forall okstr out'.
Proof.
  intros out s Ho Hs. unfold retain_step.
  assert (AP : forall x, okstr x -> Forall okstr (out ++ [x])) by (intros x Hx; apply Forall_app; split; [exact Ho|repeat constructor; apply Hx]).
  destruct (memb 32 s); [exists (out ++ [s]); split; [apply eventually_const|apply AP, Hs]|].
  pose proof (okstr_lower WU CT case Hs) as Hl. destruct (okstr_title WU CT case Hs) as (t & Et & Ht).
  destruct (check_total (proj1 Hs)) as [b1 [n1 E1]]. destruct (check_total (proj1 Hl)) as [b2 [n2 E2]].
  destruct (check_total (proj1 Ht)) as [b3 [n3 E3]].
  exists (if b1 then out ++ [s] else if b2 then out ++ [lowercase U case s] else if b3 then out ++ [t] else out). split.
  - exists (n1 + n2 + n3). intros fuel Hf. rewrite E1 by lia. cbn [bindR]. destruct b1; [reflexivity|].
    rewrite E2 by lia. cbn [bindR]. destruct b2; [reflexivity|]. rewrite Et. cbn [bindR]. rewrite E3 by lia. cbn [bindR].
    destruct b3; reflexivity.
  - destruct b1; [apply AP, Hs|]. destruct b2; [apply AP, Hl|]. destruct b3; [apply AP, Ht|exact Ho].
Qed.

(** The n-gram step, for the words it is called with. *)
Variable Fine : str -> Prop.
(** The words asked for, and the parts of hyphenated words. *)
Variables Given Part : str -> Prop.
Hypothesis FINE : forall w w', Given w -> Converts (ct_inner (ad_iconv aff)) w w' -> Fine w'.
Hypothesis PFINE : forall w w', Part w -> Converts (ct_inner (ad_iconv aff)) w w' -> Fine w'.
Hypothesis PARTS : forall w w' u part v, Given w -> Converts (ct_inner (ad_iconv aff)) w w' -> w' = u ++ part ++ v -> Part part.
Hypothesis NGRAM : forall w hq out, okstr w -> Fine w -> Forall okstr out ->
  exists r, by_ngram sg w hq out = Ret r /\ Forall okstr r.

(** Without hyphens there is no recursion. *)
Lemma impl_total : forall m w, scalars w -> (forall w', Converts (ct_inner (ad_iconv aff)) w w' -> Fine w') ->
  (forall w', Converts (ct_inner (ad_iconv aff)) w w' -> In 45%N w' ->
     forall u part v, w' = u ++ part ++ v -> ~ In 45%N part ->
       exists l, Eventually (fun n => suggest_impl sg n m part []) (Ret l) /\ Forall scalars l) ->
  exists l, Eventually (fun n => suggest_impl sg n (S m) w []) (Ret l) /\ Forall scalars l.
Proof.
  intros m w Hw HG Hrec. destruct w as [|c w0]; [exists []; split; [exists 0; reflexivity|constructor]|].
  set (w := c :: w0) in *. destruct (convert_spec (wff_iconv WFF) Hw) as (w' & EC & C).
  assert (Hw' : okstr w').
  { split; [exact (Converts_scalars (wff_iconv_out WFF) C Hw)|]. apply (Converts_tame TAME C). discriminate. }
  destruct (by_casing_ok Hw') as (r & [n1 E1] & O1). destruct r as [[hq o1]|o1].
  2: { exists o1. split; [|apply Forall_forall; intros a Ha; exact (proj1 (proj1 (Forall_forall _ _) O1 a Ha))].
       exists n1. intros fuel Hf. cbn [suggest_impl]. unfold w. fold w. rewrite EC. cbn [bindR]. rewrite E1 by exact Hf. reflexivity. }
  cbn [result_of] in O1. destruct (@NGRAM w' hq o1 Hw' (HG w' C) O1) as (o2 & E2 & O2).
  assert (D : exists o3, Eventually (fun n => by_dash sg n (fun part => suggest_impl sg n m part []) w' o2) (Ret o3) /\ Forall okstr o3).
  { unfold by_dash. destruct (memb 45 w' && negb (existsb (memb 45) o2)) eqn:B.
    - apply andb_true_iff in B. destruct B as [B _]. apply memb_In in B.
      apply (@dash_loop_ok (fun n part => suggest_impl sg n m part []) w' (S (length w')) 0 [] w' o2); try reflexivity; try assumption.
      + intros _. exact B.
      + lia.
      + apply Hw'.
      + intros u part v E N. exact (Hrec w' C B u part v E N).
    - exists o2. split; [apply eventually_const|exact O2]. }
  destruct D as (o3 & [n3 E3] & O3).
  assert (M4 : exists o4, match classify_casing U w' with
                       | CInit | CPascal => mapR (fun s => upper_char_at U case s 0) o3
                       | _ => Ret o3
                       end = Ret o4 /\ Forall okstr o4).
  { assert (X : exists o4, mapR (fun s => upper_char_at U case s 0) o3 = Ret o4 /\ Forall okstr o4).
    { apply mapR_total with (P := okstr); [|exact O3]. intros s Hs. destruct s as [|d s]; [destruct Hs; contradiction|].
      exact (@okstr_upper_at U WU CT case (d :: s) [] d s Hs eq_refl). }
    destruct (classify_casing U w'); try exact X; exists o3; auto. }
  destruct M4 as (o4 & E4 & O4).
  assert (M5 : exists o5, Eventually (fun n => match classify_casing U w' with
                       | CInit | CAll => foldR (retain_step sg n) o4 []
                       | _ => Ret o4
                       end) (Ret o5) /\ Forall okstr o5).
  { assert (X : exists o5, Eventually (fun n => foldR (retain_step sg n) o4 []) (Ret o5) /\ Forall okstr o5).
    { apply (@foldR_eventually (list str) str (fun n => retain_step sg n) (Forall okstr) o4); [|constructor].
      intros o s Ho Hi. apply retain_ok; [exact Ho|]. exact (proj1 (Forall_forall _ _) O4 s Hi). }
    destruct (classify_casing U w'); try exact X; exists o4; (split; [apply eventually_const|exact O4]). }
  destruct M5 as (o5 & [n5 E5] & O5).
  destruct (@mapR_total str str (convert (ad_oconv aff)) okstr scalars (keep_first o5)) as (o7 & E7 & O7).
  { intros s Hs. apply oconv_ok, Hs. }
  { apply Forall_forall. intros s Hs. apply (keep_first_In o5) in Hs. exact (proj1 (Forall_forall _ _) O5 s Hs). }
  exists o7. split; [|exact O7]. exists (n1 + n3 + n5). intros fuel Hf. cbn [suggest_impl]. unfold w. fold w. rewrite EC. cbn [bindR].
  rewrite E1 by lia. cbn [bindR]. rewrite E2. cbn [bindR]. rewrite E3 by lia. cbn [bindR]. rewrite E4. cbn [bindR].
  rewrite E5 by lia. cbn [bindR]. rewrite deduplicate_is. cbn [bindR]. exact E7.
Qed.

Theorem suggest_total : forall w out, scalars w -> ((blen w <= 360)%N -> Given w) ->
  exists l, Eventually (fun n => suggest sg n w out) (Ret l) /\ Forall scalars l.
Proof.
  intros w out Hw HG0. unfold suggest. destruct (max_word_len <? blen w)%N eqn:EB.
  { exists []. split; [apply eventually_const|constructor]. }
  pose proof (HG0 (proj1 (N.ltb_ge _ _) EB)) as HG.
  assert (G1 : forall part m, scalars part -> Part part -> ~ In 45%N part ->
    exists l, Eventually (fun n => suggest_impl sg n (S m) part []) (Ret l) /\ Forall scalars l).
  { intros part m Hp Gp Np. apply impl_total; [exact Hp|intros w' C; exact (PFINE Gp C)|]. intros w' C D. exfalso.
    revert D. apply (Converts_tame TAME C). exact Np. }
  assert (G2 : exists l, Eventually (fun n => suggest_impl sg n 2 w []) (Ret l) /\ Forall scalars l).
  { apply impl_total; [exact Hw|intros w' C; exact (FINE HG C)|]. intros w' C _ u part v E N. apply G1; [|eapply PARTS; eassumption|exact N].
    pose proof (Converts_scalars (wff_iconv_out WFF) C Hw) as S'. rewrite E in S'. rewrite !scalars_app_iff in S'. tauto. }
  destruct G2 as (l & [n E] & Hl). exists l. split; [|exact Hl]. exists (n + 2). intros fuel Hf.
  pose proof (@impl_mono sg fuel fuel (le_n _) 2 fuel w [] ltac:(lia)) as R. rewrite E in R by lia.
  destruct R as [R|R]; [discriminate|]. symmetry. exact R.
Qed.
End Total.
