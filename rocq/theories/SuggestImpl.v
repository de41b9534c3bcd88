(** Where the strings [suggest] returns come from. *)
From Coq Require Import List NArith ZArith Lia Bool Arith Permutation.
From Coq Require Import ZifyBool ZifyNat ZifyN.
From Verif Require Import Base Utf8 Unicode Flags Bag Affix Conversion Aff Checker AffixSpec CompoundRule Rep CompoundSpec CompoundTotal
  RuleCompound Spell CheckSpec CheckMono CheckProps BufferOps Ngram Suggester SuggestSpec SuggestLow SuggestMono Dedup SuggestProps
  SuggestTotal NgramMeasures NgramProps.
Import ListNotations.
Set Implicit Arguments.

Lemma mapR_Forall2 : forall A B (f : A -> Res B) l r, mapR f l = Ret r -> Forall2 (fun x y => f x = Ret y) l r.
Proof.
  intros A B f. induction l as [|a l IH]; intros r H; cbn [mapR] in H; [injection H as <-; constructor|].
  destruct (f a) as [b| |] eqn:E; try discriminate. cbn [bindR] in H.
  destruct (mapR f l) as [r'| |] eqn:E'; try discriminate. injection H as <-. constructor; [exact E|apply IH, eq_refl].
Qed.
Lemma foldR_invariant : forall S A (f : S -> A -> Res S) (I : S -> Prop) l s r,
  (forall s a s', In a l -> I s -> f s a = Ret s' -> I s') -> I s -> foldR f l s = Ret r -> I r.
Proof.
  intros S A f I. induction l as [|a l IH]; intros s r H Hs E; cbn [foldR] in E; [injection E as <-; exact Hs|].
  destruct (f s a) as [s'| |] eqn:E1; try discriminate. cbn [bindR] in E.
  apply (IH s' r); [intros; eapply H; eauto; right; assumption| |exact E]. eapply H; [left; reflexivity|exact Hs|exact E1].
Qed.

Section Impl.
Variable sg : suggester.
Notation k := (su_checker sg).
Notation aff := (ck_aff (su_checker sg)).
Notation opts := (ad_options (ck_aff (su_checker sg))).
Notation U := (ck_u (su_checker sg)).
Notation case := (o_case (ad_options (ck_aff (su_checker sg)))).

Hypothesis WR : wf_reps (ad_reps aff).
Hypothesis WG : Forall wf_sim (ad_sims aff).
Hypothesis WRS : Forall (fun e => scalars (fst e) /\ scalars (snd e)) (rp_table (ad_reps aff)).
Hypothesis WT : scalars (ad_try aff).
Hypothesis WK : scalars (ad_keyboard aff).
Hypothesis WU : wf_unicode U.
Hypothesis WO : conv_table_ok (ad_oconv aff).
Hypothesis WOS : Forall (fun c => scalars (cv_to c)) (ct_inner (ad_oconv aff)).
Hypothesis WI : conv_table_ok (ad_iconv aff).
Hypothesis WIS : Forall (fun c => scalars (cv_to c)) (ct_inner (ad_iconv aff)).
Hypothesis WC : wf_checker k.
Hypothesis WH : wf_heaps (su_heaps sg).
Hypothesis WW : Forall (fun e => scalars (fst e) /\ wf_flagset (snd e)) (su_words sg).

(** ** Casing *)
(** The spellings of the word that are edited. *)
Inductive Explored (w : str) : str -> Prop :=
| Explored_word : classify_casing U w <> CAll -> Explored w w
| Explored_lower : classify_casing U w <> CNone -> Explored w (lowercase U case w)
| Explored_lower_first : forall v, classify_casing U w = CPascal -> lower_first_char U case w = Ret v -> Explored w v
| Explored_title : forall v, classify_casing U w = CPascal -> titlecase U case w = Ret v -> Explored w v
| Explored_caps_title : forall v, classify_casing U w = CAll -> titlecase U case (lowercase U case w) = Ret v -> Explored w v.
(** The public [check] accepts the string. *)
Definition Passes (v : str) : Prop := exists n, check k n v = Ret true.

Lemma title_scalars : forall w t, scalars w -> titlecase U case w = Ret t -> scalars t.
Proof.
  intros [|c w] t Hs H; [discriminate|]. injection H as <-. inversion Hs; subst. apply scalars_app_iff.
  split; [apply scalars_upper_char; assumption|]. apply scalars_flat_map; [intros; apply scalars_lower_char; assumption|assumption].
Qed.
Lemma lower_first_scalars : forall w t, scalars w -> lower_first_char U case w = Ret t -> scalars t.
Proof.
  intros [|c w] t Hs H; [discriminate|]. injection H as <-. inversion Hs; subst. apply scalars_app_iff.
  split; [apply scalars_lower_char; assumption|assumption].
Qed.
Lemma upper_at_scalars : forall w i t, scalars w -> upper_char_at U case w i = Ret t -> scalars t.
Proof.
  intros w i t Hs H. unfold upper_char_at in H. destruct (skipn i w) as [|c v] eqn:E; [discriminate|]. injection H as <-.
  rewrite <- (firstn_skipn i w), E in Hs. apply scalars_app_iff in Hs. destruct Hs as [H1 H2]. inversion H2; subst.
  apply scalars_app_iff. split; [exact H1|]. apply scalars_app_iff. split; [apply scalars_upper_char; assumption|assumption].
Qed.
Lemma explored_scalars : forall w v, scalars w -> Explored w v -> scalars v.
Proof.
  intros w v Hs H. inversion H; subst; [exact Hs|apply scalars_lower; assumption| | |].
  - eapply lower_first_scalars; eauto.
  - eapply title_scalars; eauto.
  - eapply title_scalars; [|eassumption]. apply scalars_lower; assumption.
Qed.

Section Casing.
Variable P : str -> Prop.
Variable w : str.
Hypothesis HW : scalars w.
Hypothesis P_low : forall v l, Explored w v -> Low sg v l -> Forall P l.
Hypothesis P_self : forall v, Explored w v -> classify_casing U w <> CNone -> Passes v -> P v.
Hypothesis P_dot : forall a b, classify_casing U w = CCamel \/ classify_casing U w = CPascal ->
  w = a ++ 46%N :: b -> ~ In 46%N a -> classify_casing U b = CInit -> P (a ++ 46%N :: 32%N :: b).
Hypothesis P_space : forall u c v, classify_casing U w = CCamel \/ classify_casing U w = CPascal ->
  ~ In 32%N u -> P (u ++ 32%N :: c :: v) -> P (u ++ 32%N :: upper_char U case c ++ v).

Lemma low_P : forall [n v out hq r], Explored w v -> suggest_low sg n v out = Ret (hq, r) -> Forall P out -> Forall P r.
Proof.
  intros n v out hq r Hv H Ho. destruct (@low_sound sg WR WG n v out hq r (explored_scalars HW Hv) H) as (l & -> & L).
  apply Forall_app. split; [exact Ho|exact (P_low Hv L)].
Qed.
Lemma low_first_P : forall [n v hq out r], classify_casing U w <> CNone -> Explored w v -> low_and_first sg n v (hq, out) = Ret r -> Forall P out -> Forall P (snd r).
Proof.
  intros n v hq out r HN Hv H Ho. unfold low_and_first in H. destruct (suggest_low sg n v out) as [[q o]| |] eqn:E; try discriminate.
  cbn [bindR] in H. destruct (check k n v) as [b| |] eqn:E2; try discriminate. injection H as <-. cbn [fst snd].
  pose proof (low_P Hv E Ho) as X. destruct b; [|exact X]. constructor; [|exact X]. apply P_self; [exact Hv|exact HN|]. exists n. exact E2.
Qed.
Lemma fix_P : forall out i r, classify_casing U w = CCamel \/ classify_casing U w = CPascal ->
  Forall P out -> fix_space sg w out i = Ret r -> Forall P r.
Proof.
  intros out i r HC Ho H. unfold fix_space in H. destruct (nth_error out i) as [s|] eqn:E; [|discriminate].
  assert (Ps : P s) by (apply (proj1 (Forall_forall _ _) Ho); eapply nth_error_In, E).
  destruct (find_char (N.eqb 32) s) as [j|] eqn:F; [|injection H as <-; exact Ho].
  destruct (ends_with (skipn (S j) s) w); [injection H as <-; exact Ho|].
  apply find_char_some in F. destruct F as (u & c & v & Es & <- & Hc & HB). apply N.eqb_eq in Hc. subst c.
  destruct (upper_char_at U case s (S (length u))) as [t| |] eqn:ET; try discriminate. injection H as <-.
  constructor.
  - unfold upper_char_at in ET. subst s. replace (u ++ 32%N :: v) with ((u ++ [32%N]) ++ v) in ET by (rewrite <- app_assoc; reflexivity).
    rewrite skipn_app_exact, firstn_app_exact in ET by (rewrite app_length; cbn; lia).
    destruct v as [|c v]; [discriminate|]. injection ET as <-. rewrite <- app_assoc. cbn [app].
    apply P_space; [exact HC| |exact Ps]. apply no_space, HB.
  - apply Forall_app. split; apply Forall_forall; intros x Hx; apply (proj1 (Forall_forall _ _) Ho); [exact (In_firstn _ _ _ Hx)|exact (@In_skipn _ x out (S i) Hx)].
Qed.

Theorem casing_invariant : forall n hq out, by_casing sg n w [] = Ret (inl (hq, out)) ->
  (classify_casing U w <> CAll -> Forall P out) /\
  (classify_casing U w = CAll -> exists l, out = map (uppercase U case) l /\ Forall P l).
Proof.
  intros n hq out H. unfold by_casing in H.
  assert (HI : classify_casing U w = CCamel \/ classify_casing U w = CPascal -> Forall P out).
  { intros HC.
    assert (H' : exists c, (c = CCamel \/ (c = CPascal /\ classify_casing U w = CPascal)) /\
      (r1 <- suggest_low sg n w [] ;;
      let out1 :=
        match find_char (N.eqb 46) w with
        | Some dot =>
            match classify_casing U (skipn (S dot) w) with
            | CInit => (firstn (S dot) w ++ 32%N :: skipn (S dot) w) :: snd r1
            | _ => snd r1
            end
        | None => snd r1
        end in
      r2 <- (match c with
             | CPascal => l <- lower_first_char U case w ;; low_and_first sg n l (fst r1, out1)
             | _ => Ret (fst r1, out1)
             end) ;;
      r3 <- low_and_first sg n (lowercase U case w) r2 ;;
      r4 <- (match c with
             | CPascal => t <- titlecase U case w ;; low_and_first sg n t r3
             | _ => Ret r3
             end) ;;
      out4 <- foldR (fix_space sg w) (seq 0 (length (snd r4))) (snd r4) ;;
      Ret (inl (fst r4, out4) : (bool * list str) + list str)) = Ret (inl (hq, out))).
    { destruct HC as [HC|HC]; rewrite HC in H; [exists CCamel|exists CPascal]; (split; [auto|exact H]). }
    clear H. destruct H' as (c & Hc & H).
    assert (EW : Explored w w) by (apply Explored_word; destruct HC; congruence).
    assert (EL : Explored w (lowercase U case w)) by (apply Explored_lower; destruct HC; congruence).
    destruct (suggest_low sg n w []) as [[q1 o1]| |] eqn:E1; try discriminate. cbn [bindR fst snd] in H.
    pose proof (low_P EW E1 (Forall_nil _)) as O1.
    set (out1 := match find_char (N.eqb 46) w with
        | Some dot =>
            match classify_casing U (skipn (S dot) w) with
            | CInit => (firstn (S dot) w ++ 32%N :: skipn (S dot) w) :: o1
            | _ => o1
            end
        | None => o1
        end) in H.
    assert (O1' : Forall P out1).
    { unfold out1. destruct (find_char (N.eqb 46) w) as [dot|] eqn:ED; [|exact O1].
      destruct (classify_casing U (skipn (S dot) w)) eqn:EC; try exact O1. constructor; [|exact O1].
      apply find_char_some in ED. destruct ED as (a & x & b & Ew & <- & Hx & HB). apply N.eqb_eq in Hx. subst x.
      assert (F1 : firstn (S (length a)) w = a ++ [46%N]).
      { rewrite Ew. replace (a ++ 46%N :: b) with ((a ++ [46%N]) ++ b) by (rewrite <- app_assoc; reflexivity).
        apply firstn_app_exact. rewrite app_length. cbn. lia. }
      assert (F2 : skipn (S (length a)) w = b).
      { rewrite Ew. replace (a ++ 46%N :: b) with ((a ++ [46%N]) ++ b) by (rewrite <- app_assoc; reflexivity).
        apply skipn_app_exact. rewrite app_length. cbn. lia. }
      rewrite F1, F2, <- app_assoc. cbn [app]. rewrite F2 in EC. apply P_dot; [exact HC|exact Ew| |exact EC].
      intros I. rewrite forallb_forall in HB. specialize (HB _ I). discriminate. }
    clearbody out1.
    match type of H with bindR ?x _ = _ => destruct x as [[q2 o2]| |] eqn:E2; try discriminate end. cbn [bindR] in H.
    assert (O2 : Forall P o2).
    { destruct Hc as [->|[-> HP]]; [injection E2 as <- <-; exact O1'|].
      destruct (lower_first_char U case w) as [v| |] eqn:EF; try discriminate. cbn [bindR] in E2.
      exact (low_first_P ltac:(congruence) (@Explored_lower_first w v HP EF) E2 O1'). }
    destruct (low_and_first sg n (lowercase U case w) (q2, o2)) as [[q3 o3]| |] eqn:E3; try discriminate. cbn [bindR] in H.
    pose proof (low_first_P ltac:(destruct HC; congruence) EL E3 O2) as O3. cbn [snd] in O3.
    match type of H with bindR ?x _ = _ => destruct x as [[q4 o4]| |] eqn:E4; try discriminate end. cbn [bindR fst snd] in H.
    assert (O4 : Forall P o4).
    { destruct Hc as [->|[-> HP]]; [injection E4 as <- <-; exact O3|].
      destruct (titlecase U case w) as [v| |] eqn:EF; try discriminate. cbn [bindR] in E4.
      exact (low_first_P ltac:(congruence) (@Explored_title w v HP EF) E4 O3). }
    destruct (foldR (fix_space sg w) (seq 0 (length o4)) o4) as [o5| |] eqn:E5; try discriminate. injection H as _ <-.
    exact (@foldR_invariant _ _ (fix_space sg w) (Forall P) _ _ _ (fun s a s' _ Hs => @fix_P s a s' HC Hs) O4 E5). }
  destruct (classify_casing U w) eqn:EC.
  - split; [|discriminate]. intros _.
    match type of H with bindR ?x _ = _ => destruct x as [[f|]| |]; try discriminate end; cbn [bindR] in H.
    + destruct (titlecase U case w); discriminate.
    + destruct (suggest_low sg n w []) as [[q o]| |] eqn:E; try discriminate. injection H as <- <-.
      eapply low_P; [apply Explored_word; congruence|exact E|constructor].
  - split; [|discriminate]. intros _.
    destruct (suggest_low sg n w []) as [[q o]| |] eqn:E; try discriminate. cbn [bindR fst snd] in H.
    destruct (suggest_low sg n (lowercase U case w) o) as [[q2 o2]| |] eqn:E2; try discriminate. injection H as _ <-.
    eapply low_P; [apply Explored_lower; congruence|exact E2|]. eapply low_P; [apply Explored_word; congruence|exact E|constructor].
  - split; [congruence|]. intros _.
    match type of H with bindR ?x _ = _ => destruct x as [b| |] eqn:EK; try discriminate end. cbn [bindR] in H.
    assert (EL : Explored w (lowercase U case w)) by (apply Explored_lower; congruence).
    set (out1 := if b then [lowercase U case w] else []) in H.
    assert (O1 : Forall P out1).
    { unfold out1. destruct b; [|constructor]. constructor; [|constructor]. apply P_self; [exact EL|congruence|].
      destruct (o_keep_case opts); [|discriminate]. exists n. exact EK. }
    destruct (suggest_low sg n (lowercase U case w) out1) as [[q o]| |] eqn:E; try discriminate. cbn [bindR fst snd] in H.
    destruct (titlecase U case (lowercase U case w)) as [t| |] eqn:ET; try discriminate. cbn [bindR fst snd] in H.
    destruct (suggest_low sg n t o) as [[q2 o2]| |] eqn:E2; try discriminate. injection H as _ <-.
    exists o2. split; [reflexivity|]. eapply low_P; [exact (@Explored_caps_title w t EC ET)|exact E2|]. exact (low_P EL E O1).
  - split; [|discriminate]. intros _. apply HI. auto.
  - split; [|discriminate]. intros _. apply HI. auto.
Qed.
End Casing.

(** ** n-grams *)
Definition ranked_as (w : str) : str := match classify_casing U w with CNone => w | _ => lowercase U case w end.
Definition shown_as (w : str) (l : list str) : list str :=
  match classify_casing U w with CAll => map (uppercase U case) l | _ => l end.
(** An n-gram suggestion: a form of an entry that may be suggested. *)
Definition NgramForm (v e : str) : Prop :=
  exists stem flags, In (stem, flags) (su_words sg) /\ Eligible k flags /\ Form k v stem flags e.
Lemma words_flags : Forall (fun e => wf_flagset (snd e)) (su_words sg).
Proof. eapply Forall_impl; [|exact WW]. intros e [_ H]. exact H. Qed.
Theorem by_ngram_inv : forall w hq out r, by_ngram sg w hq out = Ret r ->
  exists added, r = out ++ shown_as w added /\
    Forall (NgramForm (ranked_as w)) added /\
    (added <> [] -> su_ngram sg = true /\ hq = false /\ o_max_ngram opts <> 0%N) /\
    (length out <= max_suggestions -> length added <= N.to_nat (o_max_ngram opts) /\ length r <= max_suggestions) /\
    Fresh out added.
Proof.
  intros w hq out r H. unfold by_ngram in H.
  assert (FN : Fresh out []) by (intros a g b s E; destruct a; discriminate).
  destruct (su_ngram sg && negb hq && negb (o_max_ngram opts =? 0)%N) eqn:EG.
  2: { injection H as <-. exists []. split; [unfold shown_as; destruct (classify_casing U w); rewrite app_nil_r; reflexivity|].
       split; [constructor|]. split; [congruence|]. split; [|exact FN]. intros L. cbn [length]. lia. }
  change (match classify_casing U w with CNone => w | _ => lowercase U case w end) with (ranked_as w) in H.
  destruct (ngram_suggest (su_heaps sg) k (su_words sg) (ranked_as w) out) as [o1| |] eqn:E; try discriminate.
  cbn [bindR] in H.
  destruct (@ngram_adds (su_heaps sg) WH k WC (su_words sg) words_flags _ _ _ E) as (added & E1 & _ & AF).
  destruct (@ngram_suggest_spec (su_heaps sg) WH k (su_words sg) _ _ _ E)
    as (roots & ls & guesses & fin & added' & _ & _ & _ & _ & _ & E2 & _ & FR & LN).
  assert (added' = added) as -> by (rewrite E1 in E2; apply app_inv_head in E2; congruence).
  exists added. assert (ER : r = out ++ shown_as w added).
  { unfold shown_as. destruct (classify_casing U w); injection H as <-; try exact E1.
    rewrite E1, firstn_app_exact, skipn_app_exact by reflexivity. reflexivity. }
  split; [exact ER|]. split; [exact AF|]. split.
  { intros _. rewrite !andb_true_iff, !negb_true_iff in EG. destruct EG as [[G1 G2] G3]. apply N.eqb_neq in G3. auto. }
  split; [|exact FR]. intros L. destruct (LN L) as [L1 L2]. split; [exact L1|].
  rewrite ER, app_length. rewrite E1, app_length in L2. unfold shown_as. destruct (classify_casing U w); rewrite ?map_length; lia.
Qed.

Lemma derived_scalars : forall kd a stem e, wf_affix a -> derives kd a stem e -> scalars stem -> scalars e.
Proof.
  intros kd a stem e (_ & HA & _) H Hs.
  destruct kd; destruct H as (r & -> & ->); apply scalars_app_iff in Hs; apply scalars_app_iff; tauto.
Qed.
Lemma form_scalars : forall v stem flags e, scalars stem -> Form k v stem flags e -> scalars e.
Proof.
  intros v stem flags e Hs H. inversion H as [NA|kd a e' UA AT|s p mid rest e' UA CR AT UP FP EM DE]; subst; [exact Hs| |].
  - destruct UA as (IA & _). destruct AT as (DA & _). exact (@derived_scalars kd _ _ _ (@rules_wf k WC kd a IA) DA Hs).
  - destruct UP as (IA & _). exact (@derived_scalars Pfx _ _ _ (@rules_wf k WC Pfx p IA) DE Hs).
Qed.
Lemma ngram_form_scalars : forall v e, NgramForm v e -> scalars e.
Proof.
  intros v e (stem & flags & I & _ & F). apply (proj1 (Forall_forall _ _) WW) in I. exact (form_scalars (proj1 I) F).
Qed.

(** ** Hyphens *)
(** A part between hyphens was replaced. *)
Definition DashForm (parts : str -> list str -> Prop) (w x : str) : Prop :=
  exists u part v s tmp, w = u ++ part ++ v /\ ~ In 45%N part /\ (u = [] \/ exists u', u = u' ++ [45%N]) /\
    (v = [] \/ exists v', v = 45%N :: v') /\ parts part tmp /\ In s tmp /\ x = u ++ s ++ v.
Lemma dash_push_inv : forall n before after out s r, dash_push sg n before after out s = Ret r ->
  r = out \/ r = out ++ [before ++ s ++ match after with Some a => a | None => [] end].
Proof.
  intros n before after out s r H. unfold dash_push in H.
  match type of H with bindR ?x _ = _ => destruct x as [[f|]| |]; try discriminate end; cbn [bindR] in H.
  - destruct (contains f (o_forbidden opts)); injection H as <-; auto.
  - injection H as <-. auto.
Qed.
Lemma dash_loop_inv : forall n rec m w i out r, i <= length w -> (i = 0 \/ exists u', firstn i w = u' ++ [45%N]) ->
  dash_loop sg n m rec w i out = Ret r ->
  exists l, r = out ++ l /\ Forall (DashForm (fun p t => rec p = Ret t) w) l.
Proof.
  intros n rec. induction m as [|m IH]; intros w i out r Hi HB H; [discriminate|]. cbn [dash_loop] in H.
  assert (SP : forall part v, w = firstn i w ++ part ++ v -> ~ In 45%N part -> (v = [] \/ exists v', v = 45%N :: v') ->
    forall tmp o o', rec part = Ret tmp -> forall after, (match after with Some a => a | None => [] end = v) ->
      foldR (dash_push sg n (firstn i w) after) tmp o = Ret o' ->
      exists l, o' = o ++ l /\ Forall (DashForm (fun p t => rec p = Ret t) w) l).
  { intros part v Ew HP HV tmp o o' ER after EA EF.
    assert (G : forall t o o', incl t tmp -> foldR (dash_push sg n (firstn i w) after) t o = Ret o' ->
      exists l, o' = o ++ l /\ Forall (DashForm (fun p t => rec p = Ret t) w) l).
    { clear o o' EF. induction t as [|s t IHt]; intros o o' IN EF; cbn [foldR] in EF.
      - injection EF as <-. exists []. rewrite app_nil_r. auto.
      - destruct (dash_push sg n (firstn i w) after o s) as [o1| |] eqn:E1; try discriminate. cbn [bindR] in EF.
        destruct (IHt o1 o' (fun x Hx => IN x (or_intror Hx)) EF) as (l & -> & FL).
        apply dash_push_inv in E1. destruct E1 as [-> | ->]; [exists l; auto|].
        eexists (_ :: l). rewrite <- app_assoc. split; [reflexivity|]. constructor; [|exact FL].
        exists (firstn i w), part, v, s, tmp. split; [exact Ew|]. split; [exact HP|]. split.
        { destruct HB as [-> | [u' E']]; [left; reflexivity|right; exists u'; exact E']. }
        split; [exact HV|]. split; [exact ER|]. split; [apply IN; left; reflexivity|]. rewrite <- EA. reflexivity. }
    exact (G tmp o o' (incl_refl _) EF). }
  destruct (find_char (N.eqb 45) (skipn i w)) as [j0|] eqn:EJ; cbn [option_map] in H.
  - apply find_char_some in EJ. destruct EJ as (a & c & b & Es & <- & Hc & HA). apply N.eqb_eq in Hc. subst c.
    assert (NA : ~ In 45%N a) by (intros I; rewrite forallb_forall in HA; specialize (HA _ I); discriminate).
    assert (Ew : w = firstn i w ++ a ++ 45%N :: b) by (rewrite <- Es, firstn_skipn; reflexivity).
    assert (Lf : length (firstn i w) = i) by (rewrite firstn_length; lia).
    assert (ESl : slice w i (i + length a) = a).
    { unfold slice. rewrite Es. replace (i + length a - i) with (length a) by lia. apply firstn_app_exact. reflexivity. }
    rewrite ESl in H.
    assert (ESk : skipn (i + length a) w = 45%N :: b).
    { rewrite Ew, app_assoc. apply skipn_app_exact. rewrite app_length, Lf. reflexivity. }
    rewrite ESk in H.
    destruct (check k n a) as [ok| |] eqn:EK; try discriminate. cbn [bindR] in H.
    match type of H with bindR ?x _ = _ => destruct x as [o1| |] eqn:E1; try discriminate end. cbn [bindR] in H.
    assert (ST : exists l, o1 = out ++ l /\ Forall (DashForm (fun p t => rec p = Ret t) w) l).
    { destruct ok; [injection E1 as <-; exists []; rewrite app_nil_r; auto|].
      destruct (rec a) as [tmp| |] eqn:ER; try discriminate. cbn [bindR] in E1.
      exact (SP a (45%N :: b) Ew NA (or_intror (ex_intro _ b eq_refl)) tmp _ _ ER (Some (45%N :: b)) eq_refl E1). }
    destruct ST as (l1 & -> & F1).
    assert (LW : length w = i + length a + S (length b)).
    { rewrite Ew, !app_length, Lf. cbn [length]. lia. }
    apply IH in H; [|lia|].
    + destruct H as (l2 & -> & F2). exists (l1 ++ l2). rewrite app_assoc. split; [reflexivity|apply Forall_app; auto].
    + right. exists (firstn i w ++ a). rewrite Ew at 1.
      replace (firstn i w ++ a ++ 45%N :: b) with (((firstn i w ++ a) ++ [45%N]) ++ b) by (rewrite <- !app_assoc; reflexivity).
      apply firstn_app_exact. rewrite !app_length, Lf. cbn. lia.
  - assert (NA : ~ In 45%N (skipn i w)).
    { intros I. apply find_char_none in EJ. rewrite forallb_forall in EJ. specialize (EJ _ I). discriminate. }
    destruct (check k n (skipn i w)) as [ok| |] eqn:EK; try discriminate. cbn [bindR] in H.
    match type of H with bindR ?x _ = _ => destruct x as [o1| |] eqn:E1; try discriminate end. cbn [bindR] in H. injection H as <-.
    destruct ok; [injection E1 as <-; exists []; rewrite app_nil_r; auto|].
    destruct (rec (skipn i w)) as [tmp| |] eqn:ER; try discriminate. cbn [bindR] in E1.
    refine (SP (skipn i w) [] _ NA (or_introl eq_refl) tmp _ _ ER None eq_refl E1).
    rewrite app_nil_r, firstn_skipn. reflexivity.
Qed.
Theorem by_dash_inv : forall n rec w out r, by_dash sg n rec w out = Ret r ->
  exists l, r = out ++ l /\ Forall (DashForm (fun p t => rec p = Ret t) w) l /\ (l <> [] -> In 45%N w).
Proof.
  intros n rec w out r H. unfold by_dash in H. destruct (memb 45 w && negb (existsb (memb 45) out)) eqn:E.
  - destruct (@dash_loop_inv n rec (S (length w)) w 0 out r ltac:(lia) (or_introl eq_refl) H) as (l & -> & F). exists l.
    split; [reflexivity|]. split; [exact F|]. intros _. apply andb_true_iff in E. apply memb_In, E.
  - injection H as <-. exists []. rewrite app_nil_r. split; [reflexivity|]. split; [constructor|congruence].
Qed.

(** ** Keeping what the checker accepts *)
Definition Kept (s x : str) : Prop :=
  (x = s /\ In 32%N s) \/ (Passes x /\ (x = s \/ x = lowercase U case s \/ titlecase U case s = Ret x)).
Theorem retain_inv : forall n l r, foldR (retain_step sg n) l [] = Ret r -> forall x, In x r -> exists s, In s l /\ Kept s x.
Proof.
  intros n l r H x Hx.
  refine (@foldR_invariant _ _ (retain_step sg n) (fun o => forall x, In x o -> exists s, In s l /\ Kept s x) l [] r _ _ H x Hx); [|intros ? []].
  clear r H x Hx. intros o s o' Hs IO E x Hx. unfold retain_step in E.
  destruct (memb 32 s) eqn:EM.
  { injection E as <-. apply in_app_iff in Hx. destruct Hx as [Hx|[<-|[]]]; [apply IO, Hx|]. exists s. split; [exact Hs|].
    left. split; [reflexivity|apply memb_In, EM]. }
  destruct (check k n s) as [b1| |] eqn:E1; try discriminate. cbn [bindR] in E. destruct b1.
  { injection E as <-. apply in_app_iff in Hx. destruct Hx as [Hx|[<-|[]]]; [apply IO, Hx|]. exists s. split; [exact Hs|].
    right. split; [exists n; exact E1|auto]. }
  destruct (check k n (lowercase U case s)) as [b2| |] eqn:E2; try discriminate. cbn [bindR] in E. destruct b2.
  { injection E as <-. apply in_app_iff in Hx. destruct Hx as [Hx|[<-|[]]]; [apply IO, Hx|]. exists s. split; [exact Hs|].
    right. split; [exists n; exact E2|auto]. }
  destruct (titlecase U case s) as [t| |] eqn:ET; try discriminate. cbn [bindR] in E.
  destruct (check k n t) as [b3| |] eqn:E3; try discriminate. cbn [bindR] in E. destruct b3; injection E as <-; [|apply IO, Hx].
  apply in_app_iff in Hx. destruct Hx as [Hx|[<-|[]]]; [apply IO, Hx|]. exists s. split; [exact Hs|].
  right. split; [exists n; exact E3|auto].
Qed.

(** ** The whole function *)
(** The recasing of title-case and Pascal-case words. *)
Definition recased (w : str) (a b : list str) : Prop :=
  match classify_casing U w with
  | CInit | CPascal => Forall2 (fun s t => upper_char_at U case s 0 = Ret t) a b
  | _ => b = a
  end.
Lemma convert_inv : forall t w w', conv_table_ok t -> Forall (fun c => scalars (cv_to c)) (ct_inner t) -> scalars w ->
  convert t w = Ret w' -> Converts (ct_inner t) w w' /\ scalars w'.
Proof.
  intros t w w' WT' WS' Hs H. destruct (convert_spec WT' Hs) as (x & E & C). assert (x = w') as <- by congruence.
  split; [exact C|exact (Converts_scalars WS' C Hs)].
Qed.
Theorem impl_inv : forall n m w l, scalars w -> w <> [] -> suggest_impl sg n (S m) w [] = Ret l ->
  exists w', Converts (ct_inner (ad_iconv aff)) w w' /\ scalars w' /\
  ((exists t f g, classify_casing U w' = CNone /\ o_force_upper opts = Some g /\
      check_compound k n AT_BEGIN w' AllowBadForceucase = Ret (Some f) /\ titlecase U case w' = Ret t /\ l = [t]) \/
   exists hq out1 out2 out3 out4 out5,
     by_casing sg n w' [] = Ret (inl (hq, out1)) /\ by_ngram sg w' hq out1 = Ret out2 /\
     by_dash sg n (fun part => suggest_impl sg n m part []) w' out2 = Ret out3 /\ recased w' out3 out4 /\
     (match classify_casing U w' with CInit | CAll => foldR (retain_step sg n) out4 [] = Ret out5 | _ => out5 = out4 end) /\
     Forall2 (fun x y => convert (ad_oconv aff) x = Ret y) (keep_first out5) l).
Proof.
  intros n m w l Hs Hn H. destruct w as [|c w]; [contradiction|]. cbn [suggest_impl] in H.
  destruct (convert (ad_iconv aff) (c :: w)) as [w'| |] eqn:EC; try discriminate. cbn [bindR] in H.
  destruct (convert_inv WI WIS Hs EC) as [CV SW]. exists w'. split; [exact CV|]. split; [exact SW|].
  destruct (by_casing sg n w' []) as [[[hq out1]|o]| |] eqn:E1; try discriminate; cbn [bindR] in H.
  - right. destruct (by_ngram sg w' hq out1) as [out2| |] eqn:E2; try discriminate. cbn [bindR] in H.
    destruct (by_dash sg n (fun part => suggest_impl sg n m part []) w' out2) as [out3| |] eqn:E3; try discriminate. cbn [bindR] in H.
    match type of H with bindR ?x _ = _ => destruct x as [out4| |] eqn:E4; try discriminate end. cbn [bindR] in H.
    match type of H with bindR ?x _ = _ => destruct x as [out5| |] eqn:E5; try discriminate end. cbn [bindR] in H.
    rewrite deduplicate_is in H. cbn [bindR] in H.
    exists hq, out1, out2, out3, out4, out5. split; [reflexivity|]. split; [exact E2|]. split; [exact E3|].
    split; [unfold recased; destruct (classify_casing U w'); try (injection E4 as <-; reflexivity); apply mapR_Forall2, E4|].
    split; [destruct (classify_casing U w'); try (injection E5 as <-; reflexivity); exact E5|]. apply mapR_Forall2, H.
  - left. injection H as <-. unfold by_casing in E1. destruct (classify_casing U w') eqn:EK.
    + destruct (o_force_upper opts) as [g|] eqn:EF.
      * destruct (check_compound k n AT_BEGIN w' AllowBadForceucase) as [[f|]| |] eqn:EX; try discriminate; cbn [bindR] in E1.
        -- destruct (titlecase U case w') as [t| |] eqn:ET; try discriminate. injection E1 as <-. exists t, f, g. auto.
        -- destruct (suggest_low sg n w' []); discriminate.
      * cbn [bindR] in E1. destruct (suggest_low sg n w' []); discriminate.
    + destruct (suggest_low sg n w' []) as [[? ?]| |]; try discriminate. cbn [bindR] in E1.
      destruct (suggest_low sg n (lowercase U case w') _) as [[? ?]| |]; discriminate.
    + repeat (match type of E1 with bindR ?x _ = _ => destruct x as [?| |]; try discriminate end; cbn [bindR] in E1).
    + repeat (match type of E1 with bindR ?x _ = _ => destruct x as [?| |]; try discriminate end; cbn [bindR] in E1).
    + repeat (match type of E1 with bindR ?x _ = _ => destruct x as [?| |]; try discriminate end; cbn [bindR] in E1).
Qed.

(** Every suggestion is a string. *)
Lemma dash_form_scalars : forall (parts : str -> list str -> Prop) w x, scalars w -> (forall p t, scalars p -> parts p t -> Forall scalars t) -> DashForm parts w x -> scalars x.
Proof.
  intros parts w x Hw HP (u & part & v & s & tmp & -> & _ & _ & _ & ER & I & ->).
  apply scalars_app_iff in Hw. destruct Hw as [H1 H2]. apply scalars_app_iff in H2. destruct H2 as [H2 H3].
  pose proof (proj1 (Forall_forall _ _) (HP _ _ H2 ER) s I) as H4.
  apply scalars_app_iff. split; [exact H1|]. apply scalars_app_iff. auto.
Qed.
Lemma Forall2_Forall : forall A B (Q : A -> B -> Prop) (P : A -> Prop) (P' : B -> Prop) l r,
  Forall2 Q l r -> (forall a b, Q a b -> P a -> P' b) -> Forall P l -> Forall P' r.
Proof. intros A B Q P P' l r H X F. induction H; inversion F; subst; constructor; eauto. Qed.

Lemma stages_scalars : forall n m w' hq out1 out2 out3 out4 out5, scalars w' ->
  (forall p t, scalars p -> suggest_impl sg n m p [] = Ret t -> Forall scalars t) ->
  by_casing sg n w' [] = Ret (inl (hq, out1)) -> by_ngram sg w' hq out1 = Ret out2 ->
  by_dash sg n (fun part => suggest_impl sg n m part []) w' out2 = Ret out3 -> recased w' out3 out4 ->
  (match classify_casing U w' with CInit | CAll => foldR (retain_step sg n) out4 [] = Ret out5 | _ => out5 = out4 end) ->
  Forall scalars out1 /\ Forall scalars out2 /\ Forall scalars out3 /\ Forall scalars out4 /\ Forall scalars out5.
Proof.
  intros n m w' hq out1 out2 out3 out4 out5 SW IH E1 E2 E3 E4 E5.
  assert (O1 : Forall scalars out1).
  { assert (CI : (classify_casing U w' <> CAll -> Forall scalars out1) /\
      (classify_casing U w' = CAll -> exists l, out1 = map (uppercase U case) l /\ Forall scalars l)).
    { apply (@casing_invariant scalars w' SW) with (n := n) (hq := hq); [| | | |exact E1].
      - intros v l Hv L. exact (@low_scalars sg WR WG WU WRS WT WK v l (explored_scalars SW Hv) L).
      - intros v Hv _ _. exact (explored_scalars SW Hv).
      - intros a b _ Ew _ _. rewrite Ew in SW. apply scalars_app_iff in SW. destruct SW as [A B]. inversion B; subst.
        apply scalars_app_iff. split; [exact A|]. constructor; [assumption|]. constructor; [reflexivity|assumption].
      - intros u c v _ _ Hp. apply scalars_app_iff in Hp. destruct Hp as [A B]. inversion B as [|? ? B1 B2]; subst. inversion B2; subst.
        apply scalars_app_iff. split; [exact A|]. constructor; [assumption|]. apply scalars_app_iff.
        split; [apply scalars_upper_char; assumption|assumption]. }
    destruct CI as [C1 C2]. destruct (classify_casing U w') eqn:EC; try (apply C1; discriminate).
    destruct (C2 eq_refl) as (l & -> & F). apply Forall_map. eapply Forall_impl; [|exact F]. intros x Hx. apply scalars_upper; assumption. }
  assert (O2 : Forall scalars out2).
  { destruct (by_ngram_inv _ _ _ E2) as (added & -> & F & _). apply Forall_app. split; [exact O1|].
    assert (FA : Forall scalars added) by (eapply Forall_impl; [|exact F]; intros e; apply ngram_form_scalars).
    unfold shown_as. destruct (classify_casing U w'); try exact FA.
    apply Forall_map. eapply Forall_impl; [|exact FA]. intros x Hx. apply scalars_upper; assumption. }
  assert (O3 : Forall scalars out3).
  { destruct (by_dash_inv _ _ _ _ E3) as (dl & -> & F & _). apply Forall_app. split; [exact O2|].
    eapply Forall_impl; [|exact F]. intros x. apply dash_form_scalars; [exact SW|exact IH]. }
  assert (O4 : Forall scalars out4).
  { unfold recased in E4. destruct (classify_casing U w'); try (subst; exact O3);
      (eapply Forall2_Forall; [exact E4| |exact O3]; intros a b E Ha; exact (upper_at_scalars _ Ha E)). }
  assert (O5 : Forall scalars out5).
  { assert (RT : foldR (retain_step sg n) out4 [] = Ret out5 -> Forall scalars out5).
    { intros E. apply Forall_forall. intros x Hx. destruct (retain_inv _ _ E _ Hx) as (s & Is & K).
      pose proof (proj1 (Forall_forall _ _) O4 s Is) as Ss. destruct K as [[-> _]|[_ [-> |[-> |ET]]]]; [exact Ss|exact Ss| |].
      - apply scalars_lower; assumption.
      - exact (title_scalars Ss ET). }
    destruct (classify_casing U w'); try (subst; exact O4); exact (RT E5). }
  auto.
Qed.

Theorem impl_scalars : forall n m w l, scalars w -> suggest_impl sg n m w [] = Ret l -> Forall scalars l.
Proof.
  intros n. induction m as [|m IH]; intros w l Hs H.
  - destruct w; [injection H as <-; constructor|discriminate].
  - destruct w as [|c w]; [injection H as <-; constructor|].
    destruct (@impl_inv n m (c :: w) l Hs ltac:(discriminate) H) as (w' & CV & SW & [(t & f & g & _ & _ & _ & ET & ->)|REST]).
    + constructor; [|constructor]. exact (title_scalars SW ET).
    + destruct REST as (hq & o1 & o2 & o3 & o4 & o5 & E1 & E2 & E3 & E4 & E5 & E6).
      destruct (@stages_scalars n m w' hq o1 o2 o3 o4 o5 SW IH E1 E2 E3 E4 E5) as (_ & _ & _ & _ & O5).
      eapply Forall2_Forall; [exact E6| |].
      * intros a b E Ha. exact (proj2 (convert_inv WO WOS Ha E)).
      * apply Forall_forall. intros x Hx. apply (proj1 (Forall_forall _ _) O5). apply keep_first_In, Hx.
Qed.

(** The same with the conversions described. *)
Theorem suggest_inv : forall n w l, scalars w -> w <> [] -> suggest sg n w [] = Ret l -> (blen w <= 360)%N ->
  exists w', Converts (ct_inner (ad_iconv aff)) w w' /\ scalars w' /\
  ((exists t f g, classify_casing U w' = CNone /\ o_force_upper opts = Some g /\
      check_compound k n AT_BEGIN w' AllowBadForceucase = Ret (Some f) /\ titlecase U case w' = Ret t /\ l = [t]) \/
   exists m hq out1 out2 out3 out4 out5,
     by_casing sg n w' [] = Ret (inl (hq, out1)) /\ by_ngram sg w' hq out1 = Ret out2 /\
     by_dash sg n (fun part => suggest_impl sg n m part []) w' out2 = Ret out3 /\ recased w' out3 out4 /\
     (match classify_casing U w' with CInit | CAll => foldR (retain_step sg n) out4 [] = Ret out5 | _ => out5 = out4 end) /\
     Forall scalars out5 /\ Forall2 (Converts (ct_inner (ad_oconv aff))) (keep_first out5) l).
Proof.
  intros n w l Hs Hn H HL. unfold suggest in H. replace (max_word_len <? blen w)%N with false in H by (symmetry; apply N.ltb_ge; exact HL).
  destruct n as [|m]; [destruct w; [contradiction|discriminate]|].
  destruct (@impl_inv (S m) m w l Hs Hn H) as (w' & CV & SW & [X|REST]); exists w'; (split; [exact CV|]); (split; [exact SW|]); [left; exact X|right].
  destruct REST as (hq & o1 & o2 & o3 & o4 & o5 & E1 & E2 & E3 & E4 & E5 & E6). exists m, hq, o1, o2, o3, o4, o5.
  destruct (@stages_scalars (S m) m w' hq o1 o2 o3 o4 o5 SW (fun p t => @impl_scalars (S m) m p t) E1 E2 E3 E4 E5) as (_ & _ & _ & _ & O5).
  repeat (split; [assumption|]).
  assert (K : Forall scalars (keep_first o5)).
  { apply Forall_forall. intros x Hx. apply (proj1 (Forall_forall _ _) O5). apply keep_first_In, Hx. }
  clear E5 O5 H. induction E6 as [|a b la lb Hab _ IHF]; [constructor|]. inversion K; subst.
  constructor; [|auto]. eapply convert_inv; eassumption.
Qed.
End Impl.
