(** Which compounds are found when the boundary checks are in force (checker.rs
    1387-2142): with parts that can be read in one way only, the search finds a compound
    exactly when there is one, whatever CHECKCOMPOUNDDUP, CHECKCOMPOUNDTRIPLE,
    CHECKCOMPOUNDCASE, SIMPLIFIEDTRIPLE, FORCEUCASE and CHECKCOMPOUNDPATTERN say; also
    with CHECKCOMPOUNDREP if the rest of a compound always begins with the same part. *)
From Coq Require Import List NArith ZArith Lia Bool Arith.
From Coq Require Import ZifyBool ZifyNat ZifyN.
From Verif Require Import Base Utf8 Unicode Flags Condition Affix CompoundRule Conversion Aff Checker AffixSpec Rep CompoundSpec CompoundTotal.
Import ListNotations.
Set Implicit Arguments.

Section Exact.
Variable k : checker.
Hypothesis WFC : wf_compound k.
Notation WF := (wfc_checker WFC).
Notation A := (ck_aff k).
Notation opts := (ad_options (ck_aff k)).
Notation U := (ck_u k).
Notation entry := (fun stem flags => In flags (ck_get k stem)).

Hypothesis SH : Shrinks A.
Hypothesis STRICT : strict k = true.
Hypothesis NOMAX : o_max_words opts = None.
Hypothesis NOEMPTY : forall f, ~ entry [] f.
(** The recursive call reports the first compound it finds only.  A check that looks at the
    entry after the boundary may reject that one and miss another. *)
Definition Blind : Prop := o_check_rep opts = false /\ forall p, In p (ad_patterns A) -> cp_second_flag p = None.
Definition OneFirst : Prop := forall fu l r w2 e2 ps w2' e2' ps',
  Compound U A entry fu AT_MIDDLE l r ((w2, e2) :: ps) -> Compound U A entry fu AT_MIDDLE l r ((w2', e2') :: ps') -> e2 = e2'.
Hypothesis FIRST : Blind \/ OneFirst.
Hypothesis UNIQUE : forall m w e1 e2, Part A entry m w e1 -> Part A entry m w e2 -> e1 = e2.

Lemma part_exact : forall m w e, scalars w -> Part A entry m w e -> check_word_in_compound k m w = Ret (Some e).
Proof.
  intros m w e Hw H. destruct (@part_complete k WFC STRICT m w e Hw H) as [e' E]. rewrite E.
  destruct (@part_sound k WFC m w e' Hw E) as [H' _]. rewrite (UNIQUE H H'). reflexivity.
Qed.
Lemma part_wf : forall m w e, scalars w -> Part A entry m w e -> wf_flagset (cr_flags e).
Proof. intros m w e Hw H. exact (proj2 (@part_sound k WFC m w e Hw (part_exact Hw H))). Qed.

Lemma rep_true : forall w, scalars w -> rep_check k w = true -> o_check_rep opts = true /\ Similar A entry w.
Proof.
  intros w Hw H. unfold rep_check in H. apply andb_true_iff in H. destruct H as [H1 H2].
  apply (@similar_spec k WFC w Hw) in H2. auto.
Qed.
Lemma slice_stem : forall (w s t : str) start i, start <= i -> i <= length w -> skipn i w = s ++ t ->
  slice w start (i + length s) = slice w start i ++ s.
Proof.
  intros w s t start i Hs Hi E. unfold slice at 1. rewrite (skipn_split w Hs), E.
  assert (length (slice w start i) = i - start) as L by (rewrite slice_length; lia).
  rewrite firstn_app, firstn_all2 by lia. f_equal. rewrite L. apply firstn_app_exact. lia.
Qed.
Lemma rep2_true : forall w start i e2, scalars w -> start <= i -> i <= length w -> rep_check_part2 k w start i e2 = true ->
  o_check_rep opts = true /\ exists s, skipn i w = cr_stem e2 ++ s /\ Similar A entry (slice w start i ++ cr_stem e2).
Proof.
  intros w start i e2 Hw Hs Hi H. unfold rep_check_part2 in H. rewrite !andb_true_iff in H. destruct H as [[H1 H2] H3].
  split; [exact H1|]. apply starts_with_spec in H2. destruct H2 as [s E]. exists s. split; [exact E|].
  rewrite <- (@slice_stem w _ s start i Hs Hi E). apply (@similar_spec k WFC); [apply scalars_slice; exact Hw|exact H3].
Qed.
Lemma no_max : forall n, reaches_max k n = false.
Proof. intro. unfold reaches_max. rewrite NOMAX. reflexivity. Qed.
Lemma no_max' : forall n, exceeds_max k n = false.
Proof. intro. unfold exceeds_max. rewrite NOMAX. reflexivity. Qed.

(** Another first part satisfies the same checks. *)
Lemma join_any : forall l r m p1 e1 second Q R, Blind -> Join U A entry l r m p1 e1 second Q R ->
  forall e2 e2', Q e2 -> Q e2'.
Proof.
  intros l r m p1 e1 second Q R [_ NS] HJ e2 e2'.
  assert (PA : forall x y, PatternAt A x y e1 e2' -> PatternAt A x y e1 e2).
  { intros x y (p & Hp & H1 & H2 & H3 & _ & H5). exists p. conj; try assumption. rewrite (NS _ Hp). intros f X. discriminate. }
  destruct HJ; intro HQ.
  - intro X. exact (HQ (PA _ _ X)).
  - intro X. exact (HQ (PA _ _ X)).
  - rewrite (NS _ H). intros f X. discriminate.
  - rewrite (NS _ H0). intros f X. discriminate.
Qed.

(** What is wanted of the second part of a compound. *)
Definition Taken (fu : forceucase) (rest : str) (e1 e2 : cresult) : Prop :=
  ~ Forbidden A e2 /\ (o_check_duplicate opts = true -> e1 <> e2) /\
  (fu = ForbidBadForceucase -> ~ marked (o_force_upper opts) (cr_flags e2)) /\
  (o_check_rep opts = true -> ~ Similar A entry rest).

Lemma taken_dup : forall fu rest e1 e2, Taken fu rest e1 e2 -> o_check_duplicate opts && cr_eqb e1 e2 = false.
Proof.
  intros fu rest e1 e2 (_ & H & _). destruct (o_check_duplicate opts); [|reflexivity]. cbn [andb].
  apply not_true_is_false. rewrite cr_eqb_eq. apply H. reflexivity.
Qed.
Lemma taken_force : forall fu rest e1 e2, wf_flagset (cr_flags e2) -> Taken fu rest e1 e2 ->
  fu_forbid fu && has_flag (cr_flags e2) (o_force_upper opts) = false.
Proof.
  intros fu rest e1 e2 W (_ & _ & H & _). destruct fu; [|reflexivity]. cbn [fu_forbid andb].
  apply not_true_is_false. rewrite has_flag_spec by exact W. apply H. reflexivity.
Qed.
Lemma taken_forbidden : forall fu rest e1 e2, wf_flagset (cr_flags e2) -> Taken fu rest e1 e2 -> is_forbidden k (cr_flags e2) = false.
Proof. intros fu rest e1 e2 W (H & _). apply forbidden_spec; assumption. Qed.
Lemma taken_rep : forall fu rest e1 e2, scalars rest -> Taken fu rest e1 e2 -> rep_check k rest = false.
Proof.
  intros fu rest e1 e2 Hs (_ & _ & _ & H). apply not_true_is_false. intro X. apply rep_true in X; [|exact Hs].
  exact (H (proj1 X) (proj2 X)).
Qed.

Lemma taken_second : forall fu word rw i e1 e2, i <= length word -> scalars rw -> wf_flagset (cr_flags e1) -> wf_flagset (cr_flags e2) ->
  Taken fu rw e1 e2 -> ~ PatternAt A (firstn i word) (skipn i word) e1 e2 -> second_rejected k word rw i fu e1 e2 = false.
Proof.
  intros fu word rw i e1 e2 Hi Hr W1 W2 HT HP. unfold second_rejected.
  rewrite (taken_forbidden W2 HT), (taken_dup HT), (taken_force W2 HT), (taken_rep Hr HT). cbn [orb]. rewrite !orb_false_r.
  apply not_true_is_false. rewrite fp_spec by assumption. exact HP.
Qed.

(** ** What a miss says *)
Section Miss.
Variable rec : str -> nat -> nat -> forceucase -> Res (option cresult).
Variables (m : mode) (word : str) (start i : nat) (fu : forceucase).

Lemma classic_miss : forall num e1, check_word_in_compound k m (slice word start i) = Ret (Some e1) ->
  is_forbidden k (cr_flags e1) = false -> o_check_triple opts && are_three_chars_equal word i = false ->
  o_check_case opts && has_uppercase_at_boundary U word i = false ->
  compound_classic k rec m word start i num fu = Ret None ->
  (forall e2, check_word_in_compound k AT_END (skipn i word) = Ret (Some e2) ->
     second_rejected k word (skipn start word) i fu e1 e2 = true) /\
  try_recursive k rec word start i (add_part k num e1) fu e1 = Ret None.
Proof.
  intros num e1 E1 F T C H. unfold compound_classic in H. rewrite E1 in H. cbn [bindR] in H. rewrite F, T, C in H.
  destruct (check_word_in_compound k AT_END (skipn i word)) as [[e2|]| |]; cbn [bindR] in H; try discriminate.
  - destruct (second_rejected k word (skipn start word) i fu e1 e2) eqn:ES.
    + split; [intros e2' X; injection X as <-; exact ES|exact H].
    + rewrite no_max in H. discriminate.
  - split; [intros; discriminate|exact H].
Qed.

Lemma recursive_miss : forall num e1, try_recursive k rec word start i num fu e1 = Ret None ->
  (forall e2, rec word i (num + 1) fu = Ret (Some e2) ->
     forbidden_by_patterns k word i e1 e2 = true \/ rep_check k (skipn start word) = true \/ rep_check_part2 k word start i e2 = true) /\
  try_simplified_triple k rec word start i num fu e1 = Ret None.
Proof.
  intros num e1 H. unfold try_recursive in H.
  destruct (rec word i (num + 1) fu) as [[e2|]| |]; cbn [bindR] in H; try discriminate.
  - destruct (forbidden_by_patterns k word i e1 e2) eqn:EP.
    + split; [intros e2' X; injection X as <-; auto|exact H].
    + destruct (rep_check k (skipn start word) || rep_check_part2 k word start i e2) eqn:ER; [|discriminate].
      apply orb_true_iff in ER. split; [intros e2' X; injection X as <-; auto|exact H].
  - split; [intros; discriminate|exact H].
Qed.

(** The doubled letter before the boundary. *)
Lemma doubled_prev : forall (w : str) j c x, j <= length w -> firstn j w = x ++ [c; c] ->
  exists pi, prev_codepoint w j = Some (S pi, c) /\ prev_codepoint w (S pi) = Some (pi, c) /\
  firstn (S pi) w ++ c :: skipn (S pi) w = firstn j w ++ c :: skipn j w.
Proof.
  intros w j c x Hj Hx. exists (length x).
  assert (length (x ++ [c; c]) = j) as Lx by (rewrite <- Hx, firstn_length; lia).
  rewrite app_length in Lx. cbn [length] in Lx.
  assert (firstn (S (length x)) w = x ++ [c]) as Fx.
  { replace (firstn (S (length x)) w) with (firstn (S (length x)) (firstn j w)) by (rewrite firstn_firstn; f_equal; lia).
    rewrite Hx. replace (x ++ [c; c]) with ((x ++ [c]) ++ [c]) by (rewrite <- app_assoc; reflexivity).
    apply firstn_app_exact. rewrite app_length. cbn. lia. }
  split; [|split].
  - unfold prev_codepoint. rewrite Hx, rev_app_distr. cbn [rev app]. f_equal. f_equal. cbn [length]. rewrite rev_length. reflexivity.
  - unfold prev_codepoint. rewrite Fx, rev_app_distr. cbn [rev app]. rewrite rev_length. reflexivity.
  - rewrite Fx. rewrite (@skipn_split w (S (length x)) j) by lia.
    assert (slice w (S (length x)) j = [c]) as ->; [|rewrite Hx, <- !app_assoc; reflexivity].
    pose proof (@firstn_split w (S (length x)) j ltac:(lia)) as X. rewrite Fx, Hx in X.
    replace (x ++ [c; c]) with ((x ++ [c]) ++ [c]) in X by (rewrite <- app_assoc; reflexivity).
    apply app_inv_head in X. symmetry. exact X.
Qed.

Lemma simplified_miss : forall num e1 c x, o_simplified_triple opts = true -> i <= length word ->
  firstn i word = x ++ [c; c] ->
  try_simplified_triple k rec word start i num fu e1 = Ret None ->
  let triple := firstn i word ++ c :: skipn i word in
  (forall e2, check_word_in_compound k AT_END (skipn i triple) = Ret (Some e2) ->
     second_rejected k triple (skipn start word) i fu e1 e2 = true) /\
  (forall e2, rec triple i (num + 1) fu = Ret (Some e2) ->
     forbidden_by_patterns k triple i e1 e2 = true \/ rep_check k (skipn start word) = true \/ rep_check_part2 k word start i e2 = true).
Proof.
  intros num e1 c x HT Hi Hx H triple. unfold try_simplified_triple in H. rewrite HT in H. cbn [negb] in H.
  destruct (@doubled_prev word i c x Hi Hx) as (pi & E1 & E2 & E3). rewrite E1 in H. cbn [Nat.eqb] in H.
  rewrite E2, N.eqb_refl in H. cbn [negb] in H. cbv zeta in H. rewrite E3 in H. fold triple in H. clearbody triple.
  assert (TR : triple_recursive k rec triple word start i num fu e1 = Ret None ->
    forall e2, rec triple i (num + 1) fu = Ret (Some e2) ->
      forbidden_by_patterns k triple i e1 e2 = true \/ rep_check k (skipn start word) = true \/ rep_check_part2 k word start i e2 = true).
  { intros X e2 E. unfold triple_recursive in X. rewrite E in X. cbn [bindR] in X.
    destruct (forbidden_by_patterns k triple i e1 e2); [auto|].
    destruct (rep_check k (skipn start word) || rep_check_part2 k word start i e2) eqn:ER; [|discriminate].
    apply orb_true_iff in ER. auto. }
  destruct (check_word_in_compound k AT_END (skipn i triple)) as [[e2|]| |]; cbn [bindR] in H; try discriminate.
  - destruct (second_rejected k triple (skipn start word) i fu e1 e2) eqn:ES.
    + split; [intros e2' X; injection X as <-; exact ES|exact (TR H)].
    + rewrite no_max' in H. discriminate.
  - split; [intros; discriminate|exact (TR H)].
Qed.

Definition pattern_second (p : compound_pattern) (e1 e2 : cresult) : bool :=
  is_forbidden k (cr_flags e2) || flag_missing (cp_second_flag p) (cr_flags e2) ||
  (o_check_duplicate opts && cr_eqb e1 e2) || rep_check k (skipn start word) ||
  (fu_forbid fu && has_flag (cr_flags e2) (o_force_upper opts)).

Lemma plain_miss : forall p txt j num e1 cont u, pattern_plain k p word txt start j num fu e1 cont = Ret (inr u) ->
  (forall e2, check_word_in_compound k AT_END (skipn j txt) = Ret (Some e2) -> pattern_second p e1 e2 = true) /\
  cont tt = Ret (inr u).
Proof.
  intros p txt j num e1 cont u H. unfold pattern_plain in H.
  destruct (check_word_in_compound k AT_END (skipn j txt)) as [[e2|]| |]; cbn [bindR] in H; try discriminate.
  - fold (pattern_second p e1 e2) in H. destruct (pattern_second p e1 e2) eqn:EP; [|rewrite no_max in H; discriminate].
    split; [|exact H]. intros e2' X. injection X as <-. exact EP.
  - split; [intros; discriminate|exact H].
Qed.

Lemma step_no_none : forall num p, pattern_step k rec m word start i num fu p <> Ret (inl None).
Proof.
  intros num p H. unfold pattern_step, pattern_plain in H. rewrite !no_max in H.
  repeat (match type of H with
  | (match ?x with _ => _ end) = _ => destruct x; try discriminate
  | bindR ?x _ = _ => destruct x as [?| |]; cbn [bindR] in H; try discriminate
  | context [reaches_max k ?n] => rewrite (no_max n) in H
  | (let _ := _ in _) = _ => cbv zeta in H
  end).
Qed.

Lemma loop_miss : forall num ps, pattern_loop k rec m word start i num fu ps = Ret None ->
  forall p, In p ps -> pattern_step k rec m word start i num fu p = Ret (inr tt).
Proof.
  intros num ps. induction ps as [|q ps IH]; intros H p Hp; [destruct Hp|]. cbn [pattern_loop] in H.
  pose proof (@step_no_none num q) as NN.
  destruct (pattern_step k rec m word start i num fu q) as [[o|[]]| |] eqn:E; cbn [bindR] in H; try discriminate.
  - injection H as ->. congruence.
  - destruct Hp as [<-|Hp]; [exact E|exact (IH H p Hp)].
Qed.

Lemma step_miss : forall num p rep e1, In p (ad_patterns A) -> cp_replacement p = Some rep -> i <= length word ->
  starts_with rep (skipn i word) = true ->
  let scratch := firstn i word ++ (cp_begin p ++ cp_end p) ++ skipn (i + length rep) word in
  let j := i + length (cp_begin p) in
  check_word_in_compound k m (slice scratch start j) = Ret (Some e1) ->
  is_forbidden k (cr_flags e1) = false -> flag_missing (cp_first_flag p) (cr_flags e1) = false ->
  o_check_triple opts && are_three_chars_equal scratch j = false ->
  pattern_step k rec m word start i num fu p = Ret (inr tt) ->
  (forall e2, check_word_in_compound k AT_END (skipn j scratch) = Ret (Some e2) -> pattern_second p e1 e2 = true) /\
  (forall e2, rec scratch j (num + 1) fu = Ret (Some e2) ->
     flag_missing (cp_second_flag p) (cr_flags e2) = true \/ rep_check k (skipn start word) = true \/
     rep_check_part2 k scratch start j e2 = true) /\
  (forall c x, o_simplified_triple opts = true -> firstn j scratch = x ++ [c; c] ->
    let triple := firstn j scratch ++ c :: skipn j scratch in
    (forall e2, check_word_in_compound k AT_END (skipn j triple) = Ret (Some e2) -> pattern_second p e1 e2 = true) /\
    (forall e2, rec triple j (num + 1) fu = Ret (Some e2) ->
     flag_missing (cp_second_flag p) (cr_flags e2) = true \/ rep_check k (skipn start word) = true \/
     (o_check_rep opts = true /\ starts_with (cr_stem e2) (skipn j triple) = true /\
      is_rep_similar k (slice scratch start (j + length (cr_stem e2) - 1)) = true))).
Proof.
  intros num p rep e1 Hp Hrep Hi Hst scratch j E1 F1 G1 T1 H. unfold pattern_step in H.
  rewrite Hrep, Hst in H. cbn [negb] in H. fold scratch in H. fold j in H. rewrite E1 in H. cbn [bindR] in H.
  rewrite F1, G1, T1 in H.
  apply plain_miss in H. destruct H as [M1 H]. split; [exact M1|].
  assert (Lj : j <= length scratch) by (unfold scratch, j; rewrite !app_length, firstn_length; lia).
  assert (SPL : (forall e2, rec scratch j (num + 1) fu = Ret (Some e2) ->
     flag_missing (cp_second_flag p) (cr_flags e2) = true \/ rep_check k (skipn start word) = true \/
     rep_check_part2 k scratch start j e2 = true) /\
    (if negb (o_simplified_triple opts) then Ret (inr tt)
              else match prev_codepoint scratch j with
              | None => Ret (inr tt)
              | Some (pi, pc) =>
                  if (pi =? 0)%nat then Ret (inr tt)
                  else match prev_codepoint scratch pi with
                  | None => Ret (inr tt)
                  | Some (_, pc2) =>
                      if negb (pc =? pc2)%N then Ret (inr tt)
                      else
                        let triple := firstn j scratch ++ pc :: skipn j scratch in
                        pattern_plain k p word triple start j num fu e1 (fun _ =>
                        r <- rec triple j (num + 1) fu ;;
                        match r with
                        | None => Ret (inr tt)
                        | Some e2 =>
                            if flag_missing (cp_second_flag p) (cr_flags e2) then Ret (inr tt)
                            else if rep_check k (skipn start word) then Ret (inr tt)
                            else if o_check_rep opts && starts_with (cr_stem e2) (skipn j triple) &&
                                    (let e := j + length (cr_stem e2) - 1 in
                                     (start <=? e)%nat && (e <=? length scratch)%nat &&
                                     is_rep_similar k (slice scratch start e))
                            then Ret (inr tt)
                            else Ret (inl (Some e1))
                        end)
                  end
              end) = (Ret (inr tt) : Res (option cresult + unit))).
  { destruct (rec scratch j (num + 1) fu) as [[e2|]| |]; cbn [bindR] in H; try discriminate.
    - destruct (flag_missing (cp_second_flag p) (cr_flags e2)) eqn:X1; cbn [negb andb] in H.
      { split; [|exact H]. intros e2' X. injection X as <-. auto. }
      destruct (rep_check k (skipn start word) || rep_check_part2 k scratch start j e2) eqn:X2; cbn [negb] in H; [|discriminate].
      apply orb_true_iff in X2. split; [|exact H]. intros e2' X. injection X as <-. auto.
    - split; [intros; discriminate|exact H]. }
  clear H. destruct SPL as [M2 H]. split; [exact M2|]. intros c x HT Hx triple. rewrite HT in H. cbn [negb] in H.
  destruct (@doubled_prev scratch j c x Lj Hx) as (pi & P1 & P2 & _). rewrite P1 in H. cbn [Nat.eqb] in H.
  rewrite P2, N.eqb_refl in H. cbn [negb] in H. cbv zeta in H. fold triple in H. clearbody triple.
  apply plain_miss in H. destruct H as [M3 H]. split; [exact M3|].
  intros e2 X. rewrite X in H. cbn [bindR] in H.
  destruct (flag_missing (cp_second_flag p) (cr_flags e2)); [auto|]. destruct (rep_check k (skipn start word)); [auto|].
  match type of H with (if ?b then _ else _) = _ => destruct b eqn:EB end; [|discriminate].
  rewrite !andb_true_iff in EB. tauto.
Qed.
End Miss.

(** ** A miss at a boundary *)
Section Boundary.
Variables (fu : forceucase) (m : mode) (left rest p1 : str) (e1 : cresult) (r : str).
Hypothesis HP : Part A entry m p1 e1.
Hypothesis HF : ~ Forbidden A e1.
Hypothesis Sl : scalars left.
Hypothesis Sr : scalars rest.
Variables fuel num : nat.
Notation rec := (compound_middle k fuel).
Hypothesis EI1 : forall i, In i (within (left ++ rest) (length left) (min_chars k)) ->
  compound_classic k rec m (left ++ rest) (length left) i num fu = Ret None /\
  pattern_loop k rec m (left ++ rest) (length left) i num fu (ad_patterns A) = Ret None.

Lemma rec_wf : forall w s n e, scalars w -> s <= length w -> rec w s n fu = Ret (Some e) -> wf_flagset (cr_flags e).
Proof. intros w s n e Hw Hs H. exact (proj1 (@middle_sound k WFC fuel w s n fu e Hw Hs H)). Qed.

Lemma part_stem : forall m' w e, Part A entry m' w e -> cr_stem e <> [].
Proof.
  intros m' w e [[H|[(kd & a & H & _)|(p & s & H & _)]] _] E.
  - destruct H as (H & E' & _). rewrite <- E', E in H. exact (NOEMPTY _ H).
  - unfold OneAffix in H. rewrite E in H. decompose [and] H. eapply NOEMPTY; eassumption.
  - unfold PrefixSuffix in H. rewrite E in H. decompose [and] H. eapply NOEMPTY; eassumption.
Qed.
Lemma rec_stem : forall w s n e, scalars w -> s <= length w -> rec w s n fu = Ret (Some e) -> cr_stem e <> [].
Proof.
  intros w s n e Hw Hs H. destruct (@middle_sound k WFC fuel w s n fu e Hw Hs H) as (_ & w2 & ps & HC & _).
  inversion HC; subst; eapply part_stem; eassumption.
Qed.

Definition RepOK (R : cresult -> Prop) (e2 : cresult) : Prop := o_check_rep opts = true -> ~ Similar A entry rest /\ R e2.

Lemma boundary_miss : rest = p1 ++ r -> min_chars k <= length p1 -> min_chars k <= length r ->
  BoundaryOK U A (left ++ p1) r ->
  (forall e2, Part A entry AT_END r e2 -> Taken fu rest e1 e2 -> ~ PatternAt A (left ++ p1) r e1 e2 -> False) /\
  exists n,
  (forall e2, rec (left ++ rest) (length (left ++ p1)) (n + 1) fu = Ret (Some e2) -> ~ PatternAt A (left ++ p1) r e1 e2 ->
     RepOK (fun e2 => forall s, r = cr_stem e2 ++ s -> ~ Similar A entry (p1 ++ cr_stem e2)) e2 -> False) /\
  (forall c x, o_simplified_triple opts = true -> left ++ p1 = x ++ [c; c] -> scalars ((left ++ p1) ++ c :: r) ->
    (forall e2, Part A entry AT_END (c :: r) e2 -> Taken fu rest e1 e2 -> ~ PatternAt A (left ++ p1) (c :: r) e1 e2 -> False) /\
    (forall e2, rec ((left ++ p1) ++ c :: r) (length (left ++ p1)) (n + 1) fu = Ret (Some e2) -> ~ PatternAt A (left ++ p1) (c :: r) e1 e2 ->
       RepOK (fun e2 => forall s, r = cr_stem e2 ++ s -> ~ Similar A entry (p1 ++ cr_stem e2)) e2 -> False)).
Proof.
  intros E Hm1 Hm2 [HB1 HB2]. pose proof (min_pos WFC) as MP.
  set (word := left ++ rest) in *. set (i := length (left ++ p1)) in *.
  assert (word = (left ++ p1) ++ r) as EW by (unfold word; rewrite E, app_assoc; reflexivity).
  assert (firstn i word = left ++ p1) as F by (rewrite EW; apply firstn_app_exact; reflexivity).
  assert (skipn i word = r) as Sk by (rewrite EW; apply skipn_app_exact; reflexivity).
  assert (slice word (length left) i = p1) as SL by
    (unfold slice, word; rewrite skipn_app_exact by reflexivity; rewrite E; unfold i; rewrite app_length;
     apply firstn_app_exact; lia).
  assert (length word = length left + length rest) as LW by (unfold word; apply app_length).
  assert (length rest = length p1 + length r) as LR by (rewrite E; apply app_length).
  assert (i = length left + length p1) as LI by (apply app_length).
  assert (In i (within word (length left) (min_chars k))) as Hin by (apply within_In; lia).
  assert (scalars p1 /\ scalars r) as [Sp1 Srr] by (rewrite E in Sr; apply Forall_app; exact Sr).
  assert (scalars word) as Sw by (apply Forall_app; split; assumption).
  pose proof (part_wf Sp1 HP) as W1.
  assert (skipn (length left) word = rest) as Rw by (apply skipn_app_exact; reflexivity).
  destruct (EI1 _ Hin) as [EC _].
  destruct (@classic_miss rec m word (length left) i fu num e1) as [C1 C2]; try assumption.
  { rewrite SL. apply part_exact; assumption. }
  { apply forbidden_spec; assumption. }
  { destruct (o_check_triple opts); [|reflexivity]. cbn [andb]. apply not_true_is_false. rewrite three_chars_spec, F, Sk. apply HB1. reflexivity. }
  { destruct (o_check_case opts); [|reflexivity]. cbn [andb]. apply not_true_is_false. rewrite uppercase_boundary_spec, F, Sk. apply HB2. reflexivity. }
  split.
  - intros e2 HP2 HT HQ. pose proof (part_wf Srr HP2) as W2.
    rewrite Rw in C1.
    assert (second_rejected k word rest i fu e1 e2 = true) as X by (apply C1; rewrite Sk; apply part_exact; assumption).
    rewrite taken_second in X; try assumption; [discriminate|lia|rewrite F, Sk; exact HQ].
  - exists (add_part k num e1). destruct (@recursive_miss rec word (length left) i fu _ _ C2) as [C3 C4]. split.
    + intros e2 X HQ HR. pose proof (@rec_wf word i _ e2 Sw ltac:(lia) X) as W2. rewrite Rw in C3.
      destruct (C3 e2 X) as [Y|[Y|Y]].
      * apply HQ. rewrite <- F, <- Sk. apply fp_spec; try assumption. lia.
      * apply rep_true in Y; [|exact Sr]. destruct Y as [Y1 Y2]. exact (proj1 (HR Y1) Y2).
      * apply rep2_true in Y; [|exact Sw|lia|lia]. destruct Y as [Y1 (s & Y2 & Y3)]. rewrite Sk in Y2. rewrite SL in Y3.
        exact (proj2 (HR Y1) s Y2 Y3).
    + intros c x HT Hx SCT. rewrite <- F in Hx.
      destruct (@simplified_miss rec m word (length left) i fu (add_part k num e1) e1 c x HT ltac:(lia) Hx C4) as [C5 C6]. cbv zeta in C5, C6.
      rewrite F, Sk in C5, C6. set (triple := (left ++ p1) ++ c :: r) in *.
      assert (firstn i triple = left ++ p1) as FT by (apply firstn_app_exact; reflexivity).
      assert (skipn i triple = c :: r) as ST by (apply skipn_app_exact; reflexivity).
      assert (i <= length triple) as LT by (unfold triple; rewrite app_length; fold i; lia).
      assert (scalars (c :: r)) as Sc by (apply Forall_app in SCT; tauto).
      clearbody triple. split.
      * intros e2 HP2 HTk HQ. pose proof (part_wf Sc HP2) as W2.
        rewrite Rw in C5.
        assert (second_rejected k triple rest i fu e1 e2 = true) as X by (apply C5; rewrite ST; apply part_exact; assumption).
        rewrite taken_second in X; try assumption; [discriminate|rewrite FT, ST; exact HQ].
      * intros e2 X HQ HR. pose proof (@rec_wf triple i _ e2 SCT LT X) as W2. rewrite Rw in C6.
        destruct (C6 e2 X) as [Y|[Y|Y]].
        -- apply HQ. rewrite <- FT, <- ST. apply fp_spec; assumption.
        -- apply rep_true in Y; [|exact Sr]. destruct Y as [Y1 Y2]. exact (proj1 (HR Y1) Y2).
        -- apply rep2_true in Y; [|exact Sw|lia|lia]. destruct Y as [Y1 (s & Y2 & Y3)]. rewrite Sk in Y2. rewrite SL in Y3.
           exact (proj2 (HR Y1) s Y2 Y3).
Qed.

Lemma pattern_miss : forall pat rep q, In pat (ad_patterns A) -> cp_replacement pat = Some rep ->
  rest = q ++ rep ++ r -> p1 = q ++ cp_begin pat ->
  min_chars k <= length q -> min_chars k <= length (rep ++ r) ->
  opt_in (cp_first_flag pat) (cr_flags e1) ->
  (o_check_triple opts = true -> ~ TripleAt (left ++ p1) (cp_end pat ++ r)) ->
  (forall e2, Part A entry AT_END (cp_end pat ++ r) e2 -> Taken fu rest e1 e2 -> opt_in (cp_second_flag pat) (cr_flags e2) -> False) /\
  (forall e2, scalars ((left ++ p1) ++ cp_end pat ++ r) ->
     rec ((left ++ p1) ++ cp_end pat ++ r) (length (left ++ p1)) (num + 1) fu = Ret (Some e2) ->
     opt_in (cp_second_flag pat) (cr_flags e2) ->
     RepOK (fun e2 => forall s, cp_end pat ++ r = cr_stem e2 ++ s -> ~ Similar A entry (p1 ++ cr_stem e2)) e2 -> False) /\
  (forall c x, o_simplified_triple opts = true -> left ++ p1 = x ++ [c; c] -> scalars ((left ++ p1) ++ c :: cp_end pat ++ r) ->
    (forall e2, Part A entry AT_END (c :: cp_end pat ++ r) e2 -> Taken fu rest e1 e2 -> opt_in (cp_second_flag pat) (cr_flags e2) -> False) /\
    (forall e2, rec ((left ++ p1) ++ c :: cp_end pat ++ r) (length (left ++ p1)) (num + 1) fu = Ret (Some e2) ->
     opt_in (cp_second_flag pat) (cr_flags e2) ->
     RepOK (fun e2 => forall t s, cr_stem e2 = c :: t -> cp_end pat ++ r = t ++ s -> ~ Similar A entry (p1 ++ t)) e2 -> False)).
Proof.
  intros pat rep q Hpat Hrep E Eq Hm1 Hm2 Hff HT3. pose proof (min_pos WFC) as MP.
  set (word := left ++ rest) in *.
  assert (word = (left ++ q) ++ rep ++ r) as EW by (unfold word; rewrite E, app_assoc; reflexivity).
  set (i := length (left ++ q)) in *.
  assert (firstn i word = left ++ q) as F by (rewrite EW; apply firstn_app_exact; reflexivity).
  assert (skipn i word = rep ++ r) as Sk by (rewrite EW; apply skipn_app_exact; reflexivity).
  assert (skipn (i + length rep) word = r) as Sk2 by (rewrite <- skipn_skipn', Sk; apply skipn_app_exact; reflexivity).
  assert (length word = length left + length rest) as LW by (unfold word; apply app_length).
  assert (length rest = length q + length (rep ++ r)) as LR by (rewrite E; apply app_length).
  assert (i = length left + length q) as LI by (apply app_length).
  assert (In i (within word (length left) (min_chars k))) as Hin by (apply within_In; lia).
  destruct (EI1 _ Hin) as [_ EC]. pose proof (@loop_miss rec m word (length left) i fu num _ EC pat Hpat) as EP.
  destruct (proj1 (Forall_forall _ _) (wfc_patterns WFC) _ Hpat) as [Sb Se].
  assert (scalars q /\ scalars r) as [Sq Srr].
  { rewrite E in Sr. unfold scalars in *. rewrite !Forall_app in Sr. tauto. }
  assert (scalars p1) as Sp1 by (rewrite Eq; apply Forall_app; split; assumption).
  assert (scalars (cp_end pat ++ r)) as Ser by (apply Forall_app; split; assumption).
  pose proof (part_wf Sp1 HP) as W1.
  assert (firstn i word ++ (cp_begin pat ++ cp_end pat) ++ skipn (i + length rep) word = (left ++ p1) ++ cp_end pat ++ r) as ESC
    by (rewrite F, Sk2, Eq, <- !app_assoc; reflexivity).
  assert (i + length (cp_begin pat) = length (left ++ p1)) as EJ by (rewrite Eq; unfold i; rewrite !app_length; lia).
  pose proof (@step_miss rec m word (length left) i fu num pat rep e1 Hpat Hrep ltac:(lia)) as SM. cbv zeta in SM.
  rewrite ESC, EJ in SM. set (j := length (left ++ p1)) in *. set (scratch := (left ++ p1) ++ cp_end pat ++ r) in *.
  assert (firstn j scratch = left ++ p1) as FS by (apply firstn_app_exact; reflexivity).
  assert (skipn j scratch = cp_end pat ++ r) as SS by (apply skipn_app_exact; reflexivity).
  assert (slice scratch (length left) j = p1) as SL.
  { unfold slice, scratch. rewrite <- app_assoc, skipn_app_exact by reflexivity. apply firstn_app_exact.
    unfold j. rewrite app_length. lia. }
  rewrite SL, FS, SS in SM.
  destruct SM as (M1 & M2 & M3).
  { apply starts_with_spec. rewrite Sk. eauto. }
  { apply part_exact; assumption. }
  { apply forbidden_spec; assumption. }
  { apply flag_missing_spec; assumption. }
  { destruct (o_check_triple opts); [|reflexivity]. cbn [andb]. apply not_true_is_false. rewrite three_chars_spec, FS, SS. apply HT3. reflexivity. }
  { exact EP. }
  assert (skipn (length left) word = rest) as Rw by (apply skipn_app_exact; reflexivity). rewrite Rw in M2, M3.
  assert (PS : forall w e2, scalars w -> Part A entry AT_END w e2 -> Taken fu rest e1 e2 -> opt_in (cp_second_flag pat) (cr_flags e2) ->
    pattern_second word (length left) fu pat e1 e2 = false).
  { intros w e2 Sw HP2 HT HQ. pose proof (part_wf Sw HP2) as W2. unfold pattern_second. rewrite Rw.
    rewrite (taken_forbidden W2 HT), (taken_dup HT), (taken_force W2 HT), (taken_rep Sr HT).
    rewrite (proj2 (flag_missing_spec (cp_second_flag pat) W2) HQ). reflexivity. }
  assert (length left <= j /\ j <= length scratch) as [Bj1 Bj2].
  { unfold scratch, j. rewrite !app_length. lia. }
  split; [|split].
  - intros e2 HP2 HT HQ. pose proof (M1 e2 (part_exact Ser HP2)) as X. rewrite (PS _ _ Ser HP2 HT HQ) in X. discriminate.
  - intros e2 Ssc X HQ HR. pose proof (@rec_wf scratch j _ e2 Ssc Bj2 X) as W2. destruct (M2 e2 X) as [Y|[Y|Y]].
    + rewrite (proj2 (flag_missing_spec (cp_second_flag pat) W2) HQ) in Y. discriminate.
    + apply rep_true in Y; [|exact Sr]. destruct Y as [Y1 Y2]. exact (proj1 (HR Y1) Y2).
    + apply rep2_true in Y; [|exact Ssc|exact Bj1|exact Bj2]. destruct Y as [Y1 (s & Y2 & Y3)]. rewrite SS in Y2. rewrite SL in Y3.
      exact (proj2 (HR Y1) s Y2 Y3).
  - intros c x Hst Hx Sc. destruct (M3 c x Hst Hx) as [M4 M5].
    set (triple := (left ++ p1) ++ c :: cp_end pat ++ r) in *.
    assert (skipn j triple = c :: cp_end pat ++ r) as ST by (apply skipn_app_exact; reflexivity).
    assert (j <= length triple) as BT by (unfold triple; rewrite app_length; fold j; lia).
    assert (scalars (c :: cp_end pat ++ r)) as Sce by (rewrite <- ST; apply scalars_skipn; exact Sc).
    assert (scalars scratch) as Ssc.
    { apply Forall_app. split; [|exact Ser]. apply Forall_app in Sc. apply Sc. }
    rewrite ST in M4, M5. split.
    + intros e2 HP2 HT HQ. pose proof (M4 e2 (part_exact Sce HP2)) as X. rewrite (PS _ _ Sce HP2 HT HQ) in X. discriminate.
    + intros e2 X HQ HR. pose proof (@rec_wf triple j _ e2 Sc BT X) as W2. destruct (M5 e2 X) as [Y|[Y|(Y1 & Y2 & Y3)]].
      * rewrite (proj2 (flag_missing_spec (cp_second_flag pat) W2) HQ) in Y. discriminate.
      * apply rep_true in Y; [|exact Sr]. destruct Y as [Y1 Y2]. exact (proj1 (HR Y1) Y2).
      * apply starts_with_spec in Y2. destruct Y2 as [s Y2].
        destruct (cr_stem e2) as [|c' t] eqn:Est; [exact (@rec_stem triple j _ e2 Sc BT X Est)|]. injection Y2 as <- Y2.
        replace (j + length (c :: t) - 1) with (j + length t) in Y3 by (cbn [length]; lia).
        rewrite (@slice_stem scratch t s (length left) j Bj1 Bj2 ltac:(rewrite SS; exact Y2)), SL in Y3.
        apply (proj2 (HR Y1) t s Est Y2). apply (@similar_spec k WFC); [|exact Y3].
        apply Forall_app. split; [exact Sp1|]. rewrite Y2 in Ser. apply Forall_app in Ser. apply Ser.
Qed.
End Boundary.

(** ** Completeness *)
Theorem exact_impl : forall fu m left rest parts, Compound U A entry fu m left rest parts ->
  forall fuel num, scalars (left ++ rest) -> length rest <= fuel ->
  exists e, compound_impl k (compound_middle k fuel) m (left ++ rest) (length left) num fu = Ret (Some e).
Proof.
  assert (GEN : forall fu m left rest p1 e1 second Q R, Part A entry m p1 e1 -> ~ Forbidden A e1 ->
    Join U A entry left rest m p1 e1 second Q R ->
    scalars (left ++ rest) -> forall fuel num, length rest <= fuel ->
    (exists e2, Part A entry AT_END second e2 /\ Taken fu rest e1 e2 /\ Q e2) \/
    ((forall w2 e2 ps, Compound U A entry fu AT_MIDDLE (left ++ p1) second ((w2, e2) :: ps) -> Q e2 /\ RepOK rest R e2) /\
     forall fuel' n, length second <= fuel' -> scalars ((left ++ p1) ++ second) ->
       exists e, compound_impl k (compound_middle k fuel') AT_MIDDLE ((left ++ p1) ++ second) (length (left ++ p1)) n fu = Ret (Some e)) ->
    exists e, compound_impl k (compound_middle k fuel) m (left ++ rest) (length left) num fu = Ret (Some e)).
  { intros fu m left rest p1 e1 second Q R HP HF HJ Hsc fuel num Hf H.
    pose proof (@middle_settled k WFC SH fuel m (left ++ rest) (length left) num fu Hsc
      ltac:(rewrite app_length; lia) ltac:(rewrite app_length; lia)) as S0. rewrite STRICT in S0.
    destruct (compound_impl k (compound_middle k fuel) m (left ++ rest) (length left) num fu) as [[e'|]| |] eqn:EI; cbn in S0;
      try discriminate; try contradiction; [eauto|]. exfalso. clear S0.
    unfold compound_impl in EI. rewrite firstR_none in EI.
    assert (EI1 : forall i, In i (within (left ++ rest) (length left) (min_chars k)) ->
      compound_classic k (compound_middle k fuel) m (left ++ rest) (length left) i num fu = Ret None /\
      pattern_loop k (compound_middle k fuel) m (left ++ rest) (length left) i num fu (ad_patterns A) = Ret None).
    { intros i Hi. specialize (EI i Hi). cbv beta in EI.
      destruct (compound_classic k (compound_middle k fuel) m (left ++ rest) (length left) i num fu) as [[|]| |]; try discriminate; auto. }
    clear EI. pose proof (min_pos WFC) as MP.
    assert (Hsl : scalars left /\ scalars rest) by (apply Forall_app; exact Hsc). destruct Hsl as [Sl Sr].
    (* the recursive call *)
    assert (REC : scalars ((left ++ p1) ++ second) -> length second < fuel ->
      (exists e2, Part A entry AT_END second e2 /\ Taken fu rest e1 e2 /\ Q e2) \/
      forall n, exists e2, compound_middle k fuel ((left ++ p1) ++ second) (length (left ++ p1)) n fu = Ret (Some e2) /\
        Q e2 /\ RepOK rest R e2).
    { intros Ss Ls. destruct H as [H|[H1 H2]]; [left; exact H|right]. intro n.
      destruct fuel as [|fuel]; [lia|]. destruct (H2 fuel n ltac:(lia) Ss) as [e2 E2]. exists e2. split; [exact E2|].
      assert (length (left ++ p1) <= length ((left ++ p1) ++ second)) as LL by (rewrite (app_length (left ++ p1)); lia).
      destruct (@middle_sound k WFC (S fuel) _ _ n fu e2 Ss LL E2) as (_ & w2 & ps & HC & _).
      rewrite firstn_app_exact, skipn_app_exact in HC by reflexivity. exact (H1 _ _ _ HC). }
    clear H.
    destruct HJ as [r E Hm1 Hm2 HB|r c x Hst E Hm1 Hm2 HB Hx|pat rep q r Hpat Hrep E Eq Hm1 Hm2 Hff HT3|pat rep q r c x Hst Hpat Hrep E Eq Hm1 Hm2 Hff HT3 Hx];
      change (min_part A) with (min_chars k) in Hm1, Hm2.
    - destruct (@boundary_miss fu m left rest p1 e1 r HP HF Sl Sr fuel num EI1 E Hm1 Hm2 HB) as (M1 & num' & M2 & _).
      destruct REC as [(e2 & HP2 & HT & HQ)|H].
      + rewrite <- app_assoc, <- E. exact Hsc.
      + subst rest. rewrite app_length in Hf. lia.
      + exact (M1 e2 HP2 HT HQ).
      + destruct (H (num' + 1)) as (e2 & E2 & HQ & HR). apply (M2 e2); try assumption. rewrite E at 1. rewrite app_assoc. exact E2.
    - destruct (@boundary_miss fu m left rest p1 e1 r HP HF Sl Sr fuel num EI1 E Hm1 Hm2 HB) as (_ & num' & _ & M3).
      pose proof (shrinks_triple SH Hst) as M2c. change (min_part A) with (min_chars k) in M2c.
      assert (scalars ((left ++ p1) ++ c :: r)) as SCT.
      { subst rest. rewrite app_assoc in Hsc. apply Forall_app in Hsc. destruct Hsc as [S1 S2]. apply Forall_app. split; [exact S1|].
        constructor; [|exact S2]. rewrite Hx in S1. apply Forall_app in S1. destruct S1 as [_ S1]. inversion S1. assumption. }
      destruct (M3 c x Hst Hx SCT) as [M1 M2]. clear M3.
      destruct REC as [(e2 & HP2 & HT & HQ)|H].
      + exact SCT.
      + subst rest. rewrite app_length in Hf. cbn [length]. lia.
      + exact (M1 e2 HP2 HT HQ).
      + destruct (H (num' + 1)) as (e2 & E2 & HQ & HR). exact (M2 e2 E2 HQ HR).
    - destruct (@pattern_miss fu m left rest p1 e1 r HP HF Sr fuel num EI1 pat rep q Hpat Hrep E Eq Hm1 Hm2 Hff HT3) as (M1 & M2 & _).
      pose proof (shrinks_pattern SH _ Hpat Hrep) as HS. change (min_part A) with (min_chars k) in HS.
      destruct (proj1 (Forall_forall _ _) (wfc_patterns WFC) _ Hpat) as [Sb Se].
      assert (length rest = length q + length (rep ++ r)) as LR by (rewrite E; apply app_length). rewrite app_length in LR, Hm2.
      assert (scalars ((left ++ p1) ++ cp_end pat ++ r)) as SC.
      { rewrite E in Sr. rewrite Eq. unfold scalars in *. rewrite !Forall_app in *. tauto. }
      destruct REC as [(e2 & HP2 & HT & HQ)|H].
      + exact SC.
      + rewrite app_length. destruct (o_simplified_triple opts); lia.
      + exact (M1 e2 HP2 HT HQ).
      + destruct (H (num + 1)) as (e2 & E2 & HQ & HR). exact (M2 e2 SC E2 HQ HR).
    - destruct (@pattern_miss fu m left rest p1 e1 r HP HF Sr fuel num EI1 pat rep q Hpat Hrep E Eq Hm1 Hm2 Hff HT3) as (_ & _ & M3).
      pose proof (shrinks_pattern SH _ Hpat Hrep) as HS. change (min_part A) with (min_chars k) in HS. rewrite Hst in HS.
      destruct (proj1 (Forall_forall _ _) (wfc_patterns WFC) _ Hpat) as [Sb Se].
      assert (length rest = length q + length (rep ++ r)) as LR by (rewrite E; apply app_length). rewrite app_length in LR, Hm2.
      assert (scalars (left ++ p1) /\ scalars (cp_end pat ++ r)) as [Slp Ser].
      { rewrite E in Sr. rewrite Eq. unfold scalars in *. rewrite !Forall_app in *. tauto. }
      assert (scalars ((left ++ p1) ++ c :: cp_end pat ++ r)) as SC.
      { apply Forall_app. split; [exact Slp|]. constructor; [|exact Ser]. rewrite Hx in Slp. apply Forall_app in Slp.
        destruct Slp as [_ S1]. inversion S1. assumption. }
      destruct (M3 c x Hst Hx SC) as [M1 M2]. clear M3.
      destruct REC as [(e2 & HP2 & HT & HQ)|H].
      + exact SC.
      + cbn [length]. rewrite app_length. lia.
      + exact (M1 e2 HP2 HT HQ).
      + destruct (H (num + 1)) as (e2 & E2 & HQ & HR). exact (M2 e2 E2 HQ HR). }
  intros fu m left rest parts H. induction H as [m left rest p1 e1 second Q R e2 HP HF HJ HP2 HF2 HQ HD HRp HFu
    |m left rest p1 e1 second Q R w2 e2 ps HP HF HJ HC IH HQ HRp]; intros fuel num Hsc Hf.
  - apply (@GEN fu m left rest p1 e1 second Q R HP HF HJ Hsc fuel num Hf). left. exists e2. unfold Taken. auto 7.
  - apply (@GEN fu m left rest p1 e1 second Q R HP HF HJ Hsc fuel num Hf). right. split.
    + intros w2' e2' ps' HC'. destruct FIRST as [BL|OF].
      * split; [exact (join_any BL HJ _ _ HQ)|]. intro X. rewrite (proj1 BL) in X. discriminate.
      * rewrite <- (OF _ _ _ _ _ _ _ _ _ HC HC'). split; [exact HQ|exact HRp].
    + intros fuel' n Hf' Hsc'. apply IH; assumption.
Qed.

Theorem exact_iff : forall fu m word fuel, scalars word -> length word <= fuel ->
  ((exists e, check_compound_flags k fuel m word fu = Ret (Some e)) <->
   (exists parts, Compound U A entry fu m [] word parts)).
Proof.
  intros fu m word fuel Hsc Hf. split.
  - intros [e H]. destruct (@compound_sound k WFC fuel m word fu e Hsc H) as (w1 & p2 & ps & HC & _). eauto.
  - intros [parts H]. exact (@exact_impl fu m [] word parts H fuel 0 Hsc Hf).
Qed.
End Exact.
