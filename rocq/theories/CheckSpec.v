(** [check] (checker.rs 97-194) against a specification; termination and panics. *)
From Coq Require Import List NArith ZArith Lia Bool Arith.
From Coq Require Import ZifyBool ZifyNat ZifyN.
From Verif Require Import Base Utf8 Unicode Flags Condition Affix CompoundRule Conversion Aff Checker AffixSpec Rep CompoundSpec CompoundTotal RuleCompound Spell.
Import ListNotations.
Set Implicit Arguments.

(** ** Results that hold for every sufficiently large exploration depth *)
Definition Eventually {X} (f : nat -> Res X) (r : Res X) : Prop := exists n, forall fuel, n <= fuel -> f fuel = r.
Definition Converges (b : bool) {X} (f : nat -> Res X) : Prop := exists r, settled b r /\ Eventually f r.

Lemma eventually_det : forall X (f : nat -> Res X) r1 r2, Eventually f r1 -> Eventually f r2 -> r1 = r2.
Proof. intros X f r1 r2 [n1 H1] [n2 H2]. rewrite <- (H1 (n1 + n2)), <- (H2 (n1 + n2)) by lia. reflexivity. Qed.

Lemma eventually_const : forall X (r : Res X), Eventually (fun _ => r) r.
Proof. intros X r. exists 0. reflexivity. Qed.

Lemma eventually_bind : forall X Y (f : nat -> Res X) x (g : X -> nat -> Res Y) r,
  Eventually f (Ret x) -> Eventually (g x) r -> Eventually (fun n => bindR (f n) (fun x => g x n)) r.
Proof.
  intros X Y f x g r [n1 H1] [n2 H2]. exists (n1 + n2). intros n Hn. rewrite H1 by lia. cbn [bindR]. apply H2. lia.
Qed.

Lemma eventually_ext : forall X (f g : nat -> Res X) r, (forall n, f n = g n) -> Eventually f r -> Eventually g r.
Proof. intros X f g r E [n H]. exists n. intros m Hm. rewrite <- E. apply H. exact Hm. Qed.

Lemma converges_const : forall b X (r : Res X), settled b r -> Converges b (fun _ => r).
Proof. intros b X r H. exists r. split; [exact H|apply eventually_const]. Qed.

Lemma converges_bind : forall b X Y (f : nat -> Res X) (g : X -> nat -> Res Y),
  Converges b f -> (forall x, Eventually f (Ret x) -> Converges b (g x)) -> Converges b (fun n => bindR (f n) (fun x => g x n)).
Proof.
  intros b X Y f g [r [Hr E]] Hg. destruct r as [x| |].
  - destruct (Hg x E) as [r2 [Hr2 E2]]. exists r2. split; [exact Hr2|]. eapply eventually_bind; eassumption.
  - destruct E as [n E]. exists Panic. split; [exact Hr|]. exists n. intros m Hm. rewrite E by exact Hm. reflexivity.
  - destruct Hr.
Qed.

Lemma converges_firstR : forall b X Y (f : X -> nat -> Res (option Y)) l,
  (forall x, In x l -> Converges b (f x)) -> Converges b (fun n => firstR (fun x => f x n) l).
Proof.
  intros b X Y f l. induction l as [|x l IH]; intro H; [apply (@converges_const b _ (Ret None)); exact I|].
  destruct IH as [r2 [Hr2 [n2 E2]]]; [intros; apply H; right; assumption|].
  destruct (H x (or_introl eq_refl)) as [r1 [Hr1 [n1 E1]]].
  exists (match r1 with Ret (Some y) => Ret (Some y) | Ret None => r2 | Panic => Panic | NoFuel => NoFuel end).
  split; [destruct r1 as [[y|]| |]; assumption|]. exists (n1 + n2). intros n Hn. cbn [firstR].
  rewrite E1 by lia. rewrite E2 by lia. reflexivity.
Qed.

Lemma converges_anyR : forall b X (f : X -> nat -> Res bool) l,
  (forall x, In x l -> Converges b (f x)) -> Converges b (fun n => anyR (fun x => f x n) l).
Proof.
  intros b X f l. induction l as [|x l IH]; intro H; [apply (@converges_const b _ (Ret false)); exact I|].
  cbn [anyR]. apply (@converges_bind b bool bool (f x) (fun (y : bool) n => if y then Ret true else anyR (fun x => f x n) l)).
  - apply H. left. reflexivity.
  - intros [|] _; [apply converges_const; exact I|]. apply IH. intros; apply H; right; assumption.
Qed.

Lemma converges_true : forall X (f : nat -> Res X), Converges true f <-> exists x, Eventually f (Ret x).
Proof.
  intros X f. split.
  - intros [r [Hr E]]. apply settled_true in Hr. destruct Hr as [x ->]. eauto.
  - intros [x E]. exists (Ret x). split; [exact I|exact E].
Qed.

(** A boolean computation that decides [P]. *)
Definition Decides (f : nat -> Res bool) (P : Prop) : Prop := exists b, Eventually f (Ret b) /\ (b = true <-> P).

Lemma decides_anyR : forall X (f : X -> nat -> Res bool) (P : X -> Prop) l,
  (forall x, In x l -> Decides (f x) (P x)) -> Decides (fun n => anyR (fun x => f x n) l) (exists x, In x l /\ P x).
Proof.
  intros X f P l. induction l as [|x l IH]; intro H.
  - exists false. split; [exists 0; reflexivity|]. split; [discriminate|]. intros [x [[] _]].
  - destruct IH as [b2 [E2 H2]]; [intros; apply H; right; assumption|].
    destruct (H x (or_introl eq_refl)) as [b1 [E1 H1]].
    exists (if b1 then true else b2). split.
    + cbn [anyR]. apply (@eventually_bind bool bool (f x) b1 (fun (y : bool) n => if y then Ret true else anyR (fun x => f x n) l)); [exact E1|].
      destruct b1; [apply eventually_const|exact E2].
    + destruct b1.
      * split; [|reflexivity]. intros _. exists x. split; [left; reflexivity|]. apply H1. reflexivity.
      * rewrite H2. split.
        -- intros [y [Hy HP]]. exists y. split; [right; exact Hy|exact HP].
        -- intros [y [[<-|Hy] HP]]; [apply H1 in HP; discriminate|eauto].
Qed.

Lemma decides_if : forall (f g : nat -> Res bool) P Q, Decides f P -> Decides g Q ->
  Decides (fun n => b <- f n ;; if (b : bool) then Ret true else g n) (P \/ Q).
Proof.
  intros f g P Q [b1 [E1 H1]] [b2 [E2 H2]]. exists (if b1 then true else b2). split.
  - apply (@eventually_bind bool bool f b1 (fun (y : bool) n => if y then Ret true else g n)); [exact E1|].
    destruct b1; [apply eventually_const|exact E2].
  - destruct b1; [tauto|]. rewrite H2. split; [auto|]. intros [H|H]; [apply H1 in H; discriminate|exact H].
Qed.

Lemma decides_and : forall (f g : nat -> Res bool) P Q, Decides f P -> Decides g Q ->
  Decides (fun n => b <- f n ;; if (b : bool) then g n else Ret false) (P /\ Q).
Proof.
  intros f g P Q [b1 [E1 H1]] [b2 [E2 H2]]. exists (if b1 then b2 else false). split.
  - apply (@eventually_bind bool bool f b1 (fun (y : bool) n => if y then g n else Ret false)); [exact E1|].
    destruct b1; [exact E2|apply eventually_const].
  - destruct b1; [rewrite H2; tauto|]. split; [discriminate|]. intros [H _]. apply H1 in H. discriminate.
Qed.

Lemma decides_const : forall b (P : Prop), (b = true <-> P) -> Decides (fun _ => Ret b) P.
Proof. intros b P H. exists b. split; [apply eventually_const|exact H]. Qed.

Lemma decides_iff : forall f (P Q : Prop), (P <-> Q) -> Decides f P -> Decides f Q.
Proof. intros f P Q H [b [E Hb]]. exists b. split; [exact E|]. rewrite Hb. exact H. Qed.

Lemma decides_ext : forall f g P, (forall n, f n = g n) -> Decides f P -> Decides g P.
Proof. intros f g P H [b [E Hb]]. exists b. split; [|exact Hb]. eapply eventually_ext; eassumption. Qed.

(** ** Well-formed checkers *)
Definition wf_unicode (U : unicode) : Prop :=
  (forall c, scalar c -> scalars (u_lower U c)) /\ (forall c, scalar c -> scalars (u_upper U c)).

Record wf_full (k : checker) : Prop := {
  wff_unicode : wf_unicode (ck_u k);
  wff_compound : wf_compound k;
  wff_shrinks : Shrinks (ck_aff k);
  wff_iconv : conv_table_ok (ad_iconv (ck_aff k));
  wff_iconv_out : Forall (fun c => scalars (cv_to c)) (ct_inner (ad_iconv (ck_aff k))) }.

Lemma scalars_app_iff : forall a b, scalars (a ++ b) <-> scalars a /\ scalars b.
Proof. intros. apply Forall_app. Qed.
Lemma scalars_flat_map : forall f w, (forall c, scalar c -> scalars (f c)) -> scalars w -> scalars (flat_map f w).
Proof. intros f w Hf H. induction H as [|c w Hc H IH]; [constructor|]. cbn. apply scalars_app_iff. split; [apply Hf; exact Hc|exact IH]. Qed.
Lemma scalars_rev : forall w, scalars w -> scalars (rev w).
Proof. intros w H. apply Forall_rev. exact H. Qed.

Section Scalars.
Variable U : unicode.
Hypothesis WU : wf_unicode U.
Variable h : case_handling.

Lemma scalars_lower : forall w, scalars w -> scalars (lowercase U h w).
Proof.
  assert (G : forall w b, scalars w -> scalars (lower_go U b w)).
  { induction w as [|c w IH]; intros b H; [constructor|]. inversion H; subst. cbn [lower_go]. apply scalars_app_iff. split; [|apply IH; assumption].
    destruct (c =? ch_Sigma)%N; [|apply (proj1 WU); assumption].
    destruct (_ && _); constructor; try constructor; reflexivity. }
  assert (R : forall a b w, scalar b -> scalars w -> scalars (replace_char a b w)).
  { intros a b w Hb H. induction H as [|c w Hc H IH]; [constructor|]. cbn. constructor; [destruct (_ =? _)%N; assumption|exact IH]. }
  intros w H. destruct h; cbn [lowercase]; apply G; [|exact H]. apply R; [reflexivity|]. apply R; [reflexivity|exact H].
Qed.

Lemma scalars_upper : forall w, scalars w -> scalars (uppercase U h w).
Proof.
  assert (R : forall a b w, scalar b -> scalars w -> scalars (replace_char a b w)).
  { intros a b w Hb H. induction H as [|c w Hc H IH]; [constructor|]. cbn. constructor; [destruct (_ =? _)%N; assumption|exact IH]. }
  intros w H. destruct h; cbn [uppercase]; apply scalars_flat_map; try apply (proj2 WU); [|exact H].
  apply R; [reflexivity|]. apply R; [reflexivity|exact H].
Qed.

Lemma scalars_lower_char : forall c, scalar c -> scalars (lower_char U h c).
Proof.
  intros c Hc. destruct h; cbn [lower_char]; [|apply (proj1 WU); exact Hc].
  repeat match goal with |- scalars (if ?b then _ else _) => destruct b end; try (apply (proj1 WU); exact Hc);
    constructor; try constructor; reflexivity.
Qed.
Lemma scalars_upper_char : forall c, scalar c -> scalars (upper_char U h c).
Proof.
  intros c Hc. destruct h; cbn [upper_char]; [|apply (proj2 WU); exact Hc].
  repeat match goal with |- scalars (if ?b then _ else _) => destruct b end; try (apply (proj2 WU); exact Hc);
    constructor; try constructor; reflexivity.
Qed.
End Scalars.

Lemma scalars_title : forall k w, wf_unicode (ck_u k) -> scalars w -> scalars (title k w).
Proof.
  intros k [|c w] WU H; [constructor|]. inversion H; subst. cbn [title]. apply scalars_app_iff. split.
  - apply scalars_upper_char; assumption.
  - apply scalars_flat_map; [intros; apply scalars_lower_char; assumption|assumption].
Qed.

Lemma scalars_trim : forall w, scalars w -> scalars (trim_end_dots w).
Proof. intros w H. destruct (trim_split w) as [n [E _]]. rewrite E in H. apply scalars_app_iff in H. tauto. Qed.
Lemma scalars_filter : forall p w, scalars w -> scalars (filter p w).
Proof. intros p w H. induction H as [|c w Hc H IH]; [constructor|]. cbn. destruct (p c); [constructor; assumption|exact IH]. Qed.
Lemma scalars_erase : forall ig w, scalars w -> scalars (erase_chars ig w).
Proof. intros. rewrite erase_chars_filter. apply scalars_filter. assumption. Qed.

Lemma Converts_scalars : forall l w out, Forall (fun c => scalars (cv_to c)) l -> Converts l w out -> scalars w -> scalars out.
Proof.
  intros l w out Hl H. induction H as [|x w out Hn H IH|c r out Hc Hu Hb H IH]; intro Hw.
  - constructor.
  - inversion Hw; subst. constructor; [assumption|]. apply IH. assumption.
  - apply scalars_app_iff in Hw. apply scalars_app_iff. rewrite Forall_forall in Hl.
    split; [exact (Hl _ Hc)|apply IH; tauto].
Qed.

Lemma sharp_variant_scalars : forall n w v, SharpVariant n w v -> scalars w -> scalars v.
Proof.
  intros n w v H. induction H as [w|n w Hn|n u v v' M H IH|n u v v' M H IH]; intro Hw; try exact Hw;
    rewrite !scalars_app_iff in Hw; rewrite !scalars_app_iff; conj; try tauto.
  constructor; [reflexivity|constructor].
Qed.

(** ** Termination (C01) *)
Section Terminates.
Variable k : checker.
Hypothesis WF : wf_full k.
Notation A := (ck_aff k).
Notation opts := (ad_options (ck_aff k)).
Notation U := (ck_u k).
Notation case := (o_case (ad_options (ck_aff k))).
Notation st := (strict k).

Lemma check_compound_converges : forall w fu, scalars w -> Converges st (fun n => check_compound k n AT_BEGIN w fu).
Proof.
  intros w fu Hw.
  assert (C1 : Converges st (fun n => if allows_compounding opts then check_compound_flags k n AT_BEGIN w fu else Ret None)).
  { destruct (allows_compounding opts); [|apply converges_const; exact I].
    exists (check_compound_flags k (length w) AT_BEGIN w fu).
    pose proof (@compound_settled k (wff_compound WF) (wff_shrinks WF) (length w) AT_BEGIN w fu Hw (le_n _)) as S.
    split; [exact S|]. exists (length w). intros fuel Hf.
    assert (R : refines (check_compound_flags k (length w) AT_BEGIN w fu) (check_compound_flags k fuel AT_BEGIN w fu)).
    { unfold check_compound_flags. apply impl_mono. apply middle_mono. exact Hf. }
    destruct R as [R|R]; [|congruence]. rewrite R in S. destruct S. }
  assert (C2 : Converges st (fun _ : nat => if nonempty (rt_rules (ad_rules A)) then check_compound_with_rules k w fu else Ret None)).
  { apply converges_const. destruct (nonempty _); [|exact I].
    destruct (@rules_settled k (wfc_checker (wff_compound WF)) (wfc_min (wff_compound WF)) w fu) as [r ->]. exact I. }
  destruct C1 as [r1 [S1 [n1 E1]]]. destruct C2 as [r2 [S2 [n2 E2]]].
  exists (orelse r1 r2). split; [destruct r1 as [[x|]| |]; assumption|]. exists (n1 + n2). intros n Hn.
  unfold check_compound. rewrite (E1 n) by lia. rewrite (E2 n) by lia. destruct r1 as [[x|]| |]; reflexivity.
Qed.

Lemma check_word_converges : forall w fu hh, scalars w -> Converges st (fun n => check_word k n w fu hh).
Proof.
  intros w fu hh Hw. unfold check_word. destruct (check_simple_word k w hh) as [f|]; [apply converges_const; exact I|].
  apply (@converges_bind st _ _ (fun n => check_compound k n AT_BEGIN w fu) (fun r _ => Ret (option_map cr_flags r)));
    [|intros; apply converges_const; exact I].
  apply check_compound_converges. exact Hw.
Qed.

Lemma try_one_converges : forall a, scalars (at_word a) -> Converges st (fun n => try_one k n a).
Proof.
  intros a Ha. unfold try_one.
  apply (@converges_bind st _ _ (fun n => check_word k n (at_word a) (at_fu a) (at_hh a))
    (fun r _ => Ret (match r with Some f => if at_filter a f then Some f else None | None => None end))).
  - apply check_word_converges. exact Ha.
  - intros. apply converges_const. exact I.
Qed.

Lemma sharps_plan_scalars : forall w a, scalars w -> In a (sharps_plan w) -> scalars (at_word a).
Proof.
  intros w a Hw H. unfold sharps_plan in H. destruct (has_ss w); [|destruct H].
  apply in_map_iff in H. destruct H as [v [<- Hv]]. cbn. apply sharp_variants_spec in Hv. exact (sharp_variant_scalars Hv Hw).
Qed.

Lemma plan_upper_scalars : forall w a, scalars w -> In a (plan_upper k w) -> scalars (at_word a).
Proof.
  intros w a Hw H. pose proof (wff_unicode WF) as WU. unfold plan_upper in H.
  destruct H as [<-|H]; [exact Hw|]. apply in_app_or in H. destruct H as [H|H].
  { destruct (apostrophe_split w) as [[p1 p2]|] eqn:E; [|destruct H].
    destruct (apostrophe_parts _ E) as (_ & _ & ->). apply scalars_app_iff in Hw. destruct Hw as [H1 H2].
    destruct H as [<-|[<-|[]]]; cbn; apply scalars_app_iff; split; try (apply scalars_lower; assumption);
      apply scalars_title; assumption. }
  apply in_app_or in H. destruct H as [H|H].
  { destruct (_ && _) in H; [|destruct H]. apply in_app_or in H. destruct H as [H|H]; eapply sharps_plan_scalars; try exact H.
    - apply scalars_lower; assumption.
    - apply scalars_title; assumption. }
  destruct H as [<-|[<-|[]]]; cbn; [apply scalars_title|apply scalars_lower]; assumption.
Qed.

Lemma plan_title_scalars : forall w a, scalars w -> In a (plan_title k w) -> scalars (at_word a).
Proof.
  intros w a Hw H. pose proof (wff_unicode WF) as WU. destruct H as [<-|[<-|[]]]; cbn; [exact Hw|].
  apply scalars_lower; assumption.
Qed.

Lemma plan_scalars : forall w a, scalars w -> In a (plan k w) -> scalars (at_word a).
Proof.
  intros w a Hw H. pose proof (wff_unicode WF) as WU. unfold plan in H.
  assert (L : forall b c, In a (mkAttempt w ForbidBadForceucase AcceptHiddenHomonym anything ::
      (if b : bool then plan_title k (title k w) else []) ++ (if c : bool then plan_upper k (uppercase U case w) else [])) ->
      scalars (at_word a)).
  { intros b c X. destruct X as [<-|X]; [exact Hw|]. apply in_app_or in X. destruct X as [X|X].
    - destruct b; [|destruct X]. eapply plan_title_scalars; [|exact X]. apply scalars_title; assumption.
    - destruct c; [|destruct X]. eapply plan_upper_scalars; [|exact X]. apply scalars_upper; assumption. }
  destruct (classify_casing U w); try (eapply L; exact H).
  - eapply plan_title_scalars; eassumption.
  - eapply plan_upper_scalars; eassumption.
Qed.

Lemma strip_prefix_scalars : forall p w r, strip_prefix p w = Some r -> scalars w -> scalars r.
Proof. intros p w r H Hw. apply strip_prefix_spec in H. subst w. apply scalars_app_iff in Hw. apply Hw. Qed.
Lemma strip_suffix_scalars : forall p w r, strip_suffix p w = Some r -> scalars w -> scalars r.
Proof. intros p w r H Hw. apply strip_suffix_spec in H. subst w. apply scalars_app_iff in Hw. apply Hw. Qed.
Lemma split_once_scalars : forall p w a b, split_once p w = Some (a, b) -> scalars w -> scalars a /\ scalars b.
Proof. intros p w a b H Hw. apply split_once_sound in H. subst w. rewrite !scalars_app_iff in Hw. split; apply Hw. Qed.

Lemma break_converges_of : forall b, (forall w, scalars w -> Converges b (fun n => spell_casing k n w)) ->
  forall n w, scalars w -> Converges b (fun fuel => do_spell_break k fuel n w).
Proof.
  intros bb spell_casing_converges. induction n as [|n IH]; intros w Hw; cbn [do_spell_break].
  - apply (@converges_bind bb _ _ (fun m => spell_casing k m w)
      (fun r _ => match r with Some flags => Ret (accepted_flags k flags) | None => Ret false end)).
    + apply spell_casing_converges. exact Hw.
    + intros [f|] _; apply converges_const; exact I.
  - set (S1 := fun (pattern : str) fuel => match strip_prefix pattern w with
                    | Some rest => do_spell_break k fuel n rest | None => Ret false end).
    set (S2 := fun (pattern : str) fuel => match strip_suffix pattern w with
                    | Some rest => do_spell_break k fuel n rest | None => Ret false end).
    set (S3 := fun (pattern : str) fuel => match split_once pattern w with
                               | Some (part1, part2) =>
                                   if negb (nonempty part2) then Ret false
                                   else
                                     c1 <- do_spell_break k fuel n part1 ;;
                                     if (c1 : bool) then do_spell_break k fuel n part2 else Ret false
                               | None => Ret false end).
    apply (@converges_bind bb _ _ (fun m => spell_casing k m w)
      (fun r fuel => match r with Some flags => Ret (accepted_flags k flags) | None =>
          b1 <- anyR (fun p => S1 p fuel) (start_breaks (ad_breaks A)) ;;
          if (b1 : bool) then Ret true else
          b2 <- anyR (fun p => S2 p fuel) (end_breaks (ad_breaks A)) ;;
          if (b2 : bool) then Ret true else anyR (fun p => S3 p fuel) (middle_breaks (ad_breaks A)) end));
      [apply spell_casing_converges; exact Hw|].
    intros [f|] _; [apply converges_const; exact I|].
    apply (@converges_bind bb _ _ (fun fuel => anyR (fun p => S1 p fuel) (start_breaks (ad_breaks A)))
      (fun (b : bool) fuel => if b then Ret true else b2 <- anyR (fun p => S2 p fuel) (end_breaks (ad_breaks A)) ;;
          if (b2 : bool) then Ret true else anyR (fun p => S3 p fuel) (middle_breaks (ad_breaks A)))).
    + apply converges_anyR. intros p _. unfold S1. destruct (strip_prefix p w) as [r|] eqn:E; [|apply converges_const; exact I].
      apply IH. exact (strip_prefix_scalars _ E Hw).
    + intros [|] _; [apply converges_const; exact I|].
      apply (@converges_bind bb _ _ (fun fuel => anyR (fun p => S2 p fuel) (end_breaks (ad_breaks A)))
        (fun (b : bool) fuel => if b then Ret true else anyR (fun p => S3 p fuel) (middle_breaks (ad_breaks A)))).
      * apply converges_anyR. intros p _. unfold S2. destruct (strip_suffix p w) as [r|] eqn:E; [|apply converges_const; exact I].
        apply IH. exact (strip_suffix_scalars _ E Hw).
      * intros [|] _; [apply converges_const; exact I|].
        apply converges_anyR. intros p _. unfold S3. destruct (split_once p w) as [[a b]|] eqn:E; [|apply converges_const; exact I].
        destruct (split_once_scalars _ E Hw) as [Ha Hb]. destruct (negb (nonempty b)); [apply converges_const; exact I|].
        apply (@converges_bind bb _ _ (fun fuel => do_spell_break k fuel n a)
          (fun (c : bool) fuel => if c then do_spell_break k fuel n b else Ret false)); [apply IH; exact Ha|].
        intros [|] _; [apply IH; exact Hb|apply converges_const; exact I].
Qed.

Lemma iconv_spec : forall w, scalars w -> exists w', convert (ad_iconv A) w = Ret w' /\
  Converts (ct_inner (ad_iconv A)) w w' /\ scalars w'.
Proof.
  intros w Hw. destruct (convert_spec (wff_iconv WF) Hw) as [w' [E C]]. exists w'. split; [exact E|]. split; [exact C|].
  exact (Converts_scalars (wff_iconv_out WF) C Hw).
Qed.

Lemma check_converges_of : forall b, (forall w, scalars w -> Converges b (fun n => spell_casing k n w)) ->
  forall w, scalars w -> Converges b (fun fuel => check k fuel w).
Proof.
  intros bb HC w Hw. unfold check. destruct (max_word_len <? blen w)%N; [apply converges_const; exact I|].
  destruct (iconv_spec Hw) as [w' [-> [_ Hw']]]. cbn [bindR]. destruct w' as [|c w']; [apply converges_const; exact I|].
  set (v := c :: w') in *. destruct (is_number (trim_end_dots v)); [apply converges_const; exact I|].
  assert (B1 : Converges bb (fun fuel => spell_break k fuel (erase_chars (ad_ignore A) (trim_end_dots v)))).
  { apply break_converges_of; [exact HC|]. apply scalars_erase, scalars_trim. exact Hw'. }
  assert (B2 : Converges bb (fun fuel => spell_break k fuel v)) by (apply break_converges_of; [exact HC|exact Hw']).
  revert B1 B2. generalize (spell_break k). intros sb B1 B2. apply (converges_bind _ B1).
  intros [|] _; [apply converges_const; exact I|]. destruct (negb _); [exact B2|apply converges_const; exact I].
Qed.

(** With any checker options nothing runs forever; what the options can cause is a panic. *)
Lemma converges_weak : forall b X (f : nat -> Res X), Converges b f -> Converges false f.
Proof. intros b X f [r [S E]]. exists r. split; [|exact E]. destruct r; cbn in *; auto. Qed.
Lemma converges_orelse : forall b X (f g : nat -> Res (option X)), Converges b f -> Converges b g ->
  Converges b (fun n => orelse (f n) (g n)).
Proof.
  intros b X f g [rf [Sf [n Ef]]] [rg [Sg [m Eg]]]. exists (orelse rf rg). split.
  - destruct rf as [[x|]| |]; cbn in *; auto.
  - exists (n + m). intros l Hl. rewrite Ef, Eg by lia. reflexivity.
Qed.
Lemma upper_converges : forall w, scalars w -> Converges false (fun n => spell_casing_upper k n w).
Proof.
  intros w Hw. destruct w as [|c w].
  - destruct (@check_word_converges [] AllowBadForceucase AcceptHiddenHomonym Hw) as [r [S [n E]]].
    exists (orelse r (if o_checksharps (ad_options A) && false then Panic else Panic)). split.
    + destruct r as [[x|]| |]; cbn in *; auto. destruct (o_checksharps _ && false); reflexivity.
    + exists n. intros m Hm. unfold spell_casing_upper. rewrite E by exact Hm. destruct r as [[x|]| |]; try reflexivity.
      cbn. destruct (o_checksharps (ad_options A)); reflexivity.
  - set (v := c :: w) in *. apply converges_weak with st.
    destruct (@converges_firstR st attempt flagset (fun a n => try_one k n a) (plan_upper k v)) as [r [S [n E]]].
    + intros a Ha. apply try_one_converges. eapply plan_upper_scalars; eassumption.
    + exists r. split; [exact S|]. exists n. intros m Hm. rewrite plan_upper_spec by discriminate. apply E. exact Hm.
Qed.
Lemma title_converges : forall w, scalars w -> Converges st (fun n => spell_casing_title k n w).
Proof.
  intros w Hw.
  destruct (@converges_firstR st attempt flagset (fun a n => try_one k n a) (plan_title k w)) as [r [S [n E]]].
  - intros a Ha. apply try_one_converges. eapply plan_title_scalars; eassumption.
  - exists r. split; [exact S|]. exists n. intros m Hm. rewrite plan_title_spec. apply E. exact Hm.
Qed.
Lemma casing_any_options : forall w, scalars w -> Converges false (fun n => spell_casing k n w).
Proof.
  intros w Hw. unfold spell_casing.
  assert (T : Converges false (fun n => t <- titlecase U case w ;; spell_casing_title k n t)).
  { destruct w as [|c w]; [exists Panic; split; [reflexivity|exists 0; reflexivity]|].
    rewrite titlecase_ne by discriminate. cbn [bindR].
    eapply converges_weak, title_converges. apply scalars_title; [apply WF|exact Hw]. }
  assert (L : forall b, Converges false (fun n => orelse (check_word k n w ForbidBadForceucase AcceptHiddenHomonym)
      (orelse (if b : bool then (t <- titlecase U case w ;; spell_casing_title k n t) else Ret None)
      (if ck_lower_as_upper k then spell_casing_upper k n (uppercase U case w) else Ret None)))).
  { intro b. apply converges_orelse; [eapply converges_weak, check_word_converges, Hw|].
    apply converges_orelse; [destruct b; [exact T|apply converges_const; exact I]|].
    destruct (ck_lower_as_upper k); [|apply converges_const; exact I]. apply upper_converges, scalars_upper; [apply WF|exact Hw]. }
  destruct (classify_casing U w); try apply L.
  - eapply converges_weak, title_converges, Hw.
  - apply upper_converges, Hw.
Qed.
Theorem check_any_options : forall w, scalars w -> Converges false (fun fuel => check k fuel w).
Proof. apply check_converges_of. exact casing_any_options. Qed.

Hypothesis PlainCase : ck_lower_as_title k = false /\ ck_lower_as_upper k = false.

Lemma spell_casing_converges : forall w, scalars w -> Converges st (fun n => spell_casing k n w).
Proof.
  intros w Hw.
  destruct (@converges_firstR st attempt flagset (fun a n => try_one k n a) (plan k w)) as [r [S [n E]]].
  - intros a Ha. apply try_one_converges. eapply plan_scalars; eassumption.
  - exists r. split; [exact S|]. exists n. intros m Hm. rewrite spell_casing_plan by (right; exact PlainCase).
    apply E. exact Hm.
Qed.

Lemma do_spell_break_converges : forall n w, scalars w -> Converges st (fun fuel => do_spell_break k fuel n w).
Proof. apply break_converges_of. exact spell_casing_converges. Qed.
Theorem check_converges : forall w, scalars w -> Converges st (fun fuel => check k fuel w).
Proof. apply check_converges_of. exact spell_casing_converges. Qed.

(** ** What [check] accepts *)
Hypothesis STRICT : strict k = true.

(** The flags of the first spelling of [w] that is found, or [None]. *)
Definition Own (w : str) (r : option flagset) : Prop := Eventually (fun fuel => spell_casing k fuel w) (Ret r).

Lemma own_total : forall w, scalars w -> exists r, Own w r.
Proof.
  intros w Hw. pose proof (spell_casing_converges Hw) as C. rewrite STRICT in C. apply converges_true in C. exact C.
Qed.
Lemma own_det : forall w r1 r2, Own w r1 -> Own w r2 -> r1 = r2.
Proof. intros w r1 r2 H1 H2. pose proof (eventually_det H1 H2) as E. congruence. Qed.

Definition Blocked (flags : flagset) : Prop :=
  In (o_forbidden opts) flags \/ (o_forbid_warn opts = true /\ marked (o_warn opts) flags).

(** [w] is accepted, breaking it at most [n] levels deep. *)
Inductive Broken : nat -> str -> Prop :=
| Broken_own : forall n w flags, Own w (Some flags) -> accepted_flags k flags = true -> Broken n w
| Broken_start : forall n p w, Own (p ++ w) None -> In p (start_breaks (ad_breaks A)) ->
    Broken n w -> Broken (S n) (p ++ w)
| Broken_end : forall n p w, Own (w ++ p) None -> In p (end_breaks (ad_breaks A)) ->
    Broken n w -> Broken (S n) (w ++ p)
| Broken_middle : forall n p u v, Own (u ++ p ++ v) None -> In p (middle_breaks (ad_breaks A)) ->
    (forall a b, u ++ p ++ v = a ++ p ++ b -> length u <= length a) -> v <> [] ->
    Broken n u -> Broken n v -> Broken (S n) (u ++ p ++ v).

Lemma split_first : forall p w a b, split_once p w = Some (a, b) <->
  w = a ++ p ++ b /\ (forall a' b', w = a' ++ p ++ b' -> length a <= length a').
Proof.
  intros p w a b. unfold split_once. destruct (find_sub p w) as [i|] eqn:E.
  - destruct (find_sub_split _ _ E) as (u & v & Ew & L & M). split.
    + intro H. injection H as <- <-. 
      assert (firstn i w = u) as F by (rewrite Ew; apply firstn_app_exact; symmetry; exact L).
      assert (skipn (i + length p) w = v) as S.
      { rewrite Ew, app_assoc. apply skipn_app_exact. rewrite app_length, L. reflexivity. }
      rewrite F, S. auto.
    + intros [E2 M2]. assert (length a = length u) as LL by (apply Nat.le_antisymm; [apply (M2 _ _ Ew)|apply (M _ _ E2)]).
      assert (a = u) as ->.
      { rewrite <- (@firstn_app_exact _ a (p ++ b) (length a)) by reflexivity.
        rewrite <- (@firstn_app_exact _ u (p ++ v) (length u)) by reflexivity. rewrite <- E2, <- Ew, LL. reflexivity. }
      rewrite Ew in E2. apply app_inv_head in E2. apply app_inv_head in E2. subst b.
      f_equal. f_equal.
      * rewrite Ew. apply firstn_app_exact. symmetry. exact L.
      * rewrite Ew, app_assoc. apply skipn_app_exact. rewrite app_length, L. reflexivity.
  - split; [discriminate|]. intros [E2 _]. exfalso. exact (proj1 (find_sub_none p w) E a b E2).
Qed.

Theorem do_spell_break_spec : forall n w, scalars w -> Decides (fun fuel => do_spell_break k fuel n w) (Broken n w).
Proof.
  induction n as [|n IH]; intros w Hw; destruct (own_total Hw) as [r Hr].
  - exists (match r with Some f => accepted_flags k f | None => false end). split.
    + cbn [do_spell_break]. apply (@eventually_bind _ _ (fun m => spell_casing k m w) r
        (fun r _ => match r with Some flags => Ret (accepted_flags k flags) | None => Ret false end)); [exact Hr|].
      destruct r; apply eventually_const.
    + split.
      * intro H. destruct r as [f|]; [|discriminate]. eapply Broken_own; eassumption.
      * intro H. inversion H as [n0 w0 f0 HO HA| | |]; subst. pose proof (own_det Hr HO). subst r. exact HA.
  - set (S1 := fun (pattern : str) fuel => match strip_prefix pattern w with
                    | Some rest => do_spell_break k fuel n rest | None => Ret false end).
    set (S2 := fun (pattern : str) fuel => match strip_suffix pattern w with
                    | Some rest => do_spell_break k fuel n rest | None => Ret false end).
    set (S3 := fun (pattern : str) fuel => match split_once pattern w with
                               | Some (part1, part2) =>
                                   if negb (nonempty part2) then Ret false
                                   else
                                     c1 <- do_spell_break k fuel n part1 ;;
                                     if (c1 : bool) then do_spell_break k fuel n part2 else Ret false
                               | None => Ret false end).
    set (BODY := fun (r : option flagset) fuel => match r with Some flags => Ret (accepted_flags k flags) | None =>
          b1 <- anyR (fun p => S1 p fuel) (start_breaks (ad_breaks A)) ;;
          if (b1 : bool) then Ret true else
          b2 <- anyR (fun p => S2 p fuel) (end_breaks (ad_breaks A)) ;;
          if (b2 : bool) then Ret true else anyR (fun p => S3 p fuel) (middle_breaks (ad_breaks A)) end).
    assert (D1 : Decides (fun fuel => anyR (fun p => S1 p fuel) (start_breaks (ad_breaks A)))
                   (exists p, In p (start_breaks (ad_breaks A)) /\ exists rest, w = p ++ rest /\ Broken n rest)).
    { apply decides_anyR. intros p _. unfold S1. destruct (strip_prefix p w) as [rest|] eqn:E.
      - pose proof (strip_prefix_scalars _ E Hw) as Hs. apply strip_prefix_spec in E.
        apply (decides_iff (P := Broken n rest)); [|apply IH; exact Hs]. split; [eauto|].
        intros [rest' [E' HB]]. rewrite E in E'. apply app_inv_head in E'. subst. exact HB.
      - apply decides_const. split; [discriminate|]. intros [rest [E' _]]. apply strip_prefix_spec in E'. congruence. }
    assert (D2 : Decides (fun fuel => anyR (fun p => S2 p fuel) (end_breaks (ad_breaks A)))
                   (exists p, In p (end_breaks (ad_breaks A)) /\ exists rest, w = rest ++ p /\ Broken n rest)).
    { apply decides_anyR. intros p _. unfold S2. destruct (strip_suffix p w) as [rest|] eqn:E.
      - pose proof (strip_suffix_scalars _ E Hw) as Hs. apply strip_suffix_spec in E.
        apply (decides_iff (P := Broken n rest)); [|apply IH; exact Hs]. split; [eauto|].
        intros [rest' [E' HB]]. rewrite E in E'. apply app_inv_tail in E'. subst. exact HB.
      - apply decides_const. split; [discriminate|]. intros [rest [E' _]]. apply strip_suffix_spec in E'. congruence. }
    assert (D3 : Decides (fun fuel => anyR (fun p => S3 p fuel) (middle_breaks (ad_breaks A)))
                   (exists p, In p (middle_breaks (ad_breaks A)) /\ exists u v, w = u ++ p ++ v /\
                      (forall a b, w = a ++ p ++ b -> length u <= length a) /\ v <> [] /\ Broken n u /\ Broken n v)).
    { apply decides_anyR. intros p _. unfold S3. destruct (split_once p w) as [[u v]|] eqn:E.
      - destruct (split_once_scalars _ E Hw) as [Hu Hv]. pose proof E as E0. apply split_first in E. destruct E as [E M].
        assert (UN : forall u' v', w = u' ++ p ++ v' -> (forall a b, w = a ++ p ++ b -> length u' <= length a) -> u' = u /\ v' = v).
        { intros u' v' E' M'. assert (split_once p w = Some (u', v')) as X by (apply split_first; auto). rewrite E0 in X. injection X. auto. }
        destruct (nonempty v) eqn:Ev; cbn [negb].
        + apply (decides_iff (P := Broken n u /\ Broken n v)); [|apply decides_and; [apply IH; exact Hu|apply IH; exact Hv]].
          split.
          * intros [B1 B2]. exists u, v. conj; auto. intros ->. discriminate.
          * intros (u' & v' & E' & M' & _ & B1 & B2). destruct (UN u' v' E' M') as [-> ->]. auto.
        + apply decides_const. split; [discriminate|]. intros (u' & v' & E' & M' & Hne & _). exfalso.
          destruct (UN u' v' E' M') as [-> ->]. destruct v; [contradiction Hne; reflexivity|discriminate].
      - apply decides_const. split; [discriminate|]. intros (u' & v' & E' & M' & _).
        assert (split_once p w = Some (u', v')) as X by (apply split_first; auto). congruence. }
    destruct r as [f|].
    + exists (accepted_flags k f). split.
      * apply (@eventually_bind _ _ (fun m => spell_casing k m w) (Some f) BODY); [exact Hr|apply eventually_const].
      * split; [intro H; eapply Broken_own; eassumption|]. intro H. inversion H as [n0 w0 f0 HO HA|n0 p w0 HO HI HB|n0 p w0 HO HI HB|n0 p u v HO HI HM HN HB1 HB2]; subst.
        -- pose proof (own_det Hr HO) as X. injection X as ->. assumption.
        -- pose proof (own_det Hr HO). discriminate.
        -- pose proof (own_det Hr HO). discriminate.
        -- pose proof (own_det Hr HO). discriminate.
    + pose proof (decides_if D1 (decides_if D2 D3)) as [b [E Hb]]. exists b. split.
      * apply (@eventually_bind _ _ (fun m => spell_casing k m w) None BODY); [exact Hr|exact E].
      * rewrite Hb. split.
        -- intros [(p & Hp & rest & Ew & HB)|[(p & Hp & rest & Ew & HB)|(p & Hp & u & v & Ew & HM & Hne & B1 & B2)]]; subst w.
           ++ apply Broken_start; assumption.
           ++ apply Broken_end; assumption.
           ++ apply Broken_middle; assumption.
        -- intro H. inversion H as [n0 w0 f0 HO HA|n0 p w0 HO HI HB|n0 p w0 HO HI HB|n0 p u v HO HI HM HN HB1 HB2]; subst.
           ++ pose proof (own_det Hr HO). discriminate.
           ++ left. exists p. split; [assumption|]. eauto.
           ++ right. left. exists p. split; [assumption|]. eauto.
           ++ right. right. exists p. split; [assumption|]. exists u, v. auto.
Qed.

(** [check] accepts [w] when the input conversion turns it into [w']. *)
Definition AcceptsAs (w w' : str) : Prop :=
  (blen w <= 360)%N /\
    (w' = [] \/ Numeral (trim_end_dots w') \/
     Broken 9 (filter (fun c => negb (memb c (ad_ignore A))) (trim_end_dots w')) \/
     ((exists v, w' = v ++ [46%N]) /\ Broken 9 w')).

(** The words [check] accepts. *)
Definition Accepts (w : str) : Prop := exists w', Converts (ct_inner (ad_iconv A)) w w' /\ AcceptsAs w w'.

Theorem check_spec_at : forall w w', scalars w' -> convert (ad_iconv A) w = Ret w' -> Decides (fun fuel => check k fuel w) (AcceptsAs w w').
Proof.
  intros w w' Hw' E. unfold check, AcceptsAs, max_word_len.
  destruct (N.ltb_spec 360 (blen w)) as [L|L].
  { apply decides_const. split; [discriminate|]. intros [X _]. lia. }
  rewrite E. cbn [bindR].
  destruct w' as [|c w'].
  { apply decides_const. tauto. }
  set (v := c :: w') in *.
  assert (NE : v <> []) by discriminate.
  destruct (is_number (trim_end_dots v)) eqn:EN.
  { apply is_number_spec in EN. apply decides_const. tauto. }
  assert (NN : ~ Numeral (trim_end_dots v)) by (rewrite <- is_number_spec; congruence).
  rewrite <- erase_chars_filter.
  apply (decides_iff (P := Broken 9 (erase_chars (ad_ignore A) (trim_end_dots v)) \/ ((exists u, v = u ++ [46%N]) /\ Broken 9 v)));
    [tauto|].
  assert (B1 : Decides (fun fuel => spell_break k fuel (erase_chars (ad_ignore A) (trim_end_dots v))) (Broken 9 (erase_chars (ad_ignore A) (trim_end_dots v)))).
  { apply do_spell_break_spec. apply scalars_erase, scalars_trim. exact Hw'. }
  assert (B2 : Decides (fun fuel => spell_break k fuel v) (Broken 9 v)) by (apply do_spell_break_spec; exact Hw').
  revert B1 B2. generalize (spell_break k). intros sb B1 B2. apply (@decides_if (fun fuel => sb fuel (erase_chars (ad_ignore A) (trim_end_dots v)))
    (fun fuel => if negb (length (trim_end_dots v) =? length v)%nat then sb fuel v else Ret false)); [exact B1|].
  pose proof (trim_abbrev v) as T. destruct (negb (length (trim_end_dots v) =? length v)%nat).
  - apply (decides_iff (P := Broken 9 v)); [tauto|exact B2].
  - apply decides_const. split; [discriminate|]. intros [H _]. apply T in H. discriminate.
Qed.

Theorem check_spec_as : forall w, scalars w ->
  exists w', Converts (ct_inner (ad_iconv A)) w w' /\ Decides (fun fuel => check k fuel w) (AcceptsAs w w').
Proof.
  intros w Hw. destruct (iconv_spec Hw) as [w' [E [C Hw']]]. exists w'. split; [exact C|]. exact (check_spec_at _ Hw' E).
Qed.

(** Two conversions of the same text agree. *)
Definition iconv_functional : Prop := forall c c', In c (ct_inner (ad_iconv A)) -> In c' (ct_inner (ad_iconv A)) ->
  cv_from c = cv_from c' -> cv_to c = cv_to c'.

Theorem check_spec : iconv_functional -> forall w, scalars w -> Decides (fun fuel => check k fuel w) (Accepts w).
Proof.
  intros F w Hw. destruct (check_spec_as Hw) as [w' [C D]]. revert D. apply decides_iff. split.
  - intro H. exists w'. auto.
  - intros [x [Hx H]]. rewrite <- (Converts_det F Hx C). exact H.
Qed.

Lemma no_iconv_same : ct_inner (ad_iconv A) = [] -> forall w w', Converts (ct_inner (ad_iconv A)) w w' -> w' = w.
Proof.
  intros E w w' H. rewrite E in H. induction H as [|x w out Hn H IH|c r out Hc]; [reflexivity|congruence|destruct Hc].
Qed.
End Terminates.
