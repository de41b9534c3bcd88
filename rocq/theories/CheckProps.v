(** Consequences of the characterisation of [check] for users of the API. *)
From Coq Require Import List NArith ZArith Lia Bool Arith FunctionalExtensionality Permutation.
From Coq Require Import ZifyBool ZifyNat ZifyN.
From Verif Require Import Base Utf8 Unicode Flags Condition Affix CompoundRule Conversion Aff Checker AffixSpec Rep CompoundSpec CompoundTotal RuleCompound Spell CheckSpec.
Import ListNotations.
Set Implicit Arguments.

(** ** Length limits (C02) and numerals (C03) *)
Theorem check_long : forall k fuel w, (360 < blen w)%N -> check k fuel w = Ret false.
Proof. intros k fuel w H. unfold check, max_word_len. apply N.ltb_lt in H. rewrite H. reflexivity. Qed.

Theorem check_empty : forall k fuel, conv_table_ok (ad_iconv (ck_aff k)) -> check k fuel [] = Ret true.
Proof.
  intros k fuel H. unfold check. cbn [blen]. change (max_word_len <? 0)%N with false. cbn iota.
  destruct (convert_spec (w := []) H) as [out [-> C]]; [constructor|]. cbn [bindR].
  assert (out = []) as ->; [|reflexivity].
  remember [] as w eqn:E in C. destruct C as [|x w out Hn C|c r out Hc Hu Hb C]; [reflexivity|discriminate|].
  destruct Hu as [Hne _]. apply app_eq_nil in E. tauto.
Qed.

Lemma no_iconv : forall k w, ct_inner (ad_iconv (ck_aff k)) = [] -> convert (ad_iconv (ck_aff k)) w = Ret w.
Proof. intros k w H. unfold convert. rewrite H. reflexivity. Qed.

Lemma numeral_no_dot : forall w, Numeral w -> no_final_dot w.
Proof.
  intros w H v E. destruct (numeral_last H) as (u & c & E2 & Hc). subst w. apply app_inj_tail in E2. destruct E2 as [_ <-].
  unfold digit in Hc. lia.
Qed.

Theorem check_numeral : forall k fuel w n, ct_inner (ad_iconv (ck_aff k)) = [] ->
  Numeral w -> (blen (w ++ dots n) <= 360)%N -> check k fuel (w ++ dots n) = Ret true.
Proof.
  intros k fuel w n HI HN HL. unfold check, max_word_len.
  destruct (N.ltb_spec 360 (blen (w ++ dots n))) as [X|_]; [lia|]. rewrite no_iconv by exact HI. cbn [bindR].
  destruct (w ++ dots n) as [|c r] eqn:E; [reflexivity|]. rewrite <- E. rewrite trim_dots, trim_id by (apply numeral_no_dot; exact HN).
  apply is_number_spec in HN. rewrite HN. reflexivity.
Qed.

(** ** Ignored characters (C26), trailing dots (C27) *)
Lemma check_plain : forall k fuel w, ct_inner (ad_iconv (ck_aff k)) = [] ->
  w <> [] -> no_final_dot w -> ~ Numeral w -> (blen w <= 360)%N ->
  check k fuel w = (b <- spell_break k fuel (filter (fun c => negb (memb c (ad_ignore (ck_aff k)))) w) ;; if (b : bool) then Ret true else Ret false).
Proof.
  intros k fuel w HI Nw Dw Mw Lw. unfold check, max_word_len. destruct (N.ltb_spec 360 (blen w)) as [X|_]; [lia|].
  rewrite no_iconv by exact HI. cbn [bindR]. destruct w as [|c w]; [contradiction Nw; reflexivity|].
  rewrite trim_id by exact Dw. rewrite <- is_number_spec in Mw. destruct (is_number (c :: w)); [contradiction Mw; reflexivity|].
  rewrite Nat.eqb_refl. cbn [negb]. rewrite erase_chars_filter. reflexivity.
Qed.

Theorem check_ignore : forall k fuel u v, ct_inner (ad_iconv (ck_aff k)) = [] ->
  u <> [] -> v <> [] -> no_final_dot u -> no_final_dot v -> ~ Numeral u -> ~ Numeral v ->
  (blen u <= 360)%N -> (blen v <= 360)%N ->
  filter (fun c => negb (memb c (ad_ignore (ck_aff k)))) u = filter (fun c => negb (memb c (ad_ignore (ck_aff k)))) v ->
  check k fuel u = check k fuel v.
Proof. intros k fuel u v HI Nu Nv Du Dv Mu Mv Lu Lv E. rewrite !check_plain by assumption. rewrite E. reflexivity. Qed.

Theorem check_dots : forall k fuel w n, ct_inner (ad_iconv (ck_aff k)) = [] ->
  w <> [] -> no_final_dot w -> (blen (w ++ dots n) <= 360)%N ->
  check k fuel w = Ret true -> check k fuel (w ++ dots n) = Ret true.
Proof.
  intros k fuel w n HI Nw Dw Lw H. rewrite blen_app in Lw.
  destruct (is_number w) eqn:EN.
  { apply check_numeral; [exact HI|apply is_number_spec; exact EN|rewrite blen_app; exact Lw]. }
  assert (~ Numeral w) as Mw by (rewrite <- is_number_spec; congruence).
  rewrite check_plain in H by (assumption || lia).
  unfold check, max_word_len. rewrite blen_app.
  destruct (N.ltb_spec 360 (blen w + blen (dots n))) as [X|_]; [lia|].
  rewrite no_iconv by exact HI. cbn [bindR]. destruct (w ++ dots n) as [|c r] eqn:E; [reflexivity|]. rewrite <- E.
  rewrite trim_dots, trim_id by exact Dw. rewrite EN, erase_chars_filter.
  destruct (spell_break k fuel _) as [[|]| |]; cbn [bindR] in *; congruence.
Qed.

(** Every route ends at an entry of the dictionary. *)
Lemma simple_entry : forall A (e : str -> flagset -> Prop) hh w f, SimpleWord A e hh w f -> exists stem, e stem f.
Proof.
  intros A e hh w f H. unfold SimpleWord in H.
  assert (X2 : forall kd a st, OneAffix A e kd FULL_WORD hh w a st f -> e st f) by (intros kd a st (_ & _ & _ & _ & _ & _ & X & _); exact X).
  assert (X3 : forall p s st, PrefixSuffix A e FULL_WORD hh w p s st f -> e st f)
    by (intros p s st (_ & _ & _ & _ & _ & _ & _ & _ & X & _); exact X).
  assert (X4 : forall kd o i st, TwoAffixes A e kd hh w o i st f -> e st f)
    by (intros kd o i st (_ & _ & _ & _ & _ & _ & _ & _ & _ & _ & X & _); exact X).
  assert (X5 : forall kd x o i st, OuterAndTwo A e kd hh w x o i st f -> e st f)
    by (intros kd x o i st X; unfold OuterAndTwo in X; tauto).
  assert (X6 : forall c kd x o i st, Sandwich A e c kd hh w x o i st f -> e st f)
    by (intros c kd x o i st X; unfold Sandwich in X; tauto).
  destruct H as [[H _]|[(kd & a & st & H)|[(p & s & st & H)|[[E H]|[E H]]]]]; eauto.
  - destruct H as [(o & i & st & H)|[(x & o & i & st & H)|(x & o & i & st & H)]]; eauto.
  - destruct H as [(o & i & st & H)|[(x & o & i & st & H & H')|(x & o & i & st & H)]]; eauto.
Qed.

(** ** Which words are found *)
Section Words.
Variable k : checker.
Hypothesis WCMP : wf_compound k.
Notation A := (ck_aff k).
Notation opts := (ad_options (ck_aff k)).
Notation U := (ck_u k).
Notation entry := (fun stem flags => In flags (ck_get k stem)).
Notation WC := (wfc_checker WCMP).
Notation MIN := (wfc_min WCMP).

(** [w] is a word of the dictionary because of an entry with [flags]. *)
Definition Found (fu : forceucase) (hh : hidden_homonym) (w : str) (flags : flagset) : Prop :=
  SimpleWord A entry hh w flags \/
  (allows_compounding opts = true /\ exists w1 e p2 ps, cr_flags e = flags /\
     Compound U A entry fu AT_BEGIN [] w ((w1, e) :: p2 :: ps)) \/
  (rt_rules (ad_rules A) <> [] /\ RuleCompound A entry fu w /\ exists part, entry part flags).

Lemma rules_entry : forall fuel word data start fu e, rules_impl k fuel word data start fu = Ret (Some e) ->
  exists part, entry part (cr_flags e).
Proof.
  induction fuel as [|fuel IH]; intros word data start fu e H; cbn [rules_impl] in H; [discriminate|].
  apply firstR_some in H. destruct H as [i [_ H]].
  destruct (rule_part k (slice word start i)) as [f1|] eqn:E1; [|discriminate].
  destruct (rule_part_some WC _ E1) as [[R1 _] _].
  match type of H with bindR ?d _ = _ => destruct d as [[|]| |] end; cbn [bindR] in H; try discriminate.
  - injection H as <-. cbn. eauto.
  - eapply IH. exact H.
Qed.

Lemma compound_found : forall fuel w fu e, scalars w -> check_compound k fuel AT_BEGIN w fu = Ret (Some e) ->
  (allows_compounding opts = true /\ exists w1 e1 p2 ps, cr_flags e1 = cr_flags e /\
     Compound U A entry fu AT_BEGIN [] w ((w1, e1) :: p2 :: ps)) \/
  (rt_rules (ad_rules A) <> [] /\ RuleCompound A entry fu w /\ exists part, entry part (cr_flags e)).
Proof.
  intros fuel w fu e Hw H. unfold check_compound in H.
  assert (R : (if nonempty (rt_rules (ad_rules A)) then check_compound_with_rules k w fu else Ret None) = Ret (Some e) ->
     rt_rules (ad_rules A) <> [] /\ RuleCompound A entry fu w /\ exists part, entry part (cr_flags e)).
  { intros X1.
    destruct (rt_rules (ad_rules A)) as [|r0 rs] eqn:ER; cbn [nonempty] in X1; [discriminate|].
    split; [discriminate|]. split; [exact (rules_sound WC MIN _ _ X1)|].
    unfold check_compound_with_rules in X1. apply rules_entry in X1. exact X1. }
  destruct (allows_compounding opts) eqn:EA; [|right; apply R, H].
  destruct (check_compound_flags k fuel AT_BEGIN w fu) as [[e1|]| |] eqn:E1; cbn [bindR] in H; try discriminate; [|right; apply R, H].
  injection H as <-. left. split; [reflexivity|].
  destruct (compound_sound WCMP _ _ _ Hw E1) as (w1 & p2 & ps & HC & _). eauto 6.
Qed.
Lemma word_found : forall fuel w fu hh f, scalars w -> check_word k fuel w fu hh = Ret (Some f) -> Found fu hh w f.
Proof.
  intros fuel w fu hh f Hw H. unfold check_word in H. destruct (check_simple_word k w hh) as [f1|] eqn:E.
  { injection H as <-. left. apply simple_word_sound; [exact WC|exact Hw|exact E]. }
  right. destruct (check_compound k fuel AT_BEGIN w fu) as [[e|]| |] eqn:E1; try discriminate. injection H as <-.
  exact (compound_found _ _ Hw E1).
Qed.
Lemma word_none : forall fuel w fu hh, scalars w -> check_word k fuel w fu hh = Ret None ->
  forall f, ~ SimpleWord A entry hh w f.
Proof.
  intros fuel w fu hh Hw H f HS. destruct (simple_word_complete WC Hw HS) as [f' E].
  unfold check_word in H. rewrite E in H. discriminate.
Qed.
End Words.

Section Props.
Variable k : checker.
Hypothesis WF : wf_full k.
Notation A := (ck_aff k).
Notation opts := (ad_options (ck_aff k)).
Notation U := (ck_u k).
Notation case := (o_case (ad_options (ck_aff k))).
Notation entry := (fun stem flags => In flags (ck_get k stem)).
Notation WC := (wfc_checker (wff_compound WF)).
Notation MIN := (wfc_min (wff_compound WF)).


Lemma check_word_found : forall fuel w fu hh f, scalars w -> check_word k fuel w fu hh = Ret (Some f) -> Found k fu hh w f.
Proof. exact (word_found (wff_compound WF)). Qed.
Lemma check_word_none : forall fuel w fu hh, scalars w -> check_word k fuel w fu hh = Ret None ->
  forall f, ~ SimpleWord A entry hh w f.
Proof. exact (word_none (wff_compound WF)). Qed.

Hypothesis PlainCase : ck_lower_as_title k = false /\ ck_lower_as_upper k = false.
Hypothesis STRICT : strict k = true.

(** The attempt [a] succeeds with [f]. *)
Definition Succeeds (a : attempt) (r : option flagset) : Prop := Eventually (fun fuel => try_one k fuel a) (Ret r).

Lemma succeeds_total : forall a, scalars (at_word a) -> exists r, Succeeds a r.
Proof.
  intros a Ha. pose proof (try_one_converges WF _ Ha) as C. rewrite STRICT in C. apply converges_true in C. exact C.
Qed.

Lemma succeeds_found : forall a f, scalars (at_word a) -> Succeeds a (Some f) ->
  Found k (at_fu a) (at_hh a) (at_word a) f /\ at_filter a f = true.
Proof.
  intros a f Ha [n E]. specialize (E n (le_n _)). unfold try_one in E.
  destruct (check_word k n (at_word a) (at_fu a) (at_hh a)) as [[f'|]| |] eqn:EW; cbn [bindR] in E; try discriminate.
  destruct (at_filter a f') eqn:EF; [|discriminate]. injection E as <-.
  split; [exact (check_word_found _ _ _ Ha EW)|exact EF].
Qed.

(** [Own w] is the first success of the plan. *)
Lemma firstR_eventually : forall l, (forall a, In a l -> scalars (at_word a)) -> forall r,
  Eventually (fun fuel => firstR (try_one k fuel) l) (Ret r) <->
  match r with
  | Some f => exists u a v, l = u ++ a :: v /\ Succeeds a (Some f) /\ Forall (fun b => Succeeds b None) u
  | None => Forall (fun b => Succeeds b None) l
  end.
Proof.
  assert (FWD : forall l, (forall a, In a l -> scalars (at_word a)) -> exists r,
    Eventually (fun fuel => firstR (try_one k fuel) l) (Ret r) /\
    match r with
    | Some f => exists u a v, l = u ++ a :: v /\ Succeeds a (Some f) /\ Forall (fun b => Succeeds b None) u
    | None => Forall (fun b => Succeeds b None) l
    end).
  { induction l as [|a l IH]; intro Hs.
    - exists None. split; [exists 0; reflexivity|constructor].
    - destruct (@succeeds_total a) as [ra Ra]; [apply Hs; left; reflexivity|].
      destruct IH as [r [R HR]]; [intros; apply Hs; right; assumption|].
      destruct Ra as [n1 E1]. destruct R as [n2 E2]. destruct ra as [f|].
      + exists (Some f). split.
        * exists n1. intros n Hn. cbn [firstR]. rewrite E1 by exact Hn. reflexivity.
        * exists [], a, l. conj; [reflexivity|exists n1; exact E1|constructor].
      + exists r. split.
        * exists (n1 + n2). intros n Hn. cbn [firstR]. rewrite E1 by lia. apply E2. lia.
        * destruct r as [f|].
          -- destruct HR as (u & a' & v & -> & HS & HF). exists (a :: u), a', v. conj; [reflexivity|exact HS|].
             constructor; [exists n1; exact E1|exact HF].
          -- constructor; [exists n1; exact E1|exact HR]. }
  assert (UNI : forall l r, match r with
    | Some f => exists u a v, l = u ++ a :: v /\ Succeeds a (Some f) /\ Forall (fun b => Succeeds b None) u
    | None => Forall (fun b => Succeeds b None) l
    end -> Eventually (fun fuel => firstR (try_one k fuel) l) (Ret r)).
  { induction l as [|a l IH]; intros r H.
    - destruct r as [f|]; [|exists 0; reflexivity]. destruct H as (u & a & v & E & _). destruct u; discriminate.
    - destruct r as [f|].
      + destruct H as (u & b & v & E & [n1 HS] & HF). destruct u as [|a' u]; cbn in E; injection E as -> ->.
        * exists n1. intros n Hn. cbn [firstR]. rewrite HS by exact Hn. reflexivity.
        * inversion HF as [|? ? [n2 E2] HF']; subst.
          destruct (IH (Some f)) as [n3 E3]; [exists u, b, v; conj; [reflexivity|exists n1; exact HS|exact HF']|].
          exists (n2 + n3). intros n Hn. cbn [firstR]. rewrite E2 by lia. apply E3. lia.
      + inversion H as [|? ? [n2 E2] HF']; subst. destruct (IH None HF') as [n3 E3].
        exists (n2 + n3). intros n Hn. cbn [firstR]. rewrite E2 by lia. apply E3. lia. }
  intros l Hs r. split; [|apply UNI].
  intro H. destruct (FWD l Hs) as [r' [H' HR]]. pose proof (eventually_det H H') as E. injection E as ->. exact HR.
Qed.

Theorem own_plan : forall w r, scalars w -> (Own k w r <->
  match r with
  | Some f => exists u a v, plan k w = u ++ a :: v /\ Succeeds a (Some f) /\ Forall (fun b => Succeeds b None) u
  | None => Forall (fun b => Succeeds b None) (plan k w)
  end).
Proof.
  intros w r Hw. rewrite <- (@firstR_eventually (plan k w)) by (intros a Ha; exact (plan_scalars WF _ Hw Ha)).
  unfold Own. split; apply eventually_ext; intro fuel; [|symmetry]; apply spell_casing_plan; right; exact PlainCase.
Qed.

(** The first spelling tried is [w] itself. *)
Lemma plan_self : forall w, exists fu hh rest, plan k w = mkAttempt w fu hh anything :: rest.
Proof.
  intro w. unfold plan. destruct PlainCase as [-> ->].
  destruct (classify_casing U w); cbn; try (do 3 eexists; reflexivity).
Qed.

(** ** Unknown words (C22) *)
Definition NoBreaks : Prop := start_breaks (ad_breaks A) = [] /\ end_breaks (ad_breaks A) = [] /\ middle_breaks (ad_breaks A) = [].

Lemma broken_no_breaks : NoBreaks -> forall n w, Broken k n w ->
  exists f, Own k w (Some f) /\ accepted_flags k f = true.
Proof.
  intros (B1 & B2 & B3) n w H. inversion H as [n0 w0 f HO HA|n0 p w0 HO HI|n0 p w0 HO HI|n0 p u v HO HI]; subst; eauto.
  - rewrite B1 in HI. destruct HI.
  - rewrite B2 in HI. destruct HI.
  - rewrite B3 in HI. destruct HI.
Qed.

Lemma own_found : forall w f, scalars w -> Own k w (Some f) ->
  exists a, In a (plan k w) /\ Found k (at_fu a) (at_hh a) (at_word a) f /\ at_filter a f = true.
Proof.
  intros w f Hw H. apply (own_plan (Some f) Hw) in H. destruct H as (u & a & v & E & HS & _).
  assert (In a (plan k w)) as Ha by (rewrite E; apply in_elt).
  exists a. split; [exact Ha|]. apply succeeds_found; [exact (plan_scalars WF _ Hw Ha)|exact HS].
Qed.

Lemma own_none : forall w, scalars w ->
  (forall a f, In a (plan k w) -> Found k (at_fu a) (at_hh a) (at_word a) f -> at_filter a f = false) -> Own k w None.
Proof.
  intros w Hw H. destruct (own_total WF PlainCase STRICT Hw) as [[f|] HO]; [|exact HO].
  destruct (own_found Hw HO) as (a & Ha & HF & HT). rewrite (H a f Ha HF) in HT. discriminate.
Qed.

(** ** What [check] does with an ordinary word *)
(** A word that is not touched by ICONV, IGNORE, the dot rule, the numeral rule or the length limit. *)
Record ordinary (w : str) : Prop := {
  ord_iconv : ct_inner (ad_iconv A) = [];
  ord_ne : w <> [];
  ord_dot : no_final_dot w;
  ord_num : ~ Numeral w;
  ord_len : (blen w <= 360)%N;
  ord_ign : forall c, In c w -> ~ In c (ad_ignore A) }.

Lemma memb_In : forall c l, memb c l = true <-> In c l.
Proof.
  intros c l. unfold memb. rewrite existsb_exists. split.
  - intros [x [Hx E]]. apply N.eqb_eq in E. subst. exact Hx.
  - intro H. exists c. split; [exact H|apply N.eqb_refl].
Qed.

Lemma ignore_none : forall w, (forall c, In c w -> ~ In c (ad_ignore A)) ->
  filter (fun c => negb (memb c (ad_ignore A))) w = w.
Proof.
  induction w as [|c w IH]; intro H; [reflexivity|]. cbn [filter].
  assert (memb c (ad_ignore A) = false) as ->.
  { apply not_true_is_false. rewrite memb_In. apply H. left. reflexivity. }
  cbn [negb]. rewrite IH; [reflexivity|]. intros x Hx. apply H. right. exact Hx.
Qed.

Lemma check_ordinary : forall fuel w, ordinary w ->
  check k fuel w = (b <- spell_break k fuel w ;; if (b : bool) then Ret true else Ret false).
Proof. intros fuel w []. rewrite check_plain by assumption. rewrite ignore_none by assumption. reflexivity. Qed.

Lemma ordinary_decides : forall w, scalars w -> ordinary w -> Decides (fun fuel => check k fuel w) (Broken k 9 w).
Proof.
  intros w Hw HO. destruct (do_spell_break_spec WF PlainCase STRICT 9 Hw) as [b [[n E] Hb]].
  exists b. split; [|exact Hb]. exists n. intros m Hm. rewrite check_ordinary by exact HO. unfold spell_break. rewrite E by exact Hm.
  destruct b; reflexivity.
Qed.

Definition Yes (w : str) : Prop := Eventually (fun fuel => check k fuel w) (Ret true).
Definition No (w : str) : Prop := Eventually (fun fuel => check k fuel w) (Ret false).

Lemma decides_yes : forall w P, Decides (fun fuel => check k fuel w) P -> P -> Yes w.
Proof. intros w P [b [E H]] HP. apply H in HP. subst b. exact E. Qed.
Lemma decides_no : forall w P, Decides (fun fuel => check k fuel w) P -> ~ P -> No w.
Proof. intros w P [b [E H]] HP. destruct b; [exfalso; apply HP, H; reflexivity|exact E]. Qed.

(** ** Forbidden words (C21) *)
Lemma found_entry : forall fu hh w f, Found k fu hh w f -> exists stem, entry stem f.
Proof.
  intros fu hh w f [H|[[_ (w1 & e & p2 & ps & <- & HC)]|(_ & _ & H)]]; [| |exact H].
  - exact (simple_entry H).
  - assert (exists m w, Part A entry m w e) as (m & w' & HP) by (inversion HC; subst; eauto).
    destruct HP as [[(HE & _)|[(kd & a & HO & _)|(p & s & HO & _)]] _].
    + eauto.
    + destruct HO as (_ & _ & _ & _ & _ & _ & X & _). eauto.
    + destruct HO as (_ & _ & _ & _ & _ & _ & _ & _ & X & _). eauto.
Qed.

Lemma found_wf : forall fu hh w f, Found k fu hh w f -> wf_flagset f.
Proof. intros fu hh w f H. destruct (found_entry H) as [st Hst]. exact (wf_entries WC _ _ Hst). Qed.

Lemma accepted_spec : forall f, wf_flagset f -> (accepted_flags k f = true <-> ~ Blocked k f).
Proof.
  clear WF PlainCase STRICT. intros f Wf. unfold accepted_flags, Blocked. rewrite andb_true_iff, !negb_true_iff. unfold is_forbidden.
  rewrite <- (contains_spec _ _ Wf), andb_false_iff, <- (has_flag_spec _ Wf).
  destruct (contains f (o_forbidden opts)), (o_forbid_warn opts), (has_flag f (o_warn opts)); intuition congruence.
Qed.

Theorem no_blocked_accepts : (forall stem f, entry stem f -> ~ Blocked k f) ->
  forall w f, scalars w -> ordinary w -> Own k w (Some f) -> Yes w.
Proof.
  intros HB w f Hw HO H. apply (@decides_yes w _ (ordinary_decides Hw HO)).
  destruct (own_found Hw H) as (a & Ha & HF & _). apply (@Broken_own k 9 w f H). apply accepted_spec; [exact (found_wf HF)|].
  destruct (found_entry HF) as [st Hst]. exact (HB _ _ Hst).
Qed.

(** ** Case variants (C19) *)
Lemma own_exists : forall w a f, scalars w -> In a (plan k w) -> SimpleWord A entry (at_hh a) (at_word a) f ->
  (forall f', Found k (at_fu a) (at_hh a) (at_word a) f' -> at_filter a f' = true) -> exists f', Own k w (Some f').
Proof.
  intros w a f Hw Ha HS HF. destruct (own_total WF PlainCase STRICT Hw) as [[f'|] HO]; [eauto|]. exfalso.
  apply (own_plan None Hw) in HO. rewrite Forall_forall in HO. destruct (HO a Ha) as [n E]. specialize (E n (le_n _)).
  unfold try_one in E. pose proof (plan_scalars WF _ Hw Ha) as Hs.
  destruct (check_word k n (at_word a) (at_fu a) (at_hh a)) as [[f'|]| |] eqn:EW; cbn [bindR] in E; try discriminate.
  - rewrite (HF f' (check_word_found _ _ _ Hs EW)) in E. discriminate.
  - exact (check_word_none _ _ Hs EW HS).
Qed.

Lemma keep_spec : forall f, wf_flagset f -> (keep_case k f = true <-> marked (o_keep_case opts) f).
Proof. intros f Wf. unfold keep_case. apply has_flag_spec. exact Wf. Qed.
Lemma keep_spec' : forall f, wf_flagset f -> ~ marked (o_keep_case opts) f -> keep_case k f = false.
Proof. intros f Wf H. apply not_true_is_false. rewrite keep_spec by exact Wf. exact H. Qed.

Definition no_keep (hh : hidden_homonym) (w : str) : Prop :=
  forall f, Found k AllowBadForceucase hh w f -> ~ marked (o_keep_case opts) f.

Theorem title_found : forall x f, scalars x -> classify_casing U x = CInit ->
  SimpleWord A entry AcceptHiddenHomonym (lowercase U case x) f -> no_keep AcceptHiddenHomonym (lowercase U case x) ->
  exists f', Own k x (Some f').
Proof.
  intros x f Hx HC HS HK.
  set (a := mkAttempt (lowercase U case x) AllowBadForceucase AcceptHiddenHomonym
     (fun f => negb (keep_case k f && negb (o_checksharps opts && memb sharp_s (lowercase U case x))))).
  apply (@own_exists x a f Hx); [|exact HS|].
  - unfold plan. rewrite HC. right. left. reflexivity.
  - intros f' HF. cbn in *. rewrite (keep_spec' (found_wf HF)); [reflexivity|exact (HK _ HF)].
Qed.

Theorem upper_found : forall x f, scalars x -> classify_casing U x = CAll ->
  (SimpleWord A entry AcceptHiddenHomonym (lowercase U case x) f /\ no_keep AcceptHiddenHomonym (lowercase U case x)) \/
  (SimpleWord A entry AcceptHiddenHomonym (title k x) f /\ no_keep AcceptHiddenHomonym (title k x)) ->
  exists f', Own k x (Some f').
Proof.
  intros x f Hx HC H.
  assert (X : forall w, (w = lowercase U case x \/ w = title k x) -> SimpleWord A entry AcceptHiddenHomonym w f ->
     no_keep AcceptHiddenHomonym w -> exists f', Own k x (Some f')).
  { intros w Hw HS HK. apply (@own_exists x (no_keep_case k w) f Hx); [|exact HS|].
    - unfold plan. rewrite HC. right. apply in_or_app. right. apply in_or_app. right.
      destruct Hw as [-> | ->]; [right; left; reflexivity|left; reflexivity].
    - intros f' HF. cbn in *. rewrite (keep_spec' (found_wf HF)); [reflexivity|exact (HK _ HF)]. }
  destruct H as [[HS HK]|[HS HK]]; [apply (X (lowercase U case x))|apply (X (title k x))]; auto.
Qed.

(** ** KEEPCASE (C20) *)
Theorem keep_title : forall x, scalars x -> classify_casing U x = CInit ->
  (forall f, ~ Found k AllowBadForceucase SkipHiddenHomonym x f) ->
  (forall f, Found k AllowBadForceucase AcceptHiddenHomonym (lowercase U case x) f -> marked (o_keep_case opts) f) ->
  (o_checksharps opts = true -> ~ In sharp_s (lowercase U case x)) ->
  Own k x None.
Proof.
  intros x Hx HC H1 H2 H3. apply own_none; [exact Hx|]. intros a f Ha HF. unfold plan in Ha. rewrite HC in Ha.
  destruct Ha as [<-|[<-|[]]]; cbn [at_fu at_hh at_word at_filter] in *.
  - exfalso. exact (H1 f HF).
  - assert (keep_case k f = true) as -> by (apply keep_spec; [exact (found_wf HF)|exact (H2 f HF)]). cbn [andb].
    rewrite negb_involutive. destruct (o_checksharps opts) eqn:E; [|reflexivity]. cbn [andb].
    apply not_true_is_false. rewrite memb_In. exact (H3 eq_refl).
Qed.

Theorem keep_upper : forall x, scalars x -> classify_casing U x = CAll -> o_checksharps opts = false ->
  (forall f, ~ Found k AllowBadForceucase AcceptHiddenHomonym x f) ->
  (forall a b, apostrophe_split x = Some (a, b) -> forall f,
     ~ Found k AllowBadForceucase AcceptHiddenHomonym (lowercase U case a ++ title k b) f /\
     ~ Found k AllowBadForceucase AcceptHiddenHomonym (title k a ++ title k b) f) ->
  (forall f, Found k AllowBadForceucase AcceptHiddenHomonym (title k x) f -> marked (o_keep_case opts) f) ->
  (forall f, Found k AllowBadForceucase AcceptHiddenHomonym (lowercase U case x) f -> marked (o_keep_case opts) f) ->
  Own k x None.
Proof.
  intros x Hx HC HS H1 HA H2 H3. apply own_none; [exact Hx|]. intros a f Ha HF. unfold plan in Ha. rewrite HC in Ha.
  unfold plan_upper in Ha. rewrite HS in Ha. cbn [andb app] in Ha.
  destruct Ha as [<-|Ha]; [exfalso; exact (H1 f HF)|]. apply in_app_or in Ha. destruct Ha as [Ha|Ha].
  - destruct (apostrophe_split x) as [[p q]|]; [|destruct Ha]. destruct (HA p q eq_refl f) as [X1 X2].
    destruct Ha as [<-|[<-|[]]]; exfalso; [exact (X1 HF)|exact (X2 HF)].
  - destruct Ha as [<-|[<-|[]]]; cbn in *; apply negb_false_iff; apply keep_spec; auto; exact (found_wf HF).
Qed.

(** ** Sharp s (C48) *)
Theorem sharps_found : forall fuel w f, scalars w -> spell_sharps k fuel w = Ret (Some f) ->
  exists v, SharpVariant 5 w v /\ check_word k fuel v AllowBadForceucase AcceptHiddenHomonym = Ret (Some f) /\
    Found k AllowBadForceucase AcceptHiddenHomonym v f.
Proof.
  intros fuel w f Hw H. rewrite sharps_plan_spec in H. apply firstR_some in H. destruct H as [a [Ha H]].
  unfold sharps_plan in Ha. destruct (has_ss w); [|destruct Ha]. apply in_map_iff in Ha. destruct Ha as [v [<- Hv]].
  apply sharp_variants_spec in Hv. rewrite try_lenient in H. exists v. split; [exact Hv|]. split; [exact H|].
  exact (check_word_found _ _ _ (sharp_variant_scalars Hv Hw) H).
Qed.

Theorem sharps_complete : forall w v f, scalars w -> (exists a b, w = a ++ ss ++ b) -> SharpVariant 5 w v ->
  SimpleWord A entry AcceptHiddenHomonym v f ->
  exists f', Eventually (fun fuel => spell_sharps k fuel w) (Ret (Some f')).
Proof.
  intros w v f Hw Hss HV HS.
  assert (HSC : forall a, In a (sharps_plan w) -> scalars (at_word a)) by (intros a Ha; exact (@sharps_plan_scalars w a Hw Ha)).
  assert (C : exists r, Eventually (fun fuel => firstR (try_one k fuel) (sharps_plan w)) (Ret r)).
  { pose proof (@converges_firstR (strict k) _ _ (fun a n => try_one k n a) (sharps_plan w)
      (fun a Ha => try_one_converges WF a (HSC a Ha))) as X. rewrite STRICT in X. apply converges_true in X. exact X. }
  destruct C as [[f'|] C].
  - exists f'. revert C. apply eventually_ext. intro. symmetry. apply sharps_plan_spec.
  - exfalso. rewrite (@firstR_eventually _ HSC None) in C. rewrite Forall_forall in C.
    assert (In (lenient v) (sharps_plan w)) as Hin.
    { unfold sharps_plan. replace (has_ss w) with true.
      - apply in_map. apply sharp_variants_spec. exact HV.
      - symmetry. unfold has_ss. destruct (find_sub ss w) eqn:E; [reflexivity|]. exfalso.
        destruct Hss as (a & b & Ew). exact (proj1 (find_sub_none ss w) E a b Ew). }
    destruct (C _ Hin) as [n E]. specialize (E n (le_n _)). rewrite try_lenient in E.
    exact (check_word_none _ _ (sharp_variant_scalars HV Hw) E HS).
Qed.
End Props.

(** ** Forbidden words, at every depth (C21) *)
Lemma break_hit : forall k fuel n w f, spell_casing k fuel w = Ret (Some f) ->
  do_spell_break k fuel n w = Ret (accepted_flags k f).
Proof. intros k fuel [|n] w f E; cbn [do_spell_break]; rewrite E; reflexivity. Qed.

Theorem forbidden_rejected : forall k w, wf_checker k -> ordinary k w ->
  (forall f, In f (ck_get k w) -> Blocked k f) ->
  (exists f, DirectWord (ck_aff k) (fun stem flags => In flags (ck_get k stem)) SkipHiddenHomonym w f) ->
  forall fuel, check k fuel w = Ret false.
Proof.
  intros k w WF HO HB [f HD] fuel.
  assert (forall hh, exists f, check_direct k w hh = Some f /\ In f (ck_get k w)) as HX.
  { intro hh. assert (DirectWord (ck_aff k) (fun stem flags => In flags (ck_get k stem)) hh w f) as HD'.
    { destruct HD as (X1 & X2 & X3 & X4). split; [exact X1|]. split; [exact X2|]. split; [exact X3|]. intros _. apply X4. reflexivity. }
    destruct (direct_complete WF HD') as [f' E]. exists f'. split; [exact E|]. apply (direct_sound WF) in E. apply E. }
  assert (forall fu hh, exists f, check_word k fuel w fu hh = Ret (Some f) /\ In f (ck_get k w)) as HW.
  { intros fu hh. destruct (HX hh) as [f' [E Hf]]. exists f'. split; [|exact Hf]. unfold check_word, check_simple_word. rewrite E. reflexivity. }
  assert (exists f, spell_casing k fuel w = Ret (Some f) /\ In f (ck_get k w)) as [f' [E Hf]].
  { unfold spell_casing, spell_casing_upper, spell_casing_title.
    destruct (classify_casing (ck_u k) w);
      match goal with |- context [check_word k fuel w ?fu ?hh] => destruct (HW fu hh) as [f' [-> Hf]] end; eauto. }
  rewrite check_ordinary by exact HO. unfold spell_break. rewrite (break_hit _ _ _ _ E). cbn [bindR].
  assert (accepted_flags k f' = false) as ->; [|reflexivity]. apply not_true_is_false.
  intro X. pose proof (wf_entries WF _ _ Hf) as Wf.
  unfold accepted_flags in X. rewrite andb_true_iff, !negb_true_iff in X. destruct X as [X1 X2].
  destruct (HB f' Hf) as [B|[B1 B2]].
  - unfold is_forbidden in X1. apply contains_spec in B; [congruence|exact Wf].
  - rewrite B1 in X2. cbn [andb] in X2. apply (has_flag_spec _ Wf) in B2. congruence.
Qed.

(** ** The options [check_lower_as_title] and [check_lower_as_upper] (C49) *)
Definition off (k : checker) : checker := mkChecker (ck_u k) (ck_overflow_checks k) (ck_aff k) (ck_get k) false false.

(** None of the functions below [spell_casing] reads the two options. *)
Section Off.
Variable k : checker.
Lemma pfx_of_off : pfx_of (off k) = pfx_of k. Proof. unfold pfx_of. reflexivity. Qed.
Lemma sfx_of_off : sfx_of (off k) = sfx_of k. Proof. unfold sfx_of. reflexivity. Qed.
Lemma affix_valid_off : affix_valid (off k) = affix_valid k. Proof. unfold affix_valid. reflexivity. Qed.
Lemma is_outer_affix_valid_off : is_outer_affix_valid (off k) = is_outer_affix_valid k. Proof. unfold is_outer_affix_valid. rewrite affix_valid_off. reflexivity. Qed.
Lemma is_circumfix_off : is_circumfix (off k) = is_circumfix k. Proof. unfold is_circumfix. reflexivity. Qed.
Lemma is_valid_inside_compound_off : is_valid_inside_compound (off k) = is_valid_inside_compound k. Proof. unfold is_valid_inside_compound. reflexivity. Qed.
Lemma only_in_compound_off : only_in_compound (off k) = only_in_compound k. Proof. unfold only_in_compound. reflexivity. Qed.
Lemma need_affix_off : need_affix (off k) = need_affix k. Proof. unfold need_affix. reflexivity. Qed.
Lemma strip_suffix_only_off : strip_suffix_only (off k) = strip_suffix_only k. Proof. unfold strip_suffix_only. rewrite sfx_of_off. rewrite is_outer_affix_valid_off. rewrite is_circumfix_off. rewrite is_valid_inside_compound_off. rewrite only_in_compound_off. reflexivity. Qed.
Lemma strip_prefix_only_off : strip_prefix_only (off k) = strip_prefix_only k. Proof. unfold strip_prefix_only. rewrite pfx_of_off. rewrite is_outer_affix_valid_off. rewrite is_circumfix_off. rewrite is_valid_inside_compound_off. rewrite only_in_compound_off. reflexivity. Qed.
Lemma strip_prefix_then_suffix_commutative_off : strip_prefix_then_suffix_commutative (off k) = strip_prefix_then_suffix_commutative k. Proof. unfold strip_prefix_then_suffix_commutative. rewrite pfx_of_off. rewrite sfx_of_off. rewrite affix_valid_off. rewrite is_circumfix_off. rewrite is_valid_inside_compound_off. rewrite only_in_compound_off. rewrite need_affix_off. reflexivity. Qed.
Lemma p_all_flags_off : p_all_flags (off k) = p_all_flags k. Proof. unfold p_all_flags. reflexivity. Qed.
Lemma s_all_flags_off : s_all_flags (off k) = s_all_flags k. Proof. unfold s_all_flags. reflexivity. Qed.
Lemma strip_suffix_then_suffix_off : strip_suffix_then_suffix (off k) = strip_suffix_then_suffix k. Proof. unfold strip_suffix_then_suffix. rewrite sfx_of_off. rewrite affix_valid_off. rewrite is_outer_affix_valid_off. rewrite is_circumfix_off. rewrite only_in_compound_off. rewrite s_all_flags_off. reflexivity. Qed.
Lemma strip_prefix_then_prefix_off : strip_prefix_then_prefix (off k) = strip_prefix_then_prefix k. Proof. unfold strip_prefix_then_prefix. rewrite pfx_of_off. rewrite affix_valid_off. rewrite is_outer_affix_valid_off. rewrite is_circumfix_off. rewrite only_in_compound_off. rewrite p_all_flags_off. reflexivity. Qed.
Lemma strip_prefix_then_2_suffixes_off : strip_prefix_then_2_suffixes (off k) = strip_prefix_then_2_suffixes k. Proof. unfold strip_prefix_then_2_suffixes. rewrite pfx_of_off. rewrite sfx_of_off. rewrite affix_valid_off. rewrite is_outer_affix_valid_off. rewrite is_circumfix_off. rewrite only_in_compound_off. rewrite s_all_flags_off. reflexivity. Qed.
Lemma strip_suffix_then_prefix_then_suffix_off : strip_suffix_then_prefix_then_suffix (off k) = strip_suffix_then_prefix_then_suffix k. Proof. unfold strip_suffix_then_prefix_then_suffix. rewrite pfx_of_off. rewrite sfx_of_off. rewrite affix_valid_off. rewrite is_outer_affix_valid_off. rewrite is_circumfix_off. rewrite only_in_compound_off. rewrite p_all_flags_off. rewrite s_all_flags_off. reflexivity. Qed.
Lemma strip_suffix_then_2_prefixes_off : strip_suffix_then_2_prefixes (off k) = strip_suffix_then_2_prefixes k. Proof. unfold strip_suffix_then_2_prefixes. rewrite pfx_of_off. rewrite sfx_of_off. rewrite affix_valid_off. rewrite is_outer_affix_valid_off. rewrite is_circumfix_off. rewrite only_in_compound_off. rewrite s_all_flags_off. reflexivity. Qed.
Lemma strip_prefix_then_suffix_then_prefix_off : strip_prefix_then_suffix_then_prefix (off k) = strip_prefix_then_suffix_then_prefix k. Proof. unfold strip_prefix_then_suffix_then_prefix. rewrite pfx_of_off. rewrite sfx_of_off. rewrite affix_valid_off. rewrite is_outer_affix_valid_off. rewrite is_circumfix_off. rewrite only_in_compound_off. rewrite p_all_flags_off. rewrite s_all_flags_off. reflexivity. Qed.
Lemma check_direct_off : check_direct (off k) = check_direct k. Proof. unfold check_direct. rewrite only_in_compound_off. rewrite need_affix_off. reflexivity. Qed.
Lemma check_simple_word_off : check_simple_word (off k) = check_simple_word k. Proof. unfold check_simple_word. rewrite strip_suffix_only_off. rewrite strip_prefix_only_off. rewrite strip_prefix_then_suffix_commutative_off. rewrite strip_suffix_then_suffix_off. rewrite strip_prefix_then_prefix_off. rewrite strip_prefix_then_2_suffixes_off. rewrite strip_suffix_then_prefix_then_suffix_off. rewrite strip_suffix_then_2_prefixes_off. rewrite strip_prefix_then_suffix_then_prefix_off. rewrite check_direct_off. reflexivity. Qed.
Lemma count_syllables_off : count_syllables (off k) = count_syllables k. Proof. unfold count_syllables. reflexivity. Qed.
Lemma num_words_modifier_off : num_words_modifier (off k) = num_words_modifier k. Proof. unfold num_words_modifier. rewrite count_syllables_off. reflexivity. Qed.
Lemma syllable_modifier_off : syllable_modifier (off k) = syllable_modifier k. Proof. unfold syllable_modifier. reflexivity. Qed.
Lemma syllable_modifier_with_suffix_off : syllable_modifier_with_suffix (off k) = syllable_modifier_with_suffix k. Proof. unfold syllable_modifier_with_suffix. rewrite count_syllables_off. reflexivity. Qed.
Lemma mode_flag_off : mode_flag (off k) = mode_flag k. Proof. unfold mode_flag. reflexivity. Qed.
Lemma check_word_in_compound_off : check_word_in_compound (off k) = check_word_in_compound k. Proof. unfold check_word_in_compound. rewrite need_affix_off. rewrite strip_suffix_only_off. rewrite strip_prefix_only_off. rewrite strip_prefix_then_suffix_commutative_off. rewrite num_words_modifier_off. rewrite syllable_modifier_off. rewrite syllable_modifier_with_suffix_off. rewrite mode_flag_off. reflexivity. Qed.
Lemma simple_ok_off : simple_ok (off k) = simple_ok k. Proof. unfold simple_ok. rewrite check_simple_word_off. reflexivity. Qed.
Lemma rep_start_loop_off : rep_start_loop (off k) = rep_start_loop k. Proof. unfold rep_start_loop. rewrite simple_ok_off. reflexivity. Qed.
Lemma rep_end_loop_off : rep_end_loop (off k) = rep_end_loop k. Proof. unfold rep_end_loop. rewrite simple_ok_off. reflexivity. Qed.
Lemma rep_at_loop_off : rep_at_loop (off k) = rep_at_loop k. Proof. unfold rep_at_loop. rewrite simple_ok_off. reflexivity. Qed.
Lemma rep_any_loop_off : rep_any_loop (off k) = rep_any_loop k. Proof. unfold rep_any_loop. rewrite rep_at_loop_off. reflexivity. Qed.
Lemma is_rep_similar_off : is_rep_similar (off k) = is_rep_similar k. Proof. unfold is_rep_similar. rewrite simple_ok_off. rewrite rep_start_loop_off. rewrite rep_end_loop_off. rewrite rep_any_loop_off. reflexivity. Qed.
Lemma forbidden_by_patterns_off : forbidden_by_patterns (off k) = forbidden_by_patterns k. Proof. unfold forbidden_by_patterns. reflexivity. Qed.
Lemma is_forbidden_off : is_forbidden (off k) = is_forbidden k. Proof. unfold is_forbidden. reflexivity. Qed.
Lemma min_chars_off : min_chars (off k) = min_chars k. Proof. unfold min_chars. reflexivity. Qed.
Lemma add_part_off : add_part (off k) = add_part k. Proof. unfold add_part. reflexivity. Qed.
Lemma reaches_max_off : reaches_max (off k) = reaches_max k. Proof. unfold reaches_max. reflexivity. Qed.
Lemma exceeds_max_off : exceeds_max (off k) = exceeds_max k. Proof. unfold exceeds_max. reflexivity. Qed.
Lemma rep_check_off : rep_check (off k) = rep_check k. Proof. unfold rep_check. rewrite is_rep_similar_off. reflexivity. Qed.
Lemma rep_check_part2_off : rep_check_part2 (off k) = rep_check_part2 k. Proof. unfold rep_check_part2. rewrite is_rep_similar_off. reflexivity. Qed.
Lemma second_rejected_off : second_rejected (off k) = second_rejected k. Proof. unfold second_rejected. rewrite forbidden_by_patterns_off. rewrite is_forbidden_off. rewrite rep_check_off. reflexivity. Qed.
Lemma triple_recursive_off : triple_recursive (off k) = triple_recursive k. Proof. unfold triple_recursive. rewrite forbidden_by_patterns_off. rewrite rep_check_off. rewrite rep_check_part2_off. reflexivity. Qed.
Lemma try_simplified_triple_off : try_simplified_triple (off k) = try_simplified_triple k. Proof. unfold try_simplified_triple. rewrite check_word_in_compound_off. rewrite exceeds_max_off. rewrite second_rejected_off. rewrite triple_recursive_off. reflexivity. Qed.
Lemma try_recursive_off : try_recursive (off k) = try_recursive k. Proof. unfold try_recursive. rewrite forbidden_by_patterns_off. rewrite rep_check_off. rewrite rep_check_part2_off. rewrite try_simplified_triple_off. reflexivity. Qed.
Lemma compound_classic_off : compound_classic (off k) = compound_classic k. Proof. unfold compound_classic. rewrite count_syllables_off. rewrite check_word_in_compound_off. rewrite is_forbidden_off. rewrite add_part_off. rewrite reaches_max_off. rewrite second_rejected_off. rewrite try_recursive_off. reflexivity. Qed.
Lemma pattern_plain_off : pattern_plain (off k) = pattern_plain k. Proof. unfold pattern_plain. rewrite check_word_in_compound_off. rewrite is_forbidden_off. rewrite reaches_max_off. rewrite rep_check_off. reflexivity. Qed.
Lemma pattern_step_off : pattern_step (off k) = pattern_step k. Proof. unfold pattern_step. rewrite check_word_in_compound_off. rewrite is_rep_similar_off. rewrite is_forbidden_off. rewrite rep_check_off. rewrite rep_check_part2_off. rewrite pattern_plain_off. reflexivity. Qed.
Lemma pattern_loop_off : pattern_loop (off k) = pattern_loop k. Proof. unfold pattern_loop. rewrite pattern_step_off. reflexivity. Qed.
Lemma compound_impl_off : compound_impl (off k) = compound_impl k. Proof. unfold compound_impl. rewrite min_chars_off. rewrite compound_classic_off. rewrite pattern_loop_off. reflexivity. Qed.
Lemma compound_middle_off : compound_middle (off k) = compound_middle k. Proof. unfold compound_middle. rewrite compound_impl_off. reflexivity. Qed.
Lemma check_compound_flags_off : check_compound_flags (off k) = check_compound_flags k. Proof. unfold check_compound_flags. rewrite compound_impl_off. rewrite compound_middle_off. reflexivity. Qed.
Lemma rule_part_off : rule_part (off k) = rule_part k. Proof. unfold rule_part. rewrite need_affix_off. reflexivity. Qed.
Lemma rules_impl_off : rules_impl (off k) = rules_impl k. Proof. unfold rules_impl. rewrite min_chars_off. rewrite rule_part_off. reflexivity. Qed.
Lemma check_compound_with_rules_off : check_compound_with_rules (off k) = check_compound_with_rules k. Proof. unfold check_compound_with_rules. rewrite rules_impl_off. reflexivity. Qed.
Lemma check_compound_off : check_compound (off k) = check_compound k. Proof. unfold check_compound. rewrite check_compound_flags_off. rewrite check_compound_with_rules_off. reflexivity. Qed.
Lemma check_word_off : check_word (off k) = check_word k. Proof. unfold check_word. rewrite check_simple_word_off. rewrite check_compound_off. reflexivity. Qed.
Lemma keep_case_off : keep_case (off k) = keep_case k. Proof. unfold keep_case. reflexivity. Qed.
Lemma drop_keep_case_off : drop_keep_case (off k) = drop_keep_case k. Proof. unfold drop_keep_case. rewrite keep_case_off. reflexivity. Qed.
Lemma do_spell_sharps_off : do_spell_sharps (off k) = do_spell_sharps k. Proof. unfold do_spell_sharps. rewrite check_word_off. reflexivity. Qed.
Lemma spell_sharps_off : spell_sharps (off k) = spell_sharps k. Proof. unfold spell_sharps. rewrite do_spell_sharps_off. reflexivity. Qed.
Lemma spell_casing_upper_off : spell_casing_upper (off k) = spell_casing_upper k. Proof. unfold spell_casing_upper. rewrite check_word_off. rewrite drop_keep_case_off. rewrite spell_sharps_off. reflexivity. Qed.
Lemma spell_casing_title_off : spell_casing_title (off k) = spell_casing_title k. Proof. unfold spell_casing_title. rewrite check_word_off. rewrite keep_case_off. reflexivity. Qed.
End Off.

Theorem lower_as_preserves : forall k fuel w f,
  spell_casing (off k) fuel w = Ret (Some f) -> spell_casing k fuel w = Ret (Some f).
Proof.
  intros k fuel w f H. unfold spell_casing in *. cbn [ck_lower_as_title ck_lower_as_upper off ck_u ck_aff andb] in H.
  rewrite check_word_off, spell_casing_title_off, spell_casing_upper_off in H. destruct (classify_casing (ck_u k) w); try exact H;
    destruct (check_word k fuel w ForbidBadForceucase AcceptHiddenHomonym) as [[g|]| |]; try discriminate; exact H.
Qed.

Theorem lower_as_exact : forall k fuel w, w <> [] ->
  (classify_casing (ck_u k) w = CNone \/ classify_casing (ck_u k) w = CCamel) ->
  (ck_lower_as_title k = true -> classify_casing (ck_u k) (title k w) = CInit) ->
  (ck_lower_as_upper k = true -> classify_casing (ck_u k) (uppercase (ck_u k) (o_case (ad_options (ck_aff k))) w) = CAll) ->
  spell_casing k fuel w =
    orelse (spell_casing (off k) fuel w)
      (orelse (if ck_lower_as_title k then spell_casing (off k) fuel (title k w) else Ret None)
              (if ck_lower_as_upper k then spell_casing (off k) fuel (uppercase (ck_u k) (o_case (ad_options (ck_aff k))) w)
               else Ret None)).
Proof.
  intros k fuel w Hne HC HT HU.
  assert (E1 : spell_casing (off k) fuel w = check_word k fuel w ForbidBadForceucase AcceptHiddenHomonym).
  { unfold spell_casing. cbn [ck_lower_as_title ck_lower_as_upper off ck_u ck_aff andb]. rewrite check_word_off.
    destruct HC as [-> | ->]; destruct (check_word k fuel w ForbidBadForceucase AcceptHiddenHomonym) as [[g|]| |]; reflexivity. }
  assert (E2 : ck_lower_as_title k = true -> spell_casing (off k) fuel (title k w) = spell_casing_title k fuel (title k w)).
  { intro X. unfold spell_casing. cbn [off ck_u]. rewrite (HT X), spell_casing_title_off. reflexivity. }
  assert (E3 : ck_lower_as_upper k = true -> spell_casing (off k) fuel (uppercase (ck_u k) (o_case (ad_options (ck_aff k))) w) =
     spell_casing_upper k fuel (uppercase (ck_u k) (o_case (ad_options (ck_aff k))) w)).
  { intro X. unfold spell_casing. cbn [off ck_u]. rewrite (HU X), spell_casing_upper_off. reflexivity. }
  rewrite E1. unfold spell_casing at 1.
  assert (T : titlecase (ck_u k) (o_case (ad_options (ck_aff k))) w = Ret (title k w)) by (apply titlecase_ne; exact Hne).
  destruct (ck_lower_as_title k), (ck_lower_as_upper k); try rewrite (E2 eq_refl); try rewrite (E3 eq_refl);
  destruct HC as [-> | ->]; cbn [andb]; rewrite ?T; cbn [bindR];
    destruct (check_word k fuel w ForbidBadForceucase AcceptHiddenHomonym) as [[g|]| |]; cbn [orelse]; try reflexivity;
    try destruct (spell_casing_title k fuel (title k w)) as [[g|]| |]; reflexivity.
Qed.

(** ** Only the entries matter (C46) *)
Definition with_entries (k : checker) (get : str -> list flagset) : checker :=
  mkChecker (ck_u k) (ck_overflow_checks k) (ck_aff k) get (ck_lower_as_title k) (ck_lower_as_upper k).

Theorem same_entries : forall k get, (forall w, ck_get k w = get w) ->
  forall fuel w, check (with_entries k get) fuel w = check k fuel w.
Proof.
  intros k get H fuel w. replace get with (ck_get k) by (apply functional_extensionality; exact H). destruct k; reflexivity.
Qed.

Lemma uniform_perm : forall (X : Type) (a b : list X), Permutation a b ->
  (forall x y, In x a -> In y a -> x = y) -> a = b.
Proof.
  intros X a b P U. assert (L : length a = length b) by (apply Permutation_length; exact P).
  assert (UB : forall x y, In x a -> In y b -> x = y).
  { intros x y Hx Hy. apply U; [exact Hx|]. apply (Permutation_in _ (Permutation_sym P)). exact Hy. }
  clear P U. revert b L UB. induction a as [|x a IH]; intros [|y b] L UB; try discriminate; [reflexivity|].
  f_equal; [apply UB; left; reflexivity|]. apply IH; [cbn in L; lia|]. intros u v Hu Hv. apply UB; right; assumption.
Qed.

Theorem same_entries_any_order : forall k get, (forall w, Permutation (ck_get k w) (get w)) ->
  (forall w f1 f2, In f1 (ck_get k w) -> In f2 (ck_get k w) -> f1 = f2) ->
  forall fuel w, check (with_entries k get) fuel w = check k fuel w.
Proof.
  intros k get HP HU. apply same_entries. intro w. apply uniform_perm; [apply HP|]. intros x y. apply HU.
Qed.

Lemma simple_mono : forall A (e1 e2 : str -> flagset -> Prop), (forall s f, e1 s f -> e2 s f) ->
  forall hh w f, SimpleWord A e1 hh w f -> SimpleWord A e2 hh w f.
Proof.
  intros A e1 e2 HE hh w f H. unfold SimpleWord in *.
  assert (X1 : DirectWord A e1 hh w f -> DirectWord A e2 hh w f) by (unfold DirectWord; intuition auto).
  assert (X2 : forall kd a st, OneAffix A e1 kd FULL_WORD hh w a st f -> OneAffix A e2 kd FULL_WORD hh w a st f)
    by (unfold OneAffix; intros; repeat match goal with H : _ /\ _ |- _ => destruct H end; conj; auto).
  assert (X3 : forall p s st, PrefixSuffix A e1 FULL_WORD hh w p s st f -> PrefixSuffix A e2 FULL_WORD hh w p s st f)
    by (unfold PrefixSuffix; intros; repeat match goal with H : _ /\ _ |- _ => destruct H end; conj; auto).
  assert (X4 : forall kd o i st, TwoAffixes A e1 kd hh w o i st f -> TwoAffixes A e2 kd hh w o i st f)
    by (unfold TwoAffixes; intros; repeat match goal with H : _ /\ _ |- _ => destruct H end; conj; auto).
  assert (X5 : forall kd x o i st, OuterAndTwo A e1 kd hh w x o i st f -> OuterAndTwo A e2 kd hh w x o i st f)
    by (unfold OuterAndTwo; intros; repeat match goal with H : _ /\ _ |- _ => destruct H end; conj; auto).
  assert (X6 : forall c kd x o i st, Sandwich A e1 c kd hh w x o i st f -> Sandwich A e2 c kd hh w x o i st f)
    by (unfold Sandwich; intros; repeat match goal with H : _ /\ _ |- _ => destruct H end; conj; auto).
  destruct H as [H|[(kd & a & st & H)|[(p & s & st & H)|[[E H]|[E H]]]]].
  - left. auto.
  - right. left. eauto.
  - right. right. left. eauto.
  - right. right. right. left. split; [exact E|].
    destruct H as [(o & i & st & H)|[(x & o & i & st & H)|(x & o & i & st & H)]].
    + left. eauto.
    + right. left. eauto 6.
    + right. right. eauto 6.
  - right. right. right. right. split; [exact E|].
    destruct H as [(o & i & st & H)|[(x & o & i & st & H & H')|(x & o & i & st & H)]].
    + left. eauto.
    + right. left. exists x, o, i, st. auto.
    + right. right. eauto 6.
Qed.

(** With no compounding, and no entry marked KEEPCASE, forbidden or warned about, the order
    of homonyms does not matter at all. *)
Section Order.
Variable k : checker.
Variable get : str -> list flagset.
Hypothesis SAME : forall w f, In f (ck_get k w) <-> In f (get w).
Notation k2 := (with_entries k get).
Hypothesis WF : wf_full k.
Hypothesis PlainCase : ck_lower_as_title k = false /\ ck_lower_as_upper k = false.
Hypothesis STRICT : strict k = true.
Hypothesis NOCOMP : allows_compounding (ad_options (ck_aff k)) = false /\ rt_rules (ad_rules (ck_aff k)) = [].
Hypothesis CLEAN : forall w f, In f (ck_get k w) -> ~ Blocked k f /\ ~ marked (o_keep_case (ad_options (ck_aff k))) f.

Lemma wf2 : wf_full k2.
Proof.
  destruct WF as [W1 W2 W3 W4 W5]. split; try assumption. destruct W2 as [V1 V2 V3 V4 V5]. split; try assumption.
  destruct V1 as [X1 X2 X3 X4 X5]. split; try assumption. intros w f H. apply (X5 w). apply SAME. exact H.
Qed.

Lemma nocomp_word : forall kk, allows_compounding (ad_options (ck_aff kk)) = false -> rt_rules (ad_rules (ck_aff kk)) = [] ->
  forall fuel w fu hh, check_word kk fuel w fu hh = Ret (check_simple_word kk w hh).
Proof.
  intros kk H1 H2 fuel w fu hh. unfold check_word, check_compound. rewrite H1, H2. destruct (check_simple_word kk w hh); reflexivity.
Qed.

Lemma plan_same : forall w, map (fun a => (at_word a, at_hh a)) (plan k2 w) = map (fun a => (at_word a, at_hh a)) (plan k w).
Proof. intro w. reflexivity. Qed.

Lemma plan_filter_true : forall kk w a f, ck_lower_as_title kk = false -> ck_lower_as_upper kk = false ->
  In a (plan kk w) -> keep_case kk f = false -> at_filter a f = true.
Proof.
  intros kk w a f E1 E2 H HK. unfold plan in H. rewrite E1, E2 in H.
  assert (X : forall w, In a (sharps_plan w) -> at_filter a f = true).
  { intros v Hv. unfold sharps_plan in Hv. destruct (has_ss v); [|destruct Hv]. apply in_map_iff in Hv.
    destruct Hv as [x [<- _]]. reflexivity. }
  destruct (classify_casing (ck_u kk) w); cbn [andb app] in H.
  1,4,5: destruct H as [<-|[]]; reflexivity.
  - destruct H as [<-|[<-|[]]]; [reflexivity|]. cbn. rewrite HK. reflexivity.
  - unfold plan_upper in H. destruct H as [<-|H]; [reflexivity|]. rewrite !in_app_iff in H.
    destruct H as [H|[H|H]].
    + destruct (apostrophe_split w) as [[p q]|]; [|destruct H]. destruct H as [<-|[<-|[]]]; reflexivity.
    + destruct (_ && _) in H; [|destruct H]. apply in_app_or in H. destruct H as [H|H]; eapply X; exact H.
    + destruct H as [<-|[<-|[]]]; cbn; rewrite HK; reflexivity.
Qed.

Lemma firstR_ret_some : forall X Y (g : X -> option Y) l,
  firstR (fun x => Ret (g x)) l = Ret None \/ exists y, firstR (fun x => Ret (g x)) l = Ret (Some y).
Proof. intros X Y g l. induction l as [|x l IH]; [left; reflexivity|]. cbn. destruct (g x); [right; eauto|exact IH]. Qed.

(** Under these hypotheses [spell_casing] finds something exactly if one spelling is a simple word. *)
Lemma casing_clean : forall kk, wf_full kk -> ck_lower_as_title kk = false -> ck_lower_as_upper kk = false ->
  allows_compounding (ad_options (ck_aff kk)) = false -> rt_rules (ad_rules (ck_aff kk)) = [] ->
  (forall w f, In f (ck_get kk w) -> ~ Blocked kk f /\ ~ marked (o_keep_case (ad_options (ck_aff kk))) f) ->
  forall fuel w, scalars w ->
  (spell_casing kk fuel w = Ret None /\
     forall p, In p (map (fun a => (at_word a, at_hh a)) (plan kk w)) -> forall f,
       ~ SimpleWord (ck_aff kk) (fun s f => In f (ck_get kk s)) (snd p) (fst p) f) \/
  (exists f, spell_casing kk fuel w = Ret (Some f) /\ accepted_flags kk f = true /\
     exists p, In p (map (fun a => (at_word a, at_hh a)) (plan kk w)) /\
       SimpleWord (ck_aff kk) (fun s f => In f (ck_get kk s)) (snd p) (fst p) f).
Proof.
  intros kk W E1 E2 N1 N2 C fuel w Hw. rewrite spell_casing_plan by auto.
  pose proof (wfc_checker (wff_compound W)) as WC.
  assert (SND : forall a f, In a (plan kk w) -> check_simple_word kk (at_word a) (at_hh a) = Some f ->
    SimpleWord (ck_aff kk) (fun s f => In f (ck_get kk s)) (at_hh a) (at_word a) f /\ accepted_flags kk f = true /\ at_filter a f = true).
  { intros a f Ha E. apply (simple_word_sound WC) in E; [|exact (plan_scalars W _ Hw Ha)]. split; [exact E|].
    assert (exists st, In f (ck_get kk st)) as [st Hst].
    { destruct (@found_entry kk AllowBadForceucase (at_hh a) (at_word a) f (or_introl E)) as [st Hst]. eauto. }
    destruct (C st f Hst) as [C1 C2]. pose proof (wf_entries WC _ _ Hst) as Wf. split.
    - apply (accepted_spec kk Wf). exact C1.
    - apply (plan_filter_true kk w a f E1 E2 Ha). apply (keep_spec' kk Wf). exact C2. }
  destruct (firstR (try_one kk fuel) (plan kk w)) as [[f|]| |] eqn:E.
  - right. exists f. split; [reflexivity|]. apply firstR_some in E. destruct E as [a [Ha E]].
    unfold try_one in E. rewrite nocomp_word in E by assumption. cbn [bindR] in E.
    destruct (check_simple_word kk (at_word a) (at_hh a)) as [g|] eqn:EG; [|discriminate].
    destruct (SND a g Ha EG) as (S1 & S2 & S3). rewrite S3 in E. injection E as <-. split; [exact S2|].
    exists (at_word a, at_hh a). split; [|exact S1]. apply in_map_iff. exists a. auto.
  - left. split; [reflexivity|]. intros p Hp f HS. apply in_map_iff in Hp. destruct Hp as [a [<- Ha]]. cbn [fst snd] in HS.
    rewrite firstR_none in E. specialize (E a Ha). unfold try_one in E. rewrite nocomp_word in E by assumption. cbn [bindR] in E.
    destruct (simple_word_complete WC (plan_scalars W _ Hw Ha) HS) as [g EG]. rewrite EG in E.
    destruct (SND a g Ha EG) as (_ & _ & S3). rewrite S3 in E. discriminate.
  - exfalso. assert (forall l, firstR (try_one kk fuel) l <> Panic) as X; [|exact (X _ E)].
    induction l as [|a l IH]; [discriminate|]. cbn [firstR]. unfold try_one at 1. rewrite nocomp_word by assumption. cbn [bindR].
    destruct (check_simple_word kk (at_word a) (at_hh a)) as [g|]; [destruct (at_filter a g); [discriminate|exact IH]|exact IH].
  - exfalso. assert (forall l, firstR (try_one kk fuel) l <> NoFuel) as X; [|exact (X _ E)].
    induction l as [|a l IH]; [discriminate|]. cbn [firstR]. unfold try_one at 1. rewrite nocomp_word by assumption. cbn [bindR].
    destruct (check_simple_word kk (at_word a) (at_hh a)) as [g|]; [destruct (at_filter a g); [discriminate|exact IH]|exact IH].
Qed.

Lemma casing_same : forall fuel w, scalars w ->
  (spell_casing k fuel w = Ret None /\ spell_casing k2 fuel w = Ret None) \/
  (exists f g, spell_casing k fuel w = Ret (Some f) /\ accepted_flags k f = true /\
               spell_casing k2 fuel w = Ret (Some g) /\ accepted_flags k2 g = true).
Proof.
  intros fuel w Hw. destruct PlainCase as [E1 E2]. destruct NOCOMP as [N1 N2].
  assert (C2 : forall w f, In f (ck_get k2 w) -> ~ Blocked k2 f /\ ~ marked (o_keep_case (ad_options (ck_aff k2))) f)
    by (intros v f H; apply (CLEAN v); apply SAME; exact H).
  assert (M12 : forall hh w f, SimpleWord (ck_aff k) (fun s f => In f (ck_get k s)) hh w f ->
    SimpleWord (ck_aff k2) (fun s f => In f (ck_get k2 s)) hh w f).
  { intros hh v f. apply simple_mono. intros s g. apply SAME. }
  assert (M21 : forall hh w f, SimpleWord (ck_aff k2) (fun s f => In f (ck_get k2 s)) hh w f ->
    SimpleWord (ck_aff k) (fun s f => In f (ck_get k s)) hh w f).
  { intros hh v f. apply simple_mono. intros s g. apply SAME. }
  destruct (@casing_clean k WF E1 E2 N1 N2 CLEAN fuel w Hw) as [[R1 H1]|(f & R1 & A1 & p & Hp & HS)];
  destruct (@casing_clean k2 wf2 E1 E2 N1 N2 C2 fuel w Hw) as [[R2 H2]|(g & R2 & A2 & q & Hq & HT)].
  - auto.
  - exfalso. rewrite plan_same in Hq. exact (H1 q Hq g (M21 _ _ _ HT)).
  - exfalso. rewrite <- plan_same in Hp. exact (H2 p Hp f (M12 _ _ _ HS)).
  - right. eauto 8.
Qed.

Lemma anyR_same : forall X (f g : X -> Res bool) l, (forall x, In x l -> f x = g x) -> anyR f l = anyR g l.
Proof. intros X f g l H. induction l as [|x l IH]; [reflexivity|]. cbn. rewrite H by (left; reflexivity). rewrite IH; [reflexivity|]. intros; apply H; right; assumption. Qed.

Lemma break_same : forall fuel n w, scalars w -> do_spell_break k2 fuel n w = do_spell_break k fuel n w.
Proof.
  intros fuel. induction n as [|n IH]; intros w Hw; cbn [do_spell_break];
  (destruct (casing_same fuel Hw) as [[-> ->]|(f & g & -> & A1 & -> & A2)]; cbn [bindR]; [|rewrite A1, A2; reflexivity]); [reflexivity|].
  change (ck_aff k2) with (ck_aff k).
  rewrite (@anyR_same _ (fun pattern => match strip_prefix pattern w with Some rest => do_spell_break k2 fuel n rest | None => Ret false end)
      (fun pattern => match strip_prefix pattern w with Some rest => do_spell_break k fuel n rest | None => Ret false end)).
  2:{ intros p _. destruct (strip_prefix p w) as [r|] eqn:E; [|reflexivity]. apply IH. exact (strip_prefix_scalars _ E Hw). }
  rewrite (@anyR_same _ (fun pattern => match strip_suffix pattern w with Some rest => do_spell_break k2 fuel n rest | None => Ret false end)
      (fun pattern => match strip_suffix pattern w with Some rest => do_spell_break k fuel n rest | None => Ret false end)).
  2:{ intros p _. destruct (strip_suffix p w) as [r|] eqn:E; [|reflexivity]. apply IH. exact (strip_suffix_scalars _ E Hw). }
  rewrite (@anyR_same _ (fun pattern => match split_once pattern w with
                               | Some (part1, part2) =>
                                   if negb (nonempty part2) then Ret false
                                   else
                                     c1 <- do_spell_break k2 fuel n part1 ;;
                                     if (c1 : bool) then do_spell_break k2 fuel n part2 else Ret false
                               | None => Ret false end)
      (fun pattern => match split_once pattern w with
                               | Some (part1, part2) =>
                                   if negb (nonempty part2) then Ret false
                                   else
                                     c1 <- do_spell_break k fuel n part1 ;;
                                     if (c1 : bool) then do_spell_break k fuel n part2 else Ret false
                               | None => Ret false end)).
  2:{ intros p _. destruct (split_once p w) as [[a b]|] eqn:E; [|reflexivity].
      destruct (split_once_scalars _ E Hw) as [Ha Hb]. rewrite !IH by assumption. reflexivity. }
  reflexivity.
Qed.

Theorem order_irrelevant : forall fuel w, scalars w -> check k2 fuel w = check k fuel w.
Proof.
  intros fuel w Hw. unfold check. change (ck_aff k2) with (ck_aff k).
  destruct (max_word_len <? blen w)%N; [reflexivity|]. destruct (iconv_spec WF Hw) as [w' [-> [_ Hw']]]. cbn [bindR].
  destruct w' as [|c w']; [reflexivity|]. destruct (is_number _); [reflexivity|]. unfold spell_break.
  rewrite !break_same; [reflexivity|exact Hw'|]. apply scalars_erase, scalars_trim. exact Hw'.
Qed.
End Order.

(** ** Dictionaries that are plain word lists (C22) *)
Record word_list (k : checker) : Prop := {
  wl_pfx : i_table (ad_prefixes (ck_aff k)) = [];
  wl_sfx : i_table (ad_suffixes (ck_aff k)) = [];
  wl_flags : allows_compounding (ad_options (ck_aff k)) = false;
  wl_rules : rt_rules (ad_rules (ck_aff k)) = [];
  wl_breaks : NoBreaks k }.

Lemma word_list_found : forall k fu hh w f, word_list k -> Found k fu hh w f ->
  DirectWord (ck_aff k) (fun s f => In f (ck_get k s)) hh w f.
Proof.
  intros k fu hh w f [W1 W2 W3 W4 W5] [H|[[E _]|[E _]]]; [|congruence|contradiction].
  assert (R : forall kd a, In a (rules (ck_aff k) kd) -> False).
  { intros [|] a H0; unfold rules in H0; [rewrite W1 in H0|rewrite W2 in H0]; destruct H0. }
  unfold SimpleWord in H.
  destruct H as [H|[(kd & a & st & H)|[(p & s & st & H)|[[E H]|[E H]]]]]; [exact H|exfalso..].
  - destruct H as [H _]. eauto.
  - destruct H as [H _]. eauto.
  - destruct H as [(o & i & st & H & _)|[(x & o & i & st & H & _)|(x & o & i & st & H & _)]]; eauto.
  - destruct H as [(o & i & st & H & _)|[(x & o & i & st & (H & _) & _)|(x & o & i & st & H & _)]]; eauto.
Qed.

(** The spellings of [w] that [check] looks up. *)
Definition Spelling (k : checker) (w v : str) : Prop := exists a, In a (plan k w) /\ at_word a = v.

Theorem word_list_rejects : forall k, wf_full k -> ck_lower_as_title k = false /\ ck_lower_as_upper k = false ->
  strict k = true -> word_list k -> forall w, scalars w -> ordinary k w ->
  (forall v, Spelling k w v -> ck_get k v = []) -> No k w.
Proof.
  intros k WF PC ST WL w Hw HO H. apply (@decides_no k w _ (ordinary_decides WF PC ST Hw HO)). intro HB.
  destruct (broken_no_breaks (wl_breaks WL) HB) as [f [HOwn _]].
  destruct (own_found WF PC ST Hw HOwn) as (a & Ha & HF & _). pose proof (word_list_found WL HF) as [HF2 _]. clear HF. rename HF2 into HF.
  rewrite (H (at_word a)) in HF by (exists a; auto). destruct HF.
Qed.

(** Nothing but numerals is in an empty dictionary, whatever the affix data. *)
Theorem empty_dictionary : forall k, wf_full k -> ck_lower_as_title k = false /\ ck_lower_as_upper k = false ->
  strict k = true -> ct_inner (ad_iconv (ck_aff k)) = [] -> (forall w, ck_get k w = []) ->
  forall w, scalars w ->
  Decides (fun fuel => check k fuel w) ((blen w <= 360)%N /\ (w = [] \/ Numeral (trim_end_dots w))).
Proof.
  intros k WF PC ST HI HE w Hw. destruct (check_spec_as WF PC ST Hw) as [w' [C D]].
  apply (no_iconv_same k HI) in C. subst w'. revert D. apply decides_iff.
  assert (OWN : forall v, scalars v -> Own k v None).
  { intros v Hv. apply (own_none WF PC ST Hv). intros a f Ha HF. destruct (found_entry HF) as [st Hst]. rewrite HE in Hst. destruct Hst. }
  assert (NB : forall n v, Broken k n v -> scalars v -> False).
  { intros n v HB. induction HB as [n v f HO HA|n p v HO HI' HB IH|n p v HO HI' HB IH|n p u v HO HI' HM HN HB1 IH1 HB2 IH2]; intro Hv.
    - pose proof (own_det HO (OWN v Hv)). discriminate.
    - apply scalars_app_iff in Hv. tauto.
    - apply scalars_app_iff in Hv. tauto.
    - rewrite !scalars_app_iff in Hv. tauto. }
  unfold AcceptsAs. split.
  - intros [HL [H|[H|[H|[_ H]]]]]; [auto|auto| |]; exfalso; apply (NB _ _ H); [|exact Hw].
    apply scalars_filter, scalars_trim. exact Hw.
  - tauto.
Qed.

(** ** The casings of a word, stated without the checker *)
Inductive CaseVariant (U : unicode) (h : case_handling) (sharps : bool) (w : str) : str -> Prop :=
| CV_same : CaseVariant U h sharps w w
| CV_lower : (classify_casing U w = CInit \/ classify_casing U w = CAll) ->
    CaseVariant U h sharps w (lowercase U h w)
| CV_title : forall v, classify_casing U w = CAll -> titlecase U h w = Ret v -> CaseVariant U h sharps w v
| CV_apostrophe : forall a b ta tb, classify_casing U w = CAll -> w = (a ++ [39%N]) ++ b -> ~ In 39%N a -> b <> [] ->
    titlecase U h (a ++ [39%N]) = Ret ta -> titlecase U h b = Ret tb ->
    CaseVariant U h sharps w (ta ++ tb)
| CV_apostrophe_lower : forall a b tb, classify_casing U w = CAll -> w = (a ++ [39%N]) ++ b -> ~ In 39%N a -> b <> [] ->
    titlecase U h b = Ret tb ->
    CaseVariant U h sharps w (lowercase U h (a ++ [39%N]) ++ tb)
| CV_sharp_lower : forall v, sharps = true -> classify_casing U w = CAll ->
    SharpVariant 5 (lowercase U h w) v -> CaseVariant U h sharps w v
| CV_sharp_title : forall t v, sharps = true -> classify_casing U w = CAll -> titlecase U h w = Ret t ->
    SharpVariant 5 t v -> CaseVariant U h sharps w v.

Lemma apostrophe_spec : forall w x b, apostrophe_split w = Some (x, b) ->
  exists a, x = a ++ [39%N] /\ ~ In 39%N a /\ w = (a ++ [39%N]) ++ b /\ b <> [].
Proof.
  intros w x b H. destruct (@apostrophe_parts w x b H) as [_ [Hb Ew]].
  unfold apostrophe_split in H. destruct (find_char (N.eqb 39) w) as [i|] eqn:E; [|discriminate].
  destruct (find_char_some _ _ E) as (u & c & v & Ev & Hl & Hc & Hu). apply N.eqb_eq in Hc. subst c.
  destruct (Nat.eqb_spec i (length w - 1)); [discriminate|]. injection H as <- <-.
  exists u. assert (firstn (i + 1) w = u ++ [39%N]) as F.
  { rewrite Ev. change (u ++ 39%N :: v) with (u ++ [39%N] ++ v). rewrite app_assoc. apply firstn_app_exact.
    rewrite app_length. cbn. lia. }
  rewrite <- F. split; [reflexivity|]. split; [|split; [exact Ew|exact Hb]].
  intro Hin. rewrite forallb_forall in Hu. specialize (Hu _ Hin). discriminate.
Qed.

Theorem spelling_variant : forall k w v, ck_lower_as_title k = false /\ ck_lower_as_upper k = false -> w <> [] ->
  Spelling k w v -> CaseVariant (ck_u k) (o_case (ad_options (ck_aff k))) (o_checksharps (ad_options (ck_aff k))) w v.
Proof.
  intros k w v [P1 P2] Hne [a [Ha <-]]. unfold plan in Ha. rewrite P1, P2 in Ha.
  destruct (classify_casing (ck_u k) w) eqn:EC; cbn [andb app] in Ha.
  all: try (destruct Ha as [<-|[]]; apply CV_same).
  - unfold plan_title in Ha. destruct Ha as [<-|[<-|[]]]; [apply CV_same|]. apply CV_lower. auto.
  - unfold plan_upper in Ha. destruct Ha as [<-|Ha]; [apply CV_same|].
    rewrite !in_app_iff in Ha. destruct Ha as [Ha|[Ha|Ha]].
    + destruct (apostrophe_split w) as [[x b]|] eqn:EA; [|destruct Ha].
      destruct (apostrophe_spec _ EA) as (u & -> & Hu & Ew & Hb).
      destruct Ha as [<-|[<-|[]]]; cbn [at_word lenient].
      * eapply CV_apostrophe_lower; [exact EC|exact Ew|exact Hu|exact Hb|]. apply titlecase_ne. exact Hb.
      * eapply CV_apostrophe; [exact EC|exact Ew|exact Hu|exact Hb| |]; apply titlecase_ne; [|exact Hb].
        destruct u; discriminate.
    + destruct (o_checksharps (ad_options (ck_aff k)) && is_someb (find_sub SS w)) eqn:ES; [|destruct Ha].
      apply andb_true_iff in ES. destruct ES as [ES _]. rewrite ES. unfold sharps_plan in Ha.
      rewrite in_app_iff in Ha. destruct Ha as [Ha|Ha].
      * destruct (has_ss _); [|destruct Ha]. apply in_map_iff in Ha. destruct Ha as [v [<- Hv]]. cbn [at_word lenient].
        apply CV_sharp_lower; [reflexivity|exact EC|]. apply sharp_variants_spec, Hv.
      * destruct (has_ss _); [|destruct Ha]. apply in_map_iff in Ha. destruct Ha as [v [<- Hv]]. cbn [at_word lenient].
        eapply CV_sharp_title; [reflexivity|exact EC|apply titlecase_ne; exact Hne|]. apply sharp_variants_spec, Hv.
    + destruct Ha as [<-|[<-|[]]]; cbn [at_word no_keep_case].
      * eapply CV_title; [exact EC|apply titlecase_ne; exact Hne].
      * apply CV_lower. auto.
Qed.
