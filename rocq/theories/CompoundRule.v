(** COMPOUNDRULE patterns: aff.rs 904-1022. *)
From Coq Require Import List NArith ZArith Lia Bool Arith.
From Coq Require Import ZifyBool ZifyNat ZifyN.
From Verif Require Import Base Flags.
Import ListNotations.
Set Implicit Arguments.

(** aff.rs 904-916. *)
Inductive rule_mod := ZeroOrOne | ZeroOrMore.
Record rule_elem := mkRuleElem { re_flag : N; re_mod : option rule_mod }.
Definition rule := list rule_elem.

(** One round of the [while let Some(..) = stack.pop()] loop (aff.rs 925-965).  The head of
    the list is the top of the stack. *)
Definition rule_step (pattern : rule) (data : list flagset) (stack : list (nat * nat))
  : list (nat * nat) + Res bool :=
  match stack with
  | [] => inr (Ret false)
  | (p, d) :: st =>
      if (p =? length pattern)%nat then inr (Ret (d =? length data)%nat)
      else
        match nth_error pattern p with
        | None => inr Panic
        | Some el =>
            let flag_matches :=
              match nth_error data d with Some fs => contains fs (re_flag el) | None => false end in
            match re_mod el with
            | Some ZeroOrOne =>
                inl ((if flag_matches then [(p + 1, d + 1)] else []) ++ (p + 1, d) :: st)
            | Some ZeroOrMore =>
                inl ((if flag_matches then [(p, d + 1)] else []) ++ (p + 1, d) :: st)
            | None => inl ((if flag_matches then [(p + 1, d + 1)] else []) ++ st)
            end
        end
  end.

(** [compound_rule_matches] (aff.rs 918-968), with up to [2^(|pattern| + |data| + 1)] rounds;
    [compound_rule_matches_total] shows that this is always enough. *)
Definition compound_rule_matches (pattern : rule) (data : list flagset) : Res bool :=
  match run2 (rule_step pattern data) (length pattern + length data + 2) [(0, 0)] with
  | inr r => r
  | inl _ => NoFuel
  end.

(** aff.rs 974-1022. *)
Record rule_table := mkRuleTable { rt_rules : list rule; rt_flags : flagset }.

Definition rule_table_from (rules : list rule) : Res rule_table :=
  fs <- flagset_from (flat_map (map re_flag) rules) ;; Ret (mkRuleTable rules fs).

Definition has_any_flags (t : rule_table) (fs : flagset) : bool := has_intersection (rt_flags t) fs.

(** [iter().any(..)] *)
Fixpoint anyR {A} (f : A -> Res bool) (l : list A) : Res bool :=
  match l with
  | [] => Ret false
  | x :: l' => b <- f x ;; if b then Ret true else anyR f l'
  end.

Definition any_rule_matches (t : rule_table) (flagsets : list flagset) : Res bool :=
  anyR (fun r => compound_rule_matches r flagsets) (rt_rules t).

(** ** Specification: the regular language of a rule over words carrying flag sets. *)
Definition elem_lang (e : rule_elem) (ws : list flagset) : Prop :=
  match re_mod e with
  | None => exists w, ws = [w] /\ In (re_flag e) w
  | Some ZeroOrOne => ws = [] \/ exists w, ws = [w] /\ In (re_flag e) w
  | Some ZeroOrMore => Forall (fun w => In (re_flag e) w) ws
  end.

Fixpoint rule_lang (r : rule) (ws : list flagset) : Prop :=
  match r with
  | [] => ws = []
  | e :: r' => exists u v, ws = u ++ v /\ elem_lang e u /\ rule_lang r' v
  end.

(** ** Proof *)
Section Match.
Variable data : list flagset.
Hypothesis data_wf : Forall wf_flagset data.

Definition okd (e : rule_elem) (d : nat) : bool :=
  match nth_error data d with Some fs => contains fs (re_flag e) | None => false end.

Lemma okd_lt : forall e d, okd e d = true -> d < length data.
Proof. intros e d H. apply nth_error_Some. unfold okd in H. destruct (nth_error data d); congruence. Qed.

Definition optional (e : rule_elem) : bool := match re_mod e with Some _ => true | None => false end.
Definition starred (e : rule_elem) : bool := match re_mod e with Some ZeroOrMore => true | _ => false end.

(** [reach n pat d e]: from data position [d] the pattern can be consumed up to [e]. *)
Inductive reach : nat -> rule -> nat -> nat -> Prop :=
| R_nil : forall d, reach 0 [] d d
| R_skip : forall n e pat d d', optional e = true -> reach n pat d d' -> reach (S n) (e :: pat) d d'
| R_one : forall n e pat d d', starred e = false -> okd e d = true ->
    reach n pat (d + 1) d' -> reach (S n) (e :: pat) d d'
| R_star : forall n e pat d d', starred e = true -> okd e d = true ->
    reach n (e :: pat) (d + 1) d' -> reach (S n) (e :: pat) d d'.

Lemma crossing : forall s n1 n2 pat d1 e1 d2 e2, n1 + n2 <= s ->
  reach n1 pat d1 e1 -> reach n2 pat d2 e2 -> d2 <= d1 -> e1 <= e2 -> exists n, reach n pat d1 e2.
Proof.
  induction s as [|s IH]; intros n1 n2 pat d1 e1 d2 e2 Hs H1 H2 Hd He.
  - inversion H1; subst; [|lia..]. inversion H2; subst.
    match goal with |- exists n, reach n [] ?a ?b => replace b with a by lia end. eexists. constructor.
  - destruct (Nat.eq_dec d2 d1) as [->|Hne]; [eauto|].
    inversion H2 as [d|n e pat' d d' Ho Hr|n e pat' d d' Hst Hok Hr|n e pat' d d' Hst Hok Hr]; subst.
    + inversion H1; subst. lia.
    + inversion H1 as [|m f q x x' Ho' Hr'|m f q x x' Hst' Hok' Hr'|m f q x x' Hst' Hok' Hr']; subst.
      * destruct (fun a b => IH _ _ _ _ _ _ _ a Hr' Hr b He) as [k Hk]; [lia|lia|].
        exists (S k). apply R_skip; assumption.
      * destruct (fun a b => IH _ _ _ _ _ _ _ a Hr' Hr b He) as [k Hk]; [lia|lia|].
        exists (S k). apply R_one; assumption.
      * destruct (fun a b => IH _ _ _ _ _ _ _ a Hr' H2 b He) as [k Hk]; [lia|lia|].
        exists (S k). apply R_star; assumption.
    + inversion H1 as [|m f q x x' Ho' Hr'|m f q x x' Hst' Hok' Hr'|m f q x x' Hst' Hok' Hr']; subst.
      * destruct (fun a b => IH _ _ _ _ _ _ _ a Hr' Hr b He) as [k Hk]; [lia|lia|].
        exists (S k). apply R_skip; assumption.
      * destruct (fun a b => IH _ _ _ _ _ _ _ a Hr' Hr b He) as [k Hk]; [lia|lia|].
        exists (S k). apply R_one; assumption.
      * congruence.
    + destruct (fun a b => IH _ _ _ _ _ _ _ a H1 Hr b He) as [k Hk]; [lia|lia|]. eauto.
Qed.

Lemma reach_bound : forall n pat d e, reach n pat d e -> d <= length data -> d <= e <= length data.
Proof.
  induction 1 as [|n e pat d d' Ho H IH|n e pat d d' Hst Hok H IH|n e pat d d' Hst Hok H IH];
    intro Hd; [lia|apply IH; exact Hd| |];
    apply okd_lt in Hok; specialize (IH ltac:(lia)); lia.
Qed.

Variable pattern : rule.

(** What the depth-first search from [(p, d)] does, as long as the rest of the stack is
    untouched: it ends with the furthest reachable end, or drops the entry. *)
Lemma dfs : forall m p d, p <= length pattern -> d <= length data ->
  (length pattern - p) + (length data - d) <= m ->
  ((exists k e, reach k (skipn p pattern) d e /\
     (forall k' e', reach k' (skipn p pattern) d e' -> e' <= e) /\
     forall st, exists n, n <= 2 ^ (m + 1) - 1 /\
       run (rule_step pattern data) n ((p, d) :: st) = inr (Ret (e =? length data))) \/
   ((forall k e, ~ reach k (skipn p pattern) d e) /\
     exists n, n <= 2 ^ (m + 1) - 1 /\
       forall st, run (rule_step pattern data) n ((p, d) :: st) = inl st)).
Proof.
  induction m as [|m IH]; intros p d Hp Hd Hm.
  - assert (p = length pattern) as -> by lia. left. exists 0, d. rewrite skipn_all. repeat split.
    + constructor.
    + intros k' e' H. inversion H; subst. lia.
    + intro st. exists 1. split; [simpl; lia|]. cbn [run rule_step]. rewrite Nat.eqb_refl. reflexivity.
  - assert (Hpow : 2 ^ (S m + 1) - 1 = (2 ^ (m + 1) - 1) + (2 ^ (m + 1) - 1) + 1).
    { pose proof (Nat.pow_nonzero 2 (m + 1)). cbn [Nat.add Nat.pow]. lia. }
    destruct (Nat.eq_dec p (length pattern)) as [->|Hpn].
    { left. exists 0, d. rewrite skipn_all. repeat split.
      + constructor.
      + intros k' e' H. inversion H; subst. lia.
      + intro st. exists 1. split; [lia|]. cbn [run rule_step]. rewrite Nat.eqb_refl. reflexivity. }
    destruct (nth_error pattern p) as [el|] eqn:Eel; [|apply nth_error_None in Eel; lia].
    rewrite (skipn_nth_error _ _ Eel).
    set (rest := skipn (S p) pattern).
    (* the two possible sub-searches *)
    pose proof (IH (p + 1) d ltac:(lia) Hd ltac:(lia)) as Hskip.
    replace (skipn (p + 1) pattern) with rest in Hskip by (unfold rest; f_equal; lia).
    assert (Hstep : forall st, rule_step pattern data ((p, d) :: st) =
      inl ((if okd el d then [(if starred el then p else p + 1, d + 1)] else []) ++
           (if optional el then [(p + 1, d)] else []) ++ st)).
    { intro st. cbn [rule_step]. destruct (Nat.eqb_spec p (length pattern)); [contradiction|]. rewrite Eel.
      unfold okd, starred, optional. destruct (re_mod el) as [[|]|]; reflexivity. }
    assert (Hoptstar : starred el = true -> optional el = true).
    { unfold starred, optional. destruct (re_mod el); congruence. }
    destruct (okd el d) eqn:Eok.
    + pose proof (okd_lt _ _ Eok) as Hdlt.
      set (p' := if starred el then p else p + 1) in *.
      assert (Hp' : p' <= length pattern) by (unfold p'; destruct (starred el); lia).
      pose proof (IH p' (d + 1) Hp' ltac:(lia) ltac:(unfold p'; destruct (starred el); lia)) as Hmatch.
      (* a path through the match branch and a path of the whole element list *)
      assert (Hcons : forall k e, reach k (skipn p' pattern) (d + 1) e -> reach (S k) (el :: rest) d e).
      { intros k e H. unfold p' in H. destruct (starred el) eqn:Es.
        - rewrite (skipn_nth_error _ _ Eel) in H. apply R_star; assumption.
        - replace (skipn (p + 1) pattern) with rest in H by (unfold rest; f_equal; lia).
          apply R_one; assumption. }
      destruct Hmatch as [[k [e [Hre [Hmax Hrun]]]]|[Hno [n [Hn Hrun]]]].
      * left. exists (S k), e. split; [apply Hcons; exact Hre|]. split.
        -- intros k' e' H. destruct (le_gt_dec e' e) as [|Hgt]; [assumption|]. exfalso.
           inversion H as [|n0 f q x x' Ho' Hr'|n0 f q x x' Hst' Hok' Hr'|n0 f q x x' Hst' Hok' Hr']; subst.
           ++ (* skipped: cross the match path *)
              assert (exists k2, reach k2 (skipn p' pattern) (d + 1) e') as [k2 Hk2].
              { unfold p' in Hre |- *. destruct (starred el) eqn:Es.
                - rewrite (skipn_nth_error _ _ Eel) in Hre |- *. fold rest in Hre |- *.
                  eapply (@crossing _ k (S n0) _ (d + 1) e d e' (le_n _)); [exact Hre|exact H|lia|lia].
                - replace (skipn (p + 1) pattern) with rest in Hre |- * by (unfold rest; f_equal; lia).
                  eapply (@crossing _ k n0 _ (d + 1) e d e' (le_n _)); [exact Hre|exact Hr'|lia|lia]. }
              specialize (Hmax _ _ Hk2). lia.
           ++ unfold p' in Hmax. rewrite Hst' in Hmax.
              replace (skipn (p + 1) pattern) with rest in Hmax by (unfold rest; f_equal; lia).
              specialize (Hmax _ _ Hr'). lia.
           ++ unfold p' in Hmax. rewrite Hst' in Hmax. rewrite (skipn_nth_error _ _ Eel) in Hmax.
              specialize (Hmax _ _ Hr'). lia.
        -- intro st. destruct (Hrun ((if optional el then [(p + 1, d)] else []) ++ st)) as [n [Hn Hr]].
           exists (S n). split; [lia|]. cbn [run]. rewrite Hstep. exact Hr.
      * (* the match branch fails *)
        assert (Hns : forall k e, reach k (el :: rest) d e -> optional el = true /\ exists k', reach k' rest d e).
        { intros k e H.
          inversion H as [|n0 f q x x' Ho' Hr'|n0 f q x x' Hst' Hok' Hr'|n0 f q x x' Hst' Hok' Hr']; subst.
          - split; [exact Ho'|eauto].
          - exfalso. apply (Hno n0 e). unfold p'. rewrite Hst'.
            replace (skipn (p + 1) pattern) with rest by (unfold rest; f_equal; lia). exact Hr'.
          - exfalso. apply (Hno n0 e). unfold p'. rewrite Hst', (skipn_nth_error _ _ Eel). exact Hr'. }
        destruct (optional el) eqn:Eo.
        -- destruct Hskip as [[k [e [Hre [Hmax Hrun2]]]]|[Hno2 [n2 [Hn2 Hrun2]]]].
           ++ left. exists (S k), e. split; [apply R_skip; assumption|]. split.
              ** intros k' e' H. destruct (Hns _ _ H) as [_ [k2 Hk2]]. eapply Hmax. exact Hk2.
              ** intro st. destruct (Hrun2 st) as [n2 [Hn2 Hr2]]. exists (S (n + n2)). split; [lia|].
                 cbn [run]. rewrite Hstep. cbn [app]. rewrite run_add, Hrun. exact Hr2.
           ++ right. split.
              ** intros k e H. destruct (Hns _ _ H) as [_ [k2 Hk2]]. eapply Hno2. exact Hk2.
              ** exists (S (n + n2)). split; [lia|]. intro st. cbn [run]. rewrite Hstep. cbn [app].
                 rewrite run_add, Hrun. apply Hrun2.
        -- right. split.
           ++ intros k e H. destruct (Hns _ _ H) as [Hf _]. discriminate.
           ++ exists (S n). split; [lia|]. intro st. cbn [run]. rewrite Hstep. cbn [app]. apply Hrun.
    + (* the flag does not match here *)
      assert (Hns : forall k e, reach k (el :: rest) d e -> optional el = true /\ exists k', reach k' rest d e).
      { intros k e H.
        inversion H as [|n0 f q x x' Ho' Hr'|n0 f q x x' Hst' Hok' Hr'|n0 f q x x' Hst' Hok' Hr']; subst;
          [split; [exact Ho'|eauto]|congruence|congruence]. }
      destruct (optional el) eqn:Eo.
      * destruct Hskip as [[k [e [Hre [Hmax Hrun2]]]]|[Hno2 [n2 [Hn2 Hrun2]]]].
        -- left. exists (S k), e. split; [apply R_skip; assumption|]. split.
           ++ intros k' e' H. destruct (Hns _ _ H) as [_ [k2 Hk2]]. eapply Hmax. exact Hk2.
           ++ intro st. destruct (Hrun2 st) as [n2 [Hn2 Hr2]]. exists (S n2). split; [lia|].
              cbn [run]. rewrite Hstep. cbn [app]. exact Hr2.
        -- right. split.
           ++ intros k e H. destruct (Hns _ _ H) as [_ [k2 Hk2]]. eapply Hno2. exact Hk2.
           ++ exists (S n2). split; [lia|]. intro st. cbn [run]. rewrite Hstep. cbn [app]. apply Hrun2.
      * right. split.
        -- intros k e H. destruct (Hns _ _ H) as [Hf _]. discriminate.
        -- exists 1. split; [lia|]. intro st. cbn [run]. rewrite Hstep. reflexivity.
Qed.

Lemma matches_reach : exists b, compound_rule_matches pattern data = Ret b /\
  (b = true <-> exists k, reach k pattern 0 (length data)).
Proof.
  unfold compound_rule_matches. rewrite run2_run.
  set (m := length pattern + length data).
  assert (Hpow : 2 ^ (m + 2) = 2 ^ (m + 1) + 2 ^ (m + 1)).
  { replace (m + 2) with (S (m + 1)) by lia. cbn [Nat.pow]. lia. }
  assert (Hpos : 0 < 2 ^ (m + 1)) by (apply Nat.neq_0_lt_0, Nat.pow_nonzero; lia).
  destruct (@dfs m 0 0) as [[k [e [Hre [Hmax Hrun]]]]|[Hno [n [Hn Hrun]]]]; [lia|lia|lia| |].
  - destruct (Hrun []) as [n [Hn Hr]].
    rewrite (@run_mono _ _ _ n (2 ^ (m + 2)) _ _ ltac:(lia) Hr).
    exists (e =? length data). split; [reflexivity|]. rewrite Nat.eqb_eq. split.
    + intros <-. exists k. exact Hre.
    + intros [k2 H2]. specialize (Hmax _ _ H2). apply reach_bound in Hre; lia.
  - assert (run (rule_step pattern data) (n + 1) [(0, 0)] = inr (Ret false)) as Hr.
    { rewrite run_add, Hrun. reflexivity. }
    rewrite (@run_mono _ _ _ (n + 1) (2 ^ (m + 2)) _ _ ltac:(lia) Hr).
    exists false. split; [reflexivity|]. split; [discriminate|]. intros [k H]. exfalso. eapply Hno. exact H.
Qed.
End Match.

(** [reach] is membership in the language. *)
Lemma okd_In : forall data e d, Forall wf_flagset data ->
  (okd data e d = true <-> exists w, nth_error data d = Some w /\ In (re_flag e) w).
Proof.
  intros data e d Hwf. unfold okd. destruct (nth_error data d) as [w|] eqn:E.
  - assert (wf_flagset w) as Hw by (rewrite Forall_forall in Hwf; apply Hwf; eapply nth_error_In; exact E).
    rewrite (@contains_spec _ (re_flag e) Hw). split; [eauto|]. intros [w' [H1 H2]]. congruence.
  - split; [discriminate|]. intros [w [H _]]. discriminate.
Qed.

Lemma skipn_cons_nth : forall A (l : list A) d x r, skipn d l = x :: r -> nth_error l d = Some x /\ skipn (d + 1) l = r.
Proof.
  intros A l. induction l as [|y l IH]; intros d x r H; [destruct d; discriminate|].
  destruct d as [|d]; cbn [skipn] in H.
  - injection H as -> ->. auto.
  - apply IH in H. exact H.
Qed.

Lemma reach_lang : forall data, Forall wf_flagset data ->
  forall n pat d e, reach data n pat d e -> d <= length data ->
  exists ws, skipn d data = ws ++ skipn e data /\ rule_lang pat ws.
Proof.
  intros data Hwf n pat d e H.
  induction H as [|n e pat d d' Ho H IH|n e pat d d' Hst Hok H IH|n e pat d d' Hst Hok H IH]; intro Hd.
  - exists []. split; reflexivity.
  - destruct (IH Hd) as [ws [E L]]. exists ws. split; [exact E|]. exists [], ws. repeat split; [|exact L].
    unfold elem_lang. unfold optional in Ho. destruct (re_mod e) as [[|]|]; [left; reflexivity|constructor|discriminate].
  - pose proof (@okd_lt _ _ _ Hok) as Hlt. destruct (IH ltac:(lia)) as [ws [E L]].
    apply okd_In in Hok; [|exact Hwf]. destruct Hok as [w [Ew Hin]].
    exists (w :: ws). split.
    + rewrite (skipn_nth_error _ _ Ew). replace (S d) with (d + 1) by lia. rewrite E. reflexivity.
    + exists [w], ws. repeat split; [|exact L]. unfold elem_lang. unfold starred in Hst.
      destruct (re_mod e) as [[|]|]; [right; eauto|discriminate|eauto].
  - pose proof (@okd_lt _ _ _ Hok) as Hlt. destruct (IH ltac:(lia)) as [ws [E L]].
    apply okd_In in Hok; [|exact Hwf]. destruct Hok as [w [Ew Hin]].
    exists (w :: ws). split.
    + rewrite (skipn_nth_error _ _ Ew). replace (S d) with (d + 1) by lia. rewrite E. reflexivity.
    + destruct L as [u [v [-> [L1 L2]]]]. exists (w :: u), v. repeat split; [|exact L2].
      unfold elem_lang in *. unfold starred in Hst. destruct (re_mod e) as [[|]|]; try discriminate.
      constructor; assumption.
Qed.

Lemma lang_reach : forall data, Forall wf_flagset data ->
  forall pat ws d r, rule_lang pat ws -> skipn d data = ws ++ r -> d <= length data ->
  exists n, reach data n pat d (d + length ws).
Proof.
  intros data Hwf. induction pat as [|e pat IH]; intros ws d r L E Hd.
  - simpl in L. subst ws. rewrite Nat.add_0_r. exists 0. constructor.
  - destruct L as [u [v [-> [L1 L2]]]].
    assert (Hsub : forall d0 r0, skipn d0 data = v ++ r0 -> d0 <= length data ->
              exists n, reach data n pat d0 (d0 + length v)).
    { intros d0 r0 E0 Hd0. eapply IH; eassumption. }
    assert (Hok : forall w d0 r0, skipn d0 data = w :: r0 -> In (re_flag e) w -> okd data e d0 = true /\ d0 < length data).
    { intros w d0 r0 E0 Hin. apply skipn_cons_nth in E0. destruct E0 as [E0 _]. split.
      - apply okd_In; eauto.
      - apply nth_error_Some. congruence. }
    unfold elem_lang in L1.
    assert (Hone : forall w, starred e = false -> In (re_flag e) w -> u = [w] -> exists n, reach data n (e :: pat) d (d + length (u ++ v))).
    { intros w Hst Hin ->. cbn [app] in E. destruct (Hok w d _ E Hin) as [O1 O2].
      pose proof (@skipn_cons_nth _ _ _ _ _ E) as [_ E'].
      destruct (Hsub (d + 1) r E' ltac:(lia)) as [n Hn]. exists (S n). apply R_one; [exact Hst|exact O1|].
      rewrite <- (Nat.add_assoc d 1) in Hn. exact Hn. }
    destruct (re_mod e) as [[|]|] eqn:Em.
    + destruct L1 as [->|[w [Eu Hin]]].
      * cbn [app] in E |- *. destruct (Hsub d r E Hd) as [n Hn]. exists (S n). apply R_skip; [|exact Hn].
        unfold optional. rewrite Em. reflexivity.
      * apply (Hone w); [unfold starred; rewrite Em; reflexivity|exact Hin|exact Eu].
    + clear Hone IH. revert d E Hd. induction u as [|w u IHu]; intros d E Hd.
      * cbn [app] in E |- *. destruct (Hsub d r E Hd) as [n Hn]. exists (S n). apply R_skip; [|exact Hn].
        unfold optional. rewrite Em. reflexivity.
      * inversion L1 as [|? ? Hin L1']; subst. cbn [app] in E. destruct (Hok w d _ E Hin) as [O1 O2].
        pose proof (@skipn_cons_nth _ _ _ _ _ E) as [_ E'].
        destruct (IHu L1' (d + 1) E' ltac:(lia)) as [n Hn]. exists (S n). apply R_star.
        -- unfold starred. rewrite Em. reflexivity.
        -- exact O1.
        -- rewrite <- (Nat.add_assoc d 1) in Hn. exact Hn.
    + destruct L1 as [w [Eu Hin]]. apply (Hone w); [unfold starred; rewrite Em; reflexivity|exact Hin|exact Eu].
Qed.

Theorem compound_rule_matches_spec : forall pattern data, Forall wf_flagset data ->
  exists b, compound_rule_matches pattern data = Ret b /\ (b = true <-> rule_lang pattern data).
Proof.
  intros pattern data Hwf. destruct (@matches_reach data pattern) as [b [E Hb]].
  exists b. split; [exact E|]. rewrite Hb. split.
  - intros [k H]. apply reach_lang in H; [|exact Hwf|lia]. destruct H as [ws [E2 L]].
    rewrite skipn_all, app_nil_r in E2. simpl in E2. subst ws. exact L.
  - intro L. destruct (@lang_reach data Hwf pattern data 0 [] L) as [n Hn].
    + rewrite app_nil_r. reflexivity.
    + lia.
    + exists n. exact Hn.
Qed.

Theorem any_rule_matches_spec : forall t data, Forall wf_flagset data ->
  exists b, any_rule_matches t data = Ret b /\
            (b = true <-> exists r, In r (rt_rules t) /\ rule_lang r data).
Proof.
  intros t data Hwf. unfold any_rule_matches. induction (rt_rules t) as [|r rs IH].
  - exists false. split; [reflexivity|]. split; [discriminate|]. intros [r [[] _]].
  - cbn [anyR]. destruct (@compound_rule_matches_spec r _ Hwf) as [b [E Hb]]. rewrite E. cbn [bindR].
    destruct b.
    + exists true. split; [reflexivity|]. split; [|reflexivity]. intros _. exists r.
      split; [left; reflexivity|apply Hb; reflexivity].
    + destruct IH as [b' [E' Hb']]. exists b'. split; [exact E'|]. rewrite Hb'. split.
      * intros [r' [H1 H2]]. exists r'. split; [right; exact H1|exact H2].
      * intros [r' [[<-|H1] H2]]; [apply Hb in H2; discriminate|]. exists r'. auto.
Qed.
