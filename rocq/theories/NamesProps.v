(** Two dictionaries with the same data, up to the names of flags, agree as checkers (FlagNames.v). *)
From Coq Require Import String Ascii List NArith ZArith Lia Bool Arith Permutation.
From Verif Require Import Base Utf8 Unicode Flags Bag Condition Affix Conversion Aff Checker AffixSpec CompoundRule Rep CompoundSpec
  CompoundTotal RuleCompound Spell CheckSpec CheckMono CheckProps Parser ParserSafe Lib LibSpec LibProps ParserProps FlagNames.
Import ListNotations.
Local Open Scope string_scope.
Local Open Scope list_scope.
Local Open Scope nat_scope.
Set Implicit Arguments.

(** ** The data of two dictionaries, with flags of the one standing for flags of the other *)
(** [g] contains the same of the [Used] flags as [f], under their new names. *)
Definition SameFlags (ren : N -> N) (Used : N -> Prop) (f g : flagset) : Prop := forall x, Used x -> (In (ren x) g <-> In x f).
Section Spec.
Variable ren : N -> N.
(** The flags whose presence has to be preserved. *)
Variable Used : N -> Prop.
(** The relation between flag sets. *)
Variable SF : flagset -> flagset -> Prop.
Definition SameFlag (o p : option N) : Prop := p = option_map ren o /\ forall x, o = Some x -> Used x.
Record SameAffix (a b : affix) : Prop := {
  sa_flag : a_flag b = ren (a_flag a);
  sa_used : Used (a_flag a);
  sa_flags : SF (a_flags a) (a_flags b);
  sa_cross : a_cross b = a_cross a;
  sa_strip : a_strip b = a_strip a;
  sa_add : a_add b = a_add a;
  sa_cond : a_cond b = a_cond a }.
Record SamePattern (p q : compound_pattern) : Prop := {
  sp_begin : cp_begin q = cp_begin p;
  sp_end : cp_end q = cp_end p;
  sp_replacement : cp_replacement q = cp_replacement p;
  sp_unaffixed : cp_unaffixed q = cp_unaffixed p;
  sp_first : SameFlag (cp_first_flag p) (cp_first_flag q);
  sp_second : SameFlag (cp_second_flag p) (cp_second_flag q) }.
(** The options [check] looks at. *)
Record SameOptions (o p : options) : Prop := {
  so_complex : o_complex_prefixes p = o_complex_prefixes o;
  so_sharps : o_checksharps p = o_checksharps o;
  so_forbid_warn : o_forbid_warn p = o_forbid_warn o;
  so_only : SameFlag (o_only_in_compound o) (o_only_in_compound p);
  so_circumfix : SameFlag (o_circumfix o) (o_circumfix p);
  so_forbidden : SameFlag (Some (o_forbidden o)) (Some (o_forbidden p));
  so_keep : SameFlag (o_keep_case o) (o_keep_case p);
  so_need : SameFlag (o_need_affix o) (o_need_affix p);
  so_warn : o_forbid_warn o = true -> SameFlag (o_warn o) (o_warn p);
  so_compound : SameFlag (o_compound o) (o_compound p);
  so_begin : SameFlag (o_compound_begin o) (o_compound_begin p);
  so_middle : SameFlag (o_compound_middle o) (o_compound_middle p);
  so_end : SameFlag (o_compound_end o) (o_compound_end p);
  so_min : o_min_length p = o_min_length o;
  so_max : o_max_words p = o_max_words o;
  so_permit : SameFlag (o_permit o) (o_permit p);
  so_forbid : SameFlag (o_forbid o) (o_forbid p);
  so_root : SameFlag (o_root o) (o_root p);
  so_force : SameFlag (o_force_upper o) (o_force_upper p);
  so_dup : o_check_duplicate p = o_check_duplicate o;
  so_rep : o_check_rep p = o_check_rep o;
  so_case : o_check_case p = o_check_case o;
  so_triple : o_check_triple p = o_check_triple o;
  so_simplified : o_simplified_triple p = o_simplified_triple o;
  so_syllable : o_syllable_num p = o_syllable_num o;
  so_syllable_max : o_syllable_max p = o_syllable_max o;
  so_casing : o_case p = o_case o }.
Definition SameRule (r q : CompoundRule.rule) : Prop :=
  Forall2 (fun e e' => re_flag e' = ren (re_flag e) /\ re_mod e' = re_mod e /\ Used (re_flag e)) r q.
Record SameAff (a b : affdata) : Prop := {
  sf_prefixes : Forall2 SameAffix (i_table (ad_prefixes a)) (i_table (ad_prefixes b));
  sf_suffixes : Forall2 SameAffix (i_table (ad_suffixes a)) (i_table (ad_suffixes b));
  sf_breaks : ad_breaks b = ad_breaks a;
  sf_rules : Forall2 SameRule (rt_rules (ad_rules a)) (rt_rules (ad_rules b));
  sf_vowels : ad_vowels b = ad_vowels a;
  sf_patterns : Forall2 SamePattern (ad_patterns a) (ad_patterns b);
  sf_iconv : ad_iconv b = ad_iconv a;
  sf_ignore : ad_ignore b = ad_ignore a;
  (** REP is a directive about suggestions unless CHECKCOMPOUNDREP is given *)
  sf_reps : o_check_rep (ad_options a) = true -> ad_reps b = ad_reps a;
  sf_options : SameOptions (ad_options a) (ad_options b) }.
End Spec.

(** ** From the data to the simulation *)
Lemma affixes_of_hits : forall k idx w, index_wf k idx -> affixes_of k idx w = Ret (filter (hits k (enc w)) (i_table idx)).
Proof.
  intros k idx w [Hs [Hok [Hsc _]]]. unfold affixes_of, affixes_of_bytes.
  assert (M : forall x y, In x (i_table idx) -> In y (i_table idx) -> lex_leb (key k x) (key k y) = true ->
                add_empty y = true -> add_empty x = true).
  { intros x y _ _. apply add_empty_mono. }
  pose proof (sorted_partitioned _ Hs M) as Esp.
  set (emp := filter add_empty (i_table idx)) in *.
  set (ne := filter (fun x => negb (add_empty x)) (i_table idx)) in *.
  assert (He : forall a, In a emp -> a_add a = []).
  { intros a Ha. apply filter_In in Ha. destruct Ha as [_ Ha]. apply enc_nil. unfold add_empty in Ha.
    destruct (enc (a_add a)); [reflexivity|discriminate]. }
  rewrite Esp at 2. rewrite (@iter_collect_start k idx (enc w) ne _ _ Hs eq_refl eq_refl Hok); try assumption.
  - f_equal. rewrite Esp at 1. rewrite filter_app. f_equal. symmetry. apply filter_all. intros a Ha. unfold hits, key. rewrite (He a Ha).
    destruct k; reflexivity.
  - rewrite Esp at 2. apply skipn_app_exact. reflexivity.
  - rewrite Esp at 1. rewrite app_length. lia.
Qed.
Lemma forall2_filter : forall A B (R : A -> B -> Prop) p q l m, (forall x y, R x y -> q y = p x) -> Forall2 R l m -> Forall2 R (filter p l) (filter q m).
Proof.
  intros A B R p q l m E H. induction H as [|x y l m Hx _ IH]; [constructor|]. cbn [filter]. rewrite (E x y Hx). destruct (p x); [constructor; assumption|exact IH].
Qed.
Lemma forall2_in : forall A B (R : A -> B -> Prop) l m, Forall2 R l m ->
  (forall x, In x l -> exists y, In y m /\ R x y) /\ (forall y, In y m -> exists x, In x l /\ R x y).
Proof.
  intros A B R l m H. induction H as [|x y l m Hx _ [I1 I2]]; [split; intros ? []|]. split.
  - intros z [<-|Hz]; [exists y; split; [left; reflexivity|exact Hx]|]. destruct (I1 z Hz) as (u & U1 & U2). exists u. split; [right; exact U1|exact U2].
  - intros z [<-|Hz]; [exists x; split; [left; reflexivity|exact Hx]|]. destruct (I2 z Hz) as (u & U1 & U2). exists u. split; [right; exact U1|exact U2].
Qed.
Lemma forall2_weak : forall A B (R S : A -> B -> Prop) l m, (forall x y, R x y -> S x y) -> Forall2 R l m -> Forall2 S l m.
Proof. intros A B R S l m E H. induction H; constructor; auto. Qed.
Lemma forall2_both : forall A B (R : A -> B -> Prop) P Q l m, Forall2 R l m -> Forall P l -> Forall Q m -> Forall2 (fun x y => R x y /\ P x /\ Q y) l m.
Proof. intros A B R P Q l m H. induction H; intros H1 H2; [constructor|]. inversion H1; subst. inversion H2; subst. constructor; auto. Qed.
Lemma contains_same : forall f g x y, wf_flagset f -> wf_flagset g -> (In y g <-> In x f) -> contains g y = contains f x.
Proof. intros f g x y Hf Hg H. apply eq_true_iff_eq. rewrite !contains_spec by assumption. exact H. Qed.
Lemma wf_flagset_ext : forall f g, wf_flagset f -> wf_flagset g -> (forall x, In x f <-> In x g) -> f = g.
Proof.
  unfold wf_flagset. induction f as [|a f IH]; intros [|b g] Hf Hg E; [reflexivity| | |].
  - exfalso. apply (proj2 (E b)). left. reflexivity.
  - exfalso. apply (proj1 (E a)). left. reflexivity.
  - inversion Hf as [|? ? Sf Lf]; subst. inversion Hg as [|? ? Sg Lg]; subst. rewrite Forall_forall in Lf, Lg.
    assert (EA : a = b).
    { destruct (proj1 (E a) (or_introl eq_refl)) as [->|Ha]; [reflexivity|]. destruct (proj2 (E b) (or_introl eq_refl)) as [->|Hb]; [reflexivity|].
      specialize (Lf _ Hb). specialize (Lg _ Ha). lia. }
    subst b. f_equal. apply IH; [exact Sf|exact Sg|]. intros x. split; intro Hx.
    + destruct (proj1 (E x) (or_intror Hx)) as [<-|?]; [|assumption]. specialize (Lf _ Hx). lia.
    + destruct (proj2 (E x) (or_intror Hx)) as [<-|?]; [|assumption]. specialize (Lg _ Hx). lia.
Qed.
Lemma run2_ext : forall S R (f g : S -> S + R), (forall s, f s = g s) -> forall n s, run2 f n s = run2 g n s.
Proof. intros S R f g E. induction n as [|n IH]; intro s; cbn [run2]; [apply E|]. rewrite IH. destruct (run2 g n s); [apply IH|reflexivity]. Qed.
Lemma forall2_nth : forall A B (R : A -> B -> Prop) l m n, Forall2 R l m -> ROpt R (nth_error l n) (nth_error m n).
Proof. intros A B R l m n H. revert n. induction H as [|x y l m Hx _ IH]; intros [|n]; cbn; try exact I; [exact Hx|apply IH]. Qed.

Section Bridge.
Variable pl : platform.
Hypothesis WP : wf_platform pl.
Variables d d' : dictionary.
Hypothesis R : Reachable pl d.
Hypothesis R' : Reachable pl d'.
Variable ren : N -> N.
Variable Used : N -> Prop.
Variable SF : flagset -> flagset -> Prop.
Hypothesis SF_same : forall f g, SF f g -> SameFlags ren Used f g.
Hypothesis SA : SameAff ren Used SF (d_aff d) (d_aff d').
Hypothesis SE : forall w, Forall2 SF (entries d w) (entries d' w).
(** Whether any affix can be continued. *)
Hypothesis CP : (exists x, In x (i_table (ad_prefixes (d_aff d))) /\ a_flags x <> []) <-> (exists x, In x (i_table (ad_prefixes (d_aff d'))) /\ a_flags x <> []).
Hypothesis CS : (exists x, In x (i_table (ad_suffixes (d_aff d))) /\ a_flags x <> []) <-> (exists x, In x (i_table (ad_suffixes (d_aff d'))) /\ a_flags x <> []).
Hypothesis HH : ren hidden_homonym_flag = hidden_homonym_flag /\ Used hidden_homonym_flag.
Hypothesis SYL : ad_vowels (d_aff d) <> [] -> (ren 73 = 73 /\ Used 73)%N /\ (ren 74 = 74 /\ Used 74)%N /\
  forall x y, Used x -> y = 73%N \/ y = 74%N \/ y = 99%N -> (ren x = y <-> x = y).

Let RF (f g : flagset) : Prop := SameFlags ren Used f g /\ wf_flagset f /\ wf_flagset g.

Lemma br_has : forall f g x, RF f g -> Used x -> contains g (ren x) = contains f x.
Proof. intros f g x (H & Wf & Wg) U. apply contains_same; auto. Qed.
Lemma br_flag : forall o p, SameFlag ren Used o p -> RO ren Used o p.
Proof. intros o p H. exact H. Qed.
Lemma br_index : forall kd a b w, index_wf kd a -> index_wf kd b -> Forall affix_ok (i_table a) -> Forall affix_ok (i_table b) ->
  Forall2 (SameAffix ren Used SF) (i_table a) (i_table b) ->
  Forall2 (RA ren Used RF) (match affixes_of kd a w with Ret l => l | _ => [] end) (match affixes_of kd b w with Ret l => l | _ => [] end).
Proof.
  intros kd a b w Wa Wb Oa Ob H. rewrite !affixes_of_hits by assumption. pose proof (forall2_both H Oa Ob) as H2.
  eapply forall2_weak with (R := fun x y => SameAffix ren Used SF x y /\ affix_ok x /\ affix_ok y).
  - intros x y (S & (_ & (X1 & _) & _) & (_ & (Y1 & _) & _)). destruct S. unfold RA. repeat (split; [assumption|]). split; [|auto].
    split; [apply SF_same; assumption|]. split; assumption.
  - apply forall2_filter; [|exact H2]. intros x y (S & _). destruct S as [_ _ _ _ _ E _]. unfold hits, key. rewrite E. reflexivity.
Qed.
Lemma br_all : forall kd a b, index_wf kd a -> index_wf kd b -> Forall2 (SameAffix ren Used SF) (i_table a) (i_table b) ->
  forall x, Used x -> contains (i_all_flags b) (ren x) = contains (i_all_flags a) x.
Proof.
  intros kd a b (_ & _ & _ & Wa & Ea) (_ & _ & _ & Wb & Eb) H x U. apply contains_same; [exact Wa|exact Wb|]. rewrite Ea, Eb.
  destruct (forall2_in H) as [I1 I2]. split.
  - intros (y & Hy & Fy). destruct (I2 y Hy) as (z & Hz & S). exists z. split; [exact Hz|]. apply (SF_same (sa_flags S) U). exact Fy.
  - intros (y & Hy & Fy). destruct (I1 y Hy) as (z & Hz & S). exists z. split; [exact Hz|]. apply (SF_same (sa_flags S) U). exact Fy.
Qed.
Lemma br_some : forall kd a b, index_wf kd a -> index_wf kd b ->
  ((exists x, In x (i_table a) /\ a_flags x <> []) <-> (exists x, In x (i_table b) /\ a_flags x <> [])) ->
  nonempty (i_all_flags b) = nonempty (i_all_flags a).
Proof.
  assert (G : forall kd a, index_wf kd a -> nonempty (i_all_flags a) = true <-> (exists x, In x (i_table a) /\ a_flags x <> [])).
  { intros kd a (_ & _ & _ & _ & E). split.
    - destruct (i_all_flags a) as [|f l] eqn:EA; [discriminate|]. intros _. destruct (proj1 (E f) (or_introl eq_refl)) as (x & Hx & Fx).
      exists x. split; [exact Hx|]. intro N. rewrite N in Fx. destruct Fx.
    - intros (x & Hx & Fx). destruct (a_flags x) as [|f l] eqn:EA; [contradiction|].
      assert (I : In f (i_all_flags a)) by (apply E; exists x; split; [exact Hx|rewrite EA; left; reflexivity]). destruct (i_all_flags a); [destruct I|reflexivity]. }
  intros kd a b Wa Wb H. apply eq_true_iff_eq. rewrite (G _ _ Wa), (G _ _ Wb). symmetry. exact H.
Qed.
Lemma br_rule : forall r q l m, SameRule ren Used r q -> Forall2 RF l m -> compound_rule_matches q m = compound_rule_matches r l.
Proof.
  intros r q l m HR HD. unfold compound_rule_matches.
  assert (L1 : length q = length r) by (symmetry; eapply Forall2_length; exact HR).
  assert (L2 : length m = length l) by (symmetry; eapply Forall2_length; exact HD).
  rewrite L1, L2. erewrite run2_ext; [reflexivity|]. intros [|[p x] st]; [reflexivity|]. unfold rule_step. rewrite L1, L2.
  destruct (p =? length r); [reflexivity|]. pose proof (forall2_nth p HR) as NR. pose proof (forall2_nth x HD) as ND.
  destruct (nth_error r p) as [e|], (nth_error q p) as [e'|]; try contradiction; [|reflexivity]. destruct NR as (E1 & E2 & U). rewrite E2.
  assert (EM : (match nth_error m x with Some fs => contains fs (re_flag e') | None => false end) =
               (match nth_error l x with Some fs => contains fs (re_flag e) | None => false end)).
  { destruct (nth_error l x), (nth_error m x); try contradiction; [|reflexivity]. rewrite E1. apply br_has; assumption. }
  rewrite EM. reflexivity.
Qed.
Lemma br_rules : forall a b l m, Forall2 (SameRule ren Used) (rt_rules a) (rt_rules b) -> Forall2 RF l m -> any_rule_matches b m = any_rule_matches a l.
Proof.
  intros a b l m H HD. unfold any_rule_matches. induction H as [|r q rs qs HR _ IH]; [reflexivity|]. cbn [anyR]. rewrite (br_rule HR HD), IH. reflexivity.
Qed.
Lemma br_table : forall x t, rule_table_from x = Ret t -> rt_rules t = x /\ wf_flagset (rt_flags t) /\ forall f, In f (rt_flags t) <-> In f (flat_map (map re_flag) x).
Proof.
  intros x t H. unfold rule_table_from in H. destruct (flagset_from _) as [fs| |] eqn:E; try discriminate. cbn [bindR] in H. injection H as <-.
  cbn. split; [reflexivity|]. split; [exact (flagset_from_wf _ _ E)|]. intro f. exact (flagset_from_In _ _ f E).
Qed.
Lemma br_any : forall a b x y, rule_table_from x = Ret a -> rule_table_from y = Ret b -> Forall2 (SameRule ren Used) (rt_rules a) (rt_rules b) ->
  forall f g, RF f g -> has_any_flags b g = has_any_flags a f.
Proof.
  intros a b x y Ha Hb H f g (HF & Wf & Wg). destruct (br_table _ Ha) as (E1 & W1 & I1). destruct (br_table _ Hb) as (E2 & W2 & I2).
  unfold has_any_flags. apply eq_true_iff_eq. rewrite !has_intersection_spec by assumption. rewrite E1, E2 in H. split.
  - intros (z & Hz & Gz). apply I2, in_flat_map in Hz. destruct Hz as (q & Hq & Hz). apply in_map_iff in Hz. destruct Hz as (e' & <- & He).
    destruct (proj2 (forall2_in H) q Hq) as (r & Hr & SR). destruct (proj2 (forall2_in SR) e' He) as (e & Hee & E & _ & U).
    exists (re_flag e). split; [apply I1, in_flat_map; exists r; split; [exact Hr|apply in_map; exact Hee]|]. apply (HF _ U). rewrite <- E. exact Gz.
  - intros (z & Hz & Gz). apply I1, in_flat_map in Hz. destruct Hz as (r & Hr & Hz). apply in_map_iff in Hz. destruct Hz as (e & <- & He).
    destruct (proj1 (forall2_in H) r Hr) as (q & Hq & SR). destruct (proj1 (forall2_in SR) e He) as (e' & Hee & E & _ & U).
    exists (re_flag e'). split; [apply I2, in_flat_map; exists q; split; [exact Hq|apply in_map; exact Hee]|]. rewrite E. apply (HF _ U). exact Gz.
Qed.

Lemma br_agree : forall lt lu, Agree (checker_of pl d lt lu) (checker_of pl d' lt lu) ren Used RF.
Proof.
  intros lt lu. pose proof (reachable_ok WP R) as OK. pose proof (reachable_ok WP R') as OK'.
  destruct (do_aff OK) as (x & LP & CO). destruct (aff_facts WP LP CO) as (P1 & P2 & P3 & P4 & _ & _ & _ & _ & _ & _ & _ & _ & P5 & _).
  destruct (do_aff OK') as (x' & LP' & CO'). destruct (aff_facts WP LP' CO') as (Q1 & Q2 & Q3 & Q4 & _ & _ & _ & _ & _ & _ & _ & _ & Q5 & _).
  destruct SA as [A1 A2 A5 A6 A7 A8 A9 A10 A11 A12]. destruct A12.
  assert (EW : forall w, Forall2 RF (entries d w) (entries d' w)).
  { intros w. assert (F1 : Forall wf_flagset (entries d w)).
    { apply Forall_forall. intros f Hf. apply (@dict_entry_ok pl d OK w f Hf). }
    assert (F2 : Forall wf_flagset (entries d' w)).
    { apply Forall_forall. intros f Hf. apply (@dict_entry_ok pl d' OK' w f Hf). }
    pose proof (forall2_both (SE w) F1 F2) as H. revert H. apply forall2_weak. intros f g (H1 & H2 & H3). split; [apply SF_same; exact H1|split; assumption]. }
  constructor; try assumption; try reflexivity.
  - intros w. rewrite !(entries_get WP). exact (EW w).
  - intros w. apply br_index; assumption.
  - intros w. apply br_index; assumption.
  - apply (br_some P1 Q1). exact CP.
  - apply (br_some P2 Q2). exact CS.
  - exact (br_all P1 Q1 A1).
  - exact (br_all P2 Q2 A2).
  - exact (@br_any _ _ _ _ P5 Q5 A6).
  - intros l m. exact (@br_rules _ _ _ _ A6).
  - change (nonempty (rt_rules (ad_rules (d_aff d'))) = nonempty (rt_rules (ad_rules (d_aff d)))). destruct A6; reflexivity.
  - change (Forall2 (RP ren Used) (ad_patterns (d_aff d)) (ad_patterns (d_aff d'))). revert A8. apply forall2_weak. intros p q []. unfold RP. auto 10.
  - destruct so_forbidden0 as [E U]. injection E as E. split; [exact E|]. exact (U _ eq_refl).
  - intros V. apply SYL. intro N. cbn in V. rewrite N in V. discriminate.
  - intros V. apply SYL. intro N. cbn in V. rewrite N in V. discriminate.
  - intros V z y U Y. assert (NV : ad_vowels (d_aff d) <> []) by (intro N; cbn in V; rewrite N in V; discriminate).
    pose proof (proj2 (proj2 (SYL NV)) z y U Y) as [S1 S2]. destruct (N.eqb_spec z y) as [->|NE]; [apply N.eqb_eq; auto|apply N.eqb_neq; auto].
Qed.
Theorem same_check : forall lt lu fuel w, check (checker_of pl d' lt lu) fuel w = check (checker_of pl d lt lu) fuel w.
Proof. intros lt lu. apply (agree_check br_has (br_agree lt lu)). Qed.
End Bridge.
