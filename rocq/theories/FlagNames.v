(** Two checkers whose data agree in everything a check looks at, with flags of the one standing
    for flags of the other, give the same answers. *)
From Coq Require Import List NArith ZArith Lia Bool Arith.
From Verif Require Import Base Utf8 Unicode Flags Condition Affix AffixSpec CompoundRule Rep Conversion Aff Checker.
Import ListNotations.
Set Implicit Arguments.

(** ** Related results *)
Definition ROpt {A B} (R : A -> B -> Prop) (a : option A) (b : option B) : Prop :=
  match a, b with Some x, Some y => R x y | None, None => True | _, _ => False end.
Definition RRes {A B} (R : A -> B -> Prop) (a : Res A) (b : Res B) : Prop :=
  match a, b with Ret x, Ret y => R x y | Panic, Panic => True | NoFuel, NoFuel => True | _, _ => False end.

Lemma sim_first : forall A B C D (R : A -> B -> Prop) (S : C -> D -> Prop) f g l m,
  Forall2 R l m -> (forall x y, R x y -> ROpt S (f x) (g y)) -> ROpt S (first_some f l) (first_some g m).
Proof.
  intros A B C D R S f g l m H F. induction H as [|x y l m Hx _ IH]; [exact I|]. cbn [first_some]. specialize (F x y Hx).
  destruct (f x), (g y); try contradiction; [exact F|exact IH].
Qed.
Lemma sim_firstR : forall A C D (S : C -> D -> Prop) (f : A -> Res (option C)) (g : A -> Res (option D)) l,
  (forall x, RRes (ROpt S) (f x) (g x)) -> RRes (ROpt S) (firstR f l) (firstR g l).
Proof.
  intros A C D S f g l F. induction l as [|x l IH]; [exact I|]. cbn [firstR]. specialize (F x).
  destruct (f x) as [[]| |], (g x) as [[]| |]; try contradiction; try exact I; [exact F|exact IH].
Qed.
Lemma sim_bind : forall A B C D (R : A -> B -> Prop) (S : C -> D -> Prop) a b f g,
  RRes R a b -> (forall x y, R x y -> RRes S (f x) (g y)) -> RRes S (bindR a f) (bindR b g).
Proof. intros A B C D R S [x| |] [y| |] f g H F; try contradiction; try exact I. exact (F x y H). Qed.
Lemma sim_orelse : forall A B (S : A -> B -> Prop) a b c d, RRes (ROpt S) a b -> RRes (ROpt S) c d ->
  RRes (ROpt S) (match a with Ret (Some x) => Ret (Some x) | Ret None => c | Panic => Panic | NoFuel => NoFuel end)
                (match b with Ret (Some x) => Ret (Some x) | Ret None => d | Panic => Panic | NoFuel => NoFuel end).
Proof. intros A B S [[x|]| |] [[y|]| |] c d H F; try contradiction; try exact I; [exact H|exact F]. Qed.
Lemma sim_eq : forall A (a b : Res A), RRes eq a b -> b = a.
Proof. intros A [x| |] [y| |] H; try contradiction; try reflexivity. cbn in H. congruence. Qed.
Lemma sim_anyR : forall A (f g : A -> Res bool) l, (forall x, g x = f x) -> anyR g l = anyR f l.
Proof. intros A f g l F. induction l as [|x l IH]; [reflexivity|]. cbn [anyR]. rewrite F, IH. reflexivity. Qed.

Section Sim.
Variables k k' : checker.
(** [ren] is what a flag of the first is called in the second; [Used] are the flags that matter;
    [RF] relates flag sets. *)
Variable ren : N -> N.
Variable Used : N -> Prop.
Variable RF : flagset -> flagset -> Prop.
Hypothesis RF_has : forall f g x, RF f g -> Used x -> contains g (ren x) = contains f x.
Definition RA (a b : affix) : Prop :=
  Used (a_flag a) /\ a_flag b = ren (a_flag a) /\ RF (a_flags a) (a_flags b) /\
  a_cross b = a_cross a /\ a_strip b = a_strip a /\ a_add b = a_add a /\ a_cond b = a_cond a.
Definition RO (o p : option N) : Prop := p = option_map ren o /\ forall x, o = Some x -> Used x.
Definition RP (p q : compound_pattern) : Prop :=
  cp_begin q = cp_begin p /\ cp_end q = cp_end p /\ cp_replacement q = cp_replacement p /\ cp_unaffixed q = cp_unaffixed p /\
  RO (cp_first_flag p) (cp_first_flag q) /\ RO (cp_second_flag p) (cp_second_flag q).
Notation A := (ck_aff k).
Notation A' := (ck_aff k').
Notation O := (ad_options (ck_aff k)).
Notation O' := (ad_options (ck_aff k')).

(** [f] and [g] are the flags of corresponding entries of [s], and the first ones with these flags. *)
Definition RW (s : str) (f g : flagset) : Prop := RF f g /\ exists l1 l2 m1 m2,
  ck_get k s = l1 ++ f :: l2 /\ ck_get k' s = m1 ++ g :: m2 /\ length m1 = length l1 /\ forall e, In e l1 -> ~ RF e g.
Lemma RW_same : forall s f g f1 g1, RW s f g -> RW s f1 g1 -> (g = g1 <-> f = f1).
Proof.
  intros s f g f1 g1 (H & l1 & l2 & m1 & m2 & E & E' & L & N) (H1 & u1 & u2 & v1 & v2 & F & F' & M & P).
  rewrite E in F. rewrite E' in F'.
  assert (C : forall (A : Type) (a b : list A) x y c d, a ++ x :: c = b ++ y :: d ->
    (length a = length b /\ x = y) \/ (length a < length b /\ In x b) \/ (length b < length a /\ In y a)).
  { clear. intros A. induction a as [|i a IH]; intros [|j b] x y c d Q; cbn [app] in Q.
    - left. split; [reflexivity|congruence].
    - right. left. cbn. split; [lia|]. left. congruence.
    - right. right. cbn. split; [lia|]. left. congruence.
    - injection Q as -> Q. destruct (IH _ _ _ _ _ Q) as [[Q1 Q2]|[[Q1 Q2]|[Q1 Q2]]]; cbn [length In].
      + left. split; [congruence|exact Q2].
      + right. left. split; [lia|]. right. exact Q2.
      + right. right. split; [lia|]. right. exact Q2. }
  destruct (C _ _ _ _ _ _ _ F) as [[K1 K2]|[[K1 K2]|[K1 K2]]].
  - destruct (C _ _ _ _ _ _ _ F') as [[_ K3]|[[K3 _]|[K3 _]]]; [tauto|lia|lia].
  - split; intro Q; exfalso; apply (P f K2); [subst g1; exact H|subst f1; exact H1].
  - split; intro Q; exfalso; apply (N f1 K2); [subst g1; exact H1|subst f1; exact H].
Qed.

(** The checkers agree. *)
Record Agree : Prop := {
  ag_u : ck_u k' = ck_u k;
  ag_overflow : ck_overflow_checks k' = ck_overflow_checks k;
  ag_title : ck_lower_as_title k' = ck_lower_as_title k;
  ag_upper : ck_lower_as_upper k' = ck_lower_as_upper k;
  ag_words : forall w, Forall2 RF (ck_get k w) (ck_get k' w);
  ag_pfx : forall w, Forall2 RA (pfx_of k w) (pfx_of k' w);
  ag_sfx : forall w, Forall2 RA (sfx_of k w) (sfx_of k' w);
  ag_p_some : nonempty (p_all_flags k') = nonempty (p_all_flags k);
  ag_s_some : nonempty (s_all_flags k') = nonempty (s_all_flags k);
  ag_p_all : forall x, Used x -> contains (p_all_flags k') (ren x) = contains (p_all_flags k) x;
  ag_s_all : forall x, Used x -> contains (s_all_flags k') (ren x) = contains (s_all_flags k) x;
  ag_breaks : ad_breaks A' = ad_breaks A;
  ag_any : forall f g, RF f g -> has_any_flags (ad_rules A') g = has_any_flags (ad_rules A) f;
  ag_rules : forall l m, Forall2 RF l m -> any_rule_matches (ad_rules A') m = any_rule_matches (ad_rules A) l;
  ag_rules_some : nonempty (rt_rules (ad_rules A')) = nonempty (rt_rules (ad_rules A));
  ag_vowels : ad_vowels A' = ad_vowels A;
  ag_patterns : Forall2 RP (ad_patterns A) (ad_patterns A');
  ag_iconv : ad_iconv A' = ad_iconv A;
  ag_ignore : ad_ignore A' = ad_ignore A;
  ag_reps : o_check_rep O = true -> ad_reps A' = ad_reps A;
  ag_complex : o_complex_prefixes O' = o_complex_prefixes O;
  ag_sharps : o_checksharps O' = o_checksharps O;
  ag_forbid_warn : o_forbid_warn O' = o_forbid_warn O;
  ag_only : RO (o_only_in_compound O) (o_only_in_compound O');
  ag_circumfix : RO (o_circumfix O) (o_circumfix O');
  ag_forbidden : o_forbidden O' = ren (o_forbidden O) /\ Used (o_forbidden O);
  ag_keep : RO (o_keep_case O) (o_keep_case O');
  ag_need : RO (o_need_affix O) (o_need_affix O');
  ag_warn : o_forbid_warn O = true -> RO (o_warn O) (o_warn O');
  ag_compound : RO (o_compound O) (o_compound O');
  ag_begin : RO (o_compound_begin O) (o_compound_begin O');
  ag_middle : RO (o_compound_middle O) (o_compound_middle O');
  ag_end : RO (o_compound_end O) (o_compound_end O');
  ag_min : o_min_length O' = o_min_length O;
  ag_max : o_max_words O' = o_max_words O;
  ag_permit : RO (o_permit O) (o_permit O');
  ag_forbid : RO (o_forbid O) (o_forbid O');
  ag_root : RO (o_root O) (o_root O');
  ag_force : RO (o_force_upper O) (o_force_upper O');
  ag_dup : o_check_duplicate O' = o_check_duplicate O;
  ag_rep : o_check_rep O' = o_check_rep O;
  ag_case : o_check_case O' = o_check_case O;
  ag_triple : o_check_triple O' = o_check_triple O;
  ag_simplified : o_simplified_triple O' = o_simplified_triple O;
  ag_syllable : o_syllable_num O' = o_syllable_num O;
  ag_syllable_max : o_syllable_max O' = o_syllable_max O;
  ag_casing : o_case O' = o_case O;
  ag_hidden : ren hidden_homonym_flag = hidden_homonym_flag /\ Used hidden_homonym_flag;
  (** COMPOUNDSYLLABLE gives a meaning to the flags I, J and c. *)
  ag_I : nonempty (ad_vowels A) = true -> ren 73%N = 73%N /\ Used 73%N;
  ag_J : nonempty (ad_vowels A) = true -> ren 74%N = 74%N /\ Used 74%N;
  ag_IJc : nonempty (ad_vowels A) = true -> forall x y, Used x -> y = 73%N \/ y = 74%N \/ y = 99%N -> (ren x =? y)%N = (x =? y)%N }.
Hypothesis AG : Agree.

(** A search among the entries of a word by their flags ends at corresponding entries. *)
Lemma sim_entries : forall w C D (S : C -> D -> Prop) f g, (forall x y, RF x y -> ROpt (fun _ _ => True) (f x) (g y)) ->
  (forall x y, RW w x y -> ROpt S (f x) (g y)) -> ROpt S (first_some f (ck_get k w)) (first_some g (ck_get k' w)).
Proof.
  intros w C D S f g F1 F2.
  assert (G : forall l m a b, Forall2 RF l m -> ck_get k w = a ++ l -> ck_get k' w = b ++ m -> length b = length a -> Forall (fun x => f x = None) a ->
            ROpt S (first_some f l) (first_some g m)).
  { intros l m a b H. revert a b. induction H as [|x y l m Hx _ IH]; intros a b E E' L N; [exact I|]. cbn [first_some].
    assert (NX : f x = None -> ROpt S (first_some f l) (first_some g m)).
    { intro FX. apply (IH (a ++ [x]) (b ++ [y])); [rewrite <- app_assoc; exact E|rewrite <- app_assoc; exact E'|rewrite !app_length, L; reflexivity|].
      apply Forall_app. split; [exact N|]. constructor; [exact FX|constructor]. }
    pose proof (F1 x y Hx) as FX. destruct (f x) as [u|] eqn:EF, (g y) as [v|] eqn:EG; try contradiction; [|exact (NX eq_refl)].
    clear FX. specialize (F2 x y). rewrite EF, EG in F2. apply F2. split; [exact Hx|]. exists a, l, b, m. split; [exact E|]. split; [exact E'|]. split; [exact L|].
    intros e He Q. rewrite Forall_forall in N. pose proof (F1 e y Q) as FE. rewrite (N e He), EG in FE. exact FE. }
  apply (G _ _ [] []); [exact (ag_words AG w)|reflexivity|reflexivity|reflexivity|constructor].
Qed.

(** ** Tests on flags *)
Lemma s_has : forall f g o p, RF f g -> RO o p -> has_flag g p = has_flag f o.
Proof. intros f g [x|] p H [-> U]; [|reflexivity]. apply RF_has; [exact H|exact (U x eq_refl)]. Qed.
Lemma s_contains : forall f g a b, RF f g -> RA a b -> contains g (a_flag b) = contains f (a_flag a).
Proof. intros f g a b H (U & -> & _). apply RF_has; assumption. Qed.
Lemma s_p_all : forall a b, RA a b -> contains (p_all_flags k') (a_flag b) = contains (p_all_flags k) (a_flag a).
Proof. intros a b (U & -> & _). apply (ag_p_all AG). exact U. Qed.
Lemma s_s_all : forall a b, RA a b -> contains (s_all_flags k') (a_flag b) = contains (s_all_flags k) (a_flag a).
Proof. intros a b (U & -> & _). apply (ag_s_all AG). exact U. Qed.
Lemma s_flags : forall a b, RA a b -> RF (a_flags a) (a_flags b).
Proof. intros a b (_ & _ & H & _). exact H. Qed.
Lemma s_cross : forall a b, RA a b -> a_cross b = a_cross a.
Proof. intros a b (_ & _ & _ & H & _). exact H. Qed.
Lemma s_add : forall a b, RA a b -> a_add b = a_add a.
Proof. intros a b (_ & _ & _ & _ & _ & H & _). exact H. Qed.
Lemma s_sstem : forall a b w, RA a b -> suffix_to_stem b w = suffix_to_stem a w.
Proof. intros a b w (_ & _ & _ & _ & H1 & H2 & _). unfold suffix_to_stem. rewrite H1, H2. reflexivity. Qed.
Lemma s_pstem : forall a b w, RA a b -> prefix_to_stem b w = prefix_to_stem a w.
Proof. intros a b w (_ & _ & _ & _ & H1 & H2 & _). unfold prefix_to_stem. rewrite H1, H2. reflexivity. Qed.
Lemma s_scond : forall a b w, RA a b -> scond b w = scond a w.
Proof. intros a b w (_ & _ & _ & _ & _ & _ & H). unfold scond. rewrite H. reflexivity. Qed.
Lemma s_pcond : forall a b w, RA a b -> pcond b w = pcond a w.
Proof. intros a b w (_ & _ & _ & _ & _ & _ & H). unfold pcond. rewrite H. reflexivity. Qed.
Lemma s_modifying : forall a b, RA a b -> is_modifying b = is_modifying a.
Proof. intros a b (_ & _ & _ & _ & H1 & H2 & _). unfold is_modifying. rewrite H1, H2. reflexivity. Qed.
Lemma s_valid : forall a b kd m, RA a b -> affix_valid k' kd m b = affix_valid k kd m a.
Proof.
  intros a b kd m H. unfold affix_valid. rewrite (s_has (s_flags H) (ag_only AG)), (s_has (s_flags H) (ag_permit AG)), (s_has (s_flags H) (ag_forbid AG)).
  reflexivity.
Qed.
Lemma s_need : forall f g, RF f g -> need_affix k' g = need_affix k f.
Proof. intros f g H. exact (s_has H (ag_need AG)). Qed.
Lemma s_only : forall f g, RF f g -> only_in_compound k' g = only_in_compound k f.
Proof. intros f g H. exact (s_has H (ag_only AG)). Qed.
Lemma s_outer : forall a b kd m, RA a b -> is_outer_affix_valid k' kd m b = is_outer_affix_valid k kd m a.
Proof.
  intros a b kd m H. unfold is_outer_affix_valid. rewrite (s_valid kd m H), (s_has (s_flags H) (ag_need AG)). reflexivity.
Qed.
Lemma s_circ : forall a b, RA a b -> is_circumfix k' b = is_circumfix k a.
Proof. intros a b H. exact (s_has (s_flags H) (ag_circumfix AG)). Qed.
Lemma s_inside : forall f g m, RF f g -> is_valid_inside_compound k' m g = is_valid_inside_compound k m f.
Proof.
  intros f g m H. unfold is_valid_inside_compound. rewrite (s_has H (ag_compound AG)), (s_has H (ag_begin AG)), (s_has H (ag_middle AG)), (s_has H (ag_end AG)).
  reflexivity.
Qed.
Lemma s_hh : forall f g, RF f g -> contains g hidden_homonym_flag = contains f hidden_homonym_flag.
Proof. intros f g H. destruct (ag_hidden AG) as [E U]. rewrite <- E at 1. apply RF_has; assumption. Qed.
Lemma s_hidden : forall f g hh, RF f g -> hidden hh g = hidden hh f.
Proof. intros f g hh H. unfold hidden. rewrite (s_hh H). reflexivity. Qed.
Lemma s_forbidden : forall f g, RF f g -> is_forbidden k' g = is_forbidden k f.
Proof. intros f g H. unfold is_forbidden. destruct (ag_forbidden AG) as [-> U]. apply RF_has; assumption. Qed.
Lemma s_keep : forall f g, RF f g -> keep_case k' g = keep_case k f.
Proof. intros f g H. exact (s_has H (ag_keep AG)). Qed.

(** ** Affix routes *)
Definition RForm (f g : affix_form) : Prop :=
  af_stem g = af_stem f /\ RW (af_stem f) (af_flags f) (af_flags g) /\ Forall2 RA (af_prefixes f) (af_prefixes g) /\ Forall2 RA (af_suffixes f) (af_suffixes g).

Ltac same_flags :=
  repeat match goal with
  | H : RA ?a ?b |- context [a_cross ?b] => rewrite (s_cross H)
  | H : RA ?a ?b |- context [a_add ?b] => rewrite (s_add H)
  | H : RA ?a ?b |- context [suffix_to_stem ?b ?w] => rewrite (s_sstem w H)
  | H : RA ?a ?b |- context [prefix_to_stem ?b ?w] => rewrite (s_pstem w H)
  | H : RA ?a ?b |- context [scond ?b ?w] => rewrite (s_scond w H)
  | H : RA ?a ?b |- context [pcond ?b ?w] => rewrite (s_pcond w H)
  | H : RA ?a ?b |- context [affix_valid k' ?kd ?m ?b] => rewrite (s_valid kd m H)
  | H : RA ?a ?b |- context [is_outer_affix_valid k' ?kd ?m ?b] => rewrite (s_outer kd m H)
  | H : RA ?a ?b |- context [is_circumfix k' ?b] => rewrite (s_circ H)
  | H : RA ?a ?b |- context [need_affix k' (a_flags ?b)] => rewrite (s_need (s_flags H))
  | H : RA ?a ?b |- context [is_valid_inside_compound k' ?m (a_flags ?b)] => rewrite (s_inside m (s_flags H))
  | H : RA ?a ?b |- context [has_flag (a_flags ?b) (o_only_in_compound O')] => rewrite (s_has (s_flags H) (ag_only AG))
  | H : RA ?a ?b |- context [contains (p_all_flags k') (a_flag ?b)] => rewrite (s_p_all H)
  | H : RA ?a ?b |- context [contains (s_all_flags k') (a_flag ?b)] => rewrite (s_s_all H)
  | H : RA ?a ?b, F : RF ?f ?g |- context [contains ?g (a_flag ?b)] => rewrite (s_contains F H)
  | H : RA ?a ?b, F : RA ?c ?d |- context [contains (a_flags ?d) (a_flag ?b)] => rewrite (s_contains (s_flags F) H)
  | H : RF ?f ?g |- context [need_affix k' ?g] => rewrite (s_need H)
  | H : RF ?f ?g |- context [only_in_compound k' ?g] => rewrite (s_only H)
  | H : RF ?f ?g |- context [hidden ?hh ?g] => rewrite (s_hidden hh H)
  | H : RF ?f ?g |- context [contains ?g hidden_homonym_flag] => rewrite (s_hh H)
  | H : RF ?f ?g |- context [is_valid_inside_compound k' ?m ?g] => rewrite (s_inside m H)
  end.
Ltac step :=
  cbv zeta; same_flags;
  match goal with
  | |- ROpt _ (if ?c then None else _) (if ?c then None else _) => destruct c; [exact I|]
  | |- ROpt _ (first_some _ (sfx_of _ ?w)) _ => eapply sim_first; [exact (ag_sfx AG w)|]; intros ? ? ?
  | |- ROpt _ (first_some _ (pfx_of _ ?w)) _ => eapply sim_first; [exact (ag_pfx AG w)|]; intros ? ? ?
  | |- ROpt _ (first_some _ (ck_get _ ?w)) _ => apply sim_entries; intros ? ? ?; try match goal with H : RW _ _ _ |- _ => pose proof (proj1 H) end
  | |- ROpt (fun _ _ => True) (Some _) (Some _) => exact I
  | |- ROpt RForm (Some _) (Some _) => split; [reflexivity|split; [assumption|split; cbn; auto]]
  end.
Lemma s_suffix : forall m w hh, ROpt RForm (strip_suffix_only k m w hh) (strip_suffix_only k' m w hh).
Proof. intros. unfold strip_suffix_only. repeat step. Qed.
Lemma s_prefix : forall m w hh, ROpt RForm (strip_prefix_only k m w hh) (strip_prefix_only k' m w hh).
Proof. intros. unfold strip_prefix_only. repeat step. Qed.
Lemma s_both : forall m w hh, ROpt RForm (strip_prefix_then_suffix_commutative k m w hh) (strip_prefix_then_suffix_commutative k' m w hh).
Proof. intros. unfold strip_prefix_then_suffix_commutative. repeat step. Qed.
Lemma s_ss : forall w hh, ROpt RForm (strip_suffix_then_suffix k w hh) (strip_suffix_then_suffix k' w hh).
Proof. intros. unfold strip_suffix_then_suffix. rewrite (ag_s_some AG). repeat step. Qed.
Lemma s_pp : forall w hh, ROpt RForm (strip_prefix_then_prefix k w hh) (strip_prefix_then_prefix k' w hh).
Proof. intros. unfold strip_prefix_then_prefix. rewrite (ag_p_some AG). repeat step. Qed.
Lemma s_pss : forall w hh, ROpt RForm (strip_prefix_then_2_suffixes k w hh) (strip_prefix_then_2_suffixes k' w hh).
Proof. intros. unfold strip_prefix_then_2_suffixes. rewrite (ag_s_some AG). repeat step. Qed.
Lemma s_sps : forall w hh, ROpt RForm (strip_suffix_then_prefix_then_suffix k w hh) (strip_suffix_then_prefix_then_suffix k' w hh).
Proof. intros. unfold strip_suffix_then_prefix_then_suffix. rewrite (ag_s_some AG), (ag_p_some AG). repeat step. Qed.
Lemma s_spp : forall w hh, ROpt RForm (strip_suffix_then_2_prefixes k w hh) (strip_suffix_then_2_prefixes k' w hh).
Proof. intros. unfold strip_suffix_then_2_prefixes. rewrite (ag_s_some AG). repeat step. Qed.
Lemma s_psp : forall w hh, ROpt RForm (strip_prefix_then_suffix_then_prefix k w hh) (strip_prefix_then_suffix_then_prefix k' w hh).
Proof. intros. unfold strip_prefix_then_suffix_then_prefix. rewrite (ag_s_some AG), (ag_p_some AG). repeat step. Qed.
Lemma s_direct : forall w hh, ROpt RF (check_direct k w hh) (check_direct k' w hh).
Proof. intros. unfold check_direct. repeat step. assumption. Qed.
Lemma s_form_else : forall a b c d, ROpt RForm a b -> ROpt RF c d ->
  ROpt RF (match a with Some x => Some (af_flags x) | None => c end) (match b with Some x => Some (af_flags x) | None => d end).
Proof. intros [x|] [y|] c d H F; try contradiction; [exact (proj1 (proj1 (proj2 H)))|exact F]. Qed.
Lemma s_simple : forall w hh, ROpt RF (check_simple_word k w hh) (check_simple_word k' w hh).
Proof.
  intros. unfold check_simple_word. pose proof (s_direct w hh) as D.
  destruct (check_direct k w hh), (check_direct k' w hh); try contradiction; [exact D|]. clear D.
  rewrite (ag_complex AG).
  apply s_form_else; [apply s_suffix|]. apply s_form_else; [apply s_prefix|]. apply s_form_else; [apply s_both|]. destruct (o_complex_prefixes O).
  - apply s_form_else; [apply s_pp|]. apply s_form_else; [apply s_spp|]. apply s_form_else; [apply s_psp|exact I].
  - apply s_form_else; [apply s_ss|]. apply s_form_else; [apply s_pss|]. apply s_form_else; [apply s_sps|exact I].
Qed.

(** ** Compounds *)
Definition RC (e e' : cresult) : Prop :=
  cr_stem e' = cr_stem e /\ RW (cr_stem e) (cr_flags e) (cr_flags e') /\ cr_words e' = cr_words e /\ cr_syllables e' = cr_syllables e /\ cr_modified e' = cr_modified e.
Lemma s_count : forall w, count_syllables k' w = count_syllables k w.
Proof. intros w. unfold count_syllables. rewrite (ag_vowels AG). reflexivity. Qed.
Lemma s_words_modifier : forall a b, RA a b -> num_words_modifier k' b = num_words_modifier k a.
Proof. intros a b H. unfold num_words_modifier. rewrite (ag_vowels AG), (s_add H), s_count. reflexivity. Qed.
Lemma s_I : forall f g, RF f g -> nonempty (ad_vowels A) = true -> contains g 73 = contains f 73.
Proof. intros f g H V. destruct (ag_I AG V) as [E U]. rewrite <- E at 1. apply RF_has; assumption. Qed.
Lemma s_J : forall f g, RF f g -> nonempty (ad_vowels A) = true -> contains g 74 = contains f 74.
Proof. intros f g H V. destruct (ag_J AG V) as [E U]. rewrite <- E at 1. apply RF_has; assumption. Qed.
Lemma s_syllable : forall m f g, RF f g -> syllable_modifier k' m g = syllable_modifier k m f.
Proof.
  intros m f g H. unfold syllable_modifier. rewrite (ag_vowels AG). destruct (nonempty (ad_vowels A)) eqn:V; [|rewrite !andb_false_r; reflexivity].
  rewrite (s_I H V), (s_J H V). reflexivity.
Qed.
Lemma s_syllable_suffix : forall m f g a b, RF f g -> RA a b -> syllable_modifier_with_suffix k' m g b = syllable_modifier_with_suffix k m f a.
Proof.
  intros m f g a b H HA. unfold syllable_modifier_with_suffix. rewrite (ag_vowels AG), (ag_overflow AG), (s_add HA), s_count, (ag_syllable AG).
  destruct (nonempty (ad_vowels A)) eqn:V; [|rewrite !orb_true_r; reflexivity]. rewrite (s_J H V).
  destruct HA as (U & -> & _). rewrite !(ag_IJc AG V) by auto. reflexivity.
Qed.
Lemma s_mode : forall m, RO (mode_flag k m) (mode_flag k' m).
Proof. intros []; [split; [reflexivity|discriminate]|exact (ag_begin AG)|exact (ag_middle AG)|exact (ag_end AG)]. Qed.
Lemma s_in_compound : forall m w, RRes (ROpt RC) (check_word_in_compound k m w) (check_word_in_compound k' m w).
Proof.
  intros m w. unfold check_word_in_compound.
  match goal with |- RRes _ (match ?a with _ => _ end) (match ?b with _ => _ end) => assert (D : ROpt RC a b) end.
  { apply sim_entries; [intros f g H|intros f g HW; pose proof (proj1 HW) as H]; same_flags; rewrite (s_has H (ag_compound AG)), (s_has H (s_mode m)), (s_syllable m H); repeat step.
    split; [reflexivity|]. split; [exact HW|]. repeat split. }
  match goal with |- RRes _ (match ?a with _ => _ end) (match ?b with _ => _ end) => destruct a, b; try contradiction; [exact D|clear D] end.
  pose proof (s_suffix m w SkipHiddenHomonym) as D.
  destruct (strip_suffix_only k m w SkipHiddenHomonym) as [f|], (strip_suffix_only k' m w SkipHiddenHomonym) as [g|]; try contradiction; [|clear D].
  { destruct D as (D1 & D2 & D3 & D4). destruct D4 as [|a b l l' HA _]; [exact I|].
    rewrite (s_syllable_suffix m (proj1 D2) HA). destruct (syllable_modifier_with_suffix k m (af_flags f) a); try exact I. cbn [bindR].
    split; [exact D1|]. split; [exact D2|]. split; [reflexivity|]. split; [reflexivity|exact (s_modifying HA)]. }
  pose proof (s_prefix m w SkipHiddenHomonym) as D.
  destruct (strip_prefix_only k m w SkipHiddenHomonym) as [f|], (strip_prefix_only k' m w SkipHiddenHomonym) as [g|]; try contradiction; [|clear D].
  { destruct D as (D1 & D2 & D3 & D4). destruct D3 as [|a b l l' HA _]; [exact I|].
    split; [exact D1|]. split; [exact D2|]. split; [exact (s_words_modifier HA)|]. split; [reflexivity|exact (s_modifying HA)]. }
  pose proof (s_both m w SkipHiddenHomonym) as D.
  destruct (strip_prefix_then_suffix_commutative k m w SkipHiddenHomonym) as [f|], (strip_prefix_then_suffix_commutative k' m w SkipHiddenHomonym) as [g|];
    try contradiction; [|exact I].
  destruct D as (D1 & D2 & D3 & D4). destruct D3 as [|a b l l' HA _]; [exact I|]. destruct D4 as [|a2 b2 l2 l2' HA2 _]; [exact I|].
  rewrite (s_syllable_suffix m (proj1 D2) HA2). destruct (syllable_modifier_with_suffix k m (af_flags f) a2); try exact I. cbn [bindR].
  split; [exact D1|]. split; [exact D2|]. split; [exact (s_words_modifier HA)|]. split; [reflexivity|].
  cbn. rewrite (s_modifying HA), (s_modifying HA2). reflexivity.
Qed.

Lemma s_simple_ok : forall w, simple_ok k' w = simple_ok k w.
Proof.
  intros w. unfold simple_ok. pose proof (s_simple w SkipHiddenHomonym) as D.
  destruct (check_simple_word k w SkipHiddenHomonym), (check_simple_word k' w SkipHiddenHomonym); try contradiction; reflexivity.
Qed.
Lemma s_rep_start : forall l w s, rep_start_loop k' l w s = rep_start_loop k l w s.
Proof. induction l as [|[from to] l IH]; intros w s; [reflexivity|]. cbn [rep_start_loop]. rewrite s_simple_ok, !IH. reflexivity. Qed.
Lemma s_rep_end : forall l w s, rep_end_loop k' l w s = rep_end_loop k l w s.
Proof. induction l as [|[from to] l IH]; intros w s; [reflexivity|]. cbn [rep_end_loop]. rewrite s_simple_ok, !IH. reflexivity. Qed.
Lemma s_rep_at : forall l from to s, rep_at_loop k' l from to s = rep_at_loop k l from to s.
Proof. induction l as [|i l IH]; intros from to s; [reflexivity|]. cbn [rep_at_loop]. rewrite s_simple_ok, !IH. reflexivity. Qed.
Lemma s_rep_any : forall l w s, rep_any_loop k' l w s = rep_any_loop k l w s.
Proof. induction l as [|[from to] l IH]; intros w s; [reflexivity|]. cbn [rep_any_loop]. rewrite s_rep_at, !IH. reflexivity. Qed.
Lemma s_similar : forall w, o_check_rep O = true -> is_rep_similar k' w = is_rep_similar k w.
Proof.
  intros w E. unfold is_rep_similar. rewrite (ag_reps AG E), s_rep_start, s_rep_end, s_rep_any.
  replace (existsb (fun e => str_eqb w (fst e) && simple_ok k' (snd e)) (whole_reps (ad_reps A)))
    with (existsb (fun e => str_eqb w (fst e) && simple_ok k (snd e)) (whole_reps (ad_reps A))); [reflexivity|].
  induction (whole_reps (ad_reps A)) as [|e l IH]; [reflexivity|]. cbn [existsb]. rewrite s_simple_ok, IH. reflexivity.
Qed.
Lemma s_rep_check : forall w, rep_check k' w = rep_check k w.
Proof. intros w. unfold rep_check. rewrite (ag_rep AG). destruct (o_check_rep O) eqn:E; [apply s_similar; exact E|reflexivity]. Qed.
Lemma s_rep_part2 : forall w s i e e', RC e e' -> rep_check_part2 k' w s i e' = rep_check_part2 k w s i e.
Proof.
  intros w s i e e' (E1 & _). unfold rep_check_part2. rewrite E1, (ag_rep AG). destruct (o_check_rep O) eqn:E; [rewrite !(fun x => s_similar x E)|]; reflexivity.
Qed.
Lemma s_missing : forall o p f g, RO o p -> RF f g -> flag_missing p g = flag_missing o f.
Proof. intros [x|] p f g [-> U] H; [|reflexivity]. cbn. rewrite (RF_has H (U x eq_refl)). reflexivity. Qed.
Lemma s_pattern : forall p q w i e1 e1' e2 e2', RP p q -> RC e1 e1' -> RC e2 e2' -> pattern_matches q w i e1' e2' = pattern_matches p w i e1 e2.
Proof.
  intros p q w i e1 e1' e2 e2' (P1 & P2 & _ & P4 & P5 & P6) (_ & [F1 _] & _ & _ & M1) (_ & [F2 _] & _). unfold pattern_matches.
  rewrite P1, P2, P4, (s_missing P5 F1), (s_missing P6 F2), M1. reflexivity.
Qed.
Lemma s_patterns : forall w i e1 e1' e2 e2', RC e1 e1' -> RC e2 e2' -> forbidden_by_patterns k' w i e1' e2' = forbidden_by_patterns k w i e1 e2.
Proof.
  intros w i e1 e1' e2 e2' H1 H2. unfold forbidden_by_patterns. induction (ag_patterns AG) as [|p q l m HP _ IH]; [reflexivity|].
  cbn [existsb]. rewrite (s_pattern w i HP H1 H2), IH. reflexivity.
Qed.
Lemma s_min : min_chars k' = min_chars k.
Proof. unfold min_chars. rewrite (ag_min AG). reflexivity. Qed.
Lemma s_add_part : forall n e e', RC e e' -> add_part k' n e' = add_part k n e.
Proof. intros n e e' (_ & [F _] & W & _). unfold add_part. rewrite W, (s_has F (ag_root AG)). reflexivity. Qed.
Lemma s_reaches : forall n, reaches_max k' n = reaches_max k n.
Proof. intros n. unfold reaches_max. rewrite (ag_max AG). reflexivity. Qed.
Lemma s_exceeds : forall n, exceeds_max k' n = exceeds_max k n.
Proof. intros n. unfold exceeds_max. rewrite (ag_max AG). reflexivity. Qed.
Lemma s_dup : forall e1 e1' e2 e2', RC e1 e1' -> RC e2 e2' -> o_check_duplicate O' && cr_eqb e1' e2' = o_check_duplicate O && cr_eqb e1 e2.
Proof.
  intros e1 e1' e2 e2' (S1 & F1 & W1 & Y1 & M1) (S2 & F2 & W2 & Y2 & M2). rewrite (ag_dup AG). destruct (o_check_duplicate O) eqn:E; [|reflexivity].
  unfold cr_eqb. rewrite S1, S2, W1, W2, Y1, Y2, M1, M2. destruct (str_eqb (cr_stem e1) (cr_stem e2)) eqn:ES; [|reflexivity].
  apply str_eqb_eq in ES. rewrite ES in F1. pose proof (RW_same F1 F2) as Q.
  destruct (str_eqb (cr_flags e1) (cr_flags e2)) eqn:E1, (str_eqb (cr_flags e1') (cr_flags e2')) eqn:E2; try reflexivity; exfalso.
  - apply str_eqb_eq in E1. apply Q in E1. rewrite E1, str_eqb_refl in E2. discriminate E2.
  - apply str_eqb_eq in E2. apply Q in E2. rewrite E2, str_eqb_refl in E1. discriminate E1.
Qed.

Section Step.
Variables rec rec' : str -> nat -> nat -> forceucase -> Res (option cresult).
Hypothesis REC : forall w i n fu, RRes (ROpt RC) (rec w i n fu) (rec' w i n fu).

Lemma s_second : forall w rw i fu e1 e1' e2 e2', RC e1 e1' -> RC e2 e2' -> second_rejected k' w rw i fu e1' e2' = second_rejected k w rw i fu e1 e2.
Proof.
  intros w rw i fu e1 e1' e2 e2' H1 H2. unfold second_rejected. rewrite (s_patterns w i H1 H2), (s_dup H1 H2), s_rep_check.
  destruct H2 as (_ & [F _] & _). rewrite (s_forbidden F), (s_has F (ag_force AG)). reflexivity.
Qed.
Ltac res :=
  match goal with
  | |- RRes _ (bindR (rec ?w ?i ?n ?fu) _) _ => eapply sim_bind; [exact (REC w i n fu)|]; intros [?|] [?|] ?; try contradiction
  | |- RRes _ (bindR (check_word_in_compound k ?m ?w) _) _ => eapply sim_bind; [exact (s_in_compound m w)|]; intros [?|] [?|] ?; try contradiction
  | |- RRes _ (if ?c then _ else _) (if ?c then _ else _) => destruct c
  | |- RRes _ (Ret _) (Ret _) => cbn; try exact I; try reflexivity; try assumption
  end.
Lemma s_triple_rec : forall t w s i n fu e e', RC e e' -> RRes (ROpt RC) (triple_recursive k rec t w s i n fu e) (triple_recursive k' rec' t w s i n fu e').
Proof.
  intros t w s i n fu e e' H. unfold triple_recursive. res; [|exact I].
  rewrite (@s_patterns t i _ _ _ _ H H0), s_rep_check, (s_rep_part2 w s i H0). repeat res.
Qed.
Lemma s_triple : forall w s i n fu e e', RC e e' -> RRes (ROpt RC) (try_simplified_triple k rec w s i n fu e) (try_simplified_triple k' rec' w s i n fu e').
Proof.
  intros w s i n fu e e' H. unfold try_simplified_triple. rewrite (ag_simplified AG). res; [exact I|].
  destruct (prev_codepoint w i) as [[pi pc]|]; [|exact I]. res; [exact I|]. destruct (prev_codepoint w pi) as [[pi2 pc2]|]; [|exact I]. res; [exact I|].
  cbv zeta. res; [|apply s_triple_rec; exact H].
  rewrite (s_second _ _ _ _ H H0), s_exceeds. res; [apply s_triple_rec; exact H|]. repeat res.
Qed.
Lemma s_recursive : forall w s i n fu e e', RC e e' -> RRes (ROpt RC) (try_recursive k rec w s i n fu e) (try_recursive k' rec' w s i n fu e').
Proof.
  intros w s i n fu e e' H. unfold try_recursive. res; [|apply s_triple; exact H].
  rewrite (@s_patterns w i _ _ _ _ H H0), s_rep_check, (s_rep_part2 w s i H0).
  res; [apply s_triple; exact H|]. res; [apply s_triple; exact H|]. res.
Qed.
Lemma s_classic : forall m w s i n fu, RRes (ROpt RC) (compound_classic k rec m w s i n fu) (compound_classic k' rec' m w s i n fu).
Proof.
  intros m w s i n fu. unfold compound_classic. res; [|exact I]. rewrite (s_forbidden (proj1 (proj1 (proj2 H)))). res; [exact I|].
  rewrite (ag_triple AG), (ag_case AG), (ag_u AG). res; [exact I|]. res; [exact I|]. cbv zeta. rewrite (s_add_part n H).
  res; [|apply s_recursive; exact H]. rewrite (s_second _ _ _ _ H H0). res; [apply s_recursive; exact H|].
  rewrite (s_add_part _ H0), s_reaches, (ag_vowels AG), (ag_overflow AG), s_count, (ag_syllable_max AG).
  destruct H0 as (_ & _ & _ & -> & _). res; [|exact H]. res; [exact I|].
  destruct (usize_add_i16 _ _ _) as [ns| |]; try exact I. cbn [bindR]. res; [apply s_recursive; exact H|exact H].
Qed.
Definition RS (a b : option cresult + unit) : Prop :=
  match a, b with inl x, inl y => ROpt RC x y | inr _, inr _ => True | _, _ => False end.
Lemma s_plain : forall p q w sc s j n fu e e' c c', RP p q -> RC e e' -> RRes RS (c tt) (c' tt) ->
  RRes RS (pattern_plain k p w sc s j n fu e c) (pattern_plain k' q w sc s j n fu e' c').
Proof.
  intros p q w sc s j n fu e e' c c' HP H HC. unfold pattern_plain. res; [|exact HC].
  destruct HP as (_ & _ & _ & _ & _ & P6). rewrite (s_forbidden (proj1 (proj1 (proj2 H0)))), (s_missing P6 (proj1 (proj1 (proj2 H0)))), (s_dup H H0), s_rep_check,
    (s_has (proj1 (proj1 (proj2 H0))) (ag_force AG)), s_reaches. res; [exact HC|]. res; [exact I|exact H].
Qed.
Lemma s_pattern_step : forall m w s i n fu p q, RP p q -> RRes RS (pattern_step k rec m w s i n fu p) (pattern_step k' rec' m w s i n fu q).
Proof.
  intros m w s i n fu p q HP. pose proof HP as (P1 & P2 & P3 & P4 & P5 & P6). unfold pattern_step. rewrite P3.
  destruct (cp_replacement p) as [r|]; [|exact I]. res; [exact I|]. cbv zeta. rewrite P1, P2.
  set (sc := firstn i w ++ _). set (j := i + _). res; [|exact I].
  rewrite (s_forbidden (proj1 (proj1 (proj2 H)))), (s_missing P5 (proj1 (proj1 (proj2 H)))), (ag_triple AG). res; [exact I|]. res; [exact I|]. res; [exact I|].
  apply s_plain; [exact HP|exact H|]. eapply sim_bind; [exact (REC sc j (n + 1) fu)|]. intros r1 r1' HR.
  match goal with |- RRes _ (if ?a then _ else _) (if ?b then _ else _) => assert (E : b = a) end.
  { destruct r1, r1'; try contradiction; [|reflexivity]. rewrite (s_missing P6 (proj1 (proj1 (proj2 HR)))), s_rep_check, (s_rep_part2 sc s j HR). reflexivity. }
  rewrite E. res; [exact H|]. rewrite (ag_simplified AG). res; [exact I|].
  destruct (prev_codepoint sc j) as [[pi pc]|]; [|exact I]. res; [exact I|]. destruct (prev_codepoint sc pi) as [[pi2 pc2]|]; [|exact I]. res; [exact I|].
  apply s_plain; [exact HP|exact H|]. res; [|exact I].
  rewrite (s_missing P6 (proj1 (proj1 (proj2 H0)))), s_rep_check, (proj1 H0), (ag_rep AG). res; [exact I|]. res; [exact I|].
  destruct (o_check_rep O) eqn:ER; cbn [andb]; [rewrite (s_similar _ ER)|]; res; try exact I; exact H.
Qed.
Lemma s_pattern_loop : forall m w s i n fu l l', Forall2 RP l l' -> RRes (ROpt RC) (pattern_loop k rec m w s i n fu l) (pattern_loop k' rec' m w s i n fu l').
Proof.
  intros m w s i n fu l l' H. induction H as [|p q l l' HP _ IH]; [exact I|]. cbn [pattern_loop].
  eapply sim_bind; [exact (@s_pattern_step m w s i n fu p q HP)|]. intros [x|x] [y|y] HS; try contradiction; [exact HS|exact IH].
Qed.
Lemma s_impl : forall m w s n fu, RRes (ROpt RC) (compound_impl k rec m w s n fu) (compound_impl k' rec' m w s n fu).
Proof.
  intros m w s n fu. unfold compound_impl. rewrite s_min. apply sim_firstR. intros i. apply sim_orelse; [apply s_classic|].
  apply s_pattern_loop. exact (ag_patterns AG).
Qed.
End Step.

Lemma s_middle : forall fuel w s n fu, RRes (ROpt RC) (compound_middle k fuel w s n fu) (compound_middle k' fuel w s n fu).
Proof. induction fuel as [|fuel IH]; intros w s n fu; [exact I|]. cbn [compound_middle]. apply s_impl. exact IH. Qed.
Lemma find_first : forall X (p : X -> bool) l, find p l = first_some (fun x => if p x then Some x else None) l.
Proof. intros X p l. induction l as [|x l IH]; [reflexivity|]. cbn [find first_some]. destruct (p x); [reflexivity|exact IH]. Qed.
Lemma s_rule_part : forall w, ROpt (RW w) (rule_part k w) (rule_part k' w).
Proof.
  intros w. unfold rule_part. rewrite !find_first. apply sim_entries; [intros f g H|intros f g HW; pose proof (proj1 HW) as H];
    rewrite (s_need H), (ag_any AG H); destruct (_ && _); try exact I. exact HW.
Qed.
Lemma s_rules : forall fuel w d d' s fu, Forall2 RF d d' -> RRes (ROpt RC) (rules_impl k fuel w d s fu) (rules_impl k' fuel w d' s fu).
Proof.
  induction fuel as [|fuel IH]; intros w d d' s fu HD; [exact I|]. cbn [rules_impl]. rewrite s_min. apply sim_firstR. intros i.
  pose proof (s_rule_part (slice w s i)) as D1. destruct (rule_part k (slice w s i)) as [f1|], (rule_part k' (slice w s i)) as [g1|]; try contradiction; [|exact I].
  cbn in D1. cbv zeta. assert (HD1 : Forall2 RF (d ++ [f1]) (d' ++ [g1])) by (apply Forall2_app; [exact HD|constructor; [exact (proj1 D1)|constructor]]).
  pose proof (s_rule_part (skipn i w)) as D2. 
  match goal with |- RRes _ (bindR ?a _) (bindR ?b _) => assert (E : b = a) end.
  { destruct (rule_part k (skipn i w)) as [f2|], (rule_part k' (skipn i w)) as [g2|]; try contradiction; [|reflexivity]. cbn in D2.
    rewrite (ag_rules AG (l := (d ++ [f1]) ++ [f2])) by (apply Forall2_app; [exact HD1|constructor; [exact (proj1 D2)|constructor]]).
    rewrite (s_has (proj1 D2) (ag_force AG)). reflexivity. }
  rewrite E. match goal with |- RRes _ (bindR ?a _) _ => destruct a as [b| |]; try exact I end. cbn [bindR]. destruct b; [|apply IH; exact HD1].
  split; [reflexivity|]. split; [exact D1|]. repeat split.
Qed.
Lemma s_allows : allows_compounding O' = allows_compounding O.
Proof.
  unfold allows_compounding. destruct (ag_compound AG) as [-> _], (ag_begin AG) as [-> _], (ag_middle AG) as [-> _], (ag_end AG) as [-> _].
  destruct (o_compound O), (o_compound_begin O), (o_compound_middle O), (o_compound_end O); reflexivity.
Qed.
Lemma s_compound : forall fuel m w fu, RRes (ROpt RC) (check_compound k fuel m w fu) (check_compound k' fuel m w fu).
Proof.
  intros fuel m w fu. unfold check_compound. rewrite s_allows, (ag_rules_some AG). apply sim_orelse.
  - destruct (allows_compounding O); [|exact I]. apply s_impl. intros. apply s_middle.
  - destruct (nonempty _); [|exact I]. apply s_rules. constructor.
Qed.
Lemma s_word : forall fuel w fu hh, RRes (ROpt RF) (check_word k fuel w fu hh) (check_word k' fuel w fu hh).
Proof.
  intros fuel w fu hh. unfold check_word. pose proof (s_simple w hh) as D.
  destruct (check_simple_word k w hh), (check_simple_word k' w hh); try contradiction; [exact D|].
  eapply sim_bind; [exact (s_compound fuel AT_BEGIN w fu)|]. intros [x|] [y|] H; try contradiction; [exact (proj1 (proj1 (proj2 H)))|exact I].
Qed.

(** ** Casing and break patterns *)
Lemma s_do_sharps : forall fuel n pre rest r, RRes (ROpt RF) (do_spell_sharps k fuel n pre rest r) (do_spell_sharps k' fuel n pre rest r).
Proof.
  intros fuel. induction n as [|n IH]; intros pre rest r; cbn [do_spell_sharps].
  - destruct (0 <? r)%nat; [apply s_word|exact I].
  - destruct (find_sub ss rest); [|destruct (0 <? r)%nat; [apply s_word|exact I]]. apply sim_orelse; apply IH.
Qed.
Lemma s_drop : forall a b, ROpt RF a b -> ROpt RF (drop_keep_case k a) (drop_keep_case k' b).
Proof. intros [f|] [g|] H; try contradiction; [|exact I]. cbn [drop_keep_case]. rewrite (s_keep H). destruct (keep_case k f); [exact I|exact H]. Qed.
Lemma s_drop_word : forall fuel w fu hh, RRes (ROpt RF) (r <- check_word k fuel w fu hh ;; Ret (drop_keep_case k r)) (r <- check_word k' fuel w fu hh ;; Ret (drop_keep_case k' r)).
Proof. intros. eapply sim_bind; [exact (s_word fuel w fu hh)|]. intros x y H. exact (s_drop _ _ H). Qed.
Lemma sim_same : forall X A B (S : A -> B -> Prop) (r : Res X) f g, (forall x, RRes S (f x) (g x)) -> RRes S (bindR r f) (bindR r g).
Proof. intros X A0 B S [x| |] f g H; try exact I. exact (H x). Qed.
Lemma s_upper : forall fuel w, RRes (ROpt RF) (spell_casing_upper k fuel w) (spell_casing_upper k' fuel w).
Proof.
  intros fuel w. unfold spell_casing_upper. rewrite (ag_u AG), (ag_casing AG), (ag_sharps AG).
  apply sim_orelse; [apply s_word|]. apply sim_orelse.
  { destruct (apostrophe_split w) as [[p1 p2]|]; [|exact I]. apply sim_same. intros t2. apply sim_orelse; [apply s_word|]. apply sim_same. intros t1. apply s_word. }
  apply sim_orelse.
  { destruct (_ && _); [|exact I]. apply sim_orelse; [apply s_do_sharps|]. apply sim_same. intros t. apply s_do_sharps. }
  apply sim_orelse; [apply sim_same; intros t; apply s_drop_word|apply s_drop_word].
Qed.
Lemma s_title : forall fuel w, RRes (ROpt RF) (spell_casing_title k fuel w) (spell_casing_title k' fuel w).
Proof.
  intros fuel w. unfold spell_casing_title. rewrite (ag_u AG), (ag_casing AG), (ag_sharps AG). apply sim_orelse; [apply s_word|]. cbv zeta.
  eapply sim_bind; [exact (s_word fuel (lowercase (ck_u k) (o_case O) w) AllowBadForceucase AcceptHiddenHomonym)|].
  intros [f|] [g|] H; try contradiction; [|exact I]. rewrite (s_keep H). destruct (_ && _); [exact I|exact H].
Qed.
Lemma s_casing : forall fuel w, RRes (ROpt RF) (spell_casing k fuel w) (spell_casing k' fuel w).
Proof.
  intros fuel w. unfold spell_casing. rewrite (ag_u AG), (ag_casing AG), (ag_title AG), (ag_upper AG). cbv zeta.
  assert (M : forall b : bool, RRes (ROpt RF)
    (check_word k fuel w ForbidBadForceucase AcceptHiddenHomonym ORELSE
     (if b then t <- titlecase (ck_u k) (o_case O) w ;; spell_casing_title k fuel t else Ret None) ORELSE
     (if ck_lower_as_upper k then spell_casing_upper k fuel (uppercase (ck_u k) (o_case O) w) else Ret None))
    (check_word k' fuel w ForbidBadForceucase AcceptHiddenHomonym ORELSE
     (if b then t <- titlecase (ck_u k) (o_case O) w ;; spell_casing_title k' fuel t else Ret None) ORELSE
     (if ck_lower_as_upper k then spell_casing_upper k' fuel (uppercase (ck_u k) (o_case O) w) else Ret None))).
  { intros b. apply sim_orelse; [apply s_word|]. apply sim_orelse; [destruct b; [apply sim_same; intros t; apply s_title|exact I]|].
    destruct (ck_lower_as_upper k); [apply s_upper|exact I]. }
  destruct (classify_casing (ck_u k) w); [apply M|apply s_title|apply s_upper|apply M|apply M].
Qed.
Lemma s_accepted : forall f g, RF f g -> accepted_flags k' g = accepted_flags k f.
Proof.
  intros f g H. unfold accepted_flags. rewrite (s_forbidden H), (ag_forbid_warn AG). destruct (o_forbid_warn O) eqn:E; [|reflexivity].
  rewrite (s_has H (ag_warn AG E)). reflexivity.
Qed.
Lemma s_break : forall fuel n w, do_spell_break k' fuel n w = do_spell_break k fuel n w.
Proof.
  intros fuel. induction n as [|n IH]; intros w; cbn [do_spell_break]; pose proof (s_casing fuel w) as D;
    destruct (spell_casing k fuel w) as [[f|]| |], (spell_casing k' fuel w) as [[g|]| |]; try contradiction; try reflexivity; cbn [bindR].
  - rewrite (s_accepted D). reflexivity.
  - rewrite (s_accepted D). reflexivity.
  - rewrite (ag_breaks AG).
    rewrite (sim_anyR (fun pattern => match strip_prefix pattern w with Some rest => do_spell_break k fuel n rest | None => Ret false end)
      (fun pattern => match strip_prefix pattern w with Some rest => do_spell_break k' fuel n rest | None => Ret false end))
      by (intros p; destruct (strip_prefix p w); [apply IH|reflexivity]).
    match goal with |- bindR ?a _ = _ => destruct a as [[]| |]; try reflexivity end. cbn [bindR].
    rewrite (sim_anyR (fun pattern => match strip_suffix pattern w with Some rest => do_spell_break k fuel n rest | None => Ret false end)
      (fun pattern => match strip_suffix pattern w with Some rest => do_spell_break k' fuel n rest | None => Ret false end))
      by (intros p; destruct (strip_suffix p w); [apply IH|reflexivity]).
    match goal with |- bindR ?a _ = _ => destruct a as [[]| |]; try reflexivity end. cbn [bindR].
    apply sim_anyR. intros p. destruct (split_once p w) as [[p1 p2]|]; [|reflexivity]. rewrite !IH. reflexivity.
Qed.
Theorem agree_check : forall fuel w, check k' fuel w = check k fuel w.
Proof.
  intros fuel w. unfold check, spell_break. rewrite (ag_iconv AG), (ag_ignore AG). destruct (_ <? _)%N; [reflexivity|].
  destruct (convert (ad_iconv A) w) as [[|c w']| |]; try reflexivity. cbn [bindR]. rewrite !s_break. reflexivity.
Qed.
End Sim.
