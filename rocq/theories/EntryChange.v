(** What one more entry, or one more flag on the entries of a stem, changes for words without
    compounding. *)
From Coq Require Import List NArith ZArith Lia Bool Arith Permutation FunctionalExtensionality.
From Verif Require Import Base Utf8 Unicode Flags Condition Affix AffixSpec CompoundRule Rep Conversion Aff Checker CompoundSpec CompoundTotal RuleCompound Spell CheckSpec CheckMono CheckProps PlainAdd.
Import ListNotations.
Set Implicit Arguments.

(** ** Affixes found are rules of the table *)
Lemma slice_incl : forall A (l : list A) a b t, slice_checked l a b = Ret t -> incl t l.
Proof.
  intros A l a b t H x Hx. unfold slice_checked in H. destruct (_ && _); [|discriminate]. injection H as <-.
  rewrite <- (firstn_skipn a l). apply in_or_app. right.
  rewrite <- (firstn_skipn (b - a) (skipn a l)). apply in_or_app. left. exact Hx.
Qed.
Lemma next_loop_incl : forall fuel kd w st item st', next_loop fuel kd w st = Ret (Some (item, st')) ->
  In item (fst st) /\ incl (fst st') (fst st).
Proof.
  induction fuel as [|fuel IH]; intros kd w [l n] item st' H; cbn [next_loop fst snd] in *; destruct l as [|i l]; try discriminate;
    (destruct (_ =? _)%nat; [injection H as <- <-; split; [left; reflexivity|intros x Hx; right; exact Hx]|]);
    (destruct (nth_byte kd w n); [|discriminate]); (destruct (_ =? _)%nat; [discriminate|]); [discriminate|].
  destruct (slice_checked _ _ _) as [t| |] eqn:E; [|discriminate|discriminate]. cbn [bindR] in H. apply IH in H. cbn [fst] in H.
  destruct H as [H1 H2]. apply slice_incl in E. split; [exact (E _ H1)|]. intros x Hx. exact (E _ (H2 _ Hx)).
Qed.
Lemma iter_next_incl : forall kd idx w st item st', iter_next kd idx w st = Ret (Some (item, st')) ->
  In item (fst st) /\ incl (fst st') (fst st).
Proof.
  intros kd idx w [l n] item st' H. unfold iter_next in H. cbn [fst snd] in *. destruct (n =? 0)%nat; [|exact (next_loop_incl _ _ _ _ H)].
  destruct l as [|i l]; [discriminate|]. destruct (a_add i); [injection H as <- <-; split; [left; reflexivity|intros x Hx; right; exact Hx]|].
  destruct (nth_byte kd w 0); [|discriminate]. destruct (position_eq _ _) as [j|]; [|discriminate].
  destruct (nth_error _ 0); [|discriminate]. destruct (nth_error _ j); [|discriminate]. destruct (nth_error _ (j + 1)); [|discriminate].
  destruct (_ && _); [|discriminate]. destruct (slice_checked _ _ _) as [t| |] eqn:E; [|discriminate|discriminate]. cbn [bindR] in H.
  apply next_loop_incl in H. cbn [fst] in H. destruct H as [H1 H2]. apply slice_incl in E. split; [exact (E _ H1)|]. intros x Hx. exact (E _ (H2 _ Hx)).
Qed.
Lemma affixes_of_incl : forall kd idx w l, affixes_of kd idx w = Ret l -> incl l (i_table idx).
Proof.
  intros kd idx w. unfold affixes_of, affixes_of_bytes. change (i_table idx) with (fst (i_table idx, 0)) at 3.
  generalize (S (length (i_table idx))), (i_table idx, 0). induction n as [|n IH]; intros st l H; [discriminate|].
  cbn [iter_collect] in H. destruct (iter_next kd idx (enc w) st) as [[[item st']|]| |] eqn:E; try discriminate; cbn [bindR] in H.
  - destruct (iter_collect n kd idx (enc w) st') as [l'| |] eqn:E2; try discriminate. injection H as <-. apply iter_next_incl in E.
    intros x [<-|Hx]; [exact (proj1 E)|]. apply (proj2 E). exact (IH _ _ E2 _ Hx).
  - injection H as <-. intros x [].
Qed.

(** ** One more entry *)
Section Insert.
Variable k : checker.
Variable get : str -> list flagset.
Variable f : flagset.
Notation k' := (with_entries k get).
Definition Inserted (v : str) : Prop := get v = ck_get k v \/ exists a b, ck_get k v = a ++ b /\ get v = a ++ f :: b.
Hypothesis INS : forall v, Inserted v.

(** The same answer, or one that is due to the new entry. *)
Definition Grown {X} (p : X -> flagset) (a b : option X) : Prop := b = a \/ exists r, b = Some r /\ p r = f.
Lemma grown_refl : forall X (p : X -> flagset) a, Grown p a a.
Proof. left. reflexivity. Qed.
Lemma grown_first : forall X Y (p : Y -> flagset) (g h : X -> option Y) l, (forall x, In x l -> Grown p (g x) (h x)) -> Grown p (first_some g l) (first_some h l).
Proof.
  intros X Y p g h l H. induction l as [|x l IH]; [apply grown_refl|]. cbn [first_some]. destruct (H x (or_introl eq_refl)) as [-> |(r & -> & E)].
  - destruct (g x); [apply grown_refl|]. apply IH. intros y Hy. apply H. right. exact Hy.
  - right. eauto.
Qed.
Lemma grown_words : forall Y (p : Y -> flagset) (g : flagset -> option Y) v, (forall r, g f = Some r -> p r = f) ->
  Grown p (first_some g (ck_get k v)) (first_some g (get v)).
Proof.
  intros Y p g v H. destruct (INS v) as [-> |(a & b & -> & ->)]; [apply grown_refl|]. rewrite !first_some_app. cbn [first_some].
  destruct (first_some g a); [apply grown_refl|]. destruct (g f) as [r|] eqn:E; [|apply grown_refl]. right. eauto.
Qed.
Lemma grown_else : forall X (p : X -> flagset) a b c d, Grown p a b -> Grown p c d ->
  Grown p (match a with Some x => Some x | None => c end) (match b with Some x => Some x | None => d end).
Proof. intros X p a b c d [-> |(r & -> & E)] H; [destruct a; [apply grown_refl|exact H]|right; eauto]. Qed.
Lemma grown_flags : forall (a b : option affix_form) c d, Grown af_flags a b -> Grown (fun x => x) c d ->
  Grown (fun x => x) (match a with Some x => Some (af_flags x) | None => c end) (match b with Some x => Some (af_flags x) | None => d end).
Proof. intros a b c d [-> |(r & -> & E)] H; [destruct a; [apply grown_refl|exact H]|right; eauto]. Qed.

Ltac grow := repeat
  match goal with
  | |- Grown _ (first_some ?f0 (ck_get k ?s)) (first_some ?g (ck_get k' ?s)) =>
      change (Grown af_flags (first_some f0 (ck_get k s)) (first_some f0 (get s))); apply grown_words; cbv zeta; intros ? ?;
      repeat match goal with H : (if ?c then None else _) = Some _ |- _ => destruct c; [discriminate H|] end;
      match goal with H : Some _ = Some _ |- _ => injection H as <-; reflexivity end
  | |- Grown _ (if ?d then _ else _) (if ?c then _ else _) => change c with d; destruct d; [apply grown_refl|]
  | |- Grown _ (first_some ?f0 ?l) (first_some ?g ?m) => change m with l; apply grown_first; intros ? _; cbv zeta
  end.
Lemma grown_suffix : forall m w hh, Grown af_flags (strip_suffix_only k m w hh) (strip_suffix_only k' m w hh).
Proof. intros. unfold strip_suffix_only. grow. Qed.
Lemma grown_prefix : forall m w hh, Grown af_flags (strip_prefix_only k m w hh) (strip_prefix_only k' m w hh).
Proof. intros. unfold strip_prefix_only. grow. Qed.
Lemma grown_both : forall m w hh, Grown af_flags (strip_prefix_then_suffix_commutative k m w hh) (strip_prefix_then_suffix_commutative k' m w hh).
Proof. intros. unfold strip_prefix_then_suffix_commutative. grow. Qed.
Lemma grown_ss : forall w hh, Grown af_flags (strip_suffix_then_suffix k w hh) (strip_suffix_then_suffix k' w hh).
Proof. intros. unfold strip_suffix_then_suffix. grow. Qed.
Lemma grown_pp : forall w hh, Grown af_flags (strip_prefix_then_prefix k w hh) (strip_prefix_then_prefix k' w hh).
Proof. intros. unfold strip_prefix_then_prefix. grow. Qed.
Lemma grown_pss : forall w hh, Grown af_flags (strip_prefix_then_2_suffixes k w hh) (strip_prefix_then_2_suffixes k' w hh).
Proof. intros. unfold strip_prefix_then_2_suffixes. grow. Qed.
Lemma grown_sps : forall w hh, Grown af_flags (strip_suffix_then_prefix_then_suffix k w hh) (strip_suffix_then_prefix_then_suffix k' w hh).
Proof. intros. unfold strip_suffix_then_prefix_then_suffix. grow. Qed.
Lemma grown_spp : forall w hh, Grown af_flags (strip_suffix_then_2_prefixes k w hh) (strip_suffix_then_2_prefixes k' w hh).
Proof. intros. unfold strip_suffix_then_2_prefixes. grow. Qed.
Lemma grown_psp : forall w hh, Grown af_flags (strip_prefix_then_suffix_then_prefix k w hh) (strip_prefix_then_suffix_then_prefix k' w hh).
Proof. intros. unfold strip_prefix_then_suffix_then_prefix. grow. Qed.
Lemma grown_direct : forall w hh, Grown (fun x => x) (check_direct k w hh) (check_direct k' w hh).
Proof.
  intros. unfold check_direct. match goal with |- Grown _ (first_some ?g _) _ => change (Grown (fun x => x) (first_some g (ck_get k w)) (first_some g (get w))) end.
  apply grown_words. intros r H. repeat match type of H with (if ?c then None else _) = Some _ => destruct c; [discriminate H|] end. congruence.
Qed.
Lemma grown_simple : forall w hh, Grown (fun x => x) (check_simple_word k w hh) (check_simple_word k' w hh).
Proof.
  intros. unfold check_simple_word. apply grown_else; [apply grown_direct|]. apply grown_flags; [apply grown_suffix|].
  apply grown_flags; [apply grown_prefix|]. apply grown_flags; [apply grown_both|].
  change (o_complex_prefixes (ad_options (ck_aff k'))) with (o_complex_prefixes (ad_options (ck_aff k))). destruct (o_complex_prefixes _).
  - apply grown_flags; [apply grown_pp|]. apply grown_flags; [apply grown_spp|]. apply grown_flags; [apply grown_psp|]. apply grown_refl.
  - apply grown_flags; [apply grown_ss|]. apply grown_flags; [apply grown_pss|]. apply grown_flags; [apply grown_sps|]. apply grown_refl.
Qed.
Hypothesis NOCOMP : allows_compounding (ad_options (ck_aff k)) = false /\ rt_rules (ad_rules (ck_aff k)) = [].
Lemma grown_word : forall fuel w fu hh, check_word k' fuel w fu hh = check_word k fuel w fu hh \/ check_word k' fuel w fu hh = Ret (Some f).
Proof.
  intros. rewrite (@nocomp_word k' (proj1 NOCOMP) (proj2 NOCOMP)), (@nocomp_word k (proj1 NOCOMP) (proj2 NOCOMP)).
  destruct (grown_simple w hh) as [-> |(r & -> & ->)]; auto.
Qed.
End Insert.

(** ** One more flag on the entries of a stem *)
Section Forbid.
Variable k : checker.
Variable get : str -> list flagset.
Variable stem : str.
Variable fb : flag.
Notation k' := (with_entries k get).
(** Only the entries of the stem. *)
Notation kr := (with_entries k (fun v => if str_eqb v stem then ck_get k v else [])).
(** [f'] is [f] and [fb]. *)
Definition Plus (f f' : flagset) : Prop := wf_flagset f /\ wf_flagset f' /\ forall g, In g f' <-> g = fb \/ In g f.
Hypothesis OTHERS : forall v, v <> stem -> get v = ck_get k v.
Hypothesis ONES : Forall2 Plus (ck_get k stem) (get stem).
(** The flag is for nothing else. *)
Hypothesis FRESH : forall w a, In a (pfx_of k w) \/ In a (sfx_of k w) -> a_flag a <> fb.
Hypothesis FRESH1 : o_only_in_compound (ad_options (ck_aff k)) <> Some fb.
Hypothesis FRESH2 : o_need_affix (ad_options (ck_aff k)) <> Some fb.
Hypothesis FRESH3 : hidden_homonym_flag <> fb.
Hypothesis FRESH4 : o_keep_case (ad_options (ck_aff k)) <> Some fb.

Lemma plus_contains : forall f f' x, Plus f f' -> x <> fb -> contains f' x = contains f x.
Proof.
  intros f f' x (W & W' & H) N. apply eq_true_iff_eq. rewrite (@contains_spec f' x W'), (@contains_spec f x W), H. split; [intros [X|X]; [contradiction|exact X]|auto].
Qed.
Lemma plus_has : forall f f' o, Plus f f' -> o <> Some fb -> has_flag f' o = has_flag f o.
Proof. intros f f' [x|] P N; [|reflexivity]. apply (plus_contains P). congruence. Qed.
Lemma plus_hidden : forall f f' hh, Plus f f' -> hidden hh f' = hidden hh f.
Proof. intros f f' hh P. unfold hidden. rewrite (plus_contains P FRESH3). reflexivity. Qed.
Lemma plus_only : forall f f', Plus f f' -> only_in_compound k f' = only_in_compound k f.
Proof. intros f f' P. apply (plus_has P FRESH1). Qed.
Lemma plus_need : forall f f', Plus f f' -> need_affix k f' = need_affix k f.
Proof. intros f f' P. apply (plus_has P FRESH2). Qed.
Lemma plus_keep : forall f f', Plus f f' -> keep_case k f' = keep_case k f.
Proof. intros f f' P. apply (plus_has P FRESH4). Qed.

(** The same answer, or one that is due to the stem, with one flag more. *)
Definition Marked {X} (p : X -> flagset) (a b c : option X) : Prop :=
  b = a \/ exists r r', a = Some r /\ b = Some r' /\ Plus (p r) (p r') /\ c <> None.
Lemma marked_refl : forall X (p : X -> flagset) a c, Marked p a a c.
Proof. left. reflexivity. Qed.
Lemma first_some_not : forall X Y (g : X -> option Y) l x, In x l -> g x <> None -> first_some g l <> None.
Proof. intros X Y g l x I N H. rewrite first_some_none in H. exact (N (H x I)). Qed.
Lemma marked_first : forall X Y (p : Y -> flagset) (g h c : X -> option Y) l, (forall x, In x l -> Marked p (g x) (h x) (c x)) ->
  Marked p (first_some g l) (first_some h l) (first_some c l).
Proof.
  intros X Y p g h c l H. induction l as [|x l IH]; [apply marked_refl|]. cbn [first_some].
  destruct (H x (or_introl eq_refl)) as [-> |(r & r' & -> & -> & P & N)].
  - destruct (g x); [apply marked_refl|]. destruct IH as [-> |(r & r' & E1 & E2 & P & N)]; [intros y Hy; apply H; right; exact Hy|apply marked_refl|].
    right. exists r, r'. rewrite E1, E2. repeat split; try apply P. destruct (c x); [discriminate|exact N].
  - right. exists r, r'. repeat split; try apply P. destruct (c x); [discriminate|contradiction N; reflexivity].
Qed.
Lemma marked_words : forall Y (p : Y -> flagset) (g : flagset -> option Y) v,
  (forall f f', Plus f f' -> g f = None <-> g f' = None) -> (forall f r, g f = Some r -> p r = f) ->
  Marked p (first_some g (ck_get k v)) (first_some g (get v)) (first_some g (ck_get kr v)).
Proof.
  intros Y p g v H1 H2. cbn [ck_get with_entries]. destruct (str_eqb v stem) eqn:E.
  - apply str_eqb_eq in E. subst v. induction ONES as [|f f' l l' P F IH]; [apply marked_refl|]. cbn [first_some].
    destruct (g f) as [r|] eqn:G, (g f') as [r'|] eqn:G'.
    + right. exists r, r'. rewrite (H2 _ _ G), (H2 _ _ G'). repeat split; try apply P. discriminate.
    + apply (H1 f f' P) in G'. congruence.
    + apply (H1 f f' P) in G. congruence.
    + exact (IH F).
  - rewrite OTHERS; [apply marked_refl|]. intros ->. rewrite str_eqb_refl in E. discriminate.
Qed.
Lemma marked_else : forall X (p : X -> flagset) a b c d e f, Marked p a b c -> Marked p d e f ->
  Marked p (match a with Some x => Some x | None => d end) (match b with Some x => Some x | None => e end) (match c with Some x => Some x | None => f end).
Proof.
  intros X p a b c d e f [-> |(r & r' & -> & -> & P & N)] H.
  - destruct a; [apply marked_refl|]. destruct H as [-> |(r & r' & E1 & E2 & P & N)]; [apply marked_refl|]. right. exists r, r'.
    repeat split; try assumption; try apply P. destruct c; [discriminate|exact N].
  - right. exists r, r'. repeat split; try apply P. destruct c; [discriminate|contradiction N; reflexivity].
Qed.
Lemma marked_flags : forall (a b c : option affix_form) d e f, Marked af_flags a b c -> Marked (fun x => x) d e f ->
  Marked (fun x => x) (match a with Some x => Some (af_flags x) | None => d end) (match b with Some x => Some (af_flags x) | None => e end)
    (match c with Some x => Some (af_flags x) | None => f end).
Proof.
  intros a b c d e f [-> |(r & r' & -> & -> & P & N)] H.
  - destruct a; [apply marked_refl|]. destruct H as [-> |(r & r' & E1 & E2 & P & N)]; [apply marked_refl|]. right. exists r, r'.
    repeat split; try assumption; try apply P. destruct c; [discriminate|exact N].
  - right. exists (af_flags r), (af_flags r'). repeat split; try apply P. destruct c; [discriminate|contradiction N; reflexivity].
Qed.

Ltac fresh_of a := match goal with
  | I : In a (pfx_of k _) |- _ => constr:(@FRESH _ _ (or_introl I))
  | I : In a (sfx_of k _) |- _ => constr:(@FRESH _ _ (or_intror I))
  end.
Ltac mark := repeat
  match goal with
  | |- Marked _ (first_some ?f0 (ck_get k ?s)) _ _ =>
      change (Marked af_flags (first_some f0 (ck_get k s)) (first_some f0 (get s)) (first_some f0 (ck_get kr s))); apply marked_words; cbv zeta;
      [ let f := fresh "f" in let f' := fresh "f" in let P := fresh "P" in intros f f' P;
        rewrite ?(plus_hidden _ P), ?(plus_only P); cbn [is_full is_valid_inside_compound negb andb];
        repeat match goal with |- context [contains f' (a_flag ?a)] => let N := fresh_of a in rewrite (plus_contains P N) end;
        repeat match goal with |- context [if ?c then None else _] => destruct c; [split; reflexivity|] end; split; discriminate
      | intros ? ? ?;
        repeat match goal with H : (if ?c then None else _) = Some _ |- _ => destruct c; [discriminate H|] end;
        match goal with H : Some _ = Some _ |- _ => injection H as <-; reflexivity end ]
  | |- Marked _ (if ?d then _ else _) (if ?c then _ else _) (if ?e then _ else _) => change c with d; change e with d; destruct d; [apply marked_refl|]
  | |- Marked _ (first_some ?f0 ?l) (first_some ?g ?m) (first_some ?h ?n) => change m with l; change n with l; apply marked_first; intros ? ?; cbv zeta
  end.
Lemma marked_suffix : forall w hh, Marked af_flags (strip_suffix_only k FULL_WORD w hh) (strip_suffix_only k' FULL_WORD w hh) (strip_suffix_only kr FULL_WORD w hh).
Proof. intros. unfold strip_suffix_only. mark. Qed.
Lemma marked_prefix : forall w hh, Marked af_flags (strip_prefix_only k FULL_WORD w hh) (strip_prefix_only k' FULL_WORD w hh) (strip_prefix_only kr FULL_WORD w hh).
Proof. intros. unfold strip_prefix_only. mark. Qed.
Lemma marked_both : forall w hh, Marked af_flags (strip_prefix_then_suffix_commutative k FULL_WORD w hh) (strip_prefix_then_suffix_commutative k' FULL_WORD w hh)
  (strip_prefix_then_suffix_commutative kr FULL_WORD w hh).
Proof. intros. unfold strip_prefix_then_suffix_commutative. mark. Qed.
Lemma marked_ss : forall w hh, Marked af_flags (strip_suffix_then_suffix k w hh) (strip_suffix_then_suffix k' w hh) (strip_suffix_then_suffix kr w hh).
Proof. intros. unfold strip_suffix_then_suffix. mark. Qed.
Lemma marked_pp : forall w hh, Marked af_flags (strip_prefix_then_prefix k w hh) (strip_prefix_then_prefix k' w hh) (strip_prefix_then_prefix kr w hh).
Proof. intros. unfold strip_prefix_then_prefix. mark. Qed.
Lemma marked_pss : forall w hh, Marked af_flags (strip_prefix_then_2_suffixes k w hh) (strip_prefix_then_2_suffixes k' w hh) (strip_prefix_then_2_suffixes kr w hh).
Proof. intros. unfold strip_prefix_then_2_suffixes. mark. Qed.
Lemma marked_sps : forall w hh, Marked af_flags (strip_suffix_then_prefix_then_suffix k w hh) (strip_suffix_then_prefix_then_suffix k' w hh) (strip_suffix_then_prefix_then_suffix kr w hh).
Proof. intros. unfold strip_suffix_then_prefix_then_suffix. mark. Qed.
Lemma marked_spp : forall w hh, Marked af_flags (strip_suffix_then_2_prefixes k w hh) (strip_suffix_then_2_prefixes k' w hh) (strip_suffix_then_2_prefixes kr w hh).
Proof. intros. unfold strip_suffix_then_2_prefixes. mark. Qed.
Lemma marked_psp : forall w hh, Marked af_flags (strip_prefix_then_suffix_then_prefix k w hh) (strip_prefix_then_suffix_then_prefix k' w hh) (strip_prefix_then_suffix_then_prefix kr w hh).
Proof. intros. unfold strip_prefix_then_suffix_then_prefix. mark. Qed.
Lemma marked_direct : forall w hh, Marked (fun x => x) (check_direct k w hh) (check_direct k' w hh) (check_direct kr w hh).
Proof.
  intros. unfold check_direct. match goal with |- Marked _ (first_some ?g _) _ _ =>
    change (Marked (fun x => x) (first_some g (ck_get k w)) (first_some g (get w)) (first_some g (ck_get kr w))) end.
  apply marked_words.
  - intros f f' P. rewrite (plus_need P), (plus_only P), (plus_hidden _ P).
    repeat match goal with |- context [if ?c then None else _] => destruct c; [split; reflexivity|] end; split; discriminate.
  - intros f r H. repeat match type of H with (if ?c then None else _) = Some _ => destruct c; [discriminate H|] end. congruence.
Qed.
Lemma marked_simple : forall w hh, Marked (fun x => x) (check_simple_word k w hh) (check_simple_word k' w hh) (check_simple_word kr w hh).
Proof.
  intros. unfold check_simple_word. apply marked_else; [apply marked_direct|]. apply marked_flags; [apply marked_suffix|].
  apply marked_flags; [apply marked_prefix|]. apply marked_flags; [apply marked_both|].
  change (o_complex_prefixes (ad_options (ck_aff k'))) with (o_complex_prefixes (ad_options (ck_aff k))).
  change (o_complex_prefixes (ad_options (ck_aff kr))) with (o_complex_prefixes (ad_options (ck_aff k))). destruct (o_complex_prefixes _).
  - apply marked_flags; [apply marked_pp|]. apply marked_flags; [apply marked_spp|]. apply marked_flags; [apply marked_psp|]. apply marked_refl.
  - apply marked_flags; [apply marked_ss|]. apply marked_flags; [apply marked_pss|]. apply marked_flags; [apply marked_sps|]. apply marked_refl.
Qed.

Hypothesis NOCOMP : allows_compounding (ad_options (ck_aff k)) = false /\ rt_rules (ad_rules (ck_aff k)) = [].
Hypothesis OFF : ck_lower_as_title k = false /\ ck_lower_as_upper k = false.

Lemma marked_filter : forall w a f f', In a (plan k w) -> Plus f f' -> at_filter a f' = at_filter a f.
Proof.
  intros w a f f' H P. destruct OFF as [E1 E2]. unfold plan in H. rewrite E1, E2 in H.
  assert (X : forall w, In a (sharps_plan w) -> at_filter a f' = at_filter a f).
  { intros v Hv. unfold sharps_plan in Hv. destruct (has_ss v); [|destruct Hv]. apply in_map_iff in Hv. destruct Hv as [x [<- _]]. reflexivity. }
  destruct (classify_casing (ck_u k) w); cbn [andb app] in H.
  1,4,5: destruct H as [<-|[]]; reflexivity.
  - destruct H as [<-|[<-|[]]]; [reflexivity|]. cbn. rewrite (plus_keep P). reflexivity.
  - unfold plan_upper in H. destruct H as [<-|H]; [reflexivity|]. rewrite !in_app_iff in H. destruct H as [H|[H|H]].
    + destruct (apostrophe_split w) as [[p q]|]; [|destruct H]. destruct H as [<-|[<-|[]]]; reflexivity.
    + destruct (_ && _) in H; [|destruct H]. apply in_app_or in H. destruct H as [H|H]; eapply X; exact H.
    + destruct H as [<-|[<-|[]]]; cbn; rewrite (plus_keep P); reflexivity.
Qed.
(** Found as before, or with one flag more and then due to the stem. *)
Lemma marked_casing : forall fuel w, spell_casing k' fuel w = spell_casing k fuel w \/
  (exists f f', spell_casing k fuel w = Ret (Some f) /\ spell_casing k' fuel w = Ret (Some f') /\ Plus f f') /\
  exists a, In a (plan k w) /\ check_simple_word kr (at_word a) (at_hh a) <> None.
Proof.
  intros fuel w. rewrite (@spell_casing_plan k' fuel w) by (right; exact OFF). rewrite (@spell_casing_plan k fuel w) by (right; exact OFF).
  change (plan k' w) with (plan k w). pose proof (@marked_filter w) as MF. revert MF. induction (plan k w) as [|a l IH]; intro MF; [left; reflexivity|].
  cbn [firstR]. assert (T : try_one k' fuel a = try_one k fuel a \/ (exists f f', try_one k fuel a = Ret (Some f) /\ try_one k' fuel a = Ret (Some f') /\ Plus f f') /\
    check_simple_word kr (at_word a) (at_hh a) <> None).
  { unfold try_one. rewrite (@nocomp_word k' (proj1 NOCOMP) (proj2 NOCOMP)), (@nocomp_word k (proj1 NOCOMP) (proj2 NOCOMP)). cbn [bindR].
    destruct (marked_simple (at_word a) (at_hh a)) as [-> |(f & f' & -> & -> & P & N)]; [left; reflexivity|].
    rewrite (MF a f f' (or_introl eq_refl) P). destruct (at_filter a f); [|left; reflexivity]. right. split; [exists f, f'; auto|exact N]. }
  destruct T as [-> |[(f & f' & E1 & E2 & P) N]].
  - destruct (try_one k fuel a) as [[f|]| |]; try (left; reflexivity).
    destruct IH as [-> |[H (b & I & N)]]; [intros; apply MF; [right|]; assumption|left; reflexivity|]. right. split; [exact H|]. exists b. split; [right; exact I|exact N].
  - right. rewrite E1, E2. split; [exists f, f'; auto|]. exists a. split; [left; reflexivity|exact N].
Qed.

Hypothesis WF : wf_full k.
Hypothesis STRICT : strict k = true.
Hypothesis BARS : forall f', wf_flagset f' -> In fb f' -> accepted_flags k f' = false.
Lemma own_marked : forall w r', scalars w -> Own k' w r' -> match r' with
  | None => Own k w None | Some f' => accepted_flags k f' = true -> Own k w (Some f') end.
Proof.
  intros w r' Hw HO'. destruct (@own_total k WF OFF STRICT w Hw) as (r & HO). pose proof HO as HO0. destruct HO as [n H], HO' as [m H'].
  specialize (H (n + m) ltac:(lia)). specialize (H' (n + m) ltac:(lia)). cbn in H, H'.
  destruct (marked_casing (n + m) w) as [E|[(f & f' & E1 & E2 & P) _]].
  - rewrite H, H' in E. injection E as ->. destruct r; [intros _|]; exact HO0.
  - rewrite H' in E2. injection E2 as ->. intro A. rewrite BARS in A; [discriminate|apply P|]. apply P. left. reflexivity.
Qed.
Lemma broken_marked : forall n w, Broken k' n w -> scalars w -> Broken k n w.
Proof.
  intros n w H. induction H as [n w f HO HA|n p w HO HI HB IH|n p w HO HI HB IH|n p u v HO HI HM HN HB1 IH1 HB2 IH2]; intro Hw;
    pose proof (own_marked Hw HO) as X; cbn beta iota in X.
  - apply (@Broken_own k n w f (X HA) HA).
  - apply Broken_start; [exact X|exact HI|]. apply IH. apply Forall_app in Hw. apply Hw.
  - apply Broken_end; [exact X|exact HI|]. apply IH. apply Forall_app in Hw. apply Hw.
  - apply Forall_app in Hw. destruct Hw as [Hu Hw]. apply Forall_app in Hw.
    apply Broken_middle; try assumption; [apply IH1; exact Hu|apply IH2; apply Hw].
Qed.
Lemma accepts_marked : forall w w', scalars w' -> AcceptsAs k' w w' -> AcceptsAs k w w'.
Proof.
  intros w w' Hw [L [H|[H|[H|[D H]]]]]; (split; [exact L|]); auto.
  - right. right. left. apply broken_marked; [exact H|]. apply scalars_filter, scalars_trim. exact Hw.
  - right. right. right. split; [exact D|]. apply broken_marked; assumption.
Qed.
End Forbid.
