(** What it means for a word to be formed from a stem by affixes, stated without
    reference to the checker, and the proof that the affix routes of the checker accept
    exactly the words so formed. *)
From Coq Require Import List NArith ZArith Lia Bool Arith.
From Coq Require Import ZifyBool ZifyNat ZifyN.
From Verif Require Import Base Utf8 Unicode Flags Condition Affix CompoundRule Conversion Aff Checker.
Import ListNotations.
Set Implicit Arguments.

(** ** Specification *)

(** The option is set and the flag it names is in the set. *)
Definition marked (o : option N) (fs : list N) : Prop := exists f, o = Some f /\ In f fs.

(** Adding the rule to [stem] gives [word]: the strip text is replaced by the added text. *)
Definition derives (kd : kind) (a : affix) (stem word : str) : Prop :=
  match kd with
  | Pfx => exists r, stem = strip_text a ++ r /\ word = a_add a ++ r
  | Sfx => exists r, stem = r ++ strip_text a /\ word = r ++ a_add a
  end.

(** The rule's condition holds of [stem]. *)
Definition fits (kd : kind) (a : affix) (stem : str) : Prop :=
  match a_cond a with
  | None => True
  | Some c => exists es, cond_denotes c es /\
                match kd with Pfx => holds_at_start es stem | Sfx => holds_at_end es stem end
  end.

Definition attaches (kd : kind) (a : affix) (stem word : str) : Prop :=
  derives kd a stem word /\ fits kd a stem.

Section Spec.
Variable A : affdata.
(** The entries of the dictionary: [entry stem flags]. *)
Variable entry : str -> flagset -> Prop.
Notation opts := (ad_options A).

Definition rules (kd : kind) : list affix :=
  i_table (match kd with Pfx => ad_prefixes A | Sfx => ad_suffixes A end).

(** The rule may be used at this position of a (compound) word. *)
Definition allowed (kd : kind) (m : mode) (a : affix) : Prop :=
  (m = FULL_WORD -> ~ marked (o_only_in_compound opts) (a_flags a)) /\
  (match kd with Pfx => m = AT_END | Sfx => m = AT_BEGIN end -> marked (o_permit opts) (a_flags a)) /\
  (m <> FULL_WORD -> ~ marked (o_forbid opts) (a_flags a)).

Definition circumfix (a : affix) : Prop := marked (o_circumfix opts) (a_flags a).
Definition needs_affix (a : affix) : Prop := marked (o_need_affix opts) (a_flags a).

(** The entry may be used: not an ONLYINCOMPOUND stem in a full word, not a hidden
    homonym where these are to be skipped. *)
Definition usable_entry (m : mode) (hh : hidden_homonym) (flags : flagset) : Prop :=
  (m = FULL_WORD -> ~ marked (o_only_in_compound opts) flags) /\
  (hh = SkipHiddenHomonym -> ~ In hidden_homonym_flag flags).

(** The flags permit a compound part at this position. *)
Definition compound_part (m : mode) (flags : flagset) : Prop :=
  match m with
  | FULL_WORD => True
  | AT_BEGIN => marked (o_compound opts) flags \/ marked (o_compound_begin opts) flags
  | AT_MIDDLE => marked (o_compound opts) flags \/ marked (o_compound_middle opts) flags
  | AT_END => marked (o_compound opts) flags \/ marked (o_compound_end opts) flags
  end.

(** The word is an entry of the dictionary that may stand alone. *)
Definition DirectWord (hh : hidden_homonym) (word : str) (flags : flagset) : Prop :=
  entry word flags /\ ~ marked (o_need_affix opts) flags /\ usable_entry FULL_WORD hh flags.

(** One suffix, or one prefix. *)
Definition OneAffix (kd : kind) (m : mode) (hh : hidden_homonym) (word : str)
    (a : affix) (stem : str) (flags : flagset) : Prop :=
  In a (rules kd) /\ attaches kd a stem word /\ allowed kd m a /\
  ~ needs_affix a /\ ~ circumfix a /\
  (m = AT_END -> marked (o_only_in_compound opts) (a_flags a) -> a_add a = []) /\
  entry stem flags /\ In (a_flag a) flags /\ usable_entry m hh flags /\
  (compound_part m flags \/ compound_part m (a_flags a)).

(** A prefix and a suffix, either of which may be the outer one. *)
Definition PrefixSuffix (m : mode) (hh : hidden_homonym) (word : str)
    (p s : affix) (stem : str) (flags : flagset) : Prop :=
  In p (rules Pfx) /\ In s (rules Sfx) /\ a_cross p = true /\ a_cross s = true /\
  allowed Pfx m p /\ allowed Sfx m s /\ (circumfix p <-> circumfix s) /\
  (exists mid, attaches Pfx p mid word /\ attaches Sfx s stem mid) /\
  entry stem flags /\ usable_entry m hh flags /\
  (compound_part m flags \/ compound_part m (a_flags s) \/ compound_part m (a_flags p)) /\
  (* prefix outside, or suffix outside *)
  ((~ needs_affix p /\ In (a_flag s) flags /\ (In (a_flag p) (a_flags s) \/ In (a_flag p) flags)) \/
   (~ needs_affix s /\ In (a_flag p) flags /\ (In (a_flag s) (a_flags p) \/ In (a_flag s) flags))) /\
  ~ (needs_affix p /\ needs_affix s).

(** Two affixes of the same kind, [o] on top of [i]. *)
Definition TwoAffixes (kd : kind) (hh : hidden_homonym) (word : str)
    (o i : affix) (stem : str) (flags : flagset) : Prop :=
  In o (rules kd) /\ In i (rules kd) /\
  allowed kd FULL_WORD o /\ allowed kd FULL_WORD i /\ ~ needs_affix o /\
  ~ circumfix o /\ ~ circumfix i /\
  (exists mid, attaches kd o mid word /\ attaches kd i stem mid) /\
  In (a_flag o) (a_flags i) /\ In (a_flag i) flags /\
  entry stem flags /\ usable_entry FULL_WORD hh flags.

Definition other (kd : kind) : kind := match kd with Pfx => Sfx | Sfx => Pfx end.

(** [x] of kind [kd] around a stem with two affixes [o], [i] of the other kind:
    prefix + stem + inner suffix + outer suffix, or
    outer prefix + inner prefix + stem + suffix. *)
Definition OuterAndTwo (kd : kind) (hh : hidden_homonym) (word : str)
    (x o i : affix) (stem : str) (flags : flagset) : Prop :=
  In x (rules kd) /\ In o (rules (other kd)) /\ In i (rules (other kd)) /\
  a_cross x = true /\ a_cross o = true /\
  allowed kd FULL_WORD x /\ allowed (other kd) FULL_WORD o /\ allowed (other kd) FULL_WORD i /\
  ~ needs_affix x /\ (circumfix x <-> circumfix o) /\ ~ circumfix i /\
  (exists mid1 mid2, attaches kd x mid1 word /\ attaches (other kd) o mid2 mid1 /\
                     attaches (other kd) i stem mid2) /\
  (In (a_flag x) (a_flags o) \/ In (a_flag x) flags) /\
  In (a_flag o) (a_flags i) /\ In (a_flag i) flags /\
  entry stem flags /\ usable_entry FULL_WORD hh flags.

(** An affix [x] of the other kind between two affixes [o], [i] of kind [kd]. [cond_x]
    is the form on which the condition of [x] is tested. *)
Definition Sandwich (cond_x : str -> str -> str) (kd : kind) (hh : hidden_homonym) (word : str)
    (x o i : affix) (stem : str) (flags : flagset) : Prop :=
  In x (rules (other kd)) /\ In o (rules kd) /\ In i (rules kd) /\
  a_cross x = true /\ a_cross o = true /\ a_cross i = true /\
  allowed (other kd) FULL_WORD x /\ allowed kd FULL_WORD o /\ allowed kd FULL_WORD i /\
  ~ needs_affix o /\
  (((circumfix x <-> circumfix o) /\ ~ circumfix i) \/ ((circumfix x <-> circumfix i) /\ ~ circumfix o)) /\
  (exists mid1 mid2, attaches kd o mid1 word /\
                     derives (other kd) x mid2 mid1 /\ fits (other kd) x (cond_x mid1 mid2) /\
                     attaches kd i stem mid2) /\
  (In (a_flag o) (a_flags i) \/ In (a_flag o) (a_flags x)) /\
  (In (a_flag x) (a_flags i) \/ In (a_flag x) flags) /\ In (a_flag i) flags /\
  entry stem flags /\ usable_entry FULL_WORD hh flags.

(** The condition is about the form the rule is attached to (what a .aff file means) ... *)
Definition on_inner (outer_form inner_form : str) : str := inner_form.
(** ... and about the form that already has the affix (what the code tests). *)
Definition on_outer (outer_form inner_form : str) : str := outer_form.

(** A word is a simple (non-compound) word of the dictionary.  The last alternatives
    describe the routes with three affixes as they are coded: see [C12] for the two
    differences from the documented meaning. *)
Definition SimpleWord (hh : hidden_homonym) (word : str) (flags : flagset) : Prop :=
  DirectWord hh word flags \/
  (exists kd a stem, OneAffix kd FULL_WORD hh word a stem flags) \/
  (exists p s stem, PrefixSuffix FULL_WORD hh word p s stem flags) \/
  (o_complex_prefixes opts = false /\
     ((exists o i stem, TwoAffixes Sfx hh word o i stem flags) \/
      (exists x o i stem, OuterAndTwo Pfx hh word x o i stem flags) \/
      (exists x o i stem, Sandwich on_outer Sfx hh word x o i stem flags))) \/
  (o_complex_prefixes opts = true /\
     ((exists o i stem, TwoAffixes Pfx hh word o i stem flags) \/
      (exists x o i stem, OuterAndTwo Sfx hh word x o i stem flags /\
                          exists s, In s (rules Sfx) /\ In (a_flag o) (a_flags s)) \/
      (exists x o i stem, Sandwich on_outer Pfx hh word x o i stem flags))).
End Spec.

(** ** Well-formed dictionaries: what the parser establishes. *)
Definition wf_affix (a : affix) : Prop :=
  wf_flagset (a_flags a) /\ scalars (a_add a) /\ scalars (strip_text a) /\
  (forall c, a_cond a = Some c -> exists es, cond_denotes c es).

Record wf_checker (k : checker) : Prop := {
  wf_pfx : index_wf Pfx (ad_prefixes (ck_aff k));
  wf_sfx : index_wf Sfx (ad_suffixes (ck_aff k));
  wf_pfx_rules : Forall wf_affix (i_table (ad_prefixes (ck_aff k)));
  wf_sfx_rules : Forall wf_affix (i_table (ad_suffixes (ck_aff k)));
  wf_entries : forall w flags, In flags (ck_get k w) -> wf_flagset flags }.

(** ** Proofs *)
Ltac conj := repeat match goal with |- _ /\ _ => split end.

Lemma marked_dec : forall o fs, marked o fs \/ ~ marked o fs.
Proof.
  intros [f|] fs.
  - destruct (in_dec N.eq_dec f fs) as [H|H]; [left; exists f; auto|right; intros [g [E Hg]]; congruence].
  - right. intros [g [E _]]. discriminate.
Qed.

Lemma has_flag_spec : forall fs o, wf_flagset fs -> (has_flag fs o = true <-> marked o fs).
Proof.
  intros fs [f|] H; simpl.
  - rewrite contains_spec by exact H. split; [intro; exists f; auto|intros [g [E Hg]]; congruence].
  - split; [discriminate|intros [g [E _]]; discriminate].
Qed.
Lemma has_flag_false : forall fs o, wf_flagset fs -> (has_flag fs o = false <-> ~ marked o fs).
Proof. intros fs o H. rewrite <- has_flag_spec by exact H. destruct (has_flag fs o); split; congruence. Qed.
Lemma contains_false : forall fs f, wf_flagset fs -> (contains fs f = false <-> ~ In f fs).
Proof. intros fs o H. rewrite <- contains_spec by exact H. destruct (contains fs o); split; congruence. Qed.

Lemma some_guard : forall B (b : bool) (x : option B) y,
  (if b then None else x) = Some y <-> b = false /\ x = Some y.
Proof. intros B [|] x y; split; [discriminate|intros [? ?]; discriminate|auto|tauto]. Qed.

Lemma first_some_In : forall B C (f : B -> option C) l,
  (exists c, first_some f l = Some c) <-> (exists x, In x l /\ exists c, f x = Some c).
Proof. intros. rewrite first_some_exists. firstorder. Qed.

Lemma nonempty_In : forall B (l : list B) x, In x l -> nonempty l = true.
Proof. intros B [|y l] x H; [destruct H|reflexivity]. Qed.

Section Proofs.
Variable k : checker.
Hypothesis WF : wf_checker k.
Notation A := (ck_aff k).
Notation opts := (ad_options (ck_aff k)).
Notation entry := (fun stem flags => In flags (ck_get k stem)).

Lemma rules_wf : forall kd a, In a (rules A kd) -> wf_affix a.
Proof.
  intros [|] a H; [apply (proj1 (Forall_forall _ _) (wf_pfx_rules WF))|
                   apply (proj1 (Forall_forall _ _) (wf_sfx_rules WF))]; exact H.
Qed.

Definition of_kind (kd : kind) (w : str) : list affix := match kd with Pfx => pfx_of k w | Sfx => sfx_of k w end.
Definition to_stem (kd : kind) (a : affix) (w : str) : str :=
  match kd with Pfx => prefix_to_stem a w | Sfx => suffix_to_stem a w end.
Definition cond_ok (kd : kind) (a : affix) (s : str) : bool :=
  match kd with Pfx => pcond a s | Sfx => scond a s end.

Lemma of_kind_In : forall kd a w, scalars w ->
  (In a (of_kind kd w) <-> In a (rules A kd) /\ applies kd a w = true).
Proof.
  intros [|] a w Hw; unfold of_kind, pfx_of, sfx_of, rules.
  - rewrite (affixes_of_spec (wf_pfx WF) Hw). apply filter_In.
  - rewrite (affixes_of_spec (wf_sfx WF) Hw). apply filter_In.
Qed.

Lemma derives_to_stem : forall kd a stem w,
  (applies kd a w = true /\ to_stem kd a w = stem) <-> derives kd a stem w.
Proof.
  intros [|] a stem w; unfold applies, to_stem, derives, prefix_to_stem, suffix_to_stem, strip_text.
  - rewrite starts_with_spec. split.
    + intros [[r ->] E]. rewrite skipn_app_exact in E by reflexivity. exists r.
      destruct (a_strip a); auto.
    + intros [r [-> ->]]. split; [eauto|]. rewrite skipn_app_exact by reflexivity.
      destruct (a_strip a); reflexivity.
  - rewrite ends_with_spec. split.
    + intros [[r ->] E]. rewrite firstn_app_exact in E by (rewrite app_length; lia). exists r.
      destruct (a_strip a); subst stem; rewrite ?app_nil_r; auto.
    + intros [r [-> ->]]. split; [eauto|]. rewrite firstn_app_exact by (rewrite app_length; lia).
      destruct (a_strip a); rewrite ?app_nil_r; reflexivity.
Qed.

Lemma derives_scalars : forall kd a stem w, wf_affix a -> derives kd a stem w -> scalars w -> scalars stem.
Proof.
  intros kd a stem w [_ [_ [Hs _]]] H Hw. unfold scalars in *.
  destruct kd; destruct H as [r [-> ->]]; apply Forall_app in Hw; apply Forall_app; tauto.
Qed.

Lemma cond_ok_spec : forall kd a s, wf_affix a -> (cond_ok kd a s = true <-> fits kd a s).
Proof.
  intros kd a s [_ [_ [_ Hc]]]. unfold cond_ok, fits, pcond, scond.
  destruct (a_cond a) as [c|] eqn:E.
  - destruct (Hc c eq_refl) as [es Hes]. destruct kd.
    + rewrite (prefix_condition_spec _ Hes). split; [eauto|]. intros [es' [H1 H2]].
      destruct Hes as [O1 ->]. destruct H1 as [O2 Ht]. injection Ht as Ht _ _.
      apply celems_text_inj in Ht; [congruence|assumption|assumption].
    + rewrite (suffix_condition_spec _ Hes). split; [eauto|]. intros [es' [H1 H2]].
      destruct Hes as [O1 ->]. destruct H1 as [O2 Ht]. injection Ht as Ht _ _.
      apply celems_text_inj in Ht; [congruence|assumption|assumption].
  - destruct kd; simpl; tauto.
Qed.

(** One level of a loop over the affixes of a word. *)
Lemma affix_level : forall kd w (f : affix -> str -> option affix_form) form,
  scalars w ->
  first_some (fun a => f a (to_stem kd a w)) (of_kind kd w) = Some form ->
  exists a stem, In a (rules A kd) /\ derives kd a stem w /\ wf_affix a /\ scalars stem /\ f a stem = Some form.
Proof.
  intros kd w f form Hw H. apply first_some_some in H. destruct H as [a [Ha E]].
  apply of_kind_In in Ha; [|exact Hw]. destruct Ha as [Ha Happ]. exists a, (to_stem kd a w).
  pose proof (rules_wf _ _ Ha) as Hwf.
  assert (derives kd a (to_stem kd a w) w) as D by (apply derives_to_stem; auto).
  repeat split; try assumption; try (apply Hwf). eapply derives_scalars; eauto.
Qed.

Lemma affix_level_exists : forall kd w (f : affix -> str -> option affix_form) a stem,
  scalars w -> In a (rules A kd) -> derives kd a stem w ->
  (exists form, f a stem = Some form) ->
  exists form, first_some (fun a => f a (to_stem kd a w)) (of_kind kd w) = Some form.
Proof.
  intros kd w f a stem Hw Ha D [form E]. apply derives_to_stem in D. destruct D as [D1 D2].
  apply first_some_exists. exists a, form. split; [apply of_kind_In; auto|]. rewrite D2. exact E.
Qed.

Lemma affix_valid_spec : forall kd m a, wf_affix a ->
  (affix_valid k kd m a = true <-> allowed A kd m a).
Proof.
  intros kd m a [Hf _]. unfold affix_valid, allowed.
  pose proof (has_flag_spec (o_only_in_compound opts) Hf) as H1.
  pose proof (has_flag_spec (o_permit opts) Hf) as H2.
  pose proof (has_flag_spec (o_forbid opts) Hf) as H3.
  destruct (has_flag (a_flags a) (o_only_in_compound opts)), (has_flag (a_flags a) (o_permit opts)),
    (has_flag (a_flags a) (o_forbid opts)), kd, m; simpl;
    intuition (try congruence).
Qed.

Lemma compound_part_spec : forall m fs, wf_flagset fs ->
  (is_valid_inside_compound k m fs = true <-> compound_part A m fs).
Proof.
  intros m fs Hf. unfold is_valid_inside_compound, compound_part.
  destruct m; rewrite ?orb_true_iff, ?(has_flag_spec _ Hf); tauto.
Qed.

Lemma is_full_spec : forall m, is_full m = true <-> m = FULL_WORD.
Proof. intros []; simpl; split; congruence. Qed.
Lemma is_end_spec : forall m, is_end m = true <-> m = AT_END.
Proof. intros []; simpl; split; congruence. Qed.
Lemma hh_skip_spec : forall h, hh_skip h = true <-> h = SkipHiddenHomonym.
Proof. intros []; simpl; split; congruence. Qed.

Lemma usable_entry_spec : forall m hh fs, wf_flagset fs ->
  ((is_full m && only_in_compound k fs = false /\ hidden hh fs = false) <-> usable_entry A m hh fs).
Proof.
  intros m hh fs Hf. unfold usable_entry, only_in_compound, hidden.
  pose proof (has_flag_spec (o_only_in_compound opts) Hf) as H1.
  pose proof (@contains_spec _ hidden_homonym_flag Hf) as H2.
  destruct (has_flag fs (o_only_in_compound opts)), (contains fs hidden_homonym_flag), m, hh; simpl;
    intuition (try congruence).
Qed.
Lemma usable_full_spec : forall hh fs, wf_flagset fs ->
  ((only_in_compound k fs = false /\ hidden hh fs = false) <-> usable_entry A FULL_WORD hh fs).
Proof. intros hh fs Hf. rewrite <- usable_entry_spec by exact Hf. simpl. tauto. Qed.

(** Boolean tests to propositions. *)
Lemma negb_f : forall b, negb b = false <-> b = true.
Proof. intros []; simpl; split; congruence. Qed.
Lemma nand_negb : forall a b, negb a && negb b = false <-> a = true \/ b = true.
Proof. intros [] []; simpl; intuition congruence. Qed.
Lemma nand_negb3 : forall a b c, negb a && negb b && negb c = false <-> a = true \/ b = true \/ c = true.
Proof. intros [] [] []; simpl; intuition congruence. Qed.
Lemma nand : forall a b, a && b = false <-> ~ (a = true /\ b = true).
Proof. intros [] []; simpl; intuition congruence. Qed.
Lemma eqb_true : forall a b, Bool.eqb a b = true <-> (a = true <-> b = true).
Proof. intros [] []; simpl; intuition congruence. Qed.



Ltac guards H :=
  repeat match type of H with
  | (if ?b then None else _) = Some _ =>
      let G := fresh "G" in apply some_guard in H; destruct H as [G H]
  end.

Ltac b2p_in G :=
  repeat first [ rewrite negb_f in G | rewrite nand_negb3 in G | rewrite nand_negb in G | rewrite nand in G
               | rewrite eqb_true in G | rewrite andb_true_iff in G | rewrite orb_true_iff in G
               | rewrite is_end_spec in G ].
Ltac b2p :=
  repeat first [ rewrite negb_f | rewrite nand_negb3 | rewrite nand_negb | rewrite nand
               | rewrite eqb_true | rewrite andb_true_iff | rewrite orb_true_iff
               | rewrite is_end_spec ].

Lemma outer_valid_spec : forall kd m a, wf_affix a ->
  (is_outer_affix_valid k kd m a = true <-> allowed A kd m a /\ ~ needs_affix A a).
Proof.
  intros kd m a H. unfold is_outer_affix_valid. rewrite andb_true_iff, affix_valid_spec by exact H.
  rewrite negb_true_iff. unfold needs_affix. rewrite has_flag_false by apply H. tauto.
Qed.
Lemma circumfix_spec : forall a, wf_affix a -> (is_circumfix k a = true <-> circumfix A a).
Proof. intros a H. apply has_flag_spec. apply H. Qed.
Lemma circumfix_false : forall a, wf_affix a -> (is_circumfix k a = false <-> ~ circumfix A a).
Proof. intros a H. apply has_flag_false. apply H. Qed.
Lemma need_affix_spec : forall a, wf_affix a -> (need_affix k (a_flags a) = true <-> needs_affix A a).
Proof. intros a H. apply has_flag_spec. apply H. Qed.
Lemma not_nonempty : forall (l : str), ~ nonempty l = true <-> l = [].
Proof. intros [|x l]; simpl; intuition congruence. Qed.

Ltac setwf a Ha := pose proof Ha as [?WFF _].

Ltac p2 :=
  repeat match goal with
  | G : context [is_outer_affix_valid k _ _ ?a = true], W : wf_affix ?a |- _ => rewrite outer_valid_spec in G by exact W
  | G : context [affix_valid k _ _ ?a = true], W : wf_affix ?a |- _ => rewrite affix_valid_spec in G by exact W
  | G : context [is_circumfix k ?a = false], W : wf_affix ?a |- _ => rewrite circumfix_false in G by exact W
  | G : context [is_circumfix k ?a = true], W : wf_affix ?a |- _ => rewrite circumfix_spec in G by exact W
  | G : context [need_affix k (a_flags ?a) = true], W : wf_affix ?a |- _ => rewrite need_affix_spec in G by exact W
  | G : context [cond_ok ?kd ?a ?s = true], W : wf_affix ?a |- _ => rewrite cond_ok_spec in G by exact W
  | G : context [contains ?fs ?f = true], W : wf_flagset ?fs |- _ => rewrite (@contains_spec fs f W) in G
  | G : context [has_flag ?fs ?f = true], W : wf_flagset ?fs |- _ => rewrite (@has_flag_spec fs f W) in G
  | G : context [has_flag ?fs ?f = false], W : wf_flagset ?fs |- _ => rewrite (@has_flag_false fs f W) in G
  | G : context [is_valid_inside_compound k ?m ?fs = true], W : wf_flagset ?fs |- _ => rewrite (@compound_part_spec m fs W) in G
  end.
Ltac p2g :=
  repeat match goal with
  | W : wf_affix ?a |- context [is_outer_affix_valid k _ _ ?a = true] => rewrite outer_valid_spec by exact W
  | W : wf_affix ?a |- context [affix_valid k _ _ ?a = true] => rewrite affix_valid_spec by exact W
  | W : wf_affix ?a |- context [is_circumfix k ?a = false] => rewrite circumfix_false by exact W
  | W : wf_affix ?a |- context [is_circumfix k ?a = true] => rewrite circumfix_spec by exact W
  | W : wf_affix ?a |- context [need_affix k (a_flags ?a) = true] => rewrite need_affix_spec by exact W
  | W : wf_affix ?a |- context [cond_ok ?kd ?a ?s = true] => rewrite cond_ok_spec by exact W
  | W : wf_flagset ?fs |- context [contains ?fs ?f = true] => rewrite (@contains_spec fs f W)
  | W : wf_flagset ?fs |- context [has_flag ?fs ?f = true] => rewrite (@has_flag_spec fs f W)
  | W : wf_flagset ?fs |- context [has_flag ?fs ?f = false] => rewrite (@has_flag_false fs f W)
  | W : wf_flagset ?fs |- context [is_valid_inside_compound k ?m ?fs = true] => rewrite (@compound_part_spec m fs W)
  end.

Lemma In_dec_flag : forall (f : N) fs, In f fs \/ ~ In f fs.
Proof. intros f fs. destruct (in_dec N.eq_dec f fs); auto. Qed.

(** The suffix/prefix loops written once for both kinds. *)
Definition one_affix (kd : kind) (m : mode) (word : str) (hh : hidden_homonym) : option affix_form :=
  match kd with Pfx => strip_prefix_only k m word hh | Sfx => strip_suffix_only k m word hh end.

Definition form1 (kd : kind) (a : affix) (stem : str) (flags : flagset) : affix_form :=
  match kd with Pfx => mkForm stem flags [a] [] | Sfx => mkForm stem flags [] [a] end.

Definition one_body (kd : kind) (m : mode) (hh : hidden_homonym) (a : affix) (stem : str) : option affix_form :=
  if negb (is_outer_affix_valid k kd m a) then None
  else if nonempty (a_add a) && is_end m && has_flag (a_flags a) (o_only_in_compound opts) then None
  else if is_circumfix k a then None
  else if negb (cond_ok kd a stem) then None
  else first_some (fun flags =>
        if negb (contains flags (a_flag a)) then None
        else if is_full m && only_in_compound k flags then None
        else if hidden hh flags then None
        else if negb (is_valid_inside_compound k m flags) &&
                negb (is_valid_inside_compound k m (a_flags a)) then None
        else Some (form1 kd a stem flags)) (ck_get k stem).

Lemma one_affix_body : forall kd m word hh,
  one_affix kd m word hh = first_some (fun a => one_body kd m hh a (to_stem kd a word)) (of_kind kd word).
Proof. intros [|] m word hh; reflexivity. Qed.

Theorem one_affix_sound : forall kd m word hh form, scalars word ->
  one_affix kd m word hh = Some form ->
  exists a stem flags, form = form1 kd a stem flags /\ OneAffix A entry kd m hh word a stem flags.
Proof.
  intros kd m word hh form Hw H. rewrite one_affix_body in H. apply affix_level in H; [|exact Hw].
  destruct H as [a [stem [Ha [D [Wa [Hs H]]]]]]. unfold one_body in H. guards H.
  apply first_some_some in H. destruct H as [flags [Hf H]]. guards H. injection H as <-.
  exists a, stem, flags. split; [reflexivity|].
  pose proof (wf_entries WF _ _ Hf) as Wf. pose proof Wa as [Waf _].
  assert (usable_entry A m hh flags) as Hu by (apply usable_entry_spec; auto).
  b2p_in G. b2p_in G0. b2p_in G1. b2p_in G2. b2p_in G3. b2p_in G6. p2.
  unfold OneAffix, attaches, needs_affix in *. conj; try tauto.
  intros Hm Hmk. apply not_nonempty. tauto.
Qed.

Theorem one_affix_complete : forall kd m word hh a stem flags, scalars word ->
  OneAffix A entry kd m hh word a stem flags -> exists form, one_affix kd m word hh = Some form.
Proof.
  intros kd m word hh a stem flags Hw [Ha [[D F] [Hal [Hn [Hc [Hoc [He [Hfl [Hu Hcp]]]]]]]]].
  rewrite one_affix_body. apply (@affix_level_exists kd word (one_body kd m hh) a stem Hw Ha D).
  pose proof (rules_wf _ _ Ha) as Wa. pose proof Wa as [Waf _]. pose proof (wf_entries WF _ _ He) as Wf.
  unfold one_body.
  replace (is_outer_affix_valid k kd m a) with true
    by (symmetry; apply outer_valid_spec; [exact Wa|]; auto).
  replace (nonempty (a_add a) && is_end m && has_flag (a_flags a) (o_only_in_compound opts)) with false.
  2: { symmetry. b2p. p2g. intros [[H1 H2] H3]. rewrite (Hoc H2 H3) in H1. discriminate. }
  replace (is_circumfix k a) with false by (symmetry; apply circumfix_false; auto).
  replace (cond_ok kd a stem) with true by (symmetry; apply cond_ok_spec; auto).
  cbn [negb].
  apply first_some_exists. exists flags. eexists. split; [exact He|].
  replace (contains flags (a_flag a)) with true by (symmetry; apply contains_spec; auto).
  apply usable_entry_spec in Hu; [|exact Wf]. destruct Hu as [-> ->].
  replace (negb (is_valid_inside_compound k m flags) && negb (is_valid_inside_compound k m (a_flags a))) with false.
  2: { symmetry. b2p. p2g. exact Hcp. }
  reflexivity.
Qed.

Theorem one_affix_iff : forall kd m word hh, scalars word ->
  ((exists form, one_affix kd m word hh = Some form) <->
   (exists a stem flags, OneAffix A entry kd m hh word a stem flags)).
Proof.
  intros kd m word hh Hw. split.
  - intros [form H]. destruct (one_affix_sound _ _ _ Hw H) as [a [stem [flags [_ HH]]]]. eauto.
  - intros [a [stem [flags H]]]. eapply one_affix_complete; eauto.
Qed.

(** *** Prefix and suffix *)
Definition comm_inner (m : mode) (hh : hidden_homonym) (p s : affix) (stem2 : str) : option affix_form :=
  if negb (a_cross s) then None
  else if negb (affix_valid k Sfx m s) then None
  else if need_affix k (a_flags p) && need_affix k (a_flags s) then None
  else if negb (Bool.eqb (is_circumfix k p) (is_circumfix k s)) then None
  else if negb (cond_ok Sfx s stem2) then None
  else first_some (fun flags =>
    if negb (negb (need_affix k (a_flags p)) && contains flags (a_flag s) &&
             (contains (a_flags s) (a_flag p) || contains flags (a_flag p))) &&
       negb (negb (need_affix k (a_flags s)) && contains flags (a_flag p) &&
             (contains (a_flags p) (a_flag s) || contains flags (a_flag s))) then None
    else if is_full m && only_in_compound k flags then None
    else if hidden hh flags then None
    else if negb (is_valid_inside_compound k m flags) &&
            negb (is_valid_inside_compound k m (a_flags s)) &&
            negb (is_valid_inside_compound k m (a_flags p)) then None
    else Some (mkForm stem2 flags [p] [s])) (ck_get k stem2).
Definition comm_outer (m : mode) (hh : hidden_homonym) (p : affix) (mid : str) : option affix_form :=
  if negb (a_cross p) then None
  else if negb (affix_valid k Pfx m p) then None
  else if negb (cond_ok Pfx p mid) then None
  else first_some (fun s => comm_inner m hh p s (to_stem Sfx s mid)) (of_kind Sfx mid).

Lemma commutative_body : forall m word hh,
  strip_prefix_then_suffix_commutative k m word hh =
  first_some (fun p => comm_outer m hh p (to_stem Pfx p word)) (of_kind Pfx word).
Proof. reflexivity. Qed.

Theorem commutative_sound : forall m word hh form, scalars word ->
  strip_prefix_then_suffix_commutative k m word hh = Some form ->
  exists p s stem flags, form = mkForm stem flags [p] [s] /\
    PrefixSuffix A entry m hh word p s stem flags.
Proof.
  intros m word hh form Hw H. rewrite commutative_body in H. apply affix_level in H; [|exact Hw].
  destruct H as [p [mid [Hp [Dp [Wp [Hmid H]]]]]]. unfold comm_outer in H. guards H.
  apply affix_level in H; [|exact Hmid].
  destruct H as [s [stem [Hs [Ds [Ws [Hstem H]]]]]]. unfold comm_inner in H. guards H.
  apply first_some_some in H. destruct H as [flags [Hf H]]. guards H. injection H as <-.
  exists p, s, stem, flags. split; [reflexivity|].
  pose proof (wf_entries WF _ _ Hf) as Wf. pose proof Wp as [Wpf _]. pose proof Ws as [Wsf _].
  assert (usable_entry A m hh flags) as Hu by (apply usable_entry_spec; auto).
  b2p_in G. b2p_in G0. b2p_in G1. b2p_in G2. b2p_in G3. b2p_in G4. b2p_in G5. b2p_in G6. b2p_in G7. b2p_in G10.
  rewrite !negb_true_iff, <- !not_true_iff_false in G7.
  p2. unfold PrefixSuffix, attaches. conj; try tauto. exists mid. tauto.
Qed.

Theorem commutative_complete : forall m word hh p s stem flags, scalars word ->
  PrefixSuffix A entry m hh word p s stem flags ->
  exists form, strip_prefix_then_suffix_commutative k m word hh = Some form.
Proof.
  intros m word hh p s stem flags Hw
    [Hp [Hs [Cp [Cs [Ap [As [Hc [[mid [[Dp Fp] [Ds Fs]]] [He [Hu [Hcp [Hfl Hn]]]]]]]]]]]].
  pose proof (rules_wf _ _ Hp) as Wp. pose proof (rules_wf _ _ Hs) as Ws. pose proof (wf_entries WF _ _ He) as Wf.
  pose proof Wp as [Wpf _]. pose proof Ws as [Wsf _].
  rewrite commutative_body. apply (@affix_level_exists Pfx word (comm_outer m hh) p mid Hw Hp Dp).
  unfold comm_outer.
  rewrite Cp. replace (affix_valid k Pfx m p) with true by (symmetry; apply affix_valid_spec; auto).
  replace (cond_ok Pfx p mid) with true by (symmetry; apply cond_ok_spec; auto). cbn [negb].
  assert (scalars mid) as Hmid by (eapply derives_scalars; [exact Wp|exact Dp|exact Hw]).
  apply (@affix_level_exists Sfx mid (comm_inner m hh p) s stem Hmid Hs Ds). unfold comm_inner.
  rewrite Cs. replace (affix_valid k Sfx m s) with true by (symmetry; apply affix_valid_spec; auto).
  replace (cond_ok Sfx s stem) with true by (symmetry; apply cond_ok_spec; auto).
  replace (need_affix k (a_flags p) && need_affix k (a_flags s)) with false
    by (symmetry; b2p; p2g; exact Hn).
  replace (Bool.eqb (is_circumfix k p) (is_circumfix k s)) with true
    by (symmetry; b2p; p2g; exact Hc).
  cbn [negb]. apply first_some_exists. exists flags. eexists. split; [exact He|].
  apply usable_entry_spec in Hu; [|exact Wf]. destruct Hu as [-> ->].
  match goal with |- (if ?b then _ else _) = _ => replace b with false end.
  2: { symmetry. b2p. rewrite !negb_true_iff, <- !not_true_iff_false. p2g. tauto. }
  match goal with |- (if ?b then _ else _) = _ => replace b with false end.
  2: { symmetry. b2p. p2g. exact Hcp. }
  reflexivity.
Qed.

(** *** Two affixes of the same kind *)
Definition all_flags (kd : kind) : flagset := match kd with Pfx => p_all_flags k | Sfx => s_all_flags k end.

Lemma all_flags_spec : forall kd f, In f (all_flags kd) <-> exists a, In a (rules A kd) /\ In f (a_flags a).
Proof. intros [|] f; [apply (wf_pfx WF)|apply (wf_sfx WF)]. Qed.
Lemma all_flags_wf : forall kd, wf_flagset (all_flags kd).
Proof. intros [|]; [apply (wf_pfx WF)|apply (wf_sfx WF)]. Qed.

Definition form2 (kd : kind) (o i : affix) (stem : str) (flags : flagset) : affix_form :=
  match kd with Pfx => mkForm stem flags [o; i] [] | Sfx => mkForm stem flags [] [o; i] end.

Definition two_inner (kd : kind) (hh : hidden_homonym) (o i : affix) (stem2 : str) : option affix_form :=
  if negb (contains (a_flags i) (a_flag o)) then None
  else if negb (affix_valid k kd FULL_WORD i) then None
  else if is_circumfix k i then None
  else if negb (cond_ok kd i stem2) then None
  else first_some (fun flags =>
    if negb (contains flags (a_flag i)) then None
    else if only_in_compound k flags then None
    else if hidden hh flags then None
    else Some (form2 kd o i stem2 flags)) (ck_get k stem2).
Definition two_outer (kd : kind) (hh : hidden_homonym) (o : affix) (stem : str) : option affix_form :=
  if negb (contains (all_flags kd) (a_flag o)) then None
  else if negb (is_outer_affix_valid k kd FULL_WORD o) then None
  else if is_circumfix k o then None
  else if negb (cond_ok kd o stem) then None
  else first_some (fun i => two_inner kd hh o i (to_stem kd i stem)) (of_kind kd stem).
Definition two_affixes (kd : kind) (word : str) (hh : hidden_homonym) : option affix_form :=
  match kd with Pfx => strip_prefix_then_prefix k word hh | Sfx => strip_suffix_then_suffix k word hh end.

Lemma two_affixes_body : forall kd word hh,
  two_affixes kd word hh =
  if negb (nonempty (all_flags kd)) then None
  else first_some (fun o => two_outer kd hh o (to_stem kd o word)) (of_kind kd word).
Proof. intros [|] word hh; reflexivity. Qed.

Theorem two_affixes_sound : forall kd word hh form, scalars word ->
  two_affixes kd word hh = Some form ->
  exists o i stem flags, form = form2 kd o i stem flags /\
    TwoAffixes A entry kd hh word o i stem flags.
Proof.
  intros kd word hh form Hw H. rewrite two_affixes_body in H. guards H. apply affix_level in H; [|exact Hw].
  destruct H as [o [mid [Ho [Do [Wo [Hmid H]]]]]]. unfold two_outer in H. guards H.
  apply affix_level in H; [|exact Hmid].
  destruct H as [i [stem [Hi [Di [Wi [Hstem H]]]]]]. unfold two_inner in H. guards H.
  apply first_some_some in H. destruct H as [flags [Hf H]]. guards H. injection H as <-.
  exists o, i, stem, flags. split; [reflexivity|].
  pose proof (wf_entries WF _ _ Hf) as Wf. pose proof Wo as [Wof _]. pose proof Wi as [Wif _].
  assert (usable_entry A FULL_WORD hh flags) as Hu by (apply usable_full_spec; auto).
  b2p_in G1. b2p_in G3. b2p_in G4. b2p_in G5. b2p_in G7. b2p_in G8.
  p2. unfold TwoAffixes, attaches. conj; try tauto. exists mid. tauto.
Qed.

Theorem two_affixes_complete : forall kd word hh o i stem flags, scalars word ->
  TwoAffixes A entry kd hh word o i stem flags -> exists form, two_affixes kd word hh = Some form.
Proof.
  intros kd word hh o i stem flags Hw
    [Ho [Hi [Ao [Ai [Hn [Co [Ci [[mid [[Do Fo] [Di Fi]]] [Hoi [Hif [He Hu]]]]]]]]]]].
  pose proof (rules_wf _ _ Ho) as Wo. pose proof (rules_wf _ _ Hi) as Wi. pose proof (wf_entries WF _ _ He) as Wf.
  pose proof Wo as [Wof _]. pose proof Wi as [Wif _].
  assert (In (a_flag o) (all_flags kd)) as Hall by (apply all_flags_spec; eauto).
  rewrite two_affixes_body. rewrite (nonempty_In _ _ Hall). cbn [negb].
  apply (@affix_level_exists kd word (two_outer kd hh) o mid Hw Ho Do). unfold two_outer.
  replace (contains (all_flags kd) (a_flag o)) with true
    by (symmetry; apply contains_spec; [apply all_flags_wf|exact Hall]).
  replace (is_outer_affix_valid k kd FULL_WORD o) with true by (symmetry; apply outer_valid_spec; auto).
  replace (is_circumfix k o) with false by (symmetry; apply circumfix_false; auto).
  replace (cond_ok kd o mid) with true by (symmetry; apply cond_ok_spec; auto). cbn [negb].
  assert (scalars mid) as Hmid by (eapply derives_scalars; [exact Wo|exact Do|exact Hw]).
  apply (@affix_level_exists kd mid (two_inner kd hh o) i stem Hmid Hi Di). unfold two_inner.
  replace (contains (a_flags i) (a_flag o)) with true by (symmetry; apply contains_spec; auto).
  replace (affix_valid k kd FULL_WORD i) with true by (symmetry; apply affix_valid_spec; auto).
  replace (is_circumfix k i) with false by (symmetry; apply circumfix_false; auto).
  replace (cond_ok kd i stem) with true by (symmetry; apply cond_ok_spec; auto). cbn [negb].
  apply first_some_exists. exists flags. eexists. split; [exact He|].
  replace (contains flags (a_flag i)) with true by (symmetry; apply contains_spec; auto).
  apply usable_full_spec in Hu; [|exact Wf]. destruct Hu as [-> ->]. reflexivity.
Qed.

(** *** One affix around two of the other kind *)
Definition form3 (kd : kind) (x o i : affix) (stem : str) (flags : flagset) : affix_form :=
  match kd with Pfx => mkForm stem flags [x] [o; i] | Sfx => mkForm stem flags [o; i] [x] end.

Definition oat_inner (kd : kind) (hh : hidden_homonym) (x o i : affix) (stem3 : str) : option affix_form :=
  if negb (contains (a_flags i) (a_flag o)) then None
  else if negb (affix_valid k (other kd) FULL_WORD i) then None
  else if is_circumfix k i then None
  else if negb (cond_ok (other kd) i stem3) then None
  else first_some (fun flags =>
    if negb (contains (a_flags o) (a_flag x)) && negb (contains flags (a_flag x)) then None
    else if negb (contains flags (a_flag i)) then None
    else if only_in_compound k flags then None
    else if hidden hh flags then None
    else Some (form3 kd x o i stem3 flags)) (ck_get k stem3).
(** Both instances use the suffix flags as fast lane. *)
Definition oat_middle (kd : kind) (hh : hidden_homonym) (x o : affix) (stem2 : str) : option affix_form :=
  if negb (contains (all_flags Sfx) (a_flag o)) then None
  else if negb (a_cross o) then None
  else if negb (affix_valid k (other kd) FULL_WORD o) then None
  else if negb (Bool.eqb (is_circumfix k x) (is_circumfix k o)) then None
  else if negb (cond_ok (other kd) o stem2) then None
  else first_some (fun i => oat_inner kd hh x o i (to_stem (other kd) i stem2)) (of_kind (other kd) stem2).
Definition oat_outer (kd : kind) (hh : hidden_homonym) (x : affix) (stem : str) : option affix_form :=
  if negb (a_cross x) then None
  else if negb (is_outer_affix_valid k kd FULL_WORD x) then None
  else if negb (cond_ok kd x stem) then None
  else first_some (fun o => oat_middle kd hh x o (to_stem (other kd) o stem)) (of_kind (other kd) stem).
Definition outer_and_two (kd : kind) (word : str) (hh : hidden_homonym) : option affix_form :=
  match kd with
  | Pfx => strip_prefix_then_2_suffixes k word hh
  | Sfx => strip_suffix_then_2_prefixes k word hh
  end.
Lemma outer_and_two_body : forall kd word hh,
  outer_and_two kd word hh =
  if negb (nonempty (all_flags Sfx)) then None
  else first_some (fun x => oat_outer kd hh x (to_stem kd x word)) (of_kind kd word).
Proof. intros [|] word hh; reflexivity. Qed.

(** The exact condition: the fast lane additionally wants the outer of the two affixes to
    be continuable from some suffix. *)
Theorem outer_and_two_sound : forall kd word hh form, scalars word ->
  outer_and_two kd word hh = Some form ->
  exists x o i stem flags, form = form3 kd x o i stem flags /\
    OuterAndTwo A entry kd hh word x o i stem flags /\
    (exists s, In s (rules A Sfx) /\ In (a_flag o) (a_flags s)).
Proof.
  intros kd word hh form Hw H. rewrite outer_and_two_body in H. guards H. apply affix_level in H; [|exact Hw].
  destruct H as [x [mid [Hx [Dx [Wx [Hmid H]]]]]]. unfold oat_outer in H. guards H.
  apply affix_level in H; [|exact Hmid].
  destruct H as [o [mid2 [Ho [Do [Wo [Hmid2 H]]]]]]. unfold oat_middle in H. guards H.
  apply affix_level in H; [|exact Hmid2].
  destruct H as [i [stem [Hi [Di [Wi [Hstem H]]]]]]. unfold oat_inner in H. guards H.
  apply first_some_some in H. destruct H as [flags [Hf H]]. guards H. injection H as <-.
  exists x, o, i, stem, flags. split; [reflexivity|].
  pose proof (wf_entries WF _ _ Hf) as Wf. pose proof Wo as [Wof _]. pose proof Wi as [Wif _].
  assert (usable_entry A FULL_WORD hh flags) as Hu by (apply usable_full_spec; auto).
  pose proof (all_flags_wf Sfx) as Wall.
  b2p_in G0. b2p_in G1. b2p_in G2. b2p_in G3. b2p_in G4. b2p_in G5. b2p_in G6. b2p_in G7. b2p_in G8. b2p_in G9. b2p_in G11.
  b2p_in G12. b2p_in G13.
  p2. split; [|apply all_flags_spec; exact G3].
  unfold OuterAndTwo, attaches. conj; try tauto. exists mid, mid2. tauto.
Qed.

Theorem outer_and_two_complete : forall kd word hh x o i stem flags, scalars word ->
  OuterAndTwo A entry kd hh word x o i stem flags ->
  (exists s, In s (rules A Sfx) /\ In (a_flag o) (a_flags s)) ->
  exists form, outer_and_two kd word hh = Some form.
Proof.
  intros kd word hh x o i stem flags Hw
    [Hx [Ho [Hi [Cx [Co [Ax [Ao [Ai [Hn [Hc [Ci [[mid [mid2 [[Dx Fx] [[Do Fo] [Di Fi]]]]]
      [Hxf [Hoi [Hif [He Hu]]]]]]]]]]]]]]]] Hfast.
  pose proof (rules_wf _ _ Hx) as Wx. pose proof (rules_wf _ _ Ho) as Wo. pose proof (rules_wf _ _ Hi) as Wi.
  pose proof (wf_entries WF _ _ He) as Wf.
  pose proof Wo as [Wof _]. pose proof Wi as [Wif _].
  assert (In (a_flag o) (all_flags Sfx)) as Hall by (apply all_flags_spec; exact Hfast).
  rewrite outer_and_two_body. rewrite (nonempty_In _ _ Hall). cbn [negb].
  apply (@affix_level_exists kd word (oat_outer kd hh) x mid Hw Hx Dx). unfold oat_outer. rewrite Cx.
  replace (is_outer_affix_valid k kd FULL_WORD x) with true by (symmetry; apply outer_valid_spec; auto).
  replace (cond_ok kd x mid) with true by (symmetry; apply cond_ok_spec; auto). cbn [negb].
  assert (scalars mid) as Hmid by (eapply derives_scalars; [exact Wx|exact Dx|exact Hw]).
  apply (@affix_level_exists (other kd) mid (oat_middle kd hh x) o mid2 Hmid Ho Do). unfold oat_middle. rewrite Co.
  replace (contains (all_flags Sfx) (a_flag o)) with true
    by (symmetry; apply contains_spec; [apply all_flags_wf|exact Hall]).
  replace (affix_valid k (other kd) FULL_WORD o) with true by (symmetry; apply affix_valid_spec; auto).
  replace (Bool.eqb (is_circumfix k x) (is_circumfix k o)) with true by (symmetry; b2p; p2g; exact Hc).
  replace (cond_ok (other kd) o mid2) with true by (symmetry; apply cond_ok_spec; auto). cbn [negb].
  assert (scalars mid2) as Hmid2 by (eapply derives_scalars; [exact Wo|exact Do|exact Hmid]).
  apply (@affix_level_exists (other kd) mid2 (oat_inner kd hh x o) i stem Hmid2 Hi Di). unfold oat_inner.
  replace (contains (a_flags i) (a_flag o)) with true by (symmetry; apply contains_spec; auto).
  replace (affix_valid k (other kd) FULL_WORD i) with true by (symmetry; apply affix_valid_spec; auto).
  replace (is_circumfix k i) with false by (symmetry; apply circumfix_false; auto).
  replace (cond_ok (other kd) i stem) with true by (symmetry; apply cond_ok_spec; auto). cbn [negb].
  apply first_some_exists. exists flags. eexists. split; [exact He|].
  match goal with |- (if ?b then _ else _) = _ => replace b with false by (symmetry; b2p; p2g; exact Hxf) end.
  replace (contains flags (a_flag i)) with true by (symmetry; apply contains_spec; auto).
  apply usable_full_spec in Hu; [|exact Wf]. destruct Hu as [-> ->]. reflexivity.
Qed.

(** For a prefix with two suffixes the fast lane changes nothing. *)
Theorem prefix_2_suffixes_iff : forall word hh, scalars word ->
  ((exists form, strip_prefix_then_2_suffixes k word hh = Some form) <->
   (exists x o i stem flags, OuterAndTwo A entry Pfx hh word x o i stem flags)).
Proof.
  intros word hh Hw. split.
  - intros [form H]. destruct (@outer_and_two_sound Pfx word hh form Hw H) as [x [o [i [st [fl [_ [H1 _]]]]]]]. eauto 8.
  - intros [x [o [i [st [fl H]]]]]. refine (@outer_and_two_complete Pfx word hh x o i st fl Hw H _).
    exists i. destruct H as (_ & _ & Hi & _ & _ & _ & _ & _ & _ & _ & _ & _ & _ & Hoi & _). auto.
Qed.

(** *** An affix between two of the other kind *)
Definition sw_inner (kd : kind) (hh : hidden_homonym) (o x i : affix) (stem3 : str) : option affix_form :=
  if negb (a_cross i) then None
  else if negb (contains (a_flags i) (a_flag o)) && negb (contains (a_flags x) (a_flag o)) then None
  else if negb (affix_valid k kd FULL_WORD i) then None
  else if negb (Bool.eqb (is_circumfix k x) (is_circumfix k o) && negb (is_circumfix k i)) &&
          negb (Bool.eqb (is_circumfix k x) (is_circumfix k i) && negb (is_circumfix k o)) then None
  else if negb (cond_ok kd i stem3) then None
  else first_some (fun flags =>
    if negb (contains (a_flags i) (a_flag x)) && negb (contains flags (a_flag x)) then None
    else if negb (contains flags (a_flag i)) then None
    else if only_in_compound k flags then None
    else if hidden hh flags then None
    else Some (form3 (other kd) x o i stem3 flags)) (ck_get k stem3).
Definition sw_middle (kd : kind) (hh : hidden_homonym) (o : affix) (stem : str) (x : affix) (stem2 : str)
  : option affix_form :=
  if negb (a_cross x) then None
  else if negb (affix_valid k (other kd) FULL_WORD x) then None
  else if negb (cond_ok (other kd) x stem) then None
  else first_some (fun i => sw_inner kd hh o x i (to_stem kd i stem2)) (of_kind kd stem2).
Definition sw_outer (kd : kind) (hh : hidden_homonym) (o : affix) (stem : str) : option affix_form :=
  if negb (contains (all_flags Pfx) (a_flag o)) && negb (contains (all_flags Sfx) (a_flag o)) then None
  else if negb (a_cross o) then None
  else if negb (is_outer_affix_valid k kd FULL_WORD o) then None
  else if negb (cond_ok kd o stem) then None
  else first_some (fun x => sw_middle kd hh o stem x (to_stem (other kd) x stem)) (of_kind (other kd) stem).
Definition sandwich (kd : kind) (word : str) (hh : hidden_homonym) : option affix_form :=
  match kd with
  | Sfx => strip_suffix_then_prefix_then_suffix k word hh
  | Pfx => strip_prefix_then_suffix_then_prefix k word hh
  end.
Lemma sandwich_body : forall kd word hh,
  sandwich kd word hh =
  if negb (nonempty (all_flags Pfx)) && negb (nonempty (all_flags Sfx)) then None
  else first_some (fun o => sw_outer kd hh o (to_stem kd o word)) (of_kind kd word).
Proof. intros [|] word hh; reflexivity. Qed.

Theorem sandwich_sound : forall kd word hh form, scalars word ->
  sandwich kd word hh = Some form ->
  exists x o i stem flags, form = form3 (other kd) x o i stem flags /\
    Sandwich A entry on_outer kd hh word x o i stem flags.
Proof.
  intros kd word hh form Hw H. rewrite sandwich_body in H. guards H. apply affix_level in H; [|exact Hw].
  destruct H as [o [mid [Ho [Do [Wo [Hmid H]]]]]]. unfold sw_outer in H. guards H.
  apply affix_level in H; [|exact Hmid].
  destruct H as [x [mid2 [Hx [Dx [Wx [Hmid2 H]]]]]]. unfold sw_middle in H. guards H.
  apply affix_level in H; [|exact Hmid2].
  destruct H as [i [stem [Hi [Di [Wi [Hstem H]]]]]]. unfold sw_inner in H. guards H.
  apply first_some_some in H. destruct H as [flags [Hf H]]. guards H. injection H as <-.
  exists x, o, i, stem, flags. split; [reflexivity|].
  pose proof (wf_entries WF _ _ Hf) as Wf. pose proof Wo as [Wof _]. pose proof Wi as [Wif _]. pose proof Wx as [Wxf _].
  assert (usable_entry A FULL_WORD hh flags) as Hu by (apply usable_full_spec; auto).
  b2p_in G1. b2p_in G2. b2p_in G3. b2p_in G4. b2p_in G5. b2p_in G6. b2p_in G7. b2p_in G8. b2p_in G9. b2p_in G10.
  b2p_in G11. b2p_in G12. b2p_in G13.
  rewrite !negb_true_iff, <- !not_true_iff_false in G10.
  p2.
  unfold Sandwich, attaches, on_outer. conj; try tauto. exists mid, mid2. tauto.
Qed.

Theorem sandwich_complete : forall kd word hh x o i stem flags, scalars word ->
  Sandwich A entry on_outer kd hh word x o i stem flags ->
  exists form, sandwich kd word hh = Some form.
Proof.
  intros kd word hh x o i stem flags Hw
    [Hx [Ho [Hi [Cx [Co [Cci [Ax [Ao [Ai [Hn [Hc [[mid [mid2 [[Do Fo] [Dx [Fx [Di Fi]]]]]]
      [Hoi [Hxf [Hif [He Hu]]]]]]]]]]]]]]]].
  unfold on_outer in Fx.
  pose proof (rules_wf _ _ Hx) as Wx. pose proof (rules_wf _ _ Ho) as Wo. pose proof (rules_wf _ _ Hi) as Wi.
  pose proof (wf_entries WF _ _ He) as Wf.
  pose proof Wo as [Wof _]. pose proof Wi as [Wif _]. pose proof Wx as [Wxf _].
  assert (In (a_flag o) (all_flags Pfx) \/ In (a_flag o) (all_flags Sfx)) as Hall.
  { rewrite !all_flags_spec. destruct Hoi as [H|H]; destruct kd; [left|right|right|left]; eauto. }
  rewrite sandwich_body.
  replace (negb (nonempty (all_flags Pfx)) && negb (nonempty (all_flags Sfx))) with false.
  2: { symmetry. b2p. destruct Hall as [H|H]; rewrite (nonempty_In _ _ H); auto. }
  apply (@affix_level_exists kd word (sw_outer kd hh) o mid Hw Ho Do). unfold sw_outer. rewrite Co.
  replace (negb (contains (all_flags Pfx) (a_flag o)) && negb (contains (all_flags Sfx) (a_flag o))) with false.
  2: { symmetry. pose proof (all_flags_wf Sfx). pose proof (all_flags_wf Pfx). b2p. p2g. exact Hall. }
  replace (is_outer_affix_valid k kd FULL_WORD o) with true by (symmetry; apply outer_valid_spec; auto).
  replace (cond_ok kd o mid) with true by (symmetry; apply cond_ok_spec; auto). cbn [negb].
  assert (scalars mid) as Hmid by (eapply derives_scalars; [exact Wo|exact Do|exact Hw]).
  apply (@affix_level_exists (other kd) mid (sw_middle kd hh o mid) x mid2 Hmid Hx Dx). unfold sw_middle. rewrite Cx.
  replace (affix_valid k (other kd) FULL_WORD x) with true by (symmetry; apply affix_valid_spec; auto).
  replace (cond_ok (other kd) x mid) with true by (symmetry; apply cond_ok_spec; auto). cbn [negb].
  assert (scalars mid2) as Hmid2 by (eapply derives_scalars; [exact Wx|exact Dx|exact Hmid]).
  apply (@affix_level_exists kd mid2 (sw_inner kd hh o x) i stem Hmid2 Hi Di). unfold sw_inner. rewrite Cci.
  match goal with |- context [negb (contains (a_flags i) (a_flag o)) && ?b] =>
    replace (negb (contains (a_flags i) (a_flag o)) && b) with false by (symmetry; b2p; p2g; exact Hoi) end.
  replace (affix_valid k kd FULL_WORD i) with true by (symmetry; apply affix_valid_spec; auto).
  match goal with |- context [negb (?a1 && ?a2) && ?b] =>
    replace (negb (a1 && a2) && b) with false end.
  2: { symmetry. b2p. rewrite !negb_true_iff, <- !not_true_iff_false. p2g. exact Hc. }
  replace (cond_ok kd i stem) with true by (symmetry; apply cond_ok_spec; auto). cbn [negb].
  apply first_some_exists. exists flags. eexists. split; [exact He|].
  match goal with |- (if ?b then _ else _) = _ => replace b with false by (symmetry; b2p; p2g; exact Hxf) end.
  replace (contains flags (a_flag i)) with true by (symmetry; apply contains_spec; auto).
  apply usable_full_spec in Hu; [|exact Wf]. destruct Hu as [-> ->]. reflexivity.
Qed.

(** *** Simple words *)
Theorem direct_sound : forall word hh flags, check_direct k word hh = Some flags -> DirectWord A entry hh word flags.
Proof.
  intros word hh flags H. unfold check_direct in H. apply first_some_some in H. destruct H as [f [Hf H]].
  guards H. injection H as <-. pose proof (wf_entries WF _ _ Hf) as Wf.
  unfold DirectWord. conj; [exact Hf| |apply usable_full_spec; auto].
  unfold need_affix in G. rewrite has_flag_false in G by exact Wf. exact G.
Qed.
Theorem direct_complete : forall word hh flags, DirectWord A entry hh word flags ->
  exists f, check_direct k word hh = Some f.
Proof.
  intros word hh flags [He [Hn Hu]]. pose proof (wf_entries WF _ _ He) as Wf.
  apply first_some_exists. exists flags. eexists. split; [exact He|].
  unfold need_affix. replace (has_flag flags (o_need_affix opts)) with false by (symmetry; apply has_flag_false; auto).
  apply usable_full_spec in Hu; [|exact Wf]. destruct Hu as [-> ->]. reflexivity.
Qed.

Lemma form1_flags : forall kd a stem flags, af_flags (form1 kd a stem flags) = flags.
Proof. intros [|]; reflexivity. Qed.
Lemma form2_flags : forall kd a b stem flags, af_flags (form2 kd a b stem flags) = flags.
Proof. intros [|]; reflexivity. Qed.
Lemma form3_flags : forall kd a b c stem flags, af_flags (form3 kd a b c stem flags) = flags.
Proof. intros [|]; reflexivity. Qed.

Theorem simple_word_sound : forall word hh flags, scalars word ->
  check_simple_word k word hh = Some flags -> SimpleWord A entry hh word flags.
Proof.
  intros word hh flags Hw H. unfold check_simple_word in H. unfold SimpleWord.
  destruct (check_direct k word hh) as [f|] eqn:E1.
  { injection H as <-. left. apply direct_sound. exact E1. }
  destruct (strip_suffix_only k FULL_WORD word hh) as [f|] eqn:E2.
  { injection H as <-. right. left. destruct (@one_affix_sound Sfx FULL_WORD word hh f Hw E2) as [a [st [fl [-> HH]]]].
    exists Sfx, a, st. exact HH. }
  destruct (strip_prefix_only k FULL_WORD word hh) as [f|] eqn:E3.
  { injection H as <-. right. left. destruct (@one_affix_sound Pfx FULL_WORD word hh f Hw E3) as [a [st [fl [-> HH]]]].
    exists Pfx, a, st. exact HH. }
  destruct (strip_prefix_then_suffix_commutative k FULL_WORD word hh) as [f|] eqn:E4.
  { injection H as <-. right. right. left. destruct (@commutative_sound FULL_WORD word hh f Hw E4) as [p [s [st [fl [-> HH]]]]].
    exists p, s, st. exact HH. }
  do 3 right. destruct (o_complex_prefixes opts); [right|left]; (split; [reflexivity|]).
  - destruct (strip_prefix_then_prefix k word hh) as [f|] eqn:E5.
    { injection H as <-. left. destruct (@two_affixes_sound Pfx word hh f Hw E5) as [o [i [st [fl [-> HH]]]]].
      exists o, i, st. exact HH. }
    destruct (strip_suffix_then_2_prefixes k word hh) as [f|] eqn:E6.
    { injection H as <-. right. left. destruct (@outer_and_two_sound Sfx word hh f Hw E6) as [x [o [i [st [fl [-> [HH1 HH2]]]]]]].
      exists x, o, i, st. auto. }
    destruct (strip_prefix_then_suffix_then_prefix k word hh) as [f|] eqn:E7; [|discriminate].
    injection H as <-. right. right. destruct (@sandwich_sound Pfx word hh f Hw E7) as [x [o [i [st [fl [-> HH]]]]]].
    exists x, o, i, st. exact HH.
  - destruct (strip_suffix_then_suffix k word hh) as [f|] eqn:E5.
    { injection H as <-. left. destruct (@two_affixes_sound Sfx word hh f Hw E5) as [o [i [st [fl [-> HH]]]]].
      exists o, i, st. exact HH. }
    destruct (strip_prefix_then_2_suffixes k word hh) as [f|] eqn:E6.
    { injection H as <-. right. left. destruct (@outer_and_two_sound Pfx word hh f Hw E6) as [x [o [i [st [fl [-> [HH1 HH2]]]]]]].
      exists x, o, i, st. auto. }
    destruct (strip_suffix_then_prefix_then_suffix k word hh) as [f|] eqn:E7; [|discriminate].
    injection H as <-. right. right. destruct (@sandwich_sound Sfx word hh f Hw E7) as [x [o [i [st [fl [-> HH]]]]]].
    exists x, o, i, st. exact HH.
Qed.

Theorem simple_word_complete : forall word hh flags, scalars word ->
  SimpleWord A entry hh word flags -> exists f, check_simple_word k word hh = Some f.
Proof.
  intros word hh flags Hw H. unfold check_simple_word.
  destruct (check_direct k word hh) as [f|] eqn:E1; [eauto|].
  destruct (strip_suffix_only k FULL_WORD word hh) as [f|] eqn:E2; [eauto|].
  destruct (strip_prefix_only k FULL_WORD word hh) as [f|] eqn:E3; [eauto|].
  destruct (strip_prefix_then_suffix_commutative k FULL_WORD word hh) as [f|] eqn:E4; [eauto|].
  destruct H as [H|[H|[H|H]]].
  - destruct (direct_complete H) as [f E]. congruence.
  - destruct H as [[|] [a [st H]]]; destruct (one_affix_complete Hw H) as [f E]; cbn [one_affix] in E; congruence.
  - destruct H as [p [s [st H]]]. destruct (commutative_complete Hw H) as [f E]. congruence.
  - destruct (o_complex_prefixes opts); destruct H as [[Hc H]|[Hc H]]; try discriminate.
    + destruct (strip_prefix_then_prefix k word hh) as [f|] eqn:E5; [eauto|].
      destruct (strip_suffix_then_2_prefixes k word hh) as [f|] eqn:E6; [eauto|].
      destruct (strip_prefix_then_suffix_then_prefix k word hh) as [f|] eqn:E7; [eauto|].
      destruct H as [[o [i [st H]]]|[[x [o [i [st [H H']]]]]|[x [o [i [st H]]]]]].
      * destruct (two_affixes_complete Hw H) as [f E]. cbn [two_affixes] in E. congruence.
      * destruct (outer_and_two_complete Hw H H') as [f E]. cbn [outer_and_two] in E. congruence.
      * destruct (sandwich_complete Hw H) as [f E]. cbn [sandwich] in E. congruence.
    + destruct (strip_suffix_then_suffix k word hh) as [f|] eqn:E5; [eauto|].
      destruct (strip_prefix_then_2_suffixes k word hh) as [f|] eqn:E6; [eauto|].
      destruct (strip_suffix_then_prefix_then_suffix k word hh) as [f|] eqn:E7; [eauto|].
      destruct H as [[o [i [st H]]]|[[x [o [i [st H]]]]|[x [o [i [st H]]]]]].
      * destruct (two_affixes_complete Hw H) as [f E]. cbn [two_affixes] in E. congruence.
      * destruct (proj2 (@prefix_2_suffixes_iff word hh Hw)) as [f E]; [eauto 8|]. congruence.
      * destruct (sandwich_complete Hw H) as [f E]. cbn [sandwich] in E. congruence.
Qed.
End Proofs.
