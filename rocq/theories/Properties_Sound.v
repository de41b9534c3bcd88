(** Property C81: every acceptance has a reason.  No condition on the dictionary: the
    theorems also hold where compounding need not terminate (C01) or counting syllables may
    overflow. *)
From Coq Require Import String Ascii List NArith ZArith Lia Bool Arith Permutation.
From Verif Require Import Base Utf8 Unicode Flags Bag Condition Affix Conversion Aff Checker AffixSpec CompoundRule Rep CompoundSpec
  CompoundTotal RuleCompound Spell CheckSpec CheckMono CheckProps Parser ParserSafe Lib LibSpec LibProps Examples
  Properties_Affix Properties_Compound Properties_Check.
Import ListNotations.
Local Open Scope string_scope.
Local Open Scope list_scope.
Local Open Scope nat_scope.
Set Implicit Arguments.

Lemma anyR_true : forall X (f : X -> Res bool) l, anyR f l = Ret true -> exists x, In x l /\ f x = Ret true.
Proof.
  induction l as [|x l IH]; intro H; [discriminate|]. cbn [anyR] in H.
  destruct (f x) as [[|]| |] eqn:E; try discriminate H.
  - exists x. split; [left; reflexivity|exact E].
  - destruct (IH H) as (y & Hy & Ey). exists y. split; [right; exact Hy|exact Ey].
Qed.

Section Dict.
Variable pl : platform.
Hypothesis WP : wf_platform pl.
Variable d : dictionary.
Hypothesis R : Reachable pl d.
Notation k := (checker_of pl d false false).
Notation U := (pl_unicode pl).
Notation A := (d_aff d).
Notation opts := (ad_options (d_aff d)).
Notation h := (o_case (ad_options (d_aff d))).

Lemma reading_scalars : forall w v fu hh ok, scalars w -> Reading pl d w v fu hh ok -> scalars v.
Proof.
  assert (WU : wf_unicode U) by apply WP.
  intros w v fu hh ok Hw H. destruct H as [| | | | |t _ E|a b ta tb _ Ew _ _ E1 E2|a b tb _ Ew _ _ E2|t v _ _ _ E _ HV]; try exact Hw.
  - apply scalars_lower; assumption.
  - apply scalars_lower; assumption.
  - exact (titlecase_scalars WP _ Hw E).
  - subst w. apply scalars_app_iff in Hw. destruct Hw as [H1 H2]. apply scalars_app_iff.
    split; [exact (titlecase_scalars WP _ H1 E1)|exact (titlecase_scalars WP _ H2 E2)].
  - subst w. apply scalars_app_iff in Hw. destruct Hw as [H1 H2]. apply scalars_app_iff.
    split; [apply scalars_lower; assumption|exact (titlecase_scalars WP _ H2 E2)].
  - apply (sharp_variant_scalars HV). destruct E as [->|E]; [apply scalars_lower; assumption|exact (titlecase_scalars WP _ Hw E)].
Qed.

(** A spelling of the word that is found, at any depth of the search. *)
Lemma casing_explained : forall fuel w f, scalars w -> spell_casing k fuel w = Ret (Some f) -> accepted_flags k f = true ->
  Explained pl d w.
Proof.
  intros fuel w f Hw H HA. pose proof (dict_wf_compound WP (reachable_ok WP R) false false) as WC.
  rewrite spell_casing_plan in H by (right; split; reflexivity). apply firstR_some in H. destruct H as (a & Ha & E).
  unfold try_one in E. destruct (check_word k fuel (at_word a) (at_fu a) (at_hh a)) as [[f'|]| |] eqn:EW; cbn [bindR] in E; try discriminate E.
  destruct (at_filter a f') eqn:EF; [|discriminate E]. injection E as ->.
  assert (RD : exists ok, Reading pl d w (at_word a) (at_fu a) (at_hh a) ok /\ (wf_flagset f -> ok f)).
  { destruct w as [|c w].
    - cbn in Ha. destruct Ha as [<-|[]]. exists any_flags. split; [apply Reading_plain; discriminate|]. intros _. exact I.
    - destruct (@plan_reading pl d (c :: w) a ltac:(discriminate) Ha) as (ok & HR & HOk). exists ok. split; [exact HR|].
      intro Wf. apply HOk; [exact Wf|exact EF]. }
  destruct RD as (ok & HR & HOk).
  pose proof (word_found WC _ _ _ (reading_scalars Hw HR) EW) as HF.
  assert (Wf : wf_flagset f).
  { destruct (found_entry HF) as [st Hst]. exact (wf_entries (wfc_checker WC) _ _ Hst). }
  exists (at_word a), (at_fu a), (at_hh a), ok, f. split; [exact HR|]. split; [apply (finds_iff WP); exact HF|].
  split; [exact (HOk Wf)|]. apply (@accepted_spec k f Wf). exact HA.
Qed.

Lemma break_glued : forall lt lu fuel (P : str -> Prop),
  (forall w f, scalars w -> spell_casing (checker_of pl d lt lu) fuel w = Ret (Some f) -> accepted_flags (checker_of pl d lt lu) f = true -> P w) ->
  forall n w, scalars w -> do_spell_break (checker_of pl d lt lu) fuel n w = Ret true -> Glued d P n w.
Proof.
  intros lt lu fuel P HP n. set (kk := checker_of pl d lt lu) in *.
  induction n as [|n IH]; intros w Hw H; cbn [do_spell_break] in H;
    destruct (spell_casing kk fuel w) as [[f|]| |] eqn:E; cbn [bindR] in H; try discriminate H.
  - injection H as H. apply Glued_word. exact (HP w f Hw E H).
  - injection H as H. apply Glued_word. exact (HP w f Hw E H).
  - destruct (anyR _ (start_breaks _)) as [[|]| |] eqn:E1 in H; cbn [bindR] in H; try discriminate H.
    { apply anyR_true in E1. destruct E1 as (p & Hp & E1). destruct (strip_prefix p w) as [r|] eqn:ES; [|discriminate E1].
      pose proof (strip_prefix_scalars _ ES Hw) as Hr. apply strip_prefix_spec in ES. subst w. apply Glued_start; [exact Hp|apply IH; assumption]. }
    destruct (anyR _ (end_breaks _)) as [[|]| |] eqn:E2 in H; cbn [bindR] in H; try discriminate H.
    { apply anyR_true in E2. destruct E2 as (p & Hp & E2). destruct (strip_suffix p w) as [r|] eqn:ES; [|discriminate E2].
      pose proof (strip_suffix_scalars _ ES Hw) as Hr. apply strip_suffix_spec in ES. subst w. apply Glued_end; [exact Hp|apply IH; assumption]. }
    apply anyR_true in H. destruct H as (p & Hp & H). destruct (split_once p w) as [[a b]|] eqn:ES; [|discriminate H].
    destruct (split_once_scalars _ ES Hw) as [Ha Hb]. apply split_once_sound in ES.
    destruct b as [|c b]; [discriminate H|]. cbn [nonempty negb] in H.
    destruct (do_spell_break kk fuel n a) as [[|]| |] eqn:E3; cbn [bindR] in H; try discriminate H.
    rewrite ES. apply Glued_middle; [exact Hp|discriminate|apply IH; assumption|apply IH; assumption].
Qed.
Lemma break_explained : forall fuel n w, scalars w -> do_spell_break k fuel n w = Ret true -> Glued d (Explained pl d) n w.
Proof. intros fuel n w Hw H. apply (@break_glued false false fuel); [|exact Hw|exact H]. intros x f Hx. apply casing_explained. exact Hx. Qed.

(** ** C81 *)
(** A word is accepted for one of these reasons: it is empty after ICONV; without its final
    dots it is a numeral; without its final dots and ignored characters its pieces between break
    patterns satisfy [P]; or they do so as the word stands, dots included. *)
Inductive Reason (P : str -> Prop) (w : str) : Prop :=
| Reason_empty : Converts (ct_inner (ad_iconv A)) w [] -> Reason P w
| Reason_numeral : forall v n, Converts (ct_inner (ad_iconv A)) w (v ++ dots n) -> no_final_dot v -> Numeral v -> Reason P w
| Reason_words : forall v n, Converts (ct_inner (ad_iconv A)) w (v ++ dots n) -> no_final_dot v -> v ++ dots n <> [] ->
    Glued d P 9 (filter (fun c => negb (memb c (ad_ignore A))) v) -> Reason P w
| Reason_dotted : forall v n, Converts (ct_inner (ad_iconv A)) w (v ++ dots n) -> no_final_dot v -> n <> 0 ->
    Glued d P 9 (v ++ dots n) -> Reason P w.

Lemma check_reason : forall lt lu fuel (P : str -> Prop),
  (forall w f, scalars w -> spell_casing (checker_of pl d lt lu) fuel w = Ret (Some f) -> accepted_flags (checker_of pl d lt lu) f = true -> P w) ->
  forall w, scalars w -> check (checker_of pl d lt lu) fuel w = Ret true -> (blen w <= 360)%N /\ Reason P w.
Proof.
  intros lt lu fuel P HP w Hw H. unfold check in H. destruct (max_word_len <? blen w)%N eqn:EL; [discriminate H|].
  apply N.ltb_ge in EL. split; [exact EL|].
  destruct (do_aff (reachable_ok WP R)) as (x & LP & CO). pose proof (aff_facts WP LP CO) as F.
  cbn [ck_aff checker_of] in H.
  destruct (@convert_spec (ad_iconv A) w) as [w' [E C]]; [tauto|exact Hw|]. rewrite E in H. cbn [bindR] in H.
  assert (Hw' : scalars w') by (refine (Converts_scalars _ C Hw); tauto). clear F E.
  destruct w' as [|c w']; [apply Reason_empty; exact C|]. set (v := c :: w') in *.
  destruct (trim_split v) as (n & Ev & Dv).
  destruct (is_number (trim_end_dots v)) eqn:EN.
  { apply Reason_numeral with (v := trim_end_dots v) (n := n); [rewrite <- Ev; exact C|exact Dv|]. apply is_number_spec. exact EN. }
  destruct (spell_break (checker_of pl d lt lu) fuel (erase_chars (ad_ignore A) (trim_end_dots v))) as [[|]| |] eqn:EB; cbn [bindR] in H; try discriminate H.
  - apply Reason_words with (v := trim_end_dots v) (n := n); [rewrite <- Ev; exact C|exact Dv|rewrite <- Ev; discriminate|].
    rewrite <- erase_chars_filter. apply (@break_glued lt lu fuel P HP); [|exact EB].
    rewrite erase_chars_filter. apply Forall_forall. intros y Hy. apply filter_In in Hy.
    exact (proj1 (Forall_forall _ _) (scalars_trim Hw') y (proj1 Hy)).
  - destruct (length (trim_end_dots v) =? length v) eqn:EQ; cbn [negb] in H; [discriminate H|].
    apply Reason_dotted with (v := trim_end_dots v) (n := n); [rewrite <- Ev; exact C|exact Dv| |].
    + intros ->. rewrite Ev in EQ at 2. unfold dots in EQ. cbn [repeat] in EQ. rewrite app_nil_r, Nat.eqb_refl in EQ. discriminate EQ.
    + rewrite <- Ev. exact (@break_glued lt lu fuel P HP 9 v Hw' H).
Qed.

Theorem C81_every_acceptance_has_a_reason : forall fuel w, scalars w -> check k fuel w = Ret true ->
  (blen w <= 360)%N /\ Reason (Explained pl d) w.
Proof. intros fuel w Hw H. apply (@check_reason false false fuel); [|exact Hw|exact H]. intros x f Hx. apply casing_explained. exact Hx. Qed.

Theorem C81_accepted_words : forall w, scalars w -> accepted pl d w -> (blen w <= 360)%N /\ Reason (Explained pl d) w.
Proof. intros w Hw [n E]. exact (@C81_every_acceptance_has_a_reason n w Hw (E n (le_n _))). Qed.

(** For an ordinary word: the word list explains it in pieces. *)
Theorem C81_ordinary_words : forall w, scalars w -> ordinary k w -> accepted pl d w -> Glued d (Explained pl d) 9 w.
Proof.
  intros w Hw HO [n E]. specialize (E n (le_n _)). unfold dict_check in E. rewrite check_ordinary in E by exact HO.
  unfold spell_break in E. destruct (do_spell_break k n 9 w) as [[|]| |] eqn:EB; cbn [bindR] in E; try discriminate E.
  exact (break_explained _ _ Hw EB).
Qed.

(** A dictionary without entries accepts only numerals, the empty word and what ICONV makes of them. *)
Theorem C81_no_entries : d_words d = [] -> forall w, scalars w -> accepted pl d w ->
  Converts (ct_inner (ad_iconv A)) w [] \/
  exists v n, Converts (ct_inner (ad_iconv A)) w (v ++ dots n) /\ no_final_dot v /\ Numeral v.
Proof.
  intros HE w Hw Y.
  assert (NX : forall x, ~ Explained pl d x).
  { intros x (v & fu & hh & ok & f & _ & HF & _). apply (finds_iff WP) in HF. destruct (found_entry HF) as [st Hst].
    rewrite (entries_get WP) in Hst. apply entries_In in Hst. rewrite HE in Hst. destruct Hst. }
  assert (NG : forall n x, ~ Glued d (Explained pl d) n x).
  { intros n x G. induction G; [eapply NX; eassumption|assumption..]. }
  destruct (C81_accepted_words Hw Y) as [_ [C|v n C D N|v n C D N G|v n C D N G]].
  - left. exact C.
  - right. exists v, n. auto.
  - destruct (NG _ _ G).
  - destruct (NG _ _ G).
Qed.

(** [Recased w v]: [v] is [w] after changes of case, of the whole or on both sides of an
    apostrophe, and with CHECKSHARPS after exchanges of ss for sharp s. *)
Inductive Recased (w : str) : str -> Prop :=
| Recased_same : Recased w w
| Recased_lower : forall v, Recased w v -> Recased w (lowercase U h v)
| Recased_upper : forall v, Recased w v -> Recased w (uppercase U h v)
| Recased_title : forall v t, Recased w v -> titlecase U h v = Ret t -> Recased w t
| Recased_apostrophe : forall a b ta tb, Recased w ((a ++ [39%N]) ++ b) -> ~ In 39%N a ->
    ta = lowercase U h (a ++ [39%N]) \/ titlecase U h (a ++ [39%N]) = Ret ta -> titlecase U h b = Ret tb -> Recased w (ta ++ tb)
| Recased_sharp : forall v v', Recased w v -> o_checksharps opts = true -> SharpVariant 5 v v' -> Recased w v'.

(** Some recasing of the word is found, with flags that are not barred. *)
Definition FoundRecased (w : str) : Prop :=
  exists v fu hh flags, Recased w v /\ Finds pl d fu hh v flags /\ ~ Barred d flags.

Lemma recased_scalars : forall w v, scalars w -> Recased w v -> scalars v.
Proof.
  assert (WU : wf_unicode U) by apply WP.
  intros w v Hw H. induction H as [|v H IH|v H IH|v t H IH E|a b ta tb H IH _ E1 E2|v v' H IH _ HV].
  - exact Hw.
  - apply scalars_lower; assumption.
  - apply scalars_upper; assumption.
  - exact (titlecase_scalars WP _ IH E).
  - apply scalars_app_iff in IH. destruct IH as [H1 H2]. apply scalars_app_iff. split; [|exact (titlecase_scalars WP _ H2 E2)].
    destruct E1 as [->|E1]; [apply scalars_lower; assumption|exact (titlecase_scalars WP _ H1 E1)].
  - exact (sharp_variant_scalars HV IH).
Qed.

Section Options.
Variables lt lu : bool.
Notation kk := (checker_of pl d lt lu).
Definition tried (fuel : nat) (w : str) (f : flagset) : Prop :=
  exists v fu hh, Recased w v /\ check_word kk fuel v fu hh = Ret (Some f).

Lemma attempt_tried : forall fuel w a f, Recased w (at_word a) -> try_one kk fuel a = Ret (Some f) -> tried fuel w f.
Proof.
  intros fuel w a f HR E. unfold try_one in E.
  destruct (check_word kk fuel (at_word a) (at_fu a) (at_hh a)) as [[f'|]| |] eqn:EW; cbn [bindR] in E; try discriminate E.
  destruct (at_filter a f'); [|discriminate E]. injection E as ->. exists (at_word a), (at_fu a), (at_hh a). auto.
Qed.

Lemma title_tried : forall fuel w x f, Recased w x -> spell_casing_title kk fuel x = Ret (Some f) -> tried fuel w f.
Proof.
  intros fuel w x f HR E. rewrite plan_title_spec in E. apply firstR_some in E. destruct E as (a & Ha & E).
  refine (@attempt_tried fuel w a f _ E). destruct Ha as [<-|[<-|[]]]; cbn [at_word]; [exact HR|apply Recased_lower; exact HR].
Qed.

Lemma sharps_recased : forall w x a, o_checksharps opts = true -> Recased w x -> In a (sharps_plan x) -> Recased w (at_word a).
Proof.
  intros w x a HS HR Ha. unfold sharps_plan in Ha. destruct (has_ss x); [|destruct Ha].
  apply in_map_iff in Ha. destruct Ha as [v [<- Hv]]. apply sharp_variants_spec in Hv. exact (Recased_sharp HR HS Hv).
Qed.

Lemma upper_tried : forall fuel w x f, Recased w x -> spell_casing_upper kk fuel x = Ret (Some f) -> tried fuel w f.
Proof.
  intros fuel w x f HR E. destruct x as [|c x].
  { unfold spell_casing_upper in E. destruct (check_word kk fuel [] AllowBadForceucase AcceptHiddenHomonym) as [[f'|]| |] eqn:EW; cbn in E; try discriminate E.
    - injection E as ->. exists [], AllowBadForceucase, AcceptHiddenHomonym. auto.
    - rewrite andb_false_r in E. cbn in E. discriminate E. }
  rewrite plan_upper_spec in E by discriminate. apply firstR_some in E. destruct E as (a & Ha & E).
  refine (@attempt_tried fuel w a f _ E). clear E. set (y := c :: x) in *.
  assert (HT : titlecase U h y = Ret (title kk y)) by (apply (@titlecase_ne kk); discriminate).
  unfold plan_upper in Ha. destruct Ha as [<-|Ha]; [exact HR|]. rewrite !in_app_iff in Ha. destruct Ha as [Ha|[Ha|Ha]].
  - destruct (apostrophe_split y) as [[p1 p2]|] eqn:EA; [|destruct Ha].
    destruct (apostrophe_spec _ EA) as (u & -> & Hu & Ew & Hb). rewrite Ew in HR.
    assert (T2 : titlecase U h p2 = Ret (title kk p2)) by (apply (@titlecase_ne kk); exact Hb).
    destruct Ha as [<-|[<-|[]]]; cbn [at_word lenient].
    + eapply Recased_apostrophe; [exact HR|exact Hu|left; reflexivity|exact T2].
    + eapply Recased_apostrophe; [exact HR|exact Hu|right; apply (@titlecase_ne kk); destruct u; discriminate|exact T2].
  - destruct (o_checksharps _ && _) eqn:ES in Ha; [|destruct Ha]. apply andb_true_iff in ES. destruct ES as [ES _].
    apply in_app_or in Ha. destruct Ha as [Ha|Ha]; (eapply sharps_recased; [exact ES| |exact Ha]).
    + apply Recased_lower. exact HR.
    + exact (Recased_title HR HT).
  - destruct Ha as [<-|[<-|[]]]; cbn [at_word no_keep_case]; [exact (Recased_title HR HT)|apply Recased_lower; exact HR].
Qed.

Lemma casing_tried : forall fuel w f, spell_casing kk fuel w = Ret (Some f) -> tried fuel w f.
Proof.
  intros fuel w f E. unfold spell_casing in E.
  assert (L : forall b, (check_word kk fuel w ForbidBadForceucase AcceptHiddenHomonym
      ORELSE (if ck_lower_as_title kk && b then (t <- titlecase (ck_u kk) (o_case (ad_options (ck_aff kk))) w ;; spell_casing_title kk fuel t) else Ret None)
      ORELSE (if ck_lower_as_upper kk then spell_casing_upper kk fuel (uppercase (ck_u kk) (o_case (ad_options (ck_aff kk))) w) else Ret None)) = Ret (Some f) ->
    tried fuel w f).
  { intros b X. destruct (check_word kk fuel w ForbidBadForceucase AcceptHiddenHomonym) as [[f'|]| |] eqn:EW; cbn [orelse] in X; try discriminate X.
    { injection X as ->. exists w, ForbidBadForceucase, AcceptHiddenHomonym. split; [apply Recased_same|exact EW]. }
    destruct (if ck_lower_as_title kk && b then _ else _) as [[f'|]| |] eqn:ET in X; cbn [orelse] in X; try discriminate X.
    { injection X as ->. destruct (ck_lower_as_title kk && b); [|discriminate ET].
      destruct (titlecase _ _ w) as [t| |] eqn:E1 in ET; cbn [bindR] in ET; try discriminate ET.
      refine (title_tried _ _ ET). exact (Recased_title (Recased_same w) E1). }
    destruct (ck_lower_as_upper kk); [|discriminate X]. refine (upper_tried _ _ X). apply Recased_upper, Recased_same. }
  destruct (classify_casing (ck_u kk) w).
  - exact (L true E).
  - exact (title_tried _ (Recased_same w) E).
  - exact (upper_tried _ (Recased_same w) E).
  - exact (L true E).
  - exact (L false E).
Qed.

(** With any options of the checker: some recasing of each piece is found. *)
Theorem C81_any_options : forall fuel w, scalars w -> check kk fuel w = Ret true -> (blen w <= 360)%N /\ Reason FoundRecased w.
Proof.
  intros fuel w Hw H. apply (@check_reason lt lu fuel); [|exact Hw|exact H]. clear w Hw H. intros w f Hw H HA.
  destruct (casing_tried _ _ H) as (v & fu & hh & HR & EW).
  pose proof (dict_wf_compound WP (reachable_ok WP R) lt lu) as WC.
  pose proof (word_found WC _ _ _ (recased_scalars Hw HR) EW) as HF.
  assert (Wf : wf_flagset f).
  { destruct (found_entry HF) as [st Hst]. exact (wf_entries (wfc_checker WC) _ _ Hst). }
  exists v, fu, hh, f. split; [exact HR|]. split; [apply (finds_iff WP); exact HF|]. apply (@accepted_spec kk f Wf). exact HA.
Qed.
End Options.
End Dict.

(** The search for compounds need not end in this dictionary, and its words are read through
    ICONV and IGNORE. *)
Definition loose_aff : str := lit "COMPOUNDFLAG C
COMPOUNDMIN 1
SIMPLIFIEDTRIPLE
IGNORE ~
ICONV 1
ICONV q k
".
Definition loose_dic : str := lit "3
book/C
etc.
Paris
".
Definition loose : dictionary := Eval vm_compute in (the (built ex_pl loose_aff loose_dic) <: dictionary).
Lemma loose_reachable : Reachable ex_pl loose. Proof. ex_dict loose_aff loose_dic. Qed.
Lemma loose_grows : ~ Shrinks (d_aff loose).
Proof. intros [H _]. specialize (H eq_refl). vm_compute in H. lia. Qed.

Example C81_example :
  accepted ex_pl loose (lit "Boo~q-book..") /\ accepted ex_pl loose (lit "12.5.") /\ accepted ex_pl loose (lit "etc.") /\
  (forall w, scalars w -> accepted ex_pl loose w -> Reason loose (Explained ex_pl loose) w) /\
  Reason loose (Explained ex_pl loose) (lit "Boo~q-book..").
Proof.
  assert (Y : accepted ex_pl loose (lit "Boo~q-book..")) by settle 50.
  assert (F : forall w, scalars w -> accepted ex_pl loose w -> Reason loose (Explained ex_pl loose) w).
  { intros w Hw H. exact (proj2 (@C81_accepted_words ex_pl ex_pl_wf loose loose_reachable w Hw H)). }
  split; [exact Y|]. split; [settle 50|]. split; [settle 50|]. split; [exact F|]. apply F; [apply lit_scalars; reflexivity|exact Y].
Qed.

Example C81_options_example :
  check (checker_of ex_pl loose true false) 50 (lit "paris") = Ret true /\ ~ accepted ex_pl loose (lit "paris") /\
  Reason loose (FoundRecased ex_pl loose) (lit "paris").
Proof.
  assert (Y : check (checker_of ex_pl loose true false) 50 (lit "paris") = Ret true) by (vm_compute; reflexivity).
  split; [exact Y|]. split.
  - intros [n E]. assert (X : rejected ex_pl loose (lit "paris")) by settle 50. destruct X as [m X].
    specialize (E (n + m) ltac:(lia)). specialize (X (n + m) ltac:(lia)). unfold dict_check in *. congruence.
  - refine (proj2 (@C81_any_options ex_pl ex_pl_wf loose loose_reachable true false 50 (lit "paris") _ Y)). apply lit_scalars; reflexivity.
Qed.

(** An empty dictionary meets the hypothesis of [C81_no_entries]. *)
Definition none : dictionary := Eval vm_compute in (the (built ex_pl loose_aff (lit "0
")) <: dictionary).
Lemma none_reachable : Reachable ex_pl none. Proof. ex_dict loose_aff (lit "0
"). Qed.
Example C81_none_example : d_words none = [] /\ accepted ex_pl none (lit "1,5.") /\ ~ accepted ex_pl none (lit "book").
Proof.
  split; [reflexivity|]. split; [settle 50|]. intro Y.
  destruct (@C81_no_entries ex_pl ex_pl_wf none none_reachable eq_refl (lit "book") ltac:(apply lit_scalars; reflexivity) Y) as [C|(v & n & C & D & N)].
  - inversion C as [|x w out Hno H|c r out Hc Hu Hmax H E1 E2].
    cbn in Hc. destruct Hc as [<-|[]]. discriminate E2.
  - assert (E : v ++ dots n = lit "book").
    { assert (X : forall w out, ~ In 113%N w -> Converts (ct_inner (ad_iconv (d_aff none))) w out -> out = w).
      { intros w out Hq HC. induction HC as [|x w out Hno H IH|c r out Hc Hu Hmax H IH]; [reflexivity| |].
        - f_equal. apply IH. intro I. apply Hq. right. exact I.
        - exfalso. apply Hq. destruct Hc as [<-|[]]. left. reflexivity. }
      apply (X (lit "book")); [|exact C]. vm_compute. intuition discriminate. }
    assert (n = 0) as ->.
    { destruct n; [reflexivity|]. exfalso. assert (L : rev (v ++ dots (S n)) = rev (lit "book")) by (rewrite E; reflexivity).
      rewrite rev_app_distr, dots_rev in L. discriminate L. }
    unfold dots in E. cbn [repeat] in E. rewrite app_nil_r in E. subst v. apply is_number_spec in N. discriminate N.
Qed.

Print Assumptions C81_every_acceptance_has_a_reason.
Print Assumptions C81_accepted_words.
Print Assumptions C81_ordinary_words.
Print Assumptions C81_any_options.
Print Assumptions C81_no_entries.
