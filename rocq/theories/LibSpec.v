(** Facts about [Dictionary]: construction, [add] and [remove_stem]. *)
From Coq Require Import List NArith ZArith Lia Bool Arith Permutation Sorted.
From Coq Require Import ZifyBool ZifyNat ZifyN.
From Verif Require Import Base Utf8 Unicode Flags Bag Condition Affix CompoundRule Conversion Aff Checker Spell
  AffixSpec Rep CompoundSpec CompoundTotal CheckSpec CheckProps Parser ParserSafe Lib.
Import ListNotations.
Set Implicit Arguments.

(** ** What is assumed of the platform *)
Record wf_platform (pl : platform) : Prop := {
  wp_unicode : wf_unicode (pl_unicode pl);
  wp_sort_affixes : forall k l, Permutation l (pl_sort_affixes pl k l) /\ sorted_by_key k (pl_sort_affixes pl k l);
  wp_sort_convs : forall l, Permutation l (pl_sort_convs pl l) /\ sorted_conv (pl_sort_convs pl l);
  wp_place : placement_ok (pl_place pl);
  wp_probe : probe_ok (pl_visits pl) }.

Section LibSpec.
Variable pl : platform.
Hypothesis WP : wf_platform pl.
Notation U := (pl_unicode pl).

(** A dictionary as construction and the later calls leave it. *)
Record dict_ok (d : dictionary) : Prop := {
  do_words : table_ok (d_words d);
  do_aff : exists x, lp_ok x /\ collect pl x = Ret (d_aff d) }.

(** The entries of a spelling: no hashing, no probing. *)
Definition entries (d : dictionary) (w : str) : list flagset :=
  map snd (filter (fun e => str_eqb w (fst e)) (d_words d)).

Lemma entries_get : forall d lt lu w, ck_get (checker_of pl d lt lu) w = entries d w.
Proof.
  intros d lt lu w. unfold checker_of, entries. cbn [ck_get]. rewrite bag_get_filter; [reflexivity|apply WP].
Qed.

Lemma entries_In : forall d w f, In f (entries d w) <-> In (w, f) (d_words d).
Proof.
  intros d w f. unfold entries. rewrite in_map_iff. split.
  - intros [[k g] [E H]]. cbn in E. subst g. apply filter_In in H. destruct H as [H E]. cbn in E.
    apply str_eqb_eq in E. subst k. exact H.
  - intro H. exists (w, f). split; [reflexivity|]. apply filter_In. split; [exact H|]. cbn. apply str_eqb_refl.
Qed.

(** ** Construction *)
Theorem new_safe : forall n aff dic, TitleFits pl n -> (n <= 65535)%N -> scalars aff -> scalars dic ->
  Forall (fun l => (blen l <= n)%N) (body_lines dic) -> safe dict_ok (new pl aff dic).
Proof.
  intros n aff dic HT Hn Ha Hd Hl. unfold new, parse.
  eapply safe_bind with (Q := fun r => table_ok (fst r) /\ exists x, lp_ok x /\ collect pl x = Ret (snd r)).
  - eapply safe_bind; [apply parse_aff_safe; exact Ha|]. intros x Hx.
    eapply safe_bind; [apply (@parse_dic_safe pl) with (n := n); [apply WP|exact Hx|exact HT|exact Hn|exact Hd|exact Hl]|].
    intros t Ht. destruct (@collect_ok pl (wp_sort_affixes WP) x Hx) as [a [E _]].
    rewrite E. cbn. split; [exact Ht|]. exists x. split; assumption.
  - intros r [H1 H2]. cbn. constructor; assumption.
Qed.

Lemma new_ok : forall aff dic d, scalars aff -> new pl aff dic = Ret (Ok d) ->
  exists x, lp_ok x /\ parse_aff pl aff = Ret (Ok x) /\ parse_dic pl x dic = Ret (Ok (d_words d)) /\
            collect pl x = Ret (d_aff d).
Proof.
  intros aff dic d Ha H. unfold new, parse in H. pose proof (parse_aff_safe pl Ha) as Hs.
  destruct (parse_aff pl aff) as [[x|e]| |] eqn:E1; cbn in H, Hs; try discriminate; try contradiction.
  destruct (parse_dic pl x dic) as [[t|e]| |] eqn:E2; cbn in H; try discriminate.
  destruct (collect pl x) as [a| |] eqn:E3; cbn in H; try discriminate. injection H as <-.
  exists x. cbn. auto.
Qed.

(** Whatever [new] returns is well formed, whether or not every input makes it return. *)
Definition partial {E A} (Q : A -> Prop) (x : P E A) : Prop := forall a, x = Ret (Ok a) -> Q a.

Lemma titlecase_scalars : forall h w t, scalars w -> titlecase (pl_unicode pl) h w = Ret t -> scalars t.
Proof.
  intros h [|c w] t Hs H; [discriminate|]. injection H as <-. inversion Hs; subst.
  apply scalars_app_iff. split; [apply scalars_upper_char; [apply WP|assumption]|].
  apply scalars_flat_map; [intros; apply scalars_lower_char; [apply WP|assumption]|assumption].
Qed.

Lemma insert_entry_partial : forall x t w fs t', table_ok t -> scalars w -> (blen w <= 65535)%N -> wf_flags fs ->
  insert_entry pl x t w fs = Ret t' -> table_ok t'.
Proof.
  intros x t w fs t' Ht Hw Hb Hf H. unfold insert_entry in H.
  destruct (needs_hidden_homonym pl (o_forbidden (x_options x)) w fs).
  - destruct (titlecase (pl_unicode pl) (o_case (x_options x)) w) as [ti| |] eqn:Et; try discriminate. cbn [bindR] in H.
    unfold stem_from in H. destruct (blen ti <=? 65535)%N eqn:Eb; [|discriminate]. cbn [bindR] in H.
    destruct Hf as [F1 F2].
    assert (valid_flag hidden_homonym_flag) as Hh by (unfold valid_flag, hidden_homonym_flag; lia).
    destruct (@with_flag_spec fs hidden_homonym_flag F2 Hh) as (fs' & E & W1 & W2). rewrite E in H. cbn [bindR] in H.
    injection H as <-. apply insert_ok; [apply WP| |exact Hw|exact Hb|split; assumption].
    apply insert_ok; [apply WP|exact Ht|eapply titlecase_scalars; eassumption|apply N.leb_le, Eb|]. split; [exact W1|].
    rewrite Forall_forall in *. intros g Hg. apply W2 in Hg. destruct Hg as [-> |Hg]; [exact Hh|auto].
  - injection H as <-. apply insert_ok; [apply WP|exact Ht|exact Hw|exact Hb|exact Hf].
Qed.

Lemma dic_line_partial : forall x ls t, lp_ok x -> lines_ok pl ls -> table_ok t -> partial table_ok (dic_line pl x ls t).
Proof.
  intros x ls t Hx Hl Ht t' H. unfold dic_line, cur_line in H. destruct (ln_rest ls) as [|nl rest] eqn:E; [injection H as <-; exact Ht|].
  assert (scalars (snd nl)) as S0 by (destruct Hl as [Q _]; rewrite E in Q; inversion Q; assumption).
  destruct (trim_ok pl S0) as [T1 T2]. destruct (trim pl (snd nl)) as [|c l] eqn:El; [injection H as <-; exact Ht|].
  remember (c :: l) as line eqn:Eline. clear Eline.
  destruct (_ && _); [injection H as <-; exact Ht|]. destruct (65535 <? _)%N eqn:Eb; [discriminate|].
  pose proof (@parse_dic_line_safe pl line (x_flag_type x) (x_aliases x) (x_ignore x) T1 (lo_aliases Hx)) as Q.
  destruct (parse_dic_line pl line (x_flag_type x) (x_aliases x) (x_ignore x)) as [[[w fs]|e]| |]; cbn in H, Q; try discriminate.
  destruct Q as (E1 & E2 & E3). cbn [fst snd] in *.
  destruct (insert_entry pl x t w fs) as [t2| |] eqn:F; try discriminate. injection H as <-.
  apply (@insert_entry_partial x t w fs t2); try assumption. apply N.ltb_ge in Eb. lia.
Qed.

Lemma dic_lines_partial : forall x, lp_ok x -> forall fuel ls t, lines_ok pl ls -> table_ok t ->
  partial table_ok (dic_lines pl fuel x ls t).
Proof.
  intros x Hx. induction fuel as [|fuel IH]; intros ls t Hl Ht t' H; [discriminate|]. cbn [dic_lines] in H.
  destruct (is_finished ls) eqn:Ef; [injection H as <-; exact Ht|].
  destruct (dic_line pl x (advance_line pl ls) t) as [[t1|e]| |] eqn:E; cbn in H; try discriminate.
  pose proof (advance_ok Hl) as Hl'. apply (@dic_line_partial x _ t Hx Hl' Ht) in E. exact (IH _ _ Hl' E _ H).
Qed.

Theorem new_dict_ok : forall aff dic d, scalars aff -> scalars dic -> new pl aff dic = Ret (Ok d) -> dict_ok d.
Proof.
  intros aff dic d Ha Hd H. destruct (@new_ok aff dic d Ha H) as [x [H1 [_ [H2 H3]]]].
  constructor; [|exists x; split; assumption]. unfold parse_dic in H2.
  pose proof (@lines_new_ok pl dic SrcDic Hd) as Hok. pose proof (safe_row_count Hok) as R.
  destruct (parse_row_count (lines_new pl dic SrcDic)) as [[[ls1 c]|e]| |]; cbn in H2, R; try discriminate.
  destruct R as [R1 R2]. exact (@dic_lines_partial x H1 (S (length (ln_rest ls1))) _ [] R1 (Forall_nil _) _ H2).
Qed.

(** ** The affix data *)
Section Aff.
Variable a : affdata.
Variable x : lparser.
Hypothesis LP : lp_ok x.
Hypothesis CO : collect pl x = Ret a.

Lemma aff_facts :
  index_wf Pfx (ad_prefixes a) /\ index_wf Sfx (ad_suffixes a) /\
  Forall affix_ok (i_table (ad_prefixes a)) /\ Forall affix_ok (i_table (ad_suffixes a)) /\
  opts_ok (ad_options a) /\ Forall wf_flags (ad_aliases a) /\ Forall pattern_ok (ad_patterns a) /\
  conv_table_ok (ad_iconv a) /\ Forall (fun c => scalars (cv_to c)) (ct_inner (ad_iconv a)) /\
  conv_table_ok (ad_oconv a) /\ Forall (fun c => scalars (cv_to c)) (ct_inner (ad_oconv a)) /\
  rep_from (x_reps x) = Ret (ad_reps a) /\ rule_table_from (x_rules x) = Ret (ad_rules a) /\
  Forall sim_ok (ad_sims a) /\ scalars (ad_ignore a) /\ scalars (ad_keyboard a) /\ scalars (ad_try a).
Proof.
  destruct (@collect_ok pl (wp_sort_affixes WP) x LP) as (a' & E & H).
  rewrite CO in E. injection E as <-.
  destruct H as (P1 & P2 & S1 & S2 & _ & _ & _ & R1 & R2 & _ & Q1 & I1 & O1 & M1 & G1 & K1 & T1 & X1 & _ & A1).
  split; [exact P2|]. split; [exact S2|].
  split; [eapply Permutation_Forall; [exact P1|apply erase_affixes_ok, lo_prefixes; exact LP]|].
  split; [eapply Permutation_Forall; [exact S1|apply erase_affixes_ok, lo_suffixes; exact LP]|].
  split; [rewrite X1; apply LP|]. split; [rewrite A1; apply LP|]. split; [rewrite Q1; apply LP|].
  destruct (@conv_table_from_ok pl (wp_sort_convs WP) _ (lo_iconv LP)) as (C1 & _ & C2).
  destruct (@conv_table_from_ok pl (wp_sort_convs WP) _ (lo_oconv LP)) as (C3 & _ & C4).
  rewrite I1, O1. repeat (split; [assumption|]). rewrite M1, G1, K1, T1.
  split; [apply LP|]. split; [apply LP|]. split; apply LP.
Qed.

Lemma affix_ok_wf : forall b, affix_ok b -> wf_affix b.
Proof. intros b (_ & [H1 _] & H2 & H3 & _ & H4). unfold wf_affix. auto. Qed.

Lemma rep_sel_scalars : forall p l, Forall pair_ok l -> Forall (fun e => scalars (fst e) /\ scalars (snd e)) (rep_sel p l).
Proof.
  intros p l H. unfold rep_sel. rewrite Forall_forall in *. intros e He. apply in_flat_map in He.
  destruct He as [[from to] [H1 H2]]. destruct (H _ H1) as (_ & _ & Hf & Ht). cbn [fst snd] in *.
  assert (scalars (snd (rep_class from))) as Hc.
  { unfold rep_class. destruct (strip_prefix [94%N] from) as [f1|] eqn:E1.
    - apply strip_prefix_spec in E1. subst from. apply Forall_app in Hf. destruct Hf as [_ Hf].
      destruct (strip_suffix [36%N] f1) as [f2|] eqn:E2; [|exact Hf].
      apply strip_suffix_spec in E2. subst f1. apply Forall_app in Hf. apply Hf.
    - destruct (strip_suffix [36%N] from) as [f1|] eqn:E2; [|exact Hf].
      apply strip_suffix_spec in E2. subst from. apply Forall_app in Hf. apply Hf. }
  destruct (rep_class from) as [[| | |] f]; destruct p; cbn in H2; try contradiction;
    destruct H2 as [<-|[]]; cbn; split; assumption.
Qed.

Lemma reps_facts : wf_reps (ad_reps a) /\
  Forall (fun e => scalars (fst e) /\ scalars (snd e)) (rp_table (ad_reps a)).
Proof.
  destruct aff_facts as (_ & _ & _ & _ & _ & _ & _ & _ & _ & _ & _ & R & _).
  assert (NE : Forall (fun e : str * str => fst e <> [] /\ snd e <> []) (x_reps x)).
  { eapply Forall_impl; [|apply lo_reps; exact LP]. intros e (H1 & H2 & _). auto. }
  destruct (@rep_from_spec (x_reps x) NE) as (t & E & W1 & W2 & W3 & W4 & W5).
  rewrite R in E. injection E as <-. split.
  - split; [|apply W5]. intros from to Hin. rewrite W4 in Hin. unfold rep_sel in Hin. apply in_flat_map in Hin.
    destruct Hin as [[f t'] [H1 H2]]. cbn [fst snd] in H2. unfold rep_class in H2.
    destruct (strip_prefix [94%N] f); [destruct (strip_suffix [36%N] _); contradiction|].
    destruct (strip_suffix [36%N] f); [contradiction|]. destruct H2 as [H2|[]]. injection H2 as <- <-.
    rewrite Forall_forall in NE. destruct (NE _ H1) as [H _]. cbn in H. destruct f; [contradiction|cbn; lia].
  - unfold rep_from in R. rewrite rep_split_spec in R by exact NE. cbn in R. injection R as R. rewrite <- R. cbn [rp_table].
    repeat (apply Forall_app; split); apply rep_sel_scalars, lo_reps; exact LP.
Qed.
End Aff.

(** ** Well-formedness of the checker *)
Section Wf.
Variable d : dictionary.
Hypothesis OK : dict_ok d.

Lemma dict_entry_ok : forall w f, In f (entries d w) -> scalars w /\ (blen w <= 65535)%N /\ wf_flags f.
Proof.
  intros w f H. apply entries_In in H. pose proof (do_words OK) as K. unfold table_ok in K. rewrite Forall_forall in K.
  apply (K _ H).
Qed.

Lemma dict_wf_checker : forall lt lu, wf_checker (checker_of pl d lt lu).
Proof.
  intros lt lu. destruct (do_aff OK) as (x & LP & CO). destruct (aff_facts LP CO) as (P1 & S1 & P2 & S2 & _).
  constructor; cbn [ck_aff checker_of]; try assumption.
  - eapply Forall_impl; [|exact P2]. intros; apply affix_ok_wf; assumption.
  - eapply Forall_impl; [|exact S2]. intros; apply affix_ok_wf; assumption.
  - intros w f H. change (In f (ck_get (checker_of pl d lt lu) w)) in H. rewrite entries_get in H.
    destruct (dict_entry_ok _ _ H) as (_ & _ & Q & _). exact Q.
Qed.

Lemma dict_wf_compound : forall lt lu, wf_compound (checker_of pl d lt lu).
Proof.
  intros lt lu. destruct (do_aff OK) as (x & LP & CO). destruct (reps_facts LP CO) as [R1 R2].
  destruct (aff_facts LP CO) as (_ & _ & _ & _ & O & _ & Q & _).
  constructor; cbn [ck_aff checker_of]; [apply dict_wf_checker|exact R1|exact R2| |].
  - eapply Forall_impl; [|exact Q]. intros p (Q1 & Q2 & _). auto.
  - pose proof (oo_min_length O) as H. intro E. rewrite E in H. cbn in H. lia.
Qed.

Theorem dict_wf_full : forall lt lu, Shrinks (d_aff d) -> wf_full (checker_of pl d lt lu).
Proof.
  intros lt lu S0. destruct (do_aff OK) as (x & LP & CO).
  destruct (aff_facts LP CO) as (_ & _ & _ & _ & _ & _ & _ & I1 & I2 & _).
  constructor; cbn [ck_aff ck_u checker_of]; [apply WP|apply dict_wf_compound|exact S0|exact I1|exact I2].
Qed.

(** Without SIMPLIFIEDTRIPLE or CHECKCOMPOUNDPATTERN compounding always shrinks; so it does
    when COMPOUNDMIN is at least two and no pattern has an end longer than its replacement. *)
Lemma plain_shrinks : o_simplified_triple (ad_options (d_aff d)) = false -> ad_patterns (d_aff d) = [] ->
  Shrinks (d_aff d).
Proof. intros H1 H2. constructor; [congruence|]. rewrite H2. intros p r []. Qed.
End Wf.

(** ** [add] *)
Theorem add_total : forall d line, dict_ok d -> scalars line ->
  exists r d', add pl d line = Ret (r, d') /\ dict_ok d'.
Proof.
  intros d line OK Hl. unfold add. destruct (do_aff OK) as (x & LP & CO).
  destruct (aff_facts LP CO) as (_ & _ & _ & _ & _ & AL & _).
  pose proof (@parse_dic_line_safe pl line (ad_flag_type (d_aff d)) (ad_aliases (d_aff d)) (ad_ignore (d_aff d)) Hl AL) as HS.
  destruct (parse_dic_line pl line _ _ _) as [[[w f]|e]| |] eqn:E; cbn in HS; try contradiction; cbn [bindR].
  - eexists _, _. split; [reflexivity|]. constructor; cbn; [|eauto].
    destruct HS as (H1 & H2 & H3). cbn in H1, H2, H3.
    assert (blen line <= 65535)%N as HB.
    { unfold parse_dic_line in E. destruct (65535 <? blen line)%N eqn:F; [discriminate|]. lia. }
    apply insert_ok; [apply WP|apply OK|exact H1|lia|exact H3].
  - eexists _, _. split; [reflexivity|]. exact OK.
Qed.

(** The word list after a successful [add] has exactly one more entry. *)
Theorem add_entries : forall d line r d', add pl d line = Ret (r, d') ->
  d_aff d' = d_aff d /\
  match r with
  | Ok _ => exists w f,
      parse_dic_line pl line (ad_flag_type (d_aff d)) (ad_aliases (d_aff d)) (ad_ignore (d_aff d)) = Ret (Ok (w, f)) /\
      Permutation ((w, f) :: d_words d) (d_words d') /\
      (forall v, v <> w -> Permutation (entries d v) (entries d' v)) /\
      Permutation (f :: entries d w) (entries d' w)
  | Err _ => d' = d
  end.
Proof.
  intros d line r d' H. unfold add in H.
  destruct (parse_dic_line pl line _ _ _) as [[[w f]|e]| |] eqn:E; cbn in H; try discriminate; injection H as <- <-.
  - split; [reflexivity|]. exists w, f. cbn [d_words]. unfold bag_insert.
    pose proof (wp_place WP (d_words d) (w, f)) as P. split; [reflexivity|]. split; [exact P|].
    unfold entries. cbn [d_words]. split.
    + intros v Hv. apply Permutation_map. eapply Permutation_trans; [|apply Permutation_filter'; exact P].
      cbn [filter fst]. apply str_eqb_neq in Hv. rewrite Hv. apply Permutation_refl.
    + eapply Permutation_trans; [|apply Permutation_map, Permutation_filter'; exact P].
      cbn [filter fst]. rewrite str_eqb_refl. apply Permutation_refl.
  - split; reflexivity.
Qed.

(** ** A listed word is accepted *)
Theorem listed_accepted : forall k w, wf_checker k -> ordinary k w ->
  (forall f, In f (ck_get k w) -> ~ Blocked k f) ->
  (exists f, DirectWord (ck_aff k) (fun stem flags => In flags (ck_get k stem)) SkipHiddenHomonym w f) ->
  forall fuel, check k fuel w = Ret true.
Proof.
  intros k w WF HO HB [f HD] fuel.
  assert (forall hh, exists f, check_direct k w hh = Some f /\ In f (ck_get k w)) as HX.
  { intro hh. assert (DirectWord (ck_aff k) (fun stem flags => In flags (ck_get k stem)) hh w f) as HD'.
    { destruct HD as (X1 & X2 & X3 & X4). split; [exact X1|]. split; [exact X2|]. split; [exact X3|]. intros _. apply X4. reflexivity. }
    destruct (direct_complete WF HD') as [f' E]. exists f'. split; [exact E|]. apply (direct_sound WF) in E. apply E. }
  assert (forall fu hh, exists f, check_word k fuel w fu hh = Ret (Some f) /\ In f (ck_get k w)) as HW.
  { intros fu hh. destruct (HX hh) as [f' [E Hf]]. exists f'. split; [|exact Hf]. unfold check_word, check_simple_word. rewrite E. reflexivity. }
  assert (exists f, spell_casing k fuel w = Ret (Some f) /\ In f (ck_get k w)) as [f' [E Hf]].
  { unfold spell_casing, spell_casing_upper, spell_casing_title.
    destruct (classify_casing (ck_u k) w);
      match goal with |- context [check_word k fuel w ?fu ?hh] => destruct (HW fu hh) as [f' [-> Hf]] end; eauto. }
  rewrite check_ordinary by exact HO. unfold spell_break. rewrite (break_hit _ _ _ _ E). cbn [bindR].
  assert (accepted_flags k f' = true) as ->; [|reflexivity].
  pose proof (wf_entries WF _ _ Hf) as Wf. pose proof (HB f' Hf) as NB.
  unfold accepted_flags. rewrite andb_true_iff, !negb_true_iff. split.
  - apply not_true_is_false. intro Q. apply NB. left. unfold is_forbidden in Q. apply contains_spec in Q; assumption.
  - apply not_true_is_false. intro Q. apply andb_true_iff in Q. destruct Q as [Q1 Q2]. apply NB. right.
    split; [exact Q1|]. apply (has_flag_spec _ Wf). exact Q2.
Qed.

(** After a successful [add] of a stem with ordinary flags, [check] accepts the stem, provided
    no homonym of it already in the dictionary forbids it. *)
Theorem add_accepted : forall d line d' w f, dict_ok d -> scalars line -> add pl d line = Ret (Ok tt, d') ->
  parse_dic_line pl line (ad_flag_type (d_aff d)) (ad_aliases (d_aff d)) (ad_ignore (d_aff d)) = Ret (Ok (w, f)) ->
  let k := checker_of pl d' false false in
  ordinary k w -> ~ marked (o_need_affix (ad_options (d_aff d))) f ->
  ~ marked (o_only_in_compound (ad_options (d_aff d))) f -> ~ In hidden_homonym_flag f ->
  ~ Blocked k f -> (forall g, In g (entries d w) -> ~ Blocked k g) ->
  forall fuel, dict_check pl d' fuel w = Ret true.
Proof.
  intros d line d' w f OK Hl HA HP k HO H1 H2 H3 H4 H5 fuel.
  destruct (add_total OK Hl) as (r & d2 & E & OK'). rewrite HA in E. injection E as <- <-.
  destruct (add_entries _ _ HA) as (HF & w' & f' & HP' & HQ1 & HQ2 & HQ3). rewrite HP in HP'. injection HP' as <- <-.
  unfold dict_check. apply listed_accepted; [apply dict_wf_checker; exact OK'|exact HO| |].
  - intros g Hg. rewrite entries_get in Hg. apply (Permutation_in _ (Permutation_sym HQ3)) in Hg.
    destruct Hg as [<-|Hg]; [exact H4|apply H5; exact Hg].
  - exists f. unfold DirectWord, usable_entry. cbn [ck_aff checker_of]. rewrite HF.
    split; [change (In f (ck_get (checker_of pl d' false false) w)); rewrite entries_get; apply (Permutation_in _ HQ3); left; reflexivity|].
    split; [exact H1|]. split; auto.
Qed.

(** ** [remove_stem] *)
Definition remove_one (forbidden : N) (word : str) (e e' : str * flagset) : Prop :=
  fst e' = fst e /\
  (fst e <> word -> snd e' = snd e) /\
  (fst e = word -> In forbidden (snd e) -> snd e' = snd e) /\
  (fst e = word -> wf_flags (snd e') /\ forall g, In g (snd e') <-> g = forbidden \/ In g (snd e)).

Lemma remove_go_spec : forall fb word t, valid_flag fb -> table_ok t ->
  exists b t', remove_go pl fb word t = Ret (b, t') /\ table_ok t' /\ Forall2 (remove_one fb word) t t' /\
    (b = true <-> exists f, In (word, f) t /\ ~ In fb f) /\ (b = false -> t' = t).
Proof.
  intros fb word t Hfb. induction t as [|[k f] t IH]; intro Ht.
  - exists false, []. split; [reflexivity|]. split; [constructor|]. split; [constructor|]. split; [|reflexivity].
    split; [discriminate|intros [f [[] _]]].
  - inversion Ht as [|? ? He Ht']; subst. destruct (IH Ht') as (b & t' & E & T1 & T2 & T3 & T4).
    cbn [fst snd] in He. destruct He as (He1 & He2 & He3). pose proof He3 as [Hw Hv].
    cbn [remove_go fst snd]. rewrite E.
    destruct (str_eqb word k) eqn:Ek.
    + apply str_eqb_eq in Ek. subst k. rewrite (wp_probe WP). cbn [andb].
      destruct (contains f fb) eqn:Ec; cbn [negb bindR fst snd].
      * apply contains_spec in Ec; [|exact Hw]. exists b, ((word, f) :: t'). split; [reflexivity|].
        split; [constructor; [cbn; auto|exact T1]|]. split.
        { constructor; [|exact T2]. unfold remove_one. cbn. split; [reflexivity|]. split; [reflexivity|]. split; [reflexivity|].
          intros _. split; [exact He3|]. intro g. split; [auto|]. intros [-> |Q]; assumption. }
        split; [|intro Q; rewrite (T4 Q); reflexivity].
        rewrite T3. split; intros [g [G1 G2]]; exists g; (split; [|exact G2]); [right; exact G1|].
        destruct G1 as [G1|G1]; [|exact G1]. injection G1 as <-. contradiction.
      * destruct (@with_flag_spec f fb Hv Hfb) as (f' & Ef & W1 & W2). rewrite Ef. cbn [bindR fst snd].
        assert (wf_flags f') as W3.
        { split; [exact W1|]. rewrite Forall_forall in *. intros g Hg. apply W2 in Hg. destruct Hg as [-> |Hg]; auto. }
        exists true, ((word, f') :: t'). split; [reflexivity|]. split; [constructor; [cbn; auto|exact T1]|].
        assert (NI : ~ In fb f). { intro Q. apply contains_spec in Q; [congruence|exact Hw]. }
        split.
        { constructor; [|exact T2]. unfold remove_one. cbn. split; [reflexivity|]. split; [congruence|]. split; [contradiction|].
          intros _. split; [exact W3|exact W2]. }
        split; [|discriminate]. split; [|reflexivity]. intros _. exists f. split; [left; reflexivity|exact NI].
    + rewrite andb_false_r. cbn [andb bindR fst snd]. apply str_eqb_neq in Ek.
      exists b, ((k, f) :: t'). split; [reflexivity|]. split; [constructor; [cbn; auto|exact T1]|]. split.
      { constructor; [|exact T2]. unfold remove_one. cbn. split; [reflexivity|]. split; [reflexivity|]. split; [congruence|]. intro Q. congruence. }
      split; [|intro Q; rewrite (T4 Q); reflexivity].
      rewrite T3. split; intros [g [G1 G2]]; exists g; (split; [|exact G2]); [right; exact G1|].
      destruct G1 as [G1|G1]; [|exact G1]. injection G1 as G1 _. congruence.
Qed.

Lemma forbidden_valid : forall d, dict_ok d -> valid_flag (o_forbidden (ad_options (d_aff d))).
Proof.
  intros d OK. destruct (do_aff OK) as (x & LP & CO). destruct (aff_facts LP CO) as (_ & _ & _ & _ & O & _).
  apply (oo_forbidden O).
Qed.

Theorem remove_stem_spec : forall d word, dict_ok d ->
  exists b d', remove_stem pl d word = Ret (b, d') /\ dict_ok d' /\ d_aff d' = d_aff d /\
    (b = true <-> exists f, In f (entries d word) /\ ~ In (o_forbidden (ad_options (d_aff d))) f) /\
    (b = false -> d' = d) /\
    (forall v, v <> word -> entries d' v = entries d v) /\
    Forall2 (fun f f' => forall g, In g f' <-> g = o_forbidden (ad_options (d_aff d)) \/ In g f)
      (entries d word) (entries d' word).
Proof.
  intros d word OK. pose proof (forbidden_valid OK) as FV. set (fb := o_forbidden (ad_options (d_aff d))) in *.
  destruct (@remove_go_spec fb word (d_words d) FV (do_words OK)) as (b & t' & E & T1 & T2 & T3 & T4).
  exists b, (mkDict t' (d_aff d)). unfold remove_stem. fold fb. rewrite E. cbn [bindR fst snd].
  split; [reflexivity|]. split; [constructor; cbn; [exact T1|apply OK]|]. split; [reflexivity|].
  split; [rewrite T3; split; intros [f [F1 F2]]; exists f; (split; [|exact F2]); apply entries_In; exact F1|].
  split; [intro Q; rewrite (T4 Q); destruct d; reflexivity|].
  unfold entries. cbn [d_words]. clear E T1 T3 T4. split.
  - intros v Hv. induction T2 as [|[k f] [k' f'] t t' H T2 IH]; [reflexivity|]. cbn [filter fst].
    destruct H as (H1 & H2 & _). cbn [fst snd] in *. subst k'. destruct (str_eqb v k) eqn:Ek; [|exact IH].
    apply str_eqb_eq in Ek. subst k. cbn [map snd]. rewrite (H2 Hv). f_equal. exact IH.
  - induction T2 as [|[k f] [k' f'] t t' H T2 IH]; [constructor|]. cbn [filter fst].
    destruct H as (H1 & _ & _ & H2). cbn [fst snd] in *. subst k'. destruct (str_eqb word k) eqn:Ek; [|exact IH].
    apply str_eqb_eq in Ek. subst k. cbn [map snd]. constructor; [apply H2; reflexivity|exact IH].
Qed.

(** Every remaining entry of the stem is forbidden. *)
Lemma removed_forbidden : forall d word b d', dict_ok d -> remove_stem pl d word = Ret (b, d') ->
  forall f, In f (entries d' word) -> In (o_forbidden (ad_options (d_aff d))) f.
Proof.
  intros d word b d' OK H f Hf. destruct (remove_stem_spec word OK) as (b2 & d2 & E & _ & _ & _ & _ & _ & F).
  rewrite H in E. injection E as <- <-. clear H.
  induction F as [|x y l l' Hxy F IH]; [destruct Hf|]. destruct Hf as [<-|Hf]; [apply Hxy; left; reflexivity|apply IH; exact Hf].
Qed.

Theorem remove_twice : forall d word b d', dict_ok d -> remove_stem pl d word = Ret (b, d') ->
  remove_stem pl d' word = Ret (false, d').
Proof.
  intros d word b d' OK H. destruct (remove_stem_spec word OK) as (b2 & d2 & E & OK' & EA & _).
  rewrite H in E. injection E as <- <-. destruct (remove_stem_spec word OK') as (b3 & d3 & E3 & _ & _ & B3 & S3 & _).
  assert (b3 = false) as ->.
  { destruct b3; [|reflexivity]. exfalso. destruct (proj1 B3 eq_refl) as (f & F1 & F2). apply F2. rewrite EA.
    eapply removed_forbidden; eassumption. }
  rewrite E3, (S3 eq_refl). reflexivity.
Qed.

(** The stem itself is rejected afterwards. *)
Theorem removed_rejected : forall d word b d', dict_ok d -> remove_stem pl d word = Ret (b, d') ->
  ordinary (checker_of pl d false false) word ->
  (exists f, DirectWord (d_aff d) (fun stem flags => In flags (entries d stem)) SkipHiddenHomonym word f) ->
  o_need_affix (ad_options (d_aff d)) <> Some (o_forbidden (ad_options (d_aff d))) ->
  o_only_in_compound (ad_options (d_aff d)) <> Some (o_forbidden (ad_options (d_aff d))) ->
  hidden_homonym_flag <> o_forbidden (ad_options (d_aff d)) ->
  forall fuel, dict_check pl d' fuel word = Ret false.
Proof.
  intros d word b d' OK H HO [f (D1 & D2 & D3 & D4)] N1 N2 N3 fuel.
  destruct (remove_stem_spec word OK) as (b2 & d2 & E & OK' & EA & _ & _ & _ & F). rewrite H in E. injection E as <- <-.
  unfold dict_check. apply forbidden_rejected; [apply dict_wf_checker; exact OK'| | |].
  - destruct HO. constructor; cbn [ck_aff checker_of] in *; try rewrite EA; assumption.
  - intros g Hg. rewrite entries_get in Hg. left. cbn [ck_aff checker_of]. rewrite EA. eapply removed_forbidden; eassumption.
  - cbn [ck_aff checker_of]. rewrite EA.
    assert (exists f', In f' (entries d' word) /\ forall g, In g f' <-> g = o_forbidden (ad_options (d_aff d)) \/ In g f) as (f' & I1 & I2).
    { clear -F D1. induction F as [|x y l l' Hxy F IH]; [destruct D1|]. destruct D1 as [-> |D1].
      - exists y. split; [left; reflexivity|exact Hxy].
      - destruct (IH D1) as (f' & I1 & I2). exists f'. split; [right; exact I1|exact I2]. }
    exists f'. split; [change (In f' (ck_get (checker_of pl d' false false) word)); rewrite entries_get; exact I1|].
    unfold usable_entry, marked in *. split; [|split].
    + intros [g [G1 G2]]. apply I2 in G2. destruct G2 as [-> |G2]; [contradiction|]. apply D2. eauto.
    + intros _ [g [G1 G2]]. apply I2 in G2. destruct G2 as [-> |G2]; [contradiction|]. apply (D3 eq_refl). eauto.
    + intros _ Q. apply I2 in Q. destruct Q as [Q|Q]; [contradiction|]. apply (D4 eq_refl). exact Q.
Qed.

(** ** Histories *)
Theorem calls_total : forall cs d, dict_ok d ->
  Forall (fun c => match c with CallAdd line => scalars line | CallRemove _ => True end) cs ->
  exists d', do_calls pl d cs = Ret d' /\ dict_ok d' /\ d_aff d' = d_aff d.
Proof.
  induction cs as [|c cs IH]; intros d OK H; [exists d; cbn; auto|]. inversion H as [|? ? Hc Hcs]; subst. cbn [do_calls].
  assert (exists d1, do_call pl d c = Ret d1 /\ dict_ok d1 /\ d_aff d1 = d_aff d) as (d1 & -> & OK1 & E1).
  { destruct c as [line|w]; cbn [do_call].
    - destruct (add_total OK Hc) as (r & d1 & E & OK1). rewrite E. cbn. exists d1. split; [reflexivity|]. split; [exact OK1|].
      apply (add_entries _ _ E).
    - destruct (remove_stem_spec w OK) as (b & d1 & E & OK1 & EA & _). rewrite E. cbn. exists d1. auto. }
  cbn [bindR]. destruct (IH d1 OK1 Hcs) as (d' & E & OK' & EA). exists d'. split; [exact E|]. split; [exact OK'|congruence].
Qed.

(** A dictionary a user can hold: built by [new], then changed by any calls. *)
Definition Reachable (d : dictionary) : Prop :=
  exists aff dic d0 cs, scalars aff /\ scalars dic /\ new pl aff dic = Ret (Ok d0) /\
    Forall (fun c => match c with CallAdd line => scalars line | CallRemove _ => True end) cs /\
    do_calls pl d0 cs = Ret d.

Theorem reachable_ok : forall d, Reachable d -> dict_ok d.
Proof.
  intros d (aff & dic & d0 & cs & Ha & Hd & H1 & H2 & H3).
  destruct (calls_total (new_dict_ok Ha Hd H1) H2) as (d' & E & OK & _). congruence.
Qed.

Lemma new_reachable : forall aff dic d, scalars aff -> scalars dic -> new pl aff dic = Ret (Ok d) -> Reachable d.
Proof. intros aff dic d Ha Hd H. exists aff, dic, d, []. repeat (split; [assumption || constructor|]). reflexivity. Qed.
End LibSpec.
