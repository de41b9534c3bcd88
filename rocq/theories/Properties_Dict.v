(** Properties C23-C25 and C42: building a dictionary and changing it. *)
From Coq Require Import String Ascii List NArith ZArith Lia Bool Arith Permutation.
From Verif Require Import Base Utf8 Unicode Flags Bag Condition Affix Conversion Aff Checker AffixSpec CompoundRule Rep CompoundSpec
  CompoundTotal RuleCompound Spell CheckSpec CheckMono CheckProps Parser ParserSafe Lib LibSpec LibProps ParserProps Examples
  Properties_Affix Properties_Compound Properties_Check.
Import ListNotations.
Local Open Scope string_scope.
Local Open Scope list_scope.
Local Open Scope nat_scope.
Set Implicit Arguments.

(** [line] is an entry for [w] with [flags]; [C39] in Properties_Parse says when this holds. *)
Definition Parses (pl : platform) (d : dictionary) (line w : str) (flags : flagset) : Prop :=
  parse_dic_line pl line (ad_flag_type (d_aff d)) (ad_aliases (d_aff d)) (ad_ignore (d_aff d)) = Ret (Ok (w, flags)).

(** ** Compounds whose parts carry other entries *)
Section Parts.
Variable U : unicode.
Variable A : affdata.
Variables e1 e2 : str -> flagset -> Prop.
Hypothesis SUB : forall s f, e2 s f -> e1 s f.
Hypothesis KEPT : forall s f, e1 s f -> ~ In (o_forbidden (ad_options A)) f -> e2 s f.

Lemma similar_sub : forall w, Similar A e2 w -> Similar A e1 w.
Proof. intros w. apply RepSimilar_mono. intros x [f H]. exists f. eapply simple_mono; [exact SUB|exact H]. Qed.
Lemma part_kept : forall m w c, Part A e1 m w c -> ~ Forbidden A c -> Part A e2 m w c.
Proof.
  intros m w c H F.
  destruct H as [[H|[(kd & a & H & X)|(p & s & H & X)]] HV]; (split; [|exact HV]).
  - left. decompose [and] H. clear H. split; [apply KEPT; [assumption|exact F]|]. repeat (split; [assumption|]). assumption.
  - right. left. exists kd, a. split; [|exact X]. unfold OneAffix in *. decompose [and] H. clear H.
    repeat match goal with |- _ /\ _ => split end; try assumption. apply KEPT; [assumption|exact F].
  - right. right. exists p, s. split; [|exact X]. unfold PrefixSuffix in *.
    destruct H as (H1 & H2 & H3 & H4 & H5 & H6 & H7 & H8 & H9 & H10 & H11 & H12 & H13).
    repeat (split; [assumption|]). split; [apply KEPT; [assumption|exact F]|]. repeat (split; [assumption|]). assumption.
Qed.
Lemma join_kept : forall l r m p e s Q R, Join U A e1 l r m p e s Q R ->
  exists R' : cresult -> Prop, Join U A e2 l r m p e s Q R' /\ forall e', R e' -> R' e'.
Proof.
  intros l r m p e s Q R H. destruct H; eexists; (split; [econstructor; eassumption|]); cbv beta.
  - intros e' H' s Hs X. exact (H' s Hs (similar_sub X)).
  - intros e' H' s Hs X. exact (H' s Hs (similar_sub X)).
  - intros e' H' s Hs X. exact (H' s Hs (similar_sub X)).
  - intros e' H' t s Ht Hs X. exact (H' t s Ht Hs (similar_sub X)).
Qed.
Lemma compound_kept : forall fu m l r ps, Compound U A e1 fu m l r ps -> Compound U A e2 fu m l r ps.
Proof.
  intros fu m l r ps H. induction H.
  - destruct (join_kept H1) as (R' & J & HR). eapply Compound_last; try exact J; try (apply part_kept; assumption); try assumption.
    intros Hc X. exact (H6 Hc (similar_sub X)).
  - destruct (join_kept H1) as (R' & J & HR). eapply Compound_more; try exact J; try (apply part_kept; assumption); try assumption.
    intros Hc. destruct (H4 Hc) as [X Y]. split; [intro Z; exact (X (similar_sub Z))|exact (HR _ Y)].
Qed.
Lemma simple_kept : forall hh w f, SimpleWord A e1 hh w f -> ~ In (o_forbidden (ad_options A)) f -> SimpleWord A e2 hh w f.
Proof.
  intros hh w f H F. destruct (simple_flags H) as [s [Hs HS]]. eapply simple_mono; [|exact HS].
  cbv beta. intros s' f' [-> [-> H']]. exact (KEPT H' F).
Qed.
End Parts.

(** A reading only depends on the options. *)
Lemma reading_aff : forall pl d1 d2, d_aff d1 = d_aff d2 -> forall w v fu hh ok, Reading pl d1 w v fu hh ok ->
  Reading pl d2 w v fu hh ok.
Proof.
  intros pl [t1 a1] [t2 a2] E. cbn [d_aff] in E. subst a2. intros w v fu hh ok H. destruct H.
  - apply (@Reading_plain pl (mkDict t2 a1)); assumption.
  - apply (@Reading_title pl (mkDict t2 a1)); assumption.
  - apply (@Reading_title_lower pl (mkDict t2 a1)); assumption.
  - apply (@Reading_upper pl (mkDict t2 a1)); assumption.
  - apply (@Reading_upper_lower pl (mkDict t2 a1)); assumption.
  - apply (@Reading_upper_title pl (mkDict t2 a1)); assumption.
  - eapply (@Reading_apostrophe pl (mkDict t2 a1)); eassumption.
  - eapply (@Reading_apostrophe_lower pl (mkDict t2 a1)); eassumption.
  - eapply (@Reading_sharp pl (mkDict t2 a1)); eassumption.
Qed.

(** The entries after the removal of [stem]: those of [stem] are marked as forbidden. *)
Definition marked_removed (d : dictionary) (stem s : str) (f : flagset) : Prop :=
  (s <> stem /\ listed d s f) \/
  (s = stem /\ exists g, listed d s g /\ forall x, In x f <-> x = o_forbidden (ad_options (d_aff d)) \/ In x g).

(** [w] is explained by the entries of [d] for other stems than [stem]; only in COMPOUNDRULE
    compounds, where the forbidden mark is not looked at after the first part, the stem may
    still occur. *)
Definition ExplainedWithout (pl : platform) (d : dictionary) (stem w : str) : Prop :=
  exists v fu hh ok flags, Reading pl d w v fu hh ok /\ ok flags /\ ~ Barred d flags /\
    (SimpleWord (d_aff d) (fun s f => s <> stem /\ listed d s f) hh v flags \/
     (allows_compounding (ad_options (d_aff d)) = true /\ exists w1 e p2 ps, cr_flags e = flags /\
        Compound (pl_unicode pl) (d_aff d) (fun s f => s <> stem /\ listed d s f) fu AT_BEGIN [] v ((w1, e) :: p2 :: ps)) \/
     (rt_rules (ad_rules (d_aff d)) <> [] /\ RuleCompound (d_aff d) (marked_removed d stem) fu v /\
        exists part, part <> stem /\ listed d part flags)).

Section Dict.
Variable pl : platform.
Hypothesis WP : wf_platform pl.
Notation U := (pl_unicode pl).

Lemma do_calls_snoc : forall c cs d0 d d', do_calls pl d0 cs = Ret d -> do_call pl d c = Ret d' ->
  do_calls pl d0 (cs ++ [c]) = Ret d'.
Proof.
  intros c. induction cs as [|a cs IH]; intros d0 d d' H E; cbn [do_calls app] in *.
  - injection H as ->. rewrite E. reflexivity.
  - destruct (do_call pl d0 a) as [d1| |]; try discriminate. cbn [bindR] in *. exact (IH d1 d d' H E).
Qed.
Lemma reach_call : forall d c d', Reachable pl d ->
  match c with CallAdd line => scalars line | CallRemove _ => True end ->
  do_call pl d c = Ret d' -> Reachable pl d'.
Proof.
  intros d c d' (aff & dic & d0 & cs & H1 & H2 & H3 & H4 & H5) Hc E. exists aff, dic, d0, (cs ++ [c]).
  repeat (split; [assumption|]). split; [apply Forall_app; split; [exact H4|constructor; [exact Hc|constructor]]|].
  eapply do_calls_snoc; eassumption.
Qed.

Section One.
Variable d : dictionary.
Hypothesis R : Reachable pl d.
Notation k := (checker_of pl d false false).
Notation opts := (ad_options (d_aff d)).
Let OK : dict_ok pl d := reachable_ok WP R.

(** ** C23: adding a word *)
(** [add] always returns.  If it fails nothing changes; if it succeeds there is exactly one
    entry more. *)
Theorem C23_add_effect : forall line, scalars line -> exists r d', add pl d line = Ret (r, d') /\
  Reachable pl d' /\ d_aff d' = d_aff d /\
  match r with
  | Err _ => d' = d /\ forall w f, ~ Parses pl d line w f
  | Ok _ => exists w f, Parses pl d line w f /\ Permutation ((w, f) :: d_words d) (d_words d') /\
      forall s g, listed d' s g <-> listed d s g \/ (s = w /\ g = f)
  end.
Proof.
  intros line Hl. destruct (@add_total pl WP d line OK Hl) as (r & d' & E & _). exists r, d'. split; [exact E|].
  split; [apply (@reach_call d (CallAdd line) d' R Hl); cbn [do_call]; rewrite E; reflexivity|].
  destruct (@add_entries pl WP d line r d' E) as [EA H]. split; [exact EA|]. destruct r as [u|e].
  - destruct H as (w & f & HP & P & _). exists w, f. split; [exact HP|]. split; [exact P|]. intros s g. unfold listed. split.
    + intro X. apply (Permutation_in _ (Permutation_sym P)) in X. destruct X as [X|X]; [injection X as -> ->; auto|auto].
    + intros [X|[-> ->]]; apply (Permutation_in _ P); [right; exact X|left; reflexivity].
  - split; [exact H|]. intros w f X. unfold add in E. rewrite X in E. discriminate.
Qed.

Theorem C23_added_word_accepted : forall line w f d', scalars line -> Parses pl d line w f ->
  add pl d line = Ret (Ok tt, d') -> ordinary k w ->
  ~ marked (o_need_affix opts) f -> ~ marked (o_only_in_compound opts) f -> ~ In hidden_homonym_flag f ->
  ~ Barred d f -> (forall g, listed d w g -> ~ Barred d g) ->
  forall fuel, dict_check pl d' fuel w = Ret true.
Proof.
  intros line w f d' Hl HP E HO H1 H2 H3 H4 H5. pose proof (@add_entries pl WP d line _ d' E) as [EA _].
  apply (@add_accepted pl WP d line d' w f OK Hl E HP); try assumption.
  - destruct HO; constructor; cbn [ck_aff checker_of] in *; try rewrite EA; assumption.
  - unfold Blocked. cbn [ck_aff checker_of]. rewrite EA. exact H4.
  - intros g Hg. apply entries_In in Hg. unfold Blocked. cbn [ck_aff checker_of]. rewrite EA. exact (H5 g Hg).
Qed.

(** A word without slashes is its own line. *)
Theorem C23_plain_word_accepted : forall w, scalars w -> ordinary k w -> ~ In 9%N w -> ~ In 32%N w ->
  (forall g, listed d w g -> ~ Barred d g) ->
  exists d', add pl d (escape w) = Ret (Ok tt, d') /\ listed d' w [] /\ forall fuel, dict_check pl d' fuel w = Ret true.
Proof.
  intros w Hw HO Ht Hs HB.
  assert (HE : scalars (escape w)).
  { unfold escape. apply Forall_flat_map. eapply Forall_impl; [|exact Hw]. cbv beta. intros c Hc.
    destruct (c =? 47)%N; repeat constructor; exact Hc. }
  assert (HL : (blen (escape w ++ []) <= 65535)%N).
  { rewrite app_nil_r. assert (forall x, (blen (escape x) <= 2 * blen x)%N) as X.
    { induction x as [|c x IH]; [cbn; lia|]. rewrite escape_cons, blen_app. cbn [blen].
      destruct (N.eqb_spec c 47) as [->|]; cbn [blen]; [change (len1 92) with 1%N; change (len1 47) with 1%N|]; lia. }
    specialize (X w). pose proof (ord_len HO). lia. }
  assert (HP : Parses pl d (escape w) w []).
  { unfold Parses. pose proof (@dic_line_word pl w [] (ad_flag_type (d_aff d)) (ad_aliases (d_aff d)) (ad_ignore (d_aff d))) as X.
    rewrite app_nil_r in X. rewrite X; [|exact (ord_ne HO)|exact Ht| |constructor|rewrite app_nil_r in HL; exact HL].
    - unfold okP. do 3 f_equal. unfold drop_chars. apply filter_all. intros c Hc. destruct (memb c (ad_ignore (d_aff d))) eqn:E; [|reflexivity].
      exfalso. apply memb_In in E. exact (ord_ign HO c Hc E).
    - intros a b E. exfalso. apply Hs. rewrite E. apply in_or_app. right. left. reflexivity. }
  destruct (C23_add_effect HE) as (r & d' & E & RD & EA & H). destruct r as [[]|e]; [|destruct H as [_ H]; exfalso; exact (H _ _ HP)].
  exists d'. split; [exact E|]. destruct H as (w' & f' & HP' & P & HI). unfold Parses in HP, HP'. rewrite HP in HP'. injection HP' as <- <-.
  split; [apply HI; auto|]. apply (C23_added_word_accepted HE HP E HO).
  - intros [x [_ []]].
  - intros [x [_ []]].
  - intros [].
  - intros [[]|[_ [x [_ []]]]].
  - exact HB.
Qed.

(** ** C25: removing a stem *)
Theorem C25_remove_effect : forall stem, exists b d', remove_stem pl d stem = Ret (b, d') /\
  Reachable pl d' /\ d_aff d' = d_aff d /\
  (b = true <-> exists f, listed d stem f /\ ~ In (o_forbidden opts) f) /\
  (b = false -> d' = d) /\
  (forall s, s <> stem -> entries d' s = entries d s) /\
  Forall2 (fun f f' => forall g, In g f' <-> g = o_forbidden opts \/ In g f) (entries d stem) (entries d' stem) /\
  remove_stem pl d' stem = Ret (false, d').
Proof.
  intro stem. destruct (remove_stem_spec WP stem OK) as (b & d' & E & OK' & EA & H1 & H2 & H3 & H4). exists b, d'. split; [exact E|].
  split; [apply (@reach_call d (CallRemove stem) d' R I); cbn [do_call]; rewrite E; reflexivity|].
  split; [exact EA|]. split.
  { rewrite H1. split; intros [f [X Y]]; exists f; (split; [|exact Y]); apply entries_In; exact X. }
  split; [exact H2|]. split; [exact H3|]. split; [exact H4|]. exact (@remove_twice pl WP d stem b d' OK E).
Qed.

Theorem C25_removed_stem_rejected : forall stem b d' f, remove_stem pl d stem = Ret (b, d') ->
  ordinary k stem -> listed d stem f ->
  ~ marked (o_need_affix opts) f -> ~ marked (o_only_in_compound opts) f -> ~ In hidden_homonym_flag f ->
  o_need_affix opts <> Some (o_forbidden opts) -> o_only_in_compound opts <> Some (o_forbidden opts) ->
  hidden_homonym_flag <> o_forbidden opts ->
  forall fuel, dict_check pl d' fuel stem = Ret false.
Proof.
  intros stem b d' f E HO HL H1 H2 H3 N1 N2 N3. apply (@removed_rejected pl WP d stem b d' OK E HO); try assumption.
  exists f. split; [apply entries_In, HL|]. split; [exact H1|]. split; intros _; assumption.
Qed.

Lemma removed_glued : forall stem b d', remove_stem pl d stem = Ret (b, d') ->
  forall n x, Glued d' (Explained pl d') n x -> Glued d (ExplainedWithout pl d stem) n x.
Proof.
  intros stem b d' E m x G.
  destruct (C25_remove_effect stem) as (b2 & d2 & E2 & RD & EA & _ & _ & HS & HF & _). rewrite E in E2. injection E2 as <- <-.
  assert (KEPT : forall s f, listed d' s f -> ~ In (o_forbidden opts) f -> s <> stem /\ listed d s f).
  { intros s f Hf NF. destruct (list_eq_dec N.eq_dec s stem) as [->|Hne].
    - exfalso. apply NF. apply entries_In in Hf. clear - Hf HF. induction HF as [|g g' l l' X Y IH]; [destruct Hf|].
      destruct Hf as [<-|Hf]; [apply X; left; reflexivity|exact (IH Hf)].
    - split; [exact Hne|]. apply entries_In. rewrite <- (HS s Hne). apply entries_In, Hf. }
  assert (SUB : forall s f, s <> stem /\ listed d s f -> listed d' s f).
  { intros s f [Hne Hf]. apply entries_In. rewrite (HS s Hne). apply entries_In, Hf. }
  assert (AFTER : forall s f, listed d' s f -> marked_removed d stem s f).
  { intros s f Hf. destruct (list_eq_dec N.eq_dec s stem) as [->|Hne].
    - right. split; [reflexivity|]. apply entries_In in Hf. clear - Hf HF.
      assert (X : exists g, In g (entries d stem) /\ forall x, In x f <-> x = o_forbidden opts \/ In x g).
      { induction HF as [|g g' l l' X Y IH]; [destruct Hf|]. destruct Hf as [<-|Hf]; [exists g; split; [left; reflexivity|exact X]|].
        destruct (IH Hf) as (h & I & Q). exists h. split; [right; exact I|exact Q]. }
      destruct X as (g & I & Q). exists g. split; [apply entries_In, I|exact Q].
    - left. split; [exact Hne|]. apply entries_In. rewrite <- (HS s Hne). apply entries_In, Hf. }
  induction G as [n w H|n p w HI H IH|n p w HI H IH|n p u v HI HM H1 IH1 H2 IH2].
  - apply Glued_word. destruct H as (v & fu & hh & ok & f & H1 & H2 & H3 & H4).
    exists v, fu, hh, ok, f. split; [exact (@reading_aff pl d' d EA _ _ _ _ _ H1)|]. split; [exact H3|].
    assert (NB : ~ Barred d f) by (unfold Barred in *; rewrite EA in H4; exact H4). split; [exact NB|].
    unfold Finds in H2. rewrite EA in H2. destruct H2 as [H2|[(C & w1 & e & p2 & ps & Ef & H2)|(C & RC & part & HPT)]].
    + left. eapply simple_kept; [exact KEPT|exact H2|]. intro X. apply NB. left. exact X.
    + right. left. split; [exact C|]. exists w1, e, p2, ps. split; [exact Ef|]. eapply compound_kept; [exact SUB|exact KEPT|exact H2].
    + right. right. split; [exact C|]. split.
      * destruct RC as (ws & fss & R1 & R2 & R3 & R4 & R5 & R6). exists ws, fss. repeat (split; [assumption|]). split; [|split; [exact R5|exact R6]].
        revert R4. clear - AFTER. intro R4. induction R4 as [|s g ss gs [X Y] _ IH]; constructor; [|exact IH].
        split; [apply AFTER; exact X|exact Y].
      * exists part. apply KEPT; [exact HPT|]. intro X. apply NB. left. exact X.
  - rewrite EA in HI. apply Glued_start; assumption.
  - rewrite EA in HI. apply Glued_end; assumption.
  - rewrite EA in HI. apply Glued_middle; assumption.
Qed.

(** What check still accepts after the removal is explained by other stems: this covers
    all derived forms, compounds and case variants of the stem. *)
Theorem C25_removed_forms_rejected : forall stem b d', remove_stem pl d stem = Ret (b, d') ->
  Shrinks (d_aff d) -> strict k = true ->
  forall x, scalars x -> ordinary k x -> ~ Glued d (ExplainedWithout pl d stem) 9 x -> rejected pl d' x.
Proof.
  intros stem b d' E SH ST x Hx HO HN.
  destruct (C25_remove_effect stem) as (b2 & d2 & E2 & RD & EA & _ & _ & HS & HF & _). rewrite E in E2. injection E2 as <- <-.
  assert (ORD : ordinary (checker_of pl d' false false) x) by (destruct HO; constructor; cbn [ck_aff checker_of] in *; try rewrite EA; assumption).
  apply (C22_unknown_words_rejected WP RD); try assumption; try (rewrite EA; assumption).
  { unfold strict, checker_of in *; cbn in *; rewrite EA; exact ST. }
  intro G. apply HN. exact (removed_glued _ E G).
Qed.
End One.

(** ** C24: adding a line or having it in the .dic file *)
(** The .dic parser makes a second, hidden entry for these. *)
Definition HiddenForm (d : dictionary) (w : str) (f : flagset) : Prop :=
  ((classify_casing U w = CCamel \/ classify_casing U w = CPascal) /\ ~ In (o_forbidden (ad_options (d_aff d))) f) \/
  (classify_casing U w = CAll /\ f <> []).

Lemma hidden_form : forall d w f, wf_flagset f ->
  (needs_hidden_homonym pl (o_forbidden (ad_options (d_aff d))) w f = true <-> HiddenForm d w f).
Proof.
  intros d w f Wf. unfold needs_hidden_homonym, HiddenForm. pose proof (contains_spec f (o_forbidden (ad_options (d_aff d))) Wf) as C.
  destruct (classify_casing U w) eqn:E.
  - split; [discriminate|]. intros [[[X|X] _]|[X _]]; discriminate.
  - split; [discriminate|]. intros [[[X|X] _]|[X _]]; discriminate.
  - split; [intro H; right; split; [reflexivity|destruct f; discriminate]|]. intros [[[X|X] _]|[_ X]]; try discriminate. destruct f; [contradiction|reflexivity].
  - rewrite negb_true_iff, <- not_true_iff_false, C. split; [intro H; left; auto|]. intros [[_ X]|[X _]]; [exact X|discriminate].
  - rewrite negb_true_iff, <- not_true_iff_false, C. split; [intro H; left; auto|]. intros [[_ X]|[X _]]; [exact X|discriminate].
Qed.

(** Without a hidden form, [add] gives the very dictionary that the longer text gives. *)
Theorem C24_add_like_line : forall aff dic d line w f d', scalars aff -> scalars dic -> dic_text pl line -> scalars line ->
  new pl aff (dic ++ [10%N]) = Ret (Ok d) -> Parses pl d line w f -> ~ HiddenForm d w f ->
  add pl d line = Ret (Ok tt, d') ->
  new pl aff ((dic ++ [10%N]) ++ line) = Ret (Ok d').
Proof.
  intros aff dic d line w f d' Ha Hd HL Hs HN HP HH HA.
  assert (RD : Reachable pl d) by (apply (@new_reachable pl aff (dic ++ [10%N]) d Ha); [apply Forall_app; split; [exact Hd|repeat constructor]|exact HN]).
  apply (@add_like_dic pl aff dic d line d' w f); try assumption.
  destruct (needs_hidden_homonym pl (o_forbidden (ad_options (d_aff d))) w f) eqn:E; [|reflexivity].
  exfalso. apply HH. apply hidden_form; [|exact E].
  assert (In (w, f) (d_words d')) as X.
  { destruct (C23_add_effect RD Hs) as (r & d2 & E2 & _ & _ & H). rewrite HA in E2. injection E2 as <- <-.
    destruct H as (w2 & f2 & HP2 & _ & HI). unfold Parses in *. rewrite HP in HP2. injection HP2 as <- <-. apply HI. auto. }
  destruct (@add_total pl WP d line (reachable_ok WP RD) Hs) as (r & d2 & E2 & OK2). rewrite HA in E2. injection E2 as <- <-.
  apply entries_In in X. apply (@dict_entry_ok pl d' OK2 w f X).
Qed.

(** A line that [add] refuses makes the text invalid. *)
Theorem C24_refused_like_line : forall aff dic d line e d', scalars aff -> dic_text pl line ->
  new pl aff (dic ++ [10%N]) = Ret (Ok d) -> add pl d line = Ret (Err e, d') ->
  exists e', new pl aff ((dic ++ [10%N]) ++ line) = Ret (Err e').
Proof. intros aff dic d line e d' Ha HL HN HA. exact (@add_refuses_like_dic pl aff dic d line d' e Ha HL WP HN HA). Qed.

(** ** C42: building a dictionary *)
(** Case mappings of the standard library at most triple the length in bytes. *)
Definition TriplesAtMost : Prop := forall c, scalar c ->
  (blen (u_lower U c) <= 3 * len1 c)%N /\ (blen (u_upper U c) <= 3 * len1 c)%N.

Lemma titlecase_triples : TriplesAtMost -> forall h w t, scalars w -> titlecase U h w = Ret t -> (blen t <= 3 * blen w)%N.
Proof.
  intros T h w t Hw E. destruct w as [|c w]; [discriminate|]. cbn [titlecase] in E. injection E as <-.
  inversion Hw as [|? ? Hc Hw']; subst. rewrite blen_app. cbn [blen].
  assert (blen (upper_char U h c) <= 3 * len1 c)%N as X1.
  { pose proof (len1_pos c). unfold upper_char. destruct h; [|apply T, Hc].
    destruct (c =? ch_i)%N; [change (blen [ch_dotted_I]) with 2%N; lia|]. destruct (c =? ch_dotless_i)%N; [change (blen [ch_I]) with 1%N; lia|]. apply T, Hc. }
  assert (blen (flat_map (lower_char U h) w) <= 3 * blen w)%N as X2.
  { clear - T Hw'. induction Hw' as [|c w Hc Hw IH]; [cbn; lia|]. cbn [flat_map blen]. rewrite blen_app.
    assert (blen (lower_char U h c) <= 3 * len1 c)%N; [|lia].
    pose proof (len1_pos c). unfold lower_char. destruct h; [|apply T, Hc].
    destruct (c =? ch_I)%N; [change (blen [ch_dotless_i]) with 2%N; lia|]. destruct (c =? ch_dotted_I)%N; [change (blen [ch_i]) with 1%N; lia|]. apply T, Hc. }
  lia.
Qed.

Theorem C42_new_returns : TriplesAtMost -> forall aff dic, scalars aff -> scalars dic ->
  Forall (fun line => (blen line <= 21845)%N) (body_lines dic) ->
  (exists d, new pl aff dic = Ret (Ok d) /\ Reachable pl d) \/ (exists e, new pl aff dic = Ret (Err e)).
Proof.
  intros T aff dic Ha Hd HL. assert (TitleFits pl 21845) as TF.
  { intros h w t Hw Hb E. split; [exact (titlecase_scalars WP h Hw E)|]. pose proof (titlecase_triples T h Hw E). lia. }
  pose proof (@new_safe pl WP 21845 aff dic TF ltac:(lia) Ha Hd HL) as S0.
  destruct (new pl aff dic) as [[d|e]| |] eqn:E; cbn in S0; [left|right|destruct S0|destruct S0].
  - exists d. split; [reflexivity|]. exact (@new_reachable pl aff dic d Ha Hd E).
  - exists e. reflexivity.
Qed.
End Dict.

(** ** What does not hold *)
(** A platform whose hash table keeps homonyms in the order they came. *)
Definition back_pl : platform := mkPlatform ascii_unicode true false
  (fun k => sort_by (affix_leb k)) (sort_by conv_leb) (fun _ => 0%N) (fun t e => t ++ [e]) (fun _ _ => true).
Lemma back_pl_wf : wf_platform back_pl.
Proof.
  destruct ex_pl_wf. constructor; cbn in *; try assumption. intros t e. cbn. apply Permutation_cons_append.
Qed.
Definition fb_back : dictionary := Eval vm_compute in (the (built back_pl fb_aff fb_dic) <: dictionary).
Definition fb_added : dictionary := Eval vm_compute in
  (the (match add back_pl fb_back (lit "colour") with Ret (Ok _, d) => Some d | _ => None end) <: dictionary).
(** A word of which a forbidden homonym is listed may stay rejected. *)
Theorem C23_forbidden_homonym_refuted : Reachable back_pl fb_back /\ add back_pl fb_back (lit "colour") = Ret (Ok tt, fb_added) /\
  rejected back_pl fb_added (lit "colour").
Proof.
  split; [eapply (@new_reachable back_pl fb_aff fb_dic); [apply forallb_scalars; reflexivity..|vm_compute; reflexivity]|].
  split; [vm_compute; reflexivity|settle 50].
Qed.

(** A mixed-case word in the .dic file has a hidden entry; an added one has not. *)
Definition oo_line : str := lit "OpenOffice".
Definition oo_dic : str := lit "1
" ++ oo_line.
Definition oo1 : dictionary := Eval vm_compute in (the (built ex_pl [] oo_dic) <: dictionary).
Definition oo2 : dictionary := Eval vm_compute in
  (the (match add ex_pl none_ oo_line with Ret (Ok _, d) => Some d | _ => None end) <: dictionary).
Theorem C24_hidden_homonym_refuted :
  new ex_pl [] (lit "1
") = Ret (Ok none_) /\ new ex_pl [] (lit "1
" ++ oo_line) = Ret (Ok oo1) /\ add ex_pl none_ oo_line = Ret (Ok tt, oo2) /\
  accepted ex_pl oo1 (lit "OPENOFFICE") /\ rejected ex_pl oo2 (lit "OPENOFFICE").
Proof. do 3 (split; [vm_compute; reflexivity|]). split; settle 50. Qed.
(** A line that begins with [#] is a comment in the file only. *)
Definition hash_ : dictionary := Eval vm_compute in
  (the (match add ex_pl none_ (lit "#tag") with Ret (Ok _, d) => Some d | _ => None end) <: dictionary).
Theorem C24_comment_refuted : new ex_pl [] (lit "1
" ++ lit "#tag") = Ret (Ok none_) /\ add ex_pl none_ (lit "#tag") = Ret (Ok tt, hash_) /\
  rejected ex_pl none_ (lit "#tag") /\ accepted ex_pl hash_ (lit "#tag").
Proof. do 2 (split; [vm_compute; reflexivity|]). split; settle 50. Qed.

(** The documentation says that removing a stem removes its conjugations.  One that is also a
    stem stays, and so do the compounds of a COMPOUNDRULE. *)
Definition lk : dictionary := Eval vm_compute in (the (built ex_pl wl_aff (lit "2
lock/S
locks
")) <: dictionary).
Definition lk_removed : dictionary := Eval vm_compute in
  (the (match remove_stem ex_pl lk (lit "lock") with Ret (true, d) => Some d | _ => None end) <: dictionary).
Theorem C25_conjugation_stays_refuted : Reachable ex_pl lk /\ remove_stem ex_pl lk (lit "lock") = Ret (true, lk_removed) /\
  rejected ex_pl lk_removed (lit "lock") /\ accepted ex_pl lk_removed (lit "locks").
Proof.
  split; [ex_dict wl_aff (lit "2
lock/S
locks
")|]. split; [vm_compute; reflexivity|]. split; settle 50.
Qed.
Definition nums_removed : dictionary := Eval vm_compute in
  (the (match remove_stem ex_pl nums (lit "one") with Ret (true, d) => Some d | _ => None end) <: dictionary).
Theorem C25_rule_compound_stays_refuted : remove_stem ex_pl nums (lit "one") = Ret (true, nums_removed) /\
  rejected ex_pl nums_removed (lit "one") /\ accepted ex_pl nums_removed (lit "twentyone") /\
  forall f, ~ listed nums (lit "twentyone") f.
Proof.
  split; [vm_compute; reflexivity|]. split; [settle 50|]. split; [settle 50|].
  intros f H. unfold listed in H. cbn in H. repeat (destruct H as [H|H]; [discriminate|]). destruct H.
Qed.

(** A long mixed-case word makes [new] panic when its title-case form does not fit: every run
    of 21845 to 32766 dotted capital I between an A and an a. *)
Definition long_word (n : nat) : str := 65%N :: repeat 304%N n ++ [97%N].
Lemma long_blen : forall n, blen (long_word n) = (2 * N.of_nat n + 2)%N.
Proof.
  intro n. unfold long_word. cbn [blen]. rewrite blen_app. change (len1 65) with 1%N. change (blen [97%N]) with 1%N.
  induction n as [|n IH]; [reflexivity|]. cbn [repeat blen]. change (len1 304) with 2%N. lia.
Qed.
Lemma long_title_blen : forall n,
  blen (upper_char latin_unicode Standard 65 ++ flat_map (lower_char latin_unicode Standard) (repeat 304%N n ++ [97%N])) = (3 * N.of_nat n + 2)%N.
Proof.
  intro n. rewrite blen_app, flat_map_app, blen_app. change (blen (upper_char latin_unicode Standard 65)) with 1%N.
  change (blen (flat_map (lower_char latin_unicode Standard) [97%N])) with 1%N.
  induction n as [|n IH]; [reflexivity|]. cbn [repeat flat_map]. rewrite blen_app.
  change (blen (lower_char latin_unicode Standard 304)) with 3%N. lia.
Qed.
Theorem C42_long_title_refuted : forall n, (21845 <= N.of_nat n <= 32766)%N ->
  scalars (lit "1
" ++ long_word n) /\ new latin_pl [] (lit "1
" ++ long_word n) = Panic.
Proof.
  intros n Hn.
  assert (CH : forall c, In c (long_word n) -> c = 65%N \/ c = 304%N \/ c = 97%N).
  { intros c [H|H]; [left; symmetry; exact H|]. apply in_app_or in H. destruct H as [H|[H|[]]]; [apply repeat_spec in H|]; auto. }
  split.
  { apply Forall_forall. intros c H. apply in_app_or in H. destruct H as [H|H].
    - revert c H. apply Forall_forall. repeat constructor.
    - destruct (CH c H) as [-> |[-> | ->]]; reflexivity. }
  assert (NI : forall x, x <> 65%N -> x <> 304%N -> x <> 97%N -> ~ In x (long_word n)).
  { intros x A B C H. destruct (CH x H) as [-> |[-> | ->]]; contradiction. }
  assert (EE : escape (long_word n) = long_word n).
  { assert (forall l, ~ In 47%N l -> escape l = l) as G.
    { induction l as [|c l IH]; intro H; [reflexivity|]. rewrite escape_cons. destruct (N.eqb_spec c 47) as [->|_]; [destruct H; left; reflexivity|].
      cbn [app]. f_equal. apply IH. intro H'. apply H. right. exact H'. }
    apply G, NI; discriminate. }
  assert (HL : dic_text latin_pl (long_word n)).
  { constructor; [discriminate|apply NI; discriminate| |reflexivity|reflexivity].
    assert (T : forall c r, (c = 65 \/ c = 97)%N -> trim_start latin_pl (c :: r) = c :: r) by (intros c r [-> | ->]; reflexivity).
    unfold trim. assert (long_word n = (65%N :: repeat 304%N n) ++ [97%N]) as -> by reflexivity.
    cbn [app]. rewrite (T 65%N (repeat 304%N n ++ [97%N])) by auto. rewrite app_comm_cons, rev_app_distr. cbn [rev app].
    rewrite (T 97%N) by auto. cbn [rev]. rewrite rev_app_distr, rev_involutive. reflexivity. }
  assert (E1 : parse_aff latin_pl [] = Ret (Ok default_lp)) by reflexivity.
  assert (E2 : parse_dic latin_pl default_lp (lit "1" ++ [10%N]) = Ret (Ok [])) by reflexivity.
  destruct (@parse_dic_snoc latin_pl default_lp (lit "1") (long_word n) [] HL E2) as [m E3].
  unfold new, parse. rewrite E1. cbn [bindP].
  change (lit "1
" ++ long_word n) with ((lit "1" ++ [10%N]) ++ long_word n). rewrite E3.
  assert (HP : parse_dic_line latin_pl (long_word n) FShort [] [] = okP (long_word n, [])).
  { rewrite <- EE at 1. rewrite <- (app_nil_r (escape _)). rewrite (@dic_line_word latin_pl).
    - unfold okP. do 3 f_equal. generalize (long_word n). induction s as [|c s IH]; [reflexivity|]. cbn in *. f_equal. exact IH.
    - discriminate.
    - apply NI; discriminate.
    - intros a b E. exfalso. apply (NI 32%N); [discriminate..|]. rewrite E. apply in_or_app. right. left. reflexivity.
    - constructor.
    - rewrite app_nil_r, EE, long_blen. lia. }
  unfold dic_line. cbn [cur_line ln_rest snd]. rewrite (dt_trim HL). pose proof (long_blen n) as LB.
  assert (needs_hidden_homonym latin_pl (o_forbidden (x_options default_lp)) (long_word n) [] = true) as HH.
  { unfold needs_hidden_homonym, classify_casing. cbn -[filter]. unfold long_word.
    destruct n as [|n]; [lia|]. cbn [repeat app filter]. cbn -[filter repeat].
    rewrite filter_app, app_length. cbn -[repeat]. rewrite Nat.add_1_r. reflexivity. }
  remember (long_word n) as w eqn:Ew. destruct w as [|c w]; [discriminate|]. cbn [starts_with strip_prefix].
  rewrite (dt_slash HL).
  replace (65535 <? blen (c :: w))%N with false by lia. cbn [x_flag_type x_aliases x_ignore default_lp].
  rewrite HP. cbn [mapErr at_line bindP okP]. unfold insert_entry. rewrite HH.
  unfold long_word in Ew. injection Ew as -> ->. cbn [titlecase bindR o_case x_options default_lp default_options].
  change (pl_unicode latin_pl) with latin_unicode. unfold stem_from.
  match goal with |- context[(blen ?x <=? 65535)%N] => replace (blen x) with (3 * N.of_nat n + 2)%N by (symmetry; apply long_title_blen) end.
  replace (3 * N.of_nat n + 2 <=? 65535)%N with false by lia. reflexivity.
Qed.

(** ** Examples *)
Example C23_example : exists d', add ex_pl wl (escape (lit "and/or")) = Ret (Ok tt, d') /\ listed d' (lit "and/or") [] /\
  forall fuel, dict_check ex_pl d' fuel (lit "and/or") = Ret true.
Proof.
  apply (C23_plain_word_accepted ex_pl_wf wl_reachable); [word_facts..| | |].
  - cbn. intuition discriminate.
  - cbn. intuition discriminate.
  - intros g H. unfold listed in H. cbn in H. repeat (destruct H as [H|H]; [discriminate|]). destruct H.
Qed.
Example C23_flags_example : exists d', add ex_pl wl (lit "door/S") = Ret (Ok tt, d') /\
  (forall fuel, dict_check ex_pl d' fuel (lit "door") = Ret true) /\ accepted ex_pl d' (lit "doors").
Proof.
  eexists. split; [vm_compute; reflexivity|]. split; [|settle 50].
  apply (@C23_added_word_accepted ex_pl ex_pl_wf wl wl_reachable (lit "door/S") (lit "door") (lit "S")); [word_facts|vm_compute; reflexivity..|word_facts| | | | |].
  - intros [x [X _]]. discriminate.
  - intros [x [X _]]. discriminate.
  - cbn. intuition discriminate.
  - intros [X|[X _]]; [cbn in X; intuition discriminate|discriminate].
  - intros g H. unfold listed in H. cbn in H. repeat (destruct H as [H|H]; [discriminate|]). destruct H.
Qed.
Definition lock1 : dictionary := Eval vm_compute in (the (built ex_pl wl_aff (lit "2
lock/S
door/S
")) <: dictionary).
Definition lock2 : dictionary := Eval vm_compute in (the (built ex_pl wl_aff (lit "2
lock/S
")) <: dictionary).
Example C24_example : new ex_pl wl_aff (lit "2
lock/S" ++ [10%N]) = Ret (Ok lock2) /\ new ex_pl wl_aff ((lit "2
lock/S" ++ [10%N]) ++ lit "door/S") = Ret (Ok lock1).
Proof.
  assert (new ex_pl wl_aff (lit "2
lock/S" ++ [10%N]) = Ret (Ok lock2)) as E by (vm_compute; reflexivity). split; [exact E|].
  apply (@C24_add_like_line ex_pl ex_pl_wf wl_aff (lit "2
lock/S") lock2 (lit "door/S") (lit "door") (lit "S") lock1); try (apply forallb_scalars; reflexivity); try (vm_compute; reflexivity).
  - constructor; [discriminate|cbn; intuition discriminate|vm_compute; reflexivity..].
  - intros [[[X|X] _]|[X _]]; discriminate.
Qed.
Example C25_example : exists d', remove_stem ex_pl wl (lit "lock") = Ret (true, d') /\
  (forall fuel, dict_check ex_pl d' fuel (lit "lock") = Ret false) /\ accepted ex_pl d' (lit "Paris").
Proof.
  eexists. split; [vm_compute; reflexivity|]. split; [|settle 50].
  apply (@C25_removed_stem_rejected ex_pl ex_pl_wf wl wl_reachable (lit "lock") true _ (lit "S")); [vm_compute; reflexivity|word_facts|is_listed| | | |discriminate..].
  - intros [x [X _]]. discriminate.
  - intros [x [X _]]. discriminate.
  - cbn. intuition discriminate.
Qed.
(** After removing "alpha" nothing explains "Alpha". *)
Example C25_forms_example : exists d', remove_stem ex_pl bare (lit "alpha") = Ret (true, d') /\ rejected ex_pl d' (lit "Alpha").
Proof.
  eexists. split; [vm_compute; reflexivity|].
  apply (@C25_removed_forms_rejected ex_pl ex_pl_wf bare bare_reachable (lit "alpha") true); [vm_compute; reflexivity|apply plain_shrinks; reflexivity|reflexivity|word_facts|word_facts|].
  intro G.
  assert (B : forall p, In p (start_breaks (ad_breaks (d_aff bare))) \/ In p (end_breaks (ad_breaks (d_aff bare))) \/ In p (middle_breaks (ad_breaks (d_aff bare))) -> p = lit "-").
  { intros p H. vm_compute in H. intuition. }
  assert (S1 : forall n w, Glued bare (ExplainedWithout ex_pl bare (lit "alpha")) n w -> ~ In 45%N w -> ExplainedWithout ex_pl bare (lit "alpha") w).
  { intros n w H. induction H as [n w H|n p w HI H IH|n p w HI H IH|n p u v HI HM H1 IH1 H2 IH2]; intro X.
    - exact H.
    - exfalso. rewrite (B p ltac:(tauto)) in X. apply X. left. reflexivity.
    - exfalso. rewrite (B p ltac:(tauto)) in X. apply X. apply in_or_app. right. left. reflexivity.
    - exfalso. rewrite (B p ltac:(tauto)) in X. apply X. apply in_or_app. right. left. reflexivity. }
  apply S1 in G; [|cbn; intuition discriminate]. destruct G as (v & fu & hh & ok & f & HR & _ & _ & H).
  assert (v = lit "Alpha" \/ v = lit "alpha") as HV.
  { assert (classify_casing (pl_unicode ex_pl) (lit "Alpha") = CInit) as C by reflexivity.
    inversion HR; subst; try (exfalso; congruence); [left; reflexivity|right; reflexivity]. }
  destruct H as [H|[[X _]|[X _]]]; [|discriminate|contradiction].
  destruct (simple_flags H) as (s & [N1 N2] & HS).
  assert (s = lit "Beta") as -> by (unfold listed in N2; cbn in N2; destruct N2 as [X|[X|[]]]; inversion X; subst; [reflexivity|exfalso; apply N1; reflexivity]).
  assert (RR : forall kd a, In a (rules (d_aff bare) kd) -> False) by (intros [|] a X; destruct X).
  clear H HR. unfold SimpleWord in HS.
  destruct HS as [[[X _] _]|[(kd & a & st & H)|[(p & s & st & H)|[[_ H]|[X _]]]]]; [|exact (RR _ _ (proj1 H))|exact (RR _ _ (proj1 H))| |discriminate].
  - destruct HV as [-> | ->]; discriminate X.
  - destruct H as [(o & i & st & H)|[(x & o & i & st & H)|(x & o & i & st & H)]]; exact (RR _ _ (proj1 H)).
Qed.
Example C42_example : TriplesAtMost latin_pl.
Proof.
  intros c Hc. cbn [pl_unicode latin_pl ex_platform u_lower u_upper latin_unicode].
  assert (A : forall x, (len1 (x + 32) <= 3 * len1 x)%N /\ (len1 (x - 32) <= 3 * len1 x)%N).
  { intro x. unfold len1. repeat match goal with |- context[(?a <? ?b)%N] => destruct (N.ltb_spec a b) end; lia. }
  pose proof (len1_pos c).
  split.
  - destruct (N.eqb_spec c 201) as [->|]; [vm_compute; discriminate|]. destruct (N.eqb_spec c 304) as [->|]; [vm_compute; discriminate|].
    cbn [u_lower ascii_unicode]. destruct (ascii_upper c); cbn [blen]; [pose proof (A c)|]; lia.
  - destruct (N.eqb_spec c 233) as [->|]; [vm_compute; discriminate|]. destruct (N.eqb_spec c 223) as [->|]; [vm_compute; discriminate|].
    cbn [u_upper ascii_unicode]. destruct (ascii_lower c); cbn [blen]; [pose proof (A c)|]; lia.
Qed.

Print Assumptions C23_add_effect.
Print Assumptions C23_added_word_accepted.
Print Assumptions C23_plain_word_accepted.
Print Assumptions C25_remove_effect.
Print Assumptions C25_removed_stem_rejected.
Print Assumptions C25_removed_forms_rejected.
Print Assumptions C24_add_like_line.
Print Assumptions C24_refused_like_line.
Print Assumptions C42_new_returns.
Print Assumptions C23_forbidden_homonym_refuted.
Print Assumptions C24_hidden_homonym_refuted.
Print Assumptions C24_comment_refuted.
Print Assumptions C25_conjugation_stays_refuted.
Print Assumptions C25_rule_compound_stays_refuted.
Print Assumptions C42_long_title_refuted.
