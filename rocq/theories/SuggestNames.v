(** Two suggesters whose data agree in everything suggesting looks at, with flags of the one
    standing for flags of the other, give the same suggestions. *)
From Coq Require Import List NArith ZArith Lia Bool Arith FunctionalExtensionality.
From Verif Require Import Base Utf8 Unicode Flags Condition Affix AffixSpec CompoundRule Rep Conversion Aff Checker Bag BufferOps Ngram Suggester
  FlagNames.
Import ListNotations.
Set Implicit Arguments.

(** Elements of a heap with the same score and related payloads. *)
Definition scored {A B} (R : A -> B -> Prop) (x : Z * A) (y : Z * B) : Prop := fst y = fst x /\ R (snd x) (snd y).
(** A heap moves its elements by their scores alone: [Ord] of [MinScored] (ngram.rs 54-69) does not look at the payload. *)
Record uniform_heaps (hp : heaps) : Prop := {
  uh_push : forall A B (R : A -> B -> Prop) l m x y, Forall2 (scored R) l m -> scored R x y -> Forall2 (scored R) (hp_push hp l x) (hp_push hp m y);
  uh_pop : forall A B (R : A -> B -> Prop) l m, Forall2 (scored R) l m -> Forall2 (scored R) (hp_pop hp l) (hp_pop hp m) }.

Lemma sim_fold : forall S T A B (R : A -> B -> Prop) (Q : S -> T -> Prop) f g l m s t, Forall2 R l m -> Q s t ->
  (forall s t x y, Q s t -> R x y -> RRes Q (f s x) (g t y)) -> RRes Q (foldR f l s) (foldR g m t).
Proof.
  intros S T A B R Q f g l m s t H Hs F. revert s t Hs. induction H as [|x y l m Hx _ IH]; intros s t Hs; [exact Hs|]. cbn [foldR].
  eapply sim_bind; [exact (F s t x y Hs Hx)|]. exact IH.
Qed.
Lemma sim_map : forall A B C (R : A -> B -> Prop) (f : A -> Res C) (g : B -> Res C) l m, Forall2 R l m -> (forall x y, R x y -> g y = f x) -> mapR g m = mapR f l.
Proof. intros A B C R f g l m H F. induction H as [|x y l m Hx _ IH]; [reflexivity|]. cbn [mapR]. rewrite (F x y Hx), IH. reflexivity. Qed.
Lemma sim_filter : forall A B (R : A -> B -> Prop) p q l m, Forall2 R l m -> (forall x y, R x y -> q y = p x) -> Forall2 R (filter p l) (filter q m).
Proof. intros A B R p q l m H E. induction H as [|x y l m Hx _ IH]; [constructor|]. cbn [filter]. rewrite (E x y Hx). destruct (p x); [constructor; assumption|exact IH]. Qed.
Lemma filter_none : forall A p (l : list A), (forall x, p x = false) -> filter p l = [].
Proof. intros A p l H. induction l as [|x l IH]; [reflexivity|]. cbn [filter]. rewrite H. exact IH. Qed.

Section Sim.
Variables sg sg' : suggester.
Notation k := (su_checker sg).
Notation k' := (su_checker sg').
Variable ren : N -> N.
Variable Used : N -> Prop.
Variable RF : flagset -> flagset -> Prop.
Hypothesis RF_has : forall f g x, RF f g -> Used x -> contains g (ren x) = contains f x.
Hypothesis AG : Agree k k' ren Used RF.
Notation aff := (ck_aff (su_checker sg)).
Notation aff' := (ck_aff (su_checker sg')).
Notation opts := (ad_options (ck_aff (su_checker sg))).
Notation opts' := (ad_options (ck_aff (su_checker sg'))).

(** What suggesting looks at beside what checking looks at. *)
Record AgreeMore : Prop := {
  am_words : Forall2 (fun e e' => fst e' = fst e /\ RF (snd e) (snd e')) (su_words sg) (su_words sg');
  am_ngram : su_ngram sg' = su_ngram sg;
  am_debug : su_debug sg' = su_debug sg;
  am_heaps : su_heaps sg' = su_heaps sg;
  am_pfx : Forall2 (RA ren Used RF) (i_table (ad_prefixes aff)) (i_table (ad_prefixes aff'));
  am_sfx : Forall2 (RA ren Used RF) (i_table (ad_suffixes aff)) (i_table (ad_suffixes aff'));
  am_reps : ad_reps aff' = ad_reps aff;
  am_sims : ad_sims aff' = ad_sims aff;
  am_keyboard : ad_keyboard aff' = ad_keyboard aff;
  am_try : ad_try aff' = ad_try aff;
  am_oconv : ad_oconv aff' = ad_oconv aff;
  am_no_suggest : RO ren Used (o_no_suggest opts) (o_no_suggest opts');
  am_max_ngram : o_max_ngram opts' = o_max_ngram opts;
  am_max_diff : o_max_diff opts' = o_max_diff opts;
  am_only_max_diff : o_only_max_diff opts' = o_only_max_diff opts;
  am_no_split : o_no_split_sugs opts' = o_no_split_sugs opts }.
Hypothesis AM : AgreeMore.
Hypothesis UH : uniform_heaps (su_heaps sg).

Let E_u : ck_u k' = ck_u k := ag_u AG.
Let E_case : o_case opts' = o_case opts := ag_casing AG.
Let E_dbg : su_debug sg' = su_debug sg := am_debug AM.
Let E_reps := am_reps AM.
Let E_sims := am_sims AM.
Let E_kb := am_keyboard AM.
Let E_chars := am_try AM.

Lemma n_has : forall f g o p, RF f g -> RO ren Used o p -> has_flag g p = has_flag f o.
Proof. intros f g o p. apply (@s_has ren Used RF RF_has). Qed.
Lemma n_is_some : forall o p, RO ren Used o p -> is_someb p = is_someb o.
Proof. intros o p [-> _]. destruct o; reflexivity. Qed.
Lemma n_word : forall fuel w fu hh, RRes (ROpt RF) (check_word k fuel w fu hh) (check_word k' fuel w fu hh).
Proof. intros. apply (s_word RF_has AG). Qed.
Lemma n_forbidden : forall f g, RF f g -> contains g (o_forbidden opts') = contains f (o_forbidden opts).
Proof. intros f g H. destruct (ag_forbidden AG) as [-> U]. apply RF_has; assumption. Qed.
Lemma n_warn : forall f g, RF f g -> o_forbid_warn opts' && has_flag g (o_warn opts') = o_forbid_warn opts && has_flag f (o_warn opts).
Proof.
  intros f g H. rewrite (ag_forbid_warn AG). destruct (o_forbid_warn opts) eqn:E; [|reflexivity]. cbn [andb]. apply n_has; [exact H|]. exact (ag_warn AG E).
Qed.

Section Low.
Variable fuel : nat.
Lemma n_try : try sg' fuel = try sg fuel.
Proof.
  extensionality w. extensionality out. unfold try, add_suggestion_if_correct. pose proof (n_word fuel w ForbidBadForceucase SkipHiddenHomonym) as H.
  destruct (check_word k fuel w _ _) as [[f|]| |], (check_word k' fuel w _ _) as [[g|]| |]; try contradiction; try reflexivity. cbn [bindR].
  cbn in H. rewrite (n_forbidden H), (n_warn H). reflexivity.
Qed.
Lemma n_add : add_suggestion_if_correct sg' fuel = add_suggestion_if_correct sg fuel.
Proof.
  extensionality w. extensionality out. unfold add_suggestion_if_correct. pose proof (n_word fuel w ForbidBadForceucase SkipHiddenHomonym) as H.
  destruct (check_word k fuel w _ _) as [[f|]| |], (check_word k' fuel w _ _) as [[g|]| |]; try contradiction; try reflexivity. cbn [bindR].
  cbn in H. rewrite (n_forbidden H), (n_warn H). reflexivity.
Qed.
Lemma n_parts : rep_parts sg' fuel = rep_parts sg fuel.
Proof.
  extensionality n. induction n as [|n IH]; [reflexivity|]. extensionality w. cbn [rep_parts]. destruct (find_char _ w) as [j|]; [|reflexivity].
  pose proof (n_word fuel (firstn j w) ForbidBadForceucase SkipHiddenHomonym) as H.
  destruct (check_word k fuel _ _ _) as [[f|]| |], (check_word k' fuel _ _ _) as [[g|]| |]; try contradiction; try reflexivity. cbn [bindR]. rewrite IH. reflexivity.
Qed.
Lemma n_upper : uppercase_suggest sg' fuel = uppercase_suggest sg fuel.
Proof. unfold uppercase_suggest. rewrite n_try, E_u, E_case. reflexivity. Qed.
Lemma n_try_rep : try_rep_suggestion sg' fuel = try_rep_suggestion sg fuel.
Proof. unfold try_rep_suggestion. rewrite n_add, n_parts. reflexivity. Qed.
Lemma n_rep : rep_suggest sg' fuel = rep_suggest sg fuel.
Proof.
  unfold rep_suggest, rep_any_step, rep_at_step, rep_start_step, rep_end_step. rewrite n_try_rep, E_reps, E_dbg. reflexivity.
Qed.
Lemma n_attempts : max_attempts sg' = max_attempts sg.
Proof.
  unfold max_attempts, allows_compounding.
  rewrite <- (Forall2_length (am_pfx AM)), <- (Forall2_length (am_sfx AM)), (ag_complex AG), (n_is_some (ag_compound AG)), (n_is_some (ag_begin AG)),
    (n_is_some (ag_middle AG)), (n_is_some (ag_end AG)). reflexivity.
Qed.
Lemma n_map : map_suggest sg' fuel = map_suggest sg fuel.
Proof.
  unfold map_suggest, map_suggest_impl, map_body, map_at, map_from_string, map_from_char, map_try. rewrite n_attempts, n_try, E_sims, E_dbg. reflexivity.
Qed.
Lemma n_adjacent : adjacent_swap_suggest sg' fuel = adjacent_swap_suggest sg fuel.
Proof. unfold adjacent_swap_suggest, adjacent_loop, swap_adjacent. rewrite n_try, E_dbg. reflexivity. Qed.
Lemma n_distant : distant_swap_suggest sg' fuel = distant_swap_suggest sg fuel.
Proof. unfold distant_swap_suggest, distant_outer, swap_distant. rewrite n_attempts, n_try, E_dbg. reflexivity. Qed.
Lemma n_keyboard : keyboard_suggest sg' fuel = keyboard_suggest sg fuel.
Proof. unfold keyboard_suggest, keyboard_step, kb_try. rewrite n_try, E_dbg, E_kb, E_u. reflexivity. Qed.
Lemma n_extra : extra_char_suggest sg' fuel = extra_char_suggest sg fuel.
Proof. unfold extra_char_suggest. rewrite n_try. reflexivity. Qed.
Lemma n_forgotten : forgotten_char_suggest sg' fuel = forgotten_char_suggest sg fuel.
Proof. unfold forgotten_char_suggest. rewrite n_attempts, n_try, E_chars. reflexivity. Qed.
Lemma n_move : move_char_suggest sg' fuel = move_char_suggest sg fuel.
Proof. unfold move_char_suggest, move_right, move_left, swap_adjacent. rewrite n_attempts, n_try, E_dbg. reflexivity. Qed.
Lemma n_wrong : wrong_char_suggest sg' fuel = wrong_char_suggest sg fuel.
Proof. unfold wrong_char_suggest. rewrite n_attempts, n_try, E_chars. reflexivity. Qed.
Lemma n_doubled : doubled_two_chars_suggest sg' fuel = doubled_two_chars_suggest sg fuel.
Proof. unfold doubled_two_chars_suggest, doubled_loop. rewrite n_try. reflexivity. Qed.
Lemma n_two_step : two_words_step sg' = two_words_step sg.
Proof.
  extensionality word. extensionality out. extensionality n. unfold two_words_step. rewrite E_dbg, E_chars.
  pose proof (s_simple RF_has AG (firstn n word) SkipHiddenHomonym) as H1. pose proof (s_simple RF_has AG (skipn n word) SkipHiddenHomonym) as H2.
  destruct (check_simple_word k (firstn n word) _), (check_simple_word k' (firstn n word) _); try contradiction; [|reflexivity].
  destruct (check_simple_word k (skipn n word) _), (check_simple_word k' (skipn n word) _); try contradiction; reflexivity.
Qed.
Lemma n_two : two_words_suggest sg' = two_words_suggest sg.
Proof. unfold two_words_suggest. rewrite n_two_step, E_dbg, (am_no_split AM). reflexivity. Qed.
Lemma n_some_word : (fun w => r <- check_word k' fuel w AllowBadForceucase SkipHiddenHomonym ;; Ret (is_someb r)) =
  (fun w => r <- check_word k fuel w AllowBadForceucase SkipHiddenHomonym ;; Ret (is_someb r)).
Proof.
  extensionality w. pose proof (n_word fuel w AllowBadForceucase SkipHiddenHomonym) as H.
  destruct (check_word k fuel w _ _) as [[f|]| |], (check_word k' fuel w _ _) as [[g|]| |]; try contradiction; reflexivity.
Qed.
Lemma n_low : suggest_low sg' fuel = suggest_low sg fuel.
Proof.
  extensionality w. extensionality out. unfold suggest_low.
  rewrite n_upper, n_rep, n_map, n_adjacent, n_distant, n_keyboard, n_extra, n_forgotten, n_move, n_wrong, n_doubled, n_two, E_sims.
  pose proof (f_equal (fun h => h w) n_some_word) as H. cbn beta in H. rewrite H. reflexivity.
Qed.

(** ** Suggestions by n-grams *)
Notation HP := (su_heaps sg).
Definition RR (e e' : str * flagset) : Prop := fst e' = fst e /\ RF (snd e) (snd e').
Lemma n_push : forall cap l m x y, Forall2 (scored RR) l m -> scored RR x y -> Forall2 (scored RR) (push_bounded HP cap l x) (push_bounded HP cap m y).
Proof.
  intros cap l m x y H Hx. unfold push_bounded. rewrite <- (Forall2_length H). destruct (negb _); [apply (uh_push UH); assumption|].
  inversion H as [|t u l1 m1 Ht H1]; subst; [constructor|]. rewrite (proj1 Ht), (proj1 Hx). destruct (_ <? _)%Z; [|exact H].
  apply (uh_push UH); [apply (uh_pop UH); exact H|exact Hx].
Qed.
Lemma n_ineligible : forall f g, RF f g -> ineligible k' g = ineligible k f.
Proof.
  intros f g H. unfold ineligible. rewrite (n_forbidden H), (n_has H (am_no_suggest AM)), (n_has H (ag_only AG)), (s_hh RF_has AG _ _ H). reflexivity.
Qed.
Lemma n_root : forall word l m e e', Forall2 (scored RR) l m -> RR e e' -> RRes (Forall2 (scored RR)) (root_step HP k word l e) (root_step HP k' word m e').
Proof.
  intros word l m [s f] [s' g] H [E1 E2]. cbn [fst snd] in *. subst s'. unfold root_step. cbn [fst snd]. rewrite (n_ineligible E2), E_u, E_case.
  destruct (ineligible k f); [exact H|]. destruct (chars_str s) as [c| |]; cbn [bindR]; try exact I. destruct (chars_str _) as [lw| |]; cbn [bindR]; try exact I.
  cbn [RRes]. apply n_push; [exact H|]. split; [reflexivity|]. split; [reflexivity|exact E2].
Qed.
Lemma n_suffix_fits : forall f g stem word a b, RF f g -> RA ren Used RF a b -> suffix_fits k' g stem word b = suffix_fits k f stem word a.
Proof.
  intros f g stem word a b H HA. unfold suffix_fits.
  rewrite (s_contains RF_has _ _ H HA), (s_outer RF_has AG _ _ HA), (s_circ RF_has AG HA), (s_scond stem HA), (s_add HA).
  destruct HA as (_ & _ & _ & _ & ES & _). unfold strip_text. rewrite ES. reflexivity.
Qed.
Lemma n_prefix_fits : forall f g stem word a b, RF f g -> RA ren Used RF a b -> prefix_fits k' g stem word b = prefix_fits k f stem word a.
Proof.
  intros f g stem word a b H HA. unfold prefix_fits.
  rewrite (s_contains RF_has _ _ H HA), (s_outer RF_has AG _ _ HA), (s_circ RF_has AG HA), (s_pcond stem HA), (s_add HA).
  destruct HA as (_ & _ & _ & _ & ES & _). unfold strip_text. rewrite ES. reflexivity.
Qed.
Lemma n_sderived : forall a b w, RA ren Used RF a b -> suffix_to_derived b w = suffix_to_derived a w.
Proof. intros a b w (_ & _ & _ & _ & ES & EA & _). unfold suffix_to_derived, strip_text. rewrite ES, EA. reflexivity. Qed.
Lemma n_pderived : forall a b w, RA ren Used RF a b -> prefix_to_derived b w = prefix_to_derived a w.
Proof. intros a b w (_ & _ & _ & _ & ES & EA & _). unfold prefix_to_derived, strip_text. rewrite ES, EA. reflexivity. Qed.
End Low.

(** The shortcut for entries without flags does not change the result. *)
Definition expand_all (k : checker) (stem : str) (flags : flagset) (word : str) : Res (list str) :=
  let base := if has_flag flags (o_need_affix (ad_options (ck_aff k))) then [] else [(stem, false)] in
  sfx <- mapR (fun a => e <- suffix_to_derived a stem ;; Ret (e, a_cross a))
           (filter (suffix_fits k flags stem word) (i_table (ad_suffixes (ck_aff k)))) ;;
  let suffixed := base ++ sfx in
  crossed <- mapR (fun e : str * bool =>
               if snd e
               then mapR (fun a => prefix_to_derived a stem)
                      (filter (prefix_fits k flags (fst e) word) (i_table (ad_prefixes (ck_aff k))))
               else Ret []) suffixed ;;
  pfx <- mapR (fun a => prefix_to_derived a stem)
           (filter (prefix_fits k flags stem word) (i_table (ad_prefixes (ck_aff k)))) ;;
  Ret (map fst suffixed ++ concat crossed ++ pfx).
Lemma expand_all_is : forall k stem flags word, expand_stem_for_ngram k stem flags word = expand_all k stem flags word.
Proof.
  intros c stem [|f l] word; [|reflexivity]. unfold expand_stem_for_ngram, expand_all. rewrite !filter_none by (intro; reflexivity).
  destruct (has_flag _ _); reflexivity.
Qed.
Lemma n_expand : forall f g stem word, RF f g -> expand_stem_for_ngram k' stem g word = expand_stem_for_ngram k stem f word.
Proof.
  intros f g stem word H. rewrite !expand_all_is. unfold expand_all. rewrite (n_has H (ag_need AG)).
  set (base := if has_flag f _ then [] else _).
  assert (PF : forall s, mapR (fun a => prefix_to_derived a stem) (filter (prefix_fits k' g s word) (i_table (ad_prefixes aff'))) =
    mapR (fun a => prefix_to_derived a stem) (filter (prefix_fits k f s word) (i_table (ad_prefixes aff)))).
  { intros s. apply sim_map with (R := RA ren Used RF); [|intros a b HA; apply n_pderived; exact HA].
    apply sim_filter; [exact (am_pfx AM)|]. intros a b HA. apply n_prefix_fits; assumption. }
  rewrite (PF stem).
  rewrite (@sim_map _ _ _ (RA ren Used RF) (fun a => e <- suffix_to_derived a stem ;; Ret (e, a_cross a)) (fun a => e <- suffix_to_derived a stem ;; Ret (e, a_cross a))
    (filter (suffix_fits k f stem word) (i_table (ad_suffixes aff))) (filter (suffix_fits k' g stem word) (i_table (ad_suffixes aff')))).
  - destruct (mapR _ (filter (suffix_fits k f stem word) _)) as [sfx| |]; try reflexivity. cbn [bindR].
    rewrite (@sim_map _ _ _ eq (fun e : str * bool => if snd e then mapR (fun a => prefix_to_derived a stem) (filter (prefix_fits k f (fst e) word) (i_table (ad_prefixes aff))) else Ret [])
      (fun e : str * bool => if snd e then mapR (fun a => prefix_to_derived a stem) (filter (prefix_fits k' g (fst e) word) (i_table (ad_prefixes aff'))) else Ret []) (base ++ sfx) (base ++ sfx)).
    + reflexivity.
    + induction (base ++ sfx); constructor; auto.
    + intros e e' <-. rewrite (PF (fst e)). reflexivity.
  - apply sim_filter; [exact (am_sfx AM)|]. intros a b HA. apply n_suffix_fits; assumption.
  - intros a b HA. rewrite (n_sderived stem HA), (s_cross HA). reflexivity.
Qed.
Lemma n_guess : guess_step (su_heaps sg') k' = guess_step (su_heaps sg) k.
Proof. unfold guess_step. rewrite (am_heaps AM), E_u, E_case. reflexivity. Qed.
Lemma n_rescore : rescore k' = rescore k.
Proof. unfold rescore. rewrite E_u, E_case, (am_max_diff AM). reflexivity. Qed.
Lemma n_push_guesses : push_guesses k' = push_guesses k.
Proof. unfold push_guesses. rewrite (am_only_max_diff AM). reflexivity. Qed.
Lemma n_ngram : ngram_suggest (su_heaps sg') k' (su_words sg') = ngram_suggest (su_heaps sg) k (su_words sg).
Proof.
  extensionality word. extensionality out. unfold ngram_suggest. rewrite n_guess, n_rescore, n_push_guesses, (am_max_ngram AM), (am_heaps AM).
  destruct (chars_str word) as [w| |]; try reflexivity. cbn [bindR].
  pose proof (@sim_fold _ _ _ _ RR (Forall2 (scored RR)) (root_step (su_heaps sg) k w) (root_step (su_heaps sg) k' w) (su_words sg) (su_words sg') [] []
    (am_words AM) ltac:(constructor) (fun s t x y Hs Hx => @n_root w s t x y Hs Hx)) as H.
  destruct (foldR (root_step _ k w) _ _) as [l| |], (foldR (root_step _ k' w) _ _) as [m| |]; try contradiction; try reflexivity. cbn [bindR]. cbn [RRes] in H.
  assert (G : foldR (fun g root => expanded <- expand_stem_for_ngram k' (fst (snd root)) (snd (snd root)) w ;; foldR (guess_step (su_heaps sg) k w (threshold w)) expanded g) m [] =
    foldR (fun g root => expanded <- expand_stem_for_ngram k (fst (snd root)) (snd (snd root)) w ;; foldR (guess_step (su_heaps sg) k w (threshold w)) expanded g) l []).
  { generalize (@nil (Z * str)). induction H as [|x y l m Hx _ IH]; intro g0; [reflexivity|]. cbn [foldR]. destruct Hx as [_ [E1 E2]].
    rewrite E1, (n_expand _ _ E2). destruct (expand_stem_for_ngram k _ _ w) as [e| |]; try reflexivity. cbn [bindR].
    destruct (foldR _ e g0) as [g1| |]; try reflexivity. cbn [bindR]. apply IH. }
  rewrite G. reflexivity.
Qed.

(** ** The whole *)
Variable fuel : nat.
Lemma n_check : check k' fuel = check k fuel.
Proof. extensionality w. apply (agree_check RF_has AG). Qed.
Lemma n_first : low_and_first sg' fuel = low_and_first sg fuel.
Proof. unfold low_and_first. rewrite n_low, n_check. reflexivity. Qed.
Lemma n_fix : fix_space sg' = fix_space sg.
Proof. unfold fix_space. rewrite E_u, E_case. reflexivity. Qed.
Lemma n_casing : by_casing sg' fuel = by_casing sg fuel.
Proof.
  extensionality w. extensionality out. unfold by_casing. rewrite n_low, n_check, n_first, n_fix, E_u, E_case.
  destruct (ag_force AG) as [EF _]. destruct (ag_keep AG) as [EK _]. rewrite EF, EK.
  destruct (classify_casing _ w); try reflexivity.
  - destruct (o_force_upper opts) as [x|]; [|reflexivity]. cbn [option_map]. pose proof (s_compound RF_has AG fuel AT_BEGIN w AllowBadForceucase) as H.
    destruct (check_compound k fuel _ _ _) as [[f|]| |], (check_compound k' fuel _ _ _) as [[g|]| |]; try contradiction; reflexivity.
  - destruct (o_keep_case opts); reflexivity.
Qed.
Lemma n_by_ngram : by_ngram sg' = by_ngram sg.
Proof. unfold by_ngram. rewrite n_ngram, (am_ngram AM), (am_max_ngram AM), E_u, E_case. reflexivity. Qed.
Lemma n_dash_push : dash_push sg' fuel = dash_push sg fuel.
Proof.
  extensionality b. extensionality a. extensionality out. extensionality s. unfold dash_push. set (w := b ++ s ++ _).
  pose proof (n_word fuel w ForbidBadForceucase AcceptHiddenHomonym) as H.
  destruct (check_word k fuel w _ _) as [[f|]| |], (check_word k' fuel w _ _) as [[g|]| |]; try contradiction; try reflexivity. cbn [bindR]. cbn in H.
  rewrite (n_forbidden H). reflexivity.
Qed.
Lemma n_dash : by_dash sg' fuel = by_dash sg fuel.
Proof. unfold by_dash, dash_loop. rewrite n_dash_push, n_check. reflexivity. Qed.
Lemma n_retain : retain_step sg' fuel = retain_step sg fuel.
Proof. unfold retain_step. rewrite n_check, E_u, E_case. reflexivity. Qed.
Theorem agree_suggest : suggest sg' fuel = suggest sg fuel.
Proof.
  unfold suggest, suggest_impl. rewrite n_casing, n_by_ngram, n_dash, n_retain, (ag_iconv AG), (am_oconv AM), E_u, E_case. reflexivity.
Qed.
End Sim.
