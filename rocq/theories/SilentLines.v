(** Which lines of an .aff text [check] can see: dropping the others from the text drops the settings they write and nothing else. *)
From Coq Require Import String Ascii List NArith ZArith Lia Bool Arith Permutation.
From Verif Require Import Base Utf8 Unicode Flags Bag Condition Affix CompoundRule Conversion Aff Checker Parser ParserSafe
  ParserProps TableProps Grammar.
Import ListNotations.
Set Implicit Arguments.
Local Open Scope string_scope.
Local Open Scope list_scope.
Local Open Scope nat_scope.

(** ** Specification *)
(** The directives that [check] always reads. *)
Definition about_checking : list str := map lit
  ["FLAG"; "AF"; "FORBIDDENWORD"; "CIRCUMFIX"; "KEEPCASE"; "NEEDAFFIX"; "COMPOUNDFLAG"; "COMPOUNDBEGIN"; "COMPOUNDMIDDLE"; "COMPOUNDEND";
   "ONLYINCOMPOUND"; "COMPOUNDPERMITFLAG"; "COMPOUNDFORBIDFLAG"; "COMPOUNDROOT"; "FORCEUCASE"; "COMPLEXPREFIXES"; "CHECKSHARPS";
   "FORBIDWARN"; "CHECKCOMPOUNDDUP"; "CHECKCOMPOUNDREP"; "CHECKCOMPOUNDCASE"; "CHECKCOMPOUNDTRIPLE"; "SIMPLIFIEDTRIPLE"; "SYLLABLENUM";
   "COMPOUNDMIN"; "COMPOUNDWORDMAX"; "IGNORE"; "LANG"; "COMPOUNDSYLLABLE"; "ICONV"; "BREAK"; "PFX"; "SFX"; "COMPOUNDRULE";
   "CHECKCOMPOUNDPATTERN"].
Definition starts_line (key : str) (ws : list str) : bool := match ws with [] => false | k :: _ => str_eqb k key end.
Definition mentions (key : str) (ls : list (list str)) : bool := existsb (starts_line key) ls.
(** REP counts where the text says CHECKCOMPOUNDREP, WARN where it says FORBIDWARN. *)
Definition counts (rep warn : bool) (key : str) : bool :=
  existsb (str_eqb key) about_checking || (str_eqb key (lit "REP") && rep) || (str_eqb key (lit "WARN") && warn).
Definition counting (cnt : str -> bool) (ls : list (list str)) : list (list str) :=
  filter (fun ws => match ws with [] => false | key :: _ => cnt key end) ls.
Definition checked_lines (ls : list (list str)) : list (list str) :=
  counting (counts (mentions (lit "CHECKCOMPOUNDREP") ls) (mentions (lit "FORBIDWARN") ls)) ls.
(** The directives that [suggest] reads too. *)
Definition about_suggesting : list str := map lit
  ["REP"; "MAP"; "OCONV"; "KEY"; "TRY"; "NOSUGGEST"; "MAXNGRAMSUGS"; "MAXDIFF"; "ONLYMAXDIFF"; "NOSPLITSUGS"].
Definition counts_too (warn : bool) (key : str) : bool :=
  existsb (str_eqb key) (about_checking ++ about_suggesting) || (str_eqb key (lit "WARN") && warn).
Definition suggesting_lines (ls : list (list str)) : list (list str) := counting (counts_too (mentions (lit "FORBIDWARN") ls)) ls.

(** ** The settings that are left *)
Definition bare_options (warn : bool) (o : options) : options := mkOptions
  (o_complex_prefixes o) false (o_checksharps o) (o_forbid_warn o) (o_only_in_compound o) (o_circumfix o) (o_forbidden o) (o_keep_case o)
  (o_need_affix o) (if warn then o_warn o else None)
  (o_compound o) (o_compound_begin o) (o_compound_middle o) (o_compound_end o) (o_min_length o) (o_max_words o) (o_permit o) (o_forbid o)
  (o_root o) (o_force_upper o)
  false (o_check_duplicate o) (o_check_rep o) (o_check_case o) (o_check_triple o) (o_simplified_triple o) (o_syllable_num o) (o_syllable_max o)
  3%N None None 5%N 5%N false false false (o_case o).
Definition bared (rep warn : bool) (x : lparser) : lparser := mkLP
  (bare_options warn (x_options x)) (x_flag_type x) (x_aliases x) (if rep then x_reps x else []) [] (x_iconv x) [] (x_breaks x)
  (x_vowels x) (x_ignore x) [] [] (x_prefixes x) (x_suffixes x) (x_rules x) (x_patterns x).

Lemma bare_settings : forall rep warn x key get dflt, In (key, get, dflt) settings ->
  get (of_lp (bared rep warn x)) = if counts rep warn key then get (of_lp x) else dflt.
Proof.
  intros rep warn x key get dflt I. unfold settings in I. cbn [In] in I.
  repeat (destruct I as [I|I]; [injection I as <- <- <-; destruct rep, warn; reflexivity|]). destruct I.
Qed.
Lemma bare_tables : forall rep warn x key get, In (key, get) tables ->
  get (bared rep warn x) = if counts rep warn key then get x else [].
Proof.
  intros rep warn x key get I. unfold tables in I. cbn [In] in I.
  repeat (destruct I as [I|I]; [injection I as <- <-; destruct rep, warn; reflexivity|]). destruct I.
Qed.
Lemma bare_default : forall rep warn, bared rep warn default_lp = default_lp.
Proof. intros [|] [|]; reflexivity. Qed.
Definition half_bare_options (warn : bool) (o : options) : options := mkOptions
  (o_complex_prefixes o) false (o_checksharps o) (o_forbid_warn o) (o_only_in_compound o) (o_circumfix o) (o_forbidden o) (o_keep_case o)
  (o_need_affix o) (if warn then o_warn o else None)
  (o_compound o) (o_compound_begin o) (o_compound_middle o) (o_compound_end o) (o_min_length o) (o_max_words o) (o_permit o) (o_forbid o)
  (o_root o) (o_force_upper o)
  false (o_check_duplicate o) (o_check_rep o) (o_check_case o) (o_check_triple o) (o_simplified_triple o) (o_syllable_num o) (o_syllable_max o)
  3%N (o_no_suggest o) None (o_max_ngram o) (o_max_diff o) (o_only_max_diff o) (o_no_split_sugs o) false (o_case o).
Definition half_bared (warn : bool) (x : lparser) : lparser := mkLP
  (half_bare_options warn (x_options x)) (x_flag_type x) (x_aliases x) (x_reps x) (x_sims x) (x_iconv x) (x_oconv x) (x_breaks x)
  (x_vowels x) (x_ignore x) (x_try x) (x_keyboard x) (x_prefixes x) (x_suffixes x) (x_rules x) (x_patterns x).
Lemma half_bare_settings : forall warn x key get dflt, In (key, get, dflt) settings ->
  get (of_lp (half_bared warn x)) = if counts_too warn key then get (of_lp x) else dflt.
Proof.
  intros warn x key get dflt I. unfold settings in I. cbn [In] in I.
  repeat (destruct I as [I|I]; [injection I as <- <- <-; destruct warn; reflexivity|]). destruct I.
Qed.
Lemma half_bare_tables : forall warn x key get, In (key, get) tables ->
  get (half_bared warn x) = if counts_too warn key then get x else [].
Proof.
  intros warn x key get I. unfold tables in I. cbn [In] in I.
  repeat (destruct I as [I|I]; [injection I as <- <-; destruct warn; reflexivity|]). destruct I.
Qed.
Lemma half_bare_default : forall warn, half_bared warn default_lp = default_lp.
Proof. intros [|]; reflexivity. Qed.

Lemma keys_nonempty : forall get dflt, ~ In ([], get, dflt) settings.
Proof.
  intros get dflt I. apply (in_map (fun e => fst (fst e))) in I. cbn [fst] in I.
  assert (A : forallb (fun a : str => match a with [] => false | _ => true end) (map (fun e => fst (fst e)) settings) = true) by reflexivity.
  rewrite forallb_forall in A. apply A in I. discriminate I.
Qed.
Lemma table_keys_nonempty : forall get, ~ In ([], get) tables.
Proof.
  intros get I. apply (in_map fst) in I. cbn [fst] in I.
  assert (A : forallb (fun a : str => match a with [] => false | _ => true end) (map fst tables) = true) by reflexivity.
  rewrite forallb_forall in A. apply A in I. discriminate I.
Qed.
Lemma known_keys : forall key l, forallb (fun a => existsb (str_eqb a) (map (fun e => fst (fst e)) settings ++ map fst tables)) l = true -> In key l -> known key.
Proof.
  intros key l A I. rewrite forallb_forall in A. apply A in I. apply existsb_exists in I. destruct I as (k & I & E). apply str_eqb_eq in E. subst k.
  apply in_app_iff in I. destruct I as [I|I]; apply in_map_iff in I.
  - destruct I as ([[k g] d] & E & I). cbn [fst] in E. subst k. left. eauto.
  - destruct I as ([k g] & E & I). cbn [fst] in E. subst k. right. eauto.
Qed.
Lemma counts_known : forall rep warn key, counts rep warn key = true -> known key.
Proof.
  intros rep warn key H. apply (@known_keys key (lit "REP" :: lit "WARN" :: about_checking)); [reflexivity|].
  unfold counts in H. apply orb_true_iff in H. destruct H as [H|H].
  - apply orb_true_iff in H. destruct H as [H|H].
    + apply existsb_exists in H. destruct H as (k & I & E). apply str_eqb_eq in E. subst k. right. right. exact I.
    + apply andb_true_iff in H. destruct H as [H _]. apply str_eqb_eq in H. left. auto.
  - apply andb_true_iff in H. destruct H as [H _]. apply str_eqb_eq in H. right. left. auto.
Qed.
Lemma counts_too_known : forall warn key, counts_too warn key = true -> known key.
Proof.
  intros warn key H. apply (@known_keys key (lit "WARN" :: about_checking ++ about_suggesting)); [reflexivity|].
  unfold counts_too in H. apply orb_true_iff in H. destruct H as [H|H].
  - apply existsb_exists in H. destruct H as (k & I & E). apply str_eqb_eq in E. subst k. right. exact I.
  - apply andb_true_iff in H. destruct H as [H _]. apply str_eqb_eq in H. left. auto.
Qed.

Section Drop.
Variable pl : platform.
(** The directives that count, and the settings without the others. *)
Variable cnt : str -> bool.
Variable bare : lparser -> lparser.
Hypothesis BS : forall x key get dflt, In (key, get, dflt) settings -> get (of_lp (bare x)) = if cnt key then get (of_lp x) else dflt.
Hypothesis BT : forall x key get, In (key, get) tables -> get (bare x) = if cnt key then get x else [].
Hypothesis CK : forall key, cnt key = true -> known key.
Hypothesis BF : forall x, x_flag_type (bare x) = x_flag_type x.
Hypothesis BA : forall x, x_aliases (bare x) = x_aliases x.

(** A directive that counts still says the same. *)
Lemma directive_bare : forall x key ws rws x', Directive pl x key ws rws x' -> cnt key = true ->
  Directive pl (bare x) key ws rws (bare x').
Proof.
  intros x key ws rws x' D C. destruct D as [key get dflt ws x' I R K T|key get h rws cells x' I HD F G K T].
  - eapply D_setting; [exact I| | |].
    + rewrite (@BS x' _ _ _ I), C, BF. exact R.
    + intros k g d Ik NE. rewrite !(@BS _ _ _ _ Ik). destruct (cnt k); [exact (K _ _ _ Ik NE)|reflexivity].
    + intros k g Ik NE. rewrite !(@BT _ _ _ Ik). destruct (cnt k); [exact (T _ _ Ik NE)|reflexivity].
  - eapply D_table; [exact I|rewrite BF; exact HD|rewrite BF, BA; exact F| | |].
    + rewrite !(@BT _ _ _ I), C. exact G.
    + intros k g d Ik NE. rewrite !(@BS _ _ _ _ Ik). destruct (cnt k); [exact (K _ _ _ Ik NE)|reflexivity].
    + intros k g Ik NE. rewrite !(@BT _ _ _ Ik). destruct (cnt k); [exact (T _ _ Ik NE)|reflexivity].
Qed.
(** One that does not leaves no trace. *)
Lemma directive_silent : forall x key ws rws x', Directive pl x key ws rws x' -> cnt key = false ->
  bare x' = bare x.
Proof.
  intros x key ws rws x' D C.
  assert (ST : settings_kept key x x' /\ tables_kept key x x').
  { destruct D as [key get dflt ws x' I R K T|key get h rws cells x' I HD F G K T].
    - split; [exact K|]. intros k g Ik _. apply (T _ _ Ik). intros ->. exact (@table_keys_nonempty _ Ik).
    - split; [|exact T]. intros k g d Ik _. apply (K _ _ _ Ik). intros ->. exact (@keys_nonempty _ _ Ik). }
  clear D. destruct ST as [K T]. apply lp_ext.
  - apply settings_complete. intros k g d Ik. rewrite !(@BS _ _ _ _ Ik). destruct (cnt k) eqn:E; [|reflexivity].
    apply (K _ _ _ Ik). intros ->. congruence.
  - intros k g Ik. rewrite !(@BT _ _ _ Ik). destruct (cnt k) eqn:E; [|reflexivity].
    apply (T _ _ Ik). intros ->. congruence.
Qed.
Lemma directive_rows : forall x key ws rws x', Directive pl x key ws rws x' -> Forall (fun r => exists w, r = key :: w) rws.
Proof.
  intros x key ws rws x' D. destruct D as [|key get h rws cells x' I HD F G K T]; [constructor|].
  clear - F. induction F as [|r c rws cells (w & -> & _) _ IH]; constructor; eauto.
Qed.
Lemma counting_rows : forall key rws, Forall (fun r => exists w, r = key :: w) rws ->
  counting cnt rws = if cnt key then rws else [].
Proof.
  intros key rws F. induction F as [|r rws (w & ->) _ IH]; [destruct (cnt _); reflexivity|]. unfold counting in *. cbn [filter].
  rewrite IH. destruct (cnt key); reflexivity.
Qed.
Lemma counting_app : forall a b, counting cnt (a ++ b) = counting cnt a ++ counting cnt b.
Proof. intros a b. unfold counting. apply filter_app. Qed.

Theorem text_bare : forall ls x x', Text pl ls x x' -> Text pl (counting cnt ls) (bare x) (bare x').
Proof.
  intros ls x x' T. induction T as [x|ws r x x' NK T IH|key ws rws r x x1 x' D T IH].
  - constructor.
  - unfold counting in *. cbn [filter]. destruct ws as [|key ws]; [exact IH|].
    destruct (cnt key) eqn:C; [|exact IH]. exfalso. apply (NK _ _ eq_refl). eapply CK, C.
  - change ((key :: ws) :: rws ++ r) with (((key :: ws) :: rws) ++ r). rewrite counting_app.
    rewrite (@counting_rows key) by (constructor; [eauto|eapply directive_rows, D]).
    destruct (cnt key) eqn:C.
    + cbn [app]. eapply T_directive; [apply directive_bare; eassumption|exact IH].
    + cbn [app]. rewrite <- (directive_silent D C). exact IH.
Qed.
End Drop.
Lemma checked_text : forall pl rep warn ls x x', Text pl ls x x' -> Text pl (counting (counts rep warn) ls) (bared rep warn x) (bared rep warn x').
Proof.
  intros pl rep warn ls x x' T. apply text_bare; [apply bare_settings|apply bare_tables|apply counts_known|reflexivity|reflexivity|exact T].
Qed.
Lemma suggesting_text : forall pl warn ls x x', Text pl ls x x' -> Text pl (counting (counts_too warn) ls) (half_bared warn x) (half_bared warn x').
Proof.
  intros pl warn ls x x' T. apply text_bare; [apply half_bare_settings|apply half_bare_tables|apply counts_too_known|reflexivity|reflexivity|exact T].
Qed.

(** A switch no line mentions stays off. *)
Lemma unmentioned : forall pl key get dflt, In (key, get, dflt) settings ->
  forall ls x x', Text pl ls x x' -> mentions key ls = false -> get (of_lp x') = get (of_lp x).
Proof.
  intros pl key get dflt I ls x x' T. induction T as [x|ws r x x' NK T IH|k ws rws r x x1 x' D T IH]; intro M.
  - reflexivity.
  - apply IH. unfold mentions in *. cbn [existsb] in M. apply orb_false_iff in M. apply M.
  - unfold mentions in *. cbn [existsb] in M. apply orb_false_iff in M. destruct M as [M1 M2]. rewrite existsb_app in M2.
    apply orb_false_iff in M2. destruct M2 as [_ M2]. rewrite (IH M2). cbn [starts_line] in M1.
    assert (NE : key <> k). { intros ->. rewrite str_eqb_refl in M1. discriminate M1. }
    destruct D as [k get' dflt' ws x1 I' R K T'|k get' h rws cells x1 I' HD F G K T'].
    + exact (K _ _ _ I NE).
    + apply (K _ _ _ I). intros ->. exact (@keys_nonempty _ _ I).
Qed.
Lemma mentions_counting : forall cnt key ls, cnt key = true -> mentions key (counting cnt ls) = mentions key ls.
Proof.
  intros cnt key ls C. induction ls as [|ws ls IH]; [reflexivity|]. unfold counting, mentions in *. cbn [filter existsb].
  destruct ws as [|k ws]; [exact IH|]. cbn [starts_line]. destruct (cnt k) eqn:E.
  - cbn [existsb starts_line]. rewrite IH. reflexivity.
  - rewrite IH. destruct (str_eqb k key) eqn:Ek; [|reflexivity]. apply str_eqb_eq in Ek. subst k. congruence.
Qed.

(** The lines of a text say one thing. *)
Section Once.
Variable pl : platform.
Lemma upcoming_plain : forall nl (nls : list (N * str)) w src, Forall (fun nl => is_comment pl (snd nl) = false) nls ->
  upcoming pl (mkLines (nl :: nls) w src) = nls.
Proof.
  intros nl nls w src F. unfold upcoming. cbn [ln_rest]. cbn [tl].
  induction F as [|a l Ha F IH]; [reflexivity|]. cbn [filter]. rewrite Ha. cbn [negb]. f_equal. exact IH.
Qed.
Theorem text_once : forall nls x x1 x2, Forall (fun nl => is_comment pl (snd nl) = false) nls -> Forall (readable pl) nls ->
  Text pl (map (words_of pl) nls) x x1 -> Text pl (map (words_of pl) nls) x x2 -> x1 = x2.
Proof.
  intros nls x x1 x2 F R T1 T2. set (ls := mkLines nls (peek_words pl nls) SrcAff).
  assert (E : match ln_rest ls with [] => [] | nl :: _ => nl :: upcoming pl ls end = nls).
  { unfold ls. destruct nls as [|nl nls]; [reflexivity|]. cbn [ln_rest]. rewrite upcoming_plain; [reflexivity|]. inversion F; assumption. }
  assert (G : forall y, Text pl (map (words_of pl) nls) x y -> aff_go pl (Datatypes.S (length nls)) ls x = Ret (Ok y)).
  { intros y T. apply go_text; [reflexivity| | |]; rewrite E; [exact R|lia|exact T]. }
  pose proof (G _ T1) as G1. pose proof (G _ T2) as G2. congruence.
Qed.
Lemma filter_map_words : forall f (m : list (N * str)), filter f (map (words_of pl) m) = map (words_of pl) (filter (fun nl => f (words_of pl nl)) m).
Proof. intros f m. induction m as [|a l IH]; [reflexivity|]. cbn [map filter]. rewrite IH. destruct (f _); reflexivity. Qed.
Theorem aff_once : forall aff ls x x1 x2, scalars aff -> (exists f, ls = filter f (aff_words pl aff)) ->
  Text pl ls x x1 -> Text pl ls x x2 -> x1 = x2.
Proof.
  intros aff ls x x1 x2 Ha (f & ->) T1 T2. unfold aff_words in *. set (nls := number_from 0 _) in *.
  set (m := filter (fun nl => negb (is_comment pl (snd nl))) nls) in *.
  rewrite filter_map_words in T1, T2. eapply text_once; [| |exact T1|exact T2]; rewrite Forall_forall; intros nl I; apply filter_In in I; destruct I as [I _];
    apply filter_In in I; destruct I as [I C].
  - apply negb_true_iff, C.
  - eapply words_readable; eassumption.
Qed.
End Once.

(** ** The .dic text and the final data *)
(** What a line of the .dic text is read with. *)
Lemma parse_dic_alike : forall pl x y dic, x_flag_type y = x_flag_type x -> x_aliases y = x_aliases x -> x_ignore y = x_ignore x ->
  o_forbidden (x_options y) = o_forbidden (x_options x) -> o_case (x_options y) = o_case (x_options x) ->
  parse_dic pl y dic = parse_dic pl x dic.
Proof.
  intros pl x y dic E1 E2 E3 E4 E5. unfold parse_dic. destruct (parse_row_count _) as [[[ls1 n]|e]| |]; try reflexivity. cbn [bindP].
  assert (G : forall fuel ls t, dic_lines pl fuel y ls t = dic_lines pl fuel x ls t); [|apply G].
  induction fuel as [|fuel IH]; intros ls t; [reflexivity|].
  cbn [dic_lines]. destruct (is_finished ls); [reflexivity|].
  assert (EL : forall l, dic_line pl y l t = dic_line pl x l t) by (intro l; unfold dic_line, insert_entry; rewrite E1, E2, E3, E4, E5; reflexivity). rewrite EL.
  destruct (dic_line pl x (advance_line pl ls) t) as [[t'|]| |]; cbn [bindP]; try reflexivity. apply IH.
Qed.
Lemma parse_dic_bare : forall pl rep warn x dic, parse_dic pl (bared rep warn x) dic = parse_dic pl x dic.
Proof. intros. apply parse_dic_alike; reflexivity. Qed.
Lemma parse_dic_half_bare : forall pl warn x dic, parse_dic pl (half_bared warn x) dic = parse_dic pl x dic.
Proof. intros. apply parse_dic_alike; reflexivity. Qed.
Lemma counting_twice : forall cnt ls, counting cnt (counting cnt ls) = counting cnt ls.
Proof.
  intros cnt ls. unfold counting. induction ls as [|ws ls IH]; [reflexivity|]. cbn [filter]. destruct ws as [|key ws]; [exact IH|].
  destruct (cnt key) eqn:E; [|exact IH]. cbn [filter]. rewrite E, IH. reflexivity.
Qed.
