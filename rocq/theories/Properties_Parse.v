(** Properties C24 (exactly), C38-C41, C43 and C45: what the two texts mean. *)
From Coq Require Import String Ascii List NArith ZArith Lia Bool Arith Permutation.
From Verif Require Import Base Utf8 Unicode Flags Bag Condition Affix Conversion Aff Checker AffixSpec CompoundRule Rep CompoundSpec
  CompoundTotal RuleCompound Spell CheckSpec CheckMono CheckProps Parser ParserSafe Lib LibSpec LibProps ParserProps TableProps Examples
  Properties_Affix Properties_Compound Properties_Check Properties_Dict.
Import ListNotations.
Local Open Scope string_scope.
Local Open Scope list_scope.
Local Open Scope nat_scope.
Set Implicit Arguments.

Lemma Forall2_weaken : forall A B (P Q : A -> B -> Prop) l1 l2, (forall x y, P x y -> Q x y) -> Forall2 P l1 l2 -> Forall2 Q l1 l2.
Proof. intros A B P Q l1 l2 H F. induction F; constructor; auto. Qed.

Section Dict.
Variable pl : platform.
Hypothesis WP : wf_platform pl.
Notation U := (pl_unicode pl).
Notation le := (pl_little_endian pl).

(** ** C38: flags *)
Theorem C38_flags_exact : forall t s fs, scalars s -> s <> [] ->
  (parse_flags_from_str pl t s = Ret (Ok fs) <->
   exists l, Written le t s l /\ Forall valid_flag l /\ set_of fs l).
Proof. intros. apply flags_exact; assumption. Qed.
Theorem C38_flags_round_trip : forall t l, Forall (writable t) l ->
  exists fs, parse_flags_from_str pl t (flag_text pl t l) = Ret (Ok fs) /\ set_of fs l.
Proof. intros. apply flags_round_trip; assumption. Qed.
Theorem C38_no_zero_flag : forall t s fs, scalars s -> parse_flags_from_str pl t s = Ret (Ok fs) -> Forall valid_flag fs.
Proof.
  intros t s fs Hs H. destruct s as [|c s].
  - destruct t; vm_compute in H; try discriminate; injection H as <-; constructor.
  - apply C38_flags_exact in H; [|exact Hs|discriminate]. destruct H as (l & _ & V & S0). apply Forall_forall. intros g Hg.
    rewrite Forall_forall in V. apply V. apply S0, Hg.
Qed.

(** ** C39: dictionary lines *)
Theorem C39_word_round_trip : forall w tail t al ig,
  w <> [] -> ~ In 9%N w -> no_field pl w tail -> NoFlags pl tail -> (blen (escape w ++ tail) <= 65535)%N ->
  parse_dic_line pl (escape w ++ tail) t al ig = Ret (Ok (drop_chars ig w, [])).
Proof. intros. apply dic_line_word; assumption. Qed.
Theorem C39_line_round_trip : forall w l tail t ig,
  w <> [] -> ~ In 9%N w -> last w 0%N <> 92%N -> no_field pl w (47%N :: flag_text pl t l ++ tail) ->
  l <> [] -> Forall (writable t) l -> ws_free pl (flag_text pl t l) -> after_flags pl tail ->
  (blen (escape w ++ 47%N :: flag_text pl t l ++ tail) <= 65535)%N ->
  exists fs, parse_dic_line pl (escape w ++ 47%N :: flag_text pl t l ++ tail) t [] ig = Ret (Ok (drop_chars ig w, fs)) /\
             set_of fs l.
Proof. intros. apply dic_line_round_trip; assumption. Qed.

(** The entries one line of the file stands for. *)
Inductive LineEntries (d : dictionary) (w : str) (f : flagset) : list (str * flagset) -> Prop :=
| LE_plain : ~ HiddenForm pl d w f -> LineEntries d w f [(w, f)]
| LE_hidden : forall t g, HiddenForm pl d w f -> titlecase U (o_case (ad_options (d_aff d))) w = Ret t -> (blen t <= 65535)%N ->
    set_of g (hidden_homonym_flag :: f) -> LineEntries d w f [(t, g); (w, f)].

(** A line at the end of the file adds exactly its entries. *)
Theorem C24_line_effect : forall aff dic d line w f, scalars aff -> scalars dic -> scalars line -> dic_text pl line ->
  new pl aff (dic ++ [10%N]) = Ret (Ok d) -> Parses pl d line w f ->
  (forall t, HiddenForm pl d w f -> titlecase U (o_case (ad_options (d_aff d))) w = Ret t -> (blen t <= 65535)%N) ->
  exists d' es, new pl aff ((dic ++ [10%N]) ++ line) = Ret (Ok d') /\ d_aff d' = d_aff d /\
    LineEntries d w f es /\ Permutation (es ++ d_words d) (d_words d').
Proof.
  intros aff dic d line w f Ha Hd Hs HL HN HP HT. destruct (@new_ok pl aff _ d Ha HN) as (x & LP & E1 & E2 & E3).
  assert (RD : Reachable pl d) by (apply (@new_reachable pl aff (dic ++ [10%N]) d Ha); [apply Forall_app; split; [exact Hd|repeat constructor]|exact HN]).
  pose proof (reachable_ok WP RD) as OK.
  assert (C := @collect_ok pl (wp_sort_affixes WP) x LP). destruct C as (a & Ea & C). rewrite E3 in Ea. injection Ea as <-.
  destruct C as (_ & _ & _ & _ & _ & _ & _ & _ & _ & _ & _ & _ & _ & _ & CI & _ & _ & CO & CF & CA).
  destruct (@add_total pl WP d line OK Hs) as (r & d2 & EA & OK2).
  assert (r = Ok tt) as -> by (unfold add in EA; unfold Parses in HP; rewrite HP in EA; cbn in EA; injection EA as <- _; reflexivity).
  assert (LI : In (w, f) (d_words d2)).
  { destruct (C23_add_effect WP RD Hs) as (r & d3 & E4 & _ & _ & H). rewrite EA in E4. injection E4 as <- <-.
    destruct H as (w2 & f2 & HP2 & _ & HI). unfold Parses in *. rewrite HP in HP2. injection HP2 as <- <-. apply HI. auto. }
  assert (WF : scalars w /\ wf_flags f) by (apply entries_In in LI; split; apply (@dict_entry_ok pl d2 OK2 w f LI)).
  destruct WF as [Sw Wf].
  unfold Parses in HP. rewrite CI, CA, CF in HP.
  destruct (@parse_dic_snoc pl x dic line (d_words d) HL E2) as [n E4]. unfold new, parse. rewrite E1. cbn [bindP]. rewrite E4.
  unfold dic_line. cbn [cur_line ln_rest snd]. rewrite (dt_trim HL). destruct line as [|c line]; [destruct (dt_ne HL eq_refl)|].
  rewrite (dt_slash HL).
  destruct (65535 <? blen (c :: line))%N eqn:EL.
  { exfalso. unfold parse_dic_line in HP. rewrite EL in HP. discriminate. }
  rewrite HP. cbn [mapErr at_line bindP okP]. unfold insert_entry. rewrite <- CO.
  destruct (needs_hidden_homonym pl (o_forbidden (ad_options (d_aff d))) w f) eqn:EH.
  - apply (hidden_form pl d w (f:=f)) in EH; [|apply Wf].
    assert (w <> []) as NE by (intros ->; destruct EH as [[[X|X] _]|[X _]]; discriminate).
    destruct (titlecase U (o_case (ad_options (d_aff d))) w) as [t| |] eqn:ET; [|destruct w; [contradiction|discriminate]|destruct w; [contradiction|discriminate]].
    specialize (HT t EH eq_refl). cbn [bindR]. unfold stem_from. destruct (blen t <=? 65535)%N eqn:Eb; [|apply N.leb_gt in Eb; lia]. cbn [bindR].
    destruct (with_flag_spec f hidden_homonym_flag) as (g & Eg & G1 & G2); [apply Wf|unfold valid_flag, hidden_homonym_flag; lia|].
    rewrite Eg. cbn [bindR bindP okP]. rewrite E3. cbn [bindR bindP okP fst snd].
    eexists _, _. split; [reflexivity|]. split; [reflexivity|]. split.
    + eapply LE_hidden; [exact EH|exact ET|exact HT|]. instantiate (1 := g). split; [exact G1|]. intro y. rewrite G2. cbn. intuition.
    + cbn [d_words app]. unfold bag_insert. etransitivity; [|apply (wp_place WP)]. etransitivity; [apply perm_swap|]. apply perm_skip. apply (wp_place WP).
  - cbn [bindR bindP okP]. rewrite E3. cbn [bindR bindP okP fst snd]. eexists _, _. split; [reflexivity|]. split; [reflexivity|]. split.
    + apply LE_plain. intro X. apply (hidden_form pl d w (f:=f)) in X; [|apply Wf]. congruence.
    + cbn [d_words app]. unfold bag_insert. apply (wp_place WP).
Qed.

(** ** A whole file *)
Lemma lines_go_nl : forall v cur, ~ In 10%N v -> lines_go (v ++ [10%N]) cur = [strip_cr (rev v ++ cur)].
Proof.
  induction v as [|c v IH]; intros cur H; [reflexivity|]. cbn [app lines_go].
  destruct (N.eqb_spec c 10) as [->|Hc]; [exfalso; apply H; left; reflexivity|].
  rewrite IH by (intro X; apply H; right; exact X). cbn [rev]. rewrite <- app_assoc. reflexivity.
Qed.
Lemma final_newline : forall aff dic line, line <> [] -> ~ In 10%N line -> last line 0%N <> 13%N ->
  new pl aff (((dic ++ [10%N]) ++ line) ++ [10%N]) = new pl aff ((dic ++ [10%N]) ++ line).
Proof.
  intros aff dic line NE NN NC. unfold new, parse. destruct (parse_aff pl aff) as [[x|e]| |]; try reflexivity. cbn [bindP].
  assert (parse_dic pl x (((dic ++ [10%N]) ++ line) ++ [10%N]) = parse_dic pl x ((dic ++ [10%N]) ++ line)) as ->; [|reflexivity].
  unfold parse_dic. assert (LN : lines_new pl (((dic ++ [10%N]) ++ line) ++ [10%N]) SrcDic = lines_new pl ((dic ++ [10%N]) ++ line) SrcDic); [|rewrite LN; reflexivity].
  assert (EX : exists u, forall r, strip_bom ((dic ++ [10%N]) ++ r) = u ++ [10%N] ++ r).
  { unfold strip_bom. destruct dic as [|c dic]; [exists []; intro r; reflexivity|]. cbn [app strip_prefix].
    destruct (65279 =? c)%N; [exists dic|exists (c :: dic)]; intro r; [destruct ((dic ++ [10%N]) ++ r) eqn:E; [destruct dic; discriminate|]; rewrite <- E|];
      rewrite <- ?app_assoc; reflexivity. }
  destruct EX as [u EX]. rewrite <- app_assoc.
  assert (LN : forall t s, lines_new pl t s =
    mkLines (skip_comments pl (number_from 0 (text_lines (strip_bom t))))
            (peek_words pl (skip_comments pl (number_from 0 (text_lines (strip_bom t))))) s) by reflexivity.
  rewrite !LN, !EX.
  assert (text_lines (u ++ [10%N] ++ line ++ [10%N]) = text_lines (u ++ [10%N] ++ line)) as ->; [|reflexivity].
  unfold text_lines. rewrite (lines_go_app u (line ++ [10%N])), (lines_go_app u line). f_equal.
  rewrite lines_go_nl by exact NN. rewrite lines_go_single by (try exact NN; left; exact NE). cbn [rev app]. f_equal.
  rewrite app_nil_r. destruct (snoc_cases line) as [->|(l & c & ->)]; [contradiction|].
  rewrite rev_app_distr. cbn [rev app]. unfold strip_cr. rewrite last_last in NC.
  destruct (N.eqb_spec c 13) as [->|]; [contradiction|]. cbn [rev]. rewrite rev_involutive. reflexivity.
Qed.

(** How an entry is written. *)
Definition line_of (t : flag_type) (e : str * list N) : str :=
  escape (fst e) ++ match snd e with [] => [] | l => 47%N :: flag_text pl t l end.
Record Writable (d : dictionary) (e : str * list N) : Prop := {
  wr_scalars : scalars (line_of (ad_flag_type (d_aff d)) e);
  wr_text : dic_text pl (line_of (ad_flag_type (d_aff d)) e);
  wr_cr : last (line_of (ad_flag_type (d_aff d)) e) 0%N <> 13%N;
  wr_ne : fst e <> [];
  wr_tab : ~ In 9%N (fst e);
  wr_back : last (fst e) 0%N <> 92%N;
  wr_field : no_field pl (fst e) (match snd e with [] => [] | l => 47%N :: flag_text pl (ad_flag_type (d_aff d)) l end);
  wr_flags : Forall (writable (ad_flag_type (d_aff d))) (snd e);
  wr_ws : ws_free pl (flag_text pl (ad_flag_type (d_aff d)) (snd e));
  wr_len : (blen (line_of (ad_flag_type (d_aff d)) e) <= 65535)%N;
  wr_ignore : forall c, In c (fst e) -> ~ In c (ad_ignore (d_aff d));
  wr_title : forall f t, set_of f (snd e) -> HiddenForm pl d (fst e) f ->
    titlecase U (o_case (ad_options (d_aff d))) (fst e) = Ret t -> (blen t <= 65535)%N }.

Lemma writable_parses : forall d e, ad_aliases (d_aff d) = [] -> Writable d e ->
  exists f, Parses pl d (line_of (ad_flag_type (d_aff d)) e) (fst e) f /\ set_of f (snd e).
Proof.
  intros d [w l] NA W. destruct W as [S0 T0 C0 NE TB BK FD FL WS LN IG _]. cbn [fst snd] in *. unfold line_of in *. cbn [fst snd] in *.
  assert (DC : drop_chars (ad_ignore (d_aff d)) w = w).
  { unfold drop_chars. apply filter_all. intros c Hc. destruct (memb c (ad_ignore (d_aff d))) eqn:E; [|reflexivity].
    exfalso. apply memb_In in E. exact (IG c Hc E). }
  unfold Parses. destruct l as [|g l].
  - exists []. split; [|split; [constructor|tauto]]. pose proof (@C39_word_round_trip w [] (ad_flag_type (d_aff d)) (ad_aliases (d_aff d)) (ad_ignore (d_aff d))) as X.
    rewrite DC in X. apply X; try assumption. constructor.
  - pose proof (@C39_line_round_trip w (g :: l) [] (ad_flag_type (d_aff d)) (ad_ignore (d_aff d))) as X. rewrite DC, app_nil_r in X.
    rewrite NA. destruct X as (f & X1 & X2); try assumption; [discriminate|exact I|]. exists f. split; assumption.
Qed.

(** The text of a file: lines, each ended by a newline. *)
Definition file_of (t : flag_type) (es : list (str * list N)) : str := flat_map (fun e => line_of t e ++ [10%N]) es.

(** Reading a file that lists [es] after [dic] gives exactly the entries of [dic] and those
    of [es]. *)
Theorem C39_dictionary_file : forall aff es dic d, scalars aff -> scalars dic ->
  new pl aff (dic ++ [10%N]) = Ret (Ok d) -> ad_aliases (d_aff d) = [] -> Forall (Writable d) es ->
  exists d' ess, new pl aff ((dic ++ [10%N]) ++ file_of (ad_flag_type (d_aff d)) es) = Ret (Ok d') /\
    d_aff d' = d_aff d /\
    Forall2 (fun e r => exists f, set_of f (snd e) /\ LineEntries d (fst e) f r) es ess /\
    Permutation (concat ess ++ d_words d) (d_words d').
Proof.
  intros aff. induction es as [|e es IH]; intros dic d Ha Hd HN NA HW.
  - exists d, []. cbn [file_of flat_map concat app]. rewrite app_nil_r. repeat (split; [first [exact HN|reflexivity|constructor]|]). apply Permutation_refl.
  - inversion HW as [|? ? W1 W2]; subst. destruct (writable_parses NA W1) as (f & HP & SF).
    set (t := ad_flag_type (d_aff d)) in *.
    destruct (@C24_line_effect aff dic d (line_of t e) (fst e) f Ha Hd (wr_scalars W1) (wr_text W1) HN HP) as (d1 & r & N1 & A1 & L1 & P1).
    { intros tt HF HT. exact (wr_title W1 SF HF HT). }
    rewrite <- final_newline in N1; [|exact (dt_ne (wr_text W1))|exact (dt_nl (wr_text W1))|exact (wr_cr W1)].
    assert (HW1 : Forall (Writable d1) es).
    { eapply Forall_impl; [|exact W2]. intros e' []. constructor; unfold t, HiddenForm in *; rewrite ?A1; assumption. }
    destruct (IH ((dic ++ [10%N]) ++ line_of t e) d1 Ha) as (d2 & ess & N2 & A2 & L2 & P2).
    { rewrite !scalars_app_iff. split; [split; [exact Hd|repeat constructor]|exact (wr_scalars W1)]. }
    { exact N1. }
    { rewrite A1. exact NA. }
    { exact HW1. }
    exists d2, (r :: ess). split; [|split; [congruence|split]].
    + rewrite A1 in N2. fold t in N2. unfold file_of in *. cbn [flat_map]. rewrite <- !app_assoc in N2. rewrite <- !app_assoc. exact N2.
    + constructor; [exists f; split; assumption|]. eapply Forall2_weaken; [|exact L2]. cbv beta. intros e' r' (f' & X & Y). exists f'. split; [exact X|].
      destruct Y as [Y|t' g Y1 Y2 Y3 Y4]; [apply LE_plain|eapply LE_hidden; try eassumption]; unfold HiddenForm in *; rewrite ?A1 in *; assumption.
    + cbn [concat]. rewrite <- app_assoc. etransitivity; [|exact P2]. etransitivity; [|apply Permutation_app_head; exact P1].
      rewrite !app_assoc. apply Permutation_app_tail. apply Permutation_app_comm.
Qed.

(** ** C40: tables *)
Definition table_keys : list str :=
  [lit "REP"; lit "ICONV"; lit "OCONV"; lit "BREAK"; lit "AF"; lit "PFX"; lit "SFX"; lit "COMPOUNDRULE";
   lit "CHECKCOMPOUNDPATTERN"; lit "MAP"].

(** The number of rows a header announces: the first word, or the third for affixes. *)
Definition announces (key : str) (ws : list str) (count : N) : Prop :=
  exists n, nth_error ws (if str_eqb key (lit "PFX") || str_eqb key (lit "SFX") then 2 else 0) = Some n /\
            parse_usize n = Ok count.

(** What the columns of an affix row say. *)
Definition AffixRow (t : flag_type) (al : list flagset) (flag : N) (flag_str : str) (cross : bool) (ws : list str) (a : affix) : Prop :=
  exists strip_col add_col rest fl,
    ws = flag_str :: strip_col :: add_col :: rest /\
    a_flag a = flag /\ a_cross a = cross /\
    ((strip_col = lit "0" /\ a_strip a = None) \/ (strip_col <> lit "0" /\ a_strip a = Some strip_col)) /\
    (exists b, ((~ In 47%N add_col /\ b = add_col /\ fl = []) \/ (add_col = b ++ 47%N :: fl /\ ~ In 47%N b)) /\
               ((b = lit "0" /\ a_add a = []) \/ (b <> lit "0" /\ a_add a = b))) /\
    decode_flagset pl fl t al = Ret (Ok (a_flags a)) /\
    ((rest = [] \/ exists r, rest = lit "." :: r) /\ a_cond a = None \/
     exists c r k, rest = c :: r /\ c <> lit "." /\ cond_from_str c = Ret (Ok k) /\ a_cond a = Some k).

(** What one row of a table does, given the words of the header and of the row. *)
Inductive Row (x : lparser) : str -> list str -> list str -> lparser -> Prop :=
| R_rep : forall h a b r, Row x (lit "REP") h (a :: b :: r) (upd_reps (x_reps x ++ [(a, map (fun c => if (c =? 95)%N then 32%N else c) b)]) x)
| R_iconv : forall h a b r, Row x (lit "ICONV") h (a :: b :: r) (upd_iconv (x_iconv x ++ [(a, b)]) x)
| R_oconv : forall h a b r, Row x (lit "OCONV") h (a :: b :: r) (upd_oconv (x_oconv x ++ [(a, b)]) x)
| R_break : forall h a r, Row x (lit "BREAK") h (a :: r) (upd_breaks (x_breaks x ++ [a]) x)
| R_alias : forall h a r fs, parse_flags_from_str pl (x_flag_type x) a = Ret (Ok fs) ->
    Row x (lit "AF") h (a :: r) (upd_aliases (x_aliases x ++ [fs]) x)
| R_rule : forall h w r ru, RuleText pl (x_flag_type x) w ru ->
    Row x (lit "COMPOUNDRULE") h (w :: r) (upd_rules (x_rules x ++ [ru]) x)
| R_map : forall h ps junk r, Forall piece_ok ps -> unclosed junk ->
    Row x (lit "MAP") h ((flat_map piece_text ps ++ junk) :: r)
      (upd_sims (x_sims x ++ [mkSim (flat_map piece_chars ps) (flat_map piece_strings ps)]) x)
| R_prefix : forall fs cp h flag ws a, parse_flag_from_str pl (x_flag_type x) fs = Ret (Ok flag) ->
    AffixRow (x_flag_type x) (x_aliases x) flag fs (str_eqb cp (lit "Y")) ws a ->
    Row x (lit "PFX") (fs :: cp :: h) ws (upd_prefixes (x_prefixes x ++ [a]) x)
| R_suffix : forall fs cp h flag ws a, parse_flag_from_str pl (x_flag_type x) fs = Ret (Ok flag) ->
    AffixRow (x_flag_type x) (x_aliases x) flag fs (str_eqb cp (lit "Y")) ws a ->
    Row x (lit "SFX") (fs :: cp :: h) ws (upd_suffixes (x_suffixes x ++ [a]) x)
| R_pattern : forall h a b r x', pattern_step pl (a :: b :: r) x x' ->
    Row x (lit "CHECKCOMPOUNDPATTERN") h (a :: b :: r) x'.

Definition tables_kept (x x' : lparser) : Prop :=
  x_reps x' = x_reps x /\ x_iconv x' = x_iconv x /\ x_oconv x' = x_oconv x /\ x_breaks x' = x_breaks x /\
  x_aliases x' = x_aliases x /\ x_rules x' = x_rules x /\ x_sims x' = x_sims x /\ x_prefixes x' = x_prefixes x /\
  x_suffixes x' = x_suffixes x /\ x_patterns x' = x_patterns x.

Inductive Rows (key : str) (h : list str) : list (N * str) -> lparser -> lparser -> Prop :=
| Rows_nil : forall x, Rows key h [] x x
| Rows_cons : forall nl r x x1 x2 ws, words_of pl nl = key :: ws -> Row x key h ws x1 -> Rows key h r x1 x2 ->
    Rows key h (nl :: r) x x2.

(** A text is a sequence of one-line directives, ignored lines and tables. *)
Inductive Blocks : list (N * str) -> lparser -> lparser -> Prop :=
| B_end : forall x, Blocks [] x x
| B_line : forall nl r x x1 x2, (forall key, In key table_keys -> ~ carries pl key nl) -> tables_kept x x1 ->
    Blocks r x1 x2 -> Blocks (nl :: r) x x2
| B_table : forall nl key h count rws r x x1 x2, In key table_keys -> words_of pl nl = key :: h -> announces key h count ->
    N.of_nat (length rws) = count ->
    Rows key h rws (if str_eqb key (lit "BREAK") then upd_breaks [] x else x) x1 ->
    Blocks r x1 x2 -> Blocks (nl :: rws ++ r) x x2.

(** The numbered lines that are not comments, after a byte order mark. *)
Definition aff_lines (text : str) : list (N * str) :=
  filter (fun nl => negb (is_comment pl (snd nl)))
    (number_from 0 (text_lines (match strip_prefix [65279%N] text with Some t => t | None => text end))).

(** A directive that is not a table. *)
Definition single (p : lparser -> lines -> P perror (lines * lparser)) : Prop :=
  forall x ls ls' x', p x ls = Ret (Ok (ls', x')) -> ln_rest ls' = ln_rest ls /\ tables_kept x x'.
Definition tabular (key : str) (p : lparser -> lines -> P perror (lines * lparser)) : Prop :=
  In key table_keys /\
  forall x ls ws ls' x', ln_words ls = Some ws -> p x ls = Ret (Ok (ls', x')) ->
  exists count rws, announces key ws count /\ upcoming pl ls = rws ++ upcoming pl ls' /\
    N.of_nat (length rws) = count /\ Rows key ws rws (if str_eqb key (lit "BREAK") then upd_breaks [] x else x) x'.

Lemma kept_refl : forall x, tables_kept x x.
Proof. intro x. repeat split. Qed.

Lemma fed_rows : forall key h (step : list str -> lparser -> lparser -> Prop) rws x x',
  (forall ws x x', step ws x x' -> Row x key h ws x') -> Fed pl key step rws x x' -> Rows key h rws x x'.
Proof.
  intros key h step rws x x' HS F. induction F; [constructor|]. econstructor; [eassumption|apply HS; eassumption|assumption].
Qed.

(** Rows that depend on parts of the state which rows do not change. *)
Lemma fed_rows_inv : forall key h (I : lparser -> Prop) (step : list str -> lparser -> lparser -> Prop) rws x x',
  (forall ws x x', I x -> step ws x x' -> Row x key h ws x' /\ I x') -> I x -> Fed pl key step rws x x' -> Rows key h rws x x'.
Proof.
  intros key h I step rws x x' HS HI F. induction F; [constructor|]. destruct (HS _ _ _ HI H0) as [R1 R2].
  econstructor; [eassumption|exact R1|]. apply IHF, R2.
Qed.

Lemma row_count_words : forall ls ls' v, parse_row_count ls = Ret (Ok (ls', v)) ->
  forall ws, ln_words ls = Some ws -> exists n, nth_error ws 0 = Some n /\ parse_usize n = Ok v.
Proof.
  intros ls ls' v H ws E. unfold parse_row_count, take_exactly_one_word in H. rewrite E in H.
  destruct ws as [|n ws]; [discriminate H|]. cbn in H. destruct (parse_usize n) eqn:En; [|discriminate H].
  injection H as _ <-. exists n. split; [reflexivity|exact En].
Qed.

Lemma tabular_table1 : forall key f g,
  In key table_keys -> str_eqb key (lit "PFX") || str_eqb key (lit "SFX") = false ->
  (forall x, g x = if str_eqb key (lit "BREAK") then upd_breaks [] x else x) ->
  (forall h w r x x', f w x = Ret (Ok x') -> Row x key h (w :: r) x') ->
  tabular key (fun x ls => parse_table1 pl key f ls (g x)).
Proof.
  intros key f g HI HK HG HR. split; [exact HI|]. intros x ls ws ls' x' E H. unfold parse_table1 in H.
  destruct (parse_row_count ls) as [[[l1 v]|]| |] eqn:R; cbn [bindP] in H; try discriminate H.
  destruct (row_count_words _ R E) as (n & N1 & N2). exists v.
  pose proof (row_count_rest _ R) as RR.
  change (table_rows pl key (body1 f) v l1 (g x) = Ret (Ok (ls', x'))) in H.
  destruct (@table_taken pl _ key (body1 f) (step1 f) (@read1 _ f) (@run1 _ f) v l1 (g x) ls' x' H) as (rws & T1 & T2 & T3).
  rewrite (upcoming_rest pl _ _ RR) in T1. exists rws. split; [exists n; rewrite HK; split; assumption|].
  split; [exact T1|]. split; [exact T2|]. rewrite <- HG. eapply fed_rows; [|exact T3].
  intros ws0 y y' (w & r & -> & Q). apply HR, Q.
Qed.
Lemma tabular_table2 : forall key f,
  In key table_keys -> str_eqb key (lit "PFX") || str_eqb key (lit "SFX") = false -> str_eqb key (lit "BREAK") = false ->
  (forall h a b r x x', f a b x = Ret (Ok x') -> Row x key h (a :: b :: r) x') ->
  tabular key (fun x ls => parse_table2 pl key f ls x).
Proof.
  intros key f HI HK HB HR. split; [exact HI|]. intros x ls ws ls' x' E H. unfold parse_table2 in H.
  destruct (parse_row_count ls) as [[[l1 v]|]| |] eqn:R; cbn [bindP] in H; try discriminate H.
  destruct (row_count_words _ R E) as (n & N1 & N2). exists v.
  pose proof (row_count_rest _ R) as RR.
  change (table_rows pl key (body2 f) v l1 x = Ret (Ok (ls', x'))) in H.
  destruct (@table_taken pl _ key (body2 f) (step2 f) (@read2 _ f) (@run2 _ f) v l1 x ls' x' H) as (rws & T1 & T2 & T3).
  rewrite (upcoming_rest pl _ _ RR) in T1. exists rws. split; [exists n; rewrite HK; split; assumption|].
  split; [exact T1|]. split; [exact T2|]. rewrite HB. eapply fed_rows; [|exact T3].
  intros ws0 y y' (a & b & r & -> & Q). apply HR, Q.
Qed.

Lemma affix_row_spec : forall upd flag fs cross ws x x',
  astep (affix_row pl upd) flag fs cross ws x x' ->
  exists a, AffixRow (x_flag_type x) (x_aliases x) flag fs cross ws a /\ x' = upd a x.
Proof.
  intros upd flag fs cross ws x x' (sc & ac & rest & strip & add & fl & cond & -> & HS & HA & HC & HF).
  unfold affix_row in HF. destruct (decode_flagset pl fl (x_flag_type x) (x_aliases x)) as [[ff|]| |] eqn:ED; cbn in HF; try discriminate HF.
  destruct (affix_new flag cross strip add cond ff) as [[a|]| |] eqn:EA; cbn in HF; try discriminate HF. injection HF as <-.
  exists a. split; [|reflexivity].
  assert (B : exists k, a = mkAffix flag cross strip add k ff /\
     ((cond = None /\ k = None) \/ exists c k', cond = Some c /\ cond_from_str c = Ret (Ok k') /\ k = Some k')).
  { unfold affix_new in EA. destruct cond as [c|].
    - destruct (cond_from_str c) as [[k'|]| |] eqn:EC; cbn in EA; try discriminate EA. injection EA as <-.
      exists (Some k'). split; [reflexivity|]. right. exists c, k'. auto.
    - injection EA as <-. exists None. auto. }
  destruct B as (k & -> & B). exists sc, ac, rest, fl. cbn [a_flag a_cross a_strip a_add a_flags a_cond].
  split; [reflexivity|]. split; [reflexivity|]. split; [reflexivity|].
  split. { destruct HS as [[H1 H2]|[H1 H2]]; subst; [left|right]; auto. }
  split. { exact HA. }
  split; [exact ED|]. destruct B as [[-> ->]|(c & k' & -> & EC & ->)].
  - left. split; [|reflexivity]. destruct HC as [[-> _]|(c & r & -> & [[-> _]|[_ X]])]; [left; reflexivity|right; eexists; reflexivity|discriminate X].
  - right. destruct HC as [[_ X]|(c' & r & -> & [[_ X]|[N1 X]])]; [discriminate X|discriminate X|].
    injection X as ->. exists c', r, k'. auto.
Qed.

Lemma tabular_affix : forall key upd,
  key = lit "PFX" \/ key = lit "SFX" ->
  (forall x a, x_flag_type (upd a x) = x_flag_type x /\ x_aliases (upd a x) = x_aliases x) ->
  (forall x fs cp h flag ws a, parse_flag_from_str pl (x_flag_type x) fs = Ret (Ok flag) ->
    AffixRow (x_flag_type x) (x_aliases x) flag fs (str_eqb cp (lit "Y")) ws a -> Row x key (fs :: cp :: h) ws (upd a x)) ->
  tabular key (fun x ls => parse_affix_table pl key (x_flag_type x) (affix_row pl upd) ls x).
Proof.
  intros key upd HK HU HR. split; [unfold table_keys; destruct HK as [-> | ->]; cbn; tauto|].
  assert (KB : str_eqb key (lit "BREAK") = false) by (destruct HK as [-> | ->]; reflexivity).
  assert (KA : str_eqb key (lit "PFX") || str_eqb key (lit "SFX") = true) by (destruct HK as [-> | ->]; reflexivity).
  intros x ls ws ls' x' E H. rewrite KB. pose proof H as H0. unfold parse_affix_table, take_words in H0. rewrite E in H0.
  destruct ws as [|fs ws]; [discriminate H0|].
  destruct (parse_flag_from_str pl (x_flag_type x) fs) as [[flag|]| |] eqn:EF; cbn [bindP at_line mapErr] in H0; try discriminate H0.
  destruct ws as [|cp ws]; [discriminate H0|].
  destruct (str_eqb_cases cp (lit "Y")) as [[EY YY]|[EY YY]], (str_eqb_cases cp (lit "N")) as [[EN NN]|[EN NN]];
    rewrite EY, EN in H0; cbn [orb negb] in H0; try discriminate H0;
  (destruct ws as [|n ws]; [discriminate H0|]; destruct (parse_usize n) as [count|] eqn:EP; [|discriminate H0]; clear H0;
   rewrite (@atable_rows pl _ key (x_flag_type x) (affix_row pl upd) ls fs cp n ws flag count x E EF) in H by auto;
   destruct (@table_taken pl _ key _ _ (fun l => @reada _ (affix_row pl upd) flag fs (str_eqb cp (lit "Y")) l) (fun l => @runa _ (affix_row pl upd) flag fs (str_eqb cp (lit "Y")) l) _ _ _ _ _ H) as (rws & T1 & T2 & T3);
   exists count, rws; split; [exists n; rewrite KA; split; [reflexivity|exact EP]|]; split; [exact T1|]; split; [exact T2|];
   eapply (@fed_rows_inv key _ (fun y => x_flag_type y = x_flag_type x /\ x_aliases y = x_aliases x)); [|split; reflexivity|exact T3];
   intros ws0 y y' [I1 I2] ST; destruct (affix_row_spec ST) as (a & A1 & ->); split;
   [apply (HR y fs cp (n :: ws) flag ws0 a); [rewrite I1; exact EF|exact A1]|
    destruct (HU y a) as [U1 U2]; rewrite U1, U2; auto]).
Qed.

Lemma all_blocks : Forall (fun e => (~ In (fst e) table_keys /\ single (snd e)) \/ tabular (fst e) (snd e)) (aff_parsers pl).
Proof.
  assert (NI : forall k, existsb (str_eqb k) table_keys = false -> ~ In k table_keys).
  { intros k E I. assert (X : existsb (str_eqb k) table_keys = true) by (apply existsb_exists; exists k; split; [exact I|apply str_eqb_refl]).
    congruence. }
  unfold aff_parsers. repeat apply Forall_cons; try apply Forall_nil; cbn [fst snd];
  match goal with
  | |- _ \/ tabular (lit "REP") _ => right; apply tabular_table2; [cbn; tauto|reflexivity|reflexivity|]
  | |- _ \/ tabular (lit "ICONV") _ => right; apply tabular_table2; [cbn; tauto|reflexivity|reflexivity|]
  | |- _ \/ tabular (lit "OCONV") _ => right; apply tabular_table2; [cbn; tauto|reflexivity|reflexivity|]
  | |- _ \/ tabular (lit "BREAK") _ => right; apply (@tabular_table1 _ _ (upd_breaks [])); [cbn; tauto|reflexivity|reflexivity|]
  | |- _ \/ tabular (lit "AF") _ => right; apply (@tabular_table1 _ _ (fun x => x)); [cbn; tauto|reflexivity|reflexivity|]
  | |- _ \/ tabular (lit "MAP") _ => right; apply (@tabular_table1 _ _ (fun x => x)); [cbn; tauto|reflexivity|reflexivity|]
  | |- _ \/ tabular (lit "COMPOUNDRULE") _ => right; apply (@tabular_table1 _ _ (fun x => x)); [cbn; tauto|reflexivity|reflexivity|]
  | |- _ \/ tabular (lit "PFX") _ => right; apply tabular_affix; [tauto|intros; split; reflexivity|intros; econstructor; eassumption]
  | |- _ \/ tabular (lit "SFX") _ => right; apply tabular_affix; [tauto|intros; split; reflexivity|intros; econstructor; eassumption]
  | |- _ \/ tabular (lit "CHECKCOMPOUNDPATTERN") _ => right
  | |- _ => left; split; [apply NI; reflexivity|intros x ls ls' x' H]
  end.
  all: lazymatch goal with
  | H : flag_directive _ _ _ _ = _ |- _ =>
      unfold flag_directive in H; destruct (parse_flag _ _ _) as [[[l1 v]|]| |] eqn:E; cbn [bindP] in H; try discriminate H;
      injection H as <- <-; split; [eapply parse_flag_rest; exact E|repeat split]
  | H : bool_directive _ _ _ = _ |- _ => injection H as <- <-; split; [reflexivity|repeat split]
  | H : short_directive _ _ _ = _ |- _ =>
      unfold short_directive, parse_short in H;
      destruct (take_exactly_one_word ls) as [[[l1 w]|]| |] eqn:E; cbn [bindP] in H; try discriminate H;
      destruct (parse_u16 w); cbn [bindP okP error errP] in H; try discriminate H;
      injection H as <- <-; split; [eapply one_word_rest; exact E|repeat split]
  | H : word_directive _ _ _ = _ |- _ =>
      unfold word_directive in H;
      destruct (take_exactly_one_word ls) as [[[l1 w]|]| |] eqn:E; cbn [bindP] in H; try discriminate H;
      injection H as <- <-; split; [eapply one_word_rest; exact E|repeat split]
  | _ => idtac
  end.
  - unfold parse_flag_type in H.
    destruct (take_exactly_one_word ls) as [[[l1 w]|]| |] eqn:E; cbn [bindP] in H; try discriminate H.
    apply one_word_rest in E.
    repeat match type of H with (if ?b then _ else _) = _ => destruct b end; try discriminate H; injection H as <- <-; split; try exact E; repeat split.
  - unfold parse_forbidden_word_flag in H.
    destruct (parse_flag _ _ _) as [[[l1 v]|]| |] eqn:E; cbn [bindP] in H; try discriminate H.
    injection H as <- <-. split; [eapply parse_flag_rest; exact E|repeat split].
  - intros h a b r x x' H. injection H as <-. apply R_rep.
  - intros h a b r x x' H. injection H as <-. apply R_iconv.
  - intros h a b r x x' H. injection H as <-. apply R_oconv.
  - intros h a r x x' H. injection H as <-. apply R_break.
  - unfold parse_compound_syllable, take_words in H.
    destruct (ln_words ls) as [[|a [|b ws]]|]; try discriminate H.
    destruct (parse_u16 a); [|discriminate H]. injection H as <- <-. split; [reflexivity|repeat split].
  - intros h a r x x' H. destruct (parse_flags_from_str pl (x_flag_type x) a) as [[fs|]| |] eqn:E; cbn in H; try discriminate H.
    injection H as <-. apply R_alias, E.
  - intros h w r x x' H. destruct (parse_compound_rule pl w (x_flag_type x)) as [[ru|]| |] eqn:E; cbn in H; try discriminate H.
    injection H as <-. apply R_rule. apply compound_rule_exact. exact E.
  - split; [cbn; tauto|]. intros x ls ws ls' x' E H. unfold parse_compound_pattern_table in H.
    destruct (parse_row_count ls) as [[[l1 v]|]| |] eqn:R; cbn [bindP] in H; try discriminate H.
    destruct (row_count_words _ R E) as (n & N1 & N2). exists v.
    pose proof (row_count_rest _ R) as RR.
    destruct (@table_taken pl _ _ _ _ (@readp pl) (@runp pl) v l1 x ls' x' H) as (rws & T1 & T2 & T3).
    rewrite (upcoming_rest pl _ _ RR) in T1. exists rws. split; [exists n; split; assumption|].
    split; [exact T1|]. split; [exact T2|]. cbn [str_eqb]. change (Rows (lit "CHECKCOMPOUNDPATTERN") ws rws x x').
    eapply fed_rows; [|exact T3]. intros ws0 y y' ST. pose proof ST as (l0 & l0' & Q1 & Q2).
    unfold pattern_row, take_words in Q2. rewrite Q1 in Q2. destruct ws0 as [|a [|b r]]; try discriminate Q2.
    apply R_pattern, ST.
  - intros h s r x x' H. destruct (map_entry_pieces s) as (ps & junk & -> & P1 & P2).
    rewrite (map_entry_exact P1 P2) in H. injection H as <-. apply R_map; assumption.
Qed.

Lemma blocks_go : forall fuel ls x x', ln_words ls = peek_words pl (ln_rest ls) ->
  aff_go pl fuel ls x = Ret (Ok x') ->
  match ln_rest ls with [] => x' = x | nl :: _ => Blocks (nl :: upcoming pl ls) x x' end.
Proof.
  induction fuel as [|fuel IH]; intros ls x x' Hp H; [discriminate H|]. cbn [aff_go] in H. unfold is_finished in H.
  destruct (ln_rest ls) as [|nl rest] eqn:Er; [injection H as <-; reflexivity|].
  cbn [peek_words] in Hp. unfold next_word in H. rewrite Hp in H.
  assert (NEXT : forall ls2 x2, aff_go pl fuel (advance_line pl ls2) x2 = Ret (Ok x') -> Blocks (upcoming pl ls2) x2 x').
  { intros ls2 x2 Q. specialize (IH (advance_line pl ls2) x2 x' eq_refl Q). pose proof (advance_upcoming pl ls2) as A.
    destruct (upcoming pl ls2) as [|nl2 r2].
    - rewrite A in IH. subst. constructor.
    - destruct A as (t & A1 & _ & A3). rewrite A1, A3 in IH. exact IH. }
  assert (SKIP : forall ls2 x2, ln_rest ls2 = ln_rest ls -> tables_kept x x2 -> (forall key, In key table_keys -> ~ carries pl key nl) ->
            aff_go pl fuel (advance_line pl ls2) x2 = Ret (Ok x') -> Blocks (nl :: upcoming pl ls) x x').
  { intros ls2 x2 E2 K NT Q. eapply B_line; [exact NT|exact K|]. rewrite <- (upcoming_rest pl _ _ E2). apply NEXT, Q. }
  unfold words_of in *. destruct (split_whitespace pl (snd nl)) as [|key ws] eqn:EW.
  - cbn [bindP okP] in H. eapply SKIP; [| | |exact H]; [reflexivity|repeat split|].
    intros k _ [ws' C]. unfold words_of in C. congruence.
  - destruct (find_parser pl key) as [p|] eqn:EP.
    + pose proof (find_parser_In pl _ EP) as HI. pose proof all_blocks as AB. rewrite Forall_forall in AB. specialize (AB _ HI). cbn [fst snd] in AB.
      destruct (p x (with_words ls (Some ws))) as [[[ls2 x2]|]| |] eqn:EQ; cbn [bindP] in H; try discriminate H.
      destruct AB as [[NT SG]|[IT TB]].
      * destruct (SG _ _ _ _ EQ) as [S1 S2]. eapply SKIP; [exact S1|exact S2| |exact H].
        intros k Hk [ws' C]. unfold words_of in C. rewrite EW in C. injection C as -> _. contradiction.
      * destruct (TB x (with_words ls (Some ws)) ws ls2 x2 eq_refl EQ) as (count & rws & T1 & T2 & T3 & T4).
        assert (UP : upcoming pl (with_words ls (Some ws)) = upcoming pl ls) by reflexivity. rewrite UP in T2. rewrite T2.
        eapply B_table; [exact IT|exact EW|exact T1|exact T3|exact T4|]. apply NEXT, H.
    + cbn [bindP okP] in H. eapply SKIP; [| | |exact H]; [reflexivity|repeat split|].
      intros k Hk [ws' C]. unfold words_of in C. rewrite EW in C. injection C as -> _.
      assert (X : forall k, In k table_keys -> find_parser pl k <> None).
      { intros k0 Hk0. cbn in Hk0. repeat (destruct Hk0 as [<- | Hk0]; [discriminate|]). destruct Hk0. }
      exact (X _ Hk EP).
Qed.

Lemma aff_blocks : forall aff dic d, scalars aff -> new pl aff dic = Ret (Ok d) ->
  exists x, lp_ok x /\ collect pl x = Ret (d_aff d) /\ Blocks (aff_lines aff) default_lp x.
Proof.
  intros aff dic d Ha H. destruct (@new_ok pl aff dic d Ha H) as (x & LO & PA & _ & CO). exists x. split; [exact LO|]. split; [exact CO|].
  unfold parse_aff in PA.
  pose proof (@blocks_go _ (lines_new pl aff SrcAff) default_lp x eq_refl PA) as B. unfold aff_lines.
  rewrite skip_comments_filter. unfold lines_new, upcoming in B. cbn [ln_rest] in B.
  destruct (skip_comments pl _) as [|nl r]; [subst; constructor|exact B].
Qed.

Theorem C40_tables_exact : forall aff dic d, scalars aff -> new pl aff dic = Ret (Ok d) ->
  exists x, collect pl x = Ret (d_aff d) /\ Blocks (aff_lines aff) default_lp x.
Proof. intros aff dic d Ha H. destruct (@aff_blocks aff dic d Ha H) as (x & _ & X). exists x. exact X. Qed.

(** A table with too few rows: the error names the announced number, one more than the rows
    found, and the line at which the next row should have been. *)
Theorem C40_short_table1 : forall key f (g : lparser -> lparser) ls n ws count x rws rest x',
  ln_words ls = Some (n :: ws) -> parse_usize n = Ok count ->
  upcoming pl ls = rws ++ rest -> Fed pl key (step1 f) rws (g x) x' -> (N.of_nat (length rws) < count)%N ->
  match rest with [] => True | nl :: _ => ~ carries pl key nl end ->
  @parse_table1 pl lparser key f ls (g x) =
  errP (mkError (MismatchedRowCount count (N.of_nat (length rws) + 1)) (ln_src ls)
                (match rest with [] => None | nl :: _ => Some (fst nl + 1)%N end)).
Proof.
  intros key f g ls n ws count x rws rest x' E1 E2 E3 F L R. rewrite (@table1_rows pl _ key f ls n ws count (g x) E1 E2).
  rewrite (@table_short pl _ key (body1 f) (step1 f) (@read1 _ f) (@run1 _ f) rws count (with_words ls (Some ws)) (g x) x' rest); auto.
Qed.
Theorem C40_short_table2 : forall key f ls n ws count x rws rest x',
  ln_words ls = Some (n :: ws) -> parse_usize n = Ok count ->
  upcoming pl ls = rws ++ rest -> Fed pl key (step2 f) rws x x' -> (N.of_nat (length rws) < count)%N ->
  match rest with [] => True | nl :: _ => ~ carries pl key nl end ->
  @parse_table2 pl lparser key f ls x =
  errP (mkError (MismatchedRowCount count (N.of_nat (length rws) + 1)) (ln_src ls)
                (match rest with [] => None | nl :: _ => Some (fst nl + 1)%N end)).
Proof.
  intros key f ls n ws count x rws rest x' E1 E2 E3 F L R. rewrite (@table2_rows pl _ key f ls n ws count x E1 E2).
  rewrite (@table_short pl _ key (body2 f) (step2 f) (@read2 _ f) (@run2 _ f) rws count (with_words ls (Some ws)) x x' rest); auto.
Qed.
Theorem C40_short_affix : forall key f ls fs cp n ws flag count x rws rest x',
  ln_words ls = Some (fs :: cp :: n :: ws) -> parse_flag_from_str pl (x_flag_type x) fs = Ret (Ok flag) ->
  cp = lit "Y" \/ cp = lit "N" -> parse_usize n = Ok count ->
  upcoming pl ls = rws ++ rest -> Fed pl key (astep f flag fs (str_eqb cp (lit "Y"))) rws x x' -> (N.of_nat (length rws) < count)%N ->
  match rest with [] => True | nl :: _ => ~ carries pl key nl end ->
  @parse_affix_table pl lparser key (x_flag_type x) f ls x =
  errP (mkError (MismatchedRowCount count (N.of_nat (length rws) + 1)) (ln_src ls)
                (match rest with [] => None | nl :: _ => Some (fst nl + 1)%N end)).
Proof.
  intros key f ls fs cp n ws flag count x rws rest x' E1 EF EC E2 E3 F L R.
  rewrite (@atable_rows pl _ key (x_flag_type x) f ls fs cp n ws flag count x E1 EF EC E2).
  rewrite (@table_short pl _ key _ _ (fun l => @reada _ f flag fs (str_eqb cp (lit "Y")) l) (fun l => @runa _ f flag fs (str_eqb cp (lit "Y")) l)
             rws count (with_words ls None) x x' rest); auto.
Qed.

(** ** C41: options *)
Definition real_flag (o : option N) : Prop := forall f, o = Some f -> (0 < f < 65536)%N.
Record InRange (a : affdata) : Prop := {
  ir_min : forall v, o_min_length (ad_options a) = Some v -> (1 <= v < 65536)%N;
  ir_max_words : forall v, o_max_words (ad_options a) = Some v -> (1 <= v < 65536)%N;
  ir_syllables : forall v, o_syllable_max (ad_options a) = Some v -> (1 <= v < 65536)%N;
  ir_diff : (o_max_diff (ad_options a) <= 10)%N;
  ir_flags : Forall real_flag [o_only_in_compound (ad_options a); o_circumfix (ad_options a); Some (o_forbidden (ad_options a));
    o_keep_case (ad_options a); o_need_affix (ad_options a); o_warn (ad_options a); o_compound (ad_options a);
    o_compound_begin (ad_options a); o_compound_middle (ad_options a); o_compound_end (ad_options a); o_permit (ad_options a);
    o_forbid (ad_options a); o_root (ad_options a); o_force_upper (ad_options a); o_no_suggest (ad_options a); o_substandard (ad_options a)];
  ir_rules : Forall (fun r => r <> [] /\ Forall (fun e => (0 < re_flag e < 65536)%N) r) (rt_rules (ad_rules a));
  ir_affixes : Forall (fun f => (0 < a_flag f < 65536)%N) (i_table (ad_prefixes a) ++ i_table (ad_suffixes a));
  ir_breaks : Forall (fun b => b <> []) (middle_breaks (ad_breaks a)) }.

Theorem C41_in_range : forall d, Reachable pl d -> InRange (d_aff d).
Proof.
  intros d HR. destruct (do_aff (reachable_ok WP HR)) as (x & LO & CO).
  destruct (@collect_ok pl (wp_sort_affixes WP) x LO) as (a & E & P1 & _ & P2 & _ & _ & MB & _ & _ & RT & _ & _ & _ & _ & _ & _ & _ & _ & OP & _).
  rewrite CO in E. injection E as E. rewrite <- E in *. clear a E.
  destruct (lo_opts LO) as []. rewrite <- OP in *.
  assert (VF : forall v, valid_flag v -> (0 < v < 65536)%N) by (intros v V; unfold valid_flag in V; lia).
  assert (OF : forall o, okflag o -> real_flag o) by (intros o HO f ->; apply VF, HO; reflexivity).
  assert (OC : forall o, okcount o -> forall v, o = Some v -> (1 <= v < 65536)%N).
  { intros o HO v ->. unfold okcount in HO. lia. }
  constructor; try (apply OC; assumption); try assumption.
  - repeat (apply Forall_cons; [apply OF; try assumption; intros f [= <-]; assumption|]). apply Forall_nil.
  - assert (RR : rt_rules (ad_rules (d_aff d)) = x_rules x).
    { unfold rule_table_from in RT. destruct (flagset_from _); cbn in RT; try discriminate RT. injection RT as <-. reflexivity. }
    rewrite RR. eapply Forall_impl; [|exact (lo_rules LO)]. intros r [R1 R2]. split; [exact R1|].
    eapply Forall_impl; [|exact R2]. intros e; apply VF.
  - apply Forall_app. assert (EA : forall l, Forall affix_ok l -> Forall (fun f => (0 < a_flag f < 65536)%N) (erase_affixes (x_ignore x) l)).
    { intros l HL. unfold erase_affixes. destruct (x_ignore x) as [|c0 ig].
      - eapply Forall_impl; [|exact HL]. intros f F. apply VF, F.
      - apply Forall_forall. intros f Hf. apply in_map_iff in Hf. destruct Hf as (f0 & <- & Hf). rewrite Forall_forall in HL.
        unfold erase_affix. cbn [a_flag]. apply VF, (HL _ Hf). }
    split; [eapply Permutation_Forall; [exact P1|apply EA, LO]|eapply Permutation_Forall; [exact P2|apply EA, LO]].
  - rewrite MB. unfold middle_spec. apply Forall_forall. intros b Hb. apply in_flat_map in Hb. destruct Hb as (b0 & B1 & B2).
    pose proof (lo_breaks LO) as LB. rewrite Forall_forall in LB. destruct (LB _ B1) as [NE _]. unfold break_class in B2.
    destruct (strip_prefix [94%N] b0); [destruct B2|]. destruct (strip_suffix [36%N] b0); [destruct B2|].
    destruct B2 as [<- | []]. exact NE.
Qed.

Lemma row_breaks : forall x key h ws x', Row x key h ws x' -> key <> lit "BREAK" -> x_breaks x' = x_breaks x.
Proof.
  intros x key h ws x' R NB. destruct R; try reflexivity; [contradiction NB; reflexivity|].
  destruct H as (ls & ls' & E1 & E2). unfold pattern_row, take_words in E2. rewrite E1 in E2.
  destruct (split_word_and_flagset_naive a) as [fe ff], (split_word_and_flagset_naive b) as [sb sf].
  destruct (at_line _ _) as [[f1|]| |]; cbn [bindP] in E2; try discriminate E2.
  destruct (at_line _ _) as [[f2|]| |]; cbn [bindP] in E2; try discriminate E2. injection E2 as _ <-. reflexivity.
Qed.
Lemma rows_breaks : forall key h rws x x', Rows key h rws x x' -> key <> lit "BREAK" -> x_breaks x' = x_breaks x.
Proof.
  intros key h rws x x' R NB. induction R; [reflexivity|]. rewrite IHR. eapply row_breaks; eassumption.
Qed.
Lemma blocks_breaks : forall l x x', Blocks l x x' -> (forall nl, In nl l -> ~ carries pl (lit "BREAK") nl) -> x_breaks x' = x_breaks x.
Proof.
  intros l x x' B. induction B; intro NB; [reflexivity| |].
  - rewrite IHB by (intros nl' Hn; apply NB; right; exact Hn). apply H0.
  - assert (KB : key <> lit "BREAK").
    { intros ->. apply (NB nl (or_introl eq_refl)). exists h. assumption. }
    rewrite IHB by (intros nl' Hn; apply NB; right; apply in_app_iff; right; exact Hn).
    rewrite (rows_breaks H3 KB). destruct (str_eqb_cases key (lit "BREAK")) as [[_ E]|[-> _]]; [contradiction|reflexivity].
Qed.
Lemma rows_of_breaks : forall rws x x' h, Rows (lit "BREAK") h rws x x' ->
  exists pats, Forall2 (fun nl p => exists r, words_of pl nl = lit "BREAK" :: p :: r) rws pats /\ x_breaks x' = x_breaks x ++ pats.
Proof.
  intros rws x x' h R. induction R as [x|nl r x x1 x2 ws W R R' IH].
  - exists []. split; [constructor|]. rewrite app_nil_r. reflexivity.
  - destruct IH as (pats & F & E). remember (lit "BREAK") as key eqn:EK. destruct R; try discriminate EK. subst. 
    exists (a :: pats). split; [constructor; [eexists; exact W|exact F]|]. rewrite E. cbn [x_breaks upd_breaks]. rewrite <- app_assoc. reflexivity.
Qed.

(** Without a BREAK line words are broken at hyphens; *)
Theorem C41_default_breaks : forall aff dic d, scalars aff -> new pl aff dic = Ret (Ok d) ->
  (forall nl, In nl (aff_lines aff) -> ~ carries pl (lit "BREAK") nl) ->
  start_breaks (ad_breaks (d_aff d)) = [lit "-"] /\ middle_breaks (ad_breaks (d_aff d)) = [lit "-"] /\
  end_breaks (ad_breaks (d_aff d)) = [lit "-"].
Proof.
  intros aff dic d Ha HN NB. destruct (@aff_blocks aff dic d Ha HN) as (x & LO & CO & B).
  destruct (@collect_ok pl (wp_sort_affixes WP) x LO) as (a & E & _ & _ & _ & _ & SB & MB & EB & _).
  rewrite CO in E. injection E as E. rewrite <- E in *. rewrite SB, MB, EB, (blocks_breaks B NB). repeat split; reflexivity.
Qed.

(** with one, at the patterns of the last BREAK table and nowhere else. *)
Inductive BreakAt : list str -> list str -> list str -> list str -> Prop :=
| BA_nil : BreakAt [] [] [] []
| BA_start : forall p ps st mi en, BreakAt ps st mi en -> BreakAt ((94%N :: p) :: ps) (p :: st) mi en
| BA_end : forall p ps st mi en, hd 0%N (p ++ [36%N]) <> 94%N -> BreakAt ps st mi en -> BreakAt ((p ++ [36%N]) :: ps) st mi (p :: en)
| BA_middle : forall p ps st mi en, hd 0%N p <> 94%N -> last p 0%N <> 36%N -> BreakAt ps st mi en -> BreakAt (p :: ps) st (p :: mi) en.

Lemma break_at : forall l, Forall (fun b => b <> []) l -> BreakAt l (start_spec l) (middle_spec l) (end_spec l).
Proof.
  induction l as [|b l IH]; intro H; [constructor|]. inversion H as [|? ? Hb Hl]; subst. specialize (IH Hl).
  unfold start_spec, middle_spec, end_spec in *. cbn [flat_map]. unfold break_class at 1 3 5.
  destruct (strip_prefix [94%N] b) as [p|] eqn:E1.
  - apply strip_prefix_spec in E1. subst b. apply BA_start, IH.
  - destruct (strip_suffix [36%N] b) as [p|] eqn:E2.
    + apply strip_suffix_spec in E2. subst b. apply BA_end; [|exact IH].
      destruct (p ++ [36%N]) as [|c r]; [discriminate|]. cbn [hd]. intros ->. discriminate E1.
    + apply BA_middle; [| |exact IH].
      * destruct b as [|c r]; [discriminate|]. cbn [hd]. intros ->. discriminate E1.
      * intro E. destruct (exists_last Hb) as (p & c & ->). rewrite last_last in E. subst c.
        assert (X : strip_suffix [36%N] (p ++ [36%N]) = Some p) by (apply strip_suffix_spec; reflexivity). congruence.
Qed.

Theorem C41_breaks_from_table : forall aff dic d nl, scalars aff -> new pl aff dic = Ret (Ok d) ->
  In nl (aff_lines aff) -> carries pl (lit "BREAK") nl ->
  exists pre h ws count rws post pats, aff_lines aff = pre ++ h :: rws ++ post /\
    words_of pl h = lit "BREAK" :: ws /\ announces (lit "BREAK") ws count /\ N.of_nat (length rws) = count /\
    Forall2 (fun nl p => exists r, words_of pl nl = lit "BREAK" :: p :: r) rws pats /\
    (forall nl, In nl post -> ~ carries pl (lit "BREAK") nl) /\
    BreakAt pats (start_breaks (ad_breaks (d_aff d))) (middle_breaks (ad_breaks (d_aff d))) (end_breaks (ad_breaks (d_aff d))).
Proof.
  intros aff dic d nl0 Ha HN HI HC. destruct (@aff_blocks aff dic d Ha HN) as (x & LO & CO & B).
  destruct (@collect_ok pl (wp_sort_affixes WP) x LO) as (a & E & _ & _ & _ & _ & SB & MB & EB & _).
  rewrite CO in E. injection E as E. rewrite <- E in *. clear E.
  assert (LAST : forall l y y', Blocks l y y' -> In nl0 l ->
    exists pre h ws count rws post pats, l = pre ++ h :: rws ++ post /\
      words_of pl h = lit "BREAK" :: ws /\ announces (lit "BREAK") ws count /\ N.of_nat (length rws) = count /\
      Forall2 (fun nl p => exists r, words_of pl nl = lit "BREAK" :: p :: r) rws pats /\
      (forall nl, In nl post -> ~ carries pl (lit "BREAK") nl) /\ x_breaks y' = pats).
  { clear - WP HC. intros l y y' B. 
    assert (DEC : forall l, (exists nl, In nl l /\ carries pl (lit "BREAK") nl) \/ forall nl, In nl l -> ~ carries pl (lit "BREAK") nl).
    { induction l0 as [|n l0 IH]; [right; intros ? []|]. destruct IH as [(n' & I1 & I2)|IH]; [left; exists n'; split; [right|]; assumption|].
      assert (D : carries pl (lit "BREAK") n \/ ~ carries pl (lit "BREAK") n).
      { unfold carries. destruct (words_of pl n) as [|k ws]; [right; intros [w W]; discriminate W|].
        destruct (str_eqb_cases k (lit "BREAK")) as [[_ ->]|[_ NK]]; [left; eexists; reflexivity|right; intros [w [= W _]]; contradiction]. }
      destruct D as [D|D]; [left; exists n; split; [left; reflexivity|exact D]|right; intros n' [<- | I]; [exact D|apply IH, I]]. }
    revert nl0 HC. induction B as [y|nl r y y1 y2 NT K B IH|nl key h count rws r y y1 y2 IT W AN LN RS B IH]; intros nl0 HC HI; [destruct HI| |].
    - destruct HI as [-> | HI]; [exfalso; apply (NT (lit "BREAK")); [cbn; tauto|exact HC]|].
      destruct (IH nl0 HC HI) as (pre & h & ws & count & rws & post & pats & -> & Q). exists (nl :: pre), h, ws, count, rws, post, pats.
      split; [reflexivity|exact Q].
    - destruct (DEC r) as [(n' & I1 & I2)|ND].
      + destruct (IH n' I2 I1) as (pre & h' & ws & count' & rws' & post & pats & -> & Q).
        exists (nl :: rws ++ pre), h', ws, count', rws', post, pats. split; [cbn [app]; rewrite <- app_assoc; reflexivity|exact Q].
      + assert (KB : key = lit "BREAK").
        { destruct HI as [-> | HI].
          - destruct HC as [w C]. rewrite W in C. injection C as -> _. reflexivity.
          - apply in_app_iff in HI. destruct HI as [HI|HI]; [|exfalso; exact (ND _ HI HC)].
            assert (CK : Forall (carries pl key) rws) by (clear - RS; induction RS; constructor; [eexists; eassumption|assumption]).
            rewrite Forall_forall in CK. destruct (CK _ HI) as [w1 C1], HC as [w2 C2]. rewrite C1 in C2. injection C2 as -> _. reflexivity. }
        subst key. change (str_eqb (lit "BREAK") (lit "BREAK")) with true in RS. cbv iota in RS.
        destruct (rows_of_breaks RS) as (pats & F & EX). cbn [x_breaks upd_breaks app] in EX.
        exists [], nl, h, count, rws, r, pats. repeat (split; [first [reflexivity|assumption]|]). rewrite (blocks_breaks B ND). exact EX. }
  destruct (LAST _ _ _ B HI) as (pre & h & ws & count & rws & post & pats & Q1 & Q2 & Q3 & Q4 & Q5 & Q6 & <-).
  exists pre, h, ws, count, rws, post, (x_breaks x). repeat (split; [assumption|]). rewrite SB, MB, EB. apply break_at.
  eapply Forall_impl; [|exact (lo_breaks LO)]. intros b Q; apply Q.
Qed.

(** ** C43, C45 *)
Theorem C43_rule_exact : forall t s r, parse_compound_rule pl s t = Ret (Ok r) <-> RuleText pl t s r.
Proof. exact (@compound_rule_exact pl). Qed.
Theorem C43_rule_round_trip : forall t r, Forall (fun e => rule_writable t (re_flag e)) r ->
  parse_compound_rule pl (rule_text pl t r) t = Ret (Ok r).
Proof. exact (@compound_rule_round_trip pl). Qed.
End Dict.

Theorem C45_map_entry_exact : forall ps junk, Forall piece_ok ps -> unclosed junk ->
  similarity_group_from (flat_map piece_text ps ++ junk) =
  Ret (mkSim (flat_map piece_chars ps) (flat_map piece_strings ps)).
Proof. exact map_entry_exact. Qed.
Theorem C45_every_entry : forall s, exists ps junk,
  s = flat_map piece_text ps ++ junk /\ Forall piece_ok ps /\ unclosed junk.
Proof. exact map_entry_pieces. Qed.

(** ** What is not true *)
(** One written flag can decode to two: a character outside the basic plane (FLAG UTF-8), a
    character outside ASCII (the default format). *)
Theorem C38_astral_flag_refuted :
  parse_flags_from_str ex_pl FUtf8 [128512%N] = Ret (Ok [55357; 56832]%N).
Proof. vm_compute. reflexivity. Qed.
Theorem C38_short_multibyte_refuted :
  parse_flags_from_str ex_pl FShort [233%N] = Ret (Ok [169; 195]%N).
Proof. vm_compute. reflexivity. Qed.
(** A word with a tab, or with a space before a morphological field, does not come back. *)
Theorem C39_tab_refuted :
  parse_dic_line ex_pl (escape (lit "a" ++ [9%N] ++ lit "b")) FShort [] [] = Ret (Ok (lit "a", [])).
Proof. vm_compute. reflexivity. Qed.
Theorem C39_field_refuted :
  parse_dic_line ex_pl (escape (lit "a po:b")) FShort [] [] = Ret (Ok (lit "a", [])).
Proof. vm_compute. reflexivity. Qed.
(** Morphological data is taken for flags when the flag list before it is empty. *)
Theorem C39_empty_flags_refuted :
  parse_dic_line ex_pl (lit "foo/ po:noun") FShort [] [] = Ret (Ok (lit "foo", [58; 110; 111; 112; 117]%N)).
Proof. vm_compute. reflexivity. Qed.
(** The error of a short table counts one row too many: one row is found, two are reported. *)
Theorem C40_found_count_refuted :
  new ex_pl (lit "REP 3
REP a b
TRY abc") (lit "0") = Ret (Err (mkError (MismatchedRowCount 3 2) SrcAff (Some 3%N))).
Proof. vm_compute. reflexivity. Qed.
(** A break pattern can be empty: "BREAK ^" breaks at the start of every word. *)
Definition caret : dictionary := Eval vm_compute in (the (built ex_pl (lit "BREAK 2
BREAK ^
BREAK $") (lit "1
a")) <: dictionary).
Lemma caret_reachable : Reachable ex_pl caret.
Proof. ex_dict (lit "BREAK 2
BREAK ^
BREAK $") (lit "1
a"). Qed.
Theorem C41_empty_break_refuted :
  Reachable ex_pl caret /\ In [] (start_breaks (ad_breaks (d_aff caret))) /\ In [] (end_breaks (ad_breaks (d_aff caret))).
Proof. split; [exact caret_reachable|]. split; left; reflexivity. Qed.

(** ** Cases that meet the hypotheses *)
Example C38_example : parse_flags_from_str ex_pl FNumeric (flag_text ex_pl FNumeric [65535; 7; 300]%N) = Ret (Ok [7; 300; 65535]%N) /\
  Forall (writable FNumeric) [65535; 7; 300]%N /\ Forall (writable FLong) [24930]%N /\ flag_text ex_pl FLong [24930]%N = lit "ba".
Proof.
  split; [vm_compute; reflexivity|]. split; [|split; [|reflexivity]];
  repeat (apply Forall_cons; [split; [unfold valid_flag; lia|try exact I; try (split; reflexivity)]|]); apply Forall_nil.
Qed.
(** A word with a slash and a space, with flags and morphological data. *)
Example C39_example : exists fs, parse_dic_line ex_pl (lit "and\/or not/AB po:conj") FShort [] [] = Ret (Ok (lit "and/or not", fs)) /\ set_of fs (lit "AB").
Proof.
  apply (@C39_line_round_trip ex_pl (lit "and/or not") (lit "AB") (lit " po:conj") FShort []); try discriminate.
  - cbn. intuition discriminate.
  - intros a b E. assert (B : b = lit "not").
    { do 6 (destruct a as [|? a]; [discriminate E|injection E as _ E]). destruct a as [|? a]; [injection E as E; symmetry; exact E|].
      injection E as _ E. do 3 (destruct a as [|? a]; [discriminate E|injection E as _ E]). destruct a; discriminate E. }
    subst b. vm_compute. reflexivity.
  - change (lit "AB") with [65; 66]%N. repeat (apply Forall_cons; [split; [unfold valid_flag; lia|reflexivity]|]). apply Forall_nil.
  - vm_compute. reflexivity.
  - vm_compute. reflexivity.
Qed.
(** Writing "and/or" with a flag and "door" after a dictionary, and reading it back. *)
Example C39_file_example : exists d' ess, new ex_pl wl_aff ((lit "2
lock/S" ++ [10%N]) ++ lit "and\/or/S
door
") = Ret (Ok d') /\ Permutation (concat ess ++ d_words lock2) (d_words d') /\
  Forall2 (fun e r => exists f, set_of f (snd e) /\ LineEntries ex_pl lock2 (fst e) f r) [(lit "and/or", lit "S"); (lit "door", [])] ess.
Proof.
  destruct (@C39_dictionary_file ex_pl ex_pl_wf wl_aff [(lit "and/or", lit "S"); (lit "door", [])] (lit "2
lock/S") lock2) as (d' & ess & X1 & _ & X2 & X3); [apply forallb_scalars; reflexivity|apply forallb_scalars; reflexivity|vm_compute; reflexivity|reflexivity| |
   exists d', ess; split; [exact X1|]; split; [exact X3|exact X2]].
  assert (ws1 : forall w, forallb (fun c => negb (c =? 32)%N) w = true -> forall a b, w = a ++ 32%N :: b -> False).
  { intros w H a b ->. rewrite forallb_app in H. apply andb_true_iff in H. destruct H as [_ H]. discriminate H. }
  repeat (apply Forall_cons; [constructor; cbn [fst snd];
    [apply forallb_scalars; reflexivity
    |constructor; [discriminate|vm_compute; intuition discriminate|vm_compute; reflexivity..]
    |discriminate|discriminate|cbn; intuition discriminate|discriminate
    |intros a b E; exfalso; refine (ws1 _ _ a b E); reflexivity
    | |vm_compute; reflexivity|vm_compute; discriminate|vm_compute; intuition discriminate
    |intros f t _ [[[X|X] _]|[X _]]; discriminate X]|]); [| |apply Forall_nil].
  - change (lit "S") with [83%N]. constructor; [|constructor]. split; [unfold valid_flag; lia|reflexivity].
  - constructor.
Qed.
(** "REP" announces one row, "SFX" two; the comment between them is skipped. *)
Definition tabs_aff : str := lit "REP 1
REP f ph
SFX S Y 2
SFX S 0 s .
# comment
SFX S y ies/T [^aeiou]y
BREAK 2
BREAK --
BREAK ^x".
Example C40_example : exists d x, new ex_pl tabs_aff (lit "0") = Ret (Ok d) /\ collect ex_pl x = Ret (d_aff d) /\
  Blocks ex_pl (aff_lines ex_pl tabs_aff) default_lp x /\ length (aff_lines ex_pl tabs_aff) = 8.
Proof.
  destruct (new ex_pl tabs_aff (lit "0")) as [[d|]| |] eqn:E; try (vm_compute in E; discriminate E).
  destruct (@C40_tables_exact ex_pl tabs_aff (lit "0") d) as (x & X1 & X2); [apply lit_scalars; vm_compute; reflexivity|exact E|].
  exists d, x. repeat (split; [assumption||reflexivity|]). vm_compute. reflexivity.
Qed.
Example C40_short_example : exists ls ws x', ln_words ls = Some (lit "2" :: ws) /\ length (upcoming ex_pl ls) = 2 /\
  Fed ex_pl (lit "REP") (step2 (fun a b x => okP (upd_reps (x_reps x ++ [(a, b)]) x))) (firstn 1 (upcoming ex_pl ls)) default_lp x' /\
  ~ carries ex_pl (lit "REP") (nth 1 (upcoming ex_pl ls) (0%N, [])).
Proof.
  exists (fst (next_word (lines_new ex_pl (lit "REP 2
REP f ph
TRY x") SrcAff))), []. eexists. split; [reflexivity|]. split; [reflexivity|]. split.
  - eapply fed_cons; [vm_compute; reflexivity| |apply fed_nil]. exists (lit "f"), (lit "ph"), []. split; reflexivity.
  - intros [ws X]. vm_compute in X. discriminate X.
Qed.
Example C41_example : InRange (d_aff caret).
Proof. exact (C41_in_range ex_pl_wf caret_reachable). Qed.
Example C41_default_example : start_breaks (ad_breaks (d_aff none_)) = [lit "-"].
Proof. reflexivity. Qed.
Example C41_table_example : exists pats, BreakAt pats [lit "x"] [lit "--"] [] /\ pats = [lit "--"; lit "^x"].
Proof. eexists. split; [|reflexivity]. apply BA_middle; [discriminate|discriminate|]. apply (@BA_start (lit "x")). apply BA_nil. Qed.
Example C43_example : parse_compound_rule ex_pl (lit "(12)*(7)?(300)") FNumeric =
  Ret (Ok [mkRuleElem 12%N (Some ZeroOrMore); mkRuleElem 7%N (Some ZeroOrOne); mkRuleElem 300%N None]).
Proof. vm_compute. reflexivity. Qed.
Example C43_malformed_example : exists e, parse_compound_rule ex_pl (lit "(12") FNumeric = Ret (Err e).
Proof. eexists. vm_compute. reflexivity. Qed.
Example C45_example : similarity_group_from (lit "s(ss)(x)z(oo") = Ret (mkSim (lit "sxz") [lit "ss"]) /\
  lit "s(ss)(x)z(oo" = flat_map piece_text [PChar 115; PStr (lit "ss"); PStr (lit "x"); PChar 122] ++ lit "(oo" /\
  Forall piece_ok [PChar 115; PStr (lit "ss"); PStr (lit "x"); PChar 122] /\ unclosed (lit "(oo").
Proof.
  repeat split; try reflexivity.
  - repeat constructor; cbn; try discriminate; intuition discriminate.
  - right. eexists. split; [reflexivity|]. cbn. intuition discriminate.
Qed.

Print Assumptions C38_flags_exact.
Print Assumptions C38_flags_round_trip.
Print Assumptions C38_no_zero_flag.
Print Assumptions C39_word_round_trip.
Print Assumptions C39_line_round_trip.
Print Assumptions C24_line_effect.
Print Assumptions C39_dictionary_file.
Print Assumptions C40_tables_exact.
Print Assumptions C40_short_table1.
Print Assumptions C40_short_table2.
Print Assumptions C40_short_affix.
Print Assumptions C41_in_range.
Print Assumptions C41_default_breaks.
Print Assumptions C41_breaks_from_table.
Print Assumptions C43_rule_exact.
Print Assumptions C43_rule_round_trip.
Print Assumptions C45_map_entry_exact.
Print Assumptions C45_every_entry.
Print Assumptions C38_astral_flag_refuted.
Print Assumptions C38_short_multibyte_refuted.
Print Assumptions C39_tab_refuted.
Print Assumptions C39_field_refuted.
Print Assumptions C39_empty_flags_refuted.
Print Assumptions C40_found_count_refuted.
Print Assumptions C41_empty_break_refuted.
