(** What an .aff text means: the settings and the tables each line writes, and the proof that
    the parser reads exactly that. *)
From Coq Require Import String Ascii List NArith ZArith Lia Bool Arith Permutation.
From Verif Require Import Base Utf8 Unicode Flags Bag Condition Affix CompoundRule Conversion Aff Checker Parser ParserSafe
  ParserProps TableProps.
Import ListNotations.
Set Implicit Arguments.
Local Open Scope string_scope.
Local Open Scope list_scope.
Local Open Scope nat_scope.

(** ** Specification *)

(** *** Settings: everything a one-line directive can write *)
Inductive value :=
| VFlag (f : option N) | VSwitch (b : bool) | VNumber (n : option N) | VText (s : str) | VCase (c : case_handling)
| VType (t : flag_type) | VSyllable (max : option N) (vowels : str).

Record written := mkWritten {
  w_options : options; w_type : flag_type; w_vowels : str; w_ignore : list N; w_keyboard : str; w_try : str }.
Definition of_lp (x : lparser) : written :=
  mkWritten (x_options x) (x_flag_type x) (x_vowels x) (x_ignore x) (x_keyboard x) (x_try x).
Definition of_aff (A : affdata) : written :=
  mkWritten (ad_options A) (ad_flag_type A) (ad_vowels A) (ad_ignore A) (ad_keyboard A) (ad_try A).

(** The name of each one-line directive, where its value is kept, and the value it has in
    a text that does not mention it. *)
Definition settings : list (str * (written -> value) * value) := [
  (lit "FLAG", fun w => VType (w_type w), VType FShort);
  (lit "FORBIDDENWORD", fun w => VFlag (Some (o_forbidden (w_options w))), VFlag (Some 65510%N));
  (lit "CIRCUMFIX", fun w => VFlag (o_circumfix (w_options w)), VFlag None);
  (lit "KEEPCASE", fun w => VFlag (o_keep_case (w_options w)), VFlag None);
  (lit "NEEDAFFIX", fun w => VFlag (o_need_affix (w_options w)), VFlag None);
  (lit "NOSUGGEST", fun w => VFlag (o_no_suggest (w_options w)), VFlag None);
  (lit "SUBSTANDARD", fun w => VFlag (o_substandard (w_options w)), VFlag None);
  (lit "WARN", fun w => VFlag (o_warn (w_options w)), VFlag None);
  (lit "COMPOUNDFLAG", fun w => VFlag (o_compound (w_options w)), VFlag None);
  (lit "COMPOUNDBEGIN", fun w => VFlag (o_compound_begin (w_options w)), VFlag None);
  (lit "COMPOUNDMIDDLE", fun w => VFlag (o_compound_middle (w_options w)), VFlag None);
  (lit "COMPOUNDEND", fun w => VFlag (o_compound_end (w_options w)), VFlag None);
  (lit "ONLYINCOMPOUND", fun w => VFlag (o_only_in_compound (w_options w)), VFlag None);
  (lit "COMPOUNDPERMITFLAG", fun w => VFlag (o_permit (w_options w)), VFlag None);
  (lit "COMPOUNDFORBIDFLAG", fun w => VFlag (o_forbid (w_options w)), VFlag None);
  (lit "COMPOUNDROOT", fun w => VFlag (o_root (w_options w)), VFlag None);
  (lit "FORCEUCASE", fun w => VFlag (o_force_upper (w_options w)), VFlag None);
  (lit "COMPLEXPREFIXES", fun w => VSwitch (o_complex_prefixes (w_options w)), VSwitch false);
  (lit "FULLSTRIP", fun w => VSwitch (o_fullstrip (w_options w)), VSwitch false);
  (lit "CHECKSHARPS", fun w => VSwitch (o_checksharps (w_options w)), VSwitch false);
  (lit "FORBIDWARN", fun w => VSwitch (o_forbid_warn (w_options w)), VSwitch false);
  (lit "COMPOUNDMORESUFFIXES", fun w => VSwitch (o_more_suffixes (w_options w)), VSwitch false);
  (lit "CHECKCOMPOUNDDUP", fun w => VSwitch (o_check_duplicate (w_options w)), VSwitch false);
  (lit "CHECKCOMPOUNDREP", fun w => VSwitch (o_check_rep (w_options w)), VSwitch false);
  (lit "CHECKCOMPOUNDCASE", fun w => VSwitch (o_check_case (w_options w)), VSwitch false);
  (lit "CHECKCOMPOUNDTRIPLE", fun w => VSwitch (o_check_triple (w_options w)), VSwitch false);
  (lit "SIMPLIFIEDTRIPLE", fun w => VSwitch (o_simplified_triple (w_options w)), VSwitch false);
  (lit "SYLLABLENUM", fun w => VSwitch (o_syllable_num (w_options w)), VSwitch false);
  (lit "ONLYMAXDIFF", fun w => VSwitch (o_only_max_diff (w_options w)), VSwitch false);
  (lit "NOSPLITSUGS", fun w => VSwitch (o_no_split_sugs (w_options w)), VSwitch false);
  (lit "SUGSWITHDOTS", fun w => VSwitch (o_sugs_with_dots (w_options w)), VSwitch false);
  (lit "COMPOUNDMIN", fun w => VNumber (o_min_length (w_options w)), VNumber None);
  (lit "COMPOUNDWORDMAX", fun w => VNumber (o_max_words (w_options w)), VNumber None);
  (lit "MAXCPDSUGS", fun w => VNumber (Some (o_max_cpd_sugs (w_options w))), VNumber (Some 3%N));
  (lit "MAXNGRAMSUGS", fun w => VNumber (Some (o_max_ngram (w_options w))), VNumber (Some 5%N));
  (lit "MAXDIFF", fun w => VNumber (Some (o_max_diff (w_options w))), VNumber (Some 5%N));
  (lit "IGNORE", fun w => VText (w_ignore w), VText []);
  (lit "KEY", fun w => VText (w_keyboard w), VText []);
  (lit "TRY", fun w => VText (w_try w), VText []);
  (lit "LANG", fun w => VCase (o_case (w_options w)), VCase Standard);
  (lit "COMPOUNDSYLLABLE", fun w => VSyllable (o_syllable_max (w_options w)) (w_vowels w), VSyllable None []) ].

Definition flag_settings : list str :=
  [lit "FORBIDDENWORD"; lit "CIRCUMFIX"; lit "KEEPCASE"; lit "NEEDAFFIX"; lit "NOSUGGEST"; lit "SUBSTANDARD"; lit "WARN";
   lit "COMPOUNDFLAG"; lit "COMPOUNDBEGIN"; lit "COMPOUNDMIDDLE"; lit "COMPOUNDEND"; lit "ONLYINCOMPOUND";
   lit "COMPOUNDPERMITFLAG"; lit "COMPOUNDFORBIDFLAG"; lit "COMPOUNDROOT"; lit "FORCEUCASE"].
Definition switch_settings : list str :=
  [lit "COMPLEXPREFIXES"; lit "FULLSTRIP"; lit "CHECKSHARPS"; lit "FORBIDWARN"; lit "COMPOUNDMORESUFFIXES";
   lit "CHECKCOMPOUNDDUP"; lit "CHECKCOMPOUNDREP"; lit "CHECKCOMPOUNDCASE"; lit "CHECKCOMPOUNDTRIPLE"; lit "SIMPLIFIEDTRIPLE";
   lit "SYLLABLENUM"; lit "ONLYMAXDIFF"; lit "NOSPLITSUGS"; lit "SUGSWITHDOTS"].
Definition text_settings : list str := [lit "IGNORE"; lit "KEY"; lit "TRY"].

(** *** Tables *)
Inductive cell :=
| CPair (a b : str) | CText (a : str) | CFlags (fs : flagset) | CRule (r : rule) | CGroup (g : similarity_group)
| CAffix (a : affix) | CPattern (p : compound_pattern).

Definition tables : list (str * (lparser -> list cell)) := [
  (lit "REP", fun x => map (fun p => CPair (fst p) (snd p)) (x_reps x));
  (lit "ICONV", fun x => map (fun p => CPair (fst p) (snd p)) (x_iconv x));
  (lit "OCONV", fun x => map (fun p => CPair (fst p) (snd p)) (x_oconv x));
  (lit "BREAK", fun x => map CText (x_breaks x));
  (lit "AF", fun x => map CFlags (x_aliases x));
  (lit "PFX", fun x => map CAffix (x_prefixes x));
  (lit "SFX", fun x => map CAffix (x_suffixes x));
  (lit "COMPOUNDRULE", fun x => map CRule (x_rules x));
  (lit "CHECKCOMPOUNDPATTERN", fun x => map CPattern (x_patterns x));
  (lit "MAP", fun x => map CGroup (x_sims x)) ].

(** A table starts out empty, except that the default breaks are there. *)
Definition initial_cells (key : str) : list cell :=
  if str_eqb key (lit "BREAK") then [CText (lit "^-"); CText (lit "-"); CText (lit "-$")] else [].

Section Spec.
Variable pl : platform.
Notation le := (pl_little_endian pl).

(** The flag a word begins with. *)
Definition OneFlag (t : flag_type) (w : str) (f : N) : Prop :=
  f <> 0%N /\
  match t with
  | FShort => exists r, enc w = f :: r
  | FLong => exists a b r, enc w = a :: b :: r /\ f = pair_value le (a, b)
  | FNumeric => Decimal w f /\ (f <= 65535)%N
  | FUtf8 => exists r, utf16 w = f :: r
  end.

(** The flags of a flag text. *)
Definition FlagList (t : flag_type) (s : str) (fs : flagset) : Prop :=
  (s = [] /\ fs = []) \/ (s <> [] /\ exists l, Written le t s l /\ Forall valid_flag l /\ set_of fs l).

(** With aliases (and non-numeric flags) a number in range stands for the alias of that rank. *)
Definition Alias (t : flag_type) (al : list flagset) (s : str) (fs : flagset) : Prop :=
  t <> FNumeric /\ exists i, Decimal s (N.of_nat (S i)) /\ (N.of_nat (S i) <= 65535)%N /\ nth_error al i = Some fs.
Definition AliasedFlags (t : flag_type) (al : list flagset) (s : str) (fs : flagset) : Prop :=
  Alias t al s fs \/ ((forall fs', ~ Alias t al s fs') /\ FlagList t s fs).

(** What a directive's words say. *)
Inductive Reads (t : flag_type) : str -> list str -> value -> Prop :=
| Rd_long : forall r, Reads t (lit "FLAG") (lit "long" :: r) (VType FLong)
| Rd_num : forall r, Reads t (lit "FLAG") (lit "num" :: r) (VType FNumeric)
| Rd_utf8 : forall r, Reads t (lit "FLAG") (lit "UTF-8" :: r) (VType FUtf8)
| Rd_flag : forall key w r f, In key flag_settings -> OneFlag t w f -> Reads t key (w :: r) (VFlag (Some f))
| Rd_switch : forall key r, In key switch_settings -> Reads t key r (VSwitch true)
| Rd_text : forall key w r, In key text_settings -> Reads t key (w :: r) (VText w)
| Rd_min : forall w r n, Decimal w n -> (n <= 65535)%N ->
    Reads t (lit "COMPOUNDMIN") (w :: r) (VNumber (Some (if (n =? 0)%N then 1%N else n)))
| Rd_max : forall w r n, Decimal w n -> (n <= 65535)%N ->
    Reads t (lit "COMPOUNDWORDMAX") (w :: r) (VNumber (if (n =? 0)%N then None else Some n))
| Rd_cpd : forall w r n, Decimal w n -> (n <= 65535)%N -> Reads t (lit "MAXCPDSUGS") (w :: r) (VNumber (Some n))
| Rd_ngram : forall w r n, Decimal w n -> (n <= 65535)%N -> Reads t (lit "MAXNGRAMSUGS") (w :: r) (VNumber (Some n))
| Rd_diff : forall w r n, Decimal w n -> (n <= 65535)%N ->
    Reads t (lit "MAXDIFF") (w :: r) (VNumber (Some (if (n <=? 10)%N then n else 5%N)))
| Rd_turkic : forall w r, In w [lit "tr"; lit "tr_TR"; lit "az"; lit "crh"] -> Reads t (lit "LANG") (w :: r) (VCase Turkic)
| Rd_lang : forall w r, ~ In w [lit "tr"; lit "tr_TR"; lit "az"; lit "crh"] -> Reads t (lit "LANG") (w :: r) (VCase Standard)
| Rd_syllable : forall w vowels r n, Decimal w n -> (n <= 65535)%N ->
    Reads t (lit "COMPOUNDSYLLABLE") (w :: vowels :: r) (VSyllable (if (n =? 0)%N then None else Some n) vowels).

(** A column cut at its first slash; "0" stands for nothing. *)
Definition Slashed (col text flags : str) : Prop :=
  (~ In 47%N col /\ text = col /\ flags = []) \/ (col = text ++ 47%N :: flags /\ ~ In 47%N text).
Definition Unzero (col text : str) : Prop := (col = lit "0" /\ text = []) \/ (col <> lit "0" /\ text = col).

Definition AffixCell (t : flag_type) (al : list flagset) (flag : N) (flag_str : str) (cross : bool) (ws : list str) (a : affix) : Prop :=
  exists strip_col add_col rest text flags,
    ws = flag_str :: strip_col :: add_col :: rest /\
    a_flag a = flag /\ a_cross a = cross /\
    a_strip a = (if str_eqb strip_col (lit "0") then None else Some strip_col) /\
    Slashed add_col text flags /\ Unzero text (a_add a) /\
    AliasedFlags t al flags (a_flags a) /\
    match rest with
    | [] => a_cond a = None
    | c :: _ => (c = lit "." /\ a_cond a = None) \/
                (c <> lit "." /\ exists k es, a_cond a = Some k /\ cond_denotes k es /\ c = celems_text es)
    end.

Definition OptFlag (t : flag_type) (s : str) (o : option N) : Prop :=
  (s = [] /\ o = None) \/ (s <> [] /\ exists f, OneFlag t s f /\ o = Some f).
Definition PatternCell (t : flag_type) (ws : list str) (p : compound_pattern) : Prop :=
  exists first second rest text flags1 flags2,
    ws = first :: second :: rest /\ Slashed first text flags1 /\ Unzero text (cp_begin p) /\
    (cp_unaffixed p = true <-> text = lit "0") /\ Slashed second (cp_end p) flags2 /\
    OptFlag t flags1 (cp_first_flag p) /\ OptFlag t flags2 (cp_second_flag p) /\ cp_replacement p = hd_error rest.

(** The entry one row adds to its table, given the words of the header and of the row. *)
Inductive RowCell (t : flag_type) (al : list flagset) : str -> list str -> list str -> cell -> Prop :=
| RC_rep : forall h a b r, RowCell t al (lit "REP") h (a :: b :: r) (CPair a (map (fun c => if (c =? 95)%N then 32%N else c) b))
| RC_iconv : forall h a b r, RowCell t al (lit "ICONV") h (a :: b :: r) (CPair a b)
| RC_oconv : forall h a b r, RowCell t al (lit "OCONV") h (a :: b :: r) (CPair a b)
| RC_break : forall h a r, RowCell t al (lit "BREAK") h (a :: r) (CText a)
| RC_alias : forall h a r fs, FlagList t a fs -> RowCell t al (lit "AF") h (a :: r) (CFlags fs)
| RC_rule : forall h w r ru, RuleText pl t w ru -> RowCell t al (lit "COMPOUNDRULE") h (w :: r) (CRule ru)
| RC_map : forall h ps junk r, Forall piece_ok ps -> unclosed junk ->
    RowCell t al (lit "MAP") h ((flat_map piece_text ps ++ junk) :: r)
      (CGroup (mkSim (flat_map piece_chars ps) (flat_map piece_strings ps)))
| RC_prefix : forall fs cp h flag ws a, OneFlag t fs flag -> AffixCell t al flag fs (str_eqb cp (lit "Y")) ws a ->
    RowCell t al (lit "PFX") (fs :: cp :: h) ws (CAffix a)
| RC_suffix : forall fs cp h flag ws a, OneFlag t fs flag -> AffixCell t al flag fs (str_eqb cp (lit "Y")) ws a ->
    RowCell t al (lit "SFX") (fs :: cp :: h) ws (CAffix a)
| RC_pattern : forall h ws p, PatternCell t ws p -> RowCell t al (lit "CHECKCOMPOUNDPATTERN") h ws (CPattern p).

(** The header of a table announces its number of rows; that of an affix table also says
    which flag it is about and whether prefixes and suffixes combine. *)
Definition Header (t : flag_type) (key : str) (h : list str) (count : N) : Prop :=
  (count <= 18446744073709551615)%N /\
  (((key = lit "PFX" \/ key = lit "SFX") /\
    exists fs flag cp n r, h = fs :: cp :: n :: r /\ OneFlag t fs flag /\ (cp = lit "Y" \/ cp = lit "N") /\ Decimal n count) \/
   (key <> lit "PFX" /\ key <> lit "SFX" /\ exists n r, h = n :: r /\ Decimal n count)).

Definition settings_kept (but : str) (x x' : lparser) : Prop :=
  forall key get dflt, In (key, get, dflt) settings -> key <> but -> get (of_lp x') = get (of_lp x).
Definition tables_kept (but : str) (x x' : lparser) : Prop :=
  forall key get, In (key, get) tables -> key <> but -> get x' = get x.

(** One directive, given by its name, the other words of its line and the lines of its table. *)
Inductive Directive (x : lparser) : str -> list str -> list (list str) -> lparser -> Prop :=
| D_setting : forall key get dflt ws x', In (key, get, dflt) settings ->
    Reads (x_flag_type x) key ws (get (of_lp x')) -> settings_kept key x x' -> tables_kept [] x x' ->
    Directive x key ws [] x'
| D_table : forall key get h rws cells x', In (key, get) tables ->
    Header (x_flag_type x) key h (N.of_nat (length rws)) ->
    Forall2 (fun ws c => exists r, ws = key :: r /\ RowCell (x_flag_type x) (x_aliases x) key h r c) rws cells ->
    get x' = (if str_eqb key (lit "BREAK") then [] else get x) ++ cells ->
    settings_kept [] x x' -> tables_kept key x x' ->
    Directive x key h rws x'.

Definition known (key : str) : Prop :=
  (exists get dflt, In (key, get, dflt) settings) \/ (exists get, In (key, get) tables).

(** A text, as the words of its lines other than comments. *)
Inductive Text : list (list str) -> lparser -> lparser -> Prop :=
| T_end : forall x, Text [] x x
| T_skip : forall ws r x x', (forall key ws', ws = key :: ws' -> ~ known key) -> Text r x x' -> Text (ws :: r) x x'
| T_directive : forall key ws rws r x x1 x2, Directive x key ws rws x1 -> Text r x1 x2 ->
    Text ((key :: ws) :: rws ++ r) x x2.

(** The words of the lines that are not comments, after a byte order mark. *)
Definition aff_words (text : str) : list (list str) :=
  map (words_of pl)
    (filter (fun nl => negb (is_comment pl (snd nl)))
      (number_from 0 (text_lines (match strip_prefix [65279%N] text with Some t => t | None => text end)))).
End Spec.

(** ** The settings and tables are all there is *)
Lemma settings_complete : forall w1 w2, (forall key get dflt, In (key, get, dflt) settings -> get w1 = get w2) -> w1 = w2.
Proof.
  intros [o1 t1 v1 i1 k1 r1] [o2 t2 v2 i2 k2 r2] H.
  assert (A : Forall (fun e => snd (fst e) (mkWritten o1 t1 v1 i1 k1 r1) = snd (fst e) (mkWritten o2 t2 v2 i2 k2 r2)) settings).
  { rewrite Forall_forall. intros [[k g] d] I. exact (H _ _ _ I). }
  clear H. destruct o1, o2. unfold settings in A.
  repeat match goal with A : Forall _ (_ :: _) |- _ => apply Forall_cons_iff in A; destruct A as [? A] end.
  cbn in *. repeat match goal with H : _ = _ |- _ => injection H; clear H; intros; subst end. reflexivity.
Qed.

Lemma map_inj : forall A B (f : A -> B) l1 l2, (forall a b, f a = f b -> a = b) -> map f l1 = map f l2 -> l1 = l2.
Proof.
  intros A B f. induction l1 as [|a l1 IH]; intros [|b l2] Hf H; try discriminate H; [reflexivity|].
  injection H as H1 H2. f_equal; [apply Hf, H1|apply IH; assumption].
Qed.

Lemma lp_ext : forall x y, of_lp x = of_lp y -> (forall key get, In (key, get) tables -> get x = get y) -> x = y.
Proof.
  intros x y H T. assert (A : Forall (fun e => snd e x = snd e y) tables).
  { rewrite Forall_forall. intros [k g] I. exact (T _ _ I). }
  clear T. destruct x, y. unfold of_lp in H. cbn in H. injection H as -> -> -> -> -> ->. unfold tables in A.
  repeat match goal with A : Forall _ (_ :: _) |- _ => apply Forall_cons_iff in A; destruct A as [? A] end. clear A. cbn in *.
  repeat match goal with E : map _ ?a = map _ ?b |- _ => assert (a = b) by
    (refine (@map_inj _ _ _ _ _ _ E); intros u1 u2 Eu; first [congruence | destruct u1, u2; cbn in Eu; congruence]); clear E; subst end.
  reflexivity.
Qed.

Fixpoint nodupb (l : list str) : bool :=
  match l with [] => true | a :: r => negb (existsb (str_eqb a) r) && nodupb r end.
Lemma nodupb_ok : forall l, nodupb l = true -> NoDup l.
Proof.
  induction l as [|a r IH]; intro H; [constructor|]. cbn [nodupb] in H. apply andb_true_iff in H. destruct H as [H1 H2].
  constructor; [|exact (IH H2)]. intro I. apply negb_true_iff in H1.
  assert (X : existsb (str_eqb a) r = true) by (apply existsb_exists; exists a; split; [exact I|apply str_eqb_refl]). congruence.
Qed.
Lemma settings_names : NoDup (map (fun e => fst (fst e)) settings).
Proof. apply nodupb_ok. reflexivity. Qed.
Lemma tables_names : NoDup (map fst tables).
Proof. apply nodupb_ok. reflexivity. Qed.
Lemma NoDup_key : forall A B (f : A -> B) l x y, NoDup (map f l) -> In x l -> In y l -> f x = f y -> x = y.
Proof.
  intros A B f. induction l as [|a l IH]; intros x y ND Hx Hy E; [destruct Hx|]. cbn in ND. inversion ND as [|? ? N1 N2]; subst.
  destruct Hx as [<- | Hx], Hy as [<- | Hy]; [reflexivity| | |exact (IH _ _ N2 Hx Hy E)].
  - exfalso. apply N1. rewrite E. apply in_map, Hy.
  - exfalso. apply N1. rewrite <- E. apply in_map, Hx.
Qed.
Lemma settings_fun : forall k g1 d1 g2 d2, In (k, g1, d1) settings -> In (k, g2, d2) settings -> g1 = g2 /\ d1 = d2.
Proof. intros. pose proof (NoDup_key _ _ _ _ settings_names H H0 eq_refl) as E. injection E. auto. Qed.
Lemma tables_fun : forall k g1 g2, In (k, g1) tables -> In (k, g2) tables -> g1 = g2.
Proof. intros. pose proof (NoDup_key _ _ _ _ tables_names H H0 eq_refl) as E. injection E. auto. Qed.
Lemma not_both : forall k g d g', In (k, g, d) settings -> In (k, g') tables -> False.
Proof.
  intros k g d g' H1 H2. apply (in_map (fun e => fst (fst e))) in H1. apply (in_map fst) in H2. cbn [fst] in *.
  assert (A : forallb (fun a => negb (existsb (str_eqb a) (map fst tables))) (map (fun e => fst (fst e)) settings) = true) by reflexivity.
  rewrite forallb_forall in A. apply A in H1. apply negb_true_iff in H1.
  assert (X : existsb (str_eqb k) (map fst tables) = true) by (apply existsb_exists; exists k; split; [exact H2|apply str_eqb_refl]).
  congruence.
Qed.

Section Exact.
Variable pl : platform.
Notation U := (pl_unicode pl).
Notation le := (pl_little_endian pl).

Lemma kept_refl : forall k x, settings_kept k x x /\ tables_kept k x x.
Proof. intros k x. split; intro; intros; reflexivity. Qed.
Lemma kept_settings : forall x x', settings_kept [] x x' -> of_lp x' = of_lp x.
Proof.
  intros x x' H. apply settings_complete. intros k g d I. apply (H _ _ _ I).
  intros ->. apply (in_map (fun e => fst (fst e))) in I. cbn [fst] in I.
  assert (A : forallb (fun a : str => match a with [] => false | _ => true end) (map (fun e => fst (fst e)) settings) = true) by reflexivity.
  rewrite forallb_forall in A. apply A in I. discriminate I.
Qed.
Lemma settings_kept_of : forall x x', of_lp x' = of_lp x -> settings_kept [] x x'.
Proof. intros x x' E k g d _ _. rewrite E. reflexivity. Qed.
Lemma kept_trans : forall k x y z, settings_kept k x y -> tables_kept k x y -> settings_kept k y z -> tables_kept k y z ->
  settings_kept k x z /\ tables_kept k x z.
Proof.
  intros k x y z H1 H2 H3 H4. split; intros k0; intros.
  - rewrite (H3 _ _ _ H H0). exact (H1 _ _ _ H H0).
  - rewrite (H4 _ _ H H0). exact (H2 _ _ H H0).
Qed.

(** ** Flags *)
Lemma one_flag : forall t w f, parse_flag_from_str pl t w = Ret (Ok f) <-> OneFlag pl t w f.
Proof.
  intros t w f. unfold parse_flag_from_str, OneFlag.
  assert (T : forall v, try_flag_from_u16 v = Ok f <-> v = f /\ f <> 0%N).
  { intro v. unfold try_flag_from_u16. destruct (v =? 0)%N eqn:E; split; intro H.
    - discriminate H.
    - lia.
    - injection H as <-. split; [reflexivity|lia].
    - destruct H as [-> _]. reflexivity. }
  destruct w as [|c w].
  - split; [discriminate|]. intros [_ H]. exfalso. destruct t.
    + destruct H as [r H]. discriminate H.
    + destruct H as (a & b & r & H & _). discriminate H.
    + destruct H as [H _]. exact (Decimal_nonempty H eq_refl).
    + destruct H as [r H]. discriminate H.
  - remember (c :: w) as s eqn:Es.
    destruct t; cbn [bindP okP errP].
    + destruct (enc s) as [|b bs] eqn:E.
      { exfalso. subst s. cbn [enc flat_map] in E. apply app_eq_nil in E. destruct E as [E _].
        unfold enc1 in E. repeat destruct (_ <? _)%N in E; discriminate E. }
      cbn [nth]. split.
      * intro H. injection H as H. apply T in H. destruct H as [-> H]. split; [exact H|]. eexists. reflexivity.
      * intros [H [r Q]]. injection Q as -> _. f_equal. apply T. auto.
    + destruct (enc s) as [|a [|b bs]] eqn:E; cbn [bindP okP errP].
      * split; [discriminate|]. intros [_ (a & b & r & H & _)]. discriminate H.
      * split; [discriminate|]. intros [_ (a' & b & r & H & _)]. discriminate H.
      * unfold from_ne_bytes. split.
        -- intro H. injection H as H. apply T in H. destruct H as [<- H]. split; [exact H|]. exists a, b, bs. split; reflexivity.
        -- intros [H (a' & b' & r & Q & ->)]. injection Q as -> -> _. f_equal. apply T. auto.
    + destruct (parse_u16 s) as [v|e] eqn:E; cbn [bindP okP errP].
      * unfold parse_u16 in E. apply parse_uint_spec in E. destruct E as [E1 E2]. split.
        -- intro H. injection H as H. apply T in H. destruct H as [-> H]. auto.
        -- intros [H [Q _]]. assert (v = f) as ->; [|f_equal; apply T; auto].
           assert (P1 : parse_uint 65535 s = Ok v) by (apply parse_uint_spec; auto).
           destruct (N.le_gt_cases f 65535) as [L|L].
           ++ assert (P2 : parse_uint 65535 s = Ok f) by (apply parse_uint_spec; auto). congruence.
           ++ exfalso. assert (P2 : parse_uint f s = Ok f) by (apply parse_uint_spec; split; [exact Q|reflexivity]).
              assert (P3 : parse_uint f s = Ok v) by (apply parse_uint_spec; split; [exact E1|lia]). assert (f = v) by congruence. lia.
      * split; [discriminate|]. intros [_ [Q L]]. exfalso.
        assert (P2 : parse_uint 65535 s = Ok f) by (apply parse_uint_spec; auto). unfold parse_u16 in E. congruence.
    + destruct (utf16 s) as [|u us] eqn:E; cbn [bindP okP errP].
      * split; [discriminate|]. intros [_ [r H]]. discriminate H.
      * split.
        -- intro H. injection H as H. apply T in H. destruct H as [-> H]. split; [exact H|]. eexists. reflexivity.
        -- intros [H [r Q]]. injection Q as -> _. f_equal. apply T. auto.
Qed.

Lemma flag_list : forall t s fs, scalars s -> (parse_flags_from_str pl t s = Ret (Ok fs) <-> FlagList pl t s fs).
Proof.
  intros t s fs Hs. unfold FlagList. destruct s as [|c s].
  - cbn [parse_flags_from_str]. split; [intro H; injection H as <-; left; auto|].
    intros [[_ ->]|[H _]]; [reflexivity|congruence].
  - rewrite (@flags_exact pl t (c :: s) fs Hs) by discriminate. split; [intro H; right; split; [discriminate|exact H]|].
    intros [[H _]|[_ H]]; [discriminate H|exact H].
Qed.

Lemma Decimal_fun : forall s a b, Decimal s a -> Decimal s b -> a = b.
Proof.
  intros s a b Ha Hb.
  assert (P1 : parse_uint (N.max a b) s = Ok a) by (apply parse_uint_spec; split; [exact Ha|lia]).
  assert (P2 : parse_uint (N.max a b) s = Ok b) by (apply parse_uint_spec; split; [exact Hb|lia]). congruence.
Qed.

Lemma aliased_flags : forall t al s fs, scalars s -> (decode_flagset pl s t al = Ret (Ok fs) <-> AliasedFlags pl t al s fs).
Proof.
  intros t al s fs Hs. unfold decode_flagset, AliasedFlags.
  destruct (match t with FNumeric => true | _ => false end || negb (nonempty al)) eqn:B.
  - assert (NA : forall fs', ~ Alias t al s fs').
    { intros fs' (H1 & i & _ & _ & H2). destruct t; try congruence; cbn in B; destruct al; try discriminate B; destruct i; discriminate H2. }
    rewrite flag_list by exact Hs. split; [intro H; right; auto|]. intros [H|[_ H]]; [destruct (NA _ H)|exact H].
  - assert (NT : t <> FNumeric) by (intros ->; discriminate B).
    assert (NO : (forall i, ~ (Decimal s (N.of_nat (S i)) /\ (N.of_nat (S i) <= 65535)%N /\ i < length al)) -> forall fs', ~ Alias t al s fs').
    { intros H fs' (_ & i & D & L & E). apply (H i). split; [exact D|]. split; [exact L|]. apply nth_error_Some. congruence. }
    destruct (parse_u16 s) as [v|e] eqn:E.
    + unfold parse_u16 in E. apply parse_uint_spec in E. destruct E as [E1 E2].
      destruct ((0 <? v)%N && (v <=? N.of_nat (length al))%N) eqn:R.
      * apply andb_true_iff in R. destruct R as [R1 R2]. apply N.ltb_lt in R1. apply N.leb_le in R2.
        destruct (nth_error al (N.to_nat v - 1)) as [g|] eqn:Eg.
        2:{ apply nth_error_None in Eg. lia. }
        assert (A : Alias t al s g).
        { split; [exact NT|]. exists (N.to_nat v - 1). replace (N.of_nat (S (N.to_nat v - 1))) with v by lia. auto. }
        split.
        -- intro H. injection H as <-. left. exact A.
        -- intros [(_ & i & D & L & G)|[H _]]; [|destruct (H _ A)].
           pose proof (Decimal_fun E1 D) as Ev. assert (i = N.to_nat v - 1) by lia. subst i. rewrite Eg in G. injection G as <-. reflexivity.
      * assert (NA : forall fs', ~ Alias t al s fs').
        { apply NO. intros i (D & L & G). pose proof (Decimal_fun E1 D) as Ev. apply andb_false_iff in R. destruct R as [R|R]; lia. }
        rewrite flag_list by exact Hs. split; [intro H; right; auto|]. intros [H|[_ H]]; [destruct (NA _ H)|exact H].
    + assert (NA : forall fs', ~ Alias t al s fs').
      { apply NO. intros i (D & L & G). assert (P2 : parse_uint 65535 s = Ok (N.of_nat (S i))) by (apply parse_uint_spec; auto).
        unfold parse_u16 in E. congruence. }
      rewrite flag_list by exact Hs. split; [intro H; right; auto|]. intros [H|[_ H]]; [destruct (NA _ H)|exact H].
Qed.

Lemma u16_spec : forall s v, parse_u16 s = Ok v <-> Decimal s v /\ (v <= 65535)%N.
Proof. intros. apply parse_uint_spec. Qed.
Lemma usize_spec : forall s v, parse_usize s = Ok v <-> Decimal s v /\ (v <= 18446744073709551615)%N.
Proof. intros. apply parse_uint_spec. Qed.

(** ** What the words of a setting can be *)
Lemma in_existsb : forall k l, In k l -> existsb (str_eqb k) l = true.
Proof. intros k l H. apply existsb_exists. exists k. split; [exact H|apply str_eqb_refl]. Qed.
Lemma disjoint_names : forall k A B, forallb (fun a => negb (existsb (str_eqb a) B)) A = true -> In k A -> In k B -> False.
Proof.
  intros k A B H HA HB. rewrite forallb_forall in H. apply H in HA. apply negb_true_iff in HA. apply in_existsb in HB. congruence.
Qed.
Ltac not_in := match goal with H : In _ _ |- _ => apply in_existsb in H; discriminate H end.

Lemma reads_flag : forall t key ws v, In key flag_settings -> Reads pl t key ws v ->
  exists w r f, ws = w :: r /\ OneFlag pl t w f /\ v = VFlag (Some f).
Proof.
  intros t key ws v HI H. inversion H; subst; try not_in.
  - eauto 6.
  - exfalso. eapply disjoint_names; [|exact HI|eassumption]. reflexivity.
  - exfalso. eapply disjoint_names; [|exact HI|eassumption]. reflexivity.
Qed.
Lemma reads_switch : forall t key ws v, In key switch_settings -> Reads pl t key ws v -> v = VSwitch true.
Proof.
  intros t key ws v HI H. inversion H; subst; try not_in; try reflexivity;
  exfalso; eapply disjoint_names; [|exact HI|eassumption| |exact HI|eassumption]; reflexivity.
Qed.
Lemma reads_text : forall t key ws v, In key text_settings -> Reads pl t key ws v -> exists w r, ws = w :: r /\ v = VText w.
Proof.
  intros t key ws v HI H. inversion H; subst; try not_in; eauto;
  exfalso; eapply disjoint_names; [|exact HI|eassumption| |exact HI|eassumption]; reflexivity.
Qed.

(** ** Directives *)
Notation words := (words_of pl).
Definition readable (nl : N * str) : Prop := Forall scalars (words nl).

(** A parser that reads exactly the directive of that name. *)
Definition exact (key : str) (p : lparser -> lines -> P perror (lines * lparser)) : Prop :=
  forall x ls ws, ln_words ls = Some ws -> Forall scalars ws -> Forall readable (upcoming pl ls) ->
  (forall ls' x', p x ls = Ret (Ok (ls', x')) ->
     exists rws, upcoming pl ls = rws ++ upcoming pl ls' /\ Directive pl x key ws (map words rws) x') /\
  (forall rws rest x', upcoming pl ls = rws ++ rest -> Directive pl x key ws (map words rws) x' ->
     exists ls', p x ls = Ret (Ok (ls', x')) /\ upcoming pl ls' = rest).

Definition sets (key : str) (get : written -> value) (p : lparser -> lines -> P perror (lines * lparser)) : Prop :=
  forall x ls ws, ln_words ls = Some ws ->
  (forall ls' x', p x ls = Ret (Ok (ls', x')) -> ln_rest ls' = ln_rest ls /\
     Reads pl (x_flag_type x) key ws (get (of_lp x')) /\ settings_kept key x x' /\ tables_kept [] x x') /\
  (forall v, Reads pl (x_flag_type x) key ws v -> exists ls' x', p x ls = Ret (Ok (ls', x')) /\ get (of_lp x') = v).

Lemma exact_setting : forall key get dflt p, In (key, get, dflt) settings -> sets key get p -> exact key p.
Proof.
  intros key get dflt p HI HS x ls ws Hw _ _. destruct (HS x ls ws Hw) as [H1 H2]. split.
  - intros ls' x' E. destruct (H1 _ _ E) as (A & B & C & D). exists []. split; [cbn [app]; symmetry; apply upcoming_rest, A|].
    cbn [map]. eapply D_setting; eassumption.
  - intros rws rest x' Eu D. inversion D as [key0 get0 dflt0 ws0 x0 I0 R0 K0 T0 E1 E2 E3|key0 get0 h rws0 cells x0 I0 _ _ _ _ _]; subst.
    2:{ exfalso. eapply not_both; eassumption. }
    destruct rws as [|nl rws]; [|discriminate E3]. destruct (@settings_fun _ _ _ _ _ HI I0) as [<- _].
    destruct (H2 _ R0) as (ls' & x1 & E & G). exists ls'. destruct (H1 _ _ E) as (A & B & C & T).
    assert (x1 = x') as <-.
    { apply lp_ext.
      - apply settings_complete. intros k g d Ik. destruct (list_eq_dec N.eq_dec k key) as [-> | NE].
        + destruct (@settings_fun _ _ _ _ _ HI Ik) as [<- _]. exact G.
        + rewrite (C _ _ _ Ik NE), (K0 _ _ _ Ik NE). reflexivity.
      - intros k g Ik. assert (NE : k <> []).
        { intros ->. cbn in Ik. repeat destruct Ik as [Ik|Ik]; try discriminate Ik. destruct Ik. }
        rewrite (T _ _ Ik NE), (T0 _ _ Ik NE). reflexivity. }
    split; [exact E|]. rewrite (upcoming_rest pl _ _ A), Eu. reflexivity.
Qed.

Lemma kept_but : forall key x x',
  Forall (fun e => fst (fst e) = key \/ snd (fst e) (of_lp x') = snd (fst e) (of_lp x)) settings -> settings_kept key x x'.
Proof. intros key x x' H k g d I NE. rewrite Forall_forall in H. destruct (H _ I) as [E|E]; [destruct (NE E)|exact E]. Qed.
Lemma tables_same : forall x x', Forall (fun e => snd e x' = snd e x) tables -> tables_kept [] x x'.
Proof. intros x x' H k g I _. rewrite Forall_forall in H. exact (H _ I). Qed.

Ltac kept := apply kept_but; unfold settings; repeat (apply Forall_cons; [first [right; reflexivity|left; reflexivity]|]); apply Forall_nil.
Ltac tabled := apply tables_same; repeat (apply Forall_cons; [reflexivity|]); apply Forall_nil.

(** The five shapes of one-line directive. *)
Lemma sets_flag : forall key get g, In key flag_settings ->
  (forall o x, get (of_lp (with_options (g (Some o)) x)) = VFlag (Some o)) ->
  (forall o x, settings_kept key x (with_options (g (Some o)) x)) ->
  (forall o x, tables_kept [] x (with_options (g (Some o)) x)) ->
  sets key get (flag_directive pl g).
Proof.
  intros key get g HK HG HS HT x ls ws Hw. unfold flag_directive, parse_flag, take_exactly_one_word. rewrite Hw. split.
  - intros ls' x' E. destruct ws as [|w ws]; [discriminate E|]. cbn [bindP okP] in E.
    destruct (parse_flag_from_str pl (x_flag_type x) w) as [[f|]| |] eqn:EF; cbn [bindP okP at_line mapErr errP error] in E; try discriminate E.
    injection E as <- <-. split; [reflexivity|]. rewrite HG. split; [|split; [apply HS|apply HT]].
    apply Rd_flag; [exact HK|apply one_flag, EF].
  - intros v R. destruct (reads_flag HK R) as (w & r & f & -> & F & ->). apply one_flag in F. cbn [bindP okP]. rewrite F.
    cbn [bindP okP at_line mapErr]. eexists. eexists. split; [reflexivity|apply HG].
Qed.
Lemma sets_switch : forall key get g, In key switch_settings ->
  (forall x, get (of_lp (with_options (g true) x)) = VSwitch true) ->
  (forall x, settings_kept key x (with_options (g true) x)) ->
  (forall x, tables_kept [] x (with_options (g true) x)) ->
  sets key get (bool_directive g).
Proof.
  intros key get g HK HG HS HT x ls ws Hw. split.
  - intros ls' x' E. injection E as <- <-. split; [reflexivity|]. rewrite HG. split; [apply Rd_switch, HK|split; [apply HS|apply HT]].
  - intros v R. rewrite (reads_switch HK R). eexists. eexists. split; [reflexivity|apply HG].
Qed.
Lemma sets_text : forall key get g, In key text_settings ->
  (forall w x, get (of_lp (g w x)) = VText w) ->
  (forall w x, settings_kept key x (g w x)) ->
  (forall w x, tables_kept [] x (g w x)) ->
  sets key get (word_directive g).
Proof.
  intros key get g HK HG HS HT x ls ws Hw. unfold word_directive, take_exactly_one_word. rewrite Hw. split.
  - intros ls' x' E. destruct ws as [|w ws]; [discriminate E|]. injection E as <- <-. split; [reflexivity|]. rewrite HG.
    split; [apply Rd_text, HK|split; [apply HS|apply HT]].
  - intros v R. destruct (reads_text HK R) as (w & r & -> & ->). eexists. eexists. split; [reflexivity|apply HG].
Qed.
Lemma sets_number : forall key get g (val : N -> value),
  (forall t ws v, Reads pl t key ws v <-> exists w r n, ws = w :: r /\ Decimal w n /\ (n <= 65535)%N /\ v = val n) ->
  (forall n x, (n <= 65535)%N -> get (of_lp (with_options (g n) x)) = val n) ->
  (forall n x, settings_kept key x (with_options (g n) x)) ->
  (forall n x, tables_kept [] x (with_options (g n) x)) ->
  sets key get (short_directive g).
Proof.
  intros key get g val HR HG HS HT x ls ws Hw. unfold short_directive, parse_short, take_exactly_one_word. rewrite Hw. split.
  - intros ls' x' E. destruct ws as [|w ws]; [discriminate E|]. cbn [bindP okP] in E.
    destruct (parse_u16 w) as [n|] eqn:EN; cbn [bindP okP error errP] in E; [|discriminate E]. apply u16_spec in EN. destruct EN as [N1 N2].
    injection E as <- <-. split; [reflexivity|]. rewrite HG by exact N2. split; [apply HR; eauto 8|split; [apply HS|apply HT]].
  - intros v R. apply HR in R. destruct R as (w & r & n & -> & N1 & N2 & ->). cbn [bindP okP].
    rewrite (proj2 (u16_spec w n) (conj N1 N2)). eexists. eexists. split; [reflexivity|apply HG, N2].
Qed.
Ltac number_reads := intros t ws v; split;
  [intro R; inversion R; subst; try discriminate; try not_in; eauto 8|
   intros (w & r & n & -> & D & L & ->); constructor; assumption].

Definition getter (key : str) : written -> value :=
  match find (fun e => str_eqb (fst (fst e)) key) settings with Some e => snd (fst e) | None => fun _ => VFlag None end.
Definition default_value (key : str) : value :=
  match find (fun e => str_eqb (fst (fst e)) key) settings with Some e => snd e | None => VFlag None end.

Lemma in_settings : forall key, existsb (str_eqb key) (map (fun e => fst (fst e)) settings) = true ->
  In (key, getter key, default_value key) settings.
Proof.
  intros key H. apply existsb_exists in H. destruct H as (k & H1 & H2). apply str_eqb_eq in H2. subst k.
  unfold getter, default_value. destruct (find _ settings) as [[[k g] d]|] eqn:E.
  - apply find_some in E. destruct E as [E1 E2]. cbn [fst snd] in *. apply str_eqb_eq in E2. subst k. exact E1.
  - exfalso. apply in_map_iff in H1. destruct H1 as (e & E1 & E2). pose proof (find_none _ _ E _ E2) as Q. cbn beta in Q.
    rewrite E1, str_eqb_refl in Q. discriminate Q.
Qed.

Lemma in_by_b : forall k l, existsb (str_eqb k) l = true -> In k l.
Proof. intros k l H. apply existsb_exists in H. destruct H as (y & H1 & H2). apply str_eqb_eq in H2. subst y. exact H1. Qed.

Lemma sets_type : sets (lit "FLAG") (fun w => VType (w_type w)) parse_flag_type.
Proof.
  intros x ls ws Hw. unfold parse_flag_type, take_exactly_one_word. rewrite Hw. split.
  - intros ls' x' E. destruct ws as [|w ws]; [discriminate E|]. cbn [bindP okP] in E.
    destruct (str_eqb_cases w (lit "long")) as [[E1 ->]|[E1 _]]; rewrite E1 in E.
    { injection E as <- <-. split; [reflexivity|]. split; [apply Rd_long|split; [kept|tabled]]. }
    destruct (str_eqb_cases w (lit "num")) as [[E2 ->]|[E2 _]]; rewrite E2 in E.
    { injection E as <- <-. split; [reflexivity|]. split; [apply Rd_num|split; [kept|tabled]]. }
    destruct (str_eqb_cases w (lit "UTF-8")) as [[E3 ->]|[E3 _]]; rewrite E3 in E; [|discriminate E].
    injection E as <- <-. split; [reflexivity|]. split; [apply Rd_utf8|split; [kept|tabled]].
  - intros v R. inversion R; subst; try discriminate; try not_in; (eexists; eexists; split; [reflexivity|reflexivity]).
Qed.
Lemma sets_forbidden : sets (lit "FORBIDDENWORD") (fun w => VFlag (Some (o_forbidden (w_options w)))) (parse_forbidden_word_flag pl).
Proof.
  intros x ls ws Hw. unfold parse_forbidden_word_flag, parse_flag, take_exactly_one_word. rewrite Hw.
  assert (HK : In (lit "FORBIDDENWORD") flag_settings) by (apply in_by_b; reflexivity). split.
  - intros ls' x' E. destruct ws as [|w ws]; [discriminate E|]. cbn [bindP okP] in E.
    destruct (parse_flag_from_str pl (x_flag_type x) w) as [[f|]| |] eqn:EF; cbn [bindP okP at_line mapErr errP error] in E; try discriminate E.
    injection E as <- <-. split; [reflexivity|]. split; [|split; [kept|tabled]].
    apply Rd_flag; [exact HK|apply one_flag, EF].
  - intros v R. destruct (reads_flag HK R) as (w & r & f & -> & F & ->). apply one_flag in F. cbn [bindP okP]. rewrite F.
    cbn [bindP okP at_line mapErr]. eexists. eexists. split; reflexivity.
Qed.
Lemma sets_lang : sets (lit "LANG") (fun w => VCase (o_case (w_options w))) (word_directive parse_language).
Proof.
  intros x ls ws Hw. unfold word_directive, take_exactly_one_word. rewrite Hw.
  assert (T : forall w, str_eqb w (lit "tr") || str_eqb w (lit "tr_TR") || str_eqb w (lit "az") || str_eqb w (lit "crh") =
                        existsb (str_eqb w) [lit "tr"; lit "tr_TR"; lit "az"; lit "crh"]).
  { intro w. cbn [existsb]. destruct (str_eqb w (lit "tr")), (str_eqb w (lit "tr_TR")), (str_eqb w (lit "az")), (str_eqb w (lit "crh")); reflexivity. }
  split.
  - intros ls' x' E. destruct ws as [|w ws]; [discriminate E|]. injection E as <- <-. split; [reflexivity|]. unfold parse_language. rewrite T.
    destruct (existsb (str_eqb w) _) eqn:EX.
    + split; [apply Rd_turkic, in_by_b, EX|split; [kept|tabled]].
    + split; [apply Rd_lang|split; [kept|tabled]]. intro I. apply in_existsb in I. congruence.
  - intros v R. inversion R; subst; try discriminate; try not_in; (eexists; eexists; split; [reflexivity|]);
      unfold parse_language; rewrite T; cbn [of_lp with_options upd_options w_options x_options set_case o_case].
    + match goal with H : In _ _ |- _ => rewrite (in_existsb _ _ H) end. reflexivity.
    + destruct (existsb (str_eqb w) _) eqn:EX; [|reflexivity]. exfalso. match goal with H : ~ In _ _ |- _ => apply H, in_by_b, EX end.
Qed.
Lemma sets_syllable : sets (lit "COMPOUNDSYLLABLE") (fun w => VSyllable (o_syllable_max (w_options w)) (w_vowels w)) parse_compound_syllable.
Proof.
  intros x ls ws Hw. unfold parse_compound_syllable, take_words. rewrite Hw. split.
  - intros ls' x' E. destruct ws as [|w [|vw ws]]; try discriminate E.
    destruct (parse_u16 w) as [n|] eqn:EN; [|discriminate E]. apply u16_spec in EN. destruct EN as [N1 N2].
    injection E as <- <-. split; [reflexivity|]. split; [apply Rd_syllable; assumption|split; [kept|tabled]].
  - intros v R. inversion R; subst; try discriminate; try not_in.
    match goal with D : Decimal w n, L : (n <= 65535)%N |- _ => rewrite (proj2 (u16_spec w n) (conj D L)) end.
    eexists. eexists. split; reflexivity.
Qed.

(** ** Tables *)
Section Table.
Variable key : str.
Variable get : lparser -> list cell.
Hypothesis KEY : In (key, get) tables.

Definition added (cs : list cell) (x x' : lparser) : Prop :=
  get x' = get x ++ cs /\ settings_kept [] x x' /\ tables_kept key x x'.

Lemma added_nil : forall x x', added [] x x' <-> x' = x.
Proof.
  intros x x'. unfold added. rewrite app_nil_r. split.
  - intros (A & B & C). apply lp_ext; [apply kept_settings, B|]. intros k g I. destruct (list_eq_dec N.eq_dec k key) as [-> | NE].
    + rewrite <- (@tables_fun _ _ _ KEY I). exact A.
    + exact (C _ _ I NE).
  - intros ->. split; [reflexivity|]. split; intro; intros; reflexivity.
Qed.
Lemma added_app : forall cs ds x y z, added cs x y -> added ds y z -> added (cs ++ ds) x z.
Proof.
  intros cs ds x y z (A1 & A2 & A3) (B1 & B2 & B3). split; [rewrite B1, A1; symmetry; apply app_assoc|]. split.
  - intros k g d I NE. rewrite (B2 _ _ _ I NE). exact (A2 _ _ _ I NE).
  - intros k g I NE. rewrite (B3 _ _ I NE). exact (A3 _ _ I NE).
Qed.
Lemma added_back : forall c ds x y z, added [c] x y -> added (c :: ds) x z -> added ds y z.
Proof.
  intros c ds x y z (A1 & A2 & A3) (B1 & B2 & B3). split; [rewrite B1, A1, <- app_assoc; reflexivity|]. split.
  - intros k g d I NE. rewrite (B2 _ _ _ I NE). symmetry. exact (A2 _ _ _ I NE).
  - intros k g I NE. rewrite (B3 _ _ I NE). symmetry. exact (A3 _ _ I NE).
Qed.

Variable R : list str -> cell -> Prop.
Variable I : lparser -> Prop.
Variable step : list str -> lparser -> lparser -> Prop.
Hypothesis INV : forall c x x', I x -> added [c] x x' -> I x'.
Hypothesis STEP : forall ws x x', Forall scalars ws -> I x -> (step ws x x' <-> exists c, R ws c /\ added [c] x x').
Hypothesis ROOM : forall ws c x, R ws c -> exists x', added [c] x x'.

Lemma words_tail : forall nl ws, readable nl -> words nl = key :: ws -> Forall scalars ws.
Proof. intros nl ws H E. unfold readable in H. rewrite E in H. inversion H; assumption. Qed.

Lemma fed_cells : forall rws x x', I x -> Forall readable rws ->
  (Fed pl key step rws x x' <->
   exists cs, Forall2 (fun ws c => exists r, ws = key :: r /\ R r c) (map words rws) cs /\ added cs x x').
Proof.
  induction rws as [|nl rws IH]; intros x x' HI HR.
  - split.
    + intro F. inversion F; subst. exists []. split; [constructor|]. apply added_nil. reflexivity.
    + intros (cs & F & A). cbn [map] in F. inversion F; subst. apply added_nil in A. subst. constructor.
  - inversion HR as [|? ? R1 R2]; subst. split.
    + intro F. inversion F as [|? ? ? x1 ? ws E ST F']; subst. apply STEP in ST; [|exact (words_tail R1 E)|exact HI].
      destruct ST as (c & C1 & C2). apply IH in F'; [|exact (INV HI C2)|exact R2]. destruct F' as (cs & G1 & G2).
      exists (c :: cs). split; [cbn [map]; constructor; [exists ws; split; assumption|exact G1]|].
      change (c :: cs) with ([c] ++ cs). eapply added_app; eassumption.
    + intros (cs & F & A). cbn [map] in F. inversion F as [|? c ? cs' (ws & E & C) F']; subst.
      destruct (@ROOM ws c x C) as (x1 & A1). eapply fed_cons; [exact E| |].
      * apply STEP; [exact (words_tail R1 E)|exact HI|]. exists c. split; [exact C|exact A1].
      * apply IH; [exact (INV HI A1)|exact R2|]. exists cs'. split; [exact F'|]. eapply added_back; eassumption.
Qed.
End Table.

(** The reset of the BREAK table by its header. *)
Definition started (key : str) (x : lparser) : lparser := if str_eqb key (lit "BREAK") then upd_breaks [] x else x.

Lemma started_settings : forall key x, of_lp (started key x) = of_lp x.
Proof. intros key x. unfold started. destruct (str_eqb key (lit "BREAK")); reflexivity. Qed.
Lemma started_tables : forall key get x, In (key, get) tables ->
  get (started key x) = (if str_eqb key (lit "BREAK") then [] else get x) /\ tables_kept key x (started key x).
Proof.
  intros key get x H. unfold started. destruct (str_eqb_cases key (lit "BREAK")) as [[E ->]|[E NE]]; rewrite E.
  - assert (get = fun x => map CText (x_breaks x)) as ->.
    { eapply tables_fun; [exact H|]. do 3 right. left. reflexivity. }
    split; [reflexivity|]. intros k g I NE. unfold tables in I. cbn [In] in I.
    repeat (destruct I as [I|I]; [injection I as <- <-; first [reflexivity|congruence]|]). destruct I.
  - split; [reflexivity|]. intro; intros; reflexivity.
Qed.

(** From the rows of a table to the directive. *)
Lemma table_directive : forall key get x h rws x', In (key, get) tables ->
  (exists cs, Forall2 (fun ws c => exists r, ws = key :: r /\ RowCell pl (x_flag_type x) (x_aliases x) key h r c) rws cs /\
              added key get cs (started key x) x') ->
  Header pl (x_flag_type x) key h (N.of_nat (length rws)) -> Directive pl x key h rws x'.
Proof.
  intros key get x h rws x' HK (cs & F & (A1 & A2 & A3)) HH. destruct (@started_tables _ _ x HK) as [S1 S2].
  eapply D_table; [exact HK|exact HH|exact F| | |].
  - rewrite A1, S1. reflexivity.
  - apply settings_kept_of. rewrite (kept_settings A2). apply started_settings.
  - intros k g I NE. rewrite (A3 _ _ I NE). exact (S2 _ _ I NE).
Qed.
Lemma directive_table : forall key get x h rws x', In (key, get) tables -> Directive pl x key h rws x' ->
  Header pl (x_flag_type x) key h (N.of_nat (length rws)) /\
  exists cs, Forall2 (fun ws c => exists r, ws = key :: r /\ RowCell pl (x_flag_type x) (x_aliases x) key h r c) rws cs /\
             added key get cs (started key x) x'.
Proof.
  intros key get x h rws x' HK D. destruct (@started_tables _ _ x HK) as [S1 S2].
  inversion D as [? ? ? ? ? I0|? get0 ? ? cells ? I0 HH F G K T]; subst.
  - exfalso. eapply not_both; eassumption.
  - pose proof (@tables_fun _ _ _ HK I0) as <-. split; [exact HH|]. exists cells. split; [exact F|]. split; [rewrite S1; exact G|]. split.
    + apply settings_kept_of. rewrite started_settings. apply kept_settings, K.
    + intros k g I NE. rewrite (T _ _ I NE). symmetry. exact (S2 _ _ I NE).
Qed.

(** The header of a table that is not an affix table. *)
Lemma plain_header : forall t key n ws count, key <> lit "PFX" -> key <> lit "SFX" ->
  (Header pl t key (n :: ws) count <-> parse_usize n = Ok count).
Proof.
  intros t key n ws count N1 N2. rewrite usize_spec. unfold Header. split.
  - intros [L [[[E|E] _]|(_ & _ & m & r & E & D)]]; [contradiction|contradiction|]. injection E as <- <-. auto.
  - intros [D L]. split; [exact L|]. right. eauto 6.
Qed.

Lemma readable_app : forall a b, Forall readable (a ++ b) -> Forall readable a.
Proof. intros a b H. apply Forall_app in H. apply H. Qed.

(** A table whose parser reads the count and then the rows. *)
Lemma exact_rows : forall key get (R : flag_type -> list flagset -> list str -> cell -> Prop) step body p,
  In (key, get) tables -> key <> lit "PFX" -> key <> lit "SFX" ->
  (forall x ls n ws count, ln_words ls = Some (n :: ws) -> parse_usize n = Ok count ->
     p x ls = table_rows pl key body count (with_words ls (Some ws)) (started key x)) ->
  (forall x ls ls' x', p x ls = Ret (Ok (ls', x')) -> exists n ws count, ln_words ls = Some (n :: ws) /\ parse_usize n = Ok count) ->
  (forall ls ws x ls' x', ln_words ls = Some ws -> body ls x = Ret (Ok (ls', x')) ->
     ln_rest ls' = ln_rest ls /\ ln_src ls' = ln_src ls /\ step ws x x') ->
  (forall ls ws x x', ln_words ls = Some ws -> step ws x x' -> exists ls', body ls x = Ret (Ok (ls', x'))) ->
  (forall x0 ws x x', Forall scalars ws -> x_flag_type x = x_flag_type x0 ->
     (step ws x x' <-> exists c, R (x_flag_type x0) (x_aliases x0) ws c /\ added key get [c] x x')) ->
  (forall t al h ws c, R t al ws c <-> RowCell pl t al key h ws c) ->
  (forall t al ws c x, R t al ws c -> exists x', added key get [c] x x') ->
  exact key p.
Proof.
  intros key get R step body p HK N1 N2 EQ HD READ RUN STEP RC ROOM x ls ws Hw Hs Hr.
  assert (FC : forall rws x', Forall readable rws -> (Fed pl key step rws (started key x) x' <->
     exists cs, Forall2 (fun ws0 c => exists r, ws0 = key :: r /\ R (x_flag_type x) (x_aliases x) r c) (map words rws) cs /\
                added key get cs (started key x) x')).
  { intros rws x' HR. apply (@fed_cells key get HK _ (fun y => x_flag_type y = x_flag_type x)).
    - intros c y y' E (_ & A & _). rewrite <- E. apply kept_settings in A. unfold of_lp in A. injection A. auto.
    - intros ws0 y y' S0 E. apply STEP; assumption.
    - intros ws0 c y C. eapply ROOM, C.
    - pose proof (started_settings key x) as E. unfold of_lp in E. injection E. auto.
    - exact HR. }
  assert (F2 : forall rws cs, Forall2 (fun ws0 c => exists r, ws0 = key :: r /\ R (x_flag_type x) (x_aliases x) r c) rws cs <->
               Forall2 (fun ws0 c => exists r, ws0 = key :: r /\ RowCell pl (x_flag_type x) (x_aliases x) key ws r c) rws cs).
  { intros rws cs. split; intro F; induction F as [|a b u v (r & E & C) F IH]; constructor; auto; exists r; (split; [exact E|apply (RC _ _ ws), C]). }
  split.
  - intros ls' x' E. destruct (HD _ _ _ _ E) as (n & ws' & count & E1 & E2). rewrite Hw in E1. injection E1 as ->.
    rewrite (EQ _ _ _ _ _ Hw E2) in E. destruct (@table_taken pl _ key body step READ RUN count _ _ _ _ E) as (rws & T1 & T2 & T3).
    rewrite (upcoming_rest pl ls (with_words ls (Some ws')) eq_refl) in T1. exists rws. split; [exact T1|].
    assert (HR : Forall readable rws) by (rewrite T1 in Hr; eapply readable_app, Hr).
    apply FC in T3; [|exact HR]. destruct T3 as (cs & F & A). eapply table_directive; [exact HK|exists cs; split; [apply F2, F|exact A]|].
    apply plain_header; [exact N1|exact N2|]. rewrite map_length, T2. exact E2.
  - intros rws rest x' Eu D. destruct (directive_table HK D) as (HH & cs & F & A).
    assert (exists n ws', ws = n :: ws') as (n & ws' & ->).
    { destruct HH as [_ [[[E|E] _]|(_ & _ & n & r & -> & _)]]; [contradiction|contradiction|eauto]. }
    apply plain_header in HH; [|exact N1|exact N2].
    rewrite (EQ _ _ _ _ _ Hw HH).
    assert (HR : Forall readable rws) by (rewrite Eu in Hr; eapply readable_app, Hr).
    eapply (@table_run pl _ key body step READ RUN rws).
    + rewrite (upcoming_rest pl ls (with_words ls (Some ws')) eq_refl). exact Eu.
    + apply FC; [exact HR|]. exists cs. split; [apply F2, F|exact A].
    + rewrite map_length. reflexivity.
Qed.

Lemma added_fun : forall key get cs x y z, In (key, get) tables -> added key get cs x y -> added key get cs x z -> y = z.
Proof.
  intros key get cs x y z HK (A1 & A2 & A3) (B1 & B2 & B3). apply lp_ext.
  - rewrite (kept_settings A2), (kept_settings B2). reflexivity.
  - intros k g I. destruct (list_eq_dec N.eq_dec k key) as [-> | NE].
    + rewrite <- (@tables_fun _ _ _ HK I). congruence.
    + rewrite (A3 _ _ I NE), (B3 _ _ I NE). reflexivity.
Qed.

Ltac other_tables := let k := fresh in let g := fresh in let I := fresh in let NE := fresh in
  intros k g I NE; unfold tables in I; cbn [In] in I;
  repeat (destruct I as [I|I]; [injection I as <- <-; first [reflexivity|exfalso; apply NE; reflexivity]|]); destruct I.
Ltac put_row := split; [cbn beta; cbn [upd_reps upd_iconv upd_oconv upd_breaks upd_aliases upd_rules upd_sims upd_prefixes upd_suffixes upd_patterns
                             x_reps x_iconv x_oconv x_breaks x_aliases x_rules x_sims x_prefixes x_suffixes x_patterns];
                        rewrite map_app; reflexivity|split; [apply settings_kept_of; reflexivity|other_tables]].

Ltac in_tables := unfold tables; cbn [In]; repeat (first [left; reflexivity|right]).

(** The number of rows is there when a table was read. *)
Lemma counted : forall C (k : lines * N -> P perror C) ls r, bindP (parse_row_count ls) k = Ret (Ok r) ->
  exists n ws count, ln_words ls = Some (n :: ws) /\ parse_usize n = Ok count.
Proof.
  intros C k ls r H. unfold parse_row_count, take_exactly_one_word in H. destruct (ln_words ls) as [[|n ws]|]; try discriminate H.
  cbn [bindP okP] in H. destruct (parse_usize n) as [count|] eqn:En; [|discriminate H].
  exists n, ws, count. auto.
Qed.

(** One- and two-column tables that add one entry per row. *)
Lemma exact_table1 : forall key get (R : flag_type -> str -> cell -> Prop) f,
  In (key, get) tables -> key <> lit "PFX" -> key <> lit "SFX" ->
  (forall t al h ws c, RowCell pl t al key h ws c <-> exists w r, ws = w :: r /\ R t w c) ->
  (forall w x x', scalars w -> (f w x = Ret (Ok x') <-> exists c, R (x_flag_type x) w c /\ added key get [c] x x')) ->
  (forall t w c x, R t w c -> exists x', added key get [c] x x') ->
  exact key (fun x ls => parse_table1 pl key f ls (started key x)).
Proof.
  intros key get R f HK N1 N2 RC HF ROOM.
  apply (@exact_rows key get (fun t al ws c => exists w r, ws = w :: r /\ R t w c) (step1 f) (body1 f)); try assumption.
  - intros x ls n ws count Hw Hn. exact (@table1_rows pl _ key f ls n ws count (started key x) Hw Hn).
  - intros x ls ls' x' H. eapply counted, H.
  - intros. eapply read1; eassumption.
  - intros. eapply run1; eassumption.
  - intros x0 ws x x' Hs Ht. unfold step1. split.
    + intros (w & r & -> & E). inversion Hs; subst. apply HF in E; [|assumption]. destruct E as (c & C1 & C2). rewrite Ht in C1. eauto 6.
    + intros (c & (w & r & -> & C) & A). inversion Hs; subst. exists w, r. split; [reflexivity|]. apply HF; [assumption|].
      rewrite Ht. eauto.
  - intros. symmetry. apply RC.
  - intros t al ws c x (w & r & _ & C). eapply ROOM, C.
Qed.
Lemma exact_table2 : forall key get (R : flag_type -> str -> str -> cell -> Prop) f,
  In (key, get) tables -> key <> lit "PFX" -> key <> lit "SFX" -> key <> lit "BREAK" ->
  (forall t al h ws c, RowCell pl t al key h ws c <-> exists a b r, ws = a :: b :: r /\ R t a b c) ->
  (forall a b x x', f a b x = Ret (Ok x') <-> exists c, R (x_flag_type x) a b c /\ added key get [c] x x') ->
  (forall t a b c x, R t a b c -> exists x', added key get [c] x x') ->
  exact key (fun x ls => parse_table2 pl key f ls x).
Proof.
  intros key get R f HK N1 N2 N3 RC HF ROOM.
  assert (ST : forall x, started key x = x).
  { intro x. unfold started. destruct (str_eqb_cases key (lit "BREAK")) as [[_ E]|[E _]]; [contradiction|rewrite E; reflexivity]. }
  apply (@exact_rows key get (fun t al ws c => exists a b r, ws = a :: b :: r /\ R t a b c) (step2 f) (body2 f)); try assumption.
  - intros x ls n ws count Hw Hn. rewrite ST. exact (@table2_rows pl _ key f ls n ws count x Hw Hn).
  - intros x ls ls' x' H. eapply counted, H.
  - intros. eapply read2; eassumption.
  - intros. eapply run2; eassumption.
  - intros x0 ws x x' Hs Ht. unfold step2. split.
    + intros (a & b & r & -> & E). apply HF in E. destruct E as (c & C1 & C2). rewrite Ht in C1. eauto 8.
    + intros (c & (a & b & r & -> & C) & A). exists a, b, r. split; [reflexivity|]. apply HF. rewrite Ht. eauto.
  - intros. symmetry. apply RC.
  - intros t al ws c x (a & b & r & _ & C). eapply ROOM, C.
Qed.

(** A function that always adds the same entry. *)
Lemma always_adds : forall key get c x y x', In (key, get) tables -> added key get [c] x y ->
  (@okP error_kind _ y = Ret (Ok x') <-> exists c', c' = c /\ added key get [c'] x x').
Proof.
  intros key get c x y x' HK A. split.
  - intro E. injection E as <-. exists c. auto.
  - intros (c' & -> & B). rewrite (added_fun HK A B). reflexivity.
Qed.

Lemma started_other : forall key x, str_eqb key (lit "BREAK") = false -> started key x = x.
Proof. intros key x E. unfold started. rewrite E. reflexivity. Qed.

Lemma exact_rep : exact (lit "REP") (parse_replacements pl).
Proof.
  assert (HK : In (lit "REP", fun x => map (fun p => CPair (fst p) (snd p)) (x_reps x)) tables) by in_tables.
  assert (PUT : forall a b x, added (lit "REP") (fun x => map (fun p => CPair (fst p) (snd p)) (x_reps x)) [CPair a b] x (upd_reps (x_reps x ++ [(a, b)]) x)).
  { intros a b x. put_row. }
  apply (@exact_table2 _ _ (fun _ a b c => c = CPair a (replace_char 95 32 b)) _ HK); try discriminate.
  - intros t al h ws c. split.
    + intro H. inversion H; subst; try discriminate. eexists _, _, _. split; reflexivity.
    + intros (a & b & r & -> & ->). apply RC_rep.
  - intros a b x x'. apply always_adds; [exact HK|apply PUT].
  - intros t a b c x ->. eexists. apply PUT.
Qed.
Lemma exact_iconv : exact (lit "ICONV") (parse_input_conversions pl).
Proof.
  assert (HK : In (lit "ICONV", fun x => map (fun p => CPair (fst p) (snd p)) (x_iconv x)) tables) by in_tables.
  assert (PUT : forall a b x, added (lit "ICONV") (fun x => map (fun p => CPair (fst p) (snd p)) (x_iconv x)) [CPair a b] x (upd_iconv (x_iconv x ++ [(a, b)]) x)).
  { intros a b x. put_row. }
  apply (@exact_table2 _ _ (fun _ a b c => c = CPair a b) _ HK); try discriminate.
  - intros t al h ws c. split.
    + intro H. inversion H; subst; try discriminate. eexists _, _, _. split; reflexivity.
    + intros (a & b & r & -> & ->). apply RC_iconv.
  - intros a b x x'. apply always_adds; [exact HK|apply PUT].
  - intros t a b c x ->. eexists. apply PUT.
Qed.
Lemma exact_oconv : exact (lit "OCONV") (parse_output_conversions pl).
Proof.
  assert (HK : In (lit "OCONV", fun x => map (fun p => CPair (fst p) (snd p)) (x_oconv x)) tables) by in_tables.
  assert (PUT : forall a b x, added (lit "OCONV") (fun x => map (fun p => CPair (fst p) (snd p)) (x_oconv x)) [CPair a b] x (upd_oconv (x_oconv x ++ [(a, b)]) x)).
  { intros a b x. put_row. }
  apply (@exact_table2 _ _ (fun _ a b c => c = CPair a b) _ HK); try discriminate.
  - intros t al h ws c. split.
    + intro H. inversion H; subst; try discriminate. eexists _, _, _. split; reflexivity.
    + intros (a & b & r & -> & ->). apply RC_oconv.
  - intros a b x x'. apply always_adds; [exact HK|apply PUT].
  - intros t a b c x ->. eexists. apply PUT.
Qed.
Lemma exact_break : exact (lit "BREAK") (parse_break_patterns pl).
Proof.
  assert (HK : In (lit "BREAK", fun x => map CText (x_breaks x)) tables) by in_tables.
  assert (PUT : forall a x, added (lit "BREAK") (fun x => map CText (x_breaks x)) [CText a] x (upd_breaks (x_breaks x ++ [a]) x)).
  { intros a x. put_row. }
  apply (@exact_table1 _ _ (fun _ a c => c = CText a) (fun a x => okP (upd_breaks (x_breaks x ++ [a]) x)) HK); try discriminate.
  - intros t al h ws c. split.
    + intro H. inversion H; subst; try discriminate. eexists _, _. split; reflexivity.
    + intros (a & r & -> & ->). apply RC_break.
  - intros a x x' _. apply always_adds; [exact HK|apply PUT].
  - intros t a c x ->. eexists. apply PUT.
Qed.

(** Tables whose rows are decoded. *)
Lemma decoded_adds : forall E (key : str) get A (e : P E A) (g : E -> error_kind) (D : A -> Prop) (mk : A -> cell) (put : A -> lparser -> lparser) x x',
  In (key, get) tables -> (forall a, e = Ret (Ok a) <-> D a) -> (forall a, added key get [mk a] x (put a x)) ->
  (bindP (mapErr g e) (fun a => okP (put a x)) = Ret (Ok x') <-> exists c, (exists a, D a /\ c = mk a) /\ added key get [c] x x').
Proof.
  intros E key get A e g D mk put x x' HK HD PUT. split.
  - intro H. destruct e as [[a|]| |] eqn:Ee; cbn [mapErr bindP] in H; try discriminate H. injection H as <-.
    exists (mk a). split; [exists a; split; [apply HD; reflexivity|reflexivity]|apply PUT].
  - intros (c & (a & Da & ->) & B). apply HD in Da. rewrite Da. cbn [mapErr bindP]. rewrite (added_fun HK (PUT a) B). reflexivity.
Qed.

Lemma exact_alias : exact (lit "AF") (parse_flag_aliases pl).
Proof.
  assert (HK : In (lit "AF", fun x => map CFlags (x_aliases x)) tables) by in_tables.
  assert (PUT : forall a x, added (lit "AF") (fun x => map CFlags (x_aliases x)) [CFlags a] x (upd_aliases (x_aliases x ++ [a]) x)).
  { intros a x. put_row. }
  apply (@exact_table1 _ _ (fun t a c => exists fs, FlagList pl t a fs /\ c = CFlags fs) (fun a x => bindP (mapErr MalformedFlag (parse_flags_from_str pl (x_flag_type x) a)) (fun fs => okP (upd_aliases (x_aliases x ++ [fs]) x))) HK); try discriminate.
  - intros t al h ws c. split.
    + intro H. inversion H; subst; try discriminate. eexists _, _. split; [reflexivity|eauto].
    + intros (a & r & -> & fs & F & ->). apply RC_alias, F.
  - intros a x x' Ha. eapply decoded_adds with (put := fun fs x => upd_aliases (x_aliases x ++ [fs]) x); [exact HK| |].
    + intro fs. apply flag_list, Ha.
    + intro fs. apply PUT.
  - intros t a c x (fs & _ & ->). eexists. apply PUT.
Qed.
Lemma exact_rule : exact (lit "COMPOUNDRULE") (parse_compound_rule_table pl).
Proof.
  assert (HK : In (lit "COMPOUNDRULE", fun x => map CRule (x_rules x)) tables) by in_tables.
  assert (PUT : forall a x, added (lit "COMPOUNDRULE") (fun x => map CRule (x_rules x)) [CRule a] x (upd_rules (x_rules x ++ [a]) x)).
  { intros a x. put_row. }
  apply (@exact_table1 _ _ (fun t a c => exists ru, RuleText pl t a ru /\ c = CRule ru) (fun w x => bindP (mapErr MalformedCompoundRule (parse_compound_rule pl w (x_flag_type x))) (fun r => okP (upd_rules (x_rules x ++ [r]) x))) HK); try discriminate.
  - intros t al h ws c. split.
    + intro H. inversion H; subst; try discriminate. eexists _, _. split; [reflexivity|eauto].
    + intros (a & r & -> & fs & F & ->). apply RC_rule, F.
  - intros a x x' Ha. eapply decoded_adds with (put := fun r x => upd_rules (x_rules x ++ [r]) x); [exact HK| |].
    + intro r. apply compound_rule_exact.
    + intro r. apply PUT.
  - intros t a c x (fs & _ & ->). eexists. apply PUT.
Qed.
Lemma exact_map : exact (lit "MAP") (parse_map pl).
Proof.
  assert (HK : In (lit "MAP", fun x => map CGroup (x_sims x)) tables) by in_tables.
  assert (PUT : forall a x, added (lit "MAP") (fun x => map CGroup (x_sims x)) [CGroup a] x (upd_sims (x_sims x ++ [a]) x)).
  { intros a x. put_row. }
  apply (@exact_table1 _ _ (fun t a c => exists ps junk, Forall piece_ok ps /\ unclosed junk /\ a = flat_map piece_text ps ++ junk /\
      c = CGroup (mkSim (flat_map piece_chars ps) (flat_map piece_strings ps)))
    (fun s x => bindR (similarity_group_from s) (fun g => okP (upd_sims (x_sims x ++ [g]) x))) HK); try discriminate.
  - intros t al h ws c. split.
    + intro H. inversion H; subst; try discriminate. eexists _, _. split; [reflexivity|eauto 8].
    + intros (a & r & -> & ps & junk & F1 & F2 & -> & ->). apply RC_map; assumption.
  - intros a x x' _. split.
    + intro H. destruct (map_entry_pieces a) as (ps & junk & -> & P1 & P2). rewrite (map_entry_exact P1 P2) in H. injection H as <-.
      eexists. split; [exists ps, junk; repeat split; eassumption|apply PUT].
    + intros (c & (ps & junk & P1 & P2 & -> & ->) & B). rewrite (map_entry_exact P1 P2). cbn [bindR].
      rewrite (added_fun HK (PUT _ _) B). reflexivity.
  - intros t a c x (ps & junk & _ & _ & _ & ->). eexists. apply PUT.
Qed.

(** CHECKCOMPOUNDPATTERN. *)
Lemma optional_flag_spec : forall t s o, optional_flag pl t s = Ret (Ok o) <-> OptFlag pl t s o.
Proof.
  intros t s o. unfold OptFlag. destruct s as [|c s]; cbn [optional_flag].
  - split; [intro E; injection E as <-; auto|]. intros [[_ ->]|[N _]]; [reflexivity|congruence].
  - split.
    + intro E. right. split; [discriminate|]. destruct (parse_flag_from_str pl t (c :: s)) as [[f|]| |] eqn:Ef; cbn [bindP] in E; try discriminate E.
      injection E as <-. exists f. split; [apply one_flag, Ef|reflexivity].
    + intros [[E _]|(_ & f & F & ->)]; [discriminate E|]. apply one_flag in F. rewrite F. reflexivity.
Qed.
Lemma unzero_spec : forall col text, Unzero col text <-> text = (if str_eqb col zero_str then [] else col).
Proof.
  intros col text. unfold Unzero. change (lit "0") with zero_str.
  destruct (str_eqb_cases col zero_str) as [[Q E]|[Q E]]; rewrite Q; split; intuition congruence.
Qed.

Lemma pattern_step_spec : forall ws x x', pattern_step pl ws x x' <->
  exists p, PatternCell pl (x_flag_type x) ws p /\ x' = upd_patterns (x_patterns x ++ [p]) x.
Proof.
  intros ws x x'. unfold pattern_step. split.
  - intros (ls & ls' & Hw & H). unfold pattern_row, take_words in H. rewrite Hw in H. destruct ws as [|a [|b ws]]; try discriminate H.
    destruct (split_word_and_flagset_naive a) as [e1 f1] eqn:S1. destruct (split_word_and_flagset_naive b) as [e2 f2] eqn:S2.
    destruct (optional_flag pl (x_flag_type x) f1) as [[o1|]| |] eqn:O1; cbn [mapErr at_line bindP okP errP error] in *; try discriminate H.
    destruct (optional_flag pl (x_flag_type x) f2) as [[o2|]| |] eqn:O2; cbn [mapErr at_line bindP okP errP error] in *; try discriminate H.
    injection H as _ <-. eexists. split; [|reflexivity].
    apply split_naive_spec in S1, S2. apply optional_flag_spec in O1, O2.
    exists a, b, ws, e1, f1, f2. cbn [cp_begin cp_end cp_replacement cp_first_flag cp_second_flag cp_unaffixed].
    split; [reflexivity|]. split; [exact S1|]. split; [apply unzero_spec; reflexivity|]. split; [apply str_eqb_eq|].
    split; [exact S2|]. split; [exact O1|]. split; [exact O2|]. destruct ws; reflexivity.
  - intros (p & (a & b & ws' & e1 & f1 & f2 & -> & S1 & U & Z & S2 & O1 & O2 & RE) & ->).
    exists (mkLines [] (Some (a :: b :: ws')) SrcAff). eexists. split; [reflexivity|]. unfold pattern_row, take_words. cbn [ln_words].
    apply split_naive_spec in S1, S2. apply optional_flag_spec in O1, O2. rewrite S1, S2, O1. cbn [mapErr at_line bindP okP]. rewrite O2.
    cbn [mapErr at_line bindP okP]. apply unzero_spec in U.
    assert (cp_unaffixed p = str_eqb e1 zero_str) as UN.
    { destruct (str_eqb_cases e1 zero_str) as [[Q E]|[Q E]]; rewrite Q; [apply Z, E|]. destruct (cp_unaffixed p); [exfalso; apply E, Z; reflexivity|reflexivity]. }
    do 4 f_equal. destruct p as [pb pe pr p1 p2 pu]; cbn [cp_begin cp_end cp_replacement cp_first_flag cp_second_flag cp_unaffixed] in *. subst. do 3 f_equal.
    destruct ws'; reflexivity.
Qed.

Lemma exact_pattern : exact (lit "CHECKCOMPOUNDPATTERN") (parse_compound_pattern_table pl).
Proof.
  assert (HK : In (lit "CHECKCOMPOUNDPATTERN", fun x => map CPattern (x_patterns x)) tables) by in_tables.
  assert (PUT : forall a x, added (lit "CHECKCOMPOUNDPATTERN") (fun x => map CPattern (x_patterns x)) [CPattern a] x (upd_patterns (x_patterns x ++ [a]) x)).
  { intros a x. put_row. }
  apply (@exact_rows _ _ (fun t al ws c => exists p, PatternCell pl t ws p /\ c = CPattern p) (pattern_step pl) (pattern_row pl) _ HK); try discriminate.
  - intros x ls n ws count Hw Hn. unfold parse_compound_pattern_table, parse_row_count, take_exactly_one_word. rewrite Hw.
    cbn [bindP okP]. rewrite Hn. reflexivity.
  - intros x ls ls' x' H. eapply counted, H.
  - intros. eapply readp; eassumption.
  - intros. eapply runp; eassumption.
  - intros x0 ws x x' _ Ht. rewrite pattern_step_spec, Ht. split.
    + intros (p & P & ->). exists (CPattern p). split; [eauto|apply PUT].
    + intros (c & (p & P & ->) & A). exists p. split; [exact P|]. exact (added_fun HK A (PUT p x)).
  - intros t al h ws c. split.
    + intros (p & P & ->). apply RC_pattern, P.
    + intro H. inversion H; subst; try discriminate. eauto.
  - intros t al ws c x (p & _ & ->). eexists. apply PUT.
Qed.

(** PFX and SFX. *)
Lemma slashed_scalars : forall col text flags, Slashed col text flags -> scalars col -> scalars flags.
Proof.
  intros col text flags [(_ & _ & ->)|(-> & _)] H; [constructor|]. apply Forall_app in H. destruct H as [_ H]. inversion H; assumption.
Qed.
Lemma affix_new_spec : forall flag cross strip add cond fs a, affix_new flag cross strip add cond fs = Ret (Ok a) <->
  a_flag a = flag /\ a_cross a = cross /\ a_strip a = strip /\ a_add a = add /\ a_flags a = fs /\
  match cond with None => a_cond a = None | Some c => exists k es, a_cond a = Some k /\ cond_denotes k es /\ c = celems_text es end.
Proof.
  intros flag cross strip add cond fs a. unfold affix_new. destruct cond as [c|].
  - split.
    + intro H. destruct (cond_from_str c) as [[k|]| |] eqn:E; cbn [bindP] in H; try discriminate H. injection H as <-.
      cbn [a_flag a_cross a_strip a_add a_cond a_flags]. repeat split. apply cond_from_str_spec in E. destruct E as (es & E1 & E2 & ->).
      eexists _, es. split; [reflexivity|]. split; [split; [exact E1|subst c; reflexivity]|exact E2].
    + intros (<- & <- & <- & <- & <- & k & es & E & [D1 D2] & ->).
      assert (cond_from_str (celems_text es) = Ret (Ok k)) as ->.
      { apply cond_from_str_spec. exists es. split; [exact D1|]. split; [reflexivity|exact D2]. }
      cbn [bindP]. destruct a as [q1 q2 q3 q4 q5 q6]; cbn in *. subst. reflexivity.
  - split.
    + intro H. injection H as <-. repeat split.
    + intros (<- & <- & <- & <- & <- & E). destruct a as [q1 q2 q3 q4 q5 q6]; cbn in *. subst. reflexivity.
Qed.
Lemma astep_spec : forall key get put flag fs cross ws x x', In (key, get) tables ->
  (forall a x, added key get [CAffix a] x (put a x)) -> Forall scalars ws ->
  (astep (affix_row pl put) flag fs cross ws x x' <->
   exists a, AffixCell pl (x_flag_type x) (x_aliases x) flag fs cross ws a /\ x' = put a x).
Proof.
  intros key get put flag fs cross ws x x' HK PUT HS. unfold astep, AffixCell. split.
  - intros (sc & ac & rest & strip & add & flags & cond & -> & H1 & (t & H2 & H3) & H4 & H5). unfold affix_row in H5.
    destruct (decode_flagset pl flags (x_flag_type x) (x_aliases x)) as [[fl|]| |] eqn:ED; cbn [mapErr bindP] in H5; try discriminate H5.
    destruct (affix_new flag cross strip add cond fl) as [[a|]| |] eqn:EA; cbn [mapErr bindP] in H5; try discriminate H5. injection H5 as <-.
    apply affix_new_spec in EA. destruct EA as (A1 & A2 & A3 & A4 & A5 & A6).
    exists a. split; [|reflexivity]. exists sc, ac, rest, t, flags. split; [reflexivity|]. split; [exact A1|]. split; [exact A2|].
    split. { rewrite A3. destruct (str_eqb_cases sc (lit "0")) as [[Q E]|[Q E]]; rewrite Q; destruct H1 as [[Q1 ->]|[Q1 ->]]; congruence. }
    split; [exact H2|]. split; [rewrite A4; exact H3|]. split.
    { rewrite A5. apply aliased_flags; [|exact ED]. eapply slashed_scalars; [exact H2|]. inversion HS as [|? ? _ HS1]; subst. inversion HS1 as [|? ? _ HS2]; subst. inversion HS2; assumption. }
    destruct H4 as [[-> ->]|(c & r & -> & [[-> ->]|[N ->]])]; [exact A6|left; split; [reflexivity|exact A6]|right; split; [exact N|exact A6]].
  - intros (a & (sc & ac & rest & t & flags & -> & A1 & A2 & A3 & A4 & A5 & A6 & A7) & ->).
    exists sc, ac, rest, (a_strip a), (a_add a), flags.
    exists (match rest with [] => None | c :: _ => if str_eqb c (lit ".") then None else Some c end).
    split; [reflexivity|]. split. { rewrite A3. destruct (str_eqb_cases sc (lit "0")) as [[Q E]|[Q E]]; rewrite Q; auto. }
    split; [exists t; split; [exact A4|exact A5]|]. split.
    { destruct rest as [|c r]; [left; auto|right]. exists c, r. split; [reflexivity|]. destruct (str_eqb_cases c (lit ".")) as [[Q E]|[Q E]]; rewrite Q; auto. }
    unfold affix_row. apply aliased_flags in A6; [|eapply slashed_scalars; [exact A4|]; inversion HS as [|? ? _ HS1]; subst; inversion HS1 as [|? ? _ HS2]; subst; inversion HS2; assumption].
    rewrite A6. cbn [mapErr bindP].
    assert (EA : affix_new flag cross (a_strip a) (a_add a) (match rest with [] => None | c :: _ => if str_eqb c (lit ".") then None else Some c end) (a_flags a) = Ret (Ok a)).
    { apply affix_new_spec. repeat (split; [first [assumption|reflexivity]|]). destruct rest as [|c r]; [exact A7|].
      destruct (str_eqb_cases c (lit ".")) as [[Q E]|[Q E]]; rewrite Q; destruct A7 as [[B1 B2]|[B1 B2]]; try congruence; assumption. }
    rewrite EA. reflexivity.
Qed.

Lemma exact_affix : forall key get put, In (key, get) tables -> key = lit "PFX" \/ key = lit "SFX" ->
  (forall a x, added key get [CAffix a] x (put a x)) ->
  exact key (fun x ls => parse_affix_table pl key (x_flag_type x) (affix_row pl put) ls x).
Proof.
  intros key get put HK KK PUT x ls ws Hw Hs Hr.
  assert (NB : str_eqb key (lit "BREAK") = false) by (destruct KK as [-> | ->]; reflexivity).
  assert (FC : forall flag fs cross rws x', Forall readable rws ->
     (Fed pl key (astep (affix_row pl put) flag fs cross) rws x x' <->
      exists cs, Forall2 (fun ws0 c => exists r, ws0 = key :: r /\ exists a, AffixCell pl (x_flag_type x) (x_aliases x) flag fs cross r a /\ c = CAffix a) (map words rws) cs /\
                 added key get cs x x')).
  { intros flag fs cross rws x' HR.
    apply (@fed_cells key get HK (fun r c => exists a, AffixCell pl (x_flag_type x) (x_aliases x) flag fs cross r a /\ c = CAffix a)
             (fun y => x_flag_type y = x_flag_type x /\ x_aliases y = x_aliases x)).
    - intros c y y' [E1 E2] (_ & A & B). split.
      + rewrite <- E1. apply kept_settings in A. unfold of_lp in A. injection A. auto.
      + rewrite <- E2. assert (Q : map CFlags (x_aliases y') = map CFlags (x_aliases y)).
        { apply (B (lit "AF") (fun x => map CFlags (x_aliases x))); [in_tables|]. destruct KK as [-> | ->]; discriminate. }
        revert Q. generalize (x_aliases y) (x_aliases y'). intros u v. revert u. induction v as [|? v IH]; intros [|? u] Q; try discriminate Q; [reflexivity|].
        cbn [map] in Q. injection Q as -> Q. f_equal. apply IH, Q.
    - intros ws0 y y' S0 [E1 E2]. rewrite (@astep_spec key get put flag fs cross ws0 y y' HK PUT S0), E1, E2. split.
      + intros (a & A & ->). exists (CAffix a). split; [eauto|apply PUT].
      + intros (c & (a & A & ->) & B). exists a. split; [exact A|]. exact (added_fun HK B (PUT a y)).
    - intros ws0 c y (a & _ & ->). eexists. apply PUT.
    - split; reflexivity.
    - exact HR. }
  assert (ST : started key x = x) by (apply started_other, NB).
  assert (F2 : forall fs flag cp h rws cs, OneFlag pl (x_flag_type x) fs flag ->
     (Forall2 (fun ws0 c => exists r, ws0 = key :: r /\ exists a, AffixCell pl (x_flag_type x) (x_aliases x) flag fs (str_eqb cp (lit "Y")) r a /\ c = CAffix a) rws cs <->
      Forall2 (fun ws0 c => exists r, ws0 = key :: r /\ RowCell pl (x_flag_type x) (x_aliases x) key (fs :: cp :: h) r c) rws cs)).
  { intros fs flag cp h rws cs OF. split; intro F; induction F as [|a b u v (r & E & C) F IH]; constructor; auto; exists r; (split; [exact E|]).
    - destruct C as (af & A & ->). destruct KK as [-> | ->]; [eapply RC_prefix|eapply RC_suffix]; eassumption.
    - destruct KK as [-> | ->]; inversion C; subst; try discriminate;
        (match goal with H : OneFlag pl _ fs ?f', H2 : AffixCell _ _ _ ?f' _ _ _ _ |- _ =>
           apply one_flag in H; apply one_flag in OF; rewrite H in OF; injection OF as ->; eauto end). }
  split.
  - intros ls' x' E.
    assert (exists fs cp n ws' flag count, ws = fs :: cp :: n :: ws' /\ parse_flag_from_str pl (x_flag_type x) fs = Ret (Ok flag) /\
              (cp = lit "Y" \/ cp = lit "N") /\ parse_usize n = Ok count) as (fs & cp & n & ws' & flag & count & -> & EF & EC & EN).
    { unfold parse_affix_table, take_words in E. rewrite Hw in E. destruct ws as [|fs ws]; [discriminate E|].
      destruct (parse_flag_from_str pl (x_flag_type x) fs) as [[flag|]| |] eqn:EF; cbn [mapErr at_line bindP error errP] in E; try discriminate E.
      destruct ws as [|cp ws]; [discriminate E|].
      destruct (str_eqb_cases cp (lit "Y")) as [[Q E1]|[Q E1]]; destruct (str_eqb_cases cp (lit "N")) as [[Q2 E2]|[Q2 E2]];
        rewrite Q, Q2 in E; cbn [orb negb] in E; try discriminate E;
        (destruct ws as [|n ws]; [discriminate E|]; destruct (parse_usize n) as [count|] eqn:EN; [|discriminate E]; eauto 12). }
    rewrite (@atable_rows pl _ key (x_flag_type x) (affix_row pl put) ls fs cp n ws' flag count x Hw EF EC EN) in E.
    destruct (@table_taken pl _ key _ _ (fun l => @reada _ (affix_row pl put) flag fs (str_eqb cp (lit "Y")) l)
                (fun l => @runa _ (affix_row pl put) flag fs (str_eqb cp (lit "Y")) l) _ _ _ _ _ E) as (rws & T1 & T2 & T3).
    rewrite (upcoming_rest pl ls (with_words ls None) eq_refl) in T1. exists rws. split; [exact T1|].
    assert (HR : Forall readable rws) by (rewrite T1 in Hr; eapply readable_app, Hr).
    apply one_flag in EF. apply FC in T3; [|exact HR]. destruct T3 as (cs & F & A).
    eapply table_directive; [exact HK|exists cs; rewrite ST; split; [apply (F2 _ _ _ (n :: ws') _ _ EF), F|exact A]|].
    apply usize_spec in EN. destruct EN as [D L]. rewrite map_length, T2. split; [exact L|]. left. split; [exact KK|]. eauto 10.
  - intros rws rest x' Eu D. destruct (directive_table HK D) as (HH & cs & F & A). rewrite ST in A.
    destruct HH as [L [(_ & fs & flag & cp & n & r & -> & OF & EC & DN)|(N1 & N2 & _)]]; [|destruct KK; contradiction].
    assert (EN : parse_usize n = Ok (N.of_nat (length (map words rws)))) by (apply usize_spec; split; assumption).
    assert (EF : parse_flag_from_str pl (x_flag_type x) fs = Ret (Ok flag)) by (apply one_flag, OF).
    rewrite (@atable_rows pl _ key (x_flag_type x) (affix_row pl put) ls fs cp n r flag _ x Hw EF EC EN).
    assert (HR : Forall readable rws) by (rewrite Eu in Hr; eapply readable_app, Hr).
    eapply (@table_run pl _ key _ _ (fun l => @reada _ (affix_row pl put) flag fs (str_eqb cp (lit "Y")) l)
                (fun l => @runa _ (affix_row pl put) flag fs (str_eqb cp (lit "Y")) l) rws).
    + rewrite (upcoming_rest pl ls (with_words ls None) eq_refl). exact Eu.
    + apply FC; [exact HR|]. exists cs. split; [apply (F2 _ _ _ (n :: r) _ _ OF), F|exact A].
    + rewrite map_length. reflexivity.
Qed.
Lemma exact_prefixes : exact (lit "PFX") (parse_prefix_table pl).
Proof.
  apply (@exact_affix (lit "PFX") (fun x => map CAffix (x_prefixes x)) (fun a x => upd_prefixes (x_prefixes x ++ [a]) x)); [in_tables|auto|].
  intros a x. put_row.
Qed.
Lemma exact_suffixes : exact (lit "SFX") (parse_suffix_table pl).
Proof.
  apply (@exact_affix (lit "SFX") (fun x => map CAffix (x_suffixes x)) (fun a x => upd_suffixes (x_suffixes x ++ [a]) x)); [in_tables|auto|].
  intros a x. put_row.
Qed.

(** Every parser of the table reads exactly its directive. *)
Ltac by_settings key := apply (@exact_setting key (getter key) (default_value key)); [apply in_settings; reflexivity|].
Ltac by_flag := match goal with |- exact ?key _ => by_settings key; apply sets_flag; [apply in_by_b; reflexivity|intros; reflexivity|intros; kept|intros; tabled] end.
Ltac by_switch := match goal with |- exact ?key _ => by_settings key; apply sets_switch; [apply in_by_b; reflexivity|intros; reflexivity|intros; kept|intros; tabled] end.
Ltac by_text := match goal with |- exact ?key _ => by_settings key; apply sets_text; [apply in_by_b; reflexivity|intros; reflexivity|intros; kept|intros; tabled] end.

Lemma all_exact : Forall (fun e => exact (fst e) (snd e)) (aff_parsers pl).
Proof.
  unfold aff_parsers.
  apply Forall_cons; [cbn [fst snd]; by_settings (lit "FLAG"); exact sets_type|].
  apply Forall_cons; [cbn [fst snd]; by_settings (lit "FORBIDDENWORD"); exact sets_forbidden|].
  do 15 (apply Forall_cons; [cbn [fst snd]; by_flag|]).
  do 14 (apply Forall_cons; [cbn [fst snd]; by_switch|]).
  apply Forall_cons; [cbn [fst snd]|].
  { by_settings (lit "COMPOUNDMIN"). apply (@sets_number _ _ _ (fun n => VNumber (Some (if (n =? 0)%N then 1%N else n)))); [number_reads| |intros; kept|intros; tabled].
    intros n x _. change (VNumber (nonzero (N.max n 1)) = VNumber (Some (if (n =? 0)%N then 1%N else n))). f_equal.
    unfold nonzero. destruct (N.eqb_spec n 0) as [-> | NE]; [reflexivity|]. rewrite N.max_l by lia. destruct (N.eqb_spec n 0); congruence. }
  apply Forall_cons; [cbn [fst snd]|].
  { by_settings (lit "COMPOUNDWORDMAX"). apply (@sets_number _ _ _ (fun n => VNumber (if (n =? 0)%N then None else Some n))); [number_reads|intros; reflexivity|intros; kept|intros; tabled]. }
  apply Forall_cons; [cbn [fst snd]|].
  { by_settings (lit "MAXCPDSUGS"). apply (@sets_number _ _ _ (fun n => VNumber (Some n))); [number_reads|intros; reflexivity|intros; kept|intros; tabled]. }
  apply Forall_cons; [cbn [fst snd]|].
  { by_settings (lit "MAXNGRAMSUGS"). apply (@sets_number _ _ _ (fun n => VNumber (Some n))); [number_reads|intros; reflexivity|intros; kept|intros; tabled]. }
  apply Forall_cons; [cbn [fst snd]|].
  { by_settings (lit "MAXDIFF"). apply (@sets_number _ _ _ (fun n => VNumber (Some (if (n <=? 10)%N then n else 5%N)))); [number_reads| |intros; kept|intros; tabled].
    intros n x _. change (VNumber (Some (if (10 <? n)%N then 5%N else n)) = VNumber (Some (if (n <=? 10)%N then n else 5%N))).
    destruct (N.ltb_spec 10 n), (N.leb_spec n 10); try lia; reflexivity. }
  do 3 (apply Forall_cons; [cbn [fst snd]; by_text|]).
  apply Forall_cons; [cbn [fst snd]; by_settings (lit "LANG"); exact sets_lang|].
  apply Forall_cons; [exact exact_rep|]. apply Forall_cons; [exact exact_iconv|]. apply Forall_cons; [exact exact_oconv|].
  apply Forall_cons; [exact exact_break|].
  apply Forall_cons; [cbn [fst snd]; by_settings (lit "COMPOUNDSYLLABLE"); exact sets_syllable|].
  apply Forall_cons; [exact exact_alias|]. apply Forall_cons; [exact exact_prefixes|]. apply Forall_cons; [exact exact_suffixes|].
  apply Forall_cons; [exact exact_rule|]. apply Forall_cons; [exact exact_pattern|]. apply Forall_cons; [exact exact_map|].
  apply Forall_nil.
Qed.

Lemma parser_names : forall key, In key (map fst (aff_parsers pl)) <-> known key.
Proof.
  intro key.
  assert (A : forallb (fun k => existsb (str_eqb k) (map (fun e => fst (fst e)) settings ++ map fst tables)) (map fst (aff_parsers pl)) = true) by reflexivity.
  assert (B : forallb (fun k => existsb (str_eqb k) (map fst (aff_parsers pl))) (map (fun e => fst (fst e)) settings ++ map fst tables) = true) by reflexivity.
  rewrite forallb_forall in A, B.
  assert (K : known key <-> In key (map (fun e => fst (fst e)) settings ++ map fst tables)).
  { unfold known. rewrite in_app_iff, !in_map_iff. split.
    - intros [(g & d & I)|(g & I)]; [left|right]; eexists; (split; [|exact I]); reflexivity.
    - intros [([[k g] d] & <- & I)|([k g] & <- & I)]; [left|right]; eauto. }
  rewrite K. split; intro I; [apply A in I|apply B in I]; apply existsb_exists in I; destruct I as (k & I & E); apply str_eqb_eq in E; subst; exact I.
Qed.
Lemma known_parser : forall key, match find_parser pl key with Some p => exact key p /\ known key | None => ~ known key end.
Proof.
  intro key. destruct (find_parser pl key) as [p|] eqn:E.
  - apply find_parser_In in E. split.
    + pose proof all_exact as A. rewrite Forall_forall in A. exact (A _ E).
    + apply parser_names. apply (in_map fst) in E. exact E.
  - intro K. apply parser_names in K. apply in_map_iff in K. destruct K as ([k p] & Ek & I). cbn [fst] in Ek. subst k.
    unfold find_parser in E. assert (X : exists c, first_some (fun e => if str_eqb (fst e) key then Some (snd e) else None) (aff_parsers pl) = Some c).
    { apply first_some_exists. exists (key, p). cbn [fst snd]. rewrite str_eqb_refl. eauto. }
    destruct X as (c & X). rewrite X in E. discriminate E.
Qed.

Lemma map_app_inv : forall A B (f : A -> B) l u v, map f l = u ++ v -> exists a b, l = a ++ b /\ map f a = u /\ map f b = v.
Proof.
  intros A B f. induction l as [|x l IH]; intros u v H.
  - cbn in H. symmetry in H. apply app_eq_nil in H. destruct H as [-> ->]. exists [], []. auto.
  - destruct u as [|y u]; cbn in H.
    + exists [], (x :: l). split; [reflexivity|]. split; [reflexivity|exact H].
    + injection H as H1 H2. destruct (IH _ _ H2) as (a & b & -> & <- & <-). exists (x :: a), b. subst y. auto.
Qed.

Lemma go_text : forall fuel ls x x', ln_words ls = peek_words pl (ln_rest ls) ->
  Forall readable (match ln_rest ls with [] => [] | nl :: _ => nl :: upcoming pl ls end) ->
  length (match ln_rest ls with [] => [] | nl :: _ => nl :: upcoming pl ls end) < fuel ->
  (aff_go pl fuel ls x = Ret (Ok x') <->
   Text pl (map words (match ln_rest ls with [] => [] | nl :: _ => nl :: upcoming pl ls end)) x x').
Proof.
  induction fuel as [|fuel IH]; intros ls x x' Hp Hr Hl; [lia|]. cbn [aff_go]. unfold is_finished.
  destruct (ln_rest ls) as [|nl rest] eqn:Er.
  { cbn [nonempty negb map]. split; [intro H; injection H as <-; constructor|]. intro T. inversion T; subst. reflexivity. }
  cbn [nonempty negb]. cbn [peek_words] in Hp. unfold next_word. rewrite Hp.
  assert (NEXT : forall ls2 x2, Forall readable (upcoming pl ls2) -> length (upcoming pl ls2) < fuel ->
            (aff_go pl fuel (advance_line pl ls2) x2 = Ret (Ok x') <-> Text pl (map words (upcoming pl ls2)) x2 x')).
  { intros ls2 x2 R2 L2. pose proof (advance_upcoming pl ls2) as A. specialize (IH (advance_line pl ls2) x2 x' eq_refl).
    destruct (upcoming pl ls2) as [|nl2 r2].
    - rewrite A in IH. apply IH; [constructor|]. cbn [length] in *. lia.
    - destruct A as (t & A1 & _ & A3). rewrite A1, A3 in IH. apply IH; assumption. }
  inversion Hr as [|? ? R1 R2]; subst. cbn [length] in Hl. cbn [map].
  assert (WN : words nl = split_whitespace pl (snd nl)) by reflexivity.
  assert (SKIP : forall ls2, ln_rest ls2 = ln_rest ls ->
     (forall key ws', words nl = key :: ws' -> ~ known key) ->
     (aff_go pl fuel (advance_line pl ls2) x = Ret (Ok x') <-> Text pl (words nl :: map words (upcoming pl ls)) x x')).
  { intros ls2 E2 NK. rewrite (NEXT ls2 x); rewrite ?(upcoming_rest pl ls ls2 E2); [|exact R2|lia]. split.
    - apply T_skip. exact NK.
    - intro T. inversion T as [|? ? ? ? _ T'|? ? ? ? ? ? ? D T' Q1]; subst; [exact T'|].
      exfalso. destruct D as [k g d w y I|k g h rw c y I]; eapply NK; [symmetry; eassumption| |symmetry; eassumption|]; [left|right]; eauto. }
  unfold words_of in Hp. destruct (split_whitespace pl (snd nl)) as [|key ws] eqn:EW.
  - cbn [bindP okP]. apply SKIP; [reflexivity|]. intros k w Q. congruence.
  - pose proof (known_parser key) as KP. destruct (find_parser pl key) as [p|] eqn:EP.
    + destruct KP as [EX KN]. unfold readable in R1. rewrite WN in R1. inversion R1 as [|? ? Q1 Q2]; subst.
      destruct (EX x (with_words ls (Some ws)) ws eq_refl Q2 R2) as [EX1 EX2].
      assert (UP : upcoming pl (with_words ls (Some ws)) = upcoming pl ls) by reflexivity. rewrite UP in *. rewrite WN. split.
      * intro H. destruct (p x (with_words ls (Some ws))) as [[[ls2 x2]|]| |] eqn:EQ; cbn [bindP] in H; try discriminate H.
        destruct (EX1 ls2 x2 eq_refl) as (rws & E1 & D). rewrite E1, map_app. eapply T_directive; [exact D|].
        apply NEXT; [|rewrite E1, app_length in Hl; lia|exact H]. rewrite E1 in R2. apply Forall_app in R2. apply R2.
      * intro T. inversion T as [|? ? ? ? NK T'|? ? rws r ? x1 ? D T' Q3 Q4]; subst.
        { exfalso. exact (NK _ _ eq_refl KN). }
        match goal with Q : _ ++ _ = map words _ |- _ => symmetry in Q; apply map_app_inv in Q; rename Q into Q9 end. destruct Q9 as (a & b & Eab & <- & <-).
        destruct (EX2 a b x1 Eab D) as (ls2 & -> & E2). cbn [bindP]. apply NEXT; rewrite E2; [| |exact T'].
        -- rewrite Eab in R2. apply Forall_app in R2. apply R2.
        -- rewrite Eab, app_length in Hl. lia.
    + cbn [bindP okP]. apply SKIP; [reflexivity|]. intros k w Q. rewrite WN in Q. injection Q as <- <-. exact KP.
Qed.

Lemma words_readable : forall aff nl, scalars aff ->
  In nl (number_from 0 (text_lines (match strip_prefix [65279%N] aff with Some t => t | None => aff end))) -> readable nl.
Proof.
  intros aff nl Ha H. unfold readable. assert (S1 : scalars (snd nl)).
  { set (t := match strip_prefix [65279%N] aff with Some t => t | None => aff end) in *.
    assert (Ht : scalars t).
    { unfold t. destruct (strip_prefix [65279%N] aff) as [u|] eqn:E; [|exact Ha]. apply strip_prefix_spec in E.
      subst aff. apply Forall_app in Ha. apply Ha. }
    assert (L : Forall (fun nl : N * str => scalars (snd nl)) (number_from 0 (text_lines t))).
    { apply number_from_Forall, lines_go_scalars; [exact Ht|constructor]. }
    rewrite Forall_forall in L. exact (L _ H). }
  pose proof (split_ws_ok pl S1) as W. eapply Forall_impl; [|exact W]. intros w Hw. apply Hw.
Qed.

(** The parser accepts exactly the texts of the grammar and reads what they say. *)
Theorem parse_aff_exact : forall aff x, scalars aff ->
  (parse_aff pl aff = Ret (Ok x) <-> Text pl (aff_words pl aff) default_lp x).
Proof.
  intros aff x Ha. unfold parse_aff, aff_words. set (nls := number_from 0 _).
  assert (RD : Forall readable (filter (fun nl => negb (is_comment pl (snd nl))) nls)).
  { rewrite Forall_forall. intros nl I. apply filter_In in I. destruct I as [I _]. eapply words_readable; eassumption. }
  assert (E : filter (fun nl => negb (is_comment pl (snd nl))) nls =
              match ln_rest (lines_new pl aff SrcAff) with [] => [] | nl :: _ => nl :: upcoming pl (lines_new pl aff SrcAff) end).
  { rewrite skip_comments_filter. unfold upcoming, lines_new. cbn [ln_rest]. fold nls. destruct (skip_comments pl nls); reflexivity. }
  rewrite E in *. apply go_text; [reflexivity|exact RD|].
  pose proof (upcoming_length pl (lines_new pl aff SrcAff)) as L. destruct (ln_rest (lines_new pl aff SrcAff)) as [|nl r] eqn:Q; [cbn; lia|].
  cbn [length pred] in *. lia.
Qed.
End Exact.
