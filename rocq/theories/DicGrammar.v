(** The .dic text, exactly: which lines are entries, how a line is cut into word and flags,
    and which entries the word list then has.  The specification is stated on positions of
    the line and does not use the functions of the parser. *)
From Coq Require Import String Ascii List NArith ZArith Lia Bool Arith Permutation.
From Verif Require Import Base Utf8 Unicode Flags Bag Condition Affix Conversion Aff Checker AffixSpec CompoundRule Rep CompoundSpec
  CompoundTotal RuleCompound Spell CheckSpec CheckMono CheckProps Parser ParserSafe Lib LibSpec LibProps ParserProps TableProps Grammar.
Import ListNotations.
Local Open Scope string_scope.
Local Open Scope list_scope.
Local Open Scope nat_scope.
Set Implicit Arguments.

Section Spec.
Variable pl : platform.
Notation U := (pl_unicode pl).
Definition ws (c : N) : Prop := u_is_ws U c = true.
Definition blank (s : str) : Prop := Forall ws s.
Definition solid (s : str) : Prop := Forall (fun c => u_is_ws U c = false) s.

(** A morphological field: two lower-case letters and a colon after blanks. *)
Definition Field (s : str) : Prop :=
  exists sp a b r, s = sp ++ a :: b :: 58%N :: r /\ blank sp /\ ~ ws a /\ u_is_lower U a = true /\ u_is_lower U b = true.

(** The word ends before a tab, before a blank followed by a morphological field, and before
    a slash that neither begins the line nor follows a backslash. *)
Definition EndsAt (before after : str) : Prop :=
  match after with
  | [] => False
  | c :: r => c = 9%N \/ (c = 32%N /\ Field r) \/ (c = 47%N /\ before <> [] /\ last before 0%N <> 92%N)
  end.
Definition Stem (line raw rest : str) : Prop :=
  line = raw ++ rest /\ (rest = [] \/ EndsAt raw rest) /\
  forall p q, raw = p ++ q -> q <> [] -> ~ EndsAt p (q ++ rest).

(** A backslash before a slash is dropped. *)
Fixpoint unescape (s : str) : str :=
  match s with
  | [] => []
  | c :: r => if (c =? 92)%N && (match r with d :: _ => (d =? 47)%N | [] => false end) then unescape r else c :: unescape r
  end.

(** The flag text after the slash.  When the word is written without slash, backslash or
    blank, blanks before the flags are skipped. *)
Definition FlagField (raw after fl : str) : Prop :=
  if existsb (fun c => (c =? 47)%N || (c =? 92)%N || (c =? 32)%N) raw
  then exists r, after = fl ++ r /\ solid fl /\ (r = [] \/ exists c r', r = c :: r' /\ ws c)
  else (blank after /\ fl = after) \/
       (exists sp r, after = sp ++ fl ++ r /\ blank sp /\ solid fl /\ fl <> [] /\ (r = [] \/ exists c r', r = c :: r' /\ ws c)).

Definition DicLine (t : flag_type) (al : list flagset) (ignore : list N) (line w : str) (fs : flagset) : Prop :=
  (blen line <= 65535)%N /\
  exists raw rest, Stem line raw rest /\ w = filter (fun c => negb (memb c ignore)) (unescape raw) /\
    ((exists after fl, rest = 47%N :: after /\ FlagField raw after fl /\ AliasedFlags pl t al fl fs) \/ (hd 0%N rest <> 47%N /\ fs = [])).

(** The line without the blanks around it. *)
Definition Trimmed (l m : str) : Prop :=
  exists a b, l = a ++ m ++ b /\ blank a /\ blank b /\ (m = [] \/ (~ ws (hd 0%N m) /\ ~ ws (last m 0%N))).

(** Which words also get a title-cased entry. *)
Definition Hides (x : lparser) (w : str) (f : flagset) : Prop :=
  ((classify_casing U w = CCamel \/ classify_casing U w = CPascal) /\ ~ In (o_forbidden (x_options x)) f) \/
  (classify_casing U w = CAll /\ f <> []).

Inductive DicEntries (x : lparser) : list str -> list (str * flagset) -> Prop :=
| DE_nil : DicEntries x [] []
| DE_blank : forall l r es, Trimmed l [] -> DicEntries x r es -> DicEntries x (l :: r) es
| DE_slash : forall l c m r es, Trimmed l (47%N :: c :: m) -> DicEntries x r es -> DicEntries x (l :: r) es
| DE_plain : forall l m w f r es, Trimmed l m -> m <> [] -> (forall c n, m <> 47%N :: c :: n) ->
    DicLine (x_flag_type x) (x_aliases x) (x_ignore x) m w f -> ~ Hides x w f ->
    DicEntries x r es -> DicEntries x (l :: r) ((w, f) :: es)
| DE_hidden : forall l m w f t g r es, Trimmed l m -> m <> [] -> (forall c n, m <> 47%N :: c :: n) ->
    DicLine (x_flag_type x) (x_aliases x) (x_ignore x) m w f -> Hides x w f ->
    titlecase U (o_case (x_options x)) w = Ret t -> (blen t <= 65535)%N -> set_of g (hidden_homonym_flag :: f) ->
    DicEntries x r es -> DicEntries x (l :: r) ((t, g) :: (w, f) :: es).

(** The lines that are not comments, after a byte order mark. *)
Definition plain_lines (text : str) : list str :=
  filter (fun l => negb (is_comment pl l)) (text_lines (match strip_prefix [65279%N] text with Some t => t | None => text end)).

(** The first line begins with a number (which is not used); the others are the entries. *)
Definition DicText (x : lparser) (text : str) (es : list (str * flagset)) : Prop :=
  exists l r w ws n, plain_lines text = l :: r /\ split_whitespace pl l = w :: ws /\ Decimal w n /\ (n <= 18446744073709551615)%N /\
    DicEntries x r es.
End Spec.

Section Exact.
Variable pl : platform.
Hypothesis WP : wf_platform pl.
Notation U := (pl_unicode pl).

(** ** Blanks *)
Lemma trim_start_spec : forall s, exists a, s = a ++ trim_start pl s /\ blank pl a /\
  (trim_start pl s = [] \/ exists c r, trim_start pl s = c :: r /\ ~ ws pl c).
Proof.
  induction s as [|c s (a & E & B & H)]; [exists []; repeat split; [constructor|left; reflexivity]|]. cbn [trim_start].
  destruct (u_is_ws U c) eqn:W.
  - exists (c :: a). split; [cbn; f_equal; exact E|]. split; [constructor; [exact W|exact B]|exact H].
  - exists []. split; [reflexivity|]. split; [constructor|]. right. exists c, s. split; [reflexivity|]. unfold ws. congruence.
Qed.
Lemma trim_start_blank : forall a s, blank pl a -> trim_start pl (a ++ s) = trim_start pl s.
Proof. induction a as [|c a IH]; intros s H; [reflexivity|]. inversion H as [|? ? H1 H2]; subst. cbn [app trim_start]. rewrite H1. apply IH, H2. Qed.
Lemma trim_start_solid : forall c r, ~ ws pl c -> trim_start pl (c :: r) = c :: r.
Proof. intros c r H. cbn [trim_start]. unfold ws in H. destruct (u_is_ws U c); [congruence|reflexivity]. Qed.

Lemma trimmed_spec : forall l m, Trimmed pl l m <-> m = trim pl l.
Proof.
  intros l m. unfold trim. split.
  - intros (a & b & -> & Ba & Bb & H). rewrite trim_start_blank by exact Ba. destruct H as [-> | [H1 H2]].
    + cbn [app]. replace b with (b ++ []) by apply app_nil_r. rewrite trim_start_blank by exact Bb. reflexivity.
    + destruct m as [|c m].
      { cbn [app]. replace b with (b ++ []) by apply app_nil_r. rewrite trim_start_blank by exact Bb. reflexivity. }
      cbn [hd] in H1. change ((c :: m) ++ b) with (c :: m ++ b). rewrite trim_start_solid by exact H1.
      change (c :: m ++ b) with ((c :: m) ++ b). rewrite rev_app_distr, trim_start_blank by (apply Forall_rev, Bb).
      destruct (rev (c :: m)) as [|d r] eqn:R.
      { apply (f_equal (@length _)) in R. rewrite rev_length in R. discriminate R. }
      apply (f_equal (@rev _)) in R. rewrite rev_involutive in R. rewrite R in *. cbn [rev] in *. rewrite last_last in H2.
      rewrite trim_start_solid by exact H2. reflexivity.
  - intros ->. destruct (trim_start_spec l) as (a & E & Ba & Ha). destruct (trim_start_spec (rev (trim_start pl l))) as (b & E2 & Bb & Hb).
    exists a, (rev b). split.
    { rewrite E at 1. f_equal. apply (f_equal (@rev _)) in E2. rewrite rev_involutive, rev_app_distr in E2. exact E2. }
    split; [exact Ba|]. split; [apply Forall_rev, Bb|]. destruct Hb as [Hb|(c & r & Hb & Hc)]; [left; rewrite Hb; reflexivity|].
    right. rewrite Hb. cbn [rev]. rewrite last_last. split; [|exact Hc].
    destruct Ha as [Ha|(c2 & r2 & Ha & Hc2)].
    { rewrite Ha in E2, Hb. cbn [rev trim_start] in Hb. discriminate Hb. }
    rewrite Hb, Ha in E2. apply (f_equal (@rev _)) in E2. rewrite rev_involutive, rev_app_distr in E2. cbn [rev] in E2.
    destruct (rev r ++ [c]) as [|d q] eqn:R; [destruct (rev r); discriminate R|]. cbn [app] in E2. injection E2 as -> _. exact Hc2.
Qed.

Lemma is_morph_spec : forall s, is_morph pl s = true <-> Field pl s.
Proof.
  intro s. unfold is_morph, Field. destruct (trim_start_spec s) as (sp & E & B & H). split.
  - intro M. destruct (trim_start pl s) as [|a [|b [|c r]]] eqn:T; try discriminate M. apply andb_true_iff in M. destruct M as [M1 M3].
    apply andb_true_iff in M1. destruct M1 as [M1 M2]. apply N.eqb_eq in M3. subst c. exists sp, a, b, r. split; [exact E|]. split; [exact B|].
    destruct H as [H|(c & q & H & Hc)]; [discriminate H|]. injection H as <- _. auto.
  - intros (sp' & a & b & r & -> & B' & Na & La & Lb). rewrite trim_start_blank, trim_start_solid by assumption. rewrite La, Lb. reflexivity.
Qed.

(** ** Unescaping *)
Lemma unescape_snoc : forall s c, ~ (last s 0%N = 92%N /\ c = 47%N /\ s <> []) -> unescape (s ++ [c]) = unescape s ++ [c].
Proof.
  induction s as [|d s IH]; intros c H; [cbn; rewrite andb_false_r; reflexivity|].
  destruct s as [|e s].
  - cbn [app unescape]. destruct (N.eqb_spec d 92) as [-> | Nd]; cbn [andb].
    + destruct (N.eqb_spec c 47) as [-> | Nc]; [exfalso; apply H; cbn; repeat split; discriminate|]. rewrite andb_false_r. reflexivity.
    + rewrite andb_false_r. reflexivity.
  - assert (IH' : unescape ((e :: s) ++ [c]) = unescape (e :: s) ++ [c]).
    { apply IH. intros (H1 & H2 & _). apply H. split; [exact H1|]. split; [exact H2|discriminate]. }
    cbn [app] in *. change (unescape (d :: e :: s ++ [c])) with (if (d =? 92)%N && (e =? 47)%N then unescape (e :: s ++ [c]) else d :: unescape (e :: s ++ [c])).
    change (unescape (d :: e :: s)) with (if (d =? 92)%N && (e =? 47)%N then unescape (e :: s) else d :: unescape (e :: s)).
    rewrite IH'. destruct ((d =? 92)%N && (e =? 47)%N); reflexivity.
Qed.
Lemma unescape_slash : forall s, unescape (s ++ [92; 47]%N) = unescape s ++ [47%N].
Proof.
  induction s as [|d s IH]; [reflexivity|]. destruct s as [|e s].
  - cbn [app unescape]. rewrite !andb_false_r. destruct ((d =? 92)%N && false); reflexivity.
  - cbn [app] in *. change (unescape (d :: e :: s ++ [92; 47]%N)) with (if (d =? 92)%N && (e =? 47)%N then unescape (e :: s ++ [92; 47]%N) else d :: unescape (e :: s ++ [92; 47]%N)).
    change (unescape (d :: e :: s)) with (if (d =? 92)%N && (e =? 47)%N then unescape (e :: s) else d :: unescape (e :: s)).
    rewrite IH. destruct ((d =? 92)%N && (e =? 47)%N); reflexivity.
Qed.
Lemma unescape_plain : forall s, ~ In 92%N s -> unescape s = s.
Proof.
  induction s as [|c s IH]; intro H; [reflexivity|]. cbn [unescape]. destruct (N.eqb_spec c 92) as [-> | _]; [exfalso; apply H; left; reflexivity|].
  cbn [andb]. f_equal. apply IH. intro I. apply H. right. exact I.
Qed.
Lemma unescape_blen : forall s, (blen (unescape s) <= blen s)%N.
Proof.
  induction s as [|c s IH]; [reflexivity|]. cbn [unescape]. destruct (_ && _); cbn [blen]; lia.
Qed.

(** ** Cutting *)
Lemma stem_fun : forall line raw rest raw' rest', Stem pl line raw rest -> Stem pl line raw' rest' -> raw = raw' /\ rest = rest'.
Proof.
  assert (K : forall line raw rest raw' rest', Stem pl line raw rest -> Stem pl line raw' rest' -> length raw <= length raw' -> raw = raw').
  { intros line raw rest raw' rest' (E & H & _) (E' & _ & M') L. rewrite E in E'.
    assert (exists q, raw' = raw ++ q) as (q & ->).
    { exists (skipn (length raw) raw'). rewrite <- (firstn_skipn (length raw) raw') at 1. f_equal.
      apply (f_equal (firstn (length raw))) in E'. rewrite firstn_app, Nat.sub_diag, firstn_all, firstn_O, app_nil_r in E'.
      rewrite firstn_app in E'. replace (length raw - length raw') with 0 in E' by lia. rewrite firstn_O, app_nil_r in E'. symmetry. exact E'. }
    destruct q as [|c q]; [rewrite app_nil_r; reflexivity|]. exfalso. rewrite <- app_assoc in E'. apply app_inv_head in E'.
    destruct H as [-> | H]; [discriminate E'|]. apply (M' raw (c :: q) eq_refl); [discriminate|]. rewrite <- E'. exact H. }
  intros line raw rest raw' rest' S1 S2. assert (raw = raw') as ->.
  { destruct (Nat.le_ge_cases (length raw) (length raw')); [eapply K; eassumption|symmetry; eapply K; eassumption]. }
  split; [reflexivity|]. destruct S1 as (E1 & _), S2 as (E2 & _). rewrite E1 in E2. apply app_inv_head in E2. exact E2.
Qed.

Definition nilb (s : str) : bool := match s with [] => true | _ => false end.
Definition ends_of (rest raw : str) : dic_end :=
  match rest with
  | [] => DicFlags (unescape raw) []
  | c :: after => if (c =? 47)%N then DicFlags (unescape raw) after else DicWord (unescape raw)
  end.

Lemma not_ends_snoc : forall pre c input, (forall p q, pre = p ++ q -> q <> [] -> ~ EndsAt pl p (q ++ c :: input)) ->
  ~ EndsAt pl pre (c :: input) -> forall p q, pre ++ [c] = p ++ q -> q <> [] -> ~ EndsAt pl p (q ++ input).
Proof.
  intros pre c input H H0 p q E NE. destruct (exists_last NE) as (q' & d & ->). rewrite app_assoc in E. apply app_inj_tail in E. destruct E as [E <-].
  rewrite <- app_assoc. cbn [app]. destruct q' as [|e q'].
  - rewrite app_nil_r in E. subst p. exact H0.
  - apply H; [exact E|discriminate].
Qed.

Lemma dic_go_spec : forall input pre first,
  (first = nilb pre \/ hd 0%N input <> 47%N) ->
  (forall p q, pre = p ++ q -> q <> [] -> ~ EndsAt pl p (q ++ input)) ->
  exists raw rest, Stem pl (pre ++ input) raw rest /\
    dic_go pl input first (negb (nilb pre) && (last pre 0%N =? 92)%N) (rev (unescape pre)) = Ret (ends_of rest raw).
Proof.
  induction input as [|c input IH]; intros pre first Hf Hn.
  - exists pre, []. split; [|cbn [dic_go]; rewrite rev_involutive; reflexivity].
    split; [reflexivity|]. split; [left; reflexivity|exact Hn].
  - cbn [dic_go].
    assert (NEXT : ~ EndsAt pl pre (c :: input) -> exists raw rest, Stem pl (pre ++ c :: input) raw rest /\
              dic_go pl input false (negb (nilb (pre ++ [c])) && (last (pre ++ [c]) 0%N =? 92)%N) (rev (unescape (pre ++ [c]))) = Ret (ends_of rest raw)).
    { intro NE. destruct (IH (pre ++ [c]) false) as (raw & rest & S1 & E).
      - left. destruct pre; reflexivity.
      - apply not_ends_snoc; assumption.
      - exists raw, rest. rewrite <- app_assoc in S1. split; [exact S1|exact E]. }
    assert (NB : nilb (pre ++ [c]) = false) by (destruct pre; reflexivity). rewrite NB, last_last in NEXT. cbn [negb andb] in NEXT.
    assert (STOP : EndsAt pl pre (c :: input) -> Stem pl (pre ++ c :: input) pre (c :: input)).
    { intro E. split; [reflexivity|]. split; [right; exact E|exact Hn]. }
    destruct (N.eqb_spec c 47) as [-> | N47].
    + change ((47 =? ch_slash)%N) with true. cbn [andb].
      destruct (negb (nilb pre) && (last pre 0%N =? 92)%N) eqn:ESC; cbn [andb].
      * apply andb_true_iff in ESC. destruct ESC as [E1 E2]. apply N.eqb_eq in E2.
        assert (NP : pre <> []) by (destruct pre; discriminate). destruct (exists_last NP) as (pre' & d & ->). rewrite last_last in E2. subst d.
        rewrite unescape_snoc by (intros (_ & X & _); discriminate X). rewrite rev_app_distr. cbn [rev app].
        change ((92 =? ch_bslash)%N) with true. cbn [andb].
        destruct NEXT as (raw & rest & S1 & E).
        { intros [X|[[X _]|(_ & _ & X)]]; [discriminate X|discriminate X|]. rewrite last_last in X. congruence. }
        exists raw, rest. split; [exact S1|]. rewrite <- E. rewrite <- app_assoc. cbn [app]. rewrite unescape_slash, rev_app_distr. reflexivity.
      * destruct Hf as [-> | Hf]; [|cbn [hd] in Hf; congruence]. destruct (nilb pre) eqn:NP; cbn [negb].
        -- destruct pre; [|discriminate NP]. change ((47 =? ch_tab)%N) with false. change ((47 =? ch_space)%N) with false. cbn [andb].
           destruct NEXT as (raw & rest & S1 & E); [intros [X|[[X _]|(_ & X & _)]]; congruence|].
           exists raw, rest. split; [exact S1|exact E].
        -- cbn [negb andb] in ESC. apply N.eqb_neq in ESC.
           exists pre, (47%N :: input). split; [apply STOP; right; right; split; [reflexivity|]; split; [destruct pre; [discriminate NP|discriminate]|exact ESC]|].
           rewrite rev_involutive. reflexivity.
    + change (ch_slash) with 47%N. destruct (N.eqb_spec c 47) as [X|_]; [contradiction|]. cbn [andb].
      change ch_tab with 9%N. destruct (N.eqb_spec c 9) as [-> | N9].
      { exists pre, (9%N :: input). split; [apply STOP; left; reflexivity|]. rewrite rev_involutive. reflexivity. }
      change ch_space with 32%N. destruct ((c =? 32)%N && is_morph pl input) eqn:M.
      { apply andb_true_iff in M. destruct M as [M1 M2]. apply N.eqb_eq in M1. subst c. apply is_morph_spec in M2.
        exists pre, (32%N :: input). split; [apply STOP; right; left; auto|]. rewrite rev_involutive. reflexivity. }
      destruct NEXT as (raw & rest & S1 & E).
      { intros [X|[[X Y]|(X & _)]]; [congruence| |congruence]. apply is_morph_spec in Y. subst c. rewrite Y in M. discriminate M. }
      exists raw, rest. split; [exact S1|]. rewrite <- E, unescape_snoc by (intros (_ & X & _); congruence). rewrite rev_app_distr. reflexivity.
Qed.

(** ** The flag text *)
Definition special (c : N) : bool := (c =? 47)%N || (c =? 92)%N || (c =? 32)%N.
Definition field_of (raw after : str) : str :=
  if existsb special raw then take_nonws pl after
  else match split_whitespace pl after with f :: _ => f | [] => after end.

Lemma take_nonws_spec : forall after fl, fl = take_nonws pl after <->
  exists r, after = fl ++ r /\ solid pl fl /\ (r = [] \/ exists c r', r = c :: r' /\ ws pl c).
Proof.
  intros after fl. split.
  - intros ->. induction after as [|c a (r & E & S1 & H)]; [exists []; repeat split; [constructor|auto]|]. cbn [take_nonws].
    destruct (u_is_ws U c) eqn:W.
    + exists (c :: a). split; [reflexivity|]. split; [constructor|]. right. eauto.
    + exists r. split; [cbn; f_equal; exact E|]. split; [constructor; [exact W|exact S1]|exact H].
  - intros (r & -> & S1 & H). induction S1 as [|c fl W S1 IH].
    + destruct H as [-> | (c & r' & -> & W)]; [reflexivity|]. cbn [app take_nonws]. unfold ws in W. rewrite W. reflexivity.
    + cbn [app take_nonws]. rewrite W. f_equal. exact IH.
Qed.
Lemma ws_go_blank : forall sp r, blank pl sp -> ws_go pl (sp ++ r) [] = ws_go pl r [].
Proof. induction sp as [|c sp IH]; intros r H; [reflexivity|]. inversion H as [|? ? W B]; subst. cbn [app ws_go]. rewrite W. apply IH, B. Qed.
Lemma ws_go_solid : forall fl r cur, solid pl fl -> ws_go pl (fl ++ r) cur = ws_go pl r (rev fl ++ cur).
Proof.
  induction fl as [|c fl IH]; intros r cur H; [reflexivity|]. inversion H as [|? ? W B]; subst. cbn [app ws_go]. rewrite W, IH by exact B.
  cbn [rev]. rewrite <- app_assoc. reflexivity.
Qed.
Lemma blank_dec : forall s, blank pl s \/ exists sp c r, s = sp ++ c :: r /\ blank pl sp /\ u_is_ws U c = false.
Proof.
  induction s as [|c s [B|(sp & d & r & -> & B & W)]]; [left; constructor| |].
  - destruct (u_is_ws U c) eqn:W; [left; constructor; assumption|]. right. exists [], c, s. repeat split; [constructor|exact W].
  - destruct (u_is_ws U c) eqn:W'; [right; exists (c :: sp), d, r; repeat split; [constructor; assumption|exact W]|].
    right. exists [], c, (sp ++ d :: r). repeat split; [constructor|exact W'].
Qed.
Lemma first_word : forall sp fl r, blank pl sp -> solid pl fl -> fl <> [] -> (r = [] \/ exists c r', r = c :: r' /\ ws pl c) ->
  exists q, split_whitespace pl (sp ++ fl ++ r) = fl :: q.
Proof.
  intros sp fl r B S1 NE H. unfold split_whitespace. rewrite ws_go_blank, ws_go_solid by assumption. rewrite app_nil_r.
  assert (R : rev fl <> []). { intro Q. apply (f_equal (@rev _)) in Q. rewrite rev_involutive in Q. contradiction. }
  assert (RR : rev (rev fl) = fl) by apply rev_involutive.
  destruct H as [-> | (c & r' & -> & W)]; cbn [ws_go].
  - destruct (rev fl); [contradiction|]. rewrite RR. eauto.
  - unfold ws in W. rewrite W. destruct (rev fl); [contradiction|]. rewrite RR. eauto.
Qed.
Lemma flag_field : forall raw after fl, FlagField pl raw after fl <-> fl = field_of raw after.
Proof.
  intros raw after fl. unfold FlagField, field_of. fold special. destruct (existsb special raw).
  - symmetry. apply take_nonws_spec.
  - destruct (blank_dec after) as [B|(sp & c & r & -> & B & W)].
    + assert (E : split_whitespace pl after = []).
      { unfold split_whitespace. replace after with (after ++ []) by apply app_nil_r. rewrite ws_go_blank by exact B. reflexivity. }
      rewrite E. split.
      * intros [[_ X]|(sp & r & X & _ & S1 & NE & _)]; [exact X|]. exfalso. subst after. apply Forall_app in B. destruct B as [_ B].
        apply Forall_app in B. destruct B as [B _]. destruct fl; [contradiction|]. inversion B; inversion S1; unfold ws in *; congruence.
      * intros ->. left. auto.
    + assert (T := proj1 (take_nonws_spec (c :: r) _) eq_refl). destruct T as (q & E & S1 & H).
      assert (NE : take_nonws pl (c :: r) <> []) by (cbn [take_nonws]; rewrite W; discriminate).
      rewrite E. destruct (first_word B S1 NE H) as (q2 & E2). rewrite E2. split.
      * intros [[X _]|(sp' & r' & X & B' & S' & NE' & H')].
        -- exfalso. rewrite <- E in X. apply Forall_app in X. destruct X as [_ X]. inversion X; unfold ws in *; congruence.
        -- destruct (first_word B' S' NE' H') as (q3 & E3). rewrite <- X, E2 in E3. injection E3 as E3 _. symmetry. exact E3.
      * intros ->. right. exists sp, q. auto.
Qed.

(** ** Lines *)
Lemma no_flags : forall t al fs, AliasedFlags pl t al [] fs <-> fs = [].
Proof.
  intros t al fs. assert (NA : forall fs', ~ Alias t al [] fs').
  { intros fs' (_ & i & D & L & _). assert (E : parse_u16 [] = Ok (N.of_nat (S i))) by (apply u16_spec; auto). discriminate E. }
  unfold AliasedFlags, FlagList. split.
  - intros [A|[_ [[_ E]|[N _]]]]; [exfalso; eapply NA, A|exact E|congruence].
  - intros ->. right. split; [exact NA|]. left. auto.
Qed.

Lemma plain_stem : forall u, forallb (fun c => negb (is_dic_special c)) u = true ->
  ~ In 92%N u /\ existsb special u = false /\ forall p q rest, u = p ++ q -> q <> [] -> ~ EndsAt pl p (q ++ rest).
Proof.
  intros u H. rewrite forallb_forall in H.
  assert (K : forall c, In c u -> c <> 47%N /\ c <> 92%N /\ c <> 32%N /\ c <> 9%N).
  { intros c I. apply H in I. unfold is_dic_special, ch_slash, ch_bslash, ch_space, ch_tab in I.
    destruct (N.eqb_spec c 47); [discriminate I|]. destruct (N.eqb_spec c 92); [discriminate I|].
    destruct (N.eqb_spec c 32); [discriminate I|]. destruct (N.eqb_spec c 9); [discriminate I|]. auto. }
  split; [intro I; apply K in I; tauto|]. split.
  - destruct (existsb special u) eqn:E; [|reflexivity]. apply existsb_exists in E. destruct E as (c & I & E). apply K in I. destruct I as (A & B & C & _).
    unfold special in E. destruct (N.eqb_spec c 47); [contradiction|]. destruct (N.eqb_spec c 92); [contradiction|]. destruct (N.eqb_spec c 32); [contradiction|discriminate E].
  - intros p q rest E NE. destruct q as [|c q]; [congruence|]. cbn [app EndsAt].
    destruct (K c) as (A & B & C & D); [subst u; apply in_app_iff; right; left; reflexivity|]. intros [X|[[X _]|(X & _)]]; contradiction.
Qed.

Lemma dic_line_run : forall line t al ig, (blen line <= 65535)%N ->
  exists raw rest, Stem pl line raw rest /\
    parse_dic_line pl line t al ig =
    match rest with
    | c :: after => if (c =? 47)%N then bindP (decode_flagset pl (field_of raw after) t al) (fun fs => okP (drop_chars ig (unescape raw), fs))
                    else okP (drop_chars ig (unescape raw), [])
    | [] => okP (drop_chars ig (unescape raw), [])
    end.
Proof.
  intros line t al ig HL. unfold parse_dic_line. replace (65535 <? blen line)%N with false by lia.
  destruct (find_char is_dic_special line) as [idx|] eqn:FC.
  - apply find_char_some in FC. destruct FC as (u & c & v & -> & <- & SC & PU). destruct (plain_stem _ PU) as (N92 & NS & NEND).
    rewrite app_nth2, Nat.sub_diag by lia. cbn [nth].
    replace (skipn (length u + 1) (u ++ c :: v)) with v.
    2:{ replace (u ++ c :: v) with ((u ++ [c]) ++ v) by (rewrite <- app_assoc; reflexivity). rewrite skipn_app_exact; [reflexivity|]. rewrite app_length. reflexivity. }
    rewrite firstn_app_exact, skipn_app_exact by reflexivity.
    assert (BU : (blen u <= 65535)%N) by (rewrite blen_app in HL; lia).
    assert (UU : unescape u = u) by (apply unescape_plain, N92).
    assert (SU : forall e, EndsAt pl u (c :: e) -> e = v -> Stem pl (u ++ c :: v) u (c :: v)).
    { intros e E ->. split; [reflexivity|]. split; [right; exact E|]. intros p q. apply NEND. }
    destruct ((c =? ch_slash)%N && negb (length u =? 0)) eqn:B1.
    { apply andb_true_iff in B1. destruct B1 as [B1 B2]. apply N.eqb_eq in B1. subst c. apply negb_true_iff, Nat.eqb_neq in B2.
      assert (NU : u <> []) by (intros ->; apply B2; reflexivity).
      exists u, (47%N :: v). split.
      { apply (SU v); [|reflexivity]. right. right. split; [reflexivity|]. split; [exact NU|]. intro X. apply N92.
        destruct (exists_last NU) as (u' & d & ->). rewrite last_last in X. subst d. apply in_app_iff. right. left. reflexivity. }
      change ((47 =? 47)%N) with true. rewrite ignore_chars_drop by exact BU. cbn [bindR]. unfold field_of. rewrite NS, UU. reflexivity. }
    change ch_tab with 9%N. destruct (N.eqb_spec c 9) as [-> | N9].
    { exists u, (9%N :: v). split; [apply (SU v); [left; reflexivity|reflexivity]|]. rewrite ignore_chars_drop by exact BU. cbn [bindR]. rewrite UU. reflexivity. }
    assert (C47 : c = 47%N -> u = []).
    { intros ->. cbn in B1. apply negb_false_iff, Nat.eqb_eq in B1. destruct u; [reflexivity|discriminate B1]. }
    destruct (@dic_go_spec (c :: v) u true) as (raw & rest & S1 & E).
    { destruct (N.eq_dec c 47) as [X|X]; [left; rewrite (C47 X); reflexivity|right; exact X]. }
    { intros p q. apply NEND. }
    assert (ESC : negb (nilb u) && (last u 0%N =? 92)%N = false).
    { destruct (N.eqb_spec (last u 0%N) 92) as [X|X]; [|apply andb_false_r]. destruct u as [|a u]; [reflexivity|]. exfalso. apply N92.
      destruct (exists_last (l := a :: u)) as (u' & d & Q); [discriminate|]. rewrite Q in X. rewrite last_last in X. subst d. rewrite Q. apply in_app_iff. right. left. reflexivity. }
    rewrite ESC, UU in E. rewrite E. cbn [bindR]. exists raw, rest. split; [exact S1|].
    assert (BR : (blen (unescape raw) <= 65535)%N).
    { pose proof (unescape_blen raw). destruct S1 as (Q & _). rewrite Q, blen_app in HL. lia. }
    destruct rest as [|e after]; cbn [ends_of].
    + change (take_nonws pl []) with (@nil N). rewrite (proj2 (@aliased_flags pl t al [] [] (Forall_nil _)) (proj2 (no_flags t al []) eq_refl)).
      cbn [bindP]. rewrite ignore_chars_drop by exact BR. reflexivity.
    + destruct (N.eqb_spec e 47) as [-> | NE].
      * assert (EX : existsb special raw = true).
        { destruct S1 as (Q & [X|X] & _); [discriminate X|].
          assert (LU : length u < length raw).
          { destruct (Nat.le_gt_cases (length raw) (length u)) as [L|L]; [|exact L]. exfalso.
            assert (exists q, u = raw ++ q) as (q & Eu).
            { exists (skipn (length raw) u). rewrite <- (firstn_skipn (length raw) u) at 1. f_equal.
              apply (f_equal (firstn (length raw))) in Q. rewrite firstn_app in Q. replace (length raw - length u) with 0 in Q by lia. rewrite firstn_O, app_nil_r in Q.
              rewrite firstn_app, Nat.sub_diag, firstn_all, firstn_O, app_nil_r in Q. exact Q. }
            rewrite Eu in Q. rewrite <- app_assoc in Q. apply app_inv_head in Q. destruct q as [|d q].
            - cbn [app] in Q. injection Q as -> ->. rewrite app_nil_r in Eu. subst u. rewrite (C47 eq_refl) in X. destruct X as [X|[[X _]|(_ & X & _)]]; congruence.
            - cbn [app] in Q. injection Q as -> _. apply (NEND raw (47%N :: q) (c :: v) Eu); [discriminate|].
              destruct X as [X|[[X _]|X]]; [discriminate X|discriminate X|]. right. right. exact X. }
          assert (I : In c raw).
          { assert (Q2 : nth (length u) raw 0%N = c).
            { rewrite <- (app_nth1 raw (47%N :: after)) by exact LU. rewrite <- Q, app_nth2, Nat.sub_diag by lia. reflexivity. }
            rewrite <- Q2. apply nth_In, LU. }
          apply existsb_exists. exists c. split; [exact I|]. unfold is_dic_special, ch_slash, ch_bslash, ch_space, ch_tab in SC. unfold special.
          destruct (N.eqb_spec c 9); [contradiction|]. rewrite orb_false_r in SC. exact SC. }
        unfold field_of. rewrite EX. destruct (decode_flagset pl (take_nonws pl after) t al) as [[fs|]| |]; cbn [bindP]; try reflexivity.
        rewrite ignore_chars_drop by exact BR. reflexivity.
      * rewrite ignore_chars_drop by exact BR. reflexivity.
  - apply find_char_none in FC. destruct (plain_stem _ FC) as (N92 & _ & NEND). exists line, []. split.
    + split; [symmetry; apply app_nil_r|]. split; [left; reflexivity|]. intros p q. apply NEND.
    + rewrite ignore_chars_drop by exact HL. cbn [bindR]. rewrite unescape_plain by exact N92. reflexivity.
Qed.

Lemma solid_scalars : forall raw after, scalars after -> scalars (field_of raw after).
Proof.
  intros raw after H. unfold field_of. destruct (existsb special raw).
  - destruct (proj1 (take_nonws_spec after _) eq_refl) as (r & E & _). rewrite E in H. apply Forall_app in H. apply H.
  - pose proof (split_ws_ok pl H) as W. destruct (split_whitespace pl after); [exact H|]. inversion W as [|? ? W1 _]; subst. apply W1.
Qed.

Theorem dic_line_exact : forall t al ig line w fs, scalars line ->
  (parse_dic_line pl line t al ig = Ret (Ok (w, fs)) <-> DicLine pl t al ig line w fs).
Proof.
  intros t al ig line w fs Hs. unfold DicLine. destruct (N.leb_spec (blen line) 65535) as [HL|HL].
  - destruct (@dic_line_run line t al ig HL) as (raw & rest & S1 & E). rewrite E.
    assert (SA : forall c after, rest = c :: after -> scalars after).
    { intros c after ->. destruct S1 as (Q & _). rewrite Q in Hs. apply Forall_app in Hs. destruct Hs as [_ Hs]. inversion Hs; assumption. }
    split.
    + intro H. split; [exact HL|]. exists raw, rest. split; [exact S1|]. destruct rest as [|c after].
      { injection H as <- <-. split; [reflexivity|]. right. split; [discriminate|reflexivity]. }
      destruct (N.eqb_spec c 47) as [-> | N47].
      * destruct (decode_flagset pl (field_of raw after) t al) as [[f|]| |] eqn:D; cbn [bindP] in H; try discriminate H. injection H as <- <-.
        split; [reflexivity|]. left. exists after, (field_of raw after). split; [reflexivity|]. split; [apply flag_field; reflexivity|].
        apply aliased_flags; [|exact D]. apply solid_scalars, (SA _ _ eq_refl).
      * injection H as <- <-. split; [reflexivity|]. right. split; [exact N47|reflexivity].
    + intros (_ & raw' & rest' & S2 & -> & H). destruct (stem_fun S1 S2) as [<- <-]. destruct rest as [|c after].
      { destruct H as [(a & fl & X & _)|(_ & ->)]; [discriminate X|reflexivity]. }
      destruct H as [(a & fl & X & F & A)|(X & ->)].
      * injection X as -> ->. change ((47 =? 47)%N) with true. cbv iota. apply flag_field in F. subst fl.
        apply aliased_flags in A; [|apply solid_scalars, (SA _ _ eq_refl)]. rewrite A. reflexivity.
      * cbn [hd] in X. destruct (N.eqb_spec c 47); [contradiction|reflexivity].
  - split; [|intros (X & _); lia]. intro H. unfold parse_dic_line in H. replace (65535 <? blen line)%N with true in H by lia. discriminate H.
Qed.

(** ** The word list *)
Lemma sorted_same : forall a b : list N, wf_flagset a -> wf_flagset b -> (forall g, In g a <-> In g b) -> a = b.
Proof.
  unfold wf_flagset. induction a as [|x a IH]; intros b Ha Hb H.
  - destruct b as [|y b]; [reflexivity|]. destruct (proj2 (H y) (or_introl eq_refl)).
  - destruct b as [|y b]; [destruct (proj1 (H x) (or_introl eq_refl))|].
    inversion Ha as [|? ? Sa La]; inversion Hb as [|? ? Sb Lb]; subst. rewrite Forall_forall in La, Lb.
    assert (x = y) as ->.
    { destruct (proj1 (H x) (or_introl eq_refl)) as [E|I1]; [auto|]. destruct (proj2 (H y) (or_introl eq_refl)) as [E|I2]; [auto|].
      apply La in I2. apply Lb in I1. lia. }
    f_equal. apply IH; [assumption|assumption|]. intro g. split; intro I.
    + destruct (proj1 (H g) (or_intror I)) as [<-|J]; [|exact J]. apply La in I. lia.
    + destruct (proj2 (H g) (or_intror I)) as [<-|J]; [|exact J]. apply Lb in I. lia.
Qed.

Definition insert_all (t : table flagset) (es : list (str * flagset)) : table flagset :=
  fold_left (fun t e => bag_insert (pl_place pl) t (fst e) (snd e)) es t.
Lemma insert_all_perm : forall es t, Permutation (es ++ t) (insert_all t es).
Proof.
  induction es as [|[k v] es IH]; intro t; [reflexivity|]. change (insert_all t ((k, v) :: es)) with (insert_all (bag_insert (pl_place pl) t k v) es). rewrite <- IH. cbn [app].
  rewrite Permutation_middle. apply Permutation_app_head. apply (wp_place WP).
Qed.

Lemma hides_spec : forall x w f, wf_flagset f -> (needs_hidden_homonym pl (o_forbidden (x_options x)) w f = true <-> Hides pl x w f).
Proof.
  intros x w f Wf. unfold needs_hidden_homonym, Hides. pose proof (contains_spec f (o_forbidden (x_options x)) Wf) as C.
  destruct (classify_casing U w) eqn:E.
  - split; [discriminate|]. intros [[[X|X] _]|[X _]]; discriminate.
  - split; [discriminate|]. intros [[[X|X] _]|[X _]]; discriminate.
  - split; [intro H; right; split; [reflexivity|destruct f; discriminate]|]. intros [[[X|X] _]|[_ X]]; try discriminate. destruct f; [contradiction|reflexivity].
  - rewrite negb_true_iff, <- not_true_iff_false, C. split; [intro H; left; auto|]. intros [[_ X]|[X _]]; [exact X|discriminate].
  - rewrite negb_true_iff, <- not_true_iff_false, C. split; [intro H; left; auto|]. intros [[_ X]|[X _]]; [exact X|discriminate].
Qed.

(** What one entry adds. *)
Definition Adds (x : lparser) (w : str) (f : flagset) (es : list (str * flagset)) : Prop :=
  (~ Hides pl x w f /\ es = [(w, f)]) \/
  (Hides pl x w f /\ exists t g, titlecase U (o_case (x_options x)) w = Ret t /\ (blen t <= 65535)%N /\ set_of g (hidden_homonym_flag :: f) /\ es = [(t, g); (w, f)]).
Lemma insert_entry_spec : forall x t w f t', wf_flags f ->
  (insert_entry pl x t w f = Ret t' <-> exists es, Adds x w f es /\ t' = insert_all t es).
Proof.
  intros x t w f t' [F1 F2]. unfold insert_entry. pose proof (hides_spec x w F1) as H.
  assert (Hh : valid_flag hidden_homonym_flag) by (unfold valid_flag, hidden_homonym_flag; lia).
  destruct (@with_flag_spec f hidden_homonym_flag F2 Hh) as (g & E & W1 & W2).
  assert (SG : set_of g (hidden_homonym_flag :: f)). { split; [exact W1|]. intro q. rewrite W2. cbn [In]. intuition congruence. }
  destruct (needs_hidden_homonym pl (o_forbidden (x_options x)) w f).
  - split.
    + intro Q. destruct (titlecase U (o_case (x_options x)) w) as [ti| |] eqn:T; try discriminate Q. cbn [bindR] in Q. unfold stem_from in Q.
      destruct (N.leb_spec (blen ti) 65535) as [L|L]; [|discriminate Q]. cbn [bindR] in Q. rewrite E in Q. cbn [bindR] in Q. injection Q as <-.
      exists [(ti, g); (w, f)]. split; [|reflexivity]. right. split; [apply H; reflexivity|]. exists ti, g. auto.
    + intros (es & [[NH _]|(_ & ti & g' & T & L & [G1 G2] & ->)] & ->); [exfalso; apply NH, H; reflexivity|]. rewrite T. cbn [bindR]. unfold stem_from.
      replace (blen ti <=? 65535)%N with true by lia. cbn [bindR]. rewrite E. cbn [bindR].
      replace g' with g; [reflexivity|]. apply sorted_same; [exact W1|exact G1|]. intro q. rewrite G2. apply SG.
  - split.
    + intro Q. injection Q as <-. exists [(w, f)]. split; [|reflexivity]. left. split; [|reflexivity]. intro X. apply H in X. discriminate X.
    + intros (es & [[_ ->]|(X & _)] & ->); [reflexivity|]. apply H in X. discriminate X.
Qed.

Lemma de_cons : forall x l r es, DicEntries pl x (l :: r) es <-> exists e1 e2, es = e1 ++ e2 /\ DicEntries pl x [l] e1 /\ DicEntries pl x r e2.
Proof.
  intros x l r es. split.
  - intro H. inversion H as [|? ? ? T D|? ? ? ? ? T D|? ? w f ? ? T N1 N2 L NH D|? ? w f t g ? ? T N1 N2 L NH TC B G D]; subst.
    + exists [], es. split; [reflexivity|]. split; [apply DE_blank; [exact T|constructor]|exact D].
    + exists [], es. split; [reflexivity|]. split; [eapply DE_slash; [exact T|constructor]|exact D].
    + exists [(w, f)], es0. split; [reflexivity|]. split; [eapply DE_plain; eauto; constructor|exact D].
    + exists [(t, g); (w, f)], es0. split; [reflexivity|]. split; [eapply DE_hidden; eauto; constructor|exact D].
  - intros (e1 & e2 & -> & H & D). inversion H as [|? ? ? T Z|? ? ? ? ? T Z|? ? w f ? ? T N1 N2 L NH Z|? ? w f t g ? ? T N1 N2 L NH TC B G Z]; subst; inversion Z; subst; cbn [app].
    + apply DE_blank; assumption.
    + eapply DE_slash; eassumption.
    + eapply DE_plain; eassumption.
    + eapply DE_hidden; eassumption.
Qed.

Lemma de_adds : forall x l es, DicEntries pl x [l] es <->
  (trim pl l = [] /\ es = []) \/ ((exists c m, trim pl l = 47%N :: c :: m) /\ es = []) \/
  (trim pl l <> [] /\ (forall c m, trim pl l <> 47%N :: c :: m) /\
   exists w f, DicLine pl (x_flag_type x) (x_aliases x) (x_ignore x) (trim pl l) w f /\ Adds x w f es).
Proof.
  intros x l es. split.
  - intro H. inversion H as [|? ? ? T Z|? ? ? ? ? T Z|? ? w f ? ? T N1 N2 L NH Z|? ? w f t g ? ? T N1 N2 L NH TC B G Z]; subst; inversion Z; subst; apply trimmed_spec in T.
    + left. auto.
    + right. left. split; [|reflexivity]. eexists _, _. symmetry. exact T.
    + right. right. subst m. split; [exact N1|]. split; [exact N2|]. exists w, f. split; [exact L|]. left. auto.
    + right. right. subst m. split; [exact N1|]. split; [exact N2|]. exists w, f. split; [exact L|]. right. split; [exact NH|]. exists t, g. auto.
  - intros [[E ->]|[[(c & m & E) ->]|(N1 & N2 & w & f & L & [[NH ->]|(NH & t & g & TC & B & G & ->)])]].
    + apply DE_blank; [apply trimmed_spec; auto|constructor].
    + eapply DE_slash; [apply trimmed_spec; symmetry; exact E|constructor].
    + eapply DE_plain; [apply trimmed_spec; reflexivity|exact N1|exact N2|exact L|exact NH|constructor].
    + eapply DE_hidden; [apply trimmed_spec; reflexivity|exact N1|exact N2|exact L|exact NH|exact TC|exact B|exact G|constructor].
Qed.

Lemma dic_line_spec : forall x ls l t t', lp_ok x -> scalars l -> cur_line ls = Some l ->
  (dic_line pl x ls t = Ret (Ok t') <-> exists es, DicEntries pl x [l] es /\ t' = insert_all t es).
Proof.
  intros x ls l t t' Hx Hl E. unfold dic_line. rewrite E. assert (R := fun es => de_adds x l es).
  destruct (trim_ok pl Hl) as [TS _]. destruct (trim pl l) as [|c m] eqn:T.
  - split.
    + intro Q. injection Q as <-. exists []. split; [apply R; left; auto|reflexivity].
    + intros (es & D & ->). apply R in D. destruct D as [[_ ->]|[[(? & ? & X) _]|(X & _)]]; [reflexivity|discriminate X|congruence].
  - assert (SW : starts_with [ch_slash] (c :: m) && (1 <? blen (c :: m))%N = true <-> exists d n, c :: m = 47%N :: d :: n).
    { unfold starts_with. cbn [strip_prefix]. change ch_slash with 47%N. destruct (N.eqb_spec 47 c) as [<-|N47].
      - cbn [andb]. rewrite N.ltb_lt. destruct m as [|d n]; [split; [intro X; vm_compute in X; discriminate X|intros (d & n & X); discriminate X]|].
        split; [intros _; eauto|]. intros _. cbn [blen]. pose proof (len1_pos d). change (len1 47) with 1%N. lia.
      - cbn [andb]. split; [discriminate|]. intros (d & n & X). injection X as -> _. congruence. }
    destruct (starts_with [ch_slash] (c :: m) && (1 <? blen (c :: m))%N) eqn:S1.
    + destruct (proj1 SW eq_refl) as (d & n & X). split.
      * intro Q. injection Q as <-. exists []. split; [apply R; right; left; eauto|reflexivity].
      * intros (es & D & ->). apply R in D. destruct D as [[Y _]|[[_ ->]|(_ & Y & _)]]; [discriminate Y|reflexivity|exfalso; eapply Y, X].
    + assert (NS : forall d n, c :: m <> 47%N :: d :: n) by (intros d n X; assert (false = true) by (apply SW; eauto); discriminate).
      destruct (N.ltb_spec 65535 (blen (c :: m))) as [L|L].
      * split; [discriminate|]. intros (es & D & _). apply R in D. destruct D as [[Y _]|[[(d & n & Y) _]|(_ & _ & w & f & [B _] & _)]]; [discriminate Y|exfalso; eapply NS, Y|lia].
      * pose proof (fun w f => @dic_line_exact (x_flag_type x) (x_aliases x) (x_ignore x) (c :: m) w f TS) as EX.
        pose proof (@parse_dic_line_safe pl (c :: m) (x_flag_type x) (x_aliases x) (x_ignore x) TS (lo_aliases Hx)) as SF.
        destruct (parse_dic_line pl (c :: m) (x_flag_type x) (x_aliases x) (x_ignore x)) as [[[w f]|]| |] eqn:EP; try contradiction.
        -- destruct SF as (_ & _ & WF). cbn [snd] in WF. cbn [mapErr at_line okP bindP].
           pose proof (fun t' => @insert_entry_spec x t w f t' WF) as IE. split.
           ++ intro Q. destruct (insert_entry pl x t w f) as [t1| |]; try discriminate Q. cbn [bindR okP] in Q. injection Q as <-.
              destruct (proj1 (IE t1) eq_refl) as (es & A & ->). exists es. split; [|reflexivity]. apply R. right. right. split; [discriminate|]. split; [exact NS|].
              exists w, f. split; [apply EX; reflexivity|exact A].
           ++ intros (es & D & ->). apply R in D. destruct D as [[Y _]|[[(d & n & Y) _]|(_ & _ & w' & f' & DL & A)]]; [discriminate Y|exfalso; eapply NS, Y|].
              apply EX in DL. injection DL as <- <-. rewrite (proj2 (IE (insert_all t es)) (ex_intro _ es (conj A eq_refl))). reflexivity.
        -- cbn [mapErr at_line okP bindP]. split; [discriminate|].
           intros (es & D & _). apply R in D. destruct D as [[Y _]|[[(d & n & Y) _]|(_ & _ & w' & f' & DL & A)]]; [discriminate Y|exfalso; eapply NS, Y|].
           apply EX in DL. discriminate DL.
Qed.

Lemma de_nil : forall x es, DicEntries pl x [] es <-> es = [].
Proof. intros x es. split; [intro H; inversion H; reflexivity|intros ->; constructor]. Qed.

Lemma dic_lines_spec : forall x, lp_ok x -> forall fuel ls t t', lines_ok pl ls -> length (ln_rest ls) < fuel ->
  (dic_lines pl fuel x ls t = Ret (Ok t') <-> exists es, DicEntries pl x (map snd (upcoming pl ls)) es /\ t' = insert_all t es).
Proof.
  intros x Hx. induction fuel as [|fuel IH]; intros ls t t' Hl Hf; [lia|]. rewrite dic_lines_S.
  pose proof (advance_upcoming pl ls) as AU. pose proof (advance_le pl ls) as AL. pose proof (@advance_ok pl ls Hl) as AO.
  destruct (is_finished ls) eqn:F.
  - assert (U0 : upcoming pl ls = []) by (unfold is_finished in F; unfold upcoming; destruct (ln_rest ls); [reflexivity|discriminate F]).
    rewrite U0. cbn [map]. split.
    + intro Q. injection Q as <-. exists []. split; [constructor|reflexivity].
    + intros (es & D & ->). apply de_nil in D. subst es. reflexivity.
  - assert (FU : length (ln_rest (advance_line pl ls)) < fuel) by (unfold is_finished in F; destruct (ln_rest ls); [discriminate F|cbn [length] in *; lia]).
    destruct (upcoming pl ls) as [|nl r] eqn:UP.
    + unfold dic_line at 1, cur_line. rewrite AU. cbn [bindP okP].
      rewrite (IH _ t t' AO FU). unfold upcoming. rewrite AU. reflexivity.
    + destruct AU as (tl & E1 & _ & E2). assert (CL : cur_line (advance_line pl ls) = Some (snd nl)) by (unfold cur_line; rewrite E1; reflexivity).
      assert (SN : scalars (snd nl)) by (destruct AO as [Q _]; rewrite E1 in Q; inversion Q; assumption).
      pose proof (fun t' => @dic_line_spec x (advance_line pl ls) (snd nl) t t' Hx SN CL) as DL. cbn [map]. split.
      * intro Q. destruct (dic_line pl x (advance_line pl ls) t) as [[t1|]| |]; try discriminate Q. cbn [bindP] in Q.
        destruct (proj1 (DL t1) eq_refl) as (e1 & D1 & ->). apply (IH _ _ _ AO FU) in Q. destruct Q as (e2 & D2 & ->). rewrite E2 in D2.
        exists (e1 ++ e2). split; [apply de_cons; eauto|]. unfold insert_all. rewrite fold_left_app. reflexivity.
      * intros (es & D & ->). apply de_cons in D. destruct D as (e1 & e2 & -> & D1 & D2).
        rewrite (proj2 (DL (insert_all t e1)) (ex_intro _ e1 (conj D1 eq_refl))). cbn [bindP]. apply (IH _ _ _ AO FU). exists e2. rewrite E2.
        split; [exact D2|]. unfold insert_all. rewrite fold_left_app. reflexivity.
Qed.

Lemma map_filter_number : forall (f : str -> bool) l n, map snd (filter (fun nl => f (snd nl)) (number_from n l)) = filter f l.
Proof. intros f. induction l as [|a l IH]; intro n; [reflexivity|]. cbn [number_from filter snd]. destruct (f a); cbn [map snd]; rewrite IH; reflexivity. Qed.

(** The parser accepts exactly the texts of the grammar and reads what they say. *)
Theorem parse_dic_exact : forall x dic t, lp_ok x -> scalars dic ->
  (parse_dic pl x dic = Ret (Ok t) <-> exists es, DicText pl x dic es /\ t = insert_all [] es).
Proof.
  intros x dic t Hx Hd. unfold parse_dic. pose proof (@lines_new_ok pl dic SrcDic Hd) as LO.
  set (ls := lines_new pl dic SrcDic) in *.
  assert (PL : plain_lines pl dic = match ln_rest ls with [] => [] | nl :: _ => snd nl :: map snd (upcoming pl ls) end).
  { unfold plain_lines. rewrite <- (@map_filter_number _ _ 0%N), skip_comments_filter. unfold upcoming, ls, lines_new. cbn [ln_rest].
    destruct (skip_comments pl _); reflexivity. }
  assert (LW : ln_words ls = match ln_rest ls with [] => None | nl :: _ => Some (split_whitespace pl (snd nl)) end) by reflexivity.
  unfold DicText. rewrite PL. unfold parse_row_count, take_exactly_one_word. rewrite LW. destruct (ln_rest ls) as [|nl r] eqn:LR.
  { split; [discriminate|]. intros (es & (l & r & w & q & n & X & _) & _). discriminate X. }
  destruct (split_whitespace pl (snd nl)) as [|w q] eqn:SW.
  { split; [discriminate|]. intros (es & (l & r' & w & q & n & X & Y & _) & _). injection X as <- _. congruence. }
  cbn [bindP okP]. destruct (parse_usize w) as [n|] eqn:PU.
  - cbn [bindP okP]. match goal with |- dic_lines pl _ x ?l _ = _ <-> _ => set (ls1 := l) end.
    assert (L1 : lines_ok pl ls1). { destruct LO as [Q1 Q2]. rewrite LW in Q2. unfold ls1. split; cbn [ln_rest ln_words]; [exact Q1|inversion Q2; assumption]. }
    assert (R1 : ln_rest ls1 = ln_rest ls) by reflexivity.
    rewrite dic_lines_spec; [|exact Hx|exact L1|lia]. rewrite (upcoming_rest pl ls ls1 R1). split.
    + intros (es & D & ->). exists es. split; [|reflexivity]. apply usize_spec in PU. destruct PU as [P1 P2].
      exists (snd nl), (map snd (upcoming pl ls)), w, q, n. auto 6.
    + intros (es & (l & r' & w' & q' & n' & X & _ & _ & _ & D) & ->). injection X as _ <-. eauto.
  - split; [discriminate|]. intros (es & (l & r' & w' & q' & n' & X & Y & P1 & P2 & _) & _). injection X as <- _.
    rewrite SW in Y. injection Y as <- <-. assert (parse_usize w = Ok n') by (apply usize_spec; auto). congruence.
Qed.
(** ** When loading the word list panics *)
(** A line whose entry also gets a title-cased form, too long to be stored. *)
Definition Overgrown (x : lparser) (l : str) : Prop :=
  exists m w f t, Trimmed pl l m /\ m <> [] /\ (forall c n, m <> 47%N :: c :: n) /\
    DicLine pl (x_flag_type x) (x_aliases x) (x_ignore x) m w f /\ Hides pl x w f /\
    titlecase U (o_case (x_options x)) w = Ret t /\ (65535 < blen t)%N.

(** A list that is well formed up to a first overgrown line. *)
Definition DicOutgrown (x : lparser) (text : str) : Prop :=
  exists l pre o post es w ws n, plain_lines pl text = l :: pre ++ o :: post /\ split_whitespace pl l = w :: ws /\
    Decimal w n /\ (n <= 18446744073709551615)%N /\ DicEntries pl x pre es /\ Overgrown x o.

Lemma insert_entry_cases : forall x t w f, wf_flags f ->
  (exists t', insert_entry pl x t w f = Ret t') \/
  (insert_entry pl x t w f = Panic /\ Hides pl x w f /\ exists ti, titlecase U (o_case (x_options x)) w = Ret ti /\ (65535 < blen ti)%N).
Proof.
  intros x t w f [F1 F2]. unfold insert_entry. pose proof (hides_spec x w F1) as H.
  destruct (needs_hidden_homonym pl (o_forbidden (x_options x)) w f) eqn:E; [|left; eauto].
  assert (w <> []) as Hne. { intro Q. subst w. unfold needs_hidden_homonym, classify_casing in E. cbn in E. discriminate. }
  destruct (titlecase U (o_case (x_options x)) w) as [ti| |] eqn:Et; [|destruct w; [contradiction|discriminate]|destruct w; discriminate].
  cbn [bindR]. unfold stem_from. destruct (N.leb_spec (blen ti) 65535) as [L|L]; cbn [bindR].
  - left. assert (valid_flag hidden_homonym_flag) as Hh by (unfold valid_flag, hidden_homonym_flag; lia).
    destruct (@with_flag_spec f hidden_homonym_flag F2 Hh) as (fs' & -> & _). cbn [bindR]. eauto.
  - right. split; [reflexivity|]. split; [apply H; reflexivity|]. eauto.
Qed.

Lemma dic_line_cases : forall x ls l t, lp_ok x -> scalars l -> cur_line ls = Some l ->
  (exists r, dic_line pl x ls t = Ret r) \/ (dic_line pl x ls t = Panic /\ Overgrown x l).
Proof.
  intros x ls l t Hx Hl E. unfold dic_line. rewrite E. destruct (trim_ok pl Hl) as [TS _].
  destruct (trim pl l) as [|c m] eqn:T; [left; eexists; reflexivity|].
  destruct (starts_with [ch_slash] (c :: m) && (1 <? blen (c :: m))%N) eqn:S1; [left; eexists; reflexivity|].
  destruct (N.ltb_spec 65535 (blen (c :: m))) as [L|L]; [left; eexists; reflexivity|].
  pose proof (@dic_line_exact (x_flag_type x) (x_aliases x) (x_ignore x) (c :: m)) as EX.
  pose proof (@parse_dic_line_safe pl (c :: m) (x_flag_type x) (x_aliases x) (x_ignore x) TS (lo_aliases Hx)) as SF.
  destruct (parse_dic_line pl (c :: m) (x_flag_type x) (x_aliases x) (x_ignore x)) as [[[w f]|]| |] eqn:EP; try contradiction.
  - destruct SF as (_ & _ & WF). cbn [snd] in WF. cbn [mapErr at_line okP bindP].
    destruct (@insert_entry_cases x t w f WF) as [(t' & ->)|(-> & H & ti & H1 & H2)]; [left; eexists; reflexivity|]. right. split; [reflexivity|].
    exists (c :: m), w, f, ti. split; [apply trimmed_spec; auto|]. split; [discriminate|]. split.
    + intros d n Q. injection Q as -> ->. apply andb_false_iff in S1. destruct S1 as [S1|S1]; [discriminate S1|].
      apply N.ltb_ge in S1. cbn [blen] in S1. pose proof (len1_pos d). change (len1 47) with 1%N in S1. lia.
    + split; [apply EX; auto|]. auto.
  - left. eexists. reflexivity.
Qed.

Lemma overgrown_panics : forall x ls l t, lp_ok x -> scalars l -> cur_line ls = Some l -> Overgrown x l -> dic_line pl x ls t = Panic.
Proof.
  intros x ls l t Hx Hl E (m & w & f & ti & T & N1 & N2 & DL & H & T1 & T2).
  destruct (@dic_line_cases x ls l t Hx Hl E) as [([t'|e] & Q)|[Q _]]; [exfalso|exfalso|exact Q].
  - apply (@dic_line_spec x ls l t t' Hx Hl E) in Q. destruct Q as (es & D & _). apply de_adds in D. apply trimmed_spec in T. subst m.
    destruct D as [[X _]|[[(c & n & X) _]|(_ & _ & w' & f' & DL' & A)]]; [congruence|eapply N2, X|].
    destruct (trim_ok pl Hl) as [TS _]. apply dic_line_exact in DL; [|exact TS]. apply dic_line_exact in DL'; [|exact TS]. rewrite DL in DL'. injection DL' as <- <-.
    destruct A as [[NH _]|(_ & ti' & g & T1' & L & _)]; [contradiction|]. rewrite T1 in T1'. injection T1' as <-. lia.
  - unfold dic_line in Q. rewrite E in Q. apply trimmed_spec in T. subst m. destruct (trim_ok pl Hl) as [TS _].
    destruct (trim pl l) as [|c m] eqn:T; [congruence|]. destruct (_ && _); [discriminate Q|]. pose proof (proj1 DL) as L.
    destruct (N.ltb_spec 65535 (blen (c :: m))) as [L'|_]; [lia|]. apply dic_line_exact in DL; [|exact TS]. rewrite DL in Q. cbn [mapErr at_line okP bindP] in Q.
    destruct (insert_entry pl x t w f); discriminate Q.
Qed.

Lemma dic_lines_cases : forall x, lp_ok x -> forall fuel ls t, lines_ok pl ls -> length (ln_rest ls) < fuel ->
  (exists r, dic_lines pl fuel x ls t = Ret r) \/
  (dic_lines pl fuel x ls t = Panic /\
   exists pre o post es, map snd (upcoming pl ls) = pre ++ o :: post /\ DicEntries pl x pre es /\ Overgrown x o).
Proof.
  intros x Hx. induction fuel as [|fuel IH]; intros ls t Hl Hf; [lia|]. rewrite dic_lines_S.
  pose proof (advance_upcoming pl ls) as AU. pose proof (advance_le pl ls) as AL. pose proof (@advance_ok pl ls Hl) as AO.
  destruct (is_finished ls) eqn:F; [left; eexists; reflexivity|].
  assert (FU : length (ln_rest (advance_line pl ls)) < fuel) by (unfold is_finished in F; destruct (ln_rest ls); [discriminate F|cbn [length] in *; lia]).
  destruct (upcoming pl ls) as [|nl r] eqn:UP.
  - assert (DN : dic_line pl x (advance_line pl ls) t = Ret (Ok t)) by (unfold dic_line, cur_line; rewrite AU; reflexivity). rewrite DN. cbn [bindP okP].
    destruct (IH _ t AO FU) as [Q|(Q & pre & o & post & es & E & _)]; [left; exact Q|].
    unfold upcoming in E. rewrite AU in E. destruct pre; discriminate E.
  - destruct AU as (tl & E1 & _ & E2). assert (CL : cur_line (advance_line pl ls) = Some (snd nl)) by (unfold cur_line; rewrite E1; reflexivity).
    assert (SN : scalars (snd nl)) by (destruct AO as [Q _]; rewrite E1 in Q; inversion Q; assumption). cbn [map].
    destruct (@dic_line_cases x (advance_line pl ls) (snd nl) t Hx SN CL) as [([t1|e] & Q)|[Q O]]; rewrite Q; cbn [bindP].
    + destruct (IH _ t1 AO FU) as [Q'|(Q' & pre & o & post & es & E & D & O)]; [left; exact Q'|]. right. split; [exact Q'|]. rewrite E2 in E.
      apply (@dic_line_spec x (advance_line pl ls) (snd nl) t t1 Hx SN CL) in Q. destruct Q as (e1 & D1 & _).
      exists (snd nl :: pre), o, post, (e1 ++ es). split; [cbn [app]; rewrite E; reflexivity|]. split; [apply de_cons; eauto|exact O].
    + left. eexists. reflexivity.
    + right. split; [reflexivity|]. exists [], (snd nl), (map snd r), []. split; [reflexivity|]. split; [constructor|exact O].
Qed.

Lemma outgrown_lines_panic : forall x, lp_ok x -> forall fuel ls t pre o post es, lines_ok pl ls -> length (ln_rest ls) < fuel ->
  map snd (upcoming pl ls) = pre ++ o :: post -> DicEntries pl x pre es -> Overgrown x o -> dic_lines pl fuel x ls t = Panic.
Proof.
  intros x Hx. induction fuel as [|fuel IH]; intros ls t pre o post es Hl Hf E D O; [lia|]. rewrite dic_lines_S.
  pose proof (advance_upcoming pl ls) as AU. pose proof (advance_le pl ls) as AL. pose proof (@advance_ok pl ls Hl) as AO.
  destruct (is_finished ls) eqn:F.
  { assert (U0 : upcoming pl ls = []) by (unfold is_finished in F; unfold upcoming; destruct (ln_rest ls); [reflexivity|discriminate F]).
    rewrite U0 in E. destruct pre; discriminate E. }
  assert (FU : length (ln_rest (advance_line pl ls)) < fuel) by (unfold is_finished in F; destruct (ln_rest ls); [discriminate F|cbn [length] in *; lia]).
  destruct (upcoming pl ls) as [|nl r] eqn:UP; [destruct pre; discriminate E|].
  destruct AU as (tl & E1 & _ & E2). assert (CL : cur_line (advance_line pl ls) = Some (snd nl)) by (unfold cur_line; rewrite E1; reflexivity).
  assert (SN : scalars (snd nl)) by (destruct AO as [Q _]; rewrite E1 in Q; inversion Q; assumption). cbn [map] in E.
  destruct pre as [|p pre]; cbn [app] in E; injection E as Ea Eb.
  - subst o. rewrite (@overgrown_panics x _ _ t Hx SN CL O). reflexivity.
  - subst p. apply de_cons in D. destruct D as (e1 & e2 & -> & D1 & D2).
    rewrite (proj2 (@dic_line_spec x (advance_line pl ls) (snd nl) t (insert_all t e1) Hx SN CL) (ex_intro _ e1 (conj D1 eq_refl))). cbn [bindP].
    eapply IH; [exact AO|exact FU|rewrite E2; exact Eb|exact D2|exact O].
Qed.

(** Reading the word list returns, unless a title-cased entry outgrows what can be stored:
    then, and only then, it panics. *)
Theorem parse_dic_panics : forall x dic, lp_ok x -> scalars dic ->
  (exists r, parse_dic pl x dic = Ret r) /\ ~ DicOutgrown x dic \/ parse_dic pl x dic = Panic /\ DicOutgrown x dic.
Proof.
  intros x dic Hx Hd. unfold parse_dic. pose proof (@lines_new_ok pl dic SrcDic Hd) as LO.
  set (ls := lines_new pl dic SrcDic) in *.
  assert (PL : plain_lines pl dic = match ln_rest ls with [] => [] | nl :: _ => snd nl :: map snd (upcoming pl ls) end).
  { unfold plain_lines. rewrite <- (@map_filter_number _ _ 0%N), skip_comments_filter. unfold upcoming, ls, lines_new. cbn [ln_rest].
    destruct (skip_comments pl _); reflexivity. }
  assert (LW : ln_words ls = match ln_rest ls with [] => None | nl :: _ => Some (split_whitespace pl (snd nl)) end) by reflexivity.
  unfold DicOutgrown. rewrite PL. unfold parse_row_count, take_exactly_one_word. rewrite LW. destruct (ln_rest ls) as [|nl r] eqn:LR.
  { left. split; [eexists; reflexivity|]. intros (l & pre & o & post & es & w & q & n & X & _). discriminate X. }
  destruct (split_whitespace pl (snd nl)) as [|w q] eqn:SW.
  { left. split; [eexists; reflexivity|]. intros (l & pre & o & post & es & w & q & n & X & Y & _). injection X as <- _. congruence. }
  cbn [bindP okP]. destruct (parse_usize w) as [n|] eqn:PU.
  - cbn [bindP okP]. match goal with |- context [dic_lines pl _ x ?l _] => set (ls1 := l) end.
    assert (L1 : lines_ok pl ls1). { destruct LO as [Q1 Q2]. rewrite LW in Q2. unfold ls1. split; cbn [ln_rest ln_words]; [exact Q1|inversion Q2; assumption]. }
    assert (R1 : ln_rest ls1 = ln_rest ls) by reflexivity. pose proof (upcoming_rest pl ls ls1 R1) as UR.
    match goal with |- context [dic_lines pl ?f x ls1 ?t] => set (fu := f); set (t0 := t) end.
    assert (FU : length (ln_rest ls1) < fu) by (unfold fu; lia).
    destruct (@dic_lines_cases x Hx fu ls1 t0 L1 FU) as [(re & Q)|(Q & pre & o & post & es & E & D & O)].
    + left. split; [eauto|]. intros (l & pre & o & post & es & w' & q' & n' & X & _ & _ & _ & D & O). injection X as _ X.
      rewrite <- UR in X. rewrite (@outgrown_lines_panic x Hx fu ls1 t0 pre o post es L1 FU X D O) in Q. discriminate Q.
    + right. split; [exact Q|]. rewrite UR in E. apply usize_spec in PU. destruct PU as [P1 P2].
      exists (snd nl), pre, o, post, es, w, q, n. rewrite E. auto 7.
  - left. split; [eexists; reflexivity|]. intros (l & pre & o & post & es & w' & q' & n' & X & Y & P1 & P2 & _). injection X as <- _.
    rewrite SW in Y. injection Y as <- <-. assert (parse_usize w = Ok n') by (apply usize_spec; auto). congruence.
Qed.
End Exact.
