(** Tables of the .aff file: which lines they consume; the break patterns. *)
From Coq Require Import String Ascii List NArith ZArith Lia Bool Arith Permutation.
From Coq Require Import ZifyBool ZifyNat ZifyN.
From Verif Require Import Base Utf8 Unicode Flags Bag Affix CompoundRule Conversion Aff Checker Parser ParserSafe
  ParserProps.
Import ListNotations.
Set Implicit Arguments.
Local Open Scope string_scope.
Local Open Scope list_scope.
Local Open Scope nat_scope.

Section Tables.
Variable pl : platform.
Notation U := (pl_unicode pl).

(** Specification: the non-comment lines after the current one, with their numbers. *)
Definition upcoming (ls : lines) : list (N * str) :=
  filter (fun nl => negb (is_comment pl (snd nl))) (tl (ln_rest ls)).
Definition words_of (nl : N * str) : list str := split_whitespace pl (snd nl).
Definition carries (key : str) (nl : N * str) : Prop := exists ws, words_of nl = key :: ws.

Lemma skip_comments_filter : forall l,
  filter (fun nl => negb (is_comment pl (snd nl))) l =
  match skip_comments pl l with
  | [] => []
  | nl :: r => nl :: filter (fun nl => negb (is_comment pl (snd nl))) r
  end.
Proof.
  induction l as [|nl l IH]; [reflexivity|]. cbn [filter skip_comments].
  destruct (is_comment pl (snd nl)); cbn [negb]; [exact IH|reflexivity].
Qed.

Lemma advance_upcoming : forall ls,
  match upcoming ls with
  | [] => ln_rest (advance_line pl ls) = []
  | nl :: r => exists t, ln_rest (advance_line pl ls) = nl :: t /\
                         ln_words (advance_line pl ls) = Some (words_of nl) /\
                         upcoming (advance_line pl ls) = r
  end.
Proof.
  intro ls. unfold upcoming, advance_line. rewrite skip_comments_filter.
  destruct (skip_comments pl (tl (ln_rest ls))) as [|nl r]; cbn [ln_rest ln_words peek_words tl]; [reflexivity|].
  exists r. split; [reflexivity|]. split; reflexivity.
Qed.

Lemma upcoming_rest : forall ls ls', ln_rest ls' = ln_rest ls -> upcoming ls' = upcoming ls.
Proof. intros ls ls' H. unfold upcoming. rewrite H. reflexivity. Qed.

Lemma upcoming_length : forall ls, length (upcoming ls) <= pred (length (ln_rest ls)).
Proof.
  intro ls. unfold upcoming. destruct (ln_rest ls) as [|x l]; [reflexivity|]. cbn [tl length pred].
  clear. induction l as [|y l IH]; cbn [filter length]; [lia|]. destruct (negb _); cbn [length]; lia.
Qed.

Section Rows.
Context {C : Type}.
Variable key : str.
Variable body : lines -> C -> P perror (lines * C).
(** What one row does, given the words after the directive's name. *)
Variable step : list str -> C -> C -> Prop.
Hypothesis READ : forall ls ws x ls' x', ln_words ls = Some ws -> body ls x = Ret (Ok (ls', x')) ->
  ln_rest ls' = ln_rest ls /\ ln_src ls' = ln_src ls /\ step ws x x'.
Hypothesis RUN : forall ls ws x x', ln_words ls = Some ws -> step ws x x' ->
  exists ls', body ls x = Ret (Ok (ls', x')).

(** The rows of a table, each carrying the directive's name, applied in order. *)
Inductive Fed : list (N * str) -> C -> C -> Prop :=
| fed_nil : forall x, Fed [] x x
| fed_cons : forall nl r x x1 x2 ws, words_of nl = key :: ws -> step ws x x1 -> Fed r x1 x2 -> Fed (nl :: r) x x2.

Lemma rows_taken : forall fuel row count ls x ls' x',
  (1 <= row <= count + 1)%N ->
  rows pl key body fuel row count ls x = Ret (Ok (ls', x')) ->
  exists taken, upcoming ls = taken ++ upcoming ls' /\ N.of_nat (length taken) = (count + 1 - row)%N /\ Fed taken x x'.
Proof.
  induction fuel as [|fuel IH]; intros row count ls x ls' x' Hr H; [discriminate H|]. cbn [rows] in H.
  destruct (count <? row)%N eqn:Ec.
  { injection H as <- <-. exists []. split; [reflexivity|]. split; [cbn; lia|constructor]. }
  assert (A := advance_upcoming ls). unfold is_finished in H.
  destruct (upcoming ls) as [|nl r] eqn:Eu.
  { rewrite A in H. cbn [nonempty negb] in H. discriminate H. }
  destruct A as [t [A1 [A2 A3]]]. rewrite A1 in H. cbn [nonempty negb] in H.
  unfold next_word in H. rewrite A2 in H. destruct (words_of nl) as [|w ws] eqn:Ew; [discriminate H|].
  destruct (str_eqb w key) eqn:Ek; [|discriminate H]. apply str_eqb_eq in Ek. subst w.
  destruct (body _ x) as [[[ls3 x3]|]| |] eqn:Eb; cbn [bindP] in H; try discriminate H.
  destruct (@READ (with_words (advance_line pl ls) (Some ws)) ws x ls3 x3 eq_refl Eb) as [R1 [_ R2]].
  apply IH in H; [|lia]. destruct H as [taken [H1 [H2 H3]]].
  exists (nl :: taken). rewrite (@upcoming_rest (advance_line pl ls) ls3 R1), A3 in H1. split; [rewrite H1; reflexivity|].
  split; [cbn [length]; lia|]. eapply fed_cons; eassumption.
Qed.

Lemma rows_run : forall taken fuel row count ls x x' rest,
  (1 <= row)%N -> length (upcoming ls) + 1 < fuel ->
  upcoming ls = taken ++ rest -> Fed taken x x' ->
  N.of_nat (length taken) = (count + 1 - row)%N ->
  exists ls', rows pl key body fuel row count ls x = Ret (Ok (ls', x')) /\ upcoming ls' = rest.
Proof.
  induction taken as [|nl taken IH]; intros fuel row count ls x x' rest Hr Hf Hu HF Hn;
    (destruct fuel as [|fuel]; [lia|]); cbn [rows].
  - cbn [length] in Hn. replace (count <? row)%N with true by lia. inversion HF; subst.
    exists ls. split; [reflexivity|]. rewrite Hu. reflexivity.
  - cbn [length] in Hn. replace (count <? row)%N with false by lia.
    assert (A := advance_upcoming ls). rewrite Hu in A. cbn [app] in A. destruct A as [t [A1 [A2 A3]]].
    unfold is_finished. rewrite A1. cbn [nonempty negb]. unfold next_word. rewrite A2.
    inversion HF as [|? ? ? x1 ? ws Hw Hs HF']; subst. rewrite Hw, str_eqb_refl.
    destruct (@RUN (with_words (advance_line pl ls) (Some ws)) ws x x1 eq_refl Hs) as [ls3 Eb].
    destruct (@READ (with_words (advance_line pl ls) (Some ws)) ws x ls3 x1 eq_refl Eb) as [R1 _].
    rewrite Eb. cbn [bindP].
    assert (E3 : upcoming ls3 = taken ++ rest) by (rewrite (@upcoming_rest (advance_line pl ls) ls3 R1); exact A3).
    apply IH; [lia| |exact E3|exact HF'|lia]. rewrite E3. rewrite Hu in Hf. cbn [app length] in Hf. lia.
Qed.

Lemma rows_short : forall taken fuel row count ls x x' rest,
  (1 <= row)%N -> length (upcoming ls) + 1 < fuel ->
  upcoming ls = taken ++ rest -> Fed taken x x' ->
  (N.of_nat (length taken) + row <= count)%N ->
  match rest with [] => True | nl :: _ => ~ carries key nl end ->
  rows pl key body fuel row count ls x =
  errP (mkError (MismatchedRowCount count (row + N.of_nat (length taken))) (ln_src ls)
                (match rest with [] => None | nl :: _ => Some (fst nl + 1)%N end)).
Proof.
  induction taken as [|nl taken IH]; intros fuel row count ls x x' rest Hr Hf Hu HF Hn Hrest;
    (destruct fuel as [|fuel]; [lia|]); cbn [rows].
  - cbn [length] in *. replace (count <? row)%N with false by lia. cbn [N.of_nat]. rewrite N.add_0_r.
    assert (A := advance_upcoming ls). rewrite Hu in A. cbn [app] in A. unfold is_finished.
    destruct rest as [|nl rest].
    + rewrite A. cbn [nonempty negb]. unfold error. rewrite A. reflexivity.
    + destruct A as [t [A1 [A2 A3]]]. rewrite A1. cbn [nonempty negb]. unfold next_word. rewrite A2.
      destruct (words_of nl) as [|w ws] eqn:Ew.
      * unfold error. cbn [with_words ln_rest ln_src]. rewrite A1. reflexivity.
      * destruct (str_eqb w key) eqn:Ek.
        -- apply str_eqb_eq in Ek. subst w. exfalso. apply Hrest. exists ws. exact Ew.
        -- unfold error. cbn [with_words ln_rest ln_src]. rewrite A1. reflexivity.
  - cbn [length] in *. replace (count <? row)%N with false by lia.
    assert (A := advance_upcoming ls). rewrite Hu in A. cbn [app] in A. destruct A as [t [A1 [A2 A3]]].
    unfold is_finished. rewrite A1. cbn [nonempty negb]. unfold next_word. rewrite A2.
    inversion HF as [|? ? ? x1 ? ws Hw Hs HF']; subst. rewrite Hw, str_eqb_refl.
    destruct (@RUN (with_words (advance_line pl ls) (Some ws)) ws x x1 eq_refl Hs) as [ls3 Eb].
    destruct (@READ (with_words (advance_line pl ls) (Some ws)) ws x ls3 x1 eq_refl Eb) as [R1 [R2 _]].
    rewrite Eb. cbn [bindP].
    assert (E3 : upcoming ls3 = taken ++ rest) by (rewrite (@upcoming_rest (advance_line pl ls) ls3 R1); exact A3).
    assert (Src : ln_src ls3 = ln_src ls) by (rewrite R2; reflexivity).
    rewrite (@IH fuel (row + 1)%N count ls3 x1 x' rest); [|lia| |exact E3|exact HF'|lia|exact Hrest].
    + rewrite Src. unfold errP. do 3 f_equal. f_equal. lia.
    + rewrite E3. rewrite Hu in Hf. cbn [app length] in Hf. lia.
Qed.

(** A table that is read took exactly as many of the following non-comment lines as it
    announced, each carrying the directive's name. *)
Theorem table_taken : forall count ls x ls' x',
  table_rows pl key body count ls x = Ret (Ok (ls', x')) ->
  exists taken, upcoming ls = taken ++ upcoming ls' /\ N.of_nat (length taken) = count /\ Fed taken x x'.
Proof.
  intros count ls x ls' x' H. apply rows_taken in H; [|lia].
  destruct H as [taken [H1 [H2 H3]]]. exists taken. split; [exact H1|]. split; [lia|exact H3].
Qed.

Lemma fuel_enough : forall ls, length (upcoming ls) + 1 < S (S (length (ln_rest ls))).
Proof. intro ls. assert (Q := upcoming_length ls). lia. Qed.

Theorem table_run : forall taken count ls x x' rest,
  upcoming ls = taken ++ rest -> Fed taken x x' -> N.of_nat (length taken) = count ->
  exists ls', table_rows pl key body count ls x = Ret (Ok (ls', x')) /\ upcoming ls' = rest.
Proof.
  intros taken count ls x x' rest H1 H2 H3. unfold table_rows.
  eapply rows_run; [lia|apply fuel_enough|exact H1|exact H2|lia].
Qed.

(** Too few rows: the error names the announced count and one more than the rows read. *)
Theorem table_short : forall taken count ls x x' rest,
  upcoming ls = taken ++ rest -> Fed taken x x' -> (N.of_nat (length taken) < count)%N ->
  match rest with [] => True | nl :: _ => ~ carries key nl end ->
  table_rows pl key body count ls x =
  errP (mkError (MismatchedRowCount count (N.of_nat (length taken) + 1)) (ln_src ls)
                (match rest with [] => None | nl :: _ => Some (fst nl + 1)%N end)).
Proof.
  intros taken count ls x x' rest H1 H2 H3 H4. unfold table_rows.
  rewrite (@rows_short taken _ 1 count ls x x' rest); [|lia|apply fuel_enough|exact H1|exact H2|lia|exact H4].
  rewrite N.add_comm. reflexivity.
Qed.
End Rows.

(** ** The shapes of table the parser uses *)
(** One-column tables. *)
Section Table1.
Context {C : Type}.
Variable key : str.
Variable f : str -> C -> P error_kind C.
Definition body1 (ls : lines) (x : C) : P perror (lines * C) :=
  let '(ls, ws) := take_words ls in
  match ws with
  | [] => error ls (MismatchedArity 1 0)
  | w :: _ => x' <~ at_line ls (f w x) ;; okP (ls, x')
  end.
Definition step1 (ws : list str) (x x' : C) : Prop := exists w r, ws = w :: r /\ f w x = Ret (Ok x').

Lemma read1 : forall ls ws x ls' x', ln_words ls = Some ws -> body1 ls x = Ret (Ok (ls', x')) ->
  ln_rest ls' = ln_rest ls /\ ln_src ls' = ln_src ls /\ step1 ws x x'.
Proof.
  intros ls ws x ls' x' Hw H. unfold body1, take_words in H. rewrite Hw in H. destruct ws as [|w r]; [discriminate H|].
  destruct (f w x) as [[x1|e]| |] eqn:E; cbn [at_line bindP okP] in H; try discriminate H.
  injection H as <- <-. split; [reflexivity|]. split; [reflexivity|]. exists w, r. split; [reflexivity|exact E].
Qed.
Lemma run1 : forall ls ws x x', ln_words ls = Some ws -> step1 ws x x' -> exists ls', body1 ls x = Ret (Ok (ls', x')).
Proof.
  intros ls ws x x' Hw [w [r [-> E]]]. unfold body1, take_words. rewrite Hw, E. eexists. reflexivity.
Qed.

Lemma table1_rows : forall ls n ws count x, ln_words ls = Some (n :: ws) -> parse_usize n = Ok count ->
  parse_table1 pl key f ls x = table_rows pl key body1 count (with_words ls (Some ws)) x.
Proof.
  intros ls n ws count x Hw Hn. unfold parse_table1, parse_row_count, take_exactly_one_word. rewrite Hw.
  cbn [bindP okP]. rewrite Hn. reflexivity.
Qed.
End Table1.

(** Two-column tables. *)
Section Table2.
Context {C : Type}.
Variable key : str.
Variable f : str -> str -> C -> P error_kind C.
Definition body2 (ls : lines) (x : C) : P perror (lines * C) :=
  let '(ls, ws) := take_words ls in
  match ws with
  | [] => error ls (MismatchedArity 2 0)
  | [_] => error ls (MismatchedArity 2 1)
  | w1 :: w2 :: _ => x' <~ at_line ls (f w1 w2 x) ;; okP (ls, x')
  end.
Definition step2 (ws : list str) (x x' : C) : Prop := exists a b r, ws = a :: b :: r /\ f a b x = Ret (Ok x').

Lemma read2 : forall ls ws x ls' x', ln_words ls = Some ws -> body2 ls x = Ret (Ok (ls', x')) ->
  ln_rest ls' = ln_rest ls /\ ln_src ls' = ln_src ls /\ step2 ws x x'.
Proof.
  intros ls ws x ls' x' Hw H. unfold body2, take_words in H. rewrite Hw in H. destruct ws as [|a [|b r]]; try discriminate H.
  destruct (f a b x) as [[x1|e]| |] eqn:E; cbn [at_line bindP okP] in H; try discriminate H.
  injection H as <- <-. split; [reflexivity|]. split; [reflexivity|]. exists a, b, r. split; [reflexivity|exact E].
Qed.
Lemma run2 : forall ls ws x x', ln_words ls = Some ws -> step2 ws x x' -> exists ls', body2 ls x = Ret (Ok (ls', x')).
Proof.
  intros ls ws x x' Hw [a [b [r [-> E]]]]. unfold body2, take_words. rewrite Hw, E. eexists. reflexivity.
Qed.
Lemma table2_rows : forall ls n ws count x, ln_words ls = Some (n :: ws) -> parse_usize n = Ok count ->
  parse_table2 pl key f ls x = table_rows pl key body2 count (with_words ls (Some ws)) x.
Proof.
  intros ls n ws count x Hw Hn. unfold parse_table2, parse_row_count, take_exactly_one_word. rewrite Hw.
  cbn [bindP okP]. rewrite Hn. reflexivity.
Qed.
End Table2.

(** Affix tables: the columns of a row after the directive's name are the flag, the
    characters to strip ("0" for none), what to add ("0" for nothing) with its flags after
    a slash, and possibly a condition ("." for none). *)
Section AffixTable.
Context {C : Type}.
Variable key : str.
Variable t : flag_type.
Variable f : N -> bool -> option str -> str -> option str -> str -> C -> P error_kind C.
Definition abody (flag : N) (flag_str : str) (cross : bool) (ls : lines) (x : C) : P perror (lines * C) :=
  let '(ls, ws) := take_words ls in
  match ws with
  | [] => error ls MalformedAffix
  | fs :: ws =>
      if negb (str_eqb fs flag_str) then error ls MalformedAffix
      else
        match ws with
        | [] => error ls (MismatchedArity 3 1)
        | [_] => error ls (MismatchedArity 3 2)
        | st :: ad :: ws =>
            let strip := if str_eqb st zero_str then None else Some st in
            let '(add, flags) := split_word_and_flagset_naive ad in
            let add := if str_eqb add zero_str then [] else add in
            let cond := match ws with
                        | c :: _ => if str_eqb c (lit ".") then None else Some c
                        | [] => None
                        end in
            x' <~ at_line ls (f flag cross strip add cond flags x) ;;
            okP (ls, x')
        end
  end.
Definition astep (flag : N) (flag_str : str) (cross : bool) (ws : list str) (x x' : C) : Prop :=
  exists strip_col add_col rest strip add flags cond,
    ws = flag_str :: strip_col :: add_col :: rest /\
    ((strip_col = lit "0" /\ strip = None) \/ (strip_col <> lit "0" /\ strip = Some strip_col)) /\
    (exists a, ((~ In 47%N add_col /\ a = add_col /\ flags = []) \/ (add_col = a ++ 47%N :: flags /\ ~ In 47%N a)) /\
               ((a = lit "0" /\ add = []) \/ (a <> lit "0" /\ add = a))) /\
    ((rest = [] /\ cond = None) \/
     (exists c r, rest = c :: r /\ ((c = lit "." /\ cond = None) \/ (c <> lit "." /\ cond = Some c)))) /\
    f flag cross strip add cond flags x = Ret (Ok x').

Lemma find_slash : forall u v, ~ In 47%N u -> find_sub [47%N] (u ++ 47%N :: v) = Some (length u).
Proof.
  induction u as [|c u IH]; intros v H.
  - cbn [app find_sub]. change (47%N :: v) with ([47%N] ++ v). rewrite starts_with_app. reflexivity.
  - cbn [app find_sub]. destruct (starts_with [47%N] (c :: u ++ 47%N :: v)) eqn:E.
    + exfalso. apply H. left. apply starts_with_spec in E. destruct E as [r E]. injection E as -> _. reflexivity.
    + rewrite IH by (intro I; apply H; right; exact I). reflexivity.
Qed.

Lemma split_naive_spec : forall ad a fl, split_word_and_flagset_naive ad = (a, fl) <->
  (~ In 47%N ad /\ a = ad /\ fl = []) \/ (ad = a ++ 47%N :: fl /\ ~ In 47%N a).
Proof.
  intros ad a fl.
  assert (Sp : forall u v, ~ In 47%N u -> split_word_and_flagset_naive (u ++ 47%N :: v) = (u, v)).
  { intros u v Hu. unfold split_word_and_flagset_naive, split_once, ch_slash. rewrite find_slash by exact Hu.
    rewrite firstn_app_exact by reflexivity. cbn [length].
    replace (u ++ 47%N :: v) with ((u ++ [47%N]) ++ v) by (rewrite <- app_assoc; reflexivity).
    rewrite skipn_app_exact by (rewrite app_length; reflexivity). reflexivity. }
  assert (Np : ~ In 47%N ad -> split_word_and_flagset_naive ad = (ad, [])).
  { intro H. unfold split_word_and_flagset_naive, split_once, ch_slash.
    destruct (find_sub [47%N] ad) as [i|] eqn:E; [|reflexivity].
    exfalso. apply H. apply find_sub_sound in E. destruct E as [E _]. rewrite E. apply in_app_iff. right. left. reflexivity. }
  split.
  - intro H. destruct (in_dec N.eq_dec 47%N ad) as [I|I].
    + right. destruct (find_char (N.eqb 47) ad) as [i|] eqn:E.
      * apply find_char_some in E. destruct E as [u [c [v [-> [_ [Hc Hu]]]]]]. apply N.eqb_eq in Hc. subst c.
        assert (Nu : ~ In 47%N u). { intro Q. rewrite forallb_forall in Hu. apply Hu in Q. discriminate Q. }
        rewrite Sp in H by exact Nu. injection H as <- <-. split; [reflexivity|exact Nu].
      * exfalso. apply find_char_none in E. rewrite forallb_forall in E. apply E in I. discriminate I.
    + left. rewrite Np in H by exact I. injection H as <- <-. split; [exact I|]. split; reflexivity.
  - intros [[H [-> ->]]|[-> H]]; [apply Np, H|apply Sp, H].
Qed.

Lemma str_eqb_cases : forall a b, (str_eqb a b = true /\ a = b) \/ (str_eqb a b = false /\ a <> b).
Proof. intros a b. destruct (str_eqb a b) eqn:E; [left|right]; (split; [reflexivity|]); apply str_eqb_eq in E || apply str_eqb_neq in E; exact E. Qed.

Lemma reada : forall flag flag_str cross ls ws x ls' x', ln_words ls = Some ws ->
  abody flag flag_str cross ls x = Ret (Ok (ls', x')) ->
  ln_rest ls' = ln_rest ls /\ ln_src ls' = ln_src ls /\ astep flag flag_str cross ws x x'.
Proof.
  intros flag flag_str cross ls ws x ls' x' Hw H. unfold abody, take_words in H. rewrite Hw in H.
  destruct ws as [|fs ws]; [discriminate H|].
  destruct (str_eqb_cases fs flag_str) as [[E ->]|[E _]]; rewrite E in H; cbn [negb] in H; [|discriminate H].
  destruct ws as [|st [|ad ws]]; try discriminate H.
  destruct (split_word_and_flagset_naive ad) as [a fl] eqn:Es. apply split_naive_spec in Es.
  match type of H with context [f flag cross ?s ?d ?c fl x] => set (strip := s) in *; set (add := d) in *; set (cond := c) in * end.
  destruct (f flag cross strip add cond fl x) as [[x1|e]| |] eqn:Ef; cbn [at_line bindP okP] in H; try discriminate H.
  injection H as <- <-. split; [reflexivity|]. split; [reflexivity|].
  exists st, ad, ws, strip, add, fl, cond. split; [reflexivity|]. split; [|split; [|split; [|exact Ef]]].
  - unfold strip. destruct (str_eqb_cases st zero_str) as [[Q ->]|[Q N]]; rewrite Q; [left|right]; (split; [|reflexivity]); [reflexivity|exact N].
  - exists a. split; [exact Es|]. unfold add.
    destruct (str_eqb_cases a zero_str) as [[Q ->]|[Q N]]; rewrite Q; [left|right]; (split; [|reflexivity]); [reflexivity|exact N].
  - unfold cond. destruct ws as [|c r]; [left; split; reflexivity|right]. exists c, r. split; [reflexivity|].
    destruct (str_eqb_cases c (lit ".")) as [[Q ->]|[Q N]]; rewrite Q; [left|right]; (split; [|reflexivity]); [reflexivity|exact N].
Qed.

Lemma runa : forall flag flag_str cross ls ws x x', ln_words ls = Some ws ->
  astep flag flag_str cross ws x x' -> exists ls', abody flag flag_str cross ls x = Ret (Ok (ls', x')).
Proof.
  intros flag flag_str cross ls ws x x' Hw (st & ad & rest & strip & add & fl & cond & -> & Hst & (a & Hs & Ha) & Hc & Hf).
  unfold abody, take_words. rewrite Hw, str_eqb_refl. cbn [negb].
  apply split_naive_spec in Hs. rewrite Hs.
  assert (E1 : (if str_eqb st zero_str then None else Some st) = strip).
  { destruct (str_eqb_cases st zero_str) as [[Q E]|[Q E]]; rewrite Q; destruct Hst as [[Q1 ->]|[Q1 ->]];
      reflexivity || (exfalso; apply Q1; exact E) || (exfalso; apply E; exact Q1). }
  assert (E2 : (if str_eqb a zero_str then [] else a) = add).
  { destruct (str_eqb_cases a zero_str) as [[Q E]|[Q E]]; rewrite Q; destruct Ha as [[Q1 ->]|[Q1 ->]];
      reflexivity || (exfalso; apply Q1; exact E) || (exfalso; apply E; exact Q1). }
  assert (E3 : match rest with c :: _ => if str_eqb c (lit ".") then None else Some c | [] => None end = cond).
  { destruct Hc as [[-> ->]|[c [r [-> Hc]]]]; [reflexivity|].
    destruct (str_eqb_cases c (lit ".")) as [[Q E]|[Q E]]; rewrite Q; destruct Hc as [[Q1 ->]|[Q1 ->]];
      reflexivity || (exfalso; apply Q1; exact E) || (exfalso; apply E; exact Q1). }
  cbv zeta. rewrite E1, E2, E3, Hf. eexists. reflexivity.
Qed.

Lemma atable_rows : forall ls flag_str cp n ws flag count x,
  ln_words ls = Some (flag_str :: cp :: n :: ws) -> parse_flag_from_str pl t flag_str = Ret (Ok flag) ->
  cp = lit "Y" \/ cp = lit "N" -> parse_usize n = Ok count ->
  parse_affix_table pl key t f ls x =
  table_rows pl key (abody flag flag_str (str_eqb cp (lit "Y"))) count (with_words ls None) x.
Proof.
  intros ls flag_str cp n ws flag count x Hw Hf Hcp Hn. unfold parse_affix_table, take_words. rewrite Hw, Hf.
  cbn [mapErr at_line bindP okP].
  replace (negb (str_eqb cp (lit "Y") || str_eqb cp (lit "N"))) with false by (destruct Hcp; subst cp; reflexivity).
  rewrite Hn. reflexivity.
Qed.
End AffixTable.

(** CHECKCOMPOUNDPATTERN rows leave the cursor on their line. *)
Lemma pattern_row_rest : forall ls x ls' x', pattern_row pl ls x = Ret (Ok (ls', x')) ->
  ln_rest ls' = ln_rest ls /\ ln_src ls' = ln_src ls.
Proof.
  intros ls x ls' x' H. unfold pattern_row, take_words in H.
  destruct (ln_words ls) as [[|a [|b ws]]|]; try discriminate H.
  destruct (split_word_and_flagset_naive a) as [e1 f1]. destruct (split_word_and_flagset_naive b) as [e2 f2].
  destruct (at_line _ (mapErr MalformedFlag (optional_flag pl (x_flag_type x) f1))) as [[o1|]| |]; cbn [bindP] in H; try discriminate H.
  destruct (at_line _ (mapErr MalformedFlag (optional_flag pl (x_flag_type x) f2))) as [[o2|]| |]; cbn [bindP] in H; try discriminate H.
  injection H as <- <-. split; reflexivity.
Qed.
Definition pattern_step (ws : list str) (x x' : lparser) : Prop :=
  exists ls ls', ln_words ls = Some ws /\ pattern_row pl ls x = Ret (Ok (ls', x')).
Lemma readp : forall ls ws x ls' x', ln_words ls = Some ws -> pattern_row pl ls x = Ret (Ok (ls', x')) ->
  ln_rest ls' = ln_rest ls /\ ln_src ls' = ln_src ls /\ pattern_step ws x x'.
Proof.
  intros ls ws x ls' x' Hw H. destruct (pattern_row_rest _ _ H) as [H1 H2]. split; [exact H1|]. split; [exact H2|].
  exists ls, ls'. split; assumption.
Qed.
Lemma runp : forall ls ws x x', ln_words ls = Some ws -> pattern_step ws x x' ->
  exists ls', pattern_row pl ls x = Ret (Ok (ls', x')).
Proof.
  intros ls ws x x' Hw [l0 [l0' [Hw0 H]]]. unfold pattern_row, take_words in *. rewrite Hw. rewrite Hw0 in H.
  destruct ws as [|a [|b ws]]; try discriminate H.
  destruct (split_word_and_flagset_naive a) as [e1 f1]. destruct (split_word_and_flagset_naive b) as [e2 f2].
  destruct (optional_flag pl (x_flag_type x) f1) as [[o1|]| |]; cbn [mapErr at_line bindP okP errP error] in *; try discriminate H.
  destruct (optional_flag pl (x_flag_type x) f2) as [[o2|]| |]; cbn [mapErr at_line bindP okP errP error] in *; try discriminate H.
  injection H as _ <-. eexists. reflexivity.
Qed.

(** ** BREAK *)

(** Executing a BREAK directive replaces the patterns by the listed ones. *)
Theorem break_directive : forall ls n ws count x taken rest,
  ln_words ls = Some (n :: ws) -> parse_usize n = Ok count ->
  upcoming ls = taken ++ rest -> N.of_nat (length taken) = count ->
  (forall pats, Forall2 (fun nl p => exists r, words_of nl = lit "BREAK" :: p :: r) taken pats ->
   exists ls', parse_break_patterns pl x ls = Ret (Ok (ls', upd_breaks pats x)) /\ upcoming ls' = rest).
Proof.
  intros ls n ws count x taken rest Hw Hn Hu Hl pats HF. unfold parse_break_patterns.
  rewrite (@table1_rows lparser (lit "BREAK") _ ls n ws count _ Hw Hn).
  eapply table_run; [apply read1|apply run1|exact Hu| |exact Hl].
  assert (G : forall l y, Forall2 (fun nl p => exists r, words_of nl = lit "BREAK" :: p :: r) taken l ->
            Fed (lit "BREAK") (step1 (fun (a : str) (x : lparser) => okP (upd_breaks (x_breaks x ++ [a]) x))) taken
                y (upd_breaks (x_breaks y ++ l) y)).
  { clear. intros l y H. revert y. induction H as [|nl p taken l [r E] _ IH]; intro y.
    - rewrite app_nil_r. destruct y. constructor.
    - eapply fed_cons; [exact E|exists p, r; split; reflexivity|].
      specialize (IH (upd_breaks (x_breaks y ++ [p]) y)). cbn [upd_breaks x_breaks] in IH. rewrite <- app_assoc in IH.
      destruct y. exact IH. }
  specialize (G pats (upd_breaks [] x) HF). destruct x. exact G.
Qed.

(** ** Directives only move forward *)
Definition frames (p : lparser -> lines -> P perror (lines * lparser)) : Prop :=
  forall x ls ls' x', p x ls = Ret (Ok (ls', x')) -> exists pre, ln_rest ls = pre ++ ln_rest ls'.

Lemma same_frame : forall ls ls' : lines, ln_rest ls' = ln_rest ls -> exists pre, ln_rest ls = pre ++ ln_rest ls'.
Proof. intros ls ls' ->. exists []. reflexivity. Qed.

Lemma one_word_rest : forall ls ls' w, take_exactly_one_word ls = Ret (Ok (ls', w)) -> ln_rest ls' = ln_rest ls.
Proof.
  intros ls ls' w H. unfold take_exactly_one_word in H. destruct (ln_words ls) as [[|a ws]|]; try discriminate H.
  injection H as <- _. reflexivity.
Qed.
Lemma row_count_rest : forall ls ls' v, parse_row_count ls = Ret (Ok (ls', v)) -> ln_rest ls' = ln_rest ls.
Proof.
  intros ls ls' v H. unfold parse_row_count in H.
  destruct (take_exactly_one_word ls) as [[[l1 w]|]| |] eqn:E; cbn [bindP] in H; try discriminate H.
  destruct (parse_usize w); [|discriminate H]. injection H as <- _. exact (one_word_rest _ E).
Qed.
Lemma parse_flag_rest : forall t ls ls' v, parse_flag pl t ls = Ret (Ok (ls', v)) -> ln_rest ls' = ln_rest ls.
Proof.
  intros t ls ls' v H. unfold parse_flag in H.
  destruct (take_exactly_one_word ls) as [[[l1 w]|]| |] eqn:E; cbn [bindP] in H; try discriminate H.
  destruct (at_line _ _) as [[f|]| |]; cbn [bindP] in H; try discriminate H.
  injection H as <- _. exact (one_word_rest _ E).
Qed.

Lemma rows_frame : forall C key (body : lines -> C -> P perror (lines * C)),
  (forall ls x ls' x', body ls x = Ret (Ok (ls', x')) -> ln_rest ls' = ln_rest ls) ->
  forall fuel row count ls x ls' x', rows pl key body fuel row count ls x = Ret (Ok (ls', x')) ->
  exists pre, ln_rest ls = pre ++ ln_rest ls'.
Proof.
  intros C key body HB. induction fuel as [|fuel IH]; intros row count ls x ls' x' H; [discriminate H|].
  cbn [rows] in H. destruct (count <? row)%N; [injection H as <- _; exists []; reflexivity|].
  destruct (is_finished _); [discriminate H|]. destruct (next_word (advance_line pl ls)) as [ls2 w] eqn:En.
  destruct (match w with Some w => str_eqb w key | None => false end); [|discriminate H].
  destruct (body ls2 x) as [[[ls3 x3]|]| |] eqn:Eb; cbn [bindP] in H; try discriminate H.
  apply IH in H. destruct H as [pre H]. apply HB in Eb. rewrite Eb in H.
  assert (R : ln_rest ls2 = ln_rest (advance_line pl ls)).
  { unfold next_word in En. destruct (ln_words _) as [[|a ws]|]; injection En as <- _; reflexivity. }
  rewrite R in H. unfold advance_line in H. cbn [ln_rest] in H.
  destruct (skip_comments_suffix pl (tl (ln_rest ls))) as [pre2 Es]. rewrite H in Es.
  destruct (ln_rest ls) as [|a l].
  - cbn [tl] in Es. destruct pre2; [|discriminate Es]. exists pre. exact Es.
  - cbn [tl] in Es. exists (a :: pre2 ++ pre). rewrite Es. cbn [app]. rewrite <- app_assoc. reflexivity.
Qed.

Lemma frames_table1 : forall key f g,
  frames (fun x ls => parse_table1 pl key f ls (g x)).
Proof.
  intros key f g x ls ls' x' H. unfold parse_table1 in H.
  destruct (parse_row_count ls) as [[[l1 v]|]| |] eqn:E; cbn [bindP] in H; try discriminate H.
  apply rows_frame in H; [rewrite (row_count_rest _ E) in H; exact H|].
  clear. intros ls x ls' x' H. unfold take_words in H. destruct (match ln_words ls with Some ws => ws | None => [] end) as [|w ws]; [discriminate H|].
  destruct (at_line _ _) as [[y|]| |]; cbn [bindP] in H; try discriminate H. injection H as <- _. reflexivity.
Qed.
Lemma frames_table2 : forall key f g,
  frames (fun x ls => parse_table2 pl key f ls (g x)).
Proof.
  intros key f g x ls ls' x' H. unfold parse_table2 in H.
  destruct (parse_row_count ls) as [[[l1 v]|]| |] eqn:E; cbn [bindP] in H; try discriminate H.
  apply rows_frame in H; [rewrite (row_count_rest _ E) in H; exact H|].
  clear. intros ls x ls' x' H. unfold take_words in H. destruct (match ln_words ls with Some ws => ws | None => [] end) as [|w [|w2 ws]]; try discriminate H.
  destruct (at_line _ _) as [[y|]| |]; cbn [bindP] in H; try discriminate H. injection H as <- _. reflexivity.
Qed.
Lemma frames_affix : forall key f,
  frames (fun x ls => parse_affix_table pl key (x_flag_type x) f ls x).
Proof.
  intros key f x ls ls' x' H. unfold parse_affix_table, take_words in H.
  destruct (match ln_words ls with Some ws => ws | None => [] end) as [|fs ws]; [discriminate H|].
  destruct (at_line _ _) as [[flag|]| |]; cbn [bindP] in H; try discriminate H.
  destruct ws as [|cp ws]; [discriminate H|]. destruct (negb _); [discriminate H|].
  destruct ws as [|n ws]; [discriminate H|]. destruct (parse_usize n) as [count|]; [|discriminate H].
  apply rows_frame in H; [exact H|].
  clear. intros ls x ls' x' H.
  destruct (match ln_words ls with Some ws => ws | None => [] end) as [|f1 ws]; [discriminate H|].
  destruct (negb _); [discriminate H|]. destruct ws as [|st [|ad ws]]; try discriminate H.
  destruct (split_word_and_flagset_naive ad) as [a fl].
  match type of H with context [at_line ?l ?z] => destruct (at_line l z) as [[y|]| |]; cbn [bindP] in H; try discriminate H end.
  injection H as <- _. reflexivity.
Qed.

Lemma all_frames : Forall (fun e => frames (snd e)) (aff_parsers pl).
Proof.
  unfold aff_parsers. repeat apply Forall_cons; try apply Forall_nil; cbn [snd];
  match goal with
  | |- frames parse_flag_type => idtac
  | |- frames (parse_forbidden_word_flag _) => idtac
  | |- frames (flag_directive _ _) =>
      intros x ls ls' x' H; unfold flag_directive in H; apply same_frame;
      destruct (parse_flag _ _ _) as [[[l1 v]|]| |] eqn:E; cbn [bindP] in H; try discriminate H;
      injection H as <- _; exact (parse_flag_rest _ _ E)
  | |- frames (bool_directive _) =>
      intros x ls ls' x' H; apply same_frame; injection H as <- _; reflexivity
  | |- frames (short_directive _) =>
      intros x ls ls' x' H; unfold short_directive, parse_short in H; apply same_frame;
      destruct (take_exactly_one_word ls) as [[[l1 w]|]| |] eqn:E; cbn [bindP] in H; try discriminate H;
      destruct (parse_u16 w); cbn [bindP okP error errP] in H; try discriminate H;
      injection H as <- _; exact (one_word_rest _ E)
  | |- frames (word_directive _) =>
      intros x ls ls' x' H; unfold word_directive in H; apply same_frame;
      destruct (take_exactly_one_word ls) as [[[l1 w]|]| |] eqn:E; cbn [bindP] in H; try discriminate H;
      injection H as <- _; exact (one_word_rest _ E)
  | |- frames (parse_replacements _) => apply (@frames_table2 _ _ (fun x => x))
  | |- frames (parse_input_conversions _) => apply (@frames_table2 _ _ (fun x => x))
  | |- frames (parse_output_conversions _) => apply (@frames_table2 _ _ (fun x => x))
  | |- frames (parse_break_patterns _) => apply (@frames_table1 _ _ (upd_breaks []))
  | |- frames (parse_flag_aliases _) => apply (@frames_table1 _ _ (fun x => x))
  | |- frames (parse_compound_rule_table _) => apply (@frames_table1 _ _ (fun x => x))
  | |- frames (parse_map _) => apply (@frames_table1 _ _ (fun x => x))
  | |- frames (parse_prefix_table _) => apply frames_affix
  | |- frames (parse_suffix_table _) => apply frames_affix
  | |- _ => idtac
  end.
  - intros x ls ls' x' H. unfold parse_flag_type in H. apply same_frame.
    destruct (take_exactly_one_word ls) as [[[l1 w]|]| |] eqn:E; cbn [bindP] in H; try discriminate H.
    apply one_word_rest in E.
    repeat match type of H with (if ?b then _ else _) = _ => destruct b end; try discriminate H; injection H as <- _; exact E.
  - intros x ls ls' x' H. unfold parse_forbidden_word_flag in H. apply same_frame.
    destruct (parse_flag _ _ _) as [[[l1 v]|]| |] eqn:E; cbn [bindP] in H; try discriminate H.
    injection H as <- _. exact (parse_flag_rest _ _ E).
  - intros x ls ls' x' H. unfold parse_compound_syllable, take_words in H. apply same_frame.
    destruct (ln_words ls) as [[|a [|b ws]]|]; try discriminate H.
    destruct (parse_u16 a); [|discriminate H]. injection H as <- _. reflexivity.
  - intros x ls ls' x' H. unfold parse_compound_pattern_table in H.
    destruct (parse_row_count ls) as [[[l1 v]|]| |] eqn:E; cbn [bindP] in H; try discriminate H.
    apply rows_frame in H; [rewrite (row_count_rest _ E) in H; exact H|].
    intros l x0 l' x0' Q. apply (pattern_row_rest _ _ Q).
Qed.

(** Without a line that starts with BREAK the default patterns stay. *)
Lemma no_break_go : forall fuel ls x,
  lines_ok pl ls -> lp_ok x -> x_breaks x = x_breaks default_lp -> length (ln_rest ls) < fuel ->
  ln_words ls = peek_words pl (ln_rest ls) ->
  Forall (fun nl => ~ carries (lit "BREAK") nl) (ln_rest ls) ->
  safe (fun x => x_breaks x = x_breaks default_lp) (aff_go pl fuel ls x).
Proof.
  induction fuel as [|fuel IH]; intros ls x Hl Hx Hb Hf Hp Hn; [lia|]. cbn [aff_go].
  destruct (is_finished ls) eqn:Ef; [exact Hb|].
  destruct (next_word ls) as [ls1 w] eqn:En.
  destruct (@next_word_ok pl _ _ _ Hl En) as [O1 [O2 O3]].
  set (p := match w with Some key => find_parser pl key | None => None end).
  assert (Step : safe (fun r => good pl (Kept (fun l => l = x_breaks default_lp)) ls1 r /\
                          exists pre, ln_rest ls1 = pre ++ ln_rest (fst r))
             (match p with Some parser => parser x ls1 | None => okP (ls1, x) end)).
  { assert (K0 : Kept (fun l => l = x_breaks default_lp) x) by (split; assumption).
    destruct p as [parser|] eqn:Ep.
    - unfold p in Ep. destruct w as [key|]; [|discriminate Ep]. assert (I := find_parser_In pl _ Ep).
      assert (KB := @all_parsers_keep pl (fun l => l = x_breaks default_lp)). rewrite Forall_forall in KB.
      assert (FR := all_frames). rewrite Forall_forall in FR.
      specialize (KB _ I). specialize (FR _ I). cbn [fst snd] in KB, FR.
      destruct KB as [KB|KB].
      + exfalso. destruct (ln_rest ls) as [|nl t] eqn:Er; [unfold is_finished in Ef; rewrite Er in Ef; discriminate Ef|].
        inversion Hn as [|? ? Hn1 _]; subst. apply Hn1. unfold next_word in En. rewrite Hp in En. cbn [peek_words] in En.
        unfold carries, words_of. destruct (split_whitespace pl (snd nl)) as [|w0 ws]; [discriminate En|].
        injection En as _ ->. exists ws. reflexivity.
      + specialize (KB x ls1 O1 K0). destruct (parser x ls1) as [[[l2 x2]|]| |] eqn:E2; cbn [safe] in *; try exact KB.
        split; [exact KB|]. eapply FR. exact E2.
    - cbn [safe okP]. split; [|exists []; reflexivity]. split; [exact O1|]. split; [cbn; lia|exact K0]. }
  destruct (match p with Some parser => parser x ls1 | None => okP (ls1, x) end) as [[[ls2 x2]|]| |];
    cbn [bindP safe] in *; try exact Step.
  destruct Step as [[G1 [G2 [G3 G4]]] [pre G5]]. cbn [fst snd] in *.
  apply IH; [apply advance_ok, G1|exact G3|exact G4| |reflexivity|].
  - assert (Q := advance_le pl ls2). rewrite O2 in G2.
    unfold is_finished in Ef. destruct (ln_rest ls); [discriminate Ef|]. cbn [length] in *. lia.
  - rewrite O2 in G5. rewrite G5 in Hn. apply Forall_app in Hn. destruct Hn as [_ Hn].
    unfold advance_line. cbn [ln_rest]. destruct (skip_comments_suffix pl (tl (ln_rest ls2))) as [pre2 Es].
    destruct (ln_rest ls2) as [|a l]; [constructor|]. cbn [tl] in *. inversion Hn; subst.
    rewrite Es in H2. apply Forall_app in H2. apply H2.
Qed.

Theorem default_breaks : forall text x, scalars text -> parse_aff pl text = Ret (Ok x) ->
  (forall nl, In nl (ln_rest (lines_new pl text SrcAff)) -> ~ carries (lit "BREAK") nl) ->
  x_breaks x = [lit "^-"; lit "-"; lit "-$"].
Proof.
  intros text x Hs H Hn. unfold parse_aff in H.
  assert (Q := @no_break_go (S (length (ln_rest (lines_new pl text SrcAff)))) (lines_new pl text SrcAff) default_lp).
  rewrite H in Q. apply Q.
  - apply lines_new_ok, Hs.
  - apply lp_ok_default.
  - reflexivity.
  - lia.
  - reflexivity.
  - apply Forall_forall. exact Hn.
Qed.
End Tables.
