(** Property C55: a parse error says which text, which line and which fault. *)
From Coq Require Import String Ascii List NArith ZArith Lia Bool Arith.
From Verif Require Import Base Utf8 Unicode Flags Bag Condition Affix Conversion Aff Checker AffixSpec CompoundRule
  Parser ParserSafe Lib LibSpec LibProps ParserProps TableProps Grammar DicGrammar ErrorGrammar Examples Properties_Affix Properties_Check Properties_Dic.
Import ListNotations.
Local Open Scope string_scope.
Local Open Scope list_scope.
Local Open Scope nat_scope.
Set Implicit Arguments.

Section Dict.
Variable pl : platform.

Lemma new_fails : forall aff dic e, scalars aff -> new pl aff dic = Ret (Err e) ->
  parse_aff pl aff = Ret (Err e) \/ exists x, parse_aff pl aff = Ret (Ok x) /\ lp_ok x /\ parse_dic pl x dic = Ret (Err e).
Proof.
  intros aff dic e Ha H. unfold new, parse in H. destruct (parse_aff pl aff) as [[x|e1]| |] eqn:E1; cbn [bindP] in H; try discriminate H.
  - right. exists x. split; [reflexivity|]. split; [pose proof (parse_aff_safe pl Ha) as S1; rewrite E1 in S1; exact S1|].
    destruct (parse_dic pl x dic) as [[t|e2]| |]; cbn [bindP] in H; try discriminate H; [|injection H as <-; reflexivity].
    destruct (collect pl x); cbn [bindR bindP okP] in H; discriminate H.
  - injection H as <-. left. reflexivity.
Qed.

(** The error names the text with the fault, the line of the first fault and the fault: every
    line before it can be read.  The .aff text comes first. *)
Theorem C55_error : forall aff dic e, scalars aff -> scalars dic -> new pl aff dic = Ret (Err e) ->
  (exists i k, TextFault pl (aff_words pl aff) default_lp i k /\ e = mkError k SrcAff (option_map fst (nth_error (numbered pl aff) i))) \/
  (exists x i k, Text pl (aff_words pl aff) default_lp x /\ DicFault pl x (plain_lines pl dic) i k /\
     e = mkError k SrcDic (option_map fst (nth_error (numbered pl dic) i))).
Proof.
  intros aff dic e Ha Hd H. apply new_fails in H; [|exact Ha]. destruct H as [H|(x & E & LP & H)].
  - left. apply aff_fault; assumption.
  - right. exists x. destruct (@dic_fault pl _ _ _ LP Hd H) as (i & k & D & ->). exists i, k. split; [apply parse_aff_exact; assumption|]. split; [exact D|reflexivity].
Qed.

Theorem C55_source : forall aff dic e, scalars aff -> scalars dic -> new pl aff dic = Ret (Err e) ->
  (pe_source e = SrcAff <-> ~ exists x, Text pl (aff_words pl aff) default_lp x) /\
  (pe_source e = SrcDic <-> exists x, Text pl (aff_words pl aff) default_lp x /\ ~ exists es, DicText pl x dic es).
Proof.
  intros aff dic e Ha Hd H. assert (N1 := H). apply new_fails in N1; [|exact Ha]. destruct N1 as [E|(x & E & LP & D)].
  - destruct (@aff_fault pl _ _ Ha E) as (i & k & _ & ->). cbn [pe_source].
    assert (N : ~ exists x, Text pl (aff_words pl aff) default_lp x) by (intros (x & T); apply parse_aff_exact in T; [|exact Ha]; congruence).
    split; [split; auto|]. split; [discriminate|]. intros (x & T & _). exfalso. eauto.
  - destruct (@dic_fault pl _ _ _ LP Hd D) as (i & k & _ & ->). cbn [pe_source]. assert (T : Text pl (aff_words pl aff) default_lp x) by (apply parse_aff_exact; assumption).
    split; [split; [discriminate|]; intro N; exfalso; eauto|]. split; [|reflexivity]. intros _. exists x. split; [exact T|].
    intros (es & DT). assert (parse_dic pl x dic = Ret (Ok (insert_all pl [] es))) by (apply parse_dic_exact; eauto). congruence.
Qed.

(** ** The line *)
Definition stripped (text : str) : str := match strip_prefix [65279%N] text with Some t => t | None => text end.
Lemma counted_nth : forall ls n i m l, nth_error (counted_lines pl n ls) i = Some (m, l) ->
  (n <= m)%N /\ nth_error ls (N.to_nat (m - n)) = Some l /\ is_comment pl l = false.
Proof.
  induction ls as [|l0 ls IH]; intros n i m l H; [destruct i; discriminate H|]. cbn [counted_lines] in H.
  assert (NEXT : forall j, nth_error (counted_lines pl (n + 1) ls) j = Some (m, l) -> (n <= m)%N /\ nth_error (l0 :: ls) (N.to_nat (m - n)) = Some l /\ is_comment pl l = false).
  { intros j Q. apply IH in Q. destruct Q as (Q1 & Q2 & Q3). split; [lia|]. split; [|exact Q3]. replace (N.to_nat (m - n)) with (S (N.to_nat (m - (n + 1)))) by lia. exact Q2. }
  destruct (is_comment pl l0) eqn:C; [eapply NEXT, H|]. destruct i as [|i]; cbn [nth_error] in H; [|eapply NEXT, H].
  injection H as <- <-. split; [lia|]. rewrite N.sub_diag. auto.
Qed.
Lemma aff_words_length : forall aff, length (aff_words pl aff) = length (numbered pl aff).
Proof. intro aff. rewrite pending_words, (numbered_pending pl aff SrcAff), !map_length. reflexivity. Qed.
Lemma fault_past : forall ls x i k, TextFault pl ls x i k -> length ls <= i -> exists c g, k = MismatchedRowCount c g /\ (g <= c)%N.
Proof.
  intros ls x i k H. induction H as [key ws after x i k D|ws r x i k N T IH|key ws rws r x x1 i k D T IH]; intro L; cbn [length] in L.
  - destruct D as [key ws after k LF|key h count rws cells r more k K HD F C RF|key h count rws cells more K HD F C M]; [lia| |].
    + rewrite app_length in L. cbn [length] in L. lia.
    + eexists _, _. split; [reflexivity|]. lia.
  - apply IH. lia.
  - apply IH. rewrite app_length in L. lia.
Qed.

(** The line number is that of a line of the text which is not a comment.  There is none
    only when a table is cut by the end of the .aff text, or when the .dic text is empty. *)
Theorem C55_line : forall aff dic e, scalars aff -> scalars dic -> new pl aff dic = Ret (Err e) ->
  let text := match pe_source e with SrcAff => aff | SrcDic => dic end in
  match pe_line e with
  | Some n => (1 <= n)%N /\ exists l, nth_error (text_lines (stripped text)) (N.to_nat (n - 1)) = Some l /\ is_comment pl l = false
  | None =>
      (pe_source e = SrcAff /\ exists c g, pe_kind e = MismatchedRowCount c g /\ (g <= c)%N) \/
      (pe_source e = SrcDic /\ plain_lines pl dic = [] /\ pe_kind e = MismatchedArity 1 0)
  end.
Proof.
  intros aff dic e Ha Hd H. apply C55_error in H; try assumption.
  assert (LINE : forall text i, match nth_error (numbered pl text) i with
     | Some (n, l) => (1 <= n)%N /\ nth_error (text_lines (stripped text)) (N.to_nat (n - 1)) = Some l /\ is_comment pl l = false | None => True end).
  { intros text i. destruct (nth_error (numbered pl text) i) as [[n l]|] eqn:E; [|exact I]. unfold numbered in E. apply counted_nth in E. exact E. }
  destruct H as [(i & k & T & ->)|(x & i & k & _ & D & ->)]; cbn [pe_source pe_line pe_kind].
  - specialize (LINE aff i). destruct (nth_error (numbered pl aff) i) as [[n l]|] eqn:E; cbn [option_map fst].
    + destruct LINE as (L1 & L2). eauto.
    + left. split; [reflexivity|]. eapply fault_past; [exact T|]. rewrite aff_words_length. apply nth_error_None, E.
  - specialize (LINE dic i). destruct (nth_error (numbered pl dic) i) as [[n l]|] eqn:E; cbn [option_map fst].
    + destruct LINE as (L1 & L2). eauto.
    + right. split; [reflexivity|]. apply nth_error_None in E.
      assert (PL : length (plain_lines pl dic) = length (numbered pl dic)).
      { unfold plain_lines, numbered. change 1%N with (0 + 1)%N. rewrite counted_number, map_length, <- (@map_filter_number _ _ 0%N), map_length. reflexivity. }
      rewrite <- PL in E. destruct D as [|l r S1|l r w ws e S1 NF|l w ws n good bad more es k S1 DN L DE EF]; [auto|cbn in E; lia|cbn in E; lia|].
      cbn [length] in E. rewrite app_length in E. cbn [length] in E. lia.
Qed.
End Dict.

(** A table with a row missing, after a comment; a condition that is not closed; a flag that is
    not a number in the .dic text; a table cut by the end. *)
Definition err_aff1 : str := lit "# sample
SET UTF-8
REP 2
REP a b
TRY abc".
Definition err_aff2 : str := lit "SFX A Y 2
SFX A 0 s .
SFX A y ies [^aeiou".
Definition err_aff3 : str := lit "FLAG num".
Definition err_dic3 : str := lit "2
cat
# note
dog/1,x".
Definition err_aff4 : str := lit "MAP 3
MAP ab".
Example C55_example :
  new ex_pl err_aff1 (lit "0") = Ret (Err (mkError (MismatchedRowCount 2 2) SrcAff (Some 5%N))) /\
  new ex_pl err_aff2 (lit "0") = Ret (Err (mkError (MalformedCondition UnclosedCharacterClass) SrcAff (Some 3%N))) /\
  new ex_pl err_aff3 err_dic3 = Ret (Err (mkError (MalformedFlag (FlagInt IntInvalidDigit)) SrcDic (Some 4%N))) /\
  new ex_pl err_aff4 (lit "0") = Ret (Err (mkError (MismatchedRowCount 3 2) SrcAff None)) /\
  TextFault ex_pl (aff_words ex_pl err_aff1) default_lp 3 (MismatchedRowCount 2 2).
Proof.
  assert (E1 : new ex_pl err_aff1 (lit "0") = Ret (Err (mkError (MismatchedRowCount 2 2) SrcAff (Some 5%N)))) by (vm_compute; reflexivity).
  split; [exact E1|]. split; [vm_compute; reflexivity|]. split; [vm_compute; reflexivity|]. split; [vm_compute; reflexivity|].
  assert (S1 : scalars err_aff1) by (apply lit_scalars; reflexivity). assert (S0 : scalars (lit "0")) by (apply lit_scalars; reflexivity).
  destruct (@C55_error ex_pl err_aff1 (lit "0") _ S1 S0 E1) as [(i & k & T & Q)|(x & i & k & _ & _ & Q)]; [|discriminate Q].
  injection Q as <- Q. assert (i = 3) as ->; [|exact T].
  assert (N : numbered ex_pl err_aff1 = [(2, lit "SET UTF-8"); (3, lit "REP 2"); (4, lit "REP a b"); (5, lit "TRY abc")]%N) by (vm_compute; reflexivity).
  rewrite N in Q. destruct i as [|[|[|[|i]]]]; cbn in Q; try discriminate Q; [reflexivity|]. destruct i; discriminate Q.
Qed.

Print Assumptions C55_error.
Print Assumptions C55_source.
Print Assumptions C55_line.
