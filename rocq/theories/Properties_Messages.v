(** Property C74: what the messages of errors say. *)
From Coq Require Import String Ascii List NArith ZArith Lia Bool Arith.
From Verif Require Import Base Utf8 Unicode Flags Bag Condition Affix Conversion Aff Checker AffixSpec CompoundRule
  Parser ParserSafe Lib LibSpec LibProps ParserProps TableProps Grammar DicGrammar ErrorGrammar Examples Properties_Affix Properties_Check Properties_Dic
  Properties_Errors Display.
Import ListNotations.
Local Open Scope string_scope.
Local Open Scope list_scope.
Local Open Scope nat_scope.
Set Implicit Arguments.

(** ** Numbers *)
(** [Numeral s n]: [s] is the decimal text of [n], without leading zeros. *)
Definition Numeral (s : str) (n : N) : Prop :=
  s <> [] /\ Forall digit s /\ dec_value s = n /\ (hd 0%N s = 48%N -> s = [48%N]).

Lemma show_digits_spec : forall fuel n acc, (n < 2 ^ N.of_nat fuel)%N -> fuel <> 0 ->
  exists s, show_digits fuel n acc = s ++ acc /\ Numeral s n.
Proof.
  induction fuel as [|fuel IH]; intros n acc L NZ; [contradiction|]. cbn [show_digits].
  destruct (N.ltb_spec n 10) as [H|H].
  - exists [(48 + n)%N]. split; [reflexivity|]. repeat split.
    + discriminate.
    + constructor; [unfold digit; lia|constructor].
    + unfold dec_value, dec_value_from. cbn [fold_left]. lia.
    + cbn [hd]. intros E. rewrite E. reflexivity.
  - assert (DM := N.div_mod n 10 ltac:(lia)). assert (M := N.mod_lt n 10 ltac:(lia)).
    destruct fuel as [|fuel].
    { exfalso. change (2 ^ N.of_nat 1)%N with 2%N in L. lia. }
    destruct (IH (n / 10)%N ((48 + n mod 10)%N :: acc)) as (s & E & NE & F & V & Z); [|discriminate|].
    { replace (N.of_nat (S (S fuel))) with (N.succ (N.of_nat (S fuel))) in L by lia. rewrite N.pow_succ_r' in L. lia. }
    exists (s ++ [(48 + n mod 10)%N]). rewrite E. split; [rewrite <- app_assoc; reflexivity|]. repeat split.
    + destruct s; discriminate.
    + apply Forall_app. split; [exact F|constructor; [unfold digit; lia|constructor]].
    + unfold dec_value, dec_value_from in *. rewrite fold_left_app, V. cbn [fold_left]. lia.
    + destruct s as [|c s]; [contradiction|]. cbn [hd app]. cbn [hd] in Z. intros ->. specialize (Z eq_refl). injection Z as ->.
      exfalso. unfold dec_value, dec_value_from in V. cbn [fold_left] in V. lia.
Qed.
Lemma show_number_spec : forall n, Numeral (show_number n) n.
Proof.
  intros n. unfold show_number. destruct (@show_digits_spec (S (N.size_nat n)) n []) as (s & E & H); [|discriminate|].
  - destruct n as [|p]; [reflexivity|]. pose proof (N.size_gt (N.pos p)) as G.
    replace (N.of_nat (S (N.size_nat (N.pos p)))) with (N.succ (N.size (N.pos p))).
    + rewrite N.pow_succ_r'. lia.
    + rewrite Nat2N.inj_succ. f_equal. clear. cbn [N.size N.size_nat]. induction p as [p IH|p IH|]; cbn [Pos.size Pos.size_nat]; [| |reflexivity];
        rewrite Nat2N.inj_succ, <- IH; destruct (Pos.size p); reflexivity.
  - rewrite E, app_nil_r. exact H.
Qed.
Lemma numeral_inj : forall s n m, Numeral s n -> Numeral s m -> n = m.
Proof. intros s n m (_ & _ & E1 & _) (_ & _ & E2 & _). congruence. Qed.
Lemma numeral_then : forall (s s' : str) c r c' r', Forall digit s -> Forall digit s' -> ~ digit c -> ~ digit c' ->
  s ++ c :: r = s' ++ c' :: r' -> s = s' /\ c :: r = c' :: r'.
Proof.
  induction s as [|x s IH]; intros s' c r c' r' F F' N N' H.
  - destruct s' as [|x' s']; [split; [reflexivity|exact H]|]. injection H as -> _. exfalso. apply N. exact (Forall_inv F').
  - destruct s' as [|x' s'].
    + injection H as -> _. exfalso. apply N'. exact (Forall_inv F).
    + injection H as -> H. destruct (IH s' c r c' r' (Forall_inv_tail F) (Forall_inv_tail F') N N' H) as [-> E]. split; [reflexivity|exact E].
Qed.
Lemma show_then : forall n m c r c' r', ~ digit c -> ~ digit c' -> show_number n ++ c :: r = show_number m ++ c' :: r' ->
  n = m /\ c :: r = c' :: r'.
Proof.
  intros n m c r c' r' N N' H. destruct (show_number_spec n) as (_ & F & _). destruct (show_number_spec m) as (_ & F' & _).
  destruct (numeral_then _ _ F F' N N' H) as [E E']. split; [|exact E'].
  pose proof (show_number_spec m) as S1. rewrite <- E in S1. exact (numeral_inj (show_number_spec n) S1).
Qed.
Lemma show_inj : forall n m, show_number n = show_number m -> n = m.
Proof.
  intros n m E. pose proof (show_number_spec m) as S1. rewrite <- E in S1. exact (numeral_inj (show_number_spec n) S1).
Qed.
Lemma show_first : forall n c r r', ~ digit c -> show_number n ++ r = c :: r' -> False.
Proof.
  intros n c r r' N H. destruct (show_number_spec n) as (NE & F & _). destruct (show_number n) as [|d s]; [contradiction|].
  injection H as -> _. apply N. exact (Forall_inv F).
Qed.

(** ** Different errors have different messages *)
Ltac differ := let H := fresh in intros H; exfalso; revert H; vm_compute; discriminate.
Lemma int_error_inj : forall a b, show_int_error a = show_int_error b -> a = b.
Proof. intros [] []; try reflexivity; differ. Qed.
Lemma condition_error_inj : forall a b, show_condition_error a = show_condition_error b -> a = b.
Proof. intros [] []; try reflexivity; differ. Qed.
(** The error of [add]. *)
Theorem C74_flag_messages_differ : forall a b, show_flag_error a = show_flag_error b -> a = b.
Proof.
  intros [c| |e| | | |] [c'| |e'| | | |]; cbn [show_flag_error]; try reflexivity; try differ;
    try (destruct e; differ); try (destruct e'; differ).
  - intros H. apply app_inv_head in H. injection H as ->. reflexivity.
  - intros H. apply int_error_inj in H. subst. reflexivity.
Qed.
Lemma rule_error_inj : forall a b, show_rule_error a = show_rule_error b -> a = b.
Proof.
  intros [e|] [e'|]; cbn [show_rule_error]; try reflexivity; try differ.
  intros H. apply app_inv_head in H. apply C74_flag_messages_differ in H. subst. reflexivity.
Qed.
Ltac by_head := match goal with
  | |- lit ?a ++ ?r = lit ?a ++ ?r' -> _ => let H := fresh in intros H; apply app_inv_head in H; revert H
  end.
Lemma no_digit_32 : ~ digit 32%N. Proof. unfold digit. lia. Qed.
Lemma kind_inj : forall a b, show_kind a = show_kind b -> a = b.
Proof.
  assert (AR : forall n m t n' m' t', lit "expected " ++ show_number n ++ 32%N :: t ++ show_number m =
      lit "expected " ++ show_number n' ++ 32%N :: t' ++ show_number m' -> n = n' /\ t ++ show_number m = t' ++ show_number m').
  { intros n m t n' m' t' H. apply app_inv_head in H. apply show_then in H; [|exact no_digit_32|exact no_digit_32].
    destruct H as [-> H]. injection H as H. auto. }
  assert (UN : forall s n t, lit "expected FLAG to be `long`, `num` or `UTF-8` if set, found " ++ s = lit "expected " ++ show_number n ++ t -> False).
  { intros s n t H.
    change (lit "expected FLAG to be `long`, `num` or `UTF-8` if set, found ") with
      (lit "expected " ++ 70%N :: lit "LAG to be `long`, `num` or `UTF-8` if set, found ") in H.
    rewrite <- app_assoc in H. apply app_inv_head in H. cbn [app] in H. symmetry in H. apply show_first in H; [exact H|unfold digit; lia]. }
  intros a b. destruct a as [s|e|e|n m|n m|e| |e|]; destruct b as [s'|e'|e'|n' m'|n' m'|e'| |e'|]; cbn [show_kind]; try reflexivity;
    try differ; try (destruct e; differ); try (destruct e'; differ).
  - intros H. apply app_inv_head in H. subst. reflexivity.
  - intros H. exfalso. exact (UN _ _ _ H).
  - intros H. exfalso. exact (UN _ _ _ H).
  - intros H. apply app_inv_head in H. apply C74_flag_messages_differ in H. subst. reflexivity.
  - intros H. apply int_error_inj in H. subst. reflexivity.
  - intros H. exfalso. symmetry in H. exact (UN _ _ _ H).
  - intros H. apply AR in H. destruct H as [-> H]. apply app_inv_head in H. apply show_inj in H. subst. reflexivity.
  - intros H. apply AR in H. destruct H as [-> H]. exfalso. revert H. cbn. discriminate.
  - intros H. exfalso. symmetry in H. exact (UN _ _ _ H).
  - intros H. apply AR in H. destruct H as [-> H]. exfalso. revert H. cbn. discriminate.
  - intros H. apply AR in H. destruct H as [-> H]. apply app_inv_head in H. apply show_inj in H. subst. reflexivity.
  - intros H. apply app_inv_head in H. apply rule_error_inj in H. subst. reflexivity.
  - intros H. apply app_inv_head in H. apply condition_error_inj in H. subst. reflexivity.
Qed.
(** The message tells the text, the line and the fault: different errors, different messages. *)
Theorem C74_messages_differ : forall a b, show_error a = show_error b -> a = b.
Proof.
  intros [k s l] [k' s' l']. unfold show_error. cbn [pe_line pe_source pe_kind].
  assert (C58 : ~ digit 58%N) by (unfold digit; lia).
  destruct l as [n|]; destruct l' as [n'|]; intros H; apply app_inv_head in H.
  - assert (s = s' /\ show_number n ++ lit ": " ++ show_kind k = show_number n' ++ lit ": " ++ show_kind k') as [<- E].
    { destruct s, s'; try (exfalso; revert H; cbn; discriminate); (split; [reflexivity|]);
        apply app_inv_head in H; apply app_inv_head in H; exact H. }
    change (lit ": ") with (58%N :: [32%N]) in E. cbn [app] in E. apply show_then in E; [|exact C58|exact C58]. destruct E as [<- E].
    injection E as E. apply kind_inj in E. subst. reflexivity.
  - exfalso. revert H. destruct s, s'; cbn; discriminate.
  - exfalso. revert H. destruct s, s'; cbn; discriminate.
  - destruct s, s'; try (exfalso; revert H; cbn; discriminate); apply app_inv_head in H; apply app_inv_head in H; apply kind_inj in H; subst; reflexivity.
Qed.

(** ** The message of a text that does not load *)
Lemma ws_parts : forall pl w cur x, In x (ws_go pl w cur) -> forall c, In c x -> In c (w ++ cur).
Proof.
  intros pl. induction w as [|a w IH]; intros cur x I c Ic; cbn [ws_go] in I.
  - destruct cur as [|b cur]; [destruct I|]. destruct I as [<-|[]]. apply in_rev in Ic. exact Ic.
  - cbn [app]. destruct (u_is_ws (pl_unicode pl) a).
    + destruct cur as [|b cur].
      * right. specialize (IH [] x I c Ic). exact IH.
      * destruct I as [<-|I]; [right; apply in_app_iff; right; apply in_rev in Ic; exact Ic|].
        right. specialize (IH [] x I c Ic). rewrite app_nil_r in IH. apply in_app_iff. left. exact IH.
    + specialize (IH (a :: cur) x I c Ic). apply in_app_iff in IH. destruct IH as [IH|[IH|IH]]; [right; apply in_app_iff; left; exact IH|left; exact IH|].
      right. apply in_app_iff. right. exact IH.
Qed.
Lemma lines_parts : forall w cur l, ~ In 10%N cur -> In l (lines_go w cur) -> ~ In 10%N l.
Proof.
  induction w as [|a w IH]; intros cur l NC I; cbn [lines_go] in I.
  - destruct cur as [|b cur]; [destruct I|]. destruct I as [<-|[]]. intros X. apply in_rev in X. contradiction.
  - destruct (N.eqb_spec a 10) as [->|Ne].
    + destruct I as [<-|I]; [|exact (IH [] l (fun X => X) I)]. unfold strip_cr. destruct cur as [|b cur]; [intros []|].
      intros X. apply NC. destruct (b =? 13)%N; apply in_rev in X; [right; exact X|exact X].
    + apply (IH (a :: cur) l); [|exact I]. intros [X|X]; [congruence|contradiction].
Qed.
Lemma number_parts : forall A (l : list A) n x, In x (number_from n l) -> In (snd x) l.
Proof. intros A. induction l as [|y l IH]; intros n x I; [destruct I|]. destruct I as [<-|I]; [left; reflexivity|right; exact (IH _ _ I)]. Qed.
Lemma aff_words_parts : forall pl text ws w, In ws (aff_words pl text) -> In w ws -> ~ In 10%N w.
Proof.
  intros pl text ws w I Iw X. unfold aff_words in I. apply in_map_iff in I. destruct I as (nl & <- & I). apply filter_In in I.
  destruct I as [I _]. apply number_parts in I. unfold words_of, split_whitespace in Iw. pose proof (@ws_parts _ _ _ _ Iw _ X) as J.
  rewrite app_nil_r in J. exact (@lines_parts _ [] _ (fun X => X) I J).
Qed.
(** No line feed. *)
Definition plain (s : str) : Prop := ~ In 10%N s.
Lemma plain_app : forall s t, plain s -> plain t -> plain (s ++ t).
Proof. intros s t A B X. apply in_app_iff in X. destruct X; contradiction. Qed.
Lemma plain_check : forall s, existsb (N.eqb 10) s = false -> plain s.
Proof. intros s E X. assert (existsb (N.eqb 10) s = true); [|congruence]. apply existsb_exists. exists 10%N. split; [exact X|reflexivity]. Qed.
Lemma plain_number : forall n, plain (show_number n).
Proof.
  intros n X. destruct (show_number_spec n) as (_ & F & _). rewrite Forall_forall in F. specialize (F _ X). unfold digit in F. lia.
Qed.
(** The only texts of a message that come from the file: the word after [FLAG] and a character
    that is not ASCII. *)
Definition quiet_flag (e : flag_error) : Prop := match e with NonAscii c => (128 <= c)%N | _ => True end.
Definition quiet (k : error_kind) : Prop :=
  match k with
  | UnknownFlagType w => plain w
  | MalformedFlag e | MalformedCompoundRule (RuleFlag e) => quiet_flag e
  | _ => True
  end.
Lemma plain_flag : forall e, quiet_flag e -> plain (show_flag_error e).
Proof.
  intros [c| |e| | | |] Q; cbn [show_flag_error]; try (apply plain_check; reflexivity).
  - cbn in Q. apply plain_app; [apply plain_check; reflexivity|]. intros [X|[]]. lia.
  - destruct e; apply plain_check; reflexivity.
Qed.
Lemma plain_kind : forall k, quiet k -> plain (show_kind k).
Proof.
  assert (L : forall s t, existsb (N.eqb 10) (lit s) = false -> plain t -> plain (lit s ++ t)).
  { intros s t E T. apply plain_app; [apply plain_check, E|exact T]. }
  intros [w|e|e|n m|n m|e| |e|] Q; cbn [show_kind]; cbn [quiet] in Q; try (apply plain_check; reflexivity).
  - apply L; [reflexivity|exact Q].
  - apply L; [reflexivity|apply plain_flag, Q].
  - destruct e; apply plain_check; reflexivity.
  - apply L; [reflexivity|]. apply plain_app; [apply plain_number|]. apply L; [reflexivity|apply plain_number].
  - apply L; [reflexivity|]. apply plain_app; [apply plain_number|]. apply L; [reflexivity|apply plain_number].
  - apply L; [reflexivity|]. destruct e as [e|]; cbn [show_rule_error]; [|apply plain_check; reflexivity]. apply L; [reflexivity|apply plain_flag, Q].
  - apply L; [reflexivity|]. destruct e; apply plain_check; reflexivity.
Qed.
Section Faults.
Variable pl : platform.
Lemma quiet_line : forall t key ws k, LineFault pl t key ws k -> Forall plain ws -> quiet k.
Proof.
  intros t key ws k F P. destruct F as [ | | key w r e H F | | | | | | key w r e H F | | | | ]; cbn [quiet]; try exact I.
  - exact (Forall_inv P).
  - destruct e; cbn in F |- *; trivial; contradiction.
  - destruct e; cbn in F |- *; trivial; contradiction.
Qed.
Lemma quiet_row : forall t al key h ws k, RowFault pl t al key h ws k -> quiet k.
Proof.
  intros t al key h ws k F. destruct F as [ | | h w r e F|h w r e F| | |key fs h st ad tx fl r e H S1 F| |h a b r tx fl e S1 H F|h a b r tx fl o tx2 fl2 e S1 H S2 H2 F]; cbn [quiet]; try exact I.
  - destruct e; cbn in F |- *; trivial; contradiction.
  - destruct e as [e|]; [|exact I]. destruct F as (u & ru & rest & _ & _ & _ & F). destruct e; cbn in F |- *; trivial; try contradiction. apply F.
  - destruct F as [_ F]. destruct e; cbn in F |- *; trivial; contradiction.
  - destruct e; cbn in F |- *; trivial; contradiction.
  - destruct e; cbn in F |- *; trivial; contradiction.
Qed.
Lemma quiet_text : forall ls x i k, TextFault pl ls x i k -> Forall (Forall plain) ls -> quiet k.
Proof.
  intros ls x i k F. induction F as [key ws after x i k F|ws r x i k N F IH|key ws rws r x x1 i k D F IH]; intros P.
  - pose proof (Forall_inv_tail (Forall_inv P)) as P1. destruct F as [key ws after k F|key h count rws cells r more k I H F2 L F|]; cbn [quiet].
    + exact (quiet_line F P1).
    + exact (quiet_row F).
    + exact I.
  - exact (IH (Forall_inv_tail P)).
  - apply IH. apply Forall_inv_tail in P. apply Forall_app in P. apply P.
Qed.
Lemma quiet_dic : forall x ls i k, DicFault pl x ls i k -> quiet k.
Proof.
  intros x ls i k F. destruct F as [ | | |l w ws n good bad more es k S1 D L DE F]; cbn [quiet]; try exact I.
  destruct F as [|m raw after fl e T N1 N2 B S2 FF [_ F]]; cbn [quiet]; [exact I|]. destruct e; cbn in F |- *; trivial; contradiction.
Qed.

(** What the message says.  Which text it was in, which line (counted from 1, with the
    comments), and what is wrong there: the fault of the grammar. *)
Theorem C74_message : forall aff dic e, scalars aff -> scalars dic -> new pl aff dic = Ret (Err e) ->
  (exists kind i, show_error e = lit "failed to parse .aff file" ++ kind /\
     match nth_error (numbered pl aff) i with
     | Some (n, l) => exists num k, Numeral num n /\ kind = lit " on line " ++ num ++ lit ": " ++ show_kind k /\
         TextFault pl (aff_words pl aff) default_lp i k
     | None => exists c g, kind = lit ": expected " ++ c ++ lit " rows but found " ++ g /\ exists cn gn, Numeral c cn /\ Numeral g gn /\ (gn <= cn)%N /\
         TextFault pl (aff_words pl aff) default_lp i (MismatchedRowCount cn gn)
     end) \/
  (exists kind i x, show_error e = lit "failed to parse .dic file" ++ kind /\ Text pl (aff_words pl aff) default_lp x /\
     match nth_error (numbered pl dic) i with
     | Some (n, l) => exists num k, Numeral num n /\ kind = lit " on line " ++ num ++ lit ": " ++ show_kind k /\
         DicFault pl x (plain_lines pl dic) i k
     | None => kind = lit ": expected 1 arguments but found 0" /\ plain_lines pl dic = []
     end).
Proof.
  intros aff dic e Ha Hd H. pose proof (@C55_line pl aff dic e Ha Hd H) as LN.
  destruct (@C55_error pl aff dic e Ha Hd H) as [(i & k & T & ->)|(x & i & k & T & D & ->)]; [left|right]; cbv zeta in LN; cbn [pe_line pe_source pe_kind] in LN.
  - unfold show_error. cbn [pe_line pe_source pe_kind].
    destruct (nth_error (numbered pl aff) i) as [[n l]|] eqn:E; cbn [option_map fst] in *.
    + exists (lit " on line " ++ show_number n ++ lit ": " ++ show_kind k), i. split; [cbn; reflexivity|]. rewrite E.
      exists (show_number n), k. split; [apply show_number_spec|]. split; [reflexivity|exact T].
    + destruct LN as [(_ & c & g & -> & L)|(X & _)]; [|discriminate X].
      exists (lit ": " ++ show_kind (MismatchedRowCount c g)), i. split; [cbn; reflexivity|]. rewrite E.
      exists (show_number c), (show_number g). split; [cbn; reflexivity|]. exists c, g. split; [apply show_number_spec|]. split; [apply show_number_spec|]. split; [exact L|exact T].
  - unfold show_error. cbn [pe_line pe_source pe_kind].
    destruct (nth_error (numbered pl dic) i) as [[n l]|] eqn:E; cbn [option_map fst] in *.
    + exists (lit " on line " ++ show_number n ++ lit ": " ++ show_kind k), i, x. split; [cbn; reflexivity|]. split; [exact T|]. rewrite E.
      exists (show_number n), k. split; [apply show_number_spec|]. split; [reflexivity|exact D].
    + destruct LN as [(X & _)|(_ & P & ->)]; [discriminate X|].
      exists (lit ": " ++ show_kind (MismatchedArity 1 0)), i, x. split; [cbn; reflexivity|]. split; [exact T|]. rewrite E. split; [vm_compute; reflexivity|exact P].
Qed.
(** The message is one line. *)
Theorem C74_one_line : forall aff dic e, scalars aff -> scalars dic -> new pl aff dic = Ret (Err e) -> ~ In 10%N (show_error e).
Proof.
  intros aff dic e Ha Hd H.
  assert (Q : quiet (pe_kind e)).
  { destruct (@C55_error pl aff dic e Ha Hd H) as [(i & k & T & ->)|(x & i & k & T & D & ->)]; cbn [pe_kind].
    - apply (quiet_text T). apply Forall_forall. intros ws I. apply Forall_forall. intros w Iw. exact (@aff_words_parts pl aff ws w I Iw).
    - exact (quiet_dic D). }
  assert (L : forall s t, existsb (N.eqb 10) (lit s) = false -> plain t -> plain (lit s ++ t)).
  { intros s t E T. apply plain_app; [apply plain_check, E|exact T]. }
  assert (SR : plain (show_source (pe_source e))) by (destruct (pe_source e); apply plain_check; reflexivity).
  change (plain (show_error e)). unfold show_error. destruct (pe_line e) as [n|].
  - apply L; [reflexivity|]. apply plain_app; [exact SR|]. apply L; [reflexivity|]. apply plain_app; [apply plain_number|]. apply L; [reflexivity|apply plain_kind, Q].
  - apply L; [reflexivity|]. apply plain_app; [exact SR|]. apply L; [reflexivity|apply plain_kind, Q].
Qed.
End Faults.

(** The messages of the texts of Properties_Errors.v. *)
Definition message (aff dic : str) : option str := match new ex_pl aff dic with Ret (Err e) => Some (show_error e) | _ => None end.
Example C74_example :
  message err_aff1 (lit "0") = Some (lit "failed to parse .aff file on line 5: expected 2 rows but found 2") /\
  message err_aff2 (lit "0") = Some (lit "failed to parse .aff file on line 3: condition is malformed: opening bracket has no matching closing bracket") /\
  message err_aff3 err_dic3 = Some (lit "failed to parse .dic file on line 4: flag is malformed: invalid digit found in string") /\
  message err_aff4 (lit "0") = Some (lit "failed to parse .aff file: expected 3 rows but found 2") /\
  message (lit "FLAG short") (lit "0") = Some (lit "failed to parse .aff file on line 1: expected FLAG to be `long`, `num` or `UTF-8` if set, found short").
Proof. repeat split; vm_compute; reflexivity. Qed.
(** The number of rows found counts the header, so a table that lacks one row is reported as
    having as many rows as expected: in the first message above, both numbers are 2. *)
Theorem C74_rows_found_refuted :
  ~ (forall pl aff dic c g s l, scalars aff -> scalars dic -> new pl aff dic = Ret (Err (mkError (MismatchedRowCount c g) s l)) -> c <> g).
Proof.
  intros H. destruct C55_example as (E & _). refine (H ex_pl err_aff1 (lit "0") _ _ _ _ _ _ E eq_refl); apply lit_scalars; reflexivity.
Qed.
Print Assumptions C74_flag_messages_differ.
Print Assumptions C74_messages_differ.
Print Assumptions C74_message.
Print Assumptions C74_one_line.
Print Assumptions C74_rows_found_refuted.
