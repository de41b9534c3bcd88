(** [add] against a line of the .dic file; forms of a removed stem. *)
From Coq Require Import List NArith ZArith Lia Bool Arith Permutation.
From Coq Require Import ZifyBool ZifyNat ZifyN.
From Verif Require Import Base Utf8 Unicode Flags Bag Affix CompoundRule Conversion Aff Checker Spell
  AffixSpec CompoundSpec CompoundTotal CheckSpec CheckProps Parser ParserSafe Lib LibSpec.
Import ListNotations.
Set Implicit Arguments.

(** ** A line appended to the .dic text *)
Section AddDic.
Variable pl : platform.
Notation U := (pl_unicode pl).

Lemma lines_go_app : forall u v cur, lines_go (u ++ [10%N] ++ v) cur = lines_go (u ++ [10%N]) cur ++ lines_go v [].
Proof.
  induction u as [|c u IH]; intros v cur; [reflexivity|]. cbn [app lines_go].
  destruct (c =? 10)%N; [cbn [app]; f_equal; apply IH|apply IH].
Qed.

Lemma lines_go_single : forall v cur, ~ In 10%N v -> v <> [] \/ cur <> [] -> lines_go v cur = [rev cur ++ v].
Proof.
  induction v as [|c v IH]; intros cur H H2; cbn [lines_go].
  - destruct cur; [tauto|]. rewrite app_nil_r. reflexivity.
  - destruct (c =? 10)%N eqn:E; [exfalso; apply H; left; lia|].
    rewrite IH; [cbn [rev]; rewrite <- app_assoc; reflexivity|intro Q; apply H; right; exact Q|right; discriminate].
Qed.

Lemma number_from_app : forall A (l1 l2 : list A) n,
  number_from n (l1 ++ l2) = number_from n l1 ++ number_from (n + N.of_nat (length l1)) l2.
Proof.
  induction l1 as [|a l1 IH]; intros l2 n; cbn [app number_from length]; [f_equal; lia|].
  f_equal. rewrite IH. f_equal. f_equal. lia.
Qed.

Lemma skip_snoc : forall l nl, is_comment pl (snd nl) = false -> skip_comments pl (l ++ [nl]) = skip_comments pl l ++ [nl].
Proof.
  induction l as [|a l IH]; intros nl H; cbn [app skip_comments]; [rewrite H; reflexivity|].
  destruct (is_comment pl (snd a)); [apply IH; exact H|reflexivity].
Qed.

Lemma dic_line_head : forall x ls ls' t, ln_src ls = ln_src ls' -> hd_error (ln_rest ls) = hd_error (ln_rest ls') ->
  dic_line pl x ls t = dic_line pl x ls' t.
Proof.
  intros x [r w s] [r' w' s'] t E H. cbn in E, H. subst s'. unfold dic_line, cur_line, error, at_line. cbn [ln_rest ln_src].
  destruct r as [|a r], r' as [|a' r']; cbn in H; try discriminate; [reflexivity|]. injection H as <-. reflexivity.
Qed.

Lemma dic_lines_S : forall fuel x ls t, dic_lines pl (S fuel) x ls t =
  if is_finished ls then okP t
  else (t' <~ dic_line pl x (advance_line pl ls) t ;; dic_lines pl fuel x (advance_line pl ls) t').
Proof. reflexivity. Qed.

Lemma dic_lines_snoc : forall x src nl, is_comment pl (snd nl) = false ->
  forall fuel r w w' t, r <> [] -> length r < fuel ->
  dic_lines pl (S fuel) x (mkLines (r ++ [nl]) w src) t =
  (t1 <~ dic_lines pl fuel x (mkLines r w' src) t ;; dic_line pl x (mkLines [nl] (peek_words pl [nl]) src) t1).
Proof.
  intros x src nl Hc. induction fuel as [|fuel IH]; intros r w w' t Hr Hf; [lia|].
  destruct r as [|h r]; [contradiction|]. clear Hr.
  rewrite !dic_lines_S. cbn [is_finished ln_rest app nonempty negb].
  unfold advance_line. cbn [ln_rest tl ln_src]. rewrite skip_snoc by exact Hc.
  pose proof (skip_comments_length pl r) as HL. cbn [length] in Hf.
  destruct (skip_comments pl r) as [|h2 r2] eqn:Es.
  - cbn [app].
    assert (EN : forall f t', dic_lines pl (S f) x {| ln_rest := []; ln_words := peek_words pl []; ln_src := src |} t' = okP t')
      by reflexivity.
    assert (ED : dic_line pl x {| ln_rest := []; ln_words := peek_words pl []; ln_src := src |} t = okP t) by reflexivity.
    rewrite ED. cbn [bindP okP]. destruct fuel as [|fuel]; [lia|]. rewrite EN. cbn [bindP okP].
    destruct (dic_line pl x {| ln_rest := [nl]; ln_words := peek_words pl [nl]; ln_src := src |} t) as [[t2|e]| |]; try reflexivity.
  - cbn [app]. rewrite (@dic_line_head x _ (mkLines (h2 :: r2) (peek_words pl (h2 :: r2)) src)) by reflexivity.
    destruct (dic_line pl x {| ln_rest := h2 :: r2; ln_words := peek_words pl (h2 :: r2); ln_src := src |} t) as [[t2|e]| |]; try reflexivity.
    cbn [bindP]. specialize (IH (h2 :: r2) (peek_words pl ((h2 :: r2) ++ [nl])) (peek_words pl (h2 :: r2)) t2).
    cbn [app] in IH. cbn [app]. apply IH; [discriminate|cbn [length] in *; lia].
Qed.

(** What a line must be for the .dic reader to look at it as [add] does. *)
Record dic_text (line : str) : Prop := {
  dt_ne : line <> [];
  dt_nl : ~ In 10%N line;
  dt_trim : trim pl line = line;
  dt_comment : is_comment pl line = false;
  dt_slash : starts_with [ch_slash] line && (1 <? blen line)%N = false }.

Definition strip_bom (t : str) : str := match strip_prefix [65279%N] t with Some u => u | None => t end.

Lemma parse_dic_snoc : forall x dic line t, dic_text line -> parse_dic pl x (dic ++ [10%N]) = Ret (Ok t) ->
  exists n, parse_dic pl x ((dic ++ [10%N]) ++ line) = dic_line pl x (mkLines [(n, line)] (peek_words pl [(n, line)]) SrcDic) t.
Proof.
  intros x dic line t HL H. unfold parse_dic in *.
  assert (LN : forall t s, lines_new pl t s =
    mkLines (skip_comments pl (number_from 0 (text_lines (strip_bom t))))
            (peek_words pl (skip_comments pl (number_from 0 (text_lines (strip_bom t))))) s) by reflexivity.
  assert (EB : strip_bom ((dic ++ [10%N]) ++ line) = strip_bom (dic ++ [10%N]) ++ line).
  { unfold strip_bom. destruct dic as [|c dic]; [reflexivity|]. cbn [app strip_prefix]. destruct (65279 =? c)%N; [|reflexivity].
    destruct (dic ++ [10%N]); reflexivity. }
  assert (EX : exists u, strip_bom (dic ++ [10%N]) = u ++ [10%N]).
  { unfold strip_bom. destruct dic as [|c dic]; [exists []; reflexivity|]. cbn [app strip_prefix].
    destruct (65279 =? c)%N; [exists dic|exists (c :: dic)]; [destruct (dic ++ [10%N]); reflexivity|reflexivity]. }
  destruct EX as [u EX]. rewrite LN in *. rewrite EB, EX. rewrite EX in H. clear LN EB EX. unfold text_lines in *.
  rewrite <- app_assoc. rewrite lines_go_app. rewrite (@lines_go_single line []) by (try apply (dt_nl HL); left; apply (dt_ne HL)).
  cbn [rev app]. rewrite number_from_app. cbn [number_from].
  set (l := number_from 0 (lines_go (u ++ [10%N]) [])) in *.
  set (n := (0 + N.of_nat (length (lines_go (u ++ [10%N]) [])))%N). exists n.
  rewrite skip_snoc by (apply (dt_comment HL)). set (r := skip_comments pl l) in *.
  unfold parse_row_count, take_exactly_one_word in *. cbn [ln_words ln_rest] in *.
  destruct r as [|h r'] eqn:Er; [cbn in H; discriminate|]. rewrite <- Er in *.
  assert (EP : peek_words pl (r ++ [(n, line)]) = peek_words pl r) by (rewrite Er; reflexivity). rewrite EP.
  destruct (peek_words pl r) as [[|w ws]|] eqn:Ew; try (cbn in H; discriminate).
  cbn [bindP okP] in *. destruct (parse_usize w) as [v|e]; [|cbn in H; discriminate].
  cbn [bindP okP with_words ln_rest ln_src] in *. rewrite app_length. cbn [length]. rewrite Nat.add_1_r.
  unfold with_words in *. cbn [ln_rest ln_src] in *.
  rewrite dic_lines_snoc with (w' := Some ws); [|apply (dt_comment HL)|rewrite Er; discriminate|lia].
  rewrite H. reflexivity.
Qed.

(** A line that is added and a line in the .dic text give the very same dictionary, as long as
    no hidden homonym is called for. *)
Theorem add_like_dic : forall aff dic d line d' w f, scalars aff -> dic_text line ->
  wf_platform pl -> new pl aff (dic ++ [10%N]) = Ret (Ok d) ->
  parse_dic_line pl line (ad_flag_type (d_aff d)) (ad_aliases (d_aff d)) (ad_ignore (d_aff d)) = Ret (Ok (w, f)) ->
  needs_hidden_homonym pl (o_forbidden (ad_options (d_aff d))) w f = false ->
  add pl d line = Ret (Ok tt, d') ->
  new pl aff ((dic ++ [10%N]) ++ line) = Ret (Ok d').
Proof.
  intros aff dic d line d' w f Ha HL WP HN HP HH HA. destruct (@new_ok pl aff _ d Ha HN) as (x & LP & E1 & E2 & E3).
  assert (C := @collect_ok pl (wp_sort_affixes WP) x LP). destruct C as (a & Ea & C). rewrite E3 in Ea. injection Ea as <-.
  destruct C as (_ & _ & _ & _ & _ & _ & _ & _ & _ & _ & _ & _ & _ & _ & CI & _ & _ & CO & CF & CA).
  unfold add in HA. rewrite HP in HA. cbn in HA. injection HA as <-. rewrite CI, CA, CF in HP. rewrite CO in HH.
  destruct (@parse_dic_snoc x dic line (d_words d) HL E2) as [n E4]. unfold new, parse. rewrite E1. cbn [bindP]. rewrite E4.
  unfold dic_line. cbn [cur_line ln_rest snd]. rewrite (dt_trim HL). destruct line as [|c line]; [destruct (dt_ne HL eq_refl)|].
  rewrite (dt_slash HL).
  destruct (65535 <? blen (c :: line))%N eqn:EL.
  { unfold parse_dic_line in HP. rewrite EL in HP. discriminate. }
  rewrite HP. cbn [mapErr at_line bindP okP]. unfold insert_entry. rewrite HH. cbn [bindR bindP okP]. rewrite E3. reflexivity.
Qed.

(** A line that [add] refuses is refused in the .dic text too. *)
Theorem add_refuses_like_dic : forall aff dic d line d' e, scalars aff -> dic_text line ->
  wf_platform pl -> new pl aff (dic ++ [10%N]) = Ret (Ok d) -> add pl d line = Ret (Err e, d') ->
  exists e', new pl aff ((dic ++ [10%N]) ++ line) = Ret (Err e').
Proof.
  intros aff dic d line d' e Ha HL WP HN HA. destruct (@new_ok pl aff _ d Ha HN) as (x & LP & E1 & E2 & E3).
  assert (C := @collect_ok pl (wp_sort_affixes WP) x LP). destruct C as (a & Ea & C). rewrite E3 in Ea. injection Ea as <-.
  destruct C as (_ & _ & _ & _ & _ & _ & _ & _ & _ & _ & _ & _ & _ & _ & CI & _ & _ & CO & CF & CA).
  unfold add in HA.
  destruct (parse_dic_line pl line _ _ _) as [[[w f]|e0]| |] eqn:HP; cbn in HA; try discriminate. injection HA as <- <-.
  rewrite CI, CA, CF in HP.
  destruct (@parse_dic_snoc x dic line (d_words d) HL E2) as [n E4]. unfold new, parse. rewrite E1. cbn [bindP]. rewrite E4.
  unfold dic_line. cbn [cur_line ln_rest snd]. rewrite (dt_trim HL). destruct line as [|c line]; [destruct (dt_ne HL eq_refl)|].
  rewrite (dt_slash HL).
  destruct (65535 <? blen (c :: line))%N; [eexists; reflexivity|].
  rewrite HP. cbn [mapErr at_line bindP]. eexists. reflexivity.
Qed.
End AddDic.

(** ** Forms of a removed stem *)

(** A derivation uses one entry only. *)
Lemma simple_local : forall A (e : str -> flagset -> Prop) hh w f, SimpleWord A e hh w f ->
  exists s, e s f /\ SimpleWord A (fun s' f' => s' = s /\ e s' f') hh w f.
Proof.
  intros A e hh w f H. unfold SimpleWord in H.
  assert (X2 : forall kd a st, OneAffix A e kd FULL_WORD hh w a st f ->
            e st f /\ OneAffix A (fun s' f' => s' = st /\ e s' f') kd FULL_WORD hh w a st f)
    by (unfold OneAffix; intros; repeat match goal with H : _ /\ _ |- _ => destruct H end; conj; auto).
  assert (X3 : forall p s st, PrefixSuffix A e FULL_WORD hh w p s st f ->
            e st f /\ PrefixSuffix A (fun s' f' => s' = st /\ e s' f') FULL_WORD hh w p s st f)
    by (unfold PrefixSuffix; intros; repeat match goal with H : _ /\ _ |- _ => destruct H end; conj; auto).
  assert (X4 : forall kd o i st, TwoAffixes A e kd hh w o i st f ->
            e st f /\ TwoAffixes A (fun s' f' => s' = st /\ e s' f') kd hh w o i st f)
    by (unfold TwoAffixes; intros; repeat match goal with H : _ /\ _ |- _ => destruct H end; conj; auto).
  assert (X5 : forall kd x o i st, OuterAndTwo A e kd hh w x o i st f ->
            e st f /\ OuterAndTwo A (fun s' f' => s' = st /\ e s' f') kd hh w x o i st f)
    by (unfold OuterAndTwo; intros; repeat match goal with H : _ /\ _ |- _ => destruct H end; conj; auto).
  assert (X6 : forall c kd x o i st, Sandwich A e c kd hh w x o i st f ->
            e st f /\ Sandwich A (fun s' f' => s' = st /\ e s' f') c kd hh w x o i st f)
    by (unfold Sandwich; intros; repeat match goal with H : _ /\ _ |- _ => destruct H end; conj; auto).
  unfold SimpleWord.
  destruct H as [H|[(kd & a & st & H)|[(p & s & st & H)|[[E H]|[E H]]]]].
  - exists w. unfold DirectWord in *. destruct H as (H1 & H2 & H3). split; [exact H1|]. left. conj; auto.
  - destruct (X2 _ _ _ H) as [Y1 Y2]. exists st. split; [exact Y1|]. right. left. eauto.
  - destruct (X3 _ _ _ H) as [Y1 Y2]. exists st. split; [exact Y1|]. right. right. left. eauto.
  - destruct H as [(o & i & st & H)|[(x & o & i & st & H)|(x & o & i & st & H)]].
    + destruct (X4 _ _ _ _ H) as [Y1 Y2]. exists st. split; [exact Y1|]. right. right. right. left. split; [exact E|]. left. eauto.
    + destruct (X5 _ _ _ _ _ H) as [Y1 Y2]. exists st. split; [exact Y1|]. right. right. right. left. split; [exact E|]. right. left. eauto 6.
    + destruct (X6 _ _ _ _ _ _ H) as [Y1 Y2]. exists st. split; [exact Y1|]. right. right. right. left. split; [exact E|]. right. right. eauto 6.
  - destruct H as [(o & i & st & H)|[(x & o & i & st & H & H')|(x & o & i & st & H)]].
    + destruct (X4 _ _ _ _ H) as [Y1 Y2]. exists st. split; [exact Y1|]. right. right. right. right. split; [exact E|]. left. eauto.
    + destruct (X5 _ _ _ _ _ H) as [Y1 Y2]. exists st. split; [exact Y1|]. right. right. right. right. split; [exact E|]. right. left. eauto 7.
    + destruct (X6 _ _ _ _ _ _ H) as [Y1 Y2]. exists st. split; [exact Y1|]. right. right. right. right. split; [exact E|]. right. right. eauto 6.
Qed.

(** The same with the flags of that entry. *)
Lemma simple_flags : forall A (e : str -> flagset -> Prop) hh w f, SimpleWord A e hh w f ->
  exists s, e s f /\ SimpleWord A (fun s' f' => s' = s /\ f' = f /\ e s' f') hh w f.
Proof.
  intros A e hh w f H. unfold SimpleWord in H.
  assert (X2 : forall kd a st, OneAffix A e kd FULL_WORD hh w a st f ->
            e st f /\ OneAffix A (fun s' f' => s' = st /\ f' = f /\ e s' f') kd FULL_WORD hh w a st f)
    by (unfold OneAffix; intros; repeat match goal with H : _ /\ _ |- _ => destruct H end; conj; auto).
  assert (X3 : forall p s st, PrefixSuffix A e FULL_WORD hh w p s st f ->
            e st f /\ PrefixSuffix A (fun s' f' => s' = st /\ f' = f /\ e s' f') FULL_WORD hh w p s st f)
    by (unfold PrefixSuffix; intros; repeat match goal with H : _ /\ _ |- _ => destruct H end; conj; auto).
  assert (X4 : forall kd o i st, TwoAffixes A e kd hh w o i st f ->
            e st f /\ TwoAffixes A (fun s' f' => s' = st /\ f' = f /\ e s' f') kd hh w o i st f)
    by (unfold TwoAffixes; intros; repeat match goal with H : _ /\ _ |- _ => destruct H end; conj; auto).
  assert (X5 : forall kd x o i st, OuterAndTwo A e kd hh w x o i st f ->
            e st f /\ OuterAndTwo A (fun s' f' => s' = st /\ f' = f /\ e s' f') kd hh w x o i st f)
    by (unfold OuterAndTwo; intros; repeat match goal with H : _ /\ _ |- _ => destruct H end; conj; auto).
  assert (X6 : forall c kd x o i st, Sandwich A e c kd hh w x o i st f ->
            e st f /\ Sandwich A (fun s' f' => s' = st /\ f' = f /\ e s' f') c kd hh w x o i st f)
    by (unfold Sandwich; intros; repeat match goal with H : _ /\ _ |- _ => destruct H end; conj; auto).
  unfold SimpleWord.
  destruct H as [H|[(kd & a & st & H)|[(p & s & st & H)|[[E H]|[E H]]]]].
  - exists w. unfold DirectWord in *. destruct H as (H1 & H2 & H3). split; [exact H1|]. left. conj; auto.
  - destruct (X2 _ _ _ H) as [Y1 Y2]. exists st. split; [exact Y1|]. right. left. eauto.
  - destruct (X3 _ _ _ H) as [Y1 Y2]. exists st. split; [exact Y1|]. right. right. left. eauto.
  - destruct H as [(o & i & st & H)|[(x & o & i & st & H)|(x & o & i & st & H)]].
    + destruct (X4 _ _ _ _ H) as [Y1 Y2]. exists st. split; [exact Y1|]. right. right. right. left. split; [exact E|]. left. eauto.
    + destruct (X5 _ _ _ _ _ H) as [Y1 Y2]. exists st. split; [exact Y1|]. right. right. right. left. split; [exact E|]. right. left. eauto 6.
    + destruct (X6 _ _ _ _ _ _ H) as [Y1 Y2]. exists st. split; [exact Y1|]. right. right. right. left. split; [exact E|]. right. right. eauto 6.
  - destruct H as [(o & i & st & H)|[(x & o & i & st & H & H')|(x & o & i & st & H)]].
    + destruct (X4 _ _ _ _ H) as [Y1 Y2]. exists st. split; [exact Y1|]. right. right. right. right. split; [exact E|]. left. eauto.
    + destruct (X5 _ _ _ _ _ H) as [Y1 Y2]. exists st. split; [exact Y1|]. right. right. right. right. split; [exact E|]. right. left. eauto 7.
    + destruct (X6 _ _ _ _ _ _ H) as [Y1 Y2]. exists st. split; [exact Y1|]. right. right. right. right. split; [exact E|]. right. right. eauto 6.
Qed.

(** No break pattern occurs where it would apply. *)
Definition Unbreakable (k : checker) (w : str) : Prop :=
  (forall p r, In p (start_breaks (ad_breaks (ck_aff k))) -> w <> p ++ r) /\
  (forall p r, In p (end_breaks (ad_breaks (ck_aff k))) -> w <> r ++ p) /\
  (forall p a b, In p (middle_breaks (ad_breaks (ck_aff k))) -> w <> a ++ p ++ b).

Lemma unbreakable_own : forall k n w, Unbreakable k w -> Broken k n w ->
  exists f, Own k w (Some f) /\ accepted_flags k f = true.
Proof.
  intros k n w (U1 & U2 & U3) H. destruct H as [n w f HO HA|n p w HO HI _|n p w HO HI _|n p u v HO HI _ _ _ _].
  - eauto.
  - exfalso. exact (U1 _ _ HI eq_refl).
  - exfalso. exact (U2 _ _ HI eq_refl).
  - exfalso. exact (U3 _ _ _ HI eq_refl).
Qed.

Section Removed.
Variable pl : platform.
Hypothesis WP : wf_platform pl.

(** [x], in every casing [check] tries, can be derived from the stem only. *)
Definition OnlyFrom (d : dictionary) (stem x : str) : Prop :=
  forall a f, In a (plan (checker_of pl d false false) x) ->
    ~ SimpleWord (d_aff d) (fun s f => s <> stem /\ In f (entries d s)) (at_hh a) (at_word a) f.

(** Forms derived from the removed stem only are rejected (no compounding). *)
Theorem removed_forms_rejected : forall d stem b d', dict_ok pl d -> remove_stem pl d stem = Ret (b, d') ->
  Shrinks (d_aff d) -> strict (checker_of pl d false false) = true ->
  allows_compounding (ad_options (d_aff d)) = false -> rt_rules (ad_rules (d_aff d)) = [] ->
  forall x, scalars x -> ordinary (checker_of pl d false false) x -> Unbreakable (checker_of pl d false false) x ->
  OnlyFrom d stem x ->
  Eventually (fun fuel => dict_check pl d' fuel x) (Ret false).
Proof.
  intros d stem b d' OK HR SH ST NC1 NC2 x Hx HO HU HF.
  destruct (remove_stem_spec WP stem OK) as (b2 & d2 & E & OK' & EA & _ & _ & ES & _). rewrite HR in E. injection E as <- <-.
  set (k' := checker_of pl d' false false).
  assert (WF : wf_full k') by (apply (dict_wf_full WP OK'); rewrite EA; exact SH).
  assert (PC : ck_lower_as_title k' = false /\ ck_lower_as_upper k' = false) by (split; reflexivity).
  assert (ST' : strict k' = true) by (unfold strict, k', checker_of in *; cbn in *; rewrite EA; exact ST).
  assert (HO' : ordinary k' x) by (destruct HO; constructor; unfold k'; cbn [ck_aff checker_of] in *; try rewrite EA; assumption).
  assert (HU' : Unbreakable k' x) by (unfold Unbreakable, k' in *; cbn [ck_aff checker_of] in *; rewrite EA; exact HU).
  apply (@decides_no k' x _ (ordinary_decides WF PC ST' Hx HO')). intro HB.
  destruct (unbreakable_own HU' HB) as [f [HOwn HA]].
  destruct (own_found WF PC ST' Hx HOwn) as (a & Ha & HFo & _).
  assert (plan k' x = plan (checker_of pl d false false) x) as EP.
  { unfold k', plan, plan_upper, plan_title, drop_keep_case, keep_case, title, checker_of. cbn [ck_aff ck_u ck_lower_as_title ck_lower_as_upper]. rewrite EA. reflexivity. }
  rewrite EP in Ha.
  assert (SimpleWord (d_aff d') (fun s f => In f (ck_get k' s)) (at_hh a) (at_word a) f) as HS.
  { destruct HFo as [HS|[[HS _]|[HS _]]]; [exact HS| |]; unfold k' in HS; cbn [ck_aff checker_of] in HS; rewrite EA in HS; congruence. }
  destruct (simple_local HS) as (s & Hs & HS1). unfold k' in Hs. rewrite entries_get in Hs by exact WP.
  destruct (list_eq_dec N.eq_dec s stem) as [-> |Hne].
  - pose proof (@removed_forbidden pl WP d stem b d' OK HR f Hs) as FB. assert (WFf : wf_flagset f) by (apply (@dict_entry_ok pl d' OK' stem f Hs)).
    apply (@accepted_spec k' f WFf) in HA. apply HA. left. unfold k'. cbn [ck_aff checker_of]. rewrite EA. exact FB.
  - apply (HF a f Ha). rewrite EA in HS1. eapply simple_mono; [|exact HS1]. cbv beta. intros s' f' [-> Hs'].
    split; [exact Hne|]. unfold k' in Hs'. rewrite entries_get in Hs' by exact WP. rewrite <- ES by exact Hne. exact Hs'.
Qed.
End Removed.
