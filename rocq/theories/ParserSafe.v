(** The parser always returns, and what it returns is well formed. *)
From Coq Require Import String Ascii.
From Coq Require Import List NArith ZArith Lia Bool Arith Permutation Sorted.
From Coq Require Import ZifyBool ZifyNat ZifyN.
From Verif Require Import Base Utf8 Unicode Flags Bag Condition Affix CompoundRule Conversion Aff Parser.
Import ListNotations.
Set Implicit Arguments.

(** ** Computations that neither panic nor run out of fuel *)
Definition safe {E A} (Q : A -> Prop) (x : P E A) : Prop :=
  match x with Ret (Ok a) => Q a | Ret (Err _) => True | Panic => False | NoFuel => False end.

Lemma safe_bind : forall E A B (Q : A -> Prop) (R : B -> Prop) (x : P E A) f,
  safe Q x -> (forall a, Q a -> safe R (f a)) -> safe R (bindP x f).
Proof. intros E A B Q R x f H K. destruct x as [[a|e]| |]; cbn in *; auto. Qed.

Lemma safe_weaken : forall E A (Q R : A -> Prop) (x : P E A), safe Q x -> (forall a, Q a -> R a) -> safe R x.
Proof. intros E A Q R x H K. destruct x as [[a|e]| |]; cbn in *; auto. Qed.

Lemma safe_ok : forall E A (Q : A -> Prop) (a : A), Q a -> safe Q (@okP E A a).
Proof. intros. exact H. Qed.

Lemma safe_mapErr : forall E F A (Q : A -> Prop) (g : E -> F) (x : P E A), safe Q x -> safe Q (mapErr g x).
Proof. intros E F A Q g x H. destruct x as [[a|e]| |]; cbn in *; auto. Qed.

Lemma safe_at_line : forall A (Q : A -> Prop) ls (x : P error_kind A), safe Q x -> safe Q (at_line ls x).
Proof. intros A Q ls x H. destruct x as [[a|e]| |]; cbn in *; auto. Qed.

Lemma safe_error : forall A (Q : A -> Prop) ls e, safe Q (@error A ls e).
Proof. intros. exact I. Qed.

Lemma safe_ret : forall E A (Q : A -> Prop) (x : P E A), safe Q x -> exists r, x = Ret r.
Proof. intros E A Q x H. destruct x as [r| |]; cbn in H; [eauto|contradiction|contradiction]. Qed.

(** ** Flags *)
Definition wf_flags (fs : flagset) : Prop := wf_flagset fs /\ Forall valid_flag fs.

Lemma wf_flags_nil : wf_flags [].
Proof. split; constructor. Qed.

Lemma digits_go_le : forall max s acc v, digits_go max acc s = Ok v -> (acc <= max -> v <= max)%N.
Proof.
  intros max s. induction s as [|c s IH]; intros acc v H; cbn [digits_go] in H.
  - injection H as <-. auto.
  - destruct (negb _); [discriminate|]. destruct (max <? acc * 10)%N; [discriminate|].
    destruct (max <? acc * 10 + (c - 48))%N eqn:E; [discriminate|]. intros _. apply (IH _ _ H). lia.
Qed.

Lemma parse_uint_le : forall max s v, parse_uint max s = Ok v -> (v <= max)%N.
Proof.
  intros max s v H. unfold parse_uint in H. destruct s as [|c [|d s]]; [discriminate| |].
  - destruct (_ || _); [discriminate|]. apply (@digits_go_le _ _ _ _ H). lia.
  - apply (@digits_go_le _ _ _ _ H). lia.
Qed.

Lemma enc_bytes : forall s, scalars s -> Forall (fun b => (b < 256)%N) (enc s).
Proof.
  induction s as [|c s IH]; intro H; [constructor|]. inversion H; subst. cbn [enc flat_map].
  apply Forall_app. split; [apply enc1_bytes; assumption|apply IH; assumption].
Qed.

Lemma ne_bytes_lt : forall le a b, (a < 256)%N -> (b < 256)%N -> (from_ne_bytes le a b < 65536)%N.
Proof. intros [|] a b Ha Hb; unfold from_ne_bytes; lia. Qed.

Lemma try_flag_ok : forall v f, (v < 65536)%N -> try_flag_from_u16 v = Ok f -> valid_flag f.
Proof.
  intros v f Hv H. unfold try_flag_from_u16 in H. destruct (v =? 0)%N eqn:E; [discriminate|].
  injection H as <-. unfold valid_flag. lia.
Qed.

Lemma safe_try_flag : forall v, (v < 65536)%N -> safe valid_flag (Ret (try_flag_from_u16 v)).
Proof.
  intros v Hv. destruct (try_flag_from_u16 v) eqn:E; cbn; [|exact I]. eapply try_flag_ok; eassumption.
Qed.

Lemma try_flags_ok : forall l fs, Forall (fun v => (v < 65536)%N) l -> try_flags l = Ok fs -> Forall valid_flag fs.
Proof.
  induction l as [|v l IH]; intros fs Hl H; cbn [try_flags] in H; [injection H as <-; constructor|].
  inversion Hl; subst. destruct (try_flag_from_u16 v) eqn:E; [|discriminate].
  destruct (try_flags l) eqn:E2; [|discriminate]. injection H as <-.
  constructor; [eapply try_flag_ok; eassumption|eauto].
Qed.

Lemma safe_try_flags : forall l, Forall (fun v => (v < 65536)%N) l -> safe (Forall valid_flag) (Ret (try_flags l)).
Proof.
  intros l Hl. destruct (try_flags l) eqn:E; cbn; [|exact I]. eapply try_flags_ok; eassumption.
Qed.

Lemma byte_pairs_lt : forall le n l vs, length l <= n -> Forall (fun b => (b < 256)%N) l -> byte_pairs le l = Some vs ->
  Forall (fun v => (v < 65536)%N) vs.
Proof.
  intros le n. induction n as [|n IH]; intros l vs Hn Hl H.
  - destruct l; [|cbn in Hn; lia]. injection H as <-. constructor.
  - destruct l as [|a [|b l]]; cbn [byte_pairs] in H.
    + injection H as <-. constructor.
    + discriminate.
    + destruct (byte_pairs le l) as [r|] eqn:E; [|discriminate]. cbn in H. injection H as <-.
      inversion Hl as [|? ? Ha Hl1]; subst. inversion Hl1 as [|? ? Hb Hl2]; subst.
      constructor; [apply ne_bytes_lt; assumption|]. apply (IH l r); [cbn in Hn; lia|assumption|exact E].
Qed.

Lemma utf16_lt : forall s, scalars s -> Forall (fun v => (v < 65536)%N) (utf16 s).
Proof.
  induction s as [|c s IH]; intro H; [constructor|]. inversion H as [|? ? Hc Hs]; subst. cbn [utf16 flat_map].
  apply Forall_app. split; [|apply IH; assumption]. unfold utf16_1.
  assert (c < 1114112)%N. { unfold scalar, scalarb in Hc. lia. }
  destruct (c <? 65536)%N eqn:E; [constructor; [lia|constructor]|].
  constructor; [|constructor; [|constructor]].
  - assert ((c - 65536) / 1024 < 1024)%N by (apply N.div_lt_upper_bound; lia). lia.
  - pose proof (N.mod_lt (c - 65536) 1024). lia.
Qed.

Lemma safe_numeric_flag : forall s, safe valid_flag (Ret (numeric_flag s)).
Proof.
  intro s. unfold numeric_flag, parse_u16. destruct (parse_uint 65535 s) eqn:E; [|exact I].
  apply parse_uint_le in E. apply safe_try_flag. lia.
Qed.

Lemma safe_numeric_flags : forall fuel s, length s < fuel -> safe (Forall valid_flag) (numeric_flags fuel s).
Proof.
  induction fuel as [|fuel IH]; intros s Hf; [lia|]. cbn [numeric_flags].
  destruct (find_char (N.eqb ch_comma) s) as [i|] eqn:E.
  - match goal with |- safe _ (if ?b then _ else _) => destruct b end; [exact I|].
    eapply safe_bind; [apply safe_numeric_flag|]. intros f Hv. cbv beta in Hv.
    eapply safe_bind; [apply IH|].
    + destruct (find_char_some _ _ E) as (u & c & v & -> & <- & _). rewrite skipn_length, app_length in *. cbn [length] in *. lia.
    + intros fs Hfs. cbn. constructor; assumption.
  - eapply safe_bind; [apply safe_numeric_flag|]. intros f Hv. cbn. constructor; [assumption|constructor].
Qed.

Lemma safe_into_flagset : forall x, safe (Forall valid_flag) x -> safe wf_flags (into_flagset x).
Proof.
  intros x H. unfold into_flagset. eapply safe_bind; [exact H|]. intros fs Hfs.
  destruct (@flagset_from_total fs Hfs) as [s E]. rewrite E. cbn. split.
  - eapply flagset_from_wf; exact E.
  - apply Forall_forall. intros f Hin. apply (@flagset_from_In fs s f E) in Hin. rewrite Forall_forall in Hfs. auto.
Qed.

Section Safe.
Variable pl : platform.
Notation U := (pl_unicode pl).

Lemma safe_flag_from_str : forall t s, s <> [] -> scalars s -> safe valid_flag (parse_flag_from_str pl t s).
Proof.
  intros t s Hne Hs. unfold parse_flag_from_str. destruct s as [|c s]; [contradiction|].
  pose proof (enc_bytes Hs) as HB. pose proof (utf16_lt Hs) as HU.
  eapply safe_bind with (Q := fun v => (v < 65536)%N); [|intros; apply safe_try_flag; assumption].
  destruct t.
  - cbn [okP safe]. destruct (enc (c :: s)) as [|b r] eqn:E; cbn; [lia|]. inversion HB; lia.
  - destruct (enc (c :: s)) as [|a [|b r]] eqn:E; cbn; try exact I.
    inversion HB as [|? ? Ha HB1]; subst. inversion HB1; subst. apply ne_bytes_lt; assumption.
  - unfold parse_u16. destruct (parse_uint 65535 (c :: s)) eqn:E; cbn; [|exact I]. apply parse_uint_le in E. lia.
  - destruct (utf16 (c :: s)) as [|v r] eqn:E.
    + exfalso. cbn [utf16 flat_map] in E. unfold utf16_1 in E. destruct (c <? 65536)%N; discriminate.
    + inversion HU; cbn; assumption.
Qed.

Lemma safe_flags_from_str : forall t s, scalars s -> safe wf_flags (parse_flags_from_str pl t s).
Proof.
  intros t s Hs. unfold parse_flags_from_str. destruct s as [|c s]; [exact wf_flags_nil|].
  apply safe_into_flagset. pose proof (enc_bytes Hs) as HB. pose proof (utf16_lt Hs) as HU. destruct t.
  - apply safe_try_flags. eapply Forall_impl; [|exact HB]. cbv beta. intros; lia.
  - destruct (byte_pairs _ _) as [vs|] eqn:E; [|exact I]. apply safe_try_flags.
    eapply byte_pairs_lt; [apply le_n|exact HB|exact E].
  - apply safe_numeric_flags. lia.
  - apply safe_try_flags. exact HU.
Qed.

Lemma safe_decode_flagset : forall s t al, scalars s -> Forall wf_flags al -> safe wf_flags (decode_flagset pl s t al).
Proof.
  intros s t al Hs Hal. unfold decode_flagset.
  destruct (_ || _); [apply safe_flags_from_str; assumption|].
  destruct (parse_u16 s) as [i|e]; [|apply safe_flags_from_str; assumption].
  destruct ((0 <? i)%N && (i <=? N.of_nat (length al))%N) eqn:E; [|apply safe_flags_from_str; assumption].
  destruct (nth_error al (N.to_nat i - 1)) as [fs|] eqn:E2.
  - cbn. rewrite Forall_forall in Hal. apply Hal. eapply nth_error_In; eassumption.
  - apply nth_error_None in E2. lia.
Qed.

(** ** Text *)
Definition ws_free (w : str) : Prop := forallb (fun c => negb (u_is_ws U c)) w = true.
Definition word_ok (w : str) : Prop := w <> [] /\ scalars w /\ ws_free w.

Lemma ws_go_ok : forall w cur, scalars w -> scalars cur -> ws_free cur -> Forall word_ok (ws_go pl w cur).
Proof.
  assert (K : forall cur, scalars cur -> ws_free cur -> cur <> [] -> word_ok (rev cur)).
  { intros cur H1 H2 H3. split; [|split].
    - intro E. apply H3. rewrite <- (rev_involutive cur), E. reflexivity.
    - apply Forall_rev. exact H1.
    - unfold ws_free in *. rewrite forallb_forall in *. intros c Hc. apply H2. apply in_rev. exact Hc. }
  induction w as [|c w IH]; intros cur Hw Hc Hf; cbn [ws_go].
  - destruct cur as [|d cur]; [constructor|]. constructor; [|constructor]. apply K; [assumption|assumption|discriminate].
  - inversion Hw as [|? ? Hc0 Hw0]; subst. destruct (u_is_ws U c) eqn:E.
    + destruct cur as [|d cur]; [apply IH; [assumption|constructor|reflexivity]|].
      constructor; [apply K; [assumption|assumption|discriminate]|]. apply IH; [assumption|constructor|reflexivity].
    + apply IH; [assumption|constructor; assumption|]. unfold ws_free in *. cbn. rewrite E, Hf. reflexivity.
Qed.

Lemma split_ws_ok : forall l, scalars l -> Forall word_ok (split_whitespace pl l).
Proof. intros l H. apply ws_go_ok; [exact H|constructor|reflexivity]. Qed.

Definition lines_ok (ls : lines) : Prop :=
  Forall (fun nl => scalars (snd nl)) (ln_rest ls) /\
  match ln_words ls with Some ws => Forall word_ok ws | None => True end.

Lemma skip_comments_suffix : forall l, exists pre, l = pre ++ skip_comments pl l.
Proof.
  induction l as [|nl l [pre IH]]; [exists []; reflexivity|]. cbn [skip_comments].
  destruct (is_comment pl (snd nl)); [|exists []; reflexivity].
  exists (nl :: pre). cbn. f_equal. exact IH.
Qed.

Lemma peek_words_ok : forall l, Forall (fun nl : N * str => scalars (snd nl)) l ->
  match peek_words pl l with Some ws => Forall word_ok ws | None => True end.
Proof. intros [|nl l] H; cbn; [exact I|]. inversion H; subst. apply split_ws_ok. assumption. Qed.

Lemma skip_comments_ok : forall l, Forall (fun nl : N * str => scalars (snd nl)) l ->
  Forall (fun nl => scalars (snd nl)) (skip_comments pl l).
Proof. intros l H. destruct (skip_comments_suffix l) as [pre E]. rewrite E in H. apply Forall_app in H. apply H. Qed.

Lemma skip_comments_length : forall l, length (skip_comments pl l) <= length l.
Proof. intro l. destruct (skip_comments_suffix l) as [pre E]. rewrite E at 2. rewrite app_length. lia. Qed.

Lemma advance_ok : forall ls, lines_ok ls -> lines_ok (advance_line pl ls).
Proof.
  intros ls [H _]. unfold advance_line, lines_ok. cbn [ln_rest ln_words].
  assert (Forall (fun nl : N * str => scalars (snd nl)) (skip_comments pl (tl (ln_rest ls)))) as K.
  { apply skip_comments_ok. destruct (ln_rest ls); [constructor|]. inversion H; assumption. }
  split; [exact K|apply peek_words_ok; exact K].
Qed.

Lemma advance_shrinks : forall ls, is_finished (advance_line pl ls) = false ->
  length (ln_rest (advance_line pl ls)) < length (ln_rest ls).
Proof.
  intros ls H. unfold advance_line in *. cbn [ln_rest] in *. pose proof (skip_comments_length (tl (ln_rest ls))).
  destruct (ln_rest ls) as [|nl l]; [cbn in H; discriminate|]. cbn [tl length] in *. lia.
Qed.

Lemma advance_le : forall ls, length (ln_rest (advance_line pl ls)) <= pred (length (ln_rest ls)).
Proof.
  intro ls. unfold advance_line. cbn [ln_rest]. pose proof (skip_comments_length (tl (ln_rest ls))).
  destruct (ln_rest ls); cbn [tl length] in *; lia.
Qed.

Lemma with_words_ok : forall ls ws, lines_ok ls -> Forall word_ok ws -> lines_ok (with_words ls (Some ws)).
Proof. intros ls ws [H _] K. split; assumption. Qed.
Lemma with_none_ok : forall ls, lines_ok ls -> lines_ok (with_words ls None).
Proof. intros ls [H _]. split; [assumption|exact I]. Qed.

Lemma next_word_ok : forall ls ls' w, lines_ok ls -> next_word ls = (ls', w) ->
  lines_ok ls' /\ ln_rest ls' = ln_rest ls /\ match w with Some w => word_ok w | None => True end.
Proof.
  intros ls ls' w H E. unfold next_word in E. pose proof H as [_ Hw]. destruct (ln_words ls) as [[|x ws]|].
  - injection E as <- <-. split; [apply with_none_ok; exact H|]. split; [reflexivity|exact I].
  - injection E as <- <-. inversion Hw; subst. split; [apply with_words_ok; assumption|]. split; [reflexivity|assumption].
  - injection E as <- <-. split; [apply with_none_ok; exact H|]. split; [reflexivity|exact I].
Qed.

Definition same_rest (ls ls' : lines) : Prop := lines_ok ls' /\ ln_rest ls' = ln_rest ls.

Lemma safe_one_word : forall ls, lines_ok ls ->
  safe (fun r => same_rest ls (fst r) /\ word_ok (snd r)) (take_exactly_one_word ls).
Proof.
  intros ls H. unfold take_exactly_one_word. pose proof H as [_ Hw]. destruct (ln_words ls) as [[|x ws]|]; try exact I.
  inversion Hw; subst. cbn. split; [|assumption]. split; [apply with_words_ok; assumption|reflexivity].
Qed.

Lemma take_words_ok : forall ls ls' ws, lines_ok ls -> take_words ls = (ls', ws) ->
  same_rest ls ls' /\ Forall word_ok ws.
Proof.
  intros ls ls' ws H E. unfold take_words in E. injection E as <- <-. split.
  - split; [apply with_none_ok; exact H|reflexivity].
  - destruct H as [_ H]. destruct (ln_words ls); [exact H|constructor].
Qed.

Lemma safe_parse_flag : forall t ls, lines_ok ls ->
  safe (fun r => same_rest ls (fst r) /\ valid_flag (snd r)) (parse_flag pl t ls).
Proof.
  intros t ls H. unfold parse_flag. eapply safe_bind; [apply safe_one_word; exact H|].
  intros [ls1 w] [H1 [Hne [Hs _]]]. cbn [fst snd] in *.
  eapply safe_bind; [apply safe_at_line, safe_mapErr, safe_flag_from_str; assumption|].
  intros f Hf. cbn. split; assumption.
Qed.

Lemma safe_parse_short : forall ls, lines_ok ls ->
  safe (fun r => same_rest ls (fst r) /\ (snd r <= 65535)%N) (parse_short ls).
Proof.
  intros ls H. unfold parse_short. eapply safe_bind; [apply safe_one_word; exact H|].
  intros [ls1 w] [H1 _]. cbn [fst snd] in *. unfold parse_u16.
  destruct (parse_uint 65535 w) eqn:E; [|exact I]. cbn. split; [assumption|]. eapply parse_uint_le; exact E.
Qed.

Lemma safe_row_count : forall ls, lines_ok ls -> safe (fun r => same_rest ls (fst r)) (parse_row_count ls).
Proof.
  intros ls H. unfold parse_row_count. eapply safe_bind; [apply safe_one_word; exact H|].
  intros [ls1 w] [H1 _]. cbn [fst snd] in *. destruct (parse_usize w); [|exact I]. cbn. assumption.
Qed.

(** ** Tables *)
Section Tables.
Context {C : Type}.
Variable Inv : C -> Prop.

Definition good (ls : lines) (r : lines * C) : Prop :=
  lines_ok (fst r) /\ length (ln_rest (fst r)) <= length (ln_rest ls) /\ Inv (snd r).

Lemma same_rest_good : forall ls ls' x, same_rest ls ls' -> Inv x -> good ls (ls', x).
Proof. intros ls ls' x [H E] K. split; [exact H|]. cbn. rewrite E. split; [lia|exact K]. Qed.

Lemma good_trans : forall ls ls' r, length (ln_rest ls') <= length (ln_rest ls) -> good ls' r -> good ls r.
Proof. intros ls ls' r H (K1 & K2 & K3). split; [exact K1|]. split; [lia|exact K3]. Qed.

Lemma rows_safe : forall key body, (forall ls x, lines_ok ls -> Inv x -> safe (good ls) (body ls x)) ->
  forall fuel row count ls x, lines_ok ls -> Inv x -> length (ln_rest ls) < fuel ->
  safe (good ls) (rows pl key body fuel row count ls x).
Proof.
  intros key body Hb. induction fuel as [|fuel IH]; intros row count ls x Hl Hx Hf; [lia|]. cbn [rows].
  destruct (count <? row)%N; [split; [exact Hl|split; [cbn; lia|exact Hx]]|].
  destruct (is_finished (advance_line pl ls)) eqn:Ef; [exact I|].
  pose proof (advance_ok Hl) as Ha. pose proof (advance_shrinks _ Ef) as Hsh.
  destruct (next_word (advance_line pl ls)) as [ls2 w] eqn:Ew. destruct (next_word_ok Ha Ew) as (H2 & H3 & _).
  destruct (match w with Some w => str_eqb w key | None => false end); [|exact I].
  eapply safe_bind; [apply Hb; assumption|]. intros [ls3 x'] (G1 & G2 & G3). cbn [fst snd] in *.
  rewrite H3 in G2. eapply safe_weaken; [apply IH; [exact G1|exact G3|lia]|].
  intros r Hr. apply good_trans with (ls' := ls3); [lia|exact Hr].
Qed.

Lemma table_rows_safe : forall key body, (forall ls x, lines_ok ls -> Inv x -> safe (good ls) (body ls x)) ->
  forall count ls x, lines_ok ls -> Inv x -> safe (good ls) (table_rows pl key body count ls x).
Proof. intros. apply rows_safe; try assumption. lia. Qed.

Lemma table1_safe : forall key f, (forall w x, word_ok w -> Inv x -> safe Inv (f w x)) ->
  forall ls x, lines_ok ls -> Inv x -> safe (good ls) (parse_table1 pl key f ls x).
Proof.
  intros key f Hf ls x Hl Hx. unfold parse_table1. eapply safe_bind; [apply safe_row_count; exact Hl|].
  intros [ls1 count] [H1 H2]. cbn [fst] in *.
  eapply safe_weaken with (Q := good ls1).
  - apply table_rows_safe; try assumption. intros l y Hl' Hy.
    destruct (take_words l) as [l2 ws] eqn:E. destruct (take_words_ok Hl' E) as [K1 K2].
    destruct ws as [|w ws]; [exact I|]. inversion K2; subst.
    eapply safe_bind; [apply safe_at_line, Hf; assumption|]. intros y' Hy'. cbn. apply same_rest_good; assumption.
  - intros r Hr. eapply good_trans; [|exact Hr]. rewrite H2. lia.
Qed.

Lemma table2_safe : forall key f, (forall w1 w2 x, word_ok w1 -> word_ok w2 -> Inv x -> safe Inv (f w1 w2 x)) ->
  forall ls x, lines_ok ls -> Inv x -> safe (good ls) (parse_table2 pl key f ls x).
Proof.
  intros key f Hf ls x Hl Hx. unfold parse_table2. eapply safe_bind; [apply safe_row_count; exact Hl|].
  intros [ls1 count] [H1 H2]. cbn [fst] in *.
  eapply safe_weaken with (Q := good ls1).
  - apply table_rows_safe; try assumption. intros l y Hl' Hy.
    destruct (take_words l) as [l2 ws] eqn:E. destruct (take_words_ok Hl' E) as [K1 K2].
    destruct ws as [|w1 [|w2 ws]]; [exact I|exact I|]. inversion K2 as [|? ? W1 K3]; subst. inversion K3 as [|? ? W2 K4]; subst.
    eapply safe_bind; [apply safe_at_line, Hf; assumption|]. intros y' Hy'. cbn. apply same_rest_good; assumption.
  - intros r Hr. eapply good_trans; [|exact Hr]. rewrite H2. lia.
Qed.

Lemma split_naive_scalars : forall w a b, scalars w -> split_word_and_flagset_naive w = (a, b) -> scalars a /\ scalars b.
Proof.
  intros w a b H E. unfold split_word_and_flagset_naive in E. destruct (split_once [ch_slash] w) as [[u v]|] eqn:Es.
  - injection E as <- <-. apply split_once_sound in Es. subst w. apply Forall_app in H. destruct H as [H1 H2].
    apply Forall_app in H2. split; [exact H1|apply H2].
  - injection E as <- <-. split; [exact H|constructor].
Qed.

Lemma affix_table_safe : forall key t f,
  (forall flag cp strip add cond flags x, valid_flag flag -> (forall s, strip = Some s -> word_ok s /\ s <> zero_str) ->
     scalars add -> ws_free add -> (forall s, cond = Some s -> word_ok s) -> scalars flags -> Inv x ->
     safe Inv (f flag cp strip add cond flags x)) ->
  forall ls x, lines_ok ls -> Inv x -> safe (good ls) (parse_affix_table pl key t f ls x).
Proof.
  intros key t f Hf ls x Hl Hx. unfold parse_affix_table.
  destruct (take_words ls) as [ls0 ws] eqn:E. destruct (take_words_ok Hl E) as [[K1 K1'] K2].
  destruct ws as [|flag_str ws]; [exact I|]. inversion K2 as [|? ? [Wne [Ws _]] K3]; subst.
  eapply safe_bind; [apply safe_at_line, safe_mapErr, safe_flag_from_str; assumption|].
  intros flag Hflag. cbv beta in Hflag. destruct ws as [|cp ws]; [exact I|].
  destruct (negb _); [exact I|]. destruct ws as [|n ws]; [exact I|]. destruct (parse_usize n) as [count|]; [|exact I].
  eapply safe_weaken with (Q := good ls0).
  - apply table_rows_safe; try assumption. intros l y Hl' Hy.
    destruct (take_words l) as [l2 ws2] eqn:E2. destruct (take_words_ok Hl' E2) as [L1 L2].
    destruct ws2 as [|fs ws2]; [exact I|]. destruct (negb _); [exact I|].
    destruct ws2 as [|st [|ad ws2]]; [exact I|exact I|].
    inversion L2 as [|? ? _ L3]; subst. inversion L3 as [|? ? Wst L4]; subst. inversion L4 as [|? ? Wad L5]; subst.
    destruct (split_word_and_flagset_naive ad) as [add flags] eqn:Es.
    destruct Wad as [Wad1 [Wad2 Wad3]]. destruct (split_naive_scalars Wad2 Es) as [Sa Sf].
    eapply safe_bind.
    + apply safe_at_line, Hf; [exact Hflag| | | | |exact Sf|exact Hy].
      * intros s Q. destruct (str_eqb st zero_str) eqn:E0; [discriminate|]. injection Q as <-.
        apply str_eqb_neq in E0. split; assumption.
      * destruct (str_eqb add zero_str); [constructor|exact Sa].
      * destruct (str_eqb add zero_str); [reflexivity|]. unfold split_word_and_flagset_naive in Es.
        destruct (split_once [ch_slash] ad) as [[u v]|] eqn:Eo.
        -- injection Es as <- <-. apply split_once_sound in Eo. unfold ws_free in *. rewrite Eo in Wad3.
           rewrite forallb_app in Wad3. apply andb_true_iff in Wad3. apply Wad3.
        -- injection Es as <- <-. exact Wad3.
      * intros s Q. destruct ws2 as [|c ws2]; [discriminate|]. destruct (str_eqb c (lit ".")); [discriminate|].
        injection Q as <-. inversion L5; assumption.
    + intros y' Hy'. cbn. apply same_rest_good; assumption.
  - intros r Hr. eapply good_trans; [|exact Hr]. rewrite K1'. lia.
Qed.
End Tables.

(** ** What the parser keeps true *)
Definition okflag (o : option N) : Prop := match o with Some f => valid_flag f | None => True end.
Definition okcount (o : option N) : Prop := match o with Some v => (0 < v <= 65535)%N | None => True end.

Record opts_ok (o : options) : Prop := {
  oo_only_in_compound : okflag (o_only_in_compound o);
  oo_circumfix : okflag (o_circumfix o);
  oo_forbidden : valid_flag (o_forbidden o);
  oo_keep_case : okflag (o_keep_case o);
  oo_need_affix : okflag (o_need_affix o);
  oo_warn : okflag (o_warn o);
  oo_compound : okflag (o_compound o);
  oo_compound_begin : okflag (o_compound_begin o);
  oo_compound_middle : okflag (o_compound_middle o);
  oo_compound_end : okflag (o_compound_end o);
  oo_min_length : okcount (o_min_length o);
  oo_max_words : okcount (o_max_words o);
  oo_permit : okflag (o_permit o);
  oo_forbid : okflag (o_forbid o);
  oo_root : okflag (o_root o);
  oo_force_upper : okflag (o_force_upper o);
  oo_syllable_max : okcount (o_syllable_max o);
  oo_no_suggest : okflag (o_no_suggest o);
  oo_substandard : okflag (o_substandard o);
  oo_max_cpd : (o_max_cpd_sugs o <= 65535)%N;
  oo_max_ngram : (o_max_ngram o <= 65535)%N;
  oo_max_diff : (o_max_diff o <= 10)%N }.

Definition affix_ok (a : affix) : Prop :=
  valid_flag (a_flag a) /\ wf_flags (a_flags a) /\ scalars (a_add a) /\ scalars (strip_text a) /\
  a_strip a <> Some [] /\ (forall c, a_cond a = Some c -> exists es, cond_denotes c es).

Definition rule_ok (r : rule) : Prop := r <> [] /\ Forall (fun e => valid_flag (re_flag e)) r.

Definition pattern_ok (p : compound_pattern) : Prop :=
  scalars (cp_begin p) /\ scalars (cp_end p) /\ okflag (cp_first_flag p) /\ okflag (cp_second_flag p) /\
  (forall r, cp_replacement p = Some r -> r <> [] /\ scalars r).

Definition sim_ok (g : similarity_group) : Prop :=
  scalars (sg_chars g) /\ Forall (fun s => 2 <= length s /\ scalars s) (sg_strings g).

Definition pair_ok (e : str * str) : Prop := fst e <> [] /\ snd e <> [] /\ scalars (fst e) /\ scalars (snd e).

Record lp_ok (x : lparser) : Prop := {
  lo_opts : opts_ok (x_options x);
  lo_aliases : Forall wf_flags (x_aliases x);
  lo_reps : Forall pair_ok (x_reps x);
  lo_sims : Forall sim_ok (x_sims x);
  lo_iconv : Forall pair_ok (x_iconv x);
  lo_oconv : Forall pair_ok (x_oconv x);
  lo_breaks : Forall (fun b => b <> [] /\ scalars b) (x_breaks x);
  lo_vowels : scalars (x_vowels x);
  lo_ignore : scalars (x_ignore x);
  lo_try : scalars (x_try x);
  lo_keyboard : scalars (x_keyboard x);
  lo_prefixes : Forall affix_ok (x_prefixes x);
  lo_suffixes : Forall affix_ok (x_suffixes x);
  lo_rules : Forall rule_ok (x_rules x);
  lo_patterns : Forall pattern_ok (x_patterns x) }.

Lemma Forall_snoc : forall A (Q : A -> Prop) l x, Forall Q l -> Q x -> Forall Q (l ++ [x]).
Proof. intros A Q l x H K. apply Forall_app. split; [exact H|constructor; [exact K|constructor]]. Qed.

(** ** COMPOUNDRULE, MAP, conditions *)
Lemma next_flag_ok : forall t c cs f r, scalars (c :: cs) -> next_flag pl t c cs = Ok (f, r) ->
  valid_flag f /\ scalars r /\ length r <= length cs.
Proof.
  intros t c cs f r Hs H. inversion Hs as [|? ? Hc Hcs]; subst.
  assert (lifted : forall v rest, (v < 65536)%N -> scalars rest -> length rest <= length cs ->
            lift_flag (try_flag_from_u16 v) rest = Ok (f, r) -> valid_flag f /\ scalars r /\ length r <= length cs).
  { intros v rest Hv Hr Hl E. unfold lift_flag in E. destruct (try_flag_from_u16 v) eqn:Et; [|discriminate].
    injection E as <- <-. split; [eapply try_flag_ok; eassumption|]. split; assumption. }
  destruct t; cbn [next_flag] in H.
  - destruct (128 <=? c)%N eqn:E; [discriminate|]. destruct (_ || _); [discriminate|].
    eapply lifted; [|exact Hcs|apply le_n|exact H]. lia.
  - destruct (c =? 40)%N; [|discriminate]. destruct cs as [|c1 cs]; [discriminate|].
    destruct (128 <=? c1)%N eqn:E1; [discriminate|]. destruct (c1 =? 41)%N; [discriminate|].
    destruct cs as [|c2 cs]; [discriminate|].
    destruct (128 <=? c2)%N eqn:E2; [discriminate|]. destruct (c2 =? 41)%N; [discriminate|].
    destruct cs as [|c3 cs]; [discriminate|]. destruct (c3 =? 41)%N; [|discriminate].
    inversion Hcs as [|? ? _ Q1]; subst. inversion Q1 as [|? ? _ Q2]; subst. inversion Q2 as [|? ? _ Q3]; subst.
    eapply lifted; [|exact Q3|cbn; lia|exact H]. apply ne_bytes_lt; lia.
  - destruct (c =? 40)%N; [|discriminate].
    set (n := length cs) in *. assert (Hn : length cs <= n) by (apply le_n). clearbody n.
    revert H. generalize (@nil N). clear Hs.
    induction cs as [|d cs IH]; intros number H; [discriminate|]. inversion Hcs as [|? ? Hd Hcs']; subst.
    cbn [rule_digits] in H.
    destruct ((48 <=? d)%N && (d <=? 57)%N).
    + apply (IH Hcs' ltac:(cbn in Hn; lia) _ H).
    + destruct ((d =? 41)%N && nonempty number); [|discriminate].
      unfold parse_u16 in H. destruct (parse_uint 65535 (rev number)) eqn:Ep; [|discriminate].
      eapply lifted; [|exact Hcs'|cbn in Hn; lia|exact H]. apply parse_uint_le in Ep. lia.
  - destruct (_ || _); [discriminate|]. unfold try_flag_from_char, try_flag_from_u32 in H.
    destruct (65535 <? c)%N eqn:E; [discriminate|]. eapply lifted; [|exact Hcs|apply le_n|exact H]. lia.
Qed.

Lemma take_modifier_ok : forall cs m r, scalars cs -> take_modifier cs = (m, r) -> scalars r /\ length r <= length cs.
Proof.
  intros [|c cs] m r H E; cbn [take_modifier] in E; [injection E as <- <-; auto|].
  inversion H; subst. destruct (c =? 63)%N; [injection E as <- <-; split; [assumption|cbn; lia]|].
  destruct (c =? 42)%N; injection E as <- <-; split; [assumption|cbn; lia|assumption|lia].
Qed.

Lemma rule_go_safe : forall fuel t cs, length cs < fuel -> scalars cs ->
  safe (fun r => (cs <> [] -> r <> []) /\ Forall (fun e => valid_flag (re_flag e)) r) (rule_go pl fuel t cs).
Proof.
  induction fuel as [|fuel IH]; intros t cs Hf Hs; [lia|]. cbn [rule_go].
  destruct cs as [|c cs]; [split; [congruence|constructor]|].
  destruct (next_flag pl t c cs) as [[f cs1]|e] eqn:E; [|exact I]. cbn [bindP].
  destruct (@next_flag_ok t c cs f cs1 Hs E) as (H1 & H2 & H3).
  destruct (take_modifier cs1) as [m cs2] eqn:Em. destruct (@take_modifier_ok cs1 m cs2 H2 Em) as [H4 H5].
  eapply safe_bind; [apply IH; [cbn in Hf; lia|exact H4]|]. intros r [_ Hr]. cbn. split; [discriminate|].
  constructor; assumption.
Qed.

Lemma compound_rule_safe : forall w t, w <> [] -> scalars w -> safe rule_ok (parse_compound_rule pl w t).
Proof.
  intros w t Hne Hs. unfold parse_compound_rule. eapply safe_weaken; [apply rule_go_safe; [lia|exact Hs]|].
  intros r [H1 H2]. split; auto.
Qed.

Lemma sim_go_ok : forall fuel s chars strings, length s < fuel -> scalars s -> scalars chars ->
  Forall (fun s => 2 <= length s /\ scalars s) strings ->
  exists g, sim_go fuel s chars strings = Ret g /\ sim_ok g.
Proof.
  induction fuel as [|fuel IH]; intros s chars strings Hf Hs Hc Hst; [lia|]. cbn [sim_go].
  destruct (find_char (N.eqb 40) s) as [j|] eqn:E1.
  - destruct (find_char_some _ _ E1) as (u & c & v & -> & <- & _). rewrite firstn_app_exact by reflexivity.
    replace (skipn (length u + 1) (u ++ c :: v)) with v
      by (change (c :: v) with ([c] ++ v); rewrite app_assoc, skipn_app_exact; [reflexivity|rewrite app_length; reflexivity]).
    apply Forall_app in Hs. destruct Hs as [Hu Hv]. inversion Hv as [|? ? _ Hv']; subst.
    assert (Hcu : scalars (chars ++ u)) by (apply Forall_app; auto).
    destruct (find_char (N.eqb 41) v) as [j1|] eqn:E2.
    + destruct (find_char_some _ _ E2) as (u' & c' & v' & -> & <- & _). rewrite firstn_app_exact by reflexivity.
      replace (skipn (length u' + 1) (u' ++ c' :: v')) with v'
        by (change (c' :: v') with ([c'] ++ v'); rewrite app_assoc, skipn_app_exact; [reflexivity|rewrite app_length; reflexivity]).
      apply Forall_app in Hv'. destruct Hv' as [Hu' Hv2]. inversion Hv2 as [|? ? _ Hv3]; subst.
      rewrite !app_length in Hf. cbn [length] in Hf. rewrite !app_length in Hf. cbn [length] in Hf.
      destruct u' as [|a [|b u']].
      * apply IH; [cbn in Hf; lia|assumption|rewrite app_nil_r; assumption|assumption].
      * apply IH; [cbn in Hf; lia|assumption|apply Forall_app; auto|assumption].
      * apply IH; [cbn in Hf; lia|assumption|assumption|]. apply Forall_snoc; [assumption|]. split; [cbn; lia|assumption].
    + eexists. split; [reflexivity|]. split; assumption.
  - eexists. split; [reflexivity|]. split; [apply Forall_app; auto|assumption].
Qed.

Lemma sim_from_ok : forall s, scalars s -> exists g, similarity_group_from s = Ret g /\ sim_ok g.
Proof. intros s H. apply sim_go_ok; [lia|exact H|constructor|constructor]. Qed.

Lemma safe_affix_new : forall flag cp strip add cond fs, valid_flag flag -> wf_flags fs -> scalars add ->
  (forall s, strip = Some s -> word_ok s /\ s <> zero_str) ->
  safe affix_ok (affix_new flag cp strip add cond fs).
Proof.
  intros flag cp strip add cond fs H1 H2 H3 H4.
  assert (K : forall c, (forall c', c = Some c' -> exists es, cond_denotes c' es) ->
              affix_ok (mkAffix flag cp strip add c fs)).
  { intros c Hc. unfold affix_ok, strip_text. cbn. repeat (split; [assumption|]).
    split; [destruct strip as [s|]; [destruct (H4 s eq_refl) as [[_ [Q _]] _]; exact Q|constructor]|].
    split; [|exact Hc]. intro Q. destruct (H4 [] Q) as [[Q' _] _]. contradiction. }
  unfold affix_new. destruct cond as [s|]; [|apply K; discriminate].
  destruct (cond_from_str_total s) as [[c|e] E]; rewrite E; cbn; [|exact I].
  apply K. intros c' Q. injection Q as <-. eapply cond_from_str_denotes; exact E.
Qed.

(** ** Directives *)
Definition keeps (Inv : lparser -> Prop) (p : lparser -> lines -> P perror (lines * lparser)) : Prop :=
  forall x ls, lines_ok ls -> Inv x -> safe (good Inv ls) (p x ls).

Section Keeps.
(** An invariant that also fixes what is known about the BREAK table. *)
Variable B : list str -> Prop.
Definition Kept (x : lparser) : Prop := lp_ok x /\ B (x_breaks x).

Lemma keeps_flag : forall g, (forall f o, valid_flag f -> opts_ok o -> opts_ok (g (Some f) o)) ->
  keeps Kept (flag_directive pl g).
Proof.
  intros g Hg x ls Hl [Hx Hb]. unfold flag_directive. eapply safe_bind; [apply safe_parse_flag; exact Hl|].
  intros [ls1 f] [H1 H2]. cbn in *. apply same_rest_good; [exact H1|]. split; [|exact Hb].
  destruct Hx. constructor; cbn; try assumption. apply Hg; assumption.
Qed.

Lemma keeps_bool : forall g, (forall b o, opts_ok o -> opts_ok (g b o)) -> keeps Kept (bool_directive g).
Proof.
  intros g Hg x ls Hl [Hx Hb]. unfold bool_directive, parse_bool. cbn.
  apply same_rest_good; [split; [exact Hl|reflexivity]|]. split; [|exact Hb].
  destruct Hx. constructor; cbn; try assumption. apply Hg; assumption.
Qed.

Lemma keeps_short : forall g, (forall v o, (v <= 65535)%N -> opts_ok o -> opts_ok (g v o)) -> keeps Kept (short_directive g).
Proof.
  intros g Hg x ls Hl [Hx Hb]. unfold short_directive. eapply safe_bind; [apply safe_parse_short; exact Hl|].
  intros [ls1 v] [H1 H2]. cbn in *. apply same_rest_good; [exact H1|]. split; [|exact Hb].
  destruct Hx. constructor; cbn; try assumption. apply Hg; assumption.
Qed.

Lemma keeps_word : forall g, (forall w x, word_ok w -> Kept x -> Kept (g w x)) -> keeps Kept (word_directive g).
Proof.
  intros g Hg x ls Hl Hx. unfold word_directive. eapply safe_bind; [apply safe_one_word; exact Hl|].
  intros [ls1 w] [H1 H2]. cbn in *. apply same_rest_good; [exact H1|]. apply Hg; assumption.
Qed.

Lemma keeps_flag_type : keeps Kept parse_flag_type.
Proof.
  intros x ls Hl [Hx Hb]. unfold parse_flag_type. eapply safe_bind; [apply safe_one_word; exact Hl|].
  intros [ls1 w] [H1 H2]. cbn in *. destruct Hx.
  repeat match goal with |- safe _ (if ?b then _ else _) => destruct b end; try exact I;
    (apply same_rest_good; [exact H1|]; split; [constructor; cbn; assumption|exact Hb]).
Qed.

Lemma keeps_forbidden : keeps Kept (parse_forbidden_word_flag pl).
Proof.
  intros x ls Hl [Hx Hb]. unfold parse_forbidden_word_flag. eapply safe_bind; [apply safe_parse_flag; exact Hl|].
  intros [ls1 f] [H1 H2]. cbn in *. apply same_rest_good; [exact H1|]. split; [|exact Hb].
  destruct Hx as [Ho]. constructor; cbn; try assumption. destruct Ho. constructor; cbn; assumption.
Qed.

Lemma scalars_replace : forall a b w, scalar b -> scalars w -> scalars (replace_char a b w).
Proof.
  intros a b w Hb Hw. unfold replace_char, scalars in *. induction Hw; cbn; constructor; [|assumption].
  destruct (_ =? _)%N; assumption.
Qed.

Lemma keeps_replacements : keeps Kept (parse_replacements pl).
Proof.
  intros x ls Hl Hx. unfold parse_replacements. apply table2_safe; [|exact Hl|exact Hx].
  intros w1 w2 y [A1 [A2 _]] [B1 [B2 _]] [Hy Hb]. cbn. split; [|exact Hb]. destruct Hy. constructor; cbn; try assumption.
  apply Forall_snoc; [assumption|]. split; [exact A1|]. cbn. split; [|split; [exact A2|apply scalars_replace; [reflexivity|exact B2]]].
  destruct w2; [contradiction|discriminate].
Qed.

Lemma keeps_iconv : keeps Kept (parse_input_conversions pl).
Proof.
  intros x ls Hl Hx. unfold parse_input_conversions. apply table2_safe; [|exact Hl|exact Hx].
  intros w1 w2 y [A1 [A2 _]] [B1 [B2 _]] [Hy Hb]. cbn. split; [|exact Hb]. destruct Hy. constructor; cbn; try assumption.
  apply Forall_snoc; [assumption|]. repeat split; assumption.
Qed.

Lemma keeps_oconv : keeps Kept (parse_output_conversions pl).
Proof.
  intros x ls Hl Hx. unfold parse_output_conversions. apply table2_safe; [|exact Hl|exact Hx].
  intros w1 w2 y [A1 [A2 _]] [B1 [B2 _]] [Hy Hb]. cbn. split; [|exact Hb]. destruct Hy. constructor; cbn; try assumption.
  apply Forall_snoc; [assumption|]. repeat split; assumption.
Qed.

Lemma keeps_breaks : B [] -> (forall l w, B l -> B (l ++ [w])) -> keeps Kept (parse_break_patterns pl).
Proof.
  intros B0 B1 x ls Hl [Hx Hb]. unfold parse_break_patterns. apply table1_safe; [|exact Hl|].
  - intros w y [A1 [A2 _]] [Hy Hyb]. cbn. split; [|cbn; auto]. destruct Hy. constructor; cbn; try assumption.
    apply Forall_snoc; [assumption|]. split; assumption.
  - split; [|exact B0]. destruct Hx. constructor; cbn; try assumption. constructor.
Qed.

Lemma okcount_nonzero : forall v, (v <= 65535)%N -> okcount (nonzero v).
Proof. intros v H. unfold nonzero. destruct (v =? 0)%N eqn:E; cbn; [exact I|lia]. Qed.

Lemma keeps_syllable : keeps Kept parse_compound_syllable.
Proof.
  intros x ls Hl [Hx Hb]. unfold parse_compound_syllable.
  destruct (take_words ls) as [ls0 ws] eqn:E. destruct (take_words_ok Hl E) as [K1 K2].
  destruct ws as [|w1 [|w2 ws]]; [exact I|exact I|]. inversion K2 as [|? ? W1 K3]; subst. inversion K3 as [|? ? [_ [W2 _]] K4]; subst.
  unfold parse_u16. destruct (parse_uint 65535 w1) as [v|e] eqn:Ev; [|exact I]. apply parse_uint_le in Ev.
  cbn. apply same_rest_good; [exact K1|]. split; [|exact Hb]. destruct Hx as [Ho]. constructor; cbn; try assumption.
  destruct Ho. constructor; cbn; try assumption. apply okcount_nonzero. exact Ev.
Qed.

Lemma keeps_aliases : keeps Kept (parse_flag_aliases pl).
Proof.
  intros x ls Hl Hx. unfold parse_flag_aliases. apply table1_safe; [|exact Hl|exact Hx].
  intros w y [A1 [A2 _]] [Hy Hb]. eapply safe_bind; [apply safe_mapErr, safe_flags_from_str; exact A2|].
  intros fs Hfs. cbn. split; [|exact Hb]. destruct Hy. constructor; cbn; try assumption. apply Forall_snoc; assumption.
Qed.

Lemma keeps_prefixes : keeps Kept (parse_prefix_table pl).
Proof.
  intros x ls Hl Hx. unfold parse_prefix_table. apply affix_table_safe; [|exact Hl|exact Hx].
  intros flag cp strip add cond flags y F1 F2 F3 _ F4 F5 [Hy Hb]. unfold affix_row.
  eapply safe_bind; [apply safe_mapErr, safe_decode_flagset; [exact F5|apply lo_aliases; exact Hy]|].
  intros fs Hfs. eapply safe_bind; [apply safe_mapErr, safe_affix_new; eassumption|].
  intros a Ha. cbn. split; [|exact Hb]. destruct Hy. constructor; cbn; try assumption. apply Forall_snoc; assumption.
Qed.

Lemma keeps_suffixes : keeps Kept (parse_suffix_table pl).
Proof.
  intros x ls Hl Hx. unfold parse_suffix_table. apply affix_table_safe; [|exact Hl|exact Hx].
  intros flag cp strip add cond flags y F1 F2 F3 _ F4 F5 [Hy Hb]. unfold affix_row.
  eapply safe_bind; [apply safe_mapErr, safe_decode_flagset; [exact F5|apply lo_aliases; exact Hy]|].
  intros fs Hfs. eapply safe_bind; [apply safe_mapErr, safe_affix_new; eassumption|].
  intros a Ha. cbn. split; [|exact Hb]. destruct Hy. constructor; cbn; try assumption. apply Forall_snoc; assumption.
Qed.

Lemma keeps_rules : keeps Kept (parse_compound_rule_table pl).
Proof.
  intros x ls Hl Hx. unfold parse_compound_rule_table. apply table1_safe; [|exact Hl|exact Hx].
  intros w y [A1 [A2 _]] [Hy Hb]. eapply safe_bind; [apply safe_mapErr, compound_rule_safe; assumption|].
  intros r Hr. cbn. split; [|exact Hb]. destruct Hy. constructor; cbn; try assumption. apply Forall_snoc; assumption.
Qed.

Lemma safe_optional_flag : forall t s, scalars s -> safe okflag (optional_flag pl t s).
Proof.
  intros t s Hs. unfold optional_flag. destruct s as [|c s]; [exact I|].
  eapply safe_bind; [apply safe_flag_from_str; [discriminate|exact Hs]|]. intros f Hf. exact Hf.
Qed.

Lemma keeps_patterns : keeps Kept (parse_compound_pattern_table pl).
Proof.
  intros x ls Hl Hx. unfold parse_compound_pattern_table. eapply safe_bind; [apply safe_row_count; exact Hl|].
  intros [ls1 count] [H1 H2]. cbn [fst] in *.
  eapply safe_weaken with (Q := good Kept ls1).
  - apply table_rows_safe; try assumption. intros l y Hl' [Hy Hb]. unfold pattern_row.
    destruct (take_words l) as [l2 ws] eqn:E. destruct (take_words_ok Hl' E) as [K1 K2].
    destruct ws as [|w1 [|w2 ws]]; [exact I|exact I|].
    inversion K2 as [|? ? [_ [W1 _]] K3]; subst. inversion K3 as [|? ? [_ [W2 _]] K4]; subst.
    destruct (split_word_and_flagset_naive w1) as [e1 f1] eqn:Es1. destruct (split_word_and_flagset_naive w2) as [e2 f2] eqn:Es2.
    destruct (split_naive_scalars W1 Es1) as [A1 A2]. destruct (split_naive_scalars W2 Es2) as [A3 A4].
    eapply safe_bind; [apply safe_at_line, safe_mapErr, safe_optional_flag; exact A2|]. intros g1 G1.
    eapply safe_bind; [apply safe_at_line, safe_mapErr, safe_optional_flag; exact A4|]. intros g2 G2.
    cbn. apply same_rest_good; [exact K1|]. split; [|exact Hb]. destruct Hy. constructor; cbn; try assumption.
    apply Forall_snoc; [assumption|]. unfold pattern_ok. cbn.
    split; [destruct (str_eqb e1 zero_str); [constructor|exact A1]|]. split; [exact A3|]. split; [exact G1|]. split; [exact G2|].
    intros r Hr. destruct ws as [|w3 ws]; [discriminate|]. injection Hr as <-. inversion K4 as [|? ? [Q1 [Q2 _]] _]; auto.
  - intros r Hr. eapply good_trans; [|exact Hr]. rewrite H2. lia.
Qed.

Lemma keeps_map : keeps Kept (parse_map pl).
Proof.
  intros x ls Hl Hx. unfold parse_map. apply table1_safe; [|exact Hl|exact Hx].
  intros w y [A1 [A2 _]] [Hy Hb]. destruct (sim_from_ok A2) as [g [E Hg]]. rewrite E. cbn.
  split; [|exact Hb]. destruct Hy. constructor; cbn; try assumption. apply Forall_snoc; assumption.
Qed.

Lemma all_parsers_keep : Forall (fun e => fst e = lit "BREAK" \/ keeps Kept (snd e)) (aff_parsers pl).
Proof.
  unfold aff_parsers.
  repeat match goal with |- Forall _ (_ :: _) => apply Forall_cons end; try apply Forall_nil;
    (let go := match goal with
       | |- _ \/ keeps _ (snd (_, parse_break_patterns _)) => left; reflexivity
       | _ => right; cbn [snd] end in go);
    match goal with
    | |- keeps _ parse_flag_type => exact keeps_flag_type
    | |- keeps _ (parse_forbidden_word_flag _) => exact keeps_forbidden
    | |- keeps _ (flag_directive _ _) =>
        apply keeps_flag; intros f o Hf Ho; destruct Ho; constructor; cbn; assumption
    | |- keeps _ (bool_directive _) =>
        apply keeps_bool; intros b o Ho; destruct Ho; constructor; cbn; assumption
    | |- keeps _ (short_directive _) =>
        apply keeps_short; intros v o Hv Ho; destruct Ho; constructor; cbn; try assumption
    | |- keeps _ (word_directive _) =>
          apply keeps_word; intros w x [_ [Hw _]] [Hx Hb]; split; [|exact Hb];
          destruct Hx as [Ho]; constructor; cbn; try assumption
    | |- keeps _ (parse_replacements _) => exact keeps_replacements
    | |- keeps _ (parse_input_conversions _) => exact keeps_iconv
    | |- keeps _ (parse_output_conversions _) => exact keeps_oconv
    | |- keeps _ parse_compound_syllable => exact keeps_syllable
    | |- keeps _ (parse_flag_aliases _) => exact keeps_aliases
    | |- keeps _ (parse_prefix_table _) => exact keeps_prefixes
    | |- keeps _ (parse_suffix_table _) => exact keeps_suffixes
    | |- keeps _ (parse_compound_rule_table _) => exact keeps_rules
    | |- keeps _ (parse_compound_pattern_table _) => exact keeps_patterns
    | |- keeps _ (parse_map _) => exact keeps_map
    | |- _ => idtac
    end.
  - apply okcount_nonzero. lia.
  - apply okcount_nonzero. lia.
  - destruct (10 <? v)%N eqn:E; lia.
  - destruct Ho. constructor; cbn [set_case o_only_in_compound o_circumfix o_forbidden o_keep_case o_need_affix o_warn o_compound
      o_compound_begin o_compound_middle o_compound_end o_min_length o_max_words o_permit o_forbid o_root o_force_upper
      o_syllable_max o_no_suggest o_substandard o_max_cpd_sugs o_max_ngram o_max_diff]; assumption.
Qed.
End Keeps.

Lemma find_parser_In : forall key p, find_parser pl key = Some p -> In (key, p) (aff_parsers pl).
Proof.
  intros key p H. unfold find_parser in H. apply first_some_some in H. destruct H as [[k q] [H1 H2]].
  cbn in H2. destruct (str_eqb k key) eqn:E; [|discriminate]. injection H2 as <-. apply str_eqb_eq in E. subst k. exact H1.
Qed.

Lemma find_parser_keeps : forall (B : list str -> Prop) key p, B [] -> (forall l w, B l -> B (l ++ [w])) ->
  find_parser pl key = Some p -> keeps (Kept B) p.
Proof.
  intros B key p B0 B1 H. apply find_parser_In in H.
  assert (p = parse_break_patterns pl \/ keeps (Kept B) p) as [-> | K]; [|apply keeps_breaks; assumption|exact K].
  pose proof (all_parsers_keep B) as K. rewrite Forall_forall in K. destruct (K _ H) as [E|E]; [left|right; exact E].
  cbn [fst] in E. subst key. clear K.
  assert (U1 : forall q, In (lit "BREAK", q) (aff_parsers pl) -> q = parse_break_patterns pl).
  { intros q Hq. unfold aff_parsers in Hq. cbn [In] in Hq.
    repeat (destruct Hq as [Hq|Hq]; [injection Hq; intros; solve [discriminate|congruence]|]). contradiction. }
  apply U1. exact H.
Qed.

Lemma opts_ok_default : opts_ok default_options.
Proof. constructor; cbn; try exact I; unfold valid_flag; lia. Qed.

Lemma lp_ok_default : lp_ok default_lp.
Proof.
  constructor; cbn; try (constructor; fail); try exact opts_ok_default.
  repeat constructor; try discriminate.
Qed.

Lemma lines_go_scalars : forall w cur, scalars w -> scalars cur -> Forall scalars (lines_go w cur).
Proof.
  assert (K : forall cur, scalars cur -> scalars (strip_cr cur)).
  { intros [|c cur] H; [constructor|]. inversion H; subst. cbn [strip_cr].
    destruct (c =? 13)%N; apply Forall_rev; assumption. }
  induction w as [|c w IH]; intros cur Hw Hc; cbn [lines_go].
  - destruct cur; [constructor|]. constructor; [apply Forall_rev; exact Hc|constructor].
  - inversion Hw; subst. destruct (c =? 10)%N.
    + constructor; [apply K; exact Hc|]. apply IH; [assumption|constructor].
    + apply IH; [assumption|constructor; assumption].
Qed.

Lemma number_from_snd : forall A (l : list A) n, map snd (number_from n l) = l.
Proof. induction l as [|x l IH]; intro n; cbn; [reflexivity|]. f_equal. apply IH. Qed.

Lemma number_from_Forall : forall A (Q : A -> Prop) l n, Forall Q l -> Forall (fun p => Q (snd p)) (number_from n l).
Proof. intros A Q l. induction l as [|x l IH]; intros n H; cbn; [constructor|]. inversion H; subst. constructor; auto. Qed.

Lemma lines_new_ok : forall text src, scalars text -> lines_ok (lines_new pl text src).
Proof.
  intros text src H. unfold lines_new.
  set (t := match strip_prefix [65279%N] text with Some t => t | None => text end).
  assert (scalars t) as Ht.
  { unfold t. destruct (strip_prefix [65279%N] text) as [u|] eqn:E; [|exact H]. apply strip_prefix_spec in E.
    subst text. apply Forall_app in H. apply H. }
  assert (Forall (fun nl : N * str => scalars (snd nl)) (skip_comments pl (number_from 0 (text_lines t)))) as K.
  { apply skip_comments_ok, number_from_Forall, lines_go_scalars; [exact Ht|constructor]. }
  split; cbn [ln_rest ln_words]; [exact K|apply peek_words_ok; exact K].
Qed.

Lemma aff_go_safe : forall (B : list str -> Prop), B [] -> (forall l w, B l -> B (l ++ [w])) ->
  forall fuel ls x, lines_ok ls -> Kept B x -> length (ln_rest ls) < fuel -> safe (Kept B) (aff_go pl fuel ls x).
Proof.
  intros B B0 B1. induction fuel as [|fuel IH]; intros ls x Hl Hx Hf; [lia|]. cbn [aff_go].
  destruct (is_finished ls) eqn:Ef; [exact Hx|].
  destruct (next_word ls) as [ls1 w] eqn:Ew. destruct (next_word_ok Hl Ew) as (H1 & H2 & _).
  eapply safe_bind with (Q := good (Kept B) ls1).
  - destruct (match w with Some key => find_parser pl key | None => None end) as [p|] eqn:Ep.
    + destruct w as [key|]; [|discriminate]. apply (@find_parser_keeps B key p B0 B1 Ep); assumption.
    + cbn. split; [exact H1|]. split; [cbn; lia|exact Hx].
  - intros [ls2 x'] (G1 & G2 & G3). cbn [fst snd] in *. apply IH; [apply advance_ok; exact G1|exact G3|].
    pose proof (advance_le ls2). rewrite H2 in G2. destruct (ln_rest ls) eqn:E; [unfold is_finished in Ef; rewrite E in Ef; discriminate|].
    cbn [length] in *. lia.
Qed.

Theorem parse_aff_safe : forall text, scalars text -> safe lp_ok (parse_aff pl text).
Proof.
  intros text H. unfold parse_aff. eapply safe_weaken.
  - apply (@aff_go_safe (fun _ => True)); [exact I|auto|apply lines_new_ok; exact H|split; [exact lp_ok_default|exact I]|lia].
  - intros x Hx. apply Hx.
Qed.

(** ** Dictionary lines *)
Lemma blen_filter : forall f w, (blen (filter f w) <= blen w)%N.
Proof.
  intros f w. induction w as [|c w IH]; cbn [filter blen]; [lia|]. destruct (f c); cbn [blen]; lia.
Qed.

Lemma ignore_chars_ok : forall w ig, scalars w -> (blen w <= 65535)%N ->
  exists s, ignore_chars w ig = Ret s /\ scalars s /\ (blen s <= blen w)%N /\ s = erase_chars ig w.
Proof.
  intros w ig Hs Hb. unfold ignore_chars, stem_from.
  assert (E : (match ig with [] => w | _ :: _ => filter (fun c => negb (memb c ig)) w end) = erase_chars ig w)
    by (destruct ig; reflexivity).
  rewrite E. assert (blen (erase_chars ig w) <= blen w)%N as L by (rewrite erase_chars_filter; apply blen_filter).
  destruct (blen (erase_chars ig w) <=? 65535)%N eqn:F; [|lia].
  eexists. split; [reflexivity|]. split; [|split; [exact L|reflexivity]].
  rewrite erase_chars_filter. unfold scalars in *. rewrite Forall_forall in *. intros c Hc. apply filter_In in Hc. apply Hs, Hc.
Qed.

Lemma blen_rev : forall w, blen (rev w) = blen w.
Proof. induction w as [|c w IH]; [reflexivity|]. cbn [rev]. rewrite blen_app, IH. cbn [blen]. lia. Qed.

Lemma dic_go_ok : forall input first esc acc, scalars input -> scalars acc ->
  (esc = true -> exists acc', acc = ch_bslash :: acc') ->
  exists r, dic_go pl input first esc acc = Ret r /\
    match r with DicWord w => scalars w /\ (blen w <= blen acc + blen input)%N
               | DicFlags w f => scalars w /\ scalars f /\ (blen w <= blen acc + blen input)%N end.
Proof.
  induction input as [|c input IH]; intros first esc acc Hi Ha He; cbn [dic_go].
  - eexists. split; [reflexivity|]. cbv iota beta. rewrite blen_rev. split; [apply Forall_rev; exact Ha|]. split; [constructor|lia].
  - inversion Hi as [|? ? Hc Hi']; subst. cbn [blen]. destruct ((c =? ch_slash)%N && esc) eqn:E1.
    + apply andb_true_iff in E1. destruct E1 as [E1 ->]. destruct (He eq_refl) as [acc' ->]. rewrite N.eqb_refl.
      inversion Ha; subst. destruct (IH false false (ch_slash :: acc')) as [r [Er Hr]]; [assumption|constructor; [reflexivity|assumption]|discriminate|].
      exists r. split; [exact Er|]. cbn [blen] in *. change (len1 ch_slash) with 1%N in Hr. change (len1 ch_bslash) with 1%N.
      destruct r; [destruct Hr as [? ?]; split; [assumption|lia]|destruct Hr as (? & ? & ?); split; [assumption|split; [assumption|lia]]].
    + destruct ((c =? ch_slash)%N && negb first).
      { eexists. split; [reflexivity|]. cbv iota beta. rewrite blen_rev. split; [apply Forall_rev; exact Ha|]. split; [assumption|lia]. }
      destruct (c =? ch_tab)%N.
      { eexists. split; [reflexivity|]. cbv iota beta. rewrite blen_rev. split; [apply Forall_rev; exact Ha|lia]. }
      destruct ((c =? ch_space)%N && is_morph pl input).
      { eexists. split; [reflexivity|]. cbv iota beta. rewrite blen_rev. split; [apply Forall_rev; exact Ha|lia]. }
      destruct (IH false (c =? ch_bslash)%N (c :: acc)) as [r [Er Hr]]; [assumption|constructor; assumption|
        intro Q; apply N.eqb_eq in Q; subst c; eauto|].
      exists r. split; [exact Er|]. cbn [blen] in *.
      destruct r; [destruct Hr as [? ?]; split; [assumption|lia]|destruct Hr as (? & ? & ?); split; [assumption|split; [assumption|lia]]].
Qed.

Definition entry_ok (n : N) (e : str * flagset) : Prop :=
  scalars (fst e) /\ (blen (fst e) <= n)%N /\ wf_flags (snd e).

Lemma scalars_firstn : forall n w, scalars w -> scalars (firstn n w).
Proof. intros n w H. unfold scalars in *. rewrite <- (firstn_skipn n w) in H. apply Forall_app in H. apply H. Qed.
Lemma scalars_skipn : forall n w, scalars w -> scalars (skipn n w).
Proof. intros n w H. unfold scalars in *. rewrite <- (firstn_skipn n w) in H. apply Forall_app in H. apply H. Qed.
Lemma blen_split : forall n w, (blen w = blen (firstn n w) + blen (skipn n w))%N.
Proof. intros n w. rewrite <- blen_app, firstn_skipn. reflexivity. Qed.

Lemma take_nonws_scalars : forall w, scalars w -> scalars (take_nonws pl w).
Proof. intros w H. induction H as [|c w Hc Hw IH]; cbn; [constructor|]. destruct (u_is_ws U c); constructor; assumption. Qed.

Theorem parse_dic_line_safe : forall line t al ig, scalars line -> Forall wf_flags al ->
  safe (entry_ok (blen line)) (parse_dic_line pl line t al ig).
Proof.
  intros line t al ig Hl Hal. unfold parse_dic_line. destruct (65535 <? blen line)%N eqn:Eb; [exact I|].
  assert (Hb : (blen line <= 65535)%N) by lia.
  destruct (find_char is_dic_special line) as [idx|] eqn:Ef.
  - pose proof (blen_split idx line) as Hsp.
    destruct (_ && _).
    + destruct (@ignore_chars_ok (firstn idx line) ig) as (s & -> & S1 & S2 & _); [apply scalars_firstn; exact Hl|lia|].
      cbn [bindR]. eapply safe_bind.
      * apply safe_decode_flagset; [|exact Hal]. pose proof (split_ws_ok (scalars_skipn (idx + 1) Hl)) as K.
        destruct (split_whitespace pl (skipn (idx + 1) line)) as [|f fs]; [apply scalars_skipn; exact Hl|].
        inversion K as [|? ? [_ [Q _]] _]; exact Q.
      * intros fs Hfs. split; [exact S1|]. split; [cbn; lia|exact Hfs].
    + destruct (nth idx line 0 =? ch_tab)%N.
      * destruct (@ignore_chars_ok (firstn idx line) ig) as (s & -> & S1 & S2 & _); [apply scalars_firstn; exact Hl|lia|].
        split; [exact S1|]. split; [cbn; lia|exact wf_flags_nil].
      * destruct (@dic_go_ok (skipn idx line) true false (rev (firstn idx line))) as [r [Er Hr]];
          [apply scalars_skipn; exact Hl|apply Forall_rev, scalars_firstn; exact Hl|discriminate|].
        rewrite Er. cbn [bindR]. rewrite blen_rev in Hr. destruct r as [w|w rest].
        -- destruct Hr as [R1 R2]. destruct (@ignore_chars_ok w ig) as (s & -> & S1 & S2 & _); [exact R1|lia|].
           split; [exact S1|]. split; [cbn; lia|exact wf_flags_nil].
        -- destruct Hr as (R1 & R2 & R3). eapply safe_bind; [apply safe_decode_flagset; [apply take_nonws_scalars; exact R2|exact Hal]|].
           intros fs Hfs. destruct (@ignore_chars_ok w ig) as (s & -> & S1 & S2 & _); [exact R1|lia|].
           split; [exact S1|]. split; [cbn; lia|exact Hfs].
  - destruct (@ignore_chars_ok line ig) as (s & -> & S1 & S2 & _); [exact Hl|lia|].
    split; [exact S1|]. split; [cbn; lia|exact wf_flags_nil].
Qed.

(** ** The word list *)
Definition table_ok (t : table flagset) : Prop :=
  Forall (fun e => scalars (fst e) /\ (blen (fst e) <= 65535)%N /\ wf_flags (snd e)) t.

(** The titlecase form of every word of at most [n] bytes can be stored. *)
Definition TitleFits (n : N) : Prop := forall h w t, scalars w -> (blen w <= n)%N ->
  titlecase U h w = Ret t -> scalars t /\ (blen t <= 65535)%N.

Hypothesis PLACE : placement_ok (pl_place pl).

Lemma insert_ok : forall t k v, table_ok t -> scalars k -> (blen k <= 65535)%N -> wf_flags v ->
  table_ok (bag_insert (pl_place pl) t k v).
Proof.
  intros t k v H H1 H2 H3. unfold bag_insert, table_ok. eapply Permutation_Forall; [apply PLACE|].
  constructor; [|exact H]. cbn. auto.
Qed.

Lemma insert_entry_ok : forall n x t w fs, lp_ok x -> TitleFits n -> (n <= 65535)%N -> table_ok t ->
  scalars w -> (blen w <= n)%N -> wf_flags fs ->
  exists t', insert_entry pl x t w fs = Ret t' /\ table_ok t'.
Proof.
  intros n x t w fs Hx HT Hn Ht Hw Hb Hf. unfold insert_entry.
  destruct (needs_hidden_homonym pl (o_forbidden (x_options x)) w fs) eqn:E.
  - assert (w <> []) as Hne. { intro Q. subst w. unfold needs_hidden_homonym, classify_casing in E. cbn in E. discriminate. }
    destruct (titlecase U (o_case (x_options x)) w) as [ti| |] eqn:Et; [|destruct w; [contradiction|discriminate]|destruct w; discriminate].
    destruct (HT _ _ _ Hw Hb Et) as [T1 T2]. cbn [bindR]. unfold stem_from. destruct (blen ti <=? 65535)%N eqn:Eb; [|lia].
    cbn [bindR]. destruct Hf as [F1 F2].
    assert (valid_flag hidden_homonym_flag) as Hh by (unfold valid_flag, hidden_homonym_flag; lia).
    destruct (@with_flag_spec fs hidden_homonym_flag F2 Hh) as (fs' & -> & W1 & W2). cbn [bindR].
    eexists. split; [reflexivity|]. apply insert_ok; [|exact Hw|lia|split; assumption].
    apply insert_ok; [exact Ht|exact T1|exact T2|]. split; [exact W1|].
    rewrite Forall_forall in *. intros g Hg. apply W2 in Hg. destruct Hg as [-> |Hg]; [exact Hh|auto].
  - eexists. split; [reflexivity|]. apply insert_ok; [exact Ht|exact Hw|lia|exact Hf].
Qed.

Lemma trim_start_suffix : forall w, exists u, w = u ++ trim_start pl w.
Proof.
  induction w as [|c w [u IH]]; [exists []; reflexivity|]. cbn [trim_start]. destruct (u_is_ws U c); [|exists []; reflexivity].
  exists (c :: u). cbn. f_equal. exact IH.
Qed.

Lemma trim_sub : forall w, exists u v, w = u ++ trim pl w ++ v.
Proof.
  intro w. destruct (trim_start_suffix w) as [u E1]. destruct (trim_start_suffix (rev (trim_start pl w))) as [v E2].
  exists u, (rev v). unfold trim. rewrite E1 at 1. f_equal.
  rewrite <- (rev_involutive (trim_start pl w)) at 1. rewrite E2 at 1. rewrite rev_app_distr. reflexivity.
Qed.

Lemma trim_ok : forall w, scalars w -> scalars (trim pl w) /\ (blen (trim pl w) <= blen w)%N.
Proof.
  intros w H. destruct (trim_sub w) as (u & v & E). pose proof (f_equal blen E) as L. rewrite !blen_app in L.
  split; [|lia]. rewrite E in H. apply Forall_app in H. destruct H as [_ H]. apply Forall_app in H. apply H.
Qed.

Lemma dic_line_safe : forall n x ls t, lp_ok x -> TitleFits n -> (n <= 65535)%N -> lines_ok ls ->
  Forall (fun nl => (blen (snd nl) <= n)%N) (ln_rest ls) -> table_ok t ->
  safe table_ok (dic_line pl x ls t).
Proof.
  intros n x ls t Hx HT Hn Hl Hnl Ht. unfold dic_line, cur_line. destruct (ln_rest ls) as [|nl rest] eqn:E; [exact Ht|].
  assert (scalars (snd nl)) as S0 by (destruct Hl as [Q _]; rewrite E in Q; inversion Q; assumption).
  assert (blen (snd nl) <= n)%N as B0 by (inversion Hnl; assumption).
  destruct (trim_ok S0) as [T1 T2]. destruct (trim pl (snd nl)) as [|c l] eqn:El; [exact Ht|].
  destruct (_ && _); [exact Ht|]. destruct (65535 <? _)%N; [exact I|].
  eapply safe_bind; [apply safe_at_line, safe_mapErr, parse_dic_line_safe; [exact T1|apply lo_aliases; exact Hx]|].
  intros [w fs] (E1 & E2 & E3). cbn [fst snd] in *.
  destruct (@insert_entry_ok n x t w fs) as (t' & -> & Ht'); try assumption; try lia.
Qed.

Lemma dic_lines_safe : forall n x, lp_ok x -> TitleFits n -> (n <= 65535)%N ->
  forall fuel ls t, lines_ok ls -> Forall (fun nl => (blen (snd nl) <= n)%N) (ln_rest ls) -> table_ok t ->
  length (ln_rest ls) < fuel -> safe table_ok (dic_lines pl fuel x ls t).
Proof.
  intros n x Hx HT Hn. induction fuel as [|fuel IH]; intros ls t Hl Hnl Ht Hf; [lia|]. cbn [dic_lines].
  destruct (is_finished ls) eqn:Ef; [exact Ht|].
  assert (Forall (fun nl : N * str => (blen (snd nl) <= n)%N) (ln_rest (advance_line pl ls))) as K.
  { unfold advance_line. cbn [ln_rest]. destruct (skip_comments_suffix (tl (ln_rest ls))) as [pre E].
    assert (Forall (fun nl : N * str => (blen (snd nl) <= n)%N) (tl (ln_rest ls))) as Q
      by (destruct (ln_rest ls); [constructor|inversion Hnl; assumption]).
    rewrite E in Q. apply Forall_app in Q. apply Q. }
  eapply safe_bind; [apply dic_line_safe with (n := n); try assumption; apply advance_ok; exact Hl|].
  intros t' Ht'. apply IH; [apply advance_ok; exact Hl|exact K|exact Ht'|].
  pose proof (advance_le ls). unfold is_finished in Ef. destruct (ln_rest ls); [discriminate|]. cbn [length] in *. lia.
Qed.

(** The lines of a text as the parser sees them. *)
Definition body_lines (text : str) : list str :=
  text_lines (match strip_prefix [65279%N] text with Some t => t | None => text end).

Theorem parse_dic_safe : forall n x text, lp_ok x -> TitleFits n -> (n <= 65535)%N -> scalars text ->
  Forall (fun l => (blen l <= n)%N) (body_lines text) -> safe table_ok (parse_dic pl x text).
Proof.
  intros n x text Hx HT Hn Hs Hl. unfold parse_dic.
  pose proof (@lines_new_ok text SrcDic Hs) as Hok.
  eapply safe_bind; [apply safe_row_count; exact Hok|]. intros [ls1 c] [H1 H2]. cbn [fst] in *.
  apply dic_lines_safe with (n := n); try assumption; [|constructor|lia].
  rewrite H2. unfold lines_new. cbn [ln_rest].
  destruct (skip_comments_suffix (number_from 0 (body_lines text))) as [pre E].
  pose proof (@number_from_Forall str (fun l => (blen l <= n)%N) _ 0%N Hl) as Q. rewrite E in Q. apply Forall_app in Q. apply Q.
Qed.

(** ** Collecting *)
Hypothesis SORT_AFFIXES : forall k l, Permutation l (pl_sort_affixes pl k l) /\ sorted_by_key k (pl_sort_affixes pl k l).
Hypothesis SORT_CONVS : forall l, Permutation l (pl_sort_convs pl l) /\ sorted_conv (pl_sort_convs pl l).

Lemma affix_index_ok : forall k rules, Forall affix_ok rules ->
  exists idx, affix_index_from pl k rules = Ret idx /\ Permutation rules (i_table idx) /\ index_wf k idx.
Proof.
  intros k rules H. unfold affix_index_from. destruct (SORT_AFFIXES k rules) as [Hp Hs].
  assert (Forall affix_ok (pl_sort_affixes pl k rules)) as Hok by (eapply Permutation_Forall; eassumption).
  destruct (@index_of_sorted_total k _ Hs) as [idx [E [E1 [E2 [E3 E4]]]]].
  - eapply Forall_impl; [|exact Hok]. intros a (_ & [_ Q] & _). exact Q.
  - exists idx. split; [exact E|]. rewrite E1. split; [exact Hp|]. unfold index_wf. rewrite E1.
    split; [exact Hs|]. split; [exact E2|]. split; [|split; [exact E3|exact E4]].
    eapply Forall_impl; [|exact Hok]. intros a (_ & _ & Q & _). exact Q.
Qed.

Lemma erase_affixes_ok : forall ig l, Forall affix_ok l -> Forall affix_ok (erase_affixes ig l).
Proof.
  intros ig l H. unfold erase_affixes. destruct ig as [|i ig]; [exact H|]. rewrite Forall_forall in *.
  intros a Ha. apply in_map_iff in Ha. destruct Ha as [b [<- Hb]]. destruct (H b Hb) as (A1 & A2 & A3 & A4 & A5 & A6).
  unfold affix_ok, strip_text, erase_affix in *. cbn [a_flag a_flags a_add a_strip a_cond].
  repeat (split; [assumption|]). split; [|repeat (split; [assumption|]); assumption].
  rewrite erase_chars_filter. unfold scalars in *. rewrite Forall_forall in *. intros c Hc. apply filter_In in Hc. apply A3, Hc.
Qed.

Lemma conv_table_from_ok : forall pairs, Forall pair_ok pairs ->
  conv_table_ok (conversion_table_from pl pairs) /\
  Permutation (map conv_entry pairs) (ct_inner (conversion_table_from pl pairs)) /\
  Forall (fun c => scalars (cv_to c)) (ct_inner (conversion_table_from pl pairs)).
Proof.
  intros pairs H. unfold conversion_table_from. set (entries := map conv_entry pairs). cbn [ct_inner conv_of_sorted].
  destruct (SORT_CONVS entries) as [HP HS].
  assert (Hse : Forall (fun c => scalars (cv_from c)) entries).
  { apply Forall_forall. intros c Hc. apply in_map_iff in Hc. destruct Hc as [p [<- Hp]].
    rewrite Forall_forall in H. destruct (H p Hp) as (_ & _ & Hsc & _). unfold conv_entry.
    destruct (strip_suffix [95%N] (fst p)) as [f|] eqn:E; [|exact Hsc]. apply strip_suffix_spec in E.
    rewrite E in Hsc. apply Forall_app in Hsc. apply Hsc. }
  split; [|split; [exact HP|]].
  - unfold conv_table_ok, conv_of_sorted. cbn [ct_inner ct_start ct_non_ascii].
    split; [exact HS|split; [|split]].
    + eapply Permutation_Forall; eassumption.
    + intros b Hbb. rewrite byteset_fold by (try reflexivity; assumption). split.
      * intros [Q|[c [Q1 Q2]]].
        -- exfalso. unfold byteset_contains, byteset_empty in Q. rewrite land_bit in Q.
           assert (Z : forall n, nth n [0; 0; 0; 0]%N 0%N = 0%N) by (intros [|[|[|[|[|n]]]]]; reflexivity).
           rewrite Z, N.bits_0 in Q. discriminate.
        -- exists c. split; [|exact Q2]. eapply Permutation_in; eassumption.
      * intros [c [Q1 Q2]]. right. exists c. split; [|exact Q2].
        eapply Permutation_in; [apply Permutation_sym; exact HP|exact Q1].
    + intros Q c Hc. apply andb_true_iff in Q. destruct Q as [_ Q]. rewrite forallb_forall in Q.
      apply Q in Hc. destruct (is_ascii (cv_from c)); [discriminate|reflexivity].
  - eapply Permutation_Forall; [exact HP|]. apply Forall_forall. intros c Hc. apply in_map_iff in Hc.
    destruct Hc as [p [<- Hp]]. rewrite Forall_forall in H. destruct (H p Hp) as (_ & _ & _ & Q).
    unfold conv_entry. destruct (strip_suffix [95%N] (fst p)); exact Q.
Qed.

(** What [collect] builds from a well-formed parser state. *)
Theorem collect_ok : forall x, lp_ok x -> exists a, collect pl x = Ret a /\
  Permutation (erase_affixes (x_ignore x) (x_prefixes x)) (i_table (ad_prefixes a)) /\ index_wf Pfx (ad_prefixes a) /\
  Permutation (erase_affixes (x_ignore x) (x_suffixes x)) (i_table (ad_suffixes a)) /\ index_wf Sfx (ad_suffixes a) /\
  start_breaks (ad_breaks a) = start_spec (x_breaks x) /\ middle_breaks (ad_breaks a) = middle_spec (x_breaks x) /\
  end_breaks (ad_breaks a) = end_spec (x_breaks x) /\
  rep_from (x_reps x) = Ret (ad_reps a) /\ rule_table_from (x_rules x) = Ret (ad_rules a) /\
  ad_vowels a = x_vowels x /\ ad_patterns a = x_patterns x /\
  ad_iconv a = conversion_table_from pl (x_iconv x) /\ ad_oconv a = conversion_table_from pl (x_oconv x) /\
  ad_sims a = x_sims x /\ ad_ignore a = x_ignore x /\ ad_keyboard a = x_keyboard x /\ ad_try a = x_try x /\
  ad_options a = x_options x /\ ad_flag_type a = x_flag_type x /\ ad_aliases a = x_aliases x.
Proof.
  intros x Hx. unfold collect.
  destruct (@affix_index_ok Pfx (erase_affixes (x_ignore x) (x_prefixes x))) as (pi & -> & P1 & P2); [apply erase_affixes_ok, lo_prefixes; exact Hx|].
  destruct (@affix_index_ok Sfx (erase_affixes (x_ignore x) (x_suffixes x))) as (si & -> & S1 & S2); [apply erase_affixes_ok, lo_suffixes; exact Hx|].
  cbn [bindR].
  destruct (@break_new_spec (x_breaks x)) as (bt & -> & B1 & B2 & B3).
  { eapply Forall_impl; [|apply lo_breaks; exact Hx]. cbv beta. tauto. }
  cbn [bindR].
  destruct (@rep_from_spec (x_reps x)) as (rt & Er & _).
  { eapply Forall_impl; [|apply lo_reps; exact Hx]. unfold pair_ok. tauto. }
  rewrite Er. cbn [bindR]. unfold rule_table_from.
  destruct (@flagset_from_total (flat_map (map re_flag) (x_rules x))) as [fs Efs].
  { apply Forall_forall. intros f Hf. apply in_flat_map in Hf. destruct Hf as [r [Hr Hf]]. apply in_map_iff in Hf.
    destruct Hf as [e [<- He]]. pose proof (lo_rules Hx) as Q. rewrite Forall_forall in Q. destruct (Q r Hr) as [_ Q'].
    rewrite Forall_forall in Q'. auto. }
  rewrite Efs. cbn [bindR]. eexists. split; [reflexivity|]. cbn.
  repeat (split; [first [assumption|reflexivity]|]). reflexivity.
Qed.

End Safe.
