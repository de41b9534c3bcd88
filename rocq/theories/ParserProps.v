(** What the parser makes of flags, dictionary lines, tables, COMPOUNDRULE patterns and
    MAP entries. *)
From Coq Require Import List NArith ZArith Lia Bool Arith Permutation Sorted.
From Coq Require Import ZifyBool ZifyNat ZifyN.
From Verif Require Import Base Utf8 Unicode Flags Bag Affix CompoundRule Conversion Aff Checker Parser ParserSafe.
Import ListNotations.
Set Implicit Arguments.

(** ** Decimal numbers *)

(** Specification: the number a digit string denotes, and the texts accepted for it. *)
Definition digit (c : N) : Prop := (48 <= c <= 57)%N.
Definition dec_value_from (a : N) (s : str) : N := fold_left (fun a c => 10 * a + (c - 48))%N s a.
Definition dec_value (s : str) : N := dec_value_from 0 s.
Definition Decimal (s : str) (v : N) : Prop :=
  exists ds, (s = ds \/ s = 43%N :: ds) /\ ds <> [] /\ Forall digit ds /\ dec_value ds = v.

Lemma dec_value_grows : forall s a, (a <= dec_value_from a s)%N.
Proof.
  unfold dec_value_from. induction s as [|c s IH]; intros a; cbn [fold_left]; [lia|].
  specialize (IH (10 * a + (c - 48))%N). lia.
Qed.

Lemma digits_go_spec : forall max s acc v, (acc <= max)%N ->
  (digits_go max acc s = Ok v <-> Forall digit s /\ dec_value_from acc s = v /\ (v <= max)%N).
Proof.
  intros max s. induction s as [|c s IH]; intros acc v Ha.
  - cbn [digits_go]. unfold dec_value_from. cbn [fold_left]. split.
    + intros [= <-]. split; [constructor|]. split; [reflexivity|exact Ha].
    + intros [_ [-> _]]. reflexivity.
  - cbn [digits_go]. unfold dec_value_from. cbn [fold_left]. fold (dec_value_from (10 * acc + (c - 48)) s).
    assert (G := dec_value_grows s (10 * acc + (c - 48))%N).
    destruct (negb _) eqn:D.
    { split; [discriminate|]. intros [F _]. inversion F; subst. unfold digit in *. lia. }
    destruct (max <? acc * 10)%N eqn:O1; [split; [discriminate|lia]|].
    destruct (max <? acc * 10 + (c - 48))%N eqn:O2; [split; [discriminate|lia]|].
    replace (acc * 10 + (c - 48))%N with (10 * acc + (c - 48))%N by lia.
    rewrite IH by lia. split; intros [F [V M]]; (split; [|split; assumption]).
    + constructor; [unfold digit; lia|exact F].
    + inversion F; assumption.
Qed.

Lemma parse_uint_spec : forall max s v,
  parse_uint max s = Ok v <-> Decimal s v /\ (v <= max)%N.
Proof.
  intros max s v. destruct s as [|c s]; [|destruct s as [|c2 s]].
  - cbn [parse_uint]. split; [discriminate|]. intros [[ds [[<-|E] [N _]]] _]; [congruence|discriminate E].
  - unfold parse_uint. destruct ((c =? 43)%N || (c =? 45)%N) eqn:E.
    + split; [discriminate|]. intros [[ds [[<-|Q] [N [F _]]]] _].
      * inversion F; subst. unfold digit in *. lia.
      * injection Q as _ <-. congruence.
    + rewrite digits_go_spec by lia. split.
      * intros [F [V M]]. split; [|exact M]. exists [c]. split; [left; reflexivity|]. split; [discriminate|]. split; assumption.
      * intros [[ds [[<-|Q] [N [F V]]]] M]; [split; [exact F|split; assumption]|]. injection Q as _ <-. congruence.
  - unfold parse_uint. destruct (c =? 43)%N eqn:E.
    + rewrite digits_go_spec by lia. split.
      * intros [F [V M]]. split; [|exact M]. exists (c2 :: s).
        split; [right; f_equal; lia|]. split; [discriminate|]. split; assumption.
      * intros [[ds [[<-|Q] [N [F V]]]] M].
        -- inversion F; subst. unfold digit in *. lia.
        -- injection Q as _ <-. split; [exact F|split; assumption].
    + rewrite digits_go_spec by lia. split.
      * intros [F [V M]]. split; [|exact M]. exists (c :: c2 :: s).
        split; [left; reflexivity|]. split; [discriminate|]. split; assumption.
      * intros [[ds [[<-|Q] [N [F V]]]] M]; [split; [exact F|split; assumption]|]. injection Q as -> _. lia.
Qed.

Lemma Decimal_no_comma : forall s v, Decimal s v -> ~ In ch_comma s.
Proof.
  intros s v [ds [H [_ [F _]]]] I. rewrite Forall_forall in F.
  destruct H as [->| ->]; [|destruct I as [I|I]; [discriminate I|]]; apply F in I; unfold digit, ch_comma in I; lia.
Qed.
Lemma Decimal_nonempty : forall s v, Decimal s v -> s <> [].
Proof. intros s v [ds [[->| ->] [H _]]]; [exact H|discriminate]. Qed.

(** The shortest decimal text of a number below 100000. *)
Fixpoint dec_go (fuel : nat) (v : N) (acc : str) : str :=
  match fuel with
  | O => acc
  | S fuel' => if (v <? 10)%N then (48 + v)%N :: acc else dec_go fuel' (v / 10) ((48 + v mod 10)%N :: acc)
  end.
Definition dec_text (v : N) : str := dec_go 5 v [].

Lemma dec_go_spec : forall fuel v acc, (v < 10 ^ N.of_nat fuel)%N -> Forall digit acc ->
  Forall digit (dec_go fuel v acc) /\ dec_value (dec_go fuel v acc) = dec_value_from v acc /\
  (0 < fuel -> dec_go fuel v acc <> []).
Proof.
  induction fuel as [|fuel IH]; intros v acc Hv Ha.
  - cbn in Hv. replace v with 0%N by lia. cbn [dec_go]. split; [exact Ha|]. split; [reflexivity|lia].
  - cbn [dec_go]. destruct (v <? 10)%N eqn:E.
    + split; [constructor; [unfold digit; lia|exact Ha]|]. split; [|discriminate].
      unfold dec_value, dec_value_from. cbn [fold_left]. f_equal. lia.
    + assert (D : (v / 10 < 10 ^ N.of_nat fuel)%N).
      { apply N.div_lt_upper_bound; [lia|]. rewrite Nat2N.inj_succ, N.pow_succ_r' in Hv. exact Hv. }
      assert (M := N.mod_lt v 10 ltac:(lia)).
      destruct (IH (v / 10)%N ((48 + v mod 10)%N :: acc) D) as [A1 [A2 A3]].
      { constructor; [unfold digit; lia|exact Ha]. }
      split; [exact A1|]. split.
      * rewrite A2. unfold dec_value_from. cbn [fold_left]. f_equal.
        assert (Q := N.div_mod' v 10). lia.
      * intros _. destruct fuel as [|fuel']; [|apply A3; lia].
        cbn in D. assert (Q := N.div_mod' v 10). lia.
Qed.

Lemma dec_text_Decimal : forall v, (v < 65536)%N -> Decimal (dec_text v) v /\ Forall digit (dec_text v).
Proof.
  intros v Hv. destruct (@dec_go_spec 5 v []) as [A [B C]]; [cbn; lia|constructor|].
  split; [|exact A]. exists (dec_text v). split; [left; reflexivity|]. split; [apply C; lia|]. split; [exact A|exact B].
Qed.

(** ** Flag lists *)

(** Specification: the 16-bit units a flag text spells, in order. *)
Fixpoint join (sep : str) (items : list str) : str :=
  match items with [] => [] | [x] => x | x :: r => x ++ sep ++ join sep r end.
Definition pair_value (le : bool) (p : N * N) : N :=
  if le then (fst p + 256 * snd p)%N else (256 * fst p + snd p)%N.
Definition Written (le : bool) (t : flag_type) (s : str) (l : list N) : Prop :=
  match t with
  | FShort => l = enc s
  | FLong => exists ps, enc s = flat_map (fun p => [fst p; snd p]) ps /\ l = map (pair_value le) ps
  | FNumeric => exists items, s = join [ch_comma] items /\ Forall2 Decimal items l
  | FUtf8 => l = utf16 s
  end.

Lemma try_flags_spec : forall l fs, Forall (fun v => (v < 65536)%N) l ->
  (try_flags l = Ok fs <-> fs = l /\ Forall valid_flag l).
Proof.
  induction l as [|v l IH]; intros fs H; cbn [try_flags].
  - split; [intros [= <-]; split; [reflexivity|constructor]|]. intros [-> _]. reflexivity.
  - inversion H as [|? ? Hv Hl]; subst. unfold try_flag_from_u16. destruct (v =? 0)%N eqn:E.
    + split; [discriminate|]. intros [_ F]. inversion F; subst. unfold valid_flag in *. lia.
    + destruct (try_flags l) as [fs'|e] eqn:T.
      * assert (Q := proj1 (IH fs' Hl) eq_refl). destruct Q as [-> F]. split.
        -- intros [= <-]. split; [reflexivity|]. constructor; [unfold valid_flag; lia|exact F].
        -- intros [-> _]. reflexivity.
      * split; [discriminate|]. intros [_ F]. inversion F; subst.
        assert (Q := proj2 (IH l Hl) (conj eq_refl H3)). discriminate Q.
Qed.

Lemma byte_pairs_spec : forall le n l vs, length l <= n ->
  (byte_pairs le l = Some vs <->
   exists ps, l = flat_map (fun p => [fst p; snd p]) ps /\ vs = map (pair_value le) ps).
Proof.
  intros le n. induction n as [|n IH]; intros l vs Hn.
  - destruct l; [|cbn in Hn; lia]. cbn [byte_pairs]. split.
    + intros [= <-]. exists []. split; reflexivity.
    + intros [[|p ps] [E ->]]; [reflexivity|discriminate E].
  - destruct l as [|a [|b r]]; cbn [byte_pairs].
    + split; [intros [= <-]; exists []; split; reflexivity|].
      intros [[|p ps] [E ->]]; [reflexivity|discriminate E].
    + split; [discriminate|]. intros [[|p ps] [E _]]; discriminate E.
    + split.
      * intro H. destruct (byte_pairs le r) as [vs'|] eqn:B; [|discriminate H]. cbn [option_map] in H.
        injection H as <-. apply IH in B; [|cbn in Hn; lia]. destruct B as [ps [-> ->]].
        exists ((a, b) :: ps). split; reflexivity.
      * intros [[|[a' b'] ps] [E ->]]; [discriminate E|]. cbn [flat_map fst snd app] in E. injection E as -> -> ->.
        assert (B : byte_pairs le (flat_map (fun p => [fst p; snd p]) ps) = Some (map (pair_value le) ps)).
        { apply IH; [cbn in Hn; lia|]. exists ps. split; reflexivity. }
        rewrite B. reflexivity.
Qed.

Lemma numeric_flag_spec : forall s v, numeric_flag s = Ok v <-> Decimal s v /\ valid_flag v.
Proof.
  intros s v. unfold numeric_flag, parse_u16. split.
  - intro H. destruct (parse_uint 65535 s) as [w|] eqn:E; [|discriminate].
    apply parse_uint_spec in E. destruct E as [D L]. unfold try_flag_from_u16 in H.
    destruct (w =? 0)%N eqn:Z; [discriminate|]. injection H as <-. split; [exact D|]. unfold valid_flag. lia.
  - intros [D [V1 V2]]. assert (E : parse_uint 65535 s = Ok v) by (apply parse_uint_spec; split; [exact D|lia]).
    rewrite E. unfold try_flag_from_u16. destruct (v =? 0)%N eqn:Z; [lia|reflexivity].
Qed.

Lemma numeric_flags_spec : forall fuel s l, length s < fuel ->
  (numeric_flags fuel s = Ret (Ok l) <->
   exists items, items <> [] /\ s = join [ch_comma] items /\ Forall2 Decimal items l /\ Forall valid_flag l).
Proof.
  induction fuel as [|fuel IH]; intros s l Hf; [lia|]. cbn [numeric_flags].
  destruct (find_char (N.eqb ch_comma) s) as [i|] eqn:F.
  - apply find_char_some in F. destruct F as [u [c [v [-> [<- [Hc Hu]]]]]].
    apply N.eqb_eq in Hc. subst c. rewrite firstn_app_exact by reflexivity.
    replace (u ++ ch_comma :: v) with ((u ++ [ch_comma]) ++ v) by (rewrite <- app_assoc; reflexivity).
    rewrite skipn_app_exact by (rewrite app_length; cbn; lia).
    rewrite nth_error_app2 by (rewrite app_length; cbn; lia).
    replace (length u + 1 - length (u ++ [ch_comma])) with 0 by (rewrite app_length; cbn; lia).
    assert (Cut : forall items, items <> [] -> Forall (fun x => ~ In ch_comma x) items ->
              (u ++ [ch_comma]) ++ v = join [ch_comma] items ->
              exists r, items = u :: r /\ r <> [] /\ v = join [ch_comma] r).
    { intros items NE NC E. destruct items as [|x r]; [congruence|]. inversion NC as [|? ? NC1 NC2]; subst.
      destruct r as [|y r].
      - exfalso. apply NC1. cbn [join] in E. rewrite <- E, <- app_assoc. apply in_app_iff. right. left. reflexivity.
      - cbn [join] in E. exists (y :: r). split; [|split; [discriminate|]].
        + f_equal. rewrite <- app_assoc in E. cbn [app] in E.
          clear - E NC1 Hu. revert x E NC1. induction u as [|a u IHu]; intros x E NC1.
          * destruct x as [|b x]; [reflexivity|]. injection E as <- _. exfalso. apply NC1. left. reflexivity.
          * cbn [forallb] in Hu. apply andb_true_iff in Hu. destruct Hu as [Ha Hu].
            destruct x as [|b x].
            -- injection E as -> _. rewrite N.eqb_refl in Ha. discriminate Ha.
            -- injection E as -> E. f_equal. apply IHu; [exact Hu|exact E|]. intro I. apply NC1. right. exact I.
        + rewrite <- app_assoc in E. cbn [app] in E.
          clear - E NC1 Hu. revert x E NC1. induction u as [|a u IHu]; intros x E NC1.
          * destruct x as [|b x]; [injection E as E; exact E|]. injection E as <- _. exfalso. apply NC1. left. reflexivity.
          * cbn [forallb] in Hu. apply andb_true_iff in Hu. destruct Hu as [Ha Hu].
            destruct x as [|b x].
            -- injection E as -> _. rewrite N.eqb_refl in Ha. discriminate Ha.
            -- injection E as -> E. apply IHu with x; [exact Hu|exact E|]. intro I. apply NC1. right. exact I. }
    assert (NCD : forall items l, Forall2 Decimal items l -> Forall (fun x => ~ In ch_comma x) items).
    { intros items l' H2. induction H2; constructor; [eapply Decimal_no_comma; eassumption|assumption]. }
    assert (Lv : length v < fuel) by (rewrite app_length in Hf; cbn in Hf; lia).
    destruct (match nth_error v 0 with Some c => (c =? ch_comma)%N | None => false end) eqn:Dup.
    + split; [discriminate|]. intros [items [NE [E [H2 HV]]]].
      destruct (Cut items NE (NCD _ _ H2) E) as [r [-> [NR ->]]].
      inversion H2 as [|? y ? ? D H2']; subst. destruct r as [|z r]; [congruence|].
      inversion H2' as [|? y' ? ? D' H2'']; subst.
      assert (NZ := Decimal_nonempty D'). assert (NCz := Decimal_no_comma D').
      destruct z as [|c z]; [congruence|].
      assert (Q : c = ch_comma). { destruct r; cbn [join app nth_error] in Dup; lia. }
      exfalso. apply NCz. left. exact Q.
    + split.
      * intro H. unfold bindP in H. destruct (numeric_flag u) as [f|] eqn:Nf; [|discriminate H].
        destruct (numeric_flags fuel v) as [[fs|]| |] eqn:Nfs; try discriminate H. injection H as <-.
        apply numeric_flag_spec in Nf. destruct Nf as [D V].
        apply IH in Nfs; [|exact Lv]. destruct Nfs as [items [NE [-> [H2 HV]]]].
        exists (u :: items). split; [discriminate|]. split; [|split; [constructor; assumption|constructor; assumption]].
        destruct items; [congruence|]. cbn [join]. rewrite <- app_assoc. reflexivity.
      * intros [items [NE [E [H2 HV]]]]. destruct (Cut items NE (NCD _ _ H2) E) as [r [-> [NR ->]]].
        inversion H2 as [|? f ? fs D H2']; subst. inversion HV as [|? ? V1 V2]; subst.
        assert (Nf : numeric_flag u = Ok f) by (apply numeric_flag_spec; split; assumption).
        assert (Nfs : numeric_flags fuel (join [ch_comma] r) = Ret (Ok fs)).
        { apply IH; [exact Lv|]. exists r. split; [exact NR|]. split; [reflexivity|]. split; assumption. }
        unfold bindP. rewrite Nf, Nfs. reflexivity.
  - apply find_char_none in F.
    assert (One : forall items, items <> [] -> s = join [ch_comma] items -> items = [s]).
    { intros items NE ->. destruct items as [|x [|y r]]; [congruence|reflexivity|].
      exfalso. rewrite forallb_forall in F. specialize (F ch_comma).
      cbn [join] in F. assert (I : In ch_comma (x ++ [ch_comma] ++ join [ch_comma] (y :: r))).
      { apply in_app_iff. right. left. reflexivity. }
      apply F in I. rewrite N.eqb_refl in I. discriminate I. }
    split.
    + intro H. unfold bindP in H. destruct (numeric_flag s) as [f|] eqn:Nf; [|discriminate H]. injection H as <-.
      apply numeric_flag_spec in Nf. destruct Nf as [D V]. exists [s]. split; [discriminate|]. split; [reflexivity|].
      split; repeat constructor; assumption || apply V.
    + intros [items [NE [E [H2 HV]]]]. apply One in E; [|exact NE]. subst items.
      inversion H2 as [|? f ? fs D H2']; subst. inversion H2'; subst. inversion HV; subst.
      assert (Nf : numeric_flag s = Ok f) by (apply numeric_flag_spec; split; assumption).
      unfold bindP. rewrite Nf. reflexivity.
Qed.

Lemma flagset_unique : forall a b, wf_flagset a -> wf_flagset b -> (forall g, In g a <-> In g b) -> a = b.
Proof.
  intros a b Ha Hb H. assert (W : forall fs, wf_flagset fs -> StronglySorted N.le fs).
  { intros fs F. induction F as [|x l F IH HF]; constructor; [exact IH|].
    eapply Forall_impl; [|exact HF]. intros y Q. cbn in *. lia. }
  apply sorted_perm_unique; [apply W, Ha|apply W, Hb|].
  apply NoDup_Permutation; [apply wf_NoDup, Ha|apply wf_NoDup, Hb|exact H].
Qed.

(** [fs] is the set of the flags in [l]. *)
Definition set_of (fs l : list N) : Prop := wf_flagset fs /\ forall g, In g fs <-> In g l.

Lemma into_flagset_spec : forall x fs,
  (forall l, x = Ret (Ok l) -> Forall valid_flag l) ->
  (into_flagset x = Ret (Ok fs) <-> exists l, x = Ret (Ok l) /\ set_of fs l).
Proof.
  intros x fs Hx. unfold into_flagset. split.
  - intro H. destruct x as [[l|]| |]; try discriminate H. cbn [bindP] in H. unfold bindR in H.
    destruct (flagset_from l) as [fs'| |] eqn:E; try discriminate H. injection H as <-.
    exists l. split; [reflexivity|]. split; [eapply flagset_from_wf; exact E|]. intro g. eapply flagset_from_In. exact E.
  - intros [l [-> [W I]]]. cbn [bindP]. destruct (@flagset_from_total _ (Hx l eq_refl)) as [fs' E].
    unfold bindR. rewrite E. unfold okP. do 2 f_equal. apply flagset_unique; [eapply flagset_from_wf; exact E|exact W|].
    intro g. rewrite I. eapply flagset_from_In. exact E.
Qed.

Section Props.
Variable pl : platform.
Notation U := (pl_unicode pl).
Notation le := (pl_little_endian pl).

(** Decoding succeeds exactly when the text spells a list of non-zero units, and yields
    the set of those units. *)
Theorem flags_exact : forall t s fs, scalars s -> s <> [] ->
  (parse_flags_from_str pl t s = Ret (Ok fs) <->
   exists l, Written le t s l /\ Forall valid_flag l /\ set_of fs l).
Proof.
  intros t s fs Hs NE. unfold parse_flags_from_str. destruct s as [|c s']; [congruence|].
  remember (c :: s') as s eqn:Es. rewrite into_flagset_spec.
  2:{ intros l E. assert (Q := @safe_flags_from_str pl t s Hs).
      destruct t.
      - assert (Q2 := @safe_try_flags (enc s)). cbn [safe] in Q2. injection E as E. rewrite E in Q2. apply Q2.
        eapply Forall_impl; [|apply enc_bytes, Hs]. cbn. lia.
      - destruct (byte_pairs le (enc s)) as [vs|] eqn:B; [|discriminate E]. injection E as E.
        assert (Q2 := @safe_try_flags vs). cbn [safe] in Q2. rewrite E in Q2. apply Q2.
        eapply byte_pairs_lt; [|apply enc_bytes, Hs|exact B]. reflexivity.
      - assert (Q2 := @safe_numeric_flags (S (length s)) s ltac:(lia)). rewrite E in Q2. exact Q2.
      - assert (Q2 := @safe_try_flags (utf16 s)). cbn [safe] in Q2. injection E as E. rewrite E in Q2. apply Q2.
        apply utf16_lt, Hs. }
  assert (R : forall l, Forall (fun v => (v < 65536)%N) l ->
            ((exists l', Ret (try_flags l) = Ret (Ok l') /\ set_of fs l') <-> Forall valid_flag l /\ set_of fs l)).
  { intros l Hl. split.
    - intros [l' [E S]]. injection E as E. apply try_flags_spec in E; [|exact Hl]. destruct E as [-> F]. split; assumption.
    - intros [F S]. exists l. split; [|exact S]. f_equal. apply try_flags_spec; [exact Hl|]. split; [reflexivity|exact F]. }
  destruct t; cbn [Written].
  - rewrite R by (eapply Forall_impl; [|apply enc_bytes, Hs]; cbn; lia). split.
    + intros [F S]. exists (enc s). split; [reflexivity|]. split; assumption.
    + intros [l [-> [F S]]]. split; assumption.
  - destruct (byte_pairs le (enc s)) as [vs|] eqn:B.
    + rewrite R by (eapply byte_pairs_lt; [reflexivity|apply enc_bytes, Hs|exact B]). split.
      * intros [F S]. exists vs. split; [|split; assumption]. eapply byte_pairs_spec; [reflexivity|exact B].
      * intros [l [W [F S]]]. apply (@byte_pairs_spec le (length (enc s)) (enc s) l) in W; [|reflexivity].
        rewrite W in B. injection B as ->. split; assumption.
    + split; [intros [l [E _]]; discriminate E|]. intros [l [W _]].
      apply (@byte_pairs_spec le (length (enc s)) (enc s) l) in W; [|reflexivity]. rewrite W in B. discriminate B.
  - split.
    + intros [l [E S]]. apply numeric_flags_spec in E; [|lia]. destruct E as [items [_ [Ei [H2 F]]]].
      exists l. split; [exists items; split; assumption|]. split; assumption.
    + intros [l [[items [Ei H2]] [F S]]]. exists l. split; [|exact S]. apply numeric_flags_spec; [lia|].
      exists items. split; [|split; [exact Ei|split; assumption]]. intros ->. exact (NE Ei).
  - rewrite R by (apply utf16_lt, Hs). split.
    + intros [F S]. exists (utf16 s). split; [reflexivity|]. split; assumption.
    + intros [l [-> [F S]]]. split; assumption.
Qed.

(** ** The textual form of a flag list *)
Definition long_text (f : N) : str := if le then [f mod 256; f / 256]%N else [f / 256; f mod 256]%N.
Definition flag_text (t : flag_type) (l : list N) : str :=
  match t with
  | FShort => l
  | FLong => flat_map long_text l
  | FNumeric => join [ch_comma] (map dec_text l)
  | FUtf8 => l
  end.
(** The flags a format can write as text. *)
Definition writable (t : flag_type) (f : N) : Prop :=
  valid_flag f /\
  match t with
  | FShort => (f < 128)%N
  | FLong => (f mod 256 < 128)%N /\ (f / 256 < 128)%N
  | FNumeric => True
  | FUtf8 => scalar f
  end.

Lemma enc_ascii : forall l, Forall (fun c => (c < 128)%N) l -> enc l = l.
Proof.
  induction l as [|c l IH]; intro H; [reflexivity|]. inversion H; subst.
  change (enc (c :: l)) with (enc1 c ++ enc l). rewrite IH by assumption.
  unfold enc1. destruct (c <? 128)%N eqn:E; [reflexivity|lia].
Qed.
Lemma utf16_bmp : forall l, Forall (fun c => (c < 65536)%N) l -> utf16 l = l.
Proof.
  induction l as [|c l IH]; intro H; [reflexivity|]. inversion H; subst.
  unfold utf16 in *. cbn [flat_map]. rewrite IH by assumption.
  unfold utf16_1. destruct (c <? 65536)%N eqn:E; [reflexivity|lia].
Qed.
Lemma ascii_scalars : forall l, Forall (fun c => (c < 128)%N) l -> scalars l.
Proof.
  intros l H. eapply Forall_impl; [|exact H]. intros c Hc. cbn in Hc. unfold scalar, scalarb. lia.
Qed.

Lemma flag_text_ok : forall t l, Forall (writable t) l -> scalars (flag_text t l).
Proof.
  intros t l H. destruct t; cbn [flag_text].
  - apply ascii_scalars. eapply Forall_impl; [|exact H]. intros f [_ Q]. exact Q.
  - apply ascii_scalars. induction H as [|f l [_ [H1 H2]] _ IH]; [constructor|]. cbn [flat_map].
    apply Forall_app. split; [|exact IH]. unfold long_text. destruct le; repeat constructor; assumption.
  - apply ascii_scalars. induction H as [|f l [[V1 V2] _] _ IH]; [constructor|].
    assert (D : Forall (fun c => (c < 128)%N) (dec_text f)).
    { eapply Forall_impl; [|apply (proj2 (@dec_text_Decimal f ltac:(lia)))]. unfold digit. intros; lia. }
    destruct l as [|g l]; [exact D|]. cbn [map join] in *. apply Forall_app. split; [exact D|].
    apply Forall_app. split; [|exact IH]. repeat constructor.
  - eapply Forall_impl; [|exact H]. intros f [_ Q]. exact Q.
Qed.

Lemma flag_text_nonempty : forall t l, Forall (writable t) l -> l <> [] -> flag_text t l <> [].
Proof.
  intros t l H NE. destruct l as [|f l]; [congruence|]. inversion H as [|? ? [[V1 V2] _] _]; subst. destruct t; cbn [flag_text].
  - discriminate.
  - cbn [flat_map]. unfold long_text. destruct le; discriminate.
  - assert (Q := Decimal_nonempty (proj1 (@dec_text_Decimal f ltac:(lia)))).
    cbn [map join]. destruct (map dec_text l); [exact Q|]. intro E. apply app_eq_nil in E. apply Q, E.
  - discriminate.
Qed.

Lemma flag_text_Written : forall t l, Forall (writable t) l -> Written le t (flag_text t l) l.
Proof.
  intros t l H. destruct t; cbn [flag_text Written].
  - symmetry. apply enc_ascii. eapply Forall_impl; [|exact H]. intros f [_ Q]. exact Q.
  - rewrite enc_ascii.
    2:{ induction H as [|f l [_ [H1 H2]] _ IH]; [constructor|]. cbn [flat_map].
        apply Forall_app. split; [|exact IH]. unfold long_text. destruct le; repeat constructor; assumption. }
    exists (map (fun f => if le then (f mod 256, f / 256)%N else (f / 256, f mod 256)%N) l). split.
    + induction l as [|f l IH]; [reflexivity|]. inversion H; subst. cbn [flat_map map]. f_equal; [|apply IH; assumption].
      unfold long_text. destruct le; reflexivity.
    + rewrite map_map. rewrite <- (map_id l) at 1. apply map_ext. intro f.
      assert (Q := N.div_mod' f 256). unfold pair_value. destruct le; cbn [fst snd]; lia.
  - exists (map dec_text l). split; [reflexivity|]. induction H as [|f l [[V1 V2] _] _ IH]; [constructor|].
    cbn [map]. constructor; [apply dec_text_Decimal; lia|exact IH].
  - symmetry. apply utf16_bmp. eapply Forall_impl; [|exact H]. intros f [[V1 V2] _]. lia.
Qed.

Theorem flags_round_trip : forall t l, Forall (writable t) l ->
  exists fs, parse_flags_from_str pl t (flag_text t l) = Ret (Ok fs) /\ set_of fs l.
Proof.
  intros t l H. destruct l as [|f l].
  { exists []. split; [destruct t; reflexivity|]. split; [constructor|]. tauto. }
  set (l0 := f :: l) in *. assert (V : Forall valid_flag l0) by (eapply Forall_impl; [|exact H]; intros g [Q _]; exact Q).
  destruct (@flagset_from_total _ V) as [fs E].
  assert (S : set_of fs l0).
  { split; [eapply flagset_from_wf; exact E|]. intro g. eapply flagset_from_In. exact E. }
  exists fs. split; [|exact S]. apply flags_exact.
  - apply flag_text_ok, H.
  - apply flag_text_nonempty; [exact H|discriminate].
  - exists l0. split; [apply flag_text_Written, H|]. split; assumption.
Qed.

(** ** Dictionary lines *)

(** Specification: the word with its slashes escaped. *)
Definition escape (w : str) : str := flat_map (fun c => if (c =? 47)%N then [92; 47]%N else [c]) w.

(** No space in [w] is followed, in the line [escape w ++ tail], by what looks like a
    morphological field. *)
Definition no_field (w tail : str) : Prop :=
  forall a b, w = a ++ 32%N :: b -> is_morph pl (escape b ++ tail) = false.

Lemma escape_cons : forall c w, escape (c :: w) = (if (c =? 47)%N then [92; 47]%N else [c]) ++ escape w.
Proof. reflexivity. Qed.
Lemma escape_app : forall u v, escape (u ++ v) = escape u ++ escape v.
Proof. intros. unfold escape. apply flat_map_app. Qed.

Lemma dic_go_word : forall w first e acc tail, w <> [] -> ~ In 9%N w -> no_field w tail ->
  dic_go pl (escape w ++ tail) first e acc = dic_go pl tail false (last w 0%N =? 92)%N (rev w ++ acc).
Proof.
  induction w as [|c w IH]; intros first e acc tail NE NT NF; [congruence|].
  assert (Step : forall f2 e2, (w = [] -> e2 = (c =? 92)%N /\ f2 = false) ->
            dic_go pl (escape w ++ tail) f2 e2 (c :: acc) =
            dic_go pl tail false (last (c :: w) 0 =? 92)%N (rev (c :: w) ++ acc)).
  { intros f2 e2 H0. destruct w as [|c2 w].
    - destruct (H0 eq_refl) as [-> ->]. reflexivity.
    - rewrite IH; [|discriminate|intro I; apply NT; right; exact I|].
      + cbn [rev last]. rewrite <- !app_assoc. reflexivity.
      + intros a b E. apply (NF (c :: a) b). rewrite E. reflexivity. }
  rewrite escape_cons. destruct (c =? 47)%N eqn:Es.
  - assert (c = 47%N) as -> by lia. cbn [app dic_go]. unfold ch_slash, ch_tab, ch_space, ch_bslash in *.
    cbn [N.eqb Pos.eqb andb]. apply Step. intros _. split; reflexivity.
  - cbn [app dic_go]. unfold ch_slash, ch_tab, ch_space, ch_bslash in *. rewrite Es. cbn [andb].
    destruct (c =? 9)%N eqn:Et; [exfalso; apply NT; left; lia|].
    destruct (c =? 32)%N eqn:Ep; cbn [andb].
    + rewrite (NF [] w) by (cbn [app]; f_equal; lia). apply Step. intros _. split; reflexivity.
    + apply Step. intros _. split; reflexivity.
Qed.

(** The word split before its first special character. *)
Lemma special_split : forall w, exists u v, w = u ++ v /\ forallb (fun c => negb (is_dic_special c)) u = true /\
  (v = [] \/ exists c r, v = c :: r /\ is_dic_special c = true).
Proof.
  induction w as [|c w [u [v [-> [H1 H2]]]]]; [exists [], []; split; [reflexivity|]; split; [reflexivity|left; reflexivity]|].
  destruct (is_dic_special c) eqn:E.
  - exists [], (c :: u ++ v). split; [reflexivity|]. split; [reflexivity|]. right. exists c, (u ++ v). split; [reflexivity|exact E].
  - exists (c :: u), v. split; [reflexivity|]. split; [|exact H2]. cbn [forallb]. rewrite E, H1. reflexivity.
Qed.
Lemma escape_plain : forall u, forallb (fun c => negb (is_dic_special c)) u = true -> escape u = u.
Proof.
  induction u as [|c u IH]; intro H; [reflexivity|]. cbn [forallb] in H. apply andb_true_iff in H. destruct H as [H1 H2].
  rewrite escape_cons, IH by exact H2. unfold is_dic_special, ch_slash in H1. destruct (c =? 47)%N; [discriminate H1|reflexivity].
Qed.

Definition drop_chars (ignore : list N) (w : str) : str := filter (fun c => negb (memb c ignore)) w.

Lemma ignore_chars_drop : forall w ig, (blen w <= 65535)%N -> ignore_chars w ig = Ret (drop_chars ig w).
Proof.
  intros w ig H. unfold ignore_chars.
  assert (E : match ig with [] => w | _ :: _ => filter (fun c => negb (memb c ig)) w end = drop_chars ig w).
  { destruct ig; [|reflexivity]. clear. induction w as [|c w IH]; [reflexivity|].
    unfold drop_chars in *. change (filter (fun c : N => negb (memb c [])) (c :: w))
      with (c :: filter (fun c : N => negb (memb c [])) w). f_equal. exact IH. }
  rewrite E. unfold stem_from. destruct (blen (drop_chars ig w) <=? 65535)%N eqn:B; [reflexivity|].
  exfalso. assert (blen (drop_chars ig w) <= blen w)%N; [|lia].
  clear. unfold drop_chars. induction w as [|c w IH]; [reflexivity|]. cbn [filter].
  destruct (negb (memb c ig)); cbn [blen]; assert (P := len1_pos c); lia.
Qed.

(** What follows the word: nothing, a tab, or a space and a morphological field. *)
Inductive NoFlags : str -> Prop :=
| nf_end : NoFlags []
| nf_tab : forall r, NoFlags (9%N :: r)
| nf_morph : forall m, is_morph pl m = true -> NoFlags (32%N :: m).
(** What follows the flags: nothing or white space. *)
Definition after_flags (r : str) : Prop := match r with [] => True | c :: _ => u_is_ws U c = true end.

Lemma split_ws_word : forall f r, f <> [] -> ws_free pl f -> after_flags r ->
  exists l, split_whitespace pl (f ++ r) = f :: l.
Proof.
  intros f r NE WS AF. unfold split_whitespace.
  assert (G : forall f cur, ws_free pl f -> (f <> [] \/ cur <> []) ->
            exists l, ws_go pl (f ++ r) cur = (rev cur ++ f) :: l).
  { clear NE WS f. induction f as [|c f IH]; intros cur WS H.
    - destruct H as [H|H]; [congruence|]. destruct r as [|c r]; cbn [app ws_go].
      + destruct cur; [congruence|]. exists []. rewrite app_nil_r. reflexivity.
      + cbn in AF. rewrite AF. destruct cur; [congruence|]. eexists. rewrite app_nil_r. reflexivity.
    - unfold ws_free in WS. cbn [forallb] in WS. apply andb_true_iff in WS. destruct WS as [W1 W2].
      cbn [app ws_go]. destruct (u_is_ws U c); [discriminate W1|].
      destruct (IH (c :: cur) W2) as [l E]; [right; discriminate|]. exists l. rewrite E. cbn [rev].
      rewrite <- app_assoc. reflexivity. }
  destruct (G f [] WS (or_introl NE)) as [l E]. exists l. exact E.
Qed.

Lemma take_nonws_word : forall f r, ws_free pl f -> after_flags r -> take_nonws pl (f ++ r) = f.
Proof.
  induction f as [|c f IH]; intros r WS AF.
  - destruct r as [|c r]; [reflexivity|]. cbn in *. rewrite AF. reflexivity.
  - unfold ws_free in WS. cbn [forallb] in WS. apply andb_true_iff in WS. destruct WS as [W1 W2].
    cbn [app take_nonws]. destruct (u_is_ws U c); [discriminate W1|]. f_equal. apply IH; assumption.
Qed.

Lemma escape_blen : forall w, (blen w <= blen (escape w))%N.
Proof.
  induction w as [|c w IH]; [reflexivity|]. rewrite escape_cons, blen_app. cbn [blen].
  destruct (c =? 47)%N eqn:E; cbn [blen]; [|lia]. assert (c = 47%N) as -> by lia.
  change (len1 92) with 1%N. change (len1 47) with 1%N. lia.
Qed.

Lemma decode_nil : forall t al, decode_flagset pl [] t al = okP [].
Proof. intros. unfold decode_flagset. cbn. destruct (_ || _); reflexivity. Qed.

(** A line without flags: the word comes back, whatever its slashes and spaces. *)
Theorem dic_line_word : forall w tail t al ig,
  w <> [] -> ~ In 9%N w -> no_field w tail -> NoFlags tail -> (blen (escape w ++ tail) <= 65535)%N ->
  parse_dic_line pl (escape w ++ tail) t al ig = okP (drop_chars ig w, []).
Proof.
  intros w tail t al ig NE NT NF NFl Hlen. unfold parse_dic_line.
  replace (65535 <? blen (escape w ++ tail))%N with false by lia.
  assert (Lw : (blen w <= 65535)%N) by (assert (Q := escape_blen w); rewrite blen_app in Hlen; lia).
  destruct (special_split w) as [u [v [Ew [Hu Hv]]]]. destruct v as [|c v].
  - rewrite app_nil_r in Ew. subst u. rewrite (escape_plain _ Hu). destruct NFl as [|r|m Hm].
    + rewrite app_nil_r, (proj2 (find_char_none _ _) Hu). rewrite ignore_chars_drop by exact Lw. reflexivity.
    + rewrite (@find_char_app is_dic_special w 9%N r eq_refl Hu).
      rewrite app_nth2, Nat.sub_diag by lia. cbn [nth]. unfold ch_slash, ch_tab. cbn [N.eqb Pos.eqb andb].
      rewrite firstn_app_exact by reflexivity. rewrite ignore_chars_drop by exact Lw. reflexivity.
    + rewrite (@find_char_app is_dic_special w 32%N m eq_refl Hu).
      rewrite app_nth2, Nat.sub_diag by lia. cbn [nth]. unfold ch_slash, ch_tab. cbn [N.eqb Pos.eqb andb].
      rewrite firstn_app_exact, skipn_app_exact by reflexivity.
      cbn [dic_go]. unfold ch_slash, ch_tab, ch_space. cbn [N.eqb Pos.eqb andb]. rewrite Hm. cbn [bindR].
      rewrite rev_involutive, ignore_chars_drop by exact Lw. reflexivity.
  - destruct Hv as [Hv|[c' [r [Hv Hc]]]]; [discriminate Hv|]. injection Hv as <- <-.
    assert (NTc : (c <> 9)%N) by (intros ->; apply NT; rewrite Ew; apply in_app_iff; right; left; reflexivity).
    assert (Head : exists d z, escape (c :: v) = d :: z /\ is_dic_special d = true /\ d <> 47%N /\ d <> 9%N).
    { rewrite escape_cons. destruct (c =? 47)%N eqn:E.
      - exists 92%N. eexists. split; [reflexivity|]. split; [reflexivity|]. lia.
      - exists c. eexists. split; [reflexivity|]. split; [exact Hc|]. lia. }
    destruct Head as [d [z [Ed [Hd [Hd1 Hd2]]]]].
    assert (El : escape w ++ tail = u ++ d :: z ++ tail).
    { rewrite Ew, escape_app, (escape_plain _ Hu), <- app_assoc, Ed. reflexivity. }
    rewrite El, (@find_char_app is_dic_special u d (z ++ tail) Hd Hu).
    rewrite app_nth2, Nat.sub_diag by lia. cbn [nth]. unfold ch_slash, ch_tab.
    replace (d =? 47)%N with false by lia. replace (d =? 9)%N with false by lia. cbn [andb].
    rewrite firstn_app_exact, skipn_app_exact by reflexivity.
    change (d :: z ++ tail) with ((d :: z) ++ tail). rewrite <- Ed.
    rewrite dic_go_word; [|discriminate| |].
    2:{ intro I. apply NT. rewrite Ew. apply in_app_iff. right. exact I. }
    2:{ intros a b E. apply (NF (u ++ a) b). rewrite Ew, E, <- app_assoc. reflexivity. }
    assert (Er : rev (rev (c :: v) ++ rev u) = w) by (rewrite <- rev_app_distr, rev_involutive; symmetry; exact Ew).
    destruct NFl as [|r|m Hm]; cbn [dic_go]; unfold ch_slash, ch_tab, ch_space; cbn [N.eqb Pos.eqb andb negb].
    + cbn [bindR]. rewrite Er. cbn [take_nonws]. rewrite decode_nil. cbn [bindP okP].
      rewrite ignore_chars_drop by exact Lw. reflexivity.
    + cbn [bindR]. rewrite Er, ignore_chars_drop by exact Lw. reflexivity.
    + rewrite Hm. cbn [bindR]. rewrite Er, ignore_chars_drop by exact Lw. reflexivity.
Qed.

(** A line with flags: the word comes back and the flag text is decoded; what follows
    white space is ignored. *)
Theorem dic_line_flags : forall w fl tail t al ig,
  w <> [] -> ~ In 9%N w -> last w 0%N <> 92%N -> no_field w (47%N :: fl ++ tail) ->
  fl <> [] -> ws_free pl fl -> after_flags tail -> (blen (escape w ++ 47%N :: fl ++ tail) <= 65535)%N ->
  parse_dic_line pl (escape w ++ 47%N :: fl ++ tail) t al ig =
  bindP (decode_flagset pl fl t al) (fun fs => okP (drop_chars ig w, fs)).
Proof.
  intros w fl tail t al ig NE NT NB NF NFl WS AF Hlen. unfold parse_dic_line.
  replace (65535 <? _)%N with false by lia.
  assert (Lw : (blen w <= 65535)%N) by (assert (Q := escape_blen w); rewrite blen_app in Hlen; lia).
  destruct (special_split w) as [u [v [Ew [Hu Hv]]]]. destruct v as [|c v].
  - rewrite app_nil_r in Ew. subst u. rewrite (escape_plain _ Hu).
    rewrite (@find_char_app is_dic_special w 47%N (fl ++ tail) eq_refl Hu).
    rewrite app_nth2, Nat.sub_diag by lia. cbn [nth]. unfold ch_slash, ch_tab. cbn [N.eqb Pos.eqb andb].
    replace (length w =? 0)%nat with false by (destruct w; [congruence|reflexivity]). cbn [negb].
    rewrite firstn_app_exact by reflexivity. rewrite ignore_chars_drop by exact Lw. cbn [bindR].
    replace (w ++ 47%N :: fl ++ tail) with ((w ++ [47%N]) ++ fl ++ tail) by (rewrite <- app_assoc; reflexivity).
    rewrite skipn_app_exact by (rewrite app_length; cbn; lia).
    destruct (@split_ws_word fl tail NFl WS AF) as [l El]. rewrite El. reflexivity.
  - destruct Hv as [Hv|[c' [r [Hv Hc]]]]; [discriminate Hv|]. injection Hv as <- <-.
    assert (NTc : (c <> 9)%N) by (intros ->; apply NT; rewrite Ew; apply in_app_iff; right; left; reflexivity).
    assert (Head : exists d z, escape (c :: v) = d :: z /\ is_dic_special d = true /\ d <> 47%N /\ d <> 9%N).
    { rewrite escape_cons. destruct (c =? 47)%N eqn:E.
      - exists 92%N. eexists. split; [reflexivity|]. split; [reflexivity|]. lia.
      - exists c. eexists. split; [reflexivity|]. split; [exact Hc|]. lia. }
    destruct Head as [d [z [Ed [Hd [Hd1 Hd2]]]]].
    remember (47%N :: fl ++ tail) as tl eqn:Etl.
    assert (El : escape w ++ tl = u ++ d :: z ++ tl).
    { rewrite Ew, escape_app, (escape_plain _ Hu), <- app_assoc, Ed. reflexivity. }
    rewrite El, (@find_char_app is_dic_special u d (z ++ tl) Hd Hu).
    rewrite app_nth2, Nat.sub_diag by lia. cbn [nth]. unfold ch_slash, ch_tab.
    replace (d =? 47)%N with false by lia. replace (d =? 9)%N with false by lia. cbn [andb].
    rewrite firstn_app_exact, skipn_app_exact by reflexivity.
    change (d :: z ++ tl) with ((d :: z) ++ tl). rewrite <- Ed.
    rewrite dic_go_word; [|discriminate| |].
    2:{ intro I. apply NT. rewrite Ew. apply in_app_iff. right. exact I. }
    2:{ intros a b E. apply (NF (u ++ a) b). rewrite Ew, E, <- app_assoc. reflexivity. }
    assert (Er : rev (rev (c :: v) ++ rev u) = w) by (rewrite <- rev_app_distr, rev_involutive; symmetry; exact Ew).
    assert (Elast : last (c :: v) 0%N = last w 0%N).
    { rewrite Ew. clear. induction u as [|a u IH]; [reflexivity|]. cbn [app]. rewrite IH.
      cbn [last]. destruct (u ++ c :: v) eqn:Q; [destruct u; discriminate Q|reflexivity]. }
    rewrite Elast. replace (last w 0 =? 92)%N with false by lia.
    rewrite Etl. cbn [dic_go]. unfold ch_slash. cbn [N.eqb Pos.eqb andb negb bindR].
    rewrite Er, take_nonws_word by assumption.
    destruct (decode_flagset pl fl t al) as [[fs|]| |]; try reflexivity.
    cbn [bindP]. rewrite ignore_chars_drop by exact Lw. reflexivity.
Qed.

(** Together: a word and a writable flag list come back. *)
Theorem dic_line_round_trip : forall w l tail t ig,
  w <> [] -> ~ In 9%N w -> last w 0%N <> 92%N -> no_field w (47%N :: flag_text t l ++ tail) ->
  l <> [] -> Forall (writable t) l -> ws_free pl (flag_text t l) -> after_flags tail ->
  (blen (escape w ++ 47%N :: flag_text t l ++ tail) <= 65535)%N ->
  exists fs, parse_dic_line pl (escape w ++ 47%N :: flag_text t l ++ tail) t [] ig = okP (drop_chars ig w, fs) /\
             set_of fs l.
Proof.
  intros w l tail t ig NE NT NB NF NL Wl WS AF Hlen.
  rewrite dic_line_flags; try assumption; [|apply flag_text_nonempty; assumption].
  destruct (flags_round_trip Wl) as [fs [E S]]. exists fs. split; [|exact S].
  unfold decode_flagset. cbn [nonempty negb]. rewrite orb_true_r. rewrite E. reflexivity.
Qed.

(** ** COMPOUNDRULE patterns *)

(** Specification: the texts of one flag and of a whole rule. *)
Definition FlagElem (t : flag_type) (s : str) (f : N) : Prop :=
  valid_flag f /\
  match t with
  | FShort => s = [f] /\ (f < 128)%N /\ f <> 63%N /\ f <> 42%N
  | FUtf8 => s = [f] /\ f <> 63%N /\ f <> 42%N
  | FLong => exists a b, s = [40; a; b; 41]%N /\ (a < 128)%N /\ (b < 128)%N /\ a <> 41%N /\ b <> 41%N /\
                         f = pair_value le (a, b)
  | FNumeric => exists ds, s = 40%N :: ds ++ [41%N] /\ ds <> [] /\ Forall digit ds /\ dec_value ds = f
  end.
Definition mod_text (m : option rule_mod) : str :=
  match m with None => [] | Some ZeroOrOne => [63%N] | Some ZeroOrMore => [42%N] end.
Inductive RuleText (t : flag_type) : str -> rule -> Prop :=
| rt_nil : RuleText t [] []
| rt_cons : forall s e sr r, FlagElem t s (re_flag e) -> RuleText t sr r ->
    RuleText t (s ++ mod_text (re_mod e) ++ sr) (e :: r).

Lemma lift_try_spec : forall v rest f r, (v < 65536)%N ->
  (lift_flag (try_flag_from_u16 v) rest = Ok (f, r) <-> v = f /\ r = rest /\ valid_flag f).
Proof.
  intros v rest f r Hv. unfold lift_flag, try_flag_from_u16. destruct (v =? 0)%N eqn:E.
  - split; [discriminate|]. intros [-> [_ [V _]]]. lia.
  - split; [intros [= <- <-]; split; [reflexivity|split; [reflexivity|unfold valid_flag; lia]]|].
    intros [-> [-> _]]. reflexivity.
Qed.

Lemma rule_digits_spec : forall cs number f r, Forall digit number ->
  (rule_digits cs number = Ok (f, r) <->
   exists ds, cs = ds ++ 41%N :: r /\ Forall digit ds /\ rev number ++ ds <> [] /\
              dec_value (rev number ++ ds) = f /\ valid_flag f).
Proof.
  induction cs as [|d cs IH]; intros number f r Hn; cbn [rule_digits].
  { split; [discriminate|]. intros [ds [E _]]. destruct ds; discriminate E. }
  destruct ((48 <=? d)%N && (d <=? 57)%N) eqn:Ed.
  - rewrite IH by (constructor; [unfold digit; lia|exact Hn]). cbn [rev]. split.
    + intros [ds [-> [H1 [H2 [H3 H4]]]]]. rewrite <- app_assoc in H2, H3. exists (d :: ds).
      split; [reflexivity|]. split; [constructor; [unfold digit; lia|exact H1]|]. split; [exact H2|]. split; assumption.
    + intros [[|d' ds] [E [H1 [H2 [H3 H4]]]]]; [injection E as -> _; lia|].
      injection E as <- E. exists ds. rewrite <- !app_assoc. inversion H1; subst. split; [reflexivity|]. split; [assumption|].
      split; [exact H2|]. split; [reflexivity|exact H4].
  - destruct ((d =? 41)%N && nonempty number) eqn:E2.
    + apply andb_true_iff in E2. destruct E2 as [E2 E3]. assert (d = 41%N) as -> by lia.
      assert (NN : rev number <> []).
      { destruct number; [discriminate E3|]. cbn [rev]. intro Q. apply app_eq_nil in Q. destruct Q as [_ Q]. discriminate Q. }
      assert (Dn : Forall digit (rev number)) by (apply Forall_rev; exact Hn).
      assert (ED : forall v, Decimal (rev number) v <-> dec_value (rev number) = v).
      { intro v. split.
        - intros [ds [[<-|Q] [_ [F V]]]]; [exact V|]. rewrite Q in Dn. inversion Dn; subst. unfold digit in *. lia.
        - intro V. exists (rev number). split; [left; reflexivity|]. split; [exact NN|]. split; assumption. }
      split.
      * intro H. unfold parse_u16 in H. destruct (parse_uint 65535 (rev number)) as [n|] eqn:P; [|discriminate H].
        apply parse_uint_spec in P. destruct P as [P L]. apply ED in P.
        apply lift_try_spec in H; [|lia]. destruct H as [<- [-> V]]. exists []. rewrite app_nil_r.
        split; [reflexivity|]. split; [constructor|]. split; [exact NN|]. split; assumption.
      * intros [[|d' ds] [E [H1 [H2 [H3 H4]]]]].
        -- injection E as ->. rewrite app_nil_r in H3. destruct H4 as [V1 V2].
           assert (P : parse_uint 65535 (rev number) = Ok f).
           { apply parse_uint_spec. split; [apply ED; exact H3|lia]. }
           unfold parse_u16. rewrite P. apply lift_try_spec; [lia|]. split; [reflexivity|]. split; [reflexivity|split; assumption].
        -- injection E as <- _. inversion H1; subst. unfold digit in *. lia.
    + split; [discriminate|]. intros [[|d' ds] [E [H1 [H2 [H3 H4]]]]].
      * injection E as -> _. cbn [N.eqb Pos.eqb andb] in E2. destruct number; [|discriminate E2]. exfalso; apply H2; reflexivity.
      * injection E as <- _. inversion H1; subst. unfold digit in *. lia.
Qed.

Lemma next_flag_spec : forall t c cs f r,
  next_flag pl t c cs = Ok (f, r) <-> exists s, c :: cs = s ++ r /\ FlagElem t s f.
Proof.
  intros t c cs f r. unfold FlagElem. destruct t; cbn [next_flag].
  - destruct (128 <=? c)%N eqn:E1.
    { split; [discriminate|]. intros [s [E [_ [-> [L _]]]]]. injection E as -> _. lia. }
    destruct ((c =? 63)%N || (c =? 42)%N) eqn:E2.
    { split; [discriminate|]. intros [s [E [_ [-> [_ [N1 N2]]]]]]. injection E as -> _. lia. }
    rewrite lift_try_spec by lia. split.
    + intros [-> [-> V]]. exists [f]. split; [reflexivity|]. split; [exact V|]. split; [reflexivity|]. lia.
    + intros [s [E [V [-> _]]]]. injection E as -> ->. split; [reflexivity|]. split; [reflexivity|exact V].
  - destruct (c =? 40)%N eqn:E0.
    2:{ split; [discriminate|]. intros [s [E [_ [a [b [-> _]]]]]]. injection E as -> _. discriminate E0. }
    assert (c = 40%N) as -> by lia.
    assert (Inv : forall s, 40%N :: cs = s ++ r -> forall a b, s = [40; a; b; 41]%N -> cs = a :: b :: 41%N :: r).
    { intros s E a b ->. injection E as ->. reflexivity. }
    destruct cs as [|c1 cs].
    { split; [discriminate|]. intros [s [E [_ [a [b [Es _]]]]]]. discriminate (Inv s E a b Es). }
    destruct (128 <=? c1)%N eqn:E1.
    { split; [discriminate|]. intros [s [E [_ [a [b [Es H]]]]]]. assert (Q := Inv s E a b Es). injection Q as -> _. lia. }
    destruct (c1 =? 41)%N eqn:E1'.
    { split; [discriminate|]. intros [s [E [_ [a [b [Es H]]]]]]. assert (Q := Inv s E a b Es). injection Q as -> _. lia. }
    destruct cs as [|c2 cs].
    { split; [discriminate|]. intros [s [E [_ [a [b [Es _]]]]]]. discriminate (Inv s E a b Es). }
    destruct (128 <=? c2)%N eqn:E2.
    { split; [discriminate|]. intros [s [E [_ [a [b [Es H]]]]]]. assert (Q := Inv s E a b Es). injection Q as _ -> _. lia. }
    destruct (c2 =? 41)%N eqn:E2'.
    { split; [discriminate|]. intros [s [E [_ [a [b [Es H]]]]]]. assert (Q := Inv s E a b Es). injection Q as _ -> _. lia. }
    destruct cs as [|c3 cs].
    { split; [discriminate|]. intros [s [E [_ [a [b [Es _]]]]]]. discriminate (Inv s E a b Es). }
    destruct (c3 =? 41)%N eqn:E3.
    2:{ split; [discriminate|]. intros [s [E [_ [a [b [Es H]]]]]]. assert (Q := Inv s E a b Es).
        injection Q as _ _ -> _. discriminate E3. }
    assert (c3 = 41%N) as -> by lia. rewrite lift_try_spec by (apply ne_bytes_lt; lia). split.
    + intros [<- [-> V]]. exists [40; c1; c2; 41]%N. split; [reflexivity|]. split; [exact V|].
      exists c1, c2. split; [reflexivity|]. unfold pair_value, from_ne_bytes. cbn [fst snd].
      split; [lia|]. split; [lia|]. split; [lia|]. split; [lia|reflexivity].
    + intros [s [E [V [a [b [Es [_ [_ [_ [_ ->]]]]]]]]]]. assert (Q := Inv s E a b Es). injection Q as -> -> ->.
      split; [reflexivity|]. split; [reflexivity|exact V].
  - destruct (c =? 40)%N eqn:E0.
    2:{ split; [discriminate|]. intros [s [E [_ [ds [-> _]]]]]. injection E as -> _. discriminate E0. }
    assert (c = 40%N) as -> by lia. rewrite rule_digits_spec by constructor. cbn [rev app]. split.
    + intros [ds [-> [H1 [H2 [H3 H4]]]]]. exists (40%N :: ds ++ [41%N]). split; [cbn [app]; rewrite <- app_assoc; reflexivity|].
      split; [exact H4|]. exists ds. split; [reflexivity|]. split; [exact H2|]. split; assumption.
    + intros [s [E [V [ds [-> [H2 [H1 H3]]]]]]]. exists ds. cbn [app] in E. injection E as ->.
      rewrite <- app_assoc. split; [reflexivity|]. split; [exact H1|]. split; [exact H2|]. split; assumption.
  - destruct ((c =? 63)%N || (c =? 42)%N) eqn:E2.
    { split; [discriminate|]. intros [s [E [_ [-> [N1 N2]]]]]. injection E as -> _. lia. }
    unfold try_flag_from_char, try_flag_from_u32. destruct (65535 <? c)%N eqn:E1.
    { split; [discriminate|]. intros [s [E [V [-> _]]]]. injection E as -> _. destruct V. lia. }
    rewrite lift_try_spec by lia. split.
    + intros [-> [-> V]]. exists [f]. split; [reflexivity|]. split; [exact V|]. split; [reflexivity|]. lia.
    + intros [s [E [V [-> _]]]]. injection E as -> ->. split; [reflexivity|]. split; [reflexivity|exact V].
Qed.

Lemma FlagElem_head : forall t s f, FlagElem t s f -> exists c s', s = c :: s' /\ c <> 63%N /\ c <> 42%N.
Proof.
  intros t s f [_ H]. destruct t.
  - destruct H as [-> [_ H]]. exists f, []. split; [reflexivity|exact H].
  - destruct H as [a [b [-> _]]]. eexists. eexists. split; [reflexivity|]. lia.
  - destruct H as [ds [-> _]]. eexists. eexists. split; [reflexivity|]. lia.
  - destruct H as [-> H]. exists f, []. split; [reflexivity|exact H].
Qed.
Lemma RuleText_head : forall t s r, RuleText t s r -> match s with c :: _ => c <> 63%N /\ c <> 42%N | [] => True end.
Proof.
  intros t s r H. destruct H as [|s e sr r H _]; [exact I|].
  destruct (FlagElem_head H) as [c [s' [-> [H1 H2]]]]. split; assumption.
Qed.

Lemma take_modifier_text : forall m sr, match sr with c :: _ => c <> 63%N /\ c <> 42%N | [] => True end ->
  take_modifier (mod_text m ++ sr) = (m, sr).
Proof.
  intros [[|]|] sr H; [reflexivity|reflexivity|]. cbn [mod_text app]. destruct sr as [|c sr]; [reflexivity|].
  cbn [take_modifier]. destruct H as [H1 H2]. destruct (c =? 63)%N eqn:E; [lia|]. destruct (c =? 42)%N eqn:E2; [lia|reflexivity].
Qed.
Lemma take_modifier_inv : forall cs m r, take_modifier cs = (m, r) -> cs = mod_text m ++ r.
Proof.
  intros [|c cs] m r H; cbn [take_modifier] in H; [injection H as <- <-; reflexivity|].
  destruct (c =? 63)%N eqn:E; [injection H as <- <-; cbn; f_equal; lia|].
  destruct (c =? 42)%N eqn:E2; injection H as <- <-; [cbn; f_equal; lia|reflexivity].
Qed.

Lemma rule_go_spec : forall fuel t cs r, length cs < fuel ->
  (rule_go pl fuel t cs = Ret (Ok r) <-> RuleText t cs r).
Proof.
  induction fuel as [|fuel IH]; intros t cs r Hf; [lia|]. cbn [rule_go]. destruct cs as [|c cs].
  - split; [intros [= <-]; constructor|]. intro H. inversion H as [|s e sr r' F _ E]; [reflexivity|].
    destruct (FlagElem_head F) as [c [s' [-> _]]]. discriminate E.
  - split.
    + intro H. unfold bindP in H. destruct (next_flag pl t c cs) as [[f cs1]|] eqn:En; [|discriminate H].
      apply next_flag_spec in En. destruct En as [s [Es F]].
      destruct (take_modifier cs1) as [m cs2] eqn:Em. apply take_modifier_inv in Em. subst cs1.
      destruct (rule_go pl fuel t cs2) as [[es|]| |] eqn:Eg; try discriminate H. injection H as <-.
      rewrite Es. apply (rt_cons (t := t) (mkRuleElem f m)); [exact F|].
      apply IH; [|exact Eg]. destruct (FlagElem_head F) as [c' [s' [-> _]]].
      assert (L := f_equal (@length N) Es). cbn [length app] in L. rewrite !app_length in L. cbn in Hf, L. lia.
    + intro H. inversion H as [|s e sr r' F R Es E]; subst.
      assert (En : next_flag pl t c cs = Ok (re_flag e, mod_text (re_mod e) ++ sr)).
      { apply next_flag_spec. exists s. split; [symmetry; exact Es|exact F]. }
      unfold bindP. rewrite En. rewrite take_modifier_text by (eapply RuleText_head; exact R).
      assert (Eg : rule_go pl fuel t sr = Ret (Ok r')).
      { apply IH; [|exact R]. destruct (FlagElem_head F) as [c' [s' [-> _]]].
        assert (L := f_equal (@length N) Es). cbn [length app] in L. rewrite !app_length in L. cbn in Hf, L. lia. }
      rewrite Eg. destruct e; reflexivity.
Qed.

(** A pattern is accepted exactly when it is the text of a rule, and gives that rule. *)
Theorem compound_rule_exact : forall t s r,
  parse_compound_rule pl s t = Ret (Ok r) <-> RuleText t s r.
Proof. intros. apply rule_go_spec. lia. Qed.

(** The printed form of a rule. *)
Definition elem_text (t : flag_type) (e : rule_elem) : str :=
  match t with
  | FShort | FUtf8 => [re_flag e]
  | FLong => 40%N :: long_text (re_flag e) ++ [41%N]
  | FNumeric => 40%N :: dec_text (re_flag e) ++ [41%N]
  end ++ mod_text (re_mod e).
Definition rule_text (t : flag_type) (r : rule) : str := flat_map (elem_text t) r.
(** The flags that can be written inside a rule. *)
Definition rule_writable (t : flag_type) (f : N) : Prop :=
  valid_flag f /\
  match t with
  | FShort => (f < 128)%N /\ f <> 63%N /\ f <> 42%N
  | FUtf8 => f <> 63%N /\ f <> 42%N
  | FLong => (f mod 256 < 128)%N /\ (f / 256 < 128)%N /\ (f mod 256 <> 41)%N /\ (f / 256 <> 41)%N
  | FNumeric => True
  end.

Theorem compound_rule_round_trip : forall t r, Forall (fun e => rule_writable t (re_flag e)) r ->
  parse_compound_rule pl (rule_text t r) t = Ret (Ok r).
Proof.
  intros t r H. apply compound_rule_exact. induction H as [|e r [V W] _ IH]; [constructor|].
  unfold rule_text. cbn [flat_map]. unfold elem_text at 1. rewrite <- app_assoc. constructor; [|exact IH].
  split; [exact V|]. destruct t.
  - split; [reflexivity|exact W].
  - assert (Q := N.div_mod' (re_flag e) 256). unfold long_text. destruct le.
    + exists (re_flag e mod 256)%N, (re_flag e / 256)%N. split; [reflexivity|]. unfold pair_value. cbn [fst snd].
      destruct W as [W1 [W2 [W3 W4]]]. split; [exact W1|]. split; [exact W2|]. split; [exact W3|]. split; [exact W4|]. lia.
    + exists (re_flag e / 256)%N, (re_flag e mod 256)%N. split; [reflexivity|]. unfold pair_value. cbn [fst snd].
      destruct W as [W1 [W2 [W3 W4]]]. split; [exact W2|]. split; [exact W1|]. split; [exact W4|]. split; [exact W3|]. lia.
  - destruct V as [V1 V2]. destruct (@dec_text_Decimal (re_flag e) ltac:(lia)) as [[ds [Hd [N [F E]]]] D].
    assert (ds = dec_text (re_flag e)) as ->.
    { destruct Hd as [->|Q]; [reflexivity|]. rewrite Q in D. inversion D; subst. unfold digit in *. lia. }
    exists (dec_text (re_flag e)). split; [reflexivity|]. split; [exact N|]. split; assumption.
  - split; [reflexivity|exact W].
Qed.

End Props.

(** ** MAP entries *)

(** Specification: a MAP entry is a sequence of characters and parenthesised strings,
    then possibly an opening parenthesis that is never closed. *)
Inductive map_piece := PChar (c : N) | PStr (s : str).
Definition piece_ok (p : map_piece) : Prop :=
  match p with PChar c => c <> 40%N | PStr s => ~ In 41%N s end.
Definition piece_text (p : map_piece) : str :=
  match p with PChar c => [c] | PStr s => 40%N :: s ++ [41%N] end.
Definition piece_chars (p : map_piece) : str :=
  match p with PChar c => [c] | PStr [] => [] | PStr [c] => [c] | PStr _ => [] end.
Definition piece_strings (p : map_piece) : list str :=
  match p with PStr (a :: b :: r) => [a :: b :: r] | _ => [] end.
Definition unclosed (s : str) : Prop := s = [] \/ exists r, s = 40%N :: r /\ ~ In 41%N r.

Lemma find_ne : forall c u, ~ In c u -> forallb (fun x => negb (N.eqb c x)) u = true.
Proof.
  intros c u H. apply forallb_forall. intros x I. destruct (N.eqb_spec c x) as [->|]; [contradiction|reflexivity].
Qed.

Lemma sim_go_spec : forall fuel ps junk chars strings,
  length (flat_map piece_text ps ++ junk) < fuel -> Forall piece_ok ps -> unclosed junk ->
  sim_go fuel (flat_map piece_text ps ++ junk) chars strings =
  Ret (mkSim (chars ++ flat_map piece_chars ps) (strings ++ flat_map piece_strings ps)).
Proof.
  induction fuel as [|fuel IH]; intros ps junk chars strings Hf Hp Hj; [lia|].
  (* leading characters *)
  assert (Span : exists cs rest, ps = map PChar cs ++ rest /\ ~ In 40%N cs /\
            match rest with PChar _ :: _ => False | _ => True end).
  { clear - Hp. induction ps as [|p ps IHp]; [exists [], []; repeat split; intros []|].
    inversion Hp as [|? ? H1 H2]; subst. destruct p as [c|s].
    - destruct (IHp H2) as [cs [rest [-> [A B]]]]. exists (c :: cs), rest. split; [reflexivity|]. split; [|exact B].
      intros [->|I]; [apply H1; reflexivity|exact (A I)].
    - exists [], (PStr s :: ps). repeat split. intros []. }
  destruct Span as [cs [rest [-> [Hcs Hrest]]]].
  assert (T : flat_map piece_text (map PChar cs) = cs).
  { clear. induction cs as [|c cs IHc]; [reflexivity|]. cbn. f_equal. exact IHc. }
  assert (Tc : flat_map piece_chars (map PChar cs) = cs).
  { clear. induction cs as [|c cs IHc]; [reflexivity|]. cbn. f_equal. exact IHc. }
  assert (Ts : flat_map piece_strings (map PChar cs) = []).
  { clear. induction cs as [|c cs IHc]; [reflexivity|]. exact IHc. }
  rewrite !flat_map_app, T, Tc, Ts in *. cbn [app]. rewrite <- app_assoc in *.
  apply Forall_app in Hp. destruct Hp as [_ Hp].
  assert (Fcs : forallb (fun x => negb (40 =? x)%N) cs = true) by (apply find_ne; exact Hcs).
  destruct rest as [|[c|s] rest]; [|contradiction|].
  - cbn [flat_map app] in *. rewrite !app_nil_r. destruct Hj as [->|[r [-> Hr]]].
    + rewrite app_nil_r in *. cbn [sim_go]. rewrite (proj2 (find_char_none _ _) Fcs). reflexivity.
    + cbn [sim_go]. rewrite (@find_char_app (N.eqb 40) cs 40%N r eq_refl Fcs).
      rewrite firstn_app_exact by reflexivity.
      replace (cs ++ 40%N :: r) with ((cs ++ [40%N]) ++ r) by (rewrite <- app_assoc; reflexivity).
      rewrite skipn_app_exact by (rewrite app_length; cbn; lia).
      rewrite (proj2 (find_char_none _ _) (@find_ne _ _ Hr)). reflexivity.
  - inversion Hp as [|? ? H1 H2]; subst. cbn [flat_map piece_text] in Hf |- *.
    cbn [app] in Hf |- *. rewrite <- !app_assoc in *. cbn [app] in *. cbn [sim_go].
    rewrite (@find_char_app (N.eqb 40) cs 40%N _ eq_refl Fcs).
    rewrite firstn_app_exact by reflexivity.
    assert (Q : forall z, cs ++ 40%N :: z = (cs ++ [40%N]) ++ z) by (intro z; rewrite <- app_assoc; reflexivity).
    rewrite Q. rewrite skipn_app_exact by (rewrite app_length; cbn; lia).
    rewrite (@find_char_app (N.eqb 41) s 41%N _ eq_refl (@find_ne _ _ H1)).
    rewrite firstn_app_exact by reflexivity.
    assert (Q2 : forall z, s ++ 41%N :: z = (s ++ [41%N]) ++ z) by (intro z; rewrite <- app_assoc; reflexivity).
    rewrite Q2. rewrite skipn_app_exact by (rewrite app_length; cbn; lia).
    assert (Lf : length (flat_map piece_text rest ++ junk) < fuel).
    { rewrite !app_length in *. cbn [length] in Hf. rewrite !app_length in Hf. cbn [length] in Hf. rewrite app_length in Hf. lia. }
    destruct s as [|a [|b s]]; cbn [piece_chars piece_strings].
    + rewrite IH by assumption. rewrite app_nil_r, <- app_assoc. reflexivity.
    + rewrite IH by assumption. rewrite <- !app_assoc. reflexivity.
    + rewrite IH by assumption. rewrite <- !app_assoc. reflexivity.
Qed.

(** A MAP entry parses into exactly its characters and its strings. *)
Theorem map_entry_exact : forall ps junk, Forall piece_ok ps -> unclosed junk ->
  similarity_group_from (flat_map piece_text ps ++ junk) =
  Ret (mkSim (flat_map piece_chars ps) (flat_map piece_strings ps)).
Proof. intros ps junk H1 H2. unfold similarity_group_from. rewrite sim_go_spec by (assumption || lia). reflexivity. Qed.

(** Every text is such a sequence. *)
Theorem map_entry_pieces : forall s, exists ps junk,
  s = flat_map piece_text ps ++ junk /\ Forall piece_ok ps /\ unclosed junk.
Proof.
  intro s. remember (length s) as n eqn:En. assert (Hn : length s <= n) by lia. clear En.
  revert s Hn. induction n as [|n IH]; intros s Hn.
  { destruct s; [|cbn in Hn; lia]. exists [], []. split; [reflexivity|]. split; [constructor|left; reflexivity]. }
  destruct s as [|c s]; [exists [], []; split; [reflexivity|]; split; [constructor|left; reflexivity]|].
  destruct (N.eq_dec c 40) as [->|Hc].
  - destruct (find_char (N.eqb 41) s) as [i|] eqn:F.
    + apply find_char_some in F. destruct F as [u [d [v [-> [<- [Hd Hu]]]]]]. apply N.eqb_eq in Hd. subst d.
      destruct (IH v) as [ps [junk [-> [H1 H2]]]].
      { cbn in Hn. rewrite app_length in Hn. cbn in Hn. lia. }
      exists (PStr u :: ps), junk. split; [cbn; rewrite <- !app_assoc; reflexivity|]. split; [|exact H2].
      constructor; [|exact H1]. intro I. rewrite forallb_forall in Hu. apply Hu in I. discriminate I.
    + exists [], (40%N :: s). split; [reflexivity|]. split; [constructor|]. right. exists s. split; [reflexivity|].
      intro I. apply find_char_none in F. rewrite forallb_forall in F. apply F in I. discriminate I.
  - destruct (IH s) as [ps [junk [-> [H1 H2]]]]; [cbn in Hn; lia|].
    exists (PChar c :: ps), junk. split; [reflexivity|]. split; [constructor; [exact Hc|exact H1]|exact H2].
Qed.
