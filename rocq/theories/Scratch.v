(** The scratch buffers that the checker and the parser write bytes into: the stem buffer of
    aff.rs, the "ss"/"ß" buffer of checker.rs and the escaped word of parser.rs. *)
From Coq Require Import List NArith ZArith Lia Bool Arith.
From Coq Require Import ZifyBool ZifyNat ZifyN.
From Verif Require Import Base Utf8 Unicode Flags Affix Conversion Aff Checker Parser CharsStr.
Import ListNotations.
Set Implicit Arguments.

(** [bytes[i] = b]: bounds checked. *)
Definition set_byte (i : nat) (b : N) (bytes : list N) : Out (list N) :=
  if (i <? length bytes)%nat then Val (firstn i bytes ++ b :: skipn (S i) bytes) else Panics.
(** [bytes[a..b].copy_from_slice(src)]: panics when the range is out of bounds or has another length. *)
Definition copy_into (a b : nat) (src bytes : list N) : Out (list N) :=
  if (a <=? b)%nat && (b <=? length bytes)%nat && (length src =? b - a)%nat
  then Val (firstn a bytes ++ src ++ skipn b bytes) else Panics.
(** Bytes used as a [str] without a check: undefined unless they are UTF-8. *)
Definition as_str (bytes : list N) : Out (list N) := match dec bytes with Some _ => Val bytes | None => Undefined end.
(** [&text[a..b]]: panics unless the range is in bounds and cut at characters. *)
Definition str_range (bytes : list N) (a b : nat) : Out (list N) :=
  if (a <=? b)%nat && (b <=? length bytes)%nat && boundary bytes a && boundary bytes b then Val (slice bytes a b) else Panics.

(** aff.rs 29-32, 35-40. *)
Record stem_buf := mkStemBuf { sb_inline : list N; sb_heap : list N }.
Definition stem_buf_new : stem_buf := mkStemBuf (repeat 0%N 64) [].
(** aff.rs 44-61.  [dbg] says whether the build has debug assertions. *)
Definition concat (dbg : bool) (sb : stem_buf) (a b : list N) : Out (list N * stem_buf) :=
  let len := length a + length b in
  if dbg && (360 <? len)%nat then Panics
  else if (len <=? 64)%nat then
    i1 <=! copy_into 0 (length a) a (sb_inline sb) ;;
    i2 <=! copy_into (length a) len b i1 ;;
    (if (len <=? length i2)%nat then text <=! as_str (firstn len i2) ;; Val (text, mkStemBuf i2 (sb_heap sb)) else Panics)
  else Val (a ++ b, mkStemBuf (sb_inline sb) (a ++ b)).
(** aff.rs 348-362 and 420-434, on bytes. *)
Definition prefix_to_stem_into (dbg : bool) (a : affix) (word : list N) (sb : stem_buf) : Out (list N * stem_buf) :=
  if dbg && negb (starts_with (enc (a_add a)) word) then Panics
  else
    stripped <=! str_range word (length (enc (a_add a))) (length word) ;;
    match a_strip a with Some strip => concat dbg sb (enc strip) stripped | None => Val (stripped, sb) end.
Definition suffix_to_stem_into (dbg : bool) (a : affix) (word : list N) (sb : stem_buf) : Out (list N * stem_buf) :=
  if dbg && negb (ends_with (enc (a_add a)) word) then Panics
  else if (length word <? length (enc (a_add a)))%nat then Panics
  else
    stripped <=! str_range word 0 (length word - length (enc (a_add a))) ;;
    match a_strip a with Some strip => concat dbg sb stripped (enc strip) | None => Val (stripped, sb) end.

(** checker.rs 325-374.  [n] is [MAX_DEPTH - depth]; [check] is [check_word] on the buffer.  The
    second component is the buffer afterwards. *)
Fixpoint b_sharps (check : str -> Res (option flagset)) (n : nat) (bytes : list N) (position replacements : nat)
  : Out (Res (option flagset) * list N) :=
  tail <=! str_range bytes position (length bytes) ;;
  match n, find_sub ss tail with
  | S n', Some idx0 =>
      let idx := position + idx0 in
      b1 <=! set_byte idx 195 bytes ;; b2 <=! set_byte (idx + 1) 159 b1 ;;
      p <=! b_sharps check n' b2 (idx + 2) (replacements + 1) ;;
      match fst p with
      | Ret None =>
          b3 <=! set_byte idx 115 (snd p) ;; b4 <=! set_byte (idx + 1) 115 b3 ;;
          b_sharps check n' b4 (idx + 2) (replacements + 1)
      | _ => Val p
      end
  | _, _ =>
      if (0 <? replacements)%nat
      then match dec bytes with Some w => Val (check w, bytes) | None => Undefined end
      else Val (Ret None, bytes)
  end.

(** parser.rs 1271-1325.  [word] is the buffer; its last byte is overwritten when a slash follows
    a backslash. *)
Inductive b_end := BWord (w : list N) | BFlags (w : list N) (flags : str).
Fixpoint b_dic_go (pl : platform) (dbg : bool) (input : str) (first escaped : bool) (word : list N) : Out b_end :=
  match input with
  | [] => Val (BFlags word [])
  | c :: rest =>
      if (c =? ch_slash)%N && escaped then
        match word with
        | [] => Panics
        | _ :: _ =>
            let last_idx := length word - 1 in
            if dbg && negb (nth last_idx word 0%N =? ch_bslash)%N then Panics
            else word' <=! set_byte last_idx ch_slash word ;; word' <=! as_str word' ;; b_dic_go pl dbg rest false false word'
        end
      else if (c =? ch_slash)%N && negb first then Val (BFlags word rest)
      else if (c =? ch_tab)%N then Val (BWord word)
      else if (c =? ch_space)%N && is_morph pl rest then Val (BWord word)
      else b_dic_go pl dbg rest false (c =? ch_bslash)%N (word ++ enc1 c)
  end.

(** ** Proofs *)
Lemma set_byte_app : forall a x y b, set_byte (length a) b (a ++ x :: y) = Val (a ++ b :: y).
Proof.
  intros a x y b. unfold set_byte. rewrite app_length. cbn [length]. destruct (Nat.ltb_spec (length a) (length a + S (length y))); [|lia].
  rewrite firstn_app, Nat.sub_diag, firstn_all. cbn [firstn]. rewrite app_nil_r. do 2 f_equal. f_equal.
  replace (S (length a)) with (length a + 1) by lia. rewrite skipn_app, skipn_all2 by lia. replace (length a + 1 - length a) with 1 by lia. reflexivity.
Qed.
Lemma copy_app : forall a src old c, length src = length old -> copy_into (length a) (length a + length src) src (a ++ old ++ c) = Val (a ++ src ++ c).
Proof.
  intros a src old c L. unfold copy_into. rewrite !app_length.
  destruct (Nat.leb_spec (length a) (length a + length src)); [|lia].
  destruct (Nat.leb_spec (length a + length src) (length a + (length old + length c))); [|lia].
  destruct (Nat.eqb_spec (length src) (length a + length src - length a)); [|lia]. cbn [andb].
  rewrite firstn_app, Nat.sub_diag, firstn_all. cbn [firstn]. rewrite app_nil_r. do 3 f_equal.
  rewrite L, app_assoc, <- app_length, skipn_app, Nat.sub_diag, skipn_all. reflexivity.
Qed.
Lemma str_range_app : forall u w v, scalars (u ++ w ++ v) ->
  str_range (enc (u ++ w ++ v)) (length (enc u)) (length (enc u) + length (enc w)) = Val (enc w).
Proof.
  intros u w v Hs. unfold str_range.
  assert (B1 : boundary (enc (u ++ w ++ v)) (length (enc u)) = true).
  { apply boundary_spec; [exact Hs|rewrite enc_app, app_length; lia|]. exists u, (w ++ v). split; reflexivity. }
  assert (B2 : boundary (enc (u ++ w ++ v)) (length (enc u) + length (enc w)) = true).
  { apply boundary_spec; [exact Hs|rewrite !enc_app, !app_length; lia|]. exists (u ++ w), v. split; [apply app_assoc|rewrite enc_app, app_length; reflexivity]. }
  rewrite B1, B2, !enc_app, !app_length. destruct (Nat.leb_spec (length (enc u)) (length (enc u) + length (enc w))); [|lia].
  destruct (Nat.leb_spec (length (enc u) + length (enc w)) (length (enc u) + (length (enc w) + length (enc v)))); [|lia]. cbn [andb].
  unfold slice. replace (length (enc u) + length (enc w) - length (enc u)) with (length (enc w)) by lia.
  rewrite skipn_app, Nat.sub_diag, skipn_all. cbn [skipn app]. rewrite firstn_app, Nat.sub_diag, firstn_all. cbn [firstn]. rewrite app_nil_r. reflexivity.
Qed.
Lemma as_str_enc : forall s, scalars s -> as_str (enc s) = Val (enc s).
Proof. intros s Hs. unfold as_str. rewrite dec_enc by exact Hs. reflexivity. Qed.

(** *** Stems *)
Lemma concat_spec : forall dbg sb a b, length (sb_inline sb) = 64 -> scalars (a ++ b) -> dbg = false \/ (blen (a ++ b) <= 360)%N ->
  exists sb', concat dbg sb (enc a) (enc b) = Val (enc (a ++ b), sb') /\ length (sb_inline sb') = 64.
Proof.
  intros dbg sb a b L Hs HD. unfold concat. pose proof (blen_enc (a ++ b)) as BE. rewrite enc_app, app_length in BE.
  destruct (dbg && (360 <? length (enc a) + length (enc b))) eqn:D; [exfalso; destruct dbg; [destruct HD; [discriminate|]; cbn [andb] in D; apply Nat.ltb_lt in D; lia|discriminate]|].
  destruct (Nat.leb_spec (length (enc a) + length (enc b)) 64) as [LE|GT].
  - set (x := firstn (length (enc a)) (sb_inline sb)). set (y := firstn (length (enc b)) (skipn (length (enc a)) (sb_inline sb))).
    set (z := skipn (length (enc a) + length (enc b)) (sb_inline sb)).
    assert (E : sb_inline sb = x ++ y ++ z).
    { unfold x, y, z. rewrite <- (firstn_skipn (length (enc a)) (sb_inline sb)) at 1. f_equal.
      rewrite <- (firstn_skipn (length (enc b)) (skipn (length (enc a)) (sb_inline sb))) at 1. f_equal.
      rewrite Base.skipn_skipn'. reflexivity. }
    assert (LX : length (enc a) = length x) by (unfold x; rewrite firstn_length; lia).
    assert (LY : length (enc b) = length y) by (unfold y; rewrite firstn_length, skipn_length; lia).
    rewrite E. pose proof (copy_app [] (enc a) x (y ++ z) LX) as C1. cbn [length Nat.add app] in C1. rewrite C1. cbn [bindO].
    rewrite (copy_app (enc a) (enc b) y z LY). cbn [bindO]. rewrite !app_length.
    destruct (Nat.leb_spec (length (enc a) + length (enc b)) (length (enc a) + (length (enc b) + length z))); [|lia].
    rewrite app_assoc, <- enc_app. replace (length (enc a) + length (enc b)) with (length (enc (a ++ b))) by (rewrite enc_app, app_length; reflexivity).
    rewrite firstn_app, Nat.sub_diag, firstn_all. cbn [firstn]. rewrite app_nil_r, as_str_enc by exact Hs. cbn [bindO].
    eexists. split; [reflexivity|]. cbn [sb_inline]. rewrite app_length, enc_app, app_length. apply (f_equal (@length N)) in E. rewrite !app_length in E. lia.
  - rewrite enc_app. eexists. split; [reflexivity|]. exact L.
Qed.
Lemma concat_panics : forall sb a b, concat true sb (enc a) (enc b) = Panics \/ (blen (a ++ b) <= 360)%N.
Proof.
  intros sb a b. pose proof (blen_enc (a ++ b)) as BE. rewrite enc_app, app_length in BE. unfold concat. cbn [andb].
  destruct (Nat.ltb_spec 360 (length (enc a) + length (enc b))); [left; reflexivity|right; lia].
Qed.

Lemma prefix_to_stem_into_spec : forall dbg a w r sb, w = a_add a ++ r -> scalars w -> scalars (strip_text a) -> length (sb_inline sb) = 64 ->
  dbg = false \/ (blen (prefix_to_stem a w) <= 360)%N ->
  exists sb', prefix_to_stem_into dbg a (enc w) sb = Val (enc (prefix_to_stem a w), sb') /\ length (sb_inline sb') = 64.
Proof.
  intros dbg a w r sb -> Hw Hst L HD. unfold prefix_to_stem_into, prefix_to_stem in *.
  assert (SW : starts_with (enc (a_add a)) (enc (a_add a ++ r)) = true) by (rewrite enc_app; apply starts_with_app).
  rewrite SW. cbn [negb]. rewrite andb_false_r. rewrite skipn_app, Nat.sub_diag, skipn_all in *. cbn [skipn app] in *.
  pose proof (@str_range_app (a_add a) r []) as SR. rewrite app_nil_r in SR. specialize (SR Hw).
  replace (length (enc (a_add a ++ r))) with (length (enc (a_add a)) + length (enc r)) by (rewrite enc_app; symmetry; apply app_length). rewrite SR. cbn [bindO]. unfold strip_text in Hst. apply Forall_app in Hw. destruct Hw as [_ Hr].
  destruct (a_strip a) as [st|]; [|eauto]. apply concat_spec; [exact L|apply Forall_app; split; assumption|exact HD].
Qed.
Lemma suffix_to_stem_into_spec : forall dbg a w r sb, w = r ++ a_add a -> scalars w -> scalars (strip_text a) -> length (sb_inline sb) = 64 ->
  dbg = false \/ (blen (suffix_to_stem a w) <= 360)%N ->
  exists sb', suffix_to_stem_into dbg a (enc w) sb = Val (enc (suffix_to_stem a w), sb') /\ length (sb_inline sb') = 64.
Proof.
  intros dbg a w r sb -> Hw Hst L HD. unfold suffix_to_stem_into, suffix_to_stem in *.
  assert (SW : ends_with (enc (a_add a)) (enc (r ++ a_add a)) = true) by (rewrite enc_app; apply ends_with_app).
  rewrite SW. cbn [negb]. rewrite andb_false_r.
  assert (LW : length (enc (r ++ a_add a)) = length (enc r) + length (enc (a_add a))) by (rewrite enc_app; apply app_length).
  destruct (Nat.ltb_spec (length (enc (r ++ a_add a))) (length (enc (a_add a)))); [lia|].
  assert (FR : firstn (length (r ++ a_add a) - length (a_add a)) (r ++ a_add a) = r).
  { rewrite app_length. replace (length r + length (a_add a) - length (a_add a)) with (length r) by lia. rewrite firstn_app, Nat.sub_diag, firstn_all. cbn. apply app_nil_r. }
  rewrite FR in *. pose proof (@str_range_app [] r (a_add a) Hw) as SR. change (length (enc [])) with 0 in SR. cbn [app Nat.add] in SR.
  replace (length (enc (r ++ a_add a)) - length (enc (a_add a))) with (length (enc r)) by lia.
  rewrite SR. cbn [bindO].
  unfold strip_text in Hst. apply Forall_app in Hw. destruct Hw as [Hr _].
  destruct (a_strip a) as [st|]; [|eauto]. apply concat_spec; [exact L|apply Forall_app; split; assumption|exact HD].
Qed.

(** *** "ss" and "ß" *)
Lemma bytes_find : forall p w, scalars p -> scalars w -> p <> [] ->
  find_sub (enc p) (enc w) = option_map (fun i => length (enc (firstn i w))) (find_sub p w).
Proof.
  intros p w Hp Hw NE. destruct (find_sub p w) as [i|] eqn:E; cbn [option_map].
  - pose proof (find_sub_sound _ _ E) as [EW LI]. destruct (find_sub (enc p) (enc w)) as [j|] eqn:F.
    + f_equal. pose proof (find_sub_sound _ _ F) as [EF LJ].
      destruct (@enc_substring p w _ _ Hp Hw NE EF) as (u & v & Eu & E1 & E2).
      pose proof (@find_sub_first p w i u v E Eu) as M1.
      assert (E3 : enc w = enc (firstn i w) ++ enc p ++ enc (skipn (i + length p) w)) by (rewrite <- !enc_app, <- EW; reflexivity).
      pose proof (@find_sub_first _ _ _ _ _ F E3) as M2.
      assert (J : length (enc u) = j) by (rewrite <- E1, firstn_length; lia).
      assert (M3 : length (enc (firstn i w)) <= length (enc u)); [|lia].
      assert (U : firstn i w = firstn i u).
      { rewrite Eu, firstn_app. replace (i - length u) with 0 by lia. cbn [firstn]. apply app_nil_r. }
      rewrite U. rewrite <- (firstn_skipn i u) at 2. rewrite enc_app, app_length. lia.
    + exfalso. apply (proj1 (find_sub_none _ _) F (enc (firstn i w)) (enc (skipn (i + length p) w))). rewrite <- !enc_app, <- EW. reflexivity.
  - destruct (find_sub (enc p) (enc w)) as [j|] eqn:F; [|reflexivity]. exfalso. apply find_sub_sound in F. destruct F as [F _].
    apply enc_substring in F; try assumption. destruct F as (u & v & F & _). exact (proj1 (find_sub_none _ _) E u v F).
Qed.

Section Sharps.
Variable k : checker.
Variable fuel : nat.
Let check := fun w => check_word k fuel w AllowBadForceucase AcceptHiddenHomonym.

Lemma sharps_spec : forall n pre rest r, scalars (pre ++ rest) ->
  exists buf, b_sharps check n (enc (pre ++ rest)) (length (enc pre)) r = Val (do_spell_sharps k fuel n pre rest r, buf) /\
    (do_spell_sharps k fuel n pre rest r = Ret None -> buf = enc (pre ++ rest)) /\
    (exists w', scalars w' /\ buf = enc w' /\ length buf = length (enc (pre ++ rest))).
Proof.
  assert (S2 : enc ss = ss) by reflexivity. assert (HSS : scalars ss) by (repeat constructor).
  assert (S3 : enc [sharp_s] = [195; 159]%N) by reflexivity. assert (HSH : scalars [sharp_s]) by (repeat constructor).
  assert (LAST : forall w r, scalars w ->
     exists buf, (if (0 <? r)%nat then match dec (enc w) with Some w0 => Val (check w0, enc w) | None => Undefined end else Val (Ret None, enc w)) =
       Val (if (0 <? r)%nat then check_word k fuel w AllowBadForceucase AcceptHiddenHomonym else Ret None, buf) /\
       (True -> buf = enc w) /\ (exists w', scalars w' /\ buf = enc w' /\ length buf = length (enc w))).
  { intros w r Hw. rewrite dec_enc by exact Hw. exists (enc w). destruct (0 <? r)%nat; (split; [reflexivity|]); (split; [reflexivity|]); eauto. }
  induction n as [|n IH]; intros pre rest r Hw.
  all: cbn [b_sharps do_spell_sharps].
  all: pose proof (@str_range_app pre rest []) as SR; rewrite app_nil_r in SR; specialize (SR Hw).
  all: assert (LW : length (enc (pre ++ rest)) = length (enc pre) + length (enc rest)) by (rewrite enc_app; apply app_length).
  all: rewrite LW, SR; cbn [bindO].
  { destruct (LAST (pre ++ rest) r Hw) as (buf & E & B & V). rewrite LW in V. exists buf. rewrite E. split; [reflexivity|]. split; [auto|]. exact V. }
  assert (Hr : scalars rest) by (apply Forall_app in Hw; apply Hw).
  pose proof (@bytes_find ss rest HSS Hr ltac:(discriminate)) as BF. rewrite S2 in BF. rewrite BF.
  destruct (find_sub ss rest) as [i|] eqn:F; cbn [option_map].
  2:{ destruct (LAST (pre ++ rest) r Hw) as (buf & E & B & V). rewrite LW in V. exists buf. rewrite E. split; [reflexivity|]. split; [auto|]. exact V. }
  pose proof (find_sub_sound _ _ F) as [ER _]. set (x := firstn i rest) in *. change (length ss) with 2 in ER. set (y := skipn (i + 2) rest) in *.
  assert (Hxy : scalars x /\ scalars y /\ scalars pre).
  { rewrite ER in Hw. apply Forall_app in Hw. destruct Hw as [H1 H2]. apply Forall_app in H2. destruct H2 as [H2 H3]. apply Forall_app in H3. destruct H3 as [_ H3]. auto. }
  destruct Hxy as (Hx & Hy & Hp).
  assert (EW : enc (pre ++ rest) = enc (pre ++ x) ++ 115%N :: 115%N :: enc y).
  { rewrite ER, !enc_app, S2, <- app_assoc. reflexivity. }
  assert (LI : length (enc pre) + length (enc x) = length (enc (pre ++ x))) by (rewrite enc_app; symmetry; apply app_length).
  rewrite LI, EW. cbv zeta. rewrite set_byte_app. cbn [bindO].
  assert (LJ : forall b, length (enc (pre ++ x)) + 1 = length (enc (pre ++ x) ++ [b])) by (intros b; rewrite app_length; reflexivity).
  assert (AS : forall b l, enc (pre ++ x) ++ b :: l = (enc (pre ++ x) ++ [b]) ++ l) by (intros b l; rewrite <- app_assoc; reflexivity).
  rewrite (AS 195%N), (LJ 195%N), set_byte_app. cbn [bindO].
  assert (E1 : (enc (pre ++ x) ++ [195%N]) ++ 159%N :: enc y = enc ((pre ++ x ++ [sharp_s]) ++ y)).
  { rewrite !enc_app, S3, <- !app_assoc. reflexivity. }
  assert (P1 : length (enc (pre ++ x)) + 2 = length (enc (pre ++ x ++ [sharp_s]))).
  { rewrite !enc_app, !app_length, S3. cbn [length]. lia. }
  rewrite E1, P1.
  destruct (IH (pre ++ x ++ [sharp_s]) y (r + 1)) as (buf & EB & HB & (w' & Hw' & Ew' & Lw')).
  { apply Forall_app. split; [|exact Hy]. apply Forall_app. split; [exact Hp|]. apply Forall_app. split; [exact Hx|exact HSH]. }
  rewrite EB. cbn [bindO fst snd].
  assert (LL : length buf = length (enc (pre ++ x) ++ 115%N :: 115%N :: enc y)).
  { rewrite Lw', <- E1, <- app_assoc, !app_length. reflexivity. }
  assert (LL' : length buf = length (enc pre) + length (enc rest)) by (rewrite <- LW, EW; exact LL).
  destruct (do_spell_sharps k fuel n (pre ++ x ++ [sharp_s]) y (r + 1)) as [[f|]| |] eqn:D.
  { exists buf. split; [reflexivity|]. split; [discriminate|]. exists w'. auto. }
  2:{ exists buf. split; [reflexivity|]. split; [discriminate|]. exists w'. auto. }
  2:{ exists buf. split; [reflexivity|]. split; [discriminate|]. exists w'. auto. }
  specialize (HB eq_refl). rewrite HB, <- E1, <- app_assoc. cbn [app]. rewrite set_byte_app. cbn [bindO].
  rewrite <- (LJ 195%N), (AS 115%N (159%N :: enc y)), (LJ 115%N), set_byte_app. cbn [bindO].
  assert (E2 : (enc (pre ++ x) ++ [115%N]) ++ 115%N :: enc y = enc ((pre ++ x ++ ss) ++ y)).
  { rewrite !enc_app, S2, <- !app_assoc. reflexivity. }
  assert (P2 : length (enc (pre ++ x ++ [sharp_s])) = length (enc (pre ++ x ++ ss))).
  { rewrite !enc_app, !app_length, S2, S3. reflexivity. }
  rewrite E2, P2.
  destruct (IH (pre ++ x ++ ss) y (r + 1)) as (buf2 & EB2 & HB2 & (w2 & Hw2 & Ew2 & Lw2)).
  { apply Forall_app. split; [|exact Hy]. apply Forall_app. split; [exact Hp|]. apply Forall_app. split; [exact Hx|exact HSS]. }
  rewrite EB2. exists buf2. split; [reflexivity|]. split.
  - intros N0. rewrite (HB2 N0), <- E2, <- app_assoc. reflexivity.
  - exists w2. split; [exact Hw2|]. split; [exact Ew2|]. rewrite <- LW, EW, Lw2, <- E2, <- app_assoc. reflexivity.
Qed.
End Sharps.

(** *** Escaped slashes *)
Definition enc_end (e : dic_end) : b_end := match e with DicWord w => BWord (enc w) | DicFlags w f => BFlags (enc w) f end.
Lemma dic_bytes : forall pl dbg input first escaped acc, scalars input -> scalars acc ->
  (escaped = true -> exists acc', acc = ch_bslash :: acc') ->
  exists e, dic_go pl input first escaped acc = Ret e /\ b_dic_go pl dbg input first escaped (enc (rev acc)) = Val (enc_end e) /\
    scalars (match e with DicWord w => w | DicFlags w _ => w end).
Proof.
  intros pl dbg input. induction input as [|c rest IH]; intros first escaped acc Hi Ha HE; pose proof (Forall_rev Ha) as HR; [eexists; split; [reflexivity|]; split; [reflexivity|exact HR]|].
  apply Forall_cons_iff in Hi. destruct Hi as [Hc Hi]. cbn [dic_go b_dic_go].
  destruct ((c =? ch_slash)%N && escaped) eqn:E1.
  - apply andb_prop in E1. destruct E1 as [_ ->]. destruct (HE eq_refl) as (acc' & ->). rewrite N.eqb_refl. cbn [rev].
    assert (EB : forall b, enc (rev acc' ++ [b]) = enc (rev acc') ++ enc1 b) by (intros b; rewrite enc_app; cbn; rewrite app_nil_r; reflexivity).
    rewrite EB. change (enc1 ch_bslash) with [ch_bslash]. destruct (enc (rev acc') ++ [ch_bslash]) as [|b0 l0] eqn:EL; [destruct (enc (rev acc')); discriminate|].
    rewrite <- EL. clear b0 l0 EL. cbv zeta. rewrite app_length. cbn [length]. replace (length (enc (rev acc')) + 1 - 1) with (length (enc (rev acc'))) by lia.
    rewrite app_nth2, Nat.sub_diag by lia. cbn [nth]. rewrite N.eqb_refl. cbn [negb]. rewrite andb_false_r, set_byte_app. cbn [bindO].
    apply Forall_cons_iff in Ha. destruct Ha as [_ Ha].
    change (enc (rev acc') ++ [ch_slash]) with (enc (rev acc') ++ enc1 ch_slash). rewrite <- EB.
    rewrite as_str_enc by (apply Forall_app; split; [apply Forall_rev, Ha|repeat constructor]). cbn [bindO].
    apply (IH false false (ch_slash :: acc')); [exact Hi|constructor; [reflexivity|exact Ha]|discriminate].
  - destruct ((c =? ch_slash)%N && negb first); [eexists; split; [reflexivity|]; split; [reflexivity|exact HR]|].
    destruct (c =? ch_tab)%N; [eexists; split; [reflexivity|]; split; [reflexivity|exact HR]|].
    destruct ((c =? ch_space)%N && is_morph pl rest); [eexists; split; [reflexivity|]; split; [reflexivity|exact HR]|].
    specialize (IH false (c =? ch_bslash)%N (c :: acc) Hi). cbn [rev] in IH. rewrite enc_app in IH. cbn [enc flat_map] in IH.
    rewrite app_nil_r in IH.
    apply IH; [constructor; assumption|]. intros B. apply N.eqb_eq in B. subst c. eauto.
Qed.
