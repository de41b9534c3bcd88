(** UTF-8: encoder, decoder and the facts that let the rest of the model work with
    characters where the Rust code works with byte offsets.

    Models [char::encode_utf8], [char::len_utf8], [str::len], [str::is_char_boundary] and
    [core::str::from_utf8] of the Rust standard library. *)
From Coq Require Import List NArith ZArith Lia Bool Arith.
From Coq Require Import ZifyBool ZifyNat ZifyN.
From Verif Require Import Base.
Import ListNotations.
Local Open Scope N_scope.

Ltac Zify.zify_post_hook ::= Z.to_euclidean_division_equations.

(** Unicode scalar values: the values a Rust [char] can take. *)
Definition scalarb (c : N) : bool := (c <? 0xD800) || ((0xE000 <=? c) && (c <? 0x110000)).
Definition scalar (c : N) : Prop := scalarb c = true.

(** [char::encode_utf8]. *)
Definition enc1 (c : N) : list N :=
  if c <? 0x80 then [c]
  else if c <? 0x800 then [0xC0 + c / 64; 0x80 + c mod 64]
  else if c <? 0x10000 then [0xE0 + c / 4096; 0x80 + (c / 64) mod 64; 0x80 + c mod 64]
  else [0xF0 + c / 262144; 0x80 + (c / 4096) mod 64; 0x80 + (c / 64) mod 64; 0x80 + c mod 64].

(** The bytes of a string ([str::as_bytes]). *)
Definition enc (s : str) : list N := flat_map enc1 s.

(** [char::len_utf8]. *)
Definition len1 (c : N) : N :=
  if c <? 0x80 then 1 else if c <? 0x800 then 2 else if c <? 0x10000 then 3 else 4.

(** [str::len]: length in bytes. *)
Fixpoint blen (s : str) : N :=
  match s with [] => 0 | c :: s' => len1 c + blen s' end.

(** A continuation byte, 10xxxxxx. *)
Definition cont (b : N) : bool := (0x80 <=? b) && (b <? 0xC0).

Lemma len1_enc1 : forall c, N.of_nat (length (enc1 c)) = len1 c.
Proof.
  intro c. unfold enc1, len1.
  destruct (c <? 0x80); [reflexivity|]. destruct (c <? 0x800); [reflexivity|].
  destruct (c <? 0x10000); reflexivity.
Qed.

Lemma blen_enc : forall s, N.of_nat (length (enc s)) = blen s.
Proof.
  induction s as [|c s IH]; [reflexivity|].
  cbn [enc flat_map blen]. rewrite app_length, Nat2N.inj_add, len1_enc1.
  unfold enc in IH. rewrite IH. reflexivity.
Qed.

Lemma enc_app : forall a b, enc (a ++ b) = enc a ++ enc b.
Proof. intros. apply flat_map_app. Qed.

Lemma blen_app : forall a b, blen (a ++ b) = blen a + blen b.
Proof.
  induction a as [|c a IH]; intro b; [reflexivity|].
  cbn [app blen]. rewrite IH. lia.
Qed.

Lemma len1_pos : forall c, 1 <= len1 c <= 4.
Proof.
  intro c. unfold len1.
  destruct (c <? 0x80); [lia|]. destruct (c <? 0x800); [lia|]. destruct (c <? 0x10000); lia.
Qed.

Lemma blen_length : forall s, N.of_nat (length s) <= blen s.
Proof.
  induction s as [|c s IH]; [simpl; lia|].
  cbn [length blen]. pose proof (len1_pos c). lia.
Qed.

Lemma blen_nil : forall s, blen s = 0 <-> s = [].
Proof.
  intros [|c s]; [tauto|]. cbn [blen]. pose proof (len1_pos c). split; [lia|discriminate].
Qed.

(** Shape of an encoded character: one lead byte, then continuation bytes. *)
Lemma enc1_shape : forall c, scalar c -> exists h t,
  enc1 c = h :: t /\ cont h = false /\ Forall (fun b => cont b = true) t.
Proof.
  intros c Hc. unfold scalar, scalarb in Hc. unfold enc1, cont.
  destruct (c <? 0x80) eqn:E1;
    [|destruct (c <? 0x800) eqn:E2; [|destruct (c <? 0x10000) eqn:E3]];
  eexists; eexists; (split; [reflexivity|]); split;
  repeat (apply Forall_cons; [|]); try apply Forall_nil; cbv beta; lia.
Qed.

Lemma enc1_bytes : forall c, scalar c -> Forall (fun b => b < 256) (enc1 c).
Proof.
  intros c Hc. unfold scalar, scalarb in Hc. unfold enc1.
  destruct (c <? 0x80) eqn:E1;
    [|destruct (c <? 0x800) eqn:E2; [|destruct (c <? 0x10000) eqn:E3]];
  repeat (apply Forall_cons; [|]); try apply Forall_nil; cbv beta; lia.
Qed.

(** Reading one character ([core::str::from_utf8] restricted to the first character):
    rejects stray continuation bytes, overlong forms, surrogates and values above 10FFFF. *)
Definition dec1 (bs : list N) : option (N * list N) :=
  match bs with
  | [] => None
  | b0 :: r0 =>
      if b0 <? 0x80 then Some (b0, r0)
      else if b0 <? 0xC2 then None
      else if b0 <? 0xE0 then
        match r0 with
        | b1 :: r1 =>
            if cont b1 then Some ((b0 - 0xC0) * 64 + (b1 - 0x80), r1) else None
        | _ => None
        end
      else if b0 <? 0xF0 then
        match r0 with
        | b1 :: b2 :: r2 =>
            let c := (b0 - 0xE0) * 4096 + (b1 - 0x80) * 64 + (b2 - 0x80) in
            if cont b1 && cont b2 && (0x800 <=? c) && scalarb c then Some (c, r2) else None
        | _ => None
        end
      else if b0 <? 0xF5 then
        match r0 with
        | b1 :: b2 :: b3 :: r3 =>
            let c := (b0 - 0xF0) * 262144 + (b1 - 0x80) * 4096 + (b2 - 0x80) * 64 + (b3 - 0x80) in
            if cont b1 && cont b2 && cont b3 && (0x10000 <=? c) && scalarb c
            then Some (c, r3) else None
        | _ => None
        end
      else None
  end.

Lemma dec1_enc1 : forall c r, scalar c -> dec1 (enc1 c ++ r) = Some (c, r).
Proof.
  intros c r Hc. pose proof Hc as Hs. unfold scalar, scalarb in Hc. unfold enc1.
  destruct (c <? 0x80) eqn:E1.
  { cbn [app dec1]. rewrite E1. reflexivity. }
  destruct (c <? 0x800) eqn:E2.
  { cbn [app dec1]. 
    replace (0xC0 + c / 64 <? 0x80) with false by lia.
    replace (0xC0 + c / 64 <? 0xC2) with false by lia.
    replace (0xC0 + c / 64 <? 0xE0) with true by lia.
    replace (cont (0x80 + c mod 64)) with true by (unfold cont; lia).
    f_equal. f_equal. lia. }
  destruct (c <? 0x10000) eqn:E3.
  { cbn [app dec1].
    replace (0xE0 + c / 4096 <? 0x80) with false by lia.
    replace (0xE0 + c / 4096 <? 0xC2) with false by lia.
    replace (0xE0 + c / 4096 <? 0xE0) with false by lia.
    replace (0xE0 + c / 4096 <? 0xF0) with true by lia.
    cbv zeta.
    replace ((0xE0 + c / 4096 - 0xE0) * 4096 + (0x80 + (c / 64) mod 64 - 0x80) * 64 + (0x80 + c mod 64 - 0x80)) with c by lia.
    rewrite Hs.
    replace (cont (0x80 + (c / 64) mod 64)) with true by (unfold cont; lia).
    replace (cont (0x80 + c mod 64)) with true by (unfold cont; lia).
    replace (0x800 <=? c) with true by lia. reflexivity. }
  cbn [app dec1].
  replace (0xF0 + c / 262144 <? 0x80) with false by lia.
  replace (0xF0 + c / 262144 <? 0xC2) with false by lia.
  replace (0xF0 + c / 262144 <? 0xE0) with false by lia.
  replace (0xF0 + c / 262144 <? 0xF0) with false by lia.
  replace (0xF0 + c / 262144 <? 0xF5) with true by lia.
  cbv zeta.
  replace ((0xF0 + c / 262144 - 0xF0) * 262144 + (0x80 + (c / 4096) mod 64 - 0x80) * 4096 + (0x80 + (c / 64) mod 64 - 0x80) * 64 + (0x80 + c mod 64 - 0x80)) with c by lia.
  rewrite Hs.
  replace (cont (0x80 + (c / 4096) mod 64)) with true by (unfold cont; lia).
  replace (cont (0x80 + (c / 64) mod 64)) with true by (unfold cont; lia).
  replace (cont (0x80 + c mod 64)) with true by (unfold cont; lia).
  replace (0x10000 <=? c) with true by lia. reflexivity.
Qed.

Lemma dec1_sound : forall bs c r, dec1 bs = Some (c, r) -> bs = enc1 c ++ r /\ scalar c.
Proof.
  intros bs c r H. destruct bs as [|b0 r0]; [discriminate|]. cbn [dec1] in H.
  destruct (b0 <? 0x80) eqn:E1.
  { injection H as <- <-. unfold enc1, scalar, scalarb. rewrite E1. split; [reflexivity|lia]. }
  destruct (b0 <? 0xC2) eqn:E2; [discriminate|].
  destruct (b0 <? 0xE0) eqn:E3.
  { destruct r0 as [|b1 r1]; [discriminate|].
    destruct (cont b1) eqn:C1; [|discriminate]. injection H as <- <-.
    unfold cont in C1. split; [|unfold scalar, scalarb; lia].
    unfold enc1.
    replace ((b0 - 192) * 64 + (b1 - 128) <? 128) with false by lia.
    replace ((b0 - 192) * 64 + (b1 - 128) <? 2048) with true by lia.
    cbn [app]. repeat f_equal; lia. }
  destruct (b0 <? 0xF0) eqn:E4.
  { destruct r0 as [|b1 [|b2 r2]]; try discriminate. cbv zeta in H.
    set (cc := (b0 - 224) * 4096 + (b1 - 128) * 64 + (b2 - 128)) in *.
    destruct (cont b1 && cont b2 && (2048 <=? cc) && scalarb cc) eqn:C; [|discriminate].
    apply andb_true_iff in C. destruct C as [C Hs].
    injection H as <- <-. unfold cont in C. split; [|exact Hs].
    unfold enc1. unfold scalarb in Hs. subst cc.
    set (cc := (b0 - 224) * 4096 + (b1 - 128) * 64 + (b2 - 128)) in *.
    replace (cc <? 128) with false by lia.
    replace (cc <? 2048) with false by lia.
    replace (cc <? 65536) with true by lia.
    cbn [app]. subst cc. repeat f_equal; lia. }
  destruct (b0 <? 0xF5) eqn:E5; [|discriminate].
  destruct r0 as [|b1 [|b2 [|b3 r3]]]; try discriminate. cbv zeta in H.
  set (cc := (b0 - 240) * 262144 + (b1 - 128) * 4096 + (b2 - 128) * 64 + (b3 - 128)) in *.
  destruct (cont b1 && cont b2 && cont b3 && (65536 <=? cc) && scalarb cc) eqn:C; [|discriminate].
  apply andb_true_iff in C. destruct C as [C Hs].
  injection H as <- <-. unfold cont in C. split; [|exact Hs].
  unfold enc1. unfold scalarb in Hs.
  replace (cc <? 128) with false by lia.
  replace (cc <? 2048) with false by lia.
  replace (cc <? 65536) with false by lia.
  cbn [app]. subst cc. repeat f_equal; lia.
Qed.

(** Whole-string decoder; [None] = invalid UTF-8. *)
Fixpoint dec_fuel (n : nat) (bs : list N) : option str :=
  match bs with
  | [] => Some []
  | _ :: _ =>
      match n with
      | O => None
      | S n' =>
          match dec1 bs with
          | Some (c, r) => option_map (cons c) (dec_fuel n' r)
          | None => None
          end
      end
  end.
Definition dec (bs : list N) : option str := dec_fuel (length bs) bs.

Definition scalars (s : str) : Prop := Forall scalar s.

(** Validity of a byte buffer as UTF-8: what [str]'s safety invariant requires. *)
Definition valid_utf8 (bs : list N) : Prop := exists s, scalars s /\ bs = enc s.

Lemma enc1_nonempty : forall c, (0 < length (enc1 c))%nat.
Proof.
  intro c. pose proof (len1_enc1 c). pose proof (len1_pos c). lia.
Qed.

Lemma dec_fuel_enc : forall s n, scalars s -> (length (enc s) <= n)%nat ->
  dec_fuel n (enc s) = Some s.
Proof.
  induction s as [|c s IH]; intros n Hs Hn; [destruct n; reflexivity|].
  inversion Hs as [|? ? Hc Hs']; subst. cbn [enc flat_map] in *.
  pose proof (enc1_nonempty c) as Hne.
  destruct (enc1 c ++ flat_map enc1 s) as [|b bs] eqn:E.
  { apply app_eq_nil in E. destruct E as [E _]. rewrite E in Hne. simpl in Hne. lia. }
  destruct n as [|n]; [simpl in Hn; lia|].
  cbn [dec_fuel]. rewrite <- E, dec1_enc1 by exact Hc.
  fold (enc s). rewrite IH; [reflexivity|exact Hs'|].
  assert (length (enc1 c ++ flat_map enc1 s) = length (b :: bs)) as HL by (rewrite E; reflexivity).
  rewrite app_length in HL. unfold enc. simpl in *. lia.
Qed.

Lemma dec_enc : forall s, scalars s -> dec (enc s) = Some s.
Proof. intros s Hs. apply dec_fuel_enc; [exact Hs|lia]. Qed.

Lemma dec_fuel_sound : forall n bs s, dec_fuel n bs = Some s -> bs = enc s /\ scalars s.
Proof.
  induction n as [|n IH]; intros bs s H; destruct bs as [|b bs]; cbn [dec_fuel] in H;
    try discriminate; try (injection H as <-; split; [reflexivity|constructor]).
  destruct (dec1 (b :: bs)) as [[c r]|] eqn:E; [|discriminate].
  destruct (dec_fuel n r) as [s'|] eqn:F; [|discriminate]. simpl in H. injection H as <-.
  apply dec1_sound in E. destruct E as [E Hc]. apply IH in F. destruct F as [F Hs].
  split; [|constructor; assumption]. cbn [enc flat_map]. fold (enc s'). rewrite <- F. exact E.
Qed.

Theorem dec_spec : forall bs s, dec bs = Some s <-> (bs = enc s /\ scalars s).
Proof.
  intros bs s. split.
  - apply dec_fuel_sound.
  - intros [-> Hs]. apply dec_enc. exact Hs.
Qed.

Lemma dec_valid : forall bs, valid_utf8 bs <-> exists s, dec bs = Some s.
Proof.
  intro bs. unfold valid_utf8. split.
  - intros [s [H1 H2]]. exists s. apply dec_spec. auto.
  - intros [s H]. apply dec_spec in H. exists s. tauto.
Qed.

Theorem enc_inj : forall a b, scalars a -> scalars b -> enc a = enc b -> a = b.
Proof.
  intros a b Ha Hb H. pose proof (dec_enc a Ha) as E1. pose proof (dec_enc b Hb) as E2.
  rewrite H in E1. congruence.
Qed.

(** Prefix-freeness. *)
Lemma enc1_split : forall c d x y, scalar c -> scalar d ->
  enc1 c ++ x = enc1 d ++ y -> c = d /\ x = y.
Proof.
  intros c d x y Hc Hd H.
  pose proof (dec1_enc1 c x Hc) as E1. pose proof (dec1_enc1 d y Hd) as E2.
  rewrite H in E1. rewrite E1 in E2. injection E2 as -> ->. auto.
Qed.

(** A byte prefix that is itself an encoded string is a character prefix. *)
Theorem enc_prefix : forall p w y, scalars p -> scalars w ->
  enc w = enc p ++ y -> exists r, w = p ++ r /\ y = enc r.
Proof.
  induction p as [|c p IH]; intros w y Hp Hw H.
  - exists w. split; [reflexivity|]. simpl in H. congruence.
  - inversion Hp as [|? ? Hc Hp']; subst. cbn [enc flat_map] in H.
    destruct w as [|d w].
    + exfalso. pose proof (enc1_nonempty c) as Hne.
      apply (f_equal (@length N)) in H. rewrite !app_length in H. simpl in H. lia.
    + inversion Hw as [|? ? Hd Hw']; subst. cbn [enc flat_map] in H.
      rewrite <- app_assoc in H.
      apply enc1_split in H; [|assumption|assumption]. destruct H as [-> H].
      destruct (IH w y Hp' Hw' H) as [r [-> ->]]. exists r. split; reflexivity.
Qed.

(** Position [k] is a character boundary ([str::is_char_boundary]). *)
Definition boundary (bs : list N) (k : nat) : bool :=
  (k =? 0)%nat || (k =? length bs)%nat ||
  match nth_error bs k with Some b => negb (cont b) | None => false end.

Lemma cont_not_lead : forall w b y, scalars w -> enc w = b :: y -> cont b = false.
Proof.
  intros [|c w] b y Hw H; [discriminate|].
  inversion Hw as [|? ? Hc Hw']; subst. destruct (enc1_shape c Hc) as [h [t [E [Hh _]]]].
  cbn [enc flat_map] in H. rewrite E in H. injection H as <- _. exact Hh.
Qed.

(** If the bytes after the cut start with a non-continuation byte (or nothing is left)
    the cut is between two characters. *)
Theorem enc_cut : forall w x y, scalars w -> enc w = x ++ y ->
  (y = [] \/ exists b y', y = b :: y' /\ cont b = false) ->
  exists u v, w = u ++ v /\ x = enc u /\ y = enc v.
Proof.
  induction w as [|c w IH]; intros x y Hw H Hy.
  - simpl in H. symmetry in H. apply app_eq_nil in H. destruct H as [-> ->].
    exists [], []. auto.
  - inversion Hw as [|? ? Hc Hw']; subst. cbn [enc flat_map] in H. fold (enc w) in H.
    destruct x as [|b x].
    { simpl in H. exists [], (c :: w). simpl. auto. }
    destruct (enc1_shape c Hc) as [h [t [E [Hh Ht]]]].
    (* compare lengths of enc1 c and b::x *)
    destruct (Nat.le_gt_cases (length (enc1 c)) (length (b :: x))) as [Hle|Hgt].
    + assert (Hx : b :: x = enc1 c ++ skipn (length (enc1 c)) (b :: x)).
      { rewrite <- (firstn_skipn (length (enc1 c)) (b :: x)) at 1. f_equal.
        assert (firstn (length (enc1 c)) (enc1 c ++ enc w) = firstn (length (enc1 c)) ((b :: x) ++ y)) as F
            by (rewrite H; reflexivity).
        rewrite !firstn_app, Nat.sub_diag, firstn_all in F. simpl (firstn 0 _) in F.
        replace (length (enc1 c) - length (b :: x))%nat with 0%nat in F by lia.
        simpl (firstn 0 _) in F. rewrite !app_nil_r in F. symmetry. exact F. }
      rewrite Hx, <- app_assoc in H. apply app_inv_head in H.
      destruct (IH _ _ Hw' H Hy) as [u [v [-> [Hu Hv]]]].
      exists (c :: u), v. split; [reflexivity|]. split; [|exact Hv].
      rewrite Hx, Hu. reflexivity.
    + exfalso. destruct Hy as [->|[b' [y' [-> Hb']]]].
      * rewrite app_nil_r in H. rewrite <- H, app_length in Hgt. lia.
      * assert (nth_error (enc1 c ++ enc w) (length (b :: x)) = Some b') as N1.
        { rewrite H, nth_error_app2, Nat.sub_diag by lia. reflexivity. }
        rewrite nth_error_app1 in N1 by exact Hgt. rewrite E in N1. simpl in N1.
        apply nth_error_In in N1. rewrite Forall_forall in Ht. apply Ht in N1. congruence.
Qed.

Theorem boundary_spec : forall w k, scalars w -> (k <= length (enc w))%nat ->
  (boundary (enc w) k = true <-> exists u v, w = u ++ v /\ k = length (enc u)).
Proof.
  intros w k Hw Hk. unfold boundary. split.
  - intro H.
    assert (exists u v, w = u ++ v /\ firstn k (enc w) = enc u /\ skipn k (enc w) = enc v) as G.
    { apply enc_cut; [exact Hw|symmetry; apply firstn_skipn|].
      apply orb_true_iff in H. destruct H as [H|H].
      - apply orb_true_iff in H. destruct H as [H|H]; apply Nat.eqb_eq in H; subst k.
        + simpl. destruct (enc w) as [|b y] eqn:E; [auto|]. right. exists b, y. split; [reflexivity|].
          eapply cont_not_lead; eauto.
        + left. apply skipn_all.
      - destruct (nth_error (enc w) k) as [b|] eqn:E; [|discriminate].
        right. exists b, (skipn (S k) (enc w)). split; [apply skipn_nth_error; exact E|].
        apply negb_true_iff. exact H. }
    destruct G as [u [v [Huv [H1 H2]]]]. exists u, v. split; [exact Huv|].
    rewrite <- H1, firstn_length. lia.
  - intros [u [v [-> ->]]]. apply Forall_app in Hw. destruct Hw as [Hu Hv].
    rewrite enc_app. destruct v as [|c v].
    + simpl. rewrite app_nil_r, Nat.eqb_refl. rewrite orb_true_r. reflexivity.
    + inversion Hv as [|? ? Hc _]; subst. destruct (enc1_shape c Hc) as [h [t [E [Hh _]]]].
      cbn [enc flat_map]. rewrite nth_error_app2, Nat.sub_diag, E by lia. simpl.
      rewrite Hh. simpl. apply orb_true_r.
Qed.

(** A byte suffix that is itself an encoded string is a character suffix. *)
Theorem enc_suffix : forall p w x, scalars p -> scalars w ->
  enc w = x ++ enc p -> exists r, w = r ++ p /\ x = enc r.
Proof.
  intros p w x Hp Hw H.
  destruct (enc_cut w x (enc p) Hw H) as [u [v [E1 [E2 E3]]]].
  { destruct (enc p) as [|b y] eqn:E; [auto|]. right. exists b, y. split; [reflexivity|].
    exact (cont_not_lead p b y Hp E). }
  subst w. apply Forall_app in Hw. destruct Hw as [Hu Hv].
  apply enc_inj in E3; [|assumption|assumption]. subst v. eauto.
Qed.

(** A byte occurrence of a non-empty encoded string is a character occurrence. *)
Theorem enc_substring : forall p w x y, scalars p -> scalars w -> p <> [] ->
  enc w = x ++ enc p ++ y -> exists u v, w = u ++ p ++ v /\ x = enc u /\ y = enc v.
Proof.
  intros p w x y Hp Hw Hne H.
  destruct (enc_cut w x (enc p ++ y) Hw H) as [u [v [E1 [E2 E3]]]].
  { right. destruct p as [|c p]; [congruence|]. inversion Hp as [|? ? Hc _]; subst.
    destruct (enc1_shape c Hc) as [h [t [E [Hh _]]]].
    exists h, (t ++ enc p ++ y). split; [|exact Hh]. cbn [enc flat_map]. rewrite E, <- app_assoc. reflexivity. }
  subst w. apply Forall_app in Hw. destruct Hw as [Hu Hv]. symmetry in E3.
  apply enc_prefix in E3; [|assumption|assumption]. destruct E3 as [r [-> ->]]. eauto.
Qed.

(** Byte-level tests agree with character-level tests. *)
Corollary bytes_starts_with : forall p w, scalars p -> scalars w ->
  starts_with (enc p) (enc w) = starts_with p w.
Proof.
  intros p w Hp Hw. apply eq_true_iff_eq. rewrite !starts_with_spec. split.
  - intros [y H]. apply enc_prefix in H; [|assumption|assumption].
    destruct H as [r [-> _]]. eauto.
  - intros [r ->]. rewrite enc_app. eauto.
Qed.

Corollary bytes_ends_with : forall p w, scalars p -> scalars w ->
  ends_with (enc p) (enc w) = ends_with p w.
Proof.
  intros p w Hp Hw. apply eq_true_iff_eq. rewrite !ends_with_spec. split.
  - intros [y H]. apply enc_suffix in H; [|assumption|assumption].
    destruct H as [r [-> _]]. eauto.
  - intros [r ->]. rewrite enc_app. eauto.
Qed.

Corollary bytes_eqb : forall a b, scalars a -> scalars b ->
  str_eqb (enc a) (enc b) = str_eqb a b.
Proof.
  intros a b Ha Hb. apply eq_true_iff_eq. rewrite !str_eqb_eq. split.
  - apply enc_inj; assumption.
  - intros ->. reflexivity.
Qed.

Lemma enc1_ascii : forall c, c < 128 -> enc1 c = [c].
Proof. intros c H. unfold enc1. replace (c <? 0x80) with true by lia. reflexivity. Qed.
