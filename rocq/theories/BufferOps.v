(** The unsafe in-place edits of suggester.rs on the bytes of a [String]. *)
From Coq Require Import List NArith ZArith Lia Bool Arith Permutation.
From Coq Require Import ZifyBool ZifyNat ZifyN.
From Verif Require Import Base Utf8.
Import ListNotations.
Set Implicit Arguments.

(** [char::len_utf8]. *)
Definition clen (c : N) : nat := length (enc1 c).

(** [&mut bytes[a..b]] handed to [f], which keeps the length: panics out of range. *)
Definition on_slice (a b : nat) (f : list N -> Res (list N)) (bytes : list N) : Res (list N) :=
  if (a <=? b)%nat && (b <=? length bytes)%nat then
    r <- f (slice bytes a b) ;; Ret (firstn a bytes ++ r ++ skipn b bytes)
  else Panic.
(** [char::encode_utf8] into a slice: panics when the slice is too short. *)
Definition encode_into (c : N) (dst : list N) : Res (list N) :=
  if (clen c <=? length dst)%nat then Ret (enc1 c ++ skipn (clen c) dst) else Panic.
(** [slice::rotate_left] and [slice::rotate_right]: panic when [k] exceeds the length. *)
Definition rotate_left (k : nat) (l : list N) : Res (list N) :=
  if (k <=? length l)%nat then Ret (skipn k l ++ firstn k l) else Panic.
Definition rotate_right (k : nat) (l : list N) : Res (list N) :=
  if (k <=? length l)%nat then Ret (skipn (length l - k) l ++ firstn (length l - k) l) else Panic.

(** [debug_assert!]: [dbg] says whether the build has debug assertions. *)
Definition debug_assert {A} (dbg b : bool) (k : Res A) : Res A := if dbg && negb b then Panic else k.

(** [string[idx..].chars().next() == Some(ch)] and [.nth(1)]: [None] where slicing panics. *)
Definition char_at (bytes : list N) (idx : nat) : option N :=
  match dec (skipn idx bytes) with Some (c :: _) => Some c | _ => None end.
Definition char_after (bytes : list N) (idx : nat) : option N :=
  match dec (skipn idx bytes) with Some (_ :: c :: _) => Some c | _ => None end.
Definition is_char (o : option N) (c : N) : bool := match o with Some x => (x =? c)%N | None => false end.

(** suggester.rs 1036-1058.  The buffer and the returned index. *)
Definition swap_adjacent_chars (dbg : bool) (bytes : list N) (idx1 : nat) (ch1 ch2 : N) : Res (list N * nat) :=
  debug_assert dbg (is_char (char_at bytes idx1) ch1)
  (debug_assert dbg (is_char (char_after bytes idx1) ch2)
  (let new_idx2 := idx1 + clen ch2 in
   let end_ := new_idx2 + clen ch1 in
   b1 <- on_slice idx1 new_idx2 (encode_into ch2) bytes ;;
   b2 <- on_slice new_idx2 end_ (encode_into ch1) b1 ;;
   Ret (b2, new_idx2))).

(** suggester.rs 1070-1136.  [ptr::swap_nonoverlapping] on two ranges of [len1] bytes. *)
Definition swap_ranges (i j n : nat) (bytes : list N) : Res (list N) :=
  if ((i + n <=? j) && (j + n <=? length bytes) || (j + n <=? i) && (i + n <=? length bytes))%nat then
    let a := Nat.min i j in
    let b := Nat.max i j in
    Ret (firstn a bytes ++ slice bytes b (b + n) ++ slice bytes (a + n) b ++
         slice bytes a (a + n) ++ skipn (b + n) bytes)
  else Panic.
Definition swap_distant_chars (dbg : bool) (bytes : list N) (idx1 : nat) (ch1 : N) (idx2 : nat) (ch2 : N)
  : Res (list N * nat) :=
  debug_assert dbg (negb (idx1 =? idx2)%nat)
  (let len1 := clen ch1 in
   let len2 := clen ch2 in
   let end_ := idx2 + len2 in
   if (len1 =? len2)%nat then
     b <- swap_ranges idx1 idx2 len1 bytes ;; Ret (b, idx2)
   else if (len1 <? len2)%nat then
     let rotation := len2 - len1 in
     b1 <- on_slice idx1 end_ (rotate_right rotation) bytes ;;
     let new_idx2 := idx2 + rotation in
     b2 <- on_slice idx1 (idx1 + len2) (encode_into ch2) b1 ;;
     b3 <- on_slice new_idx2 (new_idx2 + len1) (encode_into ch1) b2 ;;
     Ret (b3, new_idx2)
   else
     let rotation := len1 - len2 in
     b1 <- on_slice idx1 end_ (rotate_left rotation) bytes ;;
     let new_idx2 := idx2 - rotation in
     b2 <- on_slice idx1 (idx1 + len2) (encode_into ch2) b1 ;;
     b3 <- on_slice new_idx2 (new_idx2 + len1) (encode_into ch1) b2 ;;
     Ret (b3, new_idx2)).

(** suggester.rs 1141-1198. *)
Definition replace_char_at (dbg : bool) (bytes : list N) (idx : nat) (ch1 ch2 : N) : Res (list N) :=
  debug_assert dbg (idx <? length bytes)%nat
  (debug_assert dbg (is_char (char_at bytes idx) ch1)
  (let len1 := clen ch1 in
   let len2 := clen ch2 in
   r <- (if (len1 =? len2)%nat then on_slice idx (length bytes) (encode_into ch2) bytes
         else if (len1 <? len2)%nat then
           let difference := len2 - len1 in
           let grown := bytes ++ repeat 0%N difference in
           b1 <- on_slice idx (length grown) (rotate_right difference) grown ;;
           b2 <- on_slice idx (length grown) (encode_into ch2) b1 ;;
           debug_assert dbg (is_someb (dec b2)) (Ret b2)
         else
           let difference := len1 - len2 in
           b1 <- on_slice idx (length bytes) (rotate_left difference) bytes ;;
           b2 <- on_slice idx (length bytes) (encode_into ch2) b1 ;;
           let b3 := firstn (length bytes - difference) b2 in
           debug_assert dbg (is_someb (dec b3)) (Ret b3)) ;;
   debug_assert dbg (is_char (char_at r idx) ch2) (Ret r))).

(** ** Correctness: on the encoding of a string every edit is the character-level edit. *)
Lemma clen_len1 : forall c, N.of_nat (clen c) = len1 c.
Proof. intro c. apply len1_enc1. Qed.
Lemma clen_pos : forall c, 1 <= clen c <= 4.
Proof. intro c. pose proof (len1_pos c). pose proof (clen_len1 c). lia. Qed.
Lemma enc_cons : forall c s, enc (c :: s) = enc1 c ++ enc s.
Proof. reflexivity. Qed.

Lemma on_slice_app : forall a b c f r, f b = Ret r ->
  on_slice (length a) (length a + length b) f (a ++ b ++ c) = Ret (a ++ r ++ c).
Proof.
  intros a b c f r H. unfold on_slice, slice. rewrite !app_length.
  replace ((_ <=? _) && (_ <=? _))%nat with true by lia.
  rewrite skipn_app_exact by reflexivity. replace (length a + length b - length a) with (length b) by lia.
  rewrite firstn_app_exact by reflexivity. rewrite H. cbn [bindR].
  rewrite firstn_app_exact by reflexivity. rewrite (app_assoc a b c). rewrite (@skipn_app_exact _ (a ++ b)) by (rewrite app_length; reflexivity). reflexivity.
Qed.
Lemma encode_exact : forall c dst, length dst = clen c -> encode_into c dst = Ret (enc1 c).
Proof.
  intros c dst H. unfold encode_into. replace (_ <=? _)%nat with true by lia.
  rewrite skipn_all2 by lia. rewrite app_nil_r. reflexivity.
Qed.
Lemma encode_prefix : forall c a r, length a = clen c -> encode_into c (a ++ r) = Ret (enc1 c ++ r).
Proof.
  intros c a r H. unfold encode_into. rewrite app_length. replace (_ <=? _)%nat with true by lia.
  rewrite skipn_app_exact by (symmetry; exact H). reflexivity.
Qed.
Lemma rotate_left_app : forall a b, rotate_left (length a) (a ++ b) = Ret (b ++ a).
Proof.
  intros a b. unfold rotate_left. rewrite app_length. replace (_ <=? _)%nat with true by lia.
  rewrite skipn_app_exact, firstn_app_exact by reflexivity. reflexivity.
Qed.
Lemma rotate_right_app : forall a b, rotate_right (length b) (a ++ b) = Ret (b ++ a).
Proof.
  intros a b. unfold rotate_right. rewrite app_length. replace (_ <=? _)%nat with true by lia.
  replace (length a + length b - length b) with (length a) by lia.
  rewrite skipn_app_exact, firstn_app_exact by reflexivity. reflexivity.
Qed.

Lemma char_at_enc : forall u c v, scalars (c :: v) -> char_at (enc (u ++ c :: v)) (length (enc u)) = Some c.
Proof.
  intros u c v H. unfold char_at. rewrite enc_app, skipn_app_exact by reflexivity. rewrite dec_enc by exact H. reflexivity.
Qed.
Lemma char_after_enc : forall u c e v, scalars (c :: e :: v) -> char_after (enc (u ++ c :: e :: v)) (length (enc u)) = Some e.
Proof.
  intros u c e v H. unfold char_after. rewrite enc_app, skipn_app_exact by reflexivity. rewrite dec_enc by exact H. reflexivity.
Qed.
Lemma is_char_refl : forall c, is_char (Some c) c = true.
Proof. intro c. cbn. apply N.eqb_refl. Qed.
Lemma debug_assert_true : forall A dbg (k : Res A), debug_assert dbg true k = k.
Proof. intros A [|] k; reflexivity. Qed.

Lemma swap_adjacent_spec : forall dbg u a b v, scalars (u ++ a :: b :: v) ->
  swap_adjacent_chars dbg (enc (u ++ a :: b :: v)) (length (enc u)) a b =
    Ret (enc (u ++ b :: a :: v), length (enc (u ++ [b]))).
Proof.
  intros dbg u a b v H. unfold swap_adjacent_chars.
  apply Forall_app in H. destruct H as [_ H].
  rewrite char_at_enc, char_after_enc by exact H. rewrite !is_char_refl, !debug_assert_true.
  rewrite !enc_app, !enc_cons. unfold clen.
  assert (exists x y, enc1 a ++ enc1 b = x ++ y /\ length x = clen b /\ length y = clen a) as (x & y & E & Lx & Ly).
  { exists (firstn (clen b) (enc1 a ++ enc1 b)), (skipn (clen b) (enc1 a ++ enc1 b)).
    rewrite firstn_skipn, firstn_length, skipn_length, app_length. unfold clen. repeat split; lia. }
  unfold clen in Lx, Ly.
  replace (enc u ++ enc1 a ++ enc1 b ++ enc v) with (enc u ++ x ++ (y ++ enc v)) by (rewrite (app_assoc x), <- E, <- !app_assoc; reflexivity).
  rewrite <- Lx at 1. rewrite (@on_slice_app (enc u) x (y ++ enc v) _ (enc1 b)) by (apply encode_exact; exact Lx). cbn [bindR].
  replace (enc u ++ enc1 b ++ y ++ enc v) with ((enc u ++ enc1 b) ++ y ++ enc v) by (rewrite <- app_assoc; reflexivity).
  replace (length (enc u) + length (enc1 b)) with (length (enc u ++ enc1 b)) by (rewrite app_length; reflexivity).
  rewrite <- Ly at 1. rewrite (@on_slice_app (enc u ++ enc1 b) y (enc v) _ (enc1 a)) by (apply encode_exact; exact Ly). cbn [bindR].
  rewrite <- !app_assoc. cbn [enc flat_map]. rewrite app_nil_r. reflexivity.
Qed.

Lemma swap_ranges_spec : forall p x m y q, length x = length y ->
  swap_ranges (length p) (length p + length x + length m) (length x) (p ++ x ++ m ++ y ++ q) =
    Ret (p ++ y ++ m ++ x ++ q).
Proof.
  intros p x m y q H. unfold swap_ranges. rewrite !app_length.
  replace (_ || _)%bool with true by lia.
  rewrite Nat.min_l, Nat.max_r by lia. unfold slice. f_equal.
  rewrite firstn_app_exact by reflexivity. f_equal.
  replace (skipn (length p + length x + length m) (p ++ x ++ m ++ y ++ q)) with (y ++ q)
    by (rewrite !app_assoc, <- (app_assoc _ y q), skipn_app_exact by (rewrite !app_length; lia); reflexivity).
  replace (length p + length x + length m + length x - (length p + length x + length m)) with (length y) by lia.
  rewrite firstn_app_exact by reflexivity. f_equal.
  replace (skipn (length p + length x) (p ++ x ++ m ++ y ++ q)) with (m ++ y ++ q)
    by (rewrite (app_assoc p), skipn_app_exact by (rewrite !app_length; lia); reflexivity).
  replace (length p + length x + length m - (length p + length x)) with (length m) by lia.
  rewrite firstn_app_exact by reflexivity. f_equal.
  rewrite skipn_app_exact by reflexivity.
  replace (length p + length x - length p) with (length x) by lia.
  rewrite firstn_app_exact by reflexivity. f_equal.
  rewrite !app_assoc, <- (app_assoc _ y q).
  replace (((p ++ x) ++ m) ++ y ++ q) with ((((p ++ x) ++ m) ++ y) ++ q) by (rewrite <- !app_assoc; reflexivity).
  rewrite skipn_app_exact by (rewrite !app_length; lia). reflexivity.
Qed.

Lemma swap_distant_spec : forall dbg u a m b v,
  swap_distant_chars dbg (enc (u ++ a :: m ++ b :: v)) (length (enc u)) a (length (enc (u ++ a :: m))) b =
    Ret (enc (u ++ b :: m ++ a :: v), length (enc (u ++ b :: m))).
Proof.
  intros dbg u a m b v. unfold swap_distant_chars.
  pose proof (clen_pos a) as Pa. pose proof (clen_pos b) as Pb.
  rewrite !enc_app, !enc_cons, !enc_app, !enc_cons. rewrite !app_length. fold (clen a). fold (clen b).
  replace (negb (_ =? _)%nat) with true by lia. rewrite debug_assert_true.
  destruct (Nat.eqb_spec (clen a) (clen b)) as [E|E].
  { unfold clen in *. rewrite Nat.add_assoc.
    rewrite (@swap_ranges_spec (enc u) (enc1 a) (enc m) (enc1 b) (enc v) E). cbn [bindR]. rewrite E, <- Nat.add_assoc. reflexivity. }
  destruct (Nat.ltb_spec (clen a) (clen b)) as [L|L].
  - set (r := clen b - clen a).
    assert (exists x y, enc1 b = x ++ y /\ length x = clen a /\ length y = r) as (x & y & Eb & Lx & Ly).
    { exists (firstn (clen a) (enc1 b)), (skipn (clen a) (enc1 b)).
      rewrite firstn_skipn, firstn_length, skipn_length. fold (clen b). unfold r. repeat split; lia. }
    replace (length (enc u) + (clen a + length (enc m)) + clen b) with (length (enc u) + length ((enc1 a ++ enc m ++ x) ++ y))
      by (rewrite !app_length; fold (clen a); lia).
    replace (enc u ++ enc1 a ++ enc m ++ enc1 b ++ enc v) with (enc u ++ ((enc1 a ++ enc m ++ x) ++ y) ++ enc v)
      by (rewrite Eb, <- !app_assoc; reflexivity).
    rewrite (@on_slice_app (enc u) ((enc1 a ++ enc m ++ x) ++ y) (enc v) _ (y ++ enc1 a ++ enc m ++ x)) by (rewrite <- Ly; apply rotate_right_app).
    cbn [bindR].
    replace (enc u ++ (y ++ enc1 a ++ enc m ++ x) ++ enc v) with (enc u ++ (y ++ enc1 a) ++ (enc m ++ x ++ enc v)) by (rewrite <- !app_assoc; reflexivity).
    assert (length (y ++ enc1 a) = clen b) as Lya by (rewrite app_length, Ly; fold (clen a); unfold r; lia).
    rewrite <- Lya at 1.
    rewrite (@on_slice_app (enc u) (y ++ enc1 a) _ _ (enc1 b)) by (apply encode_exact; exact Lya). cbn [bindR].
    replace (enc u ++ enc1 b ++ enc m ++ x ++ enc v) with ((enc u ++ enc1 b ++ enc m) ++ x ++ enc v) by (rewrite <- !app_assoc; reflexivity).
    replace (length (enc u) + (clen a + length (enc m)) + r) with (length (enc u ++ enc1 b ++ enc m))
      by (rewrite !app_length; fold (clen b); unfold r; lia).
    rewrite <- Lx at 1. rewrite (@on_slice_app (enc u ++ enc1 b ++ enc m) x _ _ (enc1 a)) by (apply encode_exact; exact Lx). cbn [bindR].
    rewrite !app_length. fold (clen b). rewrite <- !app_assoc. reflexivity.
  - set (r := clen a - clen b).
    assert (exists x y, enc1 a = x ++ y /\ length x = r /\ length y = clen b) as (x & y & Ea & Lx & Ly).
    { exists (firstn r (enc1 a)), (skipn r (enc1 a)).
      rewrite firstn_skipn, firstn_length, skipn_length. fold (clen a). unfold r. repeat split; lia. }
    replace (length (enc u) + (clen a + length (enc m)) + clen b) with (length (enc u) + length (x ++ y ++ enc m ++ enc1 b))
      by (rewrite !app_length, Lx, Ly; fold (clen b); unfold r; lia).
    replace (enc u ++ enc1 a ++ enc m ++ enc1 b ++ enc v) with (enc u ++ (x ++ y ++ enc m ++ enc1 b) ++ enc v)
      by (rewrite Ea, <- !app_assoc; reflexivity).
    rewrite (@on_slice_app (enc u) (x ++ y ++ enc m ++ enc1 b) (enc v) _ ((y ++ enc m ++ enc1 b) ++ x)) by (rewrite <- Lx; apply rotate_left_app).
    cbn [bindR].
    replace (enc u ++ ((y ++ enc m ++ enc1 b) ++ x) ++ enc v) with (enc u ++ y ++ (enc m ++ enc1 b ++ x ++ enc v)) by (rewrite <- !app_assoc; reflexivity).
    rewrite <- Ly at 1.
    rewrite (@on_slice_app (enc u) y _ _ (enc1 b)) by (apply encode_exact; exact Ly). cbn [bindR].
    replace (enc u ++ enc1 b ++ enc m ++ enc1 b ++ x ++ enc v) with ((enc u ++ enc1 b ++ enc m) ++ (enc1 b ++ x) ++ enc v) by (rewrite <- !app_assoc; reflexivity).
    replace (length (enc u) + (clen a + length (enc m)) - r) with (length (enc u ++ enc1 b ++ enc m))
      by (rewrite !app_length; fold (clen b); unfold r; lia).
    assert (length (enc1 b ++ x) = clen a) as Lbx by (rewrite app_length, Lx; fold (clen b); unfold r; lia).
    rewrite <- Lbx at 1. rewrite (@on_slice_app (enc u ++ enc1 b ++ enc m) (enc1 b ++ x) _ _ (enc1 a)) by (apply encode_exact; exact Lbx). cbn [bindR].
    rewrite !app_length. fold (clen b). rewrite <- !app_assoc. reflexivity.
Qed.

Lemma on_tail : forall a b f r, f b = Ret r -> on_slice (length a) (length (a ++ b)) f (a ++ b) = Ret (a ++ r).
Proof.
  intros a b f r H. pose proof (@on_slice_app a b [] f r H) as G. rewrite !app_nil_r in G. rewrite app_length. exact G.
Qed.

Lemma replace_char_spec : forall dbg u a b v, scalars (u ++ a :: v) -> scalar b ->
  replace_char_at dbg (enc (u ++ a :: v)) (length (enc u)) a b = Ret (enc (u ++ b :: v)).
Proof.
  intros dbg u a b v H Hb. unfold replace_char_at.
  pose proof (clen_pos a) as Pa. pose proof (clen_pos b) as Pb.
  assert (length (enc (u ++ a :: v)) = length (enc u) + (clen a + length (enc v))) as LE
    by (rewrite enc_app, enc_cons, !app_length; reflexivity).
  assert (H2 := H). apply Forall_app in H2. destruct H2 as [Hu Hav].
  rewrite char_at_enc by exact Hav. rewrite is_char_refl. replace (_ <? _)%nat with true by lia. rewrite !debug_assert_true.
  assert (scalars (u ++ b :: v)) as Hn.
  { apply Forall_app. split; [exact Hu|]. constructor; [exact Hb|]. inversion Hav; assumption. }
  assert (G : debug_assert dbg (is_char (char_at (enc (u ++ b :: v)) (length (enc u))) b) (Ret (enc (u ++ b :: v))) = Ret (enc (u ++ b :: v))).
  { rewrite char_at_enc by (apply Forall_app in Hn; apply Hn). rewrite is_char_refl. apply debug_assert_true. }
  destruct (Nat.eqb_spec (clen a) (clen b)) as [E|E].
  { replace (on_slice _ _ _ _) with (Ret (enc (u ++ b :: v))); [exact G|]. symmetry.
    rewrite !enc_app, !enc_cons. rewrite on_tail with (r := enc1 b ++ enc v); [reflexivity|]. apply encode_prefix. exact E. }
  destruct (Nat.ltb_spec (clen a) (clen b)) as [L|L].
  - set (r := clen b - clen a). cbv zeta.
    assert (length (repeat 0%N r) = r) as Lz by apply repeat_length.
    rewrite enc_app, enc_cons, <- !app_assoc.
    rewrite (@on_tail (enc u) (enc1 a ++ enc v ++ repeat 0%N r) _ (repeat 0%N r ++ enc1 a ++ enc v))
      by (rewrite <- Lz at 1; rewrite app_assoc, rotate_right_app; reflexivity).
    cbn [bindR].
    replace (length (enc u ++ enc1 a ++ enc v ++ repeat 0%N r)) with (length (enc u ++ (repeat 0%N r ++ enc1 a) ++ enc v)) by (rewrite !app_length; lia).
    replace (enc u ++ repeat 0%N r ++ enc1 a ++ enc v) with (enc u ++ (repeat 0%N r ++ enc1 a) ++ enc v) by (rewrite <- !app_assoc; reflexivity).
    rewrite (@on_tail (enc u) ((repeat 0%N r ++ enc1 a) ++ enc v) _ (enc1 b ++ enc v))
      by (apply encode_prefix; rewrite app_length, Lz; fold (clen a); unfold r; lia).
    cbn [bindR]. replace (enc u ++ enc1 b ++ enc v) with (enc (u ++ b :: v)) by (rewrite enc_app, enc_cons; reflexivity).
    rewrite dec_enc by exact Hn. cbn [is_someb]. rewrite debug_assert_true. cbn [bindR]. exact G.
  - set (r := clen a - clen b). cbv zeta.
    assert (exists x y, enc1 a = x ++ y /\ length x = r /\ length y = clen b) as (x & y & Ea & Lx & Ly).
    { exists (firstn r (enc1 a)), (skipn r (enc1 a)).
      rewrite firstn_skipn, firstn_length, skipn_length. fold (clen a). unfold r. repeat split; lia. }
    rewrite enc_app, enc_cons, Ea, <- !app_assoc.
    rewrite (@on_tail (enc u) (x ++ y ++ enc v) _ ((y ++ enc v) ++ x)) by (rewrite <- Lx; apply rotate_left_app).
    cbn [bindR].
    replace (length (enc u ++ x ++ y ++ enc v)) with (length (enc u ++ y ++ enc v ++ x)) by (rewrite !app_length; lia).
    rewrite <- app_assoc.
    rewrite (@on_tail (enc u) (y ++ enc v ++ x) _ (enc1 b ++ enc v ++ x)) by (apply encode_prefix; exact Ly).
    cbn [bindR].
    replace (enc u ++ enc1 b ++ enc v ++ x) with (enc (u ++ b :: v) ++ x) by (rewrite enc_app, enc_cons, <- !app_assoc; reflexivity).
    rewrite firstn_app_exact.
    + rewrite dec_enc by exact Hn. cbn [is_someb]. rewrite debug_assert_true. cbn [bindR]. exact G.
    + rewrite enc_app, enc_cons, !app_length, Lx, Ly. fold (clen b). lia.
Qed.

(** The rotations of [move_char_suggest] (suggester.rs 789-808, 825-841). *)
Lemma rotate_right_spec : forall u a m v,
  on_slice (length (enc u)) (length (enc (u ++ m ++ [a]))) (rotate_right (clen a)) (enc (u ++ m ++ a :: v)) =
    Ret (enc (u ++ a :: m ++ v)).
Proof.
  intros u a m v. rewrite !enc_app, !enc_cons, !enc_app. cbn [enc flat_map]. rewrite app_nil_r.
  replace (enc u ++ enc m ++ enc1 a ++ enc v) with (enc u ++ (enc m ++ enc1 a) ++ enc v) by (rewrite <- !app_assoc; reflexivity).
  rewrite app_length. rewrite (@on_slice_app (enc u) (enc m ++ enc1 a) (enc v) _ (enc1 a ++ enc m)) by apply rotate_right_app.
  rewrite <- !app_assoc. reflexivity.
Qed.
Lemma rotate_left_spec : forall u a m v,
  on_slice (length (enc u)) (length (enc (u ++ a :: m))) (rotate_left (clen a)) (enc (u ++ a :: m ++ v)) =
    Ret (enc (u ++ m ++ a :: v)).
Proof.
  intros u a m v. rewrite !enc_app, !enc_cons, !enc_app.
  replace (enc u ++ enc1 a ++ enc m ++ enc v) with (enc u ++ (enc1 a ++ enc m) ++ enc v) by (rewrite <- !app_assoc; reflexivity).
  rewrite app_length. rewrite (@on_slice_app (enc u) (enc1 a ++ enc m) (enc v) _ (enc m ++ enc1 a)) by apply rotate_left_app.
  rewrite <- !app_assoc. reflexivity.
Qed.
