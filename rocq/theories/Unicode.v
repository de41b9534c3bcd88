(** Unicode case data and the casing primitives: aff.rs 1251-1347, lib.rs 440-510. *)
From Coq Require Import List NArith ZArith Lia Bool Arith.
From Coq Require Import ZifyBool ZifyNat ZifyN.
From Verif Require Import Base.
Import ListNotations.
Set Implicit Arguments.

(** The Unicode tables of the Rust standard library the code relies on.  They are a
    parameter of the model: nothing is assumed about them except where a theorem says so. *)
Record unicode := mkUnicode {
  u_lower : N -> str;            (* char::to_lowercase *)
  u_upper : N -> str;            (* char::to_uppercase *)
  u_is_upper : N -> bool;        (* char::is_uppercase *)
  u_is_lower : N -> bool;        (* char::is_lowercase *)
  u_is_alpha : N -> bool;        (* char::is_alphabetic *)
  u_is_ws : N -> bool;           (* char::is_whitespace *)
  u_cased : N -> bool;           (* Unicode property Cased *)
  u_case_ignorable : N -> bool   (* Unicode property Case_Ignorable *)
}.

Definition ch_Sigma := 931%N.
Definition ch_sigma := 963%N.
Definition ch_final_sigma := 962%N.
Definition ch_I := 73%N.
Definition ch_i := 105%N.
Definition ch_dotted_I := 304%N.
Definition ch_dotless_i := 305%N.

Section Casing.
Variable U : unicode.

(** [str::to_lowercase] of the standard library: character by character, except for
    the final form of the Greek capital sigma. *)
Definition ignorable_then_cased (l : str) : bool :=
  match find_char (fun c => negb (u_case_ignorable U c)) l with
  | Some i => match nth_error l i with Some c => u_cased U c | None => false end
  | None => false
  end.

Fixpoint lower_go (before w : str) : str :=
  match w with
  | [] => []
  | c :: w' =>
      (if (c =? ch_Sigma)%N then
         if ignorable_then_cased before && negb (ignorable_then_cased w')
         then [ch_final_sigma] else [ch_sigma]
       else u_lower U c) ++ lower_go (c :: before) w'
  end.

Definition str_lower (w : str) : str := lower_go [] w.

(** [str::to_uppercase]. *)
Definition str_upper (w : str) : str := flat_map (u_upper U) w.

(** [str::replace] of one character by one character. *)
Definition replace_char (a b : N) (w : str) : str := map (fun c => if (c =? a)%N then b else c) w.

(** aff.rs 1252-1259. *)
Inductive case_handling := Turkic | Standard.

(** aff.rs 1268-1273. *)
Definition lowercase (h : case_handling) (w : str) : str :=
  match h with
  | Turkic => str_lower (replace_char ch_dotted_I ch_i (replace_char ch_I ch_dotless_i w))
  | Standard => str_lower w
  end.

(** aff.rs 1275-1280. *)
Definition uppercase (h : case_handling) (w : str) : str :=
  match h with
  | Turkic => str_upper (replace_char ch_dotless_i ch_I (replace_char ch_i ch_dotted_I w))
  | Standard => str_upper w
  end.

(** One character in [titlecase], [lower_first_char] (aff.rs 1291-1297, 1305-1309). *)
Definition lower_char (h : case_handling) (c : N) : str :=
  match h with
  | Turkic => if (c =? ch_I)%N then [ch_dotless_i]
              else if (c =? ch_dotted_I)%N then [ch_i] else u_lower U c
  | Standard => u_lower U c
  end.

(** aff.rs 1286-1290, 1321-1325. *)
Definition upper_char (h : case_handling) (c : N) : str :=
  match h with
  | Turkic => if (c =? ch_i)%N then [ch_dotted_I]
              else if (c =? ch_dotless_i)%N then [ch_I] else u_upper U c
  | Standard => u_upper U c
  end.

(** aff.rs 1282-1299; the [expect] panics on the empty string. *)
Definition titlecase (h : case_handling) (w : str) : Res str :=
  match w with
  | [] => Panic
  | c :: w' => Ret (upper_char h c ++ flat_map (lower_char h) w')
  end.

(** aff.rs 1301-1314. *)
Definition lower_first_char (h : case_handling) (w : str) : Res str :=
  match w with
  | [] => Panic
  | c :: w' => Ret (lower_char h c ++ w')
  end.

(** aff.rs 1316-1330, with a character offset. *)
Definition upper_char_at (h : case_handling) (w : str) (idx : nat) : Res str :=
  match skipn idx w with
  | [] => Panic
  | c :: w' => Ret (firstn idx w ++ upper_char h c ++ w')
  end.

(** aff.rs 1333-1346. *)
Definition is_char_eq_lowercase (h : case_handling) (left right : N) : bool :=
  match h with
  | Turkic =>
      ((left =? ch_dotless_i)%N && (right =? ch_I)%N) ||
      ((left =? ch_i)%N && (right =? ch_dotted_I)%N) ||
      match u_lower U right with [l] => (left =? l)%N | _ => false end
  | Standard => match u_lower U right with [l] => (left =? l)%N | _ => false end
  end.

(** lib.rs 444-467. *)
Inductive casing := CNone | CInit | CAll | CCamel | CPascal.

(** lib.rs 469-498. *)
Definition classify_casing (w : str) : casing :=
  let upper := length (filter (u_is_upper U) w) in
  let lower := length (filter (u_is_lower U) w) in
  if (upper =? 0)%nat then CNone
  else
    let first_capital := match w with c :: _ => u_is_upper U c | [] => false end in
    if first_capital && (upper =? 1)%nat then CInit
    else if (lower =? 0)%nat then CAll
    else if first_capital then CPascal
    else CCamel.

End Casing.

(** [erase_chars] (lib.rs 500-510). *)
Definition erase_chars (ignore : list N) (w : str) : str :=
  match ignore with
  | [] => w
  | _ :: _ => filter (fun c => negb (memb c ignore)) w
  end.

Lemma erase_chars_filter : forall ig w, erase_chars ig w = filter (fun c => negb (memb c ig)) w.
Proof.
  intros [|a ig] w; [|reflexivity]. cbn [erase_chars].
  induction w as [|c w IH]; [reflexivity|]. cbn. f_equal. exact IH.
Qed.

(** ASCII-only instance used by the Examples. *)
Definition ascii_upper (c : N) : bool := (65 <=? c)%N && (c <=? 90)%N.
Definition ascii_lower (c : N) : bool := (97 <=? c)%N && (c <=? 122)%N.
Definition ascii_unicode : unicode := mkUnicode
  (fun c => [if ascii_upper c then (c + 32)%N else c])
  (fun c => [if ascii_lower c then (c - 32)%N else c])
  ascii_upper ascii_lower
  (fun c => ascii_upper c || ascii_lower c)
  (fun c => (c =? 32)%N || ((9 <=? c)%N && (c <=? 13)%N))
  (fun c => ascii_upper c || ascii_lower c)
  (fun c => (c =? 39)%N || (c =? 46)%N).
