(** The public type [Dictionary] (src/lib.rs 116-304). *)
From Coq Require Import List NArith Bool Arith.
From Verif Require Import Base Unicode Flags Bag Affix Aff Checker Spell Parser.
Import ListNotations.
Set Implicit Arguments.

(** lib.rs 116-119. *)
Record dictionary := mkDict { d_words : table flagset; d_aff : affdata }.

Section Lib.
Variable pl : platform.

(** [Dictionary::new_with_hasher] (lib.rs 162-169).  [Dictionary::new] (lib.rs 140-142) is
    the same with the default hasher, i.e. another [pl_hash]. *)
Definition new (aff_text dic_text : str) : P perror dictionary :=
  r <~ parse pl aff_text dic_text ;;
  okP (mkDict (fst r) (snd r)).

(** [Dictionary::add] (lib.rs 247-263).  The second component is the dictionary after the
    call: [?] leaves it alone when the line does not parse. *)
Definition add (d : dictionary) (input : str) : Res (result unit flag_error * dictionary) :=
  r <- parse_dic_line pl input (ad_flag_type (d_aff d)) (ad_aliases (d_aff d)) (ad_ignore (d_aff d)) ;;
  match r with
  | Err e => Ret (Err e, d)
  | Ok (word, flags) => Ret (Ok tt, mkDict (bag_insert (pl_place pl) (d_words d) word flags) (d_aff d))
  end.

(** The loop of [Dictionary::remove_stem] over [self.words.get_mut(word)] (lib.rs 296-302):
    the slots the probe visits and whose key is the word. *)
Fixpoint remove_go (forbidden : N) (word : str) (t : table flagset) : Res (bool * table flagset) :=
  match t with
  | [] => Ret (false, [])
  | e :: t' =>
      if pl_visits pl (pl_hash pl word) (pl_hash pl (fst e)) && str_eqb word (fst e) &&
         negb (contains (snd e) forbidden) then
        flags <- with_flag (snd e) forbidden ;;
        r <- remove_go forbidden word t' ;;
        Ret (true, (fst e, flags) :: snd r)
      else
        r <- remove_go forbidden word t' ;;
        Ret (fst r, e :: snd r)
  end.

(** lib.rs 295-304. *)
Definition remove_stem (d : dictionary) (word : str) : Res (bool * dictionary) :=
  r <- remove_go (o_forbidden (ad_options (d_aff d))) word (d_words d) ;;
  Ret (fst r, mkDict (snd r) (d_aff d)).

(** [Dictionary::checker] (lib.rs 198-200), with the two options a user can set on it
    (checker.rs 73-95). *)
Definition checker_of (d : dictionary) (lower_as_title lower_as_upper : bool) : checker :=
  mkChecker (pl_unicode pl) (pl_overflow_checks pl) (d_aff d)
    (fun w => map snd (bag_get (pl_hash pl) (pl_visits pl) (d_words d) w))
    lower_as_title lower_as_upper.

(** [Dictionary::check] (lib.rs 191-193). *)
Definition dict_check (d : dictionary) (fuel : nat) (w : str) : Res bool :=
  check (checker_of d false false) fuel w.

(** A user's calls after construction. *)
Inductive call := CallAdd (line : str) | CallRemove (word : str).
Definition do_call (d : dictionary) (c : call) : Res dictionary :=
  match c with
  | CallAdd line => r <- add d line ;; Ret (snd r)
  | CallRemove w => r <- remove_stem d w ;; Ret (snd r)
  end.
Fixpoint do_calls (d : dictionary) (cs : list call) : Res dictionary :=
  match cs with
  | [] => Ret d
  | c :: cs' => d' <- do_call d c ;; do_calls d' cs'
  end.
End Lib.
