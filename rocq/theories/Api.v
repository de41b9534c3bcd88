(** The handles a user configures: [Checker] and [Suggester] with their options. *)
From Coq Require Import List NArith Bool.
From Verif Require Import Base Utf8 Unicode Flags Bag Affix Conversion Aff Checker Spell Parser Lib Ngram Suggester LibSuggest.
Import ListNotations.
Set Implicit Arguments.

(** [Dictionary::checker] (lib.rs 198-200) and [Checker::new] (checker.rs 48-55). *)
Definition dict_checker (pl : platform) (d : dictionary) : checker := checker_of pl d false false.

(** [Checker::check_lower_as_title] (checker.rs 73-76). *)
Definition check_lower_as_title (k : checker) (b : bool) : checker :=
  mkChecker (ck_u k) (ck_overflow_checks k) (ck_aff k) (ck_get k) b (ck_lower_as_upper k).

(** [Checker::check_lower_as_upper] (checker.rs 91-94). *)
Definition check_lower_as_upper (k : checker) (b : bool) : checker :=
  mkChecker (ck_u k) (ck_overflow_checks k) (ck_aff k) (ck_get k) (ck_lower_as_title k) b.

(** [Checker::into_suggester] and [Suggester::new] (suggester.rs 38-51).  The word list the
    checker borrows, in the order its iterator yields, is an argument of its own. *)
Definition into_suggester (rn : runtime) (d : dictionary) (k : checker) : suggester :=
  mkSuggester k (rn_iter rn (d_words d)) true (rn_debug rn) (rn_heaps rn).

(** [Suggester::into_checker] (suggester.rs 54-56). *)
Definition into_checker (s : suggester) : checker := su_checker s.

(** [Suggester::with_ngram_suggestions] (suggester.rs 66-69). *)
Definition with_ngram_suggestions (s : suggester) (b : bool) : suggester :=
  mkSuggester (su_checker s) (su_words s) b (su_debug s) (su_heaps s).

(** [Dictionary::suggester] (lib.rs 215-217). *)
Definition dict_suggester (pl : platform) (rn : runtime) (d : dictionary) : suggester :=
  into_suggester rn d (dict_checker pl d).

(** A chain of builder calls on a handle of one dictionary.  A call on the wrong type of handle
    does not compile: [None]. *)
Inductive builder := LowerAsTitle (b : bool) | LowerAsUpper (b : bool) | WithNgrams (b : bool) | IntoSuggester | IntoChecker.
Inductive handle := Checking (k : checker) | Suggesting (s : suggester).
Definition build (rn : runtime) (d : dictionary) (h : handle) (c : builder) : option handle :=
  match h, c with
  | Checking k, LowerAsTitle b => Some (Checking (check_lower_as_title k b))
  | Checking k, LowerAsUpper b => Some (Checking (check_lower_as_upper k b))
  | Checking k, IntoSuggester => Some (Suggesting (into_suggester rn d k))
  | Suggesting s, WithNgrams b => Some (Suggesting (with_ngram_suggestions s b))
  | Suggesting s, IntoChecker => Some (Checking (into_checker s))
  | _, _ => None
  end.
Fixpoint build_all (rn : runtime) (d : dictionary) (h : handle) (l : list builder) : option handle :=
  match l with
  | [] => Some h
  | c :: l' => match build rn d h c with Some h' => build_all rn d h' l' | None => None end
  end.
