(** The texts of errors: [Display] of the error types (aff/parser.rs 1341-1348, 1528-1555,
    1591-1621, 1638-1646, 1663-1675, 1698-1710). *)
From Coq Require Import String Ascii List NArith Lia Bool Arith.
From Verif Require Import Base Utf8 Unicode Flags Condition Parser.
Import ListNotations.
Local Open Scope string_scope.
Local Open Scope list_scope.
Local Open Scope N_scope.
Set Implicit Arguments.

(** [Display] of [usize] (core): the decimal digits, without leading zeros.  Written from the
    last digit to the first; [fuel] is the number of binary digits, which is enough
    ([show_number_spec]). *)
Fixpoint show_digits (fuel : nat) (n : N) (acc : str) : str :=
  match fuel with
  | O => acc
  | S fuel' => if n <? 10 then (48 + n) :: acc else show_digits fuel' (n / 10) ((48 + n mod 10) :: acc)
  end.
Definition show_number (n : N) : str := show_digits (S (N.size_nat n)) n [].

(** [Display] of [core::num::ParseIntError] (core::num::error). *)
Definition show_int_error (e : int_error) : str :=
  match e with
  | IntEmpty => lit "cannot parse integer from empty string"
  | IntInvalidDigit => lit "invalid digit found in string"
  | IntPosOverflow => lit "number too large to fit in target type"
  end.
(** parser.rs 1663-1675. *)
Definition show_flag_error (e : flag_error) : str :=
  match e with
  | NonAscii c => lit "expected ascii char, found " ++ [c]
  | MissingSecondChar => lit "expected two chars, found one"
  | FlagInt e => show_int_error e
  | DuplicateComma => lit "unexpected extra comma"
  | ZeroFlag => lit "flag cannot be zero"
  | FlagAbove65535 => lit "flag's binary representation exceeds 65535"
  | FlagWordTooLong => lit "word is too long (longer than u16::MAX bytes)"
  end.
(** parser.rs 1341-1348. *)
Definition show_rule_error (e : rule_error) : str :=
  match e with
  | RuleFlag e => lit "failed to parse flag: " ++ show_flag_error e
  | RuleFormat => lit "invalid compound rule format"
  end.
(** parser.rs 1698-1710. *)
Definition show_condition_error (e : condition_error) : str :=
  match e with
  | UnopenedCharacterClass => lit "closing bracket has no matching opening bracket"
  | UnclosedCharacterClass => lit "opening bracket has no matching closing bracket"
  | EmptyCharacterClass => lit "empty bracket expression"
  end.
(** parser.rs 1591-1621 and, for [UnknownFlagType], 1638-1646.  The two kinds that are never
    produced ([UnexpectedNonWhitespace], [Empty]) are left out, as in Parser.v. *)
Definition show_kind (k : error_kind) : str :=
  match k with
  | UnknownFlagType s => lit "expected FLAG to be `long`, `num` or `UTF-8` if set, found " ++ s
  | MalformedFlag e => lit "flag is malformed: " ++ show_flag_error e
  | MalformedNumber e => show_int_error e
  | MismatchedArity expected actual =>
      lit "expected " ++ show_number expected ++ lit " arguments but found " ++ show_number actual
  | MismatchedRowCount expected actual =>
      lit "expected " ++ show_number expected ++ lit " rows but found " ++ show_number actual
  | MalformedCompoundRule e => lit "compound rule is malformed: " ++ show_rule_error e
  | MalformedAffix => lit "failed to parse affix"
  | MalformedCondition e => lit "condition is malformed: " ++ show_condition_error e
  | WordTooLong => lit "word is too long (longer than u16::MAX bytes)"
  end.
(** parser.rs 1548-1555. *)
Definition show_source (s : error_source) : str :=
  match s with SrcDic => lit ".dic" | SrcAff => lit ".aff" end.
(** parser.rs 1528-1540. *)
Definition show_error (e : perror) : str :=
  match pe_line e with
  | Some line => lit "failed to parse " ++ show_source (pe_source e) ++ lit " file on line " ++ show_number line ++ lit ": " ++ show_kind (pe_kind e)
  | None => lit "failed to parse " ++ show_source (pe_source e) ++ lit " file: " ++ show_kind (pe_kind e)
  end.
