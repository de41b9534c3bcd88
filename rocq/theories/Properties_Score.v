(** Property C66: the arithmetic of the n-gram step stays within the machine's integers. *)
From Coq Require Import String Ascii List NArith ZArith Lia Bool Arith Permutation.
From Verif Require Import Base Utf8 Unicode Flags Bag Condition Affix Conversion Aff Checker AffixSpec CompoundRule Rep CompoundSpec
  CompoundTotal RuleCompound Spell CheckSpec CheckMono CheckProps Parser ParserSafe Lib LibSpec LibProps BufferOps Ngram Suggester
  NgramMeasures NgramProps LibSuggest Depth ScoreArith ScoreProps Examples Properties_Ngram Properties_Depth.
Import ListNotations.
Local Open Scope string_scope.
Local Open Scope list_scope.
Local Open Scope nat_scope.
Set Implicit Arguments.

(** [isize::MAX] of the two usual machines. *)
Definition isize_max_64 : Z := 9223372036854775807.
Definition isize_max_32 : Z := 2147483647.

Section Dict.
Variable pl : platform.
Hypothesis WP : wf_platform pl.
Variable rn : runtime.
Hypothesis WN : wf_runtime rn.
Variable d : dictionary.
Hypothesis R : Reachable pl d.
Variable c : nat.
Hypothesis G : case_growth (pl_unicode pl) c.
Variables lt lu : bool.

(** The n-gram step of a suggester of [d], on unbounded integers and on machine integers. *)
Notation ideal := (ngram_suggest (rn_heaps rn) (checker_of pl d lt lu) (rn_iter rn (d_words d))).
Notation machine hi := (m_ngram_suggest hi (rn_heaps rn) (checker_of pl d lt lu) (rn_iter rn (d_words d))).

(** Integers with room for three times the square of the word's length are wide enough,
    whatever the dictionary. *)
Theorem C66_scores_fit : forall hi word out, let n := Z.of_nat (length word) in
  (3 * (n * n) + 100 * n + 65535 * (Z.of_nat c + 100) <= hi)%Z -> (Z.of_nat (length out) + 65535 <= hi)%Z ->
  machine hi word out = ideal word out.
Proof using WP WN R G.
  intros hi word out n H HO. pose proof (reachable_ok WP R) as OK. destruct (do_aff OK) as (x & LP & CO).
  destruct (aff_facts WP LP CO) as (_ & _ & _ & _ & O & _).
  apply machine_ngram with c.
  - exact (wr_heaps WN).
  - exact (dict_wf_checker WP OK lt lu).
  - exact (@words_wf pl WP rn WN d R lt lu true).
  - apply Forall_forall. intros [w f] I. apply (@words_In pl rn WN d lt lu true) in I. apply entries_In in I.
    apply (@dict_entry_ok pl d OK w f I).
  - exact (oo_max_diff O).
  - exact (oo_max_ngram O).
  - exact G.
  - exact H.
  - exact HO.
Qed.

(** With 64 bits this is the case for every word: a longer one than fits is refused before. *)
Theorem C66_64_bit : c <= 1000 -> forall word out, (Z.of_nat (length out) < 2 ^ 62)%Z ->
  machine isize_max_64 word out = ideal word out.
Proof using WP WN R G.
  intros C word out HO. destruct (N.leb_spec (blen word) 65535) as [L|L].
  - apply C66_scores_fit; unfold isize_max_64; [|lia]. pose proof (length_blen word) as B.
    set (n := Z.of_nat (length word)). assert (0 <= n <= 65535)%Z by lia. assert (n * n <= 65535 * 65535)%Z by nia. lia.
  - assert (E : chars_str word = Panic) by (unfold chars_str; destruct (N.leb_spec (blen word) 65535); [lia|reflexivity]).
    unfold m_ngram_suggest, ngram_suggest. rewrite E. reflexivity.
Qed.
(** With 32 bits it is for words of up to 26000 characters ... *)
Theorem C66_32_bit : c <= 3 -> forall word out, (Z.of_nat (length word) <= 26000)%Z -> (Z.of_nat (length out) < 2 ^ 30)%Z ->
  machine isize_max_32 word out = ideal word out.
Proof using WP WN R G.
  intros C word out L HO. apply C66_scores_fit; unfold isize_max_32; [|lia].
  set (n := Z.of_nat (length word)). assert (0 <= n <= 26000)%Z by lia. assert (n * n <= 26000 * 26000)%Z by nia. lia.
Qed.
(** ... so for all that [suggest] passes to the step, when ICONV makes no word more than
    twenty-four times as long. *)
Theorem C66_32_bit_suggest : c <= 3 -> forall r, iconv_growth d r -> r <= 24 ->
  forall w w' word out, scalars w -> (blen w <= 360)%N -> Converts (ct_inner (ad_iconv (d_aff d))) w w' -> scalars w' ->
    word = w' \/ word = lowercase (pl_unicode pl) (o_case (ad_options (d_aff d))) w' -> (Z.of_nat (length out) < 2 ^ 30)%Z ->
    machine isize_max_32 word out = ideal word out.
Proof using WP WN R G.
  intros C r [R1 RF] R2 w w' word out S1 L CV S2 E HO. apply C66_32_bit; [exact C| |exact HO].
  pose proof (converts_length R1 RF CV) as L1. pose proof (length_blen w) as L2.
  assert (L3 : length w' <= 24 * 360) by nia. destruct E as [-> | ->]; [lia|].
  pose proof (@lower_length _ c G (o_case (ad_options (d_aff d))) w' S2) as L4. nia.
Qed.
End Dict.

(** ** Examples *)
(** The checks are real: integers of four bits would overflow where those of 32 and 64 do not. *)
Example C66_example :
  let step hi := m_ngram_suggest hi sorted_heaps (checker_of ex_pl nl false false) (d_words nl) (lit "abcd") [] in
  step 7%Z = Panic /\ step isize_max_32 = Ret [lit "abcdz"] /\ step isize_max_64 = Ret [lit "abcdz"] /\
  step isize_max_64 = ngram_suggest sorted_heaps (checker_of ex_pl nl false false) (d_words nl) (lit "abcd") [].
Proof.
  cbv zeta. split; [vm_compute; reflexivity|]. split; [vm_compute; reflexivity|]. split; [vm_compute; reflexivity|].
  apply (@C66_64_bit ex_pl ex_pl_wf ex_rn ex_rn_wf nl nl_reachable 1 ascii_growth); [lia|]. cbn. lia.
Qed.

Print Assumptions C66_scores_fit.
Print Assumptions C66_64_bit.
Print Assumptions C66_32_bit.
Print Assumptions C66_32_bit_suggest.
