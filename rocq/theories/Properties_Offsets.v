(** Property C77: compound checking cuts words only between characters.  [ByteCompound] is the
    compound checker with the byte offsets of the code. *)
From Coq Require Import String Ascii List NArith ZArith Lia Bool Arith Permutation.
From Verif Require Import Base Utf8 Unicode Flags Condition Affix Aff Checker AffixSpec CompoundRule Rep CompoundSpec CompoundTotal
  RuleCompound Spell CheckSpec CheckMono CheckProps Parser ParserSafe Lib LibSpec LibProps Examples ByteCompound ByteOffsets
  ByteCompoundSpec Properties_Affix Properties_Check.
Import ListNotations.
Local Open Scope string_scope.
Local Open Scope list_scope.
Local Open Scope nat_scope.
Set Implicit Arguments.

(** ** The operations on strings *)
(** Two offsets are accepted exactly when they cut the text in three. *)
Definition Cuts (w : str) (a b : nat) (u v t : str) : Prop :=
  w = u ++ v ++ t /\ a = length (enc u) /\ b = length (enc (u ++ v)).

Lemma cuts_iff : forall w a b, scalars w ->
  ((a <=? b) && (b <=? length (enc w)) && boundary (enc w) a && boundary (enc w) b = true <-> exists u v t, Cuts w a b u v t).
Proof.
  intros w a b Hw. rewrite !andb_true_iff, !Nat.leb_le. split.
  - intros [[[H1 H2] B1] B2]. apply boundary_spec in B1; [|exact Hw|lia]. apply boundary_spec in B2; [|exact Hw|exact H2].
    destruct B1 as (u1 & v1 & E1 & ->). destruct B2 as (u2 & v2 & E2 & ->).
    assert (X1 : length (enc u1) = boff w (length u1)) by (rewrite E1; symmetry; apply boff_app).
    assert (X2 : length (enc u2) = boff w (length u2)) by (rewrite E2; symmetry; apply boff_app).
    assert (L1 : length u1 <= length w) by (rewrite E1, app_length; lia).
    assert (L2 : length u2 <= length w) by (rewrite E2, app_length; lia).
    destruct (Nat.le_gt_cases (length u1) (length u2)) as [L|L].
    2: { pose proof (@boff_lt w _ _ L L1). lia. }
    assert (F1 : firstn (length u1) w = u1) by (rewrite E1 at 1; apply firstn_app_exact; reflexivity).
    assert (F2 : firstn (length u2) w = u2) by (rewrite E2 at 1; apply firstn_app_exact; reflexivity).
    rewrite (firstn_split w L), F1 in F2.
    exists u1, (slice w (length u1) (length u2)), v2. split; [rewrite app_assoc, F2; exact E2|].
    rewrite F2. auto.
  - intros (u & v & t & -> & -> & ->). rewrite !boundary_spec; try exact Hw.
    + rewrite !enc_app, !app_length. split; [split; [lia|]|].
      * exists u, (v ++ t). auto.
      * exists (u ++ v), t. rewrite enc_app, app_length, <- app_assoc. auto.
    + rewrite !enc_app, !app_length. lia.
    + rewrite !enc_app, !app_length. lia.
Qed.

Theorem C77_slices : forall w a b, scalars w ->
  (forall u v t, Cuts w a b u v t -> b_cut (enc w) a b = Ret (enc v) /\
     forall r, b_replace (enc w) a b (enc r) = Ret (enc (u ++ r ++ t))) /\
  ((forall u v t, ~ Cuts w a b u v t) -> b_cut (enc w) a b = Panic /\ forall r, b_replace (enc w) a b r = Panic).
Proof.
  intros w a b Hw. pose proof (@cuts_iff w a b Hw) as C. unfold b_cut, b_replace. split.
  - intros u v t H. rewrite (proj2 C) by eauto. destruct H as (-> & -> & ->).
    rewrite !enc_app, !app_length. split.
    + unfold slice. rewrite skipn_app_exact by reflexivity. rewrite firstn_app_exact by lia. reflexivity.
    + intro r. rewrite firstn_app_exact by reflexivity. rewrite (app_assoc (enc u) (enc v)).
      rewrite (@skipn_app_exact _ (enc u ++ enc v)) by (rewrite app_length; reflexivity). rewrite !enc_app. reflexivity.
  - intro H. destruct (_ && _ && _ && _); [|auto]. destruct (proj1 C eq_refl) as (u & v & t & X). destruct (H u v t X).
Qed.
Theorem C77_insertions : forall w a c, scalars w ->
  (forall u v, w = u ++ v -> a = length (enc u) -> b_insert (enc w) a c = Ret (enc (u ++ c :: v))) /\
  ((forall u v, w = u ++ v -> a <> length (enc u)) -> b_insert (enc w) a c = Panic).
Proof.
  intros w a c Hw. split.
  - intros u v -> ->. apply insert_app. exact Hw.
  - intro H. unfold b_insert. destruct (a <=? length (enc w)) eqn:L; [|reflexivity]. cbn [andb].
    destruct (boundary (enc w) a) eqn:B; [|reflexivity]. apply boundary_spec in B; [|exact Hw|apply Nat.leb_le; exact L].
    destruct B as (u & v & E & Ea). destruct (H u v E Ea).
Qed.
Print Assumptions C77_slices.
Print Assumptions C77_insertions.

(** ** The positions *)
(** [bytes_within(word, start, margin)] yields, in order, exactly the offsets that leave at
    least [margin] characters on both sides. *)
Theorem C77_positions : forall left rest margin, scalars (left ++ rest) -> 0 < margin ->
  exists l, b_within (enc (left ++ rest)) (length (enc left)) margin = Ret l /\
    (forall x, In x l <-> exists a b, rest = a ++ b /\ margin <= length a /\ margin <= length b /\ x = length (enc (left ++ a))) /\
    (forall i x y, nth_error l i = Some x -> nth_error l (S i) = Some y -> x < y).
Proof.
  intros left rest margin Hw Hm. set (w := left ++ rest).
  assert (Hs : length left <= length w) by (unfold w; rewrite app_length; lia).
  exists (map (boff w) (within w (length left) margin)).
  assert (BL : forall a b, rest = a ++ b -> boff w (length left + length a) = length (enc (left ++ a))).
  { intros a b ->. unfold w. rewrite app_assoc, <- app_length. apply boff_app. }
  split; [|split].
  - rewrite <- (@boff_app left rest). apply within_boff; assumption.
  - intro x. rewrite in_map_iff. split.
    + intros (i & <- & Hi). apply within_In in Hi; [|exact Hm]. destruct Hi as [B1 B2].
      exists (firstn (i - length left) rest), (skipn (i - length left) rest).
      assert (LR : i - length left <= length rest) by (unfold w in B2; rewrite app_length in B2; lia).
      rewrite firstn_skipn, firstn_length, skipn_length, Nat.min_l by exact LR.
      unfold w in B2. rewrite app_length in B2. repeat split; try lia.
      rewrite <- (@BL _ (skipn (i - length left) rest)) by (symmetry; apply firstn_skipn).
      f_equal. rewrite firstn_length. lia.
    + intros (a & b & E & H1 & H2 & ->). exists (length left + length a). split; [apply (@BL a b E)|].
      apply within_In; [exact Hm|]. unfold w. rewrite E, !app_length. lia.
  - intros i x y Hx Hy.
    assert (Q : exists a n, within w (length left) margin = seq a n /\ (0 < n -> a + n <= length w)).
    { unfold within. destruct (length left + margin <? length w) eqn:L; [|exists 0, 0; split; [reflexivity|lia]].
      apply Nat.ltb_lt in L. destruct (margin =? 1).
      - exists (length left + margin), (length w - (length left + margin)). split; [reflexivity|lia].
      - destruct (margin - 2 <? length w - (length left + margin)); [|exists 0, 0; split; [reflexivity|lia]].
        exists (length left + margin), (length w - 1 - (margin - 2) - (length left + margin)). split; [reflexivity|lia]. }
    destruct Q as (a & n & E & Q). rewrite E, nth_error_map_seq in Hx, Hy.
    destruct (Nat.ltb_spec i n) as [Li|Li]; [|discriminate]. destruct (Nat.ltb_spec (S i) n) as [Lj|Lj]; [|discriminate].
    injection Hx as <-. injection Hy as <-. apply boff_lt; lia.
Qed.
Print Assumptions C77_positions.

(** The comment at checker.rs 2516-2518 says that "abcd" with a margin of 1 yields 1 and 2; it
    yields 3 as well. *)
Theorem C77_comment_refuted : b_within (enc (lit "abcd")) 0 1 = Ret [1; 2; 3].
Proof. reflexivity. Qed.

Section Dict.
Variable pl : platform.
Hypothesis WP : wf_platform pl.
Variable d : dictionary.
Hypothesis R : Reachable pl d.
Let OK : dict_ok pl d := reachable_ok WP R.
Notation k := (checker_of pl d).

Lemma replacements_scalars : forall lt lu,
  Forall (fun p => forall r, cp_replacement p = Some r -> scalars r) (ad_patterns (ck_aff (k lt lu))).
Proof.
  intros lt lu. destruct (do_aff OK) as (x & LP & CO).
  destruct (aff_facts WP LP CO) as (_ & _ & _ & _ & _ & _ & Q & _). cbn [ck_aff checker_of].
  eapply Forall_impl; [|exact Q]. intros p (_ & _ & _ & _ & H) r Hr. apply (H r Hr).
Qed.

(** ** C77 *)
(** On bytes the compound checker finds what the model on characters finds.  Every property of
    compounds of the model on characters is one of the code on bytes. *)
Theorem C77_bytes_agree : forall lt lu dbg fuel m fu w, scalars w ->
  b_check_compound (k lt lu) dbg fuel m (enc w) fu = check_compound (k lt lu) fuel m w fu.
Proof.
  intros lt lu dbg fuel m fu w Hw. apply check_compound_enc; [apply dict_wf_compound; [exact WP|exact OK]|apply replacements_scalars|exact Hw].
Qed.

(** No slice is out of bounds or off a character boundary, no offset is subtracted below zero
    and no debug assertion fails, at whatever depth: with the arithmetic on syllables set aside
    nothing panics. *)
Theorem C77_cuts_between_characters : pl_overflow_checks pl = false \/ ad_vowels (d_aff d) = [] ->
  forall lt lu dbg fuel m fu w, scalars w -> b_check_compound (k lt lu) dbg fuel m (enc w) fu <> Panic.
Proof.
  intros NC lt lu dbg fuel m fu w Hw. rewrite C77_bytes_agree by exact Hw.
  apply check_compound_calm; [apply dict_wf_compound; [exact WP|exact OK]| |exact Hw].
  unfold strict. cbn [ck_overflow_checks ck_aff checker_of]. destruct NC as [-> | ->]; [reflexivity|].
  cbn [nonempty]. rewrite andb_false_r. reflexivity.
Qed.

(** checker.rs 227-239 with the compound checker on bytes. *)
Definition b_check_word (lt lu dbg : bool) (fuel : nat) (bs : list N) (fu : forceucase) (hh : hidden_homonym) : Res (option flagset) :=
  w <- b_text bs ;;
  match check_simple_word (k lt lu) w hh with
  | Some f => Ret (Some f)
  | None => r <- b_check_compound (k lt lu) dbg fuel AT_BEGIN bs fu ;; Ret (option_map cr_flags r)
  end.
Theorem C77_words_agree : forall lt lu dbg fuel fu hh w, scalars w ->
  b_check_word lt lu dbg fuel (enc w) fu hh = check_word (k lt lu) fuel w fu hh.
Proof.
  intros lt lu dbg fuel fu hh w Hw. unfold b_check_word, check_word. rewrite text_enc by exact Hw. cbn [bindR].
  destruct (check_simple_word (k lt lu) w hh); [reflexivity|]. rewrite C77_bytes_agree by exact Hw. reflexivity.
Qed.
End Dict.
Print Assumptions C77_bytes_agree.
Print Assumptions C77_cuts_between_characters.
Print Assumptions C77_words_agree.

(** ** Example: [caéé] + [éab] is written with two é, [foo] + [bar] with ø for the o and b *)
Definition wide_aff : str := lit "COMPOUNDMIN 2
COMPOUNDFLAG C
SIMPLIFIEDTRIPLE
CHECKCOMPOUNDREP
REP 1
REP x y
CHECKCOMPOUNDPATTERN 1
CHECKCOMPOUNDPATTERN o b " ++ [248%N; 10%N].
Definition wide_dic : str := lit "4
ca" ++ [233%N; 233%N] ++ lit "/C
" ++ [233%N] ++ lit "ab/C
foo/C
bar/C
".
Definition wide : dictionary := Eval vm_compute in (the (built ex_pl wide_aff wide_dic) <: dictionary).
Lemma wide_reachable : Reachable ex_pl wide. Proof. ex_dict wide_aff wide_dic. Qed.

Definition part (w : str) : Res (option cresult) := Ret (Some (mkCR w [67%N] 0 0 false)).
Example C77_example :
  b_check_compound (checker_of ex_pl wide false false) true 9 AT_BEGIN (enc (lit "ca" ++ [233; 233]%N ++ lit "ab")) ForbidBadForceucase =
    part (lit "ca" ++ [233; 233]%N) /\
  b_check_compound (checker_of ex_pl wide false false) true 9 AT_BEGIN (enc (lit "fo" ++ [248]%N ++ lit "ar")) ForbidBadForceucase =
    part (lit "foo") /\
  b_check_compound (checker_of ex_pl wide false false) true 9 AT_BEGIN (enc (lit "foobar")) ForbidBadForceucase = Ret None /\
  accepted ex_pl wide (lit "ca" ++ [233; 233]%N ++ lit "ab") /\ rejected ex_pl wide (lit "foobar") /\
  b_within (enc ([233; 97]%N ++ lit "bcd")) 2 2 = Ret [4] /\
  ad_vowels (d_aff wide) = [].
Proof.
  split; [vm_compute; reflexivity|]. split; [vm_compute; reflexivity|]. split; [vm_compute; reflexivity|].
  split; [settle 9|]. split; [settle 9|]. split; reflexivity.
Qed.
Print Assumptions C77_example.
