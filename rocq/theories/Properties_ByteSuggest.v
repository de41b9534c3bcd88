(** Property C79: suggesting for a word on its bytes.  [ByteSuggest.b_suggest] is [suggest] with
    the byte offsets of the code; here it is shown to give the suggestions of the model on
    characters. *)
From Coq Require Import String Ascii List NArith ZArith Lia Bool Arith Permutation.
From Verif Require Import Base Utf8 Unicode Flags Bag Condition Affix Conversion Aff Checker AffixSpec CompoundRule Rep CompoundSpec
  CompoundTotal RuleCompound Spell CheckSpec CheckMono CheckProps Parser ParserSafe Lib LibSpec LibProps BufferOps Ngram Suggester
  SuggestSpec SuggestLow SuggestMono Dedup SuggestProps SuggestTotal NgramMeasures NgramProps SuggestImpl LibSuggest Examples
  CharsStr Scratch ByteCompound ByteOffsets ByteCompoundSpec ByteCheck ByteCheckSpec ByteSuggest ByteSuggestSpec
  Properties_Affix Properties_Compound Properties_Check Properties_Suggest Properties_Total Properties_Offsets Properties_ByteCheck.
Import ListNotations.
Local Open Scope string_scope.
Local Open Scope list_scope.
Local Open Scope nat_scope.
Set Implicit Arguments.

(** ** The operations on the buffers *)
(** A character is removed at the offset where it starts; any other offset panics. *)
Theorem C79_removals : forall w n, scalars w ->
  (forall u c v, w = u ++ c :: v -> n = length (enc u) -> b_remove (enc w) n = Ret (enc (u ++ v))) /\
  ((forall u c v, w = u ++ c :: v -> n <> length (enc u)) -> b_remove (enc w) n = Panic).
Proof.
  intros w n Hw. split.
  - intros u c v -> ->. apply remove_app. exact Hw.
  - intros H. unfold b_remove. destruct (b_from (enc w) n) as [tail| |] eqn:E; [|reflexivity|].
    + pose proof E as E0. unfold b_from, b_cut in E. destruct (n <=? length (enc w)) eqn:L; [|discriminate]. cbn [andb] in E.
      destruct (boundary (enc w) n) eqn:B; [|rewrite andb_false_r in E; discriminate].
      apply boundary_spec in B; [|exact Hw|apply Nat.leb_le; exact L]. destruct B as (u & v & Ew & Ea).
      assert (F : b_from (enc w) n = Ret (enc v)) by (rewrite Ew, Ea; apply from_app; rewrite <- Ew; exact Hw).
      rewrite E0 in F. injection F as ->.
      destruct v as [|c v]; [reflexivity|]. destruct (H u c v Ew Ea).
    + unfold b_from, b_cut in E. destruct (_ && _ && _ && _); discriminate.
Qed.
Print Assumptions C79_removals.
(** [truncate] to an offset between two characters keeps what is before it. *)
Theorem C79_truncations : forall w n, scalars w ->
  (forall u v, w = u ++ v -> n = length (enc u) -> b_truncate (enc w) n = Ret (enc u)) /\
  (length (enc w) <= n -> b_truncate (enc w) n = Ret (enc w)) /\
  (n < length (enc w) -> (forall u v, w = u ++ v -> n <> length (enc u)) -> b_truncate (enc w) n = Panic).
Proof.
  intros w n Hw. split; [|split].
  - intros u v -> ->. apply truncate_app. exact Hw.
  - intros L. unfold b_truncate. destruct (n <=? length (enc w)) eqn:E; [|reflexivity]. apply Nat.leb_le in E.
    assert (n = length (enc w)) as -> by lia. pose proof (@truncate_app w [] ltac:(rewrite app_nil_r; exact Hw)) as T.
    rewrite app_nil_r in T. unfold b_truncate in T. rewrite Nat.leb_refl in T. exact T.
  - intros L H. unfold b_truncate. rewrite (proj2 (Nat.leb_le _ _)) by lia. destruct (boundary (enc w) n) eqn:B; [|reflexivity].
    apply boundary_spec in B; [|exact Hw|lia]. destruct B as (u & v & Ew & Ea). destruct (H u v Ew Ea).
Qed.
Print Assumptions C79_truncations.
(** [char_indices] lists the characters with the offsets where they start, in order. *)
Theorem C79_enumeration : forall w, scalars w -> exists l, b_char_indices (enc w) = Ret l /\ map snd l = w /\
  forall i n c, nth_error l i = Some (n, c) <-> exists u v, w = u ++ c :: v /\ length u = i /\ n = length (enc u).
Proof.
  intros w Hw. exists (map (fun '(u, c, v) => (length (enc u), c)) (splits w)). split; [apply char_indices_enc; exact Hw|].
  assert (X : forall w pre, let l := map (fun '(u, c, v) => (length (enc u), c)) (splits_from pre w) in map snd l = w /\
    forall i n c, nth_error l i = Some (n, c) <-> exists u v, w = u ++ c :: v /\ length u = i /\ n = length (enc (pre ++ u))).
  { clear w Hw. induction w as [|x w IH]; intros pre; cbv zeta.
    - split; [reflexivity|]. intros [|i] n c; (split; [discriminate|intros ([|? u] & v & E & _); discriminate]).
    - cbn [splits_from map snd]. destruct (IH (pre ++ [x])) as [I1 I2]. cbv zeta in I1, I2. split; [f_equal; exact I1|].
      intros [|i] n c; cbn [nth_error].
      + split.
        * intros E. injection E as <- <-. exists [], w. rewrite app_nil_r. auto.
        * intros ([|y u] & v & E & L & ->); [|discriminate]. injection E as <- _. rewrite app_nil_r. reflexivity.
      + rewrite (I2 i n c). split.
        * intros (u & v & -> & <- & ->). exists (x :: u), v. rewrite <- app_assoc. auto.
        * intros ([|y u] & v & E & L & ->); [discriminate|]. injection E as <- ->. injection L as <-. exists u, v. rewrite <- app_assoc. auto. }
  exact (X w []).
Qed.
Print Assumptions C79_enumeration.

Section Dict.
Variable pl : platform.
Hypothesis WP : wf_platform pl.
Variable rn : runtime.
Hypothesis WN : wf_runtime rn.
Variable d : dictionary.
Hypothesis R : Reachable pl d.
Notation sg := (suggester_of pl rn d).
Notation U := (pl_unicode pl).
Notation h := (o_case (ad_options (d_aff d))).
Let OK : dict_ok pl d := reachable_ok WP R.
Let TB := dict_tables WP R.

(** ** C79 *)
(** Upper case for one character and lower case for the first leave the rest as it is. *)
Theorem C79_recased : forall lt lu ng u c v, scalars (u ++ c :: v) ->
  b_upper_char_at (sg lt lu ng) (enc (u ++ c :: v)) (length (enc u)) = Ret (enc (u ++ upper_char U h c ++ v)) /\
  (u = [] -> b_lower_first (sg lt lu ng) (enc (u ++ c :: v)) = Ret (enc (lower_char U h c ++ v))).
Proof.
  intros lt lu ng u c v Hw. split.
  - rewrite <- (boff_app u (c :: v)). rewrite (@upper_at_enc (sg lt lu ng)) by (exact Hw || (rewrite app_length; lia)).
    unfold upper_char_at. rewrite skipn_app_exact, firstn_app_exact by reflexivity. reflexivity.
  - intros ->. rewrite (@lower_first_enc (sg lt lu ng)) by exact Hw. reflexivity.
Qed.

(** The edits of one spelling, and the whole of [suggest], do on bytes what they do on characters:
    with any options, in builds with and without debug assertions, at every depth. *)
Theorem C79_edits_agree : forall lt lu ng fuel w out, scalars w ->
  b_suggest_low (sg lt lu ng) fuel (enc w) out = suggest_low (sg lt lu ng) fuel w out.
Proof.
  intros lt lu ng fuel w out Hw. destruct TB as (T1 & T2 & T3 & T4 & T5 & _).
  apply low_enc; [apply WP|apply dict_wf_compound; [exact WP|exact OK]|apply (replacements_scalars WP R)|exact T1|exact T2|exact T3|exact T4|exact T5|exact Hw].
Qed.
Theorem C79_suggest_agrees : forall lt lu ng fuel w out, scalars w ->
  b_suggest (sg lt lu ng) fuel (enc w) out = suggest (sg lt lu ng) fuel w out.
Proof.
  intros lt lu ng fuel w out Hw. destruct TB as (T1 & T2 & T3 & T4 & T5 & T6 & T7 & T8 & T9).
  assert (WW : Forall (fun e => scalars (fst e) /\ wf_flagset (snd e)) (su_words (sg lt lu ng))).
  { apply Forall_forall. intros [s f] H. cbn [fst snd]. apply (words_In pl WN d lt lu ng) in H.
    apply entries_In in H. destruct (@dict_entry_ok pl d OK s f H) as (S1 & _ & S2). exact (conj S1 (proj1 S2)). }
  apply suggest_enc; try assumption.
  - apply WP.
  - apply dict_wf_compound; [exact WP|exact OK].
  - apply (replacements_scalars WP R).
  - apply (breaks_scalars WP R lt lu).
  - apply dict_wf_checker; [exact WP|exact OK].
  - exact (wr_heaps WN).
Qed.
(** What it leaves in the vector is text. *)
Theorem C79_suggestions_are_text : forall lt lu ng fuel w out l, scalars w ->
  b_suggest (sg lt lu ng) fuel (enc w) out = Ret l -> Forall scalars l.
Proof.
  intros lt lu ng fuel w out l Hw H. rewrite C79_suggest_agrees in H by exact Hw. destruct TB as (T1 & T2 & T3 & T4 & T5 & T6 & T7 & T8 & T9).
  assert (WW : Forall (fun e => scalars (fst e) /\ wf_flagset (snd e)) (su_words (sg lt lu ng))).
  { apply Forall_forall. intros [s f] H'. cbn [fst snd]. apply (words_In pl WN d lt lu ng) in H'.
    apply entries_In in H'. destruct (@dict_entry_ok pl d OK s f H') as (S1 & _ & S2). exact (conj S1 (proj1 S2)). }
  unfold suggest in H. destruct (_ <? _)%N; [injection H as <-; constructor|].
  exact (@impl_scalars (sg lt lu ng) T1 T2 T3 T4 T5 (wp_unicode WP) T6 T7 T8 T9 (dict_wf_checker WP OK lt lu) (wr_heaps WN) WW fuel fuel w l Hw H).
Qed.

(** Where [suggest] is shown to return, no slice, insertion or removal it makes on the bytes is off
    a character boundary or out of bounds. *)
Theorem C79_edits_return : check_returns pl d -> case_total U -> ~ Correct pl d [] -> tame_input d ->
  forall w, scalars w -> exists l, Eventually (fun fuel => b_suggest (sg false false false) fuel (enc w) []) (Ret l) /\
    suggests pl rn d false false false w l.
Proof.
  intros H1 H2 H3 H4 w Hw. destruct (@C34_edits_return pl WP rn d R H1 H2 H3 H4 w Hw) as [l E]. exists l. split; [|exact E].
  destruct E as [n E]. exists n. intros m Hm. rewrite C79_suggest_agrees by exact Hw. exact (E m Hm).
Qed.
Theorem C79_suggest_returns : check_returns pl d -> case_total U -> ~ Correct pl d [] -> tame_input d -> wieldy pl d ->
  forall w, scalars w -> exists l, Eventually (fun fuel => b_suggest (sg false false true) fuel (enc w) []) (Ret l) /\
    suggests pl rn d false false true w l.
Proof.
  intros H1 H2 H3 H4 H5 w Hw. destruct (@C34_suggest_returns pl WP rn WN d R H1 H2 H3 H4 H5 w Hw) as [l E]. exists l. split; [|exact E].
  destruct E as [n E]. exists n. intros m Hm. rewrite C79_suggest_agrees by exact Hw. exact (E m Hm).
Qed.
End Dict.
Print Assumptions C79_recased.
Print Assumptions C79_edits_agree.
Print Assumptions C79_suggest_agrees.
Print Assumptions C79_suggestions_are_text.
Print Assumptions C79_edits_return.
Print Assumptions C79_suggest_returns.

(** ** Example: Greek words, with TRY, REP, MAP, KEY and OCONV *)
Definition greek_aff : str := lit "TRY " ++ [945; 959]%N ++ lit "
REP 1
REP " ++ [949]%N ++ lit " " ++ [945; 953]%N ++ lit "
MAP 1
MAP " ++ [953; 951]%N ++ lit "(" ++ [949; 953]%N ++ lit ")
KEY " ++ [954; 955]%N ++ lit "
OCONV 1
OCONV " ++ [962]%N ++ lit " s
".
Definition greek_dic : str := lit "4
" ++ [954; 945; 953]%N ++ lit "
" ++ [964; 951]%N ++ lit "
" ++ [955; 959; 962]%N ++ lit "
" ++ [957; 945]%N ++ lit "
".
Definition greek : dictionary := Eval vm_compute in (the (built ex_pl greek_aff greek_dic) <: dictionary).
Lemma greek_reachable : Reachable ex_pl greek. Proof. ex_dict greek_aff greek_dic. Qed.

Definition offered (w : str) : Res (list str) := b_suggest (suggester_of ex_pl ex_rn greek false false false) 9 (enc w) [].
Example C79_example :
  offered [954; 949]%N = Ret [[954; 945; 953]%N] /\
  offered [964; 949; 953]%N = Ret [[964; 951]%N] /\
  offered [954; 959; 962]%N = Ret [[955; 959; 115]%N] /\
  offered [957]%N = Ret [[957; 945]%N] /\
  offered [954; 945; 953; 957; 945]%N = Ret [[954; 945; 953; 32; 957; 945]%N] /\
  offered ([957; 945]%N ++ lit "-" ++ [954; 949]%N) = Ret [[957; 945; 45; 954; 945; 953]%N] /\
  b_remove (enc [954; 945]%N) 1 = Panic /\ check_returns ex_pl greek /\ tame_input greek /\ ~ Correct ex_pl greek [].
Proof.
  do 7 (split; [vm_compute; reflexivity|]). split; [split; [apply plain_shrinks; reflexivity|right; reflexivity]|].
  split; [constructor|]. apply nothing_incorrect; [reflexivity|reflexivity| |].
  - intros flags H. cbn in H. repeat (destruct H as [H|H]; [discriminate|]). destruct H.
  - intros [] a H; destruct H.
Qed.
Print Assumptions C79_example.
