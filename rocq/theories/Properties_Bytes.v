(** Properties C62 and C63: the code that indexes or overwrites the bytes of a string without a
    check - the n-gram view of a string, the stem buffer, the "ss" buffer and the escaped word of a
    dictionary line - never leaves the bytes of valid text, and computes what the character-level
    model says. *)
From Coq Require Import String Ascii List NArith ZArith Lia Bool Arith.
From Verif Require Import Base Utf8 Unicode Flags Affix Conversion Aff Checker Spell CheckMono CheckProps Parser ParserSafe Lib LibSpec LibProps
  Ngram CharsStr Scratch Examples Properties_Check.
Import ListNotations.
Local Open Scope string_scope.
Local Open Scope list_scope.
Local Open Scope nat_scope.
Set Implicit Arguments.

(** The bytes of a [String] that reads [w]: [String]'s own invariant. *)
Definition utf8 (bytes : list N) (w : str) : Prop := dec bytes = Some w.
Lemma utf8_enc : forall bytes w, utf8 bytes w -> bytes = enc w /\ scalars w.
Proof. intros bytes w H. apply dec_spec in H. exact H. Qed.

(** ** C62 *)
(** [v] is a view of the text [s]: what the methods of [CharsStr] may answer. *)
Record Views (v : chars) (s : str) : Prop := {
  vw_len : len_chars v = length s;
  vw_empty : chars_empty v = true <-> s = [];
  vw_slice : forall u m t, s = u ++ m ++ t -> exists x, char_slice v (length u) (length u + length m) = Val x /\ utf8 x m;
  vw_slice_out : forall a b, a <= b -> length s < b -> char_slice v a b = Panics;
  vw_at : forall u c t, s = u ++ c :: t -> exists x, str_char_at v (length u) = Val x /\ utf8 x [c];
  vw_at_out : forall i, length s <= i -> str_char_at v i = Panics;
  vw_iter : exists l, char_iter v = Val l /\ Forall2 (fun x c => utf8 x [c]) l s }.

Theorem C62_new : forall bytes s, utf8 bytes s ->
  ((N.of_nat (length bytes) <= 65535)%N -> exists v, chars_new bytes = Val v /\ Views v s) /\
  ((65535 < N.of_nat (length bytes))%N -> chars_new bytes = Panics).
Proof.
  intros bytes s H. apply utf8_enc in H. destruct H as [-> Hs]. pose proof (blen_enc s) as BE.
  assert (H1 : forall c, In c s -> scalars [c]) by (intros c Hc; constructor; [apply (proj1 (Forall_forall _ _) Hs), Hc|constructor]).
  assert (D1 : forall c, In c s -> utf8 (enc1 c) [c]).
  { intros c Hc. unfold utf8. replace (enc1 c) with (enc [c]) by (cbn; apply app_nil_r). apply dec_enc, H1, Hc. }
  split.
  - intros L. exists (view s). split; [apply new_view; [exact Hs|lia]|]. split.
    + apply len_view.
    + rewrite empty_view by exact Hs. destruct s; split; try discriminate; reflexivity.
    + intros u m t E. exists (enc m). rewrite slice_view by (exact Hs || lia). assert (LS : length s = length u + (length m + length t)) by (rewrite E, !app_length; reflexivity).
      destruct (Nat.leb_spec (length u + length m) (length s)); [|lia]. split.
      * f_equal. f_equal. rewrite E. unfold slice. replace (length u + length m - length u) with (length m) by lia.
        rewrite skipn_app, Nat.sub_diag, skipn_all. cbn [skipn app]. rewrite firstn_app, Nat.sub_diag, firstn_all. cbn. apply app_nil_r.
      * apply dec_enc. rewrite E in Hs. apply Forall_app in Hs. destruct Hs as [_ Hs]. apply Forall_app in Hs. apply Hs.
    + intros a b LE LT. rewrite slice_view by assumption. destruct (Nat.leb_spec b (length s)); [lia|reflexivity].
    + intros u c t E. exists (enc1 c). rewrite at_view by exact Hs.
      assert (NE : nth_error s (length u) = Some c) by (rewrite E, nth_error_app2, Nat.sub_diag by lia; reflexivity). rewrite NE.
      split; [reflexivity|]. apply D1. apply nth_error_In in NE. exact NE.
    + intros i LI. rewrite at_view by exact Hs. apply nth_error_None in LI. rewrite LI. reflexivity.
    + exists (map enc1 s). split; [apply iter_view, Hs|]. clear -D1. induction s as [|c s IH]; constructor.
      * apply D1. left. reflexivity.
      * apply IH. intros x Hx. apply D1. right. exact Hx.
  - intros L. unfold chars_new. destruct (N.leb_spec (N.of_nat (length (enc s))) 65535); [lia|reflexivity].
Qed.

(** The measures through two such views are the measures of the characters. *)
Theorem C62_measures : forall x y s t v w, utf8 x s -> utf8 y t -> chars_new x = Val v -> chars_new y = Val w ->
  (forall n, b_similarity n v y = Val (ngram_similarity n s t)) /\
  (forall n, b_longer_worse n v w = Val (ngram_similarity_longer_worse n s t)) /\
  (forall n, b_any_mismatch n v y = Val (ngram_similarity_any_mismatch n s t)) /\
  (forall n, b_weighted n v y = Val (ngram_similarity_weighted n s t)) /\
  (forall n, b_any_mismatch_weighted n v w = Val (ngram_similarity_any_mismatch_weighted n s t)) /\
  b_lcs v w = Val (longest_common_subsequence_length s t) /\
  b_count_eq v w = Val (count_eq_at_same_pos s t).
Proof.
  assert (G : forall x s v, utf8 x s -> chars_new x = Val v -> x = enc s /\ scalars s /\ v = view s).
  { intros x s v U E. destruct (utf8_enc U) as [-> Hs]. split; [reflexivity|]. split; [exact Hs|].
    assert (L : (blen s <= 65535)%N).
    { pose proof (blen_enc s). unfold chars_new in E. destruct (N.leb_spec (N.of_nat (length (enc s))) 65535); [lia|discriminate]. }
    rewrite new_view in E by assumption. injection E as <-. reflexivity. }
  intros x y s t v w Ux Uy Ex Ey. destruct (G _ _ _ Ux Ex) as (-> & Hs & ->). destruct (G _ _ _ Uy Ey) as (-> & Ht & ->).
  repeat split; intros.
  - apply similarity_view; assumption.
  - apply longer_worse_view; assumption.
  - apply any_mismatch_view; assumption.
  - apply weighted_view; assumption.
  - apply any_mismatch_weighted_view; assumption.
  - apply lcs_view; assumption.
  - apply count_eq_view; assumption.
Qed.

(** "été" and "thé": two-byte characters, a common substring, and one equal position. *)
Example C62_example : let x := [195; 169; 116; 195; 169]%N in let y := [116; 104; 195; 169]%N in
  utf8 x [233; 116; 233]%N /\ utf8 y [116; 104; 233]%N /\
  exists v w, chars_new x = Val v /\ chars_new y = Val w /\ char_slice v 1 3 = Val [116; 195; 169]%N /\
    b_similarity 2 v y = Val 3%Z /\ b_lcs v w = Val 2 /\ b_count_eq v w = Val (1, false).
Proof.
  cbv zeta. split; [reflexivity|]. split; [reflexivity|]. eexists. eexists. split; [reflexivity|]. split; [reflexivity|].
  repeat split; vm_compute; reflexivity.
Qed.

(** ** C63 *)
(** What a call leaves: text, in valid UTF-8, and a stem buffer that can be used again. *)
Definition Usable (sb : stem_buf) : Prop := length (sb_inline sb) = 64.
Definition Text (a : affix) : Prop := scalars (a_add a) /\ scalars (strip_text a).

(** The buffer returns the two texts joined whatever it held before. *)
Theorem C63_concat : forall dbg sb x y a b, Usable sb -> utf8 x a -> utf8 y b -> dbg = false \/ length x + length y <= 360 ->
  exists z sb', concat dbg sb x y = Val (z, sb') /\ utf8 z (a ++ b) /\ Usable sb'.
Proof.
  intros dbg sb x y a b U X Y L. destruct (utf8_enc X) as [-> Ha]. destruct (utf8_enc Y) as [-> Hb].
  assert (Hab : scalars (a ++ b)) by (apply Forall_app; split; assumption).
  destruct (@concat_spec dbg sb a b U Hab) as (sb' & E & U').
  { destruct L as [L|L]; [left; exact L|right]. pose proof (blen_enc (a ++ b)) as BE. rewrite enc_app, app_length in BE. lia. }
  exists (enc (a ++ b)), sb'. split; [exact E|]. split; [apply dec_enc, Hab|exact U'].
Qed.

(** The stem of a word that carries an affix: the affix is cut off and its strip put back. *)
Theorem C63_prefix_stem : forall dbg a bytes r sb, Text a -> Usable sb -> utf8 bytes (a_add a ++ r) ->
  dbg = false \/ (blen (strip_text a ++ r) <= 360)%N ->
  exists z sb', prefix_to_stem_into dbg a bytes sb = Val (z, sb') /\ utf8 z (strip_text a ++ r) /\ Usable sb'.
Proof.
  intros dbg a bytes r sb [_ HT] U X L. destruct (utf8_enc X) as [-> Hw].
  assert (E : prefix_to_stem a (a_add a ++ r) = strip_text a ++ r).
  { unfold prefix_to_stem, strip_text. rewrite skipn_app, Nat.sub_diag, skipn_all. cbn [skipn app]. destruct (a_strip a); reflexivity. }
  destruct (@prefix_to_stem_into_spec dbg a _ r sb eq_refl Hw HT U) as (sb' & E1 & U'); [rewrite E; exact L|]. rewrite E in E1.
  exists (enc (strip_text a ++ r)), sb'. split; [exact E1|]. split; [|exact U']. apply dec_enc. apply Forall_app. split; [exact HT|].
  apply Forall_app in Hw. apply Hw.
Qed.
Theorem C63_suffix_stem : forall dbg a bytes r sb, Text a -> Usable sb -> utf8 bytes (r ++ a_add a) ->
  dbg = false \/ (blen (r ++ strip_text a) <= 360)%N ->
  exists z sb', suffix_to_stem_into dbg a bytes sb = Val (z, sb') /\ utf8 z (r ++ strip_text a) /\ Usable sb'.
Proof.
  intros dbg a bytes r sb [_ HT] U X L. destruct (utf8_enc X) as [-> Hw].
  assert (E : suffix_to_stem a (r ++ a_add a) = r ++ strip_text a).
  { unfold suffix_to_stem, strip_text. rewrite app_length. replace (length r + length (a_add a) - length (a_add a)) with (length r) by lia.
    rewrite firstn_app, Nat.sub_diag, firstn_all. cbn [firstn]. rewrite app_nil_r. destruct (a_strip a); [reflexivity|symmetry; apply app_nil_r]. }
  destruct (@suffix_to_stem_into_spec dbg a _ r sb eq_refl Hw HT U) as (sb' & E1 & U'); [rewrite E; exact L|]. rewrite E in E1.
  exists (enc (r ++ strip_text a)), sb'. split; [exact E1|]. split; [|exact U']. apply dec_enc. apply Forall_app. split; [|exact HT].
  apply Forall_app in Hw. apply Hw.
Qed.

(** The comment on the buffer (aff.rs 27) says that a stem is never longer than the word may be.
    It is, when an affix strips more than it adds: then a build with debug assertions panics on a
    word that another build accepts. *)
Definition ls_body : str := repeat 97%N 358.
Definition ls_aff : str := lit "SFX A Y 1
SFX A yyy x .
".
Definition ls_dic : str := lit "1
" ++ ls_body ++ lit "yyy/A
".
Definition ls : dictionary := Eval vm_compute in (the (built ex_pl ls_aff ls_dic) <: dictionary).
Lemma ls_reachable : Reachable ex_pl ls. Proof. ex_dict ls_aff ls_dic. Qed.
Theorem C63_stem_length_refuted : exists d a w, Reachable ex_pl d /\ In a (i_table (ad_suffixes (d_aff d))) /\ (blen w <= 360)%N /\
  accepted ex_pl d w /\ suffix_to_stem_into true a (enc w) stem_buf_new = Panics /\
  exists z sb', suffix_to_stem_into false a (enc w) stem_buf_new = Val (z, sb').
Proof.
  exists ls. eexists. exists (ls_body ++ [120%N]). split; [exact ls_reachable|]. split; [left; reflexivity|].
  split; [vm_compute; discriminate|]. split; [settle 3|]. split; [vm_compute; reflexivity|]. eexists. eexists. vm_compute. reflexivity.
Qed.

(** The search for "ß" in a word written with "ss": the buffer is always text, the answer is that of
    the model, and after a failed search the word is what it was. *)
Theorem C63_sharps : forall k fuel bytes w, utf8 bytes w ->
  exists buf w', b_sharps (fun w => check_word k fuel w AllowBadForceucase AcceptHiddenHomonym) 5 bytes 0 0 = Val (spell_sharps k fuel w, buf) /\
    utf8 buf w' /\ (spell_sharps k fuel w = Ret None -> w' = w).
Proof.
  intros k fuel bytes w X. destruct (utf8_enc X) as [-> Hw]. destruct (@sharps_spec k fuel 5 [] w 0 Hw) as (buf & E & R & w' & Hw' & -> & _).
  exists (enc w'), w'. split; [exact E|]. split; [apply dec_enc, Hw'|]. intros N0. specialize (R N0). apply enc_inj in R; try assumption.
Qed.

(** A dictionary line with an escaped slash, from its first special character on. *)
Definition word_of (e : dic_end) : str := match e with DicWord w => w | DicFlags w _ => w end.
Theorem C63_escaped : forall pl dbg line before bytes, scalars line -> utf8 bytes before ->
  exists e, dic_go pl line true false (rev before) = Ret e /\
    match b_dic_go pl dbg line true false bytes, e with
    | Val (BWord x), DicWord w => utf8 x w
    | Val (BFlags x f), DicFlags w f' => utf8 x w /\ f = f'
    | _, _ => False
    end.
Proof.
  intros pl dbg line before bytes Hl X. destruct (utf8_enc X) as [-> Hb].
  destruct (@dic_bytes pl dbg line true false (rev before) Hl (Forall_rev Hb) ltac:(discriminate)) as (e & E & B & W). exists e. split; [exact E|].
  rewrite rev_involutive in B. rewrite B. destruct e as [w|w f]; cbn [enc_end]; [apply dec_enc, W|split; [apply dec_enc, W|reflexivity]].
Qed.

(** A stem in a buffer full of other bytes; a line whose word is "a/b"; "masse" found as it is written and
    with "ß", in which case the buffer keeps the found word. *)
Example C63_example :
  (exists sb, suffix_to_stem_into true (mkAffix 65%N true (Some (lit "y")) (lit "ies") None []) (lit "pies")
    (mkStemBuf (repeat 255%N 64) []) = Val (lit "py", sb) /\
    firstn 3 (sb_inline sb) = lit "py" ++ [255%N]) /\
  b_dic_go ex_pl true (lit "\/b/AB") true false (lit "a") = Val (BFlags (lit "a/b") (lit "AB")) /\
  b_sharps (fun w => Ret (if str_eqb w (lit "masse") then Some [7%N] else None)) 5 (lit "masse") 0 0 = Val (Ret (Some [7%N]), lit "masse") /\
  b_sharps (fun w => Ret (if str_eqb w [109; 97; 223; 101]%N then Some [7%N] else None)) 5 (lit "masse") 0 0 = Val (Ret (Some [7%N]), [109; 97; 195; 159; 101]%N).
Proof. split; [eexists; split; vm_compute; reflexivity|]. repeat split; vm_compute; reflexivity. Qed.

Print Assumptions C62_new.
Print Assumptions C62_measures.
Print Assumptions C63_concat.
Print Assumptions C63_prefix_stem.
Print Assumptions C63_suffix_stem.
Print Assumptions C63_stem_length_refuted.
Print Assumptions C63_sharps.
Print Assumptions C63_escaped.
