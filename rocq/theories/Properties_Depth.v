(** Property C61: how deep [check] recurses. *)
From Coq Require Import String Ascii List NArith ZArith Lia Bool Arith.
From Verif Require Import Base Utf8 Unicode Flags Bag Condition Affix Conversion Aff Checker AffixSpec CompoundRule Rep CompoundSpec
  CompoundTotal RuleCompound Spell CheckSpec CheckMono CheckProps Parser ParserSafe Lib LibSpec LibProps Depth Examples
  Properties_Affix Properties_Compound Properties_Check.
Import ListNotations.
Local Open Scope string_scope.
Local Open Scope list_scope.
Local Open Scope nat_scope.
Set Implicit Arguments.

(** ICONV makes a word at most [r] times as long. *)
Definition iconv_growth (d : dictionary) (r : nat) : Prop :=
  1 <= r /\ Forall (fun c => length (cv_to c) <= r * length (cv_from c)) (ct_inner (ad_iconv (d_aff d))).
(** The case of a word is mapped once, or twice with an option of the checker. *)
Definition spellings (lt lu : bool) (c : nat) : nat := if lt || lu then c * c else c.

Lemma converts_length : forall l r w w', 1 <= r -> Forall (fun c => length (cv_to c) <= r * length (cv_from c)) l ->
  Converts l w w' -> length w' <= r * length w.
Proof.
  intros l r w w' R1 F H. induction H as [|x w out _ _ IH|c w out I _ _ _ IH]; [cbn; lia| |].
  - cbn [length]. lia.
  - rewrite !app_length. pose proof (proj1 (Forall_forall _ _) F c I). cbn beta in *. lia.
Qed.
Lemma length_blen : forall w, (N.of_nat (length w) <= blen w)%N.
Proof.
  induction w as [|c w IH]; [cbn; lia|]. cbn [length blen]. assert (1 <= len1 c)%N by (unfold len1; repeat destruct (_ <? _)%N; lia). lia.
Qed.

Section Dict.
Variable pl : platform.
Hypothesis WP : wf_platform pl.
Variable d : dictionary.
Hypothesis R : Reachable pl d.
Notation U := (pl_unicode pl).
Variables c r : nat.
Hypothesis G : case_growth U c.
Hypothesis IG : iconv_growth d r.
Hypothesis SH : Shrinks (d_aff d).

(** The depth is at most the length of the longest spelling tried ... *)
Theorem C61_depth_of_word : forall lt lu w fuel, scalars w -> spellings lt lu c * (r * length w) <= fuel ->
  check (checker_of pl d lt lu) fuel w <> NoFuel.
Proof using WP R G IG SH.
  intros lt lu w fuel Hw L. apply Hangs.live_iff.
  apply (@check_within (checker_of pl d lt lu) (dict_wf_full WP (reachable_ok WP R) lt lu SH) c G fuel w Hw).
  intros w' C. pose proof (converts_length (proj1 IG) (proj2 IG) C) as LC.
  assert (E : @factor (checker_of pl d lt lu) c = spellings lt lu c) by reflexivity. rewrite E. nia.
Qed.
(** ... and since longer words are refused, it is bounded for the dictionary. *)
Theorem C61_depth_of_check : forall lt lu w fuel, scalars w -> spellings lt lu c * (r * 360) <= fuel ->
  check (checker_of pl d lt lu) fuel w <> NoFuel.
Proof using WP R G IG SH.
  intros lt lu w fuel Hw L. destruct (max_word_len <? blen w)%N eqn:E.
  - unfold check. rewrite E. discriminate.
  - apply C61_depth_of_word; [exact Hw|]. apply N.ltb_ge in E. change max_word_len with 360%N in E. pose proof (length_blen w). nia.
Qed.
(** So one number serves as "sufficiently large" in all statements about [check]. *)
Theorem C61_answers_at : forall lt lu w b, scalars w ->
  (Eventually (fun n => check (checker_of pl d lt lu) n w) (Ret b) <->
   check (checker_of pl d lt lu) (spellings lt lu c * (r * 360)) w = Ret b).
Proof using WP R G IG SH.
  intros lt lu w b Hw. set (n0 := spellings lt lu c * (r * 360)). pose proof (@C61_depth_of_check lt lu w n0 Hw (le_n _)) as L. split.
  - intros [n E]. destruct (check_mono (checker_of pl d lt lu) (Nat.le_max_r n n0) w) as [H|H]; [contradiction|]. rewrite (E _ (Nat.le_max_l n n0)) in H. congruence.
  - intros E. exists n0. intros fuel Hf. destruct (check_mono (checker_of pl d lt lu) Hf w) as [H|H]; [contradiction|]. congruence.
Qed.
End Dict.

(** ** Examples *)
Lemma ascii_growth : case_growth ascii_unicode 1.
Proof. split; [apply le_n|]. intros ch _. split; apply le_n. Qed.
Definition dp_aff : str := lit "COMPOUNDFLAG C
COMPOUNDMIN 1
ICONV 1
ICONV q aa
".
Definition dp_dic : str := lit "1
a/C
".
Definition dp : dictionary := Eval vm_compute in (the (built ex_pl dp_aff dp_dic) <: dictionary).
Lemma dp_reachable : Reachable ex_pl dp. Proof. ex_dict dp_aff dp_dic. Qed.
(** The recursion is real: with fuel 2 the word below is not decided; 720 is enough for all. *)
Example C61_example : check (checker_of ex_pl dp false false) 2 (lit "aaqaab") = NoFuel /\
  forall w, scalars w -> check (checker_of ex_pl dp false false) 720 w <> NoFuel.
Proof.
  split; [vm_compute; reflexivity|]. intros w Hw.
  apply (@C61_depth_of_check ex_pl ex_pl_wf dp dp_reachable 1 2 ascii_growth).
  - split; [lia|]. vm_compute. repeat constructor.
  - apply plain_shrinks; reflexivity.
  - exact Hw.
  - vm_compute. lia.
Qed.

Print Assumptions C61_depth_of_word.
Print Assumptions C61_depth_of_check.
Print Assumptions C61_answers_at.
