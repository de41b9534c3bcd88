(** More fuel changes nothing once [suggest] has an answer. *)
From Coq Require Import List NArith ZArith Lia Bool Arith Permutation.
From Coq Require Import ZifyBool ZifyNat ZifyN.
From Verif Require Import Base Utf8 Unicode Flags Affix Conversion Aff Checker Bag BufferOps Ngram Suggester
  CompoundTotal CheckSpec CheckMono.
Import ListNotations.
Set Implicit Arguments.

Lemma refines_foldR : forall S A (f g : S -> A -> Res S) l s, (forall s a, refines (f s a) (g s a)) ->
  refines (foldR f l s) (foldR g l s).
Proof.
  intros S A f g l. induction l as [|a l IH]; intros s H; [apply refines_refl|].
  cbn [foldR]. apply refines_bind; [apply H|]. intros s'. apply IH. exact H.
Qed.
Lemma refines_loopR : forall S A (f g : S -> A -> Res (S + S)) l s, (forall s a, refines (f s a) (g s a)) ->
  refines (loopR f l s) (loopR g l s).
Proof.
  intros S A f g l. induction l as [|a l IH]; intros s H; [apply refines_refl|].
  cbn [loopR]. apply refines_bind; [apply H|]. intros [s'|s']; [apply IH; exact H|apply refines_refl].
Qed.
Lemma refines_mapR : forall A B (f g : A -> Res B) l, (forall a, refines (f a) (g a)) -> refines (mapR f l) (mapR g l).
Proof.
  intros A B f g l H. induction l as [|a l IH]; [apply refines_refl|].
  cbn [mapR]. apply refines_bind; [apply H|]. intros b. apply refines_bind; [exact IH|]. intros. apply refines_refl.
Qed.
Lemma refines_debug : forall A d b (x y : Res A), refines x y -> refines (debug_assert d b x) (debug_assert d b y).
Proof. intros A d b x y H. unfold debug_assert. destruct (d && negb b); [apply refines_refl|exact H]. Qed.

Section Mono.
Variable sg : suggester.
Variables f1 f2 : nat.
Hypothesis LE : f1 <= f2.

Create HintDb mono.
Ltac mono := repeat
  match goal with
  | |- refines ?a ?b => constr_eq a b; apply refines_refl
  | |- refines (bindR _ _) (bindR _ _) => apply refines_bind; [|intros]
  | |- refines (debug_assert _ _ _) (debug_assert _ _ _) => apply refines_debug
  | |- refines (foldR _ _ _) (foldR _ _ _) => apply refines_foldR; intros
  | |- refines (loopR _ _ _) (loopR _ _ _) => apply refines_loopR; intros
  | |- refines (mapR _ _) (mapR _ _) => apply refines_mapR; intros
  | |- refines (match ?x with _ => _ end) (match ?x with _ => _ end) => destruct x
  | |- _ => solve [auto with mono]
  end.

Lemma cw_mono : forall w fu hh, refines (check_word (su_checker sg) f1 w fu hh) (check_word (su_checker sg) f2 w fu hh).
Proof. intros. apply check_word_mono. exact LE. Qed.
Lemma ck_mono : forall w, refines (check (su_checker sg) f1 w) (check (su_checker sg) f2 w).
Proof. intros. apply check_mono. exact LE. Qed.
Hint Resolve cw_mono ck_mono : mono.
Lemma add_mono : forall w out, refines (add_suggestion_if_correct sg f1 w out) (add_suggestion_if_correct sg f2 w out).
Proof. intros. unfold add_suggestion_if_correct. mono. Qed.
Hint Resolve add_mono : mono.
Lemma try_mono : forall w out, refines (try sg f1 w out) (try sg f2 w out).
Proof. intros. unfold try. mono. Qed.
Hint Resolve try_mono : mono.
Lemma parts_mono : forall n w, refines (rep_parts sg f1 n w) (rep_parts sg f2 n w).
Proof. induction n as [|n IH]; intros w; cbn [rep_parts]; mono. Qed.
Hint Resolve parts_mono : mono.
Lemma try_rep_mono : forall w out, refines (try_rep_suggestion sg f1 w out) (try_rep_suggestion sg f2 w out).
Proof. intros. unfold try_rep_suggestion. mono. Qed.
Hint Resolve try_rep_mono : mono.
Lemma rep_mono : forall w out, refines (rep_suggest sg f1 w out) (rep_suggest sg f2 w out).
Proof. intros. unfold rep_suggest, rep_start_step, rep_end_step, rep_any_step, rep_at_step. mono. Qed.
Lemma map_try_mono : forall r1 r2 w e u n s, (forall w i m, refines (r1 w i m) (r2 w i m)) ->
  refines (map_try sg f1 r1 w e u n s) (map_try sg f2 r2 w e u n s).
Proof. intros. unfold map_try. mono. Qed.
Lemma map_body_mono : forall r1 r2 w i m, (forall w i m, refines (r1 w i m) (r2 w i m)) ->
  refines (map_body sg f1 r1 w i m) (map_body sg f2 r2 w i m).
Proof.
  intros r1 r2 w i m H. pose proof (fun w e u n s => @map_try_mono r1 r2 w e u n s H) as HT.
  unfold map_body, map_at, map_from_char, map_from_string. mono.
Qed.
Lemma map_impl_mono : forall n1 n2 w i m, n1 <= n2 -> refines (map_suggest_impl sg f1 n1 w i m) (map_suggest_impl sg f2 n2 w i m).
Proof.
  induction n1 as [|n1 IH]; intros [|n2] w i m H; cbn [map_suggest_impl]; try apply refines_nofuel; [lia|].
  apply map_body_mono. intros. apply IH. lia.
Qed.
Lemma map_mono : forall w out, refines (map_suggest sg f1 w out) (map_suggest sg f2 w out).
Proof. intros. unfold map_suggest. pose proof map_impl_mono. mono. Qed.
Lemma adjacent_loop_mono : forall w r i b o, refines (adjacent_loop sg f1 w r i b o) (adjacent_loop sg f2 w r i b o).
Proof. intros w. induction r as [|c r IH]; intros i b o; cbn [adjacent_loop]; mono. Qed.
Hint Resolve rep_mono map_mono adjacent_loop_mono : mono.
Lemma adjacent_mono : forall w out, refines (adjacent_swap_suggest sg f1 w out) (adjacent_swap_suggest sg f2 w out).
Proof. intros. unfold adjacent_swap_suggest. mono. Qed.
Lemma distant_outer_mono : forall w r i s, refines (distant_outer sg f1 w r i s) (distant_outer sg f2 w r i s).
Proof. intros w. induction r as [|c r IH]; intros i s; cbn [distant_outer]; mono. Qed.
Hint Resolve adjacent_mono distant_outer_mono : mono.
Lemma distant_mono : forall w out, refines (distant_swap_suggest sg f1 w out) (distant_swap_suggest sg f2 w out).
Proof. intros. unfold distant_swap_suggest. mono. Qed.
Lemma keyboard_mono : forall w out, refines (keyboard_suggest sg f1 w out) (keyboard_suggest sg f2 w out).
Proof. intros. unfold keyboard_suggest, keyboard_step, kb_try. mono. Qed.
Lemma extra_mono : forall w out, refines (extra_char_suggest sg f1 w out) (extra_char_suggest sg f2 w out).
Proof. intros. unfold extra_char_suggest. mono. Qed.
Lemma forgotten_mono : forall w out, refines (forgotten_char_suggest sg f1 w out) (forgotten_char_suggest sg f2 w out).
Proof. intros. unfold forgotten_char_suggest. mono. Qed.
Lemma wrong_mono : forall w out, refines (wrong_char_suggest sg f1 w out) (wrong_char_suggest sg f2 w out).
Proof. intros. unfold wrong_char_suggest. mono. Qed.
Lemma doubled_loop_mono : forall w r i o, refines (doubled_loop sg f1 w i r o) (doubled_loop sg f2 w i r o).
Proof. intros w. induction r as [|c r IH]; intros i o; cbn [doubled_loop]; mono. Qed.
Hint Resolve doubled_loop_mono : mono.
Lemma doubled_mono : forall w out, refines (doubled_two_chars_suggest sg f1 w out) (doubled_two_chars_suggest sg f2 w out).
Proof. intros. unfold doubled_two_chars_suggest. mono. Qed.
Lemma move_right_mono : forall w r i s, refines (move_right sg f1 w r i s) (move_right sg f2 w r i s).
Proof. intros w. induction r as [|c r IH]; intros i s; cbn [move_right]; mono. Qed.
Lemma move_left_mono : forall w r s, refines (move_left sg f1 w r s) (move_left sg f2 w r s).
Proof. intros w. induction r as [|c r IH]; intros s; cbn [move_left]; mono. Qed.
Hint Resolve move_right_mono move_left_mono : mono.
Lemma move_mono : forall w out, refines (move_char_suggest sg f1 w out) (move_char_suggest sg f2 w out).
Proof. intros. unfold move_char_suggest. mono. Qed.
Hint Resolve distant_mono keyboard_mono extra_mono forgotten_mono wrong_mono doubled_mono move_mono : mono.
Lemma low_mono : forall w out, refines (suggest_low sg f1 w out) (suggest_low sg f2 w out).
Proof. intros. unfold suggest_low, uppercase_suggest. mono. Qed.
Hint Resolve low_mono : mono.
Lemma compound_mono : forall m w fu,
  refines (check_compound (su_checker sg) f1 m w fu) (check_compound (su_checker sg) f2 m w fu).
Proof.
  intros m w fu. unfold check_compound. apply refines_orelse; [|apply refines_refl].
  destruct (allows_compounding _); [|apply refines_refl].
  unfold check_compound_flags. apply CompoundTotal.impl_mono. apply middle_mono. exact LE.
Qed.
Hint Resolve compound_mono : mono.
Lemma casing_mono : forall w out, refines (by_casing sg f1 w out) (by_casing sg f2 w out).
Proof. intros. unfold by_casing, low_and_first. mono. Qed.
Lemma dash_loop_mono : forall r1 r2 n w i out, (forall w, refines (r1 w) (r2 w)) ->
  refines (dash_loop sg f1 n r1 w i out) (dash_loop sg f2 n r2 w i out).
Proof. intros r1 r2. induction n as [|n IH]; intros w i out H; cbn [dash_loop]; unfold dash_push; mono. Qed.
Lemma impl_mono : forall n1 n2 w out, n1 <= n2 -> refines (suggest_impl sg f1 n1 w out) (suggest_impl sg f2 n2 w out).
Proof.
  induction n1 as [|n1 IH]; intros n2 w out H.
  - destruct w; [destruct n2; apply refines_refl|apply refines_nofuel].
  - destruct n2 as [|n2]; [lia|]. cbn [suggest_impl]. destruct w as [|c w]; [apply refines_refl|].
    pose proof casing_mono. pose proof (@dash_loop_mono (fun p => suggest_impl sg f1 n1 p []) (fun p => suggest_impl sg f2 n2 p [])).
    assert (forall w, refines (suggest_impl sg f1 n1 w []) (suggest_impl sg f2 n2 w [])) by (intros; apply IH; lia).
    unfold by_dash, retain_step. mono.
Qed.
Theorem suggest_mono : forall w out, refines (suggest sg f1 w out) (suggest sg f2 w out).
Proof. intros. unfold suggest. pose proof impl_mono. mono. Qed.
End Mono.

Theorem suggest_settles : forall sg n w out r, r <> NoFuel -> suggest sg n w out = r ->
  Eventually (fun fuel => suggest sg fuel w out) r.
Proof.
  intros sg n w out r Hr E. exists n. intros fuel H. apply refines_ret; [exact Hr|]. rewrite <- E. apply suggest_mono. exact H.
Qed.
