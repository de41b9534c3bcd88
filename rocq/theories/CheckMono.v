(** More fuel never changes an answer of the checker: once [check] has answered, every
    larger amount of fuel gives the same answer. *)
From Coq Require Import List NArith Lia Bool Arith.
From Verif Require Import Base Utf8 Unicode Flags Condition Affix CompoundRule Aff Conversion Checker CompoundTotal Spell CheckSpec.
Import ListNotations.
Set Implicit Arguments.

Lemma refines_anyR : forall X (f g : X -> Res bool) l, (forall x, refines (f x) (g x)) ->
  refines (anyR f l) (anyR g l).
Proof.
  intros X f g l H. induction l as [|x l IH]; [apply refines_refl|]. cbn [anyR].
  destruct (H x) as [->| ->]; [left; reflexivity|]. destruct (g x) as [[|]| |]; cbn [bindR]; try apply refines_refl. exact IH.
Qed.

Section Mono.
Variable k : checker.
Variables f1 f2 : nat.
Hypothesis LE : f1 <= f2.

Lemma sharps_mono : forall n pre rest r,
  refines (do_spell_sharps k f1 n pre rest r) (do_spell_sharps k f2 n pre rest r).
Proof.
  induction n as [|n IH]; intros pre rest r; cbn [do_spell_sharps].
  - destruct (0 <? r); [apply check_word_mono; exact LE|apply refines_refl].
  - destruct (find_sub ss rest).
    + apply (@refines_orelse flagset); apply IH.
    + destruct (0 <? r); [apply check_word_mono; exact LE|apply refines_refl].
Qed.

Lemma upper_mono : forall w, refines (spell_casing_upper k f1 w) (spell_casing_upper k f2 w).
Proof.
  intro w. unfold spell_casing_upper. apply (@refines_orelse flagset); [apply check_word_mono; exact LE|].
  apply (@refines_orelse flagset).
  { destruct (apostrophe_split w) as [[a b]|]; [|apply refines_refl]. apply refines_bind; [apply refines_refl|]. intro t.
    apply (@refines_orelse flagset); [apply check_word_mono; exact LE|].
    apply refines_bind; [apply refines_refl|]. intro. apply check_word_mono; exact LE. }
  apply (@refines_orelse flagset).
  { refine1; [|apply refines_refl]. apply (@refines_orelse flagset); [apply sharps_mono|].
    apply refines_bind; [apply refines_refl|]. intro. apply sharps_mono. }
  apply (@refines_orelse flagset).
  { apply refines_bind; [apply refines_refl|]. intro. apply refines_bind; [apply check_word_mono; exact LE|]. intro. apply refines_refl. }
  apply refines_bind; [apply check_word_mono; exact LE|]. intro. apply refines_refl.
Qed.

Lemma title_mono : forall w, refines (spell_casing_title k f1 w) (spell_casing_title k f2 w).
Proof.
  intro w. unfold spell_casing_title. apply (@refines_orelse flagset); [apply check_word_mono; exact LE|].
  apply refines_bind; [apply check_word_mono; exact LE|]. intro. apply refines_refl.
Qed.

Lemma casing_mono : forall w, refines (spell_casing k f1 w) (spell_casing k f2 w).
Proof.
  intro w. unfold spell_casing. destruct (classify_casing (ck_u k) w); try apply upper_mono; try apply title_mono.
  all: apply (@refines_orelse flagset); [apply check_word_mono; exact LE|].
  all: apply (@refines_orelse flagset).
  all: try (destruct (ck_lower_as_upper k); [apply upper_mono|apply refines_refl]).
  all: refine1; [|apply refines_refl].
  all: apply refines_bind; [apply refines_refl|]; intro; apply title_mono.
Qed.

Lemma break_mono : forall n w, refines (do_spell_break k f1 n w) (do_spell_break k f2 n w).
Proof.
  induction n as [|n IH]; intro w; cbn [do_spell_break]; (apply refines_bind; [apply casing_mono|]); intros [f|]; try apply refines_refl.
  apply refines_bind; [apply refines_anyR; intro p; destruct (strip_prefix p w); [apply IH|apply refines_refl]|].
  intro b1. refine1; [apply refines_refl|].
  apply refines_bind; [apply refines_anyR; intro p; destruct (strip_suffix p w); [apply IH|apply refines_refl]|].
  intro b2. refine1; [apply refines_refl|].
  apply refines_anyR. intro p. destruct (split_once p w) as [[x y]|]; [|apply refines_refl].
  refine1; [apply refines_refl|]. apply refines_bind; [apply IH|]. intro c. refine1; [apply IH|apply refines_refl].
Qed.

Theorem check_mono : forall w, refines (check k f1 w) (check k f2 w).
Proof.
  intro w. unfold check. refine1; [apply refines_refl|]. apply refines_bind; [apply refines_refl|]. intros [|c w']; [apply refines_refl|].
  refine1; [apply refines_refl|]. apply refines_bind; [apply break_mono|]. intro b.
  refine1; [apply refines_refl|]. refine1; [apply break_mono|apply refines_refl].
Qed.
End Mono.

Lemma refines_ret : forall X (r1 r2 : Res X), r1 <> NoFuel -> refines r1 r2 -> r2 = r1.
Proof. intros X r1 r2 H [E|E]; congruence. Qed.

(** One computed answer settles the word for good. *)
Theorem check_settles : forall k n w r, r <> NoFuel -> check k n w = r -> Eventually (fun fuel => check k fuel w) r.
Proof.
  intros k n w r Hr E. exists n. intros fuel LE. pose proof (@check_mono k n fuel LE w) as M. rewrite E in M.
  apply refines_ret; assumption.
Qed.
