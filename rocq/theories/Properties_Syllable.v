(** Property C59: how COMPOUNDWORDMAX counts, and the exception COMPOUNDSYLLABLE makes.
    [Split], [Scored] and [Allowed] (Syllables.v) say it in terms of entries, rules and options. *)
From Coq Require Import String Ascii List NArith ZArith Lia Bool Arith Permutation.
From Verif Require Import Base Utf8 Unicode Flags Condition Affix Aff Checker AffixSpec CompoundRule Rep CompoundSpec CompoundTotal
  RuleCompound Spell CheckSpec CheckMono CheckProps Parser ParserSafe Lib LibSpec LibProps Examples Properties_Affix Properties_Compound
  Properties_Check Properties_Parse Syllables.
Import ListNotations.
Local Open Scope string_scope.
Local Open Scope list_scope.
Local Open Scope nat_scope.
Set Implicit Arguments.

Section Mono.
Variable U : unicode.
Variable A : affdata.
Variables e1 e2 : str -> flagset -> Prop.
Hypothesis E12 : forall s f, e1 s f -> e2 s f.
Lemma Scored_mono : forall m w n z, Scored A e1 m w n z -> Scored A e2 m w n z.
Proof.
  intros m w n z H. destruct H as [f n z He H1 H2 H3 R Z|s st f n z HO R Z|p st f n HO R|p s st f n z HO R Z].
  - eapply Sc_stem; eauto.
  - eapply Sc_suffix; eauto. eapply OneAffix_mono; [exact E12|exact HO].
  - eapply Sc_prefix; eauto. eapply OneAffix_mono; [exact E12|exact HO].
  - eapply Sc_both; eauto. eapply PrefixSuffix_mono; [exact E12|exact HO].
Qed.
Lemma Split_mono : forall m l r t z, Split U A e1 m l r t z -> Split U A e2 m l r t z.
Proof.
  intros m l r t z H. induction H.
  - eapply Split_two; eauto using Scored_mono.
  - eapply Split_more; eauto using Scored_mono.
Qed.
End Mono.

Section Dict.
Variable pl : platform.
Hypothesis WP : wf_platform pl.
Variable d : dictionary.
Hypothesis R : Reachable pl d.
Notation k := (checker_of pl d false false).
Notation U := (pl_unicode pl).
Notation opts := (ad_options (d_aff d)).

Let OK : dict_ok pl d := reachable_ok WP R.
Let wfc : wf_compound k. Proof. apply dict_wf_compound; [exact WP|exact OK]. Qed.
Let iff_known : forall s f, In f (ck_get k s) <-> listed d s f.
Proof. intros. rewrite (entries_get WP). apply entries_In. Qed.

(** Affixes of an ordinary length. *)
Definition ShortAffixes : Prop := forall kd a, In a (rules (d_aff d) kd) -> (syllables (d_aff d) (a_add a) <= 32000)%N.

(** ** C59 *)
(** A compound is found exactly when the word can be cut into parts that are few enough, or
    the word has few enough syllables. *)
Theorem C59_words_and_syllables : PlainCompounding d -> ShortAffixes -> Unambiguous (d_aff d) (listed d) ->
  pl_overflow_checks pl = false \/ ad_vowels (d_aff d) = [] ->
  forall fuel w fu, scalars w -> length w <= fuel ->
  ((exists e, check_compound_flags k fuel AT_BEGIN w fu = Ret (Some e)) <->
   exists t z, Split U (d_aff d) (listed d) AT_BEGIN [] w t z /\ Allowed (d_aff d) t (Z.of_N (syllables (d_aff d) w) + z)).
Proof.
  intros [P1 P2 P3 P4 P5 P7] SM UN NC fuel w fu Hw HF.
  assert (ST : strict k = true).
  { unfold strict. cbn [ck_overflow_checks ck_aff checker_of]. destruct NC as [-> | ->]; [reflexivity|]. cbn [nonempty]. rewrite andb_false_r. reflexivity. }
  pose proof (C41_in_range WP R) as IR.
  rewrite (@split_iff k wfc ST P1 P2 P3 P4 P5).
  - split; intros (t & z & H & AW); exists t, z; (split; [|exact AW]); (eapply Split_mono; [|exact H]); intros s f; apply iff_known.
  - intros s f H. apply (P7 s). apply iff_known, H.
  - exact SM.
  - cbn [ck_aff checker_of]. destruct (o_syllable_max opts) as [n|] eqn:E; [|lia]. apply (ir_syllables IR) in E. lia.
  - intros m w' n1 z1 n2 z2 H1 H2. eapply UN; (eapply Scored_mono; [|eassumption]); intros s f; apply iff_known.
  - exact Hw.
  - exact HF.
Qed.

(** At the interface: such a word is accepted. *)
Theorem C59_accepted : PlainCompounding d -> ShortAffixes -> Unambiguous (d_aff d) (listed d) ->
  pl_overflow_checks pl = false \/ ad_vowels (d_aff d) = [] -> allows_compounding opts = true ->
  (forall stem f, listed d stem f -> ~ Blocked k f) ->
  forall w t z, scalars w -> ordinary k w -> Split U (d_aff d) (listed d) AT_BEGIN [] w t z ->
  Allowed (d_aff d) t (Z.of_N (syllables (d_aff d) w) + z) ->
  Eventually (fun fuel => dict_check pl d fuel w) (Ret true).
Proof.
  intros PC SM UN NC AC HB w t z Hw HO HS HA.
  assert (ST : strict k = true).
  { unfold strict. cbn [ck_overflow_checks ck_aff checker_of]. destruct NC as [-> | ->]; [reflexivity|]. cbn [nonempty]. rewrite andb_false_r. reflexivity. }
  assert (SH : Shrinks (d_aff d)) by (apply plain_shrinks; [exact (pc_triple PC)|exact (pc_patterns PC)]).
  pose proof (@dict_wf_full pl WP d OK false false SH) as WF.
  assert (exists f, Own k w (Some f)) as [f Hf].
  { apply (@own_attempt pl WP d WF ST w (length w) Hw). intros fu hh fuel HL _. unfold check_word.
    destruct (check_simple_word k w hh) as [f|]; [eauto|]. unfold check_compound.
    cbn [ck_aff checker_of]. rewrite AC.
    destruct (proj2 (@C59_words_and_syllables PC SM UN NC fuel w fu Hw HL)) as [e He]; [eauto|].
    rewrite He. cbn. eauto. }
  eapply (@no_blocked_accepts k WF); try eassumption; try (split; reflexivity).
  intros stem g Hg. apply (HB stem g). apply iff_known, Hg.
Qed.
End Dict.

(** ** Counting is a function of the reading *)
Section Fun.
Variable A : affdata.
Lemma root_fun : forall f a b, root A f a -> root A f b -> a = b.
Proof. intros f a b [[H1 ->]|[H1 ->]] [[H2 ->]|[H2 ->]]; auto; contradiction. Qed.
Lemma stem_fun : forall m f a b, stem_syllables A m f a -> stem_syllables A m f b -> a = b.
Proof. intros m f a b [(H1 & H2 & H3 & H4 & ->)|[H ->]] [(K1 & K2 & K3 & K4 & ->)|[K ->]]; auto; exfalso; tauto. Qed.
Lemma suffix_fun : forall m f s a b, suffix_syllables A m f s a -> suffix_syllables A m f s b -> a = b.
Proof.
  intros m f s a b [[H1 ->]|(H1 & H2 & i & x & -> & HI & HB)] [[K1 ->]|(K1 & K2 & j & y & -> & KI & KB)]; auto; try tauto.
  assert (i = j) by (destruct HI as [[? ->]|[? ->]], KI as [[? ->]|[? ->]]; auto; contradiction).
  assert (x = y); [|lia].
  assert (E1 : a_flag s = 99%N -> a_flag s <> 74%N /\ a_flag s <> 73%N) by (intros ->; split; discriminate).
  assert (E2 : a_flag s = 74%N -> a_flag s <> 73%N) by (intros ->; discriminate).
  destruct HB as [(B1 & B2 & ->)|[(B1 & B2 & ->)|[(B1 & B2 & B3 & ->)|[B ->]]]], KB as [(C1 & C2 & ->)|[(C1 & C2 & ->)|[(C1 & C2 & C3 & ->)|[C ->]]]]; tauto.
Qed.
End Fun.

(** ** Example: at most two words, or four syllables *)
Definition hu_aff : str := lit "COMPOUNDMIN 2
COMPOUNDFLAG C
COMPOUNDWORDMAX 2
COMPOUNDSYLLABLE 4 aeiou
SFX S Y 1
SFX S 0 i .
".
Definition hu_dic : str := lit "3
foo/C
bar/CS
kei/CI
".
Definition hu : dictionary := Eval vm_compute in (the (built ex_pl hu_aff hu_dic) <: dictionary).
Lemma hu_reachable : Reachable ex_pl hu. Proof. ex_dict hu_aff hu_dic. Qed.

Lemma hu_plain : PlainCompounding hu.
Proof.
  constructor; try reflexivity. intros stem f H.
  repeat (destruct H as [H|H]; [injection H as <- <-; vm_compute; intuition discriminate|]). destruct H.
Qed.
Lemma hu_short : ShortAffixes hu.
Proof. intros kd a H. destruct kd; vm_compute in H; repeat (destruct H as [H|H]; [subst a; vm_compute; discriminate|]); destruct H. Qed.
Lemma hu_suffix : forall m w s st f, OneAffix (d_aff hu) (listed hu) Sfx m SkipHiddenHomonym w s st f -> w = lit "bari" /\ f = [67%N; 83%N] /\ s = hd s (rules (d_aff hu) Sfx).
Proof.
  intros m w s st f (H1 & H2 & _ & _ & _ & _ & H3 & H4 & _). destruct H1 as [<-|[]]. 
  repeat (destruct H3 as [H3|H3]; [injection H3 as <- <-; cbn in H4; try (exfalso; intuition discriminate)|]); [|destruct H3].
  split; [|split; reflexivity]. unfold attaches in H2. destruct H2 as [(b & E1 & E2) _]. cbn in E1, E2. rewrite app_nil_r in E1. subst b. exact E2.
Qed.
Lemma hu_unambiguous : Unambiguous (d_aff hu) (listed hu).
Proof.
  assert (NP : forall m w p st f, ~ OneAffix (d_aff hu) (listed hu) Pfx m SkipHiddenHomonym w p st f) by (intros m w p st f ([] & _)).
  assert (NB : forall m w p s st f, ~ PrefixSuffix (d_aff hu) (listed hu) m SkipHiddenHomonym w p s st f) by (intros m w p s st f ([] & _)).
  assert (EN : forall w f, listed hu w f -> w <> lit "bari" /\ forall g, listed hu w g -> f = g).
  { intros w f H. split.
    - intros ->. repeat (destruct H as [H|H]; [discriminate H|]). destruct H.
    - intros g K. repeat (destruct H as [H|H]; [injection H as <- <-; repeat (destruct K as [K|K]; [try discriminate K; injection K as <-; reflexivity|]); destruct K|]). destruct H. }
  intros m w n1 z1 n2 z2 H K. destruct H as [f n z He H1 H2 H3 R Z|s st f n z HO R Z|p st f n HO R|p s st f n z HO R Z]; [| |destruct (NP _ _ _ _ _ HO)|destruct (NB _ _ _ _ _ _ HO)];
    destruct K as [f' n' z' He' H1' H2' H3' R' Z'|s' st' f' n' z' HO' R' Z'|p' st' f' n' HO' R'|p' s' st' f' n' z' HO' R' Z']; try destruct (NP _ _ _ _ _ HO'); try destruct (NB _ _ _ _ _ _ HO').
  - destruct (EN _ _ He) as [_ Q]. specialize (Q _ He'). subst f'. split; [exact (root_fun R R')|exact (stem_fun Z Z')].
  - destruct (EN _ _ He) as [Q _]. destruct (hu_suffix HO') as [X _]. contradiction.
  - destruct (EN _ _ He') as [Q _]. destruct (hu_suffix HO) as [X _]. contradiction.
  - destruct (hu_suffix HO) as (_ & -> & E1). destruct (hu_suffix HO') as (_ & -> & E2). cbn in E1, E2. rewrite <- E2 in E1. subst s'. split; [exact (root_fun R R')|exact (suffix_fun Z Z')].
Qed.

(** Three parts, four syllables; three parts, five syllables; a suffix whose syllable does not
    count; an entry whose flag I takes one away. *)
Example C59_example :
  Eventually (fun fuel => dict_check ex_pl hu fuel (lit "foobarbar")) (Ret true) /\
  Eventually (fun fuel => dict_check ex_pl hu fuel (lit "foobarfoo")) (Ret false) /\
  Eventually (fun fuel => dict_check ex_pl hu fuel (lit "foobarbari")) (Ret true) /\
  Eventually (fun fuel => dict_check ex_pl hu fuel (lit "foobarkei")) (Ret true) /\
  (exists t z, Split ascii_unicode (d_aff hu) (listed hu) AT_BEGIN [] (lit "foobarkei") t z /\ Allowed (d_aff hu) t (Z.of_N (syllables (d_aff hu) (lit "foobarkei")) + z)) /\
  ~ (exists t z, Split ascii_unicode (d_aff hu) (listed hu) AT_BEGIN [] (lit "foobarfoo") t z /\ Allowed (d_aff hu) t (Z.of_N (syllables (d_aff hu) (lit "foobarfoo")) + z)).
Proof.
  split; [settle 60|]. split; [settle 60|]. split; [settle 60|]. split; [settle 60|].
  assert (IFF := fun w => @C59_words_and_syllables ex_pl ex_pl_wf hu hu_reachable hu_plain hu_short hu_unambiguous (or_introl eq_refl) 20 w ForbidBadForceucase).
  split.
  - apply IFF; [apply lit_scalars; reflexivity|vm_compute; lia|]. eexists. vm_compute. reflexivity.
  - intro H. apply IFF in H; [|apply lit_scalars; reflexivity|vm_compute; lia]. destruct H as [e H]. vm_compute in H. discriminate H.
Qed.

Print Assumptions C59_words_and_syllables.
Print Assumptions C59_accepted.
