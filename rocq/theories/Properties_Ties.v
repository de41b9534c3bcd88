(** Property C75: what of the word list the suggestions depend on. *)
From Coq Require Import String Ascii List NArith ZArith Lia Bool Arith Permutation FunctionalExtensionality.
From Verif Require Import Base Utf8 Unicode Flags Bag Condition Affix Conversion Aff Checker AffixSpec CompoundRule Rep CompoundSpec
  CompoundTotal RuleCompound Spell CheckSpec CheckMono CheckProps Parser ParserSafe Lib LibSpec LibProps BufferOps Ngram Suggester
  SuggestSpec SuggestLow SuggestMono Dedup SuggestProps SuggestTotal NgramMeasures NgramProps NgramRank SuggestImpl LibSuggest Examples
  Properties_Affix Properties_Compound Properties_Check Properties_Suggest Properties_Ngram.
Import ListNotations.
Local Open Scope string_scope.
Local Open Scope list_scope.
Local Open Scope nat_scope.
Set Implicit Arguments.

(** ** Without n-grams *)
Lemma same_checker : forall pl1 pl2 d1 d2, wf_platform pl1 -> wf_platform pl2 ->
  pl_unicode pl1 = pl_unicode pl2 -> pl_overflow_checks pl1 = pl_overflow_checks pl2 -> d_aff d1 = d_aff d2 ->
  (forall w, entries d1 w = entries d2 w) -> forall lt lu, checker_of pl1 d1 lt lu = checker_of pl2 d2 lt lu.
Proof.
  intros pl1 pl2 d1 d2 W1 W2 EU EO EA EE lt lu.
  assert (EG : ck_get (checker_of pl1 d1 lt lu) = ck_get (checker_of pl2 d2 lt lu)).
  { extensionality w. rewrite (entries_get W1), (entries_get W2). apply EE. }
  unfold checker_of in *. cbn [ck_get] in EG. rewrite EU, EO, EA, EG. reflexivity.
Qed.
(** The word list and the heaps are read by the n-gram step only. *)
Lemma words_unread : forall k ws ws' ng dbg hp hp', ng = false \/ o_max_ngram (ad_options (ck_aff k)) = 0%N ->
  forall fuel w out, suggest (mkSuggester k ws ng dbg hp) fuel w out = suggest (mkSuggester k ws' ng dbg hp') fuel w out.
Proof.
  intros k ws ws' ng dbg hp hp' OFF fuel w out. unfold suggest. cbv zeta. destruct (max_word_len <? blen w)%N; [reflexivity|].
  set (s := mkSuggester k ws ng dbg hp). set (s' := mkSuggester k ws' ng dbg hp').
  assert (NG : forall t, (t = s \/ t = s') -> forall v hq o, by_ngram t v hq o = Ret o).
  { intros t T v hq o. unfold by_ngram. assert (G : su_ngram t && negb hq && negb (o_max_ngram (ad_options (ck_aff (su_checker t))) =? 0)%N = false).
    { destruct T as [->| ->]; cbn [su_ngram su_checker s s']; (destruct OFF as [->|E]; [reflexivity|]; rewrite E; cbn; apply andb_false_r). }
    rewrite G. reflexivity. }
  cut (forall n v o, suggest_impl s fuel n v o = suggest_impl s' fuel n v o); [intros G; apply G|].
  induction n as [|n IH]; intros [|c v] o; try reflexivity. cbn [suggest_impl].
  change (su_checker s) with k. change (su_checker s') with k.
  destruct (convert (ad_iconv (ck_aff k)) (c :: v)) as [v'| |]; try reflexivity. cbn [bindR].
  change (by_casing s' fuel v' o) with (by_casing s fuel v' o).
  destruct (by_casing s fuel v' o) as [[[hq o1]|o1]| |]; try reflexivity. cbn [bindR].
  rewrite (NG s (or_introl eq_refl)), (NG s' (or_intror eq_refl)). cbn [bindR].
  assert (ER : (fun part => suggest_impl s fuel n part []) = (fun part => suggest_impl s' fuel n part [])) by (extensionality p; apply IH).
  rewrite ER. reflexivity.
Qed.
(** Two dictionaries with the same settings and the same entries of each spelling: the
    suggestions are the same, whatever the hashers, tables, orders of iteration and heaps. *)
Theorem C75_same_entries_same_suggestions : forall pl1 pl2 rn1 rn2 d1 d2 ng, wf_platform pl1 -> wf_platform pl2 ->
  pl_unicode pl1 = pl_unicode pl2 -> pl_overflow_checks pl1 = pl_overflow_checks pl2 -> rn_debug rn1 = rn_debug rn2 -> d_aff d1 = d_aff d2 ->
  (forall w, entries d1 w = entries d2 w) -> ng = false \/ o_max_ngram (ad_options (d_aff d1)) = 0%N ->
  forall lt lu fuel w out, suggest (suggester_of pl1 rn1 d1 lt lu ng) fuel w out = suggest (suggester_of pl2 rn2 d2 lt lu ng) fuel w out.
Proof.
  intros pl1 pl2 rn1 rn2 d1 d2 ng W1 W2 EU EO ED EA EE OFF lt lu fuel w out. unfold suggester_of.
  rewrite (@same_checker pl1 pl2 d1 d2 W1 W2 EU EO EA EE lt lu), ED. apply words_unread. unfold checker_of. cbn [ck_aff]. rewrite <- EA. exact OFF.
Qed.
Theorem C75_order_irrelevant : forall pl1 pl2 rn1 rn2 d1 d2 ng, wf_platform pl1 -> wf_platform pl2 ->
  pl_unicode pl1 = pl_unicode pl2 -> pl_overflow_checks pl1 = pl_overflow_checks pl2 -> rn_debug rn1 = rn_debug rn2 -> d_aff d1 = d_aff d2 ->
  Permutation (d_words d1) (d_words d2) -> (forall w f1 f2, listed d1 w f1 -> listed d1 w f2 -> f1 = f2) ->
  ng = false \/ o_max_ngram (ad_options (d_aff d1)) = 0%N ->
  forall lt lu fuel w out, suggest (suggester_of pl1 rn1 d1 lt lu ng) fuel w out = suggest (suggester_of pl2 rn2 d2 lt lu ng) fuel w out.
Proof.
  intros pl1 pl2 rn1 rn2 d1 d2 ng W1 W2 EU EO ED EA EP HH OFF. apply C75_same_entries_same_suggestions; try assumption.
  intro w. apply uniform_perm.
  - unfold entries. apply Permutation_map. apply Permutation_filter'. exact EP.
  - intros f1 f2 H1 H2. apply entries_In in H1. apply entries_In in H2. exact (HH w f1 f2 H1 H2).
Qed.

(** ** With n-grams: the same list before the guesses *)
Theorem C75_same_before_guesses : forall pl1 pl2 rn1 rn2 d1 d2, wf_platform pl1 -> wf_platform pl2 -> wf_runtime rn1 -> wf_runtime rn2 ->
  Reachable pl1 d1 -> Reachable pl2 d2 ->
  pl_unicode pl1 = pl_unicode pl2 -> pl_overflow_checks pl1 = pl_overflow_checks pl2 -> rn_debug rn1 = rn_debug rn2 -> d_aff d1 = d_aff d2 ->
  (forall w, entries d1 w = entries d2 w) ->
  forall lt lu w l1 l2, scalars w -> (forall w', Converts (ct_inner (ad_iconv (d_aff d1))) w w' -> ~ In 45%N w') ->
  suggests pl1 rn1 d1 lt lu true w l1 -> suggests pl2 rn2 d2 lt lu true w l2 ->
  exists base g1 g2, suggests pl1 rn1 d1 lt lu false w base /\ suggests pl2 rn2 d2 lt lu false w base /\ l1 = base ++ g1 /\ l2 = base ++ g2.
Proof.
  intros pl1 pl2 rn1 rn2 d1 d2 W1 W2 N1 N2 R1 R2 EU EO ED EA EE lt lu w l1 l2 Hw HY H1 H2.
  destruct (@C36_ngrams_are_appended pl1 W1 rn1 N1 d1 R1 lt lu w l1 Hw HY H1) as (w1 & b1 & a1 & _ & B1 & -> & _).
  assert (HY2 : forall w', Converts (ct_inner (ad_iconv (d_aff d2))) w w' -> ~ In 45%N w') by (rewrite <- EA; exact HY).
  destruct (@C36_ngrams_are_appended pl2 W2 rn2 N2 d2 R2 lt lu w l2 Hw HY2 H2) as (w2 & b2 & a2 & _ & B2 & -> & _).
  assert (B12 : suggests pl2 rn2 d2 lt lu false w b1).
  { destruct B1 as [n B1]. exists n. intros fuel L. rewrite <- (B1 fuel L). symmetry.
    apply C75_same_entries_same_suggestions; try assumption. left. reflexivity. }
  pose proof (eventually_det B12 B2) as E. injection E as <-. exists b1, a1, a2. auto.
Qed.

(** ** Examples *)
Definition reversed_rn : runtime := mkRuntime sorted_heaps true (@rev _).
Lemma reversed_rn_wf : wf_runtime reversed_rn.
Proof. constructor; [exact sorted_heaps_wf|intros l; apply Permutation_rev]. Qed.
Definition tie_aff : str := lit "MAXNGRAMSUGS 1
TRY abcxyz".
Definition tie_dic : str := lit "3
abcdyq
abcdzq
xbcd".
Definition tie : dictionary := Eval vm_compute in (the (built ex_pl tie_aff tie_dic) <: dictionary).
Lemma tie_reachable : Reachable ex_pl tie. Proof. ex_dict tie_aff tie_dic. Qed.
(** Guesses of equal rank: which of them is suggested depends on the order in which the table is
    iterated, that is, on the hasher and its seed. *)
Lemma tie_one : suggests ex_pl ex_rn tie false false true (lit "abcd") [lit "xbcd"; lit "abcdzq"]. Proof. propose 30. Qed.
Lemma tie_other : suggests ex_pl reversed_rn tie false false true (lit "abcd") [lit "xbcd"; lit "abcdyq"]. Proof. propose 30. Qed.
Theorem C75_ties_refuted :
  ~ (forall pl rn1 rn2 d w l1 l2, wf_platform pl -> wf_runtime rn1 -> wf_runtime rn2 -> rn_debug rn1 = rn_debug rn2 -> Reachable pl d -> scalars w ->
       suggests pl rn1 d false false true w l1 -> suggests pl rn2 d false false true w l2 -> l1 = l2).
Proof.
  intros H. pose proof (H ex_pl ex_rn reversed_rn tie (lit "abcd") _ _ ex_pl_wf ex_rn_wf reversed_rn_wf eq_refl tie_reachable
    (@lit_scalars "abcd"%string eq_refl) tie_one tie_other) as E. vm_compute in E. discriminate E.
Qed.
(** The premises of [C75_same_before_guesses] are met, and the list before the guesses is not empty. *)
Example C75_example : exists base g1 g2, base <> [] /\ g1 <> g2 /\
  suggests ex_pl ex_rn tie false false false (lit "abcd") base /\ [lit "xbcd"; lit "abcdzq"] = base ++ g1 /\ [lit "xbcd"; lit "abcdyq"] = base ++ g2.
Proof.
  destruct (@C75_same_before_guesses ex_pl ex_pl ex_rn reversed_rn tie tie ex_pl_wf ex_pl_wf ex_rn_wf reversed_rn_wf tie_reachable tie_reachable
    eq_refl eq_refl eq_refl eq_refl (fun w => eq_refl) false false (lit "abcd") _ _ (@lit_scalars "abcd"%string eq_refl)
    ltac:(intros w' C; apply converts_nothing in C; subst w'; intros I; vm_compute in I; repeat destruct I as [I|I]; try discriminate I; contradiction)
    tie_one tie_other) as (base & g1 & g2 & B & _ & E1 & E2).
  assert (B0 : suggests ex_pl ex_rn tie false false false (lit "abcd") [lit "xbcd"]) by propose 30.
  pose proof (eventually_det B B0) as E. injection E as ->. exists [lit "xbcd"], g1, g2. split; [discriminate|]. split; [|auto].
  intros <-. rewrite <- E2 in E1. discriminate E1.
Qed.
(** The order of the lines of the .dic text, without n-grams. *)
Definition tie_dic2 : str := lit "3
xbcd
abcdzq
abcdyq".
Definition tie2 : dictionary := Eval vm_compute in (the (built ex_pl tie_aff tie_dic2) <: dictionary).
Example C75_order_example : d_words tie <> d_words tie2 /\ forall lt lu fuel w out,
  suggest (suggester_of ex_pl ex_rn tie lt lu false) fuel w out = suggest (suggester_of ex_pl reversed_rn tie2 lt lu false) fuel w out.
Proof.
  split; [vm_compute; discriminate|].
  assert (P : Permutation (d_words tie) (d_words tie2)) by (vm_compute; repeat first
    [apply perm_nil | apply perm_skip | apply Permutation_cons_app with (l1 := [_; _]) | apply Permutation_cons_app with (l1 := [_])]).
  apply C75_order_irrelevant; try reflexivity; try exact ex_pl_wf; [exact P| |left; reflexivity].
  intros w f1 f2 L1 L2. assert (A : forall w f, listed tie w f -> f = []).
  { intros v f I. vm_compute in I. repeat destruct I as [I|I]; try (injection I as _ <-; reflexivity); contradiction. }
  rewrite (A w f1 L1), (A w f2 L2). reflexivity.
Qed.

(** With hyphens n-grams may also take suggestions away: a guess with a hyphen keeps the parts
    from being looked at (suggester.rs 228-230). *)
Definition hyg_aff : str := lit "TRY abcdefghijklmnopqrstuvwxyz".
Definition hyg_dic : str := lit "4
hello
phone
x-helo-fon
hellofones".
Definition hyg : dictionary := Eval vm_compute in (the (built ex_pl hyg_aff hyg_dic) <: dictionary).
Lemma hyg_reachable : Reachable ex_pl hyg. Proof. ex_dict hyg_aff hyg_dic. Qed.
Theorem C75_guess_hides_parts_refuted : Reachable ex_pl hyg /\
  suggests ex_pl ex_rn hyg false false false (lit "helo-phone") [lit "hello-phone"] /\
  suggests ex_pl ex_rn hyg false false true (lit "helo-phone") [lit "x-helo-fon"].
Proof. split; [exact hyg_reachable|]. split; propose 30. Qed.
Print Assumptions C75_same_entries_same_suggestions.
Print Assumptions C75_order_irrelevant.
Print Assumptions C75_same_before_guesses.
Print Assumptions C75_ties_refuted.
Print Assumptions C75_guess_hides_parts_refuted.
