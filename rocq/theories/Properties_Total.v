(** Property C34: when [suggest] returns. *)
From Coq Require Import String Ascii List NArith ZArith Lia Bool Arith Permutation.
From Verif Require Import Base Utf8 Unicode Flags Bag Condition Affix Conversion Aff Checker AffixSpec CompoundRule Rep CompoundSpec
  CompoundTotal RuleCompound Spell CheckSpec CheckMono CheckProps Parser ParserSafe Lib LibSpec LibProps BufferOps Ngram Suggester
  SuggestSpec SuggestLow SuggestMono Dedup SuggestProps SuggestTotal Hangs NgramMeasures NgramProps SuggestImpl LibSuggest Examples
  Properties_Affix Properties_Compound Properties_Check Properties_Suggest Properties_Ngram.
Import ListNotations.
Local Open Scope string_scope.
Local Open Scope list_scope.
Local Open Scope nat_scope.
Set Implicit Arguments.

(** ** Lengths *)
(** [char::to_lowercase] yields at most three characters: twelve bytes. *)
Definition lower_bounded (U : unicode) : Prop := forall c, scalar c -> (blen (u_lower U c) <= 12)%N.
Lemma lower_go_bound : forall U, lower_bounded U -> forall w b, scalars w -> (blen (lower_go U b w) <= 12 * N.of_nat (length w))%N.
Proof.
  intros U LB. induction w as [|c w IH]; intros b Hw; [cbn; lia|]. inversion Hw as [|? ? Hc Hw']; subst.
  cbn [lower_go]. rewrite blen_app. specialize (IH (c :: b) Hw'). specialize (LB c Hc).
  assert (X : (blen (if (c =? ch_Sigma)%N then if ignorable_then_cased U b && negb (ignorable_then_cased U w) then [ch_final_sigma] else [ch_sigma]
                     else u_lower U c) <= 12)%N).
  { destruct (c =? ch_Sigma)%N; [|exact LB]. destruct (_ && _); vm_compute; discriminate. }
  eapply N.le_trans; [apply N.add_le_mono; [exact X|exact IH]|]. cbn [length]. rewrite Nat2N.inj_succ. lia.
Qed.
Lemma replace_char_scalars : forall a b w, scalar b -> scalars w -> scalars (replace_char a b w).
Proof. intros a b w Hb Hw. apply Forall_map. eapply Forall_impl; [|exact Hw]. intros c Hc. destruct (c =? a)%N; assumption. Qed.
Lemma lowercase_bound : forall U, lower_bounded U -> forall h w, scalars w -> (blen (lowercase U h w) <= 12 * blen w)%N.
Proof.
  intros U LB h w Hw. pose proof (blen_length w) as L.
  assert (X : (blen (lowercase U h w) <= 12 * N.of_nat (length w))%N); [|lia].
  destruct h; unfold lowercase, str_lower.
  2: apply lower_go_bound; assumption.
  - assert (S1 : scalar ch_i) by reflexivity. assert (S2 : scalar ch_dotless_i) by reflexivity.
    match goal with |- (blen (lower_go U [] ?v) <= _)%N => pose proof (@lower_go_bound U LB v [] ltac:(repeat apply replace_char_scalars; assumption)) as B end.
    unfold replace_char in *. rewrite !map_length in B. exact B.
Qed.
Lemma converts_bound : forall l w w', Forall (fun c => (blen (cv_to c) <= 3 * blen (cv_from c))%N) l -> Converts l w w' -> (blen w' <= 3 * blen w)%N.
Proof.
  intros l w w' F H. induction H as [|x w out _ _ IH|c r out I _ _ _ IH]; [cbn; lia| |].
  - cbn [blen]. lia.
  - rewrite !blen_app. pose proof (proj1 (Forall_forall _ _) F c I). cbn beta in *. lia.
Qed.

Section Dict.
Variable pl : platform.
Hypothesis WP : wf_platform pl.
Variable rn : runtime.
Hypothesis WN : wf_runtime rn.
Variable d : dictionary.
Hypothesis R : Reachable pl d.
Notation sg ng := (suggester_of pl rn d false false ng).
Notation k := (checker_of pl d false false).
Notation U := (pl_unicode pl).
Notation opts := (ad_options (d_aff d)).
Notation A := (d_aff d).
Let OK : dict_ok pl d := reachable_ok WP R.
Let TB := dict_tables WP R.
Let WR : wf_reps (ad_reps A) := proj1 TB.
Let WG : Forall wf_sim (ad_sims A) := proj1 (proj2 TB).
Let WRS := proj1 (proj2 (proj2 TB)).
Let WT := proj1 (proj2 (proj2 (proj2 TB))).
Let WK := proj1 (proj2 (proj2 (proj2 (proj2 TB)))).
Let WO := proj1 (proj2 (proj2 (proj2 (proj2 (proj2 TB))))).
Let WOS := proj1 (proj2 (proj2 (proj2 (proj2 (proj2 (proj2 TB)))))).
Let WC : wf_checker k := dict_wf_checker WP OK false false.
Let WU : wf_unicode U := wp_unicode WP.

(** ICONV introduces no hyphen. *)
Definition tame_input : Prop := Forall (fun c => ~ In 45%N (cv_to c)) (ct_inner (ad_iconv A)).
(** It erases nothing: a table entry is a line of three words. *)
Lemma iconv_erases_nothing : Forall (fun c => cv_to c <> []) (ct_inner (ad_iconv A)).
Proof.
  destruct (do_aff OK) as (x & LP & CO).
  destruct (@collect_ok pl (wp_sort_affixes WP) x LP) as (a' & E & H).
  rewrite CO in E. injection E as <-.
  destruct H as (_ & _ & _ & _ & _ & _ & _ & _ & _ & _ & _ & I1 & _). rewrite I1.
  destruct (@conv_table_from_ok pl (wp_sort_convs WP) _ (lo_iconv LP)) as (_ & PM & _).
  eapply Permutation_Forall; [exact PM|]. apply Forall_map. eapply Forall_impl; [|exact (lo_iconv LP)].
  intros p (_ & N & _). unfold conv_entry. destruct (strip_suffix [95%N] (fst p)); exact N.
Qed.
Let tamed : tame_input -> Forall (fun c => cv_to c <> [] /\ ~ In 45%N (cv_to c)) (ct_inner (ad_iconv A)).
Proof.
  intros T. pose proof iconv_erases_nothing as N. unfold tame_input in T. rewrite Forall_forall in *. intros c I. exact (conj (N c I) (T c I)).
Qed.
(** [check] is known to return (C01). *)
Definition check_returns : Prop := Shrinks A /\ (pl_overflow_checks pl = false \/ ad_vowels A = []).

Let wf_sg : Shrinks A -> wf_full k.
Proof. intros SH. exact (@dict_wf_full pl WP d OK false false SH). Qed.
Let strict_k : pl_overflow_checks pl = false \/ ad_vowels A = [] -> strict k = true.
Proof.
  intros HO. unfold strict. cbn [ck_overflow_checks ck_aff checker_of]. destruct HO as [-> | ->]; [reflexivity|]. rewrite andb_false_r. reflexivity.
Qed.
Let no_empty : forall ng, ~ Correct pl d [] -> ~ Fit (sg ng) [].
Proof. intros ng H F. apply H. apply (@fit_correct pl WP rn d R false false ng); [constructor|exact F]. Qed.

(** Whatever else is in the dictionary, and with every option of the suggester: no search is
    endless. *)
Theorem C34_suggest_never_hangs : Shrinks A -> tame_input -> forall lt lu ng w, scalars w ->
  exists r, Eventually (fun n => suggest (suggester_of pl rn d lt lu ng) n w []) r /\ r <> NoFuel.
Proof.
  intros SH TI lt lu ng w Hw.
  destruct (@suggest_ends (suggester_of pl rn d lt lu ng) (dict_wf_full WP OK lt lu SH) WO TI w [] Hw) as (r & L & E).
  exists r. split; [exact E|]. intros ->. exact L.
Qed.

(** Without n-gram suggestions: no word makes [suggest] panic or recurse for ever. *)
Theorem C34_edits_return : check_returns -> case_total U -> ~ Correct pl d [] -> tame_input ->
  forall w, scalars w -> exists l, suggests pl rn d false false false w l.
Proof.
  intros [SH HO] CT NE TI w Hw.
  destruct (@suggest_total (sg false) WR WG WRS WT WK (wf_sg SH) (conj eq_refl eq_refl) (strict_k HO) WO WOS CT (@no_empty false NE) (tamed TI)
    (fun _ => True) (fun _ => True) (fun _ => True)) with (w := w) (out := @nil str) as (l & E & _); auto.
  - intros v hq out Hv _ Ho. exists out. split; [reflexivity|exact Ho].
  - exists l. exact E.
Qed.

(** Offsets into a word being ranked are kept in sixteen bits. *)
Definition rankable (w : str) : Prop := (blen w <= 65535)%N /\ (blen (lowercase U (o_case opts) w) <= 65535)%N.
(** What n-gram ranking asks of the entries it may propose: their forms are not empty, nothing is
    longer than its offsets can say, and what a prefix strips from a suffixed form it can strip
    from the stem.  The words asked for stay below that length under ICONV. *)
Record wieldy : Prop := {
  wi_stems : forall stem flags, listed d stem flags -> Eligible k flags -> rankable stem;
  wi_forms : forall v stem flags e, listed d stem flags -> Eligible k flags -> Form k v stem flags e -> e <> [] /\ rankable e;
  wi_crossed : forall v s p stem flags rest, listed d stem flags -> Eligible k flags -> UsableAffix k Sfx flags v s -> a_cross s = true ->
    attaches Sfx s stem (strip_text p ++ rest) -> UsableAffix k Pfx flags v p -> fits Pfx p (strip_text p ++ rest) ->
    exists r, stem = strip_text p ++ r;
  wi_input : forall w w', scalars w -> (blen w <= 360)%N -> Converts (ct_inner (ad_iconv A)) w w' -> rankable w' /\
    forall u part v w'', w' = u ++ part ++ v -> Converts (ct_inner (ad_iconv A)) part w'' -> rankable w'' }.

Let WW : Forall (fun e => scalars (fst e) /\ wf_flagset (snd e)) (su_words (sg true)).
Proof.
  apply Forall_forall. intros [w f] H. cbn [fst snd]. apply (words_In pl WN d false false true) in H.
  apply entries_In in H. destruct (@dict_entry_ok pl d OK w f H) as (S1 & _ & S2). exact (conj S1 (proj1 S2)).
Qed.
Let WH : wf_heaps (rn_heaps rn) := wr_heaps WN.

Lemma ngram_step_total : wieldy -> case_total U -> forall w hq out, okstr w -> rankable w -> Forall okstr out ->
  exists r, by_ngram (sg true) w hq out = Ret r /\ Forall okstr r.
Proof.
  intros W CT w hq out [Hs Hn] HB HO.
  assert (T : exists r, by_ngram (sg true) w hq out = Ret r).
  { unfold by_ngram. destruct (su_ngram (sg true) && negb hq && _); [|eauto]. cbv zeta.
    set (buffer := match classify_casing _ w with CNone => w | _ => _ end).
    assert (BB : (blen buffer <= 65535)%N).
    { unfold buffer. cbn [su_checker ck_aff ck_u suggester_of checker_of]. destruct HB. destruct (classify_casing _ w); assumption. }
    destruct (@ngram_total (su_heaps (sg true)) WH k WC (su_words (sg true)) (@words_flags (sg true) WW) buffer out) as [r E].
    { split; [exact BB|]. intros stem flags HI EL. apply (words_In pl WN d false false true) in HI.
      split; [exact (wi_stems W stem HI EL)|]. split.
      - intros s p mid rest US CR AT UP FP ->. eapply (wi_crossed W); eassumption.
      - intros e F. exact (proj2 (wi_forms W HI EL F)). }
    change (su_checker (sg true)) with k. rewrite E. cbn [bindR]. destruct (classify_casing _ w); eauto. }
  destruct T as [r E]. exists r. split; [exact E|].
  destruct (@by_ngram_inv (sg true) WC WH WW w hq out r E) as (added & -> & F & _). apply Forall_app. split; [exact HO|].
  assert (FO : Forall okstr added).
  { eapply Forall_impl; [|exact F]. intros e (stem & flags & I & EL & FM). apply (words_In pl WN d false false true) in I.
    split; [|exact (proj1 (wi_forms W I EL FM))]. apply entries_In in I. destruct (@dict_entry_ok pl d OK stem flags I) as (S1 & _ & _).
    exact (@form_scalars (sg true) WC _ _ _ _ S1 FM). }
  unfold shown_as. destruct (classify_casing _ w); try exact FO. apply Forall_map. eapply Forall_impl; [|exact FO].
  intros e He. exact (@okstr_upper U WU CT (o_case opts) e He).
Qed.

(** With n-gram suggestions. *)
Theorem C34_suggest_returns : check_returns -> case_total U -> ~ Correct pl d [] -> tame_input -> wieldy ->
  forall w, scalars w -> exists l, suggests pl rn d false false true w l.
Proof.
  intros [SH HO] CT NE TI W w Hw.
  destruct (@suggest_total (sg true) WR WG WRS WT WK (wf_sg SH) (conj eq_refl eq_refl) (strict_k HO) WO WOS CT (@no_empty true NE) (tamed TI)
    rankable (fun w => scalars w /\ (blen w <= 360)%N)
    (fun part => forall w'', Converts (ct_inner (ad_iconv A)) part w'' -> rankable w'')) with (w := w) (out := @nil str) as (l & E & _); auto.
  - intros v v' [S1 B] C. exact (proj1 (wi_input W S1 B C)).
  - intros v v' u part t [S1 B] C EQ w'' C'. exact (proj2 (wi_input W S1 B C) u part t w'' EQ C').
  - exact (ngram_step_total W CT).
  - exists l. exact E.
Qed.

(** A dictionary of ordinary proportions: no entry or form is empty or longer than some thousand
    bytes. *)
Record ordinary_sizes : Prop := {
  os_stems : forall stem flags, listed d stem flags -> stem <> [] /\ (blen stem <= 2700)%N;
  os_adds : forall kd a, In a (rules A kd) -> (blen (a_add a) <= 2700)%N;
  os_forms : forall kd a stem flags, listed d stem flags -> In a (rules A kd) -> In (a_flag a) flags -> ~ derives kd a stem [];
  os_crossed : forall s p stem flags rest, listed d stem flags -> In s (rules A Sfx) -> In (a_flag s) flags ->
    In p (rules A Pfx) -> In (a_flag p) flags -> attaches Sfx s stem (strip_text p ++ rest) -> exists r, stem = strip_text p ++ r;
  os_input : Forall (fun c => (blen (cv_to c) <= 3 * blen (cv_from c))%N) (ct_inner (ad_iconv A)) }.
Lemma form_short : ordinary_sizes -> forall v stem flags e, listed d stem flags -> Form k v stem flags e -> e <> [] /\ (blen e <= 5400)%N.
Proof.
  intros W v stem flags e HL F. destruct (os_stems W _ _ HL) as [NS BS].
  assert (D : forall kd a e, In a (rules A kd) -> In (a_flag a) flags -> derives kd a stem e -> e <> [] /\ (blen e <= 5400)%N).
  { intros kd a e0 I J D. split; [intros ->; exact (os_forms W _ _ _ _ HL I J D)|]. pose proof (os_adds W _ _ I) as BA.
    destruct kd; destruct D as (r & -> & ->); rewrite blen_app in *; lia. }
  inversion F as [NA|kd a e' UA AT|s p mid rest e' UA CR AT UP FP EM DE]; subst.
  - split; [exact NS|lia].
  - destruct UA as (I & J & _). exact (D kd a e I J (proj1 AT)).
  - destruct UP as (I & J & _). exact (D Pfx p e I J DE).
Qed.

Theorem ordinary_wieldy : lower_bounded U -> ordinary_sizes -> wieldy.
Proof.
  intros LB W.
  assert (SZ : forall e, scalars e -> (blen e <= 5400)%N -> rankable e).
  { intros e He Hb. split; [lia|]. pose proof (@lowercase_bound U LB (o_case opts) e He) as L. lia. }
  assert (SS : forall stem flags, listed d stem flags -> scalars stem).
  { intros stem flags HI. apply entries_In in HI. exact (proj1 (@dict_entry_ok pl d OK stem flags HI)). }
  assert (SI : Forall (fun c => scalars (cv_to c)) (ct_inner (ad_iconv A))) by apply TB.
  constructor.
  - intros stem flags HI _. apply SZ; [exact (SS _ _ HI)|]. pose proof (os_stems W _ _ HI). lia.
  - intros v stem flags e HI _ F. destruct (form_short W HI F) as [N B]. split; [exact N|]. apply SZ; [|exact B].
    exact (@form_scalars (sg true) WC _ _ _ _ (SS _ _ HI) F).
  - intros v s p stem flags rest HI _ (I & J & _) _ AT (I' & J' & _) _. eapply (os_crossed W); eassumption.
  - intros w w' Hw B C. pose proof (@converts_bound _ _ _ (os_input W) C) as X. pose proof (Converts_scalars SI C Hw) as S1.
    split; [apply SZ; [exact S1|lia]|]. intros u part v w'' -> C'. pose proof (@converts_bound _ _ _ (os_input W) C') as Y.
    rewrite !blen_app in X. rewrite !scalars_app_iff in S1. apply SZ; [|lia]. exact (Converts_scalars SI C' (proj1 (proj2 S1))).
Qed.
End Dict.

(** ** When the empty string is no word *)
Lemma nothing_incorrect : forall pl d, allows_compounding (ad_options (d_aff d)) = false -> rt_rules (ad_rules (d_aff d)) = [] ->
  (forall flags, ~ listed d [] flags) -> (forall kd a, In a (rules (d_aff d) kd) -> a_add a <> []) -> ~ Correct pl d [].
Proof.
  intros pl d NC NR NE NA (f & H & _).
  assert (D : forall kd a x, In a (rules (d_aff d) kd) -> attaches kd a x [] -> False).
  { intros kd a x I [D _]. apply (NA kd a I). destruct kd; destruct D as (r & _ & E); [symmetry in E; apply app_eq_nil in E; tauto|].
    symmetry in E. apply app_eq_nil in E. tauto. }
  destruct H as [H|[[H _]|[H _]]]; [|congruence|contradiction].
  destruct H as [[H _]|[H|[H|[[_ H]|[_ H]]]]]; [exact (NE f H)| | | |].
  - destruct H as (kd & a & x & I & AT & _). exact (D kd a x I AT).
  - destruct H as (p & s0 & x & I & _ & _ & _ & _ & _ & _ & (mid & AT & _) & _). exact (D Pfx p mid I AT).
  - destruct H as [H|[H|H]].
    + destruct H as (o & i & x & I & _ & _ & _ & _ & _ & _ & (mid & AT & _) & _). exact (D Sfx o mid I AT).
    + destruct H as (x0 & o & i & x & I & _ & _ & _ & _ & _ & _ & _ & _ & _ & _ & (m1 & m2 & AT & _) & _). exact (D Pfx x0 m1 I AT).
    + destruct H as (x0 & o & i & x & _ & I & _ & _ & _ & _ & _ & _ & _ & _ & _ & (m1 & m2 & AT & _) & _). exact (D Sfx o m1 I AT).
  - destruct H as [H|[H|H]].
    + destruct H as (o & i & x & I & _ & _ & _ & _ & _ & _ & (mid & AT & _) & _). exact (D Pfx o mid I AT).
    + destruct H as (x0 & o & i & x & (I & _ & _ & _ & _ & _ & _ & _ & _ & _ & _ & (m1 & m2 & AT & _) & _) & _). exact (D Sfx x0 m1 I AT).
    + destruct H as (x0 & o & i & x & _ & I & _ & _ & _ & _ & _ & _ & _ & _ & _ & (m1 & m2 & AT & _) & _). exact (D Pfx o m1 I AT).
Qed.

(** ** Refutations *)
(** ICONV puts a hyphen in front of b: the part after the hyphen is b again. *)
Definition hy_aff : str := lit "ICONV 1
ICONV b -b
".
Definition hy_dic : str := lit "1
foo
".
Definition hy : dictionary := Eval vm_compute in (the (built ex_pl hy_aff hy_dic) <: dictionary).
Lemma hy_reachable : Reachable ex_pl hy. Proof. ex_dict hy_aff hy_dic. Qed.
Lemma casing_two : forall sg n m w out, refines (by_casing sg n w out) (by_casing sg m w out) \/ refines (by_casing sg m w out) (by_casing sg n w out).
Proof. intros sg n m w out. destruct (Nat.le_gt_cases n m) as [L|L]; [left|right]; apply casing_mono; lia. Qed.
Lemma check_two : forall k n m w, refines (check k n w) (check k m w) \/ refines (check k m w) (check k n w).
Proof. intros k n m w. destruct (Nat.le_gt_cases n m) as [L|L]; [left|right]; apply check_mono; lia. Qed.
Theorem C34_iconv_hyphen_diverges_refuted : forall fuel, suggest (suggester_of ex_pl ex_rn hy false false false) fuel (lit "b") [] = NoFuel.
Proof.
  intros n. change (suggest_impl (suggester_of ex_pl ex_rn hy false false false) n n (lit "b") [] = NoFuel).
  set (sg := suggester_of ex_pl ex_rn hy false false false) in *. generalize n at 2. intros m. induction m as [|m IH]; [reflexivity|].
  change (lit "b") with [98%N] in *. cbn [suggest_impl].
  assert (E0 : convert (ad_iconv (ck_aff (su_checker sg))) [98%N] = Ret [45%N; 98%N]) by (vm_compute; reflexivity).
  rewrite E0. cbn [bindR].
  assert (E1 : by_casing sg n [45%N; 98%N] [] = NoFuel \/ by_casing sg n [45%N; 98%N] [] = Ret (inl (false, []))).
  { assert (E : by_casing sg 30 [45%N; 98%N] [] = Ret (inl (false, []))) by (vm_compute; reflexivity).
    destruct (@casing_two sg n 30 [45%N; 98%N] []) as [[H|H]|[H|H]]; [left; exact H|right; congruence|congruence|right; congruence]. }
  destruct E1 as [-> | ->]; [reflexivity|]. cbn [bindR].
  change (by_ngram sg [45%N; 98%N] false []) with (@Ret (list str) []). cbn [bindR].
  assert (E2 : by_dash sg n (fun p => suggest_impl sg n m p []) [45%N; 98%N] [] = NoFuel).
  { unfold by_dash. change (memb 45 [45%N; 98%N] && _) with true. cbv iota. change (S (length [45%N; 98%N])) with 3. cbn [dash_loop].
    change (check (su_checker sg) n (slice [45%N; 98%N] 0 0)) with (check (su_checker sg) n []).
    assert (C1 : check (su_checker sg) n [] = NoFuel \/ check (su_checker sg) n [] = Ret true).
    { assert (E : check (su_checker sg) 30 [] = Ret true) by (vm_compute; reflexivity).
      destruct (@check_two (su_checker sg) n 30 []) as [[H|H]|[H|H]]; [left; exact H|right; congruence|congruence|right; congruence]. }
    cbn [skipn find_char option_map N.eqb Pos.eqb Nat.add slice firstn]. 
    change (slice [45%N; 98%N] 0 0) with (@nil N).
    destruct C1 as [-> | ->]; [reflexivity|]. cbn [bindR].
    cbn [skipn find_char option_map N.eqb Pos.eqb Nat.add slice firstn]. 
    assert (C2 : check (su_checker sg) n [98%N] = NoFuel \/ check (su_checker sg) n [98%N] = Ret false).
    { assert (E : check (su_checker sg) 30 [98%N] = Ret false) by (vm_compute; reflexivity).
      destruct (@check_two (su_checker sg) n 30 [98%N]) as [[H|H]|[H|H]]; [left; exact H|right; congruence|congruence|right; congruence]. }
    destruct C2 as [-> | ->]; [reflexivity|]. cbn [bindR]. change (skipn 1 [45%N; 98%N]) with [98%N]. rewrite IH. reflexivity. }
  rewrite E2. reflexivity.
Qed.

(** A suffix that strips the whole stem: the empty string is a word.  It is proposed for the
    title-case word "X" (by leaving out a character) and has no first character to put in upper
    case. *)
Definition em_aff : str := lit "SFX A Y 1
SFX A abc 0 .
".
Definition em_dic : str := lit "1
abc/A
".
Definition em : dictionary := Eval vm_compute in (the (built ex_pl em_aff em_dic) <: dictionary).
Lemma em_reachable : Reachable ex_pl em. Proof. ex_dict em_aff em_dic. Qed.
Theorem C34_empty_suggestion_panics_refuted :
  Eventually (fun n => suggest (suggester_of ex_pl ex_rn em false false false) n (lit "X") []) Panic.
Proof. propose 30. Qed.

(** ngram.rs 386: the prefix strips what the suffixed form begins with but the stem does not. *)
Definition pn_aff : str := lit "SFX A Y 1
SFX A b cd .
PFX B Y 1
PFX B ac x ac
".
Definition pn_dic : str := lit "1
ab/AB
".
Definition pn : dictionary := Eval vm_compute in (the (built ex_pl pn_aff pn_dic) <: dictionary).
Lemma pn_reachable : Reachable ex_pl pn. Proof. ex_dict pn_aff pn_dic. Qed.
Theorem C34_crossed_prefix_panics_refuted :
  Eventually (fun n => suggest (suggester_of ex_pl ex_rn pn false false true) n (lit "xabcd") []) Panic.
Proof. propose 30. Qed.

(** ** Examples *)
Lemma en_words : forall stem flags, listed en stem flags -> stem <> [] /\ (blen stem <= 2700)%N.
Proof.
  assert (F : Forall (fun e => fst e <> [] /\ (blen (fst e) <= 2700)%N) (d_words en)).
  { apply Forall_forall. intros e He. assert (B : forallb (fun e => nonempty (fst e) && (blen (fst e) <=? 2700)%N) (d_words en) = true) by (vm_compute; reflexivity).
    rewrite forallb_forall in B. specialize (B e He). apply andb_true_iff in B. destruct B as [B1 B2]. apply N.leb_le in B2.
    split; [|exact B2]. intros E. rewrite E in B1. discriminate. }
  intros stem flags H. exact (proj1 (Forall_forall _ _) F (stem, flags) H).
Qed.
Lemma en_rules : forall kd a, In a (rules (d_aff en) kd) -> a_add a <> [] /\ (blen (a_add a) <= 2700)%N /\ (kd = Pfx -> strip_text a = []).
Proof.
  intros kd a H. assert (B : forallb (fun a => nonempty (a_add a) && (blen (a_add a) <=? 2700)%N && match kd with Pfx => negb (nonempty (strip_text a)) | Sfx => true end)
     (rules (d_aff en) kd) = true) by (destruct kd; vm_compute; reflexivity).
  rewrite forallb_forall in B. specialize (B a H). apply andb_true_iff in B. destruct B as [B B3]. apply andb_true_iff in B. destruct B as [B1 B2].
  apply N.leb_le in B2. split; [intros E; rewrite E in B1; discriminate|]. split; [exact B2|]. intros ->. destruct (strip_text a); [reflexivity|discriminate].
Qed.
Lemma en_sizes : ordinary_sizes en.
Proof.
  constructor.
  - exact en_words.
  - intros kd a I. exact (proj1 (proj2 (en_rules kd a I))).
  - intros kd a stem flags _ I _ D. apply (proj1 (en_rules kd a I)). destruct kd; destruct D as (r & _ & E); symmetry in E; apply app_eq_nil in E; tauto.
  - intros s p stem flags rest _ _ _ I _ _. rewrite (proj2 (proj2 (en_rules Pfx p I)) eq_refl). exists stem. reflexivity.
  - vm_compute. constructor.
Qed.
Lemma ascii_case_total : case_total ascii_unicode.
Proof. intros c _. split; discriminate. Qed.
Lemma ascii_lower_bounded : lower_bounded ascii_unicode.
Proof. intros c _. cbn [u_lower ascii_unicode blen]. unfold len1. repeat match goal with |- context [if ?b then _ else _] => destruct b end; cbv; discriminate. Qed.
(** All words get suggestions from the English dictionary, with n-grams and without. *)
Example C34_example : forall w, scalars w ->
  (exists l, suggests ex_pl ex_rn en false false false w l) /\ (exists l, suggests ex_pl ex_rn en false false true w l).
Proof.
  assert (CR : check_returns ex_pl en) by (split; [apply plain_shrinks; reflexivity|left; reflexivity]).
  assert (NE : ~ Correct ex_pl en []).
  { apply nothing_incorrect; try reflexivity.
    - intros flags H. apply (proj1 (en_words H)). reflexivity.
    - intros kd a I. exact (proj1 (en_rules kd a I)). }
  assert (TI : tame_input en) by (vm_compute; constructor).
  intros w Hw. split.
  - exact (C34_edits_return ex_pl_wf ex_rn en_reachable CR ascii_case_total NE TI Hw).
  - exact (C34_suggest_returns ex_pl_wf ex_rn_wf en_reachable CR ascii_case_total NE TI (ordinary_wieldy ex_pl_wf ex_rn en_reachable ascii_lower_bounded en_sizes) Hw).
Qed.

Print Assumptions C34_suggest_never_hangs.
Print Assumptions C34_edits_return.
Print Assumptions C34_suggest_returns.
Print Assumptions C34_iconv_hyphen_diverges_refuted.
Print Assumptions C34_empty_suggestion_panics_refuted.
Print Assumptions C34_crossed_prefix_panics_refuted.
