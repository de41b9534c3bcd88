(** Property C76: the word list a session edits is the one its suggestions come from.  A word just
    added is suggested for its misspellings, a word just removed no longer is. *)
From Coq Require Import String Ascii List NArith ZArith Lia Bool Arith Permutation.
From Verif Require Import Base Utf8 Unicode Flags Bag Condition Affix Conversion Aff Checker AffixSpec CompoundRule Rep CompoundSpec
  CompoundTotal RuleCompound Spell CheckSpec CheckMono CheckProps Parser ParserSafe Lib LibSpec LibProps ParserProps BufferOps Ngram Suggester
  SuggestSpec SuggestLow SuggestMono Dedup SuggestProps SuggestTotal NgramMeasures NgramProps NgramRank SuggestImpl LibSuggest Examples
  Properties_Affix Properties_Compound Properties_Check Properties_Dict Properties_Suggest Properties_Ngram Properties_Pipeline Properties_Typos.
Import ListNotations.
Local Open Scope string_scope.
Local Open Scope list_scope.
Local Open Scope nat_scope.
Set Implicit Arguments.

Lemma firsts_from : forall before l r x, Firsts before l r -> In x r -> In x l.
Proof.
  intros before l r x H. induction H as [b|b y l r Hy H IH|b y l r Hy H IH]; intros I; [destruct I| |right; exact (IH I)].
  destruct I as [I|I]; [left; exact I|right; exact (IH I)].
Qed.
Lemma forall2_r : forall X Y (Q : X -> Y -> Prop) l r y, Forall2 Q l r -> In y r -> exists x, In x l /\ Q x y.
Proof.
  intros X Y Q l r y H. induction H as [|a b l r Hab H IH]; intros I; [destruct I|].
  destruct I as [->|I]; [exists a; split; [left; reflexivity|exact Hab]|].
  destruct (IH I) as (x & I1 & I2). exists x. split; [right; exact I1|exact I2].
Qed.
Lemma slip_aff : forall d d' e w, d_aff d' = d_aff d -> Slip d e w -> Slip d' e w.
Proof.
  intros d d' e w EA H. destruct H as [u c v|u c v H|u c a v H H'|u c a v k1 k2 H H'|u a m b v|u a m v H|u a m v H].
  - apply Slip_extra.
  - apply Slip_left_out. rewrite EA. exact H.
  - apply Slip_mistaken; [rewrite EA; exact H|exact H'].
  - apply Slip_beside with (k1 := k1) (k2 := k2); [exact H|rewrite EA; exact H'].
  - apply Slip_exchanged.
  - apply Slip_late, H.
  - apply Slip_early, H.
Qed.

(** Dictionaries without conversions, FORCEUCASE, compounds and MAP, and with tables of moderate
    size: the strategies do not run out of attempts. *)
Definition Handy (d : dictionary) : Prop :=
  ct_inner (ad_iconv (d_aff d)) = [] /\ ct_inner (ad_oconv (d_aff d)) = [] /\ o_force_upper (ad_options (d_aff d)) = None /\
  length (i_table (ad_prefixes (d_aff d))) <= 400 /\ length (i_table (ad_suffixes (d_aff d))) <= 400 /\
  allows_compounding (ad_options (d_aff d)) = false /\ ad_sims (d_aff d) = [] /\ length (ad_try (d_aff d)) <= 400.

Section Claims.
Variable pl : platform.
Hypothesis WP : wf_platform pl.
Variable rn : runtime.
Hypothesis WN : wf_runtime rn.

Section Entry.
Variable d : dictionary.
Hypothesis R : Reachable pl d.
Variables lt lu ng : bool.
Notation k := (checker_of pl d lt lu).
Notation A := (d_aff d).
Notation opts := (ad_options (d_aff d)).
Let OK : dict_ok pl d := reachable_ok WP R.
Let WC : wf_checker k := dict_wf_checker WP OK lt lu.

Lemma direct_found : forall hh x f, DirectWord A (listed d) hh x f ->
  exists g, DirectWord A (listed d) hh x g /\ forall fu n, check_word k n x fu hh = Ret (Some g).
Proof.
  intros hh x f (L & N & Us).
  assert (H : DirectWord A (fun s f => In f (ck_get k s)) hh x f).
  { split; [rewrite (entries_get WP); apply entries_In in L; exact L|auto]. }
  destruct (direct_complete WC H) as [g E]. exists g. split.
  - destruct (direct_sound WC _ _ E) as (I & N' & U'). split; [apply entries_In; rewrite (entries_get WP) in I; exact I|auto].
  - intros fu n. unfold check_word, check_simple_word. rewrite E. reflexivity.
Qed.
Lemma direct_eventually : forall hh fu x g, (forall n, check_word k n x fu hh = Ret (Some g)) ->
  Eventually (fun n => check_word k n x fu hh) (Ret (Some g)).
Proof. intros hh fu x g H. exists 0. intros m _. apply H. Qed.

Lemma listed_approved : forall x f, DirectWord A (listed d) SkipHiddenHomonym x f ->
  (forall g, listed d x g -> ~ Barred d g) -> Approved pl d lt lu x.
Proof.
  intros x f H HB. destruct (direct_found H) as (g & (L & _) & E). exists g.
  split; [apply direct_eventually; intros n; apply E|exact (HB g L)].
Qed.
Lemma barred_not_approved : forall x f, DirectWord A (listed d) SkipHiddenHomonym x f ->
  (forall g, listed d x g -> Barred d g) -> ~ Approved pl d lt lu x.
Proof.
  intros x f H HB (f' & EV & NB). destruct (direct_found H) as (g & (L & _) & E).
  pose proof (eventually_det EV (@direct_eventually SkipHiddenHomonym ForbidBadForceucase x g (fun n => E ForbidBadForceucase n))) as X. injection X as ->. exact (NB (HB g L)).
Qed.

(** An entry that stands alone, none of whose homonyms is barred, is suggested for every word
    without capitals that comes from it by one slip - affixes and other entries cannot get in the
    way. *)
Theorem C76_listed_word_is_suggested : Handy d ->
  forall e f w l, scalars e -> ~ In 32%N e ->
  listed d e f -> ~ marked (o_need_affix opts) f -> ~ marked (o_only_in_compound opts) f -> ~ In hidden_homonym_flag f ->
  (forall g, listed d e g -> ~ Barred d g) ->
  scalars w -> w <> [] -> length w <= 200 -> (blen w <= 360)%N -> classify_casing (pl_unicode pl) w = CNone ->
  Slip d e w -> suggests pl rn d lt lu ng w l -> In e l.
Proof.
  intros (EI & EO & EF & B1 & B2 & B3 & B4 & B5) e f w l He N HL N1 N2 N3 HB Hw Hn HL' HB' HK HSL HS.
  destruct (@C73_corrections_are_suggested pl WP rn WN d R lt lu ng) with (w := w) (w' := w) (v := w) (e := e) (l := l)
    as (x & x' & HR & HC & HI); try assumption.
  - rewrite EI. intros c c' [].
  - rewrite EI. clear. induction w as [|c w IH]; constructor; [intros c' []|exact IH].
  - intros [X _]. contradiction.
  - apply Spelling_word. congruence.
  - apply slip_edit, HSL.
  - apply (@listed_approved e f); [|exact HB]. split; [exact HL|]. split; [exact N1|]. split; auto.
  - apply C33_budget_suffices; assumption.
  - rewrite B4. constructor.
  - intros [X|X]; congruence.
  - unfold Recased in HR. rewrite HK in HR. subst x. rewrite EO in HC. apply converts_nothing in HC. subst x'. exact HI.
Qed.
End Entry.

Section Edits.
Variable d : dictionary.
Hypothesis R : Reachable pl d.
Variables lt lu : bool.
Notation A := (d_aff d).
Notation opts := (ad_options (d_aff d)).

(** [add]: a line that stands for a word [e] which may stand alone. *)
Theorem C76_added_word_is_suggested : Handy d ->
  forall line e f d' ng w l, scalars line -> add pl d line = Ret (Ok tt, d') -> Parses pl d line e f -> scalars e -> ~ In 32%N e ->
  ~ marked (o_need_affix opts) f -> ~ marked (o_only_in_compound opts) f -> ~ In hidden_homonym_flag f ->
  ~ Barred d f -> (forall g, listed d e g -> ~ Barred d g) ->
  scalars w -> w <> [] -> length w <= 200 -> (blen w <= 360)%N -> classify_casing (pl_unicode pl) w = CNone ->
  Slip d e w -> suggests pl rn d' lt lu ng w l -> In e l.
Proof.
  intros HH line e f d' ng w l Hl EADD HP He N N1 N2 N3 NB HB Hw Hn HL HB' HK HSL HS.
  destruct (@C23_add_effect pl WP d R line Hl) as (r & d2 & E & RD & EA & H). rewrite EADD in E. injection E as <- <-.
  destruct H as (e' & f' & HP' & _ & HI). unfold Parses in HP, HP'. rewrite HP in HP'. injection HP' as <- <-.
  apply (@C76_listed_word_is_suggested d' RD lt lu ng) with (f := f) (w := w); try assumption; try (rewrite EA; assumption).
  - unfold Handy. rewrite EA. exact HH.
  - apply HI. auto.
  - intros g Hg X. unfold Barred in X. rewrite EA in X. apply HI in Hg. destruct Hg as [Hg|[_ ->]]; [exact (HB g Hg X)|exact (NB X)].
  - apply slip_aff with (d := d); assumption.
Qed.

(** A word without flags, its slashes escaped: [add] succeeds, and the word is suggested. *)
Theorem C76_plain_word_is_suggested : Handy d ->
  forall e, scalars e -> ordinary (checker_of pl d false false) e -> ~ In 9%N e -> ~ In 32%N e ->
  (forall g, listed d e g -> ~ Barred d g) ->
  exists d', add pl d (escape e) = Ret (Ok tt, d') /\
    forall ng w l, scalars w -> w <> [] -> length w <= 200 -> (blen w <= 360)%N -> classify_casing (pl_unicode pl) w = CNone ->
    Slip d e w -> suggests pl rn d' lt lu ng w l -> In e l.
Proof.
  intros HH e He HO Ht Hs HB.
  destruct (@C23_plain_word_accepted pl WP d R e He HO Ht Hs HB) as (d' & E & HL & _). exists d'. split; [exact E|].
  intros ng w l Hw Hn HLN HB' HK HSL HS.
  assert (HE : scalars (escape e)).
  { unfold escape. apply Forall_flat_map. eapply Forall_impl; [|exact He]. cbv beta. intros c Hc.
    destruct (c =? 47)%N; repeat constructor; exact Hc. }
  destruct (@C23_add_effect pl WP d R _ HE) as (r & d2 & E2 & RD & EA & H). rewrite E in E2. injection E2 as <- <-.
  destruct H as (e' & f' & HP & PM & HI).
  apply (@C76_listed_word_is_suggested d' RD lt lu ng) with (f := []) (w := w); try assumption; try (intros (? & _ & [])).
  - unfold Handy. rewrite EA. exact HH.
  - intros [].
  - intros g Hg X. unfold Barred in X. rewrite EA in X. apply HI in Hg. destruct Hg as [Hg|[E1 E2]]; [exact (HB g Hg X)|].
    assert (Z : f' = []).
    { apply HI in HL. destruct HL as [HL|[_ HL]]; [|auto]. clear - HP E1 E He HO Ht Hs.
      assert (HP0 : Parses pl d (escape e) e []).
      { unfold Parses. pose proof (@dic_line_word pl e [] (ad_flag_type (d_aff d)) (ad_aliases (d_aff d)) (ad_ignore (d_aff d))) as X.
        rewrite app_nil_r in X. rewrite X; [|exact (ord_ne HO)|exact Ht| |constructor|].
        - unfold okP. do 3 f_equal. unfold drop_chars. apply filter_all. intros c Hc. destruct (memb c (ad_ignore (d_aff d))) eqn:EM; [|reflexivity].
          exfalso. apply memb_In in EM. exact (ord_ign HO c Hc EM).
        - intros a b EQ. exfalso. apply Hs. rewrite EQ. apply in_or_app. right. left. reflexivity.
        - assert (forall x, (blen (escape x) <= 2 * blen x)%N) as Y.
          { induction x as [|c x IH]; [cbn; lia|]. rewrite escape_cons, blen_app. cbn [blen].
            destruct (N.eqb_spec c 47) as [->|]; cbn [blen]; [change (len1 92) with 1%N; change (len1 47) with 1%N|]; lia. }
          specialize (Y e). pose proof (ord_len HO). lia. }
      unfold Parses in HP, HP0. rewrite HP in HP0. injection HP0 as _ ->. reflexivity. }
    subst g f'. destruct X as [[]|[_ (? & _ & [])]].
  - apply slip_aff with (d := d); assumption.
Qed.

(** [remove_stem], for a stem that stood alone.  Every homonym is now forbidden. *)
Lemma removed_homonyms : forall stem b d', remove_stem pl d stem = Ret (b, d') ->
  d_aff d' = d_aff d /\ Reachable pl d' /\ (forall g, listed d' stem g -> Barred d' g) /\
  forall f, listed d stem f -> exists f', listed d' stem f' /\ forall g, In g f' <-> g = o_forbidden opts \/ In g f.
Proof.
  intros stem b d' E. destruct (@C25_remove_effect pl WP d R stem) as (b2 & d2 & E2 & RD & EA & _ & _ & _ & HF & _).
  rewrite E in E2. injection E2 as <- <-. split; [exact EA|]. split; [exact RD|]. split.
  - intros g Hg. left. rewrite EA. apply entries_In in Hg. destruct (forall2_r g HF Hg) as (f & _ & Q). apply Q. auto.
  - intros f Hf. apply entries_In in Hf. destruct (forall2_l f HF Hf) as (f' & I & Q). exists f'. split; [apply entries_In, I|exact Q].
Qed.
Lemma removed_not_approved : forall stem b d' f, remove_stem pl d stem = Ret (b, d') -> listed d stem f ->
  ~ marked (o_need_affix opts) f -> ~ marked (o_only_in_compound opts) f -> ~ In hidden_homonym_flag f ->
  o_need_affix opts <> Some (o_forbidden opts) -> o_only_in_compound opts <> Some (o_forbidden opts) ->
  hidden_homonym_flag <> o_forbidden opts -> ~ Approved pl d' lt lu stem.
Proof.
  intros stem b d' f E HL N1 N2 N3 M1 M2 M3. destruct (@removed_homonyms stem b d' E) as (EA & RD & HB & HF).
  destruct (HF f HL) as (f' & L' & Q).
  apply (@barred_not_approved d' RD lt lu stem f'); [|exact HB]. rewrite EA. split; [exact L'|]. split; [|split].
  - intros (x & EX & I). apply Q in I. destruct I as [->|I]; [contradiction|]. apply N1. exists x. auto.
  - intros _ (x & EX & I). apply Q in I. destruct I as [->|I]; [contradiction|]. apply N2. exists x. auto.
  - intros _ I. apply Q in I. destruct I as [I|I]; contradiction.
Qed.

(** Without conversions, FORCEUCASE and n-grams, a removed stem is not suggested for any word
    without capitals and hyphens. *)
Theorem C76_removed_word_not_suggested : ct_inner (ad_iconv A) = [] -> ct_inner (ad_oconv A) = [] -> o_force_upper opts = None ->
  forall stem b d' f w l, remove_stem pl d stem = Ret (b, d') -> listed d stem f ->
  ~ marked (o_need_affix opts) f -> ~ marked (o_only_in_compound opts) f -> ~ In hidden_homonym_flag f ->
  o_need_affix opts <> Some (o_forbidden opts) -> o_only_in_compound opts <> Some (o_forbidden opts) ->
  hidden_homonym_flag <> o_forbidden opts -> ~ In 32%N stem -> ~ In 45%N stem ->
  scalars w -> (blen w <= 360)%N -> classify_casing (pl_unicode pl) w = CNone -> ~ In 45%N w ->
  suggests pl rn d' lt lu false w l -> ~ In stem l.
Proof.
  intros EI EO EF stem b d' f w l E HL N1 N2 N3 M1 M2 M3 NS NH Hw HB HK NW HS IN.
  pose proof (@removed_not_approved stem b d' f E HL N1 N2 N3 M1 M2 M3) as NA. destruct (@removed_homonyms stem b d' E) as (EA & RD & _ & _).
  apply (C58_exact_list WP WN RD) in HS; [|exact Hw|exact HB].
  destruct HS as [|w w2 t _ C K' FO _|w w2 good pr gu hy l1 l2 l3 l _ C PR GU HY CA RE FI CO]; [destruct IN| |].
  { destruct FO as [X _]. rewrite EA in X. contradiction. }
  rewrite EA, EI in C. apply converts_nothing in C. subst w2. unfold Capitalised in CA. unfold Retained in RE. rewrite HK in CA, RE. subst l2 l1.
  destruct GU as [(X & _)|[_ ->]]; [discriminate|]. destruct HY as [hy X|]; [contradiction|].
  destruct (forall2_r stem CO IN) as (x & I3 & C3). rewrite EA, EO in C3. apply converts_nothing in C3. subst x.
  pose proof (firsts_from stem FI I3) as I2. rewrite !app_nil_r in I2.
  destruct PR as [g l0 K NF HST| | | |]; try congruence. destruct HST as (l1 & l2 & l4 & l5 & l6 & -> & S1 & S2 & S3 & S4 & CU & _).
  rewrite !in_app_iff in I2. destruct I2 as [I|[I|[I|[I|I]]]].
  - apply (Selects_In stem S1) in I. tauto.
  - apply (Selects_In stem S2) in I. tauto.
  - apply (Selects_In stem S3) in I. tauto.
  - apply (Selects_In stem S4) in I. tauto.
  - destruct CU as [[_ ->]|(_ & ll & F & ->)]; [destruct I|]. apply in_concat in I. destruct I as (r & Ir & Is).
    destruct (forall2_r r F Ir) as ([[a c] t] & _ & HC). unfold Cut in HC.
    destruct HC as [[_ ->]|(_ & _ & [[_ ->]|[_ ->]])]; [destruct Is| |];
      repeat (destruct Is as [<-|Is]; [first [apply NS; apply in_app_iff; right; left; reflexivity
        |apply NH; apply in_app_iff; right; left; reflexivity]|]); destruct Is.
Qed.
End Edits.

(** For words in title case and in capitals, with n-grams and hyphens or without: what [check]
    refuses is not suggested at all, and so neither is a removed stem. *)
Theorem C76_removed_word_not_suggested_capitals : forall d, Reachable pl d ->
  ct_inner (ad_oconv (d_aff d)) = [] ->
  forall stem b d' f ng w l, remove_stem pl d stem = Ret (b, d') ->
  ordinary (checker_of pl d false false) stem -> listed d stem f ->
  ~ marked (o_need_affix (ad_options (d_aff d))) f -> ~ marked (o_only_in_compound (ad_options (d_aff d))) f -> ~ In hidden_homonym_flag f ->
  o_need_affix (ad_options (d_aff d)) <> Some (o_forbidden (ad_options (d_aff d))) ->
  o_only_in_compound (ad_options (d_aff d)) <> Some (o_forbidden (ad_options (d_aff d))) ->
  hidden_homonym_flag <> o_forbidden (ad_options (d_aff d)) -> ~ In 32%N stem ->
  scalars w -> (blen w <= 360)%N ->
  (forall w', Converts (ct_inner (ad_iconv (d_aff d))) w w' ->
    classify_casing (pl_unicode pl) w' = CInit \/ classify_casing (pl_unicode pl) w' = CAll) ->
  suggests pl rn d' false false ng w l -> ~ In stem l.
Proof.
  intros d R EO stem b d' f ng w l E HO HL N1 N2 N3 M1 M2 M3 NS Hw HB HK HS IN.
  pose proof (@C25_removed_stem_rejected pl WP d R stem b d' f E HO HL N1 N2 N3 M1 M2 M3) as RJ.
  destruct (@removed_homonyms d R stem b d' E) as (EA & RD & _ & _).
  assert (RS : answers pl d' false false stem (Ret false)) by (exists 0; intros m _; apply RJ).
  apply (C58_exact_list WP WN RD) in HS; [|exact Hw|exact HB].
  destruct HS as [|w w2 t _ C K' FO _|w w2 good pr gu hy l1 l2 l3 l _ C PR GU HY CA RE FI CO]; [destruct IN| |].
  { rewrite EA in C. destruct (HK _ C); congruence. }
  rewrite EA in C. destruct (forall2_r stem CO IN) as (x & I3 & C3). rewrite EA, EO in C3. apply converts_nothing in C3. subst x.
  pose proof (firsts_from stem FI I3) as I2. unfold Retained in RE.
  assert (exists ll, Forall2 (Keeps pl d' false false) l1 ll /\ l2 = concat ll) as (ll & F & ->) by (destruct (HK _ C) as [X|X]; rewrite X in RE; exact RE).
  apply in_concat in I2. destruct I2 as (r & Ir & Is). destruct (forall2_r r F Ir) as (s & _ & KS).
  destruct KS as [Y|Y Y'|Y _ Y'|t Y _ _ _ Y'|t Y _ _ _ Y']; try (destruct Is as [<-|[]]); try contradiction.
  - pose proof (says_det RS Y'). discriminate.
  - pose proof (says_det RS Y'). discriminate.
  - pose proof (says_det RS Y'). discriminate.
Qed.
End Claims.

(** ** Examples and refutation *)
Lemma sd_handy : Handy sd.
Proof. unfold Handy. repeat split; first [reflexivity|vm_compute; lia]. Qed.
Definition sd_added : dictionary := Eval vm_compute in
  (the (match add ex_pl sd (lit "gizmo") with Ret (Ok _, d) => Some d | _ => None end) <: dictionary).
Definition sd_removed : dictionary := Eval vm_compute in
  (the (match remove_stem ex_pl sd (lit "hello") with Ret (true, d) => Some d | _ => None end) <: dictionary).
Lemma gizmo_slip : Slip sd (lit "gizmo") (lit "gimzo").
Proof.
  change (lit "gizmo") with (lit "gi" ++ 122%N :: [] ++ 109%N :: lit "o"). change (lit "gimzo") with (lit "gi" ++ 109%N :: [] ++ 122%N :: lit "o").
  apply Slip_exchanged.
Qed.
(** [gimzo] is first answered with nothing; once [gizmo] is added, with that. *)
Example C76_example :
  add ex_pl sd (lit "gizmo") = Ret (Ok tt, sd_added) /\
  suggests ex_pl ex_rn sd false false true (lit "gimzo") [] /\
  (forall l, suggests ex_pl ex_rn sd_added false false true (lit "gimzo") l -> In (lit "gizmo") l) /\
  (exists l, suggests ex_pl ex_rn sd_added false false true (lit "gimzo") l).
Proof.
  split; [vm_compute; reflexivity|]. split; [propose 30|]. split; [|eexists; propose 30].
  intros l HS.
  destruct (@C76_plain_word_is_suggested ex_pl ex_pl_wf ex_rn ex_rn_wf sd sd_reachable false false sd_handy (lit "gizmo")) as (d' & E & H).
  - apply lit_scalars; reflexivity.
  - word_facts.
  - vm_compute. intuition discriminate.
  - vm_compute. intuition discriminate.
  - intros g Hg. unfold listed in Hg. vm_compute in Hg. intuition discriminate.
  - assert (d' = sd_added) as -> by (assert (X : add ex_pl sd (escape (lit "gizmo")) = Ret (Ok tt, sd_added)) by (vm_compute; reflexivity); congruence).
    apply (H true (lit "gimzo")); [apply lit_scalars; reflexivity|discriminate|vm_compute; lia|vm_compute; discriminate|reflexivity|exact gizmo_slip|exact HS].
Qed.
(** [ehllo] is answered with [hello] until that is removed; [Ehllo] with [Hello]. *)
Example C76_removed_example :
  remove_stem ex_pl sd (lit "hello") = Ret (true, sd_removed) /\
  suggests ex_pl ex_rn sd false false false (lit "ehllo") [lit "hello"] /\
  (forall l, suggests ex_pl ex_rn sd_removed false false false (lit "ehllo") l -> ~ In (lit "hello") l) /\
  (exists l, suggests ex_pl ex_rn sd_removed false false false (lit "ehllo") l) /\
  (forall l, suggests ex_pl ex_rn sd_removed false false true (lit "EHLLO") l -> ~ In (lit "hello") l) /\
  (exists l, suggests ex_pl ex_rn sd_removed false false true (lit "EHLLO") l).
Proof.
  assert (E : remove_stem ex_pl sd (lit "hello") = Ret (true, sd_removed)) by (vm_compute; reflexivity).
  assert (L : listed sd (lit "hello") []) by (unfold listed; vm_compute; auto 10).
  split; [exact E|]. split; [propose 30|]. split; [|split; [eexists; propose 30|split; [|eexists; propose 30]]].
  - intros l HS.
    refine (@C76_removed_word_not_suggested ex_pl ex_pl_wf ex_rn ex_rn_wf sd sd_reachable false false eq_refl eq_refl eq_refl
      (lit "hello") true sd_removed [] (lit "ehllo") l E L _ _ _ _ _ _ _ _ _ _ eq_refl _ HS);
      first [solve [intros (? & _ & [])] | solve [intros []] | discriminate | apply lit_scalars; reflexivity | vm_compute; discriminate | vm_compute; intuition discriminate].
  - intros l HS.
    refine (@C76_removed_word_not_suggested_capitals ex_pl ex_pl_wf ex_rn ex_rn_wf sd sd_reachable eq_refl
      (lit "hello") true sd_removed [] true (lit "EHLLO") l E _ L _ _ _ _ _ _ _ _ _ _ HS);
      try first [solve [intros (? & _ & [])] | solve [intros []] | discriminate | apply lit_scalars; reflexivity | word_facts | vm_compute; discriminate].
    + vm_compute. intuition discriminate.
    + intros w' C. change (ct_inner (ad_iconv (d_aff sd))) with (@nil conversion) in C. apply converts_nothing in C. subst w'. right. reflexivity.
Qed.

(** With n-grams the claim is false: forms of an entry are guessed without looking whether they
    are forbidden.  [locks] is removed, [check] refuses it, and it is still suggested, as a form of
    [lock] (suggester/ngram.rs 294-470). *)
Definition lk_locks_removed : dictionary := Eval vm_compute in
  (the (match remove_stem ex_pl lk (lit "locks") with Ret (true, d) => Some d | _ => None end) <: dictionary).
Theorem C76_removed_guess_refuted : Reachable ex_pl lk /\ Handy lk /\ listed lk (lit "locks") [] /\
  remove_stem ex_pl lk (lit "locks") = Ret (true, lk_locks_removed) /\
  rejected ex_pl lk_locks_removed (lit "locks") /\
  suggests ex_pl ex_rn lk_locks_removed false false true (lit "lcoks") [lit "locks"] /\
  suggests ex_pl ex_rn lk_locks_removed false false false (lit "lcoks") [].
Proof.
  split; [exact (proj1 C25_conjugation_stays_refuted)|]. split; [unfold Handy; repeat split; first [reflexivity|vm_compute; lia]|].
  split; [unfold listed; vm_compute; auto|]. split; [vm_compute; reflexivity|]. split; [settle 50|]. split; propose 30.
Qed.
Print Assumptions C76_listed_word_is_suggested.
Print Assumptions C76_added_word_is_suggested.
Print Assumptions C76_plain_word_is_suggested.
Print Assumptions C76_removed_word_not_suggested.
Print Assumptions C76_removed_word_not_suggested_capitals.
Print Assumptions C76_example.
Print Assumptions C76_removed_example.
Print Assumptions C76_removed_guess_refuted.
