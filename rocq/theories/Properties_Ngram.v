(** Properties C36 and C37: what switching n-gram suggestions on adds to the suggestions. *)
From Coq Require Import String Ascii List NArith ZArith Lia Bool Arith Permutation.
From Verif Require Import Base Utf8 Unicode Flags Bag Condition Affix Conversion Aff Checker AffixSpec CompoundRule Rep CompoundSpec
  CompoundTotal RuleCompound Spell CheckSpec CheckMono CheckProps Parser ParserSafe Lib LibSpec LibProps BufferOps Ngram Suggester
  SuggestSpec SuggestLow SuggestMono Dedup SuggestProps SuggestTotal NgramMeasures NgramProps SuggestImpl LibSuggest Examples
  Properties_Affix Properties_Compound Properties_Check Properties_Suggest.
Import ListNotations.
Local Open Scope string_scope.
Local Open Scope list_scope.
Local Open Scope nat_scope.
Set Implicit Arguments.

(** ** Lists in two parts *)
Lemma mapR_app : forall X Y (f : X -> Res Y) a b r, mapR f (a ++ b) = Ret r ->
  exists ra rb, mapR f a = Ret ra /\ mapR f b = Ret rb /\ r = ra ++ rb.
Proof.
  intros X Y f. induction a as [|x a IH]; intros b r H; cbn [app mapR] in *; [exists [], r; auto|].
  destruct (f x) as [y| |]; try discriminate. cbn [bindR] in *.
  destruct (mapR f (a ++ b)) as [r'| |] eqn:E; try discriminate. injection H as <-.
  destruct (IH _ _ E) as (ra & rb & -> & -> & ->). exists (y :: ra), rb. auto.
Qed.
Lemma foldR_app : forall S X (f : S -> X -> Res S) a b s r, foldR f (a ++ b) s = Ret r ->
  exists m, foldR f a s = Ret m /\ foldR f b m = Ret r.
Proof.
  intros S X f. induction a as [|x a IH]; intros b s r H; cbn [app foldR] in *; [eauto|].
  destruct (f s x) as [s'| |]; try discriminate. cbn [bindR] in *. apply IH. exact H.
Qed.
Lemma retain_appends : forall sg n l o r, foldR (retain_step sg n) l o = Ret r ->
  exists t, r = o ++ t /\ length t <= length l /\
    (forall x, In x t -> exists s, In s l /\ Kept sg s x).
Proof.
  intros sg n. induction l as [|s l IH]; intros o r H; cbn [foldR] in H.
  { injection H as <-. exists []. rewrite app_nil_r. split; [reflexivity|]. split; [lia|intros x []]. }
  destruct (retain_step sg n o s) as [o'| |] eqn:E; try discriminate. cbn [bindR] in H.
  destruct (IH _ _ H) as (t & -> & L & K).
  assert (A : exists t0, o' = o ++ t0 /\ length t0 <= 1 /\ forall x, In x t0 -> Kept sg s x).
  { unfold retain_step in E.
    destruct (memb 32 s) eqn:EM.
    { injection E as <-. exists [s]. split; [reflexivity|]. split; [cbn; lia|]. intros x [<-|[]]. left. split; [reflexivity|apply memb_In, EM]. }
    destruct (check _ n s) as [b1| |] eqn:E1; try discriminate. cbn [bindR] in E. destruct b1.
    { injection E as <-. exists [s]. split; [reflexivity|]. split; [cbn; lia|]. intros x [<-|[]]. right. split; [exists n; exact E1|auto]. }
    destruct (check _ n (lowercase _ _ s)) as [b2| |] eqn:E2; try discriminate. cbn [bindR] in E. destruct b2.
    { injection E as <-. eexists [_]. split; [reflexivity|]. split; [cbn; lia|]. intros x [<-|[]]. right. split; [exists n; exact E2|auto]. }
    destruct (titlecase _ _ s) as [u| |] eqn:ET; try discriminate. cbn [bindR] in E.
    destruct (check _ n u) as [b3| |] eqn:E3; try discriminate. cbn [bindR] in E. destruct b3; injection E as <-.
    - exists [u]. split; [reflexivity|]. split; [cbn; lia|]. intros x [<-|[]]. right. split; [exists n; exact E3|auto].
    - exists []. rewrite app_nil_r. split; [reflexivity|]. split; [cbn; lia|intros x []]. }
  destruct A as (t0 & -> & L0 & K0). exists (t0 ++ t). rewrite app_assoc. split; [reflexivity|]. split.
  - rewrite app_length. cbn [length]. lia.
  - intros x Hx. apply in_app_iff in Hx. destruct Hx as [Hx|Hx].
    + exists s. split; [left; reflexivity|apply K0, Hx].
    + destruct (K x Hx) as (s' & I & KK). exists s'. split; [right; exact I|exact KK].
Qed.
Lemma without_app : forall x a b, without x (a ++ b) = without x a ++ without x b.
Proof. intros. apply filter_app. Qed.
Lemma without_length : forall x l, length (without x l) <= length l.
Proof.
  intros x l. unfold without. induction l as [|y l IH]; [apply le_n|]. cbn [filter]. destruct (negb (str_eqb y x)); cbn [length]; lia.
Qed.
Lemma keep_first_app : forall a b, exists c, keep_first (a ++ b) = keep_first a ++ c /\ length c <= length b /\ incl c b.
Proof.
  induction a as [|x a IH]; intros b.
  - exists (keep_first b). split; [reflexivity|]. split; [|intros y Hy; apply (proj1 (keep_first_In _ _)) in Hy; exact Hy].
    induction b as [|y b IHb]; [apply le_n|]. cbn [keep_first length]. pose proof (without_length y (keep_first b)). lia.
  - destruct (IH b) as (c & E & L & I). exists (without x c). cbn [app keep_first]. rewrite E, without_app. split; [reflexivity|].
    split; [pose proof (without_length x c); lia|]. intros y Hy. apply without_In in Hy. apply I, Hy.
Qed.
Lemma without_none : forall x l, ~ In x l -> without x l = l.
Proof.
  intros x l H. unfold without. induction l as [|y l IH]; [reflexivity|]. cbn [filter].
  destruct (str_eqb_spec y x) as [->|N]; [exfalso; apply H; left; reflexivity|]. cbn [negb]. f_equal. apply IH. intros I. apply H. right. exact I.
Qed.
Lemma keep_first_fresh : forall a b, Fresh a b -> keep_first (a ++ b) = keep_first a ++ b.
Proof.
  intros a b F. assert (NB : keep_first b = b).
  { clear -F. assert (G : forall b a, Fresh a b -> keep_first b = b).
    { induction b0 as [|y b0 IH]; intros a0 F0; [reflexivity|]. cbn [keep_first].
      assert (F1 : Fresh (y :: a0) b0).
      { intros p g q s E Hs. apply (F0 (y :: p) g q s); [rewrite E; reflexivity|]. destruct Hs as [[<-|Hs]|Hs]; [right; left; reflexivity|left; exact Hs|right; right; exact Hs]. }
      rewrite (IH _ F1). f_equal. apply without_none. intros I. apply in_split in I. destruct I as (p & q & E).
      apply (F1 p y q y E); [left; left; reflexivity|]. exists [], []. rewrite app_nil_r. reflexivity. }
    exact (G b a F). }
  induction a as [|x a IH]; [exact NB|]. cbn [app keep_first]. rewrite IH.
  - rewrite without_app. f_equal. f_equal. apply without_none. intros I. apply in_split in I. destruct I as (p & q & E).
    apply (F p x q x E); [left; left; reflexivity|]. exists [], []. rewrite app_nil_r. reflexivity.
  - intros p g q s E Hs. apply (F p g q s E). destruct Hs as [Hs|Hs]; [left; right; exact Hs|right; exact Hs].
Qed.

Lemma nil_cons_ne : forall X (c : X) w, c :: w <> [].
Proof. discriminate. Qed.

Section Dict.
Variable pl : platform.
Hypothesis WP : wf_platform pl.
Variable rn : runtime.
Hypothesis WN : wf_runtime rn.
Variable d : dictionary.
Hypothesis R : Reachable pl d.
Variables lt lu : bool.
Notation sg ng := (suggester_of pl rn d lt lu ng).
Notation k := (checker_of pl d lt lu).
Notation U := (pl_unicode pl).
Notation opts := (ad_options (d_aff d)).
Notation h := (o_case (ad_options (d_aff d))).
Notation A := (d_aff d).
Let OK : dict_ok pl d := reachable_ok WP R.
Let TB := dict_tables WP R.
Let WO := proj1 (proj2 (proj2 (proj2 (proj2 (proj2 TB))))).
Let WOS := proj1 (proj2 (proj2 (proj2 (proj2 (proj2 (proj2 TB)))))).
Let WI := proj1 (proj2 (proj2 (proj2 (proj2 (proj2 (proj2 (proj2 TB))))))).
Let WIS := proj2 (proj2 (proj2 (proj2 (proj2 (proj2 (proj2 (proj2 TB))))))).
Let WW : Forall (fun e => scalars (fst e) /\ wf_flagset (snd e)) (su_words (sg true)).
Proof.
  apply Forall_forall. intros [w f] H. cbn [fst snd]. apply (words_In pl WN d lt lu true) in H.
  apply entries_In in H. destruct (@dict_entry_ok pl d OK w f H) as (S1 & _ & S2). exact (conj S1 (proj1 S2)).
Qed.
Let WC : wf_checker k := dict_wf_checker WP OK lt lu.
Let WH : wf_heaps (su_heaps (sg true)) := wr_heaps WN.

(** The word [w] after ICONV. *)
Notation input w w' := (Converts (ct_inner (ad_iconv A)) w w').
(** What the edits of [w] (in all its casings) propose before duplicates are dropped, and
    whether these count as good suggestions (suggester.rs 93-203). *)
Definition Edited (w : str) (good : bool) (proposals : list str) : Prop :=
  Eventually (fun fuel => by_casing (sg false) fuel w []) (Ret (inl (good, proposals))).

Lemma casing_same : forall n w out, by_casing (sg true) n w out = by_casing (sg false) n w out.
Proof. reflexivity. Qed.
Lemma dash_none : forall b n rec w out, ~ In 45%N w -> by_dash (sg b) n rec w out = Ret out.
Proof.
  intros b n rec w out H. unfold by_dash. destruct (memb 45 w) eqn:E; [|reflexivity]. apply memb_In in E. contradiction.
Qed.

(** How the final list comes about from the edits and the n-gram guesses. *)
Lemma split_run : forall n m w l, scalars w -> w <> [] -> (forall w', input w w' -> ~ In 45%N w') ->
  suggest_impl (sg true) n (S m) w [] = Ret l ->
  exists w' base added, input w w' /\ scalars w' /\ suggest_impl (sg false) n (S m) w [] = Ret base /\ l = base ++ added /\
   ((classify_casing U w' = CNone /\ added = [] /\ exists out, by_casing (sg false) n w' [] = Ret (inr out)) \/
    exists hq out1 guesses, by_casing (sg false) n w' [] = Ret (inl (hq, out1)) /\
      by_ngram (sg true) w' hq out1 = Ret (out1 ++ shown_as (sg true) w' guesses) /\
      Forall (NgramForm (sg true) (ranked_as (sg true) w')) guesses /\
      (guesses <> [] -> hq = false /\ o_max_ngram opts <> 0%N) /\
      (length out1 <= max_suggestions -> length guesses <= N.to_nat (o_max_ngram opts) /\ length out1 + length guesses <= max_suggestions) /\
      Fresh out1 guesses /\ length guesses <= 200 /\ length added <= length guesses /\ length base <= length out1 /\
      (forall x, In x added -> exists e y, In e guesses /\ ShownAs pl d lt lu w' e y /\ Converts (ct_inner (ad_oconv A)) y x) /\
      (classify_casing U w' = CNone \/ classify_casing U w' = CCamel -> ct_inner (ad_oconv A) = [] -> base = keep_first out1 /\ added = guesses)).
Proof.
  intros n m w l Hs Hn HD H. destruct w as [|c w]; [contradiction|]. cbn [suggest_impl] in *.
  change (ck_aff (su_checker (sg true))) with A in H. change (ck_aff (su_checker (sg false))) with A.
  destruct (convert (ad_iconv A) (c :: w)) as [w'| |] eqn:EC; try discriminate. cbn [bindR] in *.
  destruct (@convert_inv _ _ _ WI WIS Hs EC) as [CV SW]. specialize (HD w' CV). exists w'.
  rewrite casing_same in H.
  destruct (by_casing (sg false) n w' []) as [[[hq out1]|o]| |] eqn:E1; try discriminate; cbn [bindR] in *.
  2: { injection H as <-. exists o, []. rewrite app_nil_r. split; [exact CV|]. split; [exact SW|]. split; [reflexivity|]. split; [reflexivity|].
       left. split; [|split; [reflexivity|exists o; reflexivity]]. unfold by_casing in E1. cbn [su_checker ck_aff ck_u suggester_of checker_of] in E1.
       destruct (classify_casing U w'); [reflexivity| | | |]; exfalso;
         repeat (match type of E1 with bindR ?x _ = _ => destruct x as [?| |]; try discriminate end; cbn [bindR] in E1). }
  destruct (by_ngram (sg true) w' hq out1) as [out2| |] eqn:E2; try discriminate. cbn [bindR] in H.
  rewrite dash_none in H by exact HD. cbn [bindR] in H.
  assert (E2F : by_ngram (sg false) w' hq out1 = Ret out1) by reflexivity. rewrite E2F. cbn [bindR].
  rewrite dash_none by exact HD. cbn [bindR].
  destruct (@by_ngram_inv (sg true) WC WH WW w' hq out1 out2 E2) as (guesses & A2 & FA & GA & LA & FR).
  assert (G200 : length guesses <= 200).
  { unfold by_ngram in E2. destruct (su_ngram (sg true) && negb hq && negb _) eqn:EG.
    2: { injection E2 as <-. rewrite <- (app_nil_r out1) in A2 at 1. apply app_inv_head in A2. unfold shown_as in A2.
         destruct (classify_casing _ w'); try (destruct guesses; [cbn; lia|discriminate]). }
    match type of E2 with bindR ?x _ = _ => destruct x as [o1| |] eqn:EN; try discriminate end. cbn [bindR] in E2.
    destruct (@ngram_adds (su_heaps (sg true)) WH k WC (su_words (sg true)) (@words_flags (sg true) WW) _ _ _ EN) as (added & E3 & L200 & _).
    assert (X : length out2 = length out1 + length added).
    { destruct (classify_casing _ w'); injection E2 as <-; rewrite E3; rewrite ?app_length; try lia.
      rewrite firstn_app_exact, skipn_app_exact, map_length by reflexivity. reflexivity. }
    rewrite A2, app_length in X. unfold shown_as in X. destruct (classify_casing _ w'); rewrite ?map_length in X; unfold str in *; lia. }
  cbn [su_checker ck_aff ck_u suggester_of checker_of] in H |- *.
  subst out2.
  set (shown := shown_as (sg true) w' guesses) in *.
  assert (LS : length shown = length guesses) by (unfold shown, shown_as; destruct (classify_casing _ w'); rewrite ?map_length; reflexivity).
  match type of H with bindR ?x _ = _ => destruct x as [out4| |] eqn:E4; try discriminate end. cbn [bindR] in H.
  assert (X4 : exists a4 b4, match classify_casing U w' with
       | CInit | CPascal => mapR (fun s : str => upper_char_at U h s 0) out1
       | _ => Ret out1 end = Ret a4 /\ out4 = a4 ++ b4 /\ length a4 = length out1 /\ length b4 = length shown /\
       (forall y, In y b4 -> exists s, In s shown /\
          match classify_casing U w' with CInit | CPascal => upper_char_at U h s 0 = Ret y | _ => y = s end) /\
       match classify_casing U w' with CInit | CPascal => True | _ => a4 = out1 /\ b4 = shown end).
  { destruct (classify_casing U w').
    1, 3, 4: (injection E4 as <-; exists out1, shown; repeat split; auto; intros y Hy; exists y; auto).
    all: destruct (mapR_app _ _ _ E4) as (a4 & b4 & M1 & M2 & ->); exists a4, b4; split; [exact M1|]; split; [reflexivity|];
      pose proof (Forall2_length (mapR_Forall2 _ _ M1)) as L1; pose proof (Forall2_length (mapR_Forall2 _ _ M2)) as L2;
      split; [symmetry; exact L1|]; split; [symmetry; exact L2|]; split; [|exact I];
      intros y Hy; destruct (Forall2_In_r y (mapR_Forall2 _ _ M2) Hy) as (s & I & E); exists s; auto. }
  destruct X4 as (a4 & b4 & M4 & -> & La4 & Lb4 & S4 & T4). rewrite M4. cbn [bindR].
  match type of H with bindR ?x _ = _ => destruct x as [out5| |] eqn:E5; try discriminate end. cbn [bindR] in H.
  assert (X5 : exists a5 b5, match classify_casing U w' with
       | CInit | CAll => foldR (retain_step (sg false) n) a4 []
       | _ => Ret a4 end = Ret a5 /\ out5 = a5 ++ b5 /\ length a5 <= length out1 /\ length b5 <= length shown /\
       (forall y, In y b5 -> exists s, In s b4 /\ match classify_casing U w' with CInit | CAll => Kept (sg true) s y | _ => y = s end) /\
       match classify_casing U w' with CInit | CAll => True | _ => a5 = a4 /\ b5 = b4 end).
  { destruct (classify_casing U w').
    1, 4, 5: (injection E5 as <-; exists a4, b4; repeat split; auto; try lia; intros y Hy; exists y; auto).
    all: destruct (foldR_app _ _ _ _ E5) as (a5 & M1 & M2); exists a5; destruct (@retain_appends _ _ _ _ _ M2) as (b5 & -> & L5 & K5);
      destruct (@retain_appends _ _ _ _ _ M1) as (a5' & EA & LA5 & _); cbn [app] in EA; subst a5';
      exists b5; split; [exact M1|]; split; [reflexivity|]; split; [unfold str in *; lia|]; split; [unfold str in *; lia|]; split; [exact K5|exact I]. }
  destruct X5 as (a5 & b5 & M5 & -> & La5 & Lb5 & S5 & T5). rewrite M5. cbn [bindR].
  rewrite deduplicate_is in H |- *. cbn [bindR] in H |- *.
  destruct (keep_first_app a5 b5) as (c6 & E6 & L6 & I6).
  rewrite E6 in H. destruct (mapR_app _ _ _ H) as (base & added & M1 & M2 & ->).
  exists base, added. split; [exact CV|]. split; [exact SW|]. split; [exact M1|]. split; [reflexivity|]. right.
  exists hq, out1, guesses. split; [reflexivity|]. split; [exact E2|]. split; [exact FA|].
  split; [intros X; destruct (GA X) as (_ & G1 & G2); split; [exact G1|exact G2]|].
  split.
  { intros L. destruct (LA L) as [L1 L2]. split; [exact L1|]. rewrite app_length in L2. fold shown in L2. unfold str in *. lia. }
  split; [exact FR|]. split; [exact G200|].
  pose proof (Forall2_length (mapR_Forall2 _ _ M1)) as LB. pose proof (Forall2_length (mapR_Forall2 _ _ M2)) as LC.
  split; [unfold str in *; lia|]. split.
  { destruct (keep_first_app [] a5) as (z & EZ & LZ & _). cbn [app keep_first] in EZ. rewrite EZ in LB. unfold str in *. lia. }
  assert (FSH : Forall scalars shown).
  { assert (FG : Forall scalars guesses) by (eapply Forall_impl; [|exact FA]; intros e; exact (@ngram_form_scalars (sg true) WC WW _ e)).
    unfold shown, shown_as. cbn [su_checker ck_aff ck_u suggester_of checker_of]. destruct (classify_casing U w'); try exact FG.
    apply Forall_map. eapply Forall_impl; [|exact FG]. intros x Hx. apply scalars_upper; [apply (wp_unicode WP)|exact Hx]. }
  assert (YS : forall y s, In s shown -> match classify_casing U w' with CInit | CPascal => upper_char_at U h s 0 = Ret y | _ => y = s end -> scalars y).
  { intros y s Is E. pose proof (proj1 (Forall_forall _ _) FSH s Is) as Ss.
    destruct (classify_casing U w'); try (subst; exact Ss); exact (@upper_at_scalars (sg true) (wp_unicode WP) _ _ _ Ss E). }
  split.
  { intros x Hx. destruct (Forall2_In_r x (mapR_Forall2 _ _ M2) Hx) as (y & Iy & EY).
    apply I6 in Iy. destruct (S5 y Iy) as (s & Is & K5). destruct (S4 s Is) as (s0 & Is0 & K4).
    pose proof (YS s s0 Is0 K4) as Ss.
    assert (exists e, In e guesses /\ match classify_casing U w' with CAll => s0 = uppercase U h e | _ => s0 = e end) as (e & Ie & KE).
    { unfold shown, shown_as in Is0. cbn [su_checker ck_aff ck_u suggester_of checker_of] in Is0.
      destruct (classify_casing U w'); try (exists s0; auto; fail).
      apply in_map_iff in Is0. destruct Is0 as (e & <- & Ie). exists e. auto. }
    exists e, y. split; [exact Ie|].
    assert (SY : scalars y).
    { destruct (classify_casing U w'); try (subst; exact Ss);
        (destruct K5 as [[-> _]|[_ [-> |[-> |ET]]]]; [exact Ss|exact Ss|apply scalars_lower; [apply (wp_unicode WP)|exact Ss]|exact (@title_scalars (sg true) (wp_unicode WP) _ _ Ss ET)]). }
    split; [|exact (proj1 (@convert_inv _ _ _ WO WOS SY EY))].
    assert (KA : forall s y, Kept (sg true) s y -> KeptAs pl d lt lu s y).
    { intros s1 y1 [HK|[H1 H2]]; [left; exact HK|right]. split; [apply (@passes_answers pl WP rn d lt lu true); exact H1|exact H2]. }
    unfold ShownAs. destruct (classify_casing U w'); subst.
    - reflexivity.
    - exists s. split; [exact K4|apply KA; exact K5].
    - left. apply KA. exact K5.
    - reflexivity.
    - exact K4. }
  intros HC EO.
  assert (NOCONV : forall l1 l2, mapR (convert (ad_oconv A)) l1 = Ret l2 -> l2 = l1).
  { intros l1 l2 M. apply mapR_Forall2 in M. induction M as [|x y l1 l2 HX M IHM]; [reflexivity|].
    unfold convert in HX. rewrite EO in HX. injection HX as <-. f_equal. exact IHM. }
  rewrite (NOCONV _ _ M1), (NOCONV _ _ M2).
  assert (a5 = out1 /\ b5 = guesses) as [-> ->].
  { unfold shown, shown_as in T4. cbn [su_checker ck_aff ck_u suggester_of checker_of] in T4.
    destruct HC as [HC|HC]; rewrite HC in T4, T5; destruct T4, T5; split; congruence. }
  rewrite (keep_first_fresh FR) in E6. apply app_inv_head in E6. auto.
Qed.

Lemma edited_settles : forall n w hq out, by_casing (sg false) n w [] = Ret (inl (hq, out)) -> Edited w hq out.
Proof.
  intros n w hq out H. exists n. intros fuel L. destruct (@casing_mono (sg false) n fuel L w []) as [E|E]; congruence.
Qed.
Lemma edited_det : forall w a x b y, Edited w a x -> Edited w b y -> a = b /\ x = y.
Proof. intros w a x b y H1 H2. pose proof (eventually_det H1 H2) as E. injection E as -> ->. auto. Qed.
Lemma run_at : forall w l, w <> [] -> suggests pl rn d lt lu true w l -> (blen w <= 360)%N ->
  exists m, suggest_impl (sg true) (S m) (S m) w [] = Ret l.
Proof.
  intros w l Hn H HB. destruct H as [n E]. specialize (E n (le_n n)). unfold suggest in E.
  replace (max_word_len <? blen w)%N with false in E by (symmetry; apply N.ltb_ge; exact HB).
  destruct n as [|m]; [destruct w; [contradiction|discriminate]|]. exists m. exact E.
Qed.
Lemma run_settles : forall b m w l, suggest_impl (sg b) (S m) (S m) w [] = Ret l -> (blen w <= 360)%N -> suggests pl rn d lt lu b w l.
Proof.
  intros b m w l H HB. apply suggest_settles with (S m); [discriminate|]. unfold suggest.
  replace (max_word_len <? blen w)%N with false by (symmetry; apply N.ltb_ge; exact HB). exact H.
Qed.
Lemma no_word : forall b w l, w = [] \/ (360 < blen w)%N -> suggests pl rn d lt lu b w l -> l = [].
Proof.
  intros b w l H HS. destruct HS as [n E]. specialize (E n (le_n n)).
  rewrite C02_suggest_limits in E by tauto. congruence.
Qed.

(** ** C36 *)
(** n-gram suggestions are appended to the suggestions there are without them: never more than
    200, none when MAXNGRAMSUGS is 0 or the edits are good enough, and at most MAXNGRAMSUGS (and
    at most sixteen suggestions in all) when the edits propose at most sixteen times. *)
Theorem C36_ngrams_are_appended : forall w l, scalars w -> (forall w', input w w' -> ~ In 45%N w') ->
  suggests pl rn d lt lu true w l ->
  exists w' base added, input w w' /\ suggests pl rn d lt lu false w base /\ l = base ++ added /\
    length added <= 200 /\ (o_max_ngram opts = 0%N -> added = []) /\
    forall good proposals, Edited w' good proposals ->
      (good = true -> added = []) /\
      (length proposals <= 16 -> length added <= N.to_nat (o_max_ngram opts) /\ length l <= 16).
Proof.
  intros w l Hs HD H.
  assert (TRIV : w = [] \/ (360 < blen w)%N -> l = [] /\ suggests pl rn d lt lu false w []).
  { intros X. split; [exact (no_word X H)|]. exists 0. intros fuel _. apply C02_suggest_limits. tauto. }
  assert (CV : exists w', input w w') by (destruct (convert_spec WI Hs) as (x & _ & C); exists x; exact C).
  assert (DONE : w = [] \/ (360 < blen w)%N -> exists w' base added, input w w' /\ suggests pl rn d lt lu false w base /\ l = base ++ added /\
    length added <= 200 /\ (o_max_ngram opts = 0%N -> added = []) /\
    forall good proposals, Edited w' good proposals -> (good = true -> added = []) /\
      (length proposals <= 16 -> length added <= N.to_nat (o_max_ngram opts) /\ length l <= 16)).
  { intros X. destruct (TRIV X) as [-> HF]. destruct CV as [w' CV]. exists w', [], []. split; [exact CV|]. split; [exact HF|]. split; [reflexivity|].
    split; [cbn; lia|]. split; [reflexivity|]. intros good proposals _. split; [reflexivity|]. cbn. lia. }
  destruct w as [|c w]; [apply DONE; left; reflexivity|].
  destruct (N.le_gt_cases (blen (c :: w)) 360) as [HB|HB]; [|apply DONE; right; exact HB].
  clear DONE TRIV CV. destruct (run_at (@nil_cons_ne _ c w) H HB) as [m E].
  destruct (@split_run _ _ _ _ Hs (@nil_cons_ne _ c w) HD E) as (w' & base & added & CV & SW & EF & -> & X).
  exists w', base, added. split; [exact CV|]. split; [exact (@run_settles _ _ _ _ EF HB)|]. split; [reflexivity|].
  destruct X as [(_ & -> & (out & EO))|(hq & out1 & guesses & EC & _ & _ & G & LN & _ & L200 & LA & LB & _)].
  - split; [cbn; lia|]. split; [reflexivity|]. intros good proposals HE. exfalso. destruct HE as [n HE].
    specialize (HE (Nat.max n (S m)) (Nat.le_max_l _ _)).
    destruct (@casing_mono (sg false) (S m) (Nat.max n (S m)) (Nat.le_max_r _ _) w' []) as [E'|E']; congruence.
  - split; [lia|]. split.
    + intros E0. destruct guesses as [|g guesses]; [destruct added; [reflexivity|cbn in LA; lia]|].
      destruct (G ltac:(discriminate)) as [_ X]. contradiction.
    + intros good proposals HE. destruct (edited_det HE (@edited_settles _ _ _ _ EC)) as [-> ->]. split.
      * intros ->. destruct guesses as [|g guesses]; [destruct added; [reflexivity|cbn in LA; lia]|].
        destruct (G ltac:(discriminate)) as [X _]. discriminate.
      * intros L. destruct (LN L) as [L1 L2]. split; [lia|]. rewrite app_length. unfold max_suggestions in *. lia.
Qed.

(** For lower-case words: nothing added contains a suggestion that was there, or an earlier
    addition. *)
Theorem C36_additions_are_new : ct_inner (ad_oconv A) = [] ->
  forall w l, scalars w -> (forall w', input w w' -> ~ In 45%N w' /\ classify_casing U w' = CNone) ->
  suggests pl rn d lt lu true w l ->
  exists base added, suggests pl rn d lt lu false w base /\ l = base ++ added /\
    forall a x b s, added = a ++ x :: b -> In s base \/ In s a -> ~ Within s x.
Proof.
  intros EO w l Hs HD H.
  assert (DONE : w = [] \/ (360 < blen w)%N -> exists base added, suggests pl rn d lt lu false w base /\ l = base ++ added /\
    forall a x b s, added = a ++ x :: b -> In s base \/ In s a -> ~ Within s x).
  { intros X. exists [], []. split; [exists 0; intros fuel _; apply C02_suggest_limits; tauto|]. split; [exact (no_word X H)|].
    intros a x b s E. destruct a; discriminate. }
  destruct w as [|c w]; [apply DONE; left; reflexivity|].
  destruct (N.le_gt_cases (blen (c :: w)) 360) as [HB|HB]; [|apply DONE; right; exact HB].
  clear DONE. destruct (run_at (@nil_cons_ne _ c w) H HB) as [m E].
  destruct (@split_run _ _ _ _ Hs (@nil_cons_ne _ c w) (fun w' C => proj1 (HD w' C)) E) as (w' & base & added & CV & SW & EF & -> & X).
  exists base, added. split; [exact (@run_settles _ _ _ _ EF HB)|]. split; [reflexivity|].
  destruct X as [(_ & -> & _)|(hq & out1 & guesses & EC & _ & _ & _ & _ & FR & _ & _ & _ & _ & ID)].
  - intros a x b s E'. destruct a; discriminate.
  - destruct (ID (or_introl (proj2 (HD w' CV))) EO) as [-> ->]. intros a x b s E' Hx. apply (FR a x b s E').
    rewrite keep_first_In in Hx. exact Hx.
Qed.

(** MAXNGRAMSUGS 0 switches n-gram suggestions off, for every word. *)
Lemma dash_loop_same : forall n m r1 r2 w i out, (forall p, r1 p = r2 p) ->
  dash_loop (sg true) n m r1 w i out = dash_loop (sg false) n m r2 w i out.
Proof.
  intros n. induction m as [|m IH]; intros r1 r2 w i out HR; [reflexivity|]. cbn [dash_loop].
  cbn [su_checker suggester_of]. match goal with |- bindR ?x _ = _ => destruct x as [ok| |]; try reflexivity end. cbn [bindR].
  destruct ok.
  - cbn [bindR]. destruct (option_map _ _); [apply IH; exact HR|reflexivity].
  - rewrite HR. match goal with |- bindR (bindR ?x _) _ = _ => destruct x as [tmp| |]; try reflexivity end. cbn [bindR].
    change (dash_push (sg true)) with (dash_push (sg false)).
    match goal with |- bindR ?x _ = _ => destruct x as [o| |]; try reflexivity end. cbn [bindR].
    destruct (option_map _ _); [apply IH; exact HR|reflexivity].
Qed.
Theorem C36_zero_switches_off : o_max_ngram opts = 0%N ->
  forall w l, suggests pl rn d lt lu true w l <-> suggests pl rn d lt lu false w l.
Proof.
  intros E0. assert (G : forall n m w out, suggest_impl (sg true) n m w out = suggest_impl (sg false) n m w out).
  { intros n. induction m as [|m IH]; intros w out; [destruct w; reflexivity|]. destruct w as [|c w]; [reflexivity|]. cbn [suggest_impl].
    change (ck_aff (su_checker (sg true))) with A. change (ck_aff (su_checker (sg false))) with A.
    destruct (convert (ad_iconv A) (c :: w)) as [w'| |]; try reflexivity. cbn [bindR].
    rewrite casing_same. destruct (by_casing (sg false) n w' out) as [[[hq out1]|o]| |]; try reflexivity. cbn [bindR].
    assert (NT : by_ngram (sg true) w' hq out1 = Ret out1).
    { unfold by_ngram. cbn [su_checker ck_aff suggester_of checker_of]. rewrite E0. rewrite andb_false_r. reflexivity. }
    assert (NF : by_ngram (sg false) w' hq out1 = Ret out1) by reflexivity. rewrite NT, NF. cbn [bindR].
    assert (DS : by_dash (sg true) n (fun p => suggest_impl (sg true) n m p []) w' out1 =
                 by_dash (sg false) n (fun p => suggest_impl (sg false) n m p []) w' out1).
    { unfold by_dash. destruct (memb 45 w' && _); [|reflexivity]. apply dash_loop_same. intros p. apply IH. }
    rewrite DS. reflexivity. }
  intros w l. split; intros [n H]; exists n; intros fuel L; rewrite <- (H fuel L); unfold suggest; destruct (max_word_len <? blen w)%N; try reflexivity; rewrite G; reflexivity.
Qed.

(** ** C37 *)
(** What an n-gram suggestion is made from: a word of the dictionary that no flag keeps out of
    the suggestions; or a stem with a prefix of its entry put in front of it although the
    prefix's condition does not hold (ngram.rs 386: the condition was tested on a suffixed form,
    which is then dropped). *)
Definition Guess (w e : str) : Prop :=
  exists stem flags, listed d stem flags /\ Eligible k flags /\
    (SimpleWord A (listed d) SkipHiddenHomonym e flags \/
     exists s p mid, In s (rules A Sfx) /\ In (a_flag s) flags /\ a_cross s = true /\ attaches Sfx s stem mid /\
       In p (rules A Pfx) /\ In (a_flag p) flags /\ derives Pfx p stem e /\ fits Pfx p mid /\ ~ fits Pfx p stem /\
       (exists u, w = u ++ a_add s) /\ (exists v, w = a_add p ++ v)).

Lemma form_guess : forall w stem flags e, listed d stem flags -> Eligible k flags -> Form k w stem flags e ->
  SimpleWord A (listed d) SkipHiddenHomonym e flags \/
     exists s p mid, In s (rules A Sfx) /\ In (a_flag s) flags /\ a_cross s = true /\ attaches Sfx s stem mid /\
       In p (rules A Pfx) /\ In (a_flag p) flags /\ derives Pfx p stem e /\ fits Pfx p mid /\ ~ fits Pfx p stem /\
       (exists u, w = u ++ a_add s) /\ (exists v, w = a_add p ++ v).
Proof.
  intros w stem flags e HL (E1 & E2 & E3 & E4) HF.
  assert (US : usable_entry A FULL_WORD SkipHiddenHomonym flags) by (split; intros _; assumption).
  assert (ONE : forall kd a x, UsableAffix k kd flags w a -> attaches kd a stem x -> SimpleWord A (listed d) SkipHiddenHomonym x flags).
  { intros kd a x (U1 & U2 & U3 & U4 & U5 & _) AT. right. left. exists kd, a, stem.
    split; [exact U1|]. split; [exact AT|]. split; [exact U3|]. split; [exact U4|]. split; [exact U5|]. split; [discriminate|].
    split; [exact HL|]. split; [exact U2|]. split; [exact US|]. left. exact I. }
  inversion HF as [NA|kd a e' UA AT|s p mid rest e' UA CR AT UP FP EM DE]; subst.
  - left. left. split; [exact HL|]. split; [exact NA|exact US].
  - left. exact (ONE kd a e UA AT).
  - assert (WPF : wf_affix p) by (destruct UP as (IP & _); exact (@rules_wf k WC Pfx p IP)).
    destruct (cond_ok Pfx p stem) eqn:EC.
    + left. apply (ONE Pfx p e UP). split; [exact DE|]. apply (cond_ok_spec Pfx stem WPF). exact EC.
    + right. exists s, p, (strip_text p ++ rest). destruct UA as (U1 & U2 & _ & _ & _ & U6). destruct UP as (P1 & P2 & _ & _ & _ & P6).
      split; [exact U1|]. split; [exact U2|]. split; [exact CR|]. split; [exact AT|]. split; [exact P1|]. split; [exact P2|].
      split; [exact DE|]. split; [exact FP|]. split; [|split; [exact U6|exact P6]].
      intros F. apply (cond_ok_spec Pfx stem WPF) in F. congruence.
Qed.

Theorem C37_guesses : forall w l, scalars w -> (forall w', input w w' -> ~ In 45%N w') ->
  suggests pl rn d lt lu true w l ->
  exists w' base added, input w w' /\ suggests pl rn d lt lu false w base /\ l = base ++ added /\
    forall x, In x added -> exists e y, Guess (lower_ranked pl d w') e /\ ShownAs pl d lt lu w' e y /\
      Converts (ct_inner (ad_oconv A)) y x.
Proof.
  intros w l Hs HD H.
  assert (CV : exists w', input w w') by (destruct (convert_spec WI Hs) as (x & _ & C); exists x; exact C).
  assert (DONE : w = [] \/ (360 < blen w)%N -> exists w' base added, input w w' /\ suggests pl rn d lt lu false w base /\ l = base ++ added /\
    forall x, In x added -> exists e y, Guess (lower_ranked pl d w') e /\ ShownAs pl d lt lu w' e y /\
      Converts (ct_inner (ad_oconv A)) y x).
  { intros X. destruct CV as [w' CV]. exists w', [], []. split; [exact CV|]. split; [exists 0; intros fuel _; apply C02_suggest_limits; tauto|].
    split; [exact (no_word X H)|]. intros x []. }
  destruct w as [|c w]; [apply DONE; left; reflexivity|].
  destruct (N.le_gt_cases (blen (c :: w)) 360) as [HB|HB]; [|apply DONE; right; exact HB].
  clear DONE CV. destruct (run_at (@nil_cons_ne _ c w) H HB) as [m E].
  destruct (@split_run _ _ _ _ Hs (@nil_cons_ne _ c w) HD E) as (w' & base & added & CV & SW & EF & -> & X).
  exists w', base, added. split; [exact CV|]. split; [exact (@run_settles _ _ _ _ EF HB)|]. split; [reflexivity|].
  destruct X as [(_ & -> & _)|(hq & out1 & guesses & EC & _ & FA & _ & _ & _ & _ & _ & _ & AD & _)]; [intros x []|].
  intros x Hx. destruct (AD x Hx) as (e & y & Ie & SH & CO). exists e, y. split; [|split; [exact SH|exact CO]].
  rewrite Forall_forall in FA. destruct (FA e Ie) as (stem & flags & IW & EL & FM).
  apply (words_In pl WN d lt lu true) in IW. exists stem, flags. split; [exact IW|]. split; [exact EL|].
  exact (form_guess IW EL FM).
Qed.

(** ** C31 *)
(** In any casing: what n-grams add comes from entries without NOSUGGEST. *)
Theorem C31_guesses : forall w l, scalars w -> (forall w', input w w' -> ~ In 45%N w') ->
  suggests pl rn d lt lu true w l ->
  exists w' base added, input w w' /\ suggests pl rn d lt lu false w base /\ l = base ++ added /\
    forall x, In x added -> exists e y stem flags, listed d stem flags /\ ~ marked (o_no_suggest opts) flags /\
      ~ In (o_forbidden opts) flags /\ Form k (lower_ranked pl d w') stem flags e /\ ShownAs pl d lt lu w' e y /\
      Converts (ct_inner (ad_oconv A)) y x.
Proof.
  intros w l Hs HD H.
  assert (CV : exists w', input w w') by (destruct (convert_spec WI Hs) as (x & _ & C); exists x; exact C).
  assert (DONE : w = [] \/ (360 < blen w)%N -> l = []) by (intros X; exact (no_word X H)).
  assert (W : w = [] \/ (360 < blen w)%N \/ (w <> [] /\ (blen w <= 360)%N)).
  { destruct w as [|c w]; [left; reflexivity|right]. destruct (N.le_gt_cases (blen (c :: w)) 360); [right|left; assumption]. split; [discriminate|assumption]. }
  assert (EMPTY : w = [] \/ (360 < blen w)%N -> suggests pl rn d lt lu false w []) by (intros X; exists 0; intros fuel _; apply C02_suggest_limits; tauto).
  destruct CV as [w0 CV]. destruct W as [W|[W|[NE HB]]].
  1,2: exists w0, [], []; split; [exact CV|]; split; [apply EMPTY; auto|]; split; [apply DONE; auto|]; intros x [].
  destruct (run_at NE H HB) as [m E].
  destruct (@split_run _ _ _ _ Hs NE HD E) as (w' & base & added & CV' & SW & EF & -> & X).
  exists w', base, added. split; [exact CV'|]. split; [exact (@run_settles _ _ _ _ EF HB)|]. split; [reflexivity|].
  destruct X as [(_ & -> & _)|(hq & out1 & guesses & EC & _ & FA & _ & _ & _ & _ & _ & _ & AD & _)]; [intros x []|].
  intros x Hx. destruct (AD x Hx) as (e & y & Ie & SH & CO).
  rewrite Forall_forall in FA. destruct (FA e Ie) as (stem & flags & IW & (E1 & E2 & _) & FM).
  apply (words_In pl WN d lt lu true) in IW. exists e, y, stem, flags. auto 8.
Qed.

(** When no prefix has a condition, every n-gram suggestion for a lower-case word is a word of
    the dictionary, and no flag keeps it out of the suggestions. *)
Theorem C37_unconditional_prefixes : (forall p, In p (rules A Pfx) -> a_cond p = None) -> ct_inner (ad_oconv A) = [] ->
  forall w l, scalars w -> (forall w', input w w' -> ~ In 45%N w' /\ classify_casing U w' = CNone) ->
  suggests pl rn d lt lu true w l ->
  exists base added, suggests pl rn d lt lu false w base /\ l = base ++ added /\
    forall x, In x added -> exists flags, SimpleWord A (listed d) SkipHiddenHomonym x flags /\
      ~ In (o_forbidden opts) flags /\ ~ marked (o_no_suggest opts) flags /\ Known pl d x.
Proof.
  intros NP EO w l Hs HD H.
  destruct (@C37_guesses w l Hs (fun w' C => proj1 (HD w' C)) H) as (w' & base & added & CV & HF & -> & G).
  exists base, added. split; [exact HF|]. split; [reflexivity|]. intros x Hx.
  destruct (G x Hx) as (e & y & (stem & flags & HL & (E1 & E2 & E3 & E4) & HG) & SH & CO).
  unfold ShownAs in SH. rewrite (proj2 (HD w' CV)) in SH. subst y. rewrite EO in CO. apply converts_nothing in CO. subst e.
  destruct HG as [SWD|(s & p & mid & _ & _ & _ & _ & IP & _ & _ & _ & NF & _)].
  - exists flags. split; [exact SWD|]. split; [exact E1|]. split; [exact E2|]. exists flags. left. exact SWD.
  - exfalso. apply NF. unfold fits. rewrite (NP p IP). exact I.
Qed.
End Dict.

(** ** Refutations and examples *)
Definition nl_dic : str := lit "6
xbcd
abcdz
zabcd
abczd
azbcd
abzcd
".
Definition nl_aff : str := lit "MAXNGRAMSUGS 1
KEY ax
".
Definition nl : dictionary := Eval vm_compute in (the (built ex_pl nl_aff nl_dic) <: dictionary).
Lemma nl_reachable : Reachable ex_pl nl. Proof. ex_dict nl_aff nl_dic. Qed.
(** A longer KEY line: the edits propose the same word more than sixteen times. *)
Definition nk_aff : str := lit "MAXNGRAMSUGS 1
KEY axaxaxaxaxaxaxaxax
".
Definition nk : dictionary := Eval vm_compute in (the (built ex_pl nk_aff nl_dic) <: dictionary).
Lemma nk_reachable : Reachable ex_pl nk. Proof. ex_dict nk_aff nl_dic. Qed.

(** MAXNGRAMSUGS is not a limit: when the edits propose more than sixteen times, duplicates
    included, the test for a full list (ngram.rs 281, by equality) never holds again. *)
Theorem C36_limit_refuted : o_max_ngram (ad_options (d_aff nk)) = 1%N /\
  suggests ex_pl ex_rn nk false false false (lit "abcd") [lit "xbcd"] /\
  suggests ex_pl ex_rn nk false false true (lit "abcd") [lit "xbcd"; lit "abcdz"; lit "zabcd"].
Proof. split; [reflexivity|]. split; propose 30. Qed.

Lemma nl_off : suggests ex_pl ex_rn nl false false false (lit "abcd") [lit "xbcd"].
Proof. propose 30. Qed.
Lemma nl_on : suggests ex_pl ex_rn nl false false true (lit "abcd") [lit "xbcd"; lit "abcdz"].
Proof. propose 30. Qed.
Lemma nl_edits : Edited ex_pl ex_rn nl false false (lit "abcd") false [lit "xbcd"].
Proof. apply edited_settles with 30. vm_compute. reflexivity. Qed.
Lemma nl_input : forall d w', ct_inner (ad_iconv (d_aff d)) = [] -> Converts (ct_inner (ad_iconv (d_aff d))) (lit "abcd") w' -> w' = lit "abcd".
Proof. intros d w' E H. rewrite E in H. apply converts_nothing in H. congruence. Qed.
Example C36_example :
  exists base added, suggests ex_pl ex_rn nl false false false (lit "abcd") base /\ [lit "xbcd"; lit "abcdz"] = base ++ added /\
     length added <= 1 /\ added <> [] /\ forall x s, In x added -> In s base -> ~ Within s x.
Proof.
  assert (Sc : scalars (lit "abcd")) by (apply lit_scalars; reflexivity).
  destruct (@C36_ngrams_are_appended ex_pl ex_pl_wf ex_rn ex_rn_wf nl nl_reachable false false _ _ Sc
     (fun w' C => ltac:(apply nl_input in C; [subst w'; vm_compute; intuition discriminate|reflexivity])) nl_on)
    as (w' & base & added & CV & HF & E & _ & _ & L).
  apply nl_input in CV; [|reflexivity]. subst w'. destruct (L _ _ nl_edits) as [_ L1].
  destruct (@C36_additions_are_new ex_pl ex_pl_wf ex_rn ex_rn_wf nl nl_reachable false false eq_refl _ _ Sc
     (fun w' C => ltac:(apply nl_input in C; [subst w'; split; [vm_compute; intuition discriminate|reflexivity]|reflexivity])) nl_on)
    as (base' & added' & HF' & E' & N').
  pose proof (eventually_det HF nl_off) as E1. injection E1 as ->.
  pose proof (eventually_det HF' nl_off) as E2. injection E2 as ->.
  assert (added' = added) as -> by (apply app_inv_head with [lit "xbcd"]; congruence).
  exists [lit "xbcd"], added. split; [exact HF|]. split; [exact E|]. split; [apply L1; cbn; lia|].
  split; [intros ->; discriminate|]. intros x s Hx Hs W. apply in_split in Hx. destruct Hx as (a & b & Ex).
  exact (N' a x b s Ex (or_introl Hs) W).
Qed.
(** MAXNGRAMSUGS 0. *)
Definition nz_aff : str := lit "MAXNGRAMSUGS 0
KEY ax
".
Definition nz : dictionary := Eval vm_compute in (the (built ex_pl nz_aff nl_dic) <: dictionary).
Lemma nz_reachable : Reachable ex_pl nz. Proof. ex_dict nz_aff nl_dic. Qed.
Example C36_zero_example : suggests ex_pl ex_rn nz false false true (lit "abcd") [lit "xbcd"].
Proof. apply C36_zero_switches_off; [reflexivity|]. propose 30. Qed.

(** ngram.rs 386: the prefix re- needs a stem that begins with ab; it fits the suffixed form
    "abc" of "a", and the suggestion is "rea". *)
Definition cx_aff : str := lit "SFX A Y 1
SFX A 0 bc .
PFX B Y 1
PFX B 0 re ab
".
Definition cx_dic : str := lit "1
a/AB
".
Definition cx : dictionary := Eval vm_compute in (the (built ex_pl cx_aff cx_dic) <: dictionary).
Lemma cx_reachable : Reachable ex_pl cx. Proof. ex_dict cx_aff cx_dic. Qed.
Theorem C37_words_refuted : suggests ex_pl ex_rn cx false false true (lit "rebc") [lit "rea"] /\ rejected ex_pl cx (lit "rea").
Proof. split; [propose 30|settle 30]. Qed.

Lemma input_same : forall d w w', ct_inner (ad_iconv (d_aff d)) = [] -> Converts (ct_inner (ad_iconv (d_aff d))) w w' -> w' = w.
Proof. intros d w w' E H. rewrite E in H. apply converts_nothing in H. congruence. Qed.
(** An n-gram suggestion with an affix: "unhappyer" is close to "happyer" and to "unhappy". *)
Definition nw_aff : str := lit "SFX A Y 1
SFX A 0 er .
PFX B Y 1
PFX B 0 un .
".
Definition nw_dic : str := lit "1
happy/AB
".
Definition nw : dictionary := Eval vm_compute in (the (built ex_pl nw_aff nw_dic) <: dictionary).
Lemma nw_reachable : Reachable ex_pl nw. Proof. ex_dict nw_aff nw_dic. Qed.
Lemma nw_on : suggests ex_pl ex_rn nw false false true (lit "unxhappyxer") [lit "unhappy"].
Proof. propose 30. Qed.
Example C37_example : exists flags, SimpleWord (d_aff nw) (listed nw) SkipHiddenHomonym (lit "unhappy") flags /\ ~ DirectWord (d_aff nw) (listed nw) SkipHiddenHomonym (lit "unhappy") flags.
Proof.
  destruct (@C37_unconditional_prefixes ex_pl ex_pl_wf ex_rn ex_rn_wf nw nw_reachable false false
    (fun p I => ltac:(vm_compute in I; destruct I as [<-|[]]; reflexivity)) eq_refl (lit "unxhappyxer") _
    (@lit_scalars "unxhappyxer"%string eq_refl) (fun w' C => ltac:(apply input_same in C; [subst w'; split; [vm_compute; intuition discriminate|reflexivity]|reflexivity])) nw_on)
    as (base & added & HF & E & H).
  assert (OFF : suggests ex_pl ex_rn nw false false false (lit "unxhappyxer") []) by propose 30.
  pose proof (eventually_det HF OFF) as E1. injection E1 as ->. cbn [app] in E. subst added.
  destruct (H _ (or_introl eq_refl)) as (flags & SW & _). exists flags. split; [exact SW|].
  intros [L _]. unfold listed in L. vm_compute in L. destruct L as [L|[]]. discriminate.
Qed.

Print Assumptions C36_ngrams_are_appended.
Print Assumptions C36_additions_are_new.
Print Assumptions C36_zero_switches_off.
Print Assumptions C36_limit_refuted.
Print Assumptions C31_guesses.
Print Assumptions C37_guesses.
Print Assumptions C37_unconditional_prefixes.
Print Assumptions C37_words_refuted.
