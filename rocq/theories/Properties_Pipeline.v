(** Properties C57 and C58: the whole list of suggestions, in its order. *)
From Coq Require Import String Ascii List NArith ZArith Lia Bool Arith Permutation.
From Verif Require Import Base Utf8 Unicode Flags Bag Condition Affix Conversion Aff Checker AffixSpec CompoundRule Rep CompoundSpec
  CompoundTotal RuleCompound Spell CheckSpec CheckMono CheckProps Parser ParserSafe Lib LibSpec LibProps BufferOps Ngram Suggester
  SuggestSpec SuggestLow SuggestMono Dedup SuggestProps SuggestTotal NgramMeasures NgramProps NgramRank SuggestImpl LibSuggest Examples
  Properties_Affix Properties_Compound Properties_Check Properties_Suggest Properties_Ngram.
Import ListNotations.
Local Open Scope string_scope.
Local Open Scope list_scope.
Local Open Scope nat_scope.
Set Implicit Arguments.

(** ** Specification *)
Section Spec.
Variable pl : platform.
Variable rn : runtime.
Variable d : dictionary.
Variables lt lu ng : bool.
Notation sg := (suggester_of pl rn d lt lu ng).
Notation k := (checker_of pl d lt lu).
Notation U := (pl_unicode pl).
Notation opts := (ad_options (d_aff d)).
Notation h := (o_case (ad_options (d_aff d))).
Notation A := (d_aff d).
Notation approved := (Approved pl d lt lu).
Notation says v b := (answers pl d lt lu v (Ret b)).
Notation kind w := (classify_casing U w).
Notation lower := (lowercase U h).

(** [v] cut into two words that are not compounds: with a space, and with a hyphen when both
    have two letters and TRY has an [a] or a hyphen. *)
Definition Cut (s : str * N * str) (l : list str) : Prop :=
  let '(a, c, b) := s in
  (~ (Plain d a /\ Plain d (c :: b)) /\ l = []) \/
  (Plain d a /\ Plain d (c :: b) /\
    (((2 <= length a /\ b <> [] /\ (In 97%N (ad_try A) \/ In 45%N (ad_try A))) /\ l = [a ++ 32%N :: c :: b; a ++ 45%N :: c :: b]) \/
     (~ (2 <= length a /\ b <> [] /\ (In 97%N (ad_try A) \/ In 45%N (ad_try A))) /\ l = [a ++ 32%N :: c :: b]))).
Definition Cuts (v : str) (l : list str) : Prop :=
  (o_no_split_sugs opts = true /\ l = []) \/
  (o_no_split_sugs opts = false /\ exists ll, Forall2 Cut (splits v) ll /\ l = concat ll).
(** What the strategies propose for one spelling, in their order, and whether the proposals are
    good: there is an upper-case, REP or MAP form, or there is a MAP table and the spelling itself
    is known. *)
Definition Strategies (v : str) (good : bool) (l : list str) : Prop :=
  exists l1 l2 l3 l4 l5, l = l1 ++ l2 ++ l3 ++ l4 ++ l5 /\
    Selects approved [uppercase U h v] l1 /\
    Selects (fun x => approved x \/ (In 32%N x /\ RecognisedPhrase pl d lt lu x)) (rep_forms (ad_reps A) v) l2 /\
    Selects approved (firstn (budget sg v) (map_forms (ad_sims A) v)) l3 /\
    Selects approved (edits sg v v) l4 /\
    Cuts v l5 /\
    (good = true <-> l1 ++ l2 ++ l3 <> [] \/
      (ad_sims A <> [] /\ exists f, Eventually (fun n => check_word k n v AllowBadForceucase SkipHiddenHomonym) (Ret (Some f)))).

(** A word with an inner capital after a dot is first of all proposed with a space after the
    first dot. *)
Definition Dotted (w : str) (l o : list str) : Prop :=
  (exists a b, w = a ++ 46%N :: b /\ ~ In 46%N a /\ kind b = CInit /\ o = (a ++ 46%N :: 32%N :: b) :: l) \/
  ((forall a b, w = a ++ 46%N :: b -> ~ In 46%N a -> kind b <> CInit) /\ o = l).
(** Another spelling [v] of the word: what is proposed for it comes last, the spelling itself
    first if it is right. *)
Definition Another (v : str) (q : bool) (o : list str) (q' : bool) (o' : list str) : Prop :=
  exists g l b, Strategies v g l /\ says v b /\ q' = (q || g)%bool /\ o' = (if (b : bool) then [v] else []) ++ o ++ l.
(** Proposals with a space whose second part is not the end of the word get a capital after the
    space and come first, the last of them before the others. *)
Inductive Spaced (w : str) : list str -> list str -> list str -> Prop :=
| Spaced_nil : Spaced w [] [] []
| Spaced_stays : forall s l m t, (forall u v, s = u ++ 32%N :: v -> ~ In 32%N u -> exists p, w = p ++ v) ->
    Spaced w l m t -> Spaced w (s :: l) m (s :: t)
| Spaced_moves : forall u c v l m t, ~ In 32%N u -> (forall p, w <> p ++ c :: v) -> Spaced w l m t ->
    Spaced w ((u ++ 32%N :: c :: v) :: l) ((u ++ 32%N :: upper_char U h c ++ v) :: m) t.
(** FORCEUCASE: the word is a compound but for its first letter. *)
Definition Forced (w : str) : Prop :=
  o_force_upper opts <> None /\ exists f, Eventually (fun n => check_compound k n AT_BEGIN w AllowBadForceucase) (Ret (Some f)).
Inductive Proposals (w : str) : bool -> list str -> Prop :=
| Proposals_lower : forall g l, kind w = CNone -> ~ Forced w -> Strategies w g l -> Proposals w g l
| Proposals_title : forall g1 l1 g2 l2, kind w = CInit -> Strategies w g1 l1 -> Strategies (lower w) g2 l2 ->
    Proposals w (g1 || g2) (l1 ++ l2)
| Proposals_caps : forall kept t g1 l1 g2 l2, kind w = CAll ->
    (o_keep_case opts <> None /\ says (lower w) true /\ kept = [lower w]) \/
    ((o_keep_case opts = None \/ says (lower w) false) /\ kept = []) ->
    Strategies (lower w) g1 l1 -> titlecase U h (lower w) = Ret t -> Strategies t g2 l2 ->
    Proposals w (g1 || g2) (map (uppercase U h) (kept ++ l1 ++ l2))
| Proposals_camel : forall g1 l1 o1 g2 o2 m t, kind w = CCamel -> Strategies w g1 l1 -> Dotted w l1 o1 ->
    Another (lower w) g1 o1 g2 o2 -> Spaced w o2 m t -> Proposals w g2 (rev m ++ t)
| Proposals_pascal : forall g1 l1 o1 v g2 o2 g3 o3 t' g4 o4 m t, kind w = CPascal -> Strategies w g1 l1 -> Dotted w l1 o1 ->
    lower_first_char U h w = Ret v -> Another v g1 o1 g2 o2 -> Another (lower w) g2 o2 g3 o3 ->
    titlecase U h w = Ret t' -> Another t' g3 o3 g4 o4 -> Spaced w o4 m t -> Proposals w g4 (rev m ++ t).

(** The n-gram guesses: none when they are switched off or the proposals are good. *)
Definition Guesses (w : str) (good : bool) (proposals guesses : list str) : Prop :=
  (ng = true /\ good = false /\ o_max_ngram opts <> 0%N /\
    exists added, NgramAdds k (d_words d) (lower_ranked pl d w) proposals added /\
      guesses = match kind w with CAll => map (uppercase U h) added | _ => added end) \/
  ((ng = false \/ good = true \/ o_max_ngram opts = 0%N) /\ guesses = []).

(** The parts between hyphens that are wrong, each replaced by what is suggested for it; texts
    the dictionary forbids are left out. *)
Section Hyphens.
Variable Answers : str -> list str -> Prop.
Definition Forbids (x : str) : Prop :=
  exists f, Eventually (fun n => check_word k n x ForbidBadForceucase AcceptHiddenHomonym) (Ret (Some f)) /\ In (o_forbidden opts) f.
Inductive Part (before part after : str) : list str -> Prop :=
| Part_right : says part true -> Part before part after []
| Part_wrong : forall l r, says part false -> Answers part l -> Selects (fun x => ~ Forbids x) (map (fun s => before ++ s ++ after) l) r ->
    Part before part after r.
Inductive Parts : str -> str -> list str -> Prop :=
| Parts_last : forall before part l, ~ In 45%N part -> Part before part [] l -> Parts before part l
| Parts_more : forall before part rest l1 l2, ~ In 45%N part -> Part before part (45%N :: rest) l1 ->
    Parts (before ++ part ++ [45%N]) rest l2 -> Parts before (part ++ 45%N :: rest) (l1 ++ l2).
Inductive Hyphenated (w : str) (so_far : list str) : list str -> Prop :=
| Hyphenated_yes : forall l, In 45%N w -> (forall s, In s so_far -> ~ In 45%N s) -> Parts [] w l -> Hyphenated w so_far l
| Hyphenated_no : (~ In 45%N w \/ exists s, In s so_far /\ In 45%N s) -> Hyphenated w so_far [].
End Hyphens.

(** The last steps: a capital for title-case and Pascal-case words; title-case and all-caps words
    keep only what [check] accepts, or accepts in lower case, or in title case. *)
Definition Capitalised (w : str) (l r : list str) : Prop :=
  match kind w with
  | CInit | CPascal => Forall2 (fun s t => exists c v, s = c :: v /\ t = upper_char U h c ++ v) l r
  | _ => r = l
  end.
Inductive Keeps (s : str) : list str -> Prop :=
| Keeps_space : In 32%N s -> Keeps s [s]
| Keeps_word : ~ In 32%N s -> says s true -> Keeps s [s]
| Keeps_lower : ~ In 32%N s -> says s false -> says (lower s) true -> Keeps s [lower s]
| Keeps_title : forall t, ~ In 32%N s -> says s false -> says (lower s) false -> titlecase U h s = Ret t -> says t true -> Keeps s [t]
| Keeps_none : forall t, ~ In 32%N s -> says s false -> says (lower s) false -> titlecase U h s = Ret t -> says t false -> Keeps s [].
Definition Retained (w : str) (l r : list str) : Prop :=
  match kind w with
  | CInit | CAll => exists ll, Forall2 Keeps l ll /\ r = concat ll
  | _ => r = l
  end.

(** The suggestions for a word. *)
Inductive Suggestions : str -> list str -> Prop :=
| Suggestions_empty : Suggestions [] []
| Suggestions_forced : forall w w' t, w <> [] -> Converts (ct_inner (ad_iconv A)) w w' ->
    kind w' = CNone -> Forced w' -> titlecase U h w' = Ret t -> Suggestions w [t]
| Suggestions_list : forall w w' good proposals guesses hyphenated l1 l2 l3 l, w <> [] ->
    Converts (ct_inner (ad_iconv A)) w w' ->
    Proposals w' good proposals -> Guesses w' good proposals guesses -> Hyphenated Suggestions w' (proposals ++ guesses) hyphenated ->
    Capitalised w' (proposals ++ guesses ++ hyphenated) l1 -> Retained w' l1 l2 -> Firsts [] l2 l3 ->
    Forall2 (Converts (ct_inner (ad_oconv A))) l3 l ->
    Suggestions w l.
End Spec.

(** ** Proofs *)
Section Dict.
Variable pl : platform.
Hypothesis WP : wf_platform pl.
Variable rn : runtime.
Hypothesis WN : wf_runtime rn.
Variable d : dictionary.
Hypothesis R : Reachable pl d.
Variables lt lu ng : bool.
Notation sg := (suggester_of pl rn d lt lu ng).
Notation k := (checker_of pl d lt lu).
Notation U := (pl_unicode pl).
Notation opts := (ad_options (d_aff d)).
Notation h := (o_case (ad_options (d_aff d))).
Notation A := (d_aff d).
Let OK : dict_ok pl d := reachable_ok WP R.
Let WR : wf_reps (ad_reps A). Proof. apply (dict_tables WP R). Qed.
Let WG : Forall wf_sim (ad_sims A). Proof. apply (dict_tables WP R). Qed.
Let WRS : Forall (fun e => scalars (fst e) /\ scalars (snd e)) (rp_table (ad_reps A)). Proof. apply (dict_tables WP R). Qed.
Let WT : scalars (ad_try A). Proof. apply (dict_tables WP R). Qed.
Let WK : scalars (ad_keyboard A). Proof. apply (dict_tables WP R). Qed.
Let WO : conv_table_ok (ad_oconv A). Proof. apply (dict_tables WP R). Qed.
Let WOS : Forall (fun c => scalars (cv_to c)) (ct_inner (ad_oconv A)). Proof. apply (dict_tables WP R). Qed.
Let WI : conv_table_ok (ad_iconv A). Proof. apply (dict_tables WP R). Qed.
Let WIS : Forall (fun c => scalars (cv_to c)) (ct_inner (ad_iconv A)). Proof. apply (dict_tables WP R). Qed.
Let WW : Forall (fun e => scalars (fst e) /\ wf_flagset (snd e)) (su_words sg).
Proof.
  apply Forall_forall. intros [w f] H. cbn [fst snd]. apply (words_In pl WN d lt lu ng) in H.
  apply entries_In in H. destruct (@dict_entry_ok pl d OK w f H) as (S1 & _ & S2). exact (conj S1 (proj1 S2)).
Qed.
Let WU : wf_unicode U := wp_unicode WP.
Let WC : wf_checker k := dict_wf_checker WP OK lt lu.
Let WH : wf_heaps (su_heaps sg) := wr_heaps WN.
Notation says v b := (answers pl d lt lu v (Ret b)).

Lemma says_at : forall n v b, check k n v = Ret b -> says v b.
Proof. intros n v b H. eapply check_settles; [|exact H]. discriminate. Qed.

Lemma cuts_is : forall v, scalars v -> Cuts d v (two_word_forms sg v).
Proof.
  intros v Hv. unfold Cuts, two_word_forms. cbn [su_checker ck_aff suggester_of checker_of].
  destruct (o_no_split_sugs opts); [left; auto|right]. split; [reflexivity|]. rewrite flat_map_concat_map. eexists. split; [|reflexivity].
  assert (G : forall l, (forall u c t, In (u, c, t) l -> scalars (u ++ c :: t)) -> Forall2 (Cut d) l (map (fun '(u, c, v) =>
      if simple sg u && simple sg (c :: v) then
        (u ++ 32%N :: c :: v) ::
        (if (1 <? length u)%nat && (0 <? length v)%nat && existsb (fun x => (x =? 97)%N || (x =? 45)%N) (ad_try A)
         then [u ++ 45%N :: c :: v] else [])
      else []) l)).
  { induction l as [|[[u c] t] l IH]; intros HS; [constructor|]. cbn [map]. constructor; [|apply IH; intros; apply HS; right; assumption].
    specialize (HS u c t (or_introl eq_refl)). apply scalars_app_iff in HS. destruct HS as [S1 S2].
    assert (E1 : simple sg u = true <-> Plain d u) by (split; [apply (simple_plain WP rn R lt lu ng S1)|apply (plain_simple WP rn R lt lu ng S1)]).
    assert (E2 : simple sg (c :: t) = true <-> Plain d (c :: t)) by (split; [apply (simple_plain WP rn R lt lu ng S2)|apply (plain_simple WP rn R lt lu ng S2)]).
    cbn [Cut].
    destruct (simple sg u) eqn:X1; cbn [andb]; [|left; split; [intros [P _]; apply E1 in P; discriminate|reflexivity]].
    destruct (simple sg (c :: t)) eqn:X2; [|left; split; [intros [_ P]; apply E2 in P; discriminate|reflexivity]].
    right. split; [apply E1; reflexivity|]. split; [apply E2; reflexivity|].
    assert (E3 : (1 <? length u)%nat && (0 <? length t)%nat && existsb (fun x => (x =? 97)%N || (x =? 45)%N) (ad_try A) = true <->
      2 <= length u /\ t <> [] /\ (In 97%N (ad_try A) \/ In 45%N (ad_try A))).
    { rewrite !andb_true_iff, !Nat.ltb_lt, existsb_exists. split.
      - intros [[H1 H2] (x & I & E)]. split; [exact H1|]. split; [destruct t; [cbn in H2; lia|discriminate]|].
        apply orb_true_iff in E. rewrite !N.eqb_eq in E. destruct E as [-> | ->]; auto.
      - intros (H1 & H2 & H3). split; [split; [exact H1|destruct t; [contradiction|cbn; lia]]|].
        destruct H3 as [I|I]; eexists; (split; [exact I|reflexivity]). }
    destruct ((1 <? length u)%nat && (0 <? length t)%nat && existsb (fun x => (x =? 97)%N || (x =? 45)%N) (ad_try A)).
    - left. split; [apply E3; reflexivity|reflexivity].
    - right. split; [intros X; apply E3 in X; discriminate|reflexivity]. }
  apply G. intros u c t I. apply splits_In in I. rewrite <- I. exact Hv.
Qed.

Lemma strategies_is : forall n v out g r, scalars v -> suggest_low sg n v out = Ret (g, r) ->
  exists l, r = out ++ l /\ Strategies pl rn d lt lu ng v g l.
Proof.
  intros n v out g r Hv H. pose proof (low_workable _ _ _ _ H) as Hn.
  assert (H' : suggest_low sg (n + S (length v)) v out = Ret (g, r)).
  { pose proof (@low_mono sg n (n + S (length v)) ltac:(lia) v out) as [E|E]; congruence. }
  rewrite suggest_low_is in H' by (try assumption; lia). clear H. revert H'. set (m := n + S (length v)). intros H.
  assert (CS : forall x, In x (candidates pl rn d lt lu ng v) -> scalars x) by (intros x; exact (@edit_scalars pl WP rn d R lt lu ng v x Hv)).
  unfold candidates in CS.
  cbn [su_checker ck_aff ck_u suggester_of checker_of] in H.
  destruct (keepR (fit sg m) [uppercase U h v]) as [l1| |] eqn:E1; try discriminate. cbn [bindR] in H.
  destruct (keepR (rep_fit sg m) (rep_forms (ad_reps A) v)) as [l2| |] eqn:E2; try discriminate. cbn [bindR] in H.
  destruct (keepR (fit sg m) (firstn (budget sg v) (map_forms (ad_sims A) v))) as [l3| |] eqn:E3; try discriminate.
  cbn [bindR] in H. destruct (high_quality sg m v (nonempty (l1 ++ l2 ++ l3))) as [q| |] eqn:E5; try discriminate. cbn [bindR] in H.
  destruct (keepR (fit sg m) (edits sg v v)) as [l4| |] eqn:E4; try discriminate. cbn [bindR] in H.
  injection H as <- <-. eexists. split; [reflexivity|]. exists l1, l2, l3, l4, (two_word_forms sg v). split; [reflexivity|].
  split; [|split; [|split; [|split; [|split]]]].
  - eapply keepR_selects; [|exact E1]. intros x b I Hb. rewrite (@fit_iff sg m x b Hb). apply (fit_approved WP rn R lt lu ng), CS. apply in_app_iff. left. exact I.
  - eapply keepR_selects; [|exact E2]. intros x b I Hb. rewrite (@rep_fit_iff sg m x b Hb). unfold RepFit.
    rewrite (fit_approved WP rn R lt lu ng), (leading_recognised WP); [reflexivity|]. apply CS. rewrite !in_app_iff. right. left. exact I.
  - eapply keepR_selects; [|exact E3]. intros x b I Hb. rewrite (@fit_iff sg m x b Hb). apply (fit_approved WP rn R lt lu ng), CS. rewrite !in_app_iff. right. right. left. exact I.
  - eapply keepR_selects; [|exact E4]. intros x b I Hb. rewrite (@fit_iff sg m x b Hb). apply (fit_approved WP rn R lt lu ng), CS. rewrite !in_app_iff. right. right. right. exact I.
  - apply cuts_is. exact Hv.
  - unfold high_quality in E5. destruct (l1 ++ l2 ++ l3) as [|x0 l0] eqn:EL; cbn [nonempty] in E5.
    2: { injection E5 as <-. split; [|reflexivity]. intros _. left. discriminate. }
    cbn [su_checker ck_aff suggester_of checker_of] in E5.
    assert (NE : nonempty (ad_sims A) = true <-> ad_sims A <> []).
    { generalize (ad_sims A). intros [|? ?]; cbn; split; congruence. }
    destruct (nonempty (ad_sims A)).
    2: { injection E5 as <-. split; [discriminate|]. intros [X|[X _]]; [congruence|]. apply NE in X. discriminate. }
    match type of E5 with bindR ?x _ = _ => destruct x as [r0| |] eqn:EW; try discriminate end. cbn [bindR] in E5. injection E5 as <-.
    assert (SW : Eventually (fun n => check_word k n v AllowBadForceucase SkipHiddenHomonym) (Ret r0)).
    { apply (@word_settles pl rn d lt lu ng m); [discriminate|exact EW]. }
    destruct r0 as [f|]; cbn [is_someb]; split; try discriminate; try reflexivity.
    + intros _. right. split; [apply NE; reflexivity|]. exists f. exact SW.
    + intros [X|[_ (f & X)]]; [contradiction|]. pose proof (eventually_det SW X). discriminate.
Qed.

(** *** Casing *)
Lemma first_split : forall (c : N) a b a' b', ~ In c a -> ~ In c a' -> a ++ c :: b = a' ++ c :: b' -> a = a' /\ b = b'.
Proof.
  intros c. induction a as [|x a IH]; intros b a' b' N1 N2 E; destruct a' as [|x' a']; cbn [app] in E.
  - injection E as ->. auto.
  - injection E as -> _. exfalso. apply N2. left. reflexivity.
  - injection E as -> _. exfalso. apply N1. left. reflexivity.
  - injection E as -> E2. destruct (IH b a' b') as [-> ->]; [intros I; apply N1; right; exact I|intros I; apply N2; right; exact I|exact E2|auto].
Qed.
Lemma find_first : forall (c : N) s j, find_char (N.eqb c) s = Some j ->
  exists u v, s = u ++ c :: v /\ ~ In c u /\ length u = j /\ skipn (S j) s = v /\ firstn (S j) s = u ++ [c].
Proof.
  intros c s j H. apply find_char_some in H. destruct H as (u & x & v & -> & L & E & F). apply N.eqb_eq in E. subst x.
  exists u, v. split; [reflexivity|]. split; [intros I; rewrite forallb_forall in F; specialize (F _ I); rewrite N.eqb_refl in F; discriminate|].
  split; [exact L|]. replace (u ++ c :: v) with ((u ++ [c]) ++ v) by (rewrite <- app_assoc; reflexivity).
  split; [apply skipn_app_exact|apply firstn_app_exact]; rewrite app_length; cbn; lia.
Qed.
Lemma find_never : forall (c : N) s, find_char (N.eqb c) s = None -> ~ In c s.
Proof. intros c s H I. apply find_char_none in H. rewrite forallb_forall in H. specialize (H _ I). rewrite N.eqb_refl in H. discriminate. Qed.

Lemma spaced_is : forall w rest pre r, foldR (fix_space sg w) (seq (length pre) (length rest)) (pre ++ rest) = Ret r ->
  exists m t, Spaced pl d w rest m t /\ r = rev m ++ pre ++ t.
Proof.
  intros w. induction rest as [|s rest IH]; intros pre r H; cbn [length seq foldR] in H.
  { injection H as <-. exists [], []. split; [constructor|reflexivity]. }
  unfold fix_space at 1 in H. rewrite nth_error_app2, Nat.sub_diag in H by lia. cbn [nth_error] in H.
  assert (STAY : (forall u v, s = u ++ 32%N :: v -> ~ In 32%N u -> exists p, w = p ++ v) ->
    foldR (fix_space sg w) (seq (S (length pre)) (length rest)) (pre ++ s :: rest) = Ret r ->
    exists m t, Spaced pl d w (s :: rest) m t /\ r = rev m ++ pre ++ t).
  { intros HS HF. replace (pre ++ s :: rest) with ((pre ++ [s]) ++ rest) in HF by (rewrite <- app_assoc; reflexivity).
    replace (S (length pre)) with (length (pre ++ [s])) in HF by (rewrite app_length; cbn; lia).
    destruct (IH _ _ HF) as (m & t & SP & ->). exists m, (s :: t). split; [apply Spaced_stays; assumption|]. rewrite <- app_assoc. reflexivity. }
  destruct (find_char (N.eqb 32) s) as [j|] eqn:EF.
  2: { cbn [bindR] in H. apply STAY; [|exact H]. intros u v -> _. exfalso. apply (@find_never _ _ EF). apply in_or_app. right. left. reflexivity. }
  destruct (@find_first _ _ _ EF) as (u & v & -> & NU & LU & EK & _). rewrite EK in H.
  destruct (ends_with v w) eqn:EW.
  { cbn [bindR] in H. apply STAY; [|exact H]. intros u' v' E N'. destruct (@first_split _ _ _ _ _ NU N' E) as [_ <-].
    apply ends_with_spec in EW. exact EW. }
  unfold upper_char_at in H. cbn [su_checker ck_u ck_aff suggester_of checker_of] in H. rewrite EK in H.
  destruct v as [|c v]; [exfalso; destruct w; discriminate|].
  assert (F1 : firstn (S j) (u ++ 32%N :: c :: v) = u ++ [32%N]) by (destruct (@find_first _ _ _ EF) as (u' & v' & E' & N' & _ & _ & F'); destruct (@first_split _ _ _ _ _ NU N' E') as [<- _]; exact F').
  rewrite F1 in H. cbn [bindR] in H.
  rewrite (firstn_app_exact pre) in H by reflexivity.
  match type of H with context[skipn (S (length pre)) ?y] => assert (SK : skipn (S (length pre)) y = rest) end.
  { transitivity (skipn (S (length pre)) ((pre ++ [u ++ 32%N :: c :: v]) ++ rest)); [rewrite <- app_assoc; reflexivity|].
    apply skipn_app_exact. rewrite app_length. cbn. lia. }
  rewrite SK in H. clear SK.
  rewrite app_comm_cons in H.
  set (x := (u ++ [32%N]) ++ upper_char U h c ++ v) in *.
  change (S (length pre)) with (length (x :: pre)) in H.
  destruct (IH _ _ H) as (m & t & SP & ->). exists (x :: m), t. split.
  - unfold x. rewrite <- app_assoc. apply Spaced_moves; [exact NU| |exact SP].
    intros p E. assert (ends_with (c :: v) w = true) by (apply ends_with_spec; exists p; exact E). congruence.
  - cbn [rev]. rewrite <- !app_assoc. reflexivity.
Qed.
Lemma another_is : forall n v q o r, scalars v -> low_and_first sg n v (q, o) = Ret r -> Another pl rn d lt lu ng v q o (fst r) (snd r).
Proof.
  intros n v q o r Hv H. unfold low_and_first in H.
  destruct (suggest_low sg n v o) as [[g l0]| |] eqn:E; try discriminate. cbn [bindR fst snd] in H.
  destruct (strategies_is n _ Hv E) as (l & -> & SL).
  destruct (check (su_checker sg) n v) as [b| |] eqn:EB; try discriminate. cbn [bindR] in H. injection H as <-. cbn [fst snd].
  exists g, l, b. split; [exact SL|]. split; [exact (says_at _ _ EB)|]. split; [reflexivity|]. destruct b; reflexivity.
Qed.
Lemma dotted_is : forall w l, Dotted pl w l
  match find_char (N.eqb 46) w with
  | Some dot => match classify_casing U (skipn (S dot) w) with CInit => (firstn (S dot) w ++ 32%N :: skipn (S dot) w) :: l | _ => l end
  | None => l
  end.
Proof.
  intros w l. destruct (find_char (N.eqb 46) w) as [j|] eqn:EF.
  - destruct (@find_first _ _ _ EF) as (u & v & -> & NU & LU & EK & E1). rewrite EK, E1.
    destruct (classify_casing U v) eqn:EC.
    2: { left. exists u, v. rewrite <- app_assoc. auto. }
    all: right; (split; [|reflexivity]); intros a b E N'; destruct (@first_split _ _ _ _ _ NU N' E) as [_ <-]; congruence.
  - right. split; [|reflexivity]. intros a b -> _. exfalso. apply (@find_never _ _ EF). apply in_or_app. right. left. reflexivity.
Qed.
Lemma compound_settles : forall n w r, check_compound k n AT_BEGIN w AllowBadForceucase = Ret r ->
  Eventually (fun n => check_compound k n AT_BEGIN w AllowBadForceucase) (Ret r).
Proof.
  intros n w r H. exists n. intros m L. destruct (@compound_mono sg n m L AT_BEGIN w AllowBadForceucase) as [E|E];
    cbn [su_checker suggester_of] in E; congruence.
Qed.
Lemma proposals_is : forall n w g l, scalars w -> by_casing sg n w [] = Ret (inl (g, l)) -> Proposals pl rn d lt lu ng w g l.
Proof.
  intros n w g l Hw H. unfold by_casing in H. cbn [su_checker ck_u ck_aff suggester_of checker_of] in H.
  destruct (classify_casing U w) eqn:EC.
  - match type of H with bindR ?x _ = _ => destruct x as [[f|]| |] eqn:EF; try discriminate end; cbn [bindR] in H.
    { destruct (titlecase U h w); discriminate. }
    destruct (suggest_low sg n w []) as [[g0 l0]| |] eqn:E; try discriminate. cbn [bindR] in H. injection H as <- <-.
    destruct (strategies_is n _ Hw E) as (l1 & -> & SL). apply Proposals_lower; [exact EC| |exact SL].
    intros [X (f & Y)]. destruct (o_force_upper opts); [|contradiction].
    pose proof (eventually_det (compound_settles _ _ EF) Y). discriminate.
  - destruct (suggest_low sg n w []) as [[g0 l0]| |] eqn:E; try discriminate. cbn [bindR fst snd] in H.
    destruct (suggest_low sg n (lowercase U h w) l0) as [[g1 l1]| |] eqn:E1; try discriminate. cbn [bindR fst snd] in H. injection H as <- <-.
    destruct (strategies_is n _ Hw E) as (m0 & -> & SL). destruct (strategies_is n _ (scalars_lower WU h Hw) E1) as (m1 & -> & SL1).
    apply Proposals_title; assumption.
  - match type of H with bindR ?x _ = _ => destruct x as [b| |] eqn:EK; try discriminate end; cbn [bindR] in H.
    match type of H with context[suggest_low sg n (lowercase U h w) ?x] => set (kept := x) in H end.
    destruct (suggest_low sg n (lowercase U h w) kept) as [[g0 l0]| |] eqn:E; try discriminate. cbn [bindR fst snd] in H.
    destruct (titlecase U h (lowercase U h w)) as [t| |] eqn:ET; try discriminate. cbn [bindR fst snd] in H.
    destruct (suggest_low sg n t l0) as [[g1 l1]| |] eqn:E1; try discriminate. cbn [bindR fst snd] in H. injection H as <- <-.
    destruct (strategies_is n _ (scalars_lower WU h Hw) E) as (m0 & -> & SL).
    destruct (strategies_is n _ (@title_scalars sg WU _ _ (scalars_lower WU h Hw) ET) E1) as (m1 & -> & SL1).
    rewrite <- app_assoc. eapply Proposals_caps; [exact EC| |exact SL|exact ET|exact SL1].
    unfold kept. destruct (o_keep_case opts) as [kc|]; [|injection EK as <-; right; auto].
    apply says_at in EK. destruct b; [left; split; [discriminate|auto]|right; auto].
  - destruct (suggest_low sg n w []) as [[g0 l0]| |] eqn:E; try discriminate. cbn [bindR fst snd] in H.
    destruct (strategies_is n _ Hw E) as (m0 & -> & SL). cbn [app] in H.
    match type of H with context[low_and_first sg n (lowercase U h w) (g0, ?x)] => set (o1 := x) in H end.
    assert (DT : Dotted pl w m0 o1) by apply dotted_is.
    destruct (low_and_first sg n (lowercase U h w) (g0, o1)) as [[g2 o2]| |] eqn:E2; try discriminate. cbn [bindR fst snd] in H.
    apply (another_is _ _ _ (scalars_lower WU h Hw)) in E2. cbn [fst snd] in E2.
    destruct (foldR (fix_space sg w) (seq 0 (length o2)) o2) as [o3| |] eqn:E3; try discriminate. cbn [bindR] in H. injection H as <- <-.
    destruct (@spaced_is w o2 [] o3 E3) as (m & t & SP & ->). eapply Proposals_camel; eassumption.
  - destruct (suggest_low sg n w []) as [[g0 l0]| |] eqn:E; try discriminate. cbn [bindR fst snd] in H.
    destruct (strategies_is n _ Hw E) as (m0 & -> & SL). cbn [app] in H.
    destruct (lower_first_char U h w) as [v| |] eqn:EV; try discriminate. cbn [bindR] in H.
    match type of H with context[low_and_first sg n v (g0, ?x)] => set (o1 := x) in H end.
    assert (DT : Dotted pl w m0 o1) by apply dotted_is.
    destruct (low_and_first sg n v (g0, o1)) as [[g2 o2]| |] eqn:E2; try discriminate. cbn [bindR fst snd] in H.
    apply (another_is _ _ _ (@lower_first_scalars sg WU _ _ Hw EV)) in E2. cbn [fst snd] in E2.
    destruct (low_and_first sg n (lowercase U h w) (g2, o2)) as [[g3 o3]| |] eqn:E3; try discriminate. cbn [bindR fst snd] in H.
    apply (another_is _ _ _ (scalars_lower WU h Hw)) in E3. cbn [fst snd] in E3.
    destruct (titlecase U h w) as [t'| |] eqn:ET; try discriminate. cbn [bindR] in H.
    destruct (low_and_first sg n t' (g3, o3)) as [[g4 o4]| |] eqn:E4; try discriminate. cbn [bindR fst snd] in H.
    apply (another_is _ _ _ (@title_scalars sg WU _ _ Hw ET)) in E4. cbn [fst snd] in E4.
    destruct (foldR (fix_space sg w) (seq 0 (length o4)) o4) as [o5| |] eqn:E5; try discriminate. cbn [bindR] in H. injection H as <- <-.
    destruct (@spaced_is w o4 [] o5 E5) as (m & t & SP & ->). eapply Proposals_pascal; eassumption.
Qed.

(** *** n-grams *)
Lemma adds_permuted : forall l l' w out added, Permutation l' l -> NgramAdds k l w out added -> NgramAdds k l' w out added.
Proof.
  intros l l' w out added P (elig & rest & H). unfold NgramAdds. exists elig, rest.
  destruct H as (stems & roots & forms & ranked & limit & guesses & sorted & scored & final & P1 & H).
  exists stems, roots, forms, ranked, limit, guesses, sorted, scored, final. split; [|exact H]. etransitivity; eassumption.
Qed.
Lemma guesses_is : forall w g o r, by_ngram sg w g o = Ret r -> exists guesses, r = o ++ guesses /\ Guesses pl d lt lu ng w g o guesses.
Proof.
  intros w g o r H. unfold by_ngram in H. cbn [su_ngram su_checker ck_aff ck_u suggester_of checker_of] in H.
  destruct (ng && negb g && negb (o_max_ngram opts =? 0)%N) eqn:EG.
  2: { injection H as <-. exists []. rewrite app_nil_r. split; [reflexivity|]. right. split; [|reflexivity].
       rewrite !andb_false_iff, !negb_false_iff, N.eqb_eq in EG. destruct EG as [[?|?]|?]; auto. }
  rewrite !andb_true_iff, !negb_true_iff, N.eqb_neq in EG. destruct EG as [[EN ->] NZ].
  change (match classify_casing U w with CNone => w | _ => lowercase U h w end) with (lower_ranked pl d w) in H.
  match type of H with bindR ?x _ = _ => destruct x as [o1| |] eqn:EA; try discriminate end. cbn [bindR] in H.
  destruct (@ngram_exact (su_heaps sg) WH k WC (su_words sg) (@words_flags sg WW) _ _ _ EA) as (added & -> & NA).
  apply (@adds_permuted _ (d_words d)) in NA; [|apply (wr_iter WN)].
  exists (match classify_casing U w with CAll => map (uppercase U h) added | _ => added end). split.
  - destruct (classify_casing U w); injection H as <-; try reflexivity. rewrite firstn_app_exact, skipn_app_exact by reflexivity. reflexivity.
  - left. split; [exact EN|]. split; [reflexivity|]. split; [exact NZ|]. exists added. auto.
Qed.

(** *** Hyphens *)
Section Dash.
Variables (n : nat) (rec : str -> Res (list str)) (Answers : str -> list str -> Prop).
Hypothesis rec_ok : forall p l, scalars p -> rec p = Ret l -> Answers p l /\ Forall scalars l.
Lemma push_is : forall before after l o r, scalars before -> scalars (match after with Some a => a | None => [] end) -> Forall scalars l ->
  foldR (dash_push sg n before after) l o = Ret r ->
  exists t, r = o ++ t /\ Selects (fun x => ~ Forbids pl d lt lu x) (map (fun s => before ++ s ++ match after with Some a => a | None => [] end) l) t.
Proof.
  intros before after. induction l as [|s l IH]; intros o r HB HA HL H; cbn [foldR map] in *.
  { injection H as <-. exists []. rewrite app_nil_r. split; [reflexivity|constructor]. }
  apply Forall_cons_iff in HL. destruct HL as [Hs HL].
  destruct (dash_push sg n before after o s) as [o'| |] eqn:E; try discriminate. cbn [bindR] in H.
  destruct (IH _ _ HB HA HL H) as (t & -> & SL). unfold dash_push in E.
  set (x := before ++ s ++ match after with Some a => a | None => [] end) in *.
  assert (Hx : scalars x) by (unfold x; rewrite !scalars_app_iff; auto).
  cbn [su_checker ck_aff suggester_of checker_of] in E.
  destruct (check_word k n x ForbidBadForceucase AcceptHiddenHomonym) as [r0| |] eqn:EW; try discriminate. cbn [bindR] in E.
  pose proof (@word_settles pl rn d lt lu ng n x _ _ (Ret r0) ltac:(discriminate) EW) as SW.
  destruct r0 as [f|].
  - assert (Wf : wf_flagset f) by (eapply (finds_wf WP R), (word_finds WP R lt lu n); [exact Hx|exact EW]).
    destruct (contains f (o_forbidden opts)) eqn:EF; injection E as <-.
    + exists t. split; [reflexivity|]. apply Selects_drop; [|exact SL]. intros NF. apply NF. exists f. split; [exact SW|].
      apply (contains_spec _ _ Wf). exact EF.
    + exists (x :: t). rewrite <- app_assoc. split; [reflexivity|]. apply Selects_keep; [|exact SL].
      intros (f' & SW' & I). pose proof (eventually_det SW SW') as EE. injection EE as <-. apply (contains_spec _ _ Wf) in I. congruence.
  - injection E as <-. exists (x :: t). rewrite <- app_assoc. split; [reflexivity|]. apply Selects_keep; [|exact SL].
    intros (f' & SW' & _). pose proof (eventually_det SW SW'). discriminate.
Qed.
Lemma part_is : forall before part after o r, scalars before -> scalars part -> scalars (match after with Some a => a | None => [] end) ->
  (ok <- check k n part ;;
   if (ok : bool) then Ret o else tmp <- rec part ;; foldR (dash_push sg n before after) tmp o) = Ret r ->
  exists l, r = o ++ l /\ Part pl d lt lu Answers before part (match after with Some a => a | None => [] end) l.
Proof.
  intros before part after o r HB HP HA H. destruct (check k n part) as [ok| |] eqn:EK; try discriminate. cbn [bindR] in H.
  apply says_at in EK. destruct ok.
  - injection H as <-. exists []. rewrite app_nil_r. split; [reflexivity|]. constructor. exact EK.
  - destruct (rec part) as [tmp| |] eqn:ER; try discriminate. cbn [bindR] in H. destruct (rec_ok HP ER) as [RA RS].
    destruct (@push_is before after tmp o r HB HA RS H) as (t & -> & SL). exists t. split; [reflexivity|]. eapply Part_wrong; eassumption.
Qed.
Lemma parts_is : forall m before rest o r, scalars (before ++ rest) ->
  dash_loop sg n m rec (before ++ rest) (length before) o = Ret r ->
  exists l, r = o ++ l /\ Parts pl d lt lu Answers before rest l.
Proof.
  induction m as [|m IH]; intros before rest o r HS H; [discriminate|]. cbn [dash_loop] in H.
  rewrite skipn_app_exact, firstn_app_exact in H by reflexivity. apply scalars_app_iff in HS. destruct HS as [HB HR].
  destruct (find_char (N.eqb 45) rest) as [j0|] eqn:EJ; cbn [option_map] in H.
  - destruct (@find_first _ _ _ EJ) as (a & b & -> & NA & LA & EK & _).
    assert (ESl : slice (before ++ a ++ 45%N :: b) (length before) (length before + j0) = a).
    { unfold slice. rewrite skipn_app_exact by reflexivity. replace (length before + j0 - length before) with j0 by lia. apply firstn_app_exact. congruence. }
    assert (ESk : skipn (length before + j0) (before ++ a ++ 45%N :: b) = 45%N :: b).
    { rewrite app_assoc. apply skipn_app_exact. rewrite app_length. congruence. }
    rewrite ESl, ESk in H. apply scalars_app_iff in HR. destruct HR as [HA HB2].
    match type of H with bindR ?x (fun ok => bindR (@?y ok) ?z) = _ =>
      assert (H' : bindR (bindR x y) z = Ret r) by (rewrite <- H; destruct x; reflexivity) end. clear H.
    match type of H' with bindR ?x _ = _ => destruct x as [o1| |] eqn:E1; try discriminate end. cbn [bindR] in H'.
    destruct (@part_is before a (Some (45%N :: b)) o o1 HB HA HB2 E1) as (l1 & -> & P1).
    replace (S (length before + j0)) with (length (before ++ a ++ [45%N])) in H' by (rewrite !app_length; cbn; lia).
    replace (before ++ a ++ 45%N :: b) with ((before ++ a ++ [45%N]) ++ b) in H' by (rewrite <- !app_assoc; reflexivity).
    apply IH in H'.
    + destruct H' as (l2 & -> & P2). exists (l1 ++ l2). rewrite app_assoc. split; [reflexivity|]. apply Parts_more; assumption.
    + inversion HB2; subst. rewrite !scalars_app_iff. repeat split; try assumption. constructor; [assumption|constructor].
  - match type of H with bindR ?x (fun ok => bindR (@?y ok) ?z) = _ =>
      assert (H' : bindR (bindR x y) z = Ret r) by (rewrite <- H; destruct x; reflexivity) end. clear H.
    match type of H' with bindR ?x _ = _ => destruct x as [o1| |] eqn:E1; try discriminate end. cbn [bindR] in H'. injection H' as <-.
    destruct (@part_is before rest None o o1 HB HR ltac:(constructor) E1) as (l1 & -> & P1).
    exists l1. split; [reflexivity|]. apply Parts_last; [exact (@find_never _ _ EJ)|exact P1].
Qed.
Lemma hyphens_is : forall w o r, scalars w -> by_dash sg n rec w o = Ret r ->
  exists l, r = o ++ l /\ Hyphenated pl d lt lu Answers w o l.
Proof.
  intros w o r Hw H. unfold by_dash in H. destruct (memb 45 w && negb (existsb (memb 45) o)) eqn:E.
  - apply andb_true_iff in E. destruct E as [E1 E2]. apply memb_In in E1. apply negb_true_iff in E2.
    destruct (@parts_is _ [] w o r Hw H) as (l & -> & P). exists l. split; [reflexivity|]. apply Hyphenated_yes; [exact E1| |exact P].
    intros s I I45. assert (existsb (memb 45) o = true) by (apply existsb_exists; exists s; split; [exact I|apply memb_In; exact I45]). congruence.
  - injection H as <-. exists []. rewrite app_nil_r. split; [reflexivity|]. apply Hyphenated_no.
    apply andb_false_iff in E. destruct E as [E|E].
    + left. intros I. apply memb_In in I. congruence.
    + right. apply negb_false_iff, existsb_exists in E. destruct E as (s & I & E). exists s. split; [exact I|]. apply memb_In. exact E.
Qed.
End Dash.

(** *** The last steps *)
Lemma capitalised_is : forall w a b, recased sg w a b -> Capitalised pl d w a b.
Proof.
  intros w a b H. unfold recased in H. unfold Capitalised. cbn [su_checker ck_u ck_aff suggester_of checker_of] in H.
  assert (G : Forall2 (fun s t => upper_char_at U h s 0 = Ret t) a b -> Forall2 (fun s t => exists c v, s = c :: v /\ t = upper_char U h c ++ v) a b).
  { apply Forall2_weaken. intros s t E. unfold upper_char_at in E. cbn [skipn firstn app] in E. destruct s as [|c v]; [discriminate|].
    injection E as <-. exists c, v. auto. }
  destruct (classify_casing U w); try exact H; exact (G H).
Qed.
Lemma keeps_is : forall n l o r, foldR (retain_step sg n) l o = Ret r -> exists ll, Forall2 (Keeps pl d lt lu) l ll /\ r = o ++ concat ll.
Proof.
  intros n. induction l as [|s l IH]; intros o r H; cbn [foldR] in H.
  { injection H as <-. exists []. rewrite app_nil_r. split; [constructor|reflexivity]. }
  destruct (retain_step sg n o s) as [o'| |] eqn:E; try discriminate. cbn [bindR] in H. destruct (IH _ _ H) as (ll & FL & ->).
  assert (K : exists x, o' = o ++ x /\ Keeps pl d lt lu s x).
  { unfold retain_step in E. cbn [su_checker ck_u ck_aff suggester_of checker_of] in E.
    destruct (memb 32 s) eqn:EM.
    { injection E as <-. exists [s]. split; [reflexivity|]. apply Keeps_space, memb_In, EM. }
    assert (NS : ~ In 32%N s) by (intros I; apply memb_In in I; congruence).
    destruct (check k n s) as [b1| |] eqn:E1; try discriminate. cbn [bindR] in E. apply says_at in E1. destruct b1.
    { injection E as <-. exists [s]. split; [reflexivity|]. apply Keeps_word; assumption. }
    destruct (check k n (lowercase U h s)) as [b2| |] eqn:E2; try discriminate. cbn [bindR] in E. apply says_at in E2. destruct b2.
    { injection E as <-. eexists. split; [reflexivity|]. apply Keeps_lower; assumption. }
    destruct (titlecase U h s) as [u| |] eqn:ET; try discriminate. cbn [bindR] in E.
    destruct (check k n u) as [b3| |] eqn:E3; try discriminate. cbn [bindR] in E. apply says_at in E3. destruct b3; injection E as <-.
    - eexists. split; [reflexivity|]. eapply Keeps_title; eassumption.
    - exists []. rewrite app_nil_r. split; [reflexivity|]. eapply Keeps_none; eassumption. }
  destruct K as (x & -> & K). exists (x :: ll). split; [constructor; assumption|]. cbn [concat]. rewrite app_assoc. reflexivity.
Qed.

Theorem impl_suggestions : forall n m w l, scalars w -> suggest_impl sg n m w [] = Ret l -> Suggestions pl rn d lt lu ng w l.
Proof.
  intros n. induction m as [|m IH]; intros w l Hs H.
  { destruct w; [injection H as <-; constructor|discriminate]. }
  destruct w as [|c w]; [injection H as <-; constructor|].
  assert (Hn : c :: w <> []) by discriminate.
  destruct (@impl_inv sg WI WIS n m (c :: w) l Hs Hn H) as (w' & CV & SW & [(t & f & g & EC & EF & EX & ET & ->)|REST]).
  { eapply Suggestions_forced; [exact Hn|exact CV|exact EC| |exact ET]. split; [cbn in EF; congruence|]. exists f. exact (compound_settles _ _ EX). }
  destruct REST as (hq & o1 & o2 & o3 & o4 & o5 & E1 & E2 & E3 & E4 & E5 & E6).
  assert (IS : forall p t, scalars p -> suggest_impl sg n m p [] = Ret t -> Forall scalars t).
  { intros p t. exact (@impl_scalars sg WR WG WRS WT WK WU WO WOS WI WIS WC WH WW n m p t). }
  destruct (@stages_scalars sg WR WG WRS WT WK WU WC WH WW n m w' hq o1 o2 o3 o4 o5 SW IS E1 E2 E3 E4 E5) as (_ & _ & _ & _ & O5).
  destruct (guesses_is _ _ _ E2) as (guesses & -> & GS).
  destruct (@hyphens_is n (fun p => suggest_impl sg n m p []) (Suggestions pl rn d lt lu ng)
    (fun p t Hp Et => conj (IH p t Hp Et) (IS p t Hp Et)) w' _ _ SW E3) as (hyph & -> & HY).
  eapply Suggestions_list with (l1 := o4) (l2 := o5) (l3 := keep_first o5);
    [exact Hn|exact CV|exact (proposals_is n SW E1)|exact GS|exact HY| | |apply keep_first_Firsts|].
  - rewrite app_assoc. apply capitalised_is. exact E4.
  - unfold Retained. cbn [su_checker ck_u suggester_of checker_of] in E5.
    destruct (classify_casing U w'); try exact E5; exact (@keeps_is n o4 [] o5 E5).
  - cbn [su_checker ck_aff suggester_of checker_of] in E6.
    assert (K : Forall scalars (keep_first o5)).
    { apply Forall_forall. intros x Hx. apply (proj1 (Forall_forall _ _) O5). apply keep_first_In, Hx. }
    clear -E6 K WO WOS. induction E6 as [|a b la lb Hab _ IHF]; [constructor|]. inversion K; subst.
    constructor; [|auto]. eapply convert_inv; eassumption.
Qed.
End Dict.

(** ** What the specification leaves open: nothing but ties between n-gram guesses *)
Section Nested.
Variables (pl : platform) (d : dictionary) (lt lu : bool) (X Y : str -> list str -> Prop).
Variable f : forall p l, X p l -> Y p l.
Definition part_nested : forall b p a l, Part pl d lt lu X b p a l -> Part pl d lt lu Y b p a l.
Proof. intros b p a l H. destruct H as [h|l r h1 h2 h3]; [apply Part_right; exact h|exact (@Part_wrong _ _ _ _ _ _ _ _ _ _ h1 (f h2) h3)]. Defined.
Definition parts_nested : forall b r l, Parts pl d lt lu X b r l -> Parts pl d lt lu Y b r l.
Proof.
  fix F 4. intros b r l H. destruct H as [b p l h1 h2|b p r l1 l2 h1 h2 h3].
  - exact (@Parts_last _ _ _ _ _ _ _ _ h1 (part_nested h2)).
  - exact (@Parts_more _ _ _ _ _ _ _ _ _ _ h1 (part_nested h2) (F _ _ _ h3)).
Defined.
Definition hyphens_nested : forall w o l, Hyphenated pl d lt lu X w o l -> Hyphenated pl d lt lu Y w o l.
Proof.
  intros w o l H. destruct H as [l h1 h2 h3|h]; [exact (@Hyphenated_yes _ _ _ _ _ _ _ _ h1 h2 (parts_nested h3))|apply Hyphenated_no; exact h].
Defined.
End Nested.

Section Unique.
Variable pl : platform.
Variable rn : runtime.
Variable d : dictionary.
Variables lt lu ng : bool.
Notation U := (pl_unicode pl).
Notation opts := (ad_options (d_aff d)).
Notation h := (o_case (ad_options (d_aff d))).
Notation A := (d_aff d).
Notation kind w := (classify_casing U w).
Notation says v b := (answers pl d lt lu v (Ret b)).

Lemma suggestions_nested : forall P : str -> list str -> Prop, P [] [] ->
  (forall w w' t, w <> [] -> Converts (ct_inner (ad_iconv A)) w w' -> kind w' = CNone -> Forced pl d lt lu w' -> titlecase U h w' = Ret t -> P w [t]) ->
  (forall w w' good proposals guesses hyphenated l1 l2 l3 l, w <> [] ->
    Converts (ct_inner (ad_iconv A)) w w' ->
    Proposals pl rn d lt lu ng w' good proposals -> Guesses pl d lt lu ng w' good proposals guesses ->
    Hyphenated pl d lt lu (fun p l => Suggestions pl rn d lt lu ng p l /\ P p l) w' (proposals ++ guesses) hyphenated ->
    Capitalised pl d w' (proposals ++ guesses ++ hyphenated) l1 -> Retained pl d lt lu w' l1 l2 -> Firsts [] l2 l3 ->
    Forall2 (Converts (ct_inner (ad_oconv A))) l3 l -> P w l) ->
  forall w l, Suggestions pl rn d lt lu ng w l -> P w l.
Proof.
  intros P P0 P1 P2. fix F 3. intros w l H. destruct H as [|w w' t h1 h2 h3 h4 h5|w w' good pr gu hy l1 l2 l3 l h1 h2 h3 h4 h5 h6 h7 h8 h9].
  - exact P0.
  - exact (P1 w w' t h1 h2 h3 h4 h5).
  - refine (P2 w w' good pr gu hy l1 l2 l3 l h1 h2 h3 h4 _ h6 h7 h8 h9).
    exact (@hyphens_nested pl d lt lu _ (fun p l => Suggestions pl rn d lt lu ng p l /\ P p l) (fun p l x => conj x (F p l x)) _ _ _ h5).
Qed.

Lemma says_det : forall v a b, says v a -> says v b -> a = b.
Proof. intros v a b H1 H2. pose proof (eventually_det H1 H2) as E. injection E as ->. reflexivity. Qed.
Lemma Forall2_det : forall X Y (Q : X -> Y -> Prop), (forall x y z, Q x y -> Q x z -> y = z) ->
  forall l r t, Forall2 Q l r -> Forall2 Q l t -> r = t.
Proof.
  intros X Y Q HQ l r t H. revert t. induction H as [|x y l r Hxy _ IH]; intros t H'; inversion H'; subst; [reflexivity|].
  f_equal; [eapply HQ; eassumption|apply IH; assumption].
Qed.
Lemma cut_det : forall s a b, Cut d s a -> Cut d s b -> a = b.
Proof. intros [[u c] v] a b H1 H2. unfold Cut in *. destruct H1 as [[? ->]|(? & ? & [[? ->]|[? ->]])], H2 as [[? ->]|(? & ? & [[? ->]|[? ->]])]; tauto. Qed.
Lemma cuts_det : forall v a b, Cuts d v a -> Cuts d v b -> a = b.
Proof.
  intros v a b [[E ->]|(E & ll & F & ->)] [[E' ->]|(E' & ll' & F' & ->)]; try congruence.
  f_equal. exact (@Forall2_det _ _ _ cut_det _ _ _ F F').
Qed.
Lemma bool_det : forall (a b : bool) P, (a = true <-> P) -> (b = true <-> P) -> a = b.
Proof. intros [] [] P H1 H2; try reflexivity; [symmetry; apply H2, H1|apply H1, H2]; reflexivity. Qed.
Lemma strategies_det : forall v g l g' l', Strategies pl rn d lt lu ng v g l -> Strategies pl rn d lt lu ng v g' l' -> g = g' /\ l = l'.
Proof.
  intros v g l g' l' (a1 & a2 & a3 & a4 & a5 & -> & A1 & A2 & A3 & A4 & A5 & A6) (b1 & b2 & b3 & b4 & b5 & -> & B1 & B2 & B3 & B4 & B5 & B6).
  pose proof (Selects_det A1 B1) as ->. pose proof (Selects_det A2 B2) as ->. pose proof (Selects_det A3 B3) as ->.
  pose proof (Selects_det A4 B4) as ->. pose proof (cuts_det A5 B5) as ->. split; [exact (bool_det A6 B6)|reflexivity].
Qed.
Lemma another_det : forall v q o q1 o1 q2 o2, Another pl rn d lt lu ng v q o q1 o1 -> Another pl rn d lt lu ng v q o q2 o2 -> q1 = q2 /\ o1 = o2.
Proof.
  intros v q o q1 o1 q2 o2 (g & l & b & H1 & H2 & -> & ->) (g' & l' & b' & H1' & H2' & -> & ->).
  destruct (strategies_det H1 H1') as [-> ->]. pose proof (says_det H2 H2') as ->. auto.
Qed.
Lemma dotted_det : forall w l a b, Dotted pl w l a -> Dotted pl w l b -> a = b.
Proof.
  intros w l a b [(u & v & -> & N1 & K1 & ->)|[N1 ->]] [(u' & v' & E & N2 & K2 & ->)|[N2 ->]]; try reflexivity.
  - destruct (@first_split _ _ _ _ _ N1 N2 E) as [-> ->]. reflexivity.
  - exfalso. exact (N2 u v eq_refl N1 K1).
  - exfalso. exact (N1 u' v' E N2 K2).
Qed.
Lemma spaced_det : forall w l m t, Spaced pl d w l m t -> forall m' t', Spaced pl d w l m' t' -> m = m' /\ t = t'.
Proof.
  intros w l m t H. induction H as [|s l m t HS H IH|u c v l m t NU NW H IH]; intros m' t' H'.
  - inversion H'. auto.
  - inversion H' as [|s' l0 m0 t0 HS' H0|u c v l0 m0 t0 NU NW H0]; subst.
    + destruct (IH _ _ H0) as [-> ->]. auto.
    + exfalso. destruct (HS u (c :: v) eq_refl NU) as [p E]. exact (NW p E).
  - inversion H' as [|s' l0 m0 t0 HS' H0 E|u' c' v' l0 m0 t0 NU' NW' H0 E]; subst.
    + exfalso. destruct (HS' u (c :: v) eq_refl NU) as [p E]. exact (NW p E).
    + destruct (@first_split _ _ _ _ _ NU' NU E) as [-> EE]. injection EE as -> ->. destruct (IH _ _ H0) as [-> ->]. auto.
Qed.
Lemma proposals_det : forall w g l g' l', Proposals pl rn d lt lu ng w g l -> Proposals pl rn d lt lu ng w g' l' -> g = g' /\ l = l'.
Proof.
  intros w g l g' l' H1 H2.
  destruct H1 as [g l K NF S1|g1 l1 g2 l2 K S1 S2|kept t g1 l1 g2 l2 K KP S1 T S2|g1 l1 o1 g2 o2 m t K S1 D S2 SP|g1 l1 o1 v g2 o2 g3 o3 tt g4 o4 m t K S1 D L S2 S3 T S4 SP];
  destruct H2 as [g' l' K' NF' S1'|g1' l1' g2' l2' K' S1' S2'|kept' t' g1' l1' g2' l2' K' KP' S1' T' S2'|g1' l1' o1' g2' o2' m' t' K' S1' D' S2' SP'|g1' l1' o1' v' g2' o2' g3' o3' tt' g4' o4' m' t' K' S1' D' L' S2' S3' T' S4' SP'];
  try (exfalso; congruence).
  - exact (strategies_det S1 S1').
  - destruct (strategies_det S1 S1') as [-> ->]. destruct (strategies_det S2 S2') as [-> ->]. auto.
  - rewrite T in T'. injection T' as <-. destruct (strategies_det S1 S1') as [-> ->]. destruct (strategies_det S2 S2') as [-> ->].
    assert (kept = kept') as ->; [|auto].
    destruct KP as [(N1 & Y1 & ->)|([N1|N1] & ->)], KP' as [(N2 & Y2 & ->)|([N2|N2] & ->)]; try reflexivity; try contradiction.
    + pose proof (says_det Y1 N2). discriminate.
    + pose proof (says_det N1 Y2). discriminate.
  - destruct (strategies_det S1 S1') as [-> ->]. pose proof (dotted_det D D') as ->. destruct (another_det S2 S2') as [-> ->].
    destruct (spaced_det SP SP') as [-> ->]. auto.
  - destruct (strategies_det S1 S1') as [-> ->]. pose proof (dotted_det D D') as ->. rewrite L in L'. injection L' as <-.
    destruct (another_det S2 S2') as [-> ->]. destruct (another_det S3 S3') as [-> ->]. rewrite T in T'. injection T' as <-.
    destruct (another_det S4 S4') as [-> ->]. destruct (spaced_det SP SP') as [-> ->]. auto.
Qed.
Lemma part_det : forall b p a l l',
  Part pl d lt lu (fun p l => Suggestions pl rn d lt lu ng p l /\ forall l', Suggestions pl rn d lt lu ng p l' -> l = l') b p a l ->
  Part pl d lt lu (Suggestions pl rn d lt lu ng) b p a l' -> l = l'.
Proof.
  intros b p a l l' [S1|m r S1 [_ A1] F1] [S2|m' r' S2 A2 F2].
  - reflexivity.
  - pose proof (says_det S1 S2). discriminate.
  - pose proof (says_det S1 S2). discriminate.
  - rewrite <- (A1 _ A2) in F2. exact (Selects_det F1 F2).
Qed.
Lemma parts_det : forall b r l,
  Parts pl d lt lu (fun p l => Suggestions pl rn d lt lu ng p l /\ forall l', Suggestions pl rn d lt lu ng p l' -> l = l') b r l ->
  forall l', Parts pl d lt lu (Suggestions pl rn d lt lu ng) b r l' -> l = l'.
Proof.
  intros b r l H. induction H as [b p l NP P1|b p r l1 l2 NP P1 H IH]; intros l' H'.
  - destruct H' as [b' p' l' NP' P1'|b' p' r' l1' l2' NP' P1' H'].
    + eapply part_det; eauto.
    + exfalso. apply NP. apply in_or_app. right. left. reflexivity.
  - inversion H' as [b' p' l0 NP' P1' E|b' p' r' l1' l2' NP' P1' H0 EB E]; subst.
    + exfalso. apply NP'. apply in_or_app. right. left. reflexivity.
    + destruct (@first_split _ _ _ _ _ NP' NP E) as [-> ->]. f_equal; [eapply part_det; eauto|apply IH; exact H0].
Qed.
Lemma keeps_det : forall s a b, Keeps pl d lt lu s a -> Keeps pl d lt lu s b -> a = b.
Proof.
  intros s a b H1 H2. destruct H1, H2; try contradiction; try reflexivity;
    repeat match goal with
    | X : says ?v ?x, Y : says ?v ?y |- _ => first [constr_eq x y; fail 1|pose proof (says_det X Y); discriminate]
    | X : titlecase U h s = Ret ?a, Y : titlecase U h s = Ret ?b |- _ => rewrite X in Y; injection Y as <-
    end; try reflexivity.
Qed.
Lemma firsts_det : forall b l r, Firsts b l r -> forall t, Firsts b l t -> r = t.
Proof.
  intros b l r H. induction H as [b|b x l r N H IH|b x l r N H IH]; intros t H'; inversion H'; subst; try contradiction.
  - reflexivity.
  - f_equal. auto.
  - auto.
Qed.
Theorem suggestions_unique : ng = false \/ o_max_ngram opts = 0%N ->
  (forall c c', In c (ct_inner (ad_iconv A)) -> In c' (ct_inner (ad_iconv A)) -> cv_from c = cv_from c' -> cv_to c = cv_to c') ->
  (forall c c', In c (ct_inner (ad_oconv A)) -> In c' (ct_inner (ad_oconv A)) -> cv_from c = cv_from c' -> cv_to c = cv_to c') ->
  forall w l, Suggestions pl rn d lt lu ng w l -> forall l', Suggestions pl rn d lt lu ng w l' -> l = l'.
Proof.
  intros NG DI DO. apply (suggestions_nested (fun w l => forall l', Suggestions pl rn d lt lu ng w l' -> l = l')).
  - intros l' H. inversion H; congruence.
  - intros w w' t N C K FO T l' H. destruct H as [|w v t' _ C' K' FO' T'|w v good pr gu hy l1 l2 l3 l _ C' PR _ _ _ _ _ _]; [contradiction| |].
    + pose proof (Converts_det DI C C') as <-. congruence.
    + exfalso. pose proof (Converts_det DI C C') as <-. destruct PR; congruence || contradiction.
  - intros w w' good pr gu hy l1 l2 l3 l N C PR GU HY CA RE FI CO l' H.
    destruct H as [|w v t' _ C' K' FO' T'|w v good' pr' gu' hy' l1' l2' l3' l' _ C' PR' GU' HY' CA' RE' FI' CO']; [contradiction| |].
    + exfalso. pose proof (Converts_det DI C C') as <-. destruct PR; try congruence; contradiction.
    + pose proof (Converts_det DI C C') as <-. destruct (proposals_det PR PR') as [<- <-].
      assert (GN : forall q x, Guesses pl d lt lu ng w' good q x -> x = []).
      { intros q x [(X1 & _ & X2 & _)|[_ X]]; [destruct NG; congruence|exact X]. }
      apply GN in GU, GU'. subst gu gu'.
      assert (hy = hy') as <-.
      { destruct HY as [hy I NO PA|ND], HY' as [hy' I' NO' PA'|ND'].
        - exact (parts_det PA PA').
        - exfalso. destruct ND' as [X|(s & I1 & I2)]; [contradiction|exact (NO s I1 I2)].
        - exfalso. destruct ND as [X|(s & I1 & I2)]; [contradiction|exact (NO' s I1 I2)].
        - reflexivity. }
      assert (l1 = l1') as <-.
      { unfold Capitalised in CA, CA'. assert (G : forall a b c, Forall2 (fun s t => exists c v, s = c :: v /\ t = upper_char U h c ++ v) a b ->
          Forall2 (fun s t => exists c v, s = c :: v /\ t = upper_char U h c ++ v) a c -> b = c).
        { apply Forall2_det. intros x y z (c1 & v1 & -> & ->) (c2 & v2 & E & ->). injection E as <- <-. reflexivity. }
        destruct (classify_casing U w'); first [congruence|eapply G; eassumption]. }
      assert (l2 = l2') as <-.
      { unfold Retained in RE, RE'.
        assert (G : (exists ll, Forall2 (Keeps pl d lt lu) l1 ll /\ l2 = concat ll) -> (exists ll, Forall2 (Keeps pl d lt lu) l1 ll /\ l2' = concat ll) -> l2 = l2').
        { intros (x & X1 & ->) (y & Y1 & ->). f_equal. exact (@Forall2_det _ _ _ keeps_det _ _ _ X1 Y1). }
        destruct (classify_casing U w'); first [congruence|apply G; assumption]. }
      pose proof (firsts_det FI FI') as <-. eapply Forall2_det; [|exact CO|exact CO'].
      intros x y z. exact (Converts_det DO).
Qed.
End Unique.

(** ** C57 and C58 *)
Section Claims.
Variable pl : platform.
Hypothesis WP : wf_platform pl.
Variable rn : runtime.
Hypothesis WN : wf_runtime rn.
Variable d : dictionary.
Hypothesis R : Reachable pl d.
Variables lt lu ng : bool.
Notation k := (checker_of pl d lt lu).
Notation U := (pl_unicode pl).
Notation opts := (ad_options (d_aff d)).
Notation A := (d_aff d).

(** [suggest] returns the specified list: proposals by the casing of the word, then n-gram
    guesses, then the hyphenated parts, recased, filtered, without repetitions, OCONV-converted. *)
Theorem C58_exact_list : forall w l, scalars w -> (blen w <= 360)%N -> suggests pl rn d lt lu ng w l ->
  Suggestions pl rn d lt lu ng w l.
Proof.
  intros w l Hw HB [n H]. specialize (H n (Nat.le_refl n)). unfold suggest in H.
  replace (max_word_len <? blen w)%N with false in H by (symmetry; apply N.ltb_ge; exact HB).
  exact (impl_suggestions WP WN R lt lu ng n _ Hw H).
Qed.
(** Without n-grams the specification leaves no choice, so it describes [suggest] completely. *)
Theorem C58_complete : ng = false \/ o_max_ngram opts = 0%N ->
  (forall c c', In c (ct_inner (ad_iconv A)) -> In c' (ct_inner (ad_iconv A)) -> cv_from c = cv_from c' -> cv_to c = cv_to c') ->
  (forall c c', In c (ct_inner (ad_oconv A)) -> In c' (ct_inner (ad_oconv A)) -> cv_from c = cv_from c' -> cv_to c = cv_to c') ->
  forall w, scalars w -> (blen w <= 360)%N -> (exists l, suggests pl rn d lt lu ng w l) ->
  forall l, suggests pl rn d lt lu ng w l <-> Suggestions pl rn d lt lu ng w l.
Proof.
  intros NG DI DO w Hw HB [l0 H0] l. split; [apply C58_exact_list; assumption|].
  intros H. rewrite <- (@suggestions_unique pl rn d lt lu ng NG DI DO w l0 (C58_exact_list Hw HB H0) l H). exact H0.
Qed.

(** For a word without capitals and hyphens: the proposals of the strategies, in their order,
    and after them, unless the proposals are good, the n-gram guesses. *)
Theorem C57_ngram_choice : ng = true -> ct_inner (ad_iconv A) = [] -> ct_inner (ad_oconv A) = [] ->
  forall w l, scalars w -> w <> [] -> (blen w <= 360)%N -> classify_casing U w = CNone -> ~ In 45%N w -> ~ Forced pl d lt lu w ->
  suggests pl rn d lt lu ng w l ->
  exists good proposals guesses, Strategies pl rn d lt lu ng w good proposals /\ Firsts [] (proposals ++ guesses) l /\
    (good = true \/ o_max_ngram opts = 0%N -> guesses = []) /\
    (good = false -> o_max_ngram opts <> 0%N -> NgramAdds k (d_words d) w proposals guesses).
Proof.
  intros NG EI EO w l Hw Hn HB K NH NF HS. apply C58_exact_list in HS; [|exact Hw|exact HB].
  destruct HS as [|w w' t _ C K' FO _|w w' good pr gu hy l1 l2 l3 l _ C PR GU HY CA RE FI CO]; [contradiction| |].
  { exfalso. rewrite EI in C. apply converts_nothing in C. subst w'. contradiction. }
  rewrite EI in C. apply converts_nothing in C. subst w'. exists good, pr, gu.
  assert (hy = []) as -> by (destruct HY; [contradiction|reflexivity]).
  unfold Capitalised in CA. unfold Retained in RE. rewrite K in CA, RE. subst l2 l1. rewrite app_nil_r in FI.
  assert (l3 = l) as ->.
  { rewrite EO in CO. clear -CO. induction CO as [|x y a b X _ IH]; [reflexivity|]. apply converts_nothing in X. congruence. }
  split; [destruct PR; congruence|]. split; [exact FI|]. unfold Guesses, lower_ranked in GU. rewrite K in GU. split.
  - intros Z. destruct GU as [(_ & G1 & G2 & _)|[_ G]]; [destruct Z; congruence|exact G].
  - intros Z1 Z2. destruct GU as [(_ & _ & _ & added & G & ->)|[[G|[G|G]] _]]; [exact G|congruence|congruence|contradiction].
Qed.
End Claims.

(** ** Examples *)
(** A hyphenated word: each wrong part in turn, and no other list fits the specification. *)
Example C58_example : forall l, Suggestions ex_pl ex_rn sd false false false (lit "helo-fone") l <-> l = [lit "hello-fone"; lit "helo-phone"].
Proof.
  assert (HS : suggests ex_pl ex_rn sd false false false (lit "helo-fone") [lit "hello-fone"; lit "helo-phone"]) by propose 30.
  intros l. rewrite <- (@C58_complete ex_pl ex_pl_wf ex_rn ex_rn_wf sd sd_reachable false false false (or_introl eq_refl)
    (fun c c' I => match I with end) (fun c c' I => match I with end) (lit "helo-fone") (@lit_scalars "helo-fone"%string eq_refl)
    ltac:(vm_compute; discriminate) (ex_intro _ _ HS) l).
  split; [intros H; pose proof (eventually_det HS H) as E; injection E as <-; reflexivity|intros ->; exact HS].
Qed.
(** Pascal case: the form with a space after the dot. *)
Example C58_dot_example : forall l, Suggestions ex_pl ex_rn sd false false false (lit "xx.Yy") l <-> l = [lit "xx. Yy"].
Proof.
  destruct C30_dot_refuted as [HS _].
  intros l. rewrite <- (@C58_complete ex_pl ex_pl_wf ex_rn ex_rn_wf sd sd_reachable false false false (or_introl eq_refl)
    (fun c c' I => match I with end) (fun c c' I => match I with end) (lit "xx.Yy") (@lit_scalars "xx.Yy"%string eq_refl)
    ltac:(vm_compute; discriminate) (ex_intro _ _ HS) l).
  split; [intros H; pose proof (eventually_det HS H) as E; injection E as <-; reflexivity|intros ->; exact HS].
Qed.
(** One edit and then [abcdz], which the specification of the guesses gives. *)
Example C57_example : exists guesses, In (lit "abcdz") guesses /\ ~ In (lit "zabcd") guesses /\ listed nl (lit "zabcd") [] /\
  NgramAdds (checker_of ex_pl nl false false) (d_words nl) (lit "abcd") [lit "xbcd"] guesses.
Proof.
  assert (Sc : scalars (lit "abcd")) by (apply lit_scalars; reflexivity).
  destruct (@C57_ngram_choice ex_pl ex_pl_wf ex_rn ex_rn_wf nl nl_reachable false false true eq_refl eq_refl eq_refl (lit "abcd") _ Sc
    ltac:(discriminate) ltac:(vm_compute; discriminate) eq_refl ltac:(vm_compute; intuition discriminate)
    (fun F => proj1 F eq_refl) nl_on) as (good & pr & gu & ST & FI & _ & G).
  destruct (@strategies_is ex_pl ex_pl_wf ex_rn nl nl_reachable false false true 30 (lit "abcd") [] false [lit "xbcd"] Sc ltac:(vm_compute; reflexivity))
    as (pr' & E & ST').
  cbn [app] in E. subst pr'. destruct (strategies_det ST ST') as [-> ->]. exists gu.
  pose proof (keep_first_Firsts ([lit "xbcd"] ++ gu)) as FI'. pose proof (firsts_det FI FI') as EK.
  split; [|split; [|split; [unfold listed; vm_compute; tauto|apply G; [reflexivity|discriminate]]]].
  - assert (I : In (lit "abcdz") (keep_first ([lit "xbcd"] ++ gu))) by (rewrite <- EK; right; left; reflexivity).
    apply (proj1 (keep_first_In _ _)) in I. apply in_app_iff in I. destruct I as [[I|[]]|I]; [vm_compute in I; discriminate|exact I].
  - intros I. assert (I' : In (lit "zabcd") (keep_first ([lit "xbcd"] ++ gu))) by (apply keep_first_In, in_app_iff; right; exact I).
    rewrite <- EK in I'. vm_compute in I'. intuition discriminate.
Qed.

Print Assumptions C58_exact_list.
Print Assumptions C58_complete.
Print Assumptions C57_ngram_choice.
