(** Properties C02 (suggest), C28, C29, C30, C31 and C33: what [suggest] returns, at the
    interface, for every dictionary a caller can hold and every way to run it. *)
From Coq Require Import String Ascii List NArith ZArith Lia Bool Arith Permutation.
From Verif Require Import Base Utf8 Unicode Flags Bag Condition Affix Conversion Aff Checker AffixSpec CompoundRule Rep CompoundSpec
  CompoundTotal RuleCompound Spell CheckSpec CheckMono CheckProps Parser ParserSafe Lib LibSpec LibProps BufferOps Ngram Suggester
  SuggestSpec SuggestLow SuggestMono Dedup SuggestProps SuggestTotal NgramMeasures NgramProps SuggestImpl LibSuggest Examples
  Properties_Affix Properties_Compound Properties_Check.
Import ListNotations.
Local Open Scope string_scope.
Local Open Scope list_scope.
Local Open Scope nat_scope.
Set Implicit Arguments.

(** [suggest] with the given options, called with a vector that holds [out], eventually leaves
    [l] in it. *)
Definition suggests_into (pl : platform) (rn : runtime) (d : dictionary) (lt lu ng : bool) (w : str) (out l : list str) : Prop :=
  Eventually (fun fuel => suggest (suggester_of pl rn d lt lu ng) fuel w out) (Ret l).
Notation suggests pl rn d lt lu ng w l := (suggests_into pl rn d lt lu ng w [] l).

(** ** What a suggestion may be *)
Section Spec.
Variable pl : platform.
Variable d : dictionary.
Notation U := (pl_unicode pl).
Notation opts := (ad_options (d_aff d)).
Notation h := (o_case (ad_options (d_aff d))).
Notation A := (d_aff d).

(** A word of the dictionary, hidden forms left out. *)
Definition Known (x : str) : Prop := exists f, Finds pl d ForbidBadForceucase SkipHiddenHomonym x f.
(** A word that is neither forbidden nor warned of. *)
Definition Correct (x : str) : Prop := exists f, Finds pl d ForbidBadForceucase SkipHiddenHomonym x f /\ ~ Barred d f.
(** A word that is not a compound. *)
Definition Plain (x : str) : Prop := exists f, SimpleWord A (listed d) SkipHiddenHomonym x f.
(** Space-separated words, of which all but the last are known. *)
Inductive Phrase : str -> Prop :=
| Phrase_last : forall w, ~ In 32%N w -> Phrase w
| Phrase_more : forall u v, ~ In 32%N u -> Known u -> Phrase v -> Phrase (u ++ 32%N :: v).

(** One edit of a word. *)
Inductive Edit (w : str) : str -> Prop :=
| Edit_upper : Edit w (uppercase U h w)
| Edit_rep : forall x, RepSimilar (ad_reps A) (fun y => y = x) w -> Edit w x
| Edit_map : forall x, MapForm (ad_sims A) w x -> Edit w x
| Edit_swap : forall u a b v, w = u ++ a :: b :: v -> Edit w (u ++ b :: a :: v)
| Edit_swap_4 : forall a b c e, w = [a; b; c; e] -> Edit w [b; a; e; c]
| Edit_swap_ends : forall a b c e f, w = [a; b; c; e; f] -> Edit w [b; a; c; f; e]
| Edit_swap_middle : forall a b c e f, w = [a; b; c; e; f] -> Edit w [a; c; b; f; e]
| Edit_exchange : forall u a m b v, w = u ++ a :: m ++ b :: v -> Edit w (u ++ b :: m ++ a :: v)
| Edit_capital : forall u c v, w = u ++ c :: v -> u_upper U c <> [c] -> Edit w (u ++ u_upper U c ++ v)
| Edit_key : forall u c v k1 k2 x, w = u ++ c :: v -> x <> 124%N ->
    ad_keyboard A = k1 ++ x :: c :: k2 \/ ad_keyboard A = k1 ++ c :: x :: k2 -> Edit w (u ++ x :: v)
| Edit_delete : forall u c v, w = u ++ c :: v -> Edit w (u ++ v)
| Edit_insert : forall u c v, w = u ++ v -> In c (ad_try A) -> Edit w (u ++ c :: v)
| Edit_move_right : forall u a m v, w = u ++ a :: m ++ v -> 2 <= length m -> Edit w (u ++ m ++ a :: v)
| Edit_move_left : forall u a m v, w = u ++ m ++ a :: v -> 2 <= length m -> Edit w (u ++ a :: m ++ v)
| Edit_replace : forall u a c v, w = u ++ a :: v -> In c (ad_try A) -> c <> a -> Edit w (u ++ c :: v)
| Edit_double : forall u x y z v, w = u ++ x :: y :: x :: y :: x :: z :: v -> Edit w (u ++ x :: y :: x :: z :: v).

(** What the edits of [v] propose: correct words, REP replacements with spaces, and [v] cut
    into two words. *)
Inductive Proposed (v : str) : str -> Prop :=
| Proposed_word : forall x, Edit v x -> Correct x -> Proposed v x
| Proposed_rep : forall x, RepSimilar (ad_reps A) (fun y => y = x) v -> In 32%N x -> Phrase x -> Proposed v x
| Proposed_pair : forall a b, o_no_split_sugs opts = false -> v = a ++ b -> b <> [] -> Plain a -> Plain b -> Proposed v (a ++ 32%N :: b)
| Proposed_hyphen : forall a b, o_no_split_sugs opts = false -> v = a ++ b -> 2 <= length a -> 2 <= length b -> Plain a -> Plain b ->
    In 97%N (ad_try A) \/ In 45%N (ad_try A) -> Proposed v (a ++ 45%N :: b).

(** The spellings of a word that are edited. *)
Inductive Spelling (w : str) : str -> Prop :=
| Spelling_word : classify_casing U w <> CAll -> Spelling w w
| Spelling_lower : classify_casing U w <> CNone -> Spelling w (lowercase U h w)
| Spelling_lower_first : forall v, classify_casing U w = CPascal -> lower_first_char U h w = Ret v -> Spelling w v
| Spelling_title : forall v, classify_casing U w = CPascal -> titlecase U h w = Ret v -> Spelling w v
| Spelling_caps_title : forall v, classify_casing U w = CAll -> titlecase U h (lowercase U h w) = Ret v -> Spelling w v.

Variables lt lu : bool.
(** What the edit strategies propose for [w] with its casing taken into account. *)
Inductive EditSource (w : str) : str -> Prop :=
| Source_edit : forall v x, Spelling w v -> Proposed v x -> EditSource w x
| Source_self : forall v, Spelling w v -> classify_casing U w <> CNone -> answers pl d lt lu v (Ret true) -> EditSource w v
| Source_dot : forall a b, classify_casing U w = CCamel \/ classify_casing U w = CPascal ->
    w = a ++ 46%N :: b -> ~ In 46%N a -> classify_casing U b = CInit -> EditSource w (a ++ 46%N :: 32%N :: b)
| Source_capital : forall u c v, classify_casing U w = CCamel \/ classify_casing U w = CPascal ->
    ~ In 32%N u -> EditSource w (u ++ 32%N :: c :: v) -> EditSource w (u ++ 32%N :: upper_char U h c ++ v).

(** An n-gram suggestion for [w]: a form of an entry that may be suggested. *)
Definition lower_ranked (w : str) : str := match classify_casing U w with CNone => w | _ => lowercase U h w end.
Definition NgramSource (w x : str) : Prop :=
  exists stem flags, listed d stem flags /\ Eligible (checker_of pl d lt lu) flags /\
    Form (checker_of pl d lt lu) (lower_ranked w) stem flags x.

(** What becomes of a proposal [y] for a word with the casing of [w]. *)
Definition KeptAs (s x : str) : Prop :=
  (x = s /\ In 32%N s) \/
  (answers pl d lt lu x (Ret true) /\ (x = s \/ x = lowercase U h s \/ titlecase U h s = Ret x)).
Definition ShownAs (w y x : str) : Prop :=
  match classify_casing U w with
  | CNone | CCamel => x = y
  | CPascal => upper_char_at U h y 0 = Ret x
  | CInit => exists t, upper_char_at U h y 0 = Ret t /\ KeptAs t x
  | CAll => KeptAs (uppercase U h y) x \/ (In 45%N w /\ KeptAs y x)
  end.
End Spec.

Section Dict.
Variable pl : platform.
Hypothesis WP : wf_platform pl.
Variable rn : runtime.
Hypothesis WN : wf_runtime rn.
Variable d : dictionary.
Hypothesis R : Reachable pl d.
Variables lt lu ng : bool.
Notation sg := (suggester_of pl rn d lt lu ng).
Notation k := (checker_of pl d lt lu).
Notation U := (pl_unicode pl).
Notation opts := (ad_options (d_aff d)).
Notation h := (o_case (ad_options (d_aff d))).
Notation A := (d_aff d).
Let OK : dict_ok pl d := reachable_ok WP R.
Let WCMP : wf_compound k := dict_wf_compound WP OK lt lu.
Let TB := dict_tables WP R.
Let WR : wf_reps (ad_reps A) := proj1 TB.
Let WG : Forall wf_sim (ad_sims A) := proj1 (proj2 TB).
Let WRS := proj1 (proj2 (proj2 TB)).
Let WT := proj1 (proj2 (proj2 (proj2 TB))).
Let WK := proj1 (proj2 (proj2 (proj2 (proj2 TB)))).
Let WO := proj1 (proj2 (proj2 (proj2 (proj2 (proj2 TB))))).
Let WOS := proj1 (proj2 (proj2 (proj2 (proj2 (proj2 (proj2 TB)))))).
Let WI := proj1 (proj2 (proj2 (proj2 (proj2 (proj2 (proj2 (proj2 TB))))))).
Let WIS := proj2 (proj2 (proj2 (proj2 (proj2 (proj2 (proj2 (proj2 TB))))))).
Let WW : Forall (fun e => scalars (fst e) /\ wf_flagset (snd e)) (su_words sg).
Proof.
  apply Forall_forall. intros [w f] H. cbn [fst snd]. apply (words_In pl WN d lt lu ng) in H.
  apply entries_In in H. destruct (@dict_entry_ok pl d OK w f H) as (S1 & _ & S2). exact (conj S1 (proj1 S2)).
Qed.
Let WU : wf_unicode U := wp_unicode WP.
Let WC : wf_checker k := dict_wf_checker WP OK lt lu.
Let WH : wf_heaps (su_heaps sg) := wr_heaps WN.
Let iff_known : forall s f, In f (ck_get k s) <-> listed d s f.
Proof. intros. rewrite (entries_get WP). apply entries_In. Qed.

Lemma suggests_at : forall w l, suggests pl rn d lt lu ng w l -> exists n, suggest sg n w [] = Ret l.
Proof. intros w l [n H]. exists n. apply H. lia. Qed.
Lemma passes_answers : forall v, Passes sg v <-> answers pl d lt lu v (Ret true).
Proof.
  intros v. split; intros [n H].
  - eapply check_settles; [|exact H]. discriminate.
  - exists n. apply H. lia.
Qed.
Lemma word_finds : forall n w fu hh f, scalars w -> check_word k n w fu hh = Ret (Some f) -> Finds pl d fu hh w f.
Proof. intros n w fu hh f Hw H. apply (finds_iff WP). exact (word_found WCMP n fu hh Hw H). Qed.
Lemma finds_wf : forall fu hh w f, Finds pl d fu hh w f -> wf_flagset f.
Proof.
  intros fu hh w f H. destruct (finds_listed WP R H) as [stem HS]. apply entries_In in HS.
  destruct (@dict_entry_ok pl d OK stem f HS) as (_ & _ & W). exact (proj1 W).
Qed.
Lemma clean_barred : forall f, wf_flagset f -> (clean sg f = true <-> ~ Barred d f).
Proof. intros f Wf. exact (accepted_spec k Wf). Qed.
Lemma fit_correct : forall x, scalars x -> Fit sg x -> Correct pl d x.
Proof.
  intros x Hx [n H]. unfold fit in H.
  destruct (check_word (su_checker sg) n x ForbidBadForceucase SkipHiddenHomonym) as [[f|]| |] eqn:E; try discriminate. cbn [bindR] in H.
  pose proof (word_finds n _ _ Hx E) as HF. exists f. split; [exact HF|]. apply clean_barred; [exact (finds_wf HF)|congruence].
Qed.
Lemma knows_known : forall x, scalars x -> Knows sg x -> Known pl d x.
Proof. intros x Hx (n & f & H). exists f. exact (word_finds n _ _ Hx H). Qed.
Lemma leading_phrase : forall x, scalars x -> Leading sg x -> Phrase pl d x.
Proof.
  intros x Hx H. induction H as [w Hw|u v Hu HK HL IH]; [constructor; exact Hw|].
  apply scalars_app_iff in Hx. destruct Hx as [H1 H2]. inversion H2; subst.
  constructor; [exact Hu|exact (knows_known H1 HK)|auto].
Qed.
Lemma simple_plain : forall x, scalars x -> simple sg x = true -> Plain d x.
Proof.
  intros x Hx H. unfold simple in H. destruct (check_simple_word (su_checker sg) x SkipHiddenHomonym) as [f|] eqn:E; [|discriminate].
  exists f. eapply simple_mono; [|exact (simple_word_sound WC _ Hx E)]. intros; apply iff_known; assumption.
Qed.
Lemma plain_simple : forall x, scalars x -> Plain d x -> simple sg x = true.
Proof.
  intros x Hx [f H]. unfold simple. assert (HS : SimpleWord A (fun s f => In f (ck_get k s)) SkipHiddenHomonym x f).
  { eapply simple_mono; [|exact H]. intros; apply iff_known; assumption. }
  destruct (simple_word_complete WC Hx HS) as [f' E]. cbn [su_checker suggester_of]. rewrite E. reflexivity.
Qed.
Lemma explored_spelling : forall w v, Explored sg w v <-> Spelling pl d w v.
Proof. intros w v. split; intros H; inversion H; subst; solve [constructor; assumption|econstructor; eassumption]. Qed.

(** All candidates, within the budget. *)
Definition candidates (w : str) : list str :=
  [uppercase U h w] ++ rep_forms (ad_reps A) w ++ firstn (budget sg w) (map_forms (ad_sims A) w) ++ edits sg w w.
Lemma candidates_edit : forall w x, In x (candidates w) -> Edit pl d w x.
Proof.
  intros w x H. unfold candidates in H. rewrite !in_app_iff in H. destruct H as [[<-|[]]|[H|[H|H]]].
  - constructor.
  - apply rep_forms_In in H; [|exact WR]. apply Edit_rep, H.
  - apply In_firstn in H. apply map_forms_sound in H; [|exact WG]. apply Edit_map, H.
  - unfold edits in H. rewrite !in_app_iff in H. cbn [su_checker ck_aff ck_u suggester_of checker_of] in H.
    destruct H as [[H|H]|[H|[H|[H|[H|[H|[H|H]]]]]]].
    + apply adjacent_swaps_In in H. destruct H as (u & a & b & v & -> & ->). eapply Edit_swap; reflexivity.
    + destruct w as [|a [|b [|c [|e [|f [|g w]]]]]]; cbn [double_swaps In] in H; try contradiction.
      * destruct H as [<-|[]]. eapply Edit_swap_4; reflexivity.
      * destruct H as [<-|[<-|[]]]; [eapply Edit_swap_ends|eapply Edit_swap_middle]; reflexivity.
    + apply In_firstn, swaps_In in H. destruct H as (u & a & m & b & v & -> & ->). eapply Edit_exchange; reflexivity.
    + apply key_slips_In in H. destruct H as (u & c & v & -> & [[HN ->]|(y & I & ->)]); [eapply Edit_capital; [reflexivity|exact HN]|].
      apply neighbours_In in I. destruct I as [HN [(u' & v' & E)|(u' & v' & E)]]; eapply Edit_key; eauto.
    + apply deletions_In in H. destruct H as (u & c & v & -> & ->). eapply Edit_delete; reflexivity.
    + apply In_firstn, insertions_In in H. destruct H as (c & u & v & I & -> & ->). eapply Edit_insert; [reflexivity|exact I].
    + apply In_firstn, in_app_iff in H. destruct H as [H|H].
      * apply moves_right_In in H. destruct H as (u & a & m & v & L & -> & ->). eapply Edit_move_right; [reflexivity|exact L].
      * apply moves_left_In in H. destruct H as (u & m & a & v & L & -> & ->). eapply Edit_move_left; [reflexivity|exact L].
    + apply In_firstn, replacements_In in H. destruct H as (c & u & a & v & I & NE & -> & ->). eapply Edit_replace; [reflexivity|exact I|exact NE].
    + apply doublings_In in H. destruct H as (u & a & b & z & v & -> & ->). eapply Edit_double; reflexivity.
Qed.
(** No strategy runs out of attempts. *)
Definition InBudget (w : str) : Prop :=
  length (map_forms (ad_sims A) w) <= budget sg w /\ length (swaps w) <= budget sg w /\
  length (insertions (ad_try A) w) <= budget sg w /\ length (moves_right w ++ moves_left w) <= budget sg w /\
  length (replacements (ad_try A) w) <= budget sg w.
Lemma edit_candidates : forall w x, InBudget w -> Forall unclashing (ad_sims A) -> Edit pl d w x -> In x (candidates w).
Proof.
  intros w x (B1 & B2 & B3 & B4 & B5) UC H. unfold candidates, edits. cbn [su_checker ck_aff ck_u suggester_of checker_of].
  rewrite !firstn_all2 by assumption. rewrite !in_app_iff.
  inversion H; subst.
  - left. left. reflexivity.
  - right. left. apply rep_forms_In; assumption.
  - right. right. left. apply map_forms_complete; assumption.
  - right. right. right. left. left. apply adjacent_swaps_In. eauto 6.
  - right. right. right. left. right. left. reflexivity.
  - right. right. right. left. right. left. reflexivity.
  - right. right. right. left. right. right. left. reflexivity.
  - do 4 right. left. apply swaps_In. eauto 8.
  - do 5 right. left. apply key_slips_In. eauto 8.
  - do 5 right. left. apply key_slips_In. do 3 eexists. split; [reflexivity|]. right. eexists. split; [|reflexivity].
    apply neighbours_In. split; [assumption|]. destruct H2; eauto.
  - do 6 right. left. apply deletions_In. eauto.
  - do 7 right. left. apply insertions_In. eauto 8.
  - do 8 right. left. left. apply moves_right_In. eauto 8.
  - do 8 right. left. right. apply moves_left_In. eauto 8.
  - do 9 right. left. apply replacements_In. eauto 8.
  - do 10 right. apply doublings_In. eauto 8.
Qed.

Lemma existsb_try : existsb (fun x => (x =? 97)%N || (x =? 45)%N) (ad_try A) = true <-> In 97%N (ad_try A) \/ In 45%N (ad_try A).
Proof.
  rewrite existsb_exists. split.
  - intros (x & I & H). apply orb_true_iff in H. rewrite !N.eqb_eq in H. destruct H; subst; auto.
  - intros [I|I]; eexists; (split; [exact I|reflexivity]).
Qed.
Lemma pairs_proposed : forall v x, scalars v -> In x (two_word_forms sg v) ->
  o_no_split_sugs opts = false /\ exists a b, v = a ++ b /\ b <> [] /\ Plain d a /\ Plain d b /\
    (x = a ++ 32%N :: b \/ (x = a ++ 45%N :: b /\ 2 <= length a /\ 2 <= length b /\ (In 97%N (ad_try A) \/ In 45%N (ad_try A)))).
Proof.
  intros v x Hv H. unfold two_word_forms in H. cbn [su_checker ck_aff suggester_of checker_of] in H.
  destruct (o_no_split_sugs opts); [destruct H|]. split; [reflexivity|]. apply in_flat_map in H.
  destruct H as [[[u c] r] [I H]]. apply splits_In in I. subst v.
  destruct (simple sg u && simple sg (c :: r)) eqn:E; [|destruct H]. apply andb_true_iff in E. destruct E as [E1 E2].
  apply scalars_app_iff in Hv. destruct Hv as [H1 H2]. exists u, (c :: r). split; [reflexivity|]. split; [discriminate|].
  split; [exact (simple_plain H1 E1)|]. split; [exact (simple_plain H2 E2)|]. destruct H as [<-|H]; [left; reflexivity|].
  destruct ((1 <? length u)%nat && (0 <? length r)%nat && _) eqn:E; [|destruct H]. destruct H as [<-|[]].
  rewrite !andb_true_iff, existsb_try in E. destruct E as [[L1 L2] T]. apply Nat.ltb_lt in L1, L2. right.
  split; [reflexivity|]. split; [lia|]. split; [cbn [length]; lia|exact T].
Qed.
Lemma proposed_pairs : forall v a b, scalars v -> o_no_split_sugs opts = false -> v = a ++ b -> b <> [] -> Plain d a -> Plain d b ->
  In (a ++ 32%N :: b) (two_word_forms sg v) /\
  (2 <= length a -> 2 <= length b -> In 97%N (ad_try A) \/ In 45%N (ad_try A) -> In (a ++ 45%N :: b) (two_word_forms sg v)).
Proof.
  intros v a b Hv HN -> Hb Pa Pb. destruct b as [|c r]; [contradiction|]. clear Hb.
  apply scalars_app_iff in Hv. destruct Hv as [H1 H2]. unfold two_word_forms. cbn [su_checker ck_aff suggester_of checker_of]. rewrite HN.
  assert (I : In (a, c, r) (splits (a ++ c :: r))) by (apply splits_In; reflexivity).
  split; [|intros L1 L2 T]; apply in_flat_map; exists (a, c, r); (split; [exact I|]);
    rewrite (plain_simple H1 Pa), (plain_simple H2 Pb); cbn [andb].
  - left. reflexivity.
  - right. cbn [length] in L2. apply existsb_try in T. rewrite T.
    replace (1 <? length a)%nat with true by (symmetry; apply Nat.ltb_lt; lia).
    replace (0 <? length r)%nat with true by (symmetry; apply Nat.ltb_lt; lia). left. reflexivity.
Qed.
Lemma edit_scalars : forall v x, scalars v -> In x (candidates v) -> scalars x.
Proof.
  intros v x Hv H. unfold candidates in H. rewrite !in_app_iff in H. destruct H as [[<-|[]]|[H|[H|H]]].
  - apply scalars_upper; assumption.
  - exact (@rep_forms_scalars sg WR WRS v x Hv H).
  - apply In_firstn in H. exact (@map_forms_scalars sg WG v x Hv H).
  - exact (@edits_scalars sg WU WT WK v x Hv H).
Qed.
Lemma low_In : forall v l x, Low sg v l -> (In x l <->
  (In x (candidates v) /\ Fit sg x) \/ (In x (rep_forms (ad_reps A) v) /\ In 32%N x /\ Leading sg x) \/ In x (two_word_forms sg v)).
Proof.
  intros v l x (l1 & l2 & l3 & l4 & -> & H1 & H2 & H3 & H4). unfold candidates. rewrite !in_app_iff.
  rewrite (Selects_In x H1), (Selects_In x H2), (Selects_In x H3), (Selects_In x H4). unfold RepFit.
  cbn [su_checker ck_aff ck_u suggester_of checker_of]. tauto.
Qed.
Lemma low_proposed : forall v l, scalars v -> Low sg v l -> Forall (Proposed pl d v) l.
Proof.
  intros v l Hv HL. apply Forall_forall. intros x Hx. apply (low_In x HL) in Hx.
  destruct Hx as [[I F]|[(I & IS & L)|I]].
  - apply Proposed_word; [apply candidates_edit, I|exact (fit_correct (@edit_scalars v x Hv I) F)].
  - assert (Sx : scalars x) by exact (@rep_forms_scalars sg WR WRS v x Hv I).
    apply rep_forms_In in I; [|exact WR]. apply Proposed_rep; [exact I|exact IS|exact (leading_phrase Sx L)].
  - destruct (@pairs_proposed v x Hv I) as (HN & a & b & Ev & Hb & Pa & Pb & [-> |(-> & L1 & L2 & T)]);
      [apply Proposed_pair|apply Proposed_hyphen]; assumption.
Qed.
Lemma casing_source : forall w n hq out, scalars w -> by_casing sg n w [] = Ret (inl (hq, out)) ->
  (classify_casing U w <> CAll -> Forall (EditSource pl d lt lu w) out) /\
  (classify_casing U w = CAll -> exists l, out = map (uppercase U h) l /\ Forall (EditSource pl d lt lu w) l).
Proof.
  intros w n hq out Hw H.
  apply (@casing_invariant sg WR WG WU (EditSource pl d lt lu w) w Hw) with (n := n) (hq := hq); [| | | |exact H].
  - intros v l Hv HL. eapply Forall_impl; [|exact (low_proposed (@explored_scalars sg WU w v Hw Hv) HL)].
    intros x Hx. eapply Source_edit; [apply explored_spelling; exact Hv|exact Hx].
  - intros v Hv HN HP. apply Source_self; [apply explored_spelling; exact Hv|exact HN|apply passes_answers; exact HP].
  - intros a b HC Ew Ha Hb. apply Source_dot; assumption.
  - intros u c v HC Hu HS. apply Source_capital; assumption.
Qed.

(** A part of a hyphenated word was replaced by one of the suggestions for the part. *)
Definition HyphenSource (w x : str) : Prop :=
  exists u part v s l, w = u ++ part ++ v /\ ~ In 45%N part /\ (u = [] \/ exists u', u = u' ++ [45%N]) /\
    (v = [] \/ exists v', v = 45%N :: v') /\ ((blen part <= 360)%N -> suggests pl rn d lt lu ng part l) /\ In s l /\ x = u ++ s ++ v.
Lemma part_suggested : forall n m p t, suggest_impl sg n m p [] = Ret t -> (blen p <= 360)%N -> suggests pl rn d lt lu ng p t.
Proof.
  intros n m p t H HB. apply suggest_settles with (Nat.max n m); [discriminate|]. unfold suggest.
  replace (max_word_len <? blen p)%N with false by (symmetry; apply N.ltb_ge; exact HB).
  pose proof (@impl_mono sg n (Nat.max n m) ltac:(lia) m (Nat.max n m) p [] ltac:(lia)) as [E|E]; congruence.
Qed.

(** ** Where suggestions come from *)
Definition Source (w y : str) : Prop :=
  EditSource pl d lt lu w y \/
  (ng = true /\ o_max_ngram opts <> 0%N /\ NgramSource pl d lt lu w y) \/
  (In 45%N w /\ HyphenSource w y).
(** A word whose first letter a compound wants in upper case. *)
Definition ForcedUpper (w t : str) : Prop :=
  classify_casing U w = CNone /\ o_force_upper opts <> None /\ titlecase U h w = Ret t /\
  exists f, Finds pl d AllowBadForceucase AcceptHiddenHomonym w f.

Lemma kept_as : forall s x, Kept sg s x -> KeptAs pl d lt lu s x.
Proof. intros s x [H|[H1 H2]]; [left; exact H|right; split; [apply passes_answers; exact H1|exact H2]]. Qed.
Lemma Forall2_In_r : forall X Y (Q : X -> Y -> Prop) l r y, Forall2 Q l r -> In y r -> exists x, In x l /\ Q x y.
Proof.
  intros X Y Q l r y H. induction H as [|a b l r Hab H IH]; [intros []|]. intros [<-|Hy]; [exists a; split; [left; reflexivity|exact Hab]|].
  destruct (IH Hy) as (x & I & HQ). exists x. split; [right; exact I|exact HQ].
Qed.

(** ** C30 *)
(** Every suggestion comes from an edit of the word that gives a correct word, from a REP
    replacement with spaces, from cutting the word in two, from an n-gram form or from a
    suggestion for a hyphenated part; for title-case and all-caps words it is moreover a
    string [check] accepts or one with a space.  ICONV applies to the word first, OCONV to the
    suggestions last. *)
Theorem C30_every_suggestion_has_a_source : forall w l, scalars w -> w <> [] -> (blen w <= 360)%N ->
  suggests pl rn d lt lu ng w l ->
  exists w', Converts (ct_inner (ad_iconv A)) w w' /\
  ((exists t, ForcedUpper w' t /\ l = [t]) \/
   exists l0, NoDup l0 /\ Forall2 (Converts (ct_inner (ad_oconv A))) l0 l /\
     forall x, In x l0 -> exists y, Source w' y /\ ShownAs pl d lt lu w' y x).
Proof.
  intros w l Hw Hn HB HS. destruct (suggests_at HS) as [n E].
  destruct (@suggest_inv sg WR WG WRS WT WK WU WO WOS WI WIS WC WH WW n w l Hw Hn E HB) as (w' & CV & SW & H).
  exists w'. split; [exact CV|]. destruct H as [(t & f & g & EC & EF & EX & ET & ->)|REST].
  - left. exists t. split; [|reflexivity]. split; [exact EC|]. split; [cbn in EF; congruence|]. split; [exact ET|].
    exists (cr_flags f). apply (finds_iff WP). right. exact (compound_found WCMP n _ SW EX).
  - right. destruct REST as (m & hq & o1 & o2 & o3 & o4 & o5 & E1 & E2 & E3 & E4 & E5 & S5 & E6).
    exists (keep_first o5). split; [apply keep_first_NoDup|]. split; [exact E6|].
    destruct (casing_source n SW E1) as [C1 C2].
    destruct (@by_ngram_inv sg WC WH WW w' hq o1 o2 E2) as (added & A2 & FA & GA & _).
    destruct (@by_dash_inv sg n _ w' o2 o3 E3) as (dl & A3 & FD & GD).
    assert (NS : forall e, In e added -> Source w' e).
    { intros e I. right. left. assert (added <> []) as X by (intros ->; destruct I). destruct (GA X) as (G1 & _ & G2).
      split; [exact G1|]. split; [exact G2|]. rewrite Forall_forall in FA. destruct (FA e I) as (stem & flags & I' & EL & FM).
      exists stem, flags. split; [apply (words_In pl WN d lt lu ng), I'|]. split; [exact EL|exact FM]. }
    assert (DS : forall e, In e dl -> In 45%N w' /\ Source w' e).
    { intros e I. assert (In 45%N w') as I45 by (apply GD; intros ->; destruct I). split; [exact I45|]. right. right. split; [exact I45|].
      rewrite Forall_forall in FD. destruct (FD e I) as (u & part & v & s & tmp & Ew & NP & HU & HV & EP & IS & EE).
      exists u, part, v, s, tmp. repeat (split; [assumption|]). split; [|split; assumption]. exact (part_suggested n m part EP). }
    intros x Hx. apply (proj1 (keep_first_In _ _)) in Hx.
    unfold ShownAs. unfold recased in E4. cbn [su_checker ck_u ck_aff suggester_of checker_of] in E4, E5.
    assert (NAll : classify_casing U w' <> CAll -> forall y, In y o3 -> Source w' y).
    { intros HA y Hy. assert (shown_as sg w' added = added) as EA.
      { unfold shown_as. cbn [su_checker ck_u suggester_of checker_of]. destruct (classify_casing U w'); congruence. }
      rewrite A3, A2, EA, !in_app_iff in Hy. destruct Hy as [[Hy|Hy]|Hy]; [|apply NS, Hy|apply DS, Hy].
      left. specialize (C1 HA). rewrite Forall_forall in C1. exact (C1 y Hy). }
    destruct (classify_casing U w') eqn:EC.
    + subst o5 o4. exists x. split; [apply NAll; [congruence|exact Hx]|reflexivity].
    + destruct (@retain_inv sg n o4 o5 E5 x Hx) as (s & Is & HK).
      destruct (Forall2_In_r s E4 Is) as (y & Iy & EY). exists y. split; [apply NAll; [congruence|exact Iy]|].
      exists s. split; [exact EY|apply kept_as, HK].
    + subst o4. destruct (@retain_inv sg n o3 o5 E5 x Hx) as (s & Is & HK). apply kept_as in HK.
      destruct (C2 eq_refl) as (l1 & EO & FL). rewrite Forall_forall in FL.
      assert (shown_as sg w' added = map (uppercase U h) added) as EA.
      { unfold shown_as. cbn [su_checker ck_u ck_aff suggester_of checker_of]. rewrite EC. reflexivity. }
      rewrite A3, A2, EA, EO, !in_app_iff, !in_map_iff in Is.
      destruct Is as [[(y & <- & Iy)|(y & <- & Iy)]|Is].
      * exists y. split; [left; exact (FL y Iy)|left; exact HK].
      * exists y. split; [apply NS, Iy|left; exact HK].
      * exists s. destruct (DS s Is) as [I45 SS]. split; [exact SS|]. right. split; [exact I45|exact HK].
    + subst o5 o4. exists x. split; [apply NAll; [congruence|exact Hx]|reflexivity].
    + subst o5. destruct (Forall2_In_r x E4 Hx) as (y & Iy & EY). exists y. split; [apply NAll; [congruence|exact Iy]|exact EY].
Qed.

Lemma converts_nothing : forall u v, Converts [] u v -> u = v.
Proof. intros u v H. induction H as [|x w out _ _ IH|c r out I]; [reflexivity|congruence|destruct I]. Qed.

(** ** C02 *)
Theorem C02_suggest_limits : forall w out fuel, (360 < blen w)%N \/ w = [] -> suggest sg fuel w out = Ret [].
Proof.
  intros w out fuel [H| ->].
  - unfold suggest. replace (max_word_len <? blen w)%N with true by (symmetry; apply N.ltb_lt; exact H). reflexivity.
  - unfold suggest. destruct fuel; reflexivity.
Qed.

(** ** C28 *)
Theorem C28_output_replaced : forall w out l, suggests_into pl rn d lt lu ng w out l <-> suggests pl rn d lt lu ng w l.
Proof. intros w out l. split; intros [n H]; exists n; exact H. Qed.

(** ** C29 *)
(** Without OCONV no string is returned twice. *)
Theorem C29_no_duplicates : ct_inner (ad_oconv A) = [] -> forall w l, scalars w ->
  suggests pl rn d lt lu ng w l -> NoDup l.
Proof.
  intros EO w l Hw HS. destruct (N.le_gt_cases (blen w) 360) as [HB|HB].
  2: { destruct (suggests_at HS) as [n E]. rewrite C02_suggest_limits in E by auto. injection E as <-. constructor. }
  destruct w as [|c w].
  { destruct (suggests_at HS) as [n E]. rewrite C02_suggest_limits in E by auto. injection E as <-. constructor. }
  destruct (@C30_every_suggestion_has_a_source (c :: w) l Hw ltac:(discriminate) HB HS) as (w' & _ & [(t & _ & ->)|(l0 & ND & F & _)]).
  - constructor; [intros []|constructor].
  - rewrite EO in F. assert (l0 = l) as <-; [|exact ND]. clear ND HS. induction F as [|a b la lb Hab _ IH]; [reflexivity|].
    f_equal; [exact (converts_nothing Hab)|exact IH].
Qed.
(** With OCONV the suggestions are the conversions of distinct strings. *)
Theorem C29_oconv_images : forall w l, scalars w -> suggests pl rn d lt lu ng w l ->
  (exists t, l = [t]) \/ exists l0, NoDup l0 /\ Forall2 (Converts (ct_inner (ad_oconv A))) l0 l.
Proof.
  intros w l Hw HS. destruct (N.le_gt_cases (blen w) 360) as [HB|HB].
  2: { destruct (suggests_at HS) as [n E]. rewrite C02_suggest_limits in E by auto. injection E as <-. right. exists []. split; constructor. }
  destruct w as [|c w].
  { destruct (suggests_at HS) as [n E]. rewrite C02_suggest_limits in E by auto. injection E as <-. right. exists []. split; constructor. }
  destruct (@C30_every_suggestion_has_a_source (c :: w) l Hw ltac:(discriminate) HB HS) as (w' & _ & [(t & _ & ->)|(l0 & ND & F & _)]); eauto.
Qed.

(** ** C30: consequences *)
(** Suggestions for title-case and all-caps words contain a space or are accepted by [check]. *)
Theorem C30_capitalised_words_accepted : ct_inner (ad_iconv A) = [] -> ct_inner (ad_oconv A) = [] ->
  forall w l x, scalars w -> classify_casing U w = CInit \/ classify_casing U w = CAll -> suggests pl rn d lt lu ng w l ->
  In x l -> In 32%N x \/ answers pl d lt lu x (Ret true).
Proof.
  intros EI EO w l x Hw HC HS Hx. destruct (N.le_gt_cases (blen w) 360) as [HB|HB].
  2: { destruct (suggests_at HS) as [n E]. rewrite C02_suggest_limits in E by auto. injection E as <-. destruct Hx. }
  assert (w <> []) as Hn by (intros ->; destruct HC; discriminate).
  destruct (C30_every_suggestion_has_a_source Hw Hn HB HS) as (w' & CV & H). rewrite EI in CV. apply converts_nothing in CV. subst w'.
  destruct H as [(t & (HN & _) & _)|(l0 & ND & F & G)]; [destruct HC; congruence|].
  destruct (Forall2_In_r x F Hx) as (x0 & I0 & C0). rewrite EO in C0. apply converts_nothing in C0. subst x0.
  destruct (G x I0) as (y & _ & SH). unfold ShownAs in SH.
  assert (KK : forall s, KeptAs pl d lt lu s x -> In 32%N x \/ answers pl d lt lu x (Ret true)).
  { intros s [[-> I]|[Y _]]; auto. }
  destruct HC as [HC|HC]; rewrite HC in SH.
  - destruct SH as (t & _ & K0). exact (KK _ K0).
  - destruct SH as [K0|[_ K0]]; exact (KK _ K0).
Qed.
(** Suggestions for lower-case words without a hyphen, n-gram suggestions off: correct words,
    REP replacements with spaces, or the word cut in two. *)
Theorem C30_lower_case_words : ct_inner (ad_iconv A) = [] -> ct_inner (ad_oconv A) = [] -> ng = false ->
  forall w l x, scalars w -> classify_casing U w = CNone -> ~ In 45%N w -> suggests pl rn d lt lu ng w l ->
  In x l -> ForcedUpper w x \/ Proposed pl d w x.
Proof.
  intros EI EO EN w l x Hw HC H45 HS Hx. destruct (N.le_gt_cases (blen w) 360) as [HB|HB].
  2: { destruct (suggests_at HS) as [n E]. rewrite C02_suggest_limits in E by auto. injection E as <-. destruct Hx. }
  destruct w as [|c w].
  { destruct (suggests_at HS) as [n E]. rewrite C02_suggest_limits in E by auto. injection E as <-. destruct Hx. }
  destruct (@C30_every_suggestion_has_a_source (c :: w) l Hw ltac:(discriminate) HB HS) as (w' & CV & H).
  rewrite EI in CV. apply converts_nothing in CV. subst w'.
  destruct H as [(t & HF & ->)|(l0 & ND & F & G)]; [left; destruct Hx as [<-|[]]; exact HF|]. right.
  destruct (Forall2_In_r x F Hx) as (x0 & I0 & C0). rewrite EO in C0. apply converts_nothing in C0. subst x0.
  destruct (G x I0) as (y & SR & SH). unfold ShownAs in SH. rewrite HC in SH. subst y.
  destruct SR as [SR|[(X & _)|(X & _)]]; [|congruence|contradiction].
  assert (SP : forall v, Spelling pl d (c :: w) v -> v = c :: w) by (intros v HV; inversion HV; congruence).
  destruct SR as [v x HV HP|v HV HN|a b HC'|u e v HC']; try (destruct HC'; congruence); [|congruence]. pose proof (SP _ HV). subst v. exact HP.
Qed.

(** ** C33 *)
(** The checker's own verdict: it finds [x], and by an entry that does not bar it. *)
Definition Approved (x : str) : Prop := exists f,
  Eventually (fun n => check_word k n x ForbidBadForceucase SkipHiddenHomonym) (Ret (Some f)) /\ ~ Barred d f.
Definition Recognised (x : str) : Prop := exists f,
  Eventually (fun n => check_word k n x ForbidBadForceucase SkipHiddenHomonym) (Ret (Some f)).
Inductive RecognisedPhrase : str -> Prop :=
| RPhrase_last : forall w, ~ In 32%N w -> RecognisedPhrase w
| RPhrase_more : forall u v, ~ In 32%N u -> Recognised u -> RecognisedPhrase v -> RecognisedPhrase (u ++ 32%N :: v).
Lemma word_settles : forall n x fu hh r, r <> NoFuel -> check_word k n x fu hh = r ->
  Eventually (fun m => check_word k m x fu hh) r.
Proof.
  intros n x fu hh r Hr H. exists n. intros m Hm.
  pose proof (@cw_mono sg n m Hm x fu hh) as [E|E]; cbn [su_checker suggester_of] in E; congruence.
Qed.
Lemma knows_recognised : forall x, Knows sg x <-> Recognised x.
Proof.
  intros x. split.
  - intros (n & f & H). exists f. exact (@word_settles n x _ _ (Ret (Some f)) ltac:(discriminate) H).
  - intros (f & n & H). exists n, f. apply H. lia.
Qed.
Lemma fit_approved : forall x, scalars x -> (Fit sg x <-> Approved x).
Proof.
  intros x Hx. split.
  - intros [n H]. unfold fit in H.
    destruct (check_word (su_checker sg) n x ForbidBadForceucase SkipHiddenHomonym) as [[f|]| |] eqn:E; try discriminate. cbn [bindR] in H.
    pose proof (word_finds n _ _ Hx E) as HF. exists f. split; [|apply clean_barred; [exact (finds_wf HF)|congruence]].
    exact (@word_settles n x _ _ (Ret (Some f)) ltac:(discriminate) E).
  - intros (f & [n H] & HB). specialize (H n (le_n _)). exists n. unfold fit. cbn [su_checker suggester_of]. rewrite H. cbn [bindR].
    f_equal. apply clean_barred; [|exact HB]. exact (finds_wf (@word_finds n x _ _ f Hx H)).
Qed.
Lemma leading_recognised : forall x, Leading sg x <-> RecognisedPhrase x.
Proof.
  intros x. split; intros H; induction H; constructor; try assumption; apply knows_recognised; assumption.
Qed.
Theorem C33_approved_words_are_correct : forall x, scalars x -> Approved x -> Correct pl d x.
Proof. intros x Hx H. apply fit_correct; [exact Hx|]. apply fit_approved; assumption. Qed.
Theorem C33_plain_words_are_approved : forall x f, scalars x -> SimpleWord A (listed d) SkipHiddenHomonym x f ->
  (forall f', Finds pl d ForbidBadForceucase SkipHiddenHomonym x f' -> ~ Barred d f') -> Approved x.
Proof.
  intros x f Hx HS HB. assert (HS' : SimpleWord A (fun s f => In f (ck_get k s)) SkipHiddenHomonym x f).
  { eapply simple_mono; [|exact HS]. intros; apply iff_known; assumption. }
  destruct (simple_word_complete WC Hx HS') as [f' E].
  assert (EW : check_word k 0 x ForbidBadForceucase SkipHiddenHomonym = Ret (Some f')) by (unfold check_word; rewrite E; reflexivity).
  exists f'. split; [exact (@word_settles 0 x _ _ (Ret (Some f')) ltac:(discriminate) EW)|]. apply HB. exact (@word_finds 0 x _ _ f' Hx EW).
Qed.

Lemma lower_low : forall n w hq out, scalars w -> classify_casing U w = CNone ->
  by_casing sg n w [] = Ret (inl (hq, out)) -> Low sg w out.
Proof.
  intros n w hq out Hw HC H. unfold by_casing in H. cbn [su_checker ck_u suggester_of checker_of] in H. rewrite HC in H.
  match type of H with bindR ?x _ = _ => destruct x as [[f|]| |]; try discriminate end; cbn [bindR] in H.
  - match type of H with bindR ?x _ = _ => destruct x as [t| |]; discriminate end.
  - destruct (suggest_low sg n w []) as [[q o]| |] eqn:E; try discriminate. injection H as _ <-.
    destruct (@low_sound sg WR WG n w [] q o Hw E) as (l & -> & HL). exact HL.
Qed.
Lemma select_scalars : forall P Q l r, (forall x, In x l -> (P x <-> Q x)) -> Selects P l r -> Selects Q l r.
Proof.
  intros P Q l r H HS. induction HS as [|x l r Hx HS IH|x l r Hx HS IH]; [constructor| |].
  - apply Selects_keep; [apply H; [left; reflexivity|exact Hx]|]. apply IH. intros; apply H. right; assumption.
  - apply Selects_drop; [intros X; apply Hx, H; [left; reflexivity|exact X]|]. apply IH. intros; apply H. right; assumption.
Qed.

Section Lower.
Hypothesis EI : ct_inner (ad_iconv A) = [].
Hypothesis EO : ct_inner (ad_oconv A) = [].
Hypothesis EF : o_force_upper opts = None.
Hypothesis EN : ng = false.
Variables (w : str) (l : list str).
Hypothesis Hw : scalars w.
Hypothesis HB : (blen w <= 360)%N.
Hypothesis HC : classify_casing U w = CNone.
Hypothesis H45 : ~ In 45%N w.
Hypothesis HS : suggests pl rn d lt lu ng w l.

Lemma lower_suggestions : w <> [] -> exists l0, Low sg w l0 /\ l = keep_first l0.
Proof.
  intros Hn. destruct (suggests_at HS) as [n E].
  destruct (@suggest_inv sg WR WG WRS WT WK WU WO WOS WI WIS WC WH WW n w l Hw Hn E HB) as (w' & CV & SW & H).
  cbn [su_checker ck_aff suggester_of checker_of] in CV. rewrite EI in CV. apply converts_nothing in CV. subst w'.
  destruct H as [(t & f & g & _ & EF' & _)|REST]; [cbn in EF'; congruence|].
  destruct REST as (m & hq & o1 & o2 & o3 & o4 & o5 & E1 & E2 & E3 & E4 & E5 & S5 & E6).
  exists o1. split; [exact (@lower_low n w hq o1 Hw HC E1)|].
  destruct (@by_ngram_inv sg WC WH WW w hq o1 o2 E2) as (added & A2 & _ & GA & _).
  assert (added = []) as ->.
  { destruct added as [|a added]; [reflexivity|]. destruct GA as (G1 & _); [discriminate|]. cbn in G1. congruence. }
  destruct (@by_dash_inv sg n _ w o2 o3 E3) as (dl & A3 & _ & GD).
  assert (dl = []) as -> by (destruct dl; [reflexivity|]; exfalso; apply H45, GD; discriminate).
  unfold recased in E4. cbn [su_checker ck_u suggester_of checker_of] in E4, E5. rewrite HC in E4, E5. subst o5 o4.
  unfold shown_as in A2. cbn [su_checker ck_u suggester_of checker_of] in A2. rewrite HC in A2.
  rewrite app_nil_r in A2, A3. subst o3 o2. cbn [su_checker ck_aff suggester_of checker_of] in E6. rewrite EO in E6.
  clear -E6. revert E6. generalize (keep_first o1). intros a H. induction H as [|x y a b Hab H IH]; [reflexivity|].
  f_equal; [symmetry; exact (converts_nothing Hab)|exact IH].
Qed.
(** The suggestions are the first occurrences of: the upper-case form, the REP forms, the MAP
    forms, the edits (each of these filtered by the checker) and the word cut in two, in this
    order. *)
Theorem C33_order : w <> [] -> exists l1 l2 l3 l4,
  Firsts [] (l1 ++ l2 ++ l3 ++ l4 ++ two_word_forms sg w) l /\
  Selects Approved [uppercase U h w] l1 /\
  Selects (fun x => Approved x \/ (In 32%N x /\ RecognisedPhrase x)) (rep_forms (ad_reps A) w) l2 /\
  Selects Approved (firstn (budget sg w) (map_forms (ad_sims A) w)) l3 /\
  Selects Approved (edits sg w w) l4.
Proof.
  intros Hn. destruct (lower_suggestions Hn) as (l0 & (l1 & l2 & l3 & l4 & E & S1 & S2 & S3 & S4) & ->).
  assert (CS : forall x, In x (candidates w) -> scalars x) by (intros x; exact (@edit_scalars w x Hw)).
  unfold candidates in CS.
  exists l1, l2, l3, l4. rewrite E. split; [apply keep_first_Firsts|]. split; [|split; [|split]].
  - eapply select_scalars; [|exact S1]. intros x Hx. apply fit_approved, CS. apply in_app_iff. left. exact Hx.
  - eapply select_scalars; [|exact S2]. intros x Hx. unfold RepFit. rewrite fit_approved, leading_recognised; [reflexivity|].
    apply CS. rewrite !in_app_iff. right. left. exact Hx.
  - eapply select_scalars; [|exact S3]. intros x Hx. apply fit_approved, CS. rewrite !in_app_iff. right. right. left. exact Hx.
  - eapply select_scalars; [|exact S4]. intros x Hx. apply fit_approved, CS. rewrite !in_app_iff. right. right. right. exact Hx.
Qed.
(** As long as no strategy runs out of attempts, exactly the approved edits are suggested,
    beside the REP replacements with spaces and the word cut in two. *)
Theorem C33_exactly_the_candidates : InBudget w -> Forall unclashing (ad_sims A) -> w <> [] -> forall x,
  (In x l <-> (Edit pl d w x /\ Approved x) \/
    (RepSimilar (ad_reps A) (fun y => y = x) w /\ In 32%N x /\ RecognisedPhrase x) \/
    (o_no_split_sugs opts = false /\ exists a b, w = a ++ b /\ b <> [] /\ Plain d a /\ Plain d b /\
      (x = a ++ 32%N :: b \/ (x = a ++ 45%N :: b /\ 2 <= length a /\ 2 <= length b /\ (In 97%N (ad_try A) \/ In 45%N (ad_try A)))))).
Proof.
  intros IB UC Hn x. destruct (lower_suggestions Hn) as (l0 & HL & ->). rewrite keep_first_In, (low_In x HL).
  rewrite <- leading_recognised, <- (rep_forms_In w x WR).
  assert (E1 : In x (candidates w) <-> Edit pl d w x) by (split; [apply candidates_edit|apply edit_candidates; assumption]).
  assert (E2 : (In x (candidates w) /\ Fit sg x) <-> (Edit pl d w x /\ Approved x)).
  { rewrite <- E1. split; intros [H1 H2]; (split; [exact H1|]); apply fit_approved; try exact H2; exact (@edit_scalars w x Hw H1). }
  rewrite E2. assert (E3 : In x (two_word_forms sg w) <-> (o_no_split_sugs opts = false /\ exists a b, w = a ++ b /\ b <> [] /\ Plain d a /\ Plain d b /\
      (x = a ++ 32%N :: b \/ (x = a ++ 45%N :: b /\ 2 <= length a /\ 2 <= length b /\ (In 97%N (ad_try A) \/ In 45%N (ad_try A)))))).
  { split; [exact (@pairs_proposed w x Hw)|]. intros (N0 & a & b & Ew & Hb & Pa & Pb & HX).
    destruct (@proposed_pairs w a b Hw N0 Ew Hb Pa Pb) as [X1 X2]. destruct HX as [-> |(-> & L1 & L2 & T)]; [exact X1|exact (X2 L1 L2 T)]. }
  rewrite E3. reflexivity.
Qed.
End Lower.

(** ** C31 *)
(** What n-grams alone contribute are forms of entries without NOSUGGEST (and not forbidden, not
    ONLYINCOMPOUND, not hidden).  Edits do not look at NOSUGGEST (C31_edits_refuted). *)
Theorem C31_ngram_suggestions : ct_inner (ad_iconv A) = [] -> ct_inner (ad_oconv A) = [] ->
  forall w l x, scalars w -> classify_casing U w = CNone -> ~ In 45%N w -> suggests pl rn d lt lu ng w l -> In x l ->
  ForcedUpper w x \/ Proposed pl d w x \/
  exists stem flags, listed d stem flags /\ ~ marked (o_no_suggest opts) flags /\ ~ In (o_forbidden opts) flags /\
    Form k w stem flags x.
Proof.
  intros EI EO w l x Hw HC H45 HS Hx. destruct (N.le_gt_cases (blen w) 360) as [HB|HB].
  2: { destruct (suggests_at HS) as [n E]. rewrite C02_suggest_limits in E by auto. injection E as <-. destruct Hx. }
  destruct w as [|c w].
  { destruct (suggests_at HS) as [n E]. rewrite C02_suggest_limits in E by auto. injection E as <-. destruct Hx. }
  destruct (@C30_every_suggestion_has_a_source (c :: w) l Hw ltac:(discriminate) HB HS) as (w' & CV & H).
  rewrite EI in CV. apply converts_nothing in CV. subst w'.
  destruct H as [(t & HF & ->)|(l0 & ND & F & G)]; [left; destruct Hx as [<-|[]]; exact HF|]. right.
  destruct (Forall2_In_r x F Hx) as (x0 & I0 & C0). rewrite EO in C0. apply converts_nothing in C0. subst x0.
  destruct (G x I0) as (y & SR & SH). unfold ShownAs in SH. rewrite HC in SH. subst y.
  destruct SR as [SR|[(_ & _ & X)|(X & _)]]; [| |contradiction].
  - left. assert (SP : forall v, Spelling pl d (c :: w) v -> v = c :: w) by (intros v HV; inversion HV; congruence).
    destruct SR as [v x HV HP|v HV HN|a b HC'|u e v HC']; try (destruct HC'; congruence); [|congruence]. pose proof (SP _ HV). subst v. exact HP.
  - right. destruct X as (stem & flags & I & (E1 & E2 & _) & FM). unfold lower_ranked in FM. rewrite HC in FM.
    exists stem, flags. auto.
Qed.
End Dict.

(** ** Correct words are accepted *)
(** In a dictionary without compounds every correct word of which no reading is barred is
    accepted by [check]. *)
Theorem C30_correct_words_accepted : forall pl d, wf_platform pl -> Reachable pl d -> Shrinks (d_aff d) ->
  strict (checker_of pl d false false) = true ->
  allows_compounding (ad_options (d_aff d)) = false -> rt_rules (ad_rules (d_aff d)) = [] ->
  forall x, scalars x -> ordinary (checker_of pl d false false) x -> Correct pl d x ->
  (forall v fu hh ok f, Reading pl d x v fu hh ok -> Finds pl d fu hh v f -> ok f -> ~ Barred d f) ->
  accepted pl d x.
Proof.
  intros pl d WP R SH ST NC NR x Hx HO (f & HF & _) HB.
  destruct HF as [HF|[[E _]|[E _]]]; [|congruence|contradiction].
  assert (Y : exists fu hh, Reading pl d x x fu hh any_flags /\ SimpleWord (d_aff d) (listed d) hh x f).
  { destruct (classify_casing (pl_unicode pl) x) eqn:EC.
    - exists ForbidBadForceucase, AcceptHiddenHomonym. split; [apply Reading_plain; congruence|apply simple_hh, HF].
    - exists AllowBadForceucase, SkipHiddenHomonym. split; [apply Reading_title; exact EC|exact HF].
    - exists AllowBadForceucase, AcceptHiddenHomonym. split; [apply Reading_upper; exact EC|apply simple_hh, HF].
    - exists ForbidBadForceucase, AcceptHiddenHomonym. split; [apply Reading_plain; congruence|apply simple_hh, HF].
    - exists ForbidBadForceucase, AcceptHiddenHomonym. split; [apply Reading_plain; congruence|apply simple_hh, HF]. }
  destruct Y as (fu & hh & HR & HS). apply (C19_readings_accepted WP R SH ST Hx HO HR HS); [intros; exact I|exact HB].
Qed.

(** ** Budgets *)
Lemma length_flat_map_le : forall X Y (f : X -> list Y) l n, (forall x, In x l -> length (f x) <= n) -> length (flat_map f l) <= length l * n.
Proof.
  intros X Y f. induction l as [|x l IH]; intros n H; [cbn; lia|]. cbn [flat_map length]. rewrite app_length.
  pose proof (H x (or_introl eq_refl)). pose proof (IH n (fun y Hy => H y (or_intror Hy))). lia.
Qed.
Lemma splits_length : forall w, length (splits w) = length w.
Proof. induction w as [|c w IH]; [reflexivity|]. rewrite splits_cons. cbn [length]. f_equal. etransitivity; [apply map_length|exact IH]. Qed.
Lemma cuts_length : forall w, length (cuts w) = S (length w).
Proof. intros w. unfold cuts. rewrite map_length, seq_length. reflexivity. Qed.
Lemma insertions_length : forall cs w, length (insertions cs w) <= length cs * S (length w).
Proof. intros cs w. apply length_flat_map_le. intros c _. rewrite map_length, cuts_length. lia. Qed.
Lemma replacements_length : forall cs w, length (replacements cs w) <= length cs * length w.
Proof.
  intros cs w. apply length_flat_map_le. intros c _. apply Nat.le_trans with (length (splits w) * 1); [|rewrite splits_length; lia].
  apply length_flat_map_le. intros [[u a] v] _. destruct (c =? a)%N; cbn; lia.
Qed.
Lemma split_bound : forall w u a r, In (u, a, r) (splits w) -> length u + length r < length w.
Proof. intros w u a r H. apply splits_In in H. subst w. rewrite app_length. cbn [length]. lia. Qed.
Lemma swaps_length : forall w, length (swaps w) <= length w * length w.
Proof.
  intros w. apply Nat.le_trans with (length (splits w) * length w); [|rewrite splits_length; lia]. apply length_flat_map_le. intros [[u a] r] H. apply split_bound in H.
  rewrite map_length, splits_length. lia.
Qed.
Lemma moves_right_length : forall w, length (moves_right w) <= length w * length w.
Proof.
  intros w. apply Nat.le_trans with (length (splits w) * length w); [|rewrite splits_length; lia]. apply length_flat_map_le. intros [[u a] r] H. apply split_bound in H.
  destruct r as [|b r]; [cbn; lia|]. rewrite map_length, splits_length. cbn [length] in H. lia.
Qed.
Lemma removelast_length : forall X (l : list X), length (removelast l) <= length l.
Proof. induction l as [|x [|y l] IH]; cbn [removelast length] in *; lia. Qed.
Lemma moves_left_length : forall w, length (moves_left w) <= length w * length w.
Proof.
  intros w. unfold moves_left.
  replace (length w * length w) with (length (map (fun '(u, a, v) => (u, a, match rev u with [] => v | b :: _ => b :: v end)) (rev (splits w))) * length w)
    by (rewrite map_length, rev_length, splits_length; reflexivity).
  apply length_flat_map_le. intros [[u a] r] H. apply in_map_iff in H. destruct H as ([[u' a'] v'] & E & H).
  injection E as -> -> _. apply in_rev, split_bound in H. rewrite map_length, rev_length, splits_length.
  pose proof (removelast_length u). lia.
Qed.
(** With at most 400 prefixes and 400 suffixes, without compounding and MAP, words of up to 200
    characters with up to 400 TRY characters are edited exhaustively. *)
Theorem C33_budget_suffices : forall pl rn d lt lu ng w,
  length (i_table (ad_prefixes (d_aff d))) <= 400 -> length (i_table (ad_suffixes (d_aff d))) <= 400 ->
  allows_compounding (ad_options (d_aff d)) = false -> ad_sims (d_aff d) = [] ->
  length (ad_try (d_aff d)) <= 400 -> length w <= 200 -> InBudget pl rn d lt lu ng w.
Proof.
  intros pl rn d lt lu ng w H1 H2 H3 H4 H5 H6.
  assert (B : budget (suggester_of pl rn d lt lu ng) w = N.to_nat 100000).
  { unfold budget. cbn [su_checker ck_aff suggester_of checker_of]. rewrite H3.
    set (p := (N.of_nat (length (i_table (ad_prefixes (d_aff d)))) / 20)%N).
    set (s := (N.of_nat (length (i_table (ad_suffixes (d_aff d)))) / 20)%N).
    assert (p <= 20)%N by (unfold p; apply N.div_le_upper_bound; lia).
    assert (s <= 20)%N by (unfold s; apply N.div_le_upper_bound; lia). clearbody p s.
    match goal with |- context [N.max ?c 250000] => assert (c <= 250000)%N as HC end.
    { assert (p * s <= 20 * 20)%N by (apply N.mul_le_mono; assumption).
      assert (p * p <= 20 * 20)%N by (apply N.mul_le_mono; assumption). assert (s * s <= 20 * 20)%N by (apply N.mul_le_mono; assumption).
      assert (s * p * p <= 20 * 20 * 20)%N by (apply N.mul_le_mono; [apply N.mul_le_mono|]; assumption).
      assert (p * s * s <= 20 * 20 * 20)%N by (apply N.mul_le_mono; [apply N.mul_le_mono|]; assumption).
      destruct (o_complex_prefixes (ad_options (d_aff d))); nia. }
    rewrite N.max_r by exact HC. reflexivity. }
  unfold InBudget. rewrite B, H4.
  pose proof (swaps_length w). pose proof (insertions_length (ad_try (d_aff d)) w). pose proof (moves_right_length w).
  pose proof (moves_left_length w). pose proof (replacements_length (ad_try (d_aff d)) w).
  assert (length w * length w <= 200 * 200) by (apply Nat.mul_le_mono; assumption).
  assert (length (ad_try (d_aff d)) * S (length w) <= 400 * 201) by (apply Nat.mul_le_mono; lia).
  assert (length (ad_try (d_aff d)) * length w <= 400 * 200) by (apply Nat.mul_le_mono; lia).
  assert (NB : forall x y, x <= y * 400 -> y <= 201 -> x <= N.to_nat 100000) by (intros; lia).
  assert (map_forms [] w = []) as ->.
  { unfold map_forms. cbn [map_tree]. unfold map_edits.
    generalize (combine (seq 0 (length w - 0)) (skipn 0 w)). intros l. induction l as [|[i c] l IH]; [reflexivity|exact IH]. }
  rewrite app_length. repeat split; cbn [length]; lia.
Qed.

(** ** Examples and refutations *)
Ltac propose n := apply suggest_settles with n; [discriminate|vm_compute; reflexivity].

Definition sd_aff : str := lit "SET UTF-8
TRY eloa
NOSUGGEST !
FORBIDDENWORD X
REP 2
REP f ph
REP alot a_lot
".
Definition sd_dic : str := lit "6
hello
phone
damn/!
bar/X
foo
a
".
Definition sd : dictionary := Eval vm_compute in (the (built ex_pl sd_aff sd_dic) <: dictionary).
Lemma sd_reachable : Reachable ex_pl sd. Proof. ex_dict sd_aff sd_dic. Qed.

(** OCONV may make distinct suggestions equal. *)
Definition oc_aff : str := lit "TRY ab
OCONV 1
OCONV b a
".
Definition oc_dic : str := lit "2
ca
cb
".
Definition oc : dictionary := Eval vm_compute in (the (built ex_pl oc_aff oc_dic) <: dictionary).
Lemma oc_reachable : Reachable ex_pl oc. Proof. ex_dict oc_aff oc_dic. Qed.
Theorem C29_oconv_refuted : suggests ex_pl ex_rn oc false false true (lit "c") [lit "ca"; lit "ca"].
Proof. propose 30. Qed.

(** The last part of a REP replacement with spaces is not checked. *)
Theorem C30_rep_last_part_refuted : suggests ex_pl ex_rn sd false false false (lit "alot") [lit "a lot"] /\ rejected ex_pl sd (lit "lot").
Proof. split; [propose 30|settle 30]. Qed.
(** Cutting a word in two proposes forbidden words. *)
Theorem C30_forbidden_pair_refuted : suggests ex_pl ex_rn sd false false false (lit "foobar") [lit "foo bar"; lit "foo-bar"] /\
  rejected ex_pl sd (lit "bar").
Proof. split; [propose 30|settle 30]. Qed.
(** A space after a full stop is proposed whatever stands there. *)
Theorem C30_dot_refuted : suggests ex_pl ex_rn sd false false false (lit "xx.Yy") [lit "xx. Yy"] /\
  rejected ex_pl sd (lit "xx.") /\ rejected ex_pl sd (lit "Yy").
Proof. split; [propose 30|split; settle 30]. Qed.
(** Parts of hyphenated words are proposed one at a time: the other part stays wrong. *)
Theorem C30_hyphen_refuted :
  suggests ex_pl ex_rn sd false false false (lit "helo-fone") [lit "hello-fone"; lit "helo-phone"] /\
  rejected ex_pl sd (lit "hello-fone").
Proof. split; [propose 30|settle 30]. Qed.
(** Edits propose words with NOSUGGEST. *)
Theorem C31_edits_refuted : suggests ex_pl ex_rn sd false false true (lit "dmn") [lit "damn"] /\
  forall flags, listed sd (lit "damn") flags -> marked (o_no_suggest (ad_options (d_aff sd))) flags.
Proof.
  split; [propose 30|]. intros flags H. unfold listed in H. vm_compute in H.
  repeat (destruct H as [H|H]; [inversion H; subst; try (eexists; split; [reflexivity|left; reflexivity])|]). destruct H.
Qed.

Example C02_suggest_example : suggest (suggester_of ex_pl ex_rn sd false false true) 0 (repeat 97%N 361) [lit "x"] = Ret [].
Proof. apply C02_suggest_limits. left. reflexivity. Qed.
Example C28_example : suggests_into ex_pl ex_rn sd false false false (lit "fone") [lit "rubbish"] [lit "phone"].
Proof. apply C28_output_replaced. propose 30. Qed.
Example C29_example : exists l, suggests ex_pl ex_rn sd false false false (lit "foobar") l /\ length l = 2 /\ NoDup l.
Proof.
  exists [lit "foo bar"; lit "foo-bar"]. assert (S0 : suggests ex_pl ex_rn sd false false false (lit "foobar") [lit "foo bar"; lit "foo-bar"]) by propose 30.
  split; [exact S0|]. split; [reflexivity|]. refine (C29_no_duplicates ex_pl_wf ex_rn_wf sd_reachable eq_refl _ S0). apply lit_scalars. reflexivity.
Qed.
Lemma sd_finds : forall fu hh w f, Finds ex_pl sd fu hh w f -> listed sd w f.
Proof.
  intros fu hh w f H. apply finds_direct in H; try reflexivity. destruct H as [H _]. exact H.
Qed.
Example C30_example : ~ Correct ex_pl sd (lit "bar") /\ accepted ex_pl sd (lit "hello") /\
  (exists l, suggests ex_pl ex_rn sd false false false (lit "helo") l /\ Forall (Proposed ex_pl sd (lit "helo")) l /\ l <> []) /\
  (exists l, suggests ex_pl ex_rn sd false false false (lit "HELO") l /\ l = [lit "HELLO"] /\
     Forall (fun x => In 32%N x \/ answers ex_pl sd false false x (Ret true)) l).
Proof.
  split; [|split; [|split]].
  - intros (f & H & HB). apply sd_finds in H. apply HB. left. unfold listed in H. vm_compute in H.
    repeat (destruct H as [H|H]; [inversion H; subst; vm_compute; auto|]). destruct H.
  - apply C30_correct_words_accepted; try reflexivity; try exact ex_pl_wf; try exact sd_reachable.
    + apply plain_shrinks; reflexivity.
    + apply lit_scalars. reflexivity.
    + apply ordinary_dec. reflexivity.
    + exists []. split.
      * left. left. split; [unfold listed; vm_compute; auto 10|]. split; [intros (g & X & _); discriminate|].
        split; [intros _ (g & X & _); discriminate|]. intros _ [].
      * intros [[]|[X _]]. discriminate.
    + intros v fu hh ok f HR HF HOK HB. assert (v = lit "hello") as ->.
      { inversion HR; subst; try reflexivity; discriminate. }
      apply sd_finds in HF. unfold listed in HF. vm_compute in HF.
      repeat (destruct HF as [HF|HF]; [inversion HF; subst; destruct HB as [[]|[X _]]; discriminate|]). destruct HF.
  - exists [lit "hello"]. assert (S0 : suggests ex_pl ex_rn sd false false false (lit "helo") [lit "hello"]) by propose 30.
    split; [exact S0|]. split; [|discriminate]. apply Forall_forall. intros x Hx.
    destruct (@C30_lower_case_words ex_pl ex_pl_wf ex_rn ex_rn_wf sd sd_reachable false false false eq_refl eq_refl eq_refl (lit "helo") _ x
      ltac:(apply lit_scalars; reflexivity) eq_refl ltac:(vm_compute; intuition discriminate) S0 Hx) as [(_ & X & _)|X]; [destruct X; reflexivity|exact X].
  - exists [lit "HELLO"]. assert (S0 : suggests ex_pl ex_rn sd false false false (lit "HELO") [lit "HELLO"]) by propose 30.
    split; [exact S0|]. split; [reflexivity|]. apply Forall_forall. intros x Hx.
    refine (@C30_capitalised_words_accepted ex_pl ex_pl_wf ex_rn ex_rn_wf sd sd_reachable false false false eq_refl eq_refl (lit "HELO") _ x _ _ S0 Hx).
    + apply lit_scalars; reflexivity.
    + right. reflexivity.
Qed.
Example C31_example : exists l x, suggests ex_pl ex_rn sd false false true (lit "helo") l /\ In x l /\
  (ForcedUpper ex_pl sd (lit "helo") x \/ Proposed ex_pl sd (lit "helo") x \/
   exists stem flags, listed sd stem flags /\ ~ marked (o_no_suggest (ad_options (d_aff sd))) flags /\ ~ In (o_forbidden (ad_options (d_aff sd))) flags /\
     Form (checker_of ex_pl sd false false) (lit "helo") stem flags x).
Proof.
  exists [lit "hello"], (lit "hello"). assert (S0 : suggests ex_pl ex_rn sd false false true (lit "helo") [lit "hello"]) by propose 30.
  split; [exact S0|]. split; [left; reflexivity|].
  refine (@C31_ngram_suggestions ex_pl ex_pl_wf ex_rn ex_rn_wf sd sd_reachable false false true eq_refl eq_refl (lit "helo") _ (lit "hello") _ eq_refl _ S0 _).
  - apply lit_scalars; reflexivity.
  - vm_compute. intuition discriminate.
  - left. reflexivity.
Qed.
Example C33_example : forall x, In x [lit "hello"] <-> (Edit ex_pl sd (lit "helo") x /\ Approved ex_pl sd false false x) \/
    (RepSimilar (ad_reps (d_aff sd)) (fun y => y = x) (lit "helo") /\ In 32%N x /\ RecognisedPhrase ex_pl sd false false x) \/
    (o_no_split_sugs (ad_options (d_aff sd)) = false /\ exists a b, lit "helo" = a ++ b /\ b <> [] /\ Plain sd a /\ Plain sd b /\
      (x = a ++ 32%N :: b \/ (x = a ++ 45%N :: b /\ 2 <= length a /\ 2 <= length b /\ (In 97%N (ad_try (d_aff sd)) \/ In 45%N (ad_try (d_aff sd)))))).
Proof.
  refine (@C33_exactly_the_candidates ex_pl ex_pl_wf ex_rn ex_rn_wf sd sd_reachable false false false eq_refl eq_refl eq_refl eq_refl
    (lit "helo") [lit "hello"] _ _ eq_refl _ _ _ _ _).
  - apply lit_scalars; reflexivity.
  - vm_compute. discriminate.
  - vm_compute. intuition discriminate.
  - propose 30.
  - apply C33_budget_suffices; try reflexivity; vm_compute; lia.
  - constructor.
  - discriminate.
Qed.

Print Assumptions C02_suggest_limits.
Print Assumptions C28_output_replaced.
Print Assumptions C29_no_duplicates.
Print Assumptions C29_oconv_images.
Print Assumptions C30_every_suggestion_has_a_source.
Print Assumptions C30_capitalised_words_accepted.
Print Assumptions C30_lower_case_words.
Print Assumptions C30_correct_words_accepted.
Print Assumptions C31_ngram_suggestions.
Print Assumptions C33_order.
Print Assumptions C33_exactly_the_candidates.
Print Assumptions C33_budget_suffices.
