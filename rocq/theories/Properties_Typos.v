(** Property C73: one slip of the typist is repaired.  Whatever the casing of the word, with
    n-grams or without, with conversions and hyphens: a correct word that is one edit away from
    the word typed is among the suggestions. *)
From Coq Require Import String Ascii List NArith ZArith Lia Bool Arith Permutation.
From Verif Require Import Base Utf8 Unicode Flags Bag Condition Affix Conversion Aff Checker AffixSpec CompoundRule Rep CompoundSpec
  CompoundTotal RuleCompound Spell CheckSpec CheckMono CheckProps Parser ParserSafe Lib LibSpec LibProps BufferOps Ngram Suggester
  SuggestSpec SuggestLow SuggestMono Dedup SuggestProps SuggestTotal NgramMeasures NgramProps NgramRank SuggestImpl LibSuggest Examples
  Properties_Affix Properties_Compound Properties_Check Properties_Suggest Properties_Ngram Properties_Pipeline.
Import ListNotations.
Local Open Scope string_scope.
Local Open Scope list_scope.
Local Open Scope nat_scope.
Set Implicit Arguments.

Lemma firsts_In : forall before l r x, Firsts before l r -> In x l -> ~ In x before -> In x r.
Proof.
  intros before l r x H. induction H as [b|b y l r Hy H IH|b y l r Hy H IH]; intros I N; [destruct I| |].
  - destruct (list_eq_dec N.eq_dec y x) as [->|Ne]; [left; reflexivity|right].
    destruct I as [I|I]; [contradiction|]. apply IH; [exact I|]. intros [X|X]; contradiction.
  - destruct (list_eq_dec N.eq_dec y x) as [->|Ne]; [contradiction|].
    destruct I as [I|I]; [contradiction|]. apply IH; [exact I|]. intros [X|X]; contradiction.
Qed.
Lemma forall2_l : forall X Y (Q : X -> Y -> Prop) l r x, Forall2 Q l r -> In x l -> exists y, In y r /\ Q x y.
Proof.
  intros X Y Q l r x H. induction H as [|a b l r Hab H IH]; intros I; [destruct I|].
  destruct I as [->|I]; [exists b; split; [left; reflexivity|exact Hab]|].
  destruct (IH I) as (y & I1 & I2). exists y. split; [right; exact I1|exact I2].
Qed.
Lemma forall2_concat : forall X Y (Q : X -> list Y -> Prop) l ll x y, Forall2 Q l ll -> In x l -> (forall r, Q x r -> In y r) -> In y (concat ll).
Proof.
  intros X Y Q l ll x y H I HQ. destruct (forall2_l x H I) as (r & I1 & I2). apply in_concat. exists r. split; [exact I1|apply HQ, I2].
Qed.

Section Claims.
Variable pl : platform.
Hypothesis WP : wf_platform pl.
Variable rn : runtime.
Hypothesis WN : wf_runtime rn.
Variable d : dictionary.
Hypothesis R : Reachable pl d.
Variables lt lu ng : bool.
Notation sg := (suggester_of pl rn d lt lu ng).
Notation k := (checker_of pl d lt lu).
Notation U := (pl_unicode pl).
Notation h := (o_case (ad_options (d_aff d))).
Notation opts := (ad_options (d_aff d)).
Notation A := (d_aff d).
Notation approved := (Approved pl d lt lu).
Notation says v b := (answers pl d lt lu v (Ret b)).
Notation kind w := (classify_casing U w).
Notation lower := (lowercase U h).

(** How a correction [e] is shown for a word with the casing of [w]: with a capital for title and
    Pascal case, in capitals for capitals. *)
Definition Recased (w e x : str) : Prop :=
  match kind w with
  | CNone | CCamel => x = e
  | CInit | CPascal => exists c v, e = c :: v /\ x = upper_char U h c ++ v
  | CAll => x = uppercase U h e
  end.

Lemma strategies_In : forall v g l e, Strategies pl rn d lt lu ng v g l ->
  InBudget pl rn d lt lu ng v -> Forall unclashing (ad_sims A) -> Edit pl d v e -> approved e -> In e l.
Proof.
  intros v g l e (l1 & l2 & l3 & l4 & l5 & -> & S1 & S2 & S3 & S4 & _) IB UC HE HA.
  pose proof (@edit_candidates pl WP rn d R lt lu ng v e IB UC HE) as HC. unfold candidates in HC. rewrite !in_app_iff in HC.
  rewrite !in_app_iff. destruct HC as [HC|[HC|[HC|HC]]].
  - left. apply (Selects_In e S1). auto.
  - right. left. apply (Selects_In e S2). auto.
  - right. right. left. apply (Selects_In e S3). auto.
  - right. right. right. left. apply (Selects_In e S4). auto.
Qed.
Lemma another_old : forall v q o q' o' e, Another pl rn d lt lu ng v q o q' o' -> In e o -> In e o'.
Proof. intros v q o q' o' e (g & l & b & _ & _ & _ & ->) I. rewrite !in_app_iff. auto. Qed.
Lemma another_In : forall v q o q' o' e, Another pl rn d lt lu ng v q o q' o' ->
  InBudget pl rn d lt lu ng v -> Forall unclashing (ad_sims A) -> Edit pl d v e -> approved e -> In e o'.
Proof.
  intros v q o q' o' e (g & l & b & HS & _ & _ & ->) IB UC HE HA. rewrite !in_app_iff. right. right.
  exact (strategies_In HS IB UC HE HA).
Qed.
Lemma dotted_In : forall w l o e, Dotted pl w l o -> In e l -> In e o.
Proof. intros w l o e [(a & b & _ & _ & _ & ->)|[_ ->]] I; [right|]; exact I. Qed.
Lemma spaced_In : forall w l m t e, Spaced pl d w l m t -> In e l -> ~ In 32%N e -> In e (rev m ++ t).
Proof.
  intros w l m t e H I N. apply in_app_iff. right. revert I.
  induction H as [|s l m t _ H IH|u c v l m t _ _ H IH]; intros I; [destruct I| |].
  - destruct I as [->|I]; [left; reflexivity|right; exact (IH I)].
  - destruct I as [I|I]; [|exact (IH I)]. exfalso. subst e. apply N. apply in_app_iff. right. left. reflexivity.
Qed.
Lemma proposals_In : forall w v g l e, Proposals pl rn d lt lu ng w g l -> Spelling pl d w v ->
  InBudget pl rn d lt lu ng v -> Forall unclashing (ad_sims A) -> Edit pl d v e -> approved e -> ~ In 32%N e ->
  In (match kind w with CAll => uppercase U h e | _ => e end) l.
Proof.
  intros w v g l e HP SP IB UC HE HA N.
  destruct HP as [g l K NF HS|g1 l1 g2 l2 K S1 S2|kept t g1 l1 g2 l2 K _ S1 ET S2
    |g1 l1 o1 g2 o2 m t K S1 D1 A2 SS|g1 l1 o1 v2 g2 o2 g3 o3 t' g4 o4 m t K S1 D1 E2 A2 A3 E4 A4 SS]; rewrite K.
  - destruct SP; try congruence. exact (strategies_In HS IB UC HE HA).
  - apply in_app_iff. destruct SP; try congruence; [left|right]; eapply strategies_In; eassumption.
  - apply in_map. rewrite !in_app_iff. right.
    destruct SP as [X|X|v2 X|v2 X|v2 _ X]; try congruence; [left; eapply strategies_In; eassumption|].
    right. assert (v2 = t) as -> by congruence. eapply strategies_In; eassumption.
  - eapply spaced_In; [exact SS| |exact N]. destruct SP; try congruence.
    + eapply another_old; [exact A2|]. eapply dotted_In; [exact D1|]. eapply strategies_In; eassumption.
    + eapply another_In; eassumption.
  - eapply spaced_In; [exact SS| |exact N]. destruct SP as [X|X|v3 _ X|v3 _ X|v3 X]; try congruence.
    + eapply another_old; [exact A4|]. eapply another_old; [exact A3|]. eapply another_old; [exact A2|].
      eapply dotted_In; [exact D1|]. eapply strategies_In; eassumption.
    + eapply another_old; [exact A4|]. eapply another_In; eassumption.
    + assert (v3 = v2) as -> by congruence. eapply another_old; [exact A4|]. eapply another_old; [exact A3|]. eapply another_In; eassumption.
    + assert (v3 = t') as -> by congruence. eapply another_In; eassumption.
Qed.
Lemma says_keeps : forall s l, says s true -> Keeps pl d lt lu s l -> In s l.
Proof. intros s l HT HK. destruct HK as [H|H H'|H H' _|t H H' _|t H H' _]; try (left; reflexivity);
  pose proof (says_det HT H'); discriminate. Qed.

(** A correct word [e] without a space that is one edit away from a spelling of the word - the
    word itself, its lower case, or what else its casing calls for - is among the suggestions,
    recased like the word and OCONV-converted.  The strategies must not run out of attempts, and
    for title case and capitals [check] must accept the recased form. *)
Theorem C73_corrections_are_suggested :
  (forall c c', In c (ct_inner (ad_iconv A)) -> In c' (ct_inner (ad_iconv A)) -> cv_from c = cv_from c' -> cv_to c = cv_to c') ->
  forall w w' v e l, scalars w -> w <> [] -> (blen w <= 360)%N -> Converts (ct_inner (ad_iconv A)) w w' -> ~ Forced pl d lt lu w' ->
  Spelling pl d w' v -> Edit pl d v e -> approved e -> ~ In 32%N e ->
  InBudget pl rn d lt lu ng v -> Forall unclashing (ad_sims A) ->
  (kind w' = CInit \/ kind w' = CAll -> forall x, Recased w' e x -> says x true) ->
  suggests pl rn d lt lu ng w l ->
  exists x x', Recased w' e x /\ Converts (ct_inner (ad_oconv A)) x x' /\ In x' l.
Proof.
  intros DI w w' v e l Hw Hn HB CV NF SP HE HA N IB UC OK HS.
  apply (C58_exact_list WP WN R) in HS; [|exact Hw|exact HB].
  destruct HS as [|w w2 t _ C K' FO _|w w2 good pr gu hy l1 l2 l3 l _ C PR GU HY CA RE FI CO]; [contradiction| |];
    pose proof (Converts_det DI CV C) as <-; [contradiction|].
  pose proof (proposals_In PR SP IB UC HE HA N) as IP.
  assert (exists x, Recased w' e x /\ In x l1) as (x & RX & I1).
  { unfold Capitalised in CA. unfold Recased.
    destruct (kind w') eqn:K; subst; try (eexists; split; [reflexivity|]; apply in_app_iff; left; exact IP);
      destruct (forall2_l e CA) as (y & Iy & Qy); try (apply in_app_iff; left; exact IP); exists y; auto. }
  assert (I2 : In x l2).
  { unfold Retained in RE. destruct (kind w') eqn:K; subst; try exact I1;
      destruct RE as (ll & F & ->); apply (@forall2_concat _ _ _ _ _ x x F I1); intros r; apply says_keeps; apply OK; auto. }
  pose proof (@firsts_In _ _ _ x FI I2 (fun X => X)) as I3.
  destruct (forall2_l x CO I3) as (x' & I4 & C4). exists x, x'. auto.
Qed.

(** ** Slips *)
(** [Slip e w]: who meant [e] has typed [w].  Letters left out or mistaken are found again if TRY
    lists them or, for mistaken ones, the KEY directive has them beside the one that was hit. *)
Inductive Slip : str -> str -> Prop :=
| Slip_extra : forall u c v, Slip (u ++ v) (u ++ c :: v)
| Slip_left_out : forall u c v, In c (ad_try A) -> Slip (u ++ c :: v) (u ++ v)
| Slip_mistaken : forall u c a v, In c (ad_try A) -> c <> a -> Slip (u ++ c :: v) (u ++ a :: v)
| Slip_beside : forall u c a v k1 k2, c <> 124%N -> ad_keyboard A = k1 ++ c :: a :: k2 \/ ad_keyboard A = k1 ++ a :: c :: k2 ->
    Slip (u ++ c :: v) (u ++ a :: v)
| Slip_exchanged : forall u a m b v, Slip (u ++ a :: m ++ b :: v) (u ++ b :: m ++ a :: v)
| Slip_late : forall u a m v, m <> [] -> Slip (u ++ a :: m ++ v) (u ++ m ++ a :: v)
| Slip_early : forall u a m v, m <> [] -> Slip (u ++ m ++ a :: v) (u ++ a :: m ++ v).

Lemma slip_edit : forall e w, Slip e w -> Edit pl d w e.
Proof.
  intros e w H. destruct H as [u c v|u c v H|u c a v H H'|u c a v k1 k2 H H'|u a m b v|u a m v H|u a m v H].
  - eapply Edit_delete. reflexivity.
  - eapply Edit_insert; [reflexivity|exact H].
  - eapply Edit_replace; [reflexivity|exact H|exact H'].
  - eapply Edit_key with (k1 := k1) (k2 := k2); [reflexivity|exact H|tauto].
  - eapply Edit_exchange. reflexivity.
  - destruct m as [|b [|b' m]]; [contradiction| |eapply Edit_move_left; [reflexivity|cbn; lia]].
    apply Edit_swap. reflexivity.
  - destruct m as [|b [|b' m]]; [contradiction| |eapply Edit_move_right; [reflexivity|cbn; lia]].
    apply Edit_swap. reflexivity.
Qed.

(** Without conversions, FORCEUCASE and MAP: an entry (or a form of an entry) that is not barred is
    suggested for every word without capitals that comes from it by one slip.  With n-grams and
    hyphens or without. *)
Theorem C73_one_slip : ct_inner (ad_iconv A) = [] -> ct_inner (ad_oconv A) = [] -> o_force_upper opts = None ->
  length (i_table (ad_prefixes A)) <= 400 -> length (i_table (ad_suffixes A)) <= 400 ->
  allows_compounding opts = false -> ad_sims A = [] -> length (ad_try A) <= 400 ->
  forall e w l flags, scalars e -> scalars w -> w <> [] -> length w <= 200 -> (blen w <= 360)%N -> kind w = CNone -> ~ In 32%N e ->
  SimpleWord A (listed d) SkipHiddenHomonym e flags ->
  (forall f, Finds pl d ForbidBadForceucase SkipHiddenHomonym e f -> ~ Barred d f) ->
  Slip e w -> suggests pl rn d lt lu ng w l -> In e l.
Proof.
  intros EI EO EF B1 B2 B3 B4 B5 e w l flags He Hw Hn HL HB HK N HSW HF HSL HS.
  destruct (@C73_corrections_are_suggested) with (w := w) (w' := w) (v := w) (e := e) (l := l) as (x & x' & HR & HC & HI); try assumption.
  - rewrite EI. intros c c' [].
  - rewrite EI. clear. induction w as [|c w IH]; constructor; [intros c' []|exact IH].
  - intros [X _]. contradiction.
  - apply Spelling_word. congruence.
  - apply slip_edit, HSL.
  - eapply C33_plain_words_are_approved; eassumption.
  - apply C33_budget_suffices; assumption.
  - rewrite B4. constructor.
  - intros [X|X]; congruence.
  - unfold Recased in HR. rewrite HK in HR. subst x. rewrite EO in HC. apply converts_nothing in HC. subst x'. exact HI.
Qed.
(** The same for a word with a capital: the correction gets one, too. *)
Theorem C73_one_slip_capital : ct_inner (ad_iconv A) = [] -> ct_inner (ad_oconv A) = [] ->
  length (i_table (ad_prefixes A)) <= 400 -> length (i_table (ad_suffixes A)) <= 400 ->
  allows_compounding opts = false -> ad_sims A = [] -> length (ad_try A) <= 400 -> o_force_upper opts = None ->
  forall c e w l flags, scalars (c :: e) -> scalars w -> w <> [] -> length (lower w) <= 200 -> (blen w <= 360)%N -> kind w = CInit -> ~ In 32%N (c :: e) ->
  SimpleWord A (listed d) SkipHiddenHomonym (c :: e) flags ->
  (forall f, Finds pl d ForbidBadForceucase SkipHiddenHomonym (c :: e) f -> ~ Barred d f) ->
  says (upper_char U h c ++ e) true ->
  Slip (c :: e) (lower w) -> suggests pl rn d lt lu ng w l -> In (upper_char U h c ++ e) l.
Proof.
  intros EI EO B1 B2 B3 B4 B5 EF c e w l flags He Hw Hn HL HB HK N HSW HF HT HSL HS.
  destruct (@C73_corrections_are_suggested) with (w := w) (w' := w) (v := lower w) (e := c :: e) (l := l) as (x & x' & HR & HC & HI); try assumption.
  - rewrite EI. intros c1 c' [].
  - rewrite EI. clear. induction w as [|c w IH]; constructor; [intros c' []|exact IH].
  - intros [X _]. contradiction.
  - apply Spelling_lower. congruence.
  - apply slip_edit, HSL.
  - eapply C33_plain_words_are_approved; eassumption.
  - apply C33_budget_suffices; assumption.
  - rewrite B4. constructor.
  - intros _ x HR. unfold Recased in HR. rewrite HK in HR. destruct HR as (c1 & v1 & E & ->). injection E as <- <-. exact HT.
  - unfold Recased in HR. rewrite HK in HR. destruct HR as (c1 & v1 & E & ->). injection E as <- <-.
    rewrite EO in HC. apply converts_nothing in HC. subst x'. exact HI.
Qed.

(** A space left out: two words that are not compounds, typed as one. *)
Theorem C73_missing_space : ct_inner (ad_iconv A) = [] -> ct_inner (ad_oconv A) = [] -> o_force_upper opts = None ->
  o_no_split_sugs opts = false ->
  forall a b l, scalars (a ++ b) -> b <> [] -> (blen (a ++ b) <= 360)%N -> kind (a ++ b) = CNone -> Plain d a -> Plain d b ->
  suggests pl rn d lt lu ng (a ++ b) l -> In (a ++ 32%N :: b) l.
Proof.
  intros EI EO EF NS a b l Hw Hb HB HK PA PB HS.
  apply (C58_exact_list WP WN R) in HS; [|exact Hw|exact HB].
  remember (a ++ b) as w eqn:Ew.
  destruct HS as [|w w2 t _ C K' FO _|w w2 good pr gu hy l1 l2 l3 l _ C PR GU HY CA RE FI CO].
  { destruct a; [destruct b; [contradiction|discriminate]|discriminate]. }
  { destruct FO as [X _]. contradiction. }
  rewrite EI in C. apply converts_nothing in C. subst w2. unfold Capitalised in CA. unfold Retained in RE. rewrite HK in CA, RE. subst l2 l1.
  assert (IP : In (a ++ 32%N :: b) pr).
  { destruct PR as [g l0 K NF HST| | | |]; try congruence. destruct HST as (l1 & l2 & l4 & l5 & l6 & -> & _ & _ & _ & _ & CU & _).
    rewrite !in_app_iff. do 4 right. destruct CU as [[X _]|(_ & ll & F & ->)]; [congruence|].
    destruct b as [|c b]; [contradiction|]. apply (@forall2_concat _ _ _ _ _ (a, c, b) (a ++ 32%N :: c :: b) F).
    - apply splits_In. exact Ew.
    - intros r HC. unfold Cut in HC. destruct HC as [[X _]|(_ & _ & [[_ ->]|[_ ->]])]; [tauto| |]; left; reflexivity. }
  assert (I3 : In (a ++ 32%N :: b) l3).
  { eapply firsts_In; [exact FI| |intros []]. apply in_app_iff. left. exact IP. }
  destruct (forall2_l _ CO I3) as (x' & I4 & C4). rewrite EO in C4. apply converts_nothing in C4. subst x'. exact I4.
Qed.
End Claims.

(** ** Examples and refutations *)
Ltac sd_clean := intros f HF HB; apply sd_finds in HF; unfold listed in HF; vm_compute in HF;
  repeat (destruct HF as [HF|HF]; [inversion HF; subst; destruct HB as [[]|[X _]]; discriminate|]); destruct HF.
Ltac sd_entry := left; split; [unfold listed; vm_compute; auto 10|]; split; [intros (g & X & _); discriminate|];
  split; [intros _ (g & X & _); discriminate|]; intros _ Z; first [destruct Z|destruct Z as (? & X & _); discriminate].
Lemma hello_clean : forall f, Finds ex_pl sd ForbidBadForceucase SkipHiddenHomonym (lit "hello") f -> ~ Barred sd f.
Proof. sd_clean. Qed.
Lemma hello_simple : SimpleWord (d_aff sd) (listed sd) SkipHiddenHomonym (lit "hello") [].
Proof. sd_entry. Qed.
Lemma foo_simple : SimpleWord (d_aff sd) (listed sd) SkipHiddenHomonym (lit "foo") [].
Proof. sd_entry. Qed.

(** [helo], [helllo] and [ehllo] are all answered with [hello], n-grams switched on; [Helo] with
    [Hello]; [foohello] with [foo hello]. *)
Example C73_example :
  (forall w l, In w [lit "helo"; lit "helllo"; lit "ehllo"] -> suggests ex_pl ex_rn sd false false true w l -> In (lit "hello") l) /\
  (exists l, suggests ex_pl ex_rn sd false false true (lit "ehllo") l) /\
  (forall l, suggests ex_pl ex_rn sd false false true (lit "Helo") l -> In (lit "Hello") l) /\
  (exists l, suggests ex_pl ex_rn sd false false true (lit "Helo") l) /\
  (forall l, suggests ex_pl ex_rn sd false false true (lit "foohello") l -> In (lit "foo hello") l) /\
  (exists l, suggests ex_pl ex_rn sd false false true (lit "foohello") l).
Proof.
  split; [|split; [|split; [|split; [|split]]]].
  - intros w l Iw. assert (HSL : Slip sd (lit "hello") w /\ w <> [] /\ scalars w /\ classify_casing (pl_unicode ex_pl) w = CNone /\ length w <= 200 /\ (blen w <= 360)%N).
    { destruct Iw as [<-|[<-|[<-|[]]]]; (split; [|split; [discriminate|split; [apply lit_scalars; reflexivity|split; [reflexivity|split; vm_compute; [lia|discriminate]]]]]).
      - change (lit "hello") with (lit "he" ++ 108%N :: lit "lo"). change (lit "helo") with (lit "he" ++ lit "lo").
        apply Slip_left_out. vm_compute. auto.
      - change (lit "helllo") with (lit "he" ++ 108%N :: lit "llo"). change (lit "hello") with (lit "he" ++ lit "llo"). apply Slip_extra.
      - change (lit "hello") with ([] ++ 104%N :: [] ++ 101%N :: lit "llo"). change (lit "ehllo") with ([] ++ 101%N :: [] ++ 104%N :: lit "llo").
        apply Slip_exchanged. }
    destruct HSL as (HSL & Hn & Hw & HK & HL & HB). intros HS.
    refine (@C73_one_slip ex_pl ex_pl_wf ex_rn ex_rn_wf sd sd_reachable false false true eq_refl eq_refl eq_refl _ _ eq_refl eq_refl _
      (lit "hello") w l [] _ Hw Hn HL HB HK _ hello_simple hello_clean HSL HS).
    + vm_compute; lia.
    + vm_compute; lia.
    + vm_compute; lia.
    + apply lit_scalars; reflexivity.
    + vm_compute. intuition discriminate.
  - eexists. propose 30.
  - intros l HS.
    assert (SL : Slip sd (lit "hello") (lit "helo")).
    { change (lit "hello") with (lit "he" ++ 108%N :: lit "lo"). change (lit "helo") with (lit "he" ++ lit "lo").
      apply Slip_left_out. vm_compute. auto. }
    refine (@C73_one_slip_capital ex_pl ex_pl_wf ex_rn ex_rn_wf sd sd_reachable false false true eq_refl eq_refl _ _ eq_refl eq_refl _ eq_refl
      104%N (lit "ello") (lit "Helo") l [] _ _ _ _ _ eq_refl _ hello_simple hello_clean _ SL HS).
    + vm_compute; lia.
    + vm_compute; lia.
    + vm_compute; lia.
    + apply (@lit_scalars "hello"%string); reflexivity.
    + apply lit_scalars; reflexivity.
    + discriminate.
    + vm_compute; lia.
    + vm_compute; discriminate.
    + vm_compute. intuition discriminate.
    + change (answers ex_pl sd false false (lit "Hello") (Ret true)). settle 30.
  - eexists. propose 30.
  - intros l HS.
    refine (@C73_missing_space ex_pl ex_pl_wf ex_rn ex_rn_wf sd sd_reachable false false true eq_refl eq_refl eq_refl eq_refl
      (lit "foo") (lit "hello") l _ _ _ eq_refl _ _ HS).
    + apply (@lit_scalars "foohello"%string); reflexivity.
    + discriminate.
    + vm_compute; discriminate.
    + eexists. exact foo_simple.
    + eexists. exact hello_simple.
  - eexists. propose 30.
Qed.

(** The doubling of two letters is repaired only inside a word: [vacacation] becomes [vacation]
    but [abcdcdc] does not become [abcdc], although the text ends in the pattern xyxyx whose last
    two letters the strategy is there to remove (suggester.rs 872-910: the window is compared
    only when there is a further letter). *)
Definition dd_aff : str := lit "TRY e
".
Definition dd_dic : str := lit "2
vacation
abcdc
".
Definition dd : dictionary := Eval vm_compute in (the (built ex_pl dd_aff dd_dic) <: dictionary).
Lemma dd_reachable : Reachable ex_pl dd. Proof. ex_dict dd_aff dd_dic. Qed.
Theorem C73_doubling_at_end_refuted : Reachable ex_pl dd /\
  accepted ex_pl dd (lit "abcdc") /\
  suggests ex_pl ex_rn dd false false false (lit "vacacation") [lit "vacation"] /\
  suggests ex_pl ex_rn dd false false false (lit "abcdcdc") [].
Proof. split; [exact dd_reachable|]. split; [settle 30|]. split; propose 30. Qed.

(** Suggestions are OCONV-converted, except the one for a compound that lacks only FORCEUCASE's
    capital: [baar] is answered with the converted [xar], [foobar] with the unconverted [Foobar]
    (suggester.rs 96-108 returns before the conversion). *)
Definition fc_aff : str := lit "COMPOUNDFLAG C
FORCEUCASE U
OCONV 1
OCONV b x
".
Definition fc_dic : str := lit "2
foo/C
bar/CU
".
Definition fc : dictionary := Eval vm_compute in (the (built ex_pl fc_aff fc_dic) <: dictionary).
Lemma fc_reachable : Reachable ex_pl fc. Proof. ex_dict fc_aff fc_dic. Qed.
Theorem C58_forced_unconverted_refuted : Reachable ex_pl fc /\
  suggests ex_pl ex_rn fc false false false (lit "baar") [lit "xar"] /\
  suggests ex_pl ex_rn fc false false false (lit "foobar") [lit "Foobar"].
Proof. split; [exact fc_reachable|]. split; propose 30. Qed.

Print Assumptions C73_corrections_are_suggested.
Print Assumptions C73_one_slip.
Print Assumptions C73_one_slip_capital.
Print Assumptions C73_missing_space.
Print Assumptions C73_doubling_at_end_refuted.
Print Assumptions C58_forced_unconverted_refuted.
