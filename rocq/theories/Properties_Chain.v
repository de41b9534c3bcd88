(** Property C80: what NEEDAFFIX, ONLYINCOMPOUND and CIRCUMFIX keep out.  A word that is
    not a compound is an entry with a chain of affixes around it; the flags of the entry
    and of the rules say which chains count. *)
From Coq Require Import String Ascii List NArith ZArith Lia Bool Arith Permutation.
From Verif Require Import Base Utf8 Unicode Flags Bag Condition Affix Conversion Aff Checker AffixSpec CompoundRule Rep CompoundSpec
  CompoundTotal RuleCompound Spell CheckSpec CheckMono CheckProps Parser ParserSafe Lib LibSpec LibProps Examples
  Properties_Affix Properties_Compound Properties_Check Properties_Sound.
Import ListNotations.
Local Open Scope string_scope.
Local Open Scope list_scope.
Local Open Scope nat_scope.
Set Implicit Arguments.

(** [Chain A stem l w]: adding the rules [l] of the file, the last of the list first, to
    [stem] gives [w]. *)
Inductive Chain (A : affdata) (stem : str) : list (kind * affix) -> str -> Prop :=
| Chain_stem : Chain A stem [] stem
| Chain_add : forall kd a l mid w, Chain A stem l mid -> In a (rules A kd) -> derives kd a mid w ->
    Chain A stem ((kd, a) :: l) w.

(** The chain may stand as a word by itself around an entry with these flags. *)
Record Stands (A : affdata) (flags : flagset) (l : list (kind * affix)) : Prop := {
  st_short : length l <= 3;
  st_entry_free : ~ marked (o_only_in_compound (ad_options A)) flags;
  st_rules_free : forall kd a, In (kd, a) l -> ~ marked (o_only_in_compound (ad_options A)) (a_flags a);
  st_bare : l = [] -> ~ marked (o_need_affix (ad_options A)) flags;
  st_closed : l <> [] -> exists kd a, In (kd, a) l /\ ~ marked (o_need_affix (ad_options A)) (a_flags a);
  st_paired : (exists p, In (Pfx, p) l /\ marked (o_circumfix (ad_options A)) (a_flags p)) <->
              (exists s, In (Sfx, s) l /\ marked (o_circumfix (ad_options A)) (a_flags s));
  st_entry_permits : l <> [] -> exists kd a, In (kd, a) l /\ In (a_flag a) flags;
  st_all_permitted : forall kd a, In (kd, a) l ->
    In (a_flag a) flags \/ exists kd' b, In (kd', b) l /\ In (a_flag a) (a_flags b);
  st_cross : forall p s, In (Pfx, p) l -> In (Sfx, s) l ->
    forall kd, exists a, In (kd, a) l /\ a_cross a = true }.

(** [v] is an entry with such a chain around it. *)
Definition Formed (d : dictionary) (v : str) : Prop :=
  exists stem flags l, listed d stem flags /\ Chain (d_aff d) stem l v /\ Stands (d_aff d) flags l.

(** [v] is a compound, by flags or by a rule. *)
Definition Compounded (pl : platform) (d : dictionary) (fu : forceucase) (v : str) : Prop :=
  (allows_compounding (ad_options (d_aff d)) = true /\ exists p1 p2 ps,
     Compound (pl_unicode pl) (d_aff d) (listed d) fu AT_BEGIN [] v (p1 :: p2 :: ps)) \/
  (rt_rules (ad_rules (d_aff d)) <> [] /\ RuleCompound (d_aff d) (listed d) fu v).

Ltac members H := repeat (destruct H as [H|H]; [try discriminate H; injection H; intros; subst; clear H|]); try contradiction H.
Ltac steps := repeat (eapply Chain_add; [|eassumption|eassumption]); apply Chain_stem.

Lemma free_rule : forall A kd a, allowed A kd FULL_WORD a -> ~ marked (o_only_in_compound (ad_options A)) (a_flags a).
Proof. intros A kd a [H _]. exact (H eq_refl). Qed.

Lemma chain_direct : forall A (e : str -> flagset -> Prop) hh w f, DirectWord A e hh w f ->
  exists stem l, e stem f /\ Chain A stem l w /\ Stands A f l.
Proof.
  intros A e hh w f (H1 & H2 & H3 & _). exists w, []. split; [exact H1|]. split; [apply Chain_stem|]. split.
  - cbn. lia.
  - exact (H3 eq_refl).
  - intros kd a [].
  - intros _. exact H2.
  - intro H. contradiction.
  - split; intros (x & [] & _).
  - intro H. contradiction.
  - intros kd a [].
  - intros p s [].
Qed.

Lemma chain_one : forall A (e : str -> flagset -> Prop) kd hh w a stem f, OneAffix A e kd FULL_WORD hh w a stem f ->
  exists stem l, e stem f /\ Chain A stem l w /\ Stands A f l.
Proof.
  intros A e kd hh w a stem f (H1 & [H2 _] & H3 & H4 & H5 & _ & H6 & H7 & [H8 _] & _).
  exists stem, [(kd, a)]. split; [exact H6|]. split; [steps|]. split.
  - cbn. lia.
  - exact (H8 eq_refl).
  - intros kd' a' H; members H. exact (free_rule H3).
  - discriminate.
  - intros _. exists kd, a. split; [left; reflexivity|exact H4].
  - split; intros (x & H & M); members H; contradiction.
  - intros _. exists kd, a. split; [left; reflexivity|exact H7].
  - intros kd' a' H; members H. left. exact H7.
  - intros p s HP HS. members HP. members HS.
Qed.

Lemma chain_both : forall A (e : str -> flagset -> Prop) hh w p s stem f, PrefixSuffix A e FULL_WORD hh w p s stem f ->
  exists stem l, e stem f /\ Chain A stem l w /\ Stands A f l.
Proof.
  intros A e hh w p s stem f (H1 & H2 & C1 & C2 & A1 & A2 & CI & (mid & [D1 _] & [D2 _]) & H6 & [H8 _] & _ & FL & _).
  exists stem, [(Pfx, p); (Sfx, s)]. split; [exact H6|]. split; [steps|].
  assert (IP : In (Pfx, p) [(Pfx, p); (Sfx, s)]) by (left; reflexivity).
  assert (IS : In (Sfx, s) [(Pfx, p); (Sfx, s)]) by (right; left; reflexivity). split.
  - cbn. lia.
  - exact (H8 eq_refl).
  - intros kd' a' H; members H; [exact (free_rule A1)|exact (free_rule A2)].
  - discriminate.
  - intros _. destruct FL as [(N & _)|(N & _)]; [exists Pfx, p|exists Sfx, s]; auto.
  - split; intros (x & H & M); members H; [exists s|exists p]; (split; [assumption|]); apply CI; exact M.
  - intros _. destruct FL as [(_ & N & _)|(_ & N & _)]; [exists Sfx, s|exists Pfx, p]; auto.
  - intros kd' a' H. destruct FL as [(_ & N1 & [N2|N2])|(_ & N1 & [N2|N2])]; members H; auto; right; [exists Sfx, s|exists Pfx, p]; auto.
  - intros p' s' _ _ [|]; [exists p|exists s]; auto.
Qed.

Lemma chain_two : forall A (e : str -> flagset -> Prop) kd hh w o i stem f, TwoAffixes A e kd hh w o i stem f ->
  exists stem l, e stem f /\ Chain A stem l w /\ Stands A f l.
Proof.
  intros A e kd hh w o i stem f (H1 & H2 & A1 & A2 & N & C1 & C2 & (mid & [D1 _] & [D2 _]) & F1 & F2 & H6 & [H8 _]).
  exists stem, [(kd, o); (kd, i)]. split; [exact H6|]. split; [steps|].
  assert (IO : In (kd, o) [(kd, o); (kd, i)]) by (left; reflexivity).
  assert (II : In (kd, i) [(kd, o); (kd, i)]) by (right; left; reflexivity). split.
  - cbn. lia.
  - exact (H8 eq_refl).
  - intros kd' a' H; members H; [exact (free_rule A1)|exact (free_rule A2)].
  - discriminate.
  - intros _. exists kd, o. auto.
  - split; intros (x & H & M); members H; contradiction.
  - intros _. exists kd, i. auto.
  - intros kd' a' H; members H; auto. right. exists kd', i. auto.
  - intros p' s' HP HS. members HP; members HS.
Qed.

Lemma chain_outer : forall A (e : str -> flagset -> Prop) kd hh w x o i stem f, OuterAndTwo A e kd hh w x o i stem f ->
  exists stem l, e stem f /\ Chain A stem l w /\ Stands A f l.
Proof.
  intros A e kd hh w x o i stem f (H1 & H2 & H3 & CX & CO & A1 & A2 & A3 & N & CI & NI & (m1 & m2 & [D1 _] & [D2 _] & [D3 _]) & F1 & F2 & F3 & H6 & [H8 _]).
  set (l := [(kd, x); (other kd, o); (other kd, i)]).
  exists stem, l. split; [exact H6|]. split; [unfold l; steps|].
  assert (IX : In (kd, x) l) by (left; reflexivity).
  assert (IO : In (other kd, o) l) by (right; left; reflexivity).
  assert (II : In (other kd, i) l) by (right; right; left; reflexivity). split.
  - cbn. lia.
  - exact (H8 eq_refl).
  - intros kd' a' H. unfold l in H; members H; [exact (free_rule A1)|exact (free_rule A2)|exact (free_rule A3)].
  - discriminate.
  - intros _. exists kd, x. auto.
  - unfold circumfix in CI, NI. destruct kd; cbn in *; split; intros (y & H & M); unfold l in H; cbn in H;
      repeat (destruct H as [H|H]; [try discriminate H; injection H as <-|]); try contradiction; try tauto;
      [exists o|exists x|exists x|exists o]; (split; [assumption|apply CI; exact M]).
  - intros _. exists (other kd), i. auto.
  - intros kd' a' H. unfold l in H; members H; auto.
    + destruct F1; auto. right. exists (other kd'), o. auto.
    + right. exists (other kd), i. auto.
  - intros p' s' _ _ kd'. destruct kd, kd'; [exists x|exists o|exists o|exists x]; auto.
Qed.

Lemma chain_sandwich : forall A (e : str -> flagset -> Prop) cf kd hh w x o i stem f, Sandwich A e cf kd hh w x o i stem f ->
  exists stem l, e stem f /\ Chain A stem l w /\ Stands A f l.
Proof.
  intros A e cf kd hh w x o i stem f (H1 & H2 & H3 & CX & CO & CI & A1 & A2 & A3 & N & CC & (m1 & m2 & [D1 _] & D2 & _ & [D3 _]) & F1 & F2 & F3 & H6 & [H8 _]).
  set (l := [(kd, o); (other kd, x); (kd, i)]).
  exists stem, l. split; [exact H6|]. split; [unfold l; steps|].
  assert (IX : In (other kd, x) l) by (right; left; reflexivity).
  assert (IO : In (kd, o) l) by (left; reflexivity).
  assert (II : In (kd, i) l) by (right; right; left; reflexivity). split.
  - cbn. lia.
  - exact (H8 eq_refl).
  - intros kd' a' H. unfold l in H; members H; [exact (free_rule A2)|exact (free_rule A1)|exact (free_rule A3)].
  - discriminate.
  - intros _. exists kd, o. auto.
  - unfold circumfix in CC.
    assert (T1 : forall y, In (kd, y) l -> y = o \/ y = i).
    { intros y H. unfold l in H. cbn in H. destruct H as [H|[H|[H|[]]]]; [left; congruence| |right; congruence]. destruct kd; discriminate H. }
    assert (T2 : forall y, In (other kd, y) l -> y = x).
    { intros y H. unfold l in H. cbn in H. destruct H as [H|[H|[H|[]]]]; [|congruence|]; destruct kd; discriminate H. }
    assert (E : (exists y, In (kd, y) l /\ marked (o_circumfix (ad_options A)) (a_flags y)) <->
                (exists y, In (other kd, y) l /\ marked (o_circumfix (ad_options A)) (a_flags y))).
    { split; intros (y & H & M).
      - apply T1 in H. exists x. split; [exact IX|]. destruct CC as [[C1 C2]|[C1 C2]], H as [->| ->]; try contradiction; apply C1; exact M.
      - apply T2 in H. subst y. destruct CC as [[C1 C2]|[C1 C2]]; [exists o|exists i]; (split; [assumption|apply C1; exact M]). }
    destruct kd; cbn in E; [exact E|symmetry; exact E].
  - intros _. exists kd, i. auto.
  - intros kd' a' H. unfold l in H; members H; auto.
    + right. destruct F1; [exists kd', i|exists (other kd'), x]; auto.
    + destruct F2; auto. right. exists kd, i. auto.
  - intros p' s' _ _ kd'. destruct kd, kd'; [exists o|exists x|exists x|exists o]; auto.
Qed.

Lemma simple_chain : forall A (e : str -> flagset -> Prop) hh w f, SimpleWord A e hh w f ->
  exists stem l, e stem f /\ Chain A stem l w /\ Stands A f l.
Proof.
  intros A e hh w f H. unfold SimpleWord in H.
  destruct H as [H|[(kd & a & st & H)|[(p & s & st & H)|[[E H]|[E H]]]]].
  - exact (chain_direct H).
  - exact (chain_one H).
  - exact (chain_both H).
  - destruct H as [(o & i & st & H)|[(x & o & i & st & H)|(x & o & i & st & H)]];
      [exact (chain_two H)|exact (chain_outer H)|exact (chain_sandwich H)].
  - destruct H as [(o & i & st & H)|[(x & o & i & st & H & _)|(x & o & i & st & H)]];
      [exact (chain_two H)|exact (chain_outer H)|exact (chain_sandwich H)].
Qed.

Section Chains.
Variable pl : platform.
Hypothesis WP : wf_platform pl.
Variable d : dictionary.
Hypothesis R : Reachable pl d.
Notation k := (checker_of pl d false false).
Notation A := (d_aff d).
Notation opts := (ad_options (d_aff d)).

Lemma finds_formed : forall fu hh v f, Finds pl d fu hh v f -> Formed d v \/ Compounded pl d fu v.
Proof.
  intros fu hh v f [H|[(E & w1 & e & p2 & ps & _ & H)|(E & H & _)]].
  - left. destruct (simple_chain H) as (stem & l & H1 & H2 & H3). exists stem, f, l. auto.
  - right. left. split; [exact E|]. exists (w1, e), p2, ps. exact H.
  - right. right. auto.
Qed.

(** ** C80 *)
(** Every accepted word is cut by break patterns into pieces, and some spelling of each
    piece is a compound or an entry with a chain of affixes that may stand by itself. *)
Theorem C80_accepted_words_stand : forall w, scalars w -> ordinary k w -> accepted pl d w ->
  Glued d (fun x => exists v fu hh ok, Reading pl d x v fu hh ok /\ (Formed d v \/ Compounded pl d fu v)) 9 w.
Proof.
  intros w Hw HO Y. pose proof (C81_ordinary_words WP R Hw HO Y) as G. clear HO Y Hw.
  induction G as [n w H|n p w HI H IH|n p w HI H IH|n p u v HI HN H1 IH1 H2 IH2].
  - apply Glued_word. destruct H as (v & fu & hh & ok & f & HR & HF & _). exists v, fu, hh, ok. split; [exact HR|]. exact (finds_formed HF).
  - apply Glued_start; assumption.
  - apply Glued_end; assumption.
  - apply Glued_middle; assumption.
Qed.

(** The rejections below also need the search to end. *)
Section Single.
Hypothesis SH : Shrinks (d_aff d).
Hypothesis ST : strict k = true.
Variable w : str.
Hypothesis Hw : scalars w.
Hypothesis HO : ordinary k w.
Hypothesis HU : Unbreakable k w.
Hypothesis NC : allows_compounding opts = false.
Hypothesis NR : rt_rules (ad_rules A) = [].

(** Without compounding and breaks: if no chain around an entry that gives a spelling of
    the word may stand by itself, the word is rejected. *)
Theorem C80_no_chain_rejected :
  (forall v fu hh ok stem flags l, Reading pl d w v fu hh ok -> listed d stem flags -> Chain A stem l v -> ~ Stands A flags l) ->
  rejected pl d w.
Proof.
  intro H. apply (C18_unbroken_rejected WP R SH ST Hw HO HU). intro W.
  destruct (whole_explained WP R SH ST Hw W) as (v & fu & hh & ok & f & HR & HF & _).
  destruct (finds_formed HF) as [(stem & flags & l & H1 & H2 & H3)|[[E _]|[E _]]]; [|congruence|contradiction].
  exact (H _ _ _ _ _ _ _ HR H1 H2 H3).
Qed.

(** NEEDAFFIX: entries that need an affix are not words by themselves. *)
Theorem C80_bare_stem_rejected :
  (forall v fu hh ok, Reading pl d w v fu hh ok ->
     (forall flags, listed d v flags -> marked (o_need_affix opts) flags) /\
     (forall kd a mid, In a (rules A kd) -> ~ derives kd a mid v)) ->
  rejected pl d w.
Proof.
  intro H. apply C80_no_chain_rejected. intros v fu hh ok stem flags l HR HL HC S0. destruct (H _ _ _ _ HR) as [H1 H2].
  destruct HC as [|kd a l mid v HC HI HD]; [|exact (H2 _ _ _ HI HD)]. exact (st_bare S0 eq_refl (H1 _ HL)).
Qed.

(** NEEDAFFIX on rules: forms all of whose affixes need a further one are not words. *)
Theorem C80_open_forms_rejected :
  (forall v fu hh ok stem flags l, Reading pl d w v fu hh ok -> listed d stem flags -> Chain A stem l v ->
     l <> [] /\ forall kd a, In (kd, a) l -> marked (o_need_affix opts) (a_flags a)) ->
  rejected pl d w.
Proof.
  intro H. apply C80_no_chain_rejected. intros v fu hh ok stem flags l HR HL HC S0.
  destruct (H _ _ _ _ _ _ _ HR HL HC) as [H1 H2]. destruct (st_closed S0 H1) as (kd & a & HI & HN). exact (HN (H2 _ _ HI)).
Qed.

(** ONLYINCOMPOUND: forms of such entries, or made with such rules, are not words by themselves. *)
Theorem C80_only_in_compound_rejected :
  (forall v fu hh ok stem flags l, Reading pl d w v fu hh ok -> listed d stem flags -> Chain A stem l v ->
     marked (o_only_in_compound opts) flags \/ exists kd a, In (kd, a) l /\ marked (o_only_in_compound opts) (a_flags a)) ->
  rejected pl d w.
Proof.
  intro H. apply C80_no_chain_rejected. intros v fu hh ok stem flags l HR HL HC S0.
  destruct (H _ _ _ _ _ _ _ HR HL HC) as [M|(kd & a & HI & M)]; [exact (st_entry_free S0 M)|exact (st_rules_free S0 _ _ HI M)].
Qed.

(** CIRCUMFIX: a form with one half of a circumfix is not a word. *)
Theorem C80_half_circumfix_rejected : forall kd,
  (forall v fu hh ok stem flags l, Reading pl d w v fu hh ok -> listed d stem flags -> Chain A stem l v ->
     (exists a, In (kd, a) l /\ marked (o_circumfix opts) (a_flags a)) /\
     (forall a, In (other kd, a) l -> ~ marked (o_circumfix opts) (a_flags a))) ->
  rejected pl d w.
Proof.
  intros kd H. apply C80_no_chain_rejected. intros v fu hh ok stem flags l HR HL HC S0.
  destruct (H _ _ _ _ _ _ _ HR HL HC) as [H1 H2]. pose proof (st_paired S0) as E.
  destruct kd; cbn in H2; [apply E in H1|apply E in H1]; destruct H1 as (a & HI & M); exact (H2 a HI M).
Qed.
End Single.
End Chains.

(** A dictionary with all three flags: "nagy" forms "nagyobb" and, with the circumfix,
    "legnagyobb"; "stub" needs an affix; "alone" is for compounds only. *)
Definition big_aff : str := lit "CIRCUMFIX X
NEEDAFFIX N
ONLYINCOMPOUND O
PFX A Y 1
PFX A 0 leg/X .
SFX B Y 1
SFX B 0 obb/AX .
SFX C Y 1
SFX C 0 obb .
SFX D Y 1
SFX D 0 it/N .
".
Definition big_dic : str := lit "4
nagy/ABCD
stub/NC
alone/O
obb
".
Definition big : dictionary := Eval vm_compute in (the (built ex_pl big_aff big_dic) <: dictionary).
Lemma big_reachable : Reachable ex_pl big. Proof. ex_dict big_aff big_dic. Qed.
Definition big_k := checker_of ex_pl big false false.
Lemma big_shrinks : Shrinks (d_aff big). Proof. apply plain_shrinks; reflexivity. Qed.

(** The last rule of a chain in [big]. *)
Lemma big_rules : forall kd a mid w, In a (rules (d_aff big) kd) -> derives kd a mid w ->
  (kd = Pfx /\ a = rule (d_aff big) Pfx 0 /\ w = lit "leg" ++ mid) \/
  (kd = Sfx /\ (a = rule (d_aff big) Sfx 0 \/ a = rule (d_aff big) Sfx 1) /\ rev w = lit "bbo" ++ rev mid) \/
  (kd = Sfx /\ a = rule (d_aff big) Sfx 2 /\ rev w = lit "ti" ++ rev mid).
Proof.
  intros [|] a mid w H D.
  - left. destruct H as [<-|[]]. destruct D as (r & -> & ->). split; [reflexivity|split; reflexivity].
  - right. destruct H as [<-|[<-|[<-|[]]]]; destruct D as (r & -> & ->); cbn [strip_text a_strip]; rewrite !rev_app_distr.
    + left. split; [reflexivity|]. split; [left; reflexivity|reflexivity].
    + left. split; [reflexivity|]. split; [right; reflexivity|reflexivity].
    + right. split; [reflexivity|]. split; reflexivity.
Qed.
Lemma big_listed : forall s f, listed big s f -> (s = lit "nagy" /\ f = [65; 66; 67; 68]%N) \/ (s = lit "stub" /\ f = [67; 78]%N) \/
  (s = lit "alone" /\ f = [79]%N) \/ (s = lit "obb" /\ f = []).
Proof. intros s f H. unfold listed in H. vm_compute in H. repeat destruct H as [H|H]; try contradiction H; injection H as <- <-; auto. Qed.
Lemma low_reading : forall w v fu hh ok, classify_casing (pl_unicode ex_pl) w = CNone -> Reading ex_pl big w v fu hh ok -> v = w.
Proof. intros w v fu hh ok E H. destruct H; congruence. Qed.

Ltac big_word := solve [exact ex_pl_wf|exact big_reachable|exact big_shrinks|reflexivity|apply lit_scalars; reflexivity
  |apply ordinary_dec; reflexivity|apply unbreakable_dec; reflexivity].
Ltac big_entry H := apply big_listed in H; destruct H as [[E1 E2]|[[E1 E2]|[[E1 E2]|[E1 E2]]]]; try discriminate E1; subst.
Ltac big_last HI HD := destruct (@big_rules _ _ _ _ HI HD) as [(E1 & E2 & E3)|[(E1 & E2 & E3)|(E1 & E2 & E3)]]; try discriminate E3.

Example C80_example :
  (accepted ex_pl big (lit "nagyobb") /\ accepted ex_pl big (lit "legnagyobb") /\ accepted ex_pl big (lit "stubobb")) /\
  Formed big (lit "legnagyobb") /\
  rejected ex_pl big (lit "stub") /\ rejected ex_pl big (lit "nagyit") /\
  rejected ex_pl big (lit "alone") /\ rejected ex_pl big (lit "legnagy").
Proof.
  assert (Y : accepted ex_pl big (lit "legnagyobb")) by settle 50.
  split; [split; [settle 50|split; [exact Y|settle 50]]|].
  split.
  { exists (lit "nagy"), [65; 66; 67; 68]%N, [(Pfx, rule (d_aff big) Pfx 0); (Sfx, rule (d_aff big) Sfx 0)].
    split; [unfold listed; vm_compute; intuition reflexivity|]. split.
    - eapply Chain_add with (mid := lit "nagyobb"); [eapply Chain_add with (mid := lit "nagy"); [apply Chain_stem|left; reflexivity|]|left; reflexivity|];
        [exists (lit "nagy")|exists (lit "nagyobb")]; split; reflexivity.
    - split.
      + cbn. lia.
      + intros (x & E & H). injection E as <-. cbn in H. intuition discriminate.
      + intros kd a H (x & E & M). injection E as <-. members H; cbn in M; intuition discriminate.
      + discriminate.
      + intros _. exists Pfx, (rule (d_aff big) Pfx 0). split; [left; reflexivity|]. intros (x & E & M). injection E as <-. cbn in M. intuition discriminate.
      + split; intros _; eexists; (split; [|exists 88%N; split; [reflexivity|]]); [right; left; reflexivity|cbn; auto|left; reflexivity|cbn; auto].
      + intros _. exists Pfx, (rule (d_aff big) Pfx 0). split; [left; reflexivity|cbn; auto].
      + intros kd a H. left. members H; cbn; auto.
      + intros p s _ _ [|]; eexists; (split; [|shelve]); [left; reflexivity|right; left; reflexivity].
        Unshelve. all: reflexivity. }
  split.
  { eapply C80_bare_stem_rejected; try big_word. intros v fu hh ok HR. apply low_reading in HR; [|reflexivity]. subst v. split.
    - intros f H. big_entry H. exists 78%N. split; [reflexivity|cbn; auto].
    - intros kd a mid HI HD. big_last HI HD. }
  split.
  { eapply C80_open_forms_rejected; try big_word. intros v fu hh ok stem flags l HR HL HC. apply low_reading in HR; [|reflexivity]. subst v.
    inversion HC as [|kd a l' mid v HC' HI HD]; subst; [big_entry HL|].
    big_last HI HD. subst. injection E3 as E3. rewrite <- (rev_involutive mid), <- E3 in HC'. cbn in HC'.
    split; [discriminate|].
    inversion HC' as [|kd a l2 mid2 v HC2 HI2 HD2]; subst; [|clear E3; big_last HI2 HD2].
    intros kd a H. members H. exists 78%N. split; [reflexivity|cbn; auto]. }
  split.
  { eapply C80_only_in_compound_rejected; try big_word. intros v fu hh ok stem flags l HR HL HC. apply low_reading in HR; [|reflexivity]. subst v.
    inversion HC as [|kd a l' mid v HC' HI HD]; subst; [|big_last HI HD]. big_entry HL. left. exists 79%N. split; [reflexivity|cbn; auto]. }
  { eapply C80_half_circumfix_rejected with (kd := Pfx); try big_word. intros v fu hh ok stem flags l HR HL HC. apply low_reading in HR; [|reflexivity]. subst v.
    inversion HC as [|kd a l' mid v HC' HI HD]; subst; [big_entry HL|].
    big_last HI HD. subst. injection E3 as E3. subst mid.
    inversion HC' as [|kd a l2 mid2 v HC2 HI2 HD2]; subst; [|big_last HI2 HD2].
    split.
    - exists (rule (d_aff big) Pfx 0). split; [left; reflexivity|]. exists 88%N. split; [reflexivity|cbn; auto].
    - intros a H. members H. }
Qed.

Print Assumptions C80_accepted_words_stand.
Print Assumptions C80_no_chain_rejected.
Print Assumptions C80_bare_stem_rejected.
Print Assumptions C80_open_forms_rejected.
Print Assumptions C80_only_in_compound_rejected.
Print Assumptions C80_half_circumfix_rejected.
