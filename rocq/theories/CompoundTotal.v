(** Termination, absence of panics and completeness of compounding, and COMPOUNDRULE
    compounds (checker.rs 1387-2433). *)
From Coq Require Import List NArith ZArith Lia Bool Arith.
From Coq Require Import ZifyBool ZifyNat ZifyN.
From Verif Require Import Base Utf8 Unicode Flags Condition Affix CompoundRule Conversion Aff Checker AffixSpec Rep CompoundSpec.
Import ListNotations.
Set Implicit Arguments.

(** ** More fuel never changes a settled result *)
Definition refines {X} (r1 r2 : Res X) : Prop := r1 = NoFuel \/ r1 = r2.

Lemma refines_refl : forall X (r : Res X), refines r r.
Proof. intros. right. reflexivity. Qed.
Lemma refines_trans : forall X (a b c : Res X), refines a b -> refines b c -> refines a c.
Proof. intros X a b c [H|H] [H'|H']; subst; unfold refines; auto. Qed.
Lemma refines_nofuel : forall X (r : Res X), refines NoFuel r.
Proof. intros. left. reflexivity. Qed.
Lemma refines_bind : forall X Y (a b : Res X) (f g : X -> Res Y),
  refines a b -> (forall x, refines (f x) (g x)) -> refines (bindR a f) (bindR b g).
Proof.
  intros X Y a b f g [-> | ->] H; [left; reflexivity|].
  destruct b; cbn [bindR]; [apply H|apply refines_refl|apply refines_refl].
Qed.
Definition orelse {X} (a b : Res (option X)) : Res (option X) :=
  match a with Ret (Some x) => Ret (Some x) | Ret None => b | Panic => Panic | NoFuel => NoFuel end.
Lemma refines_orelse : forall X (a b c d : Res (option X)), refines a b -> refines c d ->
  refines (orelse a c) (orelse b d).
Proof.
  intros X a b c d [-> | ->] H; [left; reflexivity|]. destruct b as [[x|]| |]; try apply refines_refl. exact H.
Qed.
Lemma refines_firstR : forall X Y (f g : X -> Res (option Y)) l, (forall x, refines (f x) (g x)) ->
  refines (firstR f l) (firstR g l).
Proof.
  intros X Y f g l H. induction l as [|x l IH]; [apply refines_refl|]. cbn [firstR].
  destruct (H x) as [->| ->]; [left; reflexivity|]. destruct (g x) as [[y|]| |]; try apply refines_refl. exact IH.
Qed.

Ltac refine1 :=
  match goal with
  | |- refines ?a ?a => apply refines_refl
  | |- refines (bindR _ _) (bindR _ _) => apply refines_bind; [|intro]
  | |- refines (if ?b then _ else _) (if ?b then _ else _) => destruct b
  | |- refines (match ?x with _ => _ end) (match ?x with _ => _ end) => destruct x
  end.

Section Mono.
Variable k : checker.

Definition rec_refines (r1 r2 : str -> nat -> nat -> forceucase -> Res (option cresult)) : Prop :=
  forall w s n fu, refines (r1 w s n fu) (r2 w s n fu).

Section Step.
Variables r1 r2 : str -> nat -> nat -> forceucase -> Res (option cresult).
Hypothesis HR : rec_refines r1 r2.

Lemma triple_recursive_mono : forall t w s i n fu e,
  refines (triple_recursive k r1 t w s i n fu e) (triple_recursive k r2 t w s i n fu e).
Proof. intros. unfold triple_recursive. apply refines_bind; [apply HR|]. intro. repeat refine1. Qed.

Lemma try_simplified_triple_mono : forall w s i n fu e,
  refines (try_simplified_triple k r1 w s i n fu e) (try_simplified_triple k r2 w s i n fu e).
Proof.
  intros. unfold try_simplified_triple. repeat (refine1 || apply triple_recursive_mono).
Qed.

Lemma try_recursive_mono : forall w s i n fu e,
  refines (try_recursive k r1 w s i n fu e) (try_recursive k r2 w s i n fu e).
Proof.
  intros. unfold try_recursive. apply refines_bind; [apply HR|]. intro.
  repeat (refine1 || apply try_simplified_triple_mono).
Qed.

Lemma classic_mono : forall m w s i n fu,
  refines (compound_classic k r1 m w s i n fu) (compound_classic k r2 m w s i n fu).
Proof. intros. unfold compound_classic. repeat (refine1 || apply try_recursive_mono). Qed.

Lemma pattern_plain_mono : forall p w sc s j n fu e c1 c2, refines (c1 tt) (c2 tt) ->
  refines (pattern_plain k p w sc s j n fu e c1) (pattern_plain k p w sc s j n fu e c2).
Proof. intros. unfold pattern_plain. repeat (refine1 || assumption). Qed.

Lemma pattern_step_mono : forall m w s i n fu p,
  refines (pattern_step k r1 m w s i n fu p) (pattern_step k r2 m w s i n fu p).
Proof.
  intros. unfold pattern_step.
  repeat (apply HR || refine1 || apply pattern_plain_mono).
Qed.

Lemma pattern_loop_mono : forall m w s i n fu ps,
  refines (pattern_loop k r1 m w s i n fu ps) (pattern_loop k r2 m w s i n fu ps).
Proof.
  intros. induction ps as [|p ps IH]; [apply refines_refl|]. cbn [pattern_loop].
  apply refines_bind; [apply pattern_step_mono|]. intro. repeat (refine1 || exact IH).
Qed.

Lemma impl_mono : forall m w s n fu,
  refines (compound_impl k r1 m w s n fu) (compound_impl k r2 m w s n fu).
Proof.
  intros. unfold compound_impl. apply refines_firstR. intro.
  apply (@refines_orelse cresult); [apply classic_mono|apply pattern_loop_mono].
Qed.
End Step.

Lemma middle_mono : forall f1 f2, f1 <= f2 -> rec_refines (compound_middle k f1) (compound_middle k f2).
Proof.
  induction f1 as [|f1 IH]; intros f2 H w s n fu; [left; reflexivity|].
  destruct f2 as [|f2]; [lia|]. cbn [compound_middle]. apply impl_mono. apply IH. lia.
Qed.

Lemma check_word_mono : forall f1 f2 w fu hh, f1 <= f2 ->
  refines (check_word k f1 w fu hh) (check_word k f2 w fu hh).
Proof.
  intros f1 f2 w fu hh H. unfold check_word. refine1; [refine1|]. apply refines_bind; [|intro; refine1].
  unfold check_compound. apply refines_orelse; [|refine1]. destruct (allows_compounding _); [|refine1].
  unfold check_compound_flags. apply impl_mono. apply middle_mono. exact H.
Qed.
End Mono.

(** ** Termination and panics *)
Definition settled (strict : bool) {X} (r : Res X) : Prop :=
  match r with Ret _ => True | Panic => strict = false | NoFuel => False end.

Lemma settled_bind : forall b X Y (a : Res X) (f : X -> Res Y),
  settled b a -> (forall x, a = Ret x -> settled b (f x)) -> settled b (bindR a f).
Proof. intros b X Y a f H Hf. destruct a; cbn in *; [apply Hf; reflexivity|exact H|contradiction]. Qed.
Lemma settled_firstR : forall b X Y (f : X -> Res (option Y)) l,
  (forall x, In x l -> settled b (f x)) -> settled b (firstR f l).
Proof.
  intros b X Y f l. induction l as [|x l IH]; intro H; [exact I|]. cbn [firstR].
  pose proof (H x (or_introl eq_refl)) as Hx. destruct (f x) as [[y|]| |]; cbn in *; try exact I; try assumption.
  apply IH. intros. apply H. right. assumption.
Qed.
Lemma settled_true : forall X (r : Res X), settled true r <-> exists x, r = Ret x.
Proof. intros X [x| |]; cbn; split; intro H; try discriminate; try contradiction; eauto; try (destruct H; discriminate). Qed.

(** Compounding terminates: every recursive call looks at a strictly shorter remainder.
    A simplified triple adds one character, a CHECKCOMPOUNDPATTERN replacement exchanges
    the replacement for the end of the pattern. *)
Record Shrinks (A : affdata) : Prop := {
  shrinks_triple : o_simplified_triple (ad_options A) = true -> 2 <= min_part A;
  shrinks_pattern : forall p r, In p (ad_patterns A) -> cp_replacement p = Some r ->
    length (cp_end p) + (if o_simplified_triple (ad_options A) then 1 else 0) < min_part A + length r }.

Section Total.
Variable k : checker.
Hypothesis WFC : wf_compound k.
Notation WF := (wfc_checker WFC).
Notation A := (ck_aff k).
Notation opts := (ad_options (ck_aff k)).
Notation U := (ck_u k).
Notation entry := (fun stem flags => In flags (ck_get k stem)).

(** Arithmetic on syllables can only panic when the language counts them and overflow
    checks are compiled in. *)
Definition strict : bool := negb (ck_overflow_checks k && nonempty (ad_vowels A)).

Lemma i16_settled : forall z, nonempty (ad_vowels A) = true -> settled strict (i16_op (ck_overflow_checks k) z).
Proof.
  intros z H. unfold i16_op, strict. rewrite H. destruct ((_ <=? _)%Z && _); [exact I|].
  destruct (ck_overflow_checks k); [reflexivity|exact I].
Qed.

Lemma swm_settled : forall m flags s, settled strict (syllable_modifier_with_suffix k m flags s).
Proof.
  intros m flags s. unfold syllable_modifier_with_suffix.
  destruct (negb (is_end m)); [exact I|]. destruct (nonempty (ad_vowels A)) eqn:E; [|exact I]. cbn [negb orb].
  apply settled_bind; [apply i16_settled; exact E|]. intros z _.
  apply settled_bind; [apply i16_settled; exact E|]. intros z' _.
  repeat match goal with |- settled _ (if ?b then _ else _) => destruct b end; try exact I; apply i16_settled; exact E.
Qed.

Lemma part_settled : forall m w, scalars w -> settled strict (check_word_in_compound k m w).
Proof.
  intros m w Hw. unfold check_word_in_compound.
  destruct (first_some _ (ck_get k w)) as [r|]; [exact I|].
  destruct (strip_suffix_only k m w SkipHiddenHomonym) as [f|] eqn:E2.
  { destruct (@one_affix_sound k WF Sfx m w SkipHiddenHomonym f Hw E2) as [a [st [fl [-> HH]]]].
    cbn [form1 af_suffixes af_stem af_flags]. apply settled_bind; [apply swm_settled|]. intros. exact I. }
  destruct (strip_prefix_only k m w SkipHiddenHomonym) as [f|] eqn:E3.
  { destruct (@one_affix_sound k WF Pfx m w SkipHiddenHomonym f Hw E3) as [a [st [fl [-> HH]]]]. exact I. }
  destruct (strip_prefix_then_suffix_commutative k m w SkipHiddenHomonym) as [f|] eqn:E4; [|exact I].
  destruct (@commutative_sound k WF m w SkipHiddenHomonym f Hw E4) as [p [s [st [fl [-> HH]]]]].
  cbn [af_prefixes af_suffixes af_stem af_flags]. apply settled_bind; [apply swm_settled|]. intros. exact I.
Qed.

Hypothesis SH : Shrinks A.

Section StepTotal.
Variable rec : str -> nat -> nat -> forceucase -> Res (option cresult).
Variables (word : str) (start : nat) (fu : forceucase).
Hypothesis Hsc : scalars word.
Hypothesis Hrec : forall w' s' n', scalars w' -> s' <= length w' ->
  length w' - s' < length word - start -> settled strict (rec w' s' n' fu).
Variable i : nat.
Hypothesis Hin : In i (within word start (min_chars k)).

Ltac bounds := let B1 := fresh "B" in let B2 := fresh "B" in let MP := fresh "MP" in
  pose proof (@At_bounds k WFC word start i Hin) as [B1 B2]; pose proof (min_pos WFC) as MP.

Lemma simplified_settled : forall num e1, settled strict (try_simplified_triple k rec word start i num fu e1).
Proof.
  intros num e1. bounds. unfold try_simplified_triple.
  destruct (o_simplified_triple opts) eqn:Est; cbn [negb]; [|exact I].
  destruct (prev_codepoint word i) as [[pi pc]|] eqn:E1; [|exact I].
  destruct (Nat.eqb_spec pi 0) as [|Hpi]; [exact I|].
  destruct (prev_codepoint word pi) as [[pi2 pc2]|] eqn:E2; [|exact I].
  destruct (N.eqb_spec pc pc2) as [<-|]; cbn [negb]; [|exact I].
  destruct (prev_codepoint_spec _ _ E1) as (F1 & L1 & L1'). rewrite firstn_length in L1.
  set (triple := firstn pi word ++ pc :: skipn pi word) in *.
  assert (length triple = S (length word)) as LT.
  { unfold triple. rewrite app_length. cbn [length]. rewrite firstn_length, skipn_length. lia. }
  assert (scalars triple) as ST.
  { unfold triple. apply Forall_app. split; [apply scalars_firstn; exact Hsc|]. constructor; [|apply scalars_skipn; exact Hsc].
    pose proof (scalars_firstn i Hsc) as X. rewrite F1 in X. apply Forall_app in X. destruct X as [_ X]. inversion X. assumption. }
  pose proof (shrinks_triple SH Est) as HM. change (min_part A) with (min_chars k) in HM.
  clearbody triple.
  assert (TRS : settled strict (triple_recursive k rec triple word start i num fu e1)).
  { unfold triple_recursive. apply settled_bind; [apply Hrec; [exact ST|lia|lia]|]. intros [e2|] _; [|exact I].
    destruct (forbidden_by_patterns _ _ _ _ _); [exact I|]. destruct (_ || _); exact I. }
  apply settled_bind; [apply part_settled; apply scalars_skipn; exact ST|]. intros [e2|] _; [|exact TRS].
  destruct (second_rejected _ _ _ _ _ _ _); [exact TRS|]. destruct (exceeds_max k num); exact I.
Qed.

Lemma recursive_settled : forall num e1, settled strict (try_recursive k rec word start i num fu e1).
Proof.
  intros num e1. bounds. unfold try_recursive. apply settled_bind; [apply Hrec; [exact Hsc|lia|lia]|].
  intros [e2|] _; [|apply simplified_settled].
  destruct (forbidden_by_patterns _ _ _ _ _); [apply simplified_settled|].
  destruct (_ || _); [apply simplified_settled|exact I].
Qed.

Lemma usize_settled : forall n z, nonempty (ad_vowels A) = true -> settled strict (usize_add_i16 (ck_overflow_checks k) n z).
Proof.
  intros n z H. unfold usize_add_i16, strict. rewrite H. destruct (_ <=? _)%Z; [exact I|]. destruct (_ <=? _)%Z; [|exact I].
  destruct (ck_overflow_checks k); [reflexivity|exact I].
Qed.

Lemma classic_settled : forall m num, settled strict (compound_classic k rec m word start i num fu).
Proof.
  intros m num. bounds. unfold compound_classic.
  apply settled_bind; [apply part_settled; apply scalars_slice; exact Hsc|]. intros [e1|] _; [|exact I].
  destruct (is_forbidden _ _); [exact I|]. destruct (_ && _); [exact I|]. destruct (_ && _); [exact I|].
  apply settled_bind; [apply part_settled; apply scalars_skipn; exact Hsc|]. intros [e2|] _; [|apply recursive_settled].
  destruct (second_rejected _ _ _ _ _ _ _); [apply recursive_settled|].
  destruct (reaches_max _ _); [|exact I]. destruct (nonempty (ad_vowels A)) eqn:EV; cbn [negb]; [|exact I].
  apply settled_bind; [apply usize_settled; exact EV|]. intros ns _. destruct (_ <? _)%N; [apply recursive_settled|exact I].
Qed.

Lemma pattern_plain_settled : forall p txt j num e1 cont, scalars txt -> settled strict (cont tt) ->
  settled strict (pattern_plain k p word txt start j num fu e1 cont).
Proof.
  intros p txt j num e1 cont Ht Hc. unfold pattern_plain.
  apply settled_bind; [apply part_settled; apply scalars_skipn; exact Ht|]. intros [e2|] _; [|exact Hc].
  destruct (_ || _); [exact Hc|]. destruct (reaches_max _ _); exact I.
Qed.

Lemma pattern_step_settled : forall m num pat, In pat (ad_patterns A) ->
  settled strict (pattern_step k rec m word start i num fu pat).
Proof.
  intros m num pat Hpat. bounds. unfold pattern_step.
  destruct (cp_replacement pat) as [rep|] eqn:Erep; [|exact I].
  destruct (starts_with rep (skipn i word)) eqn:Est; cbn [negb]; [|exact I].
  apply starts_with_spec in Est. destruct Est as [r Er].
  assert (skipn (i + length rep) word = r) as Er'.
  { rewrite <- skipn_skipn'. rewrite Er. apply skipn_app_exact. reflexivity. }
  rewrite Er'. pose proof (f_equal (@length N) Er) as LE. rewrite skipn_length, app_length in LE.
  destruct (proj1 (Forall_forall _ _) (wfc_patterns WFC) _ Hpat) as [Sb Se].
  assert (scalars r) as Sr by (rewrite <- Er'; apply scalars_skipn; exact Hsc).
  set (scratch := firstn i word ++ (cp_begin pat ++ cp_end pat) ++ r) in *.
  assert (length scratch = i + length (cp_begin pat) + length (cp_end pat) + length r) as LS.
  { unfold scratch. rewrite !app_length, firstn_length. lia. }
  assert (scalars scratch) as SS0.
  { unfold scratch. unfold scalars. rewrite !Forall_app. conj; try assumption. apply scalars_firstn. exact Hsc. }
  clearbody scratch. set (j := i + length (cp_begin pat)) in *.
  pose proof (shrinks_pattern SH _ Hpat Erep) as HS. change (min_part A) with (min_chars k) in HS.
  apply settled_bind; [apply part_settled; apply scalars_slice; exact SS0|]. intros [e1|] _; [|exact I].
  destruct (is_forbidden _ _); [exact I|]. destruct (flag_missing _ _); [exact I|]. destruct (_ && _); [exact I|].
  apply pattern_plain_settled; [exact SS0|].
  apply settled_bind; [apply Hrec; [exact SS0|unfold j; lia|unfold j; lia]|]. intros r1 _.
  match goal with |- settled _ (if ?c then _ else _) => destruct c end; [exact I|].
  destruct (o_simplified_triple opts) eqn:Esim; cbn [negb]; [|exact I].
  destruct (prev_codepoint scratch j) as [[pi pc]|] eqn:E1; [|exact I].
  destruct (Nat.eqb_spec pi 0) as [|Hpi]; [exact I|].
  destruct (prev_codepoint scratch pi) as [[pi2 pc2]|] eqn:E2; [|exact I].
  destruct (N.eqb_spec pc pc2) as [<-|]; cbn [negb]; [|exact I].
  destruct (prev_codepoint_spec _ _ E1) as (F1 & L1 & _).
  set (triple := firstn j scratch ++ pc :: skipn j scratch) in *.
  assert (length triple = S (length scratch)) as LT.
  { unfold triple. rewrite app_length. cbn [length]. rewrite firstn_length, skipn_length. lia. }
  assert (scalars triple) as ST.
  { pose proof (scalars_firstn j SS0) as X.
    unfold triple. apply Forall_app. split; [exact X|]. constructor; [|apply scalars_skipn; exact SS0].
    rewrite F1 in X. apply Forall_app in X. destruct X as [_ X]. inversion X. assumption. }
  clearbody triple.
  apply pattern_plain_settled; [exact ST|].
  apply settled_bind; [apply Hrec; [exact ST|unfold j in *; lia|unfold j in *; lia]|]. intros [e2|] _; [|exact I].
  destruct (flag_missing _ _); [exact I|]. destruct (rep_check _ _); [exact I|].
  match goal with |- settled _ (if ?c then _ else _) => destruct c end; exact I.
Qed.

Lemma pattern_loop_settled : forall m num ps, incl ps (ad_patterns A) ->
  settled strict (pattern_loop k rec m word start i num fu ps).
Proof.
  intros m num ps. induction ps as [|p ps IH]; intro H; [exact I|]. cbn [pattern_loop].
  apply settled_bind; [apply pattern_step_settled; apply H; left; reflexivity|].
  intros [o|u] _; [exact I|]. apply IH. intros x Hx. apply H. right. exact Hx.
Qed.

Lemma orelse_settled : forall X (a b : Res (option X)), settled strict a -> settled strict b -> settled strict (orelse a b).
Proof. intros X [[x|]| |] b Ha Hb; cbn in *; auto. Qed.
End StepTotal.

Lemma middle_settled : forall fuel m word start num fu, scalars word -> start <= length word ->
  length word - start <= fuel -> settled strict (compound_impl k (compound_middle k fuel) m word start num fu).
Proof.
  induction fuel as [|fuel IH]; intros m word start num fu Hsc Hst Hf; unfold compound_impl; apply settled_firstR;
    intros i Hin; apply orelse_settled;
    (apply classic_settled || (apply pattern_loop_settled; [| | |apply incl_refl])); try assumption;
    intros w' s' n' Sw' Hs' Hlt; try lia; cbn [compound_middle]; apply IH; try assumption; lia.
Qed.

Theorem compound_settled : forall fuel m word fu, scalars word -> length word <= fuel ->
  settled strict (check_compound_flags k fuel m word fu).
Proof. intros. apply middle_settled; [assumption|lia|lia]. Qed.

(** ** Completeness *)
Hypothesis STRICT : strict = true.

(** Options under which the choice among homonyms and decompositions is immaterial. *)
Record PlainOptions : Prop := {
  po_patterns : ad_patterns A = [];
  po_duplicate : o_check_duplicate opts = false;
  po_rep : o_check_rep opts = false;
  po_force : o_force_upper opts = None;
  po_max : o_max_words opts = None \/
    (ad_vowels A = [] /\ o_root opts = None /\ o_simplified_triple opts = false);
  po_forbidden : forall m w e, Part A entry m w e -> ~ Forbidden A e }.
Hypothesis PO : PlainOptions.

(** COMPOUNDWORDMAX leaves room for [n] more parts after [num]. *)
Definition Room (num n : nat) : Prop := forall mx, o_max_words opts = Some mx -> (N.of_nat (num + n) <= mx)%N.

Lemma no_extra_words : forall m w e, ad_vowels A = [] -> check_word_in_compound k m w = Ret (Some e) -> cr_words e = 0%N.
Proof. intros m w e HV H. exact (proj1 (@no_extra k m w e HV H)). Qed.

Lemma add_part_plain : forall m w e num, check_word_in_compound k m w = Ret (Some e) ->
  o_max_words opts = None \/ add_part k num e = num.
Proof.
  intros m w e num H. destruct (po_max PO) as [X|(HV & HR & _)]; [left; exact X|right].
  unfold add_part. rewrite (@no_extra_words m w e HV H), HR. cbn. lia.
Qed.

Lemma part_complete : forall m w e, scalars w -> Part A entry m w e ->
  exists e', check_word_in_compound k m w = Ret (Some e').
Proof.
  intros m w e Hw H. pose proof (@part_settled m w Hw) as S. rewrite STRICT in S.
  destruct (check_word_in_compound k m w) as [[e'|]| |] eqn:E; cbn in S; try discriminate; try contradiction; [eauto|].
  exfalso. clear S. unfold check_word_in_compound in E.
  destruct (first_some _ (ck_get k w)) as [r|] eqn:E1; [discriminate|].
  destruct (strip_suffix_only k m w SkipHiddenHomonym) as [f|] eqn:E2.
  { destruct (@one_affix_sound k WF Sfx m w SkipHiddenHomonym f Hw E2) as [a [st [fl [-> _]]]].
    cbn [form1 af_suffixes] in E. destruct (syllable_modifier_with_suffix _ _ _ _); discriminate. }
  destruct (strip_prefix_only k m w SkipHiddenHomonym) as [f|] eqn:E3.
  { destruct (@one_affix_sound k WF Pfx m w SkipHiddenHomonym f Hw E3) as [a [st [fl [-> _]]]]. discriminate. }
  destruct (strip_prefix_then_suffix_commutative k m w SkipHiddenHomonym) as [f|] eqn:E4.
  { destruct (@commutative_sound k WF m w SkipHiddenHomonym f Hw E4) as [p [s [st [fl [-> _]]]]].
    cbn [af_prefixes af_suffixes] in E. destruct (syllable_modifier_with_suffix _ _ _ _); discriminate. }
  destruct H as [[(He & Hst & Hn & Hc & Hh & Hm)|[(kd & a & HO & _)|(p & s & HP & _)]] _].
  - rewrite first_some_none in E1. specialize (E1 _ He). pose proof (wf_entries WF _ _ He) as Wf. cbv beta in E1.
    unfold need_affix in E1. rewrite <- has_flag_spec in Hn by exact Wf. apply not_true_is_false in Hn. rewrite Hn in E1.
    rewrite <- contains_spec in Hh by exact Wf. apply not_true_is_false in Hh. rewrite Hh in E1.
    change (mode_flag k m) with (position_flag A m) in E1.
    rewrite <- !has_flag_spec in Hc by exact Wf. destruct Hc as [Hc|Hc]; rewrite Hc in E1; cbn [negb andb] in E1; try discriminate.
    rewrite andb_false_r in E1. discriminate.
  - destruct (@one_affix_complete k WF kd m w _ a _ _ Hw HO) as [f E']. destruct kd; cbn [one_affix] in E'; congruence.
  - destruct (@commutative_complete k WF m w _ p s _ _ Hw HP) as [f E']. congruence.
Qed.

Lemma plain_second : forall w rw i fu e1 e2, scalars (skipn i w) ->
  check_word_in_compound k AT_END (skipn i w) = Ret (Some e2) -> second_rejected k w rw i fu e1 e2 = false.
Proof.
  intros w rw i fu e1 e2 Hw H. unfold second_rejected, forbidden_by_patterns, rep_check.
  rewrite (po_patterns PO), (po_duplicate PO), (po_rep PO), (po_force PO). cbn [existsb andb has_flag].
  destruct (@part_sound k WFC AT_END _ e2 Hw H) as [HP W]. pose proof (po_forbidden PO HP) as HF.
  assert (is_forbidden k (cr_flags e2) = false) as -> by (apply forbidden_spec; assumption).
  cbn [orb]. apply andb_false_r.
Qed.

Lemma plain_none : forall m w s i n fu rec, pattern_loop k rec m w s i n fu (ad_patterns A) = Ret None.
Proof. intros. rewrite (po_patterns PO). reflexivity. Qed.

(** A successful body makes the loop succeed. *)
Lemma impl_hit : forall fuel m word start num fu i e, scalars word -> start <= length word ->
  length word - start <= fuel -> In i (within word start (min_chars k)) ->
  compound_classic k (compound_middle k fuel) m word start i num fu = Ret (Some e) ->
  exists e', compound_impl k (compound_middle k fuel) m word start num fu = Ret (Some e').
Proof.
  intros fuel m word start num fu i e Hsc Hst Hf Hin H.
  pose proof (@middle_settled fuel m word start num fu Hsc Hst Hf) as S. rewrite STRICT in S.
  destruct (compound_impl k (compound_middle k fuel) m word start num fu) as [[e'|]| |] eqn:E; cbn in S;
    try discriminate; try contradiction; [eauto|]. exfalso.
  unfold compound_impl in E. rewrite firstR_none in E. specialize (E i Hin). cbv beta in E. rewrite H in E. discriminate.
Qed.

Lemma rec_hit : forall fuel word num fu i e1 start, scalars word -> start <= length word ->
  length word - start <= S fuel -> In i (within word start (min_chars k)) ->
  (exists e2, compound_impl k (compound_middle k fuel) AT_MIDDLE word i (num + 1) fu = Ret (Some e2)) ->
  try_recursive k (compound_middle k (S fuel)) word start i num fu e1 = Ret (Some e1).
Proof.
  intros fuel word num fu i e1 start Hsc Hst Hf Hin [e2 H]. unfold try_recursive. cbn [compound_middle].
  rewrite H. cbn [bindR]. unfold forbidden_by_patterns, rep_check, rep_check_part2.
  rewrite (po_patterns PO), (po_rep PO). reflexivity.
Qed.

Lemma classic_hit : forall rec m word start i num fu e1, scalars word -> In i (within word start (min_chars k)) ->
  Part A entry m (slice word start i) e1 -> BoundaryOK U A (firstn i word) (skipn i word) -> Room num 2 ->
  ((exists e2, Part A entry AT_END (skipn i word) e2) \/
   (forall e n, o_max_words opts = None \/ n = num -> exists e', try_recursive k rec word start i n fu e = Ret (Some e'))) ->
  exists e, compound_classic k rec m word start i num fu = Ret (Some e).
Proof.
  intros rec m word start i num fu e1 Hsc Hin HP [HB1 HB2] HRoom H.
  destruct (@part_complete m _ e1 (scalars_slice start i Hsc) HP) as [e1' E1].
  destruct (@part_sound k WFC m _ e1' (scalars_slice start i Hsc) E1) as [HP1 W1].
  unfold compound_classic. rewrite E1. cbn [bindR].
  assert (is_forbidden k (cr_flags e1') = false) as -> by (apply forbidden_spec; [exact W1|exact (po_forbidden PO HP1)]).
  assert (o_check_triple opts && are_three_chars_equal word i = false) as ->.
  { destruct (o_check_triple opts); [|reflexivity]. cbn [andb]. apply not_true_is_false. rewrite three_chars_spec. apply HB1. reflexivity. }
  assert (o_check_case opts && has_uppercase_at_boundary U word i = false) as ->.
  { destruct (o_check_case opts); [|reflexivity]. cbn [andb]. apply not_true_is_false. rewrite uppercase_boundary_spec. apply HB2. reflexivity. }
  assert (forall e2', check_word_in_compound k AT_END (skipn i word) = Ret (Some e2') ->
    exists e, (if second_rejected k word (skipn start word) i fu e1' e2'
            then try_recursive k rec word start i (add_part k num e1') fu e1'
            else if reaches_max k (add_part k (add_part k num e1') e2') then
              if negb (nonempty (ad_vowels A)) then Ret None
              else
                ns <- usize_add_i16 (ck_overflow_checks k) (count_syllables k word) (cr_syllables e2') ;;
                if (match o_syllable_max opts with Some n => n | None => 0%N end <? ns)%N
                then try_recursive k rec word start i (add_part k num e1') fu e1'
                else Ret (Some e1')
            else Ret (Some e1')) = Ret (Some e)) as HH.
  { intros e2' E2. rewrite (@plain_second _ _ _ _ _ e2' (scalars_skipn i Hsc) E2).
    assert (reaches_max k (add_part k (add_part k num e1') e2') = false) as ->; [|eauto].
    unfold reaches_max. destruct (o_max_words opts) as [mx|] eqn:EM; [|reflexivity].
    destruct (@add_part_plain _ _ _ num E1) as [X| ->]; [congruence|].
    destruct (@add_part_plain _ _ _ num E2) as [X| ->]; [congruence|]. specialize (HRoom mx EM). lia. }
  destruct H as [[e2 HP2]|HR].
  - destruct (@part_complete AT_END _ e2 (scalars_skipn i Hsc) HP2) as [e2' E2]. rewrite E2. cbn [bindR]. exact (HH e2' E2).
  - pose proof (@part_settled AT_END _ (scalars_skipn i Hsc)) as S. rewrite STRICT in S.
    destruct (check_word_in_compound k AT_END (skipn i word)) as [[e2'|]| |] eqn:E2; cbn [bindR]; cbn in S;
      try discriminate; try contradiction.
    + exact (HH e2' eq_refl).
    + apply HR. exact (@add_part_plain _ _ _ num E1).
Qed.

(** The simplified triple is reached when nothing was found before it. *)
Lemma triple_hit : forall rec word start i num fu e1 c x, In i (within word start (min_chars k)) ->
  scalars word -> o_simplified_triple opts = true -> firstn i word = x ++ [c; c] ->
  (exists e2, Part A entry AT_END (c :: skipn i word) e2) \/
  (forall n, exists e', rec (firstn i word ++ c :: skipn i word) i n fu = Ret (Some e')) ->
  settled true (rec (firstn i word ++ c :: skipn i word) i (num + 1) fu) ->
  try_simplified_triple k rec word start i num fu e1 = Ret (Some e1).
Proof.
  intros rec word start i num fu e1 c x Hin Hsc Hst Hx H HS.
  pose proof (@At_bounds k WFC word start i Hin) as [B1 B2]. pose proof (min_pos WFC) as MP.
  unfold try_simplified_triple. rewrite Hst. cbn [negb].
  assert (length (x ++ [c; c]) = i) as Lx by (rewrite <- Hx, firstn_length; lia).
  rewrite app_length in Lx. cbn [length] in Lx.
  assert (prev_codepoint word i = Some (S (length x), c)) as ->.
  { unfold prev_codepoint. rewrite Hx, rev_app_distr. cbn [rev app]. f_equal. f_equal. cbn [length]. rewrite rev_length. reflexivity. }
  cbn [Nat.eqb].
  assert (firstn (S (length x)) word = x ++ [c]) as Fx.
  { replace (firstn (S (length x)) word) with (firstn (S (length x)) (firstn i word)) by (rewrite firstn_firstn; f_equal; lia).
    rewrite Hx. replace (x ++ [c; c]) with ((x ++ [c]) ++ [c]) by (rewrite <- app_assoc; reflexivity).
    apply firstn_app_exact. rewrite app_length. cbn. lia. }
  assert (prev_codepoint word (S (length x)) = Some (length x, c)) as ->.
  { unfold prev_codepoint. rewrite Fx, rev_app_distr. cbn [rev app]. rewrite rev_length. reflexivity. }
  rewrite N.eqb_refl. cbn [negb]. rewrite Fx.
  assert (skipn (S (length x)) word = c :: skipn i word) as Sx.
  { rewrite (@skipn_split word (S (length x)) i) by lia.
    assert (slice word (S (length x)) i = [c]) as ->; [|reflexivity].
    pose proof (@firstn_split word (S (length x)) i ltac:(lia)) as X. rewrite Fx, Hx in X.
    replace (x ++ [c; c]) with ((x ++ [c]) ++ [c]) in X by (rewrite <- app_assoc; reflexivity).
    apply app_inv_head in X. symmetry. exact X. }
  rewrite Sx.
  replace ((x ++ [c]) ++ c :: c :: skipn i word) with (firstn i word ++ c :: skipn i word)
    by (rewrite Hx, <- !app_assoc; reflexivity).
  assert (length (firstn i word) = i) as Lf by (rewrite firstn_length; lia).
  rewrite (@skipn_app_exact _ (firstn i word) (c :: skipn i word) i) by (symmetry; exact Lf).
  assert (scalars (c :: skipn i word)) as SC.
  { rewrite <- Sx. apply scalars_skipn. exact Hsc. }
  set (triple := firstn i word ++ c :: skipn i word) in *.
  assert (skipn i triple = c :: skipn i word) as ST by (apply skipn_app_exact; symmetry; exact Lf).
  clearbody triple.
  assert (HH : forall e2', check_word_in_compound k AT_END (c :: skipn i word) = Ret (Some e2') ->
    (if second_rejected k triple (skipn start word) i fu e1 e2'
                then triple_recursive k rec triple word start i num fu e1
                else if exceeds_max k num then Ret None
                else Ret (Some e1)) = Ret (Some e1)).
  { intros e2' E2. rewrite <- ST in E2. rewrite (@plain_second triple _ i fu e1 e2'); [|rewrite ST; exact SC|exact E2].
    unfold exceeds_max. destruct (po_max PO) as [-> | (_ & _ & X)]; [reflexivity|congruence]. }
  destruct H as [[e2 HP2]|HR].
  - destruct (@part_complete AT_END _ e2 SC HP2) as [e2' E2]. rewrite E2. cbn [bindR]. exact (HH e2' E2).
  - pose proof (@part_settled AT_END _ SC) as S. rewrite STRICT in S.
    destruct (check_word_in_compound k AT_END (c :: skipn i word)) as [[e2'|]| |] eqn:E2; cbn [bindR]; cbn in S;
      try discriminate; try contradiction; [exact (HH e2' eq_refl)|].
    unfold triple_recursive. destruct (HR (num + 1)) as [e' ->]. cbn [bindR].
    unfold forbidden_by_patterns, rep_check, rep_check_part2. rewrite (po_patterns PO), (po_rep PO). reflexivity.
Qed.

Theorem compound_complete_impl : forall fu m left rest parts, Compound U A entry fu m left rest parts ->
  forall fuel num, scalars (left ++ rest) -> length rest <= fuel -> Room num (length parts) ->
  exists e, compound_impl k (compound_middle k fuel) m (left ++ rest) (length left) num fu = Ret (Some e).
Proof.
  assert (GEN : forall fu m left rest p1 e1 second Q R, Part A entry m p1 e1 -> Join U A entry left rest m p1 e1 second Q R ->
    scalars (left ++ rest) -> forall fuel num, length rest <= fuel -> Room num 2 ->
    (exists e2, Part A entry AT_END second e2) \/
    (forall fuel' n, o_max_words opts = None \/ n = num + 1 -> length second <= fuel' -> scalars ((left ++ p1) ++ second) ->
       exists e, compound_impl k (compound_middle k fuel') AT_MIDDLE ((left ++ p1) ++ second) (length (left ++ p1)) n fu = Ret (Some e)) ->
    exists e, compound_impl k (compound_middle k fuel) m (left ++ rest) (length left) num fu = Ret (Some e)).
  { intros fu m left rest p1 e1 second Q R HP HJ Hsc fuel num Hf HRm H.
    destruct HJ as [r E Hm1 Hm2 HB|r c x Hst E Hm1 Hm2 HB Hx|pat rep q r Hpat|pat rep q r c x Hst Hpat];
      try (rewrite (po_patterns PO) in Hpat; contradiction Hpat);
      change (min_part A) with (min_chars k) in Hm1, Hm2; pose proof (min_pos WFC) as MP.
    all: set (word := left ++ rest) in *; set (i := length (left ++ p1)).
    all: assert (word = (left ++ p1) ++ r) as EW by (unfold word; rewrite E, app_assoc; reflexivity).
    all: assert (firstn i word = left ++ p1) as F by (rewrite EW; apply firstn_app_exact; reflexivity).
    all: assert (skipn i word = r) as Sk by (rewrite EW; apply skipn_app_exact; reflexivity).
    all: assert (slice word (length left) i = p1) as SL by
      (unfold slice, word; rewrite skipn_app_exact by reflexivity; rewrite E; unfold i; rewrite app_length;
       apply firstn_app_exact; lia).
    all: assert (length word = length left + length rest) as LW by (unfold word; apply app_length).
    all: assert (length rest = length p1 + length r) as LR by (rewrite E; apply app_length).
    all: assert (i = length left + length p1) as LI by (apply app_length).
    all: assert (In i (within word (length left) (min_chars k))) as Hin by (apply within_In; lia).
    all: assert (exists e, compound_classic k (compound_middle k fuel) m word (length left) i num fu = Ret (Some e)) as [e He].
    - apply (@classic_hit (compound_middle k fuel) m word (length left) i num fu e1 Hsc Hin);
        [rewrite SL; exact HP|rewrite F, Sk; exact HB|exact HRm|].
      destruct H as [H|H]; [left; rewrite Sk; exact H|]. right. intros e n Hn. exists e.
      destruct fuel as [|fuel]; [lia|]. apply rec_hit; try assumption; try lia.
      rewrite EW. apply H; [destruct Hn as [Hn| ->]; auto|lia|]. rewrite <- EW. exact Hsc.
    - apply (@impl_hit fuel m word (length left) num fu i e Hsc); try assumption; lia.
    - apply (@classic_hit (compound_middle k fuel) m word (length left) i num fu e1 Hsc Hin);
        [rewrite SL; exact HP|rewrite F, Sk; exact HB|exact HRm|].
      right. intros e n Hn. pose proof (shrinks_triple SH Hst) as M2. change (min_part A) with (min_chars k) in M2.
      assert (scalars ((left ++ p1) ++ c :: r)) as SCT.
      { rewrite EW in Hsc. apply Forall_app in Hsc. destruct Hsc as [S1 S2]. apply Forall_app. split; [exact S1|].
        constructor; [|exact S2]. rewrite Hx in S1. apply Forall_app in S1. destruct S1 as [_ S1]. inversion S1. assumption. }
      destruct fuel as [|fuel]; [lia|].
      assert (TS : forall n', settled true (compound_middle k (S fuel) ((left ++ p1) ++ c :: r) i n' fu)).
      { intro n'. rewrite <- STRICT. cbn [compound_middle]. apply middle_settled; [exact SCT|rewrite app_length; fold i; cbn [length]; lia|].
        rewrite app_length. fold i. cbn [length]. lia. }
      unfold try_recursive.
      pose proof (@middle_settled fuel AT_MIDDLE word i (n + 1) fu Hsc ltac:(lia) ltac:(lia)) as RS. rewrite STRICT in RS.
      cbn [compound_middle].
      destruct (compound_impl k (compound_middle k fuel) AT_MIDDLE word i (n + 1) fu) as [[e2|]| |]; cbn in RS;
        try discriminate; try contradiction; cbn [bindR].
      + unfold forbidden_by_patterns, rep_check, rep_check_part2. rewrite (po_patterns PO), (po_rep PO). cbn. eauto.
      + exists e. change (compound_impl k (compound_middle k fuel) AT_MIDDLE) with (compound_middle k (S fuel)).
        apply (@triple_hit (compound_middle k (S fuel)) word (length left) i n fu e c x Hin Hsc Hst); rewrite ?F, ?Sk; try assumption.
        * destruct H as [H|H]; [left; exact H|right]. intro n'. cbn [compound_middle].
          apply H; [|cbn [length]; lia|exact SCT]. left. destruct (po_max PO) as [X|(_ & _ & X)]; [exact X|congruence].
        * apply TS.
    - apply (@impl_hit fuel m word (length left) num fu i e Hsc); try assumption; lia. }
  intros fu m left rest parts H. induction H as [m left rest p1 e1 second Q R e2 HP HF HJ HP2 HF2 HQ HD HRp HFu
    |m left rest p1 e1 second Q R w2 e2 ps HP HF HJ HC IH HQ HRp]; intros fuel num Hsc Hf HRm.
  - apply (@GEN fu m left rest p1 e1 second Q R HP HJ Hsc fuel num Hf); [exact HRm|]. left. eauto.
  - apply (@GEN fu m left rest p1 e1 second Q R HP HJ Hsc fuel num Hf).
    { intros mx EM. specialize (HRm mx EM). cbn [length] in HRm. lia. }
    right. intros fuel' n Hn Hf' Hsc'. apply IH; try assumption. intros mx EM. specialize (HRm mx EM). cbn [length] in *.
    destruct Hn as [Hn| ->]; [congruence|lia].
Qed.

Theorem compound_complete : forall fu m word parts fuel, scalars word -> length word <= fuel ->
  Compound U A entry fu m [] word parts -> Room 0 (length parts) ->
  exists e, check_compound_flags k fuel m word fu = Ret (Some e).
Proof. intros fu m word parts fuel Hsc Hf H HR. exact (@compound_complete_impl fu m [] word parts H fuel 0 Hsc Hf HR). Qed.

(** With COMPOUNDWORDMAX: a compound is found exactly when one of at most that many parts
    exists. *)
Theorem compound_max_iff : forall mx, o_max_words opts = Some mx -> forall fu m word fuel, scalars word -> length word <= fuel ->
  ((exists e, check_compound_flags k fuel m word fu = Ret (Some e)) <->
   (exists parts, Compound U A entry fu m [] word parts /\ (N.of_nat (length parts) <= mx)%N)).
Proof.
  intros mx EM fu m word fuel Hsc Hf. destruct (po_max PO) as [X|(HV & HR & HT)]; [congruence|]. split.
  - intros [e H]. destruct (@compound_sound k WFC fuel m word fu e Hsc H) as (w1 & p2 & ps & HC & HB).
    exists ((w1, e) :: p2 :: ps). split; [exact HC|]. destruct (HB mx EM HV) as [_ Y]. exact (Y HT).
  - intros [parts [H L]]. eapply compound_complete; [exact Hsc|exact Hf|exact H|]. intros mx' EM'. rewrite EM in EM'.
    injection EM' as <-. exact L.
Qed.

Theorem compound_iff : o_max_words opts = None -> forall fu m word fuel, scalars word -> length word <= fuel ->
  ((exists e, check_compound_flags k fuel m word fu = Ret (Some e)) <->
   (exists parts, Compound U A entry fu m [] word parts)).
Proof.
  intros EM fu m word fuel Hsc Hf. split.
  - intros [e H]. destruct (@compound_sound k WFC fuel m word fu e Hsc H) as (w1 & p2 & ps & HC & _). eauto.
  - intros [parts H]. eapply compound_complete; try eassumption. intros mx EM'. congruence.
Qed.
End Total.

(** ** The plain reading: a compound is a list of parts
    Without SIMPLIFIEDTRIPLE and under the plain options, [Compound] is a concatenation. *)
Section Plain.
Variable U : unicode.
Variable A : affdata.
Variable entry : str -> flagset -> Prop.
Notation opts := (ad_options A).

(** Every boundary between consecutive parts is admissible. *)
Fixpoint Boundaries (left : str) (ws : list str) : Prop :=
  match ws with
  | [] => True
  | w :: ws' => (ws' <> [] -> BoundaryOK U A (left ++ w) (concat ws')) /\ Boundaries (left ++ w) ws'
  end.

Definition PlainCompoundOf (n : nat) (word : str) : Prop :=
  exists first middles last,
    n = length middles + 2 /\
    word = first ++ concat middles ++ last /\
    (exists e, Part A entry AT_BEGIN first e) /\
    Forall (fun w => exists e, Part A entry AT_MIDDLE w e) middles /\
    (exists e, Part A entry AT_END last e) /\
    Forall (fun w => min_part A <= length w) (first :: middles ++ [last]) /\
    Boundaries [] (first :: middles ++ [last]).
Definition PlainCompound (word : str) : Prop := exists n, PlainCompoundOf n word.

Hypothesis NoPat : ad_patterns A = [].
Hypothesis NoTriple : o_simplified_triple opts = false.
Hypothesis NoDup : o_check_duplicate opts = false.
Hypothesis NoRep : o_check_rep opts = false.
Hypothesis NoForce : o_force_upper opts = None.
Hypothesis NoForbidden : forall m w e, Part A entry m w e -> ~ Forbidden A e.

Lemma join_is_plain : forall left rest m p1 e1 second Q R, Join U A entry left rest m p1 e1 second Q R ->
  rest = p1 ++ second /\ min_part A <= length p1 /\ min_part A <= length second /\ BoundaryOK U A (left ++ p1) second.
Proof.
  intros left rest m p1 e1 second Q R H. destruct H as [r E Hm1 Hm2 HB|r c x Hst|pat rep q r Hpat|pat rep q r c x Hst].
  - auto.
  - congruence.
  - rewrite NoPat in Hpat. destruct Hpat.
  - congruence.
Qed.

Lemma no_pattern : forall l r e1 e2, ~ PatternAt A l r e1 e2.
Proof. intros l r e1 e2 [p [Hp _]]. rewrite NoPat in Hp. exact Hp. Qed.

Lemma concat_snoc : forall (ws : list str) w, concat (ws ++ [w]) = concat ws ++ w.
Proof. intros. rewrite concat_app. cbn. rewrite app_nil_r. reflexivity. Qed.

Lemma compound_plain : forall fu m left rest parts, Compound U A entry fu m left rest parts ->
  exists first middles last,
    length parts = length middles + 2 /\
    rest = first ++ concat middles ++ last /\
    (exists e, Part A entry m first e) /\
    Forall (fun w => exists e, Part A entry AT_MIDDLE w e) middles /\
    (exists e, Part A entry AT_END last e) /\
    Forall (fun w => min_part A <= length w) (first :: middles ++ [last]) /\
    Boundaries left (first :: middles ++ [last]).
Proof.
  intros fu m left rest parts H. induction H as [m left rest p1 e1 second Q R e2 HP HF HJ HP2 HF2 HQ HD HRp HFu
    |m left rest p1 e1 second Q R w2 e2 ps HP HF HJ HC IH HQ HRp].
  - destruct (join_is_plain HJ) as (E & M1 & M2 & HB). exists p1, [], second. conj; eauto.
    + cbn [app]. constructor; [exact M1|constructor; [exact M2|constructor]].
    + cbn. rewrite app_nil_r. split; [intros _; exact HB|]. split; [intro X; contradiction X; reflexivity|exact I].
  - destruct (join_is_plain HJ) as (E & M1 & M2 & HB).
    destruct IH as (f & ms & l & EL & E2 & HPf & HM & HL & HLen & HBs).
    exists p1, (f :: ms), l. conj; eauto.
    + cbn [length] in *. lia.
    + rewrite E, E2. cbn [concat]. rewrite <- !app_assoc. reflexivity.
    + change ((f :: ms) ++ [l]) with (f :: ms ++ [l]). cbn [Boundaries]. split; [|exact HBs].
      intros _. replace (concat (f :: ms ++ [l])) with second; [exact HB|].
      cbn [concat]. rewrite concat_snoc. exact E2.
Qed.

Lemma plain_compound : forall fu middles m left first last,
  (exists e, Part A entry m first e) ->
  Forall (fun w => exists e, Part A entry AT_MIDDLE w e) middles ->
  (exists e, Part A entry AT_END last e) ->
  Forall (fun w => min_part A <= length w) (first :: middles ++ [last]) ->
  Boundaries left (first :: middles ++ [last]) ->
  exists w e ps, Compound U A entry fu m left (first ++ concat middles ++ last) ((w, e) :: ps) /\ length ps = length middles + 1.
Proof.
  intros fu. induction middles as [|w2 ms IH]; intros m left first last [e1 HP1] HM [e2 HP2] HLen [HB HBs].
  - cbn [app concat] in *. inversion HLen as [|? ? M1 X]; subst. inversion X as [|? ? M2 _]; subst.
    exists first, e1, [(last, e2)]. split; [|reflexivity]. eapply Compound_last with
      (Q := fun e2 => ~ PatternAt A (left ++ first) last e1 e2)
      (R := fun e2 => forall s, last = cr_stem e2 ++ s -> ~ Similar A entry (first ++ cr_stem e2)); eauto.
    + apply Join_plain; auto. specialize (HB ltac:(discriminate)). cbn in HB. rewrite app_nil_r in HB. exact HB.
    + apply no_pattern.
    + congruence.
    + congruence.
    + intros _ [f [Hf _]]. congruence.
  - inversion HM as [|? ? HP3 HM']; subst. inversion HLen as [|? ? M1 HLen']; subst.
    destruct (IH AT_MIDDLE (left ++ first) w2 last HP3 HM' (ex_intro _ e2 HP2) HLen' HBs) as (w & e & ps & HC & EL).
    exists first, e1, ((w, e) :: ps). split; [|cbn [length]; unfold str in *; lia]. cbn [concat]. rewrite <- app_assoc.
    set (r := w2 ++ concat ms ++ last) in *.
    eapply Compound_more with
      (Q := fun e2 => ~ PatternAt A (left ++ first) r e1 e2)
      (R := fun e2 => forall s, r = cr_stem e2 ++ s -> ~ Similar A entry (first ++ cr_stem e2)); eauto.
    + apply Join_plain; auto.
      * inversion HLen' as [|? ? M2 _]; subst. unfold r. rewrite app_length. lia.
      * specialize (HB ltac:(discriminate)). change ((w2 :: ms) ++ [last]) with (w2 :: ms ++ [last]) in HB.
        cbn [concat] in HB. rewrite concat_snoc in HB. exact HB.
    + apply no_pattern.
    + congruence.
Qed.

Theorem plain_compound_of_iff : forall fu n word,
  (exists parts, Compound U A entry fu AT_BEGIN [] word parts /\ length parts = n) <-> PlainCompoundOf n word.
Proof.
  intros fu n word. split.
  - intros [parts [H <-]]. exact (compound_plain H).
  - intros (f & ms & l & -> & -> & H1 & H2 & H3 & H4 & H5).
    destruct (@plain_compound fu ms AT_BEGIN [] f l H1 H2 H3 H4 H5) as (w & e & ps & HC & EL).
    exists ((w, e) :: ps). split; [exact HC|]. cbn [length]. unfold str in *. lia.
Qed.

Theorem plain_compound_iff : forall fu word,
  (exists parts, Compound U A entry fu AT_BEGIN [] word parts) <-> PlainCompound word.
Proof.
  intros fu word. split.
  - intros [parts H]. exists (length parts). apply (plain_compound_of_iff fu). eauto.
  - intros [n H]. apply (plain_compound_of_iff fu) in H. destruct H as [parts [H _]]. eauto.
Qed.
End Plain.
