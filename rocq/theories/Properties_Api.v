(** Property C56: the options of [Checker] and [Suggester], for every chain of builder calls. *)
From Coq Require Import String Ascii List NArith ZArith Lia Bool Arith Permutation.
From Verif Require Import Base Utf8 Unicode Flags Bag Condition Affix Conversion Aff Checker AffixSpec CompoundRule Rep CompoundSpec
  CompoundTotal RuleCompound Spell CheckSpec CheckMono CheckProps Parser ParserSafe Lib LibSpec LibProps BufferOps Ngram Suggester
  SuggestSpec SuggestLow SuggestMono LibSuggest Api Examples Properties_Affix Properties_Compound Properties_Check Properties_Suggest.
Import ListNotations.
Local Open Scope string_scope.
Local Open Scope list_scope.
Set Implicit Arguments.

(** ** Specification *)

(** The value an option has after a chain of calls: that of the last call that sets it, or the
    given default. *)
Inductive LastSet (sets : builder -> option bool) (default : bool) (l : list builder) : bool -> Prop :=
| LastSet_call : forall a c b v, l = a ++ c :: b -> sets c = Some v -> (forall x, In x b -> sets x = None) -> LastSet sets default l v
| LastSet_default : (forall x, In x l -> sets x = None) -> LastSet sets default l default.
Definition sets_title (c : builder) : option bool := match c with LowerAsTitle b => Some b | _ => None end.
Definition sets_upper (c : builder) : option bool := match c with LowerAsUpper b => Some b | _ => None end.
(** A new [Suggester] has n-gram suggestions on. *)
Definition sets_ngram (c : builder) : option bool := match c with WithNgrams b => Some b | IntoSuggester => Some true | _ => None end.

(** ** Proofs *)
Lemma last_snoc : forall sets default l c v, LastSet sets default l v ->
  LastSet sets default (l ++ [c]) (match sets c with Some b => b | None => v end).
Proof.
  intros sets default l c v H. destruct (sets c) as [b|] eqn:E.
  - eapply LastSet_call with (b := []); [reflexivity|exact E|intros x []].
  - destruct H as [a c' b v -> E' N|N].
    + eapply LastSet_call; [rewrite <- app_assoc; reflexivity|exact E'|].
      intros x I. apply in_app_or in I. destruct I as [I|[<-|[]]]; auto.
    + apply LastSet_default. intros x I. apply in_app_or in I. destruct I as [I|[<-|[]]]; auto.
Qed.
Lemma last_nil : forall sets default, LastSet sets default [] default.
Proof. intros. apply LastSet_default. intros x []. Qed.
Lemma last_det : forall sets default l a b, LastSet sets default l a -> LastSet sets default l b -> a = b.
Proof.
  intros sets default l a b H1 H2.
  destruct H1 as [x c y v -> E N|N]; destruct H2 as [x' c' y' v' E' F M|M]; try reflexivity.
  - revert x' E'. induction x as [|e x IH]; intros [|e' x'] Q; cbn [app] in Q; injection Q as <- Q.
    + congruence.
    + subst y. exfalso. assert (In c' (x' ++ c' :: y')) as I by (apply in_or_app; right; left; reflexivity). apply N in I. congruence.
    + subst y'. exfalso. assert (In c (x ++ c :: y)) as I by (apply in_or_app; right; left; reflexivity). apply M in I. congruence.
    + exact (IH _ Q).
  - exfalso. assert (In c (x ++ c :: y)) as I by (apply in_or_app; right; left; reflexivity). apply M in I. congruence.
  - exfalso. subst l. assert (In c' (x' ++ c' :: y')) as I by (apply in_or_app; right; left; reflexivity). apply N in I. congruence.
Qed.

Section Options.
Variable pl : platform.
Variable rn : runtime.
Variable d : dictionary.
Notation start := (Checking (dict_checker pl d)).

Lemma build_app : forall l m h, build_all rn d h (l ++ m) =
  match build_all rn d h l with Some h' => build_all rn d h' m | None => None end.
Proof. induction l as [|c l IH]; intros m h; cbn [app build_all]; [reflexivity|]. destruct (build rn d h c); auto. Qed.
Lemma build_shape : forall l h, build_all rn d start l = Some h ->
  exists t u n, LastSet sets_title false l t /\ LastSet sets_upper false l u /\ LastSet sets_ngram true l n /\
    match h with
    | Checking k => k = checker_of pl d t u
    | Suggesting s => s = suggester_of pl rn d t u n
    end.
Proof.
  induction l as [|c l IH] using rev_ind; intros h H.
  - injection H as <-. exists false, false, true. repeat split; try apply last_nil.
  - rewrite build_app in H. destruct (build_all rn d start l) as [h0|] eqn:E; [|discriminate].
    destruct (IH h0 eq_refl) as (t & u & n & T & X & G & S0). cbn [build_all] in H.
    destruct (build rn d h0 c) as [h1|] eqn:B; [|discriminate]. injection H as <-.
    exists (match sets_title c with Some b => b | None => t end), (match sets_upper c with Some b => b | None => u end),
      (match sets_ngram c with Some b => b | None => n end).
    split; [apply last_snoc; exact T|]. split; [apply last_snoc; exact X|]. split; [apply last_snoc; exact G|].
    destruct h0 as [k|s]; subst; destruct c; cbn [build] in B; try discriminate; injection B as <-; reflexivity.
Qed.

(** Whatever builder calls led to a [Checker], in whatever order and with whatever detours, it
    answers as a checker with the options last set; an option never set is off. *)
Theorem C56_checker : forall l k, build_all rn d start l = Some (Checking k) ->
  exists t u, LastSet sets_title false l t /\ LastSet sets_upper false l u /\
    forall w r, Eventually (fun fuel => check k fuel w) r <-> answers pl d t u w r.
Proof.
  intros l k H. destruct (build_shape l H) as (t & u & n & T & X & _ & ->).
  exists t, u. split; [exact T|]. split; [exact X|]. intros w r. reflexivity.
Qed.
(** Likewise for a [Suggester]: the options of the checker are kept, and n-gram suggestions are
    on unless switched off since the last [into_suggester]. *)
Theorem C56_suggester : forall l s, build_all rn d start l = Some (Suggesting s) ->
  exists t u n, LastSet sets_title false l t /\ LastSet sets_upper false l u /\ LastSet sets_ngram true l n /\
    forall w out r, Eventually (fun fuel => suggest s fuel w out) (Ret r) <-> suggests_into pl rn d t u n w out r.
Proof.
  intros l s H. destruct (build_shape l H) as (t & u & n & T & X & G & ->).
  exists t, u, n. split; [exact T|]. split; [exact X|]. split; [exact G|]. intros w out r. reflexivity.
Qed.
(** [Dictionary::check] and [Dictionary::suggest] are the checker and the suggester that no
    builder call touched. *)
Theorem C56_check : forall w r, Eventually (fun fuel => dict_check pl d fuel w) r <->
  forall l k, build_all rn d start l = Some (Checking k) -> LastSet sets_title false l false -> LastSet sets_upper false l false ->
    Eventually (fun fuel => check k fuel w) r.
Proof.
  intros w r. split.
  - intros H l k B T X. destruct (C56_checker l B) as (t & u & T' & X' & E). apply E.
    rewrite (last_det T' T), (last_det X' X). exact H.
  - intros H. exact (H [] _ eq_refl (last_nil _ _) (last_nil _ _)).
Qed.
Theorem C56_suggest : forall w out r, Eventually (fun fuel => dict_suggest pl rn d fuel w out) (Ret r) <->
  forall l s, build_all rn d start l = Some (Suggesting s) -> LastSet sets_title false l false -> LastSet sets_upper false l false ->
    LastSet sets_ngram true l true -> Eventually (fun fuel => suggest s fuel w out) (Ret r).
Proof.
  intros w out r. split.
  - intros H l s B T X G. destruct (C56_suggester l B) as (t & u & n & T' & X' & G' & E). apply E.
    rewrite (last_det T' T), (last_det X' X), (last_det G' G). unfold dict_suggest in H. unfold suggests_into.
    revert H. generalize suggest. intros f H. exact H.
  - intros H. refine (H [IntoSuggester] _ eq_refl _ _ _).
    + apply LastSet_default. intros x [<-|[]]; reflexivity.
    + apply LastSet_default. intros x [<-|[]]; reflexivity.
    + eapply LastSet_call with (a := []) (b := []); [reflexivity|reflexivity|intros x []].
Qed.

(** The options concern words without capitals and words in mixed case only: a word in title
    case or in capitals that is not broken up gets the same answer from every checker, and the
    first option does not touch a mixed-case word that begins with a capital either. *)
Theorem C56_capitalised_words : forall w t u r, ordinary (checker_of pl d t u) w -> Unbreakable (checker_of pl d t u) w ->
  classify_casing (pl_unicode pl) w = CInit \/ classify_casing (pl_unicode pl) w = CAll ->
  (answers pl d t u w r <-> answers pl d false false w r).
Proof.
  intros w t u r HO HU HC. unfold answers, Eventually.
  assert (E : forall fuel, check (checker_of pl d t u) fuel w = check (checker_of pl d false false) fuel w).
  { intros fuel. rewrite (@unbreakable_check pl d t u w fuel HO HU).
    assert (HO' : ordinary (checker_of pl d false false) w) by (destruct HO; constructor; assumption).
    rewrite (@unbreakable_check pl d false false w fuel HO' HU).
    assert (X : spell_casing (off (checker_of pl d t u)) fuel w = spell_casing (checker_of pl d t u) fuel w).
    { unfold spell_casing. cbn [ck_u off]. change (ck_u (checker_of pl d t u)) with (pl_unicode pl).
      destruct HC as [-> | ->]; [rewrite spell_casing_title_off|rewrite spell_casing_upper_off]; reflexivity. }
    unfold off in X. cbn [checker_of ck_u ck_overflow_checks ck_aff ck_get] in X. unfold checker_of at 3. rewrite X. reflexivity. }
  split; intros [n H]; exists n; intros m L; [rewrite <- E|rewrite E]; auto.
Qed.
End Options.

(** ** Examples *)
Definition opt_aff : str := lit "SET UTF-8
TRY abcdefghijklmnopqrstuvwxyz
".
Definition opt_dic : str := lit "2
Alice
NASA
".
Definition opt_dict : dictionary := Eval vm_compute in (the (built ex_pl opt_aff opt_dic) <: dictionary).
Notation opt_chain := [LowerAsUpper true; LowerAsTitle true; IntoSuggester; WithNgrams true; IntoChecker; LowerAsUpper false].
Example C56_example : Reachable ex_pl opt_dict /\
  (exists k, build_all ex_rn opt_dict (Checking (dict_checker ex_pl opt_dict)) opt_chain = Some (Checking k) /\
     LastSet sets_title false opt_chain true /\ LastSet sets_upper false opt_chain false /\
     Eventually (fun fuel => check k fuel (lit "alice")) (Ret true) /\ Eventually (fun fuel => check k fuel (lit "nasa")) (Ret false)) /\
  answers ex_pl opt_dict false false (lit "alice") (Ret false) /\ answers ex_pl opt_dict false true (lit "nasa") (Ret true) /\
  ordinary (checker_of ex_pl opt_dict true true) (lit "ALICE") /\ Unbreakable (checker_of ex_pl opt_dict true true) (lit "ALICE") /\
  Eventually (fun fuel => dict_suggest ex_pl ex_rn opt_dict fuel (lit "Alicee") [lit "x"]) (Ret [lit "Alice"]).
Proof.
  split; [ex_dict opt_aff opt_dic|]. split.
  { eexists. split; [reflexivity|]. split.
    { eapply LastSet_call with (a := [LowerAsUpper true]); [reflexivity|reflexivity|]. cbn [In]. intuition (subst; reflexivity). }
    split. { eapply LastSet_call with (b := []); [exact (eq_refl ([_; _; _; _; _] ++ [_]))|reflexivity|]. intros x []. }
    change (Eventually (fun fuel => check (checker_of ex_pl opt_dict true false) fuel (lit "alice")) (Ret true) /\
            Eventually (fun fuel => check (checker_of ex_pl opt_dict true false) fuel (lit "nasa")) (Ret false)).
    split; settle 50. }
  split; [settle 50|]. split; [settle 50|]. split; [apply ordinary_dec; reflexivity|]. split; [apply unbreakable_dec; reflexivity|].
  exact (ltac:(propose 50) : suggests_into ex_pl ex_rn opt_dict false false true (lit "Alicee") [lit "x"] [lit "Alice"]).
Qed.

Print Assumptions C56_checker.
Print Assumptions C56_suggester.
Print Assumptions C56_check.
Print Assumptions C56_suggest.
Print Assumptions C56_capitalised_words.
