(** Properties C10, C11 and C12: words derived from a stem by one, two or three affixes.
    [OneAffix], [PrefixSuffix], [TwoAffixes], [OuterAndTwo] and [Sandwich] (AffixSpec.v)
    say, in terms of the rules and the entries alone, that a word is such a derivation. *)
From Coq Require Import String Ascii List NArith ZArith Lia Bool Arith Permutation.
From Verif Require Import Base Utf8 Unicode Flags Condition Affix Aff Checker AffixSpec CompoundSpec CompoundTotal Spell CheckSpec CheckMono CheckProps
  Parser Lib LibSpec LibProps Examples.
Import ListNotations.
Local Open Scope string_scope.
Local Open Scope list_scope.
Local Open Scope nat_scope.
Set Implicit Arguments.

(** The entries of a dictionary. *)
Definition listed (d : dictionary) (stem : str) (flags : flagset) : Prop := In (stem, flags) (d_words d).

Section Same.
Variable A : affdata.
Variables e1 e2 : str -> flagset -> Prop.
Hypothesis E : forall s f, e1 s f -> e2 s f.
Lemma DirectWord_mono : forall hh w f, DirectWord A e1 hh w f -> DirectWord A e2 hh w f.
Proof. unfold DirectWord. intros. intuition. Qed.
Lemma OneAffix_mono : forall kd m hh w a s f, OneAffix A e1 kd m hh w a s f -> OneAffix A e2 kd m hh w a s f.
Proof. unfold OneAffix. intros. intuition. Qed.
Lemma PrefixSuffix_mono : forall m hh w p s st f, PrefixSuffix A e1 m hh w p s st f -> PrefixSuffix A e2 m hh w p s st f.
Proof. unfold PrefixSuffix. intros m hh w p s st f H. decompose [and] H. clear H. repeat (split; [auto; fail|]). auto. Qed.
Lemma TwoAffixes_mono : forall kd hh w o i s f, TwoAffixes A e1 kd hh w o i s f -> TwoAffixes A e2 kd hh w o i s f.
Proof. unfold TwoAffixes. intros. intuition. Qed.
Lemma OuterAndTwo_mono : forall kd hh w x o i s f, OuterAndTwo A e1 kd hh w x o i s f -> OuterAndTwo A e2 kd hh w x o i s f.
Proof. unfold OuterAndTwo. intros kd hh w x o i s f H. decompose [and] H. clear H. repeat (split; [auto; fail|]). auto. Qed.
Lemma Sandwich_mono : forall cf kd hh w x o i s f, Sandwich A e1 cf kd hh w x o i s f -> Sandwich A e2 cf kd hh w x o i s f.
Proof. unfold Sandwich. intros cf kd hh w x o i s f H. decompose [and] H. clear H. repeat (split; [auto; fail|]). auto. Qed.
End Same.

(** A word that may be used without hidden homonyms may be used with them. *)
Lemma simple_hh : forall A e w f, SimpleWord A e SkipHiddenHomonym w f -> SimpleWord A e AcceptHiddenHomonym w f.
Proof.
  intros A e w f. assert (U : forall m fs, usable_entry A m SkipHiddenHomonym fs -> usable_entry A m AcceptHiddenHomonym fs).
  { unfold usable_entry. intros m fs [H _]. split; [exact H|discriminate]. }
  unfold SimpleWord, DirectWord, OneAffix, PrefixSuffix, TwoAffixes, OuterAndTwo, Sandwich.
  intros [H|[(kd & a & st & H)|[(p & s & st & H)|[(C & [(o & i & st & H)|[(x & o & i & st & H)|(x & o & i & st & H)]])|
    (C & [(o & i & st & H)|[(x & o & i & st & H & HS)|(x & o & i & st & H)]])]]]].
  - left. decompose [and] H. clear H. repeat (split; [auto; fail|]). auto.
  - right. left. exists kd, a, st. decompose [and] H. clear H. repeat (split; [auto; fail|]). auto.
  - right. right. left. exists p, s, st. decompose [and] H. clear H. repeat (split; [auto; fail|]). auto.
  - right. right. right. left. split; [exact C|]. left. exists o, i, st. decompose [and] H. clear H. repeat (split; [auto; fail|]). auto.
  - right. right. right. left. split; [exact C|]. right. left. exists x, o, i, st. decompose [and] H. clear H. repeat (split; [auto; fail|]). auto.
  - right. right. right. left. split; [exact C|]. right. right. exists x, o, i, st. decompose [and] H. clear H. repeat (split; [auto; fail|]). auto.
  - right. right. right. right. split; [exact C|]. left. exists o, i, st. decompose [and] H. clear H. repeat (split; [auto; fail|]). auto.
  - right. right. right. right. split; [exact C|]. right. left. exists x, o, i, st. split; [|exact HS].
    decompose [and] H. clear H. repeat (split; [auto; fail|]). auto.
  - right. right. right. right. split; [exact C|]. right. right. exists x, o, i, st. decompose [and] H. clear H. repeat (split; [auto; fail|]). auto.
Qed.

Section Affixes.
Variable pl : platform.
Hypothesis WP : wf_platform pl.
Variable d : dictionary.
Hypothesis R : Reachable pl d.
Variables lt lu : bool.
Notation k := (checker_of pl d lt lu).

Lemma wfk : wf_checker k.
Proof. apply dict_wf_checker; [exact WP|exact (reachable_ok WP R)]. Qed.
Lemma get_listed : forall s f, In f (ck_get k s) -> listed d s f.
Proof. intros s f H. rewrite (entries_get WP) in H. apply entries_In, H. Qed.
Lemma listed_get : forall s f, listed d s f -> In f (ck_get k s).
Proof. intros s f H. rewrite (entries_get WP). apply entries_In, H. Qed.

(** ** C10 *)
Theorem C10_single_affix_iff : forall kd m hh w, scalars w ->
  ((exists form, one_affix k kd m w hh = Some form) <->
   (exists a stem flags, OneAffix (d_aff d) (listed d) kd m hh w a stem flags)).
Proof.
  intros kd m hh w Hw. rewrite (one_affix_iff wfk kd m hh Hw). split; intros [a [s [f H]]]; exists a, s, f;
  (eapply OneAffix_mono; [|exact H]); [exact get_listed|exact listed_get].
Qed.

(** ** C11 *)
Theorem C11_prefix_and_suffix_iff : forall m hh w, scalars w ->
  ((exists form, strip_prefix_then_suffix_commutative k m w hh = Some form) <->
   (exists p s stem flags, PrefixSuffix (d_aff d) (listed d) m hh w p s stem flags)).
Proof.
  intros m hh w Hw. split.
  - intros [form H]. destruct (commutative_sound wfk _ _ Hw H) as [p [s [st [f [_ P]]]]]. exists p, s, st, f.
    eapply PrefixSuffix_mono; [exact get_listed|exact P].
  - intros [p [s [st [f P]]]]. eapply (commutative_complete wfk Hw). eapply PrefixSuffix_mono; [exact listed_get|exact P].
Qed.

Theorem C11_two_of_a_kind_iff : forall kd hh w, scalars w ->
  ((exists form, two_affixes k kd w hh = Some form) <->
   (exists o i stem flags, TwoAffixes (d_aff d) (listed d) kd hh w o i stem flags)).
Proof.
  intros kd hh w Hw. split.
  - intros [form H]. destruct (two_affixes_sound wfk kd hh Hw H) as [o [i [st [f [_ P]]]]]. exists o, i, st, f.
    eapply TwoAffixes_mono; [exact get_listed|exact P].
  - intros [o [i [st [f P]]]]. eapply (two_affixes_complete wfk Hw). eapply TwoAffixes_mono; [exact listed_get|exact P].
Qed.

Theorem C11_prefix_and_two_suffixes_iff : forall hh w, scalars w ->
  ((exists form, strip_prefix_then_2_suffixes k w hh = Some form) <->
   (exists p o i stem flags, OuterAndTwo (d_aff d) (listed d) Pfx hh w p o i stem flags)).
Proof.
  intros hh w Hw. rewrite (prefix_2_suffixes_iff wfk hh Hw). split; intros [x [o [i [s [f H]]]]]; exists x, o, i, s, f;
  (eapply OuterAndTwo_mono; [|exact H]); [exact get_listed|exact listed_get].
Qed.

(** ** C12.  In the code the condition of the affix of the other kind is tested on the form
    before that affix is removed, and the route with two prefixes and a suffix is skipped
    unless some suffix rule carries the flag of the outer prefix.  These are the exact
    statements for the code as it is; the full claim fails, see below. *)
Theorem C12_interleaved : forall kd hh w, scalars w ->
  ((exists form, sandwich k kd w hh = Some form) <->
   (exists x o i stem flags, Sandwich (d_aff d) (listed d) on_outer kd hh w x o i stem flags)).
Proof.
  intros kd hh w Hw. split.
  - intros [form H]. destruct (sandwich_sound wfk kd hh Hw H) as [x [o [i [st [f [_ P]]]]]]. exists x, o, i, st, f.
    eapply Sandwich_mono; [exact get_listed|exact P].
  - intros [x [o [i [st [f P]]]]]. eapply (sandwich_complete wfk Hw). eapply Sandwich_mono; [exact listed_get|exact P].
Qed.

(** With unconditional rules of the other kind the claim holds as stated. *)
Theorem C12_interleaved_unconditional : forall kd hh w, scalars w ->
  (forall x, In x (rules (d_aff d) (other kd)) -> a_cond x = None) ->
  ((exists form, sandwich k kd w hh = Some form) <->
   (exists x o i stem flags, Sandwich (d_aff d) (listed d) on_inner kd hh w x o i stem flags)).
Proof.
  intros kd hh w Hw HC. rewrite (C12_interleaved kd hh Hw).
  assert (F : forall x s, In x (rules (d_aff d) (other kd)) -> fits (other kd) x s).
  { intros x s Hx. unfold fits. rewrite (HC x Hx). exact I. }
  split; intros [x [o [i [st [f P]]]]]; exists x, o, i, st, f; unfold Sandwich in *; decompose [and] P; clear P;
    repeat (split; [assumption|]);
    match goal with H : exists mid1 mid2, _ |- _ => destruct H as [m1 [m2 [D1 [D2 [D3 D4]]]]] end;
    (split; [exists m1, m2; split; [exact D1|]; split; [exact D2|]; split; [apply F; assumption|exact D4]|]);
    repeat (split; [assumption|]); assumption.
Qed.

Theorem C12_suffix_and_two_prefixes : forall hh w, scalars w ->
  ((exists form, strip_suffix_then_2_prefixes k w hh = Some form) <->
   (exists x o i stem flags, OuterAndTwo (d_aff d) (listed d) Sfx hh w x o i stem flags /\
      exists s, In s (rules (d_aff d) Sfx) /\ In (a_flag o) (a_flags s))).
Proof.
  intros hh w Hw. split.
  - intros [form H]. destruct (@outer_and_two_sound k wfk Sfx w hh form Hw H) as [x [o [i [s [f [_ [P Q]]]]]]].
    exists x, o, i, s, f. split; [|exact Q]. eapply OuterAndTwo_mono; [exact get_listed|exact P].
  - intros [x [o [i [s [f [P Q]]]]]]. apply (@outer_and_two_complete k wfk Sfx w hh x o i s f Hw); [|exact Q].
    eapply OuterAndTwo_mono; [exact listed_get|exact P].
Qed.
End Affixes.

Section Accepted.
Variable pl : platform.
Hypothesis WP : wf_platform pl.
Variable d : dictionary.
Hypothesis R : Reachable pl d.
Notation k := (checker_of pl d false false).

(** ** C10-C12 at the interface: a derived word is accepted by [check] when no entry is
    forbidden, and without compounding a word that cannot be broken is accepted only if a
    casing of it is listed or derived. *)
Theorem C11_derived_words_are_accepted : forall w flags,
  Shrinks (d_aff d) -> strict k = true -> scalars w -> ordinary k w ->
  (forall stem f, listed d stem f -> ~ Blocked k f) ->
  SimpleWord (d_aff d) (listed d) SkipHiddenHomonym w flags ->
  Eventually (fun fuel => dict_check pl d fuel w) (Ret true).
Proof.
  intros w flags SH ST Hw Ho Hb Hs.
  pose proof (@dict_wf_full pl WP d (reachable_ok WP R) false false SH) as WF.
  assert (HS : forall hh, SimpleWord (ck_aff k) (fun s f => In f (ck_get k s)) hh w flags).
  { intro hh. eapply simple_mono; [exact (@listed_get pl WP d false false)|]. destruct hh; [apply simple_hh|]; exact Hs. }
  destruct (@plan_self k (conj eq_refl eq_refl) w) as [fu [hh [rest Ep]]].
  destruct (@own_exists k WF (conj eq_refl eq_refl) ST w (mkAttempt w fu hh anything) flags Hw) as [f' Hf'].
  - rewrite Ep. left. reflexivity.
  - exact (HS hh).
  - reflexivity.
  - eapply (@no_blocked_accepts k WF); try eassumption; try (split; reflexivity).
    intros stem f Hf. apply (Hb stem f). exact (@get_listed pl WP d false false _ _ Hf).
Qed.

Theorem C11_accepted_words_are_derived : forall w,
  Shrinks (d_aff d) -> strict k = true ->
  allows_compounding (ad_options (d_aff d)) = false -> CompoundRule.rt_rules (ad_rules (d_aff d)) = [] ->
  scalars w -> ordinary k w -> Unbreakable k w ->
  Eventually (fun fuel => dict_check pl d fuel w) (Ret true) ->
  exists v flags, CaseVariant (pl_unicode pl) (o_case (ad_options (d_aff d))) (o_checksharps (ad_options (d_aff d))) w v /\
    SimpleWord (d_aff d) (listed d) AcceptHiddenHomonym v flags /\ ~ Blocked k flags.
Proof.
  intros w SH ST NC NR Hw Ho Hu Hy.
  pose proof (@dict_wf_full pl WP d (reachable_ok WP R) false false SH) as WF.
  assert (PC : ck_lower_as_title k = false /\ ck_lower_as_upper k = false) by (split; reflexivity).
  destruct (@ordinary_decides k WF PC ST w Hw Ho) as [b [Hb1 Hb2]].
  assert (b = true) as -> by (pose proof (eventually_det Hb1 Hy) as X; injection X as ->; reflexivity).
  destruct (unbreakable_own Hu (proj1 Hb2 eq_refl)) as [f [HOwn HA]].
  destruct (own_found WF PC ST Hw HOwn) as (a & Ha & HFo & _).
  exists (at_word a), f. split; [|split].
  - refine (@spelling_variant k w (at_word a) PC _ _); [|exists a; split; [exact Ha|reflexivity]].
    destruct Ho; assumption.
  - assert (SimpleWord (d_aff d) (fun s f => In f (ck_get k s)) (at_hh a) (at_word a) f) as HS.
    { destruct HFo as [HS|[[HS _]|[HS _]]]; [exact HS| |]; cbn [ck_aff checker_of] in HS; congruence. }
    eapply simple_mono; [exact (@get_listed pl WP d false false)|]. destruct (at_hh a); [exact HS|apply simple_hh; exact HS].
  - apply (@accepted_spec k f); [|exact HA].
    exact (found_wf WF HFo).
Qed.
End Accepted.

(** ** Concrete cases *)
Example C10_example :
  (exists a stem flags, OneAffix (d_aff en) (listed en) Sfx FULL_WORD SkipHiddenHomonym (lit "tries") a stem flags) /\
  (exists a stem flags, OneAffix (d_aff en) (listed en) Pfx FULL_WORD SkipHiddenHomonym (lit "unlock") a stem flags) /\
  ~ (exists a stem flags, OneAffix (d_aff en) (listed en) Sfx FULL_WORD SkipHiddenHomonym (lit "trys") a stem flags).
Proof.
  split; [|split].
  - apply (C10_single_affix_iff ex_pl_wf en_reachable false false); [apply lit_scalars; reflexivity|].
    eexists. vm_compute. reflexivity.
  - apply (C10_single_affix_iff ex_pl_wf en_reachable false false); [apply lit_scalars; reflexivity|].
    eexists. vm_compute. reflexivity.
  - intro H. apply (C10_single_affix_iff ex_pl_wf en_reachable false false) in H; [|apply lit_scalars; reflexivity].
    destruct H as [form H]. vm_compute in H. discriminate.
Qed.

Example C11_example :
  (exists p s stem flags, PrefixSuffix (d_aff en) (listed en) FULL_WORD SkipHiddenHomonym (lit "unlocks") p s stem flags) /\
  (exists o i stem flags, TwoAffixes (d_aff en) (listed en) Sfx SkipHiddenHomonym (lit "lockeds") o i stem flags) /\
  (exists p o i stem flags, OuterAndTwo (d_aff en) (listed en) Pfx SkipHiddenHomonym (lit "unlockeds") p o i stem flags).
Proof.
  split; [|split].
  - apply (C11_prefix_and_suffix_iff ex_pl_wf en_reachable false false); [apply lit_scalars; reflexivity|].
    eexists. vm_compute. reflexivity.
  - apply (C11_two_of_a_kind_iff ex_pl_wf en_reachable false false); [apply lit_scalars; reflexivity|].
    eexists. vm_compute. reflexivity.
  - apply (C11_prefix_and_two_suffixes_iff ex_pl_wf en_reachable false false); [apply lit_scalars; reflexivity|].
    eexists. vm_compute. reflexivity.
Qed.

(** A dictionary with a prefix flag on an inner suffix. *)
Definition unlock_aff (cond : string) : str := lit ("PFX P Y 1
PFX P 0 un " ++ cond ++ "
SFX I Y 1
SFX I 0 er/OP .
SFX O Y 1
SFX O 0 s .
").
Definition unlock_dic : str := lit "1
lock/I
".
Definition unl : dictionary := Eval vm_compute in (the (built ex_pl (unlock_aff "l") unlock_dic) <: dictionary).
Definition unu : dictionary := Eval vm_compute in (the (built ex_pl (unlock_aff "u") unlock_dic) <: dictionary).
Definition una : dictionary := Eval vm_compute in (the (built ex_pl (unlock_aff ".") unlock_dic) <: dictionary).
Lemma unl_reachable : Reachable ex_pl unl. Proof. ex_dict (unlock_aff "l") unlock_dic. Qed.
Lemma unu_reachable : Reachable ex_pl unu. Proof. ex_dict (unlock_aff "u") unlock_dic. Qed.
Lemma una_reachable : Reachable ex_pl una. Proof. ex_dict (unlock_aff ".") unlock_dic. Qed.

Example C12_example :
  (exists x o i stem flags, Sandwich (d_aff una) (listed una) on_inner Sfx SkipHiddenHomonym (lit "unlockers") x o i stem flags) /\
  Eventually (fun fuel => dict_check ex_pl una fuel (lit "unlockers")) (Ret true).
Proof.
  split; [|settle 50].
  apply (C12_interleaved_unconditional ex_pl_wf una_reachable false false).
  - apply lit_scalars; reflexivity.
  - intros x [<-|[]]. reflexivity.
  - eexists. vm_compute. reflexivity.
Qed.

Definition rule (A : affdata) (kd : kind) (n : nat) : affix :=
  nth n (rules A kd) (mkAffix 0%N false None [] None []).
Ltac concrete := repeat match goal with
  | |- _ /\ _ => split
  | |- ~ marked _ _ => vm_compute; (intros [? [? _]]; discriminate) || (intros [? [? ?]]; intuition congruence)
  | |- ~ needs_affix _ _ => unfold needs_affix
  | |- ~ circumfix _ _ => unfold circumfix
  | |- circumfix _ _ <-> circumfix _ _ => vm_compute; split; (intros [? [? _]]; discriminate)
  | |- allowed _ _ _ _ => unfold allowed
  | |- usable_entry _ _ _ _ => unfold usable_entry
  | |- _ -> _ => intro
  | H : _ = _ |- _ => discriminate H
  | H : ?x <> ?x |- _ => contradiction H; reflexivity
  | |- ~ _ => vm_compute; intuition discriminate
  | |- _ = _ => vm_compute; reflexivity
  | |- In _ _ => vm_compute; tauto
  | |- True => exact I
  | |- _ => progress (vm_compute; intuition discriminate)
  end.

(** The full claim fails in both directions.  With the condition [l] (the prefix may only
    be put before a word in l) "unlockers" is derivable but rejected. *)
Theorem C12_condition_of_middle_affix_refuted :
  (exists x o i stem flags, Sandwich (d_aff unl) (listed unl) on_inner Sfx SkipHiddenHomonym (lit "unlockers") x o i stem flags) /\
  Eventually (fun fuel => dict_check ex_pl unl fuel (lit "unlockers")) (Ret false).
Proof.
  split; [|settle 50].
  exists (rule (d_aff unl) Pfx 0), (rule (d_aff unl) Sfx 1), (rule (d_aff unl) Sfx 0), (lit "lock"), [73%N].
  unfold Sandwich.
  repeat match goal with |- _ /\ _ => split end; try (concrete; fail).
  { left. concrete. }
  exists (lit "unlocker"), (lit "locker"). split; [|split; [|split]].
  - split; [exists (lit "unlocker"); split; reflexivity|exact I].
  - exists (lit "locker"); split; reflexivity.
  - exists [CLit 108%N]. split; [split; [|reflexivity]|].
    + repeat constructor; discriminate.
    + exists (lit "l"), (lit "ocker"). split; [reflexivity|]. repeat constructor.
  - split; [exists (lit "lock"); split; reflexivity|exact I].
Qed.

(** With the condition [u] no derivation exists but "unlockers" is accepted. *)
Theorem C12_condition_of_middle_affix_unsound_refuted :
  ~ (exists x o i stem flags, Sandwich (d_aff unu) (listed unu) on_inner Sfx AcceptHiddenHomonym (lit "unlockers") x o i stem flags) /\
  Eventually (fun fuel => dict_check ex_pl unu fuel (lit "unlockers")) (Ret true).
Proof.
  split; [|settle 50].
  intros (x & o & i & stem & flags & H). unfold Sandwich in H.
  destruct H as (Hx & Ho & Hi & _ & _ & _ & _ & _ & _ & _ & _ & (m1 & m2 & _ & _ & HF & [HD _]) & _ & _ & _ & HE & _).
  destruct HE as [HE|[]]. injection HE as <- <-.
  destruct Hx as [<-|[]].
  assert (exists r, m2 = lit "lock" ++ r) as [r ->].
  { destruct HD as [r [E1 E2]]. assert (strip_text i = []) as Es by (destruct Hi as [<-|[<-|[]]]; reflexivity).
    rewrite Es, app_nil_r in E1. subst r m2. eauto. }
  unfold on_inner, fits in HF. cbn in HF. destruct HF as (es & [Hok Hc] & (u & v & E & F)).
  injection Hc as E1 E2 _. destruct es as [|e [|e2 es]]; try discriminate. inversion F; subst. inversion H3; subst.
  cbn in E. injection E as <- _. destruct e as [|c|neg cs]; cbn in *; try discriminate; try congruence.
Qed.

(** The route with two prefixes and a suffix misses derivations when no suffix rule
    carries the flag of the outer prefix. *)
Definition relock_aff : str := lit "COMPLEXPREFIXES
PFX I N 1
PFX I 0 re/O .
PFX O Y 1
PFX O 0 un .
SFX S Y 1
SFX S 0 s .
".
Definition relock_dic : str := lit "1
lock/IS
".
Definition relock : dictionary := Eval vm_compute in (the (built ex_pl relock_aff relock_dic) <: dictionary).
Lemma relock_reachable : Reachable ex_pl relock. Proof. ex_dict relock_aff relock_dic. Qed.

Theorem C12_two_prefixes_refuted :
  (exists x o i stem flags, OuterAndTwo (d_aff relock) (listed relock) Sfx SkipHiddenHomonym (lit "unrelocks") x o i stem flags) /\
  Eventually (fun fuel => dict_check ex_pl relock fuel (lit "unrelocks")) (Ret false).
Proof.
  split; [|settle 50].
  exists (rule (d_aff relock) Sfx 0), (rule (d_aff relock) Pfx 1), (rule (d_aff relock) Pfx 0), (lit "lock"), [73%N; 83%N].
  unfold OuterAndTwo.
  repeat match goal with |- _ /\ _ => split end; try (concrete; fail).
  exists (lit "unrelock"), (lit "relock").
  split; [split; [exists (lit "unrelock"); split; reflexivity|exact I]|].
  split; [split; [exists (lit "relock"); split; reflexivity|exact I]|].
  split; [exists (lit "lock"); split; reflexivity|exact I].
Qed.

(** Hypotheses of the interface theorems are met by a dictionary without forbidden words. *)
Definition plain_aff : str := lit "PFX U Y 1
PFX U 0 un .
SFX S Y 1
SFX S 0 s .
".
Definition plain_dic : str := lit "2
lock/SU
door/S
".
Definition plain : dictionary := Eval vm_compute in (the (built ex_pl plain_aff plain_dic) <: dictionary).
Lemma plain_reachable : Reachable ex_pl plain. Proof. ex_dict plain_aff plain_dic. Qed.
Definition plain_k := checker_of ex_pl plain false false.
Lemma plain_ordinary : ordinary plain_k (lit "unlocks"). Proof. apply ordinary_dec. reflexivity. Qed.

Example C11_interface_example :
  Eventually (fun fuel => dict_check ex_pl plain fuel (lit "unlocks")) (Ret true) /\
  (exists v flags, CaseVariant ascii_unicode (o_case (ad_options (d_aff plain))) false (lit "unlocks") v /\
     SimpleWord (d_aff plain) (listed plain) AcceptHiddenHomonym v flags /\ ~ Blocked plain_k flags).
Proof.
  assert (SH : Shrinks (d_aff plain)) by (apply plain_shrinks; reflexivity).
  assert (Y : Eventually (fun fuel => dict_check ex_pl plain fuel (lit "unlocks")) (Ret true)).
  { refine (@C11_derived_words_are_accepted ex_pl ex_pl_wf plain plain_reachable (lit "unlocks") [83%N; 85%N] SH eq_refl _ plain_ordinary _ _).
    - apply lit_scalars; reflexivity.
    - intros stem f [H|[H|[]]] [X|[X _]]; try discriminate X; injection H as <- <-; vm_compute in X; intuition discriminate.
    - right. right. left. exists (rule (d_aff plain) Pfx 0), (rule (d_aff plain) Sfx 0), (lit "lock").
      unfold PrefixSuffix. repeat match goal with |- _ /\ _ => split end; try (concrete; fail).
      + exists (lit "locks"). split; (split; [|exact I]); [exists (lit "locks")|exists (lit "lock")]; split; reflexivity.
      + left. concrete.
      + intros [[? [? _]] _]. discriminate. }
  split; [exact Y|].
  refine (@C11_accepted_words_are_derived ex_pl ex_pl_wf plain plain_reachable (lit "unlocks") SH eq_refl eq_refl eq_refl _ plain_ordinary _ Y).
  - apply lit_scalars; reflexivity.
  - apply unbreakable_dec. reflexivity.
Qed.

Print Assumptions C10_single_affix_iff.
Print Assumptions C11_prefix_and_suffix_iff.
Print Assumptions C11_two_of_a_kind_iff.
Print Assumptions C11_prefix_and_two_suffixes_iff.
Print Assumptions C11_derived_words_are_accepted.
Print Assumptions C11_accepted_words_are_derived.
Print Assumptions C12_interleaved.
Print Assumptions C12_interleaved_unconditional.
Print Assumptions C12_suffix_and_two_prefixes.
Print Assumptions C12_condition_of_middle_affix_refuted.
Print Assumptions C12_condition_of_middle_affix_unsound_refuted.
Print Assumptions C12_two_prefixes_refuted.
