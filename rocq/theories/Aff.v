(** Tables and options of a parsed .aff file: aff.rs 718-880, 1025-1066, 1349-1480. *)
From Coq Require Import List NArith ZArith Lia Bool Arith Permutation.
From Coq Require Import ZifyBool ZifyNat ZifyN.
From Verif Require Import Base Unicode Flags Condition Affix CompoundRule Conversion.
Import ListNotations.
Set Implicit Arguments.

Definition nonempty {A} (l : list A) : bool := match l with [] => false | _ => true end.

(** [BreakTable] (aff.rs 718-724). *)
Record break_table := mkBreaks { bt_table : list str; bt_start : nat; bt_middle : nat }.

(** The loop of [BreakTable::new] (aff.rs 732-743). *)
Fixpoint break_split (l : list str) (st mi en : list str) : Res (list str * list str * list str) :=
  match l with
  | [] => Ret (st, mi, en)
  | b :: l' =>
      if negb (nonempty b) then Panic
      else match strip_prefix [94%N] b with
           | Some b' => break_split l' (st ++ [b']) mi en
           | None =>
               match strip_suffix [36%N] b with
               | Some b' => break_split l' st mi (en ++ [b'])
               | None => break_split l' st (mi ++ [b]) en
               end
           end
  end.

(** aff.rs 727-756. *)
Definition break_new (l : list str) : Res break_table :=
  r <- break_split l [] [] [] ;;
  let '(st, mi, en) := r in
  Ret (mkBreaks (st ++ mi ++ en) (length st) (length st + length mi)).

(** aff.rs 759-777. *)
Definition start_breaks (t : break_table) : list str := firstn (bt_start t) (bt_table t).
Definition middle_breaks (t : break_table) : list str := slice (bt_table t) (bt_start t) (bt_middle t).
Definition end_breaks (t : break_table) : list str := skipn (bt_middle t) (bt_table t).

(** [ReplacementTable] (aff.rs 793-798). *)
Record rep_table := mkReps {
  rp_table : list (str * str); rp_whole : nat; rp_start : nat; rp_end : nat }.

(** The loop at aff.rs 807-827. *)
Fixpoint rep_split (l : list (str * str)) (wh st en an : list (str * str))
  : Res (list (str * str) * list (str * str) * list (str * str) * list (str * str)) :=
  match l with
  | [] => Ret (wh, st, en, an)
  | (from, to) :: l' =>
      if negb (nonempty from && nonempty to) then Panic
      else match strip_prefix [94%N] from with
           | Some f1 =>
               match strip_suffix [36%N] f1 with
               | Some f2 => rep_split l' (wh ++ [(f2, to)]) st en an
               | None => rep_split l' wh (st ++ [(f1, to)]) en an
               end
           | None =>
               match strip_suffix [36%N] from with
               | Some f1 => rep_split l' wh st (en ++ [(f1, to)]) an
               | None => rep_split l' wh st en (an ++ [(from, to)])
               end
           end
  end.

(** aff.rs 800-844. *)
Definition rep_from (l : list (str * str)) : Res rep_table :=
  r <- rep_split l [] [] [] [] ;;
  let '(wh, st, en, an) := r in
  Ret (mkReps (wh ++ st ++ en ++ an) (length wh) (length wh + length st)
         (length wh + length st + length en)).

(** aff.rs 846-880. *)
Definition whole_reps (t : rep_table) := firstn (rp_whole t) (rp_table t).
Definition start_reps (t : rep_table) := slice (rp_table t) (rp_whole t) (rp_start t).
Definition end_reps (t : rep_table) := slice (rp_table t) (rp_start t) (rp_end t).
Definition any_reps (t : rep_table) := skipn (rp_end t) (rp_table t).
Definition only_whole_reps (t : rep_table) : bool := (rp_whole t =? length (rp_table t))%nat.

(** [CompoundPattern] (aff.rs 1057-1066); [StrPair] (aff.rs 1026-1054) is a pair. *)
Record compound_pattern := mkPattern {
  cp_begin : str;
  cp_end : str;
  cp_replacement : option str;
  cp_first_flag : option N;
  cp_second_flag : option N;
  cp_unaffixed : bool }.

(** aff.rs 1350-1353. *)
Record similarity_group := mkSim { sg_chars : str; sg_strings : list str }.

(** [AffOptions] (aff.rs 1381-1422). *)
Record options := mkOptions {
  o_complex_prefixes : bool;
  o_fullstrip : bool;
  o_checksharps : bool;
  o_forbid_warn : bool;
  o_only_in_compound : option N;
  o_circumfix : option N;
  o_forbidden : N;
  o_keep_case : option N;
  o_need_affix : option N;
  o_warn : option N;
  o_compound : option N;
  o_compound_begin : option N;
  o_compound_middle : option N;
  o_compound_end : option N;
  o_min_length : option N;
  o_max_words : option N;
  o_permit : option N;
  o_forbid : option N;
  o_root : option N;
  o_force_upper : option N;
  o_more_suffixes : bool;
  o_check_duplicate : bool;
  o_check_rep : bool;
  o_check_case : bool;
  o_check_triple : bool;
  o_simplified_triple : bool;
  o_syllable_num : bool;
  o_syllable_max : option N;
  o_max_cpd_sugs : N;
  o_no_suggest : option N;
  o_substandard : option N;
  o_max_ngram : N;
  o_max_diff : N;
  o_only_max_diff : bool;
  o_no_split_sugs : bool;
  o_sugs_with_dots : bool;
  o_case : case_handling }.

(** aff.rs 1424-1471. *)
Definition default_options : options := mkOptions
  false false false false None None 65510%N None None None
  None None None None None None None None None None
  false false false false false false false None
  3%N None None 5%N 5%N false false false Standard.

(** aff.rs 1474-1479. *)
Definition allows_compounding (o : options) : bool :=
  is_someb (o_compound o) || is_someb (o_compound_begin o) ||
  is_someb (o_compound_middle o) || is_someb (o_compound_end o).

(** aff.rs 87-104. *)
Inductive flag_type := FShort | FLong | FNumeric | FUtf8.

(** [AffData] (aff.rs 1356-1378). *)
Record affdata := mkAff {
  ad_prefixes : affix_index;
  ad_suffixes : affix_index;
  ad_breaks : break_table;
  ad_rules : rule_table;
  ad_vowels : str;
  ad_patterns : list compound_pattern;
  ad_iconv : conv_table;
  ad_oconv : conv_table;
  ad_reps : rep_table;
  ad_sims : list similarity_group;
  ad_ignore : list N;
  ad_keyboard : str;
  ad_try : str;
  ad_options : options;
  ad_flag_type : flag_type;
  ad_aliases : list flagset }.

(** [HIDDEN_HOMONYM_FLAG] (aff.rs 70), [MAX_SUGGESTIONS] (aff.rs 71), [MAX_WORD_LEN] (lib.rs 438). *)
Definition hidden_homonym_flag : N := 65535%N.
Definition max_suggestions : nat := 16.
Definition max_word_len : N := 360%N.

(** lib.rs 426-430. *)
Inductive mode := FULL_WORD | AT_BEGIN | AT_MIDDLE | AT_END.

(** ** Table facts *)
Definition break_class (b : str) : (str + str + str) :=
  match strip_prefix [94%N] b with
  | Some b' => inl (inl b')
  | None => match strip_suffix [36%N] b with Some b' => inr b' | None => inl (inr b) end
  end.

(** Specification: which list every pattern of the BREAK table ends up in. *)
Definition start_spec (l : list str) : list str :=
  flat_map (fun b => match break_class b with inl (inl x) => [x] | _ => [] end) l.
Definition middle_spec (l : list str) : list str :=
  flat_map (fun b => match break_class b with inl (inr x) => [x] | _ => [] end) l.
Definition end_spec (l : list str) : list str :=
  flat_map (fun b => match break_class b with inr x => [x] | _ => [] end) l.

Lemma break_split_spec : forall l st mi en, Forall (fun b => b <> []) l ->
  break_split l st mi en = Ret (st ++ start_spec l, mi ++ middle_spec l, en ++ end_spec l).
Proof.
  induction l as [|b l IH]; intros st mi en H.
  - cbn. rewrite !app_nil_r. reflexivity.
  - inversion H as [|? ? Hb Hl]; subst. cbn [break_split].
    destruct b as [|c b]; [contradiction|]. cbn [nonempty negb].
    unfold start_spec, middle_spec, end_spec, break_class. cbn [flat_map].
    destruct (strip_prefix [94%N] (c :: b)) as [b'|].
    + rewrite IH by assumption. rewrite <- app_assoc. reflexivity.
    + destruct (strip_suffix [36%N] (c :: b)) as [b'|];
        rewrite IH by assumption; rewrite <- app_assoc; reflexivity.
Qed.

Theorem break_new_spec : forall l, Forall (fun b => b <> []) l ->
  exists t, break_new l = Ret t /\ start_breaks t = start_spec l /\
            middle_breaks t = middle_spec l /\ end_breaks t = end_spec l.
Proof.
  intros l H. unfold break_new. rewrite break_split_spec by assumption. cbn [bindR app].
  eexists. split; [reflexivity|]. unfold start_breaks, middle_breaks, end_breaks, slice. cbn [bt_table bt_start bt_middle].
  split; [apply firstn_app_exact; reflexivity|]. split.
  - rewrite skipn_app_exact by reflexivity. apply firstn_app_exact. lia.
  - rewrite app_assoc. apply skipn_app_exact. rewrite app_length. reflexivity.
Qed.

Inductive rep_place := RWhole | RStart | REnd | RAny.
(** Specification: how an entry of the REP table is anchored, and its bare pattern. *)
Definition rep_class (from : str) : rep_place * str :=
  match strip_prefix [94%N] from with
  | Some f1 => match strip_suffix [36%N] f1 with Some f2 => (RWhole, f2) | None => (RStart, f1) end
  | None => match strip_suffix [36%N] from with Some f1 => (REnd, f1) | None => (RAny, from) end
  end.
Definition rep_sel (p : rep_place) (l : list (str * str)) : list (str * str) :=
  flat_map (fun e => match rep_class (fst e), p with
                     | (RWhole, f), RWhole | (RStart, f), RStart | (REnd, f), REnd | (RAny, f), RAny => [(f, snd e)]
                     | _, _ => [] end) l.

Lemma rep_split_spec : forall l wh st en an, Forall (fun e => fst e <> [] /\ snd e <> []) l ->
  rep_split l wh st en an =
  Ret (wh ++ rep_sel RWhole l, st ++ rep_sel RStart l, en ++ rep_sel REnd l, an ++ rep_sel RAny l).
Proof.
  induction l as [|[from to] l IH]; intros wh st en an H.
  - cbn. rewrite !app_nil_r. reflexivity.
  - inversion H as [|? ? Hb Hl]; subst. cbn [fst snd] in Hb. destruct Hb as [Hf Ht]. cbn [rep_split].
    destruct from as [|c from]; [contradiction|]. destruct to as [|x to]; [contradiction|].
    cbn [nonempty negb andb].
    unfold rep_sel. cbn [flat_map fst snd]. unfold rep_class at 1 3 5 7.
    destruct (strip_prefix [94%N] (c :: from)) as [f1|].
    + destruct (strip_suffix [36%N] f1) as [f2|]; rewrite IH by assumption;
        rewrite <- app_assoc; reflexivity.
    + destruct (strip_suffix [36%N] (c :: from)) as [f1|]; rewrite IH by assumption;
        rewrite <- app_assoc; reflexivity.
Qed.

Theorem rep_from_spec : forall l, Forall (fun e => fst e <> [] /\ snd e <> []) l ->
  exists t, rep_from l = Ret t /\ whole_reps t = rep_sel RWhole l /\ start_reps t = rep_sel RStart l /\
            end_reps t = rep_sel REnd l /\ any_reps t = rep_sel RAny l /\
            (only_whole_reps t = true <-> start_reps t = [] /\ end_reps t = [] /\ any_reps t = []).
Proof.
  intros l H. unfold rep_from. rewrite rep_split_spec by assumption. cbn [bindR app].
  set (a := rep_sel RWhole l). set (b := rep_sel RStart l). set (c := rep_sel REnd l). set (e := rep_sel RAny l).
  eexists. split; [reflexivity|].
  unfold whole_reps, start_reps, end_reps, any_reps, only_whole_reps, slice. cbn [rp_table rp_whole rp_start rp_end].
  assert (E1 : firstn (length a) (a ++ b ++ c ++ e) = a) by (apply firstn_app_exact; reflexivity).
  assert (E2 : skipn (length a) (a ++ b ++ c ++ e) = b ++ c ++ e) by (apply skipn_app_exact; reflexivity).
  assert (E3 : skipn (length a + length b) (a ++ b ++ c ++ e) = c ++ e).
  { rewrite app_assoc. apply skipn_app_exact. rewrite app_length. reflexivity. }
  assert (E4 : skipn (length a + length b + length c) (a ++ b ++ c ++ e) = e).
  { rewrite app_assoc, app_assoc. apply skipn_app_exact. rewrite !app_length. reflexivity. }
  rewrite E1, E2, E3, E4.
  rewrite (@firstn_app_exact _ b (c ++ e)) by lia. rewrite (@firstn_app_exact _ c e) by lia.
  split; [reflexivity|]. split; [reflexivity|]. split; [reflexivity|]. split; [reflexivity|].
  rewrite Nat.eqb_eq, !app_length. split.
  - intro Q. destruct b, c, e; cbn in Q; try lia. auto.
  - intros [-> [-> ->]]. cbn. lia.
Qed.
