(** Properties C01, C02 (check), C03, C18-C22, C26, C27, C46, C48 and C49: what [check]
    accepts, at the interface, for every dictionary a caller can hold. *)
From Coq Require Import String Ascii List NArith ZArith Lia Bool Arith Permutation.
From Verif Require Import Base Utf8 Unicode Flags Bag Condition Affix Conversion Aff Checker AffixSpec CompoundRule Rep CompoundSpec
  CompoundTotal RuleCompound Spell CheckSpec CheckMono CheckProps Parser ParserSafe Lib LibSpec LibProps Examples
  Properties_Affix Properties_Compound.
Import ListNotations.
Local Open Scope string_scope.
Local Open Scope list_scope.
Local Open Scope nat_scope.
Set Implicit Arguments.

(** [check] with the given options eventually answers. *)
Definition answers (pl : platform) (d : dictionary) (lt lu : bool) (w : str) (r : Res bool) : Prop :=
  Eventually (fun fuel => check (checker_of pl d lt lu) fuel w) r.
Definition accepted (pl : platform) (d : dictionary) (w : str) : Prop :=
  Eventually (fun fuel => dict_check pl d fuel w) (Ret true).
Definition rejected (pl : platform) (d : dictionary) (w : str) : Prop :=
  Eventually (fun fuel => dict_check pl d fuel w) (Ret false).

(** The spelling [w] is explained by an entry with [flags]: by itself or through affixes, or
    as a compound. *)
Definition Finds (pl : platform) (d : dictionary) (fu : forceucase) (hh : hidden_homonym) (w : str) (flags : flagset) : Prop :=
  SimpleWord (d_aff d) (listed d) hh w flags \/
  (allows_compounding (ad_options (d_aff d)) = true /\ exists w1 e p2 ps, cr_flags e = flags /\
     Compound (pl_unicode pl) (d_aff d) (listed d) fu AT_BEGIN [] w ((w1, e) :: p2 :: ps)) \/
  (rt_rules (ad_rules (d_aff d)) <> [] /\ RuleCompound (d_aff d) (listed d) fu w /\ exists part, listed d part flags).

(** An entry that [check] does not accept although it is found. *)
Definition Barred (d : dictionary) (flags : flagset) : Prop :=
  In (o_forbidden (ad_options (d_aff d))) flags \/
  (o_forbid_warn (ad_options (d_aff d)) = true /\ marked (o_warn (ad_options (d_aff d))) flags).

(** [Reading pl d w v fu hh ok]: the spelling [v] is tried for [w]; entries found for it
    count if their flags are [ok].  [fu] says whether a last part with FORCEUCASE may end a
    compound, [hh] whether the entries made up for mixed-case words count. *)
Section Reading.
Variable pl : platform.
Variable d : dictionary.
Notation U := (pl_unicode pl).
Notation opts := (ad_options (d_aff d)).
Notation h := (o_case (ad_options (d_aff d))).
Definition any_flags (f : flagset) : Prop := True.
Definition not_keep (f : flagset) : Prop := ~ marked (o_keep_case opts) f.
Inductive Reading (w : str) : str -> forceucase -> hidden_homonym -> (flagset -> Prop) -> Prop :=
| Reading_plain : classify_casing U w <> CInit -> classify_casing U w <> CAll ->
    Reading w w ForbidBadForceucase AcceptHiddenHomonym any_flags
| Reading_title : classify_casing U w = CInit ->
    Reading w w AllowBadForceucase SkipHiddenHomonym any_flags
| Reading_title_lower : classify_casing U w = CInit ->
    Reading w (lowercase U h w) AllowBadForceucase AcceptHiddenHomonym
      (fun f => not_keep f \/ (o_checksharps opts = true /\ In sharp_s (lowercase U h w)))
| Reading_upper : classify_casing U w = CAll ->
    Reading w w AllowBadForceucase AcceptHiddenHomonym any_flags
| Reading_upper_lower : classify_casing U w = CAll ->
    Reading w (lowercase U h w) AllowBadForceucase AcceptHiddenHomonym not_keep
| Reading_upper_title : forall t, classify_casing U w = CAll -> titlecase U h w = Ret t ->
    Reading w t AllowBadForceucase AcceptHiddenHomonym not_keep
| Reading_apostrophe : forall a b ta tb, classify_casing U w = CAll ->
    w = (a ++ [39%N]) ++ b -> ~ In 39%N a -> b <> [] ->
    titlecase U h (a ++ [39%N]) = Ret ta -> titlecase U h b = Ret tb ->
    Reading w (ta ++ tb) AllowBadForceucase AcceptHiddenHomonym any_flags
| Reading_apostrophe_lower : forall a b tb, classify_casing U w = CAll ->
    w = (a ++ [39%N]) ++ b -> ~ In 39%N a -> b <> [] -> titlecase U h b = Ret tb ->
    Reading w (lowercase U h (a ++ [39%N]) ++ tb) AllowBadForceucase AcceptHiddenHomonym any_flags
| Reading_sharp : forall t v, classify_casing U w = CAll -> o_checksharps opts = true ->
    (exists a b, w = a ++ SS ++ b) -> t = lowercase U h w \/ titlecase U h w = Ret t ->
    (exists a b, t = a ++ ss ++ b) -> SharpVariant 5 t v ->
    Reading w v AllowBadForceucase AcceptHiddenHomonym any_flags.
End Reading.

Section Dict.
Variable pl : platform.
Hypothesis WP : wf_platform pl.
Variable d : dictionary.
Hypothesis R : Reachable pl d.
Notation k := (checker_of pl d false false).
Notation U := (pl_unicode pl).
Notation opts := (ad_options (d_aff d)).
Notation h := (o_case (ad_options (d_aff d))).

Let OK : dict_ok pl d := reachable_ok WP R.
Let iff_known : forall s f, In f (ck_get k s) <-> listed d s f.
Proof. intros. rewrite (entries_get WP). apply entries_In. Qed.
Let iff_known' : forall s f, listed d s f <-> In f (ck_get k s).
Proof. intros. symmetry. apply iff_known. Qed.

Lemma finds_iff : forall fu hh w f, Found k fu hh w f <-> Finds pl d fu hh w f.
Proof.
  intros fu hh w f. unfold Found, Finds. cbn [ck_aff ck_u checker_of]. split.
  - intros [H|[(A & w1 & e & p2 & ps & E & H)|(A & H & part & P)]].
    + left. eapply simple_mono; [|exact H]. intros; apply iff_known; assumption.
    + right. left. split; [exact A|]. exists w1, e, p2, ps. split; [exact E|]. eapply Compound_same; [exact iff_known|exact H].
    + right. right. split; [exact A|]. split; [eapply Rule_same; [exact iff_known|exact H]|]. exists part. apply iff_known, P.
  - intros [H|[(A & w1 & e & p2 & ps & E & H)|(A & H & part & P)]].
    + left. eapply simple_mono; [|exact H]. intros; apply iff_known; assumption.
    + right. left. split; [exact A|]. exists w1, e, p2, ps. split; [exact E|]. eapply Compound_same; [exact iff_known'|exact H].
    + right. right. split; [exact A|]. split; [eapply Rule_same; [exact iff_known'|exact H]|]. exists part. apply iff_known, P.
Qed.

Lemma apostrophe_at : forall w a b, w = (a ++ [39%N]) ++ b -> ~ In 39%N a -> b <> [] ->
  apostrophe_split w = Some (a ++ [39%N], b).
Proof.
  intros w a b -> Ha Hb. unfold apostrophe_split.
  assert (find_char (N.eqb 39) ((a ++ [39%N]) ++ b) = Some (length a)) as ->.
  { clear Hb. induction a as [|c a IH]; [reflexivity|]. cbn [app find_char length].
    destruct (N.eqb_spec 39 c) as [E|E]; [exfalso; apply Ha; left; congruence|].
    cbn [app] in IH. rewrite IH by (intro X; apply Ha; right; exact X). reflexivity. }
  destruct (Nat.eqb_spec (length a) (length ((a ++ [39%N]) ++ b) - 1)) as [E|E].
  - exfalso. rewrite !app_length in E. cbn [length] in E. destruct b; [apply Hb; reflexivity|cbn [length] in E; lia].
  - f_equal. f_equal; [apply firstn_app_exact|apply skipn_app_exact]; rewrite app_length; cbn [length]; lia.
Qed.

Lemma find_sub_iff : forall p w, is_someb (find_sub p w) = true <-> exists a b, w = a ++ p ++ b.
Proof.
  intros p w. destruct (find_sub p w) as [i|] eqn:E; cbn [is_someb].
  - split; [|reflexivity]. intros _. destruct (find_sub_split _ _ E) as (a & b & Ew & _). eauto.
  - split; [discriminate|]. intros (a & b & Ew). exfalso. exact (proj1 (find_sub_none p w) E a b Ew).
Qed.

(** The spellings of the model are exactly the readings. *)
Lemma plan_reading : forall w a, w <> [] -> In a (plan k w) ->
  exists ok, Reading pl d w (at_word a) (at_fu a) (at_hh a) ok /\
    forall f, wf_flagset f -> (at_filter a f = true <-> ok f).
Proof.
  intros w a Hne Ha. unfold plan in Ha. cbn [ck_lower_as_title ck_lower_as_upper checker_of] in Ha.
  assert (ANY : forall f : flagset, wf_flagset f -> (anything f = true <-> any_flags f)) by (split; [intros _; exact I|reflexivity]).
  assert (KEEP : forall f, wf_flagset f -> (negb (keep_case k f) = true <-> not_keep d f)).
  { intros f Wf. rewrite negb_true_iff, <- not_true_iff_false. unfold not_keep. rewrite (@keep_spec k f Wf). reflexivity. }
  change (ck_u k) with U in Ha.
  destruct (classify_casing U w) eqn:EC; cbn [andb app] in Ha.
  all: try (destruct Ha as [<-|[]]; cbn [at_word at_fu at_hh at_filter]; exists any_flags; split; [apply Reading_plain; congruence|exact ANY]).
  - destruct Ha as [<-|[<-|[]]]; cbn [at_word at_fu at_hh at_filter].
    + exists any_flags. split; [apply Reading_title; exact EC|exact ANY].
    + eexists. split; [apply Reading_title_lower; exact EC|]. intros f Wf. cbv beta. unfold not_keep. rewrite <- (@keep_spec k f Wf), <- memb_In.
      destruct (keep_case k f), (o_checksharps opts) eqn:E1, (memb sharp_s (lowercase U h w)) eqn:E2; cbn [andb negb];
        cbn [ck_aff checker_of ck_u]; rewrite ?E1, ?E2; cbn; intuition discriminate.
  - unfold plan_upper in Ha. cbn [ck_u ck_aff checker_of] in Ha. destruct Ha as [<-|Ha].
    { exists any_flags. split; [apply Reading_upper; exact EC|exact ANY]. }
    rewrite !in_app_iff in Ha. destruct Ha as [Ha|[Ha|Ha]].
    + destruct (apostrophe_split w) as [[x b]|] eqn:EA; [|destruct Ha].
      destruct (apostrophe_spec _ EA) as (u & -> & Hu & Ew & Hb).
      destruct Ha as [<-|[<-|[]]]; cbn [at_word at_fu at_hh at_filter lenient]; exists any_flags; (split; [|exact ANY]).
      * eapply Reading_apostrophe_lower; [exact EC|exact Ew|exact Hu|exact Hb|]. apply (@titlecase_ne k). exact Hb.
      * eapply Reading_apostrophe; [exact EC|exact Ew|exact Hu|exact Hb| |]; apply (@titlecase_ne k); [|exact Hb]. destruct u; discriminate.
    + destruct (o_checksharps opts && is_someb (find_sub SS w)) eqn:ES; [|destruct Ha].
      apply andb_true_iff in ES. destruct ES as [ES1 ES2]. apply find_sub_iff in ES2. unfold sharps_plan, has_ss in Ha.
      rewrite in_app_iff in Ha. destruct Ha as [Ha|Ha];
        (destruct (is_someb (find_sub ss _)) eqn:E3; [|destruct Ha]); apply find_sub_iff in E3;
        apply in_map_iff in Ha; destruct Ha as [v [<- Hv]]; cbn [at_word at_fu at_hh at_filter lenient]; apply sharp_variants_spec in Hv;
        exists any_flags; (split; [|exact ANY]).
      * eapply Reading_sharp; [exact EC|exact ES1|exact ES2|left; reflexivity|exact E3|exact Hv].
      * eapply Reading_sharp; [exact EC|exact ES1|exact ES2|right; apply (@titlecase_ne k); exact Hne|exact E3|exact Hv].
    + destruct Ha as [<-|[<-|[]]]; cbn [at_word at_fu at_hh at_filter no_keep_case]; exists (not_keep d); (split; [|exact KEEP]).
      * apply Reading_upper_title; [exact EC|]. apply (@titlecase_ne k). exact Hne.
      * apply Reading_upper_lower. exact EC.
Qed.

Lemma reading_plan : forall w v fu hh ok, w <> [] -> Reading pl d w v fu hh ok ->
  exists a, In a (plan k w) /\ at_word a = v /\ at_fu a = fu /\ at_hh a = hh /\
    forall f, wf_flagset f -> (at_filter a f = true <-> ok f).
Proof.
  intros w v fu hh ok Hne H. unfold plan. cbn [ck_lower_as_title ck_lower_as_upper checker_of]. change (ck_u k) with U.
  assert (ANY : forall f : flagset, wf_flagset f -> (anything f = true <-> any_flags f)) by (split; [intros _; exact I|reflexivity]).
  assert (KEEP : forall f, wf_flagset f -> (negb (keep_case k f) = true <-> not_keep d f)).
  { intros f Wf. rewrite negb_true_iff, <- not_true_iff_false. unfold not_keep. rewrite (@keep_spec k f Wf). reflexivity. }
  destruct H as [H1 H2|EC|EC|EC|EC|t EC HT|a b ta tb EC Ew Hu Hb HTa HTb|a b tb EC Ew Hu Hb HTb|t v EC ES1 ES2 Ht E3 Hv].
  - destruct (classify_casing U w); try congruence; cbn [andb app]; (eexists; split; [left; reflexivity|auto]).
  - rewrite EC. eexists. split; [left; reflexivity|auto].
  - rewrite EC. eexists. split; [right; left; reflexivity|]. cbn [at_word at_fu at_hh at_filter]. repeat (split; [reflexivity|]).
    intros f Wf. unfold not_keep. rewrite <- (@keep_spec k f Wf), <- memb_In. cbn [ck_u ck_aff checker_of].
    destruct (keep_case k f), (o_checksharps opts) eqn:E1, (memb sharp_s (lowercase U h w)) eqn:E2; cbn; intuition discriminate.
  - rewrite EC. eexists. split; [left; reflexivity|auto].
  - rewrite EC. exists (no_keep_case k (lowercase U h w)). split; [|auto]. unfold plan_upper. right. rewrite !in_app_iff. right. right. right. left. reflexivity.
  - rewrite EC. exists (no_keep_case k (title k w)). assert (title k w = t) as Et.
    { pose proof (@titlecase_ne k w Hne) as X. cbn [ck_u ck_aff checker_of] in X. congruence. }
    split; [|rewrite <- Et; auto]. unfold plan_upper. right. rewrite !in_app_iff. right. right. left. reflexivity.
  - rewrite EC. exists (lenient (title k (a ++ [39%N]) ++ title k b)).
    assert (ta = title k (a ++ [39%N])) as ->.
    { assert (a ++ [39%N] <> []) as X by (destruct a; discriminate). apply (@titlecase_ne k) in X. cbn [ck_u ck_aff checker_of] in X. congruence. }
    assert (tb = title k b) as ->. { apply (@titlecase_ne k) in Hb. cbn [ck_u ck_aff checker_of] in Hb. congruence. }
    split; [|auto]. unfold plan_upper. right. rewrite !in_app_iff. left. rewrite (@apostrophe_at w a b Ew Hu Hb). right. left. reflexivity.
  - rewrite EC. exists (lenient (lowercase U h (a ++ [39%N]) ++ title k b)).
    assert (tb = title k b) as ->. { pose proof Hb as X. apply (@titlecase_ne k) in X. cbn [ck_u ck_aff checker_of] in X. congruence. }
    split; [|auto]. unfold plan_upper. right. rewrite !in_app_iff. left. rewrite (@apostrophe_at w a b Ew Hu Hb). left. reflexivity.
  - rewrite EC. exists (lenient v). split; [|auto]. unfold plan_upper. right. rewrite !in_app_iff. right. left.
    cbn [ck_u ck_aff checker_of]. rewrite ES1. apply find_sub_iff in ES2. rewrite ES2. cbn [andb]. rewrite in_app_iff.
    apply find_sub_iff in E3. apply sharp_variants_spec in Hv.
    destruct Ht as [-> |Ht]; [left|right].
    + unfold sharps_plan, has_ss. rewrite E3. apply in_map, Hv.
    + pose proof (@titlecase_ne k w Hne) as X. cbn [ck_u ck_aff checker_of] in X. assert (title k w = t) as -> by congruence.
      unfold sharps_plan, has_ss. rewrite E3. apply in_map, Hv.
Qed.

(** ** C01 *)
(** Full statement: [check] returns for every reachable dictionary, every options and every
    word.  False in general (see the refutations below); what holds: *)
Theorem C01_check_never_hangs : Shrinks (d_aff d) -> forall lt lu w, scalars w ->
  exists r, r <> NoFuel /\ answers pl d lt lu w r.
Proof.
  intros SH lt lu w Hw. pose proof (@dict_wf_full pl WP d OK lt lu SH) as WF.
  destruct (check_any_options WF Hw) as [r [S E]]. exists r. split; [|exact E]. intros ->. exact S.
Qed.

Theorem C01_check_returns : Shrinks (d_aff d) ->
  pl_overflow_checks pl = false \/ ad_vowels (d_aff d) = [] -> forall w, scalars w ->
  accepted pl d w \/ rejected pl d w.
Proof.
  intros SH HO w Hw. pose proof (@dict_wf_full pl WP d OK false false SH) as WF.
  assert (ST : strict k = true).
  { unfold strict. cbn [ck_overflow_checks ck_aff checker_of]. destruct HO as [-> | ->]; [reflexivity|]. rewrite andb_false_r. reflexivity. }
  pose proof (@check_converges k WF ltac:(split; reflexivity) w Hw) as C. rewrite ST in C. apply converges_true in C.
  destruct C as [[|] E]; [left|right]; exact E.
Qed.

Lemma unbreakable_check : forall lt lu w fuel, ordinary (checker_of pl d lt lu) w -> Unbreakable (checker_of pl d lt lu) w ->
  check (checker_of pl d lt lu) fuel w =
  (r <- spell_casing (checker_of pl d lt lu) fuel w ;;
   Ret (match r with Some f => accepted_flags (checker_of pl d lt lu) f | None => false end)).
Proof.
  intros lt lu w fuel HO (U1 & U2 & U3). rewrite check_ordinary by exact HO. unfold spell_break. change 9 with (S 8). generalize 8 as n. intro n.
  cbn [do_spell_break]. destruct (spell_casing (checker_of pl d lt lu) fuel w) as [[f|]| |]; cbn [bindR]; try reflexivity.
  - destruct (accepted_flags _ f); reflexivity.
  - assert (anyR (fun pattern => match strip_prefix pattern w with
        | Some rest => do_spell_break (checker_of pl d lt lu) fuel n rest | None => Ret false end)
        (start_breaks (ad_breaks (ck_aff (checker_of pl d lt lu)))) = Ret false) as ->.
    { clear -U1. induction (start_breaks _) as [|p l IH]; [reflexivity|]. cbn [anyR].
      destruct (strip_prefix p w) as [r|] eqn:E; [apply strip_prefix_spec in E; exfalso; exact (U1 p r (or_introl eq_refl) E)|].
      apply IH. intros q r Hq. apply U1. right. exact Hq. }
    cbn [bindR].
    assert (anyR (fun pattern => match strip_suffix pattern w with
        | Some rest => do_spell_break (checker_of pl d lt lu) fuel n rest | None => Ret false end)
        (end_breaks (ad_breaks (ck_aff (checker_of pl d lt lu)))) = Ret false) as ->.
    { clear -U2. induction (end_breaks _) as [|p l IH]; [reflexivity|]. cbn [anyR].
      destruct (strip_suffix p w) as [r|] eqn:E; [apply strip_suffix_spec in E; exfalso; exact (U2 p r (or_introl eq_refl) E)|].
      apply IH. intros q r Hq. apply U2. right. exact Hq. }
    cbn [bindR].
    match goal with |- context [anyR ?g ?l] => assert (anyR g l = Ret false) as -> end; [|reflexivity].
    clear -U3. induction (middle_breaks _) as [|p l IH]; [reflexivity|]. cbn [anyR].
    destruct (split_once p w) as [[a b]|] eqn:E; [apply split_once_sound in E; exfalso; exact (U3 p a b (or_introl eq_refl) E)|].
    apply IH. intros q a b Hq. apply U3. right. exact Hq.
Qed.

(** [Piece n w x]: [x] is one of the pieces that [w] falls into when break patterns are removed
    at most [n] levels deep. *)
Inductive Piece (B : break_table) : nat -> str -> str -> Prop :=
| Piece_self : forall n w, Piece B n w w
| Piece_start : forall n p w x, In p (start_breaks B) -> Piece B n w x -> Piece B (S n) (p ++ w) x
| Piece_end : forall n p w x, In p (end_breaks B) -> Piece B n w x -> Piece B (S n) (w ++ p) x
| Piece_left : forall n p u v x, In p (middle_breaks B) -> v <> [] -> Piece B n u x -> Piece B (S n) (u ++ p ++ v) x
| Piece_right : forall n p u v x, In p (middle_breaks B) -> v <> [] -> Piece B n v x -> Piece B (S n) (u ++ p ++ v) x.

Lemma break_pieces_converge : forall lt lu b n w, scalars w ->
  (forall x, scalars x -> Piece (ad_breaks (d_aff d)) n w x -> Converges b (fun m => spell_casing (checker_of pl d lt lu) m x)) ->
  Converges b (fun fuel => do_spell_break (checker_of pl d lt lu) fuel n w).
Proof.
  intros lt lu bb. set (kk := checker_of pl d lt lu). change (ad_breaks (d_aff d)) with (ad_breaks (ck_aff kk)).
  induction n as [|n IH]; intros w Hw HC; cbn [do_spell_break].
  - apply (@converges_bind bb _ _ (fun m => spell_casing kk m w)
      (fun r _ => match r with Some flags => Ret (accepted_flags kk flags) | None => Ret false end)).
    + apply HC; [exact Hw|apply Piece_self].
    + intros [f|] _; apply converges_const; exact I.
  - set (S1 := fun (pattern : str) fuel => match strip_prefix pattern w with
                    | Some rest => do_spell_break kk fuel n rest | None => Ret false end).
    set (S2 := fun (pattern : str) fuel => match strip_suffix pattern w with
                    | Some rest => do_spell_break kk fuel n rest | None => Ret false end).
    set (S3 := fun (pattern : str) fuel => match split_once pattern w with
                               | Some (part1, part2) =>
                                   if negb (nonempty part2) then Ret false
                                   else
                                     c1 <- do_spell_break kk fuel n part1 ;;
                                     if (c1 : bool) then do_spell_break kk fuel n part2 else Ret false
                               | None => Ret false end).
    apply (@converges_bind bb _ _ (fun m => spell_casing kk m w)
      (fun r fuel => match r with Some flags => Ret (accepted_flags kk flags) | None =>
          b1 <- anyR (fun p => S1 p fuel) (start_breaks (ad_breaks (ck_aff kk))) ;;
          if (b1 : bool) then Ret true else
          b2 <- anyR (fun p => S2 p fuel) (end_breaks (ad_breaks (ck_aff kk))) ;;
          if (b2 : bool) then Ret true else anyR (fun p => S3 p fuel) (middle_breaks (ad_breaks (ck_aff kk))) end));
      [apply HC; [exact Hw|apply Piece_self]|].
    intros [f|] _; [apply converges_const; exact I|].
    apply (@converges_bind bb _ _ (fun fuel => anyR (fun p => S1 p fuel) (start_breaks (ad_breaks (ck_aff kk))))
      (fun (b : bool) fuel => if b then Ret true else b2 <- anyR (fun p => S2 p fuel) (end_breaks (ad_breaks (ck_aff kk))) ;;
          if (b2 : bool) then Ret true else anyR (fun p => S3 p fuel) (middle_breaks (ad_breaks (ck_aff kk))))).
    + apply converges_anyR. intros p Hp. unfold S1. destruct (strip_prefix p w) as [r|] eqn:E; [|apply converges_const; exact I].
      apply IH; [exact (strip_prefix_scalars _ E Hw)|]. intros x Hx HP. apply HC; [exact Hx|].
      apply strip_prefix_spec in E. rewrite E. apply Piece_start; assumption.
    + intros [|] _; [apply converges_const; exact I|].
      apply (@converges_bind bb _ _ (fun fuel => anyR (fun p => S2 p fuel) (end_breaks (ad_breaks (ck_aff kk))))
        (fun (b : bool) fuel => if b then Ret true else anyR (fun p => S3 p fuel) (middle_breaks (ad_breaks (ck_aff kk))))).
      * apply converges_anyR. intros p Hp. unfold S2. destruct (strip_suffix p w) as [r|] eqn:E; [|apply converges_const; exact I].
        apply IH; [exact (strip_suffix_scalars _ E Hw)|]. intros x Hx HP. apply HC; [exact Hx|].
        apply strip_suffix_spec in E. rewrite E. apply Piece_end; assumption.
      * intros [|] _; [apply converges_const; exact I|].
        apply converges_anyR. intros p Hp. unfold S3. destruct (split_once p w) as [[a b]|] eqn:E; [|apply converges_const; exact I].
        destruct (split_once_scalars _ E Hw) as [Ha Hb]. destruct (negb (nonempty b)) eqn:EN; [apply converges_const; exact I|].
        assert (NE : b <> []) by (intros ->; discriminate EN). apply split_once_sound in E.
        apply (@converges_bind bb _ _ (fun fuel => do_spell_break kk fuel n a)
          (fun (c : bool) fuel => if c then do_spell_break kk fuel n b else Ret false)).
        { apply IH; [exact Ha|]. intros x Hx HP. apply HC; [exact Hx|]. rewrite E. apply Piece_left; assumption. }
        intros [|] _; [|apply converges_const; exact I].
        apply IH; [exact Hb|]. intros x Hx HP. apply HC; [exact Hx|]. rewrite E. apply Piece_right; assumption.
Qed.

Lemma uppercase_ne : (forall c, scalar c -> u_upper U c <> []) -> forall x, scalars x -> x <> [] -> uppercase U (o_case opts) x <> [].
Proof.
  intros RISE x Hx Hne. destruct x as [|c x]; [contradiction|]. apply Forall_cons_iff in Hx. destruct Hx as [Hc _].
  destruct (o_case opts); cbn [uppercase]; unfold str_upper, replace_char; cbn [map flat_map]; intro E0;
    apply app_eq_nil in E0; destruct E0 as [E0 _]; revert E0; apply RISE; [|exact Hc].
  destruct (N.eqb_spec c ch_i); [reflexivity|]. destruct (N.eqb_spec c ch_dotless_i); [reflexivity|exact Hc].
Qed.

Lemma casing_settles : Shrinks (d_aff d) -> strict k = true -> (forall c, scalar c -> u_upper U c <> []) ->
  forall lt lu x, scalars x -> x <> [] -> Converges true (fun m => spell_casing (checker_of pl d lt lu) m x).
Proof.
  intros SH ST RISE lt lu x Hx Hne. set (kk := checker_of pl d lt lu) in *.
  pose proof (@dict_wf_full pl WP d OK lt lu SH) as WF. fold kk in WF. change (strict k) with (strict kk) in ST.
  destruct (@converges_firstR (strict kk) attempt flagset (fun a n => try_one kk n a) (plan kk x)) as [r [Sr [n E]]].
  { intros a Ha. apply try_one_converges; [exact WF|]. eapply plan_scalars; eassumption. }
  rewrite ST in Sr. exists r. split; [exact Sr|]. exists n. intros m Hm. rewrite spell_casing_plan; [exact (E m Hm)|].
  left. split; [exact Hne|]. left. apply uppercase_ne; assumption.
Qed.

(** With any options a word that falls into no empty piece: neither the word as it stands (after
    ICONV), nor without its final dots and its ignored characters.  [RISE]: no character has an
    empty upper case. *)
Theorem C01_any_options : Shrinks (d_aff d) ->
  pl_overflow_checks pl = false \/ ad_vowels (d_aff d) = [] ->
  (forall c, scalar c -> u_upper U c <> []) ->
  forall lt lu w, scalars w ->
  (forall w', Converts (ct_inner (ad_iconv (d_aff d))) w w' ->
     ~ Piece (ad_breaks (d_aff d)) 9 w' [] /\
     forall v n, w' = v ++ dots n -> no_final_dot v ->
       ~ Piece (ad_breaks (d_aff d)) 9 (filter (fun c => negb (memb c (ad_ignore (d_aff d)))) v) []) ->
  exists b, answers pl d lt lu w (Ret b).
Proof.
  intros SH HV RISE lt lu w Hw HP. set (kk := checker_of pl d lt lu) in *.
  pose proof (@dict_wf_full pl WP d OK lt lu SH) as WF. fold kk in WF.
  assert (ST : strict kk = true).
  { unfold strict, kk. cbn [ck_overflow_checks ck_aff checker_of]. destruct HV as [-> | ->]; [reflexivity|]. rewrite andb_false_r. reflexivity. }
  assert (CAS : forall x, scalars x -> x <> [] -> Converges true (fun m => spell_casing kk m x)) by (intros x Hx Hne; exact (casing_settles SH ST RISE lt lu Hx Hne)).
  assert (BRK : forall x, scalars x -> ~ Piece (ad_breaks (d_aff d)) 9 x [] -> Converges true (fun m => spell_break kk m x)).
  { intros x Hx HN. apply break_pieces_converge; [exact Hx|]. intros y Hy HPy. apply CAS; [exact Hy|]. intros ->. contradiction. }
  apply converges_true. unfold check. fold kk. destruct (max_word_len <? blen w)%N; [apply converges_const; exact I|].
  destruct (@iconv_spec kk WF w Hw) as [w' [-> [CV Hw']]]. cbn [bindR]. destruct w' as [|c w']; [apply converges_const; exact I|].
  set (v := c :: w') in *. destruct (is_number (trim_end_dots v)); [apply converges_const; exact I|].
  destruct (HP _ CV) as [P1 P2]. destruct (trim_split v) as (n & Ev & Fv). specialize (P2 _ n Ev Fv).
  apply (@converges_bind true _ _ (fun fuel => spell_break kk fuel (erase_chars (ad_ignore (ck_aff kk)) (trim_end_dots v)))
    (fun (b : bool) fuel => if b then Ret true else if negb (length (trim_end_dots v) =? length v)%nat
       then spell_break kk fuel v else Ret false)).
  - apply BRK; [apply scalars_erase, scalars_trim; exact Hw'|]. rewrite erase_chars_filter. exact P2.
  - intros [|] _; [apply converges_const; exact I|].
    destruct (negb _); [|apply converges_const; exact I]. apply BRK; [exact Hw'|exact P1].
Qed.

(** ** C02 *)
Theorem C02_check_length_limit : forall lt lu w fuel,
  ((360 < blen w)%N -> check (checker_of pl d lt lu) fuel w = Ret false) /\
  check (checker_of pl d lt lu) fuel [] = Ret true.
Proof.
  intros lt lu w fuel. split; [apply check_long|]. apply check_empty.
  destruct (do_aff OK) as (x & LP & CO).
  pose proof (aff_facts WP LP CO) as F. cbn [ck_aff checker_of]. tauto.
Qed.

(** ** C03 *)
Theorem C03_numerals_accepted : ct_inner (ad_iconv (d_aff d)) = [] -> forall w, Numeral w -> (blen w <= 360)%N ->
  forall lt lu fuel, check (checker_of pl d lt lu) fuel w = Ret true.
Proof.
  intros HI w HN HL lt lu fuel. pose proof (@check_numeral (checker_of pl d lt lu) fuel w 0 HI HN) as H.
  unfold dots in H. cbn [repeat] in H. rewrite app_nil_r in H. exact (H HL).
Qed.

(** Nothing else is treated as a numeral: with no entries only the empty word and numerals
    (up to final dots) are accepted. *)
Theorem C03_only_numerals : Shrinks (d_aff d) -> strict k = true -> ct_inner (ad_iconv (d_aff d)) = [] ->
  d_words d = [] -> forall w, scalars w ->
  (accepted pl d w <-> (blen w <= 360)%N /\ (w = [] \/ exists v n, w = v ++ dots n /\ no_final_dot v /\ Numeral v)).
Proof.
  intros SH ST HI HE w Hw. pose proof (@dict_wf_full pl WP d OK false false SH) as WF.
  destruct (@empty_dictionary k WF ltac:(split; reflexivity) ST HI) with (w := w) as [b [Eb Hb]]; [|exact Hw|].
  { intro v. rewrite (entries_get WP). unfold entries. rewrite HE. reflexivity. }
  assert (X : accepted pl d w <-> b = true).
  { split; [intro Y; pose proof (eventually_det Y Eb); congruence|]. intros ->. exact Eb. }
  rewrite X, Hb. apply and_iff_compat_l. apply or_iff_compat_l. split.
  - intro HN. destruct (trim_split w) as (n & E & F). exists (trim_end_dots w), n. auto.
  - intros (v & n & -> & F & HN). rewrite trim_dots, trim_id by exact F. exact HN.
Qed.

(** ** C18, C22 *)
(** [Glued n ok w]: [w] consists of words that are [ok], glued with break patterns nested at
    most [n] deep. *)
Inductive Glued (ok : str -> Prop) : nat -> str -> Prop :=
| Glued_word : forall n w, ok w -> Glued ok n w
| Glued_start : forall n p w, In p (start_breaks (ad_breaks (d_aff d))) -> Glued ok n w -> Glued ok (S n) (p ++ w)
| Glued_end : forall n p w, In p (end_breaks (ad_breaks (d_aff d))) -> Glued ok n w -> Glued ok (S n) (w ++ p)
| Glued_middle : forall n p u v, In p (middle_breaks (ad_breaks (d_aff d))) -> v <> [] ->
    Glued ok n u -> Glued ok n v -> Glued ok (S n) (u ++ p ++ v).

(** [w] is accepted without breaking it. *)
Definition Whole (w : str) : Prop :=
  exists flags, Own k w (Some flags) /\ ~ Barred d flags.

Section Settled.
Hypothesis SH : Shrinks (d_aff d).
Hypothesis ST : strict k = true.
Let WF : wf_full k := @dict_wf_full pl WP d OK false false SH.
Let PC : ck_lower_as_title k = false /\ ck_lower_as_upper k = false := conj eq_refl eq_refl.

Lemma own_flags : forall w f, scalars w -> Own k w (Some f) -> (accepted_flags k f = true <-> ~ Barred d f).
Proof.
  intros w f Hw H. destruct (own_found WF PC ST Hw H) as (a & _ & HF & _).
  apply (@accepted_spec k f). exact (found_wf WF HF).
Qed.

Theorem C18_broken_words_are_glued : forall w, scalars w -> ordinary k w -> accepted pl d w -> Glued Whole 9 w.
Proof.
  intros w Hw HO Y. destruct (ordinary_decides WF PC ST Hw HO) as [b [E1 E2]].
  pose proof (eventually_det Y E1) as X. injection X as <-. pose proof (proj1 E2 eq_refl) as B. clear -B Hw WF PC ST.
  revert Hw. generalize dependent w. generalize 9. intros n w H.
  induction H as [n w f HO HA|n p w HO HI H IH|n p w HO HI H IH|n p u v HO HI HM HN H1 IH1 H2 IH2]; intro Hw.
  - apply Glued_word. exists f. split; [exact HO|]. apply (own_flags Hw HO). exact HA.
  - apply Glued_start; [exact HI|]. apply IH. apply scalars_app_iff in Hw. apply Hw.
  - apply Glued_end; [exact HI|]. apply IH. apply scalars_app_iff in Hw. apply Hw.
  - rewrite !scalars_app_iff in Hw. apply Glued_middle; [exact HI|exact HN|apply IH1; apply Hw|apply IH2; apply Hw].
Qed.

(** The exact answer: breaking is only tried when the word is not found as a whole, and a
    middle pattern only at its first occurrence. *)
Theorem C18_break_iff : forall w, scalars w -> ordinary k w -> (accepted pl d w <-> Broken k 9 w).
Proof.
  intros w Hw HO. destruct (ordinary_decides WF PC ST Hw HO) as [b [E1 E2]]. split.
  - intro Y. pose proof (eventually_det Y E1) as X. injection X as <-. apply E2. reflexivity.
  - intro B. apply E2 in B. subst b. exact E1.
Qed.

Theorem C18_whole_words_accepted : forall w, scalars w -> ordinary k w -> Whole w -> accepted pl d w.
Proof.
  intros w Hw HO (f & H1 & H2). apply (C18_break_iff Hw HO). eapply Broken_own; [exact H1|]. apply (own_flags Hw H1). exact H2.
Qed.

(** A word that is not recognised as a whole and that no pattern cuts is rejected. *)
Theorem C18_unbroken_rejected : forall w, scalars w -> ordinary k w -> Unbreakable k w -> ~ Whole w -> rejected pl d w.
Proof.
  intros w Hw HO HU HW. destruct (ordinary_decides WF PC ST Hw HO) as [b [E1 E2]].
  destruct b; [|exact E1]. exfalso. apply HW. pose proof (proj1 E2 eq_refl) as B.
  destruct (unbreakable_own HU B) as [f [H1 H2]]. exists f. split; [exact H1|]. apply (own_flags Hw H1). exact H2.
Qed.

(** What recognised as a whole means. *)
Definition Explained (w : str) : Prop :=
  exists v fu hh ok flags, Reading pl d w v fu hh ok /\ Finds pl d fu hh v flags /\ ok flags /\ ~ Barred d flags.

Lemma own_reading : forall w f, scalars w -> Own k w (Some f) ->
  exists v fu hh ok, Reading pl d w v fu hh ok /\ Finds pl d fu hh v f /\ ok f.
Proof.
  intros w f Hw H1. destruct (own_found WF PC ST Hw H1) as (a & Ha & HF & HT). destruct w as [|c w].
  - cbn in Ha. destruct Ha as [<-|[]]. exists [], ForbidBadForceucase, AcceptHiddenHomonym, any_flags.
    split; [apply Reading_plain; discriminate|]. split; [apply finds_iff, HF|exact I].
  - destruct (@plan_reading (c :: w) a ltac:(discriminate) Ha) as (ok & HR & HOk).
    exists (at_word a), (at_fu a), (at_hh a), ok. split; [exact HR|]. split; [apply finds_iff, HF|]. apply HOk; [exact (found_wf WF HF)|exact HT].
Qed.

Lemma whole_explained : forall w, scalars w -> Whole w -> Explained w.
Proof.
  intros w Hw (f & H1 & H2). destruct (own_reading Hw H1) as (v & fu & hh & ok & HR & HF & HOk).
  exists v, fu, hh, ok, f. auto.
Qed.

Theorem C22_accepted_words_explained : forall w, scalars w -> ordinary k w -> accepted pl d w -> Glued Explained 9 w.
Proof.
  intros w Hw HO Y. pose proof (C18_broken_words_are_glued Hw HO Y) as G. clear HO Y.
  induction G as [n w H|n p w HI H IH|n p w HI H IH|n p u v HI HN H1 IH1 H2 IH2].
  - apply Glued_word. apply whole_explained; assumption.
  - apply Glued_start; [exact HI|]. apply IH. apply scalars_app_iff in Hw. apply Hw.
  - apply Glued_end; [exact HI|]. apply IH. apply scalars_app_iff in Hw. apply Hw.
  - rewrite !scalars_app_iff in Hw. apply Glued_middle; [exact HI|exact HN|apply IH1; apply Hw|apply IH2; apply Hw].
Qed.

Theorem C22_unknown_words_rejected : forall w, scalars w -> ordinary k w -> ~ Glued Explained 9 w -> rejected pl d w.
Proof.
  intros w Hw HO HN. destruct (ordinary_decides WF PC ST Hw HO) as [b [E1 E2]].
  destruct b; [|exact E1]. exfalso. apply HN. apply C22_accepted_words_explained; assumption.
Qed.

Lemma finds_direct : i_table (ad_prefixes (d_aff d)) = [] -> i_table (ad_suffixes (d_aff d)) = [] ->
  allows_compounding opts = false -> rt_rules (ad_rules (d_aff d)) = [] ->
  forall fu hh v f, Finds pl d fu hh v f -> DirectWord (d_aff d) (listed d) hh v f.
Proof.
  intros W1 W2 W3 W4 fu hh w f [H|[[E _]|[E _]]]; [|congruence|contradiction].
  assert (RR : forall kd a, In a (rules (d_aff d) kd) -> False).
  { intros [|] a H0; unfold rules in H0; [rewrite W1 in H0|rewrite W2 in H0]; destruct H0. }
  unfold SimpleWord in H.
  destruct H as [H|[(kd & a & st & H)|[(p & s & st & H)|[[E H]|[E H]]]]]; [exact H|exfalso..].
  - destruct H as [H _]. eauto.
  - destruct H as [H _]. eauto.
  - destruct H as [(o & i & st & H & _)|[(x & o & i & st & H & _)|(x & o & i & st & H & _)]]; eauto.
  - destruct H as [(o & i & st & H & _)|[(x & o & i & st & (H & _) & _)|(x & o & i & st & H & _)]]; eauto.
Qed.

(** Without affixes, compounding and breaks only spellings of entries are accepted. *)
Theorem C22_word_list : i_table (ad_prefixes (d_aff d)) = [] -> i_table (ad_suffixes (d_aff d)) = [] ->
  allows_compounding opts = false -> rt_rules (ad_rules (d_aff d)) = [] -> forall w, scalars w -> ordinary k w ->
  Unbreakable k w -> accepted pl d w ->
  exists v fu hh ok flags, Reading pl d w v fu hh ok /\ listed d v flags /\ ok flags /\
    ~ marked (o_need_affix opts) flags /\ ~ Barred d flags.
Proof.
  intros HP HS HC HRu w Hw HO HU Y. apply (C18_break_iff Hw HO) in Y. destruct (unbreakable_own HU Y) as [f [H1 H2]].
  destruct (own_reading Hw H1) as (v & fu & hh & ok & HR & HF & HOk).
  apply finds_direct in HF; try assumption. destruct HF as [HL [HN _]].
  exists v, fu, hh, ok, f. split; [exact HR|]. split; [exact HL|]. split; [exact HOk|]. split; [exact HN|].
  apply (own_flags Hw H1). exact H2.
Qed.

(** ** C19 *)
(** If an entry explains a reading of [x] and nothing found for [x] is barred, [x] is accepted. *)
Theorem C19_readings_accepted : forall x v fu hh ok flags, scalars x -> ordinary k x ->
  Reading pl d x v fu hh ok -> SimpleWord (d_aff d) (listed d) hh v flags ->
  (forall f, Finds pl d fu hh v f -> ok f) ->
  (forall v' fu' hh' ok' f, Reading pl d x v' fu' hh' ok' -> Finds pl d fu' hh' v' f -> ok' f -> ~ Barred d f) ->
  accepted pl d x.
Proof.
  intros x v fu hh ok flags Hx HO HR HS HK HB. destruct (reading_plan (ord_ne HO) HR) as (a & Ha & Ev & Ef & Eh & HT).
  assert (exists f', Own k x (Some f')) as [f' HOwn].
  { apply (@own_exists k WF PC ST x a flags Hx Ha).
    - rewrite Ev, Eh. eapply simple_mono; [|exact HS]. intros; apply iff_known; assumption.
    - intros f' HF. apply HT; [exact (found_wf WF HF)|]. apply HK. apply finds_iff. rewrite <- Ev, <- Ef, <- Eh. exact HF. }
  apply C18_whole_words_accepted; [exact Hx|exact HO|]. exists f'. split; [exact HOwn|].
  destruct (own_reading Hx HOwn) as (v' & fu' & hh' & ok' & HR' & HF' & HOk'). exact (HB _ _ _ _ _ HR' HF' HOk').
Qed.

(** The title-case form [x] of a lower-case word [w]. *)
Theorem C19_title_case : forall w x flags, scalars x -> ordinary k x ->
  titlecase U h w = Ret x -> classify_casing U x = CInit -> lowercase U h x = w ->
  SimpleWord (d_aff d) (listed d) AcceptHiddenHomonym w flags ->
  (forall f, Finds pl d AllowBadForceucase AcceptHiddenHomonym w f -> not_keep d f) ->
  (forall hh v f, v = w \/ v = x -> Finds pl d AllowBadForceucase hh v f -> ~ Barred d f) ->
  accepted pl d x.
Proof.
  intros w x flags Hx HO HT HC HL HS HK HB.
  eapply C19_readings_accepted with (flags := flags); [exact Hx|exact HO|apply Reading_title_lower; exact HC|rewrite HL; exact HS| |].
  - intros f HF. left. rewrite HL in HF. exact (HK f HF).
  - intros v fu hh ok f HR HF _. inversion HR; subst; try congruence; eapply HB; try exact HF; auto.
Qed.

(** The all-caps form [x] of a lower-case word [w]. *)
Theorem C19_all_caps : forall w x flags, scalars x -> ordinary k x ->
  uppercase U h w = x -> classify_casing U x = CAll -> lowercase U h x = w ->
  SimpleWord (d_aff d) (listed d) AcceptHiddenHomonym w flags ->
  (forall f, Finds pl d AllowBadForceucase AcceptHiddenHomonym w f -> not_keep d f) ->
  (forall v fu hh ok f, Reading pl d x v fu hh ok -> Finds pl d fu hh v f -> ~ Barred d f) ->
  accepted pl d x.
Proof.
  intros w x flags Hx HO HT HC HL HS HK HB.
  eapply C19_readings_accepted with (flags := flags); [exact Hx|exact HO|apply Reading_upper_lower; exact HC|rewrite HL; exact HS| |].
  - intros f HF. rewrite HL in HF. exact (HK f HF).
  - intros v fu hh ok f HR HF _. exact (HB _ _ _ _ _ HR HF).
Qed.

(** The all-caps form [x] of a title-case word [t]. *)
Theorem C19_title_in_caps : forall t x flags, scalars x -> ordinary k x ->
  classify_casing U x = CAll -> titlecase U h x = Ret t ->
  SimpleWord (d_aff d) (listed d) AcceptHiddenHomonym t flags ->
  (forall f, Finds pl d AllowBadForceucase AcceptHiddenHomonym t f -> not_keep d f) ->
  (forall v fu hh ok f, Reading pl d x v fu hh ok -> Finds pl d fu hh v f -> ~ Barred d f) ->
  accepted pl d x.
Proof.
  intros t x flags Hx HO HC HT HS HK HB.
  eapply C19_readings_accepted with (flags := flags); [exact Hx|exact HO|apply Reading_upper_title; [exact HC|exact HT]|exact HS|exact HK|].
  intros v fu hh ok f HR HF _. exact (HB _ _ _ _ _ HR HF).
Qed.

(** ** C20 *)
(** The other spellings tried for a title-case or all-caps word lead to KEEPCASE entries only. *)
Theorem C20_keepcase_rejected : forall x, scalars x -> ordinary k x -> Unbreakable k x ->
  classify_casing U x = CInit \/ classify_casing U x = CAll ->
  o_checksharps opts = false ->
  (forall hh f, ~ Finds pl d AllowBadForceucase hh x f) ->
  (forall v f, v = lowercase U h x \/ titlecase U h x = Ret v -> Finds pl d AllowBadForceucase AcceptHiddenHomonym v f ->
     marked (o_keep_case opts) f) ->
  (forall a b tb v f, x = (a ++ [39%N]) ++ b -> ~ In 39%N a -> b <> [] -> titlecase U h b = Ret tb ->
     v = lowercase U h (a ++ [39%N]) ++ tb \/ (exists ta, titlecase U h (a ++ [39%N]) = Ret ta /\ v = ta ++ tb) ->
     ~ Finds pl d AllowBadForceucase AcceptHiddenHomonym v f) ->
  rejected pl d x.
Proof.
  intros x Hx HO HU HC HSh HX HK HA. apply C18_unbroken_rejected; [exact Hx|exact HO|exact HU|]. intros (f & HOwn & _).
  destruct (own_reading Hx HOwn) as (v & fu & hh & ok & HR & HF & HOk).
  inversion HR; subst; try (exact (HX _ _ HF)); try (destruct HC; congruence).
  - destruct HOk as [HOk|[HOk _]]; [|congruence]. apply HOk. exact (HK _ _ (or_introl eq_refl) HF).
  - apply HOk. exact (HK _ _ (or_introl eq_refl) HF).
  - apply HOk. eapply HK; [right; eassumption|exact HF].
  - eapply HA; [reflexivity|assumption|assumption|eassumption|right; eauto|exact HF].
  - eapply HA; [reflexivity|assumption|assumption|eassumption|left; reflexivity|exact HF].
Qed.

(** When all entries carry KEEPCASE, a title-case or all-caps word without apostrophe is accepted
    only as it is written. *)
Theorem C20_all_keepcase : (forall stem f, listed d stem f -> marked (o_keep_case opts) f) ->
  forall x, scalars x -> ordinary k x -> Unbreakable k x ->
  classify_casing U x = CInit \/ classify_casing U x = CAll ->
  o_checksharps opts = false -> ~ In 39%N x -> accepted pl d x ->
  exists hh f, Finds pl d AllowBadForceucase hh x f.
Proof.
  intros HK x Hx HO HU HC HSh HA ACC.
  destruct (ordinary_decides WF PC ST Hx HO) as [b [E1 E2]]. destruct b.
  2: { destruct ACC as [n1 A1]. destruct E1 as [n2 E1]. specialize (A1 (n1 + n2) ltac:(lia)). specialize (E1 (n1 + n2) ltac:(lia)).
       unfold dict_check in A1. congruence. }
  pose proof (proj1 E2 eq_refl) as B. destruct (unbreakable_own HU B) as [f [HOwn _]].
  destruct (own_reading Hx HOwn) as (v & fu & hh & ok & HR & HF & HOk).
  assert (KF : marked (o_keep_case opts) f).
  { destruct (found_entry (proj2 (finds_iff fu hh v f) HF)) as [stem Hst]. apply iff_known in Hst. exact (HK _ _ Hst). }
  inversion HR; subst; try (destruct HC; congruence); try (eexists; eexists; exact HF).
  all: try (exfalso; apply HOk; exact KF).
  - destruct HOk as [HOk|[HOk _]]; [exfalso; apply HOk; exact KF|congruence].
  - exfalso. apply HA. rewrite !in_app_iff. left. right. left. reflexivity.
  - exfalso. apply HA. rewrite !in_app_iff. left. right. left. reflexivity.
Qed.

(** ** C48 *)
(** With CHECKSHARPS, an all-caps word whose lower- or title-cased form turns into a known word
    by writing ß for some of the first five ss. *)
Theorem C48_sharp_words_accepted : forall x t v flags, scalars x -> ordinary k x ->
  classify_casing U x = CAll -> o_checksharps opts = true -> (exists a b, x = a ++ SS ++ b) ->
  t = lowercase U h x \/ titlecase U h x = Ret t -> (exists a b, t = a ++ ss ++ b) -> SharpVariant 5 t v ->
  SimpleWord (d_aff d) (listed d) AcceptHiddenHomonym v flags ->
  (forall v fu hh ok f, Reading pl d x v fu hh ok -> Finds pl d fu hh v f -> ~ Barred d f) ->
  accepted pl d x.
Proof.
  intros x t v flags Hx HO HC HSh HSS Ht Hss HV HS HB.
  eapply C19_readings_accepted with (flags := flags); [exact Hx|exact HO|eapply Reading_sharp; eassumption|exact HS|intros; exact I|].
  intros v' fu hh ok f HR HF _. exact (HB _ _ _ _ _ HR HF).
Qed.

(** Nothing else is accepted through CHECKSHARPS. *)
Theorem C48_only_exchanges : forall x, scalars x -> ordinary k x -> Unbreakable k x ->
  classify_casing U x = CAll -> accepted pl d x ->
  (forall v fu hh ok f, Reading pl d x v fu hh ok -> v = x \/ v = lowercase U h x \/ titlecase U h x = Ret v ->
     Finds pl d fu hh v f -> False) -> ~ In 39%N x ->
  o_checksharps opts = true /\
  exists t v f, (t = lowercase U h x \/ titlecase U h x = Ret t) /\ SharpVariant 5 t v /\
    Finds pl d AllowBadForceucase AcceptHiddenHomonym v f.
Proof.
  intros x Hx HO HU HC Y HN HA. apply (C18_break_iff Hx HO) in Y. destruct (unbreakable_own HU Y) as [f [HOwn _]].
  destruct (own_reading Hx HOwn) as (v & fu & hh & ok & HR & HF & HOk).
  inversion HR; subst; try congruence; try (exfalso; eapply HN; [exact HR| |exact HF]; auto; fail).
  - exfalso. apply HA. rewrite !in_app_iff. left. right. left. reflexivity.
  - exfalso. apply HA. rewrite !in_app_iff. left. right. left. reflexivity.
  - split; [assumption|]. exists t, v, f. auto.
Qed.
End Settled.

(** ** C21 *)
Theorem C21_forbidden_rejected : forall w flags, ordinary k w -> listed d w flags ->
  ~ marked (o_need_affix opts) flags -> ~ marked (o_only_in_compound opts) flags -> ~ In hidden_homonym_flag flags ->
  (forall f, listed d w f -> Barred d f) ->
  forall fuel, dict_check pl d fuel w = Ret false.
Proof.
  intros w flags HO HL H1 H2 H3 HB. apply (@forbidden_rejected k w).
  - apply dict_wf_checker; [exact WP|exact OK].
  - exact HO.
  - intros f Hf. apply iff_known in Hf. exact (HB f Hf).
  - exists flags. split; [apply iff_known; exact HL|]. split; [exact H1|]. split; auto.
Qed.

(** ** C26 *)
(** What [check] does after the input conversion. *)
Lemma check_converted : forall lt lu w w', scalars w -> (blen w <= 360)%N ->
  (forall x, Converts (ct_inner (ad_iconv (d_aff d))) w x -> x = w') -> w' <> [] -> forall fuel,
  check (checker_of pl d lt lu) fuel w =
  (if is_number (trim_end_dots w') then Ret true else
   b <- spell_break (checker_of pl d lt lu) fuel (filter (fun c => negb (memb c (ad_ignore (d_aff d)))) (trim_end_dots w')) ;;
   if (b : bool) then Ret true
   else if negb (length (trim_end_dots w') =? length w')%nat then spell_break (checker_of pl d lt lu) fuel w' else Ret false).
Proof.
  intros lt lu w w' Hw Lw HC Hne fuel. unfold check, max_word_len. destruct (N.ltb_spec 360 (blen w)) as [X|_]; [lia|].
  destruct (do_aff OK) as (x & LP & CO). pose proof (aff_facts WP LP CO) as F. cbn [ck_aff checker_of].
  destruct (@convert_spec (ad_iconv (d_aff d)) w) as [w2 [-> C2]]; [tauto|exact Hw|]. apply HC in C2. subst w2. cbn [bindR].
  destruct w' as [|c w']; [contradiction|]. rewrite erase_chars_filter. reflexivity.
Qed.

(** Two words that differ only in ignored characters once ICONV has been applied. *)
Theorem C26_ignored_chars : forall u v u' v', scalars u -> scalars v -> (blen u <= 360)%N -> (blen v <= 360)%N ->
  (forall x, Converts (ct_inner (ad_iconv (d_aff d))) u x -> x = u') ->
  (forall x, Converts (ct_inner (ad_iconv (d_aff d))) v x -> x = v') ->
  u' <> [] -> v' <> [] -> no_final_dot u' -> no_final_dot v' -> ~ Numeral u' -> ~ Numeral v' ->
  filter (fun c => negb (memb c (ad_ignore (d_aff d)))) u' = filter (fun c => negb (memb c (ad_ignore (d_aff d)))) v' ->
  forall lt lu fuel, check (checker_of pl d lt lu) fuel u = check (checker_of pl d lt lu) fuel v.
Proof.
  intros u v u' v' Hu Hv Lu Lv Cu Cv Nu Nv Du Dv Mu Mv E lt lu fuel.
  rewrite (@check_converted lt lu u u') by assumption. rewrite (@check_converted lt lu v v') by assumption.
  rewrite !trim_id by assumption. rewrite <- is_number_spec in Mu, Mv.
  destruct (is_number u'); [contradiction Mu; reflexivity|]. destruct (is_number v'); [contradiction Mv; reflexivity|].
  rewrite !Nat.eqb_refl, E. reflexivity.
Qed.

(** With final dots on both sides the variant without them still carries over. *)
Theorem C26_dotted_words : forall u v u' v' m, scalars u -> scalars v -> (blen u <= 360)%N -> (blen v <= 360)%N ->
  (forall x, Converts (ct_inner (ad_iconv (d_aff d))) u x -> x = u') ->
  (forall x, Converts (ct_inner (ad_iconv (d_aff d))) v x -> x = v' ++ dots m) ->
  u' <> [] -> v' <> [] -> no_final_dot u' -> no_final_dot v' -> ~ Numeral u' ->
  filter (fun c => negb (memb c (ad_ignore (d_aff d)))) u' = filter (fun c => negb (memb c (ad_ignore (d_aff d)))) v' ->
  forall lt lu fuel, check (checker_of pl d lt lu) fuel u = Ret true -> check (checker_of pl d lt lu) fuel v = Ret true.
Proof.
  intros u v u' v' m Hu Hv Lu Lv Cu Cv Nu Nv Du Dv Mu E lt lu fuel.
  rewrite (@check_converted lt lu u u') by assumption. rewrite (@check_converted lt lu v (v' ++ dots m)); [|assumption..|destruct v'; [contradiction|discriminate]].
  rewrite trim_dots, !trim_id by assumption. rewrite <- is_number_spec in Mu. destruct (is_number u'); [contradiction Mu; reflexivity|].
  rewrite Nat.eqb_refl, E. destruct (is_number v'); [reflexivity|].
  destruct (spell_break _ fuel _) as [[|]| |]; cbn [bindR negb]; congruence.
Qed.

(** ** C27 *)
Theorem C27_trailing_dots : forall w v w' n, scalars w -> scalars v -> (blen w <= 360)%N -> (blen v <= 360)%N ->
  (forall x, Converts (ct_inner (ad_iconv (d_aff d))) w x -> x = w') ->
  (forall x, Converts (ct_inner (ad_iconv (d_aff d))) v x -> x = w' ++ dots n) ->
  w' <> [] -> no_final_dot w' ->
  forall lt lu fuel, check (checker_of pl d lt lu) fuel w = Ret true -> check (checker_of pl d lt lu) fuel v = Ret true.
Proof.
  intros w v w' n Hw Hv Lw Lv Cw Cv Nw Dw lt lu fuel.
  rewrite (@check_converted lt lu w w') by assumption. rewrite (@check_converted lt lu v (w' ++ dots n)); [|assumption..|destruct w'; [contradiction|discriminate]].
  rewrite trim_dots, !trim_id by assumption. destruct (is_number w'); [reflexivity|].
  rewrite Nat.eqb_refl. destruct (spell_break _ fuel _) as [[|]| |]; cbn [bindR negb]; congruence.
Qed.

Lemma dots_from_dotless : forall p r u n, ~ In 46%N p -> u ++ dots n = p ++ r -> exists u', u = p ++ u' /\ r = u' ++ dots n.
Proof.
  induction p as [|c p IH]; intros r u n Hp E; [exists u; auto|].
  destruct u as [|x u]; cbn [app] in E.
  - destruct n; cbn in E; [discriminate|]. injection E as <- _. exfalso. apply Hp. left. reflexivity.
  - injection E as -> E. destruct (IH r u n) as (u' & -> & ->); [intro X; apply Hp; right; exact X|exact E|]. exists u'. auto.
Qed.

Lemma converts_dots : forall l, (forall c, In c l -> ~ In 46%N (cv_from c) /\ cv_anchor c = false) ->
  forall u v n out, v = u ++ dots n -> Converts l v out -> exists u', out = u' ++ dots n /\ Converts l u u'.
Proof.
  intros l HL u v n out E H. revert u E. induction H as [|x w out Hno H IH|c r out Hc Hu Hmax H IH]; intros u E.
  - symmetry in E. apply app_eq_nil in E. destruct E as [-> E]. exists []. rewrite E. split; [reflexivity|constructor].
  - destruct u as [|y u].
    + exists []. cbn [app] in *. split; [|constructor]. destruct n as [|n]; [discriminate|]. cbn [dots repeat] in E. injection E as -> E.
      assert (NO : forall m z, Converts l (dots m) z -> z = dots m).
      { clear -HL. induction m as [|m IHm]; intros z Hz; inversion Hz as [E1|x w o Hn Hz' E1|c r o Hc Hu _ Hz' E1]; subst; try reflexivity.
        - destruct Hu as [Hne _]. destruct (cv_from c); [contradiction|discriminate].
        - cbn. f_equal. apply IHm. exact Hz'.
        - exfalso. destruct Hu as [Hne _]. destruct (HL c Hc) as [ND _]. destruct (cv_from c) as [|y q]; [contradiction|].
          injection E1 as -> _. apply ND. left. reflexivity. }
      cbn [dots repeat]. f_equal. apply NO. fold (dots n) in E. rewrite <- E. exact H.
    + injection E as -> E. destruct (IH u E) as (u' & -> & HC). exists (y :: u'). split; [reflexivity|]. constructor; [|exact HC].
      intros c Hc [Hne (q & Eq & _)]. apply (Hno c Hc). split; [exact Hne|]. exists (q ++ dots n).
      rewrite E. split; [rewrite app_comm_cons, Eq, <- app_assoc; reflexivity|].
      rewrite (proj2 (HL c Hc)). discriminate.
  - symmetry in E. destruct (@dots_from_dotless (cv_from c) r u n) as (u1 & -> & Er); [apply HL; exact Hc|exact E|].
    destruct (IH u1 Er) as (u' & -> & HC). exists (cv_to c ++ u'). split; [apply app_assoc|]. constructor; [exact Hc| | |exact HC].
    + split; [apply Hu|]. exists u1. split; [reflexivity|]. rewrite (proj2 (HL c Hc)). discriminate.
    + intros c' Hc' [Hne (q & Eq & _)]. apply Hmax; [exact Hc'|]. split; [exact Hne|]. exists (q ++ dots n).
      rewrite Er. split; [rewrite !app_assoc, Eq, <- app_assoc; reflexivity|]. rewrite (proj2 (HL c' Hc')). discriminate.
Qed.

(** No ICONV pattern contains a full stop or is tied to the end of the word, and no two rewrite
    the same text differently: final dots never do harm. *)
Theorem C27_dotless_conversions :
  (forall c, In c (ct_inner (ad_iconv (d_aff d))) -> ~ In 46%N (cv_from c) /\ cv_anchor c = false) ->
  (forall c c', In c (ct_inner (ad_iconv (d_aff d))) -> In c' (ct_inner (ad_iconv (d_aff d))) -> cv_from c = cv_from c' -> cv_to c = cv_to c') ->
  forall w w' n, scalars w -> (blen (w ++ dots n) <= 360)%N -> Converts (ct_inner (ad_iconv (d_aff d))) w w' ->
  w' <> [] -> no_final_dot w' ->
  forall lt lu fuel, check (checker_of pl d lt lu) fuel w = Ret true -> check (checker_of pl d lt lu) fuel (w ++ dots n) = Ret true.
Proof.
  intros HD HU w w' n Hw Lw HC Nw Dw lt lu fuel. rewrite blen_app in Lw. apply (@C27_trailing_dots w (w ++ dots n) w' n); try assumption.
  - apply scalars_app_iff. split; [exact Hw|]. clear. induction n as [|n IH]; constructor; [reflexivity|exact IH].
  - lia.
  - rewrite blen_app. lia.
  - intros x Hx. exact (Converts_det HU Hx HC).
  - intros x Hx. destruct (@converts_dots _ HD w (w ++ dots n) n x eq_refl Hx) as (u' & -> & HC'). f_equal. exact (Converts_det HU HC' HC).
Qed.

(** ** C49 *)
Theorem C49_options_only_add : forall lt lu w fuel, ordinary k w -> Unbreakable k w ->
  dict_check pl d fuel w = Ret true -> check (checker_of pl d lt lu) fuel w = Ret true.
Proof.
  intros lt lu w fuel HO HU H. unfold dict_check in H. rewrite unbreakable_check in H by assumption.
  assert (HO' : ordinary (checker_of pl d lt lu) w) by (destruct HO; constructor; assumption).
  rewrite unbreakable_check; [|exact HO'|exact HU].
  destruct (spell_casing k fuel w) as [[f|]| |] eqn:E; cbn [bindR] in H; try discriminate.
  change k with (off (checker_of pl d lt lu)) in E. rewrite (lower_as_preserves _ _ _ E). exact H.
Qed.

(** The same with breaking: when no entry is barred, the options only add accepted words. *)
Definition Both (f g : nat -> Res bool) : Prop := exists b0 b1, Eventually f (Ret b0) /\ Eventually g (Ret b1) /\ (b0 = true -> b1 = true).
Lemma both_false : Both (fun _ => Ret false) (fun _ => Ret false).
Proof. exists false, false. split; [exists 0; reflexivity|]. split; [exists 0; reflexivity|auto]. Qed.
Lemma both_or : forall f1 g1 f2 g2, Both f1 g1 -> Both f2 g2 ->
  Both (fun n => b <- f1 n ;; if (b : bool) then Ret true else f2 n) (fun n => b <- g1 n ;; if (b : bool) then Ret true else g2 n).
Proof.
  intros f1 g1 f2 g2 (a0 & a1 & [n0 E0] & [n1 E1] & HA) (b0 & b1 & [m0 F0] & [m1 F1] & HB).
  exists (a0 || b0), (a1 || b1). split; [|split].
  - exists (n0 + m0). intros n Hn. rewrite E0 by lia. cbn [bindR]. destruct a0; [reflexivity|]. apply F0. lia.
  - exists (n1 + m1). intros n Hn. rewrite E1 by lia. cbn [bindR]. destruct a1; [reflexivity|]. apply F1. lia.
  - intro H. apply orb_true_iff. apply orb_true_iff in H. tauto.
Qed.
Lemma both_and : forall f1 g1 f2 g2, Both f1 g1 -> Both f2 g2 ->
  Both (fun n => b <- f1 n ;; if (b : bool) then f2 n else Ret false) (fun n => b <- g1 n ;; if (b : bool) then g2 n else Ret false).
Proof.
  intros f1 g1 f2 g2 (a0 & a1 & [n0 E0] & [n1 E1] & HA) (b0 & b1 & [m0 F0] & [m1 F1] & HB).
  exists (a0 && b0), (a1 && b1). split; [|split].
  - exists (n0 + m0). intros n Hn. rewrite E0 by lia. cbn [bindR]. destruct a0; [|reflexivity]. apply F0. lia.
  - exists (n1 + m1). intros n Hn. rewrite E1 by lia. cbn [bindR]. destruct a1; [|reflexivity]. apply F1. lia.
  - intro H. apply andb_true_iff. apply andb_true_iff in H. tauto.
Qed.
Lemma both_any : forall X (f g : X -> nat -> Res bool) l, (forall x, In x l -> Both (f x) (g x)) ->
  Both (fun n => anyR (fun x => f x n) l) (fun n => anyR (fun x => g x n) l).
Proof.
  intros X f g l. induction l as [|x l IH]; intro H; [exact both_false|]. cbn [anyR]. apply both_or; [apply H; left; reflexivity|].
  apply IH. intros y Hy. apply H. right. exact Hy.
Qed.

Lemma casing_flags : forall lt lu fuel x f, Shrinks (d_aff d) -> scalars x -> x <> [] -> (forall c, scalar c -> u_upper U c <> []) ->
  spell_casing (checker_of pl d lt lu) fuel x = Ret (Some f) -> exists stem, listed d stem f.
Proof.
  intros lt lu fuel x f SH Hx Hne RISE E. pose proof (@dict_wf_full pl WP d OK lt lu SH) as WF.
  set (kk := checker_of pl d lt lu) in *. rewrite spell_casing_plan in E.
  2:{ left. split; [exact Hne|]. left. apply uppercase_ne; assumption. }
  assert (FS : forall l, (forall a, In a l -> scalars (at_word a)) -> firstR (try_one kk fuel) l = Ret (Some f) -> exists stem, In f (ck_get kk stem)).
  { induction l as [|a l IH]; intros Hs H; [discriminate|]. cbn [firstR] in H. unfold try_one at 1 in H.
    destruct (check_word kk fuel (at_word a) (at_fu a) (at_hh a)) as [[g|]| |] eqn:EW; cbn [bindR] in H; try discriminate.
    - destruct (at_filter a g); [|apply IH; [intros; apply Hs; right; assumption|exact H]].
      injection H as <-. apply (check_word_found WF) in EW; [|apply Hs; left; reflexivity].
      exact (found_entry EW).
    - apply IH; [intros; apply Hs; right; assumption|exact H]. }
  destruct (FS (plan kk x)) as [st Hst]; [intros a Ha; exact (plan_scalars WF _ Hx Ha)|exact E|].
  exists st. apply iff_known. exact Hst.
Qed.

Theorem C49_options_only_add_broken : Shrinks (d_aff d) -> strict k = true -> (forall c, scalar c -> u_upper U c <> []) ->
  (forall stem f, listed d stem f -> ~ Barred d f) ->
  forall lt lu w, scalars w -> ordinary k w -> ~ Piece (ad_breaks (d_aff d)) 9 w [] ->
  accepted pl d w -> answers pl d lt lu w (Ret true).
Proof.
  intros SH ST RISE NB lt lu w Hw HO HP HA. set (kk := checker_of pl d lt lu).
  assert (STk : strict kk = true) by exact ST.
  assert (ACC : forall f, (exists stem, listed d stem f) -> accepted_flags kk f = true).
  { intros f [st Hst]. apply accepted_spec; [|exact (NB _ _ Hst)]. apply iff_known' in Hst. exact (wf_entries (dict_wf_checker WP OK false false) _ _ Hst). }
  assert (MAIN : forall n x, scalars x -> ~ Piece (ad_breaks (d_aff d)) n x [] ->
    Both (fun m => do_spell_break k m n x) (fun m => do_spell_break kk m n x)).
  { induction n as [|n IH]; intros x Hx HPx.
    all: assert (Hne : x <> []) by (intros ->; apply HPx, Piece_self).
    all: destruct (proj1 (converges_true _) (casing_settles SH ST RISE false false Hx Hne)) as [r0 [n0 E0]].
    all: destruct (proj1 (converges_true _) (casing_settles SH ST RISE lt lu Hx Hne)) as [r1 [n1 E1]]; fold kk in E1.
    all: assert (PRE : forall f, r0 = Some f -> r1 = Some f).
    1,3: intros f ->; specialize (E0 (n0 + n1)); specialize (E1 (n0 + n1)); cbv beta in E0, E1;
         change k with (off kk) in E0; rewrite (lower_as_preserves kk _ _ (E0 ltac:(lia))) in E1; specialize (E1 ltac:(lia)); congruence.
    all: assert (FL : forall f, r1 = Some f -> accepted_flags kk f = true)
         by (intros f ->; apply ACC; exact (@casing_flags lt lu n1 x f SH Hx Hne RISE (E1 n1 (le_n _)))).
    - cbn [do_spell_break]. exists (match r0 with Some f => accepted_flags k f | None => false end), (match r1 with Some f => accepted_flags kk f | None => false end).
      split; [exists n0; intros m Hm; rewrite E0 by exact Hm; destruct r0; reflexivity|].
      split; [exists n1; intros m Hm; rewrite E1 by exact Hm; destruct r1; reflexivity|].
      destruct r0 as [f|]; [|discriminate]. rewrite (PRE f eq_refl). auto.
    - cbn [do_spell_break].
      match goal with |- Both (fun m => bindR _ (fun r => match r with Some flags => _ | None => @?F m end))
                              (fun m' => bindR _ (fun r' => match r' with Some flags' => _ | None => @?G m' end)) => assert (REST : Both F G) end.
      { cbv beta. apply both_or.
        - apply (@both_any _ (fun p m => match strip_prefix p x with Some rest => do_spell_break k m n rest | None => Ret false end)
            (fun p m => match strip_prefix p x with Some rest => do_spell_break kk m n rest | None => Ret false end)).
          intros p Hp. destruct (strip_prefix p x) as [r|] eqn:E; [|exact both_false]. apply IH; [exact (strip_prefix_scalars _ E Hx)|].
          intro X. apply HPx. apply strip_prefix_spec in E. rewrite E. apply Piece_start; assumption.
        - apply both_or.
          + apply (@both_any _ (fun p m => match strip_suffix p x with Some rest => do_spell_break k m n rest | None => Ret false end)
              (fun p m => match strip_suffix p x with Some rest => do_spell_break kk m n rest | None => Ret false end)).
            intros p Hp. destruct (strip_suffix p x) as [r|] eqn:E; [|exact both_false]. apply IH; [exact (strip_suffix_scalars _ E Hx)|].
            intro X. apply HPx. apply strip_suffix_spec in E. rewrite E. apply Piece_end; assumption.
          + apply (@both_any _
              (fun p m => match split_once p x with Some (part1, part2) => if negb (nonempty part2) then Ret false else
                  c1 <- do_spell_break k m n part1 ;; if (c1 : bool) then do_spell_break k m n part2 else Ret false | None => Ret false end)
              (fun p m => match split_once p x with Some (part1, part2) => if negb (nonempty part2) then Ret false else
                  c1 <- do_spell_break kk m n part1 ;; if (c1 : bool) then do_spell_break kk m n part2 else Ret false | None => Ret false end)).
            intros p Hp. destruct (split_once p x) as [[u v]|] eqn:E; [|exact both_false].
            destruct (split_once_scalars _ E Hx) as [Hu Hv]. destruct (negb (nonempty v)) eqn:EN; [exact both_false|].
            assert (NE : v <> []) by (intros ->; discriminate EN). apply split_once_sound in E.
            apply both_and; (apply IH; [assumption|]); intro X; apply HPx; rewrite E; [apply Piece_left|apply Piece_right]; assumption. }
      destruct REST as (b0 & b1 & [m0 F0] & [m1 F1] & HB).
      exists (match r0 with Some f => accepted_flags k f | None => b0 end), (match r1 with Some f => accepted_flags kk f | None => b1 end).
      split; [exists (n0 + m0); intros m Hm; rewrite E0 by lia; cbn [bindR]; destruct r0; [reflexivity|apply F0; lia]|].
      split; [exists (n1 + m1); intros m Hm; rewrite E1 by lia; cbn [bindR]; destruct r1; [reflexivity|apply F1; lia]|].
      destruct r0 as [f|]; [rewrite (PRE f eq_refl); auto|]. destruct r1 as [f|]; [intros _; apply FL; reflexivity|exact HB]. }
  destruct (MAIN 9 w Hw HP) as (b0 & b1 & B0 & B1 & HB).
  assert (HO' : ordinary kk w) by (destruct HO; constructor; assumption).
  assert (X : b0 = true).
  { destruct HA as [m E]. destruct B0 as [n0 E0]. specialize (E (m + n0) ltac:(lia)). specialize (E0 (m + n0) ltac:(lia)).
    unfold dict_check in E. rewrite check_ordinary in E by exact HO. cbv beta in E0. unfold spell_break in E. rewrite E0 in E. cbn [bindR] in E.
    destruct b0; [reflexivity|discriminate]. }
  rewrite (HB X) in B1. destruct B1 as [n1 E1]. exists n1. intros m Hm. cbv beta. fold kk. rewrite check_ordinary by exact HO'.
  unfold spell_break. rewrite E1 by exact Hm. reflexivity.
Qed.

(** A word without capitals (or in camel case) that is not barred itself is accepted with the
    options on exactly if it, its title-case form or its upper-case form is. *)
Theorem C49_options_exact : Shrinks (d_aff d) -> strict k = true -> forall lt lu w t u, scalars w ->
  titlecase U h w = Ret t -> uppercase U h w = u ->
  (forall x, x = w \/ x = t \/ x = u -> ordinary k x /\ Unbreakable k x /\
     forall v fu hh ok f, Reading pl d x v fu hh ok -> Finds pl d fu hh v f -> ~ Barred d f) ->
  classify_casing U w = CNone \/ classify_casing U w = CCamel ->
  classify_casing U t = CInit -> classify_casing U u = CAll ->
  (answers pl d lt lu w (Ret true) <->
   accepted pl d w \/ (lt = true /\ accepted pl d t) \/ (lu = true /\ accepted pl d u)).
Proof.
  intros SH ST lt lu w t u Hw Ht Hu HX HC HCt HCu.
  pose proof (@dict_wf_full pl WP d OK false false SH) as WF.
  assert (PC : ck_lower_as_title k = false /\ ck_lower_as_upper k = false) by (split; reflexivity).
  destruct (HX w (or_introl eq_refl)) as (HOw & HUw & HBw).
  destruct (HX t (or_intror (or_introl eq_refl))) as (HOt & HUt & HBt).
  destruct (HX u (or_intror (or_intror eq_refl))) as (HOu & HUu & HBu).
  assert (HOw' : ordinary (checker_of pl d lt lu) w) by (destruct HOw; constructor; assumption).
  assert (Et : title k w = t).
  { pose proof (@titlecase_ne k w (ord_ne HOw)) as X. cbn [ck_u ck_aff checker_of] in X. congruence. }
  assert (Hst : scalars t) by (rewrite <- Et; apply scalars_title; [apply WF|exact Hw]).
  assert (Hsu : scalars u) by (rewrite <- Hu; apply scalars_upper; [apply WF|exact Hw]).
  assert (ACC : forall x, scalars x -> ordinary k x -> Unbreakable k x ->
     (forall v fu hh ok f, Reading pl d x v fu hh ok -> Finds pl d fu hh v f -> ~ Barred d f) ->
     exists o, Own k x o /\ (accepted pl d x <-> o <> None) /\ forall f, o = Some f -> accepted_flags k f = true).
  { intros x Hx HOx HUx HBx. destruct (own_total WF PC ST Hx) as [o HOwn]. exists o. split; [exact HOwn|].
    assert (forall f, o = Some f -> accepted_flags k f = true) as HA.
    { intros f ->. apply (own_flags SH ST Hx HOwn). destruct (own_reading SH ST Hx HOwn) as (v & fu & hh & ok & HR & HF & _).
      exact (HBx _ _ _ _ _ HR HF). }
    split; [|exact HA]. split.
    - intros [n E] ->. destruct HOwn as [m E2]. specialize (E (n + m) ltac:(lia)). specialize (E2 (n + m) ltac:(lia)).
      unfold dict_check in E. rewrite unbreakable_check in E by assumption. rewrite E2 in E. discriminate.
    - intro HN. destruct o as [f|]; [|contradiction HN; reflexivity]. destruct HOwn as [m E2]. exists m. intros fuel Hf.
      unfold dict_check. rewrite unbreakable_check by assumption. rewrite (E2 fuel Hf). cbn [bindR]. rewrite (HA f eq_refl). reflexivity. }
  destruct (ACC w Hw HOw HUw HBw) as (ow & OW & AW & FW). destruct (ACC t Hst HOt HUt HBt) as (ot & OT & AT & FT).
  destruct (ACC u Hsu HOu HUu HBu) as (ou & OU & AU & FU).
  set (o := match ow with Some f => Some f | None =>
              match (if lt then ot else None) with Some f => Some f | None => if lu then ou else None end end).
  assert (answers pl d lt lu w (Ret (match o with Some f => true | None => false end))) as ANS.
  { destruct OW as [n1 E1], OT as [n2 E2], OU as [n3 E3]. exists (n1 + n2 + n3). intros fuel Hf. cbv beta.
    rewrite unbreakable_check; [|exact HOw'|exact HUw].
    rewrite (@lower_as_exact (checker_of pl d lt lu) fuel w (ord_ne HOw) HC).
    - change (off (checker_of pl d lt lu)) with k. change (title (checker_of pl d lt lu) w) with (title k w). rewrite Et.
      cbn [ck_lower_as_title ck_lower_as_upper ck_u ck_aff checker_of]. rewrite Hu.
      rewrite E1, E2, E3 by lia. unfold o.
      change (accepted_flags (checker_of pl d lt lu)) with (accepted_flags k).
      destruct ow as [fw|]; [cbn; rewrite (FW fw eq_refl); reflexivity|].
      destruct lt, lu, ot as [ft|], ou as [fu'|]; cbn; rewrite ?(FT ft eq_refl), ?(FU fu' eq_refl); reflexivity.
    - intros _. change (title (checker_of pl d lt lu) w) with (title k w). rewrite Et. exact HCt.
    - intros _. cbn [ck_u ck_aff checker_of]. rewrite Hu. exact HCu. }
  rewrite AW, AT, AU. unfold o in ANS. clear o. split.
  - intro Y. pose proof (eventually_det Y ANS) as X.
    destruct ow as [fw|]; [left; discriminate|]. destruct lt, ot as [ft|]; try (right; left; split; [reflexivity|discriminate]);
      (destruct lu, ou as [fu'|]; [right; right; split; [reflexivity|discriminate]|discriminate X..]).
  - intro Y. destruct ow as [fw|]; [exact ANS|].
    destruct lt, ot as [ft|], lu, ou as [fu'|]; try exact ANS; exfalso; decompose [or and] Y; congruence.
Qed.
End Dict.

(** ** C48: what an exchange is *)
(** Writing every ß of a variant as ss again gives back the word, and at most [n] were written. *)
Definition expand (v : str) : str := flat_map (fun c => if (c =? sharp_s)%N then ss else [c]) v.
Lemma expand_id : forall t, ~ In sharp_s t -> expand t = t.
Proof.
  induction t as [|c t IH]; intro H; [reflexivity|]. cbn [expand flat_map]. destruct (N.eqb_spec c sharp_s) as [->|E].
  - exfalso. apply H. left. reflexivity.
  - cbn [app]. f_equal. apply IH. intro X. apply H. right. exact X.
Qed.
Theorem C48_exchange : forall n t v, ~ In sharp_s t -> SharpVariant n t v ->
  expand v = t /\ length (filter (N.eqb sharp_s) v) <= n.
Proof.
  assert (F : forall u, ~ In sharp_s u -> filter (N.eqb sharp_s) u = []).
  { induction u as [|c u IH]; intro H; [reflexivity|]. cbn [filter]. destruct (N.eqb_spec sharp_s c) as [E|E].
    - exfalso. apply H. left. congruence.
    - apply IH. intro X. apply H. right. exact X. }
  intros n t v Hn H. induction H as [w|n w H|n u v v' M H IH|n u v v' M H IH].
  - rewrite expand_id, F by exact Hn. split; [reflexivity|cbn; lia].
  - rewrite expand_id, F by exact Hn. split; [reflexivity|cbn; lia].
  - rewrite !in_app_iff in Hn. destruct IH as [IH1 IH2]; [tauto|]. unfold expand in *. rewrite !flat_map_app, IH1, filter_app.
    fold (expand u). rewrite expand_id, F by tauto. split; [reflexivity|]. cbn [app filter length]. rewrite N.eqb_refl. cbn [length]. lia.
  - rewrite !in_app_iff in Hn. destruct IH as [IH1 IH2]; [tauto|]. unfold expand in *. rewrite !flat_map_app, IH1, filter_app.
    fold (expand u). rewrite expand_id, F by tauto. split; [reflexivity|]. cbn. lia.
Qed.

(** ** C46 *)
Theorem C46_same_entries_same_answers : forall pl1 pl2 d1 d2, wf_platform pl1 -> wf_platform pl2 ->
  pl_unicode pl1 = pl_unicode pl2 -> pl_overflow_checks pl1 = pl_overflow_checks pl2 -> d_aff d1 = d_aff d2 ->
  (forall w, entries d1 w = entries d2 w) ->
  forall lt lu fuel w, check (checker_of pl1 d1 lt lu) fuel w = check (checker_of pl2 d2 lt lu) fuel w.
Proof.
  intros pl1 pl2 d1 d2 W1 W2 EU EO EA EE lt lu fuel w. symmetry.
  rewrite <- (@same_entries (checker_of pl1 d1 lt lu) (ck_get (checker_of pl2 d2 lt lu))).
  - unfold with_entries, checker_of. cbn. rewrite EU, EO, EA. reflexivity.
  - intro v. rewrite (entries_get W1), (entries_get W2). apply EE.
Qed.

(** The order of the entries (of insertion, of the table) is immaterial when the homonyms of
    each spelling have the same flags. *)
Theorem C46_order_irrelevant : forall pl1 pl2 d1 d2, wf_platform pl1 -> wf_platform pl2 ->
  pl_unicode pl1 = pl_unicode pl2 -> pl_overflow_checks pl1 = pl_overflow_checks pl2 -> d_aff d1 = d_aff d2 ->
  Permutation (d_words d1) (d_words d2) ->
  (forall w f1 f2, listed d1 w f1 -> listed d1 w f2 -> f1 = f2) ->
  forall lt lu fuel w, check (checker_of pl1 d1 lt lu) fuel w = check (checker_of pl2 d2 lt lu) fuel w.
Proof.
  intros pl1 pl2 d1 d2 W1 W2 EU EO EA EP HH. apply C46_same_entries_same_answers; try assumption.
  intro w. apply uniform_perm.
  - unfold entries. apply Permutation_map. apply Permutation_filter'. exact EP.
  - intros f1 f2 H1 H2. apply entries_In in H1. apply entries_In in H2. exact (HH w f1 f2 H1 H2).
Qed.

(** Or when there is no compounding and no entry is barred or KEEPCASE. *)
Theorem C46_order_irrelevant_plain : forall pl d1 d2, wf_platform pl -> Reachable pl d1 -> d_aff d1 = d_aff d2 ->
  Shrinks (d_aff d1) -> strict (checker_of pl d1 false false) = true ->
  allows_compounding (ad_options (d_aff d1)) = false -> rt_rules (ad_rules (d_aff d1)) = [] ->
  (forall w f, listed d1 w f <-> listed d2 w f) ->
  (forall w f, listed d1 w f -> ~ Barred d1 f /\ ~ marked (o_keep_case (ad_options (d_aff d1))) f) ->
  forall fuel w, scalars w -> dict_check pl d1 fuel w = dict_check pl d2 fuel w.
Proof.
  intros pl d1 d2 WP R EA SH ST HC HR EE CL fuel w Hw.
  pose proof (@dict_wf_full pl WP d1 (reachable_ok WP R) false false SH) as WF.
  symmetry. unfold dict_check.
  rewrite <- (@order_irrelevant (checker_of pl d1 false false) (ck_get (checker_of pl d2 false false))); try assumption.
  - unfold with_entries, checker_of. cbn. rewrite EA. reflexivity.
  - intros v f. rewrite !(entries_get WP), !entries_In. apply EE.
  - split; reflexivity.
  - split; assumption.
  - intros v f Hf. rewrite (entries_get WP), entries_In in Hf. exact (CL v f Hf).
Qed.

Lemma finds_listed : forall pl d fu hh w f, wf_platform pl -> Reachable pl d -> Finds pl d fu hh w f -> exists stem, listed d stem f.
Proof.
  intros pl d fu hh w f WP R H. apply (finds_iff WP) in H. apply found_entry in H. destruct H as [st H]. exists st.
  rewrite (entries_get WP) in H. apply entries_In, H.
Qed.

(** ** What C01 does not cover *)
(** The options [check_lower_as_title] and [check_lower_as_upper] panic on an empty piece. *)
Theorem C01_lower_as_title_panics_refuted : answers ex_pl en true false (lit "-") Panic.
Proof. settle 50. Qed.
Theorem C01_lower_as_upper_panics_refuted : answers ex_pl en false true (lit "...") Panic.
Proof. settle 50. Qed.

(** With overflow checks (debug builds) COMPOUNDSYLLABLE can panic. *)
Definition syl_aff : str := lit "COMPOUNDMIN 2
COMPOUNDFLAG C
COMPOUNDWORDMAX 1
COMPOUNDSYLLABLE 9 aeiou
SFX S Y 1
SFX S 0 a .
".
Definition syl_dic : str := lit "2
foo/C
bar/CS
".
Definition debug_pl : platform := ex_platform ascii_unicode true.
Definition syl : dictionary := Eval vm_compute in (the (built debug_pl syl_aff syl_dic) <: dictionary).
Lemma syl_reachable : Reachable debug_pl syl.
Proof.
  eapply (@new_reachable debug_pl syl_aff syl_dic); [apply forallb_scalars; reflexivity..|]. vm_compute. reflexivity.
Qed.
Theorem C01_syllable_overflow_refuted : answers debug_pl syl false false (lit "foobara") Panic.
Proof. settle 50. Qed.

(** With SIMPLIFIEDTRIPLE and COMPOUNDMIN 1 the recursion has no end. *)
Definition tri_aff : str := lit "COMPOUNDMIN 1
COMPOUNDFLAG C
SIMPLIFIEDTRIPLE
".
Definition tri_dic : str := lit "1
a/C
".
Definition tri : dictionary := Eval vm_compute in (the (built ex_pl tri_aff tri_dic) <: dictionary).
Lemma tri_reachable : Reachable ex_pl tri. Proof. ex_dict tri_aff tri_dic. Qed.
Definition tri_k := checker_of ex_pl tri false false.
Definition tri_word (n : nat) : str := repeat 97%N n ++ [120%N].
Lemma tri_split : forall i n, tri_word (i + n) = repeat 97%N i ++ tri_word n.
Proof. intros. unfold tri_word. rewrite repeat_app, app_assoc. reflexivity. Qed.
Lemma tri_firstn : forall i n, firstn i (tri_word (i + n)) = repeat 97%N i.
Proof. intros. rewrite tri_split. apply firstn_app_exact. rewrite repeat_length. reflexivity. Qed.
Lemma tri_skipn : forall i n, skipn i (tri_word (i + n)) = tri_word n.
Proof. intros. rewrite tri_split. apply skipn_app_exact. rewrite repeat_length. reflexivity. Qed.
Lemma tri_length : forall n, length (tri_word n) = n + 1.
Proof. intro n. unfold tri_word. rewrite app_length, repeat_length. reflexivity. Qed.
Definition tri_part : cresult := mkCR [97%N] [67%N] 0 0 false.

Lemma tri_step : forall rec n num fu m, m = AT_MIDDLE \/ m = AT_BEGIN ->
  compound_classic tri_k rec m (tri_word (S (S n))) (S n) (S (S n)) num fu =
  try_recursive tri_k rec (tri_word (S (S n))) (S n) (S (S n)) num fu tri_part.
Proof.
  intros rec n num fu m Hm. unfold compound_classic.
  replace (slice (tri_word (S (S n))) (S n) (S (S n))) with [97%N].
  2:{ unfold slice. replace (S (S n)) with (S n + 1) by lia. rewrite tri_skipn. replace (S n + 1 - S n) with 1 by lia. reflexivity. }
  assert (check_word_in_compound tri_k m [97%N] = Ret (Some tri_part)) as -> by (destruct Hm as [-> | ->]; vm_compute; reflexivity).
  cbn [bindR]. change (is_forbidden tri_k (cr_flags tri_part)) with false.
  change (o_check_triple (ad_options (ck_aff tri_k))) with false. change (o_check_case (ad_options (ck_aff tri_k))) with false.
  cbn [andb]. replace (skipn (S (S n)) (tri_word (S (S n)))) with [120%N].
  2:{ pose proof (tri_skipn (S (S n)) 0) as X. rewrite Nat.add_0_r in X. rewrite X. reflexivity. }
  assert (check_word_in_compound tri_k AT_END [120%N] = Ret None) as -> by (vm_compute; reflexivity). cbn [bindR].
  assert (add_part tri_k num tri_part = num) as ->; [|reflexivity]. unfold add_part. cbn. lia.
Qed.

Lemma tri_loop : forall fuel n num fu, compound_middle tri_k fuel (tri_word (S (S n))) (S n) num fu = NoFuel.
Proof.
  induction fuel as [|fuel IH]; intros n num fu; [reflexivity|]. cbn [compound_middle]. unfold compound_impl.
  change (min_chars tri_k) with 1.
  assert (within (tri_word (S (S n))) (S n) 1 = [S (S n)]) as ->.
  { unfold within. rewrite tri_length. destruct (Nat.ltb_spec (S n + 1) (S (S n) + 1)) as [H|H]; [|lia]. cbn [Nat.eqb].
    replace (S (S n) + 1 - (S n + 1)) with 1 by lia. replace (S n + 1) with (S (S n)) by lia. reflexivity. }
  cbn [firstR]. rewrite tri_step by (left; reflexivity). unfold try_recursive.
  destruct fuel as [|fuel]; [reflexivity|].
  assert (compound_middle tri_k (S fuel) (tri_word (S (S n))) (S (S n)) (num + 1) fu = Ret None) as ->.
  { cbn [compound_middle]. unfold compound_impl. change (min_chars tri_k) with 1. unfold within. rewrite tri_length.
    destruct (Nat.ltb_spec (S (S n) + 1) (S (S n) + 1)); [lia|]. reflexivity. }
  cbn [bindR]. unfold try_simplified_triple. change (o_simplified_triple (ad_options (ck_aff tri_k))) with true. cbn [negb].
  assert (PREV : forall i j, prev_codepoint (tri_word (S i + j)) (S i) = Some (i, 97%N)).
  { intros i j. unfold prev_codepoint. rewrite tri_firstn. replace (S i) with (i + 1) by lia. rewrite repeat_app, rev_app_distr. cbn.
    rewrite rev_length, repeat_length. reflexivity. }
  pose proof (PREV (S n) 0) as P1. rewrite Nat.add_0_r in P1. rewrite P1. cbn [Nat.eqb].
  pose proof (PREV n 1) as P2. replace (S n + 1) with (S (S n)) in P2 by lia. rewrite P2. rewrite N.eqb_refl. cbn [negb].
  assert (firstn (S n) (tri_word (S (S n))) ++ 97%N :: skipn (S n) (tri_word (S (S n))) = tri_word (S (S (S n)))) as ->.
  { pose proof (tri_firstn (S n) 1) as X1. pose proof (tri_skipn (S n) 1) as X2. replace (S n + 1) with (S (S n)) in X1, X2 by lia.
    rewrite X1, X2. pose proof (tri_split (S n) 2) as X3. replace (S n + 2) with (S (S (S n))) in X3 by lia. rewrite X3. reflexivity. }
  assert (skipn (S (S n)) (tri_word (S (S (S n)))) = [97%N; 120%N]) as ->.
  { pose proof (tri_skipn (S (S n)) 1) as X. replace (S (S n) + 1) with (S (S (S n))) in X by lia. rewrite X. reflexivity. }
  assert (check_word_in_compound tri_k AT_END [97%N; 120%N] = Ret None) as -> by (vm_compute; reflexivity). cbn [bindR].
  unfold triple_recursive. rewrite IH. reflexivity.
Qed.

Theorem C01_simplified_triple_diverges_refuted : forall fuel, dict_check ex_pl tri fuel (lit "aax") = NoFuel.
Proof.
  intro fuel. unfold dict_check. rewrite check_ordinary by (apply ordinary_dec; reflexivity). unfold spell_break. change 9 with (S 8). generalize 8 as n.
  intro n. cbn [do_spell_break]. unfold spell_casing. change (classify_casing _ (lit "aax")) with CNone.
  assert (check_word tri_k fuel (lit "aax") ForbidBadForceucase AcceptHiddenHomonym = NoFuel) as X.
  { unfold check_word. assert (check_simple_word tri_k (lit "aax") AcceptHiddenHomonym = None) as -> by (vm_compute; reflexivity).
    unfold check_compound. change (allows_compounding (ad_options (ck_aff tri_k))) with true. cbv iota. unfold check_compound_flags, compound_impl.
    change (within (lit "aax") 0 (min_chars tri_k)) with [1; 2]. cbn [firstR].
    assert (compound_classic tri_k (compound_middle tri_k fuel) AT_BEGIN (lit "aax") 0 1 0 ForbidBadForceucase = NoFuel) as ->; [|reflexivity].
    unfold compound_classic.
    assert (check_word_in_compound tri_k AT_BEGIN (slice (lit "aax") 0 1) = Ret (Some tri_part)) as -> by (vm_compute; reflexivity).
    cbn [bindR]. change (is_forbidden tri_k (cr_flags tri_part)) with false.
    change (o_check_triple (ad_options (ck_aff tri_k))) with false. change (o_check_case (ad_options (ck_aff tri_k))) with false. cbn [andb].
    assert (check_word_in_compound tri_k AT_END (skipn 1 (lit "aax")) = Ret None) as -> by (vm_compute; reflexivity). cbn [bindR].
    unfold try_recursive. change (lit "aax") with (tri_word 2). rewrite (tri_loop fuel 0). reflexivity. }
  fold tri_k. rewrite X. reflexivity.
Qed.

(** With a CHECKCOMPOUNDPATTERN replacement that is undone by COMPOUNDMIN more characters it
    has no end either: "bz" is read as "bo" followed by "bz". *)
Definition loop_aff : str := lit "COMPOUNDMIN 1
COMPOUNDFLAG C
CHECKCOMPOUNDPATTERN 1
CHECKCOMPOUNDPATTERN o bz z
".
Definition loop_dic : str := lit "1
bo/C
".
Definition loop : dictionary := Eval vm_compute in (the (built ex_pl loop_aff loop_dic) <: dictionary).
Lemma loop_reachable : Reachable ex_pl loop. Proof. ex_dict loop_aff loop_dic. Qed.
Definition loop_k := checker_of ex_pl loop false false.

Lemma loop_pattern : forall rec m L num fu, m = AT_MIDDLE \/ m = AT_BEGIN ->
  rec ((L ++ lit "bo") ++ lit "bzq") (length (L ++ lit "bo")) (num + 1) fu = NoFuel ->
  compound_impl loop_k rec m (L ++ lit "bzq") (length L) num fu = NoFuel.
Proof.
  intros rec m L num fu Hm E. unfold compound_impl. change (min_chars loop_k) with 1.
  assert (within (L ++ lit "bzq") (length L) 1 = [length L + 1; length L + 2]) as ->.
  { unfold within. rewrite app_length. change (length (lit "bzq")) with 3. destruct (Nat.ltb_spec (length L + 1) (length L + 3)) as [H|H]; [|lia]. cbn [Nat.eqb].
    replace (length L + 3 - (length L + 1)) with 2 by lia. cbn [seq]. f_equal. f_equal. lia. }
  cbn [firstR]. unfold compound_classic.
  assert (slice (L ++ lit "bzq") (length L) (length L + 1) = lit "b") as ->.
  { unfold slice. rewrite skipn_app_exact by reflexivity. replace (length L + 1 - length L) with 1 by lia. reflexivity. }
  assert (check_word_in_compound loop_k m (lit "b") = Ret None) as -> by (destruct Hm as [-> | ->]; vm_compute; reflexivity). cbn [bindR].
  change (ad_patterns (ck_aff loop_k)) with [mkPattern (lit "o") (lit "bz") (Some (lit "z")) None None false].
  cbn [pattern_loop]. unfold pattern_step. cbn [cp_replacement cp_begin cp_end].
  assert (FS : L ++ lit "bzq" = (L ++ lit "b") ++ lit "zq") by (rewrite <- app_assoc; reflexivity).
  assert (LB : length L + 1 = length (L ++ lit "b")) by (rewrite app_length; reflexivity).
  assert (skipn (length L + 1) (L ++ lit "bzq") = lit "zq") as -> by (rewrite FS, LB; apply skipn_app_exact; reflexivity).
  change (starts_with (lit "z") (lit "zq")) with true. cbn [negb].
  assert (skipn (length L + 1 + length (lit "z")) (L ++ lit "bzq") = lit "q") as ->.
  { change (length (lit "z")) with 1. assert (L ++ lit "bzq" = (L ++ lit "bz") ++ lit "q") as -> by (rewrite <- app_assoc; reflexivity).
    apply skipn_app_exact. rewrite app_length. change (length (lit "bz")) with 2. lia. }
  assert (firstn (length L + 1) (L ++ lit "bzq") = L ++ lit "b") as -> by (rewrite FS, LB; apply firstn_app_exact; reflexivity).
  assert ((L ++ lit "b") ++ (lit "o" ++ lit "bz") ++ lit "q" = (L ++ lit "bo") ++ lit "bzq") as -> by (rewrite <- !app_assoc; reflexivity).
  assert (length L + 1 + length (lit "o") = length (L ++ lit "bo")) as -> by (rewrite app_length; change (length (lit "bo")) with 2; change (length (lit "o")) with 1; lia).
  assert (slice ((L ++ lit "bo") ++ lit "bzq") (length L) (length (L ++ lit "bo")) = lit "bo") as ->.
  { unfold slice. rewrite <- app_assoc, skipn_app_exact, app_length by reflexivity. replace (length L + length (lit "bo") - length L) with 2 by (change (length (lit "bo")) with 2; lia). reflexivity. }
  assert (exists e, check_word_in_compound loop_k m (lit "bo") = Ret (Some e) /\ is_forbidden loop_k (cr_flags e) = false) as (e & -> & NF).
  { destruct Hm as [-> | ->]; eexists; (split; [vm_compute; reflexivity|reflexivity]). }
  cbn [bindR]. rewrite NF. cbn [cp_first_flag flag_missing]. change (o_check_triple (ad_options (ck_aff loop_k))) with false. cbn [andb].
  unfold pattern_plain. rewrite skipn_app_exact by reflexivity.
  assert (check_word_in_compound loop_k AT_END (lit "bzq") = Ret None) as -> by (vm_compute; reflexivity). cbn [bindR].
  rewrite E. reflexivity.
Qed.
Lemma loop_loop : forall fuel L num fu, compound_middle loop_k fuel (L ++ lit "bzq") (length L) num fu = NoFuel.
Proof.
  induction fuel as [|fuel IH]; intros L num fu; [reflexivity|]. cbn [compound_middle]. apply loop_pattern; [left; reflexivity|apply IH].
Qed.
Theorem C01_pattern_diverges_refuted : forall fuel, dict_check ex_pl loop fuel (lit "bzq") = NoFuel.
Proof.
  intro fuel. unfold dict_check. rewrite check_ordinary by (apply ordinary_dec; reflexivity). unfold spell_break. change 9 with (S 8). generalize 8 as n.
  intro n. cbn [do_spell_break]. unfold spell_casing. change (classify_casing _ (lit "bzq")) with CNone.
  assert (check_word loop_k fuel (lit "bzq") ForbidBadForceucase AcceptHiddenHomonym = NoFuel) as X.
  { unfold check_word. assert (check_simple_word loop_k (lit "bzq") AcceptHiddenHomonym = None) as -> by (vm_compute; reflexivity).
    unfold check_compound. change (allows_compounding (ad_options (ck_aff loop_k))) with true. cbv iota. unfold check_compound_flags.
    pose proof (@loop_pattern (compound_middle loop_k fuel) AT_BEGIN [] 0 ForbidBadForceucase (or_intror eq_refl)) as Y. cbn [app length] in Y.
    rewrite Y; [reflexivity|]. apply (loop_loop fuel (lit "bo")). }
  fold loop_k. rewrite X. reflexivity.
Qed.

(** ** Further statements the code does not satisfy *)
Ltac is_listed := unfold listed; cbn; tauto.
(** A forbidden entry that is not a word by itself forbids nothing. *)
Definition fb_aff : str := lit "FORBIDDENWORD X
NEEDAFFIX N
WARN W
FORBIDWARN
SFX S Y 1
SFX S 0 o .
".
Definition fb_dic : str := lit "3
foo/XN
fo/S
colour/X
".
Definition fb : dictionary := Eval vm_compute in (the (built ex_pl fb_aff fb_dic) <: dictionary).
Lemma fb_reachable : Reachable ex_pl fb. Proof. ex_dict fb_aff fb_dic. Qed.
Theorem C21_need_affix_refuted :
  (forall f, listed fb (lit "foo") f -> In (o_forbidden (ad_options (d_aff fb))) f) /\
  (exists f, listed fb (lit "foo") f) /\ accepted ex_pl fb (lit "foo").
Proof.
  split; [|split; [eexists; is_listed|settle 50]]. intros f Hf. unfold listed in Hf. cbn in Hf.
  repeat (destruct Hf as [Hf|Hf]; [inversion Hf; subst; cbn; tauto|]). destruct Hf.
Qed.

(** The second attempt, with one full stop, keeps the characters of IGNORE. *)
Definition ig_aff : str := lit "IGNORE '
".
Definition ig_dic : str := lit "2
etc.
cant
".
Definition ig : dictionary := Eval vm_compute in (the (built ex_pl ig_aff ig_dic) <: dictionary).
Lemma ig_reachable : Reachable ex_pl ig. Proof. ex_dict ig_aff ig_dic. Qed.
Theorem C26_dotted_entry_refuted :
  ad_ignore (d_aff ig) = lit "'" /\ accepted ex_pl ig (lit "etc.") /\ rejected ex_pl ig (lit "e'tc.").
Proof. split; [reflexivity|]. split; settle 50. Qed.

(** One full stop belongs to the empty word's list, and an entry with a full stop does not
    absorb another. *)
Theorem C27_empty_refuted : accepted ex_pl en [] /\ rejected ex_pl en (lit ".").
Proof. split; settle 50. Qed.
Theorem C27_dotted_entry_refuted : accepted ex_pl ig (lit "etc.") /\ rejected ex_pl ig (lit "etc..").
Proof. split; settle 50. Qed.

(** The order of two entries with the same stem matters. *)
Definition hom_aff : str := lit "FORBIDDENWORD X
".
Definition hom1 : dictionary := Eval vm_compute in (the (built ex_pl hom_aff (lit "2
foo
foo/X
")) <: dictionary).
Definition hom2 : dictionary := Eval vm_compute in (the (built ex_pl hom_aff (lit "2
foo/X
foo
")) <: dictionary).
Theorem C46_homonym_order_refuted : Reachable ex_pl hom1 /\ Reachable ex_pl hom2 /\ d_aff hom1 = d_aff hom2 /\
  Permutation (d_words hom1) (d_words hom2) /\
  exists w, (accepted ex_pl hom1 w /\ rejected ex_pl hom2 w) \/ (rejected ex_pl hom1 w /\ accepted ex_pl hom2 w).
Proof.
  split; [ex_dict hom_aff (lit "2
foo
foo/X
")|]. split; [ex_dict hom_aff (lit "2
foo/X
foo
")|]. split; [reflexivity|]. split; [apply perm_swap|]. exists (lit "foo").
  first [left; split; settle 50|right; split; settle 50].
Qed.

(** A forbidden lower-case entry wins over an accepted title-case one. *)
Definition tf : dictionary := Eval vm_compute in (the (built ex_pl hom_aff (lit "2
mark/X
Mark
")) <: dictionary).
Theorem C49_forbidden_lower_refuted : Reachable ex_pl tf /\ titlecase (pl_unicode ex_pl) (o_case (ad_options (d_aff tf))) (lit "mark") = Ret (lit "Mark") /\
  accepted ex_pl tf (lit "Mark") /\ answers ex_pl tf true false (lit "mark") (Ret false).
Proof.
  split; [ex_dict hom_aff (lit "2
mark/X
Mark
")|]. split; [reflexivity|]. split; settle 50.
Qed.
(** With breaking, a forbidden title-case entry takes a word away that the pieces would make up. *)
Definition tb_dic : str := lit "3
foo
bar
Foo-bar/X
".
Definition tb : dictionary := Eval vm_compute in (the (built ex_pl hom_aff tb_dic) <: dictionary).
Theorem C49_broken_word_refuted : Reachable ex_pl tb /\ accepted ex_pl tb (lit "foo-bar") /\
  answers ex_pl tb true false (lit "foo-bar") (Ret false).
Proof. split; [ex_dict hom_aff tb_dic|]. split; settle 50. Qed.

(** ** Examples: the hypotheses are met *)
Definition wl_aff : str := lit "FORBIDDENWORD X
SFX S Y 1
SFX S 0 s .
".
Definition wl_dic : str := lit "3
lock/S
Paris
NASA
".
Definition wl : dictionary := Eval vm_compute in (the (built ex_pl wl_aff wl_dic) <: dictionary).
Lemma wl_reachable : Reachable ex_pl wl. Proof. ex_dict wl_aff wl_dic. Qed.
Ltac word_facts := first [apply forallb_scalars; reflexivity | apply ordinary_dec; reflexivity | apply unbreakable_dec; reflexivity].
Lemma wl_clean : forall fu hh w f, Finds ex_pl wl fu hh w f -> ~ Barred wl f /\ not_keep wl f.
Proof.
  intros fu hh w f H. apply finds_listed in H; [|exact ex_pl_wf|exact wl_reachable]. destruct H as [st H].
  split.
  - intros [X|[X _]]; [|discriminate]. unfold listed in H. cbn in H.
    repeat (destruct H as [H|H]; [inversion H; subst; cbn in X; repeat (destruct X as [X|X]; [discriminate|]); destruct X|]). destruct H.
  - intros [g [X _]]. discriminate.
Qed.
Lemma wl_shrinks : Shrinks (d_aff wl).
Proof. apply plain_shrinks; reflexivity. Qed.

(** All pieces of a word, to settle [Piece] by computation. *)
Fixpoint pieces (B : break_table) (n : nat) (w : str) : list str :=
  w :: match n with
  | O => []
  | S n =>
      flat_map (fun p => match strip_prefix p w with Some r => pieces B n r | None => [] end) (start_breaks B) ++
      flat_map (fun p => match strip_suffix p w with Some r => pieces B n r | None => [] end) (end_breaks B) ++
      flat_map (fun p => flat_map (fun i => match strip_prefix p (skipn i w) with
        | Some v => if nonempty v then pieces B n (firstn i w) ++ pieces B n v else []
        | None => [] end) (seq 0 (S (length w)))) (middle_breaks B)
  end.
Lemma piece_in : forall B n w x, Piece B n w x -> In x (pieces B n w).
Proof.
  assert (CUT : forall B n p u v, In p (middle_breaks B) -> v <> [] -> forall x, In x (pieces B n u) \/ In x (pieces B n v) ->
    In x (pieces B (S n) (u ++ p ++ v))).
  { intros B n p u v Hp Hv x HI. cbn [pieces]. right. rewrite !in_app_iff. right. right. apply in_flat_map. exists p. split; [exact Hp|].
    apply in_flat_map. exists (length u). split; [apply in_seq; rewrite app_length; lia|].
    rewrite (@skipn_app_exact _ u (p ++ v) (length u)) by reflexivity. rewrite (@firstn_app_exact _ u (p ++ v) (length u)) by reflexivity.
    assert (strip_prefix p (p ++ v) = Some v) as -> by (apply strip_prefix_spec; reflexivity).
    destruct v; [contradiction|]. cbn [nonempty]. apply in_or_app. exact HI. }
  intros B n w x H. induction H as [n w|n p w x Hp _ IH|n p w x Hp _ IH|n p u v x Hp Hv _ IH|n p u v x Hp Hv _ IH].
  - destruct n; left; reflexivity.
  - cbn [pieces]. right. rewrite !in_app_iff. left. apply in_flat_map. exists p. split; [exact Hp|].
    assert (strip_prefix p (p ++ w) = Some w) as -> by (apply strip_prefix_spec; reflexivity). exact IH.
  - cbn [pieces]. right. rewrite !in_app_iff. right. left. apply in_flat_map. exists p. split; [exact Hp|].
    assert (strip_suffix p (w ++ p) = Some w) as -> by (apply strip_suffix_spec; reflexivity). exact IH.
  - apply CUT; auto.
  - apply CUT; auto.
Qed.
Lemma no_empty_piece : forall B n w, existsb (fun x => negb (nonempty x)) (pieces B n w) = false -> ~ Piece B n w [].
Proof.
  intros B n w E H. apply piece_in in H. apply not_true_iff_false in E. apply E. apply existsb_exists. exists []. auto.
Qed.

Example C01_example : (accepted ex_pl en (lit "well-known") \/ rejected ex_pl en (lit "well-known")) /\
  (exists b, answers ex_pl en true true (lit "well-known.") (Ret b)).
Proof.
  split.
  - apply C01_check_returns; [exact ex_pl_wf|exact en_reachable|apply plain_shrinks; reflexivity|left; reflexivity|word_facts].
  - apply C01_any_options; [exact ex_pl_wf|exact en_reachable|apply plain_shrinks; reflexivity|left; reflexivity| |word_facts|].
    + intros c _. cbn. discriminate.
    + intros w' HC. assert (w' = lit "well-known.") as ->.
      { change (Converts [] (lit "well-known.") w') in HC. revert HC. generalize (lit "well-known."). intros u HC.
        induction HC as [|x w out _ _ IH|c r out Hc _ _ _ _]; [reflexivity|f_equal; exact IH|destruct Hc]. }
      split; [apply no_empty_piece; vm_compute; reflexivity|]. intros v n Ev Fv.
      assert (v = lit "well-known") as ->.
      { apply (f_equal trim_end_dots) in Ev. rewrite trim_dots, (@trim_id v Fv) in Ev. rewrite <- Ev. vm_compute. reflexivity. }
      apply no_empty_piece. vm_compute. reflexivity.
Qed.
Example C02_example : dict_check ex_pl en 0 (repeat 97%N 361) = Ret false /\ dict_check ex_pl en 0 [] = Ret true.
Proof. split; [exact (proj1 (C02_check_length_limit ex_pl_wf en_reachable false false (repeat 97%N 361) 0) eq_refl)|exact (proj2 (C02_check_length_limit ex_pl_wf en_reachable false false [] 0))]. Qed.
Example C03_example : dict_check ex_pl en 0 (lit "-3,141.59") = Ret true /\ ~ Numeral (lit "3,,1") /\ ~ Numeral (lit "3.").
Proof.
  split; [|split].
  - apply C03_numerals_accepted; [reflexivity|apply is_number_spec; reflexivity|discriminate].
  - intro H. apply is_number_spec in H. discriminate.
  - intro H. apply is_number_spec in H. discriminate.
Qed.
Definition none_ : dictionary := Eval vm_compute in (the (built ex_pl [] (lit "0
")) <: dictionary).
Example C03_only_example : accepted ex_pl none_ (lit "1-2..").
Proof.
  apply C03_only_numerals; [exact ex_pl_wf|ex_dict (@nil N) (lit "0
")|apply plain_shrinks; reflexivity|reflexivity..|word_facts|]. split; [discriminate|].
  right. exists (lit "1-2"), 2. split; [reflexivity|]. split; [intros v E; apply (f_equal (fun l => last l 0%N)) in E; rewrite last_last in E; discriminate|].
  apply is_number_spec. reflexivity.
Qed.

Example C18_example : accepted ex_pl en (lit "well-known") /\ Glued en (Whole ex_pl en) 9 (lit "well-known") /\
  rejected ex_pl wl (lit "locc").
Proof.
  assert (accepted ex_pl en (lit "well-known")) as A by settle 200.
  split; [exact A|]. split; [|settle 50].
  exact (C18_broken_words_are_glued ex_pl_wf en_reachable (@plain_shrinks en eq_refl eq_refl) eq_refl (lit_scalars "well-known" eq_refl) (ordinary_dec en_k (lit "well-known") eq_refl) A).
Qed.
Example C22_example : accepted ex_pl wl (lit "LOCKS") /\ Glued wl (Explained ex_pl wl) 9 (lit "LOCKS").
Proof.
  assert (accepted ex_pl wl (lit "LOCKS")) as A by settle 50. split; [exact A|].
  exact (C22_accepted_words_explained ex_pl_wf wl_reachable wl_shrinks eq_refl (lit_scalars "LOCKS" eq_refl) (ordinary_dec (checker_of ex_pl wl false false) (lit "LOCKS") eq_refl) A).
Qed.
Definition bare : dictionary := Eval vm_compute in (the (built ex_pl hom_aff (lit "2
alpha
Beta
")) <: dictionary).
Lemma bare_reachable : Reachable ex_pl bare.
Proof. ex_dict hom_aff (lit "2
alpha
Beta
"). Qed.
Example C22_word_list_example : exists v fu hh ok flags, Reading ex_pl bare (lit "BETA") v fu hh ok /\ listed bare v flags /\ ok flags.
Proof.
  destruct (@C22_word_list ex_pl ex_pl_wf bare bare_reachable (@plain_shrinks bare eq_refl eq_refl) eq_refl eq_refl eq_refl eq_refl eq_refl (lit "BETA")) as (v & fu & hh & ok & fl & H1 & H2 & H3 & _);
    [word_facts..|settle 50|]. exists v, fu, hh, ok, fl. auto.
Qed.


Lemma simple_from_check : forall pl d w hh f, wf_platform pl -> Reachable pl d -> scalars w ->
  check_simple_word (checker_of pl d false false) w hh = Some f -> SimpleWord (d_aff d) (listed d) hh w f.
Proof.
  intros pl d w hh f WP R Hw H. apply simple_word_sound in H; [|exact (dict_wf_checker WP (reachable_ok WP R) false false)|exact Hw].
  eapply simple_mono; [|exact H]. intros s g Hg. change (In g (ck_get (checker_of pl d false false) s)) in Hg. rewrite (entries_get WP) in Hg. apply entries_In, Hg.
Qed.

Example C19_example : accepted ex_pl wl (lit "Locks") /\ accepted ex_pl wl (lit "LOCKS") /\ accepted ex_pl wl (lit "PARIS").
Proof.
  split; [|split].
  - apply (C19_title_case ex_pl_wf wl_reachable wl_shrinks eq_refl (w := lit "locks") (flags := lit "S")); [word_facts..|reflexivity|reflexivity|reflexivity| | |].
    + apply (@simple_from_check ex_pl); [exact ex_pl_wf|exact wl_reachable|word_facts|vm_compute; reflexivity].
    + intros f H. exact (proj2 (wl_clean H)).
    + intros hh v f _ H. exact (proj1 (wl_clean H)).
  - apply (C19_all_caps ex_pl_wf wl_reachable wl_shrinks eq_refl (w := lit "locks") (flags := lit "S")); [word_facts..|reflexivity|reflexivity|reflexivity| | |].
    + apply (@simple_from_check ex_pl); [exact ex_pl_wf|exact wl_reachable|word_facts|vm_compute; reflexivity].
    + intros f H. exact (proj2 (wl_clean H)).
    + intros v fu hh ok f _ H. exact (proj1 (wl_clean H)).
  - apply (C19_title_in_caps ex_pl_wf wl_reachable wl_shrinks eq_refl (t := lit "Paris") (flags := [])); [word_facts..|reflexivity|reflexivity| | |].
    + apply (@simple_from_check ex_pl); [exact ex_pl_wf|exact wl_reachable|word_facts|vm_compute; reflexivity].
    + intros f H. exact (proj2 (wl_clean H)).
    + intros v fu hh ok f _ H. exact (proj1 (wl_clean H)).
Qed.

Definition kc_aff : str := lit "KEEPCASE K
".
Definition kc : dictionary := Eval vm_compute in (the (built ex_pl kc_aff (lit "2
ipod/K
kg/K
")) <: dictionary).
Lemma kc_reachable : Reachable ex_pl kc.
Proof. ex_dict kc_aff (lit "2
ipod/K
kg/K
"). Qed.
Lemma kc_finds : forall fu hh w f, Finds ex_pl kc fu hh w f -> listed kc w f.
Proof.
  intros fu hh w f H. apply finds_direct in H; [apply H|reflexivity..].
Qed.
Example C20_example : accepted ex_pl kc (lit "ipod") /\ rejected ex_pl kc (lit "Ipod") /\ rejected ex_pl kc (lit "KG") /\
  (forall x, ~ listed kc x (lit "K") -> scalars x -> ordinary (checker_of ex_pl kc false false) x -> Unbreakable (checker_of ex_pl kc false false) x ->
     classify_casing ascii_unicode x = CAll -> ~ In 39%N x -> ~ accepted ex_pl kc x).
Proof.
  assert (L : forall w f, listed kc w f -> (w = lit "ipod" \/ w = lit "kg") /\ f = lit "K").
  { intros w f H. unfold listed in H. cbn in H. destruct H as [H|[H|[]]]; inversion H; subst; auto. }
  assert (K : forall stem f, listed kc stem f -> marked (o_keep_case (ad_options (d_aff kc))) f).
  { intros stem f H. apply L in H. destruct H as [_ ->]. exists 75%N. split; [reflexivity|left; reflexivity]. }
  assert (NF : forall a b x, x = (a ++ [39%N]) ++ b -> In 39%N x).
  { intros a b x ->. rewrite !in_app_iff. left. right. left. reflexivity. }
  split; [settle 50|]. split; [|split].
  - apply (C20_keepcase_rejected ex_pl_wf kc_reachable (@plain_shrinks kc eq_refl eq_refl) eq_refl); [word_facts..|left; reflexivity|reflexivity| | |].
    + intros hh f H. apply kc_finds in H. apply L in H. destruct H as [[H|H] _]; discriminate.
    + intros v f _ H. apply kc_finds in H. exact (K _ _ H).
    + intros a b tb v f E _ _ _ _ _. apply NF in E. cbn in E. intuition discriminate.
  - apply (C20_keepcase_rejected ex_pl_wf kc_reachable (@plain_shrinks kc eq_refl eq_refl) eq_refl); [word_facts..|right; reflexivity|reflexivity| | |].
    + intros hh f H. apply kc_finds in H. apply L in H. destruct H as [[H|H] _]; discriminate.
    + intros v f _ H. apply kc_finds in H. exact (K _ _ H).
    + intros a b tb v f E _ _ _ _ _. apply NF in E. cbn in E. intuition discriminate.
  - intros x NL Hx HO HU HC HA ACC.
    destruct (C20_all_keepcase ex_pl_wf kc_reachable (@plain_shrinks kc eq_refl eq_refl) eq_refl K Hx HO HU (or_intror HC) eq_refl HA ACC) as (hh & f & H).
    apply kc_finds in H. destruct (L _ _ H) as [_ ->]. exact (NL H).
Qed.

(** KEEPCASE is not looked at after a split at an apostrophe (checker.rs 251-283). *)
Definition ka : dictionary := Eval vm_compute in (the (built ex_pl kc_aff (lit "1
Sant'Elia/K
")) <: dictionary).
Lemma ka_reachable : Reachable ex_pl ka.
Proof. ex_dict kc_aff (lit "1
Sant'Elia/K
"). Qed.
Theorem C20_apostrophe_refuted : (forall stem f, listed ka stem f -> marked (o_keep_case (ad_options (d_aff ka))) f) /\
  ~ (exists f, listed ka (lit "SANT'ELIA") f) /\ accepted ex_pl ka (lit "SANT'ELIA").
Proof.
  split; [|split; [|settle 50]].
  - intros stem f H. unfold listed in H. cbn in H.
    repeat (destruct H as [H|H]; [inversion H; subst; exists 75%N; split; [reflexivity|cbn; auto]|]). destruct H.
  - intros [f H]. unfold listed in H. cbn in H. repeat (destruct H as [H|H]; [discriminate|]). exact H.
Qed.
(** Of a compound, only the first part's KEEPCASE counts (checker.rs 1387 and below). *)
Definition kd_aff : str := lit "KEEPCASE K
COMPOUNDFLAG C
COMPOUNDMIN 1
".
Definition kd_dic : str := lit "2
foo/C
bar/CK
".
Definition kd2 : dictionary := Eval vm_compute in (the (built ex_pl kd_aff kd_dic) <: dictionary).
Lemma kd2_reachable : Reachable ex_pl kd2. Proof. ex_dict kd_aff kd_dic. Qed.
Theorem C20_compound_refuted : listed kd2 (lit "bar") (lit "CK") /\ rejected ex_pl kd2 (lit "BAR") /\
  rejected ex_pl kd2 (lit "BARFOO") /\ accepted ex_pl kd2 (lit "FOOBAR").
Proof. split; [is_listed|]. split; [|split]; settle 50. Qed.

Example C21_example : forall fuel, dict_check ex_pl fb fuel (lit "colour") = Ret false.
Proof.
  apply (@C21_forbidden_rejected ex_pl ex_pl_wf fb fb_reachable (lit "colour") (lit "X")); [word_facts|is_listed| | | |].
  - intros [g [E H]]. injection E as <-. cbn in H. intuition discriminate.
  - intros [g [E H]]. discriminate.
  - cbn. intuition discriminate.
  - intros f Hf. unfold listed in Hf. cbn in Hf. repeat (destruct Hf as [Hf|Hf]; [inversion Hf; subst; left; cbn; tauto|]). destruct Hf.
Qed.

Definition ic_aff : str := lit "IGNORE '
ICONV 2
ICONV q k
ICONV qu kw
".
Definition ic_dic : str := lit "1
kant
".
Definition ic : dictionary := Eval vm_compute in (the (built ex_pl ic_aff ic_dic) <: dictionary).
Lemma ic_reachable : Reachable ex_pl ic. Proof. ex_dict ic_aff ic_dic. Qed.
Lemma conv_is : forall pl d, wf_platform pl -> Reachable pl d -> forall u u',
  (forall c c', In c (ct_inner (ad_iconv (d_aff d))) -> In c' (ct_inner (ad_iconv (d_aff d))) -> cv_from c = cv_from c' -> cv_to c = cv_to c') ->
  scalars u -> convert (ad_iconv (d_aff d)) u = Ret u' -> forall x, Converts (ct_inner (ad_iconv (d_aff d))) u x -> x = u'.
Proof.
  intros pl d WP R u u' HU Hu E x Hx. destruct (reachable_ok WP R) as [_ [y [LP CO]]]. pose proof (aff_facts WP LP CO) as F.
  destruct (@convert_spec (ad_iconv (d_aff d)) u) as [w2 [E2 C2]]; [tauto|exact Hu|].
  assert (w2 = u') as -> by congruence. exact (Converts_det HU Hx C2).
Qed.
Lemma conv_of : forall pl d, wf_platform pl -> Reachable pl d -> forall u u',
  scalars u -> convert (ad_iconv (d_aff d)) u = Ret u' -> Converts (ct_inner (ad_iconv (d_aff d))) u u'.
Proof.
  intros pl d WP R u u' Hu E. destruct (reachable_ok WP R) as [_ [y [LP CO]]]. pose proof (aff_facts WP LP CO) as F.
  destruct (@convert_spec (ad_iconv (d_aff d)) u) as [w2 [E2 C2]]; [tauto|exact Hu|]. congruence.
Qed.
Lemma ic_unambiguous : forall c c', In c (ct_inner (ad_iconv (d_aff ic))) -> In c' (ct_inner (ad_iconv (d_aff ic))) -> cv_from c = cv_from c' -> cv_to c = cv_to c'.
Proof. intros c c' H H' E. repeat (destruct H as [<-|H]; [repeat (destruct H' as [<-|H']; [(reflexivity || discriminate E)|]); destruct H'|]). destruct H. Qed.
Ltac not_dotted := intros v E; apply (f_equal (fun l => last l 0%N)) in E; rewrite last_last in E; discriminate.
Example C26_example : accepted ex_pl ic (lit "qant") /\
  (forall fuel, dict_check ex_pl ic fuel (lit "q'a'nt") = dict_check ex_pl ic fuel (lit "kant")) /\
  Eventually (fun fuel => dict_check ex_pl ic fuel (lit "ka'nt..")) (Ret true).
Proof.
  split; [settle 50|]. split.
  - intro fuel. apply (@C26_ignored_chars ex_pl ex_pl_wf ic ic_reachable (lit "q'a'nt") (lit "kant") (lit "k'a'nt") (lit "kant"));
      try (word_facts || discriminate || not_dotted || reflexivity || (intro N; apply is_number_spec in N; discriminate)).
    + apply (conv_is ex_pl_wf ic_reachable); [exact ic_unambiguous|word_facts|reflexivity].
    + apply (conv_is ex_pl_wf ic_reachable); [exact ic_unambiguous|word_facts|reflexivity].
  - exists 50. intros fuel Hf. apply (@C26_dotted_words ex_pl ex_pl_wf ic ic_reachable (lit "qant") (lit "ka'nt..") (lit "kant") (lit "ka'nt") 2);
      try (word_facts || discriminate || not_dotted || reflexivity || (intro N; apply is_number_spec in N; discriminate)).
    + apply (conv_is ex_pl_wf ic_reachable); [exact ic_unambiguous|word_facts|reflexivity].
    + apply (conv_is ex_pl_wf ic_reachable); [exact ic_unambiguous|word_facts|reflexivity].
Qed.
Example C27_example : accepted ex_pl ic (lit "qant...").
Proof.
  assert (X : accepted ex_pl ic (lit "qant")) by settle 50. destruct X as [n X]. exists n. intros fuel Hf.
  apply (@C27_dotless_conversions ex_pl ex_pl_wf ic ic_reachable) with (w := lit "qant") (n := 3) (w' := lit "kant").
  - intros c H. repeat (destruct H as [<-|H]; [split; [intro X0; cbn in X0; repeat (destruct X0 as [X0|X0]; [discriminate X0|]); exact X0|reflexivity]|]). destruct H.
  - exact ic_unambiguous.
  - word_facts.
  - discriminate.
  - apply (conv_of ex_pl_wf ic_reachable); [word_facts|reflexivity].
  - discriminate.
  - not_dotted.
  - exact (X fuel Hf).
Qed.

(** German with CHECKSHARPS. *)
Definition de_aff : str := lit "CHECKSHARPS
KEEPCASE K
".
Definition de_dic : str := lit "1
" ++ lit "stra" ++ [sharp_s] ++ lit "e
".
Definition de : dictionary := Eval vm_compute in (the (built latin_pl de_aff de_dic) <: dictionary).
Lemma de_reachable : Reachable latin_pl de. Proof. latin_dict de_aff de_dic. Qed.
Lemma de_clean : forall fu hh w f, Finds latin_pl de fu hh w f -> ~ Barred de f.
Proof.
  intros fu hh w f H. apply finds_listed in H; [|exact latin_pl_wf|exact de_reachable]. destruct H as [st H].
  intros [X|[X _]]; [|discriminate]. unfold listed in H. cbn in H. destruct H as [H|[]]. inversion H. subst. destruct X.
Qed.
Example C48_example : accepted latin_pl de (lit "STRASSE") /\ expand (lit "stra" ++ [sharp_s] ++ lit "e") = lit "strasse".
Proof.
  split; [|reflexivity].
  apply (C48_sharp_words_accepted latin_pl_wf de_reachable (@plain_shrinks de eq_refl eq_refl) eq_refl
    (t := lit "strasse") (v := lit "stra" ++ [sharp_s] ++ lit "e") (flags := []));
    [word_facts..|reflexivity|reflexivity| |left; reflexivity| | | |].
  - exists (lit "STRA"), (lit "E"). reflexivity.
  - exists (lit "stra"), (lit "e"). reflexivity.
  - apply sharp_variants_spec. vm_compute. tauto.
  - apply (@simple_from_check latin_pl); [exact latin_pl_wf|exact de_reachable|word_facts|vm_compute; reflexivity].
  - intros v fu hh ok f _ H. exact (de_clean H).
Qed.

Example C49_example : answers ex_pl wl true false (lit "paris") (Ret true) /\ rejected ex_pl wl (lit "paris") /\
  ~ answers ex_pl wl true false (lit "nasa") (Ret true).
Proof.
  assert (B : forall w, ordinaryb (checker_of ex_pl wl false false) w = true -> unbreakableb (checker_of ex_pl wl false false) w = true ->
    ordinary (checker_of ex_pl wl false false) w /\ Unbreakable (checker_of ex_pl wl false false) w /\
    (forall v fu hh ok f, Reading ex_pl wl w v fu hh ok -> Finds ex_pl wl fu hh v f -> ~ Barred wl f)).
  { intros w H1 H2. split; [apply ordinary_dec, H1|]. split; [apply unbreakable_dec, H2|]. intros v fu hh ok f _ H. exact (proj1 (wl_clean H)). }
  split; [|split; [settle 50|]].
  - apply (C49_options_exact ex_pl_wf wl_reachable wl_shrinks eq_refl true false (w := lit "paris") (t := lit "Paris") (u := lit "PARIS"));
      [word_facts|reflexivity|reflexivity| |left; reflexivity|reflexivity|reflexivity|].
    + intros x [-> | [-> | ->]]; apply B; reflexivity.
    + right. left. split; [reflexivity|settle 50].
  - intro H. apply (C49_options_exact ex_pl_wf wl_reachable wl_shrinks eq_refl true false (w := lit "nasa") (t := lit "Nasa") (u := lit "NASA")) in H;
      [|word_facts|reflexivity|reflexivity| |left; reflexivity|reflexivity|reflexivity].
    2:{ intros x [-> | [-> | ->]]; apply B; reflexivity. }
    assert (R1 : rejected ex_pl wl (lit "nasa")) by settle 50. assert (R2 : rejected ex_pl wl (lit "Nasa")) by settle 50.
    destruct H as [H|[[_ H]|[X _]]]; [| |discriminate].
    + pose proof (eventually_det H R1) as X. discriminate.
    + pose proof (eventually_det H R2) as X. discriminate.
Qed.

Definition wk_dic : str := lit "3
well
known
Well-
".
Definition wk : dictionary := Eval vm_compute in (the (built ex_pl hom_aff wk_dic) <: dictionary).
Lemma wk_reachable : Reachable ex_pl wk. Proof. ex_dict hom_aff wk_dic. Qed.
Example C49_broken_example : answers ex_pl wk true true (lit "well-known") (Ret true).
Proof.
  apply (C49_options_only_add_broken ex_pl_wf wk_reachable); [apply plain_shrinks; reflexivity|reflexivity|intros c _; cbn; discriminate| |word_facts| | |].
  - intros stem f H. revert H. unfold listed. intro H. cbn in H. repeat (destruct H as [H|H]; [injection H as <- <-; intros [X|[X _]]; [cbn in X; tauto|discriminate]|]). destruct H.
  - apply ordinary_dec. reflexivity.
  - apply no_empty_piece. vm_compute. reflexivity.
  - settle 50.
Qed.

Definition wl2 : dictionary := Eval vm_compute in (the (built ex_pl wl_aff (lit "3
NASA
Paris
lock/S
")) <: dictionary).
Example C46_example : forall lt lu fuel w, check (checker_of ex_pl wl lt lu) fuel w = check (checker_of ex_pl wl2 lt lu) fuel w.
Proof.
  apply C46_order_irrelevant; try exact ex_pl_wf; try reflexivity.
  - exact (Permutation_rev (d_words wl)).
  - intros w f1 f2 H1 H2. unfold listed in *. cbn in H1, H2.
    repeat (destruct H1 as [H1|H1]; [inversion H1; subst; clear H1;
      repeat (destruct H2 as [H2|H2]; [inversion H2; subst; reflexivity|]); destruct H2|]). destruct H1.
Qed.
Example C46_plain_example : forall fuel w, scalars w -> dict_check ex_pl wl fuel w = dict_check ex_pl wl2 fuel w.
Proof.
  apply C46_order_irrelevant_plain; [exact ex_pl_wf|exact wl_reachable|reflexivity|exact wl_shrinks|reflexivity..| |].
  - intros w f. unfold listed. cbn. tauto.
  - intros w f H. unfold listed in H. cbn in H. split; [intros [X|[X _]]; [|discriminate]|intros [g [X _]]; discriminate].
    repeat (destruct H as [H|H]; [inversion H; subst; cbn in X; intuition discriminate|]). destruct H.
Qed.

Print Assumptions C01_check_never_hangs.
Print Assumptions C01_check_returns.
Print Assumptions C01_any_options.
Print Assumptions C01_pattern_diverges_refuted.
Print Assumptions C02_check_length_limit.
Print Assumptions C03_numerals_accepted.
Print Assumptions C03_only_numerals.
Print Assumptions C18_broken_words_are_glued.
Print Assumptions C18_break_iff.
Print Assumptions C18_whole_words_accepted.
Print Assumptions C18_unbroken_rejected.
Print Assumptions C22_accepted_words_explained.
Print Assumptions C22_unknown_words_rejected.
Print Assumptions C22_word_list.
Print Assumptions C19_readings_accepted.
Print Assumptions C19_title_case.
Print Assumptions C19_all_caps.
Print Assumptions C19_title_in_caps.
Print Assumptions C20_keepcase_rejected.
Print Assumptions C20_all_keepcase.
Print Assumptions C20_apostrophe_refuted.
Print Assumptions C20_compound_refuted.
Print Assumptions C48_sharp_words_accepted.
Print Assumptions C48_only_exchanges.
Print Assumptions C21_forbidden_rejected.
Print Assumptions C26_ignored_chars.
Print Assumptions C26_dotted_words.
Print Assumptions C27_trailing_dots.
Print Assumptions C27_dotless_conversions.
Print Assumptions C49_options_only_add.
Print Assumptions C49_options_only_add_broken.
Print Assumptions C49_broken_word_refuted.
Print Assumptions C49_options_exact.
Print Assumptions C48_exchange.
Print Assumptions C46_same_entries_same_answers.
Print Assumptions C46_order_irrelevant.
Print Assumptions C46_order_irrelevant_plain.
Print Assumptions C01_lower_as_title_panics_refuted.
Print Assumptions C01_lower_as_upper_panics_refuted.
Print Assumptions C01_syllable_overflow_refuted.
Print Assumptions C01_simplified_triple_diverges_refuted.
Print Assumptions C21_need_affix_refuted.
Print Assumptions C26_dotted_entry_refuted.
Print Assumptions C27_empty_refuted.
Print Assumptions C27_dotted_entry_refuted.
Print Assumptions C46_homonym_order_refuted.
Print Assumptions C49_forbidden_lower_refuted.
