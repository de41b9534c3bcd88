(** The entry points of the checker (checker.rs 97-402) against a specification: numerals,
    case variants, BREAK, IGNORE, trailing dots; termination of [check]. *)
From Coq Require Import List NArith ZArith Lia Bool Arith.
From Coq Require Import ZifyBool ZifyNat ZifyN.
From Verif Require Import Base Utf8 Unicode Flags Condition Affix CompoundRule Conversion Aff Checker AffixSpec Rep CompoundSpec CompoundTotal RuleCompound.
Import ListNotations.
Set Implicit Arguments.

(** ** Numerals (C03) *)
Definition digit (c : N) : Prop := (48 <= c <= 57)%N.
Definition separator (c : N) : Prop := c = 46%N \/ c = 44%N \/ c = 45%N.

(** One or more digits, then any number of (separator, one or more digits). *)
Inductive Digits : str -> Prop :=
| Digits_one : forall c, digit c -> Digits [c]
| Digits_more : forall c w, digit c -> Digits w -> Digits (c :: w).
Inductive Groups : str -> Prop :=
| Groups_one : forall w, Digits w -> Groups w
| Groups_more : forall w s v, Digits w -> separator s -> Groups v -> Groups (w ++ s :: v).
Definition Numeral (w : str) : Prop := Groups w \/ exists v, w = 45%N :: v /\ Groups v.

Lemma Groups_cons : forall c w, digit c -> Groups w -> Groups (c :: w).
Proof.
  intros c w Hc H. destruct H as [w H|w s v H1 H2 H3].
  - apply Groups_one. apply Digits_more; assumption.
  - change (c :: w ++ s :: v) with ((c :: w) ++ s :: v). apply Groups_more; try assumption. apply Digits_more; assumption.
Qed.

Lemma Groups_inv : forall c w, Groups (c :: w) ->
  digit c /\ (w = [] \/ Groups w \/ exists s v, w = s :: v /\ separator s /\ Groups v).
Proof.
  intros c w H. remember (c :: w) as x eqn:E. destruct H as [x H|x s v H1 H2 H3].
  - subst x. inversion H; subst; [auto|]. split; [assumption|]. right. left. apply Groups_one. assumption.
  - inversion H1; subst; cbn in E; injection E as -> <-.
    + split; [assumption|]. right. right. eauto.
    + split; [assumption|]. right. left. apply Groups_more; assumption.
Qed.

Lemma digit_dec : forall c, (48 <=? c)%N && (c <=? 57)%N = true <-> digit c.
Proof. intro c. unfold digit. lia. Qed.

Lemma sep_dec : forall c, ((c =? 46) || (c =? 45) || (c =? 44))%N = true <-> separator c.
Proof. intro c. unfold separator. lia. Qed.

Lemma Groups_ne : forall w, Groups w -> w <> [].
Proof. intros w H E. subst. remember [] as x eqn:E. destruct H as [x H|x s v H1 H2 H3]; [subst; inversion H|destruct x; discriminate]. Qed.

Lemma number_go_spec : forall w b, number_go w b = true <->
  (if b then Groups w else w = [] \/ Groups w \/ exists s v, w = s :: v /\ separator s /\ Groups v).
Proof.
  induction w as [|c w IH]; intro b; cbn [number_go].
  - destruct b; cbn [negb].
    + split; [discriminate|]. intro H. contradiction (Groups_ne H). reflexivity.
    + split; [auto|reflexivity].
  - destruct ((48 <=? c)%N && (c <=? 57)%N) eqn:Ed.
    + apply digit_dec in Ed. rewrite IH.
      assert (X : (w = [] \/ Groups w \/ (exists s v, w = s :: v /\ separator s /\ Groups v)) <-> Groups (c :: w)).
      { split.
        - intros [->|[H|(s & v & -> & Hs & H)]].
          + apply Groups_one, Digits_one. exact Ed.
          + apply Groups_cons; assumption.
          + change (c :: s :: v) with ([c] ++ s :: v). apply Groups_more; try assumption. apply Digits_one. exact Ed.
        - intro H. apply Groups_inv in H. tauto. }
      destruct b; [exact X|]. rewrite X. split; [auto|]. intros [H|[H|(s & v & H & Hs & _)]]; [discriminate|exact H|].
      injection H as -> ->. unfold digit in Ed. unfold separator in Hs. lia.
    + assert (~ digit c) as Nd by (rewrite <- digit_dec; congruence).
      destruct (((c =? 46) || (c =? 45) || (c =? 44))%N && negb b) eqn:Es.
      * apply andb_true_iff in Es. destruct Es as [Es Eb]. apply sep_dec in Es. destruct b; [discriminate|].
        rewrite IH. split; [eauto 8|]. intros [H|[H|(s & v & H & Hs & Hg)]]; [discriminate| |].
        -- apply Groups_inv in H. tauto.
        -- injection H as -> ->. exact Hg.
      * split; [discriminate|]. destruct b.
        -- intro H. apply Groups_inv in H. tauto.
        -- cbn [negb] in Es. rewrite andb_true_r in Es. intros [H|[H|(s & v & H & Hs & Hg)]]; [discriminate| |].
           ++ apply Groups_inv in H. tauto.
           ++ injection H as -> ->. apply sep_dec in Hs. congruence.
Qed.

Theorem is_number_spec : forall w, is_number w = true <-> Numeral w.
Proof.
  intro w. unfold is_number, Numeral. destruct w as [|c w].
  - cbn. split; [discriminate|]. intros [H|(v & H & _)]; [contradiction (Groups_ne H); reflexivity|discriminate].
  - cbn [strip_prefix]. destruct (N.eqb_spec 45 c) as [<-|Hne].
    + destruct w as [|d w].
      * split; [discriminate|]. intros [H|(v & H & Hg)].
        -- apply Groups_inv in H. destruct H as [H _]. unfold digit in H. lia.
        -- injection H as <-. contradiction (Groups_ne Hg). reflexivity.
      * rewrite (number_go_spec (d :: w) true). split; [eauto|]. intros [H|(v & H & Hg)].
        -- apply Groups_inv in H. destruct H as [H _]. unfold digit in H. lia.
        -- injection H as <-. exact Hg.
    + rewrite (number_go_spec (c :: w) true). split; [auto|]. intros [H|(v & H & Hg)]; [exact H|].
      injection H as -> _. contradiction Hne. reflexivity.
Qed.

Lemma numeral_last : forall w, Numeral w -> exists v c, w = v ++ [c] /\ digit c.
Proof.
  assert (D : forall w, Digits w -> exists v c, w = v ++ [c] /\ digit c).
  { induction 1 as [c Hc|c w Hc H IH]; [exists [], c; auto|]. destruct IH as (v & d & -> & Hd). exists (c :: v), d. auto. }
  assert (G : forall w, Groups w -> exists v c, w = v ++ [c] /\ digit c).
  { induction 1 as [w H|w s v H Hs Hg IH]; [auto|]. destruct IH as (u & d & -> & Hd). exists (w ++ s :: u), d.
    rewrite <- app_assoc. auto. }
  intros w [H|(v & -> & H)]; [auto|]. destruct (G v H) as (u & d & -> & Hd). exists (45%N :: u), d. auto.
Qed.

(** ** Trailing full stops *)
Fixpoint dots (n : nat) : str := match n with O => [] | S n' => 46%N :: dots n' end.
Definition no_final_dot (w : str) : Prop := forall v, w <> v ++ [46%N].

Lemma drop_dots_id : forall r, (forall r', r <> 46%N :: r') -> drop_dots r = r.
Proof.
  intros [|c r] H; [reflexivity|]. cbn [drop_dots]. destruct (N.eq_dec c 46) as [->|Hc]; [contradiction (H r); reflexivity|].
  destruct c as [|p]; [reflexivity|]. do 6 (destruct p as [p|p|]; try reflexivity). contradiction Hc. reflexivity.
Qed.

Lemma trim_id : forall w, no_final_dot w -> trim_end_dots w = w.
Proof.
  intros w H. unfold trim_end_dots. rewrite drop_dots_id; [apply rev_involutive|].
  intros r' E. apply (H (rev r')). rewrite <- (rev_involutive w), E. reflexivity.
Qed.

Lemma trim_dots : forall n w, trim_end_dots (w ++ dots n) = trim_end_dots w.
Proof.
  assert (R : forall n, rev (dots n) = dots n).
  { assert (S1 : forall n, dots n ++ [46%N] = 46%N :: dots n) by (induction n as [|n IH]; cbn; [reflexivity|rewrite IH; reflexivity]).
    induction n as [|n IH]; [reflexivity|]. cbn. rewrite IH. apply S1. }
  intros n w. unfold trim_end_dots. rewrite rev_app_distr, R. f_equal. induction n as [|n IH]; [reflexivity|exact IH].
Qed.

Lemma drop_dots_split : forall r, exists n, r = dots n ++ drop_dots r /\ (forall r', drop_dots r <> 46%N :: r').
Proof.
  induction r as [|c r [n [E H]]]; [exists 0; split; [reflexivity|intros r' X; discriminate]|].
  destruct (N.eq_dec c 46) as [->|Hc].
  - exists (S n). cbn [drop_dots dots app]. split; [f_equal; exact E|exact H].
  - exists 0. rewrite drop_dots_id; [|intros r' X; injection X; auto]. split; [reflexivity|]. intros r' X. injection X. auto.
Qed.

Lemma dots_rev : forall n, rev (dots n) = dots n.
Proof.
  assert (S1 : forall n, dots n ++ [46%N] = 46%N :: dots n) by (induction n as [|n IH]; cbn; [reflexivity|rewrite IH; reflexivity]).
  induction n as [|n IH]; [reflexivity|]. cbn. rewrite IH. apply S1.
Qed.

Lemma trim_split : forall w, exists n, w = trim_end_dots w ++ dots n /\ no_final_dot (trim_end_dots w).
Proof.
  intro w. unfold trim_end_dots. destruct (drop_dots_split (rev w)) as [n [E H]]. exists n. split.
  - rewrite <- (rev_involutive w) at 1. rewrite E at 1. rewrite rev_app_distr, dots_rev. reflexivity.
  - intros v X. apply (H (rev v)). rewrite <- (rev_involutive (drop_dots (rev w))), X, rev_app_distr. reflexivity.
Qed.

Lemma trim_abbrev : forall w, negb (length (trim_end_dots w) =? length w)%nat = true <-> exists v, w = v ++ [46%N].
Proof.
  intro w. destruct (trim_split w) as [n [E H]]. rewrite negb_true_iff, Nat.eqb_neq. split.
  - intro L. destruct n as [|n].
    + rewrite E in L at 2. rewrite app_nil_r in L. contradiction L. reflexivity.
    + exists (trim_end_dots w ++ dots n). rewrite E at 1. rewrite <- app_assoc. f_equal.
      clear. induction n as [|n IH]; [reflexivity|]. cbn in *. f_equal. exact IH.
  - intros [v Ev] L. assert (n = 0) as ->.
    { apply (f_equal (@length N)) in E. rewrite app_length, L in E.
      assert (forall m, length (dots m) = m) as X by (induction m; cbn; congruence). rewrite X in E. lia. }
    rewrite app_nil_r in E. apply (H v). congruence.
Qed.

(** ** CHECKSHARPS variants (C48) *)
(** [v] comes from [w] by writing ß for some of the first [n] occurrences of ss, which are
    found left to right without overlap. *)
Inductive SharpVariant : nat -> str -> str -> Prop :=
| SV_stop : forall w, SharpVariant 0 w w
| SV_none : forall n w, (forall u v, w <> u ++ ss ++ v) -> SharpVariant n w w
| SV_replace : forall n u v v', (forall a b, u ++ ss ++ v = a ++ ss ++ b -> length u <= length a) ->
    SharpVariant n v v' -> SharpVariant (S n) (u ++ ss ++ v) (u ++ [sharp_s] ++ v')
| SV_keep : forall n u v v', (forall a b, u ++ ss ++ v = a ++ ss ++ b -> length u <= length a) ->
    SharpVariant n v v' -> SharpVariant (S n) (u ++ ss ++ v) (u ++ ss ++ v').

Fixpoint sharp_variants (n : nat) (w : str) : list str :=
  match n with
  | O => [w]
  | S n' =>
      match find_sub ss w with
      | None => [w]
      | Some i =>
          map (fun v => firstn i w ++ [sharp_s] ++ v) (sharp_variants n' (skipn (i + 2) w)) ++
          map (fun v => firstn i w ++ ss ++ v) (sharp_variants n' (skipn (i + 2) w))
      end
  end.

Lemma find_ss_split : forall w i, find_sub ss w = Some i ->
  w = firstn i w ++ ss ++ skipn (i + 2) w /\
  (forall a b, firstn i w ++ ss ++ skipn (i + 2) w = a ++ ss ++ b -> length (firstn i w) <= length a) /\ i <= length w.
Proof.
  intros w i H. destruct (find_sub_split _ _ H) as (u & v & E & L & M).
  assert (firstn i w = u) as F by (rewrite E; apply firstn_app_exact; symmetry; exact L).
  assert (skipn (i + 2) w = v) as S.
  { rewrite E, app_assoc. apply skipn_app_exact. rewrite app_length, L. reflexivity. }
  rewrite F, S. split; [exact E|]. split; [intros a b X; apply (M a b); rewrite <- X; exact E|].
  rewrite E, app_length. lia.
Qed.

Lemma app_ss_inj : forall u v u' v', u ++ ss ++ v = u' ++ ss ++ v' -> length u = length u' -> u = u' /\ v = v'.
Proof.
  induction u as [|c u IH]; intros v [|c' u'] v' E L; cbn in L; try lia.
  - apply (app_inv_head ss) in E. auto.
  - cbn [app] in E. injection E as -> E. destruct (IH v u' v' E ltac:(lia)) as [-> ->]. auto.
Qed.

Lemma sharp_variants_spec : forall n w v, In v (sharp_variants n w) <-> SharpVariant n w v.
Proof.
  induction n as [|n IH]; intros w v; cbn [sharp_variants].
  - split.
    + intros [<-|[]]. apply SV_stop.
    + intro H. left. inversion H; subst; reflexivity.
  - destruct (find_sub ss w) as [i|] eqn:E.
    + destruct (find_ss_split _ E) as (Ew & Mn & _). rewrite in_app_iff, !in_map_iff. split.
      * intros [[x [<- Hx]]|[x [<- Hx]]]; apply IH in Hx; rewrite Ew at 1; [apply SV_replace|apply SV_keep]; assumption.
      * intro H. inversion H as [|n0 w0 Hn E1 E2|n0 u0 v0 v0' M0 HS E1 E2|n0 u0 v0 v0' M0 HS E1 E2]; subst.
        -- exfalso. apply (Hn _ _ Ew).
        -- assert (length u0 = length (firstn i (u0 ++ ss ++ v0))) as L.
           { apply Nat.le_antisymm; [apply (M0 _ _ Ew)|apply (Mn u0 v0); symmetry; exact Ew]. }
           destruct (app_ss_inj _ _ _ _ Ew L) as [E1 E2].
           left. exists v0'. rewrite <- E1. split; [reflexivity|]. apply IH. rewrite <- E2. exact HS.
        -- assert (length u0 = length (firstn i (u0 ++ ss ++ v0))) as L.
           { apply Nat.le_antisymm; [apply (M0 _ _ Ew)|apply (Mn u0 v0); symmetry; exact Ew]. }
           destruct (app_ss_inj _ _ _ _ Ew L) as [E1 E2].
           right. exists v0'. rewrite <- E1. split; [reflexivity|]. apply IH. rewrite <- E2. exact HS.
    + pose proof (proj1 (find_sub_none ss w) E) as Hn. split.
      * intros [<-|[]]. apply SV_none. exact Hn.
      * intro H. inversion H; subst; [left; reflexivity| |]; exfalso; eapply Hn; reflexivity.
Qed.

(** ** The order in which spellings are tried *)
Record attempt := mkAttempt {
  at_word : str; at_fu : forceucase; at_hh : hidden_homonym; at_filter : flagset -> bool }.

Lemma firstR_app : forall X Y (f : X -> Res (option Y)) a b,
  firstR f (a ++ b) = orelse (firstR f a) (firstR f b).
Proof.
  intros X Y f a b. induction a as [|x a IH]; [reflexivity|]. cbn [app firstR].
  destruct (f x) as [[y|]| |]; try reflexivity. exact IH.
Qed.

Section Plan.
Variable k : checker.
Notation A := (ck_aff k).
Notation opts := (ad_options (ck_aff k)).
Notation U := (ck_u k).
Notation case := (o_case (ad_options (ck_aff k))).

Definition try_one (fuel : nat) (a : attempt) : Res (option flagset) :=
  r <- check_word k fuel (at_word a) (at_fu a) (at_hh a) ;;
  Ret (match r with Some f => if at_filter a f then Some f else None | None => None end).

(** Title case of a non-empty word. *)
Definition title (w : str) : str :=
  match w with [] => [] | c :: w' => upper_char U case c ++ flat_map (lower_char U case) w' end.

Definition anything (f : flagset) : bool := true.
Definition lenient (w : str) : attempt := mkAttempt w AllowBadForceucase AcceptHiddenHomonym anything.
Definition no_keep_case (w : str) : attempt :=
  mkAttempt w AllowBadForceucase AcceptHiddenHomonym (fun f => negb (keep_case k f)).

Definition has_ss (w : str) : bool := is_someb (find_sub ss w).
Definition sharps_plan (w : str) : list attempt :=
  if has_ss w then map lenient (sharp_variants 5 w) else [].

Definition plan_upper (w : str) : list attempt :=
  lenient w ::
  (match apostrophe_split w with
   | Some (a, b) => [lenient (lowercase U case a ++ title b); lenient (title a ++ title b)]
   | None => [] end) ++
  (if o_checksharps opts && is_someb (find_sub SS w)
   then sharps_plan (lowercase U case w) ++ sharps_plan (title w) else []) ++
  [no_keep_case (title w); no_keep_case (lowercase U case w)].

Definition plan_title (w : str) : list attempt :=
  [mkAttempt w AllowBadForceucase SkipHiddenHomonym anything;
   mkAttempt (lowercase U case w) AllowBadForceucase AcceptHiddenHomonym
     (fun f => negb (keep_case k f && negb (o_checksharps opts && memb sharp_s (lowercase U case w))))].

(** All spellings tried for [w], in order, each with its restrictions. *)
Definition plan (w : str) : list attempt :=
  match classify_casing U w with
  | CAll => plan_upper w
  | CInit => plan_title w
  | c =>
      mkAttempt w ForbidBadForceucase AcceptHiddenHomonym anything ::
      (if ck_lower_as_title k && match c with CPascal => false | _ => true end
       then plan_title (title w) else []) ++
      (if ck_lower_as_upper k then plan_upper (uppercase U case w) else [])
  end.

Lemma titlecase_ne : forall w, w <> [] -> titlecase U case w = Ret (title w).
Proof. intros [|c w] H; [contradiction H; reflexivity|reflexivity]. Qed.

Lemma apostrophe_parts : forall w a b, apostrophe_split w = Some (a, b) -> a <> [] /\ b <> [] /\ w = a ++ b.
Proof.
  intros w a b H. unfold apostrophe_split in H. destruct (find_char (N.eqb 39) w) as [i|] eqn:E; [|discriminate].
  destruct (Nat.eqb_spec i (length w - 1)); [discriminate|]. injection H as <- <-.
  destruct (find_char_some _ _ E) as (u & c & v & Ew & Hl & _).
  assert (i < length w) as Hi by (rewrite Ew, app_length; cbn [length]; lia).
  split; [|split].
  - intro X. apply (f_equal (@length N)) in X. rewrite firstn_length in X. cbn in X. lia.
  - intro X. apply (f_equal (@length N)) in X. rewrite skipn_length in X. cbn in X. lia.
  - symmetry. apply firstn_skipn.
Qed.

Lemma orelse_assoc : forall X (a b c : Res (option X)), orelse (orelse a b) c = orelse a (orelse b c).
Proof. intros X [[x|]| |] b c; reflexivity. Qed.
Lemma orelse_none : forall X (a : Res (option X)), orelse a (Ret None) = a.
Proof. intros X [[x|]| |]; reflexivity. Qed.

Lemma try_lenient : forall fuel w, try_one fuel (lenient w) = check_word k fuel w AllowBadForceucase AcceptHiddenHomonym.
Proof.
  intros fuel w. unfold try_one, lenient. cbn [at_word at_fu at_hh at_filter anything].
  destruct (check_word _ _ _ _ _) as [[f|]| |]; reflexivity.
Qed.

Lemma firstR_one : forall X Y (f : X -> Res (option Y)) x, firstR f [x] = f x.
Proof. intros. cbn. destruct (f x) as [[y|]| |]; reflexivity. Qed.

Lemma firstR_map : forall X Y Z (g : X -> Y) (f : Y -> Res (option Z)) l, firstR f (map g l) = firstR (fun x => f (g x)) l.
Proof. intros. induction l as [|x l IH]; [reflexivity|]. cbn. rewrite IH. reflexivity. Qed.

Lemma do_sharps_plan : forall fuel n pre rest r, 0 < r ->
  do_spell_sharps k fuel n pre rest r = firstR (fun v => try_one fuel (lenient (pre ++ v))) (sharp_variants n rest).
Proof.
  intros fuel. induction n as [|n IH]; intros pre rest r Hr; cbn [do_spell_sharps sharp_variants].
  - rewrite firstR_one, try_lenient. destruct (Nat.ltb_spec 0 r); [reflexivity|lia].
  - destruct (find_sub ss rest) as [i|] eqn:E.
    + rewrite !IH by lia. rewrite firstR_app, !firstR_map.
      replace (firstR (fun x => try_one fuel (lenient (pre ++ firstn i rest ++ [sharp_s] ++ x))) (sharp_variants n (skipn (i + 2) rest)))
        with (firstR (fun v => try_one fuel (lenient ((pre ++ firstn i rest ++ [sharp_s]) ++ v))) (sharp_variants n (skipn (i + 2) rest)))
        by (apply firstR_ext; intros; rewrite <- !app_assoc; reflexivity).
      replace (firstR (fun x => try_one fuel (lenient (pre ++ firstn i rest ++ ss ++ x))) (sharp_variants n (skipn (i + 2) rest)))
        with (firstR (fun v => try_one fuel (lenient ((pre ++ firstn i rest ++ ss) ++ v))) (sharp_variants n (skipn (i + 2) rest)))
        by (apply firstR_ext; intros; rewrite <- !app_assoc; reflexivity).
      reflexivity.
    + rewrite firstR_one, try_lenient. destruct (Nat.ltb_spec 0 r); [reflexivity|lia].
Qed.

Lemma sharps_plan_spec : forall fuel w, spell_sharps k fuel w = firstR (try_one fuel) (sharps_plan w).
Proof.
  intros fuel w. unfold spell_sharps, sharps_plan, has_ss. change 5 with (S 4). generalize 4 as n. intro n. cbn [do_spell_sharps].
  destruct (find_sub ss w) as [i|] eqn:E; cbn [is_someb]; [|reflexivity].
  rewrite firstR_map. cbn [sharp_variants]. rewrite E. rewrite firstR_app, !firstR_map.
  rewrite !do_sharps_plan by lia. cbn [app].
  replace (firstR (fun x => try_one fuel (lenient (firstn i w ++ sharp_s :: x))) (sharp_variants n (skipn (i + 2) w)))
    with (firstR (fun v => try_one fuel (lenient ((firstn i w ++ [sharp_s]) ++ v))) (sharp_variants n (skipn (i + 2) w)))
    by (apply firstR_ext; intros; rewrite <- !app_assoc; reflexivity).
  replace (firstR (fun x => try_one fuel (lenient (firstn i w ++ ss ++ x))) (sharp_variants n (skipn (i + 2) w)))
    with (firstR (fun v => try_one fuel (lenient ((firstn i w ++ ss) ++ v))) (sharp_variants n (skipn (i + 2) w)))
    by (apply firstR_ext; intros; rewrite <- !app_assoc; reflexivity).
  reflexivity.
Qed.

(** Reflexivity without unfolding. *)
Ltac same := cbn [orelse bindR firstR]; match goal with |- ?a = ?b => constr_eq a b; reflexivity end.
Lemma plan_upper_spec : forall fuel w, w <> [] -> spell_casing_upper k fuel w = firstR (try_one fuel) (plan_upper w).
Proof.
  intros fuel w Hw. unfold spell_casing_upper, plan_upper.
  match goal with |- _ = firstR _ (?x :: ?l) => change (x :: l) with ([x] ++ l) end.
  rewrite !firstR_app, firstR_one, try_lenient.
  destruct (check_word k fuel w AllowBadForceucase AcceptHiddenHomonym) as [[f|]| |]; try same. cbn [orelse].
  assert (E1 : match apostrophe_split w with
   | Some (part1, part2) =>
       t2 <- titlecase U case part2 ;;
       (check_word k fuel (lowercase U case part1 ++ t2) AllowBadForceucase AcceptHiddenHomonym
        ORELSE
        (t1 <- titlecase U case part1 ;;
         check_word k fuel (t1 ++ t2) AllowBadForceucase AcceptHiddenHomonym))
   | None => Ret None
   end = firstR (try_one fuel) (match apostrophe_split w with
   | Some (a, b) => [lenient (lowercase U case a ++ title b); lenient (title a ++ title b)]
   | None => [] end)).
  { destruct (apostrophe_split w) as [[a b]|] eqn:E; [|reflexivity].
    destruct (apostrophe_parts _ E) as (Ha & Hb & _). rewrite !titlecase_ne by assumption. cbn [bindR].
    cbn [firstR]. rewrite !try_lenient. destruct (check_word _ _ _ _ _) as [[f|]| |]; try same.
    destruct (check_word _ _ _ _ _) as [[f|]| |]; reflexivity. }
  rewrite E1. destruct (firstR (try_one fuel) _) as [[f|]| |]; try same. cbn [orelse].
  assert (E2 : (if o_checksharps opts && is_someb (find_sub SS w) then
     spell_sharps k fuel (lowercase U case w)
     ORELSE
     (t <- titlecase U case w ;; spell_sharps k fuel t)
   else Ret None) = firstR (try_one fuel) (if o_checksharps opts && is_someb (find_sub SS w)
   then sharps_plan (lowercase U case w) ++ sharps_plan (title w) else [])).
  { destruct (o_checksharps opts && is_someb (find_sub SS w)); [|reflexivity].
    rewrite titlecase_ne by exact Hw. cbn [bindR]. rewrite firstR_app, !sharps_plan_spec. reflexivity. }
  rewrite E2. destruct (firstR (try_one fuel) _) as [[f|]| |]; try same. cbn [orelse].
  rewrite titlecase_ne by exact Hw. cbn [bindR firstR]. unfold try_one, no_keep_case, drop_keep_case.
  cbn [at_word at_fu at_hh at_filter]. generalize (check_word k). intro cw.
  destruct (cw fuel (title w) _ _) as [[f|]| |]; cbn [bindR]; try same.
  - destruct (keep_case k f); cbn [negb]; [|reflexivity].
    destruct (cw fuel (lowercase U case w) _ _) as [[f'|]| |]; cbn [bindR]; try same.
    destruct (keep_case k f'); reflexivity.
  - destruct (cw fuel (lowercase U case w) _ _) as [[f'|]| |]; cbn [bindR]; try same.
    destruct (keep_case k f'); reflexivity.
Qed.

Lemma plan_title_spec : forall fuel w, spell_casing_title k fuel w = firstR (try_one fuel) (plan_title w).
Proof.
  intros fuel w. unfold spell_casing_title, plan_title. cbn [firstR]. unfold try_one. cbn [at_word at_fu at_hh at_filter anything].
  generalize (check_word k). intro cw.
  destruct (cw fuel w _ _) as [[f|]| |]; cbn [bindR]; try same.
  destruct (cw fuel (lowercase U case w) _ _) as [[f|]| |]; cbn [bindR]; try same.
  destruct (keep_case k f && _); reflexivity.
Qed.

Lemma classify_nil : classify_casing U [] = CNone.
Proof. reflexivity. Qed.

Theorem spell_casing_plan : forall fuel w,
  (w <> [] /\ (uppercase U case w <> [] \/ ck_lower_as_upper k = false)) \/
  (ck_lower_as_title k = false /\ ck_lower_as_upper k = false) ->
  spell_casing k fuel w = firstR (try_one fuel) (plan w).
Proof.
  intros fuel w H. unfold spell_casing, plan.
  assert (LOWER : forall c, check_word k fuel w ForbidBadForceucase AcceptHiddenHomonym
      ORELSE
      (if ck_lower_as_title k && match c with CPascal => false | _ => true end then
         (t <- titlecase U case w ;; spell_casing_title k fuel t)
       else Ret None)
      ORELSE
      (if ck_lower_as_upper k then spell_casing_upper k fuel (uppercase U case w) else Ret None) =
    firstR (try_one fuel) (mkAttempt w ForbidBadForceucase AcceptHiddenHomonym anything ::
      (if ck_lower_as_title k && match c with CPascal => false | _ => true end
       then plan_title (title w) else []) ++
      (if ck_lower_as_upper k then plan_upper (uppercase U case w) else []))).
  { intro c. match goal with |- _ = firstR _ (?x :: ?l) => change (x :: l) with ([x] ++ l) end.
    rewrite !firstR_app, firstR_one. unfold try_one at 1. cbn [at_word at_fu at_hh at_filter anything].
    destruct (check_word k fuel w ForbidBadForceucase AcceptHiddenHomonym) as [[f|]| |]; cbn [bindR orelse]; try same.
    assert (E1 : (if ck_lower_as_title k && match c with CPascal => false | _ => true end then
         (t <- titlecase U case w ;; spell_casing_title k fuel t) else Ret None) =
      firstR (try_one fuel) (if ck_lower_as_title k && match c with CPascal => false | _ => true end
       then plan_title (title w) else [])).
    { destruct (ck_lower_as_title k) eqn:Et; cbn [andb]; [|reflexivity].
      destruct (match c with CPascal => false | _ => true end); [|reflexivity].
      destruct H as [[H _]|[H _]]; [|congruence]. rewrite titlecase_ne by exact H. apply plan_title_spec. }
    rewrite E1. destruct (firstR (try_one fuel) _) as [[f|]| |]; try same. cbn [orelse].
    destruct (ck_lower_as_upper k) eqn:Eu; [|reflexivity].
    destruct H as [[_ [H|H]]|[_ H]]; try congruence. apply plan_upper_spec. exact H. }
  destruct (classify_casing U w) eqn:Ec.
  - apply (LOWER CNone).
  - apply plan_title_spec.
  - apply plan_upper_spec. intros ->. discriminate.
  - apply (LOWER CCamel).
  - apply (LOWER CPascal).
Qed.
End Plan.
