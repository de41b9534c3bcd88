(** [deduplicate] keeps the first of every string, in order. *)
From Coq Require Import List NArith ZArith Lia Bool Arith Permutation.
From Coq Require Import ZifyBool ZifyNat ZifyN.
From Verif Require Import Base Utf8 Unicode Flags Affix Conversion Aff Checker Bag BufferOps Ngram Suggester.
Import ListNotations.
Set Implicit Arguments.

Lemma str_eqb_spec : forall a b, reflect (a = b) (str_eqb a b).
Proof.
  intros a b. destruct (str_eqb a b) eqn:E; constructor.
  - apply str_eqb_eq. exact E.
  - apply str_eqb_neq. exact E.
Qed.

(** The first occurrences: a string is kept when it is not among those before it. *)
Inductive Firsts : list str -> list str -> list str -> Prop :=
| Firsts_nil : forall before, Firsts before [] []
| Firsts_new : forall before x l r, ~ In x before -> Firsts (x :: before) l r -> Firsts before (x :: l) (x :: r)
| Firsts_again : forall before x l r, In x before -> Firsts (x :: before) l r -> Firsts before (x :: l) r.

Definition without (x : str) (l : list str) : list str := filter (fun y => negb (str_eqb y x)) l.
Fixpoint keep_first (l : list str) : list str :=
  match l with
  | [] => []
  | x :: l' => x :: without x (keep_first l')
  end.
Lemma without_In : forall x y l, In y (without x l) <-> In y l /\ y <> x.
Proof.
  intros x y l. unfold without. rewrite filter_In. split; intros [H1 H2]; (split; [exact H1|]).
  - apply negb_true_iff in H2. apply str_eqb_neq in H2. exact H2.
  - apply negb_true_iff. apply str_eqb_neq. exact H2.
Qed.
Lemma keep_first_In : forall l y, In y (keep_first l) <-> In y l.
Proof.
  induction l as [|x l IH]; intros y; [reflexivity|]. cbn [keep_first In]. rewrite without_In, IH.
  destruct (str_eqb_spec x y) as [->|Hn]; intuition congruence.
Qed.
Lemma keep_first_NoDup : forall l, NoDup (keep_first l).
Proof.
  induction l as [|x l IH]; [constructor|]. cbn [keep_first]. constructor.
  - rewrite without_In. intros [_ H]. congruence.
  - apply NoDup_filter. exact IH.
Qed.
Lemma without_comm : forall x y l, without x (without y l) = without y (without x l).
Proof.
  intros x y l. unfold without. induction l as [|z l IH]; [reflexivity|]. cbn.
  destruct (str_eqb z y) eqn:E1; destruct (str_eqb z x) eqn:E2; cbn; rewrite ?E1, ?E2; cbn; rewrite IH; reflexivity.
Qed.
Lemma without_twice : forall x l, without x (without x l) = without x l.
Proof.
  intros x l. unfold without. induction l as [|z l IH]; [reflexivity|]. cbn.
  destruct (str_eqb z x) eqn:E; cbn; rewrite ?E; cbn; rewrite IH; reflexivity.
Qed.
Lemma without_same : forall x l, without x (x :: l) = without x l.
Proof. intros x l. unfold without. cbn [filter]. rewrite str_eqb_refl. reflexivity. Qed.
Lemma without_other : forall x y l, y <> x -> without x (y :: l) = y :: without x l.
Proof. intros x y l H. unfold without. cbn [filter]. apply str_eqb_neq in H. rewrite H. reflexivity. Qed.
Lemma keep_first_without : forall x l, keep_first (without x l) = without x (keep_first l).
Proof.
  intros x. induction l as [|y l IH]; [reflexivity|]. cbn [keep_first].
  destruct (str_eqb_spec y x) as [->|Hn].
  - rewrite !without_same, without_twice. exact IH.
  - rewrite !without_other by exact Hn. cbn [keep_first]. rewrite IH, without_comm. reflexivity.
Qed.
Theorem keep_first_Firsts : forall l, Firsts [] l (keep_first l).
Proof.
  assert (G : forall l before, Firsts before l (fold_right without (keep_first l) before)).
  { induction l as [|x l IH]; intros before.
    - cbn. replace (fold_right without [] before) with (@nil str); [constructor|].
      induction before as [|b before IHb]; [reflexivity|]. cbn. rewrite <- IHb. reflexivity.
    - assert (C : forall before s, fold_right without (without x s) before = without x (fold_right without s before)).
      { induction before0 as [|b before0 IHb]; intros s; [reflexivity|]. cbn. rewrite IHb. apply without_comm. }
      destruct (in_dec (list_eq_dec N.eq_dec) x before) as [Hin|Hn].
      + apply Firsts_again; [exact Hin|].
        replace (fold_right without (keep_first (x :: l)) before) with (fold_right without (keep_first l) (x :: before));
          [apply IH|]. cbn [fold_right keep_first]. rewrite <- C. clear -Hin C.
        induction before as [|b before IHb]; [destruct Hin|]. cbn [fold_right].
        destruct (list_eq_dec N.eq_dec b x) as [->|Hb].
        * clear IHb Hin.
          assert (K : forall bf s, without x (fold_right without (x :: s) bf) = without x (fold_right without s bf)).
          { induction bf as [|c bf IHc]; intros s; cbn [fold_right].
            - rewrite without_same. reflexivity.
            - rewrite without_comm, IHc, without_comm. reflexivity. }
          rewrite K, C. reflexivity.
        * rewrite IHb by (destruct Hin; [congruence|assumption]). reflexivity.
      + assert (K : forall bf s, ~ In x bf -> fold_right without (x :: s) bf = x :: fold_right without s bf).
        { induction bf as [|c bf IHc]; intros s Hbf; [reflexivity|]. cbn [fold_right]. rewrite IHc by (intros H; apply Hbf; right; exact H).
          unfold without at 1. cbn [filter]. destruct (str_eqb_spec x c) as [->|]; [destruct Hbf; left; reflexivity|reflexivity]. }
        cbn [keep_first]. rewrite K by exact Hn. apply Firsts_new; [exact Hn|]. rewrite C. apply (IH (x :: before)). }
  intros l. apply (G l []).
Qed.

(** ** The loops *)
Lemma replace_nth_app : forall (u : list str) x v y, replace_nth (u ++ x :: v) (length u) y = u ++ y :: v.
Proof. induction u as [|a u IH]; intros x v y; [reflexivity|]. cbn. rewrite IH. reflexivity. Qed.
Lemma nth_error_app_exact : forall A (u : list A) x v, nth_error (u ++ x :: v) (length u) = Some x.
Proof. intros A u x v. rewrite nth_error_app2, Nat.sub_diag by lia. reflexivity. Qed.
Lemma swap_app : forall (u : list str) x m y v, swap (u ++ x :: m ++ y :: v) (length u) (length u + S (length m)) = Ret (u ++ y :: m ++ x :: v).
Proof.
  intros u x m y v. unfold swap. rewrite nth_error_app_exact.
  replace (u ++ x :: m ++ y :: v) with ((u ++ x :: m) ++ y :: v) by (rewrite <- app_assoc; reflexivity).
  replace (length u + S (length m)) with (length (u ++ x :: m)) by (rewrite app_length; reflexivity).
  rewrite nth_error_app_exact. f_equal. rewrite <- app_assoc. cbn [app]. rewrite replace_nth_app.
  replace (u ++ y :: m ++ y :: v) with ((u ++ y :: m) ++ y :: v) by (rewrite <- app_assoc; reflexivity).
  replace (length (u ++ x :: m)) with (length (u ++ y :: m)) by (rewrite !app_length; reflexivity).
  rewrite replace_nth_app, <- app_assoc. reflexivity.
Qed.
Lemma repeat_snoc : forall A (x : A) n, x :: repeat x n = repeat x n ++ [x].
Proof. intros A x n. induction n as [|n IH]; [reflexivity|]. cbn. rewrite <- IH. reflexivity. Qed.

Lemma dedup_inner_is : forall rest n P x d junk idx,
  length rest <= n -> nth_error P idx = Some x ->
  exists junk', dedup_inner n (P ++ repeat x (S d) ++ rest ++ junk) idx (length P + S d) (length P) (length P + S d + length rest) =
    Ret (P ++ without x rest ++ junk', length P + length (without x rest)).
Proof.
  induction rest as [|a rest IH]; intros n P x d junk idx Hn Hidx.
  - exists (repeat x (S d) ++ junk).
    unfold dedup_inner; destruct n; cbn [length without filter app]; rewrite ?Nat.add_0_r, Nat.ltb_irrefl; reflexivity.
  - destruct n as [|n]; [cbn in Hn; lia|]. cbn [length] in Hn. cbn [dedup_inner].
    replace (length P + S d <? length P + S d + length (a :: rest))%nat with true
      by (symmetry; apply Nat.ltb_lt; cbn [length]; lia).
    assert (EI : nth_error (P ++ repeat x (S d) ++ (a :: rest) ++ junk) idx = Some x).
    { rewrite nth_error_app1; [exact Hidx|]. apply nth_error_Some. rewrite Hidx. discriminate. }
    assert (EF : nth_error (P ++ repeat x (S d) ++ (a :: rest) ++ junk) (length P + S d) = Some a).
    { replace (P ++ repeat x (S d) ++ (a :: rest) ++ junk) with ((P ++ repeat x (S d)) ++ a :: rest ++ junk)
        by (rewrite <- app_assoc; reflexivity).
      replace (length P + S d) with (length (P ++ repeat x (S d))) by (rewrite app_length, repeat_length; reflexivity).
      apply nth_error_app_exact. }
    rewrite EF, EI. destruct (str_eqb_spec a x) as [->|Hne].
    + destruct (IH n P x (S d) junk idx) as [junk' H]; [lia|exact Hidx|]. exists junk'.
      rewrite without_same, <- H. f_equal.
      * change (repeat x (S (S d))) with (x :: repeat x (S d)). rewrite repeat_snoc, <- !app_assoc. reflexivity.
      * lia.
      * cbn [length]. lia.
    + assert (SW : swap (P ++ repeat x (S d) ++ (a :: rest) ++ junk) (length P) (length P + S d) =
                  Ret ((P ++ [a]) ++ repeat x (S d) ++ rest ++ junk)).
      { pose proof (swap_app P x (repeat x d) a (rest ++ junk)) as H. rewrite repeat_length in H.
        cbn [repeat app] in H |- *. rewrite H. f_equal. rewrite <- !app_assoc. cbn [app]. do 2 f_equal.
        change (x :: repeat x d ++ rest ++ junk) with ((x :: repeat x d) ++ rest ++ junk).
        rewrite repeat_snoc, <- app_assoc. reflexivity. }
      rewrite SW. cbn [bindR].
      destruct (IH n (P ++ [a]) x d junk idx) as [junk' H]; [lia| |].
      { rewrite nth_error_app1; [exact Hidx|]. apply nth_error_Some. rewrite Hidx. discriminate. }
      exists junk'. rewrite app_length in H. cbn [length] in H.
      replace (S (length P + S d)) with (length P + 1 + S d) by lia.
      replace (length P + S d + length (a :: rest)) with (length P + 1 + S d + length rest) by (cbn [length]; lia).
      replace (S (length P)) with (length P + 1) by lia. rewrite H.
      rewrite without_other by exact Hne. rewrite <- !app_assoc. cbn [app length]. f_equal. f_equal. lia.
Qed.
Lemma position_some : forall x l p, position x l = Some p -> exists q r, l = q ++ x :: r /\ length q = p /\ ~ In x q.
Proof.
  intros x. induction l as [|y l IH]; intros p H; [discriminate|]. cbn in H. destruct (str_eqb_spec y x) as [->|Hn].
  - inversion H. exists [], l. auto.
  - destruct (position x l) as [p'|]; [|discriminate]. inversion H. destruct (IH p' eq_refl) as (q & r & -> & Hl & Hq).
    exists (y :: q), r. repeat split; [cbn; lia|]. intros [E|HH]; auto.
Qed.
Lemma position_none : forall x l, position x l = None -> ~ In x l.
Proof.
  intros x. induction l as [|y l IH]; intros H; [auto|]. cbn in H. destruct (str_eqb_spec y x) as [->|Hn]; [discriminate|].
  destruct (position x l); [discriminate|]. intros [E|H1]; [congruence|]. exact (IH eq_refl H1).
Qed.
Lemma without_not_in : forall x l, ~ In x l -> without x l = l.
Proof.
  intros x l H. unfold without. induction l as [|y l IH]; [reflexivity|]. cbn.
  destruct (str_eqb_spec y x) as [->|Hn]; [destruct H; left; reflexivity|]. cbn. rewrite IH; [reflexivity|].
  intros Hin. apply H. right. exact Hin.
Qed.
Lemma without_app : forall x a b, without x (a ++ b) = without x a ++ without x b.
Proof. intros. apply filter_app. Qed.
Lemma without_length : forall x l, length (without x l) <= length l.
Proof. intros x l. unfold without. induction l as [|y l IH]; [reflexivity|]. cbn. destruct (negb (str_eqb y x)); cbn; lia. Qed.
Lemma slice_app : forall (u m v : list str), slice (u ++ m ++ v) (length u) (length u + length m) = m.
Proof.
  intros u m v. unfold slice. rewrite skipn_app_exact by reflexivity.
  replace (length u + length m - length u) with (length m) by lia. apply firstn_app_exact. reflexivity.
Qed.

Lemma dedup_outer_is : forall n mid pre junk, length mid <= n ->
  exists r, dedup_outer n (pre ++ mid ++ junk) (length pre) (length pre + length mid) = Ret r /\
    firstn (snd r) (fst r) = pre ++ keep_first mid.
Proof.
  induction n as [|n IH]; intros mid pre junk Hn.
  - destruct mid; [|cbn in Hn; lia]. cbn [length app]. exists (pre ++ junk, length pre). unfold dedup_outer. rewrite Nat.add_0_r, Nat.ltb_irrefl.
    split; [reflexivity|]. cbn. rewrite firstn_app_exact, app_nil_r by reflexivity. reflexivity.
  - destruct mid as [|x mid].
    + cbn [length app]. exists (pre ++ junk, length pre). cbn [dedup_outer]. rewrite Nat.add_0_r, Nat.ltb_irrefl.
      split; [reflexivity|]. cbn. rewrite firstn_app_exact, app_nil_r by reflexivity. reflexivity.
    + cbn [dedup_outer]. replace (length pre <? length pre + length (x :: mid))%nat with true
        by (symmetry; apply Nat.ltb_lt; cbn; lia).
      assert (EX : nth_error (pre ++ (x :: mid) ++ junk) (length pre) = Some x) by apply nth_error_app_exact.
      rewrite EX.
      assert (ES : slice (pre ++ (x :: mid) ++ junk) (S (length pre)) (length pre + length (x :: mid)) = mid).
      { pose proof (slice_app (pre ++ [x]) mid junk) as H. rewrite app_length in H. cbn [length] in H |- *.
        replace (S (length pre)) with (length pre + 1) by lia.
        replace (length pre + S (length mid)) with (length pre + 1 + length mid) by lia.
        rewrite <- app_assoc in H. exact H. }
      rewrite ES. cbn [length] in Hn. destruct (position x mid) as [p|] eqn:P.
      * apply position_some in P. destruct P as (q & r & -> & Hl & Hq). cbv zeta.
        destruct (@dedup_inner_is r (length (pre ++ (x :: q ++ x :: r) ++ junk)) (pre ++ x :: q) x 0 junk (length pre)) as [junk' H].
        { rewrite !app_length. cbn [length]. rewrite !app_length. cbn [length]. lia. }
        { apply nth_error_app_exact. }
        assert (EQ : (pre ++ x :: q) ++ repeat x 1 ++ r ++ junk = pre ++ (x :: q ++ x :: r) ++ junk).
        { cbn [repeat]. rewrite <- !app_assoc. cbn [app]. rewrite <- !app_assoc. reflexivity. }
        rewrite EQ in H.
        replace (S (p + length pre + 1)) with (length (pre ++ x :: q) + 1) by (rewrite app_length; cbn [length]; lia).
        replace (p + length pre + 1) with (length (pre ++ x :: q)) by (rewrite app_length; cbn [length]; lia).
        replace (length pre + length (x :: q ++ x :: r)) with (length (pre ++ x :: q) + 1 + length r).
        2: { rewrite app_length. cbn [length]. rewrite app_length. cbn [length]. lia. }
        rewrite H. cbn [bindR fst snd].
        destruct (IH (q ++ without x r) (pre ++ [x]) junk') as (res & H1 & H2).
        { pose proof (without_length x r). rewrite app_length in *. cbn [length] in Hn. lia. }
        exists res. split.
        -- rewrite <- H1. f_equal; [rewrite <- !app_assoc; cbn [app]; rewrite <- ?app_assoc; reflexivity|rewrite app_length; cbn; lia|].
           rewrite !app_length. cbn [length]. lia.
        -- rewrite H2, <- app_assoc. cbn [app keep_first]. f_equal. f_equal. rewrite <- keep_first_without. f_equal.
           rewrite without_app, (@without_not_in x q Hq). f_equal. symmetry. apply without_same.
      * apply position_none in P. destruct (IH mid (pre ++ [x]) junk) as (res & H1 & H2); [lia|].
        exists res. split.
        -- rewrite <- H1. f_equal; [rewrite <- app_assoc; reflexivity|rewrite app_length; cbn; lia|].
           rewrite app_length. cbn [length]. lia.
        -- rewrite H2, <- app_assoc. cbn [app keep_first]. f_equal. f_equal. rewrite <- keep_first_without.
           rewrite without_not_in by exact P. reflexivity.
Qed.
Theorem deduplicate_is : forall l, deduplicate l = Ret (keep_first l).
Proof.
  intros [|x l]; [reflexivity|]. unfold deduplicate.
  destruct (@dedup_outer_is (length (x :: l)) (x :: l) [] []) as (r & H1 & H2); [lia|].
  cbn [app length] in H1, H2. rewrite app_nil_r in H1. cbn [length]. cbn [Nat.add] in H1. rewrite H1. cbn [bindR].
  rewrite H2. reflexivity.
Qed.
