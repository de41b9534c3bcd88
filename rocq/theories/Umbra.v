(** The compact slice type (src/umbra_slice.rs): [len : u16], a prefix of [P] elements and
    either a suffix of [Sf] elements or a pointer to a heap block holding the whole slice.
    Elements are numbers (u8 or u16); zeroed memory is 0.

    The heap maps addresses to blocks.  The allocator is an oracle that names an unused
    address; addresses may be reused after being freed.  Dereferencing a dangling pointer,
    freeing twice, or reading the wrong union field is undefined behaviour: [None]. *)
From Coq Require Import List NArith ZArith Lia Bool Arith.
From Coq Require Import ZifyBool ZifyNat ZifyN.
From Verif Require Import Base Flags.
Import ListNotations.

Section Umbra.
(** PREFIX_LEN and SUFFIX_LEN (umbra_slice.rs 99-107): (3,4) for flags, (6,8) for bytes. *)
Variables P Sf : nat.

Inductive trailing := Suffix (s : list N) | Ptr (a : nat).
(** umbra_slice.rs 111-122. *)
Record umbra := { u_len : N; u_prefix : list N; u_trail : trailing }.

Definition heap := nat -> option (list N).
Definition upd (h : heap) (a : nat) (v : option (list N)) : heap :=
  fun b => if Nat.eqb b a then v else h b.

(** umbra_slice.rs 129. *)
Definition inline_len : N := N.of_nat (P + Sf).

(** Copy into zeroed memory of [n] elements (umbra_slice.rs 258-262). *)
Definition copy_zeroed (n : nat) (src : list N) : list N := src ++ repeat 0%N (n - length src).

(** [TryFrom<&[T]>] (umbra_slice.rs 254-295); outer [None] = [Err(TooLongError)].
    [a] is the address the allocator would return. *)
Definition try_from (h : heap) (a : nat) (src : list N) : option (heap * umbra) :=
  if (u16_max <? N.of_nat (length src))%N then None
  else
    let len := N.of_nat (length src) in
    if (len mod 65536 <=? inline_len)%N then
      if (length src <=? P)%nat then
        Some (h, {| u_len := len; u_prefix := copy_zeroed P src;
                    u_trail := Suffix (copy_zeroed Sf []) |})
      else
        Some (h, {| u_len := len; u_prefix := copy_zeroed P (firstn P src);
                    u_trail := Suffix (copy_zeroed Sf (skipn P src)) |})
    else
      Some (upd h a (Some src),
            {| u_len := len; u_prefix := copy_zeroed P (firstn P src); u_trail := Ptr a |}).

(** [as_slice] (umbra_slice.rs 139-148): prefix and suffix are contiguous ([repr(C)]). *)
Definition as_slice (h : heap) (u : umbra) : option (list N) :=
  if (u_len u <=? inline_len)%N then
    match u_trail u with
    | Suffix s => Some (firstn (N.to_nat (u_len u)) (u_prefix u ++ s))
    | Ptr _ => None
    end
  else
    match u_trail u with
    | Ptr a => option_map (firstn (N.to_nat (u_len u))) (h a)
    | Suffix _ => None
    end.

(** [PartialEq] (umbra_slice.rs 302-343). *)
Definition umbra_eq (h : heap) (u v : umbra) : option bool :=
  if negb ((u_len u =? u_len v)%N && str_eqb (u_prefix u) (u_prefix v)) then Some false
  else if (u_len u <=? inline_len)%N then
    match u_trail u, u_trail v with
    | Suffix s, Suffix t => Some (str_eqb s t)
    | _, _ => None
    end
  else
    match u_trail u, u_trail v with
    | Ptr a, Ptr b =>
        match h a, h b with
        | Some x, Some y =>
            let n := N.to_nat (u_len u) - P in
            Some (str_eqb (firstn n (skipn P x)) (firstn n (skipn P y)))
        | _, _ => None
        end
    | _, _ => None
    end.

(** [Clone] (umbra_slice.rs 205-219). *)
Definition umbra_clone (h : heap) (a : nat) (u : umbra) : option (heap * umbra) :=
  if (u_len u <=? inline_len)%N then
    match u_trail u with
    | Suffix s => Some (h, {| u_len := u_len u; u_prefix := u_prefix u; u_trail := Suffix s |})
    | Ptr _ => None
    end
  else
    match as_slice h u with
    | Some src =>
        Some (upd h a (Some src),
              {| u_len := u_len u; u_prefix := u_prefix u; u_trail := Ptr a |})
    | None => None
    end.

(** [Drop] (umbra_slice.rs 193-199); freeing an unallocated block is UB. *)
Definition umbra_drop (h : heap) (u : umbra) : option heap :=
  if (inline_len <? u_len u)%N then
    match u_trail u with
    | Ptr a => match h a with Some _ => Some (upd h a None) | None => None end
    | Suffix _ => None
    end
  else Some h.

(** [u] represents the slice [src] in heap [h]. *)
Definition repr (h : heap) (u : umbra) (src : list N) : Prop :=
  u_len u = N.of_nat (length src) /\ (N.of_nat (length src) <= 65535)%N /\
  u_prefix u = copy_zeroed P (firstn P src) /\
  (if (N.of_nat (length src) <=? inline_len)%N
   then u_trail u = Suffix (copy_zeroed Sf (skipn P src))
   else exists a, u_trail u = Ptr a /\ h a = Some src).

Lemma try_from_long : forall h a src, (65535 < N.of_nat (length src))%N -> try_from h a src = None.
Proof.
  intros h a src H. unfold try_from, u16_max.
  destruct (N.ltb_spec 65535 (N.of_nat (length src))); [reflexivity|lia].
Qed.

Lemma try_from_repr : forall h a src, (N.of_nat (length src) <= 65535)%N ->
  exists h' u, try_from h a src = Some (h', u) /\ repr h' u src /\
    (forall b, b <> a -> h' b = h b) /\
    (h' = h \/ (inline_len < N.of_nat (length src))%N /\ h' = upd h a (Some src)).
Proof.
  intros h a src H. unfold try_from, u16_max.
  destruct (N.ltb_spec 65535 (N.of_nat (length src))); [lia|]. cbv zeta.
  rewrite N.mod_small by lia.
  destruct (N.leb_spec (N.of_nat (length src)) inline_len) as [Hin|Hout].
  - destruct (Nat.leb_spec (length src) P) as [HP|HP].
    + eexists; eexists; split; [reflexivity|]. split; [|auto].
      unfold repr. cbn [u_len u_prefix u_trail].
      repeat split; [exact H| |].
      * rewrite firstn_all2 by exact HP. reflexivity.
      * replace (N.of_nat (length src) <=? inline_len)%N with true by lia.
        rewrite skipn_all2 by exact HP. reflexivity.
    + eexists; eexists; split; [reflexivity|]. split; [|auto].
      unfold repr. cbn [u_len u_prefix u_trail].
      repeat split; [exact H|].
      replace (N.of_nat (length src) <=? inline_len)%N with true by lia. reflexivity.
  - eexists; eexists; split; [reflexivity|]. split.
    + unfold repr. cbn [u_len u_prefix u_trail]. repeat split; [exact H|].
      replace (N.of_nat (length src) <=? inline_len)%N with false by lia.
      exists a. split; [reflexivity|]. unfold upd. rewrite Nat.eqb_refl. reflexivity.
    + split; [|right; auto]. intros b Hb. unfold upd.
      destruct (Nat.eqb_spec b a); [contradiction|reflexivity].
Qed.

Lemma copy_zeroed_length : forall n src, length src <= n -> length (copy_zeroed n src) = n.
Proof.
  intros n src H. unfold copy_zeroed. rewrite app_length, repeat_length. lia.
Qed.

Lemma as_slice_repr : forall h u src, repr h u src -> as_slice h u = Some src.
Proof.
  intros h u src [Hl [Hb [Hp Ht]]]. unfold as_slice. rewrite Hl.
  destruct (N.of_nat (length src) <=? inline_len)%N eqn:E.
  - rewrite Ht, Hp, Nat2N.id. f_equal. unfold inline_len in E.
    destruct (Nat.leb_spec (length src) P) as [HP|HP].
    + rewrite (firstn_all2 src HP). unfold copy_zeroed.
      rewrite <- app_assoc, firstn_app, firstn_all, Nat.sub_diag. simpl. apply app_nil_r.
    + unfold copy_zeroed at 1. rewrite firstn_length.
      replace (P - min P (length src)) with 0 by lia. simpl (repeat _ 0). rewrite app_nil_r.
      unfold copy_zeroed. rewrite app_assoc, firstn_skipn, firstn_app, firstn_all, Nat.sub_diag.
      simpl. apply app_nil_r.
  - destruct Ht as [a [Ht Ha]]. rewrite Ht, Ha. simpl. rewrite Nat2N.id, firstn_all. reflexivity.
Qed.

Lemma copy_zeroed_inj : forall n x y, length x = length y ->
  copy_zeroed n x = copy_zeroed n y -> x = y.
Proof.
  intros n x y Hl H. unfold copy_zeroed in H.
  assert (firstn (length x) (x ++ repeat 0%N (n - length x)) =
          firstn (length x) (y ++ repeat 0%N (n - length y))) as F by (rewrite H; reflexivity).
  rewrite firstn_app, firstn_all, Nat.sub_diag in F. simpl in F. rewrite app_nil_r in F.
  rewrite Hl in F at 1. rewrite firstn_app, firstn_all, Nat.sub_diag in F. simpl in F.
  rewrite app_nil_r in F. exact F.
Qed.

Lemma umbra_eq_repr : forall h u v x y, repr h u x -> repr h v y ->
  umbra_eq h u v = Some (str_eqb x y).
Proof.
  intros h u v x y Hu Hv.
  destruct Hu as [Hl [Hb [Hp Ht]]]. destruct Hv as [Hl' [Hb' [Hp' Ht']]].
  unfold umbra_eq. rewrite Hl, Hl', Hp, Hp'.
  destruct (N.eqb_spec (N.of_nat (length x)) (N.of_nat (length y))) as [HL|HL].
  2:{ simpl. f_equal. symmetry. apply str_eqb_neq. intros ->. congruence. }
  simpl (true && _).
  assert (length x = length y) as HLn by lia.
  destruct (str_eqb (copy_zeroed P (firstn P x)) (copy_zeroed P (firstn P y))) eqn:EP; simpl.
  2:{ f_equal. symmetry. apply str_eqb_neq. apply str_eqb_neq in EP. congruence. }
  apply str_eqb_eq in EP. apply copy_zeroed_inj in EP; [|rewrite !firstn_length; lia].
  rewrite <- HL in Ht'. destruct (N.of_nat (length x) <=? inline_len)%N eqn:E.
  - rewrite Ht, Ht'. f_equal. apply eq_true_iff_eq. rewrite !str_eqb_eq. split.
    + intro H. apply copy_zeroed_inj in H; [|rewrite !skipn_length; lia].
      rewrite <- (firstn_skipn P x), <- (firstn_skipn P y). congruence.
    + intros ->. reflexivity.
  - destruct Ht as [a [Ht Ha]]. destruct Ht' as [b [Ht' Hbb]]. rewrite Ht, Ht', Ha, Hbb.
    cbv zeta. f_equal. rewrite Nat2N.id. apply eq_true_iff_eq. rewrite !str_eqb_eq.
    rewrite !firstn_all2 by (rewrite skipn_length; lia). split.
    + intro H. rewrite <- (firstn_skipn P x), <- (firstn_skipn P y). congruence.
    + intros ->. reflexivity.
Qed.

(** Address owned by a value. *)
Definition owned (u : umbra) : option nat :=
  match u_trail u with Ptr a => Some a | Suffix _ => None end.

Lemma clone_repr : forall h a u src, repr h u src -> h a = None ->
  exists h' v, umbra_clone h a u = Some (h', v) /\ repr h' v src /\ repr h' u src /\
    ((h' = h /\ owned v = None) \/ (h' = upd h a (Some src) /\ owned v = Some a)).
Proof.
  intros h a u src Hr Hfree. pose proof (as_slice_repr _ _ _ Hr) as Hs.
  destruct Hr as [Hl [Hb [Hp Ht]]]. unfold umbra_clone. rewrite Hs, Hl, Hp.
  destruct (N.of_nat (length src) <=? inline_len)%N eqn:E.
  - rewrite Ht. eexists; eexists; split; [reflexivity|].
    unfold repr, owned. cbn [u_len u_prefix u_trail]. rewrite E. auto 10.
  - destruct Ht as [b [Ht Hbb]]. eexists; eexists; split; [reflexivity|].
    unfold repr, owned. cbn [u_len u_prefix u_trail]. rewrite E. split; [|split; [|right; auto]].
    + repeat split; try exact Hb. exists a. split; [reflexivity|]. unfold upd. rewrite Nat.eqb_refl. reflexivity.
    + repeat split; try assumption. exists b. split; [exact Ht|]. unfold upd.
      destruct (Nat.eqb_spec b a); [congruence|exact Hbb].
Qed.

(** ** Histories of allocation, cloning and dropping.

    The program state is the heap and the values created so far ([None] once dropped). *)
Inductive uop :=
| ONew (src : list N) (a : nat)
| OClone (i : nat) (a : nat)
| ODrop (i : nat).

Definition ustate : Type := heap * list (option umbra).

(** Ownership rules of Rust: only live values are used, the allocator returns an unused
    address; steps violating that are not taken ([ustep] leaves the state unchanged).
    Outer [None] = undefined behaviour. *)
Fixpoint set_nth {A} (l : list A) (i : nat) (x : A) : list A :=
  match l, i with
  | [], _ => []
  | _ :: l', O => x :: l'
  | y :: l', S i' => y :: set_nth l' i' x
  end.

Definition ustep (st : ustate) (o : uop) : option ustate :=
  let '(h, vs) := st in
  match o with
  | ONew src a =>
      match h a with
      | Some _ => Some st
      | None =>
          match try_from h a src with
          | Some (h', u) => Some (h', vs ++ [Some u])
          | None => Some (h, vs ++ [None])
          end
      end
  | OClone i a =>
      match h a, nth_error vs i with
      | None, Some (Some u) =>
          match umbra_clone h a u with
          | Some (h', v) => Some (h', vs ++ [Some v])
          | None => None
          end
      | _, _ => Some st
      end
  | ODrop i =>
      match nth_error vs i with
      | Some (Some u) =>
          match umbra_drop h u with
          | Some h' => Some (h', set_nth vs i None)
          | None => None
          end
      | _ => Some st
      end
  end.

Fixpoint urun (st : ustate) (ops : list uop) : option ustate :=
  match ops with
  | [] => Some st
  | o :: ops' => match ustep st o with Some st' => urun st' ops' | None => None end
  end.

(** Abstract counterpart: the contents only.  [free] tells whether the allocator's
    address was really unused, i.e. whether the step is taken. *)
Definition astep (taken : bool) (cs : list (option (list N))) (o : uop) : list (option (list N)) :=
  if negb taken then cs else
  match o with
  | ONew src _ => cs ++ [if (65535 <? N.of_nat (length src))%N then None else Some src]
  | OClone i _ => match nth_error cs i with Some (Some c) => cs ++ [Some c] | _ => cs end
  | ODrop i => set_nth cs i None
  end.

Definition taken (h : heap) (o : uop) : bool :=
  match o with
  | ONew _ a | OClone _ a => match h a with None => true | Some _ => false end
  | ODrop _ => true
  end.

Definition reprO (h : heap) (ou : option umbra) (oc : option (list N)) : Prop :=
  match ou, oc with
  | Some u, Some c => repr h u c
  | None, None => True
  | _, _ => False
  end.

(** Live values own pairwise distinct blocks, and every allocated block is owned. *)
Definition uinv (st : ustate) (cs : list (option (list N))) : Prop :=
  let '(h, vs) := st in
  Forall2 (reprO h) vs cs /\
  (forall i j u v a, nth_error vs i = Some (Some u) -> nth_error vs j = Some (Some v) ->
     owned u = Some a -> owned v = Some a -> i = j) /\
  (forall a, h a <> None -> exists i u, nth_error vs i = Some (Some u) /\ owned u = Some a).

Lemma repr_owned : forall h u c a, repr h u c -> owned u = Some a -> h a = Some c.
Proof.
  intros h u c a [_ [_ [_ Ht]]] Ho. unfold owned in Ho.
  destruct (_ <=? _)%N.
  - rewrite Ht in Ho. discriminate.
  - destruct Ht as [b [Ht Hb]]. rewrite Ht in Ho. congruence.
Qed.

Lemma repr_frame : forall h h' u c, repr h u c ->
  (forall a, owned u = Some a -> h' a = h a) -> repr h' u c.
Proof.
  intros h h' u c [H1 [H2 [H3 Ht]]] Hf. repeat split; try assumption.
  destruct (_ <=? _)%N; [exact Ht|]. destruct Ht as [a [Ht Ha]]. exists a. split; [exact Ht|].
  rewrite Hf; [exact Ha|]. unfold owned. rewrite Ht. reflexivity.
Qed.

Lemma Forall2_impl' : forall A B (R R' : A -> B -> Prop) l l',
  (forall a b, R a b -> R' a b) -> Forall2 R l l' -> Forall2 R' l l'.
Proof. intros A B R R' l l' H H2. induction H2; constructor; auto. Qed.

Lemma Forall2_nth : forall A B (R : A -> B -> Prop) l l' i x,
  Forall2 R l l' -> nth_error l i = Some x -> exists y, nth_error l' i = Some y /\ R x y.
Proof.
  intros A B R l l' i x H. revert i. induction H as [|a b l l' Hab H IH]; intros [|i] Hx; simpl in *; try discriminate.
  - injection Hx as <-. eauto.
  - apply IH. exact Hx.
Qed.

Lemma nth_error_set_nth : forall A (l : list A) i j x,
  nth_error (set_nth l i x) j =
  if Nat.eqb i j then (if i <? length l then Some x else None) else nth_error l j.
Proof.
  intros A l. induction l as [|y l IH]; intros i j x.
  - simpl. destruct (Nat.eqb i j); destruct j; reflexivity.
  - destruct i as [|i]; destruct j as [|j]; simpl; try reflexivity.
    rewrite IH. destruct (Nat.eqb i j); reflexivity.
Qed.

Lemma Forall2_set_nth : forall A B (R : A -> B -> Prop) l l' i x y,
  Forall2 R l l' -> R x y -> Forall2 R (set_nth l i x) (set_nth l' i y).
Proof.
  intros A B R l l' i x y H Hxy. revert i. induction H as [|a b l l' Hab H IH]; intros [|i]; simpl; auto.
Qed.

Lemma nth_error_snoc : forall A (l : list A) x i y, nth_error (l ++ [x]) i = Some y ->
  nth_error l i = Some y \/ (i = length l /\ y = x).
Proof.
  intros A l x i y H. destruct (Nat.lt_ge_cases i (length l)) as [Hi|Hi].
  - rewrite nth_error_app1 in H by exact Hi. auto.
  - rewrite nth_error_app2 in H by exact Hi. right.
    destruct (i - length l) as [|k] eqn:E; simpl in H; [|destruct k; discriminate].
    injection H as <-. split; [lia|reflexivity].
Qed.

(** Adding a value that owns nothing, or owns exactly the freshly allocated block. *)
Lemma uinv_add : forall h vs cs h' u c, uinv (h, vs) cs -> repr h' u c ->
  ((h' = h /\ owned u = None) \/ (exists a, h a = None /\ h' = upd h a (Some c) /\ owned u = Some a)) ->
  uinv (h', vs ++ [Some u]) (cs ++ [Some c]).
Proof.
  intros h vs cs h' u c [H1 [H2 H3]] Hr Hown. unfold uinv.
  assert (forall w d, repr h w d -> repr h' w d /\ (forall a, owned u = Some a -> owned w <> Some a)) as Hold.
  { intros w d Hw. destruct Hown as [[-> Hn]|[a [Ha [-> Ho]]]].
    - split; [exact Hw|]. rewrite Hn. discriminate.
    - assert (owned w <> Some a) as Hna.
      { intro Hc. apply (repr_owned _ _ _ _ Hw) in Hc. congruence. }
      split.
      + eapply repr_frame; [exact Hw|]. intros b Hb. unfold upd.
        destruct (Nat.eqb_spec b a); [congruence|reflexivity].
      + rewrite Ho. intros a' Ea'. injection Ea' as <-. exact Hna. }
  split; [|split].
  - apply Forall2_app; [|constructor; [exact Hr|constructor]].
    eapply Forall2_impl'; [|exact H1]. intros [w|] [d|] Hd; simpl in *; try tauto. apply Hold. exact Hd.
  - intros i j w v a Hi Hj Hw Hv.
    apply nth_error_snoc in Hi. apply nth_error_snoc in Hj.
    assert (forall k w, nth_error vs k = Some (Some w) -> owned u = Some a -> owned w <> Some a) as Hx.
    { intros k w' Hk Hu. destruct (Forall2_nth _ _ _ _ _ _ _ H1 Hk) as [[d|] [_ Hd]]; simpl in Hd; [|tauto].
      apply (proj2 (Hold w' d Hd) a Hu). }
    destruct Hi as [Hi|[-> Hi]], Hj as [Hj|[-> Hj]].
    + eapply H2; eauto.
    + injection Hj as ->. exfalso. eapply Hx; eauto.
    + injection Hi as ->. exfalso. eapply Hx; eauto.
    + reflexivity.
  - intros b Hb.
    assert (h b <> None \/ owned u = Some b) as [Hb'|Hb'].
    { destruct Hown as [[-> _]|[a [Ha [-> Ho]]]]; [auto|]. unfold upd in Hb.
      destruct (Nat.eqb_spec b a) as [Eba|_]; [right; rewrite Eba; exact Ho|left; exact Hb]. }
    + destruct (H3 b Hb') as [i [w [Hi Hw]]]. exists i, w. split; [|exact Hw].
      rewrite nth_error_app1; [exact Hi|]. apply nth_error_Some. congruence.
    + exists (length vs), u. split; [|exact Hb'].
      rewrite nth_error_app2, Nat.sub_diag by lia. reflexivity.
Qed.

Lemma Forall2_len : forall A B (R : A -> B -> Prop) l l', Forall2 R l l' -> length l = length l'.
Proof. intros A B R l l' H. induction H; simpl; auto. Qed.

Lemma ustep_inv : forall st cs o, uinv st cs ->
  exists st', ustep st o = Some st' /\ uinv st' (astep (taken (fst st) o) cs o).
Proof.
  intros [h vs] cs o Hinv. pose proof Hinv as [H1 [H2 H3]]. destruct o as [src a|i a|i].
  - unfold ustep, astep, taken. simpl fst. destruct (h a) as [blk|] eqn:Ha.
    { simpl. eauto. }
    simpl negb. cbv iota. destruct (N.ltb_spec 65535 (N.of_nat (length src))) as [Hlong|Hok].
    + rewrite try_from_long by exact Hlong. eexists; split; [reflexivity|].
      unfold uinv. split; [|split].
      * apply Forall2_app; [exact H1|constructor; [exact I|constructor]].
      * intros i j u v b Hi Hj. apply nth_error_snoc in Hi. apply nth_error_snoc in Hj.
        destruct Hi as [Hi|[_ Hi]]; [|discriminate]. destruct Hj as [Hj|[_ Hj]]; [|discriminate].
        eapply H2; eauto.
      * intros b Hb. destruct (H3 b Hb) as [i [w [Hi Hw]]]. exists i, w. split; [|exact Hw].
        rewrite nth_error_app1; [exact Hi|]. apply nth_error_Some. congruence.
    + destruct (try_from_repr h a src Hok) as [h' [u [E [Hr [_ Hh]]]]]. rewrite E.
      eexists; split; [reflexivity|]. eapply uinv_add; [exact Hinv|exact Hr|].
      pose proof Hr as [_ [_ [_ Ht]]].
      destruct (N.leb_spec (N.of_nat (length src)) inline_len) as [Hi|Hi].
      * left. split; [|unfold owned; rewrite Ht; reflexivity].
        destruct Hh as [Hh|[Hh _]]; [exact Hh|lia].
      * right. exists a. split; [exact Ha|].
        unfold try_from, u16_max in E. replace (65535 <? N.of_nat (length src))%N with false in E by lia.
        cbv zeta in E. rewrite N.mod_small in E by lia.
        replace (N.of_nat (length src) <=? inline_len)%N with false in E by lia.
        injection E as <- <-. split; reflexivity.
  - unfold ustep, astep, taken. simpl fst. destruct (h a) as [blk|] eqn:Ha; [simpl; eauto|].
    simpl negb. cbv iota. destruct (nth_error vs i) as [[u|]|] eqn:Ei.
    + destruct (Forall2_nth _ _ _ _ _ _ _ H1 Ei) as [[c|] [Ec Hr]]; simpl in Hr; [|tauto].
      rewrite Ec. destruct (clone_repr h a u c Hr Ha) as [h' [v [E [Hv [Hu Hown]]]]]. rewrite E.
      eexists; split; [reflexivity|]. eapply uinv_add; [exact Hinv|exact Hv|].
      destruct Hown as [[-> Ho]|[-> Ho]]; [auto|right; eauto].
    + eexists; split; [reflexivity|]. destruct (Forall2_nth _ _ _ _ _ _ _ H1 Ei) as [[c|] [Ec Hr]]; simpl in Hr; [tauto|].
      rewrite Ec. exact Hinv.
    + eexists; split; [reflexivity|].
      assert (nth_error cs i = None) as ->; [|exact Hinv].
      apply nth_error_None. apply nth_error_None in Ei. rewrite <- (Forall2_len _ _ _ _ _ H1). exact Ei.
  - unfold ustep, astep, taken. simpl negb. cbv iota.
    destruct (nth_error vs i) as [[u|]|] eqn:Ei.
    + destruct (Forall2_nth _ _ _ _ _ _ _ H1 Ei) as [[c|] [Ec Hr]]; simpl in Hr; [|tauto].
      pose proof Hr as [Hl [Hb [Hp Ht]]].
      assert (exists h', umbra_drop h u = Some h' /\
              forall b, owned u <> Some b -> h' b = h b) as [h' [E Hframe]].
      { unfold umbra_drop. rewrite Hl. destruct (N.ltb_spec inline_len (N.of_nat (length c))) as [Hlt|Hge].
        - replace (N.of_nat (length c) <=? inline_len)%N with false in Ht by lia.
          destruct Ht as [b [Ht Hbb]]. rewrite Ht, Hbb. eexists; split; [reflexivity|].
          intros b' Hb'. unfold upd. destruct (Nat.eqb_spec b' b) as [->|]; [|reflexivity].
          exfalso. apply Hb'. unfold owned. rewrite Ht. reflexivity.
        - eexists; split; [reflexivity|]. reflexivity. }
      rewrite E. eexists; split; [reflexivity|]. unfold uinv.
      assert (forall j v, nth_error (set_nth vs i None) j = Some (Some v) ->
                nth_error vs j = Some (Some v) /\ j <> i) as Hsub.
      { intros j v Hj. rewrite nth_error_set_nth in Hj. destruct (Nat.eqb_spec i j) as [->|Hne].
        - destruct (j <? length vs); discriminate.
        - split; [exact Hj|congruence]. }
      split; [|split].
      * (* contents of the surviving values are unchanged *)
        assert (forall j v d, nth_error vs j = Some (Some v) -> nth_error cs j = Some (Some d) -> j <> i -> repr h' v d) as Hkeep.
        { intros j v d Hj Hd Hji. destruct (Forall2_nth _ _ _ _ _ _ _ H1 Hj) as [od [Ed Hrd]].
          rewrite Hd in Ed. injection Ed as <-. simpl in Hrd. eapply repr_frame; [exact Hrd|].
          intros b Hbv. apply Hframe. intro Hbu. apply Hji. eapply H2; eauto. }
        assert (forall vs2 cs2 k, Forall2 (reprO h) vs2 cs2 ->
                  (forall j v, nth_error vs2 j = Some (Some v) -> nth_error vs (k + j) = Some (Some v)) ->
                  (forall j v, nth_error cs2 j = Some (Some v) -> nth_error cs (k + j) = Some (Some v)) ->
                  Forall2 (reprO h') (if k <=? i then set_nth vs2 (i - k) None else vs2)
                                     (if k <=? i then set_nth cs2 (i - k) None else cs2)) as Hgen.
        { intros vs2 cs2 k HF. revert k. induction HF as [|x y l l' Hxy HF IH]; intros k Hn Hm.
          - destruct (k <=? i); simpl; constructor.
          - assert (Hih : Forall2 (reprO h') (if S k <=? i then set_nth l (i - S k) None else l)
                                     (if S k <=? i then set_nth l' (i - S k) None else l')).
            { apply IH.
              - intros j v Hj. specialize (Hn (S j) v Hj). rewrite Nat.add_succ_r in Hn. exact Hn.
              - intros j v Hj. specialize (Hm (S j) v Hj). rewrite Nat.add_succ_r in Hm. exact Hm. }
            destruct (Nat.eq_dec k i) as [->|Hki].
            + rewrite Nat.leb_refl, Nat.sub_diag. simpl.
              replace (S i <=? i) with false in Hih by lia. constructor; [exact I|exact Hih].
            + assert (reprO h' x y) as Hxy'.
              { destruct x as [v|], y as [d|]; simpl in *; try tauto.
                apply (Hkeep k).
                - specialize (Hn 0 v eq_refl). rewrite Nat.add_0_r in Hn. exact Hn.
                - specialize (Hm 0 d eq_refl). rewrite Nat.add_0_r in Hm. exact Hm.
                - exact Hki. }
              destruct (k <=? i) eqn:Eki.
              * replace (S k <=? i) with true in Hih by lia.
                replace (i - k) with (S (i - S k)) by lia. simpl. constructor; assumption.
              * replace (S k <=? i) with false in Hih by lia. constructor; assumption. }
        specialize (Hgen vs cs 0 H1 (fun j v H => H) (fun j v H => H)).
        simpl in Hgen. rewrite Nat.sub_0_r in Hgen. exact Hgen.
      * intros j k v w b Hj Hk. apply Hsub in Hj. apply Hsub in Hk. destruct Hj, Hk. eapply H2; eauto.
      * intros b Hb2.
        assert (owned u <> Some b) as Hub.
        { intro Hub. unfold umbra_drop in E. rewrite Hl in E. unfold owned in Hub.
          destruct (u_trail u) as [s|b'] eqn:Etr; [discriminate|]. injection Hub as ->.
          destruct (N.leb_spec (N.of_nat (length c)) inline_len) as [Hle|Hle].
          - discriminate.
          - replace (inline_len <? N.of_nat (length c))%N with true in E by lia.
            destruct (h b); [|discriminate]. injection E as <-. unfold upd in Hb2.
            rewrite Nat.eqb_refl in Hb2. congruence. }
        rewrite (Hframe b Hub) in Hb2. destruct (H3 b Hb2) as [j [w [Hj Hw]]].
        exists j, w. split; [|exact Hw]. rewrite nth_error_set_nth.
        destruct (Nat.eqb_spec i j) as [->|]; [|exact Hj]. congruence.
    + eexists; split; [reflexivity|].
      assert (set_nth cs i None = cs) as ->; [|exact Hinv].
      destruct (Forall2_nth _ _ _ _ _ _ _ H1 Ei) as [[c|] [Ec Hr]]; simpl in Hr; [tauto|].
      clear - Ec. revert i Ec. induction cs as [|x cs IH]; intros [|i] H; simpl in *; try congruence.
      f_equal. apply IH. exact H.
    + eexists; split; [reflexivity|].
      assert (set_nth cs i None = cs) as ->; [|exact Hinv].
      apply nth_error_None in Ei. rewrite (Forall2_len _ _ _ _ _ H1) in Ei.
      clear - Ei. revert i Ei. induction cs as [|x cs IH]; intros [|i] H; simpl in *; try reflexivity; try lia.
      f_equal. apply IH. lia.
Qed.

(** Abstract run, mirroring which allocation requests were granted. *)
Fixpoint arun (st : ustate) (cs : list (option (list N))) (ops : list uop) : list (option (list N)) :=
  match ops with
  | [] => cs
  | o :: ops' =>
      match ustep st o with
      | Some st' => arun st' (astep (taken (fst st) o) cs o) ops'
      | None => cs
      end
  end.

Lemma urun_inv : forall ops st cs, uinv st cs ->
  exists st', urun st ops = Some st' /\ uinv st' (arun st cs ops).
Proof.
  induction ops as [|o ops IH]; intros st cs H; simpl; [eauto|].
  destruct (ustep_inv st cs o H) as [st' [E H']]. rewrite E. apply IH. exact H'.
Qed.

Definition uinit : ustate := (fun _ => None, []).

Lemma uinit_inv : uinv uinit [].
Proof.
  split; [constructor|]. split.
  - intros i j u v a Hi. destruct i; discriminate.
  - intros a H. exfalso. apply H. reflexivity.
Qed.

End Umbra.
