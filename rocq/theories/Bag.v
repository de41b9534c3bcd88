(** The word list: a multimap on a hash table (src/hash_bag.rs).

    hashbrown's [HashTable] is external code.  It is modelled by the list of its occupied
    slots in table order together with three unconstrained parameters: the user's hash
    function, the placement of an inserted entry (any rearrangement of the slots, which also
    covers growing and rehashing), and the set of slots a probe for a given hash visits
    (any superset of the slots holding that hash).  *)
From Coq Require Import List NArith ZArith Lia Bool Arith Permutation.
From Verif Require Import Base.
Import ListNotations.

Section Bag.
Context {V : Type}.
Definition entry : Type := str * V.
Definition table := list entry.

(** [make_hash] with the user's [BuildHasher] (hash_bag.rs 118-127). *)
Variable hash : str -> N.
(** [insert_unique] of hashbrown: where the new entry goes, and how the table is
    rearranged when it grows. *)
Variable place : table -> entry -> table.
(** [iter_hash] of hashbrown: does a probe for [h] visit a slot whose hash is [h']. *)
Variable visits : N -> N -> bool.

(** hash_bag.rs 65-70. *)
Definition bag_insert (t : table) (k : str) (v : V) : table := place t (k, v).

(** hash_bag.rs 75-86 and 178-190. *)
Definition bag_get (t : table) (k : str) : list entry :=
  filter (fun e => str_eqb k (fst e)) (filter (fun e => visits (hash k) (hash (fst e))) t).

(** hash_bag.rs 91-102 and 209-221, with the caller's loop body [f] applied to every
    yielded value. *)
Definition bag_update (t : table) (k : str) (f : V -> V) : table :=
  map (fun e => if visits (hash k) (hash (fst e)) && str_eqb k (fst e)
                then (fst e, f (snd e)) else e) t.

(** hash_bag.rs 45-47. *)
Definition bag_len (t : table) : nat := length t.

(** The contract of hashbrown's table. *)
Definition placement_ok : Prop := forall t e, Permutation (e :: t) (place t e).
Definition probe_ok : Prop := forall h, visits h h = true.

(** Histories. *)
Inductive bag_op := BInsert (k : str) (v : V) | BUpdate (k : str) (f : V -> V).
Definition bag_step (t : table) (o : bag_op) : table :=
  match o with BInsert k v => bag_insert t k v | BUpdate k f => bag_update t k f end.
Definition bag_run (ops : list bag_op) : table := fold_left bag_step ops [].

(** Specification: a finite list of key/value pairs, no hashing. *)
Definition spec_step (m : list entry) (o : bag_op) : list entry :=
  match o with
  | BInsert k v => m ++ [(k, v)]
  | BUpdate k f => map (fun e => if str_eqb k (fst e) then (fst e, f (snd e)) else e) m
  end.
Definition spec_run (ops : list bag_op) : list entry := fold_left spec_step ops [].
(** The values stored under [k]. *)
Definition spec_get (m : list entry) (k : str) : list V :=
  map snd (filter (fun e => str_eqb k (fst e)) m).

Hypothesis Hplace : placement_ok.
Hypothesis Hprobe : probe_ok.

Lemma bag_get_filter : forall t k, bag_get t k = filter (fun e => str_eqb k (fst e)) t.
Proof.
  intros t k. unfold bag_get. induction t as [|e t IH]; simpl; [reflexivity|].
  destruct (visits (hash k) (hash (fst e))) eqn:E; simpl.
  - rewrite IH. reflexivity.
  - rewrite IH. destruct (str_eqb k (fst e)) eqn:F; [|reflexivity].
    apply str_eqb_eq in F. subst k. rewrite Hprobe in E. discriminate.
Qed.

Lemma bag_update_map : forall t k f,
  bag_update t k f = map (fun e => if str_eqb k (fst e) then (fst e, f (snd e)) else e) t.
Proof.
  intros t k f. unfold bag_update. apply map_ext. intro e.
  destruct (str_eqb k (fst e)) eqn:F; [|rewrite andb_false_r; reflexivity].
  apply str_eqb_eq in F. subst k. rewrite Hprobe. reflexivity.
Qed.

Lemma bag_steps_perm : forall ops t m, Permutation t m ->
  Permutation (fold_left bag_step ops t) (fold_left spec_step ops m).
Proof.
  induction ops as [|o ops IH]; intros t m H; simpl; [exact H|].
  apply IH. destruct o as [k v|k f]; simpl.
  - unfold bag_insert. eapply Permutation_trans; [apply Permutation_sym, Hplace|].
    eapply Permutation_trans; [apply perm_skip, H|]. apply Permutation_cons_append.
  - rewrite bag_update_map. apply Permutation_map. exact H.
Qed.

Lemma Permutation_filter' : forall A (f : A -> bool) l l',
  Permutation l l' -> Permutation (filter f l) (filter f l').
Proof.
  intros A f l l' H. induction H as [|x l l' H IH|x y l|l l' l'' H1 IH1 H2 IH2]; simpl.
  - constructor.
  - destruct (f x); [constructor|]; exact IH.
  - destruct (f x), (f y); try reflexivity. apply perm_swap.
  - etransitivity; eassumption.
Qed.

(** Refinement: every lookup returns exactly the multiset of values stored under the key. *)
Theorem bag_refines : forall ops k,
  Permutation (map snd (bag_get (bag_run ops) k)) (spec_get (spec_run ops) k).
Proof.
  intros ops k. unfold spec_get. rewrite bag_get_filter. apply Permutation_map.
  apply Permutation_filter'. apply bag_steps_perm. constructor.
Qed.

Theorem bag_get_keys : forall t k e, In e (bag_get t k) -> fst e = k.
Proof.
  intros t k e H. rewrite bag_get_filter in H. apply filter_In in H. destruct H as [_ H].
  apply str_eqb_eq in H. congruence.
Qed.

Theorem bag_len_refines : forall ops, bag_len (bag_run ops) = length (spec_run ops).
Proof.
  intro ops. unfold bag_len. apply Permutation_length. apply bag_steps_perm. constructor.
Qed.

End Bag.
Arguments bag_op : clear implicits.
Arguments entry : clear implicits.
Arguments table : clear implicits.
