(** Suggestions at the public interface: [Dictionary::suggest], [Dictionary::suggester] and the
    options of a [Suggester]. *)
From Coq Require Import List NArith ZArith Lia Bool Arith Permutation Sorted.
From Coq Require Import ZifyBool ZifyNat ZifyN.
From Verif Require Import Base Utf8 Unicode Flags Bag Affix Conversion Aff Checker AffixSpec CompoundRule Rep CompoundSpec CompoundTotal
  RuleCompound Spell CheckSpec CheckMono CheckProps Parser ParserSafe Lib LibSpec LibProps BufferOps Ngram Suggester SuggestSpec
  SuggestLow SuggestMono SuggestProps.
Import ListNotations.
Set Implicit Arguments.

(** What suggesting depends on beside the dictionary and the platform of the checker: how the
    standard library arranges heaps and sorts equal elements, whether debug assertions are on,
    and the order in which the hash table yields the word list ([WordList::iter],
    hash_bag.rs). *)
Record runtime := mkRuntime {
  rn_heaps : heaps;
  rn_debug : bool;
  rn_iter : list (str * flagset) -> list (str * flagset) }.
Record wf_runtime (rn : runtime) : Prop := {
  wr_heaps : wf_heaps (rn_heaps rn);
  wr_iter : forall l, Permutation l (rn_iter rn l) }.

(** [Checker::into_suggester] and [Suggester::with_ngram_suggestions] (suggester.rs 38-70) on
    the checker of a dictionary with the two options a user can set on it. *)
Definition suggester_of (pl : platform) (rn : runtime) (d : dictionary) (lower_as_title lower_as_upper ngram : bool) : suggester :=
  mkSuggester (checker_of pl d lower_as_title lower_as_upper) (rn_iter rn (d_words d)) ngram (rn_debug rn) (rn_heaps rn).

(** [Dictionary::suggest] and [Dictionary::suggester] (lib.rs 207-217). *)
Definition dict_suggest (pl : platform) (rn : runtime) (d : dictionary) (fuel : nat) (w : str) (out : list str) : Res (list str) :=
  suggest (suggester_of pl rn d false false true) fuel w out.

(** ** Heaps that keep their vector sorted *)
Definition score_leb {A} (x y : Z * A) : bool := (fst x <=? fst y)%Z.
Definition score_geb {A} (x y : Z * A) : bool := (fst y <=? fst x)%Z.
Definition sorted_heaps : heaps := mkHeaps
  (fun A l x => insert_by (@score_leb A) x l) (fun A l => tl l)
  (fun A l => sort_by (@score_geb A) l) (fun A l => sort_by (@score_geb A) l)
  (fun A l => StronglySorted (fun a b => score_leb a b = true) l).
Lemma descending_sort : forall A (l : list (Z * A)), descending (sort_by (@score_geb A) l).
Proof.
  intros A l. pose proof (@sort_by_sorted _ (@score_geb A)) as H.
  specialize (H ltac:(intros x y; unfold score_geb; lia) ltac:(intros x y z; unfold score_geb; lia) l).
  revert H. generalize (sort_by (@score_geb A) l). clear l.
  intros l H a x b y c E. subst l.
  induction a as [|z a IH]; cbn [app] in H; inversion H as [|? ? H1 H2]; subst.
  - rewrite Forall_forall in H2. specialize (H2 y). unfold score_geb in H2. rewrite in_app_iff in H2. cbn [In] in H2. specialize (H2 (or_intror (or_introl eq_refl))). lia.
  - exact (IH H1).
Qed.
Lemma sorted_heaps_wf : wf_heaps sorted_heaps.
Proof.
  constructor; cbn; intros.
  - constructor.
  - split; [apply insert_by_sorted; [intros; unfold score_leb; lia|intros ? ? ?; unfold score_leb; lia|assumption]|apply insert_by_perm].
  - inversion H; subst. split; [assumption|reflexivity].
  - inversion H as [|? ? H1 H2]; subst. eapply Forall_impl; [|exact H2]. intros y Hy. unfold score_leb in Hy. lia.
  - split; [apply sort_by_perm|apply descending_sort].
  - split; [apply sort_by_perm|apply descending_sort].
Qed.
Definition ex_rn : runtime := mkRuntime sorted_heaps true (fun l => l).
Lemma ex_rn_wf : wf_runtime ex_rn.
Proof. constructor; [exact sorted_heaps_wf|reflexivity]. Qed.

(** ** The suggester of a dictionary a caller can hold *)
Section Facts.
Variable pl : platform.
Hypothesis WP : wf_platform pl.
Variable rn : runtime.
Hypothesis WN : wf_runtime rn.
Variable d : dictionary.
Hypothesis R : Reachable pl d.
Variables lt lu ng : bool.
Notation sg := (suggester_of pl rn d lt lu ng).
Let OK : dict_ok pl d := reachable_ok WP R.

Lemma sims_ok : forall g, sim_ok g -> wf_sim g.
Proof.
  intros g [H1 H2]. split; [exact H1|]. eapply Forall_impl; [|exact H2]. intros s [L S']. split; [|exact S'].
  intros ->. cbn in L. lia.
Qed.
Lemma dict_tables : wf_reps (ad_reps (d_aff d)) /\ Forall wf_sim (ad_sims (d_aff d)) /\
  Forall (fun e => scalars (fst e) /\ scalars (snd e)) (rp_table (ad_reps (d_aff d))) /\
  scalars (ad_try (d_aff d)) /\ scalars (ad_keyboard (d_aff d)) /\
  conv_table_ok (ad_oconv (d_aff d)) /\ Forall (fun c => scalars (cv_to c)) (ct_inner (ad_oconv (d_aff d))) /\
  conv_table_ok (ad_iconv (d_aff d)) /\ Forall (fun c => scalars (cv_to c)) (ct_inner (ad_iconv (d_aff d))).
Proof.
  destruct (do_aff OK) as (x & LP & CO).
  pose proof (@aff_facts pl WP _ _ LP CO) as (_ & _ & _ & _ & _ & _ & _ & IO & IT & OO & OT & _ & _ & SI & _ & KB & TR).
  pose proof (@reps_facts pl WP _ _ LP CO) as (WR & RS).
  split; [exact WR|]. split; [eapply Forall_impl; [|exact SI]; exact sims_ok|]. repeat (split; [assumption|]). assumption.
Qed.
Lemma words_wf : Forall (fun e => wf_flagset (snd e)) (su_words sg).
Proof.
  apply Forall_forall. intros [w f] H. cbn in H |- *. eapply Permutation_in in H; [|symmetry; apply (wr_iter WN)].
  apply entries_In in H. destruct (@dict_entry_ok pl d OK w f H) as (_ & _ & W). exact (proj1 W).
Qed.
Lemma words_In : forall w f, In (w, f) (su_words sg) <-> In (w, f) (d_words d).
Proof.
  intros w f. cbn. split; intro H.
  - eapply Permutation_in; [symmetry; apply (wr_iter WN)|exact H].
  - eapply Permutation_in; [apply (wr_iter WN)|exact H].
Qed.
End Facts.
