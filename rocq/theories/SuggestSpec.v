(** What the edit strategies of the suggester propose: every strategy runs the same test over an
    explicit list of candidate words. *)
From Coq Require Import List NArith ZArith Lia Bool Arith Permutation.
From Coq Require Import ZifyBool ZifyNat ZifyN.
From Verif Require Import Base Utf8 Unicode Flags Affix Conversion Aff Checker Bag BufferOps Ngram Suggester Rep.
Import ListNotations.
Set Implicit Arguments.

Ltac apps := repeat first [rewrite <- app_assoc | progress cbn [app]].

(** ** Candidates *)

(** All ways to cut a word at a character. *)
Fixpoint splits_from (pre w : str) : list (str * N * str) :=
  match w with
  | [] => []
  | c :: w' => (pre, c, w') :: splits_from (pre ++ [c]) w'
  end.
Definition splits (w : str) : list (str * N * str) := splits_from [] w.
(** All ways to cut a word in two. *)
Definition cuts (w : str) : list (str * str) := map (fun i => (firstn i w, skipn i w)) (seq 0 (S (length w))).

Definition deletions (w : str) : list str := map (fun '(u, _, v) => u ++ v) (splits w).
Definition insertions (alphabet w : str) : list str :=
  flat_map (fun c => map (fun '(u, v) => u ++ c :: v) (cuts w)) alphabet.
Definition replacements (alphabet w : str) : list str :=
  flat_map (fun c => flat_map (fun '(u, a, v) => if (c =? a)%N then [] else [u ++ c :: v]) (splits w)) alphabet.
Definition adjacent_swaps (w : str) : list str :=
  flat_map (fun '(u, a, r) => match r with b :: v => [u ++ b :: a :: v] | [] => [] end) (splits w).
Definition double_swaps (w : str) : list str :=
  match w with
  | [a; b; c; d] => [[b; a; d; c]]
  | [a; b; c; d; e] => [[b; a; c; e; d]; [a; c; b; e; d]]
  | _ => []
  end.
Definition swaps (w : str) : list str :=
  flat_map (fun '(u, a, r) => map (fun '(m, b, v) => u ++ b :: m ++ a :: v) (splits r)) (splits w).
(** A character moved to the right over at least two others, and to the left. *)
Definition moves_right (w : str) : list str :=
  flat_map (fun '(u, a, r) =>
    match r with [] => [] | b :: r' => map (fun '(m, c, v) => u ++ b :: m ++ c :: a :: v) (splits r') end) (splits w).
Definition moves_left (w : str) : list str :=
  flat_map (fun '(u, a, r) => map (fun '(p, c, m) => p ++ a :: c :: m ++ r) (rev (splits (removelast u))))
    (map (fun '(u, a, v) => (u, a, match rev u with [] => v | b :: _ => b :: v end)) (rev (splits w))).
Definition doublings (w : str) : list str :=
  flat_map (fun '(u, x, r) =>
    match r with
    | y :: x2 :: y2 :: x3 :: z :: v =>
        if (x =? x2)%N && (y =? y2)%N && (x =? x3)%N then [u ++ x :: y :: x2 :: z :: v] else []
    | _ => []
    end) (splits w).
(** Keys next to a character on the keyboard, and its upper case. *)
Definition neighbours (kb : str) (c : N) : list N :=
  flat_map (fun '(u, k, v) =>
    if (k =? c)%N then
      filter (fun x => negb (x =? 124)%N)
        ((match rev u with x :: _ => [x] | [] => [] end) ++ (match v with x :: _ => [x] | [] => [] end))
    else []) (splits kb).
Definition key_slips (U : unicode) (kb w : str) : list str :=
  flat_map (fun '(u, c, v) =>
    (if str_eqb (u_upper U c) [c] then [] else [u ++ u_upper U c ++ v]) ++
    map (fun x => u ++ x :: v) (neighbours kb c)) (splits w).
(** REP. *)
Definition rep_forms (t : rep_table) (w : str) : list str :=
  flat_map (fun '(from, to) => if str_eqb w from then [to] else []) (whole_reps t) ++
  flat_map (fun '(from, to) => match strip_prefix from w with Some r => [to ++ r] | None => [] end) (start_reps t) ++
  flat_map (fun '(from, to) => match strip_suffix from w with Some r => [r ++ to] | None => [] end) (end_reps t) ++
  flat_map (fun '(from, to) => map (fun i => firstn i w ++ to ++ skipn (i + length from) w) (match_indices from w)) (any_reps t).

(** MAP: what the group makes of the character [ch] at position [idx], or of the strings from there
    on, each with the position behind the replacement. *)
Definition indexed {A} (l : list A) : list (nat * A) := combine (seq 0 (length l)) l.
Definition map_exchanges (w : str) (idx : nat) (ch : N) (g : similarity_group) : list (str * nat) :=
  if memb ch (sg_chars g) then
    flat_map (fun c => if (c =? ch)%N then [] else [(firstn idx w ++ c :: skipn (S idx) w, S idx)]) (sg_chars g) ++
    map (fun s => (firstn idx w ++ s ++ skipn (S idx) w, idx + length s)) (sg_strings g)
  else
    flat_map (fun '(pos, from) =>
      match find_sub from (skipn idx w) with
      | None => []
      | Some i =>
          map (fun c => (firstn (i + idx) w ++ c :: skipn (i + idx + length from) w, S (i + idx))) (sg_chars g) ++
          flat_map (fun '(pos2, to) =>
            if (pos2 =? pos)%nat then []
            else [(firstn (i + idx) w ++ to ++ skipn (i + idx + length from) w, i + idx + length to)])
            (indexed (sg_strings g))
      end) (indexed (sg_strings g)).
Definition map_edits (gs : list similarity_group) (w : str) (i : nat) : list (str * nat) :=
  flat_map (fun '(idx, ch) => flat_map (map_exchanges w idx ch) gs) (combine (seq i (length w - i)) (skipn i w)).
(** The words reached by exchanges from left to right: each followed by those made from it. *)
Fixpoint map_tree (n : nat) (gs : list similarity_group) (w : str) (i : nat) : list str :=
  match n with
  | O => []
  | S n' => flat_map (fun '(w', i') => w' :: map_tree n' gs w' i') (map_edits gs w i)
  end.
Definition map_forms (gs : list similarity_group) (w : str) : list str := map_tree (S (length w)) gs w 0.

Definition wf_sim (g : similarity_group) : Prop :=
  scalars (sg_chars g) /\ Forall (fun s => s <> [] /\ scalars s) (sg_strings g).

Lemma splits_from_shift : forall w p, splits_from p w = map (fun '(u, c, v) => (p ++ u, c, v)) (splits w).
Proof.
  induction w as [|c w IH]; intros p; [reflexivity|].
  unfold splits. cbn [splits_from map app]. rewrite app_nil_r, (IH (p ++ [c])), (IH [c]), map_map. f_equal.
  apply map_ext. intros [[u x] v]. rewrite <- app_assoc. reflexivity.
Qed.
Lemma splits_cons : forall c w, splits (c :: w) = ([], c, w) :: map (fun '(u, x, v) => (c :: u, x, v)) (splits w).
Proof.
  intros c w. unfold splits at 1. cbn [splits_from app]. f_equal. rewrite splits_from_shift. reflexivity.
Qed.
Lemma splits_In : forall w u c v, In (u, c, v) (splits w) <-> w = u ++ c :: v.
Proof.
  induction w as [|x w IH]; intros u c v.
  - cbn. split; [intros []|]. destruct u; discriminate.
  - rewrite splits_cons. cbn [In]. split.
    + intros [H|H]; [inversion H; reflexivity|]. apply in_map_iff in H.
      destruct H as ([[u' c'] v'] & E & H). inversion E; subst. apply IH in H. subst w. reflexivity.
    + intros H. destruct u as [|y u]; cbn in H; inversion H; subst; [left; reflexivity|].
      right. apply in_map_iff. exists (u, c, v). split; [reflexivity|]. apply IH. reflexivity.
Qed.
Lemma cuts_In : forall w u v, In (u, v) (cuts w) <-> w = u ++ v.
Proof.
  intros w u v. unfold cuts. rewrite in_map_iff. split.
  - intros (i & E & _). inversion E; subst. symmetry. apply firstn_skipn.
  - intros ->. exists (length u). split.
    + rewrite firstn_app_exact, skipn_app_exact by reflexivity. reflexivity.
    + apply in_seq. rewrite app_length. lia.
Qed.

Theorem deletions_In : forall w x, In x (deletions w) <-> exists u c v, w = u ++ c :: v /\ x = u ++ v.
Proof.
  intros w x. unfold deletions. rewrite in_map_iff. split.
  - intros ([[u c] v] & <- & H). apply splits_In in H. eauto.
  - intros (u & c & v & E & ->). exists (u, c, v). split; [reflexivity|]. apply splits_In. exact E.
Qed.
Theorem insertions_In : forall cs w x,
  In x (insertions cs w) <-> exists c u v, In c cs /\ w = u ++ v /\ x = u ++ c :: v.
Proof.
  intros cs w x. unfold insertions. rewrite in_flat_map. split.
  - intros (c & Hc & H). apply in_map_iff in H. destruct H as ([u v] & <- & H). apply cuts_In in H. eauto 6.
  - intros (c & u & v & Hc & E & ->). exists c. split; [exact Hc|]. apply in_map_iff. exists (u, v).
    split; [reflexivity|]. apply cuts_In. exact E.
Qed.
Theorem replacements_In : forall cs w x,
  In x (replacements cs w) <-> exists c u a v, In c cs /\ c <> a /\ w = u ++ a :: v /\ x = u ++ c :: v.
Proof.
  intros cs w x. unfold replacements. rewrite in_flat_map. split.
  - intros (c & Hc & H). apply in_flat_map in H. destruct H as ([[u a] v] & H & Hx). apply splits_In in H.
    destruct (N.eqb_spec c a) as [|Hn]; [destruct Hx|]. destruct Hx as [<-|[]]. exists c, u, a, v. auto.
  - intros (c & u & a & v & Hc & Hn & E & ->). exists c. split; [exact Hc|]. apply in_flat_map. exists (u, a, v).
    split; [apply splits_In; exact E|]. destruct (N.eqb_spec c a); [congruence|left; reflexivity].
Qed.
Theorem adjacent_swaps_In : forall w x,
  In x (adjacent_swaps w) <-> exists u a b v, w = u ++ a :: b :: v /\ x = u ++ b :: a :: v.
Proof.
  intros w x. unfold adjacent_swaps. rewrite in_flat_map. split.
  - intros ([[u a] [|b v]] & H & Hx); [destruct Hx|]. apply splits_In in H. destruct Hx as [<-|[]]. eauto 6.
  - intros (u & a & b & v & E & ->). exists (u, a, b :: v). split; [apply splits_In; exact E|left; reflexivity].
Qed.
Theorem swaps_In : forall w x,
  In x (swaps w) <-> exists u a m b v, w = u ++ a :: m ++ b :: v /\ x = u ++ b :: m ++ a :: v.
Proof.
  intros w x. unfold swaps. rewrite in_flat_map. split.
  - intros ([[u a] r] & H & Hx). apply splits_In in H. apply in_map_iff in Hx.
    destruct Hx as ([[m b] v] & <- & Hr). apply splits_In in Hr. subst r. eauto 8.
  - intros (u & a & m & b & v & E & ->). exists (u, a, m ++ b :: v). split; [apply splits_In; exact E|].
    apply in_map_iff. exists (m, b, v). split; [reflexivity|]. apply splits_In. reflexivity.
Qed.
Theorem moves_right_In : forall w x,
  In x (moves_right w) <-> exists u a m v, 2 <= length m /\ w = u ++ a :: m ++ v /\ x = u ++ m ++ a :: v.
Proof.
  intros w x. unfold moves_right. rewrite in_flat_map. split.
  - intros ([[u a] [|b r]] & H & Hx); [destruct Hx|]. apply splits_In in H. apply in_map_iff in Hx.
    destruct Hx as ([[m c] v] & <- & Hr). apply splits_In in Hr. subst r.
    exists u, a, (b :: m ++ [c]), v. split; [cbn; rewrite app_length; cbn; lia|].
    cbn [app]. rewrite <- !app_assoc. split; [exact H|]. reflexivity.
  - intros (u & a & m & v & L & E & ->). destruct m as [|b m]; [cbn in L; lia|].
    destruct (@exists_last _ m) as (m' & c & ->); [intros ->; cbn in L; lia|].
    exists (u, a, b :: (m' ++ [c]) ++ v). split; [apply splits_In; exact E|].
    apply in_map_iff. exists (m', c, v). split.
    + cbn [app]. rewrite <- app_assoc. reflexivity.
    + apply splits_In. rewrite <- app_assoc. reflexivity.
Qed.
Theorem moves_left_In : forall w x,
  In x (moves_left w) <-> exists u m a v, 2 <= length m /\ w = u ++ m ++ a :: v /\ x = u ++ a :: m ++ v.
Proof.
  intros w x. unfold moves_left. rewrite in_flat_map. split.
  - intros ([[u a] r] & H & Hx). apply in_map_iff in H. destruct H as ([[u' a'] v] & E & H).
    inversion E; subst; clear E. apply in_rev, splits_In in H. apply in_map_iff in Hx.
    destruct Hx as ([[p c] m] & <- & Hp). apply in_rev, splits_In in Hp.
    destruct (rev u) as [|b ru] eqn:Er.
    + apply (f_equal (@rev N)) in Er. rewrite rev_involutive in Er. subst u. cbn in Hp. destruct p; discriminate.
    + apply (f_equal (@rev N)) in Er. rewrite rev_involutive in Er. cbn in Er. rewrite Er, removelast_last in Hp.
      exists p, (c :: m ++ [b]), a, v. split; [cbn; rewrite app_length; cbn; lia|].
      rewrite H, Er, Hp. apps. split; reflexivity.
  - intros (u & m & a & v & L & E & ->). destruct m as [|c m]; [cbn in L; lia|].
    destruct (@exists_last _ m) as (m' & b & ->); [intros ->; cbn in L; lia|].
    exists (u ++ c :: m' ++ [b], a, b :: v). split.
    + apply in_map_iff. exists (u ++ c :: m' ++ [b], a, v). split.
      * replace (u ++ c :: m' ++ [b]) with ((u ++ c :: m') ++ [b]) by (rewrite <- app_assoc; reflexivity).
        rewrite rev_app_distr. reflexivity.
      * apply -> in_rev. apply splits_In. rewrite E. apps. reflexivity.
    + apply in_map_iff. exists (u, c, m'). split.
      * cbn [app]. rewrite <- app_assoc. reflexivity.
      * apply -> in_rev. apply splits_In.
        replace (u ++ c :: m' ++ [b]) with ((u ++ c :: m') ++ [b]) by (rewrite <- app_assoc; reflexivity).
        rewrite removelast_last. reflexivity.
Qed.
Theorem doublings_In : forall w s,
  In s (doublings w) <-> exists u x y z v, w = u ++ x :: y :: x :: y :: x :: z :: v /\ s = u ++ x :: y :: x :: z :: v.
Proof.
  intros w s. unfold doublings. rewrite in_flat_map. split.
  - intros ([[u x] r] & H & Hs). apply splits_In in H.
    destruct r as [|y [|x2 [|y2 [|x3 [|z v]]]]]; try destruct Hs.
    destruct (N.eqb_spec x x2) as [E1|]; [|destruct Hs].
    destruct (N.eqb_spec y y2) as [E2|]; [|destruct Hs].
    destruct (N.eqb_spec x x3) as [E3|]; [|destruct Hs]. subst x2 y2 x3.
    destruct Hs as [<-|[]]. exists u, x, y, z, v. auto.
  - intros (u & x & y & z & v & E & ->). exists (u, x, y :: x :: y :: x :: z :: v).
    split; [apply splits_In; exact E|]. rewrite !N.eqb_refl. left. reflexivity.
Qed.
Lemma rev_head : forall (l : str) x t, rev l = x :: t -> l = rev t ++ [x].
Proof. intros l x t E. rewrite <- (rev_involutive l), E. reflexivity. Qed.
Theorem neighbours_In : forall kb c x,
  In x (neighbours kb c) <-> x <> 124%N /\ ((exists u v, kb = u ++ x :: c :: v) \/ (exists u v, kb = u ++ c :: x :: v)).
Proof.
  intros kb c x. unfold neighbours. rewrite in_flat_map. split.
  - intros ([[u k] v] & H & Hx). apply splits_In in H. destruct (N.eqb_spec k c) as [->|]; [|destruct Hx].
    apply filter_In in Hx. destruct Hx as [Hx Hb]. split; [intros ->; discriminate|].
    apply in_app_or in Hx. destruct Hx as [Hx|Hx].
    + destruct (rev u) as [|y t] eqn:Er; [destruct Hx|]. destruct Hx as [<-|[]]. apply rev_head in Er.
      left. exists (rev t), v. rewrite H, Er, <- app_assoc. reflexivity.
    + destruct v as [|y v]; [destruct Hx|]. destruct Hx as [<-|[]]. right. eauto.
  - intros [Hb [(u & v & E)|(u & v & E)]].
    + exists (u ++ [x], c, v). split; [apply splits_In; rewrite E, <- app_assoc; reflexivity|].
      rewrite N.eqb_refl. apply filter_In. split; [|apply negb_true_iff, N.eqb_neq; exact Hb].
      apply in_or_app. left. rewrite rev_app_distr. left. reflexivity.
    + exists (u, c, x :: v). split; [apply splits_In; exact E|].
      rewrite N.eqb_refl. apply filter_In. split; [|apply negb_true_iff, N.eqb_neq; exact Hb].
      apply in_or_app. right. left. reflexivity.
Qed.
Theorem key_slips_In : forall U kb w x,
  In x (key_slips U kb w) <->
  exists u c v, w = u ++ c :: v /\
    ((u_upper U c <> [c] /\ x = u ++ u_upper U c ++ v) \/ exists y, In y (neighbours kb c) /\ x = u ++ y :: v).
Proof.
  intros U kb w x. unfold key_slips. rewrite in_flat_map. split.
  - intros ([[u c] v] & H & Hx). apply splits_In in H. exists u, c, v. split; [exact H|].
    apply in_app_or in Hx. destruct Hx as [Hx|Hx].
    + destruct (str_eqb (u_upper U c) [c]) eqn:E; [destruct Hx|]. apply str_eqb_neq in E.
      destruct Hx as [<-|[]]. left. auto.
    + apply in_map_iff in Hx. destruct Hx as (y & <- & Hy). right. eauto.
  - intros (u & c & v & E & Hx). exists (u, c, v). split; [apply splits_In; exact E|]. apply in_or_app.
    destruct Hx as [[Hn ->]|(y & Hy & ->)].
    + left. apply str_eqb_neq in Hn. rewrite Hn. left. reflexivity.
    + right. apply in_map_iff. eauto.
Qed.
Theorem rep_forms_In : forall t w x, wf_reps t ->
  (In x (rep_forms t w) <-> RepSimilar t (fun y => y = x) w).
Proof.
  intros t w x [Hany _]. unfold rep_forms, RepSimilar. rewrite !in_app_iff, !in_flat_map.
  assert (A1 : (exists e, In e (whole_reps t) /\ In x (let '(from, to) := e in if str_eqb w from then [to] else [])) <->
    exists from to, In (from, to) (whole_reps t) /\ w = from /\ to = x).
  { split.
    - intros ([from to] & H & Hx). destruct (str_eqb w from) eqn:E; [|destruct Hx]. apply str_eqb_eq in E.
      destruct Hx as [<-|[]]. eauto 6.
    - intros (from & to & H & -> & ->). exists (from, x). split; [exact H|]. rewrite str_eqb_refl. left. reflexivity. }
  assert (A2 : (exists e, In e (start_reps t) /\
     In x (let '(from, to) := e in match strip_prefix from w with Some r => [to ++ r] | None => [] end)) <->
    exists from to r, In (from, to) (start_reps t) /\ w = from ++ r /\ to ++ r = x).
  { split.
    - intros ([from to] & H & Hx). destruct (strip_prefix from w) as [r|] eqn:E; [|destruct Hx].
      apply strip_prefix_spec in E. destruct Hx as [<-|[]]. eauto 8.
    - intros (from & to & r & H & E & <-). exists (from, to). split; [exact H|]. apply strip_prefix_spec in E.
      rewrite E. left. reflexivity. }
  assert (A3 : (exists e, In e (end_reps t) /\
     In x (let '(from, to) := e in match strip_suffix from w with Some r => [r ++ to] | None => [] end)) <->
    exists from to r, In (from, to) (end_reps t) /\ w = r ++ from /\ r ++ to = x).
  { split.
    - intros ([from to] & H & Hx). destruct (strip_suffix from w) as [r|] eqn:E; [|destruct Hx].
      apply strip_suffix_spec in E. destruct Hx as [<-|[]]. eauto 8.
    - intros (from & to & r & H & E & <-). exists (from, to). split; [exact H|]. apply strip_suffix_spec in E.
      rewrite E. left. reflexivity. }
  assert (A4 : (exists e, In e (any_reps t) /\
     In x (let '(from, to) := e in map (fun i => firstn i w ++ to ++ skipn (i + length from) w) (match_indices from w))) <->
    exists from to u v, In (from, to) (any_reps t) /\ Occ from w u v /\ u ++ to ++ v = x).
  { split.
    - intros ([from to] & H & Hx). apply in_map_iff in Hx. destruct Hx as (i & <- & Hi).
      apply match_indices_In in Hi; [|eauto]. destruct Hi as (u & v & Ho & ->). exists from, to, u, v.
      split; [exact H|]. split; [exact Ho|]. apply Occ_app in Ho. subst w.
      rewrite firstn_app_exact by reflexivity. do 2 f_equal. rewrite app_assoc, skipn_app_exact; [reflexivity|].
      rewrite app_length. reflexivity.
    - intros (from & to & u & v & H & Ho & <-). exists (from, to). split; [exact H|]. apply in_map_iff.
      exists (length u). split.
      + apply Occ_app in Ho. subst w. rewrite firstn_app_exact by reflexivity. do 2 f_equal.
        rewrite app_assoc, skipn_app_exact; [reflexivity|]. rewrite app_length. reflexivity.
      + apply match_indices_In; eauto. }
  rewrite A1, A2, A3, A4. tauto.
Qed.

(** ** MAP: exchanges from left to right *)
(** The group lets the text [x] stand for [y]. *)
Inductive Exchange (g : similarity_group) : str -> str -> Prop :=
| exchange_chars : forall c d, In c (sg_chars g) -> In d (sg_chars g) -> c <> d -> Exchange g [c] [d]
| exchange_char_string : forall c s, In c (sg_chars g) -> In s (sg_strings g) -> Exchange g [c] s
| exchange_string_char : forall s c, In s (sg_strings g) -> In c (sg_chars g) -> Exchange g s [c]
| exchange_strings : forall p q s t, nth_error (sg_strings g) p = Some s -> nth_error (sg_strings g) q = Some t ->
    p <> q -> Exchange g s t.
(** One or more exchanges, each to the right of the one before. *)
Inductive MapForm (gs : list similarity_group) : str -> str -> Prop :=
| map_once : forall g m x y v, In g gs -> Exchange g x y -> MapForm gs (m ++ x ++ v) (m ++ y ++ v)
| map_again : forall g m x y v v', In g gs -> Exchange g x y -> MapForm gs v v' -> MapForm gs (m ++ x ++ v) (m ++ y ++ v').

Lemma indexed_In : forall A (l : list A) n x, In (n, x) (indexed l) <-> nth_error l n = Some x.
Proof.
  intros A l n x. unfold indexed.
  assert (G : forall k, In (n, x) (combine (seq k (length l)) l) <-> k <= n /\ nth_error l (n - k) = Some x).
  { revert n. induction l as [|y l IH]; intros n k.
    - cbn. split; [intros []|]. intros [_ H]. destruct (n - k); discriminate.
    - cbn [length seq combine In]. rewrite IH. split.
      + intros [H|[H1 H2]]; [inversion H; subst; rewrite Nat.sub_diag; split; [lia|reflexivity]|].
        split; [lia|]. replace (n - k) with (S (n - S k)) by lia. exact H2.
      + intros [H1 H2]. destruct (Nat.eq_dec n k) as [->|Hn].
        * rewrite Nat.sub_diag in H2. inversion H2. left. reflexivity.
        * right. split; [lia|]. replace (n - k) with (S (n - S k)) in H2 by lia. exact H2. }
  rewrite G, Nat.sub_0_r. split; [intros [_ H]; exact H|intros H; split; [lia|exact H]].
Qed.
Lemma positions_In : forall (w : str) i idx ch, i <= length w ->
  (In (idx, ch) (combine (seq i (length w - i)) (skipn i w)) <-> i <= idx /\ nth_error w idx = Some ch).
Proof.
  intros w i idx ch Hi. rewrite <- (firstn_skipn i w) at 3.
  assert (L : length (firstn i w) = i) by (apply firstn_length_le; exact Hi).
  replace (length w - i) with (length (skipn i w)) by (rewrite skipn_length; reflexivity).
  generalize (firstn i w) (skipn i w) L. intros u v Lu. subst i.
  assert (G : forall k, In (idx, ch) (combine (seq k (length v)) v) <-> k <= idx /\ nth_error v (idx - k) = Some ch).
  { clear. induction v as [|y l IH]; intros k.
    - cbn. split; [intros []|]. intros [_ H]. destruct (idx - k); discriminate.
    - cbn [length seq combine In]. rewrite IH. split.
      + intros [H|[H1 H2]]; [inversion H; subst; rewrite Nat.sub_diag; split; [lia|reflexivity]|].
        split; [lia|]. replace (idx - k) with (S (idx - S k)) by lia. exact H2.
      + intros [H1 H2]. destruct (Nat.eq_dec idx k) as [->|Hn].
        * rewrite Nat.sub_diag in H2. inversion H2. left. reflexivity.
        * right. split; [lia|]. replace (idx - k) with (S (idx - S k)) in H2 by lia. exact H2. }
  rewrite G. split; intros [H1 H2]; (split; [exact H1|]).
  - rewrite nth_error_app2 by exact H1. exact H2.
  - rewrite nth_error_app2 in H2 by exact H1. exact H2.
Qed.

Lemma find_sub_here : forall p v, find_sub p (p ++ v) = Some 0.
Proof.
  intros p v. destruct (find_sub p (p ++ v)) as [i|] eqn:E.
  - pose proof (@find_sub_first p (p ++ v) i [] v E eq_refl) as H. cbn in H. f_equal. lia.
  - rewrite find_sub_none in E. destruct (E [] v eq_refl).
Qed.
Lemma map_exchanges_sound : forall w idx ch g w' i', wf_sim g -> nth_error w idx = Some ch ->
  In (w', i') (map_exchanges w idx ch g) ->
  exists u x y v, Exchange g x y /\ w = u ++ x ++ v /\ w' = u ++ y ++ v /\ idx <= length u /\ i' = length u + length y /\ x <> [].
Proof.
  intros w idx ch g w' i' [Hc Hs] Hn H. unfold map_exchanges in H.
  assert (E0 : w = firstn idx w ++ [ch] ++ skipn (S idx) w /\ length (firstn idx w) = idx).
  { apply nth_error_split in Hn. destruct Hn as (u & v & -> & <-). rewrite firstn_app_exact by reflexivity.
    split; [|reflexivity]. f_equal. change (u ++ ch :: v) with (u ++ [ch] ++ v).
    rewrite app_assoc, skipn_app_exact by (rewrite app_length; cbn; lia). reflexivity. }
  destruct E0 as [E0 L0]. destruct (memb ch (sg_chars g)) eqn:M.
  - apply memb_In in M. apply in_app_or in H. destruct H as [H|H].
    + apply in_flat_map in H. destruct H as (c & Hcin & H). destruct (N.eqb_spec c ch) as [|Hne]; [destruct H|].
      destruct H as [H|[]]. inversion H; subst w' i'. exists (firstn idx w), [ch], [c], (skipn (S idx) w).
      repeat split; try assumption; [constructor; auto|lia|cbn; lia|discriminate].
    + apply in_map_iff in H. destruct H as (s & H & Hin). inversion H; subst w' i'.
      exists (firstn idx w), [ch], s, (skipn (S idx) w).
      repeat split; try assumption; [constructor 2; auto|lia|lia|discriminate].
  - apply in_flat_map in H. destruct H as ([pos from] & Hin & H). apply indexed_In in Hin.
    pose proof (nth_error_In _ _ Hin) as Hf. destruct (proj1 (Forall_forall _ _) Hs from Hf) as [Hne _].
    destruct (find_sub from (skipn idx w)) as [j|] eqn:F; [|destruct H].
    apply find_sub_sound in F. destruct F as [F Lj].
    assert (EW : w = firstn (j + idx) w ++ from ++ skipn (j + idx + length from) w /\ length (firstn (j + idx) w) = j + idx).
    { assert (LL : j + idx <= length w).
      { rewrite skipn_length in Lj. assert (idx < length w) by (apply nth_error_Some; rewrite Hn; discriminate). lia. }
      split; [|apply firstn_length_le; exact LL].
      rewrite <- (firstn_skipn (j + idx) w) at 1. f_equal.
      replace (skipn (j + idx) w) with (skipn j (skipn idx w)) by (rewrite skipn_skipn'; f_equal; lia).
      replace (skipn (j + idx + length from) w) with (skipn (length from) (skipn j (skipn idx w))).
      2: { rewrite !skipn_skipn'. f_equal. lia. }
      assert (EF : skipn j (skipn idx w) = from ++ skipn (j + length from) (skipn idx w)).
      { rewrite F at 1. rewrite skipn_app_exact; [reflexivity|]. symmetry. apply firstn_length_le. exact Lj. }
      rewrite EF at 2. rewrite skipn_app_exact by reflexivity. exact EF. }
    destruct EW as [EW LW]. apply in_app_or in H. destruct H as [H|H].
    + apply in_map_iff in H. destruct H as (c & H & Hcin). inversion H; subst w' i'.
      exists (firstn (j + idx) w), from, [c], (skipn (j + idx + length from) w).
      repeat split; try assumption; [constructor 3; auto|lia|cbn; lia].
    + apply in_flat_map in H. destruct H as ([pos2 to] & Hin2 & H). apply indexed_In in Hin2.
      destruct (Nat.eqb_spec pos2 pos) as [|Hp]; [destruct H|]. destruct H as [H|[]]. inversion H; subst w' i'.
      exists (firstn (j + idx) w), from, to, (skipn (j + idx + length from) w).
      repeat split; try assumption; [eapply exchange_strings; eauto|lia|lia].
Qed.
Lemma map_edits_sound : forall gs w i w' i', Forall wf_sim gs -> i <= length w -> In (w', i') (map_edits gs w i) ->
  exists g m x y v, In g gs /\ Exchange g x y /\ skipn i w = m ++ x ++ v /\ w' = firstn i w ++ m ++ y ++ v /\
    i' = i + length m + length y /\ x <> [].
Proof.
  intros gs w i w' i' HG Hi H. unfold map_edits in H. apply in_flat_map in H. destruct H as ([idx ch] & Hin & H).
  apply positions_In in Hin; [|exact Hi]. destruct Hin as [H1 H2]. apply in_flat_map in H. destruct H as (g & Hg & H).
  destruct (@map_exchanges_sound w idx ch g w' i' (proj1 (Forall_forall _ _) HG g Hg) H2 H) as (u & x & y & v & HE & EW & EW' & HU & Ei & Hx).
  assert (EU : u = firstn i u ++ skipn i u) by (symmetry; apply firstn_skipn).
  assert (L : length (firstn i u) = i) by (apply firstn_length_le; lia).
  exists g, (skipn i u), x, y, v. split; [exact Hg|]. split; [exact HE|].
  assert (EF : firstn i w = firstn i u /\ skipn i w = skipn i u ++ x ++ v).
  { rewrite EW. rewrite EU at 1 3. rewrite <- !app_assoc. rewrite firstn_app_exact, skipn_app_exact by (symmetry; exact L).
    split; reflexivity. }
  destruct EF as [EF1 EF2]. split; [exact EF2|]. split.
  - rewrite EF1, app_assoc, firstn_skipn. exact EW'.
  - split; [|exact Hx]. rewrite skipn_length. lia.
Qed.
Theorem map_tree_sound : forall n gs w i r, Forall wf_sim gs -> i <= length w -> In r (map_tree n gs w i) ->
  exists v, r = firstn i w ++ v /\ MapForm gs (skipn i w) v.
Proof.
  induction n as [|n IH]; intros gs w i r HG Hi H; [destruct H|].
  cbn [map_tree] in H. apply in_flat_map in H. destruct H as ([w' i'] & Hin & H).
  destruct (@map_edits_sound gs w i w' i' HG Hi Hin) as (g & m & x & y & v & Hg & HE & ES & EW & Ei & _).
  assert (L : length (firstn i w) = i) by (apply firstn_length_le; exact Hi).
  destruct H as [<-|H].
  - exists (m ++ y ++ v). split; [exact EW|]. rewrite ES. eapply map_once; eassumption.
  - apply IH in H; [|exact HG|rewrite EW, !app_length; lia].
    destruct H as (v' & -> & HF).
    assert (E1 : firstn i' w' = firstn i w ++ m ++ y /\ skipn i' w' = v).
    { rewrite EW. replace (firstn i w ++ m ++ y ++ v) with ((firstn i w ++ m ++ y) ++ v) by (apps; reflexivity).
      rewrite firstn_app_exact, skipn_app_exact by (rewrite !app_length; lia). split; reflexivity. }
    destruct E1 as [E1 E2]. exists (m ++ y ++ v'). split; [rewrite E1; apps; reflexivity|].
    rewrite ES. eapply map_again; [exact Hg|exact HE|]. rewrite <- E2. exact HF.
Qed.

(** No string of the group begins with one of its characters. *)
Definition unclashing (g : similarity_group) : Prop :=
  forall c s, In (c :: s) (sg_strings g) -> ~ In c (sg_chars g).
Lemma map_edits_complete : forall gs g u m x y v, Forall wf_sim gs -> In g gs -> unclashing g -> Exchange g x y ->
  In (u ++ m ++ y ++ v, length u + length m + length y) (map_edits gs (u ++ m ++ x ++ v) (length u)).
Proof.
  intros gs g u m x y v HG Hg HN HE. destruct (proj1 (Forall_forall _ _) HG g Hg) as [Hc Hs].
  assert (HX : exists ch x', x = ch :: x').
  { destruct x as [|ch x']; [|eauto]. exfalso. inversion HE; subst.
    - destruct (proj1 (Forall_forall _ _) Hs [] H) as [H1 _]. congruence.
    - apply nth_error_In in H. destruct (proj1 (Forall_forall _ _) Hs [] H) as [H2 _]. congruence. }
  destruct HX as (ch & x' & ->). unfold map_edits. apply in_flat_map. exists (length u + length m, ch). split.
  - apply positions_In; [unfold str in *; rewrite app_length; lia|]. split; [lia|]. rewrite app_assoc, nth_error_app2 by (unfold str in *; rewrite app_length; lia).
    rewrite app_length, Nat.sub_diag. reflexivity.
  - apply in_flat_map. exists g. split; [exact Hg|]. unfold map_exchanges.
    assert (E1 : firstn (length u + length m) (u ++ m ++ (ch :: x') ++ v) = u ++ m).
    { rewrite app_assoc. apply firstn_app_exact. rewrite app_length. reflexivity. }
    assert (E2 : skipn (length u + length m) (u ++ m ++ (ch :: x') ++ v) = (ch :: x') ++ v).
    { rewrite app_assoc. apply skipn_app_exact. rewrite app_length. reflexivity. }
    assert (E3 : forall k, skipn (length u + length m + k) (u ++ m ++ (ch :: x') ++ v) = skipn k ((ch :: x') ++ v)).
    { intros k. transitivity (skipn k (skipn (length u + length m) (u ++ m ++ (ch :: x') ++ v))).
      - rewrite skipn_skipn'. try (f_equal; lia).
      - rewrite E2. reflexivity. }
    inversion HE; subst.
    + assert (M : memb ch (sg_chars g) = true) by (apply memb_In; assumption). rewrite M. apply in_or_app. left.
      apply in_flat_map. exists d. split; [assumption|]. assert (Hd : (d =? ch)%N = false) by (apply N.eqb_neq; congruence). rewrite Hd. left.
      rewrite E1. replace (S (length u + length m)) with (length u + length m + 1) by lia. rewrite E3.
      cbn [app skipn]. apps. reflexivity.
    + assert (M : memb ch (sg_chars g) = true) by (apply memb_In; assumption). rewrite M. apply in_or_app. right.
      apply in_map_iff. exists y. split; [|assumption].
      rewrite E1. replace (S (length u + length m)) with (length u + length m + 1) by lia. rewrite E3.
      cbn [app skipn]. apps. reflexivity.
    + assert (M : memb ch (sg_chars g) = false) by (apply memb_false; eapply HN; eassumption). rewrite M.
      apply in_flat_map. match goal with H : In (ch :: x') (sg_strings g) |- _ => destruct (In_nth_error _ _ H) as [p Hp] end. exists (p, ch :: x'). split; [apply indexed_In; exact Hp|].
      rewrite E2. assert (F : find_sub (ch :: x') ((ch :: x') ++ v) = Some 0) by (apply find_sub_here).
      rewrite F. cbn [Nat.add]. apply in_or_app. left. apply in_map_iff. exists c. split; [|assumption].
      rewrite E1, E3, skipn_app_exact by reflexivity. f_equal; [apps; reflexivity|cbn; lia].
    + assert (M : memb ch (sg_chars g) = false) by (apply memb_false; eapply HN; eapply nth_error_In; eassumption). rewrite M.
      apply in_flat_map. exists (p, ch :: x'). split; [apply indexed_In; assumption|].
      rewrite E2. assert (F : find_sub (ch :: x') ((ch :: x') ++ v) = Some 0) by (apply find_sub_here).
      rewrite F. cbn [Nat.add]. apply in_or_app. right. apply in_flat_map. exists (q, y). split; [apply indexed_In; assumption|].
      destruct (Nat.eqb_spec q p); [congruence|]. left.
      rewrite E1, E3, skipn_app_exact by reflexivity. f_equal. apps. reflexivity.
Qed.
Theorem map_tree_complete : forall gs v v', Forall wf_sim gs -> Forall unclashing gs -> MapForm gs v v' ->
  forall n u, length v < n -> In (u ++ v') (map_tree n gs (u ++ v) (length u)).
Proof.
  intros gs v v' HG HN HF. induction HF as [g m x y v Hg HE|g m x y v v' Hg HE HF IH]; intros n u Hn;
    (destruct n as [|n]; [lia|]); cbn [map_tree]; apply in_flat_map;
    exists (u ++ m ++ y ++ v, length u + length m + length y);
    (split; [apply map_edits_complete with (g := g); try assumption; apply (proj1 (Forall_forall _ _) HN g Hg)|]).
  - left. reflexivity.
  - right. specialize (IH n (u ++ m ++ y)). rewrite !app_length in *.
    replace (u ++ m ++ y ++ v') with ((u ++ m ++ y) ++ v') by (apps; reflexivity).
    replace (u ++ m ++ y ++ v) with ((u ++ m ++ y) ++ v) by (apps; reflexivity).
    replace (length u + length m + length y) with (length u + (length m + length y)) by lia. apply IH.
    assert (0 < length x).
    { destruct (proj1 (Forall_forall _ _) HG g Hg) as [_ Hs]. destruct x; [|cbn; lia]. exfalso. inversion HE; subst.
      - destruct (proj1 (Forall_forall _ _) Hs [] H) as [H1 _]. congruence.
      - apply nth_error_In in H. destruct (proj1 (Forall_forall _ _) Hs [] H) as [H2 _]. congruence. }
    lia.
Qed.
Theorem map_forms_sound : forall gs w r, Forall wf_sim gs -> In r (map_forms gs w) -> MapForm gs w r.
Proof.
  intros gs w r HG H. unfold map_forms in H. apply map_tree_sound in H; [|exact HG|lia].
  destruct H as (v & -> & H). exact H.
Qed.
Theorem map_forms_complete : forall gs w r, Forall wf_sim gs -> Forall unclashing gs -> MapForm gs w r -> In r (map_forms gs w).
Proof. intros gs w r HG HN H. apply (@map_tree_complete gs w r HG HN H (S (length w)) []). lia. Qed.
Lemma map_tree_stable : forall n gs w i, Forall wf_sim gs -> i <= length w -> length w - i < n ->
  map_tree n gs w i = map_tree (S (length w - i)) gs w i.
Proof.
  assert (G : forall n n2 gs w i, Forall wf_sim gs -> i <= length w -> length w - i < n -> length w - i < n2 ->
    map_tree n gs w i = map_tree n2 gs w i).
  { induction n as [|n IH]; intros [|n2] gs w i HG Hi H1 H2; try lia. cbn [map_tree].
    assert (K : forall e, In e (map_edits gs w i) ->
      (let '(w', i') := e in w' :: map_tree n gs w' i') = (let '(w', i') := e in w' :: map_tree n2 gs w' i')).
    { intros [w' i'] Hin. destruct (@map_edits_sound gs w i w' i' HG Hi Hin) as (g & m & x & y & v & Hg & HE & ES & EW & Ei & Hx).
      assert (L : length (firstn i w) = i) by (apply firstn_length_le; exact Hi).
      assert (LS : length w - i = length m + length x + length v) by (rewrite <- (skipn_length i w), ES, !app_length; lia).
      assert (0 < length x) by (destruct x; [congruence|cbn; lia]).
      f_equal. apply IH; [exact HG|rewrite EW, !app_length; lia| |]; rewrite EW, !app_length; lia. }
    clear -K. induction (map_edits gs w i) as [|e l IHl]; [reflexivity|]. cbn [flat_map].
    rewrite K by (left; reflexivity). rewrite IHl by (intros; apply K; right; assumption). reflexivity. }
  intros n gs w i HG Hi Hn. apply G; auto.
Qed.
