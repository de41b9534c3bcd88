(** Every edit strategy equals a run of one test over its list of candidates. *)
From Coq Require Import List NArith ZArith Lia Bool Arith Permutation.
From Coq Require Import ZifyBool ZifyNat ZifyN.
From Verif Require Import Base Utf8 Unicode Flags Affix Conversion Aff Checker Bag BufferOps Ngram Suggester Rep SuggestSpec.
Import ListNotations.
Set Implicit Arguments.

(** Keep the candidates that pass the test, in order. *)
Fixpoint keepR (f : str -> Res bool) (l : list str) : Res (list str) :=
  match l with
  | [] => Ret []
  | x :: l' => b <- f x ;; r <- keepR f l' ;; Ret (if (b : bool) then x :: r else r)
  end.

Lemma bind_ret : forall A (x : Res A), bindR x (fun a => Ret a) = x.
Proof. intros A [a| |]; reflexivity. Qed.
Lemma bind_assoc : forall A B C (x : Res A) (f : A -> Res B) (g : B -> Res C),
  bindR (bindR x f) g = bindR x (fun a => bindR (f a) g).
Proof. intros A B C [a| |] f g; reflexivity. Qed.
Lemma bind_ext : forall A B (x : Res A) (f g : A -> Res B), (forall a, x = Ret a -> f a = g a) -> bindR x f = bindR x g.
Proof. intros A B [a| |] f g H; cbn; auto. Qed.

Lemma keepR_app : forall f a b, keepR f (a ++ b) = (x <- keepR f a ;; y <- keepR f b ;; Ret (x ++ y)).
Proof.
  intros f a b. induction a as [|c a IH]; cbn [keepR app].
  - cbn [bindR]. rewrite bind_ret. reflexivity.
  - destruct (f c) as [x| |]; cbn [bindR]; [|reflexivity|reflexivity]. rewrite IH, !bind_assoc.
    apply bind_ext. intros l _. cbn [bindR]. rewrite !bind_assoc. apply bind_ext. intros l2 _. cbn.
    destruct x; reflexivity.
Qed.

Lemma foldR_app : forall S A (f : S -> A -> Res S) a b s, foldR f (a ++ b) s = (s' <- foldR f a s ;; foldR f b s').
Proof.
  intros S A f a b. induction a as [|x a IH]; intros s; [reflexivity|]. cbn [foldR app].
  rewrite bind_assoc. apply bind_ext. intros s' _. apply IH.
Qed.
Lemma foldR_map : forall S A B (f : S -> B -> Res S) (g : A -> B) l s, foldR f (map g l) s = foldR (fun s a => f s (g a)) l s.
Proof. intros S A B f g. induction l as [|x l IH]; intros s; [reflexivity|]. cbn. apply bind_ext. auto. Qed.
Lemma loopR_map : forall S A B (f : S -> B -> Res (S + S)) (g : A -> B) l s,
  loopR f (map g l) s = loopR (fun s a => f s (g a)) l s.
Proof.
  intros S A B f g. induction l as [|x l IH]; intros s; [reflexivity|]. cbn. apply bind_ext.
  intros [s'|s'] _; auto.
Qed.

Lemma in_place_enc : forall X f s s' (x : X), scalars s' -> f (enc s) = Ret (enc s', x) -> in_place f s = Ret (s', x).
Proof. intros X f s s' x H E. unfold in_place. rewrite E. cbn [bindR fst snd]. rewrite dec_enc by exact H. reflexivity. Qed.
Lemma char_indices_splits : forall w p,
  char_indices (length (enc p)) w = map (fun '(u, c, v) => (length (enc (p ++ u)), c)) (splits w).
Proof.
  induction w as [|c w IH]; intros p; [reflexivity|].
  rewrite splits_cons. cbn [char_indices map]. rewrite app_nil_r. f_equal.
  replace (length (enc p) + clen c) with (length (enc (p ++ [c]))).
  2: { rewrite enc_app, app_length. unfold clen. cbn. rewrite app_nil_r. reflexivity. }
  rewrite IH, map_map. apply map_ext. intros [[u x] v]. rewrite <- app_assoc. reflexivity.
Qed.
Lemma indexed_splits : forall w n, combine (seq n (length w)) w = map (fun '(u, c, v) => (n + length u, c)) (splits w).
Proof.
  induction w as [|c w IH]; intros n; [reflexivity|].
  rewrite splits_cons. cbn [length seq combine map]. rewrite Nat.add_0_r. f_equal.
  rewrite IH, map_map. apply map_ext. intros [[u x] v]. cbn. f_equal. lia.
Qed.
Lemma seq_splits : forall w, seq 0 (length w) = map (fun '(u, _, _) => length u) (splits w).
Proof.
  intros w. transitivity (map fst (combine (seq 0 (length w)) w)).
  - generalize 0. induction w as [|c w IH]; intros n; [reflexivity|]. cbn. f_equal. apply IH.
  - rewrite indexed_splits, map_map. apply map_ext. intros [[u c] v]. reflexivity.
Qed.
Lemma flat_map_ext_In : forall A B (f g : A -> list B) l, (forall a, In a l -> f a = g a) -> flat_map f l = flat_map g l.
Proof.
  intros A B f g l. induction l as [|x l IH]; intros H; [reflexivity|]. cbn. rewrite H by (left; reflexivity).
  rewrite IH by (intros; apply H; right; assumption). reflexivity.
Qed.
Lemma flat_map_map : forall A B C (f : B -> list C) (g : A -> B) l, flat_map f (map g l) = flat_map (fun a => f (g a)) l.
Proof. intros A B C f g l. induction l as [|x l IH]; [reflexivity|]. cbn. rewrite IH. reflexivity. Qed.
Lemma flat_map_flat_map : forall A B C (f : B -> list C) (g : A -> list B) l,
  flat_map f (flat_map g l) = flat_map (fun a => flat_map f (g a)) l.
Proof. intros A B C f g l. induction l as [|x l IH]; [reflexivity|]. cbn. rewrite flat_map_app, IH. reflexivity. Qed.
Lemma flat_map_single : forall A B (f : A -> B) l, flat_map (fun a => [f a]) l = map f l.
Proof. intros A B f l. induction l as [|x l IH]; [reflexivity|]. cbn. rewrite IH. reflexivity. Qed.

Lemma remove_at_app : forall u (c : N) v, remove_at (length u) (u ++ c :: v) = Ret (u ++ v).
Proof.
  intros u c v. unfold remove_at. rewrite skipn_app_exact, firstn_app_exact by reflexivity. reflexivity.
Qed.
Lemma insert_at_app : forall u (c : N) v, insert_at (length u) c (u ++ v) = Ret (u ++ c :: v).
Proof.
  intros u c v. unfold insert_at. rewrite skipn_app_exact, firstn_app_exact by reflexivity.
  replace (length u <=? length (u ++ v)) with true; [reflexivity|].
  symmetry. apply Nat.leb_le. rewrite app_length. lia.
Qed.

Section Low.
Variable sg : suggester.
Variable fuel : nat.
Notation k := (su_checker sg).
Notation aff := (ck_aff (su_checker sg)).
Notation opts := (ad_options (ck_aff (su_checker sg))).
Notation U := (ck_u (su_checker sg)).
Notation case := (o_case (ad_options (ck_aff (su_checker sg)))).
Notation dbg := (su_debug sg).

(** The test: the word is found and the flags it is found with neither forbid it nor, with
    FORBIDWARN, mark it. *)
Definition clean (flags : flagset) : bool :=
  negb (contains flags (o_forbidden opts)) && negb (o_forbid_warn opts && has_flag flags (o_warn opts)).
Definition fit (w : str) : Res bool :=
  r <- check_word k fuel w ForbidBadForceucase SkipHiddenHomonym ;;
  Ret (match r with Some flags => clean flags | None => false end).
Definition tries (l : list str) (out : list str) : Res (list str) :=
  l' <- keepR fit l ;; Ret (out ++ l').

Arguments tries : simpl never.
Arguments fit : simpl never.

Lemma add_fit : forall w out, add_suggestion_if_correct sg fuel w out =
  (b <- fit w ;; Ret (b, if (b : bool) then out ++ [w] else out)).
Proof.
  intros w out. unfold add_suggestion_if_correct, fit, clean. rewrite bind_assoc.
  generalize (check_word k fuel w ForbidBadForceucase SkipHiddenHomonym). intros r. apply bind_ext.
  intros [flags|] _; cbn [bindR]; [|reflexivity].
  destruct (contains flags (o_forbidden opts)); [reflexivity|].
  destruct (o_forbid_warn opts && has_flag flags (o_warn opts)); reflexivity.
Qed.
Lemma try_fit : forall w out, try sg fuel w out = tries [w] out.
Proof.
  intros w out. unfold try, tries. rewrite add_fit. cbn [keepR]. rewrite !bind_assoc. apply bind_ext.
  intros b _. cbn. destruct b; [reflexivity|rewrite app_nil_r; reflexivity].
Qed.
Lemma tries_nil : forall out, tries [] out = Ret out.
Proof. intros out. unfold tries. cbn. rewrite app_nil_r. reflexivity. Qed.
Lemma tries_app : forall a b out, tries (a ++ b) out = (o <- tries a out ;; tries b o).
Proof.
  intros a b out. unfold tries. rewrite keepR_app, !bind_assoc. apply bind_ext. intros x _. cbn [bindR].
  rewrite bind_assoc. apply bind_ext. intros y _. cbn. rewrite app_assoc. reflexivity.
Qed.
Lemma tries_cons : forall w l out, tries (w :: l) out = (o <- try sg fuel w out ;; tries l o).
Proof. intros w l out. rewrite try_fit. apply (tries_app [w] l out). Qed.

(** A fold whose state returns to the word after every step. *)
Lemma fold_tries : forall A (f : str * list str -> A -> Res (str * list str)) (cand : A -> list str) word l,
  (forall a out, In a l -> f (word, out) a = (o <- tries (cand a) out ;; Ret (word, o))) ->
  forall out, foldR f l (word, out) = (o <- tries (flat_map cand l) out ;; Ret (word, o)).
Proof.
  intros A f cand word. induction l as [|a l IH]; intros H out.
  - cbn [foldR flat_map]. rewrite tries_nil. reflexivity.
  - cbn [foldR flat_map]. rewrite H by (left; reflexivity). rewrite tries_app, !bind_assoc.
    apply bind_ext. intros o _. cbn [bindR]. apply IH. intros; apply H; right; assumption.
Qed.
Lemma fold_tries_plain : forall A (f : list str -> A -> Res (list str)) (cand : A -> list str) l,
  (forall a out, In a l -> f out a = tries (cand a) out) ->
  forall out, foldR f l out = tries (flat_map cand l) out.
Proof.
  intros A f cand. induction l as [|a l IH]; intros H out.
  - cbn [foldR flat_map]. rewrite tries_nil. reflexivity.
  - cbn [foldR flat_map]. rewrite H by (left; reflexivity). rewrite tries_app.
    apply bind_ext. intros o _. apply IH. intros; apply H; right; assumption.
Qed.

(** ** Budgeted runs *)
Definition brun (word : str) (l : list str) (rem : N) (out : list str) : Res (bstate + bstate) :=
  o <- tries (firstn (N.to_nat rem) l) out ;;
  Ret (if (length l <=? N.to_nat rem)%nat then inl ((rem - N.of_nat (length l))%N, word, o)
       else inr (0%N, word, o)).
Lemma brun_nil : forall word rem out, brun word [] rem out = Ret (inl (rem, word, out)).
Proof. intros word rem out. unfold brun. rewrite firstn_nil, tries_nil. cbn. rewrite N.sub_0_r. reflexivity. Qed.
Lemma brun_app : forall word a b rem out, brun word (a ++ b) rem out =
  (r <- brun word a rem out ;; match r with inl (rem', _, out') => brun word b rem' out' | inr s => Ret (inr s) end).
Proof.
  intros word a b rem out. unfold brun. rewrite firstn_app, tries_app, !bind_assoc. apply bind_ext. intros o _.
  cbn [bindR]. destruct (Nat.leb_spec (length a) (N.to_nat rem)) as [L|L].
  - replace (N.to_nat (rem - N.of_nat (length a))) with (N.to_nat rem - length a) by lia.
    apply bind_ext. intros o' _. do 2 f_equal. rewrite app_length.
    destruct (Nat.leb_spec (length a + length b) (N.to_nat rem)); destruct (Nat.leb_spec (length b) (N.to_nat rem - length a)); try lia.
    + do 3 f_equal. lia.
    + reflexivity.
  - replace (N.to_nat rem - length a) with 0 by lia. cbn [firstn]. rewrite tries_nil. cbn [bindR]. rewrite app_length.
    destruct (Nat.leb_spec (length a + length b) (N.to_nat rem)); [lia|reflexivity].
Qed.
Lemma brun_one : forall word w rem out, brun word [w] rem out =
  (if (rem =? 0)%N then Ret (inr (rem, word, out))
   else o <- try sg fuel w out ;; Ret (inl ((rem - 1)%N, word, o))).
Proof.
  intros word w rem out. unfold brun. destruct (N.eqb_spec rem 0) as [->|Hn].
  - cbn [N.to_nat firstn]. rewrite tries_nil. reflexivity.
  - replace (firstn (N.to_nat rem) [w]) with [w].
    2: { destruct (N.to_nat rem) as [|n] eqn:E; [lia|]. cbn. rewrite firstn_nil. reflexivity. }
    rewrite <- try_fit. apply bind_ext. intros o _. cbn [length].
    replace (1 <=? N.to_nat rem)%nat with true by (symmetry; apply Nat.leb_le; lia). reflexivity.
Qed.
Lemma loop_brun : forall A (f : bstate -> A -> Res (bstate + bstate)) (cand : A -> list str) word l,
  (forall a rem out, In a l -> f (rem, word, out) a = brun word (cand a) rem out) ->
  forall rem out, loopR f l (rem, word, out) = brun word (flat_map cand l) rem out.
Proof.
  intros A f cand word. induction l as [|a l IH]; intros H rem out.
  - cbn [loopR flat_map]. rewrite brun_nil. reflexivity.
  - cbn [loopR flat_map]. rewrite H by (left; reflexivity). rewrite brun_app.
    unfold brun at 1 2. rewrite !bind_assoc. apply bind_ext. intros o _. cbn [bindR].
    destruct (length (cand a) <=? N.to_nat rem)%nat; [|reflexivity].
    apply IH. intros; apply H; right; assumption.
Qed.
Lemma brun_final : forall word l rem out,
  (r <- brun word l rem out ;; Ret (snd (final r))) = tries (firstn (N.to_nat rem) l) out.
Proof.
  intros word l rem out. unfold brun. rewrite bind_assoc.
  transitivity (o <- tries (firstn (N.to_nat rem) l) out ;; Ret o); [|apply bind_ret].
  apply bind_ext. intros o _. cbn [bindR]. destruct (length l <=? N.to_nat rem)%nat; reflexivity.
Qed.

(** ** The strategies *)
Variable word : str.
Hypothesis WS : scalars word.
(** The code is only meant for non-empty words; without debug assertions and compounding the
    empty word (to which ICONV may shrink a word) is treated like any other. *)
Hypothesis NE : word <> [] \/ (dbg = false /\ allows_compounding opts = false).

(** The attempt budget. *)
Definition budget : nat :=
  let p := (N.of_nat (length (i_table (ad_prefixes aff))) / 20)%N in
  let s := (N.of_nat (length (i_table (ad_suffixes aff))) / 20)%N in
  let cost := (1 + p + s + p * s +
               (if o_complex_prefixes opts then p * p + 2 * s * p * p else s * s + 2 * p * s * s))%N in
  let attempts := (25000000000 / N.min (N.max cost 250000) 25000000000)%N in
  N.to_nat (if allows_compounding opts then attempts / blen word else attempts)%N.
Lemma max_attempts_budget : max_attempts sg word = Ret (N.of_nat budget).
Proof.
  unfold max_attempts, budget. rewrite N2Nat.id. destruct (allows_compounding opts); [|reflexivity].
  destruct (blen word) eqn:E; [|reflexivity]. exfalso. apply blen_nil in E. destruct NE as [H|[_ H]]; [exact (H E)|discriminate].
Qed.

Lemma nonempty_word : forall A (x : Res A), debug_assert dbg (nonempty word) x = x.
Proof. intros A x. destruct word; [|apply debug_assert_true]. destruct NE as [H|[-> _]]; [congruence|reflexivity]. Qed.

Theorem uppercase_is : forall out, uppercase_suggest sg fuel word out = tries [uppercase U case word] out.
Proof. intros out. apply try_fit. Qed.

Lemma swap_adjacent_at : forall u a b v n, scalars (u ++ a :: b :: v) -> n = length (enc u) ->
  swap_adjacent sg n a b (u ++ a :: b :: v) = Ret (u ++ b :: a :: v, length (enc (u ++ [b]))).
Proof.
  intros u a b v n H ->. apply in_place_enc; [|apply swap_adjacent_spec; exact H].
  apply Forall_app in H. destruct H as [H1 H2]. inversion H2 as [|? ? Ha H3]; subst. inversion H3; subst.
  apply Forall_app. split; [exact H1|]. constructor; [assumption|]. constructor; assumption.
Qed.
Lemma scalars_swap : forall u a b v, scalars (u ++ a :: b :: v) -> scalars (u ++ b :: a :: v).
Proof.
  intros u a b v H. apply Forall_app in H. destruct H as [H1 H2]. inversion H2 as [|? ? Ha H3]; subst.
  inversion H3; subst. apply Forall_app. split; [exact H1|]. constructor; [assumption|]. constructor; assumption.
Qed.

Lemma adjacent_loop_step : forall c1 c2 r idx buffer out,
  adjacent_loop sg fuel word (c1 :: c2 :: r) idx buffer out =
  (b1 <- swap_adjacent sg idx c1 c2 buffer ;;
   out1 <- try sg fuel (fst b1) out ;;
   b2 <- swap_adjacent sg idx c2 c1 (fst b1) ;;
   debug_assert dbg (str_eqb word (fst b2)) (adjacent_loop sg fuel word (c2 :: r) (idx + clen c1) (fst b2) out1)).
Proof. reflexivity. Qed.
Lemma adjacent_loop_is : forall rest u out, word = u ++ rest ->
  adjacent_loop sg fuel word rest (length (enc u)) word out =
  (o <- tries (map (fun s => u ++ s) (adjacent_swaps rest)) out ;; Ret (word, o)).
Proof.
  induction rest as [|a rest IH]; intros u out E.
  - cbn [adjacent_loop]. unfold adjacent_swaps. cbn. rewrite tries_nil. reflexivity.
  - destruct rest as [|b v]; [unfold adjacent_swaps; cbn; rewrite tries_nil; reflexivity|].
    rewrite adjacent_loop_step. pose proof WS as H. rewrite E in H.
    assert (Hs : swap_adjacent sg (length (enc u)) a b word = Ret (u ++ b :: a :: v, length (enc (u ++ [b]))))
      by (rewrite E; apply swap_adjacent_at; auto).
    rewrite Hs. cbn [bindR fst].
    unfold adjacent_swaps. rewrite splits_cons. cbn [flat_map]. rewrite flat_map_map. cbn [map app].
    rewrite tries_cons, !bind_assoc. apply bind_ext. intros o _.
    rewrite swap_adjacent_at by (try apply scalars_swap; auto). cbn [bindR fst].
    rewrite <- E, str_eqb_refl, debug_assert_true.
    replace (length (enc u) + clen a) with (length (enc (u ++ [a]))).
    2: { rewrite enc_app, app_length. cbn. rewrite app_nil_r. reflexivity. }
    rewrite IH by (rewrite E, <- app_assoc; reflexivity). unfold adjacent_swaps. f_equal. f_equal.
    generalize (splits (b :: v)). intros l. induction l as [|[[x y] z] l IHl]; [reflexivity|].
    cbn. rewrite !map_app, IHl. f_equal. destruct z; [reflexivity|]. cbn. rewrite <- app_assoc. reflexivity.
Qed.
Theorem adjacent_is : forall out,
  adjacent_swap_suggest sg fuel word out = tries (adjacent_swaps word ++ double_swaps word) out.
Proof.
  intros out. unfold adjacent_swap_suggest. rewrite nonempty_word.
  change 0 with (length (enc [])). rewrite (@adjacent_loop_is word [] out eq_refl).
  rewrite tries_app, bind_assoc. rewrite map_id. apply bind_ext. intros o _. cbn [bindR].
  assert (Hc : char_indices (length (enc [])) word = map (fun '(u, c, v) => (length (enc u), c)) (splits word))
    by (rewrite char_indices_splits; reflexivity).
  rewrite Hc. clear Hc.
  destruct word as [|a [|b [|c [|d [|e [|f w]]]]]]; try (cbn; rewrite tries_nil; reflexivity).
  - rewrite !splits_cons. unfold splits. cbn [map splits_from app double_swaps].
    assert (S1 : scalars ([] ++ a :: b :: [c; d])) by exact WS.
    rewrite (@swap_adjacent_at [] a b [c; d]) by auto. cbn [bindR fst app].
    assert (S2 : scalars ([b; a] ++ c :: d :: [])) by (apply (@scalars_swap _ _ _ _ S1)).
    rewrite (@swap_adjacent_at [b; a] c d [] _ S2) by (cbn; rewrite !app_nil_r, !app_length; lia).
    cbn [bindR fst app]. rewrite try_fit. apply bind_ext || idtac.
    transitivity (o' <- tries [[b; a; d; c]] o ;; Ret o'); [|apply bind_ret]. apply bind_ext. intros o' _.
    assert (S3 : scalars ([] ++ b :: a :: [d; c])) by (apply (@scalars_swap _ _ _ _ S2)).
    rewrite (@swap_adjacent_at [] b a [d; c] _ S3) by reflexivity. cbn [bindR fst app].
    assert (S4 : scalars ([a; b] ++ d :: c :: [])) by (apply (@scalars_swap _ _ _ _ S3)).
    rewrite (@swap_adjacent_at [a; b] d c [] _ S4) by (cbn; rewrite !app_nil_r, !app_length; lia).
    cbn [bindR fst app]. rewrite str_eqb_refl, debug_assert_true. reflexivity.
  - rewrite !splits_cons. unfold splits. cbn [map splits_from app double_swaps].
    assert (S1 : scalars ([] ++ a :: b :: [c; d; e])) by exact WS.
    rewrite (@swap_adjacent_at [] a b [c; d; e]) by auto. cbn [bindR fst app].
    assert (S2 : scalars ([b; a; c] ++ d :: e :: [])) by (apply (@scalars_swap _ _ _ _ S1)).
    rewrite (@swap_adjacent_at [b; a; c] d e [] _ S2) by (cbn; rewrite !app_nil_r, !app_length; lia).
    cbn [bindR fst app]. change [[b; a; c; e; d]; [a; c; b; e; d]] with ([[b; a; c; e; d]] ++ [[a; c; b; e; d]]).
    rewrite tries_app, try_fit. apply bind_ext. intros o1 _.
    assert (S3 : scalars ([] ++ b :: a :: [c; e; d])) by (apply (@scalars_swap _ _ _ _ S2)).
    rewrite (@swap_adjacent_at [] b a [c; e; d] _ S3) by reflexivity. cbn [bindR fst app].
    assert (S4 : scalars ([a] ++ b :: c :: [e; d])) by (apply (@scalars_swap _ _ _ _ S3)).
    rewrite (@swap_adjacent_at [a] b c [e; d] _ S4) by (cbn; rewrite !app_nil_r; lia).
    cbn [bindR fst app]. rewrite try_fit.
    transitivity (o' <- tries [[a; c; b; e; d]] o1 ;; Ret o'); [|apply bind_ret]. apply bind_ext. intros o' _.
    assert (S5 : scalars ([a] ++ c :: b :: [e; d])) by (apply (@scalars_swap _ _ _ _ S4)).
    rewrite (@swap_adjacent_at [a] c b [e; d] _ S5) by (cbn; rewrite !app_nil_r; lia). cbn [bindR fst app].
    assert (S6 : scalars ([a; b; c] ++ e :: d :: [])) by (apply (@scalars_swap _ _ _ _ S5)).
    rewrite (@swap_adjacent_at [a; b; c] e d [] _ S6) by (cbn; rewrite !app_nil_r, !app_length; lia).
    cbn [bindR fst app]. rewrite str_eqb_refl, debug_assert_true. reflexivity.
Qed.

Lemma swap_distant_at : forall u a m b v n n2, scalars (u ++ a :: m ++ b :: v) ->
  n = length (enc u) -> n2 = length (enc (u ++ a :: m)) ->
  swap_distant sg n a n2 b (u ++ a :: m ++ b :: v) = Ret (u ++ b :: m ++ a :: v, length (enc (u ++ b :: m))).
Proof.
  intros u a m b v n n2 H -> ->. apply in_place_enc; [|apply swap_distant_spec].
  apply Forall_app in H. destruct H as [H1 H2]. inversion H2 as [|? ? Ha H3]; subst.
  apply Forall_app in H3. destruct H3 as [H3 H4]. inversion H4; subst.
  apply Forall_app. split; [exact H1|]. constructor; [assumption|]. apply Forall_app. split; [exact H3|].
  constructor; assumption.
Qed.
Lemma scalars_exchange : forall u a m b v, scalars (u ++ a :: m ++ b :: v) -> scalars (u ++ b :: m ++ a :: v).
Proof.
  intros u a m b v H. apply Forall_app in H. destruct H as [H1 H2]. inversion H2 as [|? ? Ha H3]; subst.
  apply Forall_app in H3. destruct H3 as [H3 H4]. inversion H4; subst.
  apply Forall_app. split; [exact H1|]. constructor; [assumption|]. apply Forall_app. split; [exact H3|].
  constructor; assumption.
Qed.

Lemma distant_outer_is : forall rest u rem out, word = u ++ rest ->
  distant_outer sg fuel word rest (length (enc u)) (rem, word, out) =
  brun word (map (fun s => u ++ s) (swaps rest)) rem out.
Proof.
  induction rest as [|a rest IH]; intros u rem out E.
  - cbn [distant_outer]. unfold swaps. cbn. rewrite brun_nil. reflexivity.
  - cbn [distant_outer tl char_indices].
    replace (length (enc u) + clen a) with (length (enc (u ++ [a]))).
    2: { rewrite enc_app, app_length. cbn. rewrite app_nil_r. reflexivity. }
    rewrite char_indices_splits, loopR_map.
    pose (cand := fun e : str * N * str => let '(m, b, v) := e in [u ++ b :: m ++ a :: v] : list str).
    rewrite (@loop_brun _ _ cand word (splits rest)).
    + unfold swaps. rewrite splits_cons. cbn [flat_map]. rewrite map_app, brun_app.
      assert (HL : flat_map cand (splits rest) =
        map (fun s => u ++ s) (map (fun '(m, b, v) => [] ++ b :: m ++ a :: v) (splits rest))).
      { rewrite map_map, <- flat_map_single. apply flat_map_ext. intros [[x y] z]. reflexivity. }
      rewrite HL. clear HL.
      unfold brun at 1 2. rewrite !bind_assoc. apply bind_ext. intros o _. cbn [bindR].
      match goal with |- context [(?x <=? ?y)%nat] => destruct (x <=? y)%nat end; [|reflexivity].
      rewrite IH by (rewrite E, <- app_assoc; reflexivity). f_equal. unfold swaps.
      rewrite flat_map_map. generalize (splits rest). intros l. induction l as [|[[x y] z] l IHl]; [reflexivity|].
      cbn. rewrite !map_app, IHl. f_equal. rewrite !map_map. apply map_ext. intros [[x' y'] z'].
      rewrite <- app_assoc. reflexivity.
    + intros [[m b] v] rem' out' Hin. apply splits_In in Hin. unfold cand. rewrite brun_one.
      destruct (rem' =? 0)%N; [reflexivity|].
      pose proof WS as H. rewrite E, Hin in H.
      assert (Hs : swap_distant sg (length (enc u)) a (length (enc ((u ++ [a]) ++ m))) b word =
        Ret (u ++ b :: m ++ a :: v, length (enc (u ++ b :: m)))).
      { rewrite E, Hin. apply swap_distant_at; [exact H|reflexivity|rewrite <- app_assoc; reflexivity]. }
      rewrite Hs. cbn [bindR fst snd]. apply bind_ext. intros o _.
      rewrite swap_distant_at by (try apply scalars_exchange; auto). cbn [bindR fst].
      rewrite <- Hin, <- E, str_eqb_refl, debug_assert_true. reflexivity.
Qed.
Theorem distant_is : forall out, distant_swap_suggest sg fuel word out = tries (firstn budget (swaps word)) out.
Proof.
  intros out. unfold distant_swap_suggest. rewrite nonempty_word, max_attempts_budget. cbn [bindR].
  change 0 with (length (enc [])). rewrite (@distant_outer_is word [] _ out eq_refl), map_id, brun_final, Nat2N.id.
  reflexivity.
Qed.

Lemma keyboard_step_is : forall u c v out, word = u ++ c :: v ->
  keyboard_step sg fuel word (word, out) (length u, c) =
  (o <- tries ((if str_eqb (u_upper U c) [c] then [] else [u ++ u_upper U c ++ v]) ++
               map (fun x => u ++ x :: v) (neighbours (ad_keyboard aff) c)) out ;; Ret (word, o)).
Proof.
  intros u c v out E. unfold keyboard_step. rewrite tries_app, bind_assoc.
  assert (K1 : (if str_eqb (u_upper U c) [c] then Ret (word, out)
     else let b1 := firstn (length u) word ++ u_upper U c ++ skipn 1 (skipn (length u) word) in
          out1 <- try sg fuel b1 out ;;
          let b2 := firstn (length u) b1 ++ skipn (length u) word in
          debug_assert dbg (str_eqb word b2) (Ret (b2, out1))) =
    (o <- tries (if str_eqb (u_upper U c) [c] then [] else [u ++ u_upper U c ++ v]) out ;; Ret (word, o))).
  { destruct (str_eqb (u_upper U c) [c]); [rewrite tries_nil; reflexivity|].
    cbv zeta. rewrite <- try_fit.
    replace (skipn (length u) word) with (c :: v) by (rewrite E, skipn_app_exact; reflexivity).
    replace (firstn (length u) word) with u by (rewrite E, firstn_app_exact; reflexivity).
    cbn [skipn]. apply bind_ext. intros o _.
    rewrite firstn_app_exact by reflexivity. rewrite <- E, str_eqb_refl, debug_assert_true. reflexivity. }
  match goal with |- bindR ?x _ = _ => replace x with
    (o <- tries (if str_eqb (u_upper U c) [c] then [] else [u ++ u_upper U c ++ v]) out ;; Ret (word, o))
    by (symmetry; exact K1) end.
  rewrite bind_assoc. apply bind_ext. intros o _. cbn [bindR].
  assert (KT : forall x out, kb_try sg fuel word (length u) c x (word, out) =
    (o <- tries (match x with Some y => [u ++ y :: v] | None => [] end) out ;; Ret (word, o))).
  { clear o K1 out. intros [y|] out; [|rewrite tries_nil; reflexivity]. cbn [kb_try].
    replace (remove_at (length u) word) with (Ret (u ++ v)) by (rewrite E, remove_at_app; reflexivity).
    cbn [bindR]. rewrite insert_at_app. cbn [bindR]. rewrite <- try_fit. apply bind_ext. intros o _.
    rewrite remove_at_app. cbn [bindR]. rewrite insert_at_app. cbn [bindR].
    rewrite <- E, str_eqb_refl, debug_assert_true. reflexivity. }
  assert (KF : forall kb rest p o, kb = p ++ rest ->
    foldR (fun st m =>
      st2 <- kb_try sg fuel word (length u) c (not_bar (match m with O => None | S m' => nth_error kb m' end)) st ;;
      kb_try sg fuel word (length u) c (not_bar (nth_error kb (m + 1))) st2) (positions c (length p) rest) (word, o) =
    (o' <- tries (map (fun x => u ++ x :: v) (flat_map (fun '(q, k, r) =>
      if (k =? c)%N then
        filter (fun x => negb (x =? 124)%N)
          ((match rev (p ++ q) with x :: _ => [x] | [] => [] end) ++ (match r with x :: _ => [x] | [] => [] end))
      else []) (splits rest))) o ;; Ret (word, o'))).
  { clear o K1. intros kb rest. induction rest as [|e rest IH]; intros p o Ek.
    - cbn. rewrite tries_nil. reflexivity.
    - rewrite splits_cons. cbn [flat_map positions]. rewrite map_app.
      assert (IH' := IH (p ++ [e])). rewrite app_length, Nat.add_comm in IH'. cbn [length Nat.add] in IH'.
      assert (Hr : flat_map (fun '(q, k, r) =>
          if (k =? c)%N then
            filter (fun x => negb (x =? 124)%N)
              ((match rev (p ++ q) with x :: _ => [x] | [] => [] end) ++ (match r with x :: _ => [x] | [] => [] end))
          else []) (map (fun '(u0, x, v0) => (e :: u0, x, v0)) (splits rest)) =
        flat_map (fun '(q, k, r) =>
          if (k =? c)%N then
            filter (fun x => negb (x =? 124)%N)
              ((match rev ((p ++ [e]) ++ q) with x :: _ => [x] | [] => [] end) ++ (match r with x :: _ => [x] | [] => [] end))
          else []) (splits rest)).
      { rewrite flat_map_map. apply flat_map_ext. intros [[q k'] r]. rewrite <- app_assoc. reflexivity. }
      rewrite Hr. clear Hr. rewrite app_nil_r.
      destruct (N.eqb_spec e c) as [->|Hn].
      + cbn [foldR]. rewrite KT, !bind_assoc.
        assert (P1 : tries (match not_bar (match length p with O => None | S m' => nth_error kb m' end) with
                     | Some y => [u ++ y :: v] | None => [] end) o =
                     tries (map (fun x => u ++ x :: v) (filter (fun x => negb (x =? 124)%N)
                       (match rev p with x :: _ => [x] | [] => [] end))) o).
        { f_equal. destruct (rev p) as [|y t] eqn:Er.
          - apply (f_equal (@rev N)) in Er. rewrite rev_involutive in Er. subst p. reflexivity.
          - apply rev_head in Er. subst p. rewrite app_length, Nat.add_comm. cbn [length Nat.add].
            rewrite Ek, <- app_assoc, nth_error_app2 by lia. rewrite Nat.sub_diag. cbn.
            destruct (y =? 124)%N; reflexivity. }
        rewrite P1, filter_app, map_app, <- app_assoc, tries_app, bind_assoc. apply bind_ext. intros o1 _. cbn [bindR].
        rewrite KT, bind_assoc, tries_app, bind_assoc.
        assert (P2 : tries (match not_bar (nth_error kb (length p + 1)) with Some y => [u ++ y :: v] | None => [] end) o1 =
                     tries (map (fun x => u ++ x :: v) (filter (fun x => negb (x =? 124)%N)
                       (match rest with x :: _ => [x] | [] => [] end))) o1).
        { f_equal. rewrite Ek, nth_error_app2 by lia. replace (length p + 1 - length p) with 1 by lia. cbn.
          destruct rest as [|y t]; [reflexivity|]. cbn. destruct (y =? 124)%N; reflexivity. }
        rewrite P2. apply bind_ext. intros o2 _. cbn [bindR]. rewrite IH' by (rewrite Ek, <- app_assoc; reflexivity).
        reflexivity.
      + cbn [map app]. rewrite IH' by (rewrite Ek, <- app_assoc; reflexivity). reflexivity. }
  exact (KF (ad_keyboard aff) (ad_keyboard aff) [] o eq_refl).
Qed.
Theorem keyboard_is : forall out, keyboard_suggest sg fuel word out = tries (key_slips U (ad_keyboard aff) word) out.
Proof.
  intros out. unfold keyboard_suggest. rewrite indexed_splits, foldR_map.
  rewrite (@fold_tries _ _ (fun '(u, c, v) =>
    (if str_eqb (u_upper U c) [c] then [] else [u ++ u_upper U c ++ v]) ++
    map (fun x => u ++ x :: v) (neighbours (ad_keyboard aff) c)) word (splits word)).
  - rewrite bind_assoc. unfold key_slips. cbn [bindR snd]. apply bind_ret.
  - intros [[u c] v] o H. apply splits_In in H. apply keyboard_step_is. exact H.
Qed.

Theorem extra_is : forall out, extra_char_suggest sg fuel word out = tries (deletions word) out.
Proof.
  intros out. unfold extra_char_suggest. rewrite seq_splits, foldR_map.
  rewrite (@fold_tries_plain _ _ (fun '(u, _, v) => [u ++ v]) (splits word)).
  - unfold deletions. rewrite <- flat_map_single. f_equal. apply flat_map_ext. intros [[u c] v]. reflexivity.
  - intros [[u c] v] o H. apply splits_In in H. rewrite H, remove_at_app. cbn [bindR]. apply try_fit.
Qed.

Theorem forgotten_is : forall out,
  forgotten_char_suggest sg fuel word out = tries (firstn budget (insertions (ad_try aff) word)) out.
Proof.
  intros out. unfold forgotten_char_suggest. rewrite max_attempts_budget. cbn [bindR].
  rewrite (@loop_brun _ _ (fun c => map (fun '(u, v) => u ++ c :: v) (cuts word)) word (ad_try aff)).
  - rewrite brun_final, Nat2N.id. reflexivity.
  - intros c rem o _. rewrite (@loop_brun _ _ (fun i => [firstn i word ++ c :: skipn i word]) word).
    + f_equal. rewrite flat_map_single. unfold cuts. rewrite map_map. reflexivity.
    + intros i rem' o' Hi. apply in_seq in Hi. rewrite brun_one. destruct (rem' =? 0)%N; [reflexivity|].
      unfold insert_at. replace (i <=? length word)%nat with true by (symmetry; apply Nat.leb_le; lia). cbn [bindR].
      apply bind_ext. intros o1 _.
      assert (L : length (firstn i word) = i) by (rewrite firstn_length; lia).
      rewrite <- L at 1. rewrite remove_at_app. cbn [bindR]. rewrite firstn_skipn. reflexivity.
Qed.

Theorem wrong_is : forall out,
  wrong_char_suggest sg fuel word out = tries (firstn budget (replacements (ad_try aff) word)) out.
Proof.
  intros out. unfold wrong_char_suggest. rewrite max_attempts_budget. cbn [bindR].
  rewrite (@loop_brun _ _ (fun c => flat_map (fun '(u, a, v) => if (c =? a)%N then [] else [u ++ c :: v]) (splits word))
             word (ad_try aff)).
  - rewrite brun_final, Nat2N.id. reflexivity.
  - intros c rem o _. rewrite indexed_splits, loopR_map.
    rewrite (@loop_brun _ _ (fun '(u, a, v) => if (c =? a)%N then [] else [u ++ c :: v]) word); [reflexivity|].
    intros [[u a] v] rem' o' Hi. apply splits_In in Hi. cbn [Nat.add].
    destruct (c =? a)%N; [rewrite brun_nil; reflexivity|].
    rewrite brun_one. destruct (rem' =? 0)%N; [reflexivity|].
    replace (remove_at (length u) word) with (Ret (u ++ v)) by (rewrite Hi, remove_at_app; reflexivity).
    cbn [bindR]. rewrite insert_at_app. cbn [bindR]. apply bind_ext. intros o1 _.
    rewrite remove_at_app. cbn [bindR]. rewrite insert_at_app. cbn [bindR]. rewrite <- Hi. reflexivity.
Qed.

Lemma doubled_loop_is : forall rest u out, word = u ++ rest ->
  doubled_loop sg fuel word (length u) rest out = tries (map (fun s => u ++ s) (doublings rest)) out.
Proof.
  induction rest as [|x rest IH]; intros u out E.
  - cbn. rewrite tries_nil. reflexivity.
  - assert (Hd : map (fun s => u ++ s) (doublings (x :: rest)) =
      (match rest with
       | y :: x2 :: y2 :: x3 :: z :: v =>
           if (x =? x2)%N && (y =? y2)%N && (x =? x3)%N then [u ++ x :: y :: x2 :: z :: v] else []
       | _ => [] end) ++ map (fun s => (u ++ [x]) ++ s) (doublings rest)).
    { unfold doublings. rewrite splits_cons. cbn [flat_map]. rewrite map_app. f_equal.
      - destruct rest as [|y [|x2 [|y2 [|x3 [|z v]]]]]; try reflexivity.
        destruct ((x =? x2)%N && (y =? y2)%N && (x =? x3)%N); reflexivity.
      - rewrite flat_map_map. generalize (splits rest). intros l. induction l as [|[[p q] r] l IHl]; [reflexivity|].
        cbn. rewrite !map_app, IHl. f_equal. destruct r as [|y [|x2 [|y2 [|x3 [|z v]]]]]; try reflexivity.
        destruct ((q =? x2)%N && (y =? y2)%N && (q =? x3)%N); [|reflexivity]. cbn. rewrite <- app_assoc. reflexivity. }
    rewrite Hd. clear Hd.
    assert (IH' := IH (u ++ [x])). rewrite app_length, Nat.add_comm in IH'. cbn [length Nat.add] in IH'.
    destruct rest as [|y [|x2 [|y2 [|x3 [|z v]]]]]; try (cbn; rewrite tries_nil; reflexivity).
    cbn [doubled_loop]. rewrite tries_app.
    match goal with |- bindR ?a _ = _ => replace a with (tries (if (x =? x2)%N && (y =? y2)%N && (x =? x3)%N
      then [u ++ x :: y :: x2 :: z :: v] else []) out) end.
    + apply bind_ext. intros o _. rewrite <- IH' by (rewrite E, <- app_assoc; reflexivity). reflexivity.
    + destruct ((x =? x2)%N && (y =? y2)%N && (x =? x3)%N); [|rewrite tries_nil; reflexivity].
      rewrite try_fit. f_equal. f_equal.
      assert (E1 : word = (u ++ [x; y; x2]) ++ y2 :: x3 :: z :: v) by (rewrite E; apps; reflexivity).
      assert (E2 : word = (u ++ [x; y; x2; y2; x3]) ++ z :: v) by (rewrite E; apps; reflexivity).
      rewrite E1 at 1. rewrite firstn_app_exact by (rewrite app_length; cbn; lia).
      rewrite E2. rewrite skipn_app_exact by (rewrite app_length; cbn; lia). apps. reflexivity.
Qed.
Theorem doubled_is : forall out, doubled_two_chars_suggest sg fuel word out = tries (doublings word) out.
Proof.
  intros out. unfold doubled_two_chars_suggest. change 0 with (length (@nil N)).
  rewrite (@doubled_loop_is word [] out eq_refl), map_id. reflexivity.
Qed.

Lemma rotate_at : forall f n a b s s', scalars s' -> on_slice a b (f n) (enc s) = Ret (enc s') ->
  rotate_bytes f n a b s = Ret s'.
Proof.
  intros f n a b s s' H E. unfold rotate_bytes.
  rewrite (@in_place_enc _ _ s s' tt H); [reflexivity|]. unfold plain. rewrite E. reflexivity.
Qed.
Lemma length_enc_app : forall u v, length (enc (u ++ v)) = length (enc u) + length (enc v).
Proof. intros u v. rewrite enc_app. apply app_length. Qed.
Lemma length_enc_cons : forall c v, length (enc (c :: v)) = clen c + length (enc v).
Proof. intros c v. rewrite enc_cons. apply app_length. Qed.
Ltac enc_len := rewrite ?length_enc_app, ?length_enc_cons, ?length_enc_app, ?length_enc_cons; cbn [enc flat_map length]; lia.

Lemma move_right_step : forall ch1 ch2 rest2 idx1 rem buffer out,
  move_right sg fuel word (ch1 :: ch2 :: rest2) idx1 (rem, buffer, out) =
  (let idx2 := idx1 + clen ch1 in
   b1 <- swap_adjacent sg idx1 ch1 ch2 buffer ;;
   r <- loopR (fun (s : bstate * nat) (e : nat * N) =>
          let '((rem, buffer, out), cursor) := s in
          let '(swap_idx, swap_ch) := e in
          if (rem =? 0)%N then
            b <- rotate_bytes rotate_right (clen ch1) idx1 (swap_idx + idx2) buffer ;;
            debug_assert dbg (str_eqb word b) (Ret (inr ((rem, b, out), cursor)))
          else
            b <- swap_adjacent sg cursor ch1 swap_ch buffer ;;
            out1 <- try sg fuel (fst b) out ;;
            Ret (inl (((rem - 1)%N, fst b, out1), snd b)))
          (tl (char_indices 0 (ch2 :: rest2))) ((rem, fst b1, out), snd b1) ;;
   match r with
   | inr s => Ret (inr (fst s))
   | inl s =>
       let '((rem, buffer, out), _) := s in
       b <- rotate_bytes rotate_right (clen ch1) idx1 (length (enc buffer)) buffer ;;
       debug_assert dbg (str_eqb word b) (move_right sg fuel word (ch2 :: rest2) idx2 (rem, b, out))
   end).
Proof. reflexivity. Qed.

Section Inner.
Variables (u : str) (a b : N).
Notation step := (fun (s : bstate * nat) (e : nat * N) =>
          let '((rem, buffer, out), cursor) := s in
          let '(swap_idx, swap_ch) := e in
          if (rem =? 0)%N then
            b <- rotate_bytes rotate_right (clen a) (length (enc u)) (swap_idx + (length (enc u) + clen a)) buffer ;;
            debug_assert dbg (str_eqb word b) (Ret (inr ((rem, b, out), cursor)))
          else
            b <- swap_adjacent sg cursor a swap_ch buffer ;;
            out1 <- try sg fuel (fst b) out ;;
            Ret (inl (((rem - 1)%N, fst b, out1), snd b))).
Lemma move_right_inner : forall (K : bstate * nat -> Res (bstate + bstate)) r2 m0 rem out,
  word = u ++ a :: b :: m0 ++ r2 ->
  (r <- loopR step (char_indices (length (enc (b :: m0))) r2)
          ((rem, u ++ b :: m0 ++ a :: r2, out), length (enc (u ++ b :: m0))) ;;
   match r with inr s => Ret (inr (fst s)) | inl s => K s end) =
  (let cands := map (fun '(m, c, v) => u ++ b :: m0 ++ m ++ c :: a :: v) (splits r2) in
   o <- tries (firstn (N.to_nat rem) cands) out ;;
   if (length cands <=? N.to_nat rem)%nat
   then K (((rem - N.of_nat (length cands))%N, u ++ b :: m0 ++ r2 ++ [a], o), length (enc (u ++ b :: m0 ++ r2)))
   else Ret (inr (0%N, word, o))).
Proof.
  intros K. induction r2 as [|c r2 IH]; intros m0 rem out E.
  - cbn [char_indices loopR bindR map splits splits_from length]. rewrite firstn_nil, tries_nil. cbn [bindR Nat.leb app].
    rewrite app_nil_r, N.sub_0_r. reflexivity.
  - cbn [char_indices loopR]. pose proof WS as H. rewrite E in H.
    assert (HS : scalars (u ++ b :: m0 ++ a :: c :: r2)).
    { apply Forall_app in H. destruct H as [H1 H2]. inversion H2 as [|? ? Ha H3]; subst. inversion H3 as [|? ? Hb H4]; subst.
      apply Forall_app in H4. destruct H4 as [H4 H5]. apply Forall_app. split; [exact H1|]. constructor; [exact Hb|].
      apply Forall_app. split; [exact H4|]. constructor; assumption. }
    rewrite splits_cons. cbn [map length]. destruct (N.eqb_spec rem 0) as [->|Hn].
    + rewrite (@rotate_at rotate_right (clen a) (length (enc u)) _ (u ++ b :: m0 ++ a :: c :: r2) word WS).
      * cbn [bindR]. rewrite str_eqb_refl, debug_assert_true. cbn [bindR fst N.to_nat firstn]. rewrite tries_nil. reflexivity.
      * rewrite E. replace (length (enc (b :: m0)) + (length (enc u) + clen a)) with (length (enc (u ++ (b :: m0) ++ [a]))).
        2: { rewrite length_enc_app. cbn [app]. enc_len. }
        change (u ++ a :: b :: m0 ++ c :: r2) with (u ++ a :: (b :: m0) ++ c :: r2).
        apply (rotate_right_spec u a (b :: m0) (c :: r2)).
    + assert (SW : swap_adjacent sg (length (enc (u ++ b :: m0))) a c (u ++ b :: m0 ++ a :: c :: r2) =
        Ret (u ++ b :: (m0 ++ [c]) ++ a :: r2, length (enc (u ++ b :: m0 ++ [c])))).
      { replace (u ++ b :: m0 ++ a :: c :: r2) with ((u ++ b :: m0) ++ a :: c :: r2) by (apps; reflexivity).
        replace (u ++ b :: (m0 ++ [c]) ++ a :: r2) with ((u ++ b :: m0) ++ c :: a :: r2) by (apps; reflexivity).
        replace (u ++ b :: m0 ++ [c]) with ((u ++ b :: m0) ++ [c]) by (apps; reflexivity).
        apply swap_adjacent_at; [|reflexivity]. apps. exact HS. }
      rewrite SW. cbn [bindR fst snd].
      replace (N.to_nat rem) with (S (N.to_nat (rem - 1))) by lia. cbn [firstn]. rewrite tries_cons, !bind_assoc.
      replace (u ++ b :: m0 ++ [] ++ c :: a :: r2) with (u ++ b :: (m0 ++ [c]) ++ a :: r2) by (apps; reflexivity).
      apply bind_ext. intros o _. cbn [bindR].
      replace (length (enc (b :: m0)) + clen c) with (length (enc (b :: m0 ++ [c]))) by (enc_len).
      etransitivity; [apply (IH (m0 ++ [c]) (rem - 1)%N o); rewrite E; apps; reflexivity|]. cbv zeta.
      rewrite map_map, !map_length. cbn [Nat.leb].
      match goal with |- _ = bindR (tries (firstn _ ?L) _) _ =>
        replace L with (map (fun '(m, c0, v) => u ++ b :: (m0 ++ [c]) ++ m ++ c0 :: a :: v) (splits r2)) end.
      2: { apply map_ext. intros [[x y] z]. apps. reflexivity. }
      apply bind_ext. intros o' _.
      match goal with |- (if _ then K ?p else _) = (if _ then K ?q else _) => replace q with p; [reflexivity|] end.
      f_equal; [f_equal; f_equal; [unfold str; lia|apps; reflexivity]|]. apps. reflexivity.
Qed.
End Inner.

Lemma moves_right_cons : forall a b r, moves_right (a :: b :: r) =
  map (fun '(m, c, v) => b :: m ++ c :: a :: v) (splits r) ++ map (fun s => a :: s) (moves_right (b :: r)).
Proof.
  intros a b r. unfold moves_right. rewrite (splits_cons a). cbn [flat_map]. f_equal.
  rewrite flat_map_map. generalize (splits (b :: r)). intros l. induction l as [|[[x y] z] l IHl]; [reflexivity|].
  cbn. rewrite map_app, IHl. f_equal. destruct z; [reflexivity|]. rewrite map_map. apply map_ext.
  intros [[p q] t]. reflexivity.
Qed.
Lemma move_right_is : forall rest u rem out, word = u ++ rest ->
  move_right sg fuel word rest (length (enc u)) (rem, word, out) =
  brun word (map (fun s => u ++ s) (moves_right rest)) rem out.
Proof.
  induction rest as [|a rest IH]; intros u rem out E.
  - cbn. rewrite brun_nil. reflexivity.
  - destruct rest as [|b r]; [cbn; rewrite brun_nil; reflexivity|].
    rewrite move_right_step. cbv zeta. pose proof WS as H. rewrite E in H.
    assert (SW : swap_adjacent sg (length (enc u)) a b word = Ret (u ++ b :: a :: r, length (enc (u ++ [b]))))
      by (rewrite E; apply swap_adjacent_at; auto).
    rewrite SW. cbn [bindR fst snd].
    replace (tl (char_indices 0 (b :: r))) with (char_indices (length (enc (b :: []))) r) by (cbn [char_indices tl]; f_equal; enc_len).
    etransitivity; [exact (@move_right_inner u a b _ r [] rem out E)|]. cbv zeta.
    rewrite moves_right_cons, map_app, brun_app. rewrite !map_map.
    match goal with |- _ = bindR (brun _ ?L _ _) _ =>
      replace L with (map (fun '(m, c, v) => u ++ b :: [] ++ m ++ c :: a :: v) (splits r)) end.
    2: { apply map_ext. intros [[x y] z]. reflexivity. }
    unfold brun at 1. rewrite !bind_assoc. apply bind_ext. intros o _. cbn [bindR].
    match goal with |- (if ?x then _ else _) = match (if ?y then _ else _) with _ => _ end => change y with x; destruct x end;
      [|reflexivity].
    rewrite (@rotate_at rotate_right (clen a) (length (enc u)) _ (u ++ b :: [] ++ r ++ [a]) word WS).
    + cbn [bindR]. rewrite str_eqb_refl, debug_assert_true.
      replace (length (enc u) + clen a) with (length (enc (u ++ [a]))) by enc_len.
      rewrite IH by (rewrite E; apps; reflexivity). f_equal. apply map_ext. intros s. apps. reflexivity.
    + rewrite E. pose proof (rotate_right_spec u a (b :: r) []) as Hr. cbn [app] in Hr |- *.
      rewrite app_nil_r in Hr. exact Hr.
Qed.

Lemma move_left_step : forall ch1 ch2 before2 rem buffer out,
  move_left sg fuel word (ch1 :: ch2 :: before2) (rem, buffer, out) =
  (let idx1 := length (enc (rev (ch2 :: before2))) in
   let idx2 := length (enc (rev before2)) in
   let end_ := idx1 + clen ch1 in
   b1 <- swap_adjacent sg idx2 ch2 ch1 buffer ;;
   r <- loopR (fun (st : bstate) (e : nat * N) =>
          let '(rem, buffer, out) := st in
          let '(swap_idx, swap_ch) := e in
          if (rem =? 0)%N then
            b <- rotate_bytes rotate_left (clen ch1) (swap_idx + clen swap_ch) end_ buffer ;;
            debug_assert dbg (str_eqb word b) (Ret (inr (rem, b, out)))
          else
            b <- swap_adjacent sg swap_idx swap_ch ch1 buffer ;;
            out1 <- try sg fuel (fst b) out ;;
            Ret (inl ((rem - 1)%N, fst b, out1)))
          (rev (char_indices 0 (rev before2))) (rem, fst b1, out) ;;
   match r with
   | inr s => Ret (inr s)
   | inl s =>
       let '(rem, buffer, out) := s in
       b <- rotate_bytes rotate_left (clen ch1) 0 end_ buffer ;;
       debug_assert dbg (str_eqb word b) (move_left sg fuel word (ch2 :: before2) (rem, b, out))
   end).
Proof. reflexivity. Qed.

Lemma splits_snoc : forall w a, splits (w ++ [a]) = map (fun '(u, c, v) => (u, c, v ++ [a])) (splits w) ++ [(w, a, [])].
Proof.
  induction w as [|x w IH]; intros a; [reflexivity|].
  cbn [app]. rewrite !splits_cons, IH. cbn [map app]. f_equal. rewrite map_app, !map_map. f_equal.
  apply map_ext. intros [[u c] v]. reflexivity.
Qed.
Lemma char_indices_snoc : forall w a, char_indices 0 (w ++ [a]) = char_indices 0 w ++ [(length (enc w), a)].
Proof.
  intros w a. change 0 with (length (enc [])). rewrite !char_indices_splits, splits_snoc, map_app, map_map. cbn [map].
  f_equal. apply map_ext. intros [[u c] v]. reflexivity.
Qed.

Section InnerLeft.
Variables (end_ : nat) (a b : N) (after : str).
Notation step := (fun (st : bstate) (e : nat * N) =>
          let '(rem, buffer, out) := st in
          let '(swap_idx, swap_ch) := e in
          if (rem =? 0)%N then
            b <- rotate_bytes rotate_left (clen a) (swap_idx + clen swap_ch) end_ buffer ;;
            debug_assert dbg (str_eqb word b) (Ret (inr (rem, b, out)))
          else
            b <- swap_adjacent sg swap_idx swap_ch a buffer ;;
            out1 <- try sg fuel (fst b) out ;;
            Ret (inl ((rem - 1)%N, fst b, out1))).
Lemma move_left_inner : forall rq m rem out,
  word = rev rq ++ m ++ b :: a :: after -> end_ = length (enc (rev rq ++ m ++ [b; a])) ->
  loopR step (rev (char_indices 0 (rev rq))) (rem, rev rq ++ a :: m ++ b :: after, out) =
  (let cands := map (fun '(p, c, m') => p ++ a :: c :: m' ++ m ++ b :: after) (rev (splits (rev rq))) in
   o <- tries (firstn (N.to_nat rem) cands) out ;;
   Ret (if (length cands <=? N.to_nat rem)%nat
        then inl ((rem - N.of_nat (length cands))%N, a :: rev rq ++ m ++ b :: after, o)
        else inr (0%N, word, o))).
Proof.
  induction rq as [|c rq IH]; intros m rem out E HE.
  - cbn [rev char_indices loopR map splits splits_from length app]. rewrite firstn_nil, tries_nil.
    cbn [bindR Nat.leb]. rewrite N.sub_0_r. reflexivity.
  - cbn [rev] in *. set (q := rev rq) in *. rewrite char_indices_snoc, rev_app_distr. cbn [rev app loopR].
    pose proof WS as H. rewrite E in H.
    assert (HS : scalars (q ++ c :: a :: m ++ b :: after)).
    { rewrite <- !app_assoc in H. cbn [app] in H. apply Forall_app in H. destruct H as [H1 H2].
      inversion H2 as [|? ? Hc H3]; subst. apply Forall_app in H3. destruct H3 as [H3 H4].
      inversion H4 as [|? ? Hb H5]; subst. inversion H5 as [|? ? Ha H6]; subst.
      apply Forall_app. split; [exact H1|]. constructor; [exact Hc|]. constructor; [exact Ha|].
      apply Forall_app. split; [exact H3|]. constructor; assumption. }
    rewrite splits_snoc, rev_app_distr. cbn [rev app map length]. destruct (N.eqb_spec rem 0) as [->|Hn].
    + rewrite (@rotate_at rotate_left (clen a) _ end_ ((q ++ [c]) ++ a :: m ++ b :: after) word WS).
      * cbn [bindR]. rewrite str_eqb_refl, debug_assert_true. cbn [bindR N.to_nat firstn]. rewrite tries_nil. reflexivity.
      * replace (length (enc q) + clen c) with (length (enc (q ++ [c]))) by enc_len.
        replace word with ((q ++ [c]) ++ (m ++ [b]) ++ a :: after) by (rewrite E; apps; reflexivity).
        replace end_ with (length (enc ((q ++ [c]) ++ a :: m ++ [b]))).
        2: { rewrite HE. enc_len. }
        replace ((q ++ [c]) ++ a :: m ++ b :: after) with ((q ++ [c]) ++ a :: (m ++ [b]) ++ after) by (apps; reflexivity).
        apply rotate_left_spec.
    + assert (SW : swap_adjacent sg (length (enc q)) c a ((q ++ [c]) ++ a :: m ++ b :: after) =
        Ret (q ++ a :: (c :: m) ++ b :: after, length (enc (q ++ [a])))).
      { rewrite <- app_assoc. cbn [app]. apply swap_adjacent_at; [exact HS|reflexivity]. }
      rewrite SW. cbn [bindR fst snd].
      replace (N.to_nat rem) with (S (N.to_nat (rem - 1))) by lia. cbn [firstn]. rewrite tries_cons, !bind_assoc.
      cbn [app]. apply bind_ext. intros o _. cbn [bindR].
      etransitivity; [apply (IH (c :: m) (rem - 1)%N o)|].
      * rewrite E. apps. reflexivity.
      * rewrite HE. f_equal. f_equal. apps. reflexivity.
      * cbv zeta. rewrite <- map_rev, map_map, !map_length. cbn [Nat.leb].
        match goal with |- _ = bindR (tries (firstn _ ?L) _) _ =>
          replace L with (map (fun '(p, c0, m') => p ++ a :: c0 :: m' ++ (c :: m) ++ b :: after) (rev (splits q))) end.
        2: { apply map_ext. intros [[x y] z]. apps. reflexivity. }
        apply bind_ext. intros o' _.
        match goal with |- Ret (if _ then inl ?p else _) = Ret (if _ then inl ?q else _) => replace q with p; [reflexivity|] end.
        f_equal. f_equal; [unfold str; lia|apps; reflexivity].
Qed.
End InnerLeft.

Fixpoint lefts (after before : str) : list str :=
  match before with
  | a :: ((b :: before2) as before') =>
      map (fun '(p, c, m) => p ++ a :: c :: m ++ b :: after) (rev (splits (rev before2))) ++ lefts (a :: after) before'
  | _ => []
  end.
Lemma moves_left_lefts : forall w, moves_left w = lefts [] (rev w).
Proof.
  intros w. unfold moves_left. rewrite flat_map_map.
  assert (G : forall before after,
    flat_map (fun a : str * N * str =>
       let '(u, a0, r) := let '(u, a0, v) := a in (u, a0, match rev u with [] => v | b :: _ => b :: v end) in
       map (fun '(p, c, m) => p ++ a0 :: c :: m ++ r) (rev (splits (removelast u))))
      (rev (map (fun '(u, a, v) => (u, a, v ++ after)) (splits (rev before)))) = lefts after before).
  { induction before as [|a before IH]; intros after; [reflexivity|].
    cbn [rev]. rewrite splits_snoc, map_app, rev_app_distr, map_map. cbn [map rev app flat_map].
    match goal with |- context [rev (map ?f (splits (rev before)))] =>
      replace (map f (splits (rev before))) with (map (fun '(u, c, v) => (u, c, v ++ a :: after)) (splits (rev before))) end.
    2: { apply map_ext. intros [[x y] z]. rewrite <- app_assoc. reflexivity. }
    specialize (IH (a :: after)). etransitivity; [apply f_equal; exact IH|]. clear IH. rewrite rev_involutive. destruct before as [|b before2]; [reflexivity|].
    cbn [rev]. rewrite removelast_last. reflexivity. }
  specialize (G (rev w) []). rewrite rev_involutive in G. rewrite <- G. f_equal. f_equal.
  rewrite <- (map_id (splits w)) at 1. apply map_ext. intros [[x y] z]. rewrite app_nil_r. reflexivity.
Qed.
Lemma move_left_is : forall before after rem out, word = rev before ++ after ->
  move_left sg fuel word before (rem, word, out) = brun word (lefts after before) rem out.
Proof.
  induction before as [|a before IH]; intros after rem out E.
  - cbn. rewrite brun_nil. reflexivity.
  - destruct before as [|b r]; [cbn; rewrite brun_nil; reflexivity|].
    rewrite move_left_step. cbv zeta. pose proof WS as H. cbn [rev] in E. rewrite <- !app_assoc in E. cbn [app] in E.
    rewrite E in H.
    assert (SW : swap_adjacent sg (length (enc (rev r))) b a word = Ret (rev r ++ a :: b :: after, length (enc (rev r ++ [a]))))
      by (rewrite E; apply swap_adjacent_at; auto).
    rewrite SW. cbn [bindR fst snd].
    rewrite (@move_left_inner _ a b after r [] rem out); [|exact E|cbn [rev]; enc_len]. cbv zeta.
    change (lefts after (a :: b :: r)) with
      (map (fun '(p, c, m) => p ++ a :: c :: m ++ b :: after) (rev (splits (rev r))) ++ lefts (a :: after) (b :: r)).
    rewrite brun_app. unfold brun at 1. rewrite !bind_assoc. cbn [app]. apply bind_ext. intros o _. cbn [bindR].
    match goal with |- match (if ?x then _ else _) with _ => _ end = match (if ?y then _ else _) with _ => _ end =>
      change y with x; destruct x end; [|reflexivity].
    rewrite (@rotate_at rotate_left (clen a) 0 _ (a :: rev r ++ b :: after) word WS).
    + cbn [bindR]. rewrite str_eqb_refl, debug_assert_true.
      apply IH. rewrite E. cbn [rev]. apps. reflexivity.
    + pose proof (rotate_left_spec [] a (rev r ++ [b]) after) as Hr. cbn [app enc flat_map length] in Hr.
      rewrite <- app_assoc in Hr. cbn [app] in Hr. rewrite E.
      replace (length (enc (rev (b :: r))) + clen a) with (length (enc1 a ++ flat_map enc1 (rev r ++ [b]))).
      2: { rewrite app_length. cbn [rev]. unfold enc, clen. lia. }
      rewrite <- app_assoc in Hr. cbn [app] in Hr. exact Hr.
Qed.
Theorem move_is : forall out,
  move_char_suggest sg fuel word out = tries (firstn budget (moves_right word ++ moves_left word)) out.
Proof.
  intros out. unfold move_char_suggest. rewrite nonempty_word, max_attempts_budget. cbn [bindR].
  change 0 with (length (enc [])). rewrite (@move_right_is word [] _ out eq_refl), map_id.
  rewrite <- (Nat2N.id budget) at 2. rewrite <- brun_final with (word := word). rewrite brun_app, !bind_assoc.
  unfold brun at 1 2. rewrite !bind_assoc. apply bind_ext. intros o _. cbn [bindR].
  destruct (length (moves_right word) <=? N.to_nat (N.of_nat budget))%nat; [|reflexivity].
  rewrite str_eqb_refl, debug_assert_true, moves_left_lefts.
  rewrite (@move_left_is (rev word) []) by (rewrite rev_involutive, app_nil_r; reflexivity).
  unfold brun. rewrite !bind_assoc. apply bind_ext. intros o' _. cbn [bindR].
  match goal with |- context [(?x <=? ?y)%nat] => destruct (x <=? y)%nat end; [|reflexivity].
  cbn [fst snd final]. rewrite str_eqb_refl, debug_assert_true. reflexivity.
Qed.

(** ** REP *)
(** The test for a REP form: fit, or made of several words all of which but the last are found. *)
Definition rep_fit (w : str) : Res bool :=
  b <- fit w ;;
  if (b : bool) then Ret true
  else match find_char (N.eqb 32) w with
       | None => Ret false
       | Some _ => rep_parts sg fuel (S (length w)) w
       end.
Definition picks (l : list str) (out : list str) : Res (list str) :=
  l' <- keepR rep_fit l ;; Ret (out ++ l').
Arguments picks : simpl never.
Arguments rep_fit : simpl never.
Lemma picks_nil : forall out, picks [] out = Ret out.
Proof. intros out. unfold picks. cbn. rewrite app_nil_r. reflexivity. Qed.
Lemma picks_app : forall a b out, picks (a ++ b) out = (o <- picks a out ;; picks b o).
Proof.
  intros a b out. unfold picks. rewrite keepR_app, !bind_assoc. apply bind_ext. intros x _. cbn [bindR].
  rewrite bind_assoc. apply bind_ext. intros y _. cbn. rewrite app_assoc. reflexivity.
Qed.
Lemma try_rep_is : forall w out, try_rep_suggestion sg fuel w out = picks [w] out.
Proof.
  intros w out. unfold try_rep_suggestion, picks. rewrite add_fit. cbn [keepR]. unfold rep_fit. rewrite !bind_assoc.
  apply bind_ext. intros b _. cbn [bindR fst snd]. destruct b; cbn [bindR fst]; [reflexivity|].
  destruct (find_char (N.eqb 32) w); [|cbn; rewrite app_nil_r; reflexivity].
  rewrite ?bind_assoc. apply bind_ext. intros ok _. cbn. destruct ok; [reflexivity|rewrite app_nil_r; reflexivity].
Qed.
Lemma fold_picks : forall A (f : str * list str -> A -> Res (str * list str)) (cand : A -> list str) w l,
  (forall a out, In a l -> f (w, out) a = (o <- picks (cand a) out ;; Ret (w, o))) ->
  forall out, foldR f l (w, out) = (o <- picks (flat_map cand l) out ;; Ret (w, o)).
Proof.
  intros A f cand w. induction l as [|a l IH]; intros H out.
  - cbn [foldR flat_map]. rewrite picks_nil. reflexivity.
  - cbn [foldR flat_map]. rewrite H by (left; reflexivity). rewrite picks_app, !bind_assoc.
    apply bind_ext. intros o _. cbn [bindR]. apply IH. intros; apply H; right; assumption.
Qed.
Lemma fold_picks_plain : forall A (f : list str -> A -> Res (list str)) (cand : A -> list str) l,
  (forall a out, In a l -> f out a = picks (cand a) out) ->
  forall out, foldR f l out = picks (flat_map cand l) out.
Proof.
  intros A f cand. induction l as [|a l IH]; intros H out.
  - cbn [foldR flat_map]. rewrite picks_nil. reflexivity.
  - cbn [foldR flat_map]. rewrite H by (left; reflexivity). rewrite picks_app.
    apply bind_ext. intros o _. apply IH. intros; apply H; right; assumption.
Qed.
Theorem rep_is : forall out, wf_reps (ad_reps aff) ->
  rep_suggest sg fuel word out = picks (rep_forms (ad_reps aff) word) out.
Proof.
  intros out [Hne How]. unfold rep_suggest, rep_forms. cbv zeta. set (t := ad_reps aff) in *.
  rewrite (@fold_picks_plain _ _ (fun e : str * str => let '(from, to) := e in if str_eqb word from then [to] else [])).
  2: { intros [from to] o _. cbn [fst snd]. destruct (str_eqb word from); [apply try_rep_is|rewrite picks_nil; reflexivity]. }
  destruct (only_whole_reps t) eqn:E.
  - destruct (How eq_refl) as (E1 & E2 & E3). rewrite E1, E2, E3. cbn [flat_map app]. rewrite app_nil_r. apply bind_ret.
  - clear How. rewrite picks_app. apply bind_ext. intros o0 _. rewrite picks_app.
    rewrite (@fold_picks _ _ (fun e : str * str => let '(from, to) := e in
       match strip_prefix from word with Some r => [to ++ r] | None => [] end) word).
    2: { intros [from to] o _. unfold rep_start_step, starts_with. destruct (strip_prefix from word) as [r|] eqn:P; cbn [is_someb].
      - apply strip_prefix_spec in P. pose proof (replace_range_app [] from r to) as R1.
        pose proof (replace_range_app [] to r from) as R2. cbn [app length] in R1, R2. rewrite P, R1, R2, try_rep_is. reflexivity.
      - rewrite picks_nil. reflexivity. }
    rewrite bind_assoc. apply bind_ext. intros o1 _. cbn [bindR fst]. rewrite str_eqb_refl, debug_assert_true, picks_app.
    rewrite (@fold_picks _ _ (fun e : str * str => let '(from, to) := e in
       match strip_suffix from word with Some r => [r ++ to] | None => [] end) word).
    2: { intros [from to] o _. unfold rep_end_step, ends_with. destruct (strip_suffix from word) as [r|] eqn:P; cbn [is_someb].
      - apply strip_suffix_spec in P. rewrite P, app_length. replace (length r + length from - length from) with (length r) by lia.
        rewrite !firstn_app_exact by reflexivity. rewrite try_rep_is. reflexivity.
      - rewrite picks_nil. reflexivity. }
    rewrite bind_assoc. apply bind_ext. intros o2 _. cbn [bindR fst]. rewrite str_eqb_refl, debug_assert_true.
    rewrite (@fold_picks _ _ (fun e : str * str => let '(from, to) := e in
       map (fun i => firstn i word ++ to ++ skipn (i + length from) word) (match_indices from word)) word).
    2: { intros [from to] o He. unfold rep_any_step. cbn [fst snd]. rewrite <- flat_map_single. apply fold_picks.
      intros i o' Hi. unfold rep_at_step. apply match_indices_In in Hi; [|eauto]. destruct Hi as (u & v & HO & ->).
      assert (HW : word = u ++ from ++ v) by (apply Occ_app; exact HO).
      rewrite HW, firstn_app_exact by reflexivity.
      replace (skipn (length u + length from) (u ++ from ++ v)) with v.
      2: { rewrite app_assoc. symmetry. apply skipn_app_exact. rewrite app_length. reflexivity. }
      rewrite !replace_range_app, try_rep_is. reflexivity. }
    rewrite bind_assoc.
    transitivity (o <- picks (flat_map (fun e : str * str => let '(from, to) := e in
       map (fun i => firstn i word ++ to ++ skipn (i + length from) word) (match_indices from word)) (any_reps t)) o2 ;; Ret o).
    + apply bind_ext. intros o3 _. cbn [bindR fst snd]. rewrite str_eqb_refl, debug_assert_true. reflexivity.
    + apply bind_ret.
Qed.

(** ** MAP *)
Definition mrun (l : list str) (m : mstate) : Res mstate :=
  o <- tries (firstn (N.to_nat (fst m)) l) (snd m) ;; Ret ((fst m - N.of_nat (length l))%N, o).
Arguments mrun : simpl never.
Lemma mrun_nil : forall m, mrun [] m = Ret m.
Proof. intros [rem out]. unfold mrun. rewrite firstn_nil, tries_nil. cbn. rewrite N.sub_0_r. reflexivity. Qed.
Lemma mrun_app : forall a b m, mrun (a ++ b) m = (m' <- mrun a m ;; mrun b m').
Proof.
  intros a b [rem out]. unfold mrun. cbn [fst snd]. rewrite firstn_app, tries_app, !bind_assoc. apply bind_ext. intros o _.
  cbn [bindR fst snd]. replace (N.to_nat (rem - N.of_nat (length a))) with (N.to_nat rem - length a) by lia.
  apply bind_ext. intros o' _. rewrite app_length. do 2 f_equal. lia.
Qed.
Lemma mrun_zero : forall l out, mrun l (0%N, out) = Ret (0%N, out).
Proof. intros l out. unfold mrun. cbn [fst snd N.to_nat firstn]. rewrite tries_nil. reflexivity. Qed.

Definition tag {A} (b : bool) (a : A) : A + A := if b then inl a else inr a.
(** The step keeps the word, runs over [l], and stops the loops around it only once no attempt is left. *)
Definition Runs (w : str) (l : list str) (f : str * mstate -> Res ((str * mstate) + (str * mstate))) : Prop :=
  exists B : N -> bool, forall rem out,
    f (w, (rem, out)) = (m <- mrun l (rem, out) ;; Ret (tag (B rem) (w, m))) /\
    (B rem = false -> (rem <= N.of_nat (length l))%N).

Lemma Runs_nil : forall w f, (forall m, f (w, m) = Ret (inl (w, m))) -> Runs w [] f.
Proof.
  intros w f H. exists (fun _ => true). intros rem out. split; [|discriminate]. rewrite H, mrun_nil. reflexivity.
Qed.
Lemma Runs_seq : forall w a b f g h, Runs w a f -> Runs w b g ->
  (forall s, h s = (r <- f s ;; match r with inl s' => g s' | inr s' => Ret (inr s') end)) -> Runs w (a ++ b) h.
Proof.
  intros w a b f g h [B1 H1] [B2 H2] Hh.
  exists (fun rem => if B1 rem then B2 (rem - N.of_nat (length a))%N else false).
  intros rem out. destruct (H1 rem out) as [E1 L1]. rewrite Hh, E1, mrun_app, !bind_assoc. rewrite app_length. split.
  - unfold mrun at 1 2. cbn [fst snd]. rewrite !bind_assoc. apply bind_ext. intros o _. cbn [bindR fst snd].
    destruct (B1 rem) eqn:E; cbn [tag].
    + destruct (H2 (rem - N.of_nat (length a))%N o) as [E2 _]. exact E2.
    + replace (rem - N.of_nat (length a))%N with 0%N by (specialize (L1 eq_refl); lia). rewrite mrun_zero. reflexivity.
  - destruct (B1 rem).
    + destruct (H2 (rem - N.of_nat (length a))%N out) as [_ L2]. intros E. specialize (L2 E). lia.
    + intros E. specialize (L1 E). lia.
Qed.
Lemma Runs_loop : forall A w (f : str * mstate -> A -> Res ((str * mstate) + (str * mstate))) (c : A -> list str) l,
  (forall a, In a l -> Runs w (c a) (fun s => f s a)) -> Runs w (flat_map c l) (loopR f l).
Proof.
  intros A w f c l. induction l as [|a l IH]; intros H.
  - cbn [flat_map]. apply Runs_nil. reflexivity.
  - cbn [flat_map]. eapply Runs_seq; [apply H; left; reflexivity|apply IH; intros; apply H; right; assumption|].
    intros s. reflexivity.
Qed.

Section MapTree.
Variable rec : str -> nat -> mstate -> Res mstate.
Variable tree : str -> nat -> list str.
Variable w : str.
Variable i : nat.
Hypothesis HW : scalars w.
Hypothesis Hi : i <= length w.
Hypothesis HG : Forall wf_sim (ad_sims aff).
Hypothesis Hrec : forall w' i' m, scalars w' -> i' <= length w' -> length w' - i' < length w - i ->
  rec w' i' m = mrun (tree w' i') m.

Lemma Runs_try : forall edit undo w' i',
  edit w = Ret w' -> undo w' = Ret w -> scalars w' -> i' <= length w' -> length w' - i' < length w - i ->
  Runs w (w' :: tree w' i') (map_try sg fuel rec w edit undo i').
Proof.
  intros edit undo w' i' HE HU HS HL HM. exists (fun rem => negb (rem =? 0)%N). intros rem out. split.
  - unfold map_try. destruct (N.eqb_spec rem 0) as [->|Hn].
    + rewrite mrun_zero. reflexivity.
    + rewrite HE. cbn [bindR]. rewrite (mrun_app [w'] (tree w' i')). unfold mrun at 1. cbn [fst snd].
      replace (firstn (N.to_nat rem) [w']) with [w'].
      2: { destruct (N.to_nat rem) as [|n] eqn:E; [lia|]. cbn. rewrite firstn_nil. reflexivity. }
      rewrite <- try_fit, !bind_assoc. apply bind_ext. intros o _. cbn [bindR length].
      rewrite Hrec by assumption. apply bind_ext. intros m _. rewrite HU. cbn [bindR negb].
      rewrite str_eqb_refl, debug_assert_true. reflexivity.
  - cbn [length]. destruct (N.eqb_spec rem 0); [lia|discriminate].
Qed.
Lemma Runs_ext : forall l f g, (forall s, f s = g s) -> Runs w l f -> Runs w l g.
Proof. intros l f g H [B HB]. exists B. intros rem out. rewrite <- H. apply HB. Qed.

Notation sub := (fun '(w', i') => w' :: tree w' i').

Lemma scalars_parts : forall u x v y, w = u ++ x ++ v -> scalars y -> scalars (u ++ y ++ v).
Proof.
  intros u x v y E Hy. pose proof HW as H. rewrite E in H. apply Forall_app in H. destruct H as [H1 H2].
  apply Forall_app in H2. destruct H2 as [_ H3]. apply Forall_app. split; [exact H1|]. apply Forall_app. split; assumption.
Qed.
Lemma Runs_range : forall u x v y, w = u ++ x ++ v -> i <= length u -> x <> [] -> scalars y ->
  Runs w ((u ++ y ++ v) :: tree (u ++ y ++ v) (length u + length y))
    (map_try sg fuel rec w (range (length u) (length x) y) (range (length u) (length y) x) (length u + length y)).
Proof.
  intros u x v y E HU HX HY. assert (0 < length x) by (destruct x; [congruence|cbn; lia]). apply Runs_try.
  - unfold range. rewrite E, replace_range_app. reflexivity.
  - unfold range. rewrite replace_range_app, <- E. reflexivity.
  - eapply scalars_parts; eassumption.
  - rewrite !app_length. lia.
  - rewrite E, !app_length. lia.
Qed.

Lemma map_from_char_runs : forall u ch v g, w = u ++ ch :: v -> i <= length u -> In g (ad_sims aff) ->
  memb ch (sg_chars g) = true ->
  Runs w (flat_map sub (map_exchanges w (length u) ch g)) (map_from_char sg fuel rec w (length u) ch g).
Proof.
  intros u ch v g E HU Hg Hm. pose proof (proj1 (Forall_forall _ _) HG g Hg) as [Hc Hs].
  assert (EV : skipn (S (length u)) w = v).
  { rewrite E. change (u ++ ch :: v) with (u ++ [ch] ++ v). rewrite app_assoc. apply skipn_app_exact. rewrite app_length. cbn. lia. }
  assert (EU : firstn (length u) w = u) by (rewrite E; apply firstn_app_exact; reflexivity).
  unfold map_exchanges. rewrite Hm, flat_map_app, EU, EV. unfold map_from_char. rewrite EU.
  eapply Runs_seq; [| |intros s; reflexivity].
  - rewrite flat_map_flat_map. apply Runs_loop. intros c Hin. destruct (N.eqb_spec c ch) as [->|Hn].
    + apply Runs_nil. reflexivity.
    + cbn [flat_map]. rewrite app_nil_r.
      assert (HSc : scalar c) by (apply (proj1 (Forall_forall _ _) Hc c Hin)).
      assert (HS2 : scalars (u ++ c :: v)) by (apply (@scalars_parts u [ch] v [c] E); constructor; auto).
      apply Runs_try.
      * rewrite E. rewrite (@in_place_enc _ _ _ (u ++ c :: v) tt HS2); [reflexivity|].
        unfold plain. rewrite replace_char_spec; [reflexivity|rewrite <- E; exact HW|exact HSc].
      * rewrite (@in_place_enc _ _ _ w tt HW); [reflexivity|].
        unfold plain. rewrite replace_char_spec; [rewrite <- E; reflexivity|exact HS2|].
        pose proof HW as H. rewrite E in H. apply Forall_app in H. destruct H as [_ H]. inversion H; assumption.
      * exact HS2.
      * rewrite app_length. cbn. lia.
      * rewrite E, !app_length. cbn. lia.
  - rewrite flat_map_map. apply Runs_loop. intros s Hin.
    destruct (proj1 (Forall_forall _ _) Hs s Hin) as [_ HSs].
    apply (@Runs_range u [ch] v s E HU); [discriminate|exact HSs].
Qed.
Lemma map_from_string_runs : forall u ch v g, w = u ++ ch :: v -> i <= length u -> In g (ad_sims aff) ->
  memb ch (sg_chars g) = false ->
  Runs w (flat_map sub (map_exchanges w (length u) ch g))
    (loopR (map_from_string sg fuel rec w (length u) g) (indexed (sg_strings g))).
Proof.
  intros u ch v g E HU Hg Hm. pose proof (proj1 (Forall_forall _ _) HG g Hg) as [Hc Hs].
  unfold map_exchanges. rewrite Hm, flat_map_flat_map. apply Runs_loop. intros [pos from] Hin.
  unfold map_from_string. assert (Hfrom : In from (sg_strings g)) by (apply in_combine_r in Hin; exact Hin).
  destruct (proj1 (Forall_forall _ _) Hs from Hfrom) as [Hne _].
  assert (EV : skipn (length u) w = ch :: v) by (rewrite E; apply skipn_app_exact; reflexivity).
  rewrite EV. destruct (find_sub from (ch :: v)) as [j|] eqn:F; [|apply Runs_nil; reflexivity].
  apply find_sub_sound in F. destruct F as [F Lj].
  set (p := firstn j (ch :: v)) in *. set (q := skipn (j + length from) (ch :: v)) in *.
  assert (Lp : length p = j) by (unfold p; apply firstn_length_le; exact Lj).
  assert (EW : w = (u ++ p) ++ from ++ q) by (rewrite E, F; apps; reflexivity).
  assert (LU : j + length u = length (u ++ p)) by (rewrite app_length; lia).
  rewrite LU. assert (E1 : firstn (length (u ++ p)) w = u ++ p) by (rewrite EW; apply firstn_app_exact; reflexivity).
  assert (E2 : skipn (length (u ++ p) + length from) w = q).
  { rewrite EW, app_assoc. apply skipn_app_exact. rewrite (app_length (u ++ p)). reflexivity. }
  rewrite E1, E2, flat_map_app. assert (HU' : i <= length (u ++ p)) by (rewrite app_length; lia).
  eapply Runs_seq; [| |intros s; reflexivity].
  - rewrite flat_map_map. apply Runs_loop. intros c Hcin.
    assert (HSc : scalar c) by (apply (proj1 (Forall_forall _ _) Hc c Hcin)).
    pose proof (@Runs_range (u ++ p) from q [c] EW HU' Hne) as R. cbn [length] in R. rewrite Nat.add_1_r in R.
    apply R. constructor; auto.
  - rewrite flat_map_flat_map. apply Runs_loop. intros [pos2 to] Hin2. cbn [fst snd].
    destruct (pos2 =? pos)%nat; [apply Runs_nil; reflexivity|]. cbn [flat_map]. rewrite app_nil_r.
    assert (Hto : In to (sg_strings g)) by (apply in_combine_r in Hin2; exact Hin2).
    destruct (proj1 (Forall_forall _ _) Hs to Hto) as [_ HSt].
    apply (@Runs_range (u ++ p) from q to EW HU' Hne HSt).
Qed.
Lemma map_body_is : forall m,
  map_body sg fuel rec w i m = mrun (flat_map sub (map_edits (ad_sims aff) w i)) m.
Proof.
  intros m. unfold map_body, map_edits. rewrite flat_map_flat_map.
  assert (R : Runs w (flat_map (fun a : nat * N => flat_map sub (let '(idx, ch) := a in
                 flat_map (map_exchanges w idx ch) (ad_sims aff))) (combine (seq i (length w - i)) (skipn i w)))
               (loopR (map_at sg fuel rec w) (combine (seq i (length w - i)) (skipn i w)))).
  { apply Runs_loop. intros [idx ch] Hin. unfold map_at. rewrite flat_map_flat_map. apply Runs_loop. intros g Hg.
    replace (length w - i) with (length (skipn i w)) in Hin by (rewrite skipn_length; reflexivity).
    rewrite indexed_splits in Hin. apply in_map_iff in Hin. destruct Hin as ([[u c] v] & Ee & Hs).
    inversion Ee; subst idx c. apply splits_In in Hs.
    assert (EW : w = (firstn i w ++ u) ++ ch :: v) by (rewrite <- (firstn_skipn i w) at 1; rewrite Hs; apps; reflexivity).
    assert (LU : i + length u = length (firstn i w ++ u)) by (rewrite app_length, firstn_length_le by exact Hi; reflexivity).
    rewrite LU. destruct (memb ch (sg_chars g)) eqn:M.
    - eapply map_from_char_runs; [exact EW|rewrite <- LU; lia|exact Hg|exact M].
    - eapply map_from_string_runs; [exact EW|rewrite <- LU; lia|exact Hg|exact M]. }
  destruct R as [B R]. destruct m as [rem out]. destruct (R rem out) as [E _].
  etransitivity; [exact (f_equal (fun x => bindR x (fun r => Ret (snd (final r)))) E)|]. cbv beta. rewrite bind_assoc.
  match goal with |- _ = mrun ?L ?M => transitivity (m <- mrun L M ;; Ret m); [|apply bind_ret] end.
  apply bind_ext. intros m _. cbn [bindR]. destruct (B rem); reflexivity.
Qed.
End MapTree.

Lemma map_impl_is : forall n w i m, Forall wf_sim (ad_sims aff) -> scalars w -> i <= length w -> length w - i < n ->
  map_suggest_impl sg fuel n w i m = mrun (map_tree n (ad_sims aff) w i) m.
Proof.
  induction n as [|n IH]; intros w i m HG HW Hi Hn; [lia|].
  cbn [map_suggest_impl map_tree]. apply map_body_is; try assumption.
  intros w' i' m' HS HL HM. apply IH; try assumption. lia.
Qed.
Theorem map_is : forall out, Forall wf_sim (ad_sims aff) -> length word < fuel ->
  map_suggest sg fuel word out = tries (firstn budget (map_forms (ad_sims aff) word)) out.
Proof.
  intros out HG HF. unfold map_suggest, map_forms. rewrite max_attempts_budget. cbn [bindR].
  rewrite map_impl_is by (try assumption; lia). rewrite map_tree_stable by (try assumption; lia). rewrite Nat.sub_0_r.
  unfold mrun. cbn [fst snd]. rewrite Nat2N.id, bind_assoc. apply bind_ret.
Qed.

(** ** Two words *)
Definition simple (w : str) : bool := is_someb (check_simple_word k w SkipHiddenHomonym).
(** With a space, and with a hyphen when both parts are longer than one character and TRY has an
    [a] or a hyphen. *)
Definition two_word_forms (w : str) : list str :=
  if o_no_split_sugs opts then []
  else flat_map (fun '(u, c, v) =>
    if simple u && simple (c :: v) then
      (u ++ 32%N :: c :: v) ::
      (if (1 <? length u)%nat && (0 <? length v)%nat && existsb (fun x => (x =? 97)%N || (x =? 45)%N) (ad_try aff)
       then [u ++ 45%N :: c :: v] else [])
    else []) (splits w).
Theorem two_words_is : forall out, two_words_suggest sg word out = Ret (out ++ two_word_forms word).
Proof.
  intros out. unfold two_words_suggest, two_word_forms. rewrite nonempty_word.
  destruct (o_no_split_sugs opts); [rewrite app_nil_r; reflexivity|].
  rewrite seq_splits, foldR_map.
  assert (G : forall l out, (forall u c v, In (u, c, v) l -> word = u ++ c :: v) ->
    foldR (fun s (a : str * N * str) => two_words_step sg word s (let '(u, _, _) := a in length u)) l out =
    Ret (out ++ flat_map (fun '(u, c, v) =>
      if simple u && simple (c :: v) then
        (u ++ 32%N :: c :: v) ::
        (if (1 <? length u)%nat && (0 <? length v)%nat && existsb (fun x => (x =? 97)%N || (x =? 45)%N) (ad_try aff)
         then [u ++ 45%N :: c :: v] else [])
      else []) l)).
  { clear out. induction l as [|[[u c] v] l IH]; intros out H.
    - cbn [foldR flat_map]. rewrite app_nil_r. reflexivity.
    - cbn [foldR flat_map]. pose proof (H u c v (or_introl eq_refl)) as E.
      assert (ST : two_words_step sg word out (length u) = Ret (out ++
        (if simple u && simple (c :: v) then
          (u ++ 32%N :: c :: v) ::
          (if (1 <? length u)%nat && (0 <? length v)%nat && existsb (fun x => (x =? 97)%N || (x =? 45)%N) (ad_try aff)
           then [u ++ 45%N :: c :: v] else [])
         else []))).
      { unfold two_words_step, simple. rewrite E, firstn_app_exact, skipn_app_exact by reflexivity.
        destruct (check_simple_word k u SkipHiddenHomonym) as [f1|]; cbn [is_someb andb]; [|rewrite app_nil_r; reflexivity].
        destruct (check_simple_word k (c :: v) SkipHiddenHomonym) as [f2|]; cbn [is_someb andb]; [|rewrite app_nil_r; reflexivity].
        replace (1 <? length (c :: v))%nat with (0 <? length v)%nat by reflexivity.
        destruct ((1 <? length u)%nat && (0 <? length v)%nat && existsb (fun x => (x =? 97)%N || (x =? 45)%N) (ad_try aff));
          [|reflexivity].
        assert (EN : enc (u ++ 32%N :: c :: v) = enc u ++ [32%N] ++ enc (c :: v)) by (rewrite enc_app; reflexivity).
        rewrite EN, nth_error_app2, Nat.sub_diag by lia. cbn [nth_error app]. rewrite debug_assert_true.
        rewrite (@in_place_enc _ _ (u ++ 32%N :: c :: v) (u ++ 45%N :: c :: v) tt).
        - reflexivity.
        - pose proof WS as HS. rewrite E in HS. apply Forall_app in HS. destruct HS as [H1 H2].
          apply Forall_app. split; [exact H1|]. constructor; [|exact H2]. reflexivity.
        - unfold plain. rewrite EN. replace (S (length (enc u))) with (length (enc u) + length [32%N]) by (cbn; lia).
          rewrite (@on_slice_app (enc u) [32%N] (enc (c :: v)) _ [45%N] eq_refl). cbn [bindR].
          rewrite enc_app. reflexivity. }
      rewrite ST. cbn [bindR]. rewrite IH by (intros; apply H; right; assumption). rewrite <- app_assoc. reflexivity. }
  apply G. intros u c v H. apply splits_In. exact H.
Qed.

(** ** All of them *)
Definition edits (w : str) : list str :=
  (adjacent_swaps w ++ double_swaps w) ++ firstn budget (swaps w) ++ key_slips U (ad_keyboard aff) w ++ deletions w ++
  firstn budget (insertions (ad_try aff) w) ++ firstn budget (moves_right w ++ moves_left w) ++
  firstn budget (replacements (ad_try aff) w) ++ doublings w.
(** Whether n-grams are not worth trying: an uppercase, REP or MAP form was found. *)
Definition high_quality (found : bool) : Res bool :=
  if found then Ret true
  else if nonempty (ad_sims aff) then
    r <- check_word k fuel word AllowBadForceucase SkipHiddenHomonym ;; Ret (is_someb r)
  else Ret false.
Theorem suggest_low_is : forall out, wf_reps (ad_reps aff) -> Forall wf_sim (ad_sims aff) -> length word < fuel ->
  suggest_low sg fuel word out =
  (l1 <- keepR fit [uppercase U case word] ;;
   l2 <- keepR rep_fit (rep_forms (ad_reps aff) word) ;;
   l3 <- keepR fit (firstn budget (map_forms (ad_sims aff) word)) ;;
   hq <- high_quality (nonempty (l1 ++ l2 ++ l3)) ;;
   l4 <- keepR fit (edits word) ;;
   Ret (hq, out ++ l1 ++ l2 ++ l3 ++ l4 ++ two_word_forms word)).
Proof.
  intros out HR HG HF. unfold suggest_low. rewrite uppercase_is. unfold tries at 1. rewrite bind_assoc.
  apply bind_ext. intros l1 _. cbn [bindR]. rewrite rep_is by exact HR. unfold picks. rewrite bind_assoc.
  apply bind_ext. intros l2 _. cbn [bindR]. rewrite map_is by assumption. unfold tries at 1. rewrite bind_assoc.
  apply bind_ext. intros l3 _. cbn [bindR].
  assert (EQ : negb (length (((out ++ l1) ++ l2) ++ l3) =? length out)%nat = nonempty (l1 ++ l2 ++ l3)).
  { rewrite <- !app_assoc, app_length. destruct (l1 ++ l2 ++ l3) as [|x l]; cbn [nonempty length].
    - rewrite Nat.add_0_r, Nat.eqb_refl. reflexivity.
    - destruct (Nat.eqb_spec (length out + S (length l)) (length out)); [lia|reflexivity]. }
  rewrite EQ. unfold high_quality. apply bind_ext. intros hq _.
  unfold edits. rewrite adjacent_is. set (A := adjacent_swaps word ++ double_swaps word).
  assert (TK : forall l o X (f : list str -> Res X), (o' <- tries l o ;; f o') = (x <- keepR fit l ;; f (o ++ x))).
  { intros l o X f. unfold tries. rewrite bind_assoc. reflexivity. }
  rewrite TK, keepR_app, bind_assoc. apply bind_ext. intros a1 _. rewrite distant_is, TK, keepR_app, !bind_assoc.
  apply bind_ext. intros a2 _. rewrite keyboard_is, TK. cbn [bindR]. rewrite keepR_app, !bind_assoc.
  apply bind_ext. intros a3 _. rewrite extra_is, TK. cbn [bindR]. rewrite keepR_app, !bind_assoc.
  apply bind_ext. intros a4 _. rewrite forgotten_is, TK. cbn [bindR]. rewrite keepR_app, !bind_assoc.
  apply bind_ext. intros a5 _. rewrite move_is, TK. cbn [bindR]. rewrite keepR_app, !bind_assoc.
  apply bind_ext. intros a6 _. rewrite wrong_is, TK. cbn [bindR]. rewrite keepR_app, !bind_assoc.
  apply bind_ext. intros a7 _. rewrite doubled_is, TK. cbn [bindR]. rewrite !bind_assoc.
  apply bind_ext. intros a8 _. rewrite two_words_is. cbn [bindR]. rewrite <- !app_assoc. reflexivity.
Qed.
End Low.
