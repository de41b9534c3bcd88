(** What the n-gram step (suggester/ngram.rs) adds to the suggestions, and when it returns. *)
From Coq Require Import List NArith ZArith Lia Bool Arith Permutation.
From Coq Require Import ZifyBool ZifyNat ZifyN.
From Verif Require Import Base Utf8 Unicode Flags Affix Aff Checker Bag AffixSpec Ngram NgramMeasures.
Import ListNotations.
Set Implicit Arguments.

(** ** Keeping the best *)

(** [kept] is a best selection of at most [cap] elements of [all]: something was left out only
    when [cap] elements are kept, and nothing that was left out scores higher. *)
Definition Best {A} (cap : nat) (all kept : list (Z * A)) : Prop :=
  exists dropped, Permutation all (kept ++ dropped) /\ length kept <= cap /\
    (dropped <> [] -> length kept = cap) /\
    (forall x y, In x kept -> In y dropped -> (fst y <= fst x)%Z).

Lemma Best_nil : forall A cap, Best cap ([] : list (Z * A)) [].
Proof. intros. exists []. repeat split; auto; simpl; try lia; try contradiction. Qed.
Lemma Best_In : forall A cap (all kept : list (Z * A)) x, Best cap all kept -> In x kept -> In x all.
Proof.
  intros A cap all kept x (d & P & _) H. apply (Permutation_in x (Permutation_sym P)). apply in_or_app. auto.
Qed.
Lemma Best_all : forall A cap (all kept : list (Z * A)), Best cap all kept -> length all <= cap -> Permutation all kept.
Proof.
  intros A cap all kept (d & P & L & F & _) H. destruct d as [|x d]; [rewrite app_nil_r in P; exact P|].
  pose proof (Permutation_length P) as E. rewrite app_length in E. cbn [length] in E.
  specialize (F ltac:(discriminate)). lia.
Qed.

Section Heap.
Variable hp : heaps.
Hypothesis WH : wf_heaps hp.

Lemma push_bounded_best : forall A cap (all h : list (Z * A)) x, 0 < cap -> hp_inv hp h -> Best cap all h ->
  hp_inv hp (push_bounded hp cap h x) /\ Best cap (all ++ [x]) (push_bounded hp cap h x).
Proof.
  intros A cap all h x C I (d & P & L & F & M). unfold push_bounded.
  destruct (Nat.eqb_spec (length h) cap) as [EL|EL]; cbn [negb].
  2: { destruct (@wh_push _ WH _ h x I) as [I' P']. split; [exact I'|].
       assert (d = []) as -> by (destruct d; [reflexivity|exfalso; apply EL, F; discriminate]).
       rewrite app_nil_r in P. exists []. rewrite app_nil_r. repeat split.
       - etransitivity; [apply Permutation_app_comm|]. simpl. etransitivity; [|exact P']. constructor. exact P.
       - pose proof (Permutation_length P') as E. simpl in E. lia.
       - congruence.
       - intros a b _ []. }
  destruct h as [|top h]; [simpl in EL; lia|].
  destruct (Z.ltb_spec (fst top) (fst x)) as [T|T].
  - destruct (@wh_pop _ WH _ _ _ I) as [I1 P1]. destruct (@wh_push _ WH _ _ x I1) as [I2 P2]. split; [exact I2|].
    assert (PT : Permutation (x :: h) (hp_push hp (hp_pop hp (top :: h)) x)).
    { etransitivity; [|exact P2]. constructor. exact P1. }
    exists (top :: d). pose proof (@wh_top _ WH _ _ _ I) as TOP. repeat split.
    + etransitivity; [apply Permutation_app; [exact P|reflexivity]|]. etransitivity; [|apply Permutation_app; [exact PT|reflexivity]].
      simpl. etransitivity; [apply perm_skip, Permutation_app_comm|]. simpl.
      etransitivity; [apply perm_swap|]. constructor. apply Permutation_middle.
    + pose proof (Permutation_length PT) as E. simpl in E, EL. lia.
    + pose proof (Permutation_length PT) as E. simpl in E, EL. lia.
    + intros a b Ha Hb. apply (Permutation_in a (Permutation_sym PT)) in Ha. rewrite Forall_forall in TOP.
      destruct Hb as [<-|Hb].
      * destruct Ha as [<-|Ha]; [lia|]. apply TOP. exact Ha.
      * destruct Ha as [<-|Ha]; [specialize (M top b (or_introl eq_refl) Hb); lia|]. apply M; [right|]; assumption.
  - split; [exact I|]. exists (d ++ [x]). repeat split.
    + rewrite app_assoc. apply Permutation_app; [exact P|reflexivity].
    + exact L.
    + intros _. exact EL.
    + intros a b Ha Hb. apply in_app_or in Hb. destruct Hb as [Hb|[<-|[]]]; [apply M; assumption|].
      pose proof (@wh_top _ WH _ _ _ I) as TOP. rewrite Forall_forall in TOP.
      destruct Ha as [<-|Ha]; [lia|]. specialize (TOP a Ha). lia.
Qed.
End Heap.

(** ** Pushing the guesses *)

(** [l] with some elements left out. *)
Inductive Sublist {A} : list A -> list A -> Prop :=
| Sublist_nil : forall l, Sublist [] l
| Sublist_take : forall x a l, Sublist a l -> Sublist (x :: a) (x :: l)
| Sublist_skip : forall x a l, Sublist a l -> Sublist a (x :: l).
Lemma Sublist_In : forall A (a l : list A) x, Sublist a l -> In x a -> In x l.
Proof. intros A a l x H. induction H; simpl; intuition. Qed.
Lemma Sublist_length : forall A (a l : list A), Sublist a l -> length a <= length l.
Proof. intros A a l H. induction H; simpl; lia. Qed.

(** No string of the list contains one that stands before it. *)
Definition Fresh (old added : list str) : Prop :=
  forall a g b s, added = a ++ g :: b -> In s old \/ In s a -> ~ Within s g.

Lemma push_guesses_is : forall k selective old max l out,
  exists added, push_guesses k selective old max l out = out ++ added /\ Sublist added (map snd l) /\ Fresh out added /\
    (length out <= max -> length (out ++ added) <= max).
Proof.
  intros k selective old max l. 
  induction l as [|[score guess] l IH]; intros out; cbn [push_guesses].
  - exists []. rewrite app_nil_r. repeat split; auto; [constructor|]. intros a g b s H. destruct a; discriminate.
  - assert (N : exists added, out = out ++ added /\ Sublist added (map snd ((score, guess) :: l)) /\ Fresh out added /\
       (length out <= max -> length (out ++ added) <= max)).
    { exists []. rewrite app_nil_r. repeat split; auto; [constructor|]. intros a g b s H. destruct a; discriminate. }
    destruct (Nat.eqb_spec (length out) max) as [EL|EL]; [exact N|].
    destruct (selective && (score <=? 1000)%Z); [exact N|].
    destruct ((score <? -100)%Z && _); [exact N|].
    destruct (existsb (fun s => contains_str s guess) out) eqn:X.
    + destruct (score <? -100)%Z; [exact N|]. destruct (IH out) as (added & E & SB & FR & B).
      exists added. repeat split; auto. simpl. constructor. exact SB.
    + destruct (IH (out ++ [guess])) as (added & E & SB & FR & B). exists (guess :: added).
      repeat split.
      * rewrite E, <- app_assoc. reflexivity.
      * simpl. constructor. exact SB.
      * intros a g b s H Hs. destruct a as [|a0 a]; simpl in H; injection H as ? ?; subst.
        -- destruct Hs as [Hs|[]]. intros W. apply contains_str_spec in W.
           assert (existsb (fun s0 => contains_str s0 g) out = true) by (apply existsb_exists; eauto). congruence.
        -- apply (FR a g b s eq_refl). destruct Hs as [Hs|[<-|Hs]]; [left|left|right]; try apply in_or_app; simpl; auto.
      * intros L. rewrite !app_length in *. simpl in *. unfold str in *. lia.
Qed.

(** ** The candidates *)
Section Forms.
Variable hp : heaps.
Variable k : checker.
Notation A := (ck_aff k).
Notation opts := (ad_options (ck_aff k)).
Notation U := (ck_u k).
Notation case := (o_case (ad_options (ck_aff k))).

(** An affix of the entry that may be the only affix of a word, and whose text the misspelled
    word has. *)
Definition UsableAffix (kd : kind) (flags : flagset) (word : str) (a : affix) : Prop :=
  In a (rules A kd) /\ In (a_flag a) flags /\ allowed A kd FULL_WORD a /\ ~ needs_affix A a /\ ~ circumfix A a /\
  match kd with Pfx => exists v, word = a_add a ++ v | Sfx => exists u, word = u ++ a_add a end.

(** The forms of an entry.  The last one is what line 386 makes of a prefix that fits a suffixed
    form: the prefix is put in front of the stem. *)
Inductive Form (word stem : str) (flags : flagset) : str -> Prop :=
| Form_stem : ~ marked (o_need_affix opts) flags -> Form word stem flags stem
| Form_affix : forall kd a e, UsableAffix kd flags word a -> attaches kd a stem e -> Form word stem flags e
| Form_crossed : forall s p mid rest e, UsableAffix Sfx flags word s -> a_cross s = true -> attaches Sfx s stem mid ->
    UsableAffix Pfx flags word p -> fits Pfx p mid -> mid = strip_text p ++ rest -> derives Pfx p stem e ->
    Form word stem flags e.

Hypothesis WF : wf_checker k.

Lemma outer_spec : forall kd a, wf_affix a ->
  (is_outer_affix_valid k kd FULL_WORD a = true <-> allowed A kd FULL_WORD a /\ ~ needs_affix A a).
Proof. intros kd a W. apply outer_valid_spec; assumption. Qed.

Lemma suffix_fits_spec : forall flags stem word a, wf_flagset flags ->
  (In a (filter (suffix_fits k flags stem word) (i_table (ad_suffixes A))) <->
   UsableAffix Sfx flags word a /\ exists e, attaches Sfx a stem e).
Proof.
  intros flags stem word a WFL. rewrite filter_In. unfold UsableAffix, suffix_fits.
  change (i_table (ad_suffixes A)) with (rules A Sfx).
  split.
  - intros [IN H]. pose proof (@rules_wf k WF Sfx a IN) as W. rewrite !andb_true_iff in H. destruct H as (((((H1 & H2) & H3) & H4) & H5) & H6).
    apply (@contains_spec _ _ WFL) in H1. apply (@outer_spec Sfx a W) in H2. destruct H2 as [H2a H2b]. apply negb_true_iff in H3.
    apply (@circumfix_false k a W) in H3. apply (@cond_ok_spec Sfx a stem W) in H5. apply ends_with_spec in H4. destruct H4 as [r H4].
    split; [split; [exact IN|split; [exact H1|split; [exact H2a|split; [exact H2b|split; [exact H3|]]]]]|].
    + apply orb_true_iff in H6. destruct H6 as [H6|H6].
      * destruct (a_add a); [|discriminate]. exists word. rewrite app_nil_r. reflexivity.
      * apply ends_with_spec in H6. destruct H6 as [u ->]. eauto.
    + exists (r ++ a_add a). split; [|exact H5]. exists r. auto.
  - intros ((IN & H1 & H2a & H2b & H3 & u & H6) & e & (r & H4 & _) & H5). pose proof (@rules_wf k WF Sfx a IN) as W.
    split; [exact IN|]. rewrite !andb_true_iff. repeat split.
    + apply (@contains_spec _ _ WFL). exact H1.
    + apply (@outer_spec Sfx a W). auto.
    + apply negb_true_iff. apply (@circumfix_false k a W). exact H3.
    + apply ends_with_spec. eauto.
    + apply (@cond_ok_spec Sfx a stem W). exact H5.
    + apply orb_true_iff. right. apply ends_with_spec. eauto.
Qed.

Lemma prefix_fits_spec : forall flags mid word a, wf_flagset flags ->
  (In a (filter (prefix_fits k flags mid word) (i_table (ad_prefixes A))) <->
   UsableAffix Pfx flags word a /\ fits Pfx a mid /\ exists r, mid = strip_text a ++ r).
Proof.
  intros flags mid word a WFL. rewrite filter_In. unfold UsableAffix, prefix_fits.
  change (i_table (ad_prefixes A)) with (rules A Pfx).
  split.
  - intros [IN H]. pose proof (@rules_wf k WF Pfx a IN) as W. rewrite !andb_true_iff in H. destruct H as (((((H1 & H2) & H3) & H4) & H5) & H6).
    apply (@contains_spec _ _ WFL) in H1. apply (@outer_spec Pfx a W) in H2. destruct H2 as [H2a H2b]. apply negb_true_iff in H3.
    apply (@circumfix_false k a W) in H3. apply (@cond_ok_spec Pfx a mid W) in H5. apply starts_with_spec in H4.
    split; [split; [exact IN|split; [exact H1|split; [exact H2a|split; [exact H2b|split; [exact H3|]]]]]|split; [exact H5|exact H4]].
    apply orb_true_iff in H6. destruct H6 as [H6|H6].
    + destruct (a_add a); [|discriminate]. exists word. reflexivity.
    + apply starts_with_spec in H6. exact H6.
  - intros ((IN & H1 & H2a & H2b & H3 & H6) & H5 & H4). pose proof (@rules_wf k WF Pfx a IN) as W.
    split; [exact IN|]. rewrite !andb_true_iff. repeat split.
    + apply (@contains_spec _ _ WFL). exact H1.
    + apply (@outer_spec Pfx a W). auto.
    + apply negb_true_iff. apply (@circumfix_false k a W). exact H3.
    + apply starts_with_spec. exact H4.
    + apply (@cond_ok_spec Pfx a mid W). exact H5.
    + apply orb_true_iff. right. apply starts_with_spec. exact H6.
Qed.

Lemma suffix_derived_is : forall a stem e, suffix_to_derived a stem = Ret e <-> derives Sfx a stem e.
Proof.
  intros a stem e. split.
  - intros H. apply suffix_strip_derive in H. destruct H as [H <-]. apply derives_to_stem. auto.
  - intros H. apply derives_to_stem in H. destruct H as [H <-]. apply suffix_derive_strip. exact H.
Qed.
Lemma prefix_derived_is : forall a stem e, prefix_to_derived a stem = Ret e <-> derives Pfx a stem e.
Proof.
  intros a stem e. split.
  - intros H. apply prefix_strip_derive in H. destruct H as [H <-]. apply derives_to_stem. auto.
  - intros H. apply derives_to_stem in H. destruct H as [H <-]. apply prefix_derive_strip. exact H.
Qed.

Lemma mapR_In : forall X Y (f : X -> Res Y) l r y, mapR f l = Ret r -> (In y r <-> exists x, In x l /\ f x = Ret y).
Proof.
  intros X Y f l. induction l as [|x l IH]; intros r y H; cbn [mapR] in H.
  - injection H as <-. split; [intros []|intros (x & [] & _)].
  - destruct (f x) as [b| |] eqn:E; try discriminate. cbn [bindR] in H.
    destruct (mapR f l) as [r'| |]; try discriminate. cbn [bindR] in H. injection H as <-. simpl. rewrite (IH r' y eq_refl).
    split.
    + intros [->|(x' & I & F)]; eauto.
    + intros (x' & [->|I] & F); [left; congruence|eauto].
Qed.
Lemma mapR_defined : forall X Y (f : X -> Res Y) l, (forall x, In x l -> exists y, f x = Ret y) -> exists r, mapR f l = Ret r.
Proof.
  intros X Y f l. induction l as [|x l IH]; intros H; cbn [mapR]; eauto.
  destruct (H x (or_introl eq_refl)) as [y ->]. cbn [bindR]. destruct IH as [r ->]; [intros; apply H; right; assumption|]. eexists. reflexivity.
Qed.
Lemma mapR_inv : forall X Y (f : X -> Res Y) l r x, mapR f l = Ret r -> In x l -> exists y, f x = Ret y.
Proof.
  intros X Y f l. induction l as [|x0 l IH]; intros r x H I; cbn [mapR] in H; [destruct I|].
  destruct (f x0) as [b| |] eqn:E; try discriminate. cbn [bindR] in H.
  destruct (mapR f l) as [r'| |] eqn:E2; try discriminate. destruct I as [<-|I]; [eauto|]. eapply IH; eauto.
Qed.

(** Everything the expansion lists is a form of the entry, and every form is listed. *)
Theorem expand_spec : forall stem flags word l, wf_flagset flags -> expand_stem_for_ngram k stem flags word = Ret l ->
  forall e, In e l <-> Form word stem flags e.
Proof.
  intros stem flags word l WFL H e.
  set (base := if has_flag flags (o_need_affix opts) then [] else [(stem, false)]) in *.
  assert (B : forall x : str, In x (map fst base) <-> x = stem /\ ~ marked (o_need_affix opts) flags).
  { intros x. unfold base. destruct (has_flag flags (o_need_affix opts)) eqn:HF.
    - apply (has_flag_spec _ WFL) in HF. simpl. tauto.
    - apply (has_flag_false _ WFL) in HF. simpl. intuition. }
  assert (BC : forall x, In x base -> snd x = false).
  { unfold base. destruct (has_flag flags (o_need_affix opts)); simpl; [tauto|]. intros x [<-|[]]. reflexivity. }
  destruct flags as [|f0 flags0].
  - cbn [expand_stem_for_ngram] in H. injection H as <-. fold base. rewrite B. split.
    + intros [-> N]. constructor. exact N.
    + intros F. inversion F as [N|kd a e0 (_ & I & _) _|s p mid rest e0 (_ & I & _) _]; subst; [auto|destruct I|destruct I].
  - set (flags := f0 :: flags0) in *. unfold expand_stem_for_ngram in H. fold base in H. unfold flags in H. fold flags in H.
    match type of H with bindR ?m _ = _ => destruct m as [sfx| |] eqn:ES end; try discriminate. cbn [bindR] in H.
    match type of H with bindR ?m _ = _ => destruct m as [crossed| |] eqn:EC end; try discriminate. cbn [bindR] in H.
    match type of H with bindR ?m _ = _ => destruct m as [pfx| |] eqn:EP end; try discriminate. cbn [bindR] in H.
    injection H as <-.
    assert (SX : forall x c, In (x, c) sfx <-> exists s, UsableAffix Sfx flags word s /\ attaches Sfx s stem x /\ c = a_cross s).
    { intros x c. rewrite (mapR_In _ _ _ ES). split.
      - intros (a & I & E). apply (suffix_fits_spec _ _ _ WFL) in I. destruct I as [Ua (e1 & A1)].
        destruct (suffix_to_derived a stem) as [e2| |] eqn:E2; try discriminate. cbn [bindR] in E. injection E as <- <-.
        apply suffix_derived_is in E2. exists a. split; [exact Ua|]. split; [split; [exact E2|apply A1]|reflexivity].
      - intros (s & Us & [D F] & ->). exists s. split; [apply (suffix_fits_spec _ _ _ WFL); split; [exact Us|]; exists x; split; assumption|].
        apply suffix_derived_is in D. rewrite D. reflexivity. }
    assert (PX : forall mid l0 x, mapR (fun a => prefix_to_derived a stem) (filter (prefix_fits k flags mid word) (i_table (ad_prefixes A))) = Ret l0 ->
       (In x l0 <-> exists p, UsableAffix Pfx flags word p /\ fits Pfx p mid /\ (exists r, mid = strip_text p ++ r) /\ derives Pfx p stem x)).
    { intros mid l0 x E. rewrite (mapR_In _ _ _ E). split.
      - intros (a & I & D). apply (prefix_fits_spec _ _ _ WFL) in I. apply prefix_derived_is in D. exists a. tauto.
      - intros (a & I & F & R & D). exists a. split; [apply (prefix_fits_spec _ _ _ WFL); auto|apply prefix_derived_is; exact D]. }
    rewrite map_app, !in_app_iff, B. split.
    + intros [[[-> N]|S]|[C|P]].
      * constructor. exact N.
      * apply in_map_iff in S. destruct S as ([x c] & <- & S). apply SX in S. destruct S as (s & Us & At & _).
        exact (@Form_affix word stem flags Sfx s x Us At).
      * apply in_concat in C. destruct C as (l0 & C & I). apply (mapR_In _ _ _ EC) in C. destruct C as ([mid c] & IM & EL).
        cbn [fst snd] in EL. destruct c; [|injection EL as <-; destruct I].
        apply in_app_or in IM. destruct IM as [IM|IM]; [specialize (BC _ IM); discriminate|].
        apply SX in IM. destruct IM as (s & Us & At & CR). apply (PX _ _ _ EL) in I. destruct I as (p & Up & Fp & [r R] & D).
        exact (@Form_crossed word stem flags s p mid r e Us (eq_sym CR) At Up Fp R D).
      * apply (PX _ _ _ EP) in P. destruct P as (p & Up & Fp & _ & D). exact (@Form_affix word stem flags Pfx p e Up (conj D Fp)).
    + intros F. inversion F as [N|kd a e0 Ua At|s p mid rest e0 Us CR At Up Fp R D]; subst; [auto| |].
      * destruct kd.
        -- right. right. apply (PX _ _ _ EP). exists a. destruct At as [D Fa]. split; [exact Ua|]. split; [exact Fa|]. split; [|exact D].
           destruct D as (r & -> & _). eauto.
        -- left. right. apply in_map_iff. exists (e, a_cross a). split; [reflexivity|]. apply SX. eauto.
      * right. left. assert (IM : In (strip_text p ++ rest, true) (base ++ sfx)).
        { apply in_or_app. right. apply SX. exists s. auto. }
        destruct (@mapR_inv _ _ _ _ _ _ EC IM) as [l0 EL]. apply in_concat. exists l0. split; [apply (mapR_In _ _ _ EC); eauto|].
        cbn [fst snd] in EL. apply (PX _ _ _ EL). eauto 10.
Qed.

(** The expansion panics exactly when a prefix fits a suffixed form but strips text the stem does
    not start with. *)
Definition Derivable (word stem : str) (flags : flagset) : Prop :=
  forall s p mid rest, UsableAffix Sfx flags word s -> a_cross s = true -> attaches Sfx s stem mid ->
    UsableAffix Pfx flags word p -> fits Pfx p mid -> mid = strip_text p ++ rest -> exists r, stem = strip_text p ++ r.

Theorem expand_total : forall stem flags word, wf_flagset flags ->
  ((exists l, expand_stem_for_ngram k stem flags word = Ret l) <-> Derivable word stem flags).
Proof.
  intros stem flags word WFL. destruct flags as [|f0 flags0].
  { split; [|intros _; eexists; reflexivity]. intros _ s p mid rest (_ & [] & _). }
  set (flags := f0 :: flags0) in *. unfold expand_stem_for_ngram. unfold flags at 1. fold flags.
  set (base := if has_flag flags (o_need_affix opts) then [] else [(stem, false)]) in *.
  destruct (@mapR_defined _ _ (fun a => e <- suffix_to_derived a stem ;; Ret (e, a_cross a)) (filter (suffix_fits k flags stem word) (i_table (ad_suffixes A)))) as [sfx ES].
  { intros a I. apply (suffix_fits_spec _ _ _ WFL) in I. destruct I as [_ (e & D & _)]. apply suffix_derived_is in D. rewrite D. eexists. reflexivity. }
  rewrite ES. cbn [bindR].
  destruct (@mapR_defined _ _ (fun a => prefix_to_derived a stem) (filter (prefix_fits k flags stem word) (i_table (ad_prefixes A)))) as [pfx EP].
  { intros a I. apply (prefix_fits_spec _ _ _ WFL) in I. destruct I as (_ & _ & R). apply prefix_derived_total. apply starts_with_spec. exact R. }
  rewrite EP. cbn [bindR]. split.
  - intros [l H] s p mid rest Us CR At Up Fp R.
    match type of H with bindR ?m _ = _ => destruct m as [crossed| |] eqn:EC end; try discriminate.
    assert (IM : In (mid, true) (base ++ sfx)).
    { apply in_or_app. right. apply (mapR_In _ _ _ ES). exists s. split; [apply (suffix_fits_spec _ _ _ WFL); eauto|].
      destruct At as [D _]. apply suffix_derived_is in D. rewrite D, CR. reflexivity. }
    destruct (@mapR_inv _ _ _ _ _ _ EC IM) as [l0 EL]. cbn [fst snd] in EL.
    assert (IP : In p (filter (prefix_fits k flags mid word) (i_table (ad_prefixes A)))) by (apply (prefix_fits_spec _ _ _ WFL); eauto).
    pose proof (@mapR_inv _ _ _ _ _ _ EL IP) as X. apply prefix_derived_total in X. apply starts_with_spec in X. exact X.
  - intros D. match goal with |- exists l, bindR ?m _ = _ => assert (X : exists c, m = Ret c) end.
    { apply mapR_defined. intros [mid c] IM. cbn [fst snd]. destruct c; [|eauto]. apply mapR_defined. intros p IP.
      apply (prefix_fits_spec _ _ _ WFL) in IP. destruct IP as (Up & Fp & [r R]). apply prefix_derived_total. apply starts_with_spec.
      apply in_app_or in IM. destruct IM as [IM|IM].
      - unfold base in IM. destruct (has_flag flags (o_need_affix opts)); [destruct IM|destruct IM as [IM|[]]; discriminate].
      - apply (mapR_In _ _ _ ES) in IM. destruct IM as (s & I & E). apply (suffix_fits_spec _ _ _ WFL) in I. destruct I as [Us (e1 & A1)].
        destruct (suffix_to_derived s stem) as [e2| |] eqn:E2; try discriminate. cbn [bindR] in E. injection E as -> CR.
        apply suffix_derived_is in E2. exact (D s p mid r Us CR (conj E2 (proj2 A1)) Up Fp R). }
    destruct X as [c ->]. eexists. reflexivity.
Qed.
End Forms.

(** ** The whole step *)
Section Whole.
Variable hp : heaps.
Hypothesis WH : wf_heaps hp.
Variable k : checker.
Hypothesis WF : wf_checker k.
Variable words : list (str * flagset).
Hypothesis WW : Forall (fun e => wf_flagset (snd e)) words.
Notation A := (ck_aff k).
Notation opts := (ad_options (ck_aff k)).
Notation U := (ck_u k).
Notation case := (o_case (ad_options (ck_aff k))).

(** Entries the n-gram step looks at. *)
Definition Eligible (flags : flagset) : Prop :=
  ~ In (o_forbidden opts) flags /\ ~ marked (o_no_suggest opts) flags /\
  ~ marked (o_only_in_compound opts) flags /\ ~ In hidden_homonym_flag flags.
Lemma ineligible_spec : forall flags, wf_flagset flags -> (ineligible k flags = false <-> Eligible flags).
Proof.
  intros flags W. unfold ineligible, Eligible. rewrite !orb_false_iff, !contains_false, !has_flag_false by exact W. tauto.
Qed.

Definition root_score (word : str) (e : str * flagset) : Z :=
  (Z.of_nat (left_common_substring_length U case word (fst e)) +
   ngram_similarity_longer_worse 3 word (lowercase U case (fst e)))%Z.
Definition guess_score (word e : str) : Z :=
  (Z.of_nat (left_common_substring_length U case word e) +
   ngram_similarity_any_mismatch (length word) word (lowercase U case e))%Z.
Definition eligible_words : list (str * flagset) := filter (fun e => negb (ineligible k (snd e))) words.
Definition ranked_roots (word : str) : list (Z * (str * flagset)) := map (fun e => (root_score word e, e)) eligible_words.
Definition ranked_guesses (word : str) (cands : list str) : list (Z * str) :=
  filter (fun g => (threshold word <=? fst g)%Z) (map (fun e => (guess_score word e, e)) cands).

Lemma chars_str_ret : forall s r, chars_str s = Ret r -> r = s /\ (blen s <= 65535)%N.
Proof. intros s r H. unfold chars_str in H. destruct (N.leb_spec (blen s) 65535); [injection H as <-; auto|discriminate]. Qed.
Lemma chars_str_ok : forall s, (blen s <= 65535)%N -> chars_str s = Ret s.
Proof. intros s H. unfold chars_str. destruct (N.leb_spec (blen s) 65535); [reflexivity|lia]. Qed.

Lemma roots_best : forall word l all h r, hp_inv hp h -> Best 100 all h -> foldR (root_step hp k word) l h = Ret r ->
  hp_inv hp r /\
  Best 100 (all ++ map (fun e => (root_score word e, e)) (filter (fun e => negb (ineligible k (snd e))) l)) r.
Proof.
  intros word l. induction l as [|e l IH]; intros all h r I B H; cbn [foldR] in H.
  - injection H as <-. simpl. rewrite app_nil_r. auto.
  - unfold root_step at 1 in H. cbn [filter]. destruct (ineligible k (snd e)); cbn [negb]; cbn [bindR] in H; [apply (IH all h r I B H)|].
    destruct (chars_str (fst e)) as [stem| |] eqn:E1; try discriminate. cbn [bindR] in H.
    destruct (chars_str_ret _ E1) as [-> _].
    destruct (chars_str (lowercase U case (fst e))) as [low| |] eqn:E2; try discriminate. cbn [bindR] in H.
    destruct (chars_str_ret _ E2) as [-> _]. fold (root_score word e) in H.
    destruct (@push_bounded_best hp WH _ 100 all h (root_score word e, e) ltac:(lia) I B) as [I' B'].
    destruct (IH _ _ _ I' B' H) as [I2 B2]. split; [exact I2|]. rewrite <- app_assoc in B2. exact B2.
Qed.

Lemma guesses_best : forall word l all h r, hp_inv hp h -> Best 200 all h ->
  foldR (guess_step hp k word (threshold word)) l h = Ret r ->
  hp_inv hp r /\ Best 200 (all ++ ranked_guesses word l) r.
Proof.
  intros word l. induction l as [|e l IH]; intros all h r I B H; cbn [foldR] in H.
  - injection H as <-. simpl. rewrite app_nil_r. auto.
  - unfold guess_step at 1 in H. destruct (chars_str e) as [e'| |] eqn:E1; try discriminate. cbn [bindR] in H.
    destruct (chars_str_ret _ E1) as [-> _]. fold (guess_score word e) in H.
    unfold ranked_guesses. cbn [map filter fst]. fold (ranked_guesses word l).
    destruct (Z.ltb_spec (guess_score word e) (threshold word)) as [L|L].
    + destruct (Z.leb_spec (threshold word) (guess_score word e)); [lia|]. apply (IH all h r I B H).
    + destruct (Z.leb_spec (threshold word) (guess_score word e)); [|lia].
      destruct (@push_bounded_best hp WH _ 200 all h (guess_score word e, e) ltac:(lia) I B) as [I' B'].
      destruct (IH _ _ _ I' B' H) as [I2 B2]. split; [exact I2|]. rewrite <- app_assoc in B2. exact B2.
Qed.

Lemma ranked_guesses_app : forall word a b, ranked_guesses word (a ++ b) = ranked_guesses word a ++ ranked_guesses word b.
Proof. intros. unfold ranked_guesses. rewrite map_app, filter_app. reflexivity. Qed.

Notation expand word root := (expand_stem_for_ngram k (fst (snd root)) (snd (snd root)) word).
Notation guess_all word := (fun g root => expanded <- expand word root ;; foldR (guess_step hp k word (threshold word)) expanded g).

Lemma all_guesses_best : forall word (l : list (Z * (str * flagset))) all h r, hp_inv hp h -> Best 200 all h ->
  foldR (guess_all word) l h = Ret r ->
  exists ls, mapR (fun root => expand word root) l = Ret ls /\ hp_inv hp r /\ Best 200 (all ++ ranked_guesses word (concat ls)) r.
Proof.
  intros word l. induction l as [|root l IH]; intros all h r I B H; cbn [foldR] in H.
  - injection H as <-. exists []. cbn. rewrite app_nil_r. auto.
  - cbn [mapR]. destruct (expand word root) as [ex| |] eqn:E; cbn [bindR] in H; try discriminate.
    destruct (foldR (guess_step hp k word (threshold word)) ex h) as [g| |] eqn:G; cbn [bindR] in H; try discriminate.
    destruct (@guesses_best _ _ _ _ _ I B G) as [I1 B1]. destruct (IH _ _ _ I1 B1 H) as (ls & EL & I2 & B2).
    exists (ex :: ls). cbn [bindR]. rewrite EL. cbn [bindR concat]. rewrite ranked_guesses_app, app_assoc. auto.
Qed.

Lemma rescore_same : forall word l r, rescore k word l = Ret r -> map snd r = map snd l.
Proof.
  intros word l. induction l as [|[s g] l IH]; intros r H; cbn [rescore] in H.
  - injection H as <-. reflexivity.
  - destruct (chars_str (lowercase U case g)) as [low| |]; try discriminate. cbn [bindR] in H.
    destruct ((length word =? length low)%nat && _); [injection H as <-; reflexivity|].
    destruct (count_eq_at_same_pos word low) as [sp sw].
    destruct (rescore k word l) as [r'| |] eqn:E; cbn [bindR] in H; try discriminate. injection H as <-. simpl.
    rewrite (IH r' eq_refl). reflexivity.
Qed.

(** The step keeps a best hundred of the eligible entries, then a best two hundred of their forms
    that reach the threshold, sorts these by a second score, and adds some of them in this
    order: none that contains a suggestion already there. *)
Theorem ngram_suggest_spec : forall word out r, ngram_suggest hp k words word out = Ret r ->
  exists roots ls guesses final added,
    Best 100 (ranked_roots word) roots /\
    mapR (fun root => expand word root) roots = Ret ls /\
    Best 200 (ranked_guesses word (concat ls)) guesses /\
    Permutation (map snd guesses) (map snd final) /\ descending final /\
    r = out ++ added /\ Sublist added (map snd final) /\ Fresh out added /\
    (length out <= max_suggestions -> length added <= N.to_nat (o_max_ngram opts) /\ length r <= max_suggestions).
Proof.
  intros word out r H. unfold ngram_suggest in H.
  destruct (chars_str word) as [w'| |] eqn:E0; try discriminate. cbn [bindR] in H. destruct (chars_str_ret _ E0) as [-> _].
  destruct (foldR (root_step hp k word) words []) as [roots| |] eqn:E1; cbn [bindR] in H; try discriminate.
  destruct (@roots_best _ _ _ _ _ (@wh_nil _ WH _) (Best_nil _ _) E1) as [I1 B1]. simpl app in B1.
  match type of H with bindR ?m _ = _ => destruct m as [guesses| |] eqn:E2 end; cbn [bindR] in H; try discriminate.
  destruct (@all_guesses_best _ _ _ _ _ (@wh_nil _ WH _) (Best_nil _ _) E2) as (ls & EL & I2 & B2). simpl app in B2.
  destruct (rescore k word (hp_into_sorted_vec hp guesses)) as [scored| |] eqn:E3; cbn [bindR] in H; try discriminate.
  remember (Nat.min max_suggestions (length out + N.to_nat (o_max_ngram opts))) as mx eqn:EM in H.
  injection H as <-. apply rescore_same in E3. destruct (@wh_sorted_vec _ WH _ _ I2) as [P1 _].
  destruct (@wh_sort _ WH _ scored) as [P2 D2].
  set (final := hp_sort_unstable hp scored) in *.
  match goal with |- context [push_guesses k ?s ?o ?m final out] => destruct (push_guesses_is k s o m final out) as (added & EA & SB & FR & B) end.
  exists roots, ls, guesses, final, added. rewrite EA.
  split; [exact B1|]. split; [exact EL|]. split; [exact B2|]. split.
  { etransitivity; [apply Permutation_map; exact P1|]. rewrite <- E3. apply Permutation_map. exact P2. }
  split; [exact D2|]. split; [reflexivity|]. split; [exact SB|]. split; [exact FR|].
  intros L. rewrite app_length in *. unfold str in *. lia.
Qed.

(** Each addition is a form of an eligible entry. *)
Theorem ngram_adds : forall word out r, ngram_suggest hp k words word out = Ret r ->
  exists added, r = out ++ added /\ length added <= 200 /\
    Forall (fun e => exists stem flags, In (stem, flags) words /\ Eligible flags /\ Form k word stem flags e) added.
Proof.
  intros word out r H. destruct (ngram_suggest_spec _ _ H) as (roots & ls & guesses & final & added & B1 & EL & B2 & P & _ & E & SB & _).
  exists added. split; [exact E|]. split.
  - apply Sublist_length in SB. rewrite <- (Permutation_length P), map_length in SB. destruct B2 as (d & _ & L & _). lia.
  - apply Forall_forall. intros e He. apply (@Sublist_In _ _ _ e SB) in He. apply (Permutation_in e (Permutation_sym P)) in He.
    apply in_map_iff in He. destruct He as ([s e'] & Ee & He). simpl in Ee. subst e'. apply (@Best_In _ _ _ _ _ B2) in He.
    apply filter_In in He. destruct He as [He _]. apply in_map_iff in He. destruct He as (e' & Ee & He). injection Ee as _ ->.
    apply in_concat in He. destruct He as (l & Hl & He). apply (@mapR_In _ _ _ _ _ _ EL) in Hl. destruct Hl as ([sc [stem flags]] & HR & EX).
    cbn [fst snd] in EX. apply (@Best_In _ _ _ _ _ B1) in HR. apply in_map_iff in HR. destruct HR as ([st fl] & EE & HR). injection EE as _ -> ->.
    apply filter_In in HR. destruct HR as [HR HI]. cbn [snd] in HI. apply negb_true_iff in HI.
    assert (W : wf_flagset flags) by exact (proj1 (Forall_forall _ _) WW _ HR).
    exists stem, flags. split; [exact HR|]. split; [apply ineligible_spec; assumption|]. apply (@expand_spec k WF _ _ _ _ W EX). exact He.
Qed.

(** When every text fits a [CharsStr] and every form can be derived, the step returns. *)
Definition Sized (s : str) : Prop := (blen s <= 65535)%N /\ (blen (lowercase U case s) <= 65535)%N.
Definition Rankable (word : str) : Prop :=
  (blen word <= 65535)%N /\
  forall stem flags, In (stem, flags) words -> Eligible flags ->
    Sized stem /\ Derivable k word stem flags /\ forall e, Form k word stem flags e -> Sized e.

Lemma foldR_ret : forall X Y (f : X -> Y -> Res X) l s, (forall s x, In x l -> exists s', f s x = Ret s') -> exists s', foldR f l s = Ret s'.
Proof.
  intros X Y f l. induction l as [|x l IH]; intros s H; cbn [foldR]; eauto.
  destruct (H s x (or_introl eq_refl)) as [s' ->]. cbn [bindR]. apply IH. intros; apply H; right; assumption.
Qed.
Lemma rescore_ret : forall word l, Forall (fun g => Sized (snd g)) l -> exists r, rescore k word l = Ret r.
Proof.
  intros word l H. induction H as [|[s g] l HG _ IH]; cbn [rescore]; eauto.
  cbn [snd] in HG. rewrite (chars_str_ok _ (proj2 HG)). cbn [bindR]. destruct ((length word =? _)%nat && _); eauto.
  destruct (count_eq_at_same_pos _ _). destruct IH as [r ->]. eexists. reflexivity.
Qed.

Theorem ngram_total : forall word out, Rankable word -> exists r, ngram_suggest hp k words word out = Ret r.
Proof.
  intros word out [HW HR]. unfold ngram_suggest. rewrite (chars_str_ok _ HW). cbn [bindR].
  assert (EE : forall stem flags, In (stem, flags) words -> ineligible k flags = false -> wf_flagset flags /\ Sized stem /\
     Derivable k word stem flags /\ forall e, Form k word stem flags e -> Sized e).
  { intros stem flags HI EL. assert (W : wf_flagset flags) by exact (proj1 (Forall_forall _ _) WW _ HI).
    split; [exact W|]. apply HR; [exact HI|]. apply ineligible_spec; assumption. }
  destruct (@foldR_ret _ _ (root_step hp k word) words []) as [roots E1].
  { intros s [stem flags] HI. unfold root_step. cbn [fst snd]. destruct (ineligible k flags) eqn:EL; [eauto|].
    destruct (EE _ _ HI EL) as (_ & [S1 S2] & _). rewrite (chars_str_ok _ S1). cbn [bindR]. rewrite (chars_str_ok _ S2). eexists. reflexivity. }
  rewrite E1. cbn [bindR].
  destruct (@roots_best _ _ _ _ _ (@wh_nil _ WH _) (Best_nil _ _) E1) as [I1 B1]. simpl app in B1.
  assert (RR : forall root, In root roots -> exists l, expand word root = Ret l /\ Forall Sized l).
  { intros [sc [stem flags]] HI. cbn [fst snd]. apply (@Best_In _ _ _ _ _ B1) in HI. apply in_map_iff in HI. destruct HI as ([st fl] & E & HI).
    injection E as _ -> ->. apply filter_In in HI. destruct HI as [HI EL]. cbn [snd] in EL. apply negb_true_iff in EL.
    destruct (EE _ _ HI EL) as (W & _ & D & F). destruct (proj2 (@expand_total k WF stem flags word W) D) as [l E]. exists l. split; [exact E|].
    apply Forall_forall. intros e He. apply F. apply (@expand_spec k WF _ _ _ _ W E). exact He. }
  assert (G : exists guesses, foldR (guess_all word) roots [] = Ret guesses).
  { apply foldR_ret. intros g root HI. destruct (RR root HI) as (l & -> & SZ). cbn [bindR]. apply foldR_ret. intros g' e He.
    unfold guess_step. rewrite (chars_str_ok _ (proj1 (proj1 (Forall_forall _ _) SZ e He))). eexists. reflexivity. }
  destruct G as [guesses E2]. rewrite E2. cbn [bindR].
  destruct (@all_guesses_best _ _ _ _ _ (@wh_nil _ WH _) (Best_nil _ _) E2) as (ls & EL & I2 & B2). simpl app in B2.
  destruct (@rescore_ret word (hp_into_sorted_vec hp guesses)) as [scored E3].
  { apply Forall_forall. intros [s e] He. destruct (@wh_sorted_vec _ WH _ _ I2) as [P1 _]. apply (Permutation_in _ (Permutation_sym P1)) in He.
    apply (@Best_In _ _ _ _ _ B2) in He. apply filter_In in He. destruct He as [He _]. apply in_map_iff in He. destruct He as (e' & Ee & He).
    injection Ee as _ ->. apply in_concat in He. destruct He as (l & Hl & He). apply (@mapR_In _ _ _ _ _ _ EL) in Hl. destruct Hl as (root & HI & EX).
    destruct (RR root HI) as (l' & EX' & SZ). assert (l' = l) by congruence. subst l'. exact (proj1 (Forall_forall _ _) SZ e He). }
  rewrite E3. eexists. reflexivity.
Qed.
End Whole.
