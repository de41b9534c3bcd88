(** Properties C04-C09, C13, C14 and C44: the data structures under the checker.  Each
    theorem is followed by an [Example] showing a non-trivial case of its hypotheses. *)
From Coq Require Import String Ascii List NArith ZArith Lia Bool Arith Permutation Sorted.
From Verif Require Import Base Utf8 Flags Umbra Bag Condition Affix CompoundRule Conversion Parser Examples.
Import ListNotations.
Local Open Scope string_scope.
Local Open Scope list_scope.
Local Open Scope nat_scope.

(** ** C04: the word list does not depend on the hasher.  For every hasher, every placement
    of new entries and every history of insertions and in-place updates, looking a stem up
    yields exactly the values stored under that stem, with multiplicity. *)
Theorem C04_lookup_is_the_multiset :
  forall (V : Type) (hash : str -> N) (place : list (str * V) -> str * V -> list (str * V)) (visits : N -> N -> bool),
  (forall t e, Permutation (e :: t) (place t e)) -> (forall h, visits h h = true) ->
  forall (ops : list (bag_op V)) (key : str),
  Permutation (map snd (bag_get hash visits (bag_run hash place visits ops) key))
              (map snd (filter (fun e => str_eqb key (fst e)) (fold_left spec_step ops []))).
Proof. intros V hash place visits HP HV ops key. exact (@bag_refines V hash place visits HP HV ops key). Qed.

Theorem C04_nothing_of_another_stem :
  forall (V : Type) (hash : str -> N) (visits : N -> N -> bool) (t : list (str * V)) key e,
  In e (bag_get hash visits t key) -> fst e = key.
Proof.
  intros V hash visits t key e H. unfold bag_get in H. apply filter_In in H. destruct H as [_ H].
  apply str_eqb_eq in H. congruence.
Qed.

(** Two hashers give the same lookups. *)
Theorem C04_hashers_agree :
  forall (V : Type) (h1 h2 : str -> N) (p1 p2 : list (str * V) -> str * V -> list (str * V)) (v1 v2 : N -> N -> bool),
  (forall t e, Permutation (e :: t) (p1 t e)) -> (forall h, v1 h h = true) ->
  (forall t e, Permutation (e :: t) (p2 t e)) -> (forall h, v2 h h = true) ->
  forall (ops : list (bag_op V)) (key : str),
  Permutation (map snd (bag_get h1 v1 (bag_run h1 p1 v1 ops) key))
              (map snd (bag_get h2 v2 (bag_run h2 p2 v2 ops) key)).
Proof.
  intros V h1 h2 p1 p2 v1 v2 A1 A2 B1 B2 ops key.
  rewrite (@bag_refines V h1 p1 v1 A1 A2 ops key). symmetry. apply (@bag_refines V h2 p2 v2 B1 B2 ops key).
Qed.

(** A hasher that sends everything to one value, and a table kept in reverse order. *)
Example C04_example :
  let run := bag_run (fun _ => 7%N) (fun t e => e :: t) N.eqb
    [BInsert (lit "a") 1; BInsert (lit "b") 2; BInsert (lit "a") 3; BUpdate (lit "a") S] in
  map snd (bag_get (fun _ => 7%N) N.eqb run (lit "a")) = [4; 2] /\
  (forall t (e : str * nat), Permutation (e :: t) (e :: t)) /\ (forall h, N.eqb h h = true).
Proof. cbn. split; [reflexivity|]. split; [reflexivity|apply N.eqb_refl]. Qed.

Print Assumptions C04_lookup_is_the_multiset.
Print Assumptions C04_nothing_of_another_stem.
Print Assumptions C04_hashers_agree.

(** ** C05: flag sets are finite sets *)
Theorem C05_from_list : forall l, Forall (fun f => 0 < f < 65536)%N l ->
  exists fs, flagset_from l = Ret fs /\ NoDup fs /\ (forall f, In f fs <-> In f l) /\
    (forall f, contains fs f = true <-> In f l).
Proof.
  intros l H. destruct (@flagset_from_total l H) as [fs E]. exists fs.
  pose proof (@flagset_from_wf l fs E) as W. pose proof (fun x => @flagset_from_In l fs x E) as I.
  split; [exact E|]. split; [exact (wf_NoDup _ W)|]. split; [exact I|].
  intro f. rewrite (contains_spec _ f W). apply I.
Qed.

Theorem C05_queries : forall l l' fs fs', Forall (fun f => 0 < f < 65536)%N l -> Forall (fun f => 0 < f < 65536)%N l' ->
  flagset_from l = Ret fs -> flagset_from l' = Ret fs' ->
  (has_intersection fs fs' = true <-> exists f, In f l /\ In f l') /\
  (forall f, (0 < f < 65536)%N -> exists gs, with_flag fs f = Ret gs /\ NoDup gs /\
     forall g, contains gs g = true <-> g = f \/ In g l) /\
  (fs = fs' <-> forall f, In f l <-> In f l').
Proof.
  intros l l' fs fs' H H' E E'.
  pose proof (@flagset_from_wf l fs E) as W. pose proof (fun x => @flagset_from_In l fs x E) as I.
  pose proof (@flagset_from_wf l' fs' E') as W'. pose proof (fun x => @flagset_from_In l' fs' x E') as I'.
  split; [|split].
  - rewrite (has_intersection_spec _ _ W W'). split; intros [f [A B]]; exists f; split; try apply I; try apply I'; assumption.
  - intros f Hf. assert (V : Forall valid_flag fs).
    { apply Forall_forall. intros g Hg. apply I in Hg. rewrite Forall_forall in H. apply H, Hg. }
    destruct (@with_flag_spec fs f V Hf) as [gs [G1 [G2 G3]]]. exists gs. split; [exact G1|].
    split; [exact (wf_NoDup _ G2)|]. intro g. rewrite (contains_spec _ g G2), G3, I. reflexivity.
  - split.
    + intros -> f. rewrite <- I. apply I'.
    + intro S. apply sorted_perm_unique.
      * clear -W. induction W; constructor; auto. eapply Forall_impl; [|eassumption]. cbn. intros. lia.
      * clear -W'. induction W'; constructor; auto. eapply Forall_impl; [|eassumption]. cbn. intros. lia.
      * apply NoDup_Permutation; [exact (wf_NoDup _ W)|exact (wf_NoDup _ W')|]. intro f. rewrite I, I'. apply S.
Qed.

(** Ten flags given out of order and with repetitions: the binary-search branch. *)
Example C05_example : exists fs, flagset_from [9; 3; 7; 3; 65535; 1; 2; 8; 4; 6; 5]%N = Ret fs /\
  length fs = 10 /\ contains fs 7 = true /\ contains fs 10 = false /\ contains fs 65535 = true /\
  Forall (fun f => 0 < f < 65536)%N [9; 3; 7; 3; 65535; 1; 2; 8; 4; 6; 5]%N.
Proof. eexists. split; [vm_compute; reflexivity|]. repeat split; try reflexivity. repeat constructor; lia. Qed.

Print Assumptions C05_from_list.
Print Assumptions C05_queries.

(** ** C06: the compact slice type.  [P] and [Sf] are the inline prefix and suffix sizes.  A
    history is any sequence of constructions, clones and drops; [contents] replays it on
    plain lists.  No history reads freed memory, frees twice, or leaks. *)
Theorem C06_history : forall P Sf (ops : list uop), exists h vs,
  urun P Sf uinit ops = Some (h, vs) /\
  let cs := arun P Sf uinit [] ops in
  length vs = length cs /\
  (forall i u, nth_error vs i = Some (Some u) ->
     exists c, nth_error cs i = Some (Some c) /\ (N.of_nat (length c) <= 65535)%N /\ as_slice P Sf h u = Some c) /\
  (forall i j u v c d, nth_error vs i = Some (Some u) -> nth_error vs j = Some (Some v) ->
     nth_error cs i = Some (Some c) -> nth_error cs j = Some (Some d) ->
     exists b, umbra_eq P Sf h u v = Some b /\ (b = true <-> c = d)) /\
  (forall a, h a <> None -> exists i u, nth_error vs i = Some (Some u) /\ u_trail u = Ptr a).
Proof.
  intros P Sf ops. destruct (@urun_inv P Sf ops uinit [] (uinit_inv P Sf)) as [[h vs] [E I]].
  exists h, vs. split; [exact E|]. cbv zeta. destruct I as [I1 [I2 I3]]. split; [exact (Forall2_len _ _ _ _ _ I1)|].
  split; [|split].
  - intros i u Hu. destruct (Forall2_nth _ _ _ _ _ _ _ I1 Hu) as [oc [Ho Hr]].
    destruct oc as [c|]; [|destruct Hr]. exists c. split; [exact Ho|]. split.
    + apply Hr.
    + exact (as_slice_repr _ _ _ _ _ Hr).
  - intros i j u v c d Hu Hv Hc Hd.
    destruct (Forall2_nth _ _ _ _ _ _ _ I1 Hu) as [oc [Ho Hr]]. rewrite Hc in Ho. injection Ho as <-.
    destruct (Forall2_nth _ _ _ _ _ _ _ I1 Hv) as [od [Ho' Hr']]. rewrite Hd in Ho'. injection Ho' as <-.
    exists (str_eqb c d). split; [exact (umbra_eq_repr _ _ _ _ _ _ _ Hr Hr')|apply str_eqb_eq].
  - intros a Ha. destruct (I3 a Ha) as [i [u [Hu Ho]]]. exists i, u. split; [exact Hu|].
    unfold owned in Ho. destruct (u_trail u); congruence.
Qed.

Theorem C06_store : forall P Sf h a src,
  ((N.of_nat (length src) <= 65535)%N -> exists h' u, try_from P Sf h a src = Some (h', u) /\ as_slice P Sf h' u = Some src) /\
  ((65535 < N.of_nat (length src))%N -> try_from P Sf h a src = None).
Proof.
  intros P Sf h a src. split; intro H.
  - destruct (@try_from_repr P Sf h a src) as [h' [u [E [R _]]]]; [exact H|]. exists h', u.
    split; [exact E|exact (as_slice_repr _ _ _ _ _ R)].
  - apply try_from_long. exact H.
Qed.

(** One inline and one heap value, a clone of each, and a drop of the original. *)
Example C06_example :
  match urun 3 4 uinit [ONew [1;2;3;4]%N 0; ONew [1;2;3;4;5;6;7;8;9]%N 0; OClone 1 1; OClone 0 9; ODrop 1; OClone 2 0] with
  | Some (h, vs) =>
      map (option_map (as_slice 3 4 h)) vs =
        [Some (Some [1;2;3;4]%N); None; Some (Some [1;2;3;4;5;6;7;8;9]%N); Some (Some [1;2;3;4]%N);
         Some (Some [1;2;3;4;5;6;7;8;9]%N)] /\
      arun 3 4 uinit [] [ONew [1;2;3;4]%N 0; ONew [1;2;3;4;5;6;7;8;9]%N 0; OClone 1 1; OClone 0 9; ODrop 1; OClone 2 0] =
        [Some [1;2;3;4]%N; None; Some [1;2;3;4;5;6;7;8;9]%N; Some [1;2;3;4]%N; Some [1;2;3;4;5;6;7;8;9]%N]
  | None => False
  end.
Proof. vm_compute. split; reflexivity. Qed.

Print Assumptions C06_history.
Print Assumptions C06_store.

(** ** C07: the affix index.  [rules] are the rules of the .aff file; [table] is whatever
    arrangement of them the unstable sort produces. *)
Definition carries_text (k : kind) (a : affix) (w : str) : Prop :=
  match k with Pfx => exists r, w = a_add a ++ r | Sfx => exists r, w = r ++ a_add a end.

Theorem C07_index_finds_exactly : forall k rules table,
  Permutation rules table -> sorted_by_key k table ->
  Forall (fun a => Forall (fun f => 0 < f < 65536)%N (a_flags a)) rules -> Forall (fun a => scalars (a_add a)) rules ->
  exists idx, index_of_sorted k table = Ret idx /\
  forall w, scalars w -> exists found others, affixes_of k idx w = Ret found /\
    Permutation rules (found ++ others) /\
    Forall (fun a => carries_text k a w) found /\ Forall (fun a => ~ carries_text k a w) others.
Proof.
  intros k rules table HP HS HF HA.
  assert (HF' : Forall (fun a => Forall valid_flag (a_flags a)) table) by (eapply Permutation_Forall; eassumption).
  assert (HA' : Forall (fun a => scalars (a_add a)) table) by (eapply Permutation_Forall; eassumption).
  destruct (@index_of_sorted_total k table HS HF') as [idx [E [E1 [E2 [E3 E4]]]]].
  exists idx. split; [exact E|]. intros w Hw.
  assert (WF : index_wf k idx). { unfold index_wf. rewrite E1. split; [exact HS|]. split; [exact E2|]. split; [exact HA'|]. split; [exact E3|exact E4]. }
  exists (filter (fun a => applies k a w) table), (filter (fun a => negb (applies k a w)) table).
  assert (AP : forall a, applies k a w = true <-> carries_text k a w).
  { intro a. unfold applies, carries_text. destruct k; [apply starts_with_spec|apply ends_with_spec]. }
  split; [rewrite <- E1; exact (affixes_of_spec WF Hw)|]. split; [|split].
  - etransitivity; [exact HP|]. clear. induction table as [|a t IH]; [reflexivity|]. cbn.
    destruct (applies k a w); cbn; [constructor; exact IH|].
    etransitivity; [constructor; exact IH|]. apply Permutation_middle.
  - apply Forall_forall. intros a Ha. apply filter_In in Ha. apply AP, Ha.
  - apply Forall_forall. intros a Ha. apply filter_In in Ha. destruct Ha as [_ Ha]. rewrite <- AP.
    destruct (applies k a w); [discriminate|congruence].
Qed.

(** Rules with equal, nested, empty and multi-byte texts. *)
Definition ex_rule (add : str) : affix := mkAffix 83 true None add None [].
Example C07_example :
  let rules := map ex_rule [lit "s"; lit "ies"; [233%N; 115%N]; []; lit "s"; lit "es"; [233%N]] in
  let table := sort_by (affix_leb Sfx) rules in
  Permutation rules table /\ sorted_by_key Sfx table /\
  match index_of_sorted Sfx table with
  | Ret idx => (r <- affixes_of Sfx idx (lit "tries") ;; Ret (map a_add r)) = Ret [[]; lit "s"; lit "s"; lit "es"; lit "ies"] /\
               (r <- affixes_of Sfx idx [99%N; 233%N; 115%N] ;; Ret (map a_add r)) = Ret [[]; lit "s"; lit "s"; [233%N; 115%N]]
  | _ => False
  end.
Proof.
  cbv zeta. split; [apply sort_by_perm|]. split.
  - apply sort_by_sorted; [intros x y; apply lex_leb_total|intros x y z; apply lex_leb_trans].
  - vm_compute. split; reflexivity.
Qed.
Print Assumptions C07_index_finds_exactly.

(** ** C08: conditions.  [Reads s es] says that the text [s] reads as the elements [es]. *)
Theorem C08_condition_matches : forall s c, cond_from_str s = Ret (Ok c) ->
  exists es, s = celems_text es /\ Forall celem_ok es /\
  (forall es', Forall celem_ok es' -> s = celems_text es' -> es' = es) /\
  forall w,
    (prefix_condition_matches (Some c) w = true <-> exists u v, w = u ++ v /\ Forall2 celem_accepts es u) /\
    (suffix_condition_matches (Some c) w = true <-> exists u v, w = u ++ v /\ Forall2 celem_accepts es v).
Proof.
  intros s c H. apply cond_from_str_spec in H. destruct H as [es [H1 [H2 H3]]]. exists es.
  split; [exact H2|]. split; [exact H1|]. split.
  - intros es' K1 K2. apply celems_text_inj; [exact K1|exact H1|congruence].
  - intro w. assert (D : cond_denotes c es) by (split; [exact H1|congruence]). split.
    + exact (prefix_condition_spec w D).
    + exact (suffix_condition_spec w D).
Qed.

Example C08_example : exists c, cond_from_str (lit "[^aeiou]y.") = Ret (Ok c) /\
  lit "[^aeiou]y." = celems_text [CClass true (lit "aeiou"); CLit 121; CAny] /\
  suffix_condition_matches (Some c) (lit "trys") = true /\
  suffix_condition_matches (Some c) (lit "boys") = false /\
  prefix_condition_matches (Some c) (lit "rys") = true /\
  prefix_condition_matches (Some c) (lit "trys") = false.
Proof. eexists. split; [vm_compute; reflexivity|]. repeat split; vm_compute; reflexivity. Qed.
Print Assumptions C08_condition_matches.

(** ** C44: which condition texts are accepted *)
Theorem C44_parse_exactly : forall s,
  (exists r, cond_from_str s = Ret r) /\
  ((exists c, cond_from_str s = Ret (Ok c)) <-> exists es, Forall celem_ok es /\ s = celems_text es) /\
  (forall c es, cond_from_str s = Ret (Ok c) -> Forall celem_ok es -> s = celems_text es -> c_chars c = length es).
Proof.
  intro s. split; [apply cond_from_str_total|]. split; [split|].
  - intros [c H]. apply cond_from_str_spec in H. destruct H as [es [H1 [H2 _]]]. exists es. split; assumption.
  - intros [es [H1 H2]]. eexists. apply cond_from_str_spec. exists es. split; [exact H1|]. split; [exact H2|reflexivity].
  - intros c es H K1 K2. apply cond_from_str_spec in H. destruct H as [es' [H1 [H2 H3]]].
    rewrite H3. cbn. f_equal. apply celems_text_inj; [exact H1|exact K1|congruence].
Qed.
Example C44_example :
  cond_from_str (lit "a[]b") = Ret (Err EmptyCharacterClass) /\ cond_from_str (lit "a[^]") = Ret (Err EmptyCharacterClass) /\
  cond_from_str (lit "a]") = Ret (Err UnopenedCharacterClass) /\ cond_from_str (lit "[ab") = Ret (Err UnclosedCharacterClass) /\
  exists c, cond_from_str (lit "a.[^bc]") = Ret (Ok c) /\ c_chars c = 3.
Proof. repeat split; try (vm_compute; reflexivity). eexists. split; vm_compute; reflexivity. Qed.
Print Assumptions C44_parse_exactly.

(** ** C09: stripping and deriving are inverse *)
Theorem C09_derive_then_strip : forall a stem rest,
  (stem = strip_text a ++ rest -> exists w, prefix_to_derived a stem = Ret w /\ w = a_add a ++ rest /\ prefix_to_stem a w = stem) /\
  (stem = rest ++ strip_text a -> exists w, suffix_to_derived a stem = Ret w /\ w = rest ++ a_add a /\ suffix_to_stem a w = stem).
Proof.
  intros a stem rest. split; intro H.
  - destruct (proj2 (@prefix_derived_total a stem)) as [w E]; [apply starts_with_spec; eauto|].
    exists w. split; [exact E|]. destruct (@prefix_strip_derive a stem w E) as [_ K]. split; [|exact K].
    unfold prefix_to_derived, strip_text in *. destruct (a_strip a) as [s|].
    + destruct (strip_prefix s stem) eqn:F; [|discriminate]. apply strip_prefix_spec in F.
      injection E as <-. f_equal. subst stem. exact (eq_sym (app_inv_head _ _ _ F)).
    + injection E as <-. subst stem. reflexivity.
  - destruct (proj2 (@suffix_derived_total a stem)) as [w E]; [apply ends_with_spec; eauto|].
    exists w. split; [exact E|]. destruct (@suffix_strip_derive a stem w E) as [_ K]. split; [|exact K].
    unfold suffix_to_derived, strip_text in *. destruct (a_strip a) as [s|].
    + destruct (strip_suffix s stem) eqn:F; [|discriminate]. apply strip_suffix_spec in F.
      injection E as <-. f_equal. subst stem. exact (eq_sym (app_inv_tail _ _ _ F)).
    + injection E as <-. subst stem. rewrite app_nil_r. reflexivity.
Qed.

Theorem C09_strip_then_derive : forall a word rest,
  (word = a_add a ++ rest -> prefix_to_stem a word = strip_text a ++ rest /\ prefix_to_derived a (prefix_to_stem a word) = Ret word) /\
  (word = rest ++ a_add a -> suffix_to_stem a word = rest ++ strip_text a /\ suffix_to_derived a (suffix_to_stem a word) = Ret word).
Proof.
  intros a word rest. split; intro H.
  - split.
    + subst word. unfold prefix_to_stem, strip_text. rewrite skipn_app_exact by reflexivity. destruct (a_strip a); reflexivity.
    + apply prefix_derive_strip. apply starts_with_spec. eauto.
  - split.
    + subst word. unfold suffix_to_stem, strip_text. rewrite app_length.
      replace (length rest + length (a_add a) - length (a_add a)) with (length rest) by lia.
      rewrite firstn_app_exact by reflexivity. destruct (a_strip a); [reflexivity|symmetry; apply app_nil_r].
    + apply suffix_derive_strip. apply ends_with_spec. eauto.
Qed.
Example C09_example : let a := mkAffix 83 true (Some (lit "y")) (lit "ies") None [] in
  lit "try" = lit "tr" ++ strip_text a /\ suffix_to_derived a (lit "try") = Ret (lit "tries") /\
  suffix_to_stem a (lit "tries") = lit "try".
Proof. repeat split; vm_compute; reflexivity. Qed.
Print Assumptions C09_derive_then_strip.
Print Assumptions C09_strip_then_derive.

(** ** C13: character conversion.  An entry whose pattern ends in an underscore applies
    only at the end of the text.  [sorted] is whatever arrangement of the entries the
    unstable sort produces. *)
Definition Reads (p : str * str) (c : conversion) : Prop :=
  cv_to c = snd p /\
  ((cv_anchor c = true /\ fst p = cv_from c ++ [95%N]) \/
   (cv_anchor c = false /\ fst p = cv_from c /\ forall r, fst p <> r ++ [95%N])).

Lemma conv_entry_reads : forall p, Reads p (conv_entry p).
Proof.
  intros p. unfold conv_entry, Reads. destruct (strip_suffix [95%N] (fst p)) as [f|] eqn:E; cbn.
  - split; [reflexivity|]. left. split; [reflexivity|apply strip_suffix_spec, E].
  - split; [reflexivity|]. right. split; [reflexivity|]. split; [reflexivity|]. intros r Hr.
    apply strip_suffix_spec in Hr. congruence.
Qed.

Theorem C13_leftmost_longest : forall pairs sorted w,
  Forall (fun p => scalars (fst p)) pairs -> Permutation (map conv_entry pairs) sorted -> sorted_conv sorted -> scalars w ->
  exists out entries, convert (conv_of_sorted (map conv_entry pairs) sorted) w = Ret out /\
    Forall2 Reads pairs entries /\ Converts entries w out /\
    ((forall c u v, In c entries -> w = u ++ v -> ~ usable c v) -> out = w).
Proof.
  intros pairs sorted w HS HP HO HW.
  destruct (@convert_spec _ w (@conv_of_sorted_ok pairs sorted HS HP HO) HW) as [out [E C]].
  exists out, (map conv_entry pairs). split; [exact E|]. split; [|split].
  - clear. induction pairs as [|p l IH]; cbn; constructor; [apply conv_entry_reads|exact IH].
  - eapply Converts_incl; [|exact C]. intro c. cbn. split; intro H; eapply Permutation_in; try eassumption.
    apply Permutation_sym. exact HP.
  - intro H. eapply Converts_unused; [exact C|]. intros c u v Hc. apply H.
    eapply Permutation_in; [apply Permutation_sym; exact HP|exact Hc].
Qed.

(** When no two entries share a pattern but differ in replacement the result is unique. *)
Theorem C13_deterministic : forall entries w a b,
  (forall c c', In c entries -> In c' entries -> cv_from c = cv_from c' -> cv_to c = cv_to c') ->
  Converts entries w a -> Converts entries w b -> a = b.
Proof. exact Converts_det. Qed.

Example C13_example :
  let pairs := [(lit "a", lit "1"); (lit "ab", lit "2"); (lit "b_", lit "3"); ([233%N], lit "e")] in
  let sorted := sort_by conv_leb (map conv_entry pairs) in
  Permutation (map conv_entry pairs) sorted /\ sorted_conv sorted /\
  convert (conv_of_sorted (map conv_entry pairs) sorted) (lit "abacbxb") = Ret (lit "21cbx3") /\
  convert (conv_of_sorted (map conv_entry pairs) sorted) [99%N; 233%N] = Ret (lit "ce").
Proof.
  cbv zeta. split; [apply sort_by_perm|]. split.
  - apply sort_by_sorted; [intros x y; apply lex_leb_total|intros x y z; apply lex_leb_trans].
  - split; vm_compute; reflexivity.
Qed.
Print Assumptions C13_leftmost_longest.
Print Assumptions C13_deterministic.

(** ** C14: a rule matches exactly its regular language *)
Theorem C14_regular_language : forall pattern data, Forall (fun fs => exists l, flagset_from l = Ret fs) data ->
  exists b, compound_rule_matches pattern data = Ret b /\ (b = true <-> rule_lang pattern data).
Proof.
  intros pattern data H. apply compound_rule_matches_spec. eapply Forall_impl; [|exact H].
  intros fs [l E]. exact (@flagset_from_wf l fs E).
Qed.

Theorem C14_any_rule : forall t data, Forall (fun fs => exists l, flagset_from l = Ret fs) data ->
  exists b, any_rule_matches t data = Ret b /\ (b = true <-> exists r, In r (rt_rules t) /\ rule_lang r data).
Proof.
  intros t data H. apply any_rule_matches_spec. eapply Forall_impl; [|exact H].
  intros fs [l E]. exact (@flagset_from_wf l fs E).
Qed.

(** The pattern a*b?a: the greedy star has to give one element back. *)
Example C14_example :
  let r := [mkRuleElem 97 (Some ZeroOrMore); mkRuleElem 98 (Some ZeroOrOne); mkRuleElem 97 None] in
  Forall (fun fs => exists l, flagset_from l = Ret fs) [[97]; [97; 98]; [97]]%N /\
  compound_rule_matches r [[97]; [97; 98]; [97]]%N = Ret true /\
  compound_rule_matches r [[97]; [98]; [98]; [97]]%N = Ret false /\
  rule_lang r [[97]; [97; 98]; [97]]%N.
Proof.
  cbv zeta. split; [|split; [vm_compute; reflexivity|split; [vm_compute; reflexivity|]]].
  - repeat constructor; [exists [97%N]|exists [98; 97]%N|exists [97%N]]; vm_compute; reflexivity.
  - assert (H : Forall wf_flagset [[97]; [97; 98]; [97]]%N) by (repeat constructor).
    destruct (@compound_rule_matches_spec
      [mkRuleElem 97 (Some ZeroOrMore); mkRuleElem 98 (Some ZeroOrOne); mkRuleElem 97 None] _ H) as [b [E K]].
    apply K. vm_compute in E. congruence.
Qed.
Print Assumptions C14_regular_language.
Print Assumptions C14_any_rule.
