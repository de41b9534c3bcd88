(** Properties C52 and C53: the .dic text, exactly, and what does not matter in it. *)
From Coq Require Import String Ascii List NArith ZArith Lia Bool Arith Permutation.
From Verif Require Import Base Utf8 Unicode Flags Bag Condition Affix Conversion Aff Checker AffixSpec CompoundRule Rep CompoundSpec
  CompoundTotal RuleCompound Spell CheckSpec CheckMono CheckProps Parser ParserSafe Lib LibSpec LibProps ParserProps TableProps Grammar DicGrammar
  Examples Properties_Affix Properties_Compound Properties_Check Properties_Grammar Properties_Dict.
Import ListNotations.
Local Open Scope string_scope.
Local Open Scope list_scope.
Local Open Scope nat_scope.
Set Implicit Arguments.

Section Dict.
Variable pl : platform.
Hypothesis WP : wf_platform pl.
Notation U := (pl_unicode pl).

Lemma new_texts : forall aff dic d, scalars aff -> scalars dic ->
  (new pl aff dic = Ret (Ok d) <->
   exists x es, lp_ok x /\ Text pl (aff_words pl aff) default_lp x /\ DicText pl x dic es /\ d_words d = insert_all pl [] es /\ collect pl x = Ret (d_aff d)).
Proof.
  intros aff dic d Ha Hd. split.
  - intro H. destruct (@new_ok pl aff dic d Ha H) as (x & LP & E1 & E2 & E3). apply parse_dic_exact in E2; [|exact LP|exact Hd].
    destruct E2 as (es & D & E). exists x, es. split; [exact LP|]. split; [apply parse_aff_exact; assumption|]. auto.
  - intros (x & es & LP & T & D & E & C). apply new_cases; [exact Ha|]. exists x. split; [apply parse_aff_exact; assumption|]. split; [|exact C].
    apply parse_dic_exact; eauto.
Qed.

Lemma text_ok : forall aff x, scalars aff -> Text pl (aff_words pl aff) default_lp x -> parse_aff pl aff = Ret (Ok x) /\ lp_ok x.
Proof.
  intros aff x Ha T. apply parse_aff_exact in T; [|exact Ha]. split; [exact T|]. pose proof (parse_aff_safe pl Ha) as S1. rewrite T in S1. exact S1.
Qed.

(** ** C52 *)
(** The loader returns a dictionary exactly when both texts are in their grammars. *)
Theorem C52_loads_exactly : forall aff dic, scalars aff -> scalars dic ->
  ((exists d, new pl aff dic = Ret (Ok d)) <->
   exists x es, Text pl (aff_words pl aff) default_lp x /\ DicText pl x dic es).
Proof.
  intros aff dic Ha Hd. split.
  - intros (d & H). apply new_texts in H; try assumption. destruct H as (x & es & _ & T & D & _). eauto.
  - intros (x & es & T & D). destruct (text_ok Ha T) as [E LP]. destruct (@collect_ok pl (wp_sort_affixes WP) x LP) as (a & C & _).
    exists (mkDict (insert_all pl [] es) a). apply new_texts; try assumption. exists x, es. auto 6.
Qed.

(** And the entries of the dictionary are the ones the text lists, each as often. *)
Theorem C52_entries : forall aff dic d, scalars aff -> scalars dic -> new pl aff dic = Ret (Ok d) ->
  exists x, Text pl (aff_words pl aff) default_lp x /\ (exists es, DicText pl x dic es) /\
    (forall es, DicText pl x dic es -> Permutation es (d_words d)) /\
    (forall es, DicText pl x dic es -> forall w f, listed d w f <-> In (w, f) es).
Proof.
  intros aff dic d Ha Hd H. apply new_texts in H; try assumption. destruct H as (x & es & LP & T & D & E & _).
  assert (P : forall es', DicText pl x dic es' -> Permutation es' (d_words d)).
  { intros es' D'. assert (Q : parse_dic pl x dic = Ret (Ok (insert_all pl [] es'))) by (apply parse_dic_exact; eauto).
    assert (Q' : parse_dic pl x dic = Ret (Ok (insert_all pl [] es))) by (apply parse_dic_exact; eauto).
    rewrite Q in Q'. injection Q' as Q'. rewrite E, <- Q'. rewrite <- (insert_all_perm WP es' []), app_nil_r. reflexivity. }
  exists x. split; [exact T|]. split; [eauto|]. split; [exact P|].
  intros es' D' w f. unfold listed. specialize (P _ D'). split; intro I; [eapply Permutation_in; [symmetry; exact P|exact I]|eapply Permutation_in; eassumption].
Qed.

(** ** C53 *)
(** The lines of the list that say something, without the blanks around them. *)
Definition tells (m : str) : bool :=
  match m with [] => false | c :: r => negb ((c =? 47)%N && match r with [] => false | _ :: _ => true end) end.
Definition telling (ls : list str) : list str :=
  filter tells
    (map (trim pl) (filter (fun l => negb (is_comment pl l)) ls)).

(** A file: comments, a line that begins with a number, the other lines. *)
Definition File (ls : list str) (t : str) : Prop :=
  exists cs h w ws n, Ended (cs ++ h :: ls) t /\ hd 0%N t <> 65279%N /\ Forall (fun l => is_comment pl l = true) cs /\ is_comment pl h = false /\
    split_whitespace pl h = w :: ws /\ Decimal w n /\ (n <= 18446744073709551615)%N.

Lemma plain_comments : forall cs r, Forall (fun l => is_comment pl l = true) cs ->
  filter (fun l => negb (is_comment pl l)) (cs ++ r) = filter (fun l => negb (is_comment pl l)) r.
Proof. induction cs as [|c cs IH]; intros r H; [reflexivity|]. inversion H as [|? ? H1 H2]; subst. cbn [app filter]. rewrite H1. apply IH, H2. Qed.

Lemma strip_marked : forall bom t, hd 0%N t <> 65279%N ->
  match strip_prefix [65279%N] (marked bom t) with Some u => u | None => marked bom t end = t.
Proof.
  intros bom t H. destruct bom; unfold marked; cbn [strip_prefix]; [reflexivity|].
  destruct t as [|c t]; [reflexivity|]. cbn [hd] in H. cbn [strip_prefix]. destruct (N.eqb_spec 65279 c) as [X|X]; [congruence|reflexivity].
Qed.

Lemma file_text : forall ls t bom x es, File ls t ->
  (DicText pl x (marked bom t) es <-> DicEntries pl x (filter (fun l => negb (is_comment pl l)) ls) es).
Proof.
  intros ls t bom x es (cs & h & w & q & n & E & NB & C & NC & W & D & L). unfold DicText, plain_lines.
  rewrite strip_marked by exact NB. apply ended_lines in E. rewrite E, plain_comments by exact C. cbn [filter]. rewrite NC. cbn [negb]. split.
  - intros (l & r & w' & q' & n' & Q & _ & _ & _ & H). injection Q as _ <-. exact H.
  - intro H. exists h, (filter (fun l => negb (is_comment pl l)) ls), w, q, n. auto 6.
Qed.

Lemma entries_telling : forall x ls ls' es,
  filter tells (map (trim pl) ls) =
  filter tells (map (trim pl) ls') ->
  DicEntries pl x ls es -> DicEntries pl x ls' es.
Proof.
  intro x. 
  assert (SILENT : forall l, tells (trim pl l) = false -> forall es, DicEntries pl x [l] es <-> es = []).
  { intros l H es. rewrite de_adds. unfold tells in H. destruct (trim pl l) as [|c [|d r]].
    - split; [intros [[_ E]|[[_ E]|(X & _)]]; [exact E|exact E|congruence]|auto].
    - rewrite andb_false_r in H. discriminate H.
    - destruct (N.eqb_spec c 47) as [-> |]; [|discriminate H]. split; [intros [[_ E]|[[_ E]|(_ & X & _)]]; [exact E|exact E|exfalso; eapply X; reflexivity]|]. intros ->. right. left. eauto. }
  assert (SAME : forall l l' es, trim pl l = trim pl l' -> DicEntries pl x [l] es -> DicEntries pl x [l'] es).
  { intros l l' es E. rewrite !de_adds, E. auto. }
  assert (DROP : forall ls es, filter tells (map (trim pl) ls) = [] -> (DicEntries pl x ls es <-> es = [])).
  { induction ls as [|l ls IH]; intros es H; [apply de_nil|]. cbn [map filter] in H. destruct (tells (trim pl l)) eqn:E; [discriminate H|].
    rewrite de_cons. split.
    - intros (e1 & e2 & -> & D1 & D2). apply SILENT in D1; [|exact E]. apply IH in D2; [|exact H]. subst. reflexivity.
    - intros ->. exists [], []. split; [reflexivity|]. split; [apply SILENT; auto|apply IH; auto]. }
  induction ls as [|l ls IH]; intros ls' es H D.
  - apply de_nil in D. subst es. apply DROP; [symmetry; exact H|reflexivity].
  - cbn [map filter] in H. apply de_cons in D. destruct D as (e1 & e2 & -> & D1 & D2). destruct (tells (trim pl l)) eqn:E.
    + revert H. induction ls' as [|l' ls' IH']; intro H; [discriminate H|]. cbn [map filter] in H. apply de_cons.
      destruct (tells (trim pl l')) eqn:E'.
      * injection H as H1 H2. exists e1, e2. split; [reflexivity|]. split; [eapply SAME; eassumption|apply IH; assumption].
      * exists [], (e1 ++ e2). split; [reflexivity|]. split; [apply SILENT; auto|apply IH', H].
    + apply SILENT in D1; [|exact E]. subst e1. apply IH; assumption.
Qed.

(** Comments, blank lines, lines that begin with a slash, blanks around a line, line endings,
    a byte order mark and the number on the first line do not matter. *)
Theorem C53_layout : forall aff ls ls' t t' bom bom' d, scalars aff -> scalars t -> scalars t' ->
  File ls t -> File ls' t' -> telling ls = telling ls' ->
  (new pl aff (marked bom t) = Ret (Ok d) <-> new pl aff (marked bom' t') = Ret (Ok d)).
Proof.
  intros aff ls ls' t t' bom bom' d Ha Ht Ht' F F' E.
  assert (B : forall b u, scalars u -> scalars (marked b u)).
  { intros b u H. destruct b; [constructor; [vm_compute; reflexivity|exact H]|exact H]. }
  rewrite !new_texts by auto. split; intros (x & es & LP & T & D & R); exists x, es; (split; [exact LP|]); (split; [exact T|]); (split; [|exact R]);
    (eapply file_text; [eassumption|]); (eapply file_text in D; [|eassumption]); (eapply entries_telling; [|exact D]); [exact E|symmetry; exact E].
Qed.

(** Nor does the order of the lines, when no word is listed twice with different flags. *)
Theorem C53_order : forall aff ls ls' t t' bom bom' d, scalars aff -> scalars t -> scalars t' ->
  File ls t -> File ls' t' -> Permutation (telling ls) (telling ls') ->
  new pl aff (marked bom t) = Ret (Ok d) -> (forall w f1 f2, listed d w f1 -> listed d w f2 -> f1 = f2) ->
  exists d', new pl aff (marked bom' t') = Ret (Ok d') /\ d_aff d' = d_aff d /\ Permutation (d_words d) (d_words d') /\
    forall lt lu fuel w, check (checker_of pl d lt lu) fuel w = check (checker_of pl d' lt lu) fuel w.
Proof.
  intros aff ls ls' t t' bom bom' d Ha Ht Ht' F F' P H HOM.
  assert (B : forall b u, scalars u -> scalars (marked b u)).
  { intros b u X. destruct b; [constructor; [vm_compute; reflexivity|exact X]|exact X]. }
  apply new_texts in H; [|exact Ha|auto]. destruct H as (x & es & LP & T & D & E & C).
  apply (@file_text ls t bom x es F) in D.
  assert (TT : forall l es, DicEntries pl x (filter (fun l => negb (is_comment pl l)) l) es <-> DicEntries pl x (telling l) es).
  { intros l e. unfold telling. set (g := filter (fun l => negb (is_comment pl l)) l).
    assert (TR : map (trim pl) (filter tells (map (trim pl) g)) = filter tells (map (trim pl) g)).
    { rewrite <- map_id. apply map_ext_in. intros m I. apply filter_In in I. destruct I as [I _]. apply in_map_iff in I. destruct I as (q & <- & _).
      symmetry. apply trimmed_spec. exists [], []. rewrite app_nil_r. split; [reflexivity|]. split; [constructor|]. split; [constructor|].
      assert (Q : Trimmed pl q (trim pl q)) by (apply trimmed_spec; reflexivity). destruct Q as (? & ? & _ & _ & _ & Q). exact Q. }
    assert (FF : filter tells (map (trim pl) (filter tells (map (trim pl) g))) = filter tells (map (trim pl) g)).
    { rewrite TR. clear. induction (map (trim pl) g) as [|a r IH]; [reflexivity|]. cbn [filter]. destruct (tells a) eqn:Q; [cbn [filter]; rewrite Q, IH; reflexivity|exact IH]. }
    split; apply entries_telling; [symmetry; exact FF|exact FF]. }
  apply TT in D.
  assert (PE : forall a b, Permutation a b -> forall es, DicEntries pl x a es -> exists es', DicEntries pl x b es' /\ Permutation es es').
  { induction 1 as [|l a b _ IH|l l' a|a b c _ IH1 _ IH2]; intros e DE.
    - exists e. auto.
    - apply de_cons in DE. destruct DE as (e1 & e2 & -> & D1 & D2). destruct (IH _ D2) as (e3 & D3 & P3).
      exists (e1 ++ e3). split; [apply de_cons; eauto|apply Permutation_app_head, P3].
    - apply de_cons in DE. destruct DE as (e1 & e2 & -> & D1 & D2). apply de_cons in D2. destruct D2 as (e3 & e4 & -> & D3 & D4).
      exists (e3 ++ e1 ++ e4). split; [apply de_cons; exists e3, (e1 ++ e4); split; [reflexivity|]; split; [exact D3|apply de_cons; eauto]|].
      rewrite !app_assoc. apply Permutation_app_tail, Permutation_app_comm.
    - destruct (IH1 _ DE) as (e1 & D1 & P1). destruct (IH2 _ D1) as (e2 & D2 & P2). exists e2. split; [exact D2|]. etransitivity; eassumption. }
  destruct (PE _ _ P _ D) as (es' & D' & PP). apply TT in D'. apply (@file_text ls' t' bom' x es' F') in D'.
  assert (PW : Permutation (d_words d) (insert_all pl [] es')).
  { rewrite E, <- !(insert_all_perm WP), !app_nil_r. exact PP. }
  exists (mkDict (insert_all pl [] es') (d_aff d)). split; [apply new_texts; auto; exists x, es'; auto 6|]. split; [reflexivity|]. split; [exact PW|].
  apply C46_order_irrelevant; try assumption; reflexivity.
Qed.
(** ** C42 *)
(** The loader answers, with a dictionary or an error, unless the option text is good and the
    word list is good up to a line whose title-cased form needs more than 65535 bytes. *)
Theorem C42_panics_exactly : forall aff dic, scalars aff -> scalars dic ->
  (exists r, new pl aff dic = Ret r) /\ (forall x, Text pl (aff_words pl aff) default_lp x -> ~ DicOutgrown pl x dic) \/
  new pl aff dic = Panic /\ (exists x, Text pl (aff_words pl aff) default_lp x /\ DicOutgrown pl x dic).
Proof.
  intros aff dic Ha Hd. pose proof (parse_aff_safe pl Ha) as SA. unfold new, parse.
  destruct (parse_aff pl aff) as [[x|e]| |] eqn:E1; cbn in SA; try contradiction; cbn [bindP].
  - destruct (@parse_dic_panics pl x dic SA Hd) as [[(r & E2) NO]|[E2 O]]; rewrite E2.
    + left. split.
      * destruct r as [t|e]; cbn [bindP]; [|eexists; reflexivity]. destruct (@collect_ok pl (wp_sort_affixes WP) x SA) as (a & -> & _). eexists. reflexivity.
      * intros x' T. apply text_ok in T; [|exact Ha]. destruct T as [T _]. rewrite E1 in T. injection T as <-. exact NO.
    + right. split; [reflexivity|]. exists x. split; [|exact O]. apply parse_aff_exact; assumption.
  - left. split; [eexists; reflexivity|]. intros x T. apply text_ok in T; [|exact Ha]. destruct T as [T _]. congruence.
Qed.

End Dict.

(** ** Examples *)
Definition dg_aff : str := lit "FORBIDDENWORD !
IGNORE -".
Definition dg_dic : str := lit "# a list
5 or so
word/ AB
two words/ AB
a\/b/C
/commented/A
  McDo-nald/A po:noun

co-op ph:coop
".
Definition dg_entries : list (str * flagset) :=
  [(lit "word", [65; 66]%N); (lit "two words", []); (lit "a/b", [67%N]);
   (lit "Mcdonald", [65; hidden_homonym_flag]%N); (lit "McDonald", [65%N]); (lit "coop", [])].
Ltac plain_entry l := eapply DE_plain; [apply trimmed_spec; reflexivity|discriminate|discriminate|
    apply dic_line_exact; [apply (@lit_scalars l); vm_compute; reflexivity|vm_compute; reflexivity]|
    let X := fresh in intro X; apply hides_spec in X; [discriminate X|repeat constructor]|].
Example C52_example : exists d x, new ex_pl dg_aff dg_dic = Ret (Ok d) /\ Text ex_pl (aff_words ex_pl dg_aff) default_lp x /\
  DicText ex_pl x dg_dic dg_entries /\ Permutation dg_entries (d_words d).
Proof.
  assert (Sa : scalars dg_aff) by (apply lit_scalars; vm_compute; reflexivity).
  assert (Sd : scalars dg_dic) by (apply lit_scalars; vm_compute; reflexivity).
  destruct (new ex_pl dg_aff dg_dic) as [[d|]| |] eqn:E; try (vm_compute in E; discriminate E).
  destruct (C52_entries ex_pl_wf Sa Sd E) as (x & T & _ & P & _). exists d, x. split; [reflexivity|]. split; [exact T|].
  cut (DicText ex_pl x dg_dic dg_entries); [intro D; split; [exact D|apply P, D]|]. clear P E.
  apply parse_aff_exact in T; [|exact Sa]. vm_compute in T. injection T as <-.
  eexists _, _, _, _, 5%N. split; [vm_compute; reflexivity|]. split; [vm_compute; reflexivity|].
  split; [apply usize_spec; vm_compute; reflexivity|]. split; [vm_compute; discriminate|].
  plain_entry "word/ AB". plain_entry "two words/ AB". plain_entry "a\/b/C".
  eapply DE_slash; [apply trimmed_spec; reflexivity|].
  eapply DE_hidden; [apply trimmed_spec; reflexivity|discriminate|discriminate|
    apply dic_line_exact; [apply (@lit_scalars "McDo-nald/A po:noun"); vm_compute; reflexivity|vm_compute; reflexivity]|
    apply hides_spec; [repeat constructor|reflexivity]|reflexivity|vm_compute; discriminate|split; [repeat constructor|cbn; intuition congruence]|].
  eapply DE_blank; [apply trimmed_spec; reflexivity|]. plain_entry "co-op ph:coop". constructor.
Qed.
Example C52_rejected_example : ~ exists x es, Text ex_pl (aff_words ex_pl dg_aff) default_lp x /\ DicText ex_pl x (lit "
1
word") es.
Proof.
  intro H. apply (C52_loads_exactly ex_pl_wf) in H; try (apply lit_scalars; vm_compute; reflexivity). destruct H as (d & H). vm_compute in H. discriminate H.
Qed.

Definition lay_lines : list str := [lit "foo/A"; lit "bar"].
Definition lay_lines' : list str := [lit "# comment"; lit "  bar  "; lit "/baz"; lit ""; lit "foo/A"].
Example C53_example : exists t t', File ex_pl lay_lines t /\ File ex_pl lay_lines' t' /\ t <> t' /\
  Permutation (telling ex_pl lay_lines) (telling ex_pl lay_lines') /\
  telling ex_pl lay_lines' = telling ex_pl (rev lay_lines) /\
  exists d, new ex_pl (lit "") (marked true t) = Ret (Ok d) /\ listed d (lit "foo") [65%N] /\
    (forall w f1 f2, listed d w f1 -> listed d w f2 -> f1 = f2) /\
    exists d', new ex_pl (lit "") (marked false t') = Ret (Ok d') /\ dict_check ex_pl d 5 (lit "foo") = dict_check ex_pl d' 5 (lit "foo").
Proof.
  assert (F : exists t, t = lit "2
foo/A
bar
" /\ File ex_pl lay_lines t).
  { eexists. split; [reflexivity|]. exists [], (lit "2"). eexists _, _, 2%N. split; [refine (@En_lf (lit "2") _ _ _ _ (@En_lf (lit "foo/A") _ _ _ _ (@En_lf (lit "bar") _ _ _ _ En_nil))); cbn; intuition discriminate|].
    split; [discriminate|]. split; [constructor|]. split; [reflexivity|]. split; [vm_compute; reflexivity|]. split; [apply usize_spec; vm_compute; reflexivity|vm_compute; discriminate]. }
  assert (F' : exists t, t = lit "#
77 words
# comment
  bar  
/baz

foo/A
" /\ File ex_pl lay_lines' t).
  { eexists. split; [reflexivity|]. exists [lit "#"], (lit "77 words"). eexists _, _, 77%N.
    split; [refine (@En_lf (lit "#") _ _ _ _ (@En_lf (lit "77 words") _ _ _ _ (@En_lf (lit "# comment") _ _ _ _ (@En_lf (lit "  bar  ") _ _ _ _ (@En_lf (lit "/baz") _ _ _ _ (@En_lf (lit "") _ _ _ _ (@En_lf (lit "foo/A") _ _ _ _ En_nil))))))); cbn; intuition discriminate|].
    split; [discriminate|]. split; [repeat constructor|]. split; [reflexivity|]. split; [vm_compute; reflexivity|]. split; [apply usize_spec; vm_compute; reflexivity|vm_compute; discriminate]. }
  destruct F as (t & Et & F). destruct F' as (t' & Et' & F'). exists t, t'. split; [exact F|]. split; [exact F'|]. split; [subst; discriminate|].
  assert (P : Permutation (telling ex_pl lay_lines) (telling ex_pl lay_lines')) by (vm_compute; apply perm_swap).
  split; [exact P|]. split; [vm_compute; reflexivity|].
  destruct (new ex_pl (lit "") (marked true t)) as [[d|]| |] eqn:E; try (subst t; vm_compute in E; discriminate E).
  exists d. split; [reflexivity|].
  assert (HOM : listed d (lit "foo") [65%N] /\ forall w f1 f2, listed d w f1 -> listed d w f2 -> f1 = f2).
  { clear F. subst t. vm_compute in E. injection E as <-. unfold listed. cbn [d_words In].
    split; [auto|]. intros w f1 f2 [A|[A|[]]] [B|[B|[]]]; congruence. }
  destruct HOM as [I HOM]. split; [exact I|]. split; [exact HOM|].
  destruct (@C53_order ex_pl ex_pl_wf (lit "") lay_lines lay_lines' t t' true false d) as (d' & E' & _ & _ & C); try assumption;
    try (subst; apply lit_scalars; vm_compute; reflexivity). exists d'. split; [exact E'|]. apply C.
Qed.

(** Both sides of C42 occur. *)
Example C42_panics_example : (exists x, Text latin_pl (aff_words latin_pl []) default_lp x /\ DicOutgrown latin_pl x (lit "1
" ++ long_word (N.to_nat 30000))) /\ (exists r, new ex_pl dg_aff dg_dic = Ret r).
Proof.
  split.
  - destruct (@C42_long_title_refuted (N.to_nat 30000)) as [S1 E]; [rewrite N2Nat.id; lia|].
    destruct (@C42_panics_exactly latin_pl latin_pl_wf [] _ (Forall_nil _) S1) as [[(r & X) _]|[_ X]]; [rewrite E in X; discriminate X|exact X].
  - destruct C52_example as (d & x & E & _). eauto.
Qed.

Print Assumptions C52_loads_exactly.
Print Assumptions C52_entries.
Print Assumptions C53_layout.
Print Assumptions C53_order.
Print Assumptions C42_panics_exactly.
