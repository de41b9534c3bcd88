(** Property C54: casing.  The model's casing functions against a description by positions. *)
From Coq Require Import String Ascii List NArith ZArith Lia Bool Arith.
From Verif Require Import Base Utf8 Unicode Flags Bag Condition Affix Conversion Aff Checker AffixSpec CompoundRule Rep CompoundSpec
  CompoundTotal RuleCompound Spell CheckSpec CheckMono CheckProps Parser ParserSafe Lib LibSpec LibProps Examples
  Properties_Affix Properties_Compound Properties_Check.
Import ListNotations.
Local Open Scope string_scope.
Local Open Scope list_scope.
Local Open Scope nat_scope.
Set Implicit Arguments.

Section Spec.
Variable U : unicode.
Definition upper_case (c : N) : Prop := u_is_upper U c = true.
Definition lower_case (c : N) : Prop := u_is_lower U c = true.

(** The five kinds of casing. *)
Definition NoCapitals (w : str) : Prop := forall c, In c w -> ~ upper_case c.
Definition OnlyFirstCapital (w : str) : Prop := exists c r, w = c :: r /\ upper_case c /\ NoCapitals r.
Definition AllCapitals (w : str) : Prop := (exists c, In c w /\ upper_case c) /\ forall c, In c w -> ~ lower_case c.
Definition Mixed (w : str) : Prop := (exists c, In c w /\ upper_case c) /\ exists c, In c w /\ lower_case c.
Definition CapitalFirst (w : str) : Prop := exists c r, w = c :: r /\ upper_case c.

(** The dotted and dotless i of Turkic languages. *)
Definition turkic_lower (h : case_handling) (c : N) : N :=
  match h with Standard => c | Turkic => if (c =? 73)%N then 305%N else if (c =? 304)%N then 105%N else c end.
Definition turkic_upper (h : case_handling) (c : N) : N :=
  match h with Standard => c | Turkic => if (c =? 105)%N then 304%N else if (c =? 305)%N then 73%N else c end.
(** A cased letter that only case-ignorable characters separate from here. *)
Definition NextIsCased (l : str) : Prop :=
  exists p c r, l = p ++ c :: r /\ Forall (fun x => u_case_ignorable U x = true) p /\ u_case_ignorable U c = false /\ u_cased U c = true.
(** The lower case of the character [c] between [before] and [after]: a capital sigma at the
    end of a word becomes the final sigma. *)
Definition LowerAt (before : str) (c : N) (after : str) (r : str) : Prop :=
  (c <> 931%N /\ r = u_lower U c) \/
  (c = 931%N /\ NextIsCased (rev before) /\ ~ NextIsCased after /\ r = [962%N]) \/
  (c = 931%N /\ ~ (NextIsCased (rev before) /\ ~ NextIsCased after) /\ r = [963%N]).
(** Character by character, with the context of each. *)
Inductive LowerFrom (before : str) : str -> str -> Prop :=
| LF_nil : LowerFrom before [] []
| LF_cons : forall c after r s, LowerAt before c after r -> LowerFrom (before ++ [c]) after s -> LowerFrom before (c :: after) (r ++ s).
End Spec.

Section Props.
Variable U : unicode.
Notation upper_case := (upper_case U).
Notation lower_case := (lower_case U).

Lemma count_zero : forall (p : N -> bool) w, length (filter p w) = 0 <-> forall c, In c w -> p c = false.
Proof.
  intros p w. induction w as [|a w IH]; cbn [filter]; [split; [intros _ c []|reflexivity]|]. destruct (p a) eqn:E.
  - split; [discriminate|]. intro H. rewrite (H a (or_introl eq_refl)) in E. discriminate E.
  - rewrite IH. split; intros H c; [intros [<-|I]; auto|intro I; apply H; right; exact I].
Qed.
Lemma some_of : forall (p : N -> bool) w, length (filter p w) <> 0 <-> exists c, In c w /\ p c = true.
Proof.
  intros p w. induction w as [|a w IH]; cbn [filter]; [split; [intro H; destruct (H eq_refl)|intros (c & [] & _)]|]. destruct (p a) eqn:E.
  - split; [intros _; exists a; split; [left; reflexivity|exact E]|discriminate].
  - rewrite IH. split; intros (c & I & P); [exists c; split; [right; exact I|exact P]|]. destruct I as [<-|I]; [congruence|eauto].
Qed.
Lemma no_capitals : forall w, NoCapitals U w <-> length (filter (u_is_upper U) w) = 0.
Proof. intro w. rewrite count_zero. unfold NoCapitals, Properties_Casing.upper_case. split; intros H c I; specialize (H c I); destruct (u_is_upper U c); congruence. Qed.

(** Each word is of exactly one kind, and it is the one the code computes. *)
Theorem C54_kinds : forall w,
  match classify_casing U w with
  | CNone => NoCapitals U w
  | CInit => OnlyFirstCapital U w
  | CAll => AllCapitals U w /\ ~ OnlyFirstCapital U w
  | CCamel => Mixed U w /\ ~ CapitalFirst U w
  | CPascal => Mixed U w /\ CapitalFirst U w /\ ~ OnlyFirstCapital U w
  end.
Proof.
  intro w. unfold classify_casing. pose proof (no_capitals w) as NC. pose proof (some_of (u_is_upper U) w) as SU.
  destruct (Nat.eqb_spec (length (filter (u_is_upper U) w)) 0) as [E0|E0]; [apply NC, E0|]. apply SU in E0.
  assert (ONE : forall c r, w = c :: r -> upper_case c -> (length (filter (u_is_upper U) w) = 1 <-> NoCapitals U r)).
  { intros c r -> H. rewrite no_capitals. cbn [filter]. rewrite H. cbn [length]. lia. }
  assert (FST : match w with [] => false | c :: _ => u_is_upper U c end = true <-> CapitalFirst U w).
  { destruct w as [|c r]; [split; [discriminate|intros (c & r & X & _); discriminate X]|]. split; [intro H; exists c, r; auto|]. intros (c' & r' & X & H). injection X as -> ->. exact H. }
  assert (OF : OnlyFirstCapital U w <-> CapitalFirst U w /\ length (filter (u_is_upper U) w) = 1).
  { split.
    - intros (c & r & E & H & N1). split; [exists c, r; auto|]. apply (ONE c r E H), N1.
    - intros [(c & r & E & H) L]. exists c, r. split; [exact E|]. split; [exact H|]. apply (ONE c r E H), L. }
  destruct (match w with [] => false | c :: _ => u_is_upper U c end) eqn:F; cbn [andb].
  - assert (CF : CapitalFirst U w) by (apply FST; reflexivity). destruct (Nat.eqb_spec (length (filter (u_is_upper U) w)) 1) as [E1|E1].
    + apply OF. auto.
    + assert (NO : ~ OnlyFirstCapital U w) by (rewrite OF; tauto). destruct (Nat.eqb_spec (length (filter (u_is_lower U) w)) 0) as [L|L].
      * split; [|exact NO]. split; [exact E0|]. intros c I H. rewrite count_zero in L. unfold Properties_Casing.lower_case in H. rewrite (L c I) in H. discriminate H.
      * apply some_of in L. split; [split; assumption|]. auto.
  - assert (NF : ~ CapitalFirst U w) by (intro X; apply FST in X; discriminate X). destruct (Nat.eqb_spec (length (filter (u_is_lower U) w)) 0) as [L|L].
    + split; [|rewrite OF; tauto]. split; [exact E0|]. intros c I H. rewrite count_zero in L. unfold Properties_Casing.lower_case in H. rewrite (L c I) in H. discriminate H.
    + apply some_of in L. split; [split; assumption|exact NF].
Qed.

Lemma ignorable_spec : forall l, ignorable_then_cased U l = true <-> NextIsCased U l.
Proof.
  intro l. unfold ignorable_then_cased. destruct (find_char (fun c => negb (u_case_ignorable U c)) l) as [i|] eqn:E.
  - apply find_char_some in E. destruct E as (u & c & v & -> & <- & N1 & N2). rewrite nth_error_app2, Nat.sub_diag by lia. cbn [nth_error].
    apply negb_true_iff in N1. assert (FU : Forall (fun x => u_case_ignorable U x = true) u).
    { rewrite forallb_forall in N2. apply Forall_forall. intros x I. apply N2 in I. rewrite negb_involutive in I. exact I. }
    split; [intro H; exists u, c, v; auto|]. intros (p & c' & r & E & FP & N3 & H).
    assert (c' = c) as ->; [|exact H]. clear N2 H. revert p E FP. induction FU as [|x u Hx _ IH]; intros p E FP.
    + destruct FP as [|y p Hy FP]; cbn [app] in E; injection E as -> _; [reflexivity|congruence].
    + destruct FP as [|y p Hy FP]; cbn [app] in E; injection E as -> E; [congruence|]. apply (IH p E FP).
  - split; [discriminate|]. intros (p & c & r & -> & _ & N1 & _). apply find_char_none in E. rewrite forallb_app in E. apply andb_true_iff in E.
    destruct E as [_ E]. cbn [forallb] in E. rewrite N1 in E. discriminate E.
Qed.

Lemma next_dec : forall l, NextIsCased U l \/ ~ NextIsCased U l.
Proof. intro l. rewrite <- ignorable_spec. destruct (ignorable_then_cased U l); [left; reflexivity|right; discriminate]. Qed.

Lemma lower_from : forall w b s, LowerFrom U b w s <-> s = lower_go U (rev b) w.
Proof.
  induction w as [|c w IH]; intros b s; cbn [lower_go].
  - split; [intro H; inversion H; reflexivity|intros ->; constructor].
  - assert (AT : forall r, LowerAt U b c w r <-> r = if (c =? ch_Sigma)%N then if ignorable_then_cased U (rev b) && negb (ignorable_then_cased U w) then [ch_final_sigma] else [ch_sigma] else u_lower U c).
    { intro r. unfold LowerAt. change ch_Sigma with 931%N. change ch_sigma with 963%N. change ch_final_sigma with 962%N. rewrite <- !ignorable_spec.
      destruct (N.eqb_spec c 931) as [-> |N1].
      - destruct (ignorable_then_cased U (rev b)); cbn [andb].
        + destruct (ignorable_then_cased U w); cbn [negb].
          * split; [intros [[X _]|[(_ & _ & X & _)|(_ & _ & X)]]; [congruence|congruence|exact X]|]. intros ->. right. right.
            split; [reflexivity|]. split; [intros [_ X]; apply X; reflexivity|reflexivity].
          * split; [intros [[X _]|[(_ & _ & _ & X)|(_ & X & _)]]; [congruence|exact X|exfalso; apply X; split; [reflexivity|discriminate]]|].
            intros ->. right. left. split; [reflexivity|]. split; [reflexivity|]. split; [discriminate|reflexivity].
        + split; [intros [[X _]|[(_ & X & _)|(_ & _ & X)]]; congruence|]. intros ->. right. right. repeat split. intros [X _]. discriminate X.
      - split; [intros [[_ X]|[(X & _)|(X & _)]]; congruence|]. intros ->. left. auto. }
    split.
    + intro H. inversion H as [|? ? r s' A R]; subst. apply AT in A. apply IH in R. subst. rewrite rev_app_distr. reflexivity.
    + intros ->. apply LF_cons; [apply AT; reflexivity|]. apply IH. rewrite rev_app_distr. reflexivity.
Qed.

(** Lower case, upper case, title case and the two one-character changes. *)
Theorem C54_lowercase : forall h w s, s = lowercase U h w <-> LowerFrom U [] (map (turkic_lower h) w) s.
Proof.
  intros h w s. rewrite lower_from. unfold lowercase, str_lower, replace_char. destruct h; cbn [rev].
  - rewrite map_map. replace (map (turkic_lower Turkic) w) with (map (fun x => if ((if x =? ch_I then ch_dotless_i else x) =? ch_dotted_I)%N then ch_i else if (x =? ch_I)%N then ch_dotless_i else x) w); [reflexivity|].
    apply map_ext. intro c. unfold turkic_lower, ch_I, ch_dotless_i, ch_dotted_I, ch_i. destruct (N.eqb_spec c 73); reflexivity.
  - rewrite map_id. reflexivity.
Qed.
Theorem C54_uppercase : forall h w, uppercase U h w = flat_map (u_upper U) (map (turkic_upper h) w).
Proof.
  intros h w. unfold uppercase, str_upper, replace_char. destruct h; [|rewrite map_id; reflexivity].
  rewrite map_map. f_equal. apply map_ext. intro c. unfold turkic_upper, ch_I, ch_dotless_i, ch_dotted_I, ch_i. destruct (N.eqb_spec c 105) as [-> |]; reflexivity.
Qed.
(** The one-character functions map the special letters directly. *)
Definition Lower1 (h : case_handling) (c : N) (r : str) : Prop :=
  (h = Turkic /\ c = 73%N /\ r = [305%N]) \/ (h = Turkic /\ c = 304%N /\ r = [105%N]) \/
  (~ (h = Turkic /\ (c = 73 \/ c = 304)%N) /\ r = u_lower U c).
Definition Upper1 (h : case_handling) (c : N) (r : str) : Prop :=
  (h = Turkic /\ c = 105%N /\ r = [304%N]) \/ (h = Turkic /\ c = 305%N /\ r = [73%N]) \/
  (~ (h = Turkic /\ (c = 105 \/ c = 305)%N) /\ r = u_upper U c).
Lemma lower1 : forall h c r, r = lower_char U h c <-> Lower1 h c r.
Proof.
  intros h c r. unfold Lower1, lower_char, ch_I, ch_dotted_I. destruct h; [|split; [intros ->; right; right; split; [intros [X _]; discriminate X|reflexivity]|intros [(X & _)|[(X & _)|(_ & X)]]; [discriminate X|discriminate X|exact X]]].
  destruct (N.eqb_spec c 73) as [-> |N1]; [|destruct (N.eqb_spec c 304) as [-> |N2]].
  - split; [intros ->; left; auto|]. intros [(_ & _ & X)|[(_ & X & _)|(X & _)]]; [exact X|discriminate X|exfalso; apply X; auto].
  - split; [intros ->; right; left; auto|]. intros [(_ & X & _)|[(_ & _ & X)|(X & _)]]; [discriminate X|exact X|exfalso; apply X; auto].
  - split; [intros ->; right; right; split; [intros [_ [X|X]]; contradiction|reflexivity]|]. intros [(_ & X & _)|[(_ & X & _)|(_ & X)]]; [contradiction|contradiction|exact X].
Qed.
Lemma upper1 : forall h c r, r = upper_char U h c <-> Upper1 h c r.
Proof.
  intros h c r. unfold Upper1, upper_char, ch_i, ch_dotless_i. destruct h; [|split; [intros ->; right; right; split; [intros [X _]; discriminate X|reflexivity]|intros [(X & _)|[(X & _)|(_ & X)]]; [discriminate X|discriminate X|exact X]]].
  destruct (N.eqb_spec c 105) as [-> |N1]; [|destruct (N.eqb_spec c 305) as [-> |N2]].
  - split; [intros ->; left; auto|]. intros [(_ & _ & X)|[(_ & X & _)|(X & _)]]; [exact X|discriminate X|exfalso; apply X; auto].
  - split; [intros ->; right; left; auto|]. intros [(_ & X & _)|[(_ & _ & X)|(X & _)]]; [discriminate X|exact X|exfalso; apply X; auto].
  - split; [intros ->; right; right; split; [intros [_ [X|X]]; contradiction|reflexivity]|]. intros [(_ & X & _)|[(_ & X & _)|(_ & X)]]; [contradiction|contradiction|exact X].
Qed.
Inductive Each (R : N -> str -> Prop) : str -> str -> Prop :=
| Each_nil : Each R [] []
| Each_cons : forall c w r s, R c r -> Each R w s -> Each R (c :: w) (r ++ s).
Lemma each_flat : forall (R : N -> str -> Prop) f, (forall c r, r = f c <-> R c r) -> forall w s, Each R w s <-> s = flat_map f w.
Proof.
  intros R f E. induction w as [|c w IH]; intro s; cbn [flat_map].
  - split; [intro H; inversion H; reflexivity|intros ->; constructor].
  - split; [intro H; inversion H as [|? ? r s' A B]; subst; apply E in A; apply IH in B; subst; reflexivity|].
    intros ->. constructor; [apply E; reflexivity|apply IH; reflexivity].
Qed.

Theorem C54_titlecase : forall h w s, titlecase U h w = Ret s <->
  exists c r u v, w = c :: r /\ Upper1 h c u /\ Each (Lower1 h) r v /\ s = u ++ v.
Proof.
  intros h w s. unfold titlecase. destruct w as [|c r]; [split; [discriminate|intros (c & r & u & v & X & _); discriminate X]|].
  split.
  - intro H. injection H as <-. exists c, r, (upper_char U h c), (flat_map (lower_char U h) r). split; [reflexivity|].
    split; [apply upper1; reflexivity|]. split; [|reflexivity]. apply (each_flat (Lower1 h) (lower_char U h)); [apply lower1|reflexivity].
  - intros (c' & r' & u & v & X & A & B & ->). injection X as <- <-. apply upper1 in A. apply (each_flat (Lower1 h) (lower_char U h)) in B; [|apply lower1]. subst. reflexivity.
Qed.
Theorem C54_first_char : forall h w s,
  (lower_first_char U h w = Ret s <-> exists c r v, w = c :: r /\ Lower1 h c v /\ s = v ++ r) /\
  (forall i, upper_char_at U h w i = Ret s <-> exists u c r v, w = u ++ c :: r /\ length u = i /\ Upper1 h c v /\ s = u ++ v ++ r).
Proof.
  intros h w s. split.
  - unfold lower_first_char. destruct w as [|c r]; [split; [discriminate|intros (c & r & v & X & _); discriminate X]|]. split.
    + intro H. injection H as <-. exists c, r, (lower_char U h c). split; [reflexivity|]. split; [apply lower1; reflexivity|reflexivity].
    + intros (c' & r' & v & X & A & ->). injection X as <- <-. apply lower1 in A. subst v. reflexivity.
  - intro i. unfold upper_char_at. split.
    + intro H. destruct (skipn i w) as [|c r] eqn:E; [discriminate H|]. injection H as <-. exists (firstn i w), c, r, (upper_char U h c).
      split; [rewrite <- E; symmetry; apply firstn_skipn|]. split; [|split; [apply upper1; reflexivity|reflexivity]].
      apply firstn_length_le. destruct (Nat.le_gt_cases i (length w)) as [L|L]; [exact L|]. rewrite skipn_all2 in E by lia. discriminate E.
    + intros (u & c & r & v & -> & <- & A & ->). rewrite skipn_app_exact, firstn_app_exact by reflexivity. apply upper1 in A. subst v. reflexivity.
Qed.
End Props.

(** ** Examples *)
(** Greek letters beside the ASCII ones. *)
Definition greek : unicode := mkUnicode
  (fun c => if (c =? 927)%N then [959%N] else if (c =? 931)%N then [963%N] else u_lower ascii_unicode c)
  (fun c => if (c =? 959)%N then [927%N] else if (c =? 963)%N || (c =? 962)%N then [931%N] else u_upper ascii_unicode c)
  (fun c => (c =? 927)%N || (c =? 931)%N || ascii_upper c) (fun c => (c =? 959)%N || (c =? 962)%N || (c =? 963)%N || ascii_lower c)
  (fun c => (900 <=? c)%N || ascii_upper c || ascii_lower c) (u_is_ws ascii_unicode)
  (fun c => (900 <=? c)%N || ascii_upper c || ascii_lower c) (u_case_ignorable ascii_unicode).
Example C54_example :
  classify_casing greek [931; 927; 931]%N = CAll /\
  LowerFrom greek [] [931; 927; 931; 39; 927; 931]%N [963; 959; 963; 39; 959; 962]%N /\
  lowercase greek Standard [931; 927; 931]%N = [963; 959; 962]%N /\
  titlecase greek Standard [963; 927; 931]%N = Ret [931; 959; 963]%N /\
  lowercase greek Turkic (lit "ISI") = [305; 115; 305]%N /\ uppercase greek Turkic (lit "isi") = [304; 83; 304]%N.
Proof.
  split; [reflexivity|]. split; [apply lower_from; reflexivity|]. repeat split.
Qed.
Example C54_kinds_example : Mixed greek (lit "McDonald") /\ CapitalFirst greek (lit "McDonald") /\ ~ OnlyFirstCapital greek (lit "McDonald").
Proof. exact (C54_kinds greek (lit "McDonald")). Qed.

Print Assumptions C54_kinds.
Print Assumptions C54_lowercase.
Print Assumptions C54_uppercase.
Print Assumptions C54_titlecase.
Print Assumptions C54_first_char.
