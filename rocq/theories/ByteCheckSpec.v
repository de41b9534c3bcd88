(** The check on bytes is the check on characters. *)
From Coq Require Import List NArith ZArith Lia Bool Arith.
From Verif Require Import Base Utf8 Unicode Flags Condition Affix CompoundRule Conversion Aff Checker AffixSpec Rep CompoundSpec
  CompoundTotal RuleCompound Spell CheckSpec CharsStr Scratch ByteCompound ByteOffsets ByteCompoundSpec ByteCheck.
Import ListNotations.
Local Open Scope nat_scope.
Set Implicit Arguments.

(** *** Searching *)
Lemma find_char_sub : forall c w, find_char (N.eqb c) w = find_sub [c] w.
Proof.
  intros c w. induction w as [|x w IH]; [reflexivity|]. cbn [find_char find_sub starts_with strip_prefix].
  unfold starts_with. cbn [strip_prefix]. rewrite N.eqb_sym. destruct (c =? x)%N eqn:E; rewrite N.eqb_sym in E; rewrite ?E; [reflexivity|].
  rewrite IH. reflexivity.
Qed.
Lemma find_enc : forall p w, scalars p -> scalars w -> find_sub (enc p) (enc w) = option_map (boff w) (find_sub p w).
Proof.
  intros [|c p] w Hp Hw.
  - assert (E : forall v : str, find_sub [] v = Some 0) by (intros [|x v]; reflexivity). change (enc []) with (@nil N). rewrite !E. reflexivity.
  - apply bytes_find; [exact Hp|exact Hw|discriminate].
Qed.
Lemma someb_find : forall p w, scalars p -> scalars w -> is_someb (find_sub (enc p) (enc w)) = is_someb (find_sub p w).
Proof. intros p w Hp Hw. rewrite find_enc by assumption. destruct (find_sub p w); reflexivity. Qed.
Lemma find_sub_len : forall p w i, find_sub p w = Some i -> i + length p <= length w.
Proof.
  intros p w i H. apply find_sub_sound in H. destruct H as [E L]. apply (f_equal (@length N)) in E.
  rewrite !app_length, firstn_length in E. lia.
Qed.

Definition both (p : str * str) : list N * list N := (enc (fst p), enc (snd p)).
Lemma split_once_enc : forall p w, scalars p -> scalars w ->
  b_split_once p (enc w) = Ret (option_map both (split_once p w)).
Proof.
  intros p w Hp Hw. unfold b_split_once, split_once. rewrite find_enc by assumption.
  destruct (find_sub p w) as [i|] eqn:E; cbn [option_map]; [|reflexivity].
  pose proof (find_sub_len _ _ E) as L. pose proof (find_sub_sound _ _ E) as [EW _].
  rewrite upto_boff by (assumption || lia). cbn [bindR].
  assert (S : boff w i + length (enc p) = boff w (i + length p)).
  { rewrite (@boff_split w i (i + length p)) by lia. f_equal. f_equal. f_equal. unfold slice.
    rewrite EW at 1. rewrite skipn_app_exact by (rewrite firstn_length; lia).
    rewrite firstn_app_exact by lia. reflexivity. }
  rewrite S, from_boff by (assumption || lia). reflexivity.
Qed.
Lemma strip_prefix_enc : forall p w, scalars p -> scalars w ->
  b_strip_prefix p (enc w) = Ret (option_map enc (strip_prefix p w)).
Proof.
  intros p w Hp Hw. unfold b_strip_prefix. rewrite starts_enc by assumption. unfold starts_with.
  destruct (strip_prefix p w) as [r|] eqn:E; [|reflexivity]. apply strip_prefix_spec in E. subst w.
  rewrite <- (@boff_app p r), from_boff by (assumption || (rewrite app_length; lia)).
  rewrite skipn_app_exact by reflexivity. reflexivity.
Qed.
Lemma strip_suffix_enc : forall p w, scalars p -> scalars w ->
  b_strip_suffix p (enc w) = Ret (option_map enc (strip_suffix p w)).
Proof.
  intros p w Hp Hw. unfold b_strip_suffix. rewrite ends_enc by assumption. unfold ends_with.
  destruct (strip_suffix p w) as [r|] eqn:E; [|reflexivity]. apply strip_suffix_spec in E. subst w.
  unfold b_minus. rewrite enc_app, app_length, leb_correct by lia. cbn [bindR]. rewrite <- enc_app.
  replace (length (enc r) + length (enc p) - length (enc p)) with (boff (r ++ p) (length r)) by (rewrite boff_app; lia).
  rewrite upto_boff by (assumption || (rewrite app_length; lia)). rewrite firstn_app_exact by reflexivity. reflexivity.
Qed.

(** *** Conversions *)
Lemma applies_enc : forall c w, scalars (cv_from c) -> scalars w -> b_conv_applies c (enc w) = conv_applies c w.
Proof.
  intros c w Hc Hw. unfold b_conv_applies, conv_applies. destruct (cv_anchor c); [apply str_eqb_enc|apply starts_enc]; assumption.
Qed.
Lemma len_blen : forall a b, (length (enc a) <? length (enc b)) = (blen a <? blen b)%N.
Proof.
  intros a b. pose proof (blen_enc a). pose proof (blen_enc b). destruct (Nat.ltb_spec (length (enc a)) (length (enc b))); symmetry; [apply N.ltb_lt|apply N.ltb_ge]; lia.
Qed.
Lemma best_enc : forall first w l best, scalars w -> Forall (fun c => scalars (cv_from c)) l ->
  b_best_match first (enc w) l best = best_match first w l best.
Proof.
  intros first w l. induction l as [|c l IH]; intros best Hw Hl; [reflexivity|]. inversion Hl as [|? ? Hc Hl']; subst.
  cbn [b_best_match best_match]. unfold first_byte at 1. destruct (negb _); [reflexivity|].
  rewrite applies_enc by assumption. cbv zeta. rewrite IH by assumption. f_equal.
  destruct best as [b|]; [rewrite len_blen|]; reflexivity.
Qed.
Lemma match_at_enc : forall t w, scalars w -> Forall (fun c => scalars (cv_from c)) (ct_inner t) ->
  b_match_at t (enc w) = match_at t w.
Proof.
  intros t w Hw Ht. unfold b_match_at, match_at, first_byte. destruct (hd_error (enc w)); [|reflexivity]. cbv zeta.
  apply best_enc; [exact Hw|]. apply Forall_forall. intros c Hc. rewrite Forall_forall in Ht. apply Ht.
  rewrite <- (firstn_skipn (partition_point (fun c => opt_lt (hd_error (enc (cv_from c))) n) (ct_inner t))). apply in_or_app. right. exact Hc.
Qed.
Lemma best_match_sound : forall first w l best c, (forall b, best = Some b -> starts_with (cv_from b) w = true) ->
  best_match first w l best = Some c -> starts_with (cv_from c) w = true.
Proof.
  intros first w l. induction l as [|x l IH]; intros best c HB H; cbn [best_match] in H; [apply HB; exact H|].
  destruct (negb _); [apply HB; exact H|]. cbv zeta in H. eapply IH; [|exact H]. intros b Eb.
  destruct (conv_applies x w) eqn:A; cbn [andb] in Eb; [|apply HB; exact Eb].
  destruct (match best with None => true | Some b => _ end); [|apply HB; exact Eb]. injection Eb as <-.
  unfold conv_applies in A. destruct (cv_anchor x); [|exact A]. apply str_eqb_eq in A. subst w.
  apply starts_with_spec. exists []. rewrite app_nil_r. reflexivity.
Qed.
Lemma match_at_sound : forall t w c, match_at t w = Some c -> starts_with (cv_from c) w = true.
Proof.
  intros t w c H. unfold match_at in H. destruct (first_byte w); [|discriminate]. eapply best_match_sound; [|exact H]. discriminate.
Qed.
Lemma best_match_In : forall first w l best c, best_match first w l best = Some c -> best = Some c \/ In c l.
Proof.
  intros first w l. induction l as [|x l IH]; intros best c H; cbn [best_match] in H; [auto|].
  destruct (negb _); [auto|]. cbv zeta in H. apply IH in H. destruct H as [H|H]; [|right; right; exact H].
  destruct (_ && _); [right; left; congruence|auto].
Qed.
Lemma match_at_In : forall t w c, match_at t w = Some c -> In c (ct_inner t).
Proof.
  intros t w c H. unfold match_at in H. destruct (first_byte w); [|discriminate]. apply best_match_In in H.
  destruct H as [H|H]; [discriminate|]. rewrite <- (firstn_skipn (partition_point (fun c => opt_lt (first_byte (cv_from c)) n) (ct_inner t))).
  apply in_or_app. right. exact H.
Qed.

Definition encR (r : Res str) : Res (list N) := match r with Ret w => Ret (enc w) | Panic => Panic | NoFuel => NoFuel end.
Lemma convert_loop_enc : forall t, Forall (fun c => scalars (cv_from c)) (ct_inner t) -> Forall (fun c => scalars (cv_to c)) (ct_inner t) ->
  forall fuel u v, scalars (u ++ v) ->
  b_convert_loop fuel t (enc (u ++ v)) (length (enc u)) = encR (convert_loop fuel t (u ++ v) (length u)).
Proof.
  intros t HF HT. induction fuel as [|fuel IH]; intros u v Hw; cbn [b_convert_loop convert_loop].
  all: assert (L : (length (enc u) <? length (enc (u ++ v))) = (length u <? length (u ++ v))).
  1,3: rewrite enc_app, !app_length; destruct v as [|c v]; [change (enc []) with (@nil N); cbn [length]; rewrite !Nat.add_0_r, !Nat.ltb_irrefl; reflexivity|];
    pose proof (enc_length (c :: v)); cbn [length] in *; rewrite !(proj2 (Nat.ltb_lt _ _)) by lia; reflexivity.
  all: rewrite L; destruct (length u <? length (u ++ v)) eqn:LT; [|reflexivity].
  { reflexivity. }
  assert (Hu : scalars u /\ scalars v) by (apply Forall_app; exact Hw). destruct Hu as [Hu Hv].
  rewrite <- (@boff_app u v), from_boff by (assumption || (rewrite app_length; lia)). cbn [bindR].
  rewrite skipn_app_exact by reflexivity. rewrite match_at_enc by assumption.
  destruct (match_at t v) as [c|] eqn:M.
  - pose proof (match_at_sound _ _ M) as Sw. pose proof (match_at_In _ _ M) as Ic. apply starts_with_spec in Sw. destruct Sw as [r ->].
    rewrite Forall_forall in HF, HT. pose proof (HT c Ic) as Sc. rewrite boff_app, replace_app by exact Hw. cbn [bindR].
    rewrite firstn_app_exact by reflexivity.
    assert (S2 : skipn (length u + length (cv_from c)) (u ++ cv_from c ++ r) = r).
    { rewrite app_assoc. apply skipn_app_exact. rewrite app_length. reflexivity. }
    rewrite S2.
    replace (length (enc u) + length (enc (cv_to c))) with (length (enc (u ++ cv_to c))) by (rewrite enc_app, app_length; reflexivity).
    rewrite <- app_length, app_assoc. apply IH. apply Forall_app in Hv. destruct Hv as [_ Hr].
    apply Forall_app. split; [apply Forall_app; split; assumption|exact Hr].
  - rewrite text_enc by exact Hv. cbn [bindR]. destruct v as [|c v]; [rewrite app_nil_r, Nat.ltb_irrefl in LT; discriminate|].
    rewrite boff_app. change (c :: v) with ([c] ++ v) in *. rewrite app_assoc in *.
    replace (length (enc u) + length (enc1 c)) with (length (enc (u ++ [c]))).
    2: { rewrite enc_app, app_length. f_equal. unfold enc. cbn [flat_map]. rewrite app_nil_r. reflexivity. }
    replace (length u + 1) with (length (u ++ [c])) by (rewrite app_length; reflexivity). apply IH. exact Hw.
Qed.
Lemma convert_loop_more : forall t fuel fuel' w i x, convert_loop fuel t w i = Ret x -> fuel <= fuel' -> convert_loop fuel' t w i = Ret x.
Proof.
  intros t. induction fuel as [|fuel IH]; intros fuel' w i x H L; cbn [convert_loop] in H.
  - destruct (i <? length w) eqn:E; [discriminate|]. destruct fuel'; cbn [convert_loop]; rewrite E; exact H.
  - destruct fuel' as [|fuel']; [lia|]. cbn [convert_loop]. destruct (i <? length w); [|exact H].
    destruct (match_at t (skipn i w)); apply IH; (exact H || lia).
Qed.
Lemma ascii_enc : forall w, scalars w -> forallb (fun b => (b <? 128)%N) (enc w) = is_ascii w.
Proof.
  intros w Hw. unfold is_ascii. induction Hw as [|c w Hc Hw IH]; [reflexivity|].
  change (enc (c :: w)) with (enc1 c ++ enc w). rewrite forallb_app, IH. cbn [forallb]. f_equal.
  unfold enc1. destruct (c <? 128)%N eqn:E; [cbn; rewrite E; reflexivity|].
  repeat match goal with |- context [if ?b then _ else _] => destruct b end; cbn [forallb];
    match goal with |- (?a <? 128)%N && _ = false => replace (a <? 128)%N with false; [reflexivity|symmetry; apply N.ltb_ge; try lia] end.
Qed.
Lemma convert_enc : forall t w, conv_table_ok t -> Forall (fun c => scalars (cv_to c)) (ct_inner t) -> scalars w ->
  b_convert t (enc w) = encR (convert t w).
Proof.
  intros t w OK HT Hw. destruct (convert_spec OK Hw) as (out & E & _). destruct OK as (_ & HF & _).
  unfold b_convert. rewrite ascii_enc by exact Hw. revert E. unfold convert. destruct (ct_inner t) as [|c0 l0] eqn:EI; [reflexivity|].
  destruct (ct_non_ascii t && is_ascii w); [reflexivity|]. destruct (negb _); [reflexivity|].
  rewrite <- EI in *. intro E. rewrite E. pose proof (enc_length w) as L.
  pose proof (@convert_loop_enc t HF HT (length (enc w)) [] w Hw) as C. cbn [app length] in C. change (length (enc [])) with 0 in C.
  rewrite C. rewrite (@convert_loop_more t _ _ _ _ _ E L). reflexivity.
Qed.

(** *** Full stops *)
Lemma drop_dots_rev : forall w, scalars w -> rev (drop_dots (rev (enc w))) = enc (rev (drop_dots (rev w))).
Proof.
  intros w. induction w as [|c w IH] using rev_ind; intro Hw; [reflexivity|]. apply Forall_app in Hw. destruct Hw as [Hw Hc].
  inversion Hc as [|? ? Sc _]; subst. rewrite rev_app_distr, enc_app, rev_app_distr. cbn [rev app].
  change (enc [c]) with (enc1 c ++ []). rewrite app_nil_r.
  destruct (N.eq_dec c 46) as [->|NE]; [cbn; apply IH; exact Hw|].
  assert (D : forall x l, x <> 46%N -> drop_dots (x :: l) = x :: l).
  { intros x l Hx. cbn [drop_dots]. destruct x as [|[p|p|]]; try reflexivity. repeat (destruct p as [p|p|]; try reflexivity). destruct Hx; reflexivity. }
  rewrite D by exact NE. cbn [rev]. rewrite rev_involutive, enc_app.
  destruct (enc1_shape c Sc) as (h & t & E & Hh & Ht).
  destruct (rev (enc1 c)) as [|y r] eqn:ER; [apply (f_equal (@length N)) in ER; rewrite rev_length, E in ER; discriminate|].
  cbn [app]. rewrite D.
  - rewrite app_comm_cons, <- ER, rev_app_distr, !rev_involutive. change (enc [c]) with (enc1 c ++ []). rewrite app_nil_r. reflexivity.
  - intros ->. assert (I : In 46%N (enc1 c)) by (apply in_rev; rewrite ER; left; reflexivity).
    rewrite E in I. destruct I as [->|I].
    + destruct t as [|b t]; [|].
      * assert (X : enc1 c = enc1 46%N) by exact E. pose proof (@enc1_split c 46%N [] [] Sc eq_refl) as Q.
        rewrite !app_nil_r in Q. apply NE. apply (Q X).
      * revert E. unfold enc1. destruct (c <? 0x80)%N eqn:Z; [discriminate|].
        repeat match goal with |- context [if ?b then _ else _] => destruct b end; intro E; apply (f_equal (hd 0%N)) in E; cbn [hd] in E; lia.
    + rewrite Forall_forall in Ht. specialize (Ht _ I). discriminate.
Qed.
Lemma trim_enc : forall w, scalars w -> b_trim_dots (enc w) = enc (trim_end_dots w).
Proof. exact drop_dots_rev. Qed.
Lemma trim_same : forall w, (length (enc (trim_end_dots w)) =? length (enc w)) = (length (trim_end_dots w) =? length w).
Proof.
  intro w. destruct (trim_split w) as (n & E & _). set (t := trim_end_dots w) in *. rewrite E. rewrite enc_app, !app_length.
  pose proof (enc_length (dots n)) as L. destruct (dots n) as [|c r] eqn:X.
  - change (enc []) with (@nil N). cbn [length]. rewrite !Nat.add_0_r, !Nat.eqb_refl. reflexivity.
  - cbn [length] in *. rewrite !(proj2 (Nat.eqb_neq _ _)) by lia. reflexivity.
Qed.

(** *** The scratch buffer of the sharps *)
Lemma sharps_ext : forall c1 c2, (forall w, scalars w -> c1 w = c2 w) -> forall n bs p r, b_sharps c1 n bs p r = b_sharps c2 n bs p r.
Proof.
  intros c1 c2 H. induction n as [|n IH]; intros bs p r; cbn [b_sharps].
  - destruct (str_range _ _ _) as [t| |]; try reflexivity. cbn [bindO]. destruct (0 <? r); [|reflexivity].
    destruct (dec bs) eqn:E; [|reflexivity]. apply dec_spec in E. rewrite H by apply E. reflexivity.
  - destruct (str_range _ _ _) as [t| |]; try reflexivity. cbn [bindO]. destruct (find_sub ss t) as [i|].
    + destruct (set_byte _ 195 _) as [b1| |]; try reflexivity. cbn [bindO]. destruct (set_byte _ 159 _) as [b2| |]; try reflexivity. cbn [bindO].
      rewrite IH. destruct (b_sharps c2 n b2 _ _) as [q| |]; try reflexivity. cbn [bindO]. destruct (fst q) as [[f|]| |]; try reflexivity.
      destruct (set_byte _ 115 _) as [b3| |]; try reflexivity. cbn [bindO]. destruct (set_byte _ 115 _) as [b4| |]; try reflexivity. cbn [bindO]. apply IH.
    + destruct (0 <? r); [|reflexivity]. destruct (dec bs) eqn:E; [|reflexivity]. apply dec_spec in E. rewrite H by apply E. reflexivity.
Qed.

Section Checker.
Variable k : checker.
Variable dbg : bool.
Notation A := (ck_aff k).
Notation U := (ck_u k).
Notation case := (o_case (ad_options (ck_aff k))).
Hypothesis WU : wf_unicode U.
Hypothesis WC : wf_compound k.
Hypothesis IC : conv_table_ok (ad_iconv A).
Hypothesis IO : Forall (fun c => scalars (cv_to c)) (ct_inner (ad_iconv A)).
Hypothesis HR : Forall (fun p => forall r, cp_replacement p = Some r -> scalars r) (ad_patterns A).
Hypothesis HB : Forall scalars (start_breaks (ad_breaks A) ++ end_breaks (ad_breaks A) ++ middle_breaks (ad_breaks A)).

Lemma word_enc : forall fuel fu hh w, scalars w -> b_check_word k dbg fuel (enc w) fu hh = check_word k fuel w fu hh.
Proof.
  intros fuel fu hh w Hw. unfold b_check_word, check_word. rewrite text_enc by exact Hw. cbn [bindR].
  destruct (check_simple_word k w hh); [reflexivity|].
  rewrite (@check_compound_enc k dbg WC HR) by exact Hw. reflexivity.
Qed.
Lemma lower_enc : forall w, scalars w -> b_lowercase k (enc w) = Ret (enc (lowercase U case w)).
Proof. intros w Hw. unfold b_lowercase. rewrite text_enc by exact Hw. reflexivity. Qed.
Lemma uppercase_enc : forall w, scalars w -> b_uppercase k (enc w) = Ret (enc (uppercase U case w)).
Proof. intros w Hw. unfold b_uppercase. rewrite text_enc by exact Hw. reflexivity. Qed.
Lemma title_enc : forall w, scalars w -> b_titlecase k (enc w) = encR (titlecase U case w).
Proof. intros w Hw. unfold b_titlecase. rewrite text_enc by exact Hw. cbn [bindR]. destruct (titlecase U case w); reflexivity. Qed.
Lemma titlecase_scalars : forall w t, scalars w -> titlecase U case w = Ret t -> scalars t.
Proof.
  intros [|c w] t Hw E; [discriminate|]. injection E as <-. inversion Hw; subst. apply scalars_app_iff. split.
  - apply scalars_upper_char; [exact WU|assumption].
  - apply scalars_flat_map; [intros; apply scalars_lower_char; [exact WU|assumption]|assumption].
Qed.

Lemma spell_sharps_enc : forall fuel w, scalars w -> b_spell_sharps k dbg fuel (enc w) = spell_sharps k fuel w.
Proof.
  intros fuel w Hw. unfold b_spell_sharps, spell_sharps.
  rewrite (@sharps_ext _ (fun w => check_word k fuel w AllowBadForceucase AcceptHiddenHomonym)) by (intros; apply word_enc; assumption).
  destruct (@sharps_spec k fuel 5 [] w 0 Hw) as (buf & E & _). cbn [app length] in E. change (length (enc [])) with 0 in E.
  rewrite E. reflexivity.
Qed.

Lemma apostrophe_enc : forall w, scalars w -> b_apostrophe (enc w) = Ret (option_map both (apostrophe_split w)).
Proof.
  intros w Hw. unfold b_apostrophe, apostrophe_split. rewrite find_char_sub.
  assert (Q : scalars [39%N]) by (repeat constructor).
  pose proof (@find_enc [39%N] w Q Hw) as F. change (enc [39%N]) with [39%N] in F. rewrite F.
  destruct (find_sub [39%N] w) as [i|] eqn:E; cbn [option_map]; [|reflexivity].
  pose proof (find_sub_len _ _ E) as L. cbn [length] in L. pose proof (find_sub_sound _ _ E) as [EW _].
  assert (S : boff w (i + 1) = boff w i + 1).
  { rewrite (@boff_split w i (i + 1)) by lia. f_equal. unfold slice. rewrite EW at 1. rewrite skipn_app_exact by (rewrite firstn_length; lia).
    replace (i + 1 - i) with 1 by lia. reflexivity. }
  pose proof (@boff_len w (i + 1) L) as L2.
  unfold b_minus. rewrite (leb_correct 1) by lia. cbn [bindR].
  replace (boff w i =? length (enc w) - 1) with (i =? length w - 1).
  2: { pose proof (boff_all w) as BA. destruct (Nat.eqb_spec i (length w - 1)) as [->|NE]; symmetry.
       - apply Nat.eqb_eq. replace (length w - 1 + 1) with (length w) in S by lia. lia.
       - apply Nat.eqb_neq. intro X. apply NE. assert (boff w (i + 1) = boff w (length w)) as Y by lia.
         apply boff_inj in Y; lia. }
  destruct (i =? length w - 1); [reflexivity|]. rewrite <- S, upto_boff, from_boff by assumption. reflexivity.
Qed.
Lemma apostrophe_scalars : forall w a b, scalars w -> apostrophe_split w = Some (a, b) -> scalars a /\ scalars b.
Proof.
  intros w a b Hw H. unfold apostrophe_split in H. destruct (find_char _ w) as [i|]; [|discriminate].
  destruct (i =? length w - 1); [discriminate|]. injection H as <- <-. split; [apply scalars_firstn|apply scalars_skipn]; exact Hw.
Qed.

Lemma orelse_cong : forall X (a b c d : Res (option X)), a = b -> c = d -> orelse a c = orelse b d.
Proof. intros X a b c d -> ->. reflexivity. Qed.

Lemma casing_upper_enc : forall fuel w, scalars w -> b_casing_upper k dbg fuel (enc w) = spell_casing_upper k fuel w.
Proof.
  intros fuel w Hw. unfold b_casing_upper, spell_casing_upper.
  assert (SSs : scalars SS) by (repeat constructor).
  repeat apply orelse_cong.
  - apply word_enc; exact Hw.
  - rewrite apostrophe_enc by exact Hw. cbn [bindR]. destruct (apostrophe_split w) as [[a b]|] eqn:E; cbn [option_map]; [|reflexivity].
    destruct (apostrophe_scalars Hw E) as [Ha Hb]. cbn [both fst snd]. rewrite title_enc by exact Hb.
    destruct (titlecase U case b) as [t2| |] eqn:T; try reflexivity. cbn [encR bindR].
    pose proof (titlecase_scalars Hb T) as H2. apply orelse_cong.
    + rewrite lower_enc by exact Ha. cbn [bindR]. rewrite <- enc_app. apply word_enc. apply scalars_app_iff.
      split; [apply scalars_lower; assumption|exact H2].
    + rewrite title_enc by exact Ha. destruct (titlecase U case a) as [t1| |] eqn:T1; try reflexivity. cbn [encR bindR].
      rewrite <- enc_app. apply word_enc. apply scalars_app_iff. split; [apply (titlecase_scalars Ha T1)|exact H2].
  - change SS with (enc SS) at 1. rewrite someb_find by assumption. destruct (_ && _); [|reflexivity]. apply orelse_cong.
    + rewrite lower_enc by exact Hw. cbn [bindR]. apply spell_sharps_enc. apply scalars_lower; assumption.
    + rewrite title_enc by exact Hw. destruct (titlecase U case w) as [t| |] eqn:T; try reflexivity. cbn [encR bindR].
      apply spell_sharps_enc. apply (titlecase_scalars Hw T).
  - rewrite title_enc by exact Hw. destruct (titlecase U case w) as [t| |] eqn:T; try reflexivity. cbn [encR bindR].
    rewrite word_enc by apply (titlecase_scalars Hw T). reflexivity.
  - rewrite lower_enc by exact Hw. cbn [bindR]. rewrite word_enc by (apply scalars_lower; assumption). reflexivity.
Qed.

Lemma memb_find : forall c w, is_someb (find_sub [c] w) = memb c w.
Proof.
  intros c w. induction w as [|x w IH]; [reflexivity|]. rewrite <- find_char_sub in *. cbn [find_char]. unfold memb in *. cbn [existsb].
  destruct (c =? x)%N; [reflexivity|]. cbn [orb]. rewrite <- IH. destruct (find_char _ w); reflexivity.
Qed.

Lemma casing_title_enc : forall fuel w, scalars w -> b_casing_title k dbg fuel (enc w) = spell_casing_title k fuel w.
Proof.
  intros fuel w Hw. unfold b_casing_title, spell_casing_title. cbv zeta.
  assert (HL : scalars (lowercase U case w)) by (apply scalars_lower; assumption).
  apply orelse_cong; [apply word_enc; exact Hw|]. rewrite lower_enc by exact Hw. cbn [bindR]. rewrite word_enc by exact HL.
  rewrite someb_find by (solve [exact HL | repeat constructor]). rewrite memb_find. reflexivity.
Qed.

Lemma casing_enc : forall fuel w, scalars w -> b_casing k dbg fuel (enc w) = spell_casing k fuel w.
Proof.
  intros fuel w Hw. unfold b_casing, spell_casing. rewrite text_enc by exact Hw. cbn [bindR]. cbv zeta.
  assert (G : forall b : bool, 
      orelse (b_check_word k dbg fuel (enc w) ForbidBadForceucase AcceptHiddenHomonym)
      (orelse (if b then (t <- b_titlecase k (enc w) ;; b_casing_title k dbg fuel t) else Ret None)
      (if ck_lower_as_upper k then (u <- b_uppercase k (enc w) ;; b_casing_upper k dbg fuel u) else Ret None)) =
      orelse (check_word k fuel w ForbidBadForceucase AcceptHiddenHomonym)
      (orelse (if b then (t <- titlecase U case w ;; spell_casing_title k fuel t) else Ret None)
      (if ck_lower_as_upper k then spell_casing_upper k fuel (uppercase U case w) else Ret None))).
  { intro b. repeat apply orelse_cong.
    - apply word_enc; exact Hw.
    - destruct b; [|reflexivity]. rewrite title_enc by exact Hw. destruct (titlecase U case w) as [t| |] eqn:T; try reflexivity. cbn [encR bindR].
      apply casing_title_enc. apply (titlecase_scalars Hw T).
    - destruct (ck_lower_as_upper k); [|reflexivity]. rewrite uppercase_enc by exact Hw. cbn [bindR]. apply casing_upper_enc.
      apply scalars_upper; assumption. }
  destruct (classify_casing U w);
    match goal with
    | |- b_casing_upper _ _ _ _ = _ => apply casing_upper_enc; exact Hw
    | |- b_casing_title _ _ _ _ = _ => apply casing_title_enc; exact Hw
    | |- context [ck_lower_as_title k && ?b] => exact (G (ck_lower_as_title k && b))
    end.
Qed.

Lemma anyR_ext : forall X (f g : X -> Res bool) l, (forall x, In x l -> f x = g x) -> anyR f l = anyR g l.
Proof.
  intros X f g l. induction l as [|x l IH]; intro H; [reflexivity|]. cbn [anyR]. rewrite H by (left; reflexivity).
  destruct (g x) as [[|]| |]; try reflexivity. cbn [bindR]. apply IH. intros y Hy. apply H. right. exact Hy.
Qed.
Lemma bind_cong : forall X Y (a b : Res X) (f g : X -> Res Y), a = b -> (forall x, f x = g x) -> bindR a f = bindR b g.
Proof. intros X Y a b f g -> H. destruct b; [apply H|reflexivity|reflexivity]. Qed.

Lemma break_enc : forall fuel n w, scalars w -> b_do_break k dbg fuel n (enc w) = do_spell_break k fuel n w.
Proof.
  intros fuel n. rewrite !Forall_app in HB. destruct HB as (H1 & H2 & H3). rewrite Forall_forall in H1, H2, H3.
  induction n as [|n IH]; intros w Hw; cbn [b_do_break do_spell_break].
  all: apply bind_cong; [apply casing_enc; exact Hw|]; intros [f|]; [reflexivity|].
  { reflexivity. }
  apply bind_cong.
  { apply anyR_ext. intros p Hp. rewrite strip_prefix_enc by (exact Hw || exact (H1 p Hp)). cbn [bindR].
    destruct (strip_prefix p w) as [r|] eqn:E; cbn [option_map]; [|reflexivity]. apply IH.
    apply strip_prefix_spec in E. subst w. apply Forall_app in Hw. apply Hw. }
  intros [|]; [reflexivity|]. apply bind_cong.
  { apply anyR_ext. intros p Hp. rewrite strip_suffix_enc by (exact Hw || exact (H2 p Hp)). cbn [bindR].
    destruct (strip_suffix p w) as [r|] eqn:E; cbn [option_map]; [|reflexivity]. apply IH.
    apply strip_suffix_spec in E. subst w. apply Forall_app in Hw. apply Hw. }
  intros [|]; [reflexivity|]. apply anyR_ext. intros p Hp. rewrite split_once_enc by (exact Hw || exact (H3 p Hp)). cbn [bindR].
  destruct (split_once p w) as [[a b]|] eqn:E; cbn [option_map both fst snd]; [|reflexivity].
  destruct (split_once_scalars _ E Hw) as [Ha Hb].
  replace (length (enc b) =? 0) with (negb (nonempty b)).
  2: { destruct b as [|c b]; [reflexivity|]. pose proof (enc_length (c :: b)). cbn [length nonempty negb] in *. symmetry. apply Nat.eqb_neq. lia. }
  destruct (negb (nonempty b)); [reflexivity|]. rewrite !IH by assumption. reflexivity.
Qed.

Theorem check_enc : forall fuel w, scalars w -> b_check k dbg fuel (enc w) = check k fuel w.
Proof.
  intros fuel w Hw. unfold b_check, check.
  replace (360 <? length (enc w)) with (max_word_len <? blen w)%N.
  2: { pose proof (blen_enc w). unfold max_word_len. destruct (Nat.ltb_spec 360 (length (enc w))); [apply N.ltb_lt|apply N.ltb_ge]; lia. }
  destruct (max_word_len <? blen w)%N; [reflexivity|].
  rewrite convert_enc by (exact Hw || exact IC || exact IO).
  destruct (convert_spec IC Hw) as (v & -> & CV). pose proof (Converts_scalars IO CV Hw) as Hv. cbn [encR bindR].
  destruct v as [|c v]; [reflexivity|]. set (x := c :: v) in *.
  replace (length (enc x) =? 0) with false.
  2: { pose proof (enc_length x). unfold x in *. cbn [length] in *. symmetry. apply Nat.eqb_neq. lia. }
  cbv zeta. rewrite trim_enc by exact Hv. rewrite text_enc by (apply scalars_trim; exact Hv). cbn [bindR].
  destruct (is_number (trim_end_dots x)); [reflexivity|]. rewrite trim_same. unfold spell_break.
  apply bind_cong; [apply break_enc, scalars_erase, scalars_trim; exact Hv|]. intros [|]; [reflexivity|].
  destruct (negb _); [apply break_enc; exact Hv|reflexivity].
Qed.
End Checker.
