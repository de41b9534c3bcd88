(** Affix conditions: aff.rs 108-178 (matching), 387-404 and 459-488 (use by prefixes and
    suffixes), aff/parser.rs 1712-1773 (parsing). *)
From Coq Require Import List NArith ZArith Lia Bool Arith.
From Coq Require Import ZifyBool ZifyNat ZifyN.
From Verif Require Import Base Utf8.
Import ListNotations.
Set Implicit Arguments.

Definition ch_dot : N := 46.    (* '.' *)
Definition ch_lbr : N := 91.    (* '[' *)
Definition ch_rbr : N := 93.    (* ']' *)
Definition ch_caret : N := 94.  (* '^' *)

(** aff.rs 108-130. *)
Record condition := mkCondition { c_pattern : str; c_chars : nat; c_literal : bool }.

(** The [for ch in pattern.by_ref()] loop over a character class (aff.rs 149-157): returns
    [found] and the rest of the pattern. *)
Fixpoint class_scan (p : str) (x : N) (found : bool) : bool * str :=
  match p with
  | [] => (found, [])
  | c :: p' =>
      if (c =? ch_rbr)%N then (found, p')
      else class_scan p' x (if (c =? x)%N then true else found)
  end.

(** [Condition::matches] (aff.rs 133-178).  The loop consumes one input character per
    round, so it recurses on the input. *)
Fixpoint cond_matches (p input : str) : bool :=
  match p with
  | [] => true
  | c :: p' =>
      match input with
      | [] => false
      | x :: input' =>
          if (c =? ch_dot)%N then cond_matches p' input'
          else if (c =? ch_lbr)%N then
            let '(negative, p1) :=
              match p' with
              | c1 :: p2 => if (c1 =? ch_caret)%N then (true, p2) else (false, p')
              | [] => (false, p')
              end in
            let '(found, p3) := class_scan p1 x false in
            if negb negative && negb found then false
            else if negative && found then false
            else cond_matches p3 input'
          else if (c =? x)%N then cond_matches p' input' else false
      end
  end.

(** [Prefix::condition_matches] (aff.rs 387-404). *)
Definition prefix_condition_matches (oc : option condition) (word : str) : bool :=
  match oc with
  | None => true
  | Some c =>
      if (blen word <? N.of_nat (c_chars c))%N then false
      else if c_literal c then starts_with (c_pattern c) word
      else cond_matches (c_pattern c) word
  end.

(** [Suffix::condition_matches] (aff.rs 459-488).  The fold over the reversed
    [char_indices] counts the characters taken and remembers the start of the last one. *)
Definition suffix_condition_matches (oc : option condition) (word : str) : bool :=
  match oc with
  | None => true
  | Some c =>
      if (blen word <? N.of_nat (c_chars c))%N then false
      else if c_literal c then ends_with (c_pattern c) word
      else
        let taken := length (firstn (c_chars c) (rev word)) in
        if (taken <? c_chars c)%nat then false
        else cond_matches (c_pattern c) (skipn (length word - taken) word)
  end.

(** aff/parser.rs 1686-1696. *)
Inductive condition_error :=
| UnopenedCharacterClass | UnclosedCharacterClass | EmptyCharacterClass.

Definition is_bracket (c : N) : bool := (c =? ch_lbr)%N || (c =? ch_rbr)%N.

(** The scanning loop of [Condition::from_str] (aff/parser.rs 1721-1762).  [fuel] bounds
    the number of rounds; [cond_scan_fuel_ok] shows it never runs out. *)
Fixpoint cond_scan (fuel : nat) (scan : str) (chars : nat) : Res (result nat condition_error) :=
  match fuel with
  | O => NoFuel
  | S fuel' =>
      match find_char is_bracket scan with
      | None => Ret (Ok (chars + length scan))
      | Some i =>
          let chars := chars + i in
          match skipn i scan with
          | [] => Panic
          | c :: scan1 =>
              if (c =? ch_rbr)%N then Ret (Err UnopenedCharacterClass)
              else if (c =? ch_lbr)%N then
                match scan1 with
                | [] => Ret (Err UnclosedCharacterClass)
                | d :: scan2 =>
                    let scan3 := if (d =? ch_caret)%N then scan2 else scan1 in
                    match find_char (fun x => (x =? ch_rbr)%N) scan3 with
                    | None => Ret (Err UnclosedCharacterClass)
                    | Some O => Ret (Err EmptyCharacterClass)
                    | Some j => cond_scan fuel' (skipn (j + 1) scan3) (chars + 1)
                    end
                end
              else Panic
          end
      end
  end.

(** [Condition::from_str] (aff/parser.rs 1715-1772). *)
Definition cond_from_str (s : str) : Res (result condition condition_error) :=
  r <- cond_scan (S (length s)) s 0 ;;
  match r with
  | Err e => Ret (Err e)
  | Ok n => Ret (Ok (mkCondition s n
                       (negb (existsb (fun c => (c =? ch_dot)%N || (c =? ch_lbr)%N) s))))
  end.

(** ** Specification: a condition is a sequence of elements, each describing one character. *)
Inductive celem := CAny | CLit (c : N) | CClass (neg : bool) (cs : str).

Definition celem_text (e : celem) : str :=
  match e with
  | CAny => [ch_dot]
  | CLit c => [c]
  | CClass neg cs => [ch_lbr] ++ (if neg then [ch_caret] else []) ++ cs ++ [ch_rbr]
  end.

Definition celem_ok (e : celem) : Prop :=
  match e with
  | CAny => True
  | CLit c => c <> ch_dot /\ c <> ch_lbr /\ c <> ch_rbr
  | CClass neg cs => cs <> [] /\ ~ In ch_rbr cs /\ (neg = false -> hd_error cs <> Some ch_caret)
  end.

(** Which characters an element accepts. *)
Definition celem_accepts (e : celem) (x : N) : Prop :=
  match e with
  | CAny => True
  | CLit c => x = c
  | CClass neg cs => if neg then ~ In x cs else In x cs
  end.

Definition celems_text (es : list celem) : str := flat_map celem_text es.
Definition celems_ok (es : list celem) : Prop := Forall celem_ok es.

(** The condition written as [es] holds of the beginning / the end of a word. *)
Definition holds_at_start (es : list celem) (w : str) : Prop :=
  exists u v, w = u ++ v /\ Forall2 celem_accepts es u.
Definition holds_at_end (es : list celem) (w : str) : Prop :=
  exists u v, w = u ++ v /\ Forall2 celem_accepts es v.

(** ** Matching *)
Lemma class_scan_spec : forall cs rest x found, ~ In ch_rbr cs ->
  class_scan (cs ++ ch_rbr :: rest) x found = (found || memb x cs, rest).
Proof.
  induction cs as [|c cs IH]; intros rest x found H; cbn [class_scan app].
  - rewrite N.eqb_refl. simpl. rewrite orb_false_r. reflexivity.
  - destruct (N.eqb_spec c ch_rbr) as [->|_]; [exfalso; apply H; left; reflexivity|].
    rewrite IH by (intro; apply H; right; assumption).
    cbn [memb existsb]. rewrite (N.eqb_sym x c).
    f_equal. destruct (c =? x)%N; [rewrite !orb_true_r|]; destruct found; reflexivity.
Qed.

Lemma cond_matches_elem : forall e p x w, celem_ok e ->
  cond_matches (celem_text e ++ p) (x :: w) = true <->
  (celem_accepts e x /\ cond_matches p w = true).
Proof.
  intros e p x w He. destruct e as [|c|neg cs]; cbn [celem_text celem_accepts celem_ok app] in *.
  - cbn [cond_matches]. rewrite N.eqb_refl. tauto.
  - destruct He as [H1 [H2 H3]]. cbn [cond_matches].
    destruct (N.eqb_spec c ch_dot); [contradiction|]. destruct (N.eqb_spec c ch_lbr); [contradiction|].
    destruct (N.eqb_spec c x) as [->|Hne].
    + tauto.
    + split; [discriminate|]. intros [-> _]. contradiction.
  - destruct He as [H1 [H2 H3]]. cbn [cond_matches].
    change (ch_lbr =? ch_dot)%N with false. change (ch_lbr =? ch_lbr)%N with true. cbv iota.
    destruct neg; cbn [app].
    + change (ch_caret =? ch_caret)%N with true. cbv iota.
      rewrite <- app_assoc. cbn [app]. rewrite class_scan_spec by exact H2. cbn [negb andb orb].
      rewrite <- memb_In. destruct (memb x cs).
      * split; [discriminate|]. intros [H _]. exfalso. apply H. reflexivity.
      * split; [intro H; split; [discriminate|exact H]|tauto].
    + destruct cs as [|c1 cs]; [contradiction|]. cbn [app].
      destruct (N.eqb_spec c1 ch_caret) as [->|_]; [exfalso; apply H3; reflexivity|].
      change (c1 :: (cs ++ [ch_rbr]) ++ p) with (((c1 :: cs) ++ [ch_rbr]) ++ p).
      rewrite <- app_assoc. cbn [app]. change (c1 :: cs ++ ch_rbr :: p) with ((c1 :: cs) ++ ch_rbr :: p).
      rewrite class_scan_spec by exact H2. cbn [negb andb orb].
      rewrite <- memb_In. destruct (memb x (c1 :: cs)); cbn [negb].
      * tauto.
      * split; [discriminate|]. intros [H _]. discriminate H.
Qed.

Lemma celem_text_nonempty : forall e, exists c r, celem_text e = c :: r.
Proof. intros [|c|[] cs]; simpl; eauto. Qed.

Theorem cond_matches_spec : forall es w, celems_ok es ->
  (cond_matches (celems_text es) w = true <-> holds_at_start es w).
Proof.
  induction es as [|e es IH]; intros w H.
  - replace (cond_matches (celems_text []) w) with true by (destruct w; reflexivity).
    split; [intros _|reflexivity]. exists [], w. split; [reflexivity|constructor].
  - inversion H as [|? ? He Hes]; subst. cbn [celems_text flat_map].
    destruct w as [|x w].
    + destruct (celem_text_nonempty e) as [c [r E]]. rewrite E. cbn [app cond_matches].
      split; [discriminate|]. intros [u [v [E1 E2]]]. symmetry in E1. apply app_eq_nil in E1.
      destruct E1 as [-> ->]. inversion E2.
    + rewrite cond_matches_elem by exact He. fold (celems_text es). rewrite (IH w Hes). split.
      * intros [Ha [u [v [E1 E2]]]]. exists (x :: u), v. subst w. split; [reflexivity|].
        constructor; assumption.
      * intros [u [v [E1 E2]]]. inversion E2 as [|? y ? u' Ha E3]; subst.
        cbn [app] in E1. injection E1 as -> ->. split; [exact Ha|]. exists u', v. auto.
Qed.

(** ** Parsing *)
Lemma celems_text_app : forall a b, celems_text (a ++ b) = celems_text a ++ celems_text b.
Proof. intros. apply flat_map_app. Qed.

(** Text without brackets is one element per character. *)
Definition plain_elem (c : N) : celem := if (c =? ch_dot)%N then CAny else CLit c.

Lemma plain_elems : forall u, forallb (fun x => negb (is_bracket x)) u = true ->
  celems_ok (map plain_elem u) /\ celems_text (map plain_elem u) = u.
Proof.
  induction u as [|c u IH]; simpl; intro H; [split; [constructor|reflexivity]|].
  apply andb_true_iff in H. destruct H as [H1 H2]. destruct (IH H2) as [I1 I2].
  unfold is_bracket in H1. split.
  - constructor; [|exact I1]. unfold plain_elem. destruct (N.eqb_spec c ch_dot); simpl; [exact I|].
    split; [assumption|]. split; intros ->; discriminate H1.
  - fold (celems_text (map plain_elem u)). rewrite I2. unfold plain_elem.
    destruct (N.eqb_spec c ch_dot) as [->|]; reflexivity.
Qed.

Lemma cond_scan_sound : forall fuel s n m, cond_scan fuel s n = Ret (Ok m) ->
  exists es, celems_ok es /\ celems_text es = s /\ m = n + length es.
Proof.
  induction fuel as [|fuel IH]; intros s n m H; cbn [cond_scan] in H; [discriminate|].
  destruct (find_char is_bracket s) as [i|] eqn:F.
  2:{ injection H as <-. apply find_char_none in F. destruct (plain_elems _ F) as [P1 P2].
      exists (map plain_elem s). rewrite map_length. auto. }
  apply find_char_some in F. destruct F as [u [c [v [-> [Hu [Hc Hub]]]]]].
  rewrite skipn_app_exact in H by congruence.
  destruct (N.eqb_spec c ch_rbr); [discriminate|]. destruct (N.eqb_spec c ch_lbr) as [->|]; [|discriminate].
  destruct v as [|d v]; [discriminate|].
  set (s3 := if (d =? ch_caret)%N then v else d :: v) in *.
  destruct (find_char (fun x => (x =? ch_rbr)%N) s3) as [j|] eqn:G; [|discriminate].
  destruct j as [|j]; [discriminate|].
  apply find_char_some in G. destruct G as [cs [c' [r [E3 [Hcs [Hc' Hcsb]]]]]].
  apply N.eqb_eq in Hc'. subst c'.
  rewrite E3 in H. change (cs ++ ch_rbr :: r) with (cs ++ [ch_rbr] ++ r) in H.
  rewrite app_assoc, skipn_app_exact in H by (rewrite app_length; simpl; lia).
  apply IH in H. destruct H as [es [He1 [He2 He3]]].
  destruct (plain_elems _ Hub) as [P1 P2].
  exists (map plain_elem u ++ CClass (d =? ch_caret)%N cs :: es). repeat split.
  - apply Forall_app. split; [exact P1|]. constructor; [|exact He1]. cbn [celem_ok].
    split; [destruct cs; [discriminate|congruence]|]. split.
    + intro Hin. rewrite forallb_forall in Hcsb. apply Hcsb in Hin.
      rewrite N.eqb_refl in Hin. discriminate.
    + intros E. unfold s3 in E3. rewrite E in E3. destruct cs as [|c1 cs]; [discriminate|].
      cbn [app] in E3. injection E3 as -> _. simpl. intro Q. injection Q as ->.
      rewrite N.eqb_refl in E. discriminate.
  - rewrite celems_text_app, P2. f_equal. cbn [celems_text flat_map celem_text].
    fold (celems_text es). rewrite He2. unfold s3 in E3.
    destruct (N.eqb_spec d ch_caret) as [->|]; cbn [app]; rewrite <- app_assoc; cbn [app].
    + rewrite <- E3. reflexivity.
    + rewrite <- E3. reflexivity.
  - rewrite He3, app_length, map_length. simpl. lia.
Qed.

(** Splitting an element list at its first class. *)
Lemma celems_first_class : forall es, celems_ok es ->
  (forallb (fun x => negb (is_bracket x)) (celems_text es) = true /\ length (celems_text es) = length es) \/
  (exists es1 neg cs es2, es = es1 ++ CClass neg cs :: es2 /\
     forallb (fun x => negb (is_bracket x)) (celems_text es1) = true /\
     length (celems_text es1) = length es1).
Proof.
  induction es as [|e es IH]; intro H; [left; auto|].
  inversion H as [|? ? He Hes]; subst. destruct e as [|c|neg cs].
  - destruct (IH Hes) as [[H1 H2]|[es1 [neg [cs [es2 [E [H1 H2]]]]]]].
    + left. simpl. fold (celems_text es). rewrite H1, H2. auto.
    + right. exists (CAny :: es1), neg, cs, es2. subst es. simpl. fold (celems_text es1).
      rewrite H1, H2. auto.
  - assert (negb (is_bracket c) = true) as Hb.
    { destruct He as [_ [H1 H2]]. unfold is_bracket.
      destruct (N.eqb_spec c ch_lbr); [contradiction|]. destruct (N.eqb_spec c ch_rbr); [contradiction|].
      reflexivity. }
    destruct (IH Hes) as [[H1 H2]|[es1 [neg [cs [es2 [E [H1 H2]]]]]]].
    + left. simpl. fold (celems_text es). rewrite H1, H2, Hb. auto.
    + right. exists (CLit c :: es1), neg, cs, es2. subst es. simpl. fold (celems_text es1).
      rewrite H1, H2, Hb. auto.
  - right. exists [], neg, cs, es. auto.
Qed.

Lemma cond_scan_complete : forall fuel es n, celems_ok es -> length (celems_text es) < fuel ->
  cond_scan fuel (celems_text es) n = Ret (Ok (n + length es)).
Proof.
  induction fuel as [|fuel IH]; intros es n H Hf; [lia|]. cbn [cond_scan].
  destruct (celems_first_class H) as [[H1 H2]|[es1 [neg [cs [es2 [E [H1 H2]]]]]]].
  - apply find_char_none in H1. rewrite H1, H2. reflexivity.
  - subst es. apply Forall_app in H. destruct H as [Hok1 Hok2].
    inversion Hok2 as [|? ? Hcl Hok3]; subst. destruct Hcl as [Hc1 [Hc2 Hc3]].
    rewrite celems_text_app in Hf |- *. cbn [celems_text flat_map celem_text app] in Hf |- *.
    fold (celems_text es2) in Hf |- *. fold (celems_text es1) in Hf |- *.
    set (body := ((if neg then [ch_caret] else []) ++ cs ++ [ch_rbr]) ++ celems_text es2) in *.
    rewrite (@find_char_app is_bracket _ ch_lbr body eq_refl H1).
    rewrite skipn_app_exact by reflexivity.
    change (ch_lbr =? ch_rbr)%N with false. change (ch_lbr =? ch_lbr)%N with true. cbv iota.
    assert (exists d v, body = d :: v /\
              (if (d =? ch_caret)%N then v else d :: v) = cs ++ ch_rbr :: celems_text es2) as [d [v [Eb Es]]].
    { unfold body. destruct neg; cbn [app].
      - eexists _, _. split; [reflexivity|]. change (ch_caret =? ch_caret)%N with true. cbv iota.
        rewrite <- app_assoc. reflexivity.
      - destruct cs as [|c cs]; [contradiction|]. eexists _, _. split; [reflexivity|].
        destruct (N.eqb_spec c ch_caret) as [->|]; [exfalso; apply Hc3; reflexivity|].
        change (((c :: cs) ++ [ch_rbr]) ++ celems_text es2 = (c :: cs) ++ [ch_rbr] ++ celems_text es2).
        symmetry. apply app_assoc. }
    rewrite Eb. rewrite Es.
    rewrite find_char_app; [|reflexivity|].
    2:{ apply forallb_forall. intros x Hx. destruct (N.eqb_spec x ch_rbr) as [->|]; [contradiction|reflexivity]. }
    destruct (length cs) as [|k] eqn:Ek; [destruct cs; [contradiction|discriminate]|].
    change (cs ++ ch_rbr :: celems_text es2) with (cs ++ [ch_rbr] ++ celems_text es2).
    rewrite app_assoc, skipn_app_exact by (rewrite app_length; simpl; lia).
    rewrite IH; [|exact Hok3|].
    + f_equal. f_equal. rewrite app_length. simpl. lia.
    + unfold body in Hf. rewrite app_length in Hf. cbn [length] in Hf. rewrite app_length in Hf. lia.
Qed.

Lemma cond_scan_fuel_ok : forall fuel s n, length s < fuel -> exists r, cond_scan fuel s n = Ret r.
Proof.
  induction fuel as [|fuel IH]; intros s n H; [lia|]. cbn [cond_scan].
  destruct (find_char is_bracket s) as [i|] eqn:F; [|eauto].
  apply find_char_some in F. destruct F as [u [c [v [-> [Hu [Hc _]]]]]].
  rewrite skipn_app_exact by congruence. unfold is_bracket in Hc.
  destruct (N.eqb_spec c ch_rbr); [eauto|]. destruct (N.eqb_spec c ch_lbr); [|discriminate].
  destruct v as [|d v]; [eauto|].
  set (s3 := if (d =? ch_caret)%N then v else d :: v).
  assert (length s3 <= S (length v)) as Hl by (unfold s3; destruct (d =? ch_caret)%N; simpl; lia).
  clearbody s3. destruct (find_char (fun x => (x =? ch_rbr)%N) s3) as [j|] eqn:G; [|eauto].
  destruct j as [|j]; [eauto|]. apply IH. rewrite skipn_length.
  rewrite app_length in H. simpl in H. lia.
Qed.

Definition is_litb (e : celem) : bool := match e with CLit _ => true | _ => false end.

Lemma literal_flag : forall es, celems_ok es ->
  negb (existsb (fun c => (c =? ch_dot)%N || (c =? ch_lbr)%N) (celems_text es)) = forallb is_litb es.
Proof.
  induction es as [|e es IH]; intro H; [reflexivity|].
  inversion H as [|? ? He Hes]; subst. cbn [celems_text flat_map]. fold (celems_text es).
  rewrite existsb_app, negb_orb, (IH Hes). cbn [forallb]. f_equal.
  destruct e as [|c|neg cs]; [reflexivity| |reflexivity].
  destruct He as [H1 [H2 _]]. simpl.
  destruct (N.eqb_spec c ch_dot); [contradiction|]. destruct (N.eqb_spec c ch_lbr); [contradiction|].
  reflexivity.
Qed.

(** Every string parses or fails; it parses exactly when it is the text of an element list. *)
Theorem cond_from_str_spec : forall s c,
  cond_from_str s = Ret (Ok c) <->
  exists es, celems_ok es /\ s = celems_text es /\
             c = mkCondition s (length es) (forallb is_litb es).
Proof.
  intros s c. unfold cond_from_str. split.
  - intro H. destruct (cond_scan (S (length s)) s 0) as [[n|e]| |] eqn:E; try discriminate.
    cbn [bindR] in H. injection H as <-. apply cond_scan_sound in E.
    destruct E as [es [H1 [H2 H3]]]. exists es. split; [exact H1|]. split; [congruence|].
    rewrite <- H2 at 2. rewrite (literal_flag H1). simpl in H3. congruence.
  - intros [es [H1 [H2 H3]]]. subst s. rewrite cond_scan_complete by (auto; lia).
    cbn [bindR]. rewrite (literal_flag H1). simpl. congruence.
Qed.

Theorem cond_from_str_total : forall s, exists r, cond_from_str s = Ret r.
Proof.
  intro s. unfold cond_from_str. destruct (@cond_scan_fuel_ok (S (length s)) s 0) as [r E]; [lia|].
  rewrite E. destruct r; simpl; eauto.
Qed.

(** The element list of a text is unique. *)
Lemma celem_text_cancel : forall e e' p q, celem_ok e -> celem_ok e' ->
  celem_text e ++ p = celem_text e' ++ q -> e = e' /\ p = q.
Proof.
  assert (Hcut : forall cs cs' r r', ~ In ch_rbr cs -> ~ In ch_rbr cs' ->
             cs ++ ch_rbr :: r = cs' ++ ch_rbr :: r' -> cs = cs' /\ r = r').
  { induction cs as [|c cs IH]; intros cs' r r' H1 H2 H3; destruct cs' as [|c' cs']; simpl in H3.
    - injection H3 as ->. auto.
    - injection H3 as <- _. exfalso. apply H2. left. reflexivity.
    - injection H3 as -> _. exfalso. apply H1. left. reflexivity.
    - injection H3 as -> H3. apply IH in H3; [|intro; apply H1; right; assumption|intro; apply H2; right; assumption].
      destruct H3 as [-> ->]. auto. }
  assert (Hplain : forall c neg cs p q, c <> ch_lbr -> [c] ++ p = celem_text (CClass neg cs) ++ q -> False).
  { intros c neg cs p q H E. simpl in E. injection E as -> _. contradiction. }
  intros e e' p q He He' H.
  destruct e as [|c|neg cs], e' as [|c'|neg' cs'].
  - simpl in H. injection H as ->. auto.
  - simpl in H. injection H as <- _. destruct He' as [H1 _]. contradiction.
  - exfalso. eapply (Hplain ch_dot); [discriminate|exact H].
  - simpl in H. injection H as -> _. destruct He as [H1 _]. contradiction.
  - simpl in H. injection H as -> ->. auto.
  - exfalso. destruct He as [_ [H1 _]]. eapply (Hplain c); [exact H1|exact H].
  - exfalso. symmetry in H. eapply (Hplain ch_dot); [discriminate|exact H].
  - exfalso. symmetry in H. destruct He' as [_ [H1 _]]. eapply (Hplain c'); [exact H1|exact H].
  - destruct He as [H1 [H2 H3]]. destruct He' as [H1' [H2' H3']].
    cbn [celem_text app] in H. injection H as H. rewrite <- !app_assoc in H. cbn [app] in H.
    destruct neg, neg'; cbn [app] in H.
    + injection H as H. destruct (Hcut _ _ _ _ H2 H2' H) as [-> ->]. auto.
    + exfalso. destruct cs' as [|c' cs']; [contradiction|]. cbn [app] in H. injection H as <- _.
      apply H3'; reflexivity.
    + exfalso. destruct cs as [|c cs]; [contradiction|]. cbn [app] in H. injection H as -> _.
      apply H3; reflexivity.
    + destruct (Hcut _ _ _ _ H2 H2' H) as [-> ->]. auto.
Qed.

Theorem celems_text_inj : forall a b, celems_ok a -> celems_ok b -> celems_text a = celems_text b -> a = b.
Proof.
  induction a as [|e a IH]; intros b Ha Hb H.
  - destruct b as [|e' b]; [reflexivity|]. simpl in H.
    destruct (celem_text_nonempty e') as [c [r E]]. rewrite E in H. discriminate.
  - inversion Ha; subst. destruct b as [|e' b].
    + simpl in H. destruct (celem_text_nonempty e) as [c [r E]]. rewrite E in H. discriminate.
    + inversion Hb; subst. cbn [celems_text flat_map] in H.
      apply celem_text_cancel in H; [|assumption|assumption]. destruct H as [-> H].
      f_equal. apply IH; assumption.
Qed.

(** ** Conditions as used by prefixes and suffixes *)
(** [c] is a value produced by the parser from the elements [es]. *)
Definition cond_denotes (c : condition) (es : list celem) : Prop :=
  celems_ok es /\ c = mkCondition (celems_text es) (length es) (forallb is_litb es).

Lemma cond_from_str_denotes : forall s c, cond_from_str s = Ret (Ok c) -> exists es, cond_denotes c es.
Proof.
  intros s c H. apply cond_from_str_spec in H. destruct H as [es [H1 [H2 H3]]].
  exists es. split; [exact H1|]. subst. reflexivity.
Qed.

Lemma literal_elems : forall es, forallb is_litb es = true ->
  forall u, Forall2 celem_accepts es u <-> u = celems_text es.
Proof.
  induction es as [|e es IH]; intros H u.
  - simpl. split; [intro F; inversion F; reflexivity|intros ->; constructor].
  - destruct e as [|c|]; simpl in H; try discriminate. cbn [celems_text flat_map celem_text app].
    fold (celems_text es). split.
    + intro F. inversion F as [|? x ? u' Ha F']; subst. simpl in Ha. subst x.
      f_equal. apply IH; assumption.
    + intros ->. constructor; [reflexivity|]. apply IH; [exact H|reflexivity].
Qed.

Theorem prefix_condition_spec : forall c es w, cond_denotes c es ->
  (prefix_condition_matches (Some c) w = true <-> holds_at_start es w).
Proof.
  intros c es w [Hok ->]. unfold prefix_condition_matches. cbn [c_chars c_literal c_pattern].
  destruct (N.ltb_spec (blen w) (N.of_nat (length es))) as [Hlt|Hge].
  - split; [discriminate|]. intros [u [v [-> F]]]. apply Forall2_length in F.
    pose proof (blen_length (u ++ v)) as B. rewrite app_length in B. lia.
  - destruct (forallb is_litb es) eqn:L.
    + rewrite starts_with_spec. unfold holds_at_start. split.
      * intros [r ->]. exists (celems_text es), r. split; [reflexivity|]. apply literal_elems; auto.
      * intros [u [v [-> F]]]. apply literal_elems in F; [|exact L]. subst u. eauto.
    + apply cond_matches_spec. exact Hok.
Qed.

Theorem suffix_condition_spec : forall c es w, cond_denotes c es ->
  (suffix_condition_matches (Some c) w = true <-> holds_at_end es w).
Proof.
  intros c es w [Hok ->]. unfold suffix_condition_matches. cbn [c_chars c_literal c_pattern].
  destruct (N.ltb_spec (blen w) (N.of_nat (length es))) as [Hlt|Hge].
  - split; [discriminate|]. intros [u [v [-> F]]]. apply Forall2_length in F.
    pose proof (blen_length (u ++ v)) as B. rewrite app_length in B. lia.
  - destruct (forallb is_litb es) eqn:L.
    + rewrite ends_with_spec. unfold holds_at_end. split.
      * intros [r ->]. exists r, (celems_text es). split; [reflexivity|]. apply literal_elems; auto.
      * intros [u [v [-> F]]]. apply literal_elems in F; [|exact L]. subst v. eauto.
    + rewrite firstn_length, rev_length.
      destruct (Nat.ltb_spec (Nat.min (length es) (length w)) (length es)) as [Hs|Hs].
      * split; [discriminate|]. intros [u [v [-> F]]]. apply Forall2_length in F.
        rewrite app_length in Hs. lia.
      * rewrite Nat.min_l by lia. rewrite cond_matches_spec by exact Hok. split.
        -- intros [u [v [E F]]]. exists (firstn (length w - length es) w), u. split; [|exact F].
           assert (v = []) as ->.
           { apply Forall2_length in F. pose proof (f_equal (@length _) E) as EL.
             rewrite skipn_length, app_length in EL. destruct v; [reflexivity|simpl in EL; lia]. }
           rewrite app_nil_r in E. rewrite <- E. symmetry. apply firstn_skipn.
        -- intros [u [v [-> F]]]. exists v, []. rewrite app_nil_r. split; [|exact F].
           apply skipn_app_exact. apply Forall2_length in F. rewrite app_length. lia.
Qed.
