(** Properties C50 and C51: the .aff text, exactly, and what does not matter in it. *)
From Coq Require Import String Ascii List NArith ZArith Lia Bool Arith Permutation.
From Verif Require Import Base Utf8 Unicode Flags Bag Condition Affix Conversion Aff Checker AffixSpec CompoundRule Rep CompoundSpec
  CompoundTotal RuleCompound Spell CheckSpec CheckMono CheckProps Parser ParserSafe Lib LibSpec LibProps ParserProps TableProps Grammar Examples.
Import ListNotations.
Local Open Scope string_scope.
Local Open Scope list_scope.
Local Open Scope nat_scope.
Set Implicit Arguments.

Section Dict.
Variable pl : platform.
Hypothesis WP : wf_platform pl.

Lemma new_cases : forall aff dic d, scalars aff ->
  (new pl aff dic = Ret (Ok d) <->
   exists x, parse_aff pl aff = Ret (Ok x) /\ parse_dic pl x dic = Ret (Ok (d_words d)) /\ collect pl x = Ret (d_aff d)).
Proof.
  intros aff dic d Ha. split.
  - intro H. destruct (@new_ok pl aff dic d Ha H) as (x & _ & X). exists x. exact X.
  - intros (x & E1 & E2 & E3). unfold new, parse. rewrite E1. cbn [bindP]. rewrite E2. cbn [bindP]. rewrite E3. destruct d. reflexivity.
Qed.

(** ** C50: what the .aff text says *)

(** [new] accepts exactly the .aff texts of the grammar (given a .dic text it accepts), and
    the dictionary is the one the text describes. *)
Theorem C50_aff_exact : forall aff dic d, scalars aff ->
  (new pl aff dic = Ret (Ok d) <->
   exists x, Text pl (aff_words pl aff) default_lp x /\ parse_dic pl x dic = Ret (Ok (d_words d)) /\ collect pl x = Ret (d_aff d)).
Proof.
  intros aff dic d Ha. rewrite new_cases by exact Ha. split; intros (x & E & X); exists x; (split; [apply parse_aff_exact in E; assumption|exact X]).
Qed.

(** The directives of a text: name, other words of the line, lines of the table. *)
Definition directive := (str * list str * list (list str))%type.
Definition d_name (e : directive) : str := fst (fst e).
Inductive Cut : list (list str) -> list directive -> Prop :=
| Cut_end : Cut [] []
| Cut_skip : forall ws r ds, (forall key ws', ws = key :: ws' -> ~ known key) -> Cut r ds -> Cut (ws :: r) ds
| Cut_setting : forall key get dflt ws r ds, In (key, get, dflt) settings -> Cut r ds -> Cut ((key :: ws) :: r) ((key, ws, []) :: ds)
| Cut_table : forall key get t h rws r ds, In (key, get) tables -> Header pl t key h (N.of_nat (length rws)) ->
    Forall (fun ws => exists w, ws = key :: w) rws -> Cut r ds -> Cut ((key :: h) :: rws ++ r) ((key, h, rws) :: ds).

(** The flag type after some directives. *)
Definition TypeAfter (ds : list directive) (t : flag_type) : Prop :=
  (~ In (lit "FLAG") (map d_name ds) /\ t = FShort) \/
  (exists a w r b, ds = a ++ (lit "FLAG", w :: r, []) :: b /\ ~ In (lit "FLAG") (map d_name b) /\
     ((w = lit "long" /\ t = FLong) \/ (w = lit "num" /\ t = FNumeric) \/ (w = lit "UTF-8" /\ t = FUtf8))).

(** What the last directive of that name says, read with the flag type in force there. *)
Definition LastSays (ds : list directive) (key : str) (dflt v : value) : Prop :=
  (~ In key (map d_name ds) /\ v = dflt) \/
  (exists a ws b t, ds = a ++ (key, ws, []) :: b /\ ~ In key (map d_name b) /\ TypeAfter a t /\ Reads pl t key ws v).

Lemma default_settings : forall key get dflt, In (key, get, dflt) settings -> get (of_lp default_lp) = dflt.
Proof.
  intros key get dflt H. unfold settings in H. cbn [In] in H.
  repeat (destruct H as [H|H]; [injection H as <- <- <-; reflexivity|]). destruct H.
Qed.

Lemma last_says_snoc : forall ds e key dflt v v', LastSays ds key dflt v ->
  (d_name e = key -> exists ws t, e = (key, ws, []) /\ TypeAfter ds t /\ Reads pl t key ws v') ->
  (d_name e <> key -> v' = v) -> LastSays (ds ++ [e]) key dflt v'.
Proof.
  intros ds e key dflt v v' L H1 H2. destruct (list_eq_dec N.eq_dec (d_name e) key) as [E|E].
  - destruct (H1 E) as (ws & t & -> & T & R). right. exists ds, ws, [], t. auto.
  - rewrite (H2 E). destruct L as [[N ->]|(a & ws & b & t & -> & N & X)].
    + left. split; [|reflexivity]. rewrite map_app, in_app_iff. cbn. intros [I|[I|[]]]; [exact (N I)|exact (E I)].
    + right. exists a, ws, (b ++ [e]), t. split; [rewrite <- app_assoc; reflexivity|]. split; [|exact X].
      rewrite map_app, in_app_iff. cbn. intros [I|[I|[]]]; [exact (N I)|exact (E I)].
Qed.
Lemma type_after : forall ds t, LastSays ds (lit "FLAG") (VType FShort) (VType t) -> TypeAfter ds t.
Proof.
  intros ds t [[N E]|(a & ws & b & t0 & -> & N & _ & R)].
  - left. injection E as ->. auto.
  - right. inversion R; subst; try discriminate; exists a; eexists _, _; exists b; (split; [reflexivity|]); (split; [exact N|]); auto.
Qed.

Lemma text_cut : forall ls x x', Text pl ls x x' -> forall ds0,
  (forall key get dflt, In (key, get, dflt) settings -> LastSays ds0 key dflt (get (of_lp x))) ->
  exists ds, Cut ls ds /\ forall key get dflt, In (key, get, dflt) settings -> LastSays (ds0 ++ ds) key dflt (get (of_lp x')).
Proof.
  intros ls x x' T. induction T as [x|ws r x x' NK T IH|key ws rws r x x1 x2 D T IH]; intros ds0 H0.
  - exists []. split; [constructor|]. intros k g d I. rewrite app_nil_r. exact (H0 _ _ _ I).
  - destruct (IH ds0 H0) as (ds & C & L). exists ds. split; [constructor; assumption|exact L].
  - assert (TA : TypeAfter ds0 (x_flag_type x)).
    { apply type_after. apply (H0 (lit "FLAG") (fun w => VType (w_type w)) (VType FShort)). left. reflexivity. }
    assert (STEP : forall k g d, In (k, g, d) settings -> LastSays (ds0 ++ [(key, ws, rws)]) k d (g (of_lp x1))).
    { intros k g d I. eapply last_says_snoc; [exact (H0 _ _ _ I)| |].
      - cbn [d_name fst]. intros ->. inversion D as [? get dflt ? ? I0 R0 K0 T0|? get ? ? cells ? I0]; subst.
        + destruct (@settings_fun _ _ _ _ _ I I0) as [<- _]. exists ws, (x_flag_type x). auto.
        + exfalso. eapply not_both; eassumption.
      - cbn [d_name fst]. intro NE. inversion D as [? get dflt ? ? I0 R0 K0 T0|? get ? ? cells ? I0 HH F G K T0]; subst.
        + apply (K0 _ _ _ I). congruence.
        + rewrite (kept_settings K). reflexivity. }
    destruct (IH _ STEP) as (ds & C & L). exists ((key, ws, rws) :: ds). split.
    + inversion D as [? get dflt ? ? I0 R0 K0 T0|? get ? ? cells ? I0 HH F G K T0]; subst.
      * cbn [app]. eapply Cut_setting; eassumption.
      * eapply Cut_table; [exact I0|exact HH| |exact C]. clear - F. induction F as [|a b u v (w & E & _) F IH]; constructor; eauto.
    + intros k g d I. specialize (L _ _ _ I). rewrite <- app_assoc in L. exact L.
Qed.

(** Every one-line directive sets its own value and nothing else: each value is what the
    last directive of that name says, and the default without one. *)
Theorem C50_settings : forall aff dic d, scalars aff -> new pl aff dic = Ret (Ok d) ->
  exists ds, Cut (aff_words pl aff) ds /\
    forall key get dflt, In (key, get, dflt) settings -> LastSays ds key dflt (get (of_aff (d_aff d))).
Proof.
  intros aff dic d Ha H. destruct (@new_ok pl aff dic d Ha H) as (x & LO & PA & _ & CO). apply parse_aff_exact in PA; [|exact Ha].
  destruct (@text_cut _ _ _ PA []) as (ds & C & L).
  { intros k g df I. left. split; [intros []|]. eapply default_settings, I. }
  exists ds. split; [exact C|]. intros k g df I. specialize (L _ _ _ I). cbn [app] in L.
  assert (E : of_aff (d_aff d) = of_lp x).
  { unfold collect in CO. destruct (affix_index_from pl Pfx _); cbn [bindR] in CO; try discriminate CO.
    destruct (affix_index_from pl Sfx _); cbn [bindR] in CO; try discriminate CO.
    destruct (break_new _); cbn [bindR] in CO; try discriminate CO. destruct (rep_from _); cbn [bindR] in CO; try discriminate CO.
    destruct (rule_table_from _); cbn [bindR] in CO; try discriminate CO. injection CO as <-. reflexivity. }
  rewrite E. exact L.
Qed.

(** ** C51: layout does not matter *)

(** The dictionary depends on the .aff text only through the words of the lines that are
    not comments. *)
Theorem C51_same_words : forall aff aff' dic d, scalars aff -> scalars aff' -> aff_words pl aff' = aff_words pl aff ->
  new pl aff dic = Ret (Ok d) -> new pl aff' dic = Ret (Ok d).
Proof.
  intros aff aff' dic d Ha Ha' E H. apply C50_aff_exact in H; [|exact Ha]. apply C50_aff_exact; [exact Ha'|]. rewrite E. exact H.
Qed.

(** A text written from its lines, each ended by a line feed or by a carriage return and a
    line feed. *)
Inductive Ended : list str -> str -> Prop :=
| En_nil : Ended [] []
| En_lf : forall l ls t, ~ In 10%N l -> last l 0%N <> 13%N -> Ended ls t -> Ended (l :: ls) (l ++ 10%N :: t)
| En_crlf : forall l ls t, ~ In 10%N l -> Ended ls t -> Ended (l :: ls) (l ++ 13%N :: 10%N :: t).

Lemma lines_go_ended : forall l t cur, ~ In 10%N l -> lines_go (l ++ 10%N :: t) cur = strip_cr (rev l ++ cur) :: text_lines t.
Proof.
  induction l as [|c l IH]; intros t cur H; [reflexivity|]. cbn [app lines_go].
  destruct (N.eqb_spec c 10) as [-> | NE]; [exfalso; apply H; left; reflexivity|].
  rewrite IH by (intro I; apply H; right; exact I). cbn [rev]. rewrite <- app_assoc. reflexivity.
Qed.
Lemma ended_lines : forall ls t, Ended ls t -> text_lines t = ls.
Proof.
  intros ls t E. induction E as [|l ls t N1 N2 E IH|l ls t N1 E IH]; [reflexivity| |].
  - unfold text_lines at 1. rewrite lines_go_ended by exact N1. rewrite IH, app_nil_r. f_equal.
    destruct (rev l) as [|c r] eqn:R; [destruct l; [reflexivity|apply (f_equal (@length _)) in R; rewrite rev_length in R; discriminate R]|].
    apply (f_equal (@rev _)) in R. rewrite rev_involutive in R. cbn [rev] in R. subst l. rewrite last_last in N2. cbn [strip_cr].
    destruct (N.eqb_spec c 13); [contradiction|reflexivity].
  - unfold text_lines at 1. replace (l ++ 13%N :: 10%N :: t) with ((l ++ [13%N]) ++ 10%N :: t) by (rewrite <- app_assoc; reflexivity).
    rewrite lines_go_ended. 2:{ rewrite in_app_iff. cbn. intros [I|[I|[]]]; [exact (N1 I)|discriminate I]. }
    rewrite IH, app_nil_r, rev_app_distr. cbn [rev app strip_cr]. rewrite rev_involutive. reflexivity.
Qed.

(** A byte order mark, the kind of line ends, comments, and the spacing of the words do not
    matter. *)
Definition says (l : str) : option (list str) := if is_comment pl l then None else Some (split_whitespace pl l).
Fixpoint saying (ls : list str) : list (list str) :=
  match ls with [] => [] | l :: r => match says l with Some ws => ws :: saying r | None => saying r end end.
Lemma saying_words : forall ls n, map (words_of pl) (filter (fun nl => negb (is_comment pl (snd nl))) (number_from n ls)) = saying ls.
Proof.
  induction ls as [|l r IH]; intro n; [reflexivity|]. cbn [number_from filter saying snd]. unfold says.
  destruct (is_comment pl l); cbn [negb map]; rewrite IH; reflexivity.
Qed.

Definition marked (bom : bool) (t : str) : str := if bom then 65279%N :: t else t.
Lemma ended_words : forall bom ls t, Ended ls t -> hd 0%N t <> 65279%N -> aff_words pl (marked bom t) = saying ls.
Proof.
  intros bom ls t E NB. unfold aff_words. rewrite <- (saying_words ls 0). apply ended_lines in E. rewrite <- E. do 4 f_equal.
  destruct bom; unfold marked.
  - reflexivity.
  - destruct t as [|c t]; [reflexivity|]. cbn [hd] in NB. unfold strip_prefix. cbn [starts_with].
    destruct (N.eqb_spec 65279 c) as [<- | _]; [congruence|reflexivity].
Qed.

Theorem C51_layout : forall bom bom' ls ls' t t' dic d, Ended ls t -> Ended ls' t' -> scalars t -> scalars t' ->
  hd 0%N t <> 65279%N -> hd 0%N t' <> 65279%N -> saying ls = saying ls' ->
  new pl (marked bom t) dic = Ret (Ok d) -> new pl (marked bom' t') dic = Ret (Ok d).
Proof.
  intros bom bom' ls ls' t t' dic d E E' Ht Ht' N1 N2 Es H.
  assert (B : forall b u, scalars u -> scalars (marked b u)).
  { intros b u Hu. destruct b; [|exact Hu]. constructor; [reflexivity|exact Hu]. }
  eapply C51_same_words; [| | |exact H]; [apply B, Ht|apply B, Ht'|]. rewrite (ended_words bom E N1), (ended_words bom' E' N2). auto.
Qed.

Lemma header_count : forall t t' key h n n', Header pl t key h n -> Header pl t' key h n' -> n = n'.
Proof.
  intros t t' key h n n' [L H] [L' H'].
  assert (U1 : forall w, Decimal w n -> Decimal w n' -> n = n').
  { intros w D D'. assert (E1 : parse_usize w = Ok n) by (apply usize_spec; auto). assert (E2 : parse_usize w = Ok n') by (apply usize_spec; auto). congruence. }
  destruct H as [(K & fs & fl & cp & w & r & -> & _ & _ & D)|(K1 & K2 & w & r & -> & D)],
           H' as [(K' & fs' & fl' & cp' & w' & r' & E & _ & _ & D')|(K1' & K2' & w' & r' & E & D')];
    try (exfalso; destruct K; contradiction); try (exfalso; destruct K'; contradiction); injection E as E; intros; subst; eapply U1; eassumption.
Qed.
Lemma app_split : forall A (a b c d : list A), length a = length b -> a ++ c = b ++ d -> a = b /\ c = d.
Proof.
  intros A. induction a as [|x a IH]; intros [|y b] c d L E; try discriminate L; [auto|]. injection E as -> E. injection L as L.
  destruct (IH _ _ _ L E) as [-> ->]. auto.
Qed.
Lemma text_app : forall A x x1, Text pl A x x1 -> forall B x', Text pl B x1 x' -> Text pl (A ++ B) x x'.
Proof.
  intros A x x1 T. induction T; intros B x0 TB; cbn [app].
  - exact TB.
  - apply T_skip; auto.
  - rewrite <- app_assoc. eapply T_directive; eauto.
Qed.
Lemma text_split : forall A ds, Cut A ds -> forall B x x', Text pl (A ++ B) x x' -> exists x1, Text pl A x x1 /\ Text pl B x1 x'.
Proof.
  intros A ds C. induction C as [|ws r ds NK C IH|key get dflt ws r ds I C IH|key get t h rws r ds I HH F C IH]; intros B x x' T; cbn [app] in T.
  - exists x. split; [constructor|exact T].
  - inversion T as [|? ? ? ? _ T'|key ws0 rws r0 ? x1 ? D T' Q]; subst.
    + destruct (IH _ _ _ T') as (x1 & T1 & T2). exists x1. split; [apply T_skip; assumption|exact T2].
    + exfalso. apply (NK key ws0 eq_refl). destruct D; [left|right]; eauto.
  - inversion T as [|? ? ? ? NK T'|? ? rws r0 ? x1 ? D T' Q]; subst.
    + exfalso. apply (NK _ _ eq_refl). left. eauto.
    + inversion D as [? get0 dflt0 ? ? I0 R0 K0 T0|? get0 ? ? cells ? I0]; subst; [|exfalso; eapply not_both; eassumption].
      cbn [app] in *. subst r0. destruct (IH _ _ _ T') as (x2 & T1 & T2). exists x2. split; [|exact T2].
      change ((key :: ws) :: r) with ((key :: ws) :: [] ++ r). eapply T_directive; eassumption.
  - inversion T as [|? ? ? ? NK T'|? ? rws0 r0 ? x1 ? D T' Q]; subst.
    + exfalso. apply (NK _ _ eq_refl). right. eauto.
    + inversion D as [? get0 dflt0 ? ? I0 R0 K0 T0|? get0 ? ? cells ? I0 HH0]; subst; [exfalso; eapply not_both; eassumption|].
      pose proof (header_count HH HH0) as E. 
      match goal with Q : _ ++ _ = (_ ++ _) ++ _ |- _ => rewrite <- app_assoc in Q; rename Q into Q9 end.
      destruct (@app_split _ rws0 rws r0 (r ++ B)) as [-> ->]; [apply Nnat.Nat2N.inj; symmetry; exact E|exact Q9|].
      destruct (IH _ _ _ T') as (x2 & T1 & T2). exists x2. split; [|exact T2]. eapply T_directive; eassumption.
Qed.
Lemma saying_app : forall a b, saying (a ++ b) = saying a ++ saying b.
Proof. induction a as [|l a IH]; intro b; [reflexivity|]. cbn [app saying]. rewrite IH. destruct (says l); reflexivity. Qed.

(** A line that names no directive changes nothing before, between or after directives
    (between the rows of a table it is an error). *)
Theorem C51_unknown_lines : forall ls1 ls2 t t' bad ds1 dic d,
  Ended (ls1 ++ ls2) t -> Ended (ls1 ++ bad :: ls2) t' -> scalars t -> scalars t' ->
  hd 0%N t <> 65279%N -> hd 0%N t' <> 65279%N ->
  (forall key ws, split_whitespace pl bad = key :: ws -> ~ known key) -> Cut (saying ls1) ds1 ->
  (new pl t dic = Ret (Ok d) <-> new pl t' dic = Ret (Ok d)).
Proof.
  intros ls1 ls2 t t' bad ds1 dic d E E' Ht Ht' N1 N2 NK C. rewrite !C50_aff_exact by assumption.
  rewrite (@ended_words false _ _ E N1 : aff_words pl t = _), (@ended_words false _ _ E' N2 : aff_words pl t' = _), !saying_app. cbn [saying].
  unfold says at 1. destruct (is_comment pl bad); [reflexivity|].
  split; intros (x & T & X); exists x; (split; [|exact X]); destruct (@text_split _ _ C _ _ _ T) as (x1 & T1 & T2); eapply text_app; try exact T1.
  - apply T_skip; assumption.
  - inversion T2 as [|? ? ? ? _ T'|key ws0 rws r0 ? x2 ? D T' Q]; subst; [exact T'|].
    exfalso. refine (NK key ws0 _ _); [congruence|]. destruct D; [left|right]; eauto.
Qed.
End Dict.

(** ** Examples *)
Definition g_aff : str := lit "# comment
FLAG num
UNKNOWN 1 2
KEEPCASE 7
REP 2
REP f ph
  # between rows
REP ei ie
KEEPCASE 8 ignored
FORCEUCASE 9
COMPOUNDMIN 0
MAXDIFF 11
LANG tr".

Example C50_example : exists d x, new ex_pl g_aff (lit "0") = Ret (Ok d) /\ Text ex_pl (aff_words ex_pl g_aff) default_lp x /\
  o_keep_case (ad_options (d_aff d)) = Some 8%N /\ o_force_upper (ad_options (d_aff d)) = Some 9%N /\
  o_min_length (ad_options (d_aff d)) = Some 1%N /\ o_max_diff (ad_options (d_aff d)) = 5%N /\ o_case (ad_options (d_aff d)) = Turkic /\
  x_reps x = [(lit "f", lit "ph"); (lit "ei", lit "ie")].
Proof.
  destruct (parse_aff ex_pl g_aff) as [[x|]| |] eqn:E; try (vm_compute in E; discriminate E).
  eexists _, x. split; [vm_compute; reflexivity|]. split; [apply parse_aff_exact; [apply lit_scalars; vm_compute; reflexivity|exact E]|].
  vm_compute in E. injection E as <-. repeat split; reflexivity.
Qed.
Example C50_rejected_example : ~ exists x, Text ex_pl (aff_words ex_pl (lit "REP 2
REP f ph

REP ei ie")) default_lp x.
Proof.
  intros (x & T). apply parse_aff_exact in T; [|apply lit_scalars; vm_compute; reflexivity]. vm_compute in T. discriminate T.
Qed.
Example C51_example : exists t t', Ended [lit "SET UTF-8"; lit "TRY abc"] t /\ Ended [lit "#"; lit "  SET	UTF-8"; lit "TRY abc"] t' /\
  saying ex_pl [lit "SET UTF-8"; lit "TRY abc"] = saying ex_pl [lit "#"; lit "  SET	UTF-8"; lit "TRY abc"] /\ t <> t' /\
  (exists d, new ex_pl (marked true t) (lit "0") = Ret (Ok d) /\ ad_try (d_aff d) = lit "abc").
Proof.
  eexists _, _. split; [|split; [|split; [vm_compute; reflexivity|split]]].
  - apply En_lf; [cbn; intuition discriminate|discriminate|]. apply En_lf; [cbn; intuition discriminate|discriminate|]. apply En_nil.
  - apply En_crlf; [cbn; intuition discriminate|]. apply En_crlf; [cbn; intuition discriminate|]. apply En_crlf; [cbn; intuition discriminate|]. apply En_nil.
  - discriminate.
  - eexists. split; vm_compute; reflexivity.
Qed.

Print Assumptions C50_aff_exact.
Print Assumptions C50_settings.
Print Assumptions C51_same_words.
Print Assumptions C51_layout.
Print Assumptions C51_unknown_lines.
