(** A concrete platform and concrete dictionaries, built by [new] from literal .aff and
    .dic texts.  The Properties files use them to show that the hypotheses of their
    theorems are met, and to refute statements the code does not satisfy. *)
From Coq Require Import String Ascii List NArith ZArith Lia Bool Arith Permutation Sorted.
From Coq Require Import ZifyBool ZifyNat ZifyN.
From Verif Require Import Base Utf8 Unicode Flags Bag Affix Conversion Aff Checker CompoundTotal Spell CheckSpec CheckMono CheckProps
  Parser ParserSafe Lib LibSpec LibProps.
Import ListNotations.
Local Open Scope string_scope.
Local Open Scope list_scope.
Local Open Scope nat_scope.

(** A 64-bit little-endian target built without overflow checks; every key hashes to 0 and
    every insertion goes to the front of one probe sequence. *)
Definition ex_platform (U : unicode) (overflow_checks : bool) : platform := mkPlatform U true overflow_checks
  (fun k => sort_by (affix_leb k)) (sort_by conv_leb) (fun _ => 0%N) (fun t e => e :: t) (fun _ _ => true).

Lemma ex_platform_wf : forall U o, wf_unicode U -> wf_platform (ex_platform U o).
Proof.
  intros U o H. constructor; cbn.
  - exact H.
  - intros k l. split; [apply sort_by_perm|].
    apply sort_by_sorted; [intros x y; apply lex_leb_total|intros x y z; apply lex_leb_trans].
  - intros l. split; [apply sort_by_perm|].
    apply sort_by_sorted; [intros x y; apply lex_leb_total|intros x y z; apply lex_leb_trans].
  - intros t e. reflexivity.
  - intro h. reflexivity.
Qed.

Lemma ascii_wf : wf_unicode ascii_unicode.
Proof.
  split; intros c Hc; cbn; constructor; try constructor.
  - unfold ascii_upper. destruct ((65 <=? c)%N && (c <=? 90)%N) eqn:E; [|exact Hc].
    apply andb_true_iff in E. destruct E as [E1 E2]. apply N.leb_le in E1. apply N.leb_le in E2.
    unfold scalar, scalarb in *. lia.
  - unfold ascii_lower. destruct ((97 <=? c)%N && (c <=? 122)%N) eqn:E; [|exact Hc].
    apply andb_true_iff in E. destruct E as [E1 E2]. apply N.leb_le in E1. apply N.leb_le in E2.
    unfold scalar, scalarb in *. lia.
Qed.

Definition ex_pl : platform := ex_platform ascii_unicode false.
Lemma ex_pl_wf : wf_platform ex_pl. Proof. apply ex_platform_wf, ascii_wf. Qed.


(** ASCII extended with sharp s, e acute and the dotted capital I. *)
Definition latin_unicode : unicode := mkUnicode
  (fun c => if (c =? 201)%N then [233%N] else if (c =? 304)%N then [105%N; 775%N] else u_lower ascii_unicode c)
  (fun c => if (c =? 233)%N then [201%N] else if (c =? 223)%N then [83%N; 83%N] else u_upper ascii_unicode c)
  (fun c => ascii_upper c || (c =? 201)%N || (c =? 304)%N)
  (fun c => ascii_lower c || (c =? 233)%N || (c =? 223)%N)
  (fun c => ascii_upper c || ascii_lower c || (c =? 201)%N || (c =? 233)%N || (c =? 223)%N || (c =? 304)%N)
  (u_is_ws ascii_unicode)
  (fun c => ascii_upper c || ascii_lower c || (c =? 201)%N || (c =? 233)%N || (c =? 223)%N || (c =? 304)%N)
  (fun c => u_case_ignorable ascii_unicode c || (c =? 775)%N).

Lemma latin_wf : wf_unicode latin_unicode.
Proof.
  destruct ascii_wf as [HL HU]. split; intros c Hc; cbn [u_lower u_upper latin_unicode].
  - destruct (c =? 201)%N; [repeat constructor|]. destruct (c =? 304)%N; [repeat constructor|]. apply HL, Hc.
  - destruct (c =? 233)%N; [repeat constructor|]. destruct (c =? 223)%N; [repeat constructor|]. apply HU, Hc.
Qed.

Definition latin_pl : platform := ex_platform latin_unicode false.
Lemma latin_pl_wf : wf_platform latin_pl. Proof. apply ex_platform_wf, latin_wf. Qed.

(** The dictionary two texts give. *)
Definition built (pl : platform) (aff dic : str) : option dictionary :=
  match new pl aff dic with Ret (Ok d) => Some d | _ => None end.
Definition the {A} (o : option A) : match o with Some _ => A | None => unit end :=
  match o with Some a => a | None => tt end.

Lemma forallb_scalars : forall w, forallb scalarb w = true -> scalars w.
Proof. intros w H. apply Forall_forall. intros c Hc. rewrite forallb_forall in H. apply H, Hc. Qed.

Lemma ex_reachable : forall aff dic d, forallb scalarb aff = true -> forallb scalarb dic = true ->
  built ex_pl aff dic = Some d -> Reachable ex_pl d.
Proof.
  intros aff dic d Ha Hd Hb. unfold built in Hb.
  destruct (new ex_pl aff dic) as [[d'|e]| |] eqn:E; try discriminate. injection Hb as ->.
  exact (@new_reachable ex_pl aff dic d (forallb_scalars _ Ha) (forallb_scalars _ Hd) E).
Qed.
Lemma latin_reachable : forall aff dic d, forallb scalarb aff = true -> forallb scalarb dic = true ->
  built latin_pl aff dic = Some d -> Reachable latin_pl d.
Proof.
  intros aff dic d Ha Hd Hb. unfold built in Hb.
  destruct (new latin_pl aff dic) as [[d'|e]| |] eqn:E; try discriminate. injection Hb as ->.
  exact (@new_reachable latin_pl aff dic d (forallb_scalars _ Ha) (forallb_scalars _ Hd) E).
Qed.

(** [d] was built on [ex_pl] from the two texts. *)
Ltac ex_dict aff dic := apply (@ex_reachable aff dic); vm_compute; reflexivity.
Ltac latin_dict aff dic := apply (@latin_reachable aff dic); vm_compute; reflexivity.

(** Deciding the hypotheses of the theorems for concrete words. *)
Definition ordinaryb (k : checker) (w : str) : bool :=
  negb (nonempty (ct_inner (ad_iconv (ck_aff k)))) && nonempty w && negb (last w 0 =? 46)%N && negb (is_number w) &&
  (blen w <=? 360)%N && forallb (fun c => negb (memb c (ad_ignore (ck_aff k)))) w.
Lemma ordinary_dec : forall k w, ordinaryb k w = true -> ordinary k w.
Proof.
  intros k w H. unfold ordinaryb in H. rewrite !andb_true_iff in H. destruct H as (((((H1 & H2) & H3) & H4) & H5) & H6).
  split.
  - destruct (ct_inner (ad_iconv (ck_aff k))); [reflexivity|discriminate].
  - destruct w; discriminate.
  - intros v ->. rewrite last_last in H3. discriminate.
  - intro N. apply is_number_spec in N. rewrite N in H4. discriminate.
  - apply N.leb_le, H5.
  - intros c Hc HI. rewrite forallb_forall in H6. specialize (H6 c Hc). apply memb_In in HI. rewrite HI in H6. discriminate.
Qed.
Definition unbreakableb (k : checker) (w : str) : bool :=
  forallb (fun p => negb (starts_with p w)) (start_breaks (ad_breaks (ck_aff k))) &&
  forallb (fun p => negb (ends_with p w)) (end_breaks (ad_breaks (ck_aff k))) &&
  forallb (fun p => negb (is_someb (find_sub p w))) (middle_breaks (ad_breaks (ck_aff k))).
Lemma unbreakable_dec : forall k w, unbreakableb k w = true -> Unbreakable k w.
Proof.
  intros k w H. unfold unbreakableb in H. rewrite !andb_true_iff, !forallb_forall in H. destruct H as [[H1 H2] H3].
  split; [|split].
  - intros p r Hp E. specialize (H1 p Hp). assert (starts_with p w = true) as X by (apply starts_with_spec; eauto). rewrite X in H1. discriminate.
  - intros p r Hp E. specialize (H2 p Hp). assert (ends_with p w = true) as X by (apply ends_with_spec; eauto). rewrite X in H2. discriminate.
  - intros p a b Hp E. specialize (H3 p Hp). destruct (find_sub p w) eqn:F; [discriminate|].
    exact (proj1 (find_sub_none p w) F a b E).
Qed.
Lemma lit_scalars : forall s, forallb scalarb (lit s) = true -> scalars (lit s).
Proof. intros s. apply forallb_scalars. Qed.
Ltac settle n := apply check_settles with n; [discriminate|vm_compute; reflexivity].


(** ** English: affixes, a keep-case word, a forbidden word, a break *)
Definition en_aff : str := lit "SET UTF-8
TRY esianrtolcdugmphbyfvkwz
KEY qwertyuiop|asdfghjkl|zxcvbnm
FORBIDDENWORD X
KEEPCASE K
NOSUGGEST !
NEEDAFFIX N
REP 2
REP f ph
REP alot a_lot
MAP 1
MAP aeiou
PFX U Y 1
PFX U 0 un .
PFX R Y 1
PFX R 0 re .
SFX S Y 3
SFX S y ies [^aeiou]y
SFX S 0 s [aeiou]y
SFX S 0 s [^sxzhy]
SFX D Y 2
SFX D 0 ed/S [^ey]
SFX D y ied [^aeiou]y
SFX L Y 1
SFX L 0 ly/S .
".
Definition en_dic : str := lit "12
hello
try/DRS
lock/DSU
town/S
phone/S
well
known/U
iPod/K
NASA
adven/LN
colour/X
damn/!
".
Definition en : dictionary := Eval vm_compute in (the (built ex_pl en_aff en_dic) <: dictionary).
Lemma en_built : new ex_pl en_aff en_dic = Ret (Ok en).
Proof. vm_compute. reflexivity. Qed.
Lemma en_reachable : Reachable ex_pl en. Proof. ex_dict en_aff en_dic. Qed.
Lemma en_ok : dict_ok ex_pl en. Proof. exact (reachable_ok ex_pl_wf en_reachable). Qed.
Definition en_k : checker := checker_of ex_pl en false false.

Example en_checks :
  map (dict_check ex_pl en 400) (map lit
    ["hello"; "Hello"; "HELLO"; "tries"; "retried"; "unlocks"; "unlocked"; "lockeds"; "well-known"; "NASA"; "3,14"; "hello..."; "iPod"]) =
    repeat (Ret true) 13 /\
  map (dict_check ex_pl en 400) (map lit
    ["helo"; "trys"; "unhello"; "Nasa"; "IPOD"; "adven"; "colour"; "well-"; "3,,14"; "well-knwn"; ""]) =
    repeat (Ret false) 7 ++ [Ret true; Ret false; Ret false; Ret true].
Proof. split; vm_compute; reflexivity. Qed.
