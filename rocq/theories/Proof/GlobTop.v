(** The statements of Props/PGlob.v. *)
From Verif Require Import Model.Glob Spec.Symbols Spec.Class Spec.GlobSpec Spec.StarSpec Spec.ApartSpec Spec.Lang Spec.Safe Spec.Accept Spec.GGlobSpec.
From Verif Require Import Proof.Utf8P Proof.SymbolsP Proof.SortP Proof.AsciiSetP Proof.SkipP Proof.RangesP Proof.LangP Proof.ListP Proof.ItemP Proof.DenotesP Proof.MatchP Proof.ParseP Proof.NextP Proof.GlobP Proof.GlobMatchP Proof.SafeP Proof.TermP Proof.PanicP Proof.StarsP Proof.RegNpP Proof.SizedP Proof.SoundP Proof.TotalP Proof.WellP Proof.AcceptP Proof.CheckP Proof.ItemTop Proof.ApartP.
From Coq Require Import Sorting.Sorted Lia ZifyBool ZifyN ZifyNat.

(** C20: Parse returns a glob or an error for every text (any bytes); it neither panics nor hangs. *)
Lemma c20_total_l : forall g : str, (exists gl, glob_parse g = Ok gl) \/ (exists e, glob_parse g = Err e).
Proof. intro g. pose proof (glob_parse_fine g) as F. destruct (glob_parse g); try easy; eauto. Qed.
(*EX
Example c20_total_example : (exists gl, glob_parse (B "a{b,c*[d-f]}?") = Ok gl) /\ glob_parse (B "a{b,c") = Err (ErrNodeUnclosed (B "{b,c")) /\ glob_parse (B "a[z-a]") = Err (ErrNodeMissmatch (B "rune") (B "[z-a]")) /\ glob_parse [byte_of 255; "{"%char] = Err (ErrNodeUnclosed (B "{")).
Proof. split; [eexists; vm_compute; reflexivity|]. repeat match goal with |- _ /\ _ => split end; vm_compute; reflexivity. Qed.
XE*)
(** C72: every well-formed glob text is accepted. *)
Lemma c72_accepts_l : forall g : str, well_formed g -> exists gl, glob_parse g = Ok gl.
Proof. intros g W. apply glob_parse_ok in W. destruct (glob_parse g); try easy. eauto. Qed.
(** C72: an accepted text (valid UTF-8) has all its brackets closed; without lists acceptance is exactly
    well-formedness. *)
Lemma c72_rejects_l : forall (g : str) (gl : glob), clean g -> glob_parse g = Ok gl ->
  brackets_closed g /\ (~ In "{"%char g -> well_formed g).
Proof. intros g gl C H. pose proof (parse_closed _ _ C H) as P. split; auto. intro N. now apply bc_wf. Qed.
(*EX
Example c72_example : well_formed (B "a[b-d]?{e,f}").
Proof.
  apply wf_text; [intro I; repeat (destruct I as [I|I]; [discriminate|]); destruct I|].
  apply (wf_class (B "b-d") (B "?{e,f}")).
  - intro I; repeat (destruct I as [I|I]; [discriminate|]); destruct I.
  - exists [98; 45; 100]%N, [(98, 100)]%N. split; [repeat constructor; discriminate|]. split; [reflexivity|].
    split; [apply (cp_range 98%N [45]%N 100%N [] []); try discriminate; repeat constructor|]. repeat constructor; discriminate.
  - apply wf_any. apply (wf_list (B "e,f") []); [intro I; repeat (destruct I as [I|I]; [discriminate|]); destruct I| |constructor].
    intros v A. apply alternative_split in A. destruct A as [<-|[<-|[]]]; (apply wf_text; [intro I; repeat (destruct I as [I|I]; [discriminate|]); destruct I|constructor]).
Qed.
XE*)
(** C72 with lists: acceptance does not imply well-formed values (a "*" value ends the scan of a list). *)
Lemma c72_unchecked_refuted_l : (exists gl, glob_parse (B "{*,]}") = Ok gl) /\ ~ well_formed (B "{*,]}") /\ clean (B "{*,]}").
Proof.
  split; [eexists; vm_compute; reflexivity|]. split.
  - intro W. apply wf_list_inv in W as (body & p & E & N & A & _).
    assert (body = B "*,]") as ->.
    { change ("{"%char :: B "*,]}") with ("{"%char :: B "*,]" ++ "}"%char :: []) in E. unfold braced in E. cbn [app] in E. rewrite <- app_assoc in E. cbn [app] in E.
      injection E as E. change (B "*,]" ++ "}"%char :: [] = body ++ "}"%char :: p) in E. apply cut_unique in E; [symmetry; apply E| |auto].
      intro I; repeat (destruct I as [I|I]; [discriminate|]); destruct I. }
    assert (W : well_formed (B "]")) by (apply A; apply alternative_split; cbn; auto). revert W. apply wf_close. auto.
  - exists (map code (B "{*,]}")). split; [|reflexivity]. repeat constructor; discriminate.
Qed.

(** C72: exactly which texts (valid UTF-8) are accepted, whatever the lists. *)
Lemma c72_exact_l : forall g : str, clean g -> ((exists gl, glob_parse g = Ok gl) <-> accepted g).
Proof.
  intros g C. split; [intros (gl & H); eapply parse_accepted; eauto|]. intro A. apply glob_parse_ac in A. destruct (glob_parse g); try easy. eauto.
Qed.
(*EX
(** A list whose values after "*" are malformed, and a malformed list value that is the only one; the third list has a
    malformed value before "*". *)
Example c72_exact_example : accepted (B "a{*,]}") /\ accepted (B "{[}?") /\ glob_parse (B "{#],*}") = Err (ErrNodeUnclosed (B "]")) /\ glob_parse (B "{[,a}") = Err (ErrNodeMissmatch (B "rune") (B "[")).
Proof.
  split; [|split; [|split; vm_compute; reflexivity]].
  - apply ac_text; [intro I; repeat (destruct I as [I|I]; [discriminate|]); destruct I|]. apply (ac_list (B "*,]") []); [intro I; repeat (destruct I as [I|I]; [discriminate|]); destruct I| |constructor].
    right. intros v A. apply alternative_split in A. destruct A as [<-|[<-|[]]]; [left; apply wf_star; constructor|right].
    split; [apply alternative_split; now left|]. apply byte_order_iff. reflexivity.
  - apply (ac_list (B "[") (B "?")); [intro I; repeat (destruct I as [I|I]; [discriminate|]); destruct I| |apply ac_any; constructor].
    left. intros v v' A A'. apply alternative_split in A, A'. destruct A as [<-|[]], A' as [<-|[]]. reflexivity.
Qed.
XE*)

(** C83: ParseMust of globs. *)
Lemma c83_glob_l : forall text : str,
  (forall gl, glob_parse_must text = Ok gl <-> glob_parse text = Ok gl) /\
  (glob_parse_must text = Panic <-> exists e, glob_parse text = Err e) /\
  ((exists gl, glob_parse_must text = Ok gl) \/ glob_parse_must text = Panic) /\
  (clean text -> (glob_parse_must text = Panic <-> ~ accepted text)).
Proof.
  intro text. unfold glob_parse_must. assert (T := glob_parse_fine text). assert (X := c72_exact_l text).
  destruct (glob_parse text) as [g|e| |]; try easy.
  - split; [reflexivity|]. split; [split; [discriminate|intros (? & ?); discriminate]|]. split; [eauto|]. intro C. split; [discriminate|]. intro N. elim N. apply X; eauto.
  - split; [split; discriminate|]. split; [split; [eauto|auto]|]. split; [auto|]. intro C. split; [|auto]. intros _ N. apply (X C) in N as (? & N). discriminate.
Qed.
(*EX
Example c83_glob_example : (exists gl, glob_parse_must (B "a{b,c}[0-9]") = Ok gl) /\ glob_parse_must (B "a{b,c") = Panic /\ glob_parse_must (B "]") = Panic.
Proof. split; [eexists; vm_compute; reflexivity|]. split; vm_compute; reflexivity. Qed.
XE*)

(** C21: matching is exact for regular globs. *)
Lemma c21_regular_l : forall (g : str) (gl : glob) (s : str), clean g -> ~ In zero g -> plain_singles g -> regular g -> ~ only_star g ->
  glob_parse g = Ok gl -> clean s \/ lone_classes g ->
  exists b, glob_match gl s = Ok b /\ (b = true <-> denotes g (symbols s)).
Proof. exact glob_match_regular. Qed.
(*EX
Example c21_regular_example : let g := B "a{b,c?}*[d-f]*{gh,i}" in
  clean g /\ ~ In zero g /\ plain_singles g /\ regular g /\ ~ only_star g /\ parse_match g (B "acxzzezzgh") = Ok true /\ parse_match g (B "acezzgh") = Ok false /\ parse_match g (B "abжei") = Ok true.
Proof.
  cbv zeta. destruct (good_glob_ok (B "a{b,c?}*[d-f]*{gh,i}") ltac:(vm_compute; reflexivity)) as (C & Z & _ & P & Q & R). do 3 (split; [assumption|]). split; [apply regular_ok; vm_compute; reflexivity|]. split; [now apply plain_not_star|].
  repeat match goal with |- _ /\ _ => split end; vm_compute; reflexivity.
Qed.
(** A list with wildcards after a star, followed by text. *)
Example c21_regular_example2 : let g := B "*{a?,[bж]c}d*e" in
  clean g /\ ~ In zero g /\ plain_singles g /\ regular g /\ ~ only_star g /\ parse_match g (B "aaбdaxdже") = Ok false /\ parse_match g (B "aaбdaxdжe") = Ok true /\
  parse_match g (B "жcaжcde") = Ok true /\ parse_match g (B "жcaжce") = Ok false.
Proof.
  cbv zeta. destruct (good_glob_ok (B "*{a?,[bж]c}d*e") ltac:(vm_compute; reflexivity)) as (C & Z & _ & P & Q & R). do 3 (split; [assumption|]). split; [apply regular_ok; vm_compute; reflexivity|]. split; [now apply plain_not_star|].
  repeat match goal with |- _ /\ _ => split end; vm_compute; reflexivity.
Qed.
XE*)
(*EX
Example c21_malformed_example : let g := B "ж*{я,a?}*" in let s := B "ж" ++ byte_of 255 :: B "aя" in
  clean g /\ ~ In zero g /\ plain_singles g /\ regular g /\ ~ only_star g /\ lone_classes g /\ parse_match g s = Ok true /\ parse_match g (B "ж" ++ [byte_of 209]) = Ok false.
Proof.
  cbv zeta. destruct (good_glob_ok (B "ж*{я,a?}*") ltac:(vm_compute; reflexivity)) as (C & Z & _ & P & Q & R). do 3 (split; [assumption|]). split; [apply regular_ok; vm_compute; reflexivity|]. split; [now apply plain_not_star|].
  split; [apply ParseP.no_class_lone; apply (no_byte_ok 91); reflexivity|]. split; vm_compute; reflexivity.
Qed.
XE*)

(** C21: stars in the values of lists are fine too, if a star comes last in its value. *)
Lemma c21_exact_l : forall (g : str) (gl : glob) (s : str), clean g -> ~ In zero g -> plain_singles g -> exact_lists g -> ~ only_star g ->
  glob_parse g = Ok gl -> clean s \/ lone_classes g ->
  exists b, glob_match gl s = Ok b /\ (b = true <-> denotes g (symbols s)).
Proof. exact glob_match_exact. Qed.
(*EX
Example c21_exact_example : let g := B "a{b*,c?}[d-f]*{gh*,i?}{j,k}" in
  clean g /\ ~ In zero g /\ plain_singles g /\ exact_lists g /\ ~ only_star g /\ parse_match g (B "abxdzzghеk") = Ok true /\ parse_match g (B "acxezzghx") = Ok false /\ parse_match g (B "acxfiяj") = Ok true.
Proof.
  cbv zeta. destruct (good_glob_ok (B "a{b*,c?}[d-f]*{gh*,i?}{j,k}") ltac:(vm_compute; reflexivity)) as (C & Z & _ & P & Q & R). do 4 (split; [assumption|]). split; [now apply plain_not_star|].
  repeat match goal with |- _ /\ _ => split end; vm_compute; reflexivity.
Qed.
XE*)
(** C21: stars anywhere in the values: Match accepts exactly what the glob denotes and MaxLen allows.  (MaxLen is too
    small for some globs with text after a star in a list value, and then is the only reason for a missed match.) *)
Lemma c21_stars_l : forall (g : str) (gl : glob) (s : str), clean g -> ~ In zero g -> plain_singles g -> regular_stars g -> ~ only_star g ->
  glob_parse g = Ok gl -> clean s \/ lone_classes g ->
  exists b, glob_match gl s = Ok b /\ (b = true <-> denotes g (symbols s) /\ (g_max gl <= 0 \/ Z.of_nat (length s) <= g_max gl)%Z).
Proof. exact glob_match_stars. Qed.
(*EX
Example c21_stars_example : let g := B "{a*b,c}d" in
  clean g /\ ~ In zero g /\ plain_singles g /\ regular_stars g /\ ~ only_star g /\ exists gl, glob_parse g = Ok gl /\ g_max gl = 2%Z /\
  glob_match gl (B "abd") = Ok false /\ denotes g (symbols (B "abd")).
Proof.
  cbv zeta. destruct (node_glob_ok (B "{a*b,c}d") ltac:(vm_compute; reflexivity)) as (C & Z & _ & P & Q). do 3 (split; [assumption|]). split; [apply regular_stars_ok; vm_compute; reflexivity|]. split; [now apply plain_not_star|].
  eexists. split; [vm_compute; reflexivity|]. split; [reflexivity|]. split; [vm_compute; reflexivity|].
  apply (d_list (B "a*b,c") (B "a*b") (B "d") [B "a"; B "b"] [B "d"]).
  - apply (no_byte_ok 125). reflexivity.
  - exists [], (B ",c"). split; [reflexivity|]. split; [apply (no_byte_ok 44); reflexivity|]. split; [now left|]. right. now exists (B "c").
  - apply (d_symbol 97%N (B "*b") [B "b"]); [split; [reflexivity|discriminate]|intros c I; repeat destruct I as [<-|I]; try discriminate; destruct I|]. apply (d_star (B "b") [] [B "b"]).
    apply (d_symbol 98%N [] []); [split; [reflexivity|discriminate]|intros c I; repeat destruct I as [<-|I]; try discriminate; destruct I|]. constructor.
  - apply (d_symbol 100%N [] []); [split; [reflexivity|discriminate]|intros c I; repeat destruct I as [<-|I]; try discriminate; destruct I|]. constructor.
Qed.
Example c21_stars_example2 : let g := B "{a*b,c}d*" in
  clean g /\ ~ In zero g /\ plain_singles g /\ regular_stars g /\ ~ only_star g /\ exists gl, glob_parse g = Ok gl /\ g_max gl = (-1)%Z /\
  glob_match gl (B "aжbddx") = Ok true /\ glob_match gl (B "acd") = Ok false.
Proof.
  cbv zeta. destruct (node_glob_ok (B "{a*b,c}d*") ltac:(vm_compute; reflexivity)) as (C & Z & _ & P & Q). do 3 (split; [assumption|]). split; [apply regular_stars_ok; vm_compute; reflexivity|]. split; [now apply plain_not_star|].
  eexists. split; [vm_compute; reflexivity|]. split; [reflexivity|]. split; vm_compute; reflexivity.
Qed.
XE*)

(** C21: in particular matching is exact for every glob without lists. *)
Lemma c21_no_lists_l : forall (g : str) (gl : glob) (s : str), clean g -> ~ In zero g -> ~ In "{"%char g -> ~ only_star g ->
  glob_parse g = Ok gl -> clean s \/ lone_classes g ->
  exists b, glob_match gl s = Ok b /\ (b = true <-> denotes g (symbols s)).
Proof.
  intros g gl s C Z N O H Cs. assert (X : forall a body b, g <> a ++ braced body ++ b).
  { intros a body b ->. apply N. apply in_or_app. right. now left. }
  apply glob_match_regular; auto.
  - intros a body b E. now elim (X a body b).
  - intros a body b E. now elim (X a body b).
Qed.
(*EX
Example c21_no_lists_example : let g := B "a?*[x-zж]b*" in clean g /\ ~ In zero g /\ ~ In "{"%char g /\ ~ only_star g /\ parse_match g (B "aqwжbb") = Ok true /\ parse_match g (B "aжb") = Ok false.
Proof.
  cbv zeta. destruct (good_glob_ok (B "a?*[x-zж]b*") ltac:(vm_compute; reflexivity)) as (C & Z & _ & P & Q & R). do 2 (split; [assumption|]). split; [apply (no_byte_ok 123); reflexivity|]. split; [now apply plain_not_star|].
  split; vm_compute; reflexivity.
Qed.
XE*)
(** C21, the general form in terms of the parsed items: any glob whose items are [safe] (Spec/Safe.v), for
    instance with stars inside lists. *)
Lemma c21_items_l : forall (g : str) (gl : glob) (s : str), clean g -> ~ In zero g -> plain_singles g -> ~ only_star g ->
  glob_parse g = Ok gl -> safe (g_items gl) -> Forall sized (g_items gl) \/ g_max gl = (-1)%Z -> clean s \/ lone_classes g ->
  exists b, glob_match gl s = Ok b /\ (b = true <-> denotes g (symbols s)).
Proof. intros. now apply glob_match_items. Qed.
(*EX
Example c21_items_example : (let g := B "{a*,b?}c*" in clean g /\ ~ In zero g /\ plain_singles g /\ ~ only_star g) /\
  exists gl, glob_parse (B "{a*,b?}c*") = Ok gl /\ g_max gl = (-1)%Z /\ safe (g_items gl).
Proof.
  split; [cbv zeta; destruct (node_glob_ok (B "{a*,b?}c*") ltac:(vm_compute; reflexivity)) as (C & Z & _ & P & Q); do 3 (split; [assumption|]); now apply plain_not_star|].
  eexists. split; [vm_compute; reflexivity|]. split; [reflexivity|]. cbn [g_items]. apply safe_group.
  - intros v [<-|[<-|[]]]; cbn [val_items app].
    + apply safe_one; [exact I|]. apply safe_starred. right. apply ss_one; [exact I|]. apply safe_starred. now left.
    + repeat (apply safe_one; [exact I|]). apply safe_starred. now left.
  - discriminate.
Qed.
XE*)
Ltac nin := let J := fresh in intro J; repeat (destruct J as [J|J]; [discriminate|]); destruct J.
Lemma d_byte c p w : (code c < 128)%N -> ~ In c metas -> denotes p w -> denotes (c :: p) ([c] :: w).
Proof.
  intros L N D. pose proof (encode_ascii (code c) L) as E. rewrite byte_of_code in E. change (c :: p) with ([c] ++ p). rewrite <- E.
  apply d_symbol; auto.
  - split; [unfold valid_rune; lia|unfold RuneError; lia].
  - intros d I X. apply N. apply code_inj in X. now subst.
Qed.
Lemma d_alt body v p w1 w2 : ~ In "}"%char body -> In v (split_on "," body) -> denotes v w1 -> denotes p w2 -> denotes (braced body ++ p) (w1 ++ w2).
Proof. intros N I. apply d_list; auto. now apply alternative_split. Qed.
Ltac lit := apply d_byte; [reflexivity|nin|].
(** C21 is false outside of the regular globs.  A value with a star: the length filter is wrong. *)
Lemma c21_star_value_refuted_l : parse_match (B "{*a,b}") (B "xa") = Ok false /\ denotes (B "{*a,b}") (symbols (B "xa")).
Proof.
  split; [vm_compute; reflexivity|]. apply (d_alt (B "*a,b") (B "*a") [] [B "x"; B "a"] []); [nin|cbn; auto| |constructor].
  apply (d_star _ [B "x"] [B "a"]). lit. constructor.
Qed.
(** ... a value ending in a star before another star *)
Lemma c21_star_star_refuted_l : parse_match (B "{a*,b}*c*") (B "ac") = Ok false /\ denotes (B "{a*,b}*c*") (symbols (B "ac")).
Proof.
  split; [vm_compute; reflexivity|]. apply (d_alt (B "a*,b") (B "a*") (B "*c*") [B "a"] [B "c"]); [nin|cbn; auto| |].
  - lit. apply (d_star _ [] []). constructor.
  - apply (d_star _ [] [B "c"]). lit. apply (d_star _ [] []). constructor.
Qed.
(** ... a list after a star followed by text: an occurrence is skipped *)
Lemma c21_list_text_refuted_l : parse_match (B "*{a,b}c*") (B "aacb") = Ok false /\ denotes (B "*{a,b}c*") (symbols (B "aacb")).
Proof.
  split; [vm_compute; reflexivity|]. apply (d_star _ [B "a"] [B "a"; B "c"; B "b"]).
  apply (d_alt (B "a,b") (B "a") (B "c*") [B "a"] [B "c"; B "b"]); [nin|cbn; auto|lit; constructor|].
  lit. apply (d_star _ [B "b"] []). constructor.
Qed.
(** ... an optional list between stars *)
Lemma c21_optional_refuted_l : parse_match (B "*{,a}*b*") (B "b") = Ok false /\ denotes (B "*{,a}*b*") (symbols (B "b")).
Proof.
  split; [vm_compute; reflexivity|]. apply (d_star _ [] [B "b"]).
  apply (d_alt (B ",a") (B "") (B "*b*") [] [B "b"]); [nin|cbn; auto|constructor|]. apply (d_star _ [] [B "b"]). lit. apply (d_star _ [] []). constructor.
Qed.
(** ... a list with a '?' value after a star panics *)
Lemma c21_any_value_refuted_l : parse_match (B "*{?,b}") (B "x") = Panic /\ denotes (B "*{?,b}") (symbols (B "x")).
Proof.
  split; [vm_compute; reflexivity|]. apply (d_star _ [] [B "x"]). apply (d_alt (B "?,b") (B "?") [] [B "x"] []); [nin|cbn; auto| |constructor].
  apply (d_any _ (B "x")). constructor.
Qed.
(** ... a list with one value is taken literally *)
Lemma c21_single_refuted_l : parse_match (B "{a*}") (B "ab") = Ok false /\ denotes (B "{a*}") (symbols (B "ab")).
Proof.
  split; [vm_compute; reflexivity|]. apply (d_alt (B "a*") (B "a*") [] [B "a"; B "b"] []); [nin|cbn; auto| |constructor].
  lit. apply (d_star _ [B "b"] []). constructor.
Qed.
Lemma star_class : forall r, in_class (B "*") r -> r = 42%N.
Proof.
  intros r H. destruct (ranges_expand (bracketed (B "*"))) as [rs|] eqn:E; [|discriminate].
  assert (C : clean (B "*")) by (exists [42%N]; split; [repeat constructor; discriminate|reflexivity]).
  apply (RangesTop.c08_denotes_l _ _ C E) in H. injection E as <-. unfold rr_contains in H. destruct (N.leb_spec r 127) as [L|L].
  - rewrite <- (code_byte_of r) at 1 by lia. change 42%N with (code "*"). f_equal. revert H.
    generalize (byte_of r). intros c H. destruct c as [[] [] [] [] [] [] [] []]; vm_compute in H; congruence.
  - exfalso. revert H. unfold contains_unicode. cbn. discriminate.
Qed.
(** ... an escaped star alone matches everything *)
Lemma c21_only_star_refuted_l : parse_match (B "[*]") (B "x") = Ok true /\ ~ denotes (B "[*]") (symbols (B "x")).
Proof.
  split; [vm_compute; reflexivity|]. change (B "[*]") with (bracketed (B "*") ++ []). intro D. apply denotes_class in D; [|nin].
  destruct D as [(r & w' & E & S & I & D)|[N D]].
  - apply star_class in I. subst r. discriminate.
  - apply denotes_nil in D. discriminate.
Qed.
(** ... NUL in a class is lost *)
Lemma c21_zero_refuted_l : parse_match ("["%char :: zero :: B "a]") [zero] = Ok false /\ denotes ("["%char :: zero :: B "a]") (symbols [zero]).
Proof.
  split; [vm_compute; reflexivity|]. change ("["%char :: zero :: B "a]") with (bracketed (zero :: B "a") ++ []). change (symbols [zero]) with [encode_rune 0%N].
  apply d_class; [nin|split; [reflexivity|discriminate]| |constructor].
  exists [0; 97]%N, [(0, 0); (97, 97)]%N. split; [repeat constructor; discriminate|]. split; [reflexivity|]. split.
  - apply cp_single; [discriminate|intros d t' E; injection E as <- _; discriminate|].
    apply cp_last; [discriminate|constructor].
  - exists 0%N, 0%N. split; [now left|lia].
Qed.
(** ... a non-ASCII class after a star does not look past a malformed byte *)
Lemma c21_malformed_refuted_l : let s := byte_of 255 :: B "ж" in parse_match (B "*[жя]") s = Ok false /\ denotes (B "*[жя]") (symbols s).
Proof.
  cbv zeta. split; [vm_compute; reflexivity|]. 
  replace (symbols (byte_of 255 :: B "ж")) with ([[byte_of 255]] ++ [encode_rune 1078%N]) by (vm_compute; reflexivity).
  apply d_star. apply (d_class (B "жя") [] 1078%N []); [nin|split; [reflexivity|discriminate]| |constructor].
  exists [1078; 1103]%N, [(1078, 1078); (1103, 1103)]%N. split; [repeat constructor; discriminate|]. split; [vm_compute; reflexivity|]. split.
  - apply cp_single; [discriminate|intros d t' E; injection E as <- _; discriminate|].
    apply cp_last; [discriminate|constructor].
  - exists 1078%N, 1078%N. split; [now left|lia].
Qed.

Lemma no_wild g : (forall c, In c g -> ~ In c metas) -> index_wildcard g = None.
Proof.
  intro H. apply find_byte_none. intros c I. apply not_true_iff_false. rewrite is_wild_iff. auto.
Qed.
(** C22: a text without wildcard characters (any bytes) is accepted and matches itself only. *)
Lemma c22_literal_l : forall g : str, (forall c, In c g -> ~ In c metas) ->
  exists gl, glob_parse g = Ok gl /\ forall s, exists b, glob_match gl s = Ok b /\ (b = true <-> s = g).
Proof.
  intros g H. unfold glob_parse. rewrite no_wild by auto. eexists. split; [reflexivity|]. intro s. unfold glob_match. cbn [g_node g_min g_max g_items].
  destruct (str_eqb_spec g (B "*")) as [->|N].
  - exfalso. apply (H "*"%char); [now left|]. cbn. tauto.
  - destruct (Z.ltb_spec (zlen s) (zlen g)) as [L|L].
    { exists false. split; auto. split; [discriminate|]. intros ->. lia. }
    destruct ((0 <? zlen g) && (zlen g <? zlen s))%Z eqn:L2.
    { exists false. split; auto. split; [discriminate|]. intros ->. lia. }
    cbn [null]. exists (str_eqb g s). split; auto. destruct (str_eqb_spec g s); split; try easy; congruence.
Qed.
(*EX
Example c22_literal_example : forall c, In c (B "a,b-c") -> ~ In c metas.
Proof. intros c I J. repeat (destruct I as [<-|I]; [repeat (destruct J as [J|J]; [discriminate|]); destruct J|]). destruct I. Qed.
XE*)
(** C23: the glob "*" matches every string; so does a run of stars. *)
Lemma c23_star_l : forall (n : nat) (s : str), parse_match (repeat "*"%char (S n)) s = Ok true.
Proof.
  intros n s. unfold parse_match, glob_parse.
  assert (I : index_wildcard (repeat "*"%char (S n)) = Some 0) by reflexivity. rewrite I. cbn [firstn skipn].
  assert (L : index_last_wildcard (repeat "*"%char (S n)) = Some n).
  { unfold index_last_wildcard. destruct (find_last_byte is_wild (repeat "*"%char (S n))) as [k|] eqn:E.
    - apply find_last_cut in E as (a & c & b & E & La & _ & Fb). f_equal. destruct b as [|d b].
      + apply (f_equal (@length _)) in E. rewrite repeat_length, app_length in E. cbn in E. lia.
      + exfalso. assert (X : In d (repeat "*"%char (S n))) by (rewrite E; apply in_or_app; right; right; now left).
        apply repeat_spec in X. subst d. specialize (Fb "*"%char (or_introl eq_refl)). discriminate.
    - exfalso. revert E. clear. cbn [find_last_byte repeat]. now destruct (find_last_byte is_wild (repeat "*"%char n)). }
  rewrite L. cbn [nth repeat]. change ("*"%char :: repeat "*"%char n) with (repeat "*"%char (S n)).
  replace (Nat.eqb n 0 && negb (Ascii.eqb "*" "?") && negb (Ascii.eqb "*" "*")) with false by (cbn; now rewrite andb_false_r).
  rewrite repeat_length. replace (n <? S n - 1) with false by lia.
  replace (zlen [] + zlen [])%Z with 0%Z by reflexivity.
  destruct (str_eqb_spec (repeat "*"%char (S n)) (B "*")) as [_|N]; [reflexivity|].
  destruct (str_eqb_spec (repeat "*"%char (S n)) (B "?")) as [X|_]; [discriminate|].
  assert (P : parse_loop (S n) (repeat "*"%char (S n)) ([], 0, 0, [])%Z = Ok ([], 0, -1, [IStar 0])%Z).
  { cbn [parse_loop repeat]. unfold next_wildcard_item. cbn [next_item Ascii.eqb]. 
    assert (S : skip_stars (repeat "*"%char (S n)) = []) by (clear; induction n; auto).
    cbn [repeat] in S. change (Ascii.eqb "*" "[") with false. change (Ascii.eqb "*" "{") with false. change (Ascii.eqb "*" "*") with true. cbn iota. rewrite S. destruct n; reflexivity. }
  rewrite repeat_length, P. reflexivity.
Qed.
(** C24: Match always finishes (for every glob value, parsed or not, and every subject). *)
Lemma c24_terminates_l : forall (gl : glob) (s : str), glob_match gl s <> Fuel.
Proof. exact glob_match_fin. Qed.
(*EX
Example c24_terminates_example : parse_match (B "*{a*b*,c*}*{d,*e}*f") (B "abababababcecdcecdcecdceabab") = Ok false.
Proof. vm_compute. reflexivity. Qed.
XE*)
(** C25: Match returns an answer on every subject (any bytes), for well-formed globs without '?' or in which no list brings a wildcard
    next to a star, and for globs of any bytes without '*'. *)
Lemma c25_returns_l : forall (g : str) (gl : glob) (s : str), calm_glob g -> glob_parse g = Ok gl -> exists b, glob_match gl s = Ok b.
Proof. exact calm_answers. Qed.
(** C25: among them are the well-formed globs in the wide fragment of C21 and the globs without '*'. *)
Lemma c25_calm_l : forall g : str, clean g /\ (regular_stars g \/ ~ In "?"%char g) \/ ~ In "*"%char g -> calm_glob g.
Proof. intros g [[C [R|N]]|N]; (split; [now auto|]); [right; now apply apart_regular|now left|right; now apply apart_no_star]. Qed.
(*EX
(** Stars and '?' together, inside and around lists; the wide fragment of C21 does not have this glob (an empty value after a star). *)
Example c25_returns_example : calm_glob (B "x*y{?a,b*,}c2{*d,}e?*") /\ ~ regular_stars (B "x*y{?a,b*,}c2{*d,}e?*") /\ ~ apart (B "*{?,b}") /\ ~ apart (B "{a*,b}?") /\ parse_match (B "x*y{?a,b*,}c2{*d,}e?*") (B "x1ybbb" ++ byte_of 255 :: B "c2deef") = Ok true /\ parse_match (B "x*y{?a,b*,}c2{*d,}e?*") (B "x1ybbb") = Ok false.
Proof.
  split; [apply calm_glob_ok; vm_compute; reflexivity|]. split; [|split; [|split; [|split; vm_compute; reflexivity]]].
  - intro R. destruct (R (B "x*y") (B "?a,b*,") (B "c2{*d,}e?*") eq_refl ltac:(vm_compute; intuition discriminate)) as [R1 _].
    destruct (proj1 (R1 ltac:(vm_compute; tauto)) []) as [(c & p & X & _)|(body & p & r & X & _)]; [|discriminate X|discriminate X].
    exists (B "?a,b*,"), []. split; [reflexivity|]. split; [now intros []|]. split; [right; exists (B "?a,b*"); reflexivity|now left].
  - intro R. destruct (R (B "*") (B "?,b") [] eq_refl ltac:(vm_compute; intuition discriminate)) as [R1 _].
    destruct (R1 ltac:(vm_compute; tauto) ltac:(exists [], "*"%char; split; [reflexivity|vm_compute; tauto]) (B "?")) as [(c & p & X & N)|(body & p & r & X & _)]; [|injection X as <- <-; apply N; vm_compute; tauto|discriminate X].
    exists [], (B ",b"). split; [reflexivity|]. split; [vm_compute; intuition discriminate|]. split; [now left|right; exists (B "b"); reflexivity].
  - intro R. destruct (R [] (B "a*,b") (B "?") eq_refl ltac:(vm_compute; intuition discriminate)) as [_ R2].
    destruct R2 as [X|[[(c & p & X & N)|(body & p & r & X & _)]|(body & b' & X & _)]]; [|discriminate X|injection X as <- <-; apply N; vm_compute; tauto|discriminate X|discriminate X].
    exists (B "a*"). split; [exists [], (B ",b"); split; [reflexivity|]; split; [vm_compute; intuition discriminate|]; split; [now left|right; exists (B "b"); reflexivity]|].
    intros [X|(p & c & X & N)]; [apply X; vm_compute; tauto|]. apply N. change (B "a*") with (B "a" ++ ["*"%char]) in X. apply app_inj_tail in X as [_ <-]. vm_compute. tauto.
Qed.
XE*)
(** C25: more generally, all globs in which no choice of list values puts a '?', or U+FFFD standing alone, directly
    after a star. *)
Lemma c25_items_l : forall (g : str) (gl : glob) (s : str), glob_parse g = Ok gl -> ~ star_trap (g_items gl) -> exists b, glob_match gl s = Ok b.
Proof. exact quiet_answers. Qed.
(*EX
Example c25_example : exists gl, glob_parse (B "{a*,?}b*c") = Ok gl /\ ~ star_trap (g_items gl) /\ glob_match gl (B "axbxc") = Ok true.
Proof.
  eexists. split; [vm_compute; reflexivity|]. split; [|vm_compute; reflexivity].
  cbn [g_items]. match goal with |- ~ star_trap ?F => assert (X : forall r a k it b, path F r -> r = a ++ IStar k :: it :: b -> (forall c, it <> IByte c) -> False) end;
    [|intros [(r & a & k & n & b & P & E)|(r & a & k & b & P & E)]; eapply X; eauto; discriminate].
  intros r a k it b P E NS. inversion P as [| | |vals mn mx v R r' I P2|]; subst.
  - destruct a; discriminate.
  - match goal with H : False |- _ => destruct H end.
  - destruct I as [<-|[<-|[]]]; cbn [val_items app] in P2.
    + repeat match goal with H : path (_ :: _) _ |- _ => inversion H; clear H; subst | H : path [] _ |- _ => inversion H; clear H; subst end;
        repeat (destruct a as [|? a]; cbn in *; try congruence; try (match goal with H : _ = _ :: IStar _ :: it :: _ |- _ => injection H; intros; subst; now eapply NS end)).
    + repeat match goal with H : path (_ :: _) _ |- _ => inversion H; clear H; subst | H : path [] _ |- _ => inversion H; clear H; subst end;
        repeat (destruct a as [|? a]; cbn in *; try congruence; try (match goal with H : _ = _ :: IStar _ :: it :: _ |- _ => injection H; intros; subst; now eapply NS end)).
  - discriminate.
Qed.
XE*)
(** C25 is false in general: a list with a '?' value after a star. *)
Lemma c25_any_refuted_l : (exists gl, glob_parse (B "*{?,b}") = Ok gl /\ glob_match gl (B "x") = Panic) /\
  (exists gl, glob_parse (B "{a*,b}?") = Ok gl /\ glob_match gl (B "ax") = Panic).
Proof. split; eexists; (split; [vm_compute; reflexivity|vm_compute; reflexivity]). Qed.
(** C25 is false in general, too, without '?': a malformed byte, or U+FFFD, after a star.  Both are looked for as U+FFFD, found in a
    malformed byte, and three bytes are cut off. *)
Lemma c25_malformed_refuted_l : (exists gl, glob_parse (B "*" ++ byte_of 255 :: B "*") = Ok gl /\ glob_match gl (B "aa" ++ [byte_of 255]) = Panic) /\
  (exists gl, glob_parse (B "*" ++ encode_rune 65533%N ++ B "*") = Ok gl /\ glob_match gl (B "aa" ++ byte_of 255 :: B "b") = Panic).
Proof. split; eexists; (split; [vm_compute; reflexivity|vm_compute; reflexivity]). Qed.

(** C80: a match that is reported is a match, on any string, for every glob without '?' (whatever its lists look like) and every glob in
    which no list brings a wildcard next to a star. *)
Lemma c80_sound_l : forall (g : str) (gl : glob) (s : str), clean g -> ~ In zero g -> plain_singles g -> ~ only_star g -> calm_glob g ->
  glob_parse g = Ok gl -> glob_match gl s = Ok true -> denotes g (symbols s).
Proof. intros g gl s C Z P NO N H M. apply (steady_sound g gl); auto. now apply (calm_glob_steady g). Qed.
(*EX
Example c80_sound_example : node_glob_b (B "{a*,c}{d,*e}[f-h]*{,i}x") = true /\ parse_match (B "{a*,c}{d,*e}[f-h]*{,i}x") (B "a1behjx") = Ok true /\ parse_match (B "*{a*b,c}{d,*e}[f-h]*") (B "a1be2hh") = Ok false /\
  parse_match (B "{a*,c}{d,*e}[f-h]*") (B "a1beh" ++ [byte_of 255]) = Ok true /\
  (calm_glob_b (B "x*y{?a,b*,}c2{*d,}e?*") && node_glob_b (B "x*y{?a,b*,}c2{*d,}e?*") = true /\ parse_match (B "x*y{?a,b*,}c2{*d,}e?*") (B "x1ybbb" ++ byte_of 255 :: B "c2deef") = Ok true).
Proof. repeat match goal with |- _ /\ _ => split end; vm_compute; reflexivity. Qed.
XE*)
(** C80: more generally, all globs in which no choice of list values puts a star that needs a symbol directly after a star. *)
Lemma c80_items_l : forall (g : str) (gl : glob) (s : str), clean g -> ~ In zero g -> plain_singles g -> ~ only_star g ->
  glob_parse g = Ok gl -> ~ star_more (g_items gl) -> glob_match gl s = Ok true -> denotes g (symbols s).
Proof. intros g gl s C Z P NO H N M. apply (glob_sound g gl); auto. Qed.
(*EX
Example c80_items_example : (let g := B "{a?*,?b}c?*" in clean g /\ ~ In zero g /\ plain_singles g /\ ~ only_star g) /\
  exists gl, glob_parse (B "{a?*,?b}c?*") = Ok gl /\ ~ star_more (g_items gl) /\ glob_match gl (B "axxcy") = Ok true.
Proof.
  split; [cbv zeta; destruct (node_glob_ok (B "{a?*,?b}c?*") ltac:(vm_compute; reflexivity)) as (C & Z & _ & P & Q); do 3 (split; [assumption|]); now apply plain_not_star|].
  eexists. split; [vm_compute; reflexivity|]. split; [|vm_compute; reflexivity].
  cbn [g_items]. intros (r & a & k & n & b & P & E). inversion P as [| | |vals mn mx v R r' I P2|]; subst.
  - destruct a; discriminate.
  - match goal with H : False |- _ => destruct H end.
  - destruct I as [<-|[<-|[]]]; cbn [val_items app] in P2;
      repeat match goal with H : path (_ :: _) _ |- _ => inversion H; clear H; subst | H : path [] _ |- _ => inversion H; clear H; subst end;
        repeat (destruct a as [|? a]; cbn in *; try congruence).
  - discriminate.
Qed.
XE*)
(** C80 is false in general: the symbols that a star needs are not counted when the star directly follows a star. *)
Lemma c80_star_refuted_l : (parse_match (B "{a*,b}*??") (B "aж") = Ok true /\ ~ denotes (B "{a*,b}*??") (symbols (B "aж"))) /\
  (parse_match (B "x*{*?,c}{y,ж}") (B "xж") = Ok true /\ ~ denotes (B "x*{*?,c}{y,ж}") (symbols (B "xж"))).
Proof.
  assert (AN : forall p w, denotes ("?"%char :: p) w -> length w >= 1 /\ exists w', length w = S (length w') /\ denotes p w').
  { intros p w D. apply denotes_any in D as (x & w' & -> & D). cbn. split; [lia|eauto]. }
  assert (LI : forall c p w, (code c < 128)%N -> ~ In c metas -> denotes (c :: p) w -> exists w', length w = S (length w') /\ denotes p w').
  { intros c p w L M D. change (c :: p) with ([c] ++ p) in D. apply denotes_literal in D.
    - destruct D as (w' & -> & D). exists w'. rewrite symbols_ascii, symbols_nil by auto. auto.
    - now apply clean_byte.
    - intros d [<-|[]]. exact M. }
  split; (split; [vm_compute; reflexivity|]); intro D.
  - change (B "{a*,b}*??") with (braced (B "a*,b") ++ B "*??") in D. apply denotes_list in D as (v & w1 & w2 & E & I & D1 & D2); [|nin].
    change (B "*??") with ("*"%char :: B "??") in D2. apply denotes_star in D2 as (w3 & w4 & -> & D2). apply AN in D2 as (_ & w5 & L5 & D2). apply AN in D2 as (L6 & _).
    assert (L1 : length w1 >= 1).
    { destruct I as [<-|[<-|[]]].
      - apply (LI "a"%char) in D1 as (w' & -> & _); [lia|reflexivity|nin].
      - apply (LI "b"%char) in D1 as (w' & -> & _); [lia|reflexivity|nin]. }
    apply (f_equal (@length str)) in E. rewrite !app_length in E. cbn in E. lia.
  - change (B "x*{*?,c}{y,ж}") with ("x"%char :: "*"%char :: braced (B "*?,c") ++ B "{y,ж}") in D. apply LI in D as (w & L & D); [|reflexivity|nin].
    apply denotes_star in D as (w0 & w' & -> & D). apply denotes_list in D as (v & w1 & w2 & -> & I & D1 & D2); [|nin].
    assert (L1 : length w1 >= 1).
    { destruct I as [<-|[<-|[]]].
      - apply denotes_star in D1 as (w3 & w4 & -> & D1). apply AN in D1 as (L1 & _). rewrite app_length. lia.
      - apply (LI "c"%char) in D1 as (w' & -> & _); [lia|reflexivity|nin]. }
    assert (L2 : length w2 >= 1).
    { change (B "{y,ж}") with (braced (B "y,ж") ++ []) in D2. apply denotes_list in D2 as (v2 & w3 & w4 & -> & I2 & D2 & _); [|nin].
      destruct I2 as [<-|[<-|[]]].
      - apply (LI "y"%char) in D2 as (w' & L2 & _); [rewrite app_length; lia|reflexivity|nin].
      - apply (proj1 (denotes_text (B "ж") w3 ltac:(exists [1078%N]; split; [constructor; [split; [reflexivity|discriminate]|constructor]|reflexivity]) ltac:(intros c [<-|[<-|[]]]; nin))) in D2. subst w3. rewrite app_length. cbn. lia. }
    rewrite !app_length in L. cbn in L. lia.
Qed.
Lemma length_filter g gl s : clean g -> ~ In zero g -> plain_singles g -> glob_parse g = Ok gl -> denotes g (symbols s) ->
  (g_min gl <= Z.of_nat (length s))%Z /\ (Forall sized (g_items gl) -> g_max gl = -1 \/ Z.of_nat (length s) <= g_max gl)%Z.
Proof.
  intros C Z P H D.
  destruct (parse_facts true g gl) as (prefix & suffix & mn & mx & rl & -> & I & L); auto; [split; auto; split; auto; discriminate|].
  apply L in D as (w2 & E & Dw). change (Z.of_nat (length s)) with (zlen s). rewrite <- bytes_symbols, E, !bytes_app, !bytes_symbols.
  destruct I as (Cp & Cs & Fw & Fm & _ & Emn & Lmx & Emx & _).
  assert (W2 : word w2). { assert (X : word (symbols prefix ++ w2 ++ symbols suffix)) by (rewrite <- E; apply word_symbols). now apply word_app in X as [_ X]; apply word_app in X as [X _]. }
  destruct (dens_bounds true (rev rl) (Forall_rev Fw) w2 W2 Dw) as [B1 B2]. rewrite zsum_rev in B1, B2.
  unfold finish_glob in *. destruct (rev rl) as [|i r] eqn:ER; cbn [g_min g_max g_items] in *.
  - split; [lia|]. intros _. destruct (Z.eq_dec mx (-1)) as [|N]; auto. right. destruct (Emx N) as [_ ->]. specialize (B2 ltac:(constructor) ltac:(constructor) ltac:(constructor)). lia.
  - split; [lia|]. intro Rn. destruct (Z.eq_dec mx (-1)) as [|N]; auto. right. destruct (Emx N) as [Fx ->].
    rewrite <- ER in *. specialize (B2 (Forall_rev Fm) Rn (Forall_rev Fx)). lia.
Qed.
(** C26: no string that the glob denotes is too short for the length filter: every glob. *)
Lemma c26_shortest_l : forall (g : str) (gl : glob) (s : str), clean g -> ~ In zero g -> plain_singles g ->
  glob_parse g = Ok gl -> denotes g (symbols s) -> (g_min gl <= Z.of_nat (length s))%Z.
Proof. intros g gl s C Z P H D. apply (length_filter g gl s C Z P H D). Qed.
(*EX
Example c26_shortest_example : exists gl, glob_parse (B "a*{b*c,d?,}[ef]") = Ok gl /\ g_min gl = 2%Z /\ g_max gl = (-1)%Z /\
  clean (B "a*{b*c,d?,}[ef]") /\ ~ In zero (B "a*{b*c,d?,}[ef]") /\ plain_singles (B "a*{b*c,d?,}[ef]").
Proof.
  eexists. split; [vm_compute; reflexivity|]. split; [reflexivity|]. split; [reflexivity|]. split; [now apply clean_b_ok|]. split; [now apply (no_byte_ok 0)|now apply plain_singles_ok].
Qed.
XE*)
(** C26: nor too long, when in the values of its lists a star comes last. *)
Lemma c26_longest_l : forall (g : str) (gl : glob) (s : str), clean g -> ~ In zero g -> plain_singles g -> stars_end g ->
  glob_parse g = Ok gl -> denotes g (symbols s) -> (g_max gl = -1 \/ Z.of_nat (length s) <= g_max gl)%Z.
Proof. intros g gl s C Z P R H D. apply (length_filter g gl s C Z P H D). now apply (stars_end_sized g). Qed.
(*EX
Example c26_longest_example : exists gl, glob_parse (B "a{b?,c*,}[dж]") = Ok gl /\ g_max gl = (-1)%Z /\ stars_end (B "a{b?,c*,}[dж]") /\
  exists gl', glob_parse (B "a{b?,c}[dж]") = Ok gl' /\ g_max gl' = 8%Z /\ stars_end (B "a{b?,c}[dж]").
Proof.
  eexists. split; [vm_compute; reflexivity|]. split; [reflexivity|]. split; [now apply stars_end_ok|].
  eexists. split; [vm_compute; reflexivity|]. split; [reflexivity|]. now apply stars_end_ok.
Qed.
XE*)
(** C26: in particular the length filter of a glob whose list values have stars only at their ends lets everything through that the glob denotes. *)
Lemma c26_length_filter_l : forall (g : str) (gl : glob) (s : str), clean g -> ~ In zero g -> plain_singles g -> stars_end g ->
  glob_parse g = Ok gl -> denotes g (symbols s) ->
  (g_min gl <= Z.of_nat (length s))%Z /\ (g_max gl = -1 \/ Z.of_nat (length s) <= g_max gl)%Z.
Proof.
  intros g gl s C Z P R H D. destruct (length_filter g gl s C Z P H D) as [A X]. split; [exact A|]. apply X.
  now apply (stars_end_sized g).
Qed.
(*EX
Example c26_length_filter_example : good_glob (B "a[b-dж]?{ef,g}") /\ exists gl, glob_parse (B "a[b-dж]?{ef,g}") = Ok gl /\ g_min gl = 4%Z /\ g_max gl = 9%Z.
Proof. split; [apply good_glob_ok; vm_compute; reflexivity|]. eexists. split; [vm_compute; reflexivity|]. split; reflexivity. Qed.
XE*)
(** C26: and Match gives such a string the answer it would give without the two length checks. *)
Lemma c26_unfiltered_l : forall (g : str) (gl : glob) (s : str), clean g -> ~ In zero g -> plain_singles g -> stars_end g ->
  glob_parse g = Ok gl -> denotes g (symbols s) ->
  glob_match gl s = glob_match (mkGlob (g_glob gl) (g_node gl) 0 (-1) (g_prefix gl) (g_suffix gl) (g_vals gl) (g_items gl)) s.
Proof.
  intros g gl s C Z P R H D. destruct (c26_length_filter_l g gl s C Z P R H D) as [L1 L2]. unfold glob_match. cbn [g_glob g_node g_min g_max g_prefix g_suffix g_vals g_items].
  change (Z.of_nat (length s)) with (zlen s) in *. replace (zlen s <? g_min gl)%Z with false by lia. replace (zlen s <? 0)%Z with false by (unfold zlen; lia).
  change (0 <? -1)%Z with false. replace ((0 <? g_max gl)%Z && (g_max gl <? zlen s)%Z) with false by lia. reflexivity.
Qed.
(*EX
Example c26_unfiltered_example : exists gl, glob_parse (B "a[b-dж]?{ef,g}") = Ok gl /\ glob_match gl (B "aжццef") = Ok false /\
  glob_match gl (B "aжцef") = Ok true /\ g_max gl = 9%Z.
Proof. eexists. split; [vm_compute; reflexivity|]. split; [vm_compute; reflexivity|]. split; vm_compute; reflexivity. Qed.
XE*)
(** C26 is false for values with a star followed by text. *)
Lemma c26_star_value_refuted_l : exists gl, glob_parse (B "{*a,b}") = Ok gl /\ g_max gl = 1%Z /\ denotes (B "{*a,b}") (symbols (B "xa")) /\ match_items (B "xa") (g_items gl) = Ok true.
Proof.
  eexists. split; [vm_compute; reflexivity|]. split; [reflexivity|]. split; [apply c21_star_value_refuted_l|vm_compute; reflexivity].
Qed.

(** an item list in which only lists from the tokenizer occur *)
Definition fair_list (it : item) : Prop :=
  match it with
  | IList l => (forall v, In v (sl_vals l) -> v <> [] /\ (sl_min l <= zlen v)%Z) /\ (0 <= sl_min l)%Z
  | _ => True
  end.
Lemma fair_token f s it a rest : token f s (Some it) a rest -> fair_list it.
Proof.
  intro T. destruct it; try exact I. destruct (list_first _ _ _ _ _ T) as (body & E & NB & A & _).
  remember (Some (IList l)) as oi. destruct T as [body' rest oi NB' C|body' rest oi NB' C| | | |]; try discriminate.
  - rewrite !braced_app in E. injection E as E. apply cut_unique in E as [-> _]; auto. subst oi. destruct C as [[_ ?]|[N C]]; [discriminate|].
    (* bounds of the scan *)
    remember (norm (split_on "," body)) as vals eqn:V. assert (SS : StronglySorted str_lt vals) by (rewrite V; apply norm_sorted). clear V.
    unfold new_item_list in C. destruct vals as [|v0 [|v1 vs]]; [discriminate|destruct (null v0); [discriminate|]; injection C as C; pose proof (single_kind v0) as K; rewrite C in K; destruct K|].
    remember (v0 :: v1 :: vs) as vals'. destruct (list_scan vals' max_int 0 true as_empty) as [[[[mn mx] st] fi] hs] eqn:LS.
    destruct hs.
    { exfalso. unfold new_group in C. destruct (group_vals (next_item f) vals') as [[it|[|x xs]]| | |] eqn:G; try discriminate; cbn [bind] in C.
      - assert (it = IStar 0). { clear -G. revert it G. induction vals' as [|v t IH]; intros it G; [discriminate|]. cbn [group_vals] in G.
          destruct (has_wildcard v); [destruct (str_eqb v (B "*")); [injection G as <-; auto|]|].
          - destruct (if str_eqb v (B "?") then _ else _); cbn [bind] in G; try discriminate. destruct (group_vals (next_item f) t) as [[x|x]| | |]; cbn [bind] in G; try discriminate. injection G as <-. auto.
          - destruct (group_vals (next_item f) t) as [[x|x]| | |]; cbn [bind] in G; try discriminate. injection G as <-. auto. }
        subst. discriminate.
      - destruct (group_bounds xs _ _). discriminate. }
    destruct (list_scan_spec _ _ _ _ _ _ _ _ _ as_ok_empty LS) as (_ & _ & Fb & Ex & _).
    assert (M0 : (0 <= mn)%Z).
    { destruct Ex as [->|Ex]; [discriminate|]. apply Exists_exists in Ex as (v & _ & <-). apply zlen_nonneg. }
    rewrite Forall_forall in Fb. cbv zeta in C. subst vals'. destruct (Z.eqb_spec mn 0) as [Z|Z].
    + destruct v0; [|discriminate]. assert (Nv : forall v, In v (v1 :: vs) -> v <> []).
      { intros v I ->. inversion SS as [|? ? _ F]; subst. rewrite Forall_forall in F. apply F in I. revert I. apply str_lt_nil. }
      destruct st; injection C as <-; cbn [fair_list sl_min sl_vals]; (split; [|lia]); intros v I; split; auto; subst mn; apply zlen_nonneg.
    + assert (Nv : forall v, In v (v0 :: v1 :: vs) -> v <> [] /\ (mn <= zlen v)%Z).
      { intros v I. specialize (Fb v I). split; [|lia]. intros ->. cbn in Fb. lia. }
      destruct st; injection C as <-; cbn [fair_list sl_min sl_vals]; (split; [|lia]); auto.
  - exfalso. injection Heqoi as X. revert X. unfold single_item. destruct (decode_rune _). repeat match goal with |- context [if ?b then _ else _] => destruct b end; discriminate.
Qed.
Lemma fair_merge x y m : merge_last x y = Some m -> fair_list m.
Proof. destruct y, x; cbn; intro H; try discriminate; injection H as <-; exact I. Qed.
Lemma fair_parse g gl : glob_parse g = Ok gl -> Forall fair_list (g_items gl).
Proof.
  apply parse_forall; [intros x y m _ _; apply fair_merge|intros _; exact I|intros _; exact I|]. intros f s it a rest done suffix T _. now apply fair_token in T.
Qed.
Lemma match_one_list l s : fair_list (IList l) -> match_items s [IList l] = Ok (existsb (str_eqb s) (sl_map l)).
Proof.
  intros [F M]. unfold match_items.
  set (fu := match_fuel s [IList l]). assert (exists f, fu = S (S f)) as (f & ->).
  { unfold fu, match_fuel. cbn. exists ((length s + 3) * 8 - 2). lia. }
  cbn [matchItems]. cbn [item_min]. unfold sl_map.
  destruct (Z.ltb_spec (zlen s) (sl_min l)) as [L|L].
  - cbn [bind]. f_equal. symmetry. apply not_true_iff_false. intro X. apply existsb_exists in X as (v & I & E). destruct (str_eqb_spec s v) as [->|]; [|discriminate].
    apply in_app_or in I as [I|I].
    + unfold sl_optional in I. destruct (Z.eqb_spec (sl_min l) 0); [|destruct I]. pose proof (zlen_nonneg v). lia.
    + apply F in I as [_ I]. lia.
  - cbn [item_match null next_empty forallb skipn].
    assert (G : forall vs, (forall v, In v vs -> In v (sl_vals l)) ->
      (fix go (vs : list str) : res (bool * bool) := match vs with [] => Ok (false, false) | v :: vs' => match match_val s v with None => go vs' | Some o => if null (skipn o s) then Ok (true, false) else go vs' end end) vs
      = Ok (existsb (str_eqb s) vs, false)).
    { induction vs as [|v vs IH]; intro Iv; [reflexivity|]. cbn [existsb]. unfold match_val in *. destruct (has_prefix s v) eqn:P.
      - apply (proj1 (has_prefix_iff _ _)) in P as (r & ->). rewrite skipn_app, skipn_all, Nat.sub_diag. cbn [app skipn]. destruct r as [|c r]; cbn [null].
        + rewrite app_nil_r. destruct (str_eqb_spec v v); [reflexivity|congruence].
        + destruct (str_eqb_spec (v ++ c :: r) v) as [E|_].
          * exfalso. apply (f_equal (@length _)) in E. rewrite app_length in E. cbn in E. lia.
          * cbn [orb]. apply IH. intros; apply Iv; now right.
      - destruct (str_eqb_spec s v) as [->|_]; [exfalso|].
        + assert (X : has_prefix v v = true) by (apply has_prefix_iff; exists []; now rewrite app_nil_r). congruence.
        + cbn [orb]. apply IH. intros; apply Iv; now right. }
    unfold sl_optional. destruct (sl_min l =? 0)%Z; cbn [bind app existsb].
    + destruct s as [|c s]; cbn [null]; [reflexivity|]. rewrite (G (sl_vals l)) by auto. reflexivity.
    + rewrite (G (sl_vals l)) by auto. reflexivity.
Qed.
(** C27: the map lookup of a glob that is one large list agrees with the item matcher (any bytes). *)
Lemma c27_lookup_l : forall (g : str) (gl : glob) (s : str), glob_parse g = Ok gl -> g_vals gl <> [] ->
  match_items s (g_items gl) = Ok (existsb (str_eqb s) (g_vals gl)) /\
  glob_match gl s = glob_match (mkGlob (g_glob gl) (g_node gl) (g_min gl) (g_max gl) (g_prefix gl) (g_suffix gl) [] (g_items gl)) s.
Proof.
  intros g gl s H N. pose proof (fair_parse _ _ H) as F.
  assert (X : exists l, g_items gl = [IList l] /\ g_vals gl = sl_map l).
  { unfold glob_parse in H. destruct (index_wildcard g) as [pos|]; [|injection H as <-; now elim N].
    destruct (index_last_wildcard _) as [e|]; [|discriminate]. cbv zeta in H.
    destruct (_ && _) in H; [discriminate|]. destruct (if e <? _ then _ else _) as [suffix body].
    destruct (str_eqb body (B "*")); [apply ok_inj in H; subst gl; now elim N|].
    destruct (str_eqb body (B "?")); [apply ok_inj in H; subst gl; now elim N|].
    destruct (parse_loop _ _ _) as [[[[prefix' mn'] mx'] rl]| | |]; try discriminate. cbn [bind] in H.
    destruct (take_suffix suffix rl) as [suffix' rl']. apply ok_inj in H. subst gl. unfold finish_glob in *.
    destruct (rev rl') as [|i [|i2 r]]; [now elim N| |destruct i; now elim N].
    destruct i as [t|b|r|n|n|rs|l|gv gm gx|cv cm cx]; try now elim N. cbn [g_vals g_items] in *. exists l. split; auto.
    destruct (2 <? length (sl_vals l)); [reflexivity|now elim N]. }
  destruct X as (l & E1 & E2). rewrite E1 in F. inversion F as [|? ? Fl _]; subst.
  assert (M : forall t, match_items t (g_items gl) = Ok (existsb (str_eqb t) (g_vals gl))) by (intro t; rewrite E1, E2; now apply match_one_list).
  split; [apply M|]. unfold glob_match. cbn [g_node g_min g_max g_prefix g_suffix g_vals g_items].
  destruct (str_eqb (g_node gl) (B "*")); auto. destruct (zlen s <? g_min gl)%Z; auto. destruct (_ && _)%bool; auto. destruct (null (g_items gl)); auto.
  destruct (_ && _)%bool; auto. cbv zeta. destruct (_ && _)%bool; auto. cbn [null negb]. rewrite M. now destruct (null (g_vals gl)) eqn:Z; [destruct (g_vals gl)|].
Qed.
(*EX
Example c27_lookup_example : exists gl, glob_parse (B "x{a,bc,,d}y") = Ok gl /\ g_vals gl = [B ""; B "a"; B "bc"; B "d"] /\ glob_match gl (B "xbcy") = Ok true /\ glob_match gl (B "xby") = Ok false.
Proof. eexists. split; [vm_compute; reflexivity|]. split; [reflexivity|]. split; vm_compute; reflexivity. Qed.
XE*)
