(** C20-C27, C72, C80, C83: parsing and matching globs. *)
From Verif Require Import Model.Glob Spec.Symbols Spec.Class Spec.GlobSpec Spec.StarSpec Spec.ApartSpec Spec.Lang Spec.Safe Spec.Accept Spec.GGlobSpec.
From Verif Require Import Proof.Utf8P Proof.SymbolsP Proof.SortP Proof.AsciiSetP Proof.SkipP Proof.RangesP Proof.LangP Proof.ListP Proof.ItemP Proof.DenotesP Proof.MatchP Proof.ParseP Proof.NextP Proof.GlobP Proof.GlobMatchP Proof.SafeP Proof.TermP Proof.PanicP Proof.StarsP Proof.RegNpP Proof.SizedP Proof.SoundP Proof.TotalP Proof.WellP Proof.AcceptP Proof.CheckP Proof.ItemTop Proof.ApartP.
From Verif Require Import Proof.GlobTop.


(** C20: Parse returns a glob or an error for every text (any bytes); it neither panics nor hangs. *)
Theorem c20_total : forall g : str, (exists gl, glob_parse g = Ok gl) \/ (exists e, glob_parse g = Err e).
Proof. exact c20_total_l. Qed.
Print Assumptions c20_total.

Example c20_total_example : (exists gl, glob_parse (B "a{b,c*[d-f]}?") = Ok gl) /\ glob_parse (B "a{b,c") = Err (ErrNodeUnclosed (B "{b,c")) /\ glob_parse (B "a[z-a]") = Err (ErrNodeMissmatch (B "rune") (B "[z-a]")) /\ glob_parse [byte_of 255; "{"%char] = Err (ErrNodeUnclosed (B "{")).
Proof. split; [eexists; vm_compute; reflexivity|]. repeat match goal with |- _ /\ _ => split end; vm_compute; reflexivity. Qed.

(** C72: every well-formed glob text is accepted. *)
Theorem c72_accepts : forall g : str, well_formed g -> exists gl, glob_parse g = Ok gl.
Proof. exact c72_accepts_l. Qed.
Print Assumptions c72_accepts.

(** C72: an accepted text (valid UTF-8) has all its brackets closed; without lists acceptance is exactly
    well-formedness. *)
Theorem c72_rejects : forall (g : str) (gl : glob), clean g -> glob_parse g = Ok gl ->
  brackets_closed g /\ (~ In "{"%char g -> well_formed g).
Proof. exact c72_rejects_l. Qed.
Print Assumptions c72_rejects.

Example c72_example : well_formed (B "a[b-d]?{e,f}").
Proof.
  apply wf_text; [intro I; repeat (destruct I as [I|I]; [discriminate|]); destruct I|].
  apply (wf_class (B "b-d") (B "?{e,f}")).
  - intro I; repeat (destruct I as [I|I]; [discriminate|]); destruct I.
  - exists [98; 45; 100]%N, [(98, 100)]%N. split; [repeat constructor; discriminate|]. split; [reflexivity|].
    split; [apply (cp_range 98%N [45]%N 100%N [] []); try discriminate; repeat constructor|]. repeat constructor; discriminate.
  - apply wf_any. apply (wf_list (B "e,f") []); [intro I; repeat (destruct I as [I|I]; [discriminate|]); destruct I| |constructor].
    intros v A. apply alternative_split in A. destruct A as [<-|[<-|[]]]; (apply wf_text; [intro I; repeat (destruct I as [I|I]; [discriminate|]); destruct I|constructor]).
Qed.

(** C72 with lists: acceptance does not imply well-formed values (a "*" value ends the scan of a list). *)
Theorem c72_unchecked_refuted : (exists gl, glob_parse (B "{*,]}") = Ok gl) /\ ~ well_formed (B "{*,]}") /\ clean (B "{*,]}").
Proof. exact c72_unchecked_refuted_l. Qed.
Print Assumptions c72_unchecked_refuted.

(** C72: exactly which texts (valid UTF-8) are accepted, whatever the lists. *)
Theorem c72_exact : forall g : str, clean g -> ((exists gl, glob_parse g = Ok gl) <-> accepted g).
Proof. exact c72_exact_l. Qed.
Print Assumptions c72_exact.

(** A list whose values after "*" are malformed, and a malformed list value that is the only one; the third list has a
    malformed value before "*". *)
Example c72_exact_example : accepted (B "a{*,]}") /\ accepted (B "{[}?") /\ glob_parse (B "{#],*}") = Err (ErrNodeUnclosed (B "]")) /\ glob_parse (B "{[,a}") = Err (ErrNodeMissmatch (B "rune") (B "[")).
Proof.
  split; [|split; [|split; vm_compute; reflexivity]].
  - apply ac_text; [intro I; repeat (destruct I as [I|I]; [discriminate|]); destruct I|]. apply (ac_list (B "*,]") []); [intro I; repeat (destruct I as [I|I]; [discriminate|]); destruct I| |constructor].
    right. intros v A. apply alternative_split in A. destruct A as [<-|[<-|[]]]; [left; apply wf_star; constructor|right].
    split; [apply alternative_split; now left|]. apply byte_order_iff. reflexivity.
  - apply (ac_list (B "[") (B "?")); [intro I; repeat (destruct I as [I|I]; [discriminate|]); destruct I| |apply ac_any; constructor].
    left. intros v v' A A'. apply alternative_split in A, A'. destruct A as [<-|[]], A' as [<-|[]]. reflexivity.
Qed.

(** C83: ParseMust of globs. *)
Theorem c83_glob : forall text : str,
  (forall gl, glob_parse_must text = Ok gl <-> glob_parse text = Ok gl) /\
  (glob_parse_must text = Panic <-> exists e, glob_parse text = Err e) /\
  ((exists gl, glob_parse_must text = Ok gl) \/ glob_parse_must text = Panic) /\
  (clean text -> (glob_parse_must text = Panic <-> ~ accepted text)).
Proof. exact c83_glob_l. Qed.
Print Assumptions c83_glob.

Example c83_glob_example : (exists gl, glob_parse_must (B "a{b,c}[0-9]") = Ok gl) /\ glob_parse_must (B "a{b,c") = Panic /\ glob_parse_must (B "]") = Panic.
Proof. split; [eexists; vm_compute; reflexivity|]. split; vm_compute; reflexivity. Qed.

(** C21: matching is exact for regular globs. *)
Theorem c21_regular : forall (g : str) (gl : glob) (s : str), clean g -> ~ In zero g -> plain_singles g -> regular g -> ~ only_star g ->
  glob_parse g = Ok gl -> clean s \/ lone_classes g ->
  exists b, glob_match gl s = Ok b /\ (b = true <-> denotes g (symbols s)).
Proof. exact c21_regular_l. Qed.
Print Assumptions c21_regular.

Example c21_regular_example : let g := B "a{b,c?}*[d-f]*{gh,i}" in
  clean g /\ ~ In zero g /\ plain_singles g /\ regular g /\ ~ only_star g /\ parse_match g (B "acxzzezzgh") = Ok true /\ parse_match g (B "acezzgh") = Ok false /\ parse_match g (B "abжei") = Ok true.
Proof.
  cbv zeta. destruct (good_glob_ok (B "a{b,c?}*[d-f]*{gh,i}") ltac:(vm_compute; reflexivity)) as (C & Z & _ & P & Q & R). do 3 (split; [assumption|]). split; [apply regular_ok; vm_compute; reflexivity|]. split; [now apply plain_not_star|].
  repeat match goal with |- _ /\ _ => split end; vm_compute; reflexivity.
Qed.
(** A list with wildcards after a star, followed by text. *)
Example c21_regular_example2 : let g := B "*{a?,[bж]c}d*e" in
  clean g /\ ~ In zero g /\ plain_singles g /\ regular g /\ ~ only_star g /\ parse_match g (B "aaбdaxdже") = Ok false /\ parse_match g (B "aaбdaxdжe") = Ok true /\
  parse_match g (B "жcaжcde") = Ok true /\ parse_match g (B "жcaжce") = Ok false.
Proof.
  cbv zeta. destruct (good_glob_ok (B "*{a?,[bж]c}d*e") ltac:(vm_compute; reflexivity)) as (C & Z & _ & P & Q & R). do 3 (split; [assumption|]). split; [apply regular_ok; vm_compute; reflexivity|]. split; [now apply plain_not_star|].
  repeat match goal with |- _ /\ _ => split end; vm_compute; reflexivity.
Qed.

Example c21_malformed_example : let g := B "ж*{я,a?}*" in let s := B "ж" ++ byte_of 255 :: B "aя" in
  clean g /\ ~ In zero g /\ plain_singles g /\ regular g /\ ~ only_star g /\ lone_classes g /\ parse_match g s = Ok true /\ parse_match g (B "ж" ++ [byte_of 209]) = Ok false.
Proof.
  cbv zeta. destruct (good_glob_ok (B "ж*{я,a?}*") ltac:(vm_compute; reflexivity)) as (C & Z & _ & P & Q & R). do 3 (split; [assumption|]). split; [apply regular_ok; vm_compute; reflexivity|]. split; [now apply plain_not_star|].
  split; [apply ParseP.no_class_lone; apply (no_byte_ok 91); reflexivity|]. split; vm_compute; reflexivity.
Qed.

(** C21: stars in the values of lists are fine too, if a star comes last in its value. *)
Theorem c21_exact : forall (g : str) (gl : glob) (s : str), clean g -> ~ In zero g -> plain_singles g -> exact_lists g -> ~ only_star g ->
  glob_parse g = Ok gl -> clean s \/ lone_classes g ->
  exists b, glob_match gl s = Ok b /\ (b = true <-> denotes g (symbols s)).
Proof. exact c21_exact_l. Qed.
Print Assumptions c21_exact.

Example c21_exact_example : let g := B "a{b*,c?}[d-f]*{gh*,i?}{j,k}" in
  clean g /\ ~ In zero g /\ plain_singles g /\ exact_lists g /\ ~ only_star g /\ parse_match g (B "abxdzzghеk") = Ok true /\ parse_match g (B "acxezzghx") = Ok false /\ parse_match g (B "acxfiяj") = Ok true.
Proof.
  cbv zeta. destruct (good_glob_ok (B "a{b*,c?}[d-f]*{gh*,i?}{j,k}") ltac:(vm_compute; reflexivity)) as (C & Z & _ & P & Q & R). do 4 (split; [assumption|]). split; [now apply plain_not_star|].
  repeat match goal with |- _ /\ _ => split end; vm_compute; reflexivity.
Qed.

(** C21: stars anywhere in the values: Match accepts exactly what the glob denotes and MaxLen allows.  (MaxLen is too
    small for some globs with text after a star in a list value, and then is the only reason for a missed match.) *)
Theorem c21_stars : forall (g : str) (gl : glob) (s : str), clean g -> ~ In zero g -> plain_singles g -> regular_stars g -> ~ only_star g ->
  glob_parse g = Ok gl -> clean s \/ lone_classes g ->
  exists b, glob_match gl s = Ok b /\ (b = true <-> denotes g (symbols s) /\ (g_max gl <= 0 \/ Z.of_nat (length s) <= g_max gl)%Z).
Proof. exact c21_stars_l. Qed.
Print Assumptions c21_stars.

Example c21_stars_example : let g := B "{a*b,c}d" in
  clean g /\ ~ In zero g /\ plain_singles g /\ regular_stars g /\ ~ only_star g /\ exists gl, glob_parse g = Ok gl /\ g_max gl = 2%Z /\
  glob_match gl (B "abd") = Ok false /\ denotes g (symbols (B "abd")).
Proof.
  cbv zeta. destruct (node_glob_ok (B "{a*b,c}d") ltac:(vm_compute; reflexivity)) as (C & Z & _ & P & Q). do 3 (split; [assumption|]). split; [apply regular_stars_ok; vm_compute; reflexivity|]. split; [now apply plain_not_star|].
  eexists. split; [vm_compute; reflexivity|]. split; [reflexivity|]. split; [vm_compute; reflexivity|].
  apply (d_list (B "a*b,c") (B "a*b") (B "d") [B "a"; B "b"] [B "d"]).
  - apply (no_byte_ok 125). reflexivity.
  - exists [], (B ",c"). split; [reflexivity|]. split; [apply (no_byte_ok 44); reflexivity|]. split; [now left|]. right. now exists (B "c").
  - apply (d_symbol 97%N (B "*b") [B "b"]); [split; [reflexivity|discriminate]|intros c I; repeat destruct I as [<-|I]; try discriminate; destruct I|]. apply (d_star (B "b") [] [B "b"]).
    apply (d_symbol 98%N [] []); [split; [reflexivity|discriminate]|intros c I; repeat destruct I as [<-|I]; try discriminate; destruct I|]. constructor.
  - apply (d_symbol 100%N [] []); [split; [reflexivity|discriminate]|intros c I; repeat destruct I as [<-|I]; try discriminate; destruct I|]. constructor.
Qed.
Example c21_stars_example2 : let g := B "{a*b,c}d*" in
  clean g /\ ~ In zero g /\ plain_singles g /\ regular_stars g /\ ~ only_star g /\ exists gl, glob_parse g = Ok gl /\ g_max gl = (-1)%Z /\
  glob_match gl (B "aжbddx") = Ok true /\ glob_match gl (B "acd") = Ok false.
Proof.
  cbv zeta. destruct (node_glob_ok (B "{a*b,c}d*") ltac:(vm_compute; reflexivity)) as (C & Z & _ & P & Q). do 3 (split; [assumption|]). split; [apply regular_stars_ok; vm_compute; reflexivity|]. split; [now apply plain_not_star|].
  eexists. split; [vm_compute; reflexivity|]. split; [reflexivity|]. split; vm_compute; reflexivity.
Qed.

(** C21: in particular matching is exact for every glob without lists. *)
Theorem c21_no_lists : forall (g : str) (gl : glob) (s : str), clean g -> ~ In zero g -> ~ In "{"%char g -> ~ only_star g ->
  glob_parse g = Ok gl -> clean s \/ lone_classes g ->
  exists b, glob_match gl s = Ok b /\ (b = true <-> denotes g (symbols s)).
Proof. exact c21_no_lists_l. Qed.
Print Assumptions c21_no_lists.

Example c21_no_lists_example : let g := B "a?*[x-zж]b*" in clean g /\ ~ In zero g /\ ~ In "{"%char g /\ ~ only_star g /\ parse_match g (B "aqwжbb") = Ok true /\ parse_match g (B "aжb") = Ok false.
Proof.
  cbv zeta. destruct (good_glob_ok (B "a?*[x-zж]b*") ltac:(vm_compute; reflexivity)) as (C & Z & _ & P & Q & R). do 2 (split; [assumption|]). split; [apply (no_byte_ok 123); reflexivity|]. split; [now apply plain_not_star|].
  split; vm_compute; reflexivity.
Qed.

(** C21, the general form in terms of the parsed items: any glob whose items are [safe] (Spec/Safe.v), for
    instance with stars inside lists. *)
Theorem c21_items : forall (g : str) (gl : glob) (s : str), clean g -> ~ In zero g -> plain_singles g -> ~ only_star g ->
  glob_parse g = Ok gl -> safe (g_items gl) -> Forall sized (g_items gl) \/ g_max gl = (-1)%Z -> clean s \/ lone_classes g ->
  exists b, glob_match gl s = Ok b /\ (b = true <-> denotes g (symbols s)).
Proof. exact c21_items_l. Qed.
Print Assumptions c21_items.

Example c21_items_example : (let g := B "{a*,b?}c*" in clean g /\ ~ In zero g /\ plain_singles g /\ ~ only_star g) /\
  exists gl, glob_parse (B "{a*,b?}c*") = Ok gl /\ g_max gl = (-1)%Z /\ safe (g_items gl).
Proof.
  split; [cbv zeta; destruct (node_glob_ok (B "{a*,b?}c*") ltac:(vm_compute; reflexivity)) as (C & Z & _ & P & Q); do 3 (split; [assumption|]); now apply plain_not_star|].
  eexists. split; [vm_compute; reflexivity|]. split; [reflexivity|]. cbn [g_items]. apply safe_group.
  - intros v [<-|[<-|[]]]; cbn [val_items app].
    + apply safe_one; [exact I|]. apply safe_starred. right. apply ss_one; [exact I|]. apply safe_starred. now left.
    + repeat (apply safe_one; [exact I|]). apply safe_starred. now left.
  - discriminate.
Qed.

(** C21 is false outside of the regular globs.  A value with a star: the length filter is wrong. *)
Theorem c21_star_value_refuted : parse_match (B "{*a,b}") (B "xa") = Ok false /\ denotes (B "{*a,b}") (symbols (B "xa")).
Proof. exact c21_star_value_refuted_l. Qed.
Print Assumptions c21_star_value_refuted.

(** ... a value ending in a star before another star *)
Theorem c21_star_star_refuted : parse_match (B "{a*,b}*c*") (B "ac") = Ok false /\ denotes (B "{a*,b}*c*") (symbols (B "ac")).
Proof. exact c21_star_star_refuted_l. Qed.
Print Assumptions c21_star_star_refuted.

(** ... a list after a star followed by text: an occurrence is skipped *)
Theorem c21_list_text_refuted : parse_match (B "*{a,b}c*") (B "aacb") = Ok false /\ denotes (B "*{a,b}c*") (symbols (B "aacb")).
Proof. exact c21_list_text_refuted_l. Qed.
Print Assumptions c21_list_text_refuted.

(** ... an optional list between stars *)
Theorem c21_optional_refuted : parse_match (B "*{,a}*b*") (B "b") = Ok false /\ denotes (B "*{,a}*b*") (symbols (B "b")).
Proof. exact c21_optional_refuted_l. Qed.
Print Assumptions c21_optional_refuted.

(** ... a list with a '?' value after a star panics *)
Theorem c21_any_value_refuted : parse_match (B "*{?,b}") (B "x") = Panic /\ denotes (B "*{?,b}") (symbols (B "x")).
Proof. exact c21_any_value_refuted_l. Qed.
Print Assumptions c21_any_value_refuted.

(** ... a list with one value is taken literally *)
Theorem c21_single_refuted : parse_match (B "{a*}") (B "ab") = Ok false /\ denotes (B "{a*}") (symbols (B "ab")).
Proof. exact c21_single_refuted_l. Qed.
Print Assumptions c21_single_refuted.

(** ... an escaped star alone matches everything *)
Theorem c21_only_star_refuted : parse_match (B "[*]") (B "x") = Ok true /\ ~ denotes (B "[*]") (symbols (B "x")).
Proof. exact c21_only_star_refuted_l. Qed.
Print Assumptions c21_only_star_refuted.

(** ... NUL in a class is lost *)
Theorem c21_zero_refuted : parse_match ("["%char :: zero :: B "a]") [zero] = Ok false /\ denotes ("["%char :: zero :: B "a]") (symbols [zero]).
Proof. exact c21_zero_refuted_l. Qed.
Print Assumptions c21_zero_refuted.

(** ... a non-ASCII class after a star does not look past a malformed byte *)
Theorem c21_malformed_refuted : let s := byte_of 255 :: B "ж" in parse_match (B "*[жя]") s = Ok false /\ denotes (B "*[жя]") (symbols s).
Proof. exact c21_malformed_refuted_l. Qed.
Print Assumptions c21_malformed_refuted.

(** C22: a text without wildcard characters (any bytes) is accepted and matches itself only. *)
Theorem c22_literal : forall g : str, (forall c, In c g -> ~ In c metas) ->
  exists gl, glob_parse g = Ok gl /\ forall s, exists b, glob_match gl s = Ok b /\ (b = true <-> s = g).
Proof. exact c22_literal_l. Qed.
Print Assumptions c22_literal.

Example c22_literal_example : forall c, In c (B "a,b-c") -> ~ In c metas.
Proof. intros c I J. repeat (destruct I as [<-|I]; [repeat (destruct J as [J|J]; [discriminate|]); destruct J|]). destruct I. Qed.

(** C23: the glob "*" matches every string; so does a run of stars. *)
Theorem c23_star : forall (n : nat) (s : str), parse_match (repeat "*"%char (S n)) s = Ok true.
Proof. exact c23_star_l. Qed.
Print Assumptions c23_star.

(** C24: Match always finishes (for every glob value, parsed or not, and every subject). *)
Theorem c24_terminates : forall (gl : glob) (s : str), glob_match gl s <> Fuel.
Proof. exact c24_terminates_l. Qed.
Print Assumptions c24_terminates.

Example c24_terminates_example : parse_match (B "*{a*b*,c*}*{d,*e}*f") (B "abababababcecdcecdcecdceabab") = Ok false.
Proof. vm_compute. reflexivity. Qed.

(** C25: Match returns an answer on every subject (any bytes), for well-formed globs without '?' or in which no list brings a wildcard
    next to a star, and for globs of any bytes without '*'. *)
Theorem c25_returns : forall (g : str) (gl : glob) (s : str), calm_glob g -> glob_parse g = Ok gl -> exists b, glob_match gl s = Ok b.
Proof. exact c25_returns_l. Qed.
Print Assumptions c25_returns.

(** C25: among them are the well-formed globs in the wide fragment of C21 and the globs without '*'. *)
Theorem c25_calm : forall g : str, clean g /\ (regular_stars g \/ ~ In "?"%char g) \/ ~ In "*"%char g -> calm_glob g.
Proof. exact c25_calm_l. Qed.
Print Assumptions c25_calm.

(** Stars and '?' together, inside and around lists; the wide fragment of C21 does not have this glob (an empty value after a star). *)
Example c25_returns_example : calm_glob (B "x*y{?a,b*,}c2{*d,}e?*") /\ ~ regular_stars (B "x*y{?a,b*,}c2{*d,}e?*") /\ ~ apart (B "*{?,b}") /\ ~ apart (B "{a*,b}?") /\ parse_match (B "x*y{?a,b*,}c2{*d,}e?*") (B "x1ybbb" ++ byte_of 255 :: B "c2deef") = Ok true /\ parse_match (B "x*y{?a,b*,}c2{*d,}e?*") (B "x1ybbb") = Ok false.
Proof.
  split; [apply calm_glob_ok; vm_compute; reflexivity|]. split; [|split; [|split; [|split; vm_compute; reflexivity]]].
  - intro R. destruct (R (B "x*y") (B "?a,b*,") (B "c2{*d,}e?*") eq_refl ltac:(vm_compute; intuition discriminate)) as [R1 _].
    destruct (proj1 (R1 ltac:(vm_compute; tauto)) []) as [(c & p & X & _)|(body & p & r & X & _)]; [|discriminate X|discriminate X].
    exists (B "?a,b*,"), []. split; [reflexivity|]. split; [now intros []|]. split; [right; exists (B "?a,b*"); reflexivity|now left].
  - intro R. destruct (R (B "*") (B "?,b") [] eq_refl ltac:(vm_compute; intuition discriminate)) as [R1 _].
    destruct (R1 ltac:(vm_compute; tauto) ltac:(exists [], "*"%char; split; [reflexivity|vm_compute; tauto]) (B "?")) as [(c & p & X & N)|(body & p & r & X & _)]; [|injection X as <- <-; apply N; vm_compute; tauto|discriminate X].
    exists [], (B ",b"). split; [reflexivity|]. split; [vm_compute; intuition discriminate|]. split; [now left|right; exists (B "b"); reflexivity].
  - intro R. destruct (R [] (B "a*,b") (B "?") eq_refl ltac:(vm_compute; intuition discriminate)) as [_ R2].
    destruct R2 as [X|[[(c & p & X & N)|(body & p & r & X & _)]|(body & b' & X & _)]]; [|discriminate X|injection X as <- <-; apply N; vm_compute; tauto|discriminate X|discriminate X].
    exists (B "a*"). split; [exists [], (B ",b"); split; [reflexivity|]; split; [vm_compute; intuition discriminate|]; split; [now left|right; exists (B "b"); reflexivity]|].
    intros [X|(p & c & X & N)]; [apply X; vm_compute; tauto|]. apply N. change (B "a*") with (B "a" ++ ["*"%char]) in X. apply app_inj_tail in X as [_ <-]. vm_compute. tauto.
Qed.

(** C25: more generally, all globs in which no choice of list values puts a '?', or U+FFFD standing alone, directly
    after a star. *)
Theorem c25_items : forall (g : str) (gl : glob) (s : str), glob_parse g = Ok gl -> ~ star_trap (g_items gl) -> exists b, glob_match gl s = Ok b.
Proof. exact c25_items_l. Qed.
Print Assumptions c25_items.

Example c25_example : exists gl, glob_parse (B "{a*,?}b*c") = Ok gl /\ ~ star_trap (g_items gl) /\ glob_match gl (B "axbxc") = Ok true.
Proof.
  eexists. split; [vm_compute; reflexivity|]. split; [|vm_compute; reflexivity].
  cbn [g_items]. match goal with |- ~ star_trap ?F => assert (X : forall r a k it b, path F r -> r = a ++ IStar k :: it :: b -> (forall c, it <> IByte c) -> False) end;
    [|intros [(r & a & k & n & b & P & E)|(r & a & k & b & P & E)]; eapply X; eauto; discriminate].
  intros r a k it b P E NS. inversion P as [| | |vals mn mx v R r' I P2|]; subst.
  - destruct a; discriminate.
  - match goal with H : False |- _ => destruct H end.
  - destruct I as [<-|[<-|[]]]; cbn [val_items app] in P2.
    + repeat match goal with H : path (_ :: _) _ |- _ => inversion H; clear H; subst | H : path [] _ |- _ => inversion H; clear H; subst end;
        repeat (destruct a as [|? a]; cbn in *; try congruence; try (match goal with H : _ = _ :: IStar _ :: it :: _ |- _ => injection H; intros; subst; now eapply NS end)).
    + repeat match goal with H : path (_ :: _) _ |- _ => inversion H; clear H; subst | H : path [] _ |- _ => inversion H; clear H; subst end;
        repeat (destruct a as [|? a]; cbn in *; try congruence; try (match goal with H : _ = _ :: IStar _ :: it :: _ |- _ => injection H; intros; subst; now eapply NS end)).
  - discriminate.
Qed.

(** C25 is false in general: a list with a '?' value after a star. *)
Theorem c25_any_refuted : (exists gl, glob_parse (B "*{?,b}") = Ok gl /\ glob_match gl (B "x") = Panic) /\
  (exists gl, glob_parse (B "{a*,b}?") = Ok gl /\ glob_match gl (B "ax") = Panic).
Proof. exact c25_any_refuted_l. Qed.
Print Assumptions c25_any_refuted.

(** C25 is false in general, too, without '?': a malformed byte, or U+FFFD, after a star.  Both are looked for as U+FFFD, found in a
    malformed byte, and three bytes are cut off. *)
Theorem c25_malformed_refuted : (exists gl, glob_parse (B "*" ++ byte_of 255 :: B "*") = Ok gl /\ glob_match gl (B "aa" ++ [byte_of 255]) = Panic) /\
  (exists gl, glob_parse (B "*" ++ encode_rune 65533%N ++ B "*") = Ok gl /\ glob_match gl (B "aa" ++ byte_of 255 :: B "b") = Panic).
Proof. exact c25_malformed_refuted_l. Qed.
Print Assumptions c25_malformed_refuted.

(** C80: a match that is reported is a match, on any string, for every glob without '?' (whatever its lists look like) and every glob in
    which no list brings a wildcard next to a star. *)
Theorem c80_sound : forall (g : str) (gl : glob) (s : str), clean g -> ~ In zero g -> plain_singles g -> ~ only_star g -> calm_glob g ->
  glob_parse g = Ok gl -> glob_match gl s = Ok true -> denotes g (symbols s).
Proof. exact c80_sound_l. Qed.
Print Assumptions c80_sound.

Example c80_sound_example : node_glob_b (B "{a*,c}{d,*e}[f-h]*{,i}x") = true /\ parse_match (B "{a*,c}{d,*e}[f-h]*{,i}x") (B "a1behjx") = Ok true /\ parse_match (B "*{a*b,c}{d,*e}[f-h]*") (B "a1be2hh") = Ok false /\
  parse_match (B "{a*,c}{d,*e}[f-h]*") (B "a1beh" ++ [byte_of 255]) = Ok true /\
  (calm_glob_b (B "x*y{?a,b*,}c2{*d,}e?*") && node_glob_b (B "x*y{?a,b*,}c2{*d,}e?*") = true /\ parse_match (B "x*y{?a,b*,}c2{*d,}e?*") (B "x1ybbb" ++ byte_of 255 :: B "c2deef") = Ok true).
Proof. repeat match goal with |- _ /\ _ => split end; vm_compute; reflexivity. Qed.

(** C80: more generally, all globs in which no choice of list values puts a star that needs a symbol directly after a star. *)
Theorem c80_items : forall (g : str) (gl : glob) (s : str), clean g -> ~ In zero g -> plain_singles g -> ~ only_star g ->
  glob_parse g = Ok gl -> ~ star_more (g_items gl) -> glob_match gl s = Ok true -> denotes g (symbols s).
Proof. exact c80_items_l. Qed.
Print Assumptions c80_items.

Example c80_items_example : (let g := B "{a?*,?b}c?*" in clean g /\ ~ In zero g /\ plain_singles g /\ ~ only_star g) /\
  exists gl, glob_parse (B "{a?*,?b}c?*") = Ok gl /\ ~ star_more (g_items gl) /\ glob_match gl (B "axxcy") = Ok true.
Proof.
  split; [cbv zeta; destruct (node_glob_ok (B "{a?*,?b}c?*") ltac:(vm_compute; reflexivity)) as (C & Z & _ & P & Q); do 3 (split; [assumption|]); now apply plain_not_star|].
  eexists. split; [vm_compute; reflexivity|]. split; [|vm_compute; reflexivity].
  cbn [g_items]. intros (r & a & k & n & b & P & E). inversion P as [| | |vals mn mx v R r' I P2|]; subst.
  - destruct a; discriminate.
  - match goal with H : False |- _ => destruct H end.
  - destruct I as [<-|[<-|[]]]; cbn [val_items app] in P2;
      repeat match goal with H : path (_ :: _) _ |- _ => inversion H; clear H; subst | H : path [] _ |- _ => inversion H; clear H; subst end;
        repeat (destruct a as [|? a]; cbn in *; try congruence).
  - discriminate.
Qed.

(** C80 is false in general: the symbols that a star needs are not counted when the star directly follows a star. *)
Theorem c80_star_refuted : (parse_match (B "{a*,b}*??") (B "aж") = Ok true /\ ~ denotes (B "{a*,b}*??") (symbols (B "aж"))) /\
  (parse_match (B "x*{*?,c}{y,ж}") (B "xж") = Ok true /\ ~ denotes (B "x*{*?,c}{y,ж}") (symbols (B "xж"))).
Proof. exact c80_star_refuted_l. Qed.
Print Assumptions c80_star_refuted.

(** C26: no string that the glob denotes is too short for the length filter: every glob. *)
Theorem c26_shortest : forall (g : str) (gl : glob) (s : str), clean g -> ~ In zero g -> plain_singles g ->
  glob_parse g = Ok gl -> denotes g (symbols s) -> (g_min gl <= Z.of_nat (length s))%Z.
Proof. exact c26_shortest_l. Qed.
Print Assumptions c26_shortest.

Example c26_shortest_example : exists gl, glob_parse (B "a*{b*c,d?,}[ef]") = Ok gl /\ g_min gl = 2%Z /\ g_max gl = (-1)%Z /\
  clean (B "a*{b*c,d?,}[ef]") /\ ~ In zero (B "a*{b*c,d?,}[ef]") /\ plain_singles (B "a*{b*c,d?,}[ef]").
Proof.
  eexists. split; [vm_compute; reflexivity|]. split; [reflexivity|]. split; [reflexivity|]. split; [now apply clean_b_ok|]. split; [now apply (no_byte_ok 0)|now apply plain_singles_ok].
Qed.

(** C26: nor too long, when in the values of its lists a star comes last. *)
Theorem c26_longest : forall (g : str) (gl : glob) (s : str), clean g -> ~ In zero g -> plain_singles g -> stars_end g ->
  glob_parse g = Ok gl -> denotes g (symbols s) -> (g_max gl = -1 \/ Z.of_nat (length s) <= g_max gl)%Z.
Proof. exact c26_longest_l. Qed.
Print Assumptions c26_longest.

Example c26_longest_example : exists gl, glob_parse (B "a{b?,c*,}[dж]") = Ok gl /\ g_max gl = (-1)%Z /\ stars_end (B "a{b?,c*,}[dж]") /\
  exists gl', glob_parse (B "a{b?,c}[dж]") = Ok gl' /\ g_max gl' = 8%Z /\ stars_end (B "a{b?,c}[dж]").
Proof.
  eexists. split; [vm_compute; reflexivity|]. split; [reflexivity|]. split; [now apply stars_end_ok|].
  eexists. split; [vm_compute; reflexivity|]. split; [reflexivity|]. now apply stars_end_ok.
Qed.

(** C26: in particular the length filter of a glob whose list values have stars only at their ends lets everything through that the glob denotes. *)
Theorem c26_length_filter : forall (g : str) (gl : glob) (s : str), clean g -> ~ In zero g -> plain_singles g -> stars_end g ->
  glob_parse g = Ok gl -> denotes g (symbols s) ->
  (g_min gl <= Z.of_nat (length s))%Z /\ (g_max gl = -1 \/ Z.of_nat (length s) <= g_max gl)%Z.
Proof. exact c26_length_filter_l. Qed.
Print Assumptions c26_length_filter.

Example c26_length_filter_example : good_glob (B "a[b-dж]?{ef,g}") /\ exists gl, glob_parse (B "a[b-dж]?{ef,g}") = Ok gl /\ g_min gl = 4%Z /\ g_max gl = 9%Z.
Proof. split; [apply good_glob_ok; vm_compute; reflexivity|]. eexists. split; [vm_compute; reflexivity|]. split; reflexivity. Qed.

(** C26: and Match gives such a string the answer it would give without the two length checks. *)
Theorem c26_unfiltered : forall (g : str) (gl : glob) (s : str), clean g -> ~ In zero g -> plain_singles g -> stars_end g ->
  glob_parse g = Ok gl -> denotes g (symbols s) ->
  glob_match gl s = glob_match (mkGlob (g_glob gl) (g_node gl) 0 (-1) (g_prefix gl) (g_suffix gl) (g_vals gl) (g_items gl)) s.
Proof. exact c26_unfiltered_l. Qed.
Print Assumptions c26_unfiltered.

Example c26_unfiltered_example : exists gl, glob_parse (B "a[b-dж]?{ef,g}") = Ok gl /\ glob_match gl (B "aжццef") = Ok false /\
  glob_match gl (B "aжцef") = Ok true /\ g_max gl = 9%Z.
Proof. eexists. split; [vm_compute; reflexivity|]. split; [vm_compute; reflexivity|]. split; vm_compute; reflexivity. Qed.

(** C26 is false for values with a star followed by text. *)
Theorem c26_star_value_refuted : exists gl, glob_parse (B "{*a,b}") = Ok gl /\ g_max gl = 1%Z /\ denotes (B "{*a,b}") (symbols (B "xa")) /\ match_items (B "xa") (g_items gl) = Ok true.
Proof. exact c26_star_value_refuted_l. Qed.
Print Assumptions c26_star_value_refuted.

(** C27: the map lookup of a glob that is one large list agrees with the item matcher (any bytes). *)
Theorem c27_lookup : forall (g : str) (gl : glob) (s : str), glob_parse g = Ok gl -> g_vals gl <> [] ->
  match_items s (g_items gl) = Ok (existsb (str_eqb s) (g_vals gl)) /\
  glob_match gl s = glob_match (mkGlob (g_glob gl) (g_node gl) (g_min gl) (g_max gl) (g_prefix gl) (g_suffix gl) [] (g_items gl)) s.
Proof. exact c27_lookup_l. Qed.
Print Assumptions c27_lookup.

Example c27_lookup_example : exists gl, glob_parse (B "x{a,bc,,d}y") = Ok gl /\ g_vals gl = [B ""; B "a"; B "bc"; B "d"] /\ glob_match gl (B "xbcy") = Ok true /\ glob_match gl (B "xby") = Ok false.
Proof. eexists. split; [vm_compute; reflexivity|]. split; [reflexivity|]. split; vm_compute; reflexivity. Qed.
