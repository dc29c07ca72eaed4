(** C31-C36, C79, C80: trees of globs. *)
From Verif Require Import Model.Tree Model.GGlob Spec.Symbols Spec.Class Spec.GlobSpec Spec.Safe Spec.RegistrySpec Spec.GlobTreeSpec Spec.EndSpec Spec.StarSpec Spec.ApartSpec Spec.TreeStarSpec.
From Verif Require Import Proof.TidyP.
From Verif Require Import Proof.Utf8P Proof.SymbolsP Proof.SortP Proof.ListP Proof.LangP Proof.ItemP Proof.DenotesP Proof.MatchP Proof.ParseP Proof.NextP Proof.GlobP Proof.GlobMatchP Proof.SafeP Proof.TotalP Proof.WellP Proof.NodeP Proof.RegistryP Proof.GTreeP Proof.ItemTop Proof.GlobTop Proof.NodeTop Proof.GGlobTop Proof.ItemEqP Proof.TreeP Proof.TreeInsP Proof.GlobTreeP Proof.TreeCountP Proof.TreeMonoP Proof.TreeEndP Proof.TreeEnd2P Proof.MinP Proof.TreePanicP Proof.TreeHangP Proof.SoundP Proof.TreeSoundP Proof.TreeStarsP Proof.TreeStars2P Proof.CheckP Proof.ApartP.
From Verif Require Import Proof.GlobTreeTop.


(** C31: any sequence of calls of Add (any texts, any indexes) does what the registry of Spec/RegistrySpec.v does, and the two
    maps of the tree hold exactly the names and the indexes of its entries. *)
Theorem c31_history : forall calls : list (str * Z), exists gt rs E, run_adds gt_add gt_new calls = Ok (gt, rs) /\
  history gl_canon calls rs E /\ distinct E /\
  (forall name n, lookup str_eqb name (gt_globs gt) = Some n <-> known E name n) /\
  (forall i q, lookup Z.eqb i (gt_index gt) = Some q <-> used E i q).
Proof. exact c31_history_l. Qed.
Print Assumptions c31_history.

Example c31_history_example : exists gt, run_adds gt_add gt_new [(B "a{c,b}", 5%Z); (B "a{b,c}", 6%Z); (B "b*", 5%Z); (B "a[", 7%Z); (B "*x", 0%Z); (B "y", (-1)%Z); ([], 8%Z)] =
  Ok (gt, [(B "a{b,c}", 5%Z, None); (B "a{b,c}", 5%Z, Some ErrGlobExist); (B "a{b,c}", 0%Z, Some ErrIndexDup); ([], 0%Z, Some (ErrNodeUnclosed (B "[")));
           (B "*x", 0%Z, None); (B "y", 0%Z, Some ErrIndexInvalid); ([], 0%Z, None)]).
Proof. eexists. vm_compute. reflexivity. Qed.

(** C31: a call that returns an error leaves the tree as it was. *)
Theorem c31_rejected : forall (calls : list (str * Z)) (gt gt' : glob_tree) rs text i q n e,
  run_adds gt_add gt_new calls = Ok (gt, rs) -> gt_add gt text i = Ok (gt', (q, n, Some e)) -> gt' = gt.
Proof. exact c31_rejected_l. Qed.
Print Assumptions c31_rejected.

Example c31_rejected_example : exists gt rs, run_adds gt_add gt_new [(B "a{c,b}", 5%Z)] = Ok (gt, rs) /\ gt_add gt (B "a{b,c}") 6 = Ok (gt, (B "a{b,c}", 5%Z, Some ErrGlobExist)).
Proof. do 2 eexists. split; [vm_compute; reflexivity|]. vm_compute. reflexivity. Qed.

(** C32: AddGlob of a parsed glob is accepted exactly when Add of its text is; then both trees answer every Match alike.  A rejected
    glob leaves the tree as it was. *)
Theorem c32_same_match : forall (gt : glob_tree) (text : str) (i : Z) (g : glob), text <> [] -> glob_parse text = Ok g ->
  exists gt1 gt2 q1 q2 n1 n2 e1 e2,
    gt_add gt text i = Ok (gt1, (q1, n1, e1)) /\ gt_add_glob gt g i = (gt2, (q2, n2, e2)) /\
    (e1 = None <-> e2 = None) /\ (e2 <> None -> gt2 = gt) /\ (e2 = None -> n1 = i /\ n2 = i) /\
    forall f s, gt_match f gt1 s = gt_match f gt2 s.
Proof. exact c32_same_match_l. Qed.
Print Assumptions c32_same_match.

Example c32_same_match_example : exists g gt1 gt2, glob_parse (B "a{c,b}*") = Ok g /\ gt_add gt_new (B "a{c,b}*") 3 = Ok (gt1, (B "a{b,c}*", 3%Z, None)) /\
  gt_add_glob gt_new g 3 = (gt2, ([], 3%Z, None)) /\ gt_match 20 gt2 (B "acx") = Ok ([(B "a{b,c}*", 3%Z)], 1).
Proof. do 3 eexists. do 3 (split; [vm_compute; reflexivity|]). vm_compute. reflexivity. Qed.

(** C32: but AddGlob returns and records an empty text instead of the canonical one, under which later globs are then refused. *)
Theorem c32_normalized_refuted : exists g gt, glob_parse (B "a*b") = Ok g /\ gt_add_glob gt_new g 1 = (gt, ([], 1%Z, None)) /\
  lookup Z.eqb 1%Z (gt_index gt) = Some [] /\ lookup str_eqb [] (gt_globs gt) = Some 1%Z /\
  gt_add gt (B "c*d") 1 = Ok (gt, ([], 0%Z, Some ErrIndexDup)).
Proof. exact c32_normalized_refuted_l. Qed.
Print Assumptions c32_normalized_refuted.

(** C35: the number returned is the number of globs stored, for every tree and string. *)
Theorem c35_count : forall (f : nat) (gt : glob_tree) (s : str) (l : list term) (n : nat), gt_match f gt s = Ok (l, n) -> n = length l.
Proof. exact c35_count_l. Qed.
Print Assumptions c35_count.

Example c35_count_example : exists gt rs, run_adds gt_add gt_new [(B "*a*", 5%Z); (B "{b*,?}a{a,}*", 6%Z)] = Ok (gt, rs) /\
  gt_match 30 gt (B "aaa") = Ok ([(B "*a*", 5%Z); (B "*a*", 5%Z); (B "*a*", 5%Z); (B "{?,b*}a{,a}*", 6%Z); (B "{?,b*}a{,a}*", 6%Z)], 5).
Proof. do 2 eexists. split; [vm_compute; reflexivity|]. vm_compute. reflexivity. Qed.

(** C33, C34, C36: after any calls of Add whose accepted globs are of the kind that match exactly on their own, Match(s) returns (for
    every sufficiently large number of steps, with one and the same answer), and it reports exactly those accepted globs that denote s,
    are no plain text and are not hidden by a longer one.  Match counts every report. *)
Theorem c34_exact : forall (calls : list (str * Z)) (gt : glob_tree) rs (E : list entry) (s : str),
  run_adds gt_add gt_new calls = Ok (gt, rs) -> history gl_canon calls rs E ->
  (forall e, In e E -> tree_glob (e_text e)) -> clean s \/ (forall e, In e E -> lone_classes (e_text e)) ->
  exists f0 l, (forall f, f0 <= f -> gt_match f gt s = Ok (l, length l)) /\
    forall q i, In (q, i) l <-> exists e, In e E /\ e_node e = q /\ e_index e = i /\ ~ plain_text (e_text e) /\ ~ hidden E e /\ denotes (e_text e) (symbols s).
Proof. exact c34_exact_l. Qed.
Print Assumptions c34_exact.

(** C33: every report belongs to an accepted glob whose own Match accepts the string. *)
Theorem c33_sound : forall (calls : list (str * Z)) (gt : glob_tree) rs (E : list entry) (s : str) (f : nat) (l : list term) (n : nat) (q : str) (i : Z),
  run_adds gt_add gt_new calls = Ok (gt, rs) -> history gl_canon calls rs E ->
  (forall e, In e E -> tree_glob (e_text e)) -> clean s \/ (forall e, In e E -> lone_classes (e_text e)) ->
  gt_match f gt s = Ok (l, n) -> In (q, i) l ->
  exists e g, In e E /\ e_node e = q /\ e_index e = i /\ glob_parse (e_text e) = Ok g /\ glob_match g s = Ok true.
Proof. exact c33_sound_l. Qed.
Print Assumptions c33_sound.

(** C34: every accepted glob whose own Match accepts the string is reported, unless it is plain text or hidden. *)
Theorem c34_complete : forall (calls : list (str * Z)) (gt : glob_tree) rs (E : list entry) (s : str) (e : entry) (g : glob),
  run_adds gt_add gt_new calls = Ok (gt, rs) -> history gl_canon calls rs E ->
  (forall e, In e E -> tree_glob (e_text e)) -> clean s \/ (forall e, In e E -> lone_classes (e_text e)) ->
  In e E -> glob_parse (e_text e) = Ok g -> glob_match g s = Ok true -> ~ plain_text (e_text e) -> ~ hidden E e ->
  exists f0 l n, (forall f, f0 <= f -> gt_match f gt s = Ok (l, n)) /\ In (e_node e, e_index e) l.
Proof. exact c34_complete_l. Qed.
Print Assumptions c34_complete.

(** C34: globs that end in something other than a star (and one symbol or text after it) are never hidden. *)
Theorem c34_not_hidden : forall (E : list entry) (e : entry) (g : glob), glob_parse (e_text e) = Ok g -> ~ open_end (g_items g) -> ~ hidden E e.
Proof. exact c34_not_hidden_l. Qed.
Print Assumptions c34_not_hidden.

From Verif Require Proof.CheckP.
Lemma example_tree_glob g : CheckP.node_glob_b g && CheckP.regular_b g = true -> tree_glob g.
Proof. intro H. apply andb_prop in H as [H R]. destruct (CheckP.node_glob_ok g H) as (C & Z & _ & P & _). split; [exact C|]. split; [exact Z|]. split; [exact P|now apply CheckP.regular_ok]. Qed.
Example c34_exact_example :
  let calls := [(B "a*", 1%Z); (B "a*[bc]", 2%Z); (B "ab", 3%Z); (B "?b", 4%Z); (B "{b,c}?", 5%Z); (B "*{b?,[ac]x}c*d", 6%Z); (B "*{b?,[ac]x}[cж]", 7%Z)] in
  exists gt rs E, run_adds gt_add gt_new calls = Ok (gt, rs) /\ history gl_canon calls rs E /\ used E 1%Z (B "a*") /\ used E 5%Z (B "{b,c}?") /\
  (forall e, In e E -> tree_glob (e_text e)) /\ gt_match 30 gt (B "ab") = Ok ([(B "a*[b-c]", 2%Z); (B "?b", 4%Z)], 2) /\ gt_match 30 gt (B "cb") = Ok ([(B "?b", 4%Z); (B "{b,c}?", 5%Z)], 2) /\
  gt_match 30 gt (B "жbbcd") = Ok ([(B "*{[ac]x,b?}c*d", 6%Z)], 1) /\ gt_match 30 gt (B "bcxж") = Ok ([(B "*{[ac]x,b?}[cж]", 7%Z)], 1).
Proof.
  set (calls := [(B "a*", 1%Z); (B "a*[bc]", 2%Z); (B "ab", 3%Z); (B "?b", 4%Z); (B "{b,c}?", 5%Z); (B "*{b?,[ac]x}c*d", 6%Z); (B "*{b?,[ac]x}[cж]", 7%Z)]). cbv zeta.
  destruct (c31_history_l calls) as (gt & rs & E & R & H & D & K & U).
  exists gt, rs, E. split; [exact R|]. split; [exact H|].
  split; [apply U; vm_compute in R; injection R as <- <-; reflexivity|]. split; [apply U; vm_compute in R; injection R as <- <-; reflexivity|]. split.
  - intros e I. apply (history_texts _ _ _ _ H) in I. repeat (destruct I as [I|I]; [injection I as <- _; apply example_tree_glob; vm_compute; reflexivity|]). destruct I.
  - vm_compute in R. injection R as <- <-. repeat match goal with |- _ /\ _ => split end; vm_compute; reflexivity.
Qed.

(** C33, C34, C36: the same with stars inside the values of lists, up to shadowed globs: Match(s) returns, with one answer; whatever it reports
    is an accepted glob that denotes s; and it reports every accepted glob that denotes s, is no plain text and is not shadowed. *)
Theorem c34_stars : forall (calls : list (str * Z)) (gt : glob_tree) rs (E : list entry) (s : str),
  run_adds gt_add gt_new calls = Ok (gt, rs) -> history gl_canon calls rs E ->
  (forall e, In e E -> star_glob (e_text e)) -> clean s \/ (forall e, In e E -> lone_classes (e_text e)) ->
  exists f0 l, (forall f, f0 <= f -> gt_match f gt s = Ok (l, length l)) /\
    (forall q i, In (q, i) l -> exists e, In e E /\ e_node e = q /\ e_index e = i /\ denotes (e_text e) (symbols s)) /\
    (forall e, In e E -> ~ plain_text (e_text e) -> ~ shadowed E e -> denotes (e_text e) (symbols s) -> In (e_node e, e_index e) l).
Proof. exact c34_stars_l. Qed.
Print Assumptions c34_stars.

Lemma example_star_glob g : CheckP.node_glob_b g && CheckP.regular_stars_b g && last_check g = true -> star_glob g.
Proof.
  intro H. apply andb_prop in H as [H L]. apply andb_prop in H as [H R]. destruct (CheckP.node_glob_ok g H) as (C & Z & _ & P & _).
  split; [exact C|]. split; [exact Z|]. split; [exact P|]. split; [now apply CheckP.regular_stars_ok|now apply last_check_ok].
Qed.
Example c34_stars_example :
  let calls := [(B "{a*,b}c", 1%Z); (B "{a*,b?}cd", 2%Z); (B "x{?*,ж}{b*,c}", 3%Z); (B "{a*,b}[d-f]*", 4%Z); (B "ab", 5%Z)] in
  exists gt rs E, run_adds gt_add gt_new calls = Ok (gt, rs) /\ history gl_canon calls rs E /\ used E 1%Z (B "{a*,b}c") /\ used E 3%Z (B "x{*?,ж}{b*,c}") /\
  (forall e, In e E -> star_glob (e_text e)) /\ gt_match 40 gt (B "azcdc") = Ok ([(B "{a*,b}c", 1%Z); (B "{a*,b}[d-f]*", 4%Z)], 2) /\ gt_match 40 gt (B "axbcd") = Ok ([(B "{a*,b?}cd", 2%Z); (B "{a*,b}[d-f]*", 4%Z)], 2) /\
  gt_match 40 gt (B "xжb") = Ok ([(B "x{*?,ж}{b*,c}", 3%Z); (B "x{*?,ж}{b*,c}", 3%Z)], 2).
Proof.
  set (calls := [(B "{a*,b}c", 1%Z); (B "{a*,b?}cd", 2%Z); (B "x{?*,ж}{b*,c}", 3%Z); (B "{a*,b}[d-f]*", 4%Z); (B "ab", 5%Z)]). cbv zeta.
  destruct (c31_history_l calls) as (gt & rs & E & R & H & D & K & U).
  exists gt, rs, E. split; [exact R|]. split; [exact H|].
  split; [apply U; vm_compute in R; injection R as <- <-; reflexivity|]. split; [apply U; vm_compute in R; injection R as <- <-; reflexivity|]. split.
  - intros e I. apply (history_texts _ _ _ _ H) in I. repeat (destruct I as [I|I]; [injection I as <- _; apply example_star_glob; vm_compute; reflexivity|]). destruct I.
  - vm_compute in R. injection R as <- <-. repeat match goal with |- _ /\ _ => split end; vm_compute; reflexivity.
Qed.

(** C33, C34 and what the conditions exclude.  Plain text is never reported. *)
Theorem c34_plain_refuted : exists gt, gt_add gt_new (B "abc") 1 = Ok (gt, (B "abc", 1%Z, None)) /\ parse_match (B "abc") (B "abc") = Ok true /\
  forall f s, gt_match f gt s = Ok ([], 0).
Proof. exact c34_plain_refuted_l. Qed.
Print Assumptions c34_plain_refuted.

(** C34: a glob that ends with a star, or with a star and a symbol, is lost when a longer one is added. *)
Theorem c34_hidden_refuted : (exists gt rs, run_adds gt_add gt_new [(B "a*", 1%Z); (B "a*[bc]", 2%Z)] = Ok (gt, rs) /\
    parse_match (B "a*") (B "ax") = Ok true /\ exists f, gt_match f gt (B "ax") = Ok ([], 0)) /\
  (exists gt rs, run_adds gt_add gt_new [(B "*[ab]", 1%Z); (B "*[ab][cd]", 2%Z)] = Ok (gt, rs) /\
    parse_match (B "*[ab]") (B "xa") = Ok true /\ exists f, gt_match f gt (B "xa") = Ok ([], 0)).
Proof. exact c34_hidden_refuted_l. Qed.
Print Assumptions c34_hidden_refuted.

(** C34: a glob may be reported several times. *)
Theorem c34_once_refuted : exists gt, gt_add gt_new (B "*a*") 1 = Ok (gt, (B "*a*", 1%Z, None)) /\
  gt_match 20 gt (B "aaa") = Ok ([(B "*a*", 1%Z); (B "*a*", 1%Z); (B "*a*", 1%Z)], 3).
Proof. exact c34_once_refuted_l. Qed.
Print Assumptions c34_once_refuted.

(** C33: outside the fragment a tree reports globs that do not match: a list with a star among its values. *)
Theorem c33_star_value_refuted : (exists gt, gt_add gt_new (B "*{*?,b}c*") 1 = Ok (gt, (B "*{*?,b}c*", 1%Z, None)) /\ parse_match (B "*{*?,b}c*") (B "c") = Ok false /\
    exists f, gt_match f gt (B "c") = Ok ([(B "*{*?,b}c*", 1%Z)], 1)).
Proof. exact c33_star_value_refuted_l. Qed.
Print Assumptions c33_star_value_refuted.

(** C36: Match of a glob with text after a star inside a list does not return: no number of steps suffices. *)
Theorem c36_hang_refuted : exists gt, gt_add gt_new (B "{a*b,c}") 1 = Ok (gt, (B "{a*b,c}", 1%Z, None)) /\
  parse_match (B "{a*b,c}") (B "ab") <> Fuel /\ forall f, gt_match f gt (B "ab") = Fuel.
Proof. exact c36_hang_refuted_l. Qed.
Print Assumptions c36_hang_refuted.

(** C36: whatever else the tree holds, with a glob p{...,u*w,...}q in it Match returns on none of the strings p u r q with r at least as
    long as w. *)
Theorem c36_never : forall (calls : list (str * Z)) (gt : glob_tree) rs (E : list entry) (e : entry) (p u w q r : str),
  run_adds gt_add gt_new calls = Ok (gt, rs) -> history gl_canon calls rs E -> In e E ->
  star_inside (e_text e) p u w q -> clean u -> length w <= length r -> forall f o, gt_match f gt (p ++ u ++ r ++ q) <> Ok o.
Proof. exact c36_never_l. Qed.
Print Assumptions c36_never.

Example c36_never_example : star_inside (B "x{a*b,c}y") (B "x") (B "a") (B "b") (B "y") /\ clean (B "a") /\
  (exists gt rs, run_adds gt_add gt_new [(B "z", 1%Z); (B "x{a*b,c}y", 2%Z)] = Ok (gt, rs)) /\
  (exists gl b, glob_parse (B "x{a*b,c}y") = Ok gl /\ glob_match gl (B "xa1by") = Ok b).
Proof.
  assert (L : forall s : str, forallb (fun c => negb (existsb (Ascii.eqb c) metas)) s = true -> literal_text s).
  { intros s H c I M. rewrite forallb_forall in H. specialize (H c I). assert (existsb (Ascii.eqb c) metas = true) as X by (apply existsb_exists; exists c; split; [exact M|apply Ascii.eqb_refl]). rewrite X in H. discriminate. }
  split; [|split; [apply clean_ascii; intros c I; repeat (destruct I as [<-|I]; [reflexivity|]); destruct I|split; [do 2 eexists; vm_compute; reflexivity|do 2 eexists; split; [vm_compute; reflexivity|]; vm_compute; reflexivity]]].
  exists (B "a*b,c"). repeat split; try (apply L; reflexivity).
  - cbn. intuition discriminate.
  - discriminate.
  - apply alternative_split. now left.
  - intro A. apply alternative_split in A. cbn in A. intuition discriminate.
  - exists (B "c"). split; [apply alternative_split; right; now left|discriminate].
Qed.

(** C36: when only '*' and '?' come after a star in the values of the lists of the accepted globs, Match ends for every string (any
    bytes): from some number of steps on it has one and the same outcome, a return or a panic. *)
Theorem c36_ends : forall (calls : list (str * Z)) (gt : glob_tree) rs (E : list entry) (s : str),
  run_adds gt_add gt_new calls = Ok (gt, rs) -> history gl_canon calls rs E -> (forall e, In e E -> stars_last (e_text e)) ->
  exists f0 r, r <> Fuel /\ forall f, f0 <= f -> gt_match f gt s = r.
Proof. exact c36_ends_l. Qed.
Print Assumptions c36_ends.

Example c36_ends_example : (forall g, In g [B "{a*,b}c*"; B "*{x*?,y}"] -> stars_last g) /\
  exists gt rs, run_adds gt_add gt_new [(B "{a*,b}c*", 1%Z); (B "*{x*?,y}", 2%Z)] = Ok (gt, rs) /\
  gt_match 40 gt (B "abcxdy") = Ok ([(B "{a*,b}c*", 1%Z); (B "*{x*?,y}", 2%Z); (B "*{x*?,y}", 2%Z)], 3).
Proof.
  split; [intros g [<-|[<-|[]]]; apply last_check_ok; vm_compute; reflexivity|].
  do 2 eexists. split; [vm_compute; reflexivity|]. vm_compute. reflexivity.
Qed.

(** C79: Match in a tree of globs does not panic on any string (any bytes), however far it gets, when no choice of list values of an
    accepted glob puts a '?', or U+FFFD standing alone, directly after a star. *)
Theorem c79_no_panic : forall (calls : list (str * Z)) (gt : glob_tree) rs (E : list entry) (s : str),
  run_adds gt_add gt_new calls = Ok (gt, rs) -> history gl_canon calls rs E ->
  (forall e g, In e E -> glob_parse (e_text e) = Ok g -> ~ star_trap (g_items g)) -> forall f, gt_match f gt s <> Panic.
Proof. exact c79_no_panic_l. Qed.
Print Assumptions c79_no_panic.

(** C79: with no text after a star inside a list value, it then returns, with one answer. *)
Theorem c79_returns : forall (calls : list (str * Z)) (gt : glob_tree) rs (E : list entry) (s : str),
  run_adds gt_add gt_new calls = Ok (gt, rs) -> history gl_canon calls rs E ->
  (forall e, In e E -> stars_last (e_text e)) -> (forall e g, In e E -> glob_parse (e_text e) = Ok g -> ~ star_trap (g_items g)) ->
  exists f0 o, forall f, f0 <= f -> gt_match f gt s = Ok o.
Proof. exact c79_returns_l. Qed.
Print Assumptions c79_returns.

(** C79: in particular for well-formed globs without '?' or in which no list brings a wildcard next to a star, and for globs without '*'. *)
Theorem c79_text : forall (calls : list (str * Z)) (gt : glob_tree) rs (E : list entry) (s : str),
  run_adds gt_add gt_new calls = Ok (gt, rs) -> history gl_canon calls rs E ->
  (forall e, In e E -> stars_last (e_text e) /\ calm_glob (e_text e)) ->
  exists f0 o, forall f, f0 <= f -> gt_match f gt s = Ok o.
Proof. exact c79_text_l. Qed.
Print Assumptions c79_text.

(** Globs outside the exact fragment (a star inside a list; bytes that are not UTF-8), and a string that is not UTF-8. *)
Example c79_example : exists gt rs, run_adds gt_add gt_new [(B "{a*,b}c?*", 1%Z); (byte_of 255 :: B "{x?,}?", 2%Z); (B "x*y{a?,b*}c?*", 3%Z)] = Ok (gt, rs) /\
  (forall g, In g [B "{a*,b}c?*"; byte_of 255 :: B "{x?,}?"; B "x*y{a?,b*}c?*"] -> stars_last g /\ calm_glob g) /\
  gt_match 40 gt (byte_of 255 :: B "xyz") = Ok ([(byte_of 255 :: B "{,x?}?", 2%Z)], 1).
Proof.
  do 2 eexists. split; [vm_compute; reflexivity|]. split; [|vm_compute; reflexivity].
  intros g [<-|[<-|[<-|[]]]]; (split; [apply last_check_ok; vm_compute; reflexivity|apply calm_glob_ok; vm_compute; reflexivity]).
Qed.

(** C79 is false in general: as a Glob, a tree with a '?' value after a star panics. *)
Theorem c79_panic_refuted : exists gt, run_adds gt_add gt_new [(B "*{?,a}", 1%Z)] = Ok (gt, [(B "*{?,a}", 1%Z, None)]) /\
  gt_match 40 gt (B "ab") = Panic.
Proof. exact c79_panic_refuted_l. Qed.
Print Assumptions c79_panic_refuted.

(** C79 is false in general: so does a tree with a malformed byte after a star. *)
Theorem c79_malformed_refuted : exists gt rs, run_adds gt_add gt_new [(B "*" ++ byte_of 255 :: B "*", 1%Z)] = Ok (gt, rs) /\
  gt_match 40 gt (B "aa" ++ [byte_of 255]) = Panic.
Proof. exact c79_malformed_refuted_l. Qed.
Print Assumptions c79_malformed_refuted.

(** C36: when the accepted globs are of the kind that match exactly on their own, Match returns, for every string, with one answer. *)
Theorem c36_returns : forall (calls : list (str * Z)) (gt : glob_tree) rs (E : list entry) (s : str),
  run_adds gt_add gt_new calls = Ok (gt, rs) -> history gl_canon calls rs E ->
  (forall e, In e E -> tree_glob (e_text e)) -> clean s \/ (forall e, In e E -> lone_classes (e_text e)) ->
  exists f0 o, (forall f, f0 <= f -> gt_match f gt s = Ok o) /\ (forall f o', gt_match f gt s = Ok o' -> o' = o).
Proof. exact c36_returns_l. Qed.
Print Assumptions c36_returns.

(** C80: after any calls of Add, whatever the tree reports for a string (any bytes) is an accepted glob that denotes the string, when
    the accepted globs have no '?', or no list that brings a wildcard next to a star. *)
Theorem c80_tree : forall (calls : list (str * Z)) (gt : glob_tree) rs (E : list entry),
  run_adds gt_add gt_new calls = Ok (gt, rs) -> history gl_canon calls rs E ->
  (forall e, In e E -> clean (e_text e) /\ ~ In zero (e_text e) /\ plain_singles (e_text e) /\ calm_glob (e_text e)) ->
  forall (f : nat) (s : str) (l : list term) (n : nat) (q : str) (i : Z), gt_match f gt s = Ok (l, n) -> In (q, i) l ->
  exists e, In e E /\ e_node e = q /\ e_index e = i /\ denotes (e_text e) (symbols s).
Proof. exact c80_tree_l. Qed.
Print Assumptions c80_tree.

Example c80_tree_calm_example : let calls := [(B "x*y{?a,b*,}c?*", 3%Z); (B "{a*,b}{c,d}{x,[0-9]*}", 4%Z); (B "{x,y?}*y*{b,c}?", 5%Z)] in
  (forall c, In c calls -> clean (fst c) /\ ~ In zero (fst c) /\ plain_singles (fst c) /\ calm_glob (fst c)) /\
  exists gt rs, run_adds gt_add gt_new calls = Ok (gt, rs) /\ gt_match 60 gt (B "x1ybcy") = Ok ([(B "x*y{,?a,b*}c*?", 3%Z); (B "{x,y?}*y*{b,c}?", 5%Z)], 2).
Proof.
  cbv zeta. split; [|do 2 eexists; split; [vm_compute; reflexivity|vm_compute; reflexivity]].
  intros c [<-|[<-|[<-|[]]]]; cbn [fst]; match goal with |- clean ?g /\ _ => destruct (node_glob_ok g ltac:(vm_compute; reflexivity)) as (C & Z & _ & P & _) end; do 3 (split; [assumption|]); apply calm_glob_ok; vm_compute; reflexivity.
Qed.

(** C80: more generally, when no choice of list values of an accepted glob puts a star that needs a symbol directly after a star. *)
Theorem c80_tree_items : forall (calls : list (str * Z)) (gt : glob_tree) rs (E : list entry),
  run_adds gt_add gt_new calls = Ok (gt, rs) -> history gl_canon calls rs E ->
  (forall e, In e E -> clean (e_text e) /\ ~ In zero (e_text e) /\ plain_singles (e_text e)) ->
  (forall e g, In e E -> glob_parse (e_text e) = Ok g -> ~ In "?"%char (e_text e) \/ ~ star_more (g_items g)) ->
  forall (f : nat) (s : str) (l : list term) (n : nat) (q : str) (i : Z), gt_match f gt s = Ok (l, n) -> In (q, i) l ->
  exists e, In e E /\ e_node e = q /\ e_index e = i /\ denotes (e_text e) (symbols s).
Proof. exact c80_tree_items_l. Qed.
Print Assumptions c80_tree_items.

(** Globs outside the exact fragment: stars and '?' inside lists, a list directly after a star. *)
Example c80_tree_example : let calls := [(B "{a*,b}*{c,de}{,x}[0-9]*", 3%Z); (B "{?,b*}*{c,d}*{x,}5", 4%Z); (B "a{b,?*}*5", 7%Z); (B "a[", 8%Z)] in
  let E := [mkEntry (B "{a*,b}*{c,de}{,x}[0-9]*") (B "{a*,b}*{c,de}{,x}[0-9]*") 3%Z; mkEntry (B "{?,b*}*{c,d}*{x,}5") (B "{?,b*}*{c,d}*{,x}5") 4%Z;
            mkEntry (B "a{b,?*}*5") (B "a{*?,b}*5") 7%Z] in exists gt rs,
  run_adds gt_add gt_new calls = Ok (gt, rs) /\ history gl_canon calls rs E /\
  (forall e, In e E -> clean (e_text e) /\ ~ In zero (e_text e) /\ plain_singles (e_text e)) /\
  (forall e g, In e E -> glob_parse (e_text e) = Ok g -> ~ In "?"%char (e_text e) \/ ~ star_more (g_items g)) /\
  (exists l n, gt_match 60 gt (B "abcdex5") = Ok (l, n) /\ forall e, In e E -> In (e_node e, e_index e) l) /\
  gt_match 60 gt (B "a" ++ [byte_of 255] ++ B "5") = Ok ([(B "a{*?,b}*5", 7%Z)], 1).
Proof.
  cbv zeta. destruct (gt_history [(B "{a*,b}*{c,de}{,x}[0-9]*", 3%Z); (B "{?,b*}*{c,d}*{x,}5", 4%Z); (B "a{b,?*}*5", 7%Z); (B "a[", 8%Z)]) as (gt & rs & E & R & H & _).
  exists gt, rs. split; [exact R|]. destruct (history_entries _ _ _ _ H) as [EE _]. vm_compute in R. injection R as <- <-. vm_compute in EE.
  split; [rewrite EE in H; exact H|]. split; [|split; [|split]].
  - intros e [<-|[<-|[<-|[]]]]; cbn [e_text]; match goal with |- clean ?g /\ _ => destruct (node_glob_ok g ltac:(vm_compute; reflexivity)) as (C & Z & _ & P & _) end; auto.
  - intros e g [<-|[<-|[<-|[]]]] P; cbn [e_text] in *; right; vm_compute in P; injection P as <-; apply steady_more, (steady_b_ok 30); vm_compute; reflexivity.
  - do 2 eexists. split; [vm_compute; reflexivity|]. intros e [<-|[<-|[<-|[]]]]; vm_compute; auto 8.
  - vm_compute. reflexivity.
Qed.

(** C80 is false in general: as a Glob, a tree forgets the symbols that a star directly after a star needs. *)
Theorem c80_tree_refuted : exists gt, run_adds gt_add gt_new [(B "{a*,b}*??", 1%Z)] = Ok (gt, [(B "{a*,b}*??", 1%Z, None)]) /\
  gt_match 40 gt (B "aж") = Ok ([(B "{a*,b}*??", 1%Z)], 1) /\ ~ denotes (B "{a*,b}*??") (symbols (B "aж")).
Proof. exact c80_tree_refuted_l. Qed.
Print Assumptions c80_tree_refuted.
