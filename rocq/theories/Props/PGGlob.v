(** C37-C44, C80, C83: dotted globs and trees of them. *)
From Verif Require Import Model.GGlob Spec.Symbols Spec.Class Spec.GlobSpec Spec.StarSpec Spec.ApartSpec Spec.PathSpec Spec.RegistrySpec Spec.GGlobSpec Spec.Accept.
From Verif Require Import Proof.Utf8P Proof.SymbolsP Proof.SortP Proof.ListP Proof.ItemP Proof.DenotesP Proof.ParseP Proof.NextP Proof.GlobP Proof.GlobMatchP Proof.SafeP Proof.StarsP Proof.TotalP Proof.WellP Proof.NodeP Proof.PathP Proof.GGlobP Proof.RegistryP Proof.GTreeP Proof.GSoundP Proof.AcceptP Proof.CheckP Proof.ItemTop Proof.GlobTop Proof.NodeTop Proof.ApartP.
From Verif Require Import Proof.GGlobTop.


(** C37: every non-empty path has parts; PathSplit returns them, PathLevel their number and the path without its trailing dot. *)
Theorem c37_parts : forall path : str,
  path = [] /\ path_split path = [] /\ path_level path = ([], 0) \/
  exists ps, parts_of path ps /\ (forall ps', parts_of path ps' -> ps' = ps) /\ path_split path = ps /\ path_level path = (dotted ps, length ps).
Proof. exact c37_parts_l. Qed.
Print Assumptions c37_parts.

Example c37_parts_example : parts_of (B "a.bc..d.") [B "a"; B "bc"; []; B "d"] /\ path_split (B "a.bc..d.") = [B "a"; B "bc"; []; B "d"] /\
  path_level (B "a.bc..d.") = (B "a.bc..d", 4).
Proof.
  split; [|split; reflexivity]. split; [discriminate|]. split; [discriminate|]. split; [|now left].
  intros p I. cbn in I. repeat (destruct I as [<-|I]); try easy; intro H; cbn in H; repeat (destruct H as [H|H]; try discriminate H); easy.
Qed.

(** C37: PathSplitB succeeds with the parts when none is empty and fails when an empty part stands before the last; HasEmptyParts
    tells whether a part is empty. *)
Theorem c37_split_b : forall (path : str) (ps : list str), parts_of path ps ->
  (~ In [] ps -> path_split_b path = Ok (ps, true)) /\
  (In [] (removelast ps) -> exists qs, path_split_b path = Ok (qs, false)) /\
  (has_empty_parts ps = true <-> In [] ps).
Proof. exact c37_split_b_l. Qed.
Print Assumptions c37_split_b.

Example c37_split_b_example : path_split_b (B "a.bc.d.") = Ok ([B "a"; B "bc"; B "d"], true) /\ path_split_b (B "a.bc..d") = Ok ([B "a"; B "bc"], false) /\
  has_empty_parts [B "a"; []] = true.
Proof. repeat split. Qed.

(** C37: an empty last part goes unnoticed by PathSplitB. *)
Theorem c37_trailing_refuted : forall qs : list str, ~ In [] qs -> dotless qs ->
  path_split_b (dotted (qs ++ [[]]) ++ B ".") = Ok (qs, true) /\ (qs <> [] -> path_split (dotted (qs ++ [[]]) ++ B ".") = qs ++ [[]]).
Proof. exact c37_trailing_refuted_l. Qed.
Print Assumptions c37_trailing_refuted.

Example c37_trailing_example : path_split_b (B "a..") = Ok ([B "a"], true) /\ path_split (B "a..") = [B "a"; []] /\ path_split_b (B ".") = Ok ([], true).
Proof. repeat split. Qed.

(** C38: GGlob.Match is true exactly when the path has as many parts as the glob, none empty, every part matches its glob part, and the path
    is not longer than the bound MaxLen (if it is positive). *)
Theorem c38_exact : forall (text : str) (g : gglob) (path : str), gg_parse text = Ok g ->
  (gg_match g path = Ok true <->
   exists ps, parts_of path ps /\ ~ In [] ps /\ Forall2 part_matches (gg_parts g) ps /\
     (gg_max g <= 0 \/ Z.of_nat (length (dotted ps)) <= gg_max g)%Z).
Proof. exact c38_exact_l. Qed.
Print Assumptions c38_exact.

Example c38_exact_example : exists g, gg_parse (B "a*.{b,c}?.d") = Ok g /\ gg_max g = (-1)%Z /\ length (gg_parts g) = 3 /\ gg_match g (B "axy.cz.d.") = Ok true /\ gg_match g (B "axy.cz.") = Ok false.
Proof. eexists. split; [vm_compute; reflexivity|]. repeat match goal with |- _ /\ _ => split end; vm_compute; reflexivity. Qed.

(** C38: matching is part by part when MaxLen is unlimited. *)
Theorem c38_unbounded : forall (text : str) (g : gglob) (path : str), gg_parse text = Ok g -> gg_max g = (-1)%Z ->
  (gg_match g path = Ok true <-> exists ps, parts_of path ps /\ ~ In [] ps /\ Forall2 part_matches (gg_parts g) ps).
Proof. exact c38_unbounded_l. Qed.
Print Assumptions c38_unbounded.

Example c38_unbounded_example : exists g, gg_parse (B "*.b") = Ok g /\ gg_max g = (-1)%Z /\ gg_match g (B "xyz.b") = Ok true.
Proof. eexists. split; [vm_compute; reflexivity|]. repeat match goal with |- _ /\ _ => split end; vm_compute; reflexivity. Qed.

(** C38: the dots are not counted in MaxLen, so that a bounded glob of several parts misses paths. *)
Theorem c38_bounded_refuted : exists g, gg_parse (B "a.b") = Ok g /\ gg_match g (B "a.b") = Ok false /\
  Forall2 part_matches (gg_parts g) [B "a"; B "b"] /\ gg_match_by_parts g [B "a"; B "b"] 0 = Ok true /\ gg_match_by_parts g [B "a"; B "b"] 3 = Ok false.
Proof. exact c38_bounded_refuted_l. Qed.
Print Assumptions c38_bounded_refuted.

(** C38: matching a dotted glob always ends. *)
Theorem c38_no_fuel : forall (g : gglob) (path : str), gg_match g path <> Fuel /\ forall ps len, gg_match_by_parts g ps len <> Fuel.
Proof. exact c38_no_fuel_l. Qed.
Print Assumptions c38_no_fuel.

(** C38: what GGlob.Match accepts, in terms of the glob text. *)
Theorem c38_denotes : forall (text : str) (gs : list str) (g : gglob) (path : str) (ps : list str),
  accepted_parts text gs -> Forall good_glob gs -> gg_parse text = Ok g -> gg_max g = (-1)%Z -> clean path \/ lone_parts text -> parts_of path ps ->
  (gg_match g path = Ok true <-> ~ In [] ps /\ Forall2 part_denotes gs ps).
Proof. exact c38_denotes_l. Qed.
Print Assumptions c38_denotes.

Example c38_denotes_example : exists gs g ps, accepted_parts (B "a*.{b,c?}[0-9].d") gs /\ Forall good_glob gs /\ gg_parse (B "a*.{b,c?}[0-9].d") = Ok g /\ gg_max g = (-1)%Z /\
  clean (B "axж.cz7.d") /\ parts_of (B "axж.cz7.d") ps /\ gg_match g (B "axж.cz7.d") = Ok true /\ gg_match g (B "axж.cz77.d") = Ok false.
Proof.
  exists [B "a*"; B "{b,c?}[0-9]"; B "d"]. eexists. exists [B "axж"; B "cz7"; B "d"].
  split; [right; split; [now intros [Z|[Z|[Z|[]]]]|]; left; apply parts_of_iff; split; [discriminate|reflexivity]|].
  split; [do 3 (apply Forall_cons; [apply good_glob_ok; vm_compute; reflexivity|]); apply Forall_nil|]. split; [vm_compute; reflexivity|]. split; [reflexivity|].
  split; [apply clean_b_ok; vm_compute; reflexivity|]. split; [apply parts_of_iff; split; [discriminate|reflexivity]|]. split; vm_compute; reflexivity.
Qed.

Example c38_malformed_example : let path := B "a" ++ byte_of 255 :: B ".я" in exists g, lone_parts (B "a*.?") /\ gg_parse (B "a*.?") = Ok g /\ gg_max g = (-1)%Z /\
  parts_of path [B "a" ++ [byte_of 255]; B "я"] /\ gg_match g path = Ok true /\ gg_match g (B "a." ++ [byte_of 209; byte_of 255]) = Ok false.
Proof.
  cbv zeta. eexists. split; [|split; [vm_compute; reflexivity|split; [reflexivity|split; [apply parts_of_iff; split; [discriminate|reflexivity]|split; vm_compute; reflexivity]]]].
  intros gs A. assert (A0 : accepted_parts (B "a*.?") [B "a*"; B "?"]). { right. split; [now intros [Z|[Z|[]]]|]. left. apply parts_of_iff. split; [discriminate|reflexivity]. }
  rewrite (accepted_fun _ _ _ A0 A). repeat (apply Forall_cons; [apply ParseP.no_class_lone; apply (no_byte_ok 91); reflexivity|]). apply Forall_nil.
Qed.

(** C39: MatchByParts without a length is part by part. *)
Theorem c39_parts : forall (g : gglob) (ps : list str),
  gg_match_by_parts g ps 0 = Ok true <-> ps <> [] /\ Forall2 part_matches (gg_parts g) ps.
Proof. exact c39_parts_l. Qed.
Print Assumptions c39_parts.

Example c39_parts_example : exists g, gg_parse (B "a*.{b,c}?.d") = Ok g /\ gg_match_by_parts g [B "axy"; B "cz"; B "d"] 0 = Ok true /\ gg_match_by_parts g [B "axy"; B "cz"] 0 = Ok false.
Proof. eexists. split; [vm_compute; reflexivity|]. split; vm_compute; reflexivity. Qed.

(** C80: a path that GGlob.Match or MatchByParts accepts is denoted part by part by the glob text, whatever the bounds. *)
Theorem c80_gglob : forall (text : str) (gs : list str) (g : gglob), accepted_parts text gs -> gg_parse text = Ok g ->
  (forall p, In p gs -> clean p /\ ~ In (byte_of 0) p /\ plain_singles p /\ ~ only_star p /\ calm_glob p) ->
  (forall path ps, parts_of path ps -> gg_match g path = Ok true -> ~ In [] ps /\ Forall2 part_denotes gs ps) /\
  (forall ps len, gg_match_by_parts g ps len = Ok true -> Forall2 part_denotes gs ps).
Proof. exact c80_gglob_l. Qed.
Print Assumptions c80_gglob.

Example c80_gglob_example : exists g, gg_parse (B "x*.{a*,c}{d,*e}[f-h]*") = Ok g /\ accepted_parts (B "x*.{a*,c}{d,*e}[f-h]*") [B "x*"; B "{a*,c}{d,*e}[f-h]*"] /\ gg_match g (B "xy.a1behj") = Ok true.
Proof.
  eexists. split; [vm_compute; reflexivity|]. split; [|vm_compute; reflexivity]. right. split.
  - intros [E|[E|[]]]; discriminate E.
  - left. split; [discriminate|]. split; [discriminate|]. split.
    2:{ right. split; [reflexivity|]. intros q E. apply (f_equal (fun l => last l "."%char)) in E. rewrite last_last in E. discriminate E. }
    intros x [<-|[<-|[]]]; vm_compute; intuition discriminate.
Qed.

(** C39: MatchByParts with the length of the path is Match. *)
Theorem c39_same : forall (g : gglob) (path : str) (ps : list str), parts_of path ps -> ~ In [] ps ->
  gg_match_by_parts g ps (Z.of_nat (length (dotted ps))) = gg_match g path.
Proof. exact c39_same_l. Qed.
Print Assumptions c39_same.

Example c39_same_example : parts_of (B "axy.cz.d.") [B "axy"; B "cz"; B "d"].
Proof.
  split; [discriminate|]. split; [discriminate|]. split; [|now left].
  intros p I. cbn in I. repeat (destruct I as [<-|I]); try easy; intro H; cbn in H; repeat (destruct H as [H|H]; try discriminate H); easy.
Qed.

(** C40: Parse returns a glob or an error. *)
Theorem c40_total : forall text : str, (exists g, gg_parse text = Ok g) \/ (exists e, gg_parse text = Err e).
Proof. exact c40_total_l. Qed.
Print Assumptions c40_total.

(** C40: Parse succeeds exactly when the parts are accepted by glob.Parse one by one; the result is made of the parsed parts, its
    canonical text is the dotted text of theirs, and its MinLen the sum of theirs. *)
Theorem c40_parse : forall text : str,
  (forall parts gs, accepted_parts text parts -> Forall2 (fun p g => glob_parse p = Ok g) parts gs ->
     exists g, gg_parse text = Ok g /\ gg_parts g = gs /\ gg_node g = dotted (map g_node gs) /\
       gg_min g = fold_right Z.add 0%Z (map g_min gs) /\ (text <> [] -> trimmed text (gg_glob g)) /\
       (gg_max g = -1 <-> Exists (fun x => g_max x < 0) gs)%Z /\ (gg_max g <> -1 -> gg_max g = fold_right Z.add 0 (map g_max gs))%Z) /\
  (forall g, gg_parse text = Ok g -> exists parts, accepted_parts text parts /\ Forall2 (fun p g => glob_parse p = Ok g) parts (gg_parts g)).
Proof. exact c40_parse_l. Qed.
Print Assumptions c40_parse.

Example c40_parse_example : accepted_parts (B "a*.{b,c}?.d") [B "a*"; B "{b,c}?"; B "d"] /\ exists g, gg_parse (B "a*.{c,b}?.d") = Ok g /\ gg_node g = B "a*.{b,c}?.d" /\ gg_min g = 4%Z /\
  gg_parse (B "a..b") = Err (ErrNodeEmpty (B "a..b")) /\ gg_parse (B "a.[b") = Err (ErrNodeUnclosed (B "[b")).
Proof.
  split; [|eexists; split; [vm_compute; reflexivity|repeat split]]. right. split; [now intros [H|[H|[H|[]]]]|left]. split; [discriminate|]. split; [discriminate|]. split.
  - intros p I. cbn in I. repeat (destruct I as [<-|I]); try easy; intro H; cbn in H; repeat (destruct H as [H|H]; try discriminate H); easy.
  - right. split; [reflexivity|]. intros q E. apply (f_equal (@rev _)) in E. rewrite rev_app_distr in E. discriminate.
Qed.

(** C40: exactly which texts (valid UTF-8) are accepted. *)
Theorem c40_exact : forall text : str, clean text ->
  ((exists g, gg_parse text = Ok g) <-> exists parts, accepted_parts text parts /\ Forall accepted parts).
Proof. exact c40_exact_l. Qed.
Print Assumptions c40_exact.

Example c40_exact_example : (exists g, gg_parse (B "a*.{*,]}.") = Ok g) /\ accepted (B "a*") /\ accepted (B "{*,]}") /\ gg_parse (B "a*.]") = Err (ErrNodeUnclosed (B "]")).
Proof.
  split; [eexists; vm_compute; reflexivity|]. split; [|split; [|vm_compute; reflexivity]].
  - eapply parse_accepted; [apply clean_ascii|vm_compute; reflexivity]. intros c I. repeat (destruct I as [<-|I]; [reflexivity|]). destruct I.
  - eapply parse_accepted; [apply clean_ascii|vm_compute; reflexivity]. intros c I. repeat (destruct I as [<-|I]; [reflexivity|]). destruct I.
Qed.

(** C83: ParseMust of dotted globs. *)
Theorem c83_gglob : forall text : str,
  (forall g, gg_parse_must text = Ok g <-> gg_parse text = Ok g) /\
  (gg_parse_must text = Panic <-> exists e, gg_parse text = Err e) /\
  ((exists g, gg_parse_must text = Ok g) \/ gg_parse_must text = Panic) /\
  (clean text -> (gg_parse_must text = Panic <-> ~ exists parts, accepted_parts text parts /\ Forall accepted parts)).
Proof. exact c83_gglob_l. Qed.
Print Assumptions c83_gglob.

Example c83_gglob_example : (exists g, gg_parse_must (B "a.{b,c}") = Ok g) /\ gg_parse_must (B "a..b") = Panic /\ gg_parse_must (B "a.[") = Panic.
Proof. split; [eexists; vm_compute; reflexivity|]. split; vm_compute; reflexivity. Qed.

(** C40: an empty part at the end is not noticed: "a.." parses as "a", and "." as no part at all. *)
Theorem c40_empty_part_refuted : (parts_of (B "a..") [B "a"; []] /\ exists g, gg_parse (B "a..") = Ok g /\ length (gg_parts g) = 1) /\
  (parts_of (B ".") [[]] /\ exists g, gg_parse (B ".") = Ok g /\ gg_parts g = []).
Proof. exact c40_empty_part_refuted_l. Qed.
Print Assumptions c40_empty_part_refuted.

(** C41: whatever the calls of Add, each one returns what the registry of the earlier ones dictates. *)
Theorem c41_history : forall calls : list (str * Z), exists gt rs E, run_adds ggt_add ggt_new calls = Ok (gt, rs) /\
  history gg_canon calls rs E /\ distinct E /\
  (forall name n, lookup str_eqb name (ggt_globs gt) = Some n <-> known E name n) /\
  (forall i q, lookup Z.eqb i (ggt_index gt) = Some q <-> used E i q).
Proof. exact c41_history_l. Qed.
Print Assumptions c41_history.

Example c41_history_example : exists gt, run_adds ggt_add ggt_new [(B "a.{c,b}", 5%Z); (B "a.{b,c}", 6%Z); (B "b", 5%Z); (B "a..b", 7%Z); (B "*.x", 0%Z); (B "y", (-1)%Z); (B "a.{c,b}.", 8%Z)] =
  Ok (gt, [(B "a.{b,c}", 5%Z, None); (B "a.{b,c}", 5%Z, Some ErrGlobExist); (B "a.{b,c}", 0%Z, Some ErrIndexDup); ([], 0%Z, Some (ErrNodeEmpty (B "a..b")));
           (B "*.x", 0%Z, None); (B "y", 0%Z, Some ErrIndexInvalid); (B "a.{b,c}", 5%Z, Some ErrGlobExist)]).
Proof. eexists. vm_compute. reflexivity. Qed.

(** C41: a rejected call leaves the tree as it was. *)
Theorem c41_rejected : forall (calls : list (str * Z)) (gt gt' : gglob_tree) rs text i q n e,
  run_adds ggt_add ggt_new calls = Ok (gt, rs) -> ggt_add gt text i = Ok (gt', (q, n, Some e)) -> gt' = gt.
Proof. exact c41_rejected_l. Qed.
Print Assumptions c41_rejected.

Example c41_rejected_example : exists gt rs, run_adds ggt_add ggt_new [(B "a.{c,b}", 5%Z)] = Ok (gt, rs) /\ ggt_add gt (B "a.{b,c}") 6 = Ok (gt, (B "a.{b,c}", 5%Z, Some ErrGlobExist)).
Proof. do 2 eexists. split; vm_compute; reflexivity. Qed.

(** C41: AddGlob of a parsed glob is accepted exactly when Add of its text is, and the trees then answer alike. *)
Theorem c41_add_glob : forall (gt : gglob_tree) (text : str) (i : Z) (g : gglob), text <> [] -> (forall q, text <> q ++ ["."%char]) -> gg_parse text = Ok g ->
  exists gt1 gt2 q1 q2 n1 n2 e1 e2,
    ggt_add gt text i = Ok (gt1, (q1, n1, e1)) /\ ggt_add_glob gt g i = (gt2, (q2, n2, e2)) /\
    (e1 = None <-> e2 = None) /\ (e2 <> None -> gt2 = gt) /\ (e2 = None -> n1 = i /\ n2 = i) /\
    (forall path, ggt_match gt1 path = ggt_match gt2 path) /\ forall ps, ggt_match_by_parts gt1 ps = ggt_match_by_parts gt2 ps.
Proof. exact c41_add_glob_l. Qed.
Print Assumptions c41_add_glob.

Example c41_add_glob_example : exists g gt1 gt2, gg_parse (B "a.{c,b}*") = Ok g /\ ggt_add ggt_new (B "a.{c,b}*") 3 = Ok (gt1, (B "a.{b,c}*", 3%Z, None)) /\
  ggt_add_glob ggt_new g 3 = (gt2, ([], 3%Z, None)) /\ ggt_match gt2 (B "a.cx") = Ok ([(B "a.{b,c}*", 3%Z)], 1) /\ gt1 <> gt2.
Proof. do 3 eexists. do 3 (split; [vm_compute; reflexivity|]). split; [vm_compute; reflexivity|discriminate]. Qed.

(** C41: AddGlob, unlike Add, forgets the canonical text. *)
Theorem c41_add_glob_refuted : exists g gt, gg_parse (B "a.b") = Ok g /\ ggt_add_glob ggt_new g 1 = (gt, ([], 1%Z, None)) /\
  lookup Z.eqb 1%Z (ggt_index gt) = Some [] /\ lookup str_eqb [] (ggt_globs gt) = Some 1%Z.
Proof. exact c41_add_glob_refuted_l. Qed.
Print Assumptions c41_add_glob_refuted.

(** C43: MatchByParts reports the same as Match. *)
Theorem c43_same : forall (gt : gglob_tree) (path : str) (ps : list str), parts_of path ps -> ~ In [] ps ->
  ggt_match_by_parts gt ps = ggt_match gt path.
Proof. exact c43_same_l. Qed.
Print Assumptions c43_same.

Example c43_same_example : exists gt rs, run_adds ggt_add ggt_new [(B "a.{c,b}", 5%Z); (B "*.c", 3%Z)] = Ok (gt, rs) /\
  ggt_match gt (B "a.c.") = Ok ([(B "a.{b,c}", 5%Z); (B "*.c", 3%Z)], 2) /\ ggt_match_by_parts gt [B "a"; B "c"] = Ok ([(B "a.{b,c}", 5%Z); (B "*.c", 3%Z)], 2).
Proof. do 2 eexists. split; [vm_compute; reflexivity|]. repeat match goal with |- _ /\ _ => split end; vm_compute; reflexivity. Qed.

(** C43: with an empty part they differ. *)
Theorem c43_empty_part_refuted : exists gt rs, run_adds ggt_add ggt_new [(B "a.*", 5%Z)] = Ok (gt, rs) /\
  ggt_match gt (B "a..") = Ok ([], 0) /\ path_split (B "a..") = [B "a"; []] /\ ggt_match_by_parts gt [B "a"; []] = Ok ([(B "a.*", 5%Z)], 1).
Proof. exact c43_empty_part_refuted_l. Qed.
Print Assumptions c43_empty_part_refuted.

(** C44: the count is the number of reports. *)
Theorem c44_count : forall (gt : gglob_tree) (l : list term) (n : nat),
  (forall path, ggt_match gt path = Ok (l, n) -> n = length l) /\ (forall ps, ggt_match_by_parts gt ps = Ok (l, n) -> n = length l).
Proof. exact c44_count_l. Qed.
Print Assumptions c44_count.

Example c44_count_example : exists gt rs, run_adds ggt_add ggt_new [(B "a*.{c,b}?", 5%Z); (B "?x.*[0-9]", 2%Z); (B "a*.c", 3%Z)] = Ok (gt, rs) /\
  ggt_match gt (B "ax.b7") = Ok ([(B "a*.{b,c}?", 5%Z); (B "?x.*[0-9]", 2%Z)], 2) /\ ggt_match_by_parts gt [B "ab"; B "c"] = Ok ([(B "a*.c", 3%Z)], 1).
Proof. do 2 eexists. split; [vm_compute; reflexivity|]. split; vm_compute; reflexivity. Qed.

(** C42: after any calls of Add, Match reports exactly the accepted globs that match part by part, each once, when the parts behave
    coherently on the parts of the path; a path with an empty part is not reported for anything. *)
Theorem c42_exact : forall (calls : list (str * Z)) (gt : gglob_tree) rs (E : list entry) (path : str) (ps : list str),
  run_adds ggt_add ggt_new calls = Ok (gt, rs) -> history gg_canon calls rs E -> parts_of path ps -> ~ In [] ps -> (forall s, In s ps -> coherent E s) ->
  exists l, ggt_match gt path = Ok (l, length l) /\ NoDup l /\
    forall q i, In (q, i) l <-> exists e g, In e E /\ e_node e = q /\ e_index e = i /\ gg_parse (e_text e) = Ok g /\ Forall2 part_matches (gg_parts g) ps.
Proof. exact c42_exact_l. Qed.
Print Assumptions c42_exact.

(** C42: a path with an empty part matches no glob of a tree. *)
Theorem c42_empty : forall (calls : list (str * Z)) (gt : gglob_tree) rs (E : list entry) (path : str) (ps : list str),
  run_adds ggt_add ggt_new calls = Ok (gt, rs) -> history gg_canon calls rs E -> parts_of path ps -> In [] ps -> (forall s, In s ps -> s <> [] -> coherent E s) ->
  ggt_match gt path = Ok ([], 0).
Proof. exact c42_empty_l. Qed.
Print Assumptions c42_empty.

(** C42: the same in terms of the glob texts: Match reports exactly the accepted globs whose parts denote the parts of the path. *)
Theorem c42_denotes : forall (calls : list (str * Z)) (gt : gglob_tree) rs (E : list entry) (path : str) (ps : list str),
  run_adds ggt_add ggt_new calls = Ok (gt, rs) -> history gg_canon calls rs E ->
  (forall e, In e E -> exists gs, accepted_parts (e_text e) gs /\ Forall good_glob gs) -> clean path \/ (forall e, In e E -> lone_parts (e_text e)) -> parts_of path ps ->
  exists l, ggt_match gt path = Ok (l, length l) /\ NoDup l /\
    forall q i, In (q, i) l <-> ~ In [] ps /\ exists e gs, In e E /\ e_node e = q /\ e_index e = i /\ accepted_parts (e_text e) gs /\ Forall2 part_denotes gs ps.
Proof. exact c42_denotes_l. Qed.
Print Assumptions c42_denotes.

Example c42_denotes_example : let E := [mkEntry (B "a*.{c,b}?") (B "a*.{b,c}?") 5%Z; mkEntry (B "?x.*[0-9ж]*") (B "?x.*[0-9ж]*") 2%Z] in exists gt rs,
  run_adds ggt_add ggt_new [(B "a*.{c,b}?", 5%Z); (B "?x.*[0-9ж]*", 2%Z)] = Ok (gt, rs) /\ history gg_canon [(B "a*.{c,b}?", 5%Z); (B "?x.*[0-9ж]*", 2%Z)] rs E /\
  (forall e, In e E -> exists gs, accepted_parts (e_text e) gs /\ Forall good_glob gs) /\
  ggt_match gt (B "ax.b7") = Ok ([(B "a*.{b,c}?", 5%Z); (B "?x.*[0-9ж]*", 2%Z)], 2) /\ ggt_match gt (B "axy.c7") = Ok ([(B "a*.{b,c}?", 5%Z)], 1).
Proof.
  cbv zeta. destruct (ggt_history [(B "a*.{c,b}?", 5%Z); (B "?x.*[0-9ж]*", 2%Z)]) as (gt & rs & E & R & H & _). exists gt, rs. split; [exact R|].
  destruct (history_entries _ _ _ _ H) as [EE _]. vm_compute in R. injection R as <- <-. vm_compute in EE. split; [rewrite EE in H; exact H|]. split; [|split; vm_compute; reflexivity].
  intros e [<-|[<-|[]]]; [exists [B "a*"; B "{c,b}?"]|exists [B "?x"; B "*[0-9ж]*"]]; (split; [|repeat (constructor; [apply good_glob_ok; vm_compute; reflexivity|]); constructor]); right;
    (split; [now intros [Z|[Z|[]]]|]); left; apply parts_of_iff; split; (discriminate || reflexivity).
Qed.

(** C80: trees of dotted globs report only globs whose parts denote the parts of the path, whatever the lists of the parts look like
    and whatever the path. *)
Theorem c80_gtree : forall (calls : list (str * Z)) (gt : gglob_tree) rs (E : list entry),
  run_adds ggt_add ggt_new calls = Ok (gt, rs) -> history gg_canon calls rs E ->
  (forall e gs p, In e E -> accepted_parts (e_text e) gs -> In p gs ->
     clean p /\ ~ In (byte_of 0) p /\ ~ In (byte_of 127) p /\ plain_singles p /\ plain_classes p /\ calm_glob p) ->
  (forall path ps l n q i, parts_of path ps -> ggt_match gt path = Ok (l, n) -> In (q, i) l ->
     ~ In [] ps /\ exists e gs, In e E /\ e_node e = q /\ e_index e = i /\ accepted_parts (e_text e) gs /\ Forall2 part_denotes gs ps) /\
  (forall ps l n q i, ggt_match_by_parts gt ps = Ok (l, n) -> In (q, i) l ->
     exists e gs, In e E /\ e_node e = q /\ e_index e = i /\ accepted_parts (e_text e) gs /\ Forall2 part_denotes gs ps).
Proof. exact c80_gtree_l. Qed.
Print Assumptions c80_gtree.

Example c80_gtree_example : let E := [mkEntry (B "x*.{a*,c}{d,*e}[f-h]*") (B "x*.{a*,c}{*e,d}[f-h]*") 5%Z; mkEntry (B "*y.a*") (B "*y.a*") 2%Z] in exists gt rs,
  run_adds ggt_add ggt_new [(B "x*.{a*,c}{d,*e}[f-h]*", 5%Z); (B "*y.a*", 2%Z)] = Ok (gt, rs) /\ history gg_canon [(B "x*.{a*,c}{d,*e}[f-h]*", 5%Z); (B "*y.a*", 2%Z)] rs E /\
  (forall e gs p, In e E -> accepted_parts (e_text e) gs -> In p gs ->
     clean p /\ ~ In (byte_of 0) p /\ ~ In (byte_of 127) p /\ plain_singles p /\ plain_classes p /\ calm_glob p) /\
  ggt_match gt (B "xy.a1behj") = Ok ([(B "x*.{a*,c}{*e,d}[f-h]*", 5%Z); (B "*y.a*", 2%Z)], 2).
Proof.
  cbv zeta. destruct (ggt_history [(B "x*.{a*,c}{d,*e}[f-h]*", 5%Z); (B "*y.a*", 2%Z)]) as (gt & rs & E & R & H & _). exists gt, rs. split; [exact R|].
  destruct (history_entries _ _ _ _ H) as [EE _]. vm_compute in R. injection R as <- <-. vm_compute in EE. split; [rewrite EE in H; exact H|]. split; [|vm_compute; reflexivity].
  assert (K : forall p, node_glob_b p && calm_glob_b p = true -> clean p /\ ~ In (byte_of 0) p /\ ~ In (byte_of 127) p /\ plain_singles p /\ plain_classes p /\ calm_glob p).
  { intros p Hp. apply andb_prop in Hp as [H1 H2]. apply calm_glob_ok in H2. destruct (node_glob_ok p H1) as (A1 & A2 & A3 & A4 & A5). auto 8. }
  intros e gs p [<-|[<-|[]]] A Ip.
  - assert (gs = [B "x*"; B "{a*,c}{d,*e}[f-h]*"]) as ->.
    { eapply accepted_fun; [|exact A]. right. split; [now intros [Z|[Z|[]]]|]. left. apply parts_of_iff. split; [discriminate|reflexivity]. }
    destruct Ip as [<-|[<-|[]]]; apply K; vm_compute; reflexivity.
  - assert (gs = [B "*y"; B "a*"]) as ->.
    { eapply accepted_fun; [|exact A]. right. split; [now intros [Z|[Z|[]]]|]. left. apply parts_of_iff. split; [discriminate|reflexivity]. }
    destruct Ip as [<-|[<-|[]]]; apply K; vm_compute; reflexivity.
Qed.
