(** C42, C64, C65, C77: trees of steady globs and queries on any bytes. *)
From Verif Require Import Model.GGlob Model.GTags Spec.Symbols Spec.Class Spec.GlobSpec Spec.StarSpec Spec.ApartSpec Spec.Neat Spec.GGlobSpec Spec.PathSpec Spec.TagSpec Spec.QuerySpec Spec.SelectSpec Spec.RegistrySpec Spec.TagTreeSpec Spec.CalmSpec Spec.SteadySpec.
From Verif Require Import Proof.Utf8P Proof.SortP Proof.NextP Proof.PathP Proof.GGlobP Proof.RegistryP Proof.GTreeP Proof.TagTreeP Proof.SeriesP Proof.SelectP Proof.ApartP Proof.ReturnsP Proof.OrderP Proof.RereadP Proof.RereadGP Proof.RereadTop Proof.GGlobTop Proof.TagTop Proof.UseTop Proof.CheckNeatP.
From Verif Require Import Proof.SteadyTop.


(** C42: a tree of dotted globs with steady parts (wildcards anywhere in the values of their lists allowed) reports for any path
    exactly the accepted globs that match it part by part; a path with an empty part is not reported for anything. *)
Theorem c42_steady : forall (calls : list (str * Z)) (gt : gglob_tree) rs (E : list entry) (path : str) (ps : list str),
  run_adds ggt_add ggt_new calls = Ok (gt, rs) -> history gg_canon calls rs E -> (forall e, In e E -> steady_parts (e_text e)) -> parts_of path ps ->
  exists l, ggt_match gt path = Ok (l, length l) /\ NoDup l /\
    forall q i, In (q, i) l <-> ~ In [] ps /\ exists e g, In e E /\ e_node e = q /\ e_index e = i /\ gg_parse (e_text e) = Ok g /\ Forall2 part_matches (gg_parts g) ps.
Proof. exact c42_steady_l. Qed.
Print Assumptions c42_steady.

Definition st_calls : list (str * Z) := [(B "x*.{a*,c}{d,*e}[f-h]*", 5%Z); (B "*y.a*", 2%Z)].
Definition st_entries : list entry := [mkEntry (B "x*.{a*,c}{d,*e}[f-h]*") (B "x*.{a*,c}{*e,d}[f-h]*") 5%Z; mkEntry (B "*y.a*") (B "*y.a*") 2%Z].
Definition st_path : str := B "x" ++ byte_of 255 :: B "y.a1behj".
Lemma st_steady e : In e st_entries -> steady_parts (e_text e).
Proof.
  intros Ie gs p A Ip. destruct Ie as [<-|[<-|[]]].
  - assert (gs = [B "x*"; B "{a*,c}{d,*e}[f-h]*"]) as ->.
    { eapply accepted_fun; [|exact A]. right. split; [now intros [Z|[Z|[]]]|]. left. apply parts_of_iff. split; [discriminate|reflexivity]. }
    destruct Ip as [<-|[<-|[]]]; apply steady_ok; vm_compute; reflexivity.
  - assert (gs = [B "*y"; B "a*"]) as ->.
    { eapply accepted_fun; [|exact A]. right. split; [now intros [Z|[Z|[]]]|]. left. apply parts_of_iff. split; [discriminate|reflexivity]. }
    destruct Ip as [<-|[<-|[]]]; apply steady_ok; vm_compute; reflexivity.
Qed.
Example c42_steady_example : exists gt rs, run_adds ggt_add ggt_new st_calls = Ok (gt, rs) /\ history gg_canon st_calls rs st_entries /\ length st_entries = length st_calls /\
  (forall e, In e st_entries -> steady_parts (e_text e)) /\ parts_of st_path (path_split st_path) /\
  ggt_match gt st_path = Ok ([(B "x*.{a*,c}{*e,d}[f-h]*", 5%Z); (B "*y.a*", 2%Z)], 2) /\ ggt_match gt (B "xy.be") = Ok ([], 0).
Proof.
  destruct (ggt_history st_calls) as (gt & rs & E & R & H & _). exists gt, rs. split; [exact R|].
  destruct (history_entries _ _ _ _ H) as [EE _]. vm_compute in R. injection R as <- <-. vm_compute in EE. split; [rewrite EE in H; exact H|]. split; [reflexivity|]. split; [exact st_steady|].
  split; [apply parts_of_iff; split; [discriminate|vm_compute; reflexivity]|]. split; vm_compute; reflexivity.
Qed.

(** C77: the order in which such globs are added does not matter, for any path. *)
Theorem c77_steady_gglob : forall (calls calls' : list (str * Z)) (gt : gglob_tree) rs (E : list entry) (path : str) (ps : list str),
  run_adds ggt_add ggt_new calls = Ok (gt, rs) -> history gg_canon calls rs E -> length E = length calls -> Permutation calls calls' ->
  (forall e, In e E -> steady_parts (e_text e)) -> parts_of path ps ->
  exists gt' rs' E' l l', run_adds ggt_add ggt_new calls' = Ok (gt', rs') /\ history gg_canon calls' rs' E' /\ Permutation E E' /\
    ggt_match gt path = Ok (l, length l) /\ ggt_match gt' path = Ok (l', length l') /\ Permutation l l'.
Proof. exact c77_steady_gglob_l. Qed.
Print Assumptions c77_steady_gglob.

Example c77_steady_gglob_example : exists gt rs gt' rs' l l', run_adds ggt_add ggt_new st_calls = Ok (gt, rs) /\ run_adds ggt_add ggt_new (rev st_calls) = Ok (gt', rs') /\
  ggt_match gt st_path = Ok (l, 2) /\ ggt_match gt' st_path = Ok (l', 2) /\ l <> l' /\ Permutation l l'.
Proof.
  destruct c42_steady_example as (gt & rs & R & H & L & S & PO & M1 & _).
  destruct (c77_steady_gglob_l st_calls (rev st_calls) gt rs st_entries _ _ R H L (Permutation_rev _) S PO) as (gt' & rs' & E' & l & l' & R' & _ & _ & M & M' & P).
  exists gt, rs, gt', rs', l, l'. rewrite M1 in M. injection M as <-. vm_compute in R'. injection R' as <- <-. vm_compute in M'. injection M' as <-.
  split; [exact R|]. split; [vm_compute; reflexivity|]. split; [exact M1|]. split; [vm_compute; reflexivity|]. split; [discriminate|exact P].
Qed.

(** C64: the same for trees of queries: for any tags, the queries whose wildcard values are steady are reported exactly when all
    their conditions hold of the tags. *)
Theorem c64_steady : forall (rx : regexps) (calls : list (str * Z)) (gt : gtags_tree) (rs : list add_res) (E : list entry) (tags : list tag),
  (forall c, In c calls -> named_keys rx (fst c)) -> run_adds (tg_add rx) tg_new calls = Ok (gt, rs) -> history (tg_canon rx) calls rs E ->
  (forall e, In e E -> steady_query (e_text e)) -> tags <> [] ->
  exists l n, tg_match_map rx gt tags = Ok (l, n) /\ NoDup (map snd l) /\
    forall q i, In (q, i) l <-> exists e ts, In e E /\ e_node e = q /\ e_index e = i /\ parse_series rx (e_text e) = Ok ts /\ ts <> [] /\ terms_match_map rx ts tags = Ok true.
Proof. exact c64_steady_l. Qed.
Print Assumptions c64_steady.

(** An engine that takes an expression as the text it matches. *)
Definition rx_self : regexps := mkRx (fun _ => true) (fun re v => str_eqb re v).
Ltac others := let c := fresh in let I := fresh in let J := fresh in intros c I J; vm_compute in I, J; (repeat destruct I as [<-|I]); try easy; intuition discriminate.
Definition sq : str := B "seriesByTag('name={a*,b}c*', 'a!=*{x?,1}')".
Definition sq_calls : list (str * Z) := [(sq, 5%Z); (B "seriesByTag('name={b,a*}c*')", 6%Z)].
Lemma sq_texts : forall c, In c sq_calls -> forall l s k op v, query_text (fst c) l -> In s l -> condition_text s k op v -> k <> [] /\ steady v.
Proof.
  intros c [<-|[<-|[]]].
  - apply (query_cases (fun k op v => k <> [] /\ steady v)) with (n := 128) (l := [B "name={a*,b}c*"; B "a!=*{x?,1}"]); [vm_compute; reflexivity|].
    constructor; [|constructor; [|constructor]].
    + exists (B "__name__"), OpEq, (B "{a*,b}c*"). split; [apply (text_intro (B "name") OpEq (B "{a*,b}c*")); [discriminate|others|intros _ w; discriminate]|split; [discriminate|now apply steady_ok]].
    + exists (B "a"), OpNe, (B "*{x?,1}"). split; [apply (text_intro (B "a") OpNe (B "*{x?,1}")); [discriminate|others|intros _ w; discriminate]|split; [discriminate|now apply steady_ok]].
  - apply (query_cases (fun k op v => k <> [] /\ steady v)) with (n := 128) (l := [B "name={b,a*}c*"]); [vm_compute; reflexivity|].
    constructor; [|constructor].
    exists (B "__name__"), OpEq, (B "{b,a*}c*"). split; [apply (text_intro (B "name") OpEq (B "{b,a*}c*")); [discriminate|others|intros _ w; discriminate]|split; [discriminate|now apply steady_ok]].
Qed.
Example c64_steady_example : (forall c, In c sq_calls -> named_keys rx_self (fst c)) /\ exists gt rs E, run_adds (tg_add rx_self) tg_new sq_calls = Ok (gt, rs) /\
  history (tg_canon rx_self) sq_calls rs E /\ length E = length sq_calls /\ (forall e, In e E -> steady_query (e_text e)) /\
  tg_match_map rx_self gt [(B "__name__", B "axc"); (B "a", B "1y")] = Ok ([(B "seriesByTag('__name__={a*,b}c*')", 6%Z); (B "seriesByTag('__name__={a*,b}c*','a!=*{1,x?}')", 5%Z)], 2) /\
  tg_match_map rx_self gt [(B "__name__", B "axc"); (B "a", B "yxz")] = Ok ([(B "seriesByTag('__name__={a*,b}c*')", 6%Z)], 1).
Proof.
  assert (N : forall c, In c sq_calls -> named_keys rx_self (fst c)).
  { intros c I. apply named_named. intros l s k op v Q Is T. exact (proj1 (sq_texts c I _ _ _ _ _ Q Is T)). }
  split; [exact N|]. destruct (c68_add_l rx_self sq_calls N) as (gt & rs & E & R & H & _). exists gt, rs, E. split; [exact R|]. split; [exact H|].
  assert (S : forall e, In e E -> steady_query (e_text e)).
  { intros e Ie l s k op v Q Is T _ _. destruct (history_calls _ _ _ _ H e Ie) as (i & I). exact (proj2 (sq_texts _ I _ _ _ _ _ Q Is T)). }
  vm_compute in R. injection R as <- <-. split; [exact (history_ok_len _ _ _ _ H eq_refl)|]. split; [exact S|]. split; vm_compute; reflexivity.
Qed.

(** C65: MatchByTags and MatchByTagsMap agree on them when the tags are sorted. *)
Theorem c65_steady : forall (rx : regexps) (calls : list (str * Z)) (gt : gtags_tree) (rs : list add_res) (E : list entry) (tags : list tag),
  (forall c, In c calls -> named_keys rx (fst c)) -> run_adds (tg_add rx) tg_new calls = Ok (gt, rs) -> history (tg_canon rx) calls rs E ->
  (forall e, In e E -> steady_query (e_text e)) -> tags <> [] -> keys_sorted (map fst tags) ->
  exists l n, tg_match_map rx gt tags = Ok (l, n) /\
    ((forall e, In e E -> parse_series rx (e_text e) <> Ok []) -> tg_match_tags rx gt tags = Ok (l, n)) /\
    (forall e, In e E -> parse_series rx (e_text e) = Ok [] -> tg_match_tags rx gt tags = Ok ((e_node e, e_index e) :: l, n)).
Proof. exact c65_steady_l. Qed.
Print Assumptions c65_steady.

Example c65_steady_example : keys_sorted (map fst [(B "__name__", B "axc"); (B "a", B "1y")]) /\ exists gt rs, run_adds (tg_add rx_self) tg_new sq_calls = Ok (gt, rs) /\
  tg_match_tags rx_self gt [(B "__name__", B "axc"); (B "a", B "1y")] = Ok ([(B "seriesByTag('__name__={a*,b}c*')", 6%Z); (B "seriesByTag('__name__={a*,b}c*','a!=*{1,x?}')", 5%Z)], 2).
Proof. split; [cbn; unfold key_lt; repeat split; auto; intros k I; (repeat destruct I as [<-|I]); try easy; left; split; [reflexivity|discriminate]|]. do 2 eexists. split; [vm_compute; reflexivity|]. vm_compute. reflexivity. Qed.

(** C77: the order in which such queries are added does not matter, for any tags. *)
Theorem c77_steady_tags : forall (rx : regexps) (calls calls' : list (str * Z)) (gt : gtags_tree) rs (E : list entry) (tags : list tag),
  (forall c, In c calls -> named_keys rx (fst c)) -> run_adds (tg_add rx) tg_new calls = Ok (gt, rs) -> history (tg_canon rx) calls rs E ->
  length E = length calls -> Permutation calls calls' -> (forall e, In e E -> steady_query (e_text e)) -> tags <> [] ->
  exists gt' rs' E' l l' n n', run_adds (tg_add rx) tg_new calls' = Ok (gt', rs') /\ history (tg_canon rx) calls' rs' E' /\ Permutation E E' /\
    tg_match_map rx gt tags = Ok (l, n) /\ tg_match_map rx gt' tags = Ok (l', n') /\ Permutation l l'.
Proof. exact c77_steady_tags_l. Qed.
Print Assumptions c77_steady_tags.

Example c77_steady_tags_example : exists gt rs gt' rs' l l', run_adds (tg_add rx_self) tg_new sq_calls = Ok (gt, rs) /\ run_adds (tg_add rx_self) tg_new (rev sq_calls) = Ok (gt', rs') /\
  tg_match_map rx_self gt [(B "__name__", B "axc"); (B "a", B "1y")] = Ok (l, 2) /\ tg_match_map rx_self gt' [(B "__name__", B "axc"); (B "a", B "1y")] = Ok (l', 2) /\ length l = 2 /\ Permutation l l'.
Proof.
  destruct c64_steady_example as (N & gt & rs & E & R & H & L & S & M1 & _).
  destruct (c77_steady_tags_l rx_self sq_calls (rev sq_calls) gt rs E [(B "__name__", B "axc"); (B "a", B "1y")] N R H L (Permutation_rev _) S ltac:(discriminate)) as (gt' & rs' & E' & l & l' & n & n' & R' & _ & _ & M & M' & P).
  exists gt, rs, gt', rs', l, l'. rewrite M1 in M. injection M as <- <-. vm_compute in R'. injection R' as <- <-. vm_compute in M'. injection M' as <- <-.
  split; [exact R|]. split; [vm_compute; reflexivity|]. split; [exact M1|]. split; [vm_compute; reflexivity|]. split; [reflexivity|exact P].
Qed.

(** C77: adding further globs never changes whether an earlier one is reported. *)
Theorem c77_steady_gglob_later : forall (calls more : list (str * Z)) (gt gt' : gglob_tree) rs rs' (E E' : list entry) (path : str) (ps : list str),
  run_adds ggt_add ggt_new calls = Ok (gt, rs) -> history gg_canon calls rs E ->
  run_adds ggt_add ggt_new (calls ++ more) = Ok (gt', rs') -> history gg_canon (calls ++ more) rs' E' ->
  (forall e, In e E' -> steady_parts (e_text e)) -> parts_of path ps ->
  exists l l', ggt_match gt path = Ok (l, length l) /\ ggt_match gt' path = Ok (l', length l') /\
    forall e, In e E -> In e E' /\ (In (e_node e, e_index e) l <-> In (e_node e, e_index e) l').
Proof. exact c77_steady_gglob_later_l. Qed.
Print Assumptions c77_steady_gglob_later.

Example c77_steady_gglob_later_example : exists gt rs gt' rs', run_adds ggt_add ggt_new (firstn 1 st_calls) = Ok (gt, rs) /\ run_adds ggt_add ggt_new (firstn 1 st_calls ++ skipn 1 st_calls) = Ok (gt', rs') /\
  ggt_match gt st_path = Ok ([(B "x*.{a*,c}{*e,d}[f-h]*", 5%Z)], 1) /\ ggt_match gt' st_path = Ok ([(B "x*.{a*,c}{*e,d}[f-h]*", 5%Z); (B "*y.a*", 2%Z)], 2).
Proof. do 4 eexists. split; [vm_compute; reflexivity|]. split; [vm_compute; reflexivity|]. split; vm_compute; reflexivity. Qed.

(** C77: nor does adding further queries. *)
Theorem c77_steady_tags_later : forall (rx : regexps) (calls more : list (str * Z)) (gt gt' : gtags_tree) rs rs' (E E' : list entry) (tags : list tag),
  (forall c, In c (calls ++ more) -> named_keys rx (fst c)) -> run_adds (tg_add rx) tg_new calls = Ok (gt, rs) -> history (tg_canon rx) calls rs E ->
  run_adds (tg_add rx) tg_new (calls ++ more) = Ok (gt', rs') -> history (tg_canon rx) (calls ++ more) rs' E' ->
  (forall e, In e E' -> steady_query (e_text e)) -> tags <> [] ->
  exists l n l' n', tg_match_map rx gt tags = Ok (l, n) /\ tg_match_map rx gt' tags = Ok (l', n') /\
    forall e, In e E -> In e E' /\ (In (e_node e, e_index e) l <-> In (e_node e, e_index e) l').
Proof. exact c77_steady_tags_later_l. Qed.
Print Assumptions c77_steady_tags_later.

Example c77_steady_tags_later_example : exists gt rs gt' rs', run_adds (tg_add rx_self) tg_new (firstn 1 sq_calls) = Ok (gt, rs) /\ run_adds (tg_add rx_self) tg_new (firstn 1 sq_calls ++ skipn 1 sq_calls) = Ok (gt', rs') /\
  tg_match_map rx_self gt [(B "__name__", B "axc"); (B "a", B "1y")] = Ok ([(B "seriesByTag('__name__={a*,b}c*','a!=*{1,x?}')", 5%Z)], 1) /\
  tg_match_map rx_self gt' [(B "__name__", B "axc"); (B "a", B "1y")] = Ok ([(B "seriesByTag('__name__={a*,b}c*')", 6%Z); (B "seriesByTag('__name__={a*,b}c*','a!=*{1,x?}')", 5%Z)], 2).
Proof. do 4 eexists. split; [vm_compute; reflexivity|]. split; [vm_compute; reflexivity|]. split; vm_compute; reflexivity. Qed.
