(** C92: matching tags that are not sorted. *)
From Verif Require Import Model.GTags Spec.TagSpec Spec.QuerySpec Spec.SelectSpec Spec.RegistrySpec Spec.TagTreeSpec Spec.CalmSpec.
From Verif Require Import Proof.SortP Proof.SafeP Proof.TagsP Proof.KeyP Proof.TermsP Proof.CondP Proof.RoundP Proof.TotalP Proof.RegistryP Proof.TagTreeP Proof.TagTop Proof.SelectTop Proof.ReturnsP Proof.LevelTop Proof.LooseP.
From Verif Require Import Proof.LooseTop.


(** Regular expressions that are all valid and match themselves. *)
Definition rx_self : regexps := mkRx (fun _ => true) (fun re v => str_eqb re v).

(** C92: MatchByTags of conditions, on tags in any order, with keys that may repeat: if it accepts, then every '=' and '=~' condition is met by a
    value that its key has in the tags. *)
Theorem c92_query : forall (rx : regexps) (ts : list tterm) (tags : list tag), terms_match_tags rx ts tags = Ok true ->
  forall t, In t ts -> positive (tt_op t) -> exists v, In (tt_key t, v) tags /\ tt_match rx t v = Ok true.
Proof. exact c92_query_l. Qed.
Print Assumptions c92_query.

(** C92: so if the keys differ and there are only such conditions, MatchByTagsMap accepts as well. *)
Theorem c92_query_map : forall (rx : regexps) (ts : list tterm) (tags : list tag), NoDup (map fst tags) -> (forall t, In t ts -> positive (tt_op t)) ->
  terms_match_tags rx ts tags = Ok true -> terms_match_map rx ts tags = Ok true.
Proof. exact c92_query_map_l. Qed.
Print Assumptions c92_query_map.

Example c92_query_example : exists ts, parse_series rx_self (B "seriesByTag('b=2','a=x*')") = Ok ts /\ (forall t, In t ts -> positive (tt_op t)) /\
  let tags := [(B "c", B "3"); (B "a", B "xy"); (B "__name__", B "m"); (B "b", B "2")] in
  NoDup (map fst tags) /\ terms_match_tags rx_self ts tags = Ok true.
Proof.
  eexists. split; [vm_compute; reflexivity|]. split; [intros t [<-|[<-|[]]]; now left|]. cbv zeta. split; [|vm_compute; reflexivity].
  repeat constructor; cbn; intuition discriminate.
Qed.

(** C92: MatchByTags of a tree of queries (no blank keys), after any calls of Add and on any tags: whenever it returns, each index is stored at
    most once and belongs to an accepted query, and for each '=' and '=~' condition of that query the tags have its key with a value that an
    accepted condition, written alike, accepts. *)
Theorem c92_tree : forall (rx : regexps) (calls : list (str * Z)) (gt : gtags_tree) (rs : list add_res) (E : list entry) (tags : list tag) (l : list term) (n : nat),
  (forall c, In c calls -> named_keys rx (fst c)) -> run_adds (tg_add rx) tg_new calls = Ok (gt, rs) -> history (tg_canon rx) calls rs E ->
  tg_match_tags rx gt tags = Ok (l, n) ->
  NoDup (map snd l) /\
  forall q i, In (q, i) l -> exists e ts, In e E /\ e_node e = q /\ e_index e = i /\ parse_series rx (e_text e) = Ok ts /\
    forall t, In t ts -> positive (tt_op t) -> exists u v, accepted_term rx E u /\ condition u = condition t /\ In (tt_key t, v) tags /\ tt_match rx u v = Ok true.
Proof. exact c92_tree_l. Qed.
Print Assumptions c92_tree.

(** C92: with different keys an accepted query that has only '=' and '=~' conditions is stored by MatchByTags only if it is stored by
    MatchByTagsMap, whatever the order of the tags. *)
Theorem c92_subset : forall (rx : regexps) (calls : list (str * Z)) (gt : gtags_tree) (rs : list add_res) (E : list entry) (tags : list tag) (l l' : list term) (n n' : nat),
  (forall c, In c calls -> named_keys rx (fst c)) -> run_adds (tg_add rx) tg_new calls = Ok (gt, rs) -> history (tg_canon rx) calls rs E ->
  tags <> [] -> NoDup (map fst tags) -> tg_match_tags rx gt tags = Ok (l, n) -> tg_match_map rx gt tags = Ok (l', n') ->
  forall e ts, In e E -> parse_series rx (e_text e) = Ok ts -> ts <> [] -> (forall t, In t ts -> positive (tt_op t)) ->
  In (e_node e, e_index e) l -> In (e_node e, e_index e) l'.
Proof. exact c92_subset_l. Qed.
Print Assumptions c92_subset.

(** C92: on any tags MatchByTags returns if the conditions with wildcards are calm globs (C86 asks for sorted tags). *)
Theorem c92_returns : forall (rx : regexps) (calls : list (str * Z)) (gt : gtags_tree) (rs : list add_res) (E : list entry) (tags : list tag),
  (forall c, In c calls -> named_keys rx (fst c)) -> run_adds (tg_add rx) tg_new calls = Ok (gt, rs) -> history (tg_canon rx) calls rs E ->
  (forall e, In e E -> calm_query (e_text e)) -> exists o, tg_match_tags rx gt tags = Ok o.
Proof. exact c92_returns_l. Qed.
Print Assumptions c92_returns.

Ltac keys := intros ? I ts t P It; repeat (destruct I as [<-|I]; [vm_compute in P; injection P as <-; repeat (destruct It as [<-|It]; [discriminate|]); easy|]); easy.
(** Tags out of order with a key that repeats: of the two values of 'a' the second is found. *)
Example c92_tree_example : let calls := [(B "seriesByTag('a=1','b=2')", 1%Z); (B "seriesByTag('c=3')", 2%Z); (B "seriesByTag('c=3','d!=4')", 3%Z)] in
  (forall c, In c calls -> named_keys rx_self (fst c)) /\ exists gt rs E, run_adds (tg_add rx_self) tg_new calls = Ok (gt, rs) /\ history (tg_canon rx_self) calls rs E /\
  tg_match_tags rx_self gt [(B "c", B "3"); (B "a", B "1"); (B "a", B "5"); (B "b", B "2")] = Ok ([(B "seriesByTag('a=1','b=2')", 1%Z)], 1) /\
  tg_match_tags rx_self gt [(B "b", B "2"); (B "c", B "3"); (B "a", B "1")] = Ok ([(B "seriesByTag('c=3')", 2%Z); (B "seriesByTag('c=3','d!=4')", 3%Z)], 2) /\
  tg_match_map rx_self gt [(B "b", B "2"); (B "c", B "3"); (B "a", B "1")] = Ok ([(B "seriesByTag('a=1','b=2')", 1%Z); (B "seriesByTag('c=3')", 2%Z); (B "seriesByTag('c=3','d!=4')", 3%Z)], 3).
Proof.
  cbv zeta. match goal with |- ?G /\ _ => assert (N : G) by keys end.
  split; [exact N|]. destruct (c68_add_l rx_self _ N) as (gt & rs & E & R & H & _). exists gt, rs, E. split; [exact R|]. split; [exact H|]. vm_compute in R. injection R as <- <-.
  split; [vm_compute; reflexivity|]. split; vm_compute; reflexivity.
Qed.

(** C92: without the order more does not hold: on 'b=2', 'a=1' MatchByTags misses a query that the tags meet, and reports one that they do not
    meet, both for the conditions and for a tree of queries. *)
Theorem c92_unsorted_refuted : forall rx : regexps, let tags := [(B "b", B "2"); (B "a", B "1")] in
  (exists ts, parse_series rx (B "seriesByTag('a=1','b=2')") = Ok ts /\ terms_match_map rx ts tags = Ok true /\ terms_match_tags rx ts tags = Ok false) /\
  (exists ts, parse_series rx (B "seriesByTag('a=1','b!=2')") = Ok ts /\ terms_match_map rx ts tags = Ok false /\ terms_match_tags rx ts tags = Ok true) /\
  exists gt rs, run_adds (tg_add rx) tg_new [(B "seriesByTag('a=1','b=2')", 1%Z); (B "seriesByTag('a!=1')", 2%Z)] = Ok (gt, rs) /\
    tg_match_map rx gt tags = Ok ([(B "seriesByTag('a=1','b=2')", 1%Z)], 1) /\ tg_match_tags rx gt tags = Ok ([(B "seriesByTag('a!=1')", 2%Z)], 1).
Proof. exact c92_unsorted_refuted_l. Qed.
Print Assumptions c92_unsorted_refuted.
