(** C64, C65, C91: trees of tag queries, all queries. *)
From Verif Require Import Model.GTags Spec.TagSpec Spec.RegistrySpec Spec.TagTreeSpec Spec.LevelSpec.
From Verif Require Import Proof.SortP Proof.SafeP Proof.TagsP Proof.KeyP Proof.TermsP Proof.CondP Proof.RoundP Proof.TotalP Proof.RegistryP Proof.TagTreeP Proof.TagTop Proof.LevelP.
From Verif Require Import Proof.LevelTop.


(** Regular expressions that are all valid and match themselves. *)
Definition rx_self : regexps := mkRx (fun _ => true) (fun re v => str_eqb re v).

(** C91: in a tree of queries with at most one condition on the name each, all of which or the first of which does not have one, the keys
    at every level are sorted, '__name__' first, none occurs twice, and no condition is stored twice at the same place. *)
Theorem c91_levels : forall (rx : regexps) (calls : list (str * Z)) (gt : gtags_tree) (rs : list add_res) (E : list entry),
  (forall c, In c calls -> named_keys rx (fst c)) -> run_adds (tg_add rx) tg_new calls = Ok (gt, rs) -> history (tg_canon rx) calls rs E ->
  (forall e ts, In e E -> parse_series rx (e_text e) = Ok ts -> once_named ts) -> names_late rx E ->
  forall i, within (tg_root gt) i -> keys_sorted (level i) /\ NoDup (level i) /\
    forall s, In s (ti_slots i) -> NoDup (map (fun c => option_map condition (ti_term c)) (slot_items s)).
Proof. exact c91_levels_l. Qed.
Print Assumptions c91_levels.

(** Three queries; the last condition is the text 'b*' between braces, which is written like the glob of the first query. *)
Definition lv_calls : list (str * Z) := [(B "seriesByTag('a=b*','c=1')", 1%Z); (B "seriesByTag('name=x','c=1','b=2')", 2%Z); (B "seriesByTag('a={b*}')", 3%Z)].
Lemma lv_parse c ts : In c lv_calls -> parse_series rx_self (fst c) = Ok ts -> once_named ts /\ forall t, In t ts -> tt_key t <> [].
Proof.
  intros [<-|[<-|[<-|[]]]] P; vm_compute in P; injection P as <-; (split; [apply once_ok; vm_compute; reflexivity|]); intros t I; repeat (destruct I as [<-|I]; [discriminate|]); easy.
Qed.
Lemma lv_history : (forall c, In c lv_calls -> named_keys rx_self (fst c)) /\ exists gt rs E, run_adds (tg_add rx_self) tg_new lv_calls = Ok (gt, rs) /\ history (tg_canon rx_self) lv_calls rs E /\
  (forall e ts, In e E -> parse_series rx_self (e_text e) = Ok ts -> once_named ts) /\ names_late rx_self E /\
  level (tg_root gt) = [B "__name__"; B "a"] /\ map (fun s => map level (slot_items s)) (ti_slots (tg_root gt)) = [[[B "b"]]; [[B "c"]]] /\
  tg_match_map rx_self gt [(B "a", B "bx")] = Ok ([(B "seriesByTag('a=b*')", 3%Z)], 1) /\
  tg_match_tags rx_self gt [(B "__name__", B "x"); (B "b", B "2"); (B "c", B "1")] = Ok ([(B "seriesByTag('__name__=x','b=2','c=1')", 2%Z)], 1).
Proof.
  assert (N : forall c, In c lv_calls -> named_keys rx_self (fst c)) by (intros c I ts t P It; eapply lv_parse; eauto).
  split; [exact N|]. destruct (c68_add_l rx_self lv_calls N) as (gt & rs & E & R & H & _). exists gt, rs, E. split; [exact R|]. split; [exact H|].
  split; [intros e ts Ie P; destruct (history_calls _ _ _ _ H e Ie) as (i & I); eapply (lv_parse (e_text e, i)); eauto|].
  destruct (history_entries _ _ _ _ H) as [EE _]. vm_compute in R. injection R as <- <-. split; [|repeat split; vm_compute; reflexivity].
  right. rewrite EE. exists []. do 3 eexists. split; [reflexivity|]. split; [vm_compute; reflexivity|]. split; [discriminate|]. split; [|easy].
  intros (t & [<-|[<-|[]]] & K); discriminate.
Qed.
Example c91_levels_example : exists gt rs E, run_adds (tg_add rx_self) tg_new lv_calls = Ok (gt, rs) /\ history (tg_canon rx_self) lv_calls rs E /\
  (forall e ts, In e E -> parse_series rx_self (e_text e) = Ok ts -> once_named ts) /\ names_late rx_self E /\ level (tg_root gt) = [B "__name__"; B "a"].
Proof. destruct lv_history as (_ & gt & rs & E & R & H & O & L & V & _). exists gt, rs, E. auto 8. Qed.

(** C91: otherwise they are not: after the query 'name=x' the key 'a' is put in front of '__name__', and the next condition on the name
    gets an entry of its own. *)
Theorem c91_levels_refuted : forall rx : regexps,
  (exists gt rs, run_adds (tg_add rx) tg_new [(B "seriesByTag('name=x')", 1%Z); (B "seriesByTag('a=1')", 2%Z)] = Ok (gt, rs) /\ level (tg_root gt) = [B "a"; B "__name__"] /\ ~ keys_sorted (level (tg_root gt))) /\
  (exists gt rs, run_adds (tg_add rx) tg_new [(B "seriesByTag('name=x')", 1%Z); (B "seriesByTag('a=1')", 2%Z); (B "seriesByTag('name=y')", 3%Z)] = Ok (gt, rs) /\
     level (tg_root gt) = [B "__name__"; B "a"; B "__name__"] /\ ~ NoDup (level (tg_root gt))).
Proof. exact c91_levels_refuted_l. Qed.
Print Assumptions c91_levels_refuted.

(** C65: on sorted tags MatchByTags does what MatchByTagsMap does, for all queries and values: it returns or panics alike, with the same
    reports in the same order, after the query without conditions if there is one. *)
Theorem c65_always : forall (rx : regexps) (calls : list (str * Z)) (gt : gtags_tree) (rs : list add_res) (E : list entry) (tags : list tag),
  (forall c, In c calls -> named_keys rx (fst c)) -> run_adds (tg_add rx) tg_new calls = Ok (gt, rs) -> history (tg_canon rx) calls rs E -> tags <> [] -> keys_sorted (map fst tags) ->
  ((forall e, In e E -> parse_series rx (e_text e) <> Ok []) -> tg_match_tags rx gt tags = tg_match_map rx gt tags) /\
  (forall e, In e E -> parse_series rx (e_text e) = Ok [] -> tg_match_tags rx gt tags = bind (tg_match_map rx gt tags) (fun '(l, n) => Ok ((e_node e, e_index e) :: l, n))).
Proof. exact c65_always_l. Qed.
Print Assumptions c65_always.

Example c65_always_example : keys_sorted (map fst [(B "__name__", B "x"); (B "b", B "2"); (B "c", B "1")]) /\ exists gt rs, run_adds (tg_add rx_self) tg_new lv_calls = Ok (gt, rs) /\
  tg_match_tags rx_self gt [(B "__name__", B "x"); (B "b", B "2"); (B "c", B "1")] = Ok ([(B "seriesByTag('__name__=x','b=2','c=1')", 2%Z)], 1).
Proof.
  split; [|destruct lv_history as (_ & gt & rs & E & R & _ & _ & _ & _ & _ & _ & M); exists gt, rs; auto].
  split; [intros k [<-|[<-|[]]]; left; split; reflexivity || discriminate|]. split; [intros k [<-|[]]; right; split; [discriminate|reflexivity]|]. split; [easy|exact I].
Qed.

(** C64: for all queries, also for conditions that are written alike and mean different things: whenever MatchByTagsMap returns, it has
    stored exactly the accepted queries each of whose conditions is met by the one that stands for it (the one that was accepted first in
    that place), each once; for queries that name the metric at most once, all of which or the first of which does not. *)
Theorem c64_first : forall (rx : regexps) (calls : list (str * Z)) (gt : gtags_tree) (rs : list add_res) (E : list entry) (tags : list tag) (l : list term) (n : nat),
  (forall c, In c calls -> named_keys rx (fst c)) -> run_adds (tg_add rx) tg_new calls = Ok (gt, rs) -> history (tg_canon rx) calls rs E ->
  (forall e ts, In e E -> parse_series rx (e_text e) = Ok ts -> once_named ts) -> names_late rx E ->
  tags <> [] -> tg_match_map rx gt tags = Ok (l, n) ->
  n = length l /\ NoDup (map snd l) /\
  forall q i, In (q, i) l <-> exists e ts, In e E /\ e_node e = q /\ e_index e = i /\ parse_series rx (e_text e) = Ok ts /\ ts <> [] /\ all_met rx E ts tags.
Proof. exact c64_first_l. Qed.
Print Assumptions c64_first.

Example c64_first_example : exists gt rs E, run_adds (tg_add rx_self) tg_new lv_calls = Ok (gt, rs) /\ history (tg_canon rx_self) lv_calls rs E /\
  (forall e ts, In e E -> parse_series rx_self (e_text e) = Ok ts -> once_named ts) /\ names_late rx_self E /\
  tg_match_map rx_self gt [(B "a", B "bx")] = Ok ([(B "seriesByTag('a=b*')", 3%Z)], 1).
Proof. destruct lv_history as (_ & gt & rs & E & R & H & O & L & _ & _ & M & _). exists gt, rs, E. auto 8. Qed.

(** C64: for all queries with keys, wherever they name the metric: whenever MatchByTagsMap returns, it has stored each query at most once;
    a query that is stored has each of its conditions met by an accepted condition that is written alike, and a query is stored if all
    accepted conditions that are written like one of its conditions are met. *)
Theorem c64_bounds : forall (rx : regexps) (calls : list (str * Z)) (gt : gtags_tree) (rs : list add_res) (E : list entry) (tags : list tag) (l : list term) (n : nat),
  (forall c, In c calls -> named_keys rx (fst c)) -> run_adds (tg_add rx) tg_new calls = Ok (gt, rs) -> history (tg_canon rx) calls rs E ->
  tags <> [] -> tg_match_map rx gt tags = Ok (l, n) ->
  n = length l /\ NoDup (map snd l) /\
  (forall q i, In (q, i) l -> exists e ts, In e E /\ e_node e = q /\ e_index e = i /\ parse_series rx (e_text e) = Ok ts /\ ts <> [] /\
     forall t, In t ts -> exists u, accepted_term rx E u /\ condition u = condition t /\ holds rx u tags) /\
  (forall e ts, In e E -> parse_series rx (e_text e) = Ok ts -> ts <> [] ->
     (forall t u, In t ts -> accepted_term rx E u -> condition u = condition t -> holds rx u tags) -> In (e_node e, e_index e) l).
Proof. exact c64_bounds_l. Qed.
Print Assumptions c64_bounds.

(** The three queries of c64_late_refuted: on 'xx' the third one is not stored, since its text is 'x*', although the condition written alike of the first query is met. *)
Example c64_bounds_example : let calls := [(B "seriesByTag('name=x*','b=1')", 1%Z); (B "seriesByTag('a=1')", 2%Z); (B "seriesByTag('name={x*}')", 3%Z)] in
  (forall c, In c calls -> named_keys rx_self (fst c)) /\ exists gt rs E, run_adds (tg_add rx_self) tg_new calls = Ok (gt, rs) /\ history (tg_canon rx_self) calls rs E /\
  tg_match_map rx_self gt [(B "__name__", B "xx")] = Ok ([], 0) /\
  tg_match_map rx_self gt [(B "__name__", B "x*"); (B "b", B "1")] = Ok ([(B "seriesByTag('__name__=x*')", 3%Z); (B "seriesByTag('__name__=x*','b=1')", 1%Z)], 2).
Proof.
  cbv zeta. match goal with |- ?G /\ _ => assert (N : G) by (intros c [<-|[<-|[<-|[]]]] ts t P It; vm_compute in P; injection P as <-; repeat (destruct It as [<-|It]; [discriminate|]); easy) end.
  split; [exact N|]. destruct (c68_add_l rx_self _ N) as (gt & rs & E & R & H & _). exists gt, rs, E. split; [exact R|]. split; [exact H|]. vm_compute in R. injection R as <- <-. split; vm_compute; reflexivity.
Qed.

(** C64: otherwise a condition may also be stored twice, and then the first one does not stand for the second: after 'name=x*' with 'b=1'
    and a query without a name, the text 'x*' between braces is compared as it is. *)
Theorem c64_late_refuted : forall rx : regexps, exists calls gt rs E e ts, calls = [(B "seriesByTag('name=x*','b=1')", 1%Z); (B "seriesByTag('a=1')", 2%Z); (B "seriesByTag('name={x*}')", 3%Z)] /\
  run_adds (tg_add rx) tg_new calls = Ok (gt, rs) /\ history (tg_canon rx) calls rs E /\ In e E /\ parse_series rx (e_text e) = Ok ts /\ once_named ts /\
  all_met rx E ts [(B "__name__", B "xy")] /\ tg_match_map rx gt [(B "__name__", B "xy")] = Ok ([], 0).
Proof. exact c64_late_refuted_l. Qed.
Print Assumptions c64_late_refuted.
