(** C80, C82: what a query selects. *)
From Verif Require Import Model.GTags Spec.Symbols Spec.GlobSpec Spec.ApartSpec Spec.GGlobSpec Spec.TagSpec Spec.QuerySpec Spec.SelectSpec Spec.RegistrySpec Spec.TagTreeSpec Spec.TameSpec.
From Verif Require Import Proof.SortP Proof.RegistryP Proof.SafeP Proof.SeriesP Proof.SelectP Proof.TagTreeP Proof.CheckP Proof.GGlobTop Proof.TagTop Proof.TagSoundP Proof.ApartP.
From Verif Require Import Proof.SelectTop.


(** Regular expressions that are all valid and match themselves. *)
Definition rx_self : regexps := mkRx (fun _ => true) (fun re v => str_eqb re v).
Ltac letters := let c := fresh in let I := fresh in intros c I; vm_compute in I; (repeat destruct I as [<-|I]); try easy; vm_compute; reflexivity.
Ltac others := let c := fresh in let I := fresh in let J := fresh in intros c I J; vm_compute in I, J; (repeat destruct I as [<-|I]); try easy; intuition discriminate.
Lemma glob_x_star : good_glob (B "x*").
Proof. apply good_glob_ok. vm_compute. reflexivity. Qed.
Lemma example_query : good_query (B "seriesByTag('name=x*', 'a != 1')") /\ clean_query (B "seriesByTag('name=x*', 'a != 1')") /\ named_query (B "seriesByTag('name=x*', 'a != 1')").
Proof.
  assert (H : forall l s k op v, query_text (B "seriesByTag('name=x*', 'a != 1')") l -> In s l -> condition_text s k op v -> (k = B "__name__" /\ op = OpEq /\ v = B "x*") \/ (k = B "a" /\ op = OpNe /\ v = B "1")).
  { apply (query_cases (fun k op v => (k = B "__name__" /\ op = OpEq /\ v = B "x*") \/ (k = B "a" /\ op = OpNe /\ v = B "1"))) with (n := 128) (l := [B "name=x*"; B "a != 1"]); [vm_compute; reflexivity|].
    constructor; [|constructor; [|constructor]].
    - exists (B "__name__"), OpEq, (B "x*"). split; [|now left]. apply (text_intro (B "name") OpEq (B "x*")); [discriminate|others|intros _ w; discriminate].
    - exists (B "a"), OpNe, (B "1"). split; [|now right]. apply (text_intro (B "a ") OpNe (B " 1")); [discriminate|others|intros _ w; discriminate]. }
  split; [|split].
  - intros l s k op v Q I T _ W. destruct (H _ _ _ _ _ Q I T) as [(_ & _ & ->)|(_ & _ & ->)]; [apply glob_x_star|]. exfalso. apply wild_iff in W. discriminate W.
  - intros l s k op v Q I T _. destruct (H _ _ _ _ _ Q I T) as [(_ & _ & ->)|(_ & _ & ->)]; apply clean_ascii; letters.
  - intros l s k op v Q I T. destruct (H _ _ _ _ _ Q I T) as [(-> & _)|(-> & _)]; discriminate.
Qed.

(** C82: an accepted query accepts a map of tags exactly when its text selects the tags. *)
Theorem c82_map : forall (rx : regexps) (q : str) (ts : list tterm) (tags : list tag), parse_series rx q = Ok ts -> good_query q -> clean_tags tags \/ lone_query q ->
  exists b, terms_match_map rx ts tags = Ok b /\ (b = true <-> selects rx q tags).
Proof. exact c82_map_l. Qed.
Print Assumptions c82_map.

Example c82_map_example : exists ts, parse_series rx_self (B "seriesByTag('name=x*', 'a != 1')") = Ok ts /\ good_query (B "seriesByTag('name=x*', 'a != 1')") /\
  terms_match_map rx_self ts [(B "__name__", B "xy"); (B "a", B "2")] = Ok true /\ terms_match_map rx_self ts [(B "__name__", B "xy"); (B "a", B "1")] = Ok false.
Proof. eexists. split; [vm_compute; reflexivity|]. split; [apply example_query|]. split; vm_compute; reflexivity. Qed.

(** C82: a tree of queries reports, on a non-empty map of tags, exactly the accepted queries with conditions whose text selects the tags. *)
Theorem c82_tree : forall (rx : regexps) (calls : list (str * Z)) (gt : gtags_tree) (rs : list add_res) (E : list entry) (tags : list tag),
  (forall c, In c calls -> named_query (fst c)) -> run_adds (tg_add rx) tg_new calls = Ok (gt, rs) -> history (tg_canon rx) calls rs E ->
  (forall e, In e E -> good_query (e_text e) /\ clean_query (e_text e)) -> clean_tags tags \/ (forall e, In e E -> lone_query (e_text e)) -> tags <> [] ->
  exists l, tg_match_map rx gt tags = Ok (l, length l) /\ NoDup (map snd l) /\
    forall q i, In (q, i) l <-> exists e, In e E /\ e_node e = q /\ e_index e = i /\ ~ query_text (e_text e) [] /\ selects rx (e_text e) tags.
Proof. exact c82_tree_l. Qed.
Print Assumptions c82_tree.

(** C82: on sorted tags MatchByTags reports exactly the accepted queries whose text selects the tags. *)
Theorem c82_tree_tags : forall (rx : regexps) (calls : list (str * Z)) (gt : gtags_tree) (rs : list add_res) (E : list entry) (tags : list tag),
  (forall c, In c calls -> named_query (fst c)) -> run_adds (tg_add rx) tg_new calls = Ok (gt, rs) -> history (tg_canon rx) calls rs E ->
  (forall e, In e E -> good_query (e_text e) /\ clean_query (e_text e)) -> clean_tags tags \/ (forall e, In e E -> lone_query (e_text e)) -> tags <> [] -> keys_sorted (map fst tags) ->
  exists l n, tg_match_tags rx gt tags = Ok (l, n) /\ NoDup (map snd l) /\
    forall q i, In (q, i) l <-> exists e, In e E /\ e_node e = q /\ e_index e = i /\ selects rx (e_text e) tags.
Proof. exact c82_tree_tags_l. Qed.
Print Assumptions c82_tree_tags.

Example c82_tree_example : let q := B "seriesByTag('name=x*', 'a != 1')" in let calls := [(q, 5%Z); (B "seriesByTag()", 6%Z)] in
  let tags := [(B "__name__", B "xy"); (B "a", B "2")] in
  (forall c, In c calls -> named_query (fst c) /\ good_query (fst c) /\ clean_query (fst c)) /\ clean_tags tags /\ keys_sorted (map fst tags) /\
  exists gt rs, run_adds (tg_add rx_self) tg_new calls = Ok (gt, rs) /\
    tg_match_map rx_self gt tags = Ok ([(B "seriesByTag('__name__=x*','a!=1')", 5%Z)], 1) /\
    tg_match_tags rx_self gt tags = Ok ([(B "seriesByTag()", 6%Z); (B "seriesByTag('__name__=x*','a!=1')", 5%Z)], 1) /\
    tg_match_map rx_self gt [(B "__name__", B "xy"); (B "a", B "1")] = Ok ([], 0).
Proof.
  cbv zeta. split; [|split; [|split]].
  - intros c [<-|[<-|[]]]; cbn [fst].
    + destruct example_query as (G & C & N). auto.
    + assert (H : forall l s k op v, query_text (B "seriesByTag()") l -> In s l -> condition_text s k op v -> False) by (apply (query_cases (fun _ _ _ => False)) with (n := 128) (l := []); [vm_compute; reflexivity|constructor]).
      split; [|split]; intros l s k op v Q I T; exfalso; eapply H; eauto.
  - intros k x [[= <- <-]|[[= <- <-]|[]]]; apply clean_ascii; letters.
  - cbn. unfold key_lt. repeat split; auto; intros k I; (repeat destruct I as [<-|I]); try easy; left; split; [reflexivity|discriminate].
  - do 2 eexists. split; [vm_compute; reflexivity|]. repeat match goal with |- _ /\ _ => split end; vm_compute; reflexivity.
Qed.

(** C80: when an accepted query accepts a map of tags, the tags satisfy its conditions (those with '!=' aside), whatever the lists in its globs
    look like and whatever the tags. *)
Theorem c80_query : forall (rx : regexps) (q : str) (ts : list tterm) (tags : list tag), parse_series rx q = Ok ts -> tame_query q ->
  terms_match_map rx ts tags = Ok true -> mostly_selects rx q tags.
Proof. exact c80_query_l. Qed.
Print Assumptions c80_query.

(** C80: trees of queries report only accepted queries whose conditions (those with '!=' aside) the tags satisfy. *)
Theorem c80_query_tree : forall (rx : regexps) (calls : list (str * Z)) (gt : gtags_tree) (rs : list add_res) (E : list entry) (tags : list tag),
  (forall c, In c calls -> named_query (fst c)) -> run_adds (tg_add rx) tg_new calls = Ok (gt, rs) -> history (tg_canon rx) calls rs E ->
  (forall e, In e E -> tame_query (e_text e)) ->
  (forall l n q i, tg_match_map rx gt tags = Ok (l, n) -> In (q, i) l -> exists e, In e E /\ e_node e = q /\ e_index e = i /\ mostly_selects rx (e_text e) tags) /\
  (forall l n q i, keys_sorted (map fst tags) -> tg_match_tags rx gt tags = Ok (l, n) -> In (q, i) l -> exists e, In e E /\ e_node e = q /\ e_index e = i /\ mostly_selects rx (e_text e) tags).
Proof. exact c80_query_tree_l. Qed.
Print Assumptions c80_query_tree.

Example c80_query_example : let q := B "seriesByTag('name={a*,b}*c', 'a!=*{?,1}')" in tame_query q /\ named_query q /\
  (exists ts, parse_series rx_self q = Ok ts /\ terms_match_map rx_self ts [(B "__name__", B "axc")] = Ok true) /\
  exists gt rs, run_adds (tg_add rx_self) tg_new [(q, 5%Z)] = Ok (gt, rs) /\ tg_match_map rx_self gt [(B "__name__", B "axc")] = Ok ([(B "seriesByTag('__name__={a*,b}*c','a!=*{1,?}')", 5%Z)], 1).
Proof.
  cbv zeta.
  assert (H : forall l s k op v, query_text (B "seriesByTag('name={a*,b}*c', 'a!=*{?,1}')") l -> In s l -> condition_text s k op v -> (k = B "__name__" /\ op = OpEq /\ v = B "{a*,b}*c") \/ (k = B "a" /\ op = OpNe)).
  { apply (query_cases (fun k op v => (k = B "__name__" /\ op = OpEq /\ v = B "{a*,b}*c") \/ (k = B "a" /\ op = OpNe))) with (n := 128) (l := [B "name={a*,b}*c"; B "a!=*{?,1}"]); [vm_compute; reflexivity|].
    constructor; [|constructor; [|constructor]].
    - exists (B "__name__"), OpEq, (B "{a*,b}*c"). split; [|now left]. apply (text_intro (B "name") OpEq (B "{a*,b}*c")); [discriminate|others|intros _ w; discriminate].
    - exists (B "a"), OpNe, (B "*{?,1}"). split; [|now right]. apply (text_intro (B "a") OpNe (B "*{?,1}")); [discriminate|others|intros _ w; discriminate]. }
  split; [|split; [|split]].
  - intros l s k v Q I T. destruct (H _ _ _ _ _ Q I T) as [(_ & _ & ->)|(_ & X)]; [|discriminate]. destruct (node_glob_ok (B "{a*,b}*c") ltac:(vm_compute; reflexivity)) as (C & Z & D & P & Q2).
    split; [exact C|]. intros _. do 4 (split; [assumption|]). apply calm_glob_ok; vm_compute; reflexivity.
  - intros l s k op v Q I T. destruct (H _ _ _ _ _ Q I T) as [(-> & _)|(-> & _)]; discriminate.
  - eexists. split; [vm_compute; reflexivity|]. vm_compute. reflexivity.
  - do 2 eexists. split; [vm_compute; reflexivity|]. vm_compute. reflexivity.
Qed.
