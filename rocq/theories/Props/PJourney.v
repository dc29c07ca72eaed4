(** C88: from a written path to the queries that select it. *)
From Verif Require Import Model.GTags Spec.Symbols Spec.GlobSpec Spec.ApartSpec Spec.GGlobSpec Spec.TagSpec Spec.QuerySpec Spec.SelectSpec Spec.RegistrySpec Spec.TagTreeSpec.
From Verif Require Import Proof.SortP Proof.RegistryP Proof.SafeP Proof.SeriesP Proof.SelectP Proof.TagTreeP Proof.CheckP Proof.GGlobTop Proof.TagTop Proof.TagsP Proof.SelectTop.
From Verif Require Import Proof.JourneyTop.


(** C88: a query accepts the map decoded from a written path exactly when its text selects the tags that were written. *)
Theorem c88_query : forall (rx : regexps) (q : str) (ts : list tterm) (name : str) (tags : list tag), parse_series rx q = Ok ts -> good_query q ->
  clean_tags ((B "__name__", name) :: tags) \/ lone_query q -> NoDup (B "__name__" :: map fst tags) ->
  exists m b, path_tags_map (encode_path "?" "&" name tags) = (m, None) /\ graphite_path_tags_map (encode_path ";" ";" name tags) = (m, None) /\
    terms_match_map rx ts m = Ok b /\ (b = true <-> selects rx q ((B "__name__", name) :: tags)).
Proof. exact c88_query_l. Qed.
Print Assumptions c88_query.

(** C88: a tree of queries reports, for the map decoded from a written path, exactly the accepted queries with conditions whose text selects the tags that were written. *)
Theorem c88_map : forall (rx : regexps) (calls : list (str * Z)) (gt : gtags_tree) (rs : list add_res) (E : list entry) (name : str) (tags : list tag),
  (forall c, In c calls -> named_query (fst c)) -> run_adds (tg_add rx) tg_new calls = Ok (gt, rs) -> history (tg_canon rx) calls rs E ->
  (forall e, In e E -> good_query (e_text e) /\ clean_query (e_text e)) ->
  clean_tags ((B "__name__", name) :: tags) \/ (forall e, In e E -> lone_query (e_text e)) -> NoDup (B "__name__" :: map fst tags) ->
  exists m l, path_tags_map (encode_path "?" "&" name tags) = (m, None) /\ graphite_path_tags_map (encode_path ";" ";" name tags) = (m, None) /\
    tg_match_map rx gt m = Ok (l, length l) /\ NoDup (map snd l) /\
    forall q i, In (q, i) l <-> exists e, In e E /\ e_node e = q /\ e_index e = i /\ ~ query_text (e_text e) [] /\ selects rx (e_text e) ((B "__name__", name) :: tags).
Proof. exact c88_map_l. Qed.
Print Assumptions c88_map.

(** C88: on a path written with sorted tags, the decoded slice makes MatchByTags report exactly the accepted queries whose text selects the tags that were written. *)
Theorem c88_slice : forall (rx : regexps) (calls : list (str * Z)) (gt : gtags_tree) (rs : list add_res) (E : list entry) (name : str) (tags : list tag),
  (forall c, In c calls -> named_query (fst c)) -> run_adds (tg_add rx) tg_new calls = Ok (gt, rs) -> history (tg_canon rx) calls rs E ->
  (forall e, In e E -> good_query (e_text e) /\ clean_query (e_text e)) ->
  clean_tags ((B "__name__", name) :: tags) \/ (forall e, In e E -> lone_query (e_text e)) -> keys_sorted (B "__name__" :: map fst tags) ->
  exists s l n, path_tags (encode_path "?" "&" name tags) = (s, None) /\ graphite_path_tags (encode_path ";" ";" name tags) = (s, None) /\
    tg_match_tags rx gt s = Ok (l, n) /\ NoDup (map snd l) /\
    forall q i, In (q, i) l <-> exists e, In e E /\ e_node e = q /\ e_index e = i /\ selects rx (e_text e) ((B "__name__", name) :: tags).
Proof. exact c88_slice_l. Qed.
Print Assumptions c88_slice.

(** Regular expressions that are all valid and match themselves. *)
Definition rx_self : regexps := mkRx (fun _ => true) (fun re v => str_eqb re v).
Ltac letters := let c := fresh in let I := fresh in intros c I; vm_compute in I; (repeat destruct I as [<-|I]); try easy; vm_compute; reflexivity.
Ltac others := let c := fresh in let I := fresh in let J := fresh in intros c I J; vm_compute in I, J; (repeat destruct I as [<-|I]); try easy; intuition discriminate.
Example c88_example : let q := B "seriesByTag('name=x*', 'a != 1')" in let tags := [(B "a", B "2 &"); (B "b;", B "=")] in
  named_query q /\ good_query q /\ clean_query q /\ clean_tags ((B "__name__", B "x?") :: tags) /\ keys_sorted (B "__name__" :: map fst tags) /\ NoDup (B "__name__" :: map fst tags) /\
  encode_path "?" "&" (B "x?") tags = B "x%3F?a=2+%26&b%3B=%3D" /\ encode_path ";" ";" (B "x?") tags = B "x%3F;a=2+%26;b%3B=%3D" /\
  exists gt rs ts, run_adds (tg_add rx_self) tg_new [(q, 5%Z)] = Ok (gt, rs) /\ parse_series rx_self q = Ok ts /\
    terms_match_map rx_self ts (fst (path_tags_map (B "x%3F?a=2+%26&b%3B=%3D"))) = Ok true /\
    tg_match_map rx_self gt (fst (path_tags_map (B "x%3F?a=2+%26&b%3B=%3D"))) = Ok ([(B "seriesByTag('__name__=x*','a!=1')", 5%Z)], 1) /\
    tg_match_map rx_self gt (fst (path_tags_map (B "x%3F?a=1&b%3B=%3D"))) = Ok ([], 0) /\
    tg_match_tags rx_self gt (fst (graphite_path_tags (B "x%3F;a=2+%26;b%3B=%3D"))) = Ok ([(B "seriesByTag('__name__=x*','a!=1')", 5%Z)], 1).
Proof.
  cbv zeta.
  assert (H : forall l s k op v, query_text (B "seriesByTag('name=x*', 'a != 1')") l -> In s l -> condition_text s k op v -> (k = B "__name__" /\ op = OpEq /\ v = B "x*") \/ (k = B "a" /\ op = OpNe /\ v = B "1")).
  { apply (query_cases (fun k op v => (k = B "__name__" /\ op = OpEq /\ v = B "x*") \/ (k = B "a" /\ op = OpNe /\ v = B "1"))) with (n := 128) (l := [B "name=x*"; B "a != 1"]); [vm_compute; reflexivity|].
    constructor; [|constructor; [|constructor]].
    - exists (B "__name__"), OpEq, (B "x*"). split; [|now left]. apply (text_intro (B "name") OpEq (B "x*")); [discriminate|others|intros _ w; discriminate].
    - exists (B "a"), OpNe, (B "1"). split; [|now right]. apply (text_intro (B "a ") OpNe (B " 1")); [discriminate|others|intros _ w; discriminate]. }
  split; [|split; [|split; [|split; [|split; [|split; [|split; [|split]]]]]]].
  - intros l s k op v Q I T. destruct (H _ _ _ _ _ Q I T) as [(-> & _)|(-> & _)]; discriminate.
  - intros l s k op v Q I T _ W. destruct (H _ _ _ _ _ Q I T) as [(_ & _ & ->)|(_ & _ & ->)]; [apply good_glob_ok; vm_compute; reflexivity|]. exfalso. apply wild_iff in W. discriminate W.
  - intros l s k op v Q I T _. destruct (H _ _ _ _ _ Q I T) as [(_ & _ & ->)|(_ & _ & ->)]; apply clean_ascii; letters.
  - intros k x [[= <- <-]|[[= <- <-]|[[= <- <-]|[]]]]; apply clean_ascii; letters.
  - cbn. unfold key_lt. split; [|split; [|split; [|exact I]]]; intros k I; (repeat destruct I as [<-|I]); try easy; first [left; split; [reflexivity|discriminate]|right; split; [discriminate|vm_compute; reflexivity]].
  - cbn. repeat constructor; cbn; intuition discriminate.
  - vm_compute. reflexivity.
  - vm_compute. reflexivity.
  - do 3 eexists. split; [vm_compute; reflexivity|]. split; [vm_compute; reflexivity|]. repeat match goal with |- _ /\ _ => split end; vm_compute; reflexivity.
Qed.
