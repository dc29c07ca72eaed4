(** The statements of Props/PJourney.v. *)
From Verif Require Import Model.GTags Spec.Symbols Spec.GlobSpec Spec.ApartSpec Spec.GGlobSpec Spec.TagSpec Spec.QuerySpec Spec.SelectSpec Spec.RegistrySpec Spec.TagTreeSpec.
From Verif Require Import Proof.SortP Proof.RegistryP Proof.SafeP Proof.SeriesP Proof.SelectP Proof.TagTreeP Proof.CheckP Proof.GGlobTop Proof.TagTop Proof.TagsP Proof.SelectTop.
From Coq Require Import Lia ZifyBool ZifyN ZifyNat Permutation.

Lemma value_in (tags : list tag) k v : value_of tags k = Some v -> In (k, v) tags.
Proof.
  unfold value_of. induction tags as [|[a b] r IH]; cbn [lookup]; [discriminate|]. destruct (str_eqb_spec k a) as [->|N]; [intros [= ->]; now left|]. intro H. right. auto.
Qed.
Lemma in_value (tags : list tag) k v : NoDup (map fst tags) -> In (k, v) tags -> value_of tags k = Some v.
Proof.
  unfold value_of. induction tags as [|[a b] r IH]; intros D I; [easy|]. cbn [map fst] in D. inversion D; subst. cbn [lookup]. destruct I as [[= -> ->]|I].
  - destruct (str_eqb_spec k k); congruence.
  - destruct (str_eqb_spec k a) as [->|N]; auto. exfalso. apply H1. apply in_map_iff. exists (a, v). auto.
Qed.
Lemma distinct_value (tags : list tag) k : NoDup (map fst tags) -> value_of (tags_map tags) k = value_of tags k.
Proof.
  intro D. destruct (value_of tags k) as [v|] eqn:E.
  - apply tags_map_value. apply value_in in E. apply in_split in E as (a & b & ->). exists a, b. split; auto. intros v' I. rewrite map_app in D. cbn [map fst] in D. apply NoDup_remove_2 in D. apply D.
    apply in_or_app. right. apply in_map_iff. exists (k, v'). auto.
  - destruct (value_of (tags_map tags) k) as [v|] eqn:E'; auto. apply tags_map_value in E' as (a & b & -> & _). rewrite (in_value _ k v) in E; [discriminate|auto|]. apply in_or_app. right. now left.
Qed.
Lemma assign_in k v : forall (m : list tag) x, In x (assign str_eqb k v m) -> x = (k, v) \/ In x m.
Proof.
  induction m as [|[a b] r IH]; cbn [assign]; intros x I; [destruct I as [<-|[]]; auto|]. destruct (str_eqb k a) eqn:E.
  - destruct I as [<-|I]; [now left|right; now right].
  - destruct I as [<-|I]; [right; now left|]. apply IH in I as [->|I]; [now left|right; now right].
Qed.
Lemma tags_map_in (tags : list tag) : forall x, In x (tags_map tags) -> In x tags.
Proof.
  induction tags as [|[a b] l IH] using rev_ind; intros x I; [easy|]. rewrite tags_map_snoc in I. apply assign_in in I as [->|I]; apply in_or_app; [right; now left|left; auto].
Qed.
Lemma selects_ext rx q tags tags' : (forall k, value_of tags k = value_of tags' k) -> selects rx q tags <-> selects rx q tags'.
Proof.
  intro H. assert (forall s, satisfied rx s tags <-> satisfied rx s tags').
  { intro s. unfold satisfied. split; intros (k & op & v & T & V); exists k, op, v; (split; [exact T|]); [rewrite <- H|rewrite H]; exact V. }
  unfold selects. split; intros (l & Q & S); exists l; (split; [exact Q|]); intros s I; apply H0; auto.
Qed.
Lemma tags_map_cons x l : tags_map (x :: l) <> [].
Proof.
  assert (H : forall l : list tag, l <> [] -> tags_map l <> []).
  { intros l0. destruct l0 as [|[a b] l0 _] using rev_ind; [easy|]. intros _. rewrite tags_map_snoc. destruct (tags_map l0) as [|[a' b'] r]; cbn; [discriminate|]. destruct (str_eqb a a'); discriminate. }
  apply H. discriminate.
Qed.

(** C88: a query accepts the map decoded from a written path exactly when its text selects the tags that were written. *)
Lemma c88_query_l : forall (rx : regexps) (q : str) (ts : list tterm) (name : str) (tags : list tag), parse_series rx q = Ok ts -> good_query q ->
  clean_tags ((B "__name__", name) :: tags) \/ lone_query q -> NoDup (B "__name__" :: map fst tags) ->
  exists m b, path_tags_map (encode_path "?" "&" name tags) = (m, None) /\ graphite_path_tags_map (encode_path ";" ";" name tags) = (m, None) /\
    terms_match_map rx ts m = Ok b /\ (b = true <-> selects rx q ((B "__name__", name) :: tags)).
Proof.
  intros rx q ts name tags P G C D. set (all := (B "__name__", name) :: tags) in *. destruct (c57_round_trip_l name tags) as [R1 R2].
  destruct (c58_map_l (encode_path "?" "&" name tags) []) as [(t1 & e1 & e1' & A1 & A2 & _ & A3) _]. rewrite R1 in A1. injection A1 as <- <-. rewrite (proj1 A3 eq_refl) in A2.
  destruct (c58_map_l (encode_path ";" ";" name tags) []) as [_ [(t2 & e2 & B1 & B2 & _) _]]. rewrite R2 in B1. injection B1 as <- <-.
  assert (C' : clean_tags (tags_map all) \/ lone_query q) by (destruct C as [C|C]; [left; intros k x I; apply (C k x), tags_map_in, I|auto]).
  destruct (c82_map_l rx q ts (tags_map all) P G C') as (b & M & H). exists (tags_map all), b. split; [exact A2|]. split; [exact B2|]. split; [exact M|]. rewrite H. apply selects_ext. intro k. now apply distinct_value.
Qed.
(** C88: a tree of queries reports, for the map decoded from a written path, exactly the accepted queries with conditions whose text selects the tags that were written. *)
Lemma c88_map_l : forall (rx : regexps) (calls : list (str * Z)) (gt : gtags_tree) (rs : list add_res) (E : list entry) (name : str) (tags : list tag),
  (forall c, In c calls -> named_query (fst c)) -> run_adds (tg_add rx) tg_new calls = Ok (gt, rs) -> history (tg_canon rx) calls rs E ->
  (forall e, In e E -> good_query (e_text e) /\ clean_query (e_text e)) ->
  clean_tags ((B "__name__", name) :: tags) \/ (forall e, In e E -> lone_query (e_text e)) -> NoDup (B "__name__" :: map fst tags) ->
  exists m l, path_tags_map (encode_path "?" "&" name tags) = (m, None) /\ graphite_path_tags_map (encode_path ";" ";" name tags) = (m, None) /\
    tg_match_map rx gt m = Ok (l, length l) /\ NoDup (map snd l) /\
    forall q i, In (q, i) l <-> exists e, In e E /\ e_node e = q /\ e_index e = i /\ ~ query_text (e_text e) [] /\ selects rx (e_text e) ((B "__name__", name) :: tags).
Proof.
  intros rx calls gt rs E name tags N R H G C D. set (all := (B "__name__", name) :: tags) in *. destruct (c57_round_trip_l name tags) as [R1 R2].
  destruct (c58_map_l (encode_path "?" "&" name tags) []) as [(t1 & e1 & e1' & A1 & A2 & _ & A3) _]. rewrite R1 in A1. injection A1 as <- <-. rewrite (proj1 A3 eq_refl) in A2.
  destruct (c58_map_l (encode_path ";" ";" name tags) []) as [_ [(t2 & e2 & B1 & B2 & _) _]]. rewrite R2 in B1. injection B1 as <- <-.
  assert (C' : clean_tags (tags_map all) \/ (forall e, In e E -> lone_query (e_text e))) by (destruct C as [C|C]; [left; intros k x I; apply (C k x), tags_map_in, I|auto]).
  destruct (c82_tree_l rx calls gt rs E (tags_map all) N R H G C' (tags_map_cons _ _)) as (l & M & Dl & X). exists (tags_map all), l. split; [exact A2|]. split; [exact B2|]. split; [exact M|]. split; [exact Dl|].
  intros q i. rewrite X. assert (S : forall e, selects rx (e_text e) (tags_map all) <-> selects rx (e_text e) all) by (intro e; apply selects_ext; intro k; now apply distinct_value).
  split; intros (e & Ie & En & Ei & Nq & Se); exists e; (split; [auto|]); (split; [auto|]); (split; [auto|]); (split; [auto|]); now apply S.
Qed.
(** C88: on a path written with sorted tags, the decoded slice makes MatchByTags report exactly the accepted queries whose text selects the tags that were written. *)
Lemma c88_slice_l : forall (rx : regexps) (calls : list (str * Z)) (gt : gtags_tree) (rs : list add_res) (E : list entry) (name : str) (tags : list tag),
  (forall c, In c calls -> named_query (fst c)) -> run_adds (tg_add rx) tg_new calls = Ok (gt, rs) -> history (tg_canon rx) calls rs E ->
  (forall e, In e E -> good_query (e_text e) /\ clean_query (e_text e)) ->
  clean_tags ((B "__name__", name) :: tags) \/ (forall e, In e E -> lone_query (e_text e)) -> keys_sorted (B "__name__" :: map fst tags) ->
  exists s l n, path_tags (encode_path "?" "&" name tags) = (s, None) /\ graphite_path_tags (encode_path ";" ";" name tags) = (s, None) /\
    tg_match_tags rx gt s = Ok (l, n) /\ NoDup (map snd l) /\
    forall q i, In (q, i) l <-> exists e, In e E /\ e_node e = q /\ e_index e = i /\ selects rx (e_text e) ((B "__name__", name) :: tags).
Proof.
  intros rx calls gt rs E name tags N R H G C S. destruct (c57_round_trip_l name tags) as [R1 R2].
  destruct (c82_tree_tags_l rx calls gt rs E _ N R H G C ltac:(discriminate) S) as (l & n & M & D & X). eauto 8.
Qed.
(*EX
(** Regular expressions that are all valid and match themselves. *)
Definition rx_self : regexps := mkRx (fun _ => true) (fun re v => str_eqb re v).
Ltac letters := let c := fresh in let I := fresh in intros c I; vm_compute in I; (repeat destruct I as [<-|I]); try easy; vm_compute; reflexivity.
Ltac others := let c := fresh in let I := fresh in let J := fresh in intros c I J; vm_compute in I, J; (repeat destruct I as [<-|I]); try easy; intuition discriminate.
Example c88_example : let q := B "seriesByTag('name=x*', 'a != 1')" in let tags := [(B "a", B "2 &"); (B "b;", B "=")] in
  named_query q /\ good_query q /\ clean_query q /\ clean_tags ((B "__name__", B "x?") :: tags) /\ keys_sorted (B "__name__" :: map fst tags) /\ NoDup (B "__name__" :: map fst tags) /\
  encode_path "?" "&" (B "x?") tags = B "x%3F?a=2+%26&b%3B=%3D" /\ encode_path ";" ";" (B "x?") tags = B "x%3F;a=2+%26;b%3B=%3D" /\
  exists gt rs ts, run_adds (tg_add rx_self) tg_new [(q, 5%Z)] = Ok (gt, rs) /\ parse_series rx_self q = Ok ts /\
    terms_match_map rx_self ts (fst (path_tags_map (B "x%3F?a=2+%26&b%3B=%3D"))) = Ok true /\
    tg_match_map rx_self gt (fst (path_tags_map (B "x%3F?a=2+%26&b%3B=%3D"))) = Ok ([(B "seriesByTag('__name__=x*','a!=1')", 5%Z)], 1) /\
    tg_match_map rx_self gt (fst (path_tags_map (B "x%3F?a=1&b%3B=%3D"))) = Ok ([], 0) /\
    tg_match_tags rx_self gt (fst (graphite_path_tags (B "x%3F;a=2+%26;b%3B=%3D"))) = Ok ([(B "seriesByTag('__name__=x*','a!=1')", 5%Z)], 1).
Proof.
  cbv zeta.
  assert (H : forall l s k op v, query_text (B "seriesByTag('name=x*', 'a != 1')") l -> In s l -> condition_text s k op v -> (k = B "__name__" /\ op = OpEq /\ v = B "x*") \/ (k = B "a" /\ op = OpNe /\ v = B "1")).
  { apply (query_cases (fun k op v => (k = B "__name__" /\ op = OpEq /\ v = B "x*") \/ (k = B "a" /\ op = OpNe /\ v = B "1"))) with (n := 128) (l := [B "name=x*"; B "a != 1"]); [vm_compute; reflexivity|].
    constructor; [|constructor; [|constructor]].
    - exists (B "__name__"), OpEq, (B "x*"). split; [|now left]. apply (text_intro (B "name") OpEq (B "x*")); [discriminate|others|intros _ w; discriminate].
    - exists (B "a"), OpNe, (B "1"). split; [|now right]. apply (text_intro (B "a ") OpNe (B " 1")); [discriminate|others|intros _ w; discriminate]. }
  split; [|split; [|split; [|split; [|split; [|split; [|split; [|split]]]]]]].
  - intros l s k op v Q I T. destruct (H _ _ _ _ _ Q I T) as [(-> & _)|(-> & _)]; discriminate.
  - intros l s k op v Q I T _ W. destruct (H _ _ _ _ _ Q I T) as [(_ & _ & ->)|(_ & _ & ->)]; [apply good_glob_ok; vm_compute; reflexivity|]. exfalso. apply wild_iff in W. discriminate W.
  - intros l s k op v Q I T _. destruct (H _ _ _ _ _ Q I T) as [(_ & _ & ->)|(_ & _ & ->)]; apply clean_ascii; letters.
  - intros k x [[= <- <-]|[[= <- <-]|[[= <- <-]|[]]]]; apply clean_ascii; letters.
  - cbn. unfold key_lt. split; [|split; [|split; [|exact I]]]; intros k I; (repeat destruct I as [<-|I]); try easy; first [left; split; [reflexivity|discriminate]|right; split; [discriminate|vm_compute; reflexivity]].
  - cbn. repeat constructor; cbn; intuition discriminate.
  - vm_compute. reflexivity.
  - vm_compute. reflexivity.
  - do 3 eexists. split; [vm_compute; reflexivity|]. split; [vm_compute; reflexivity|]. repeat match goal with |- _ /\ _ => split end; vm_compute; reflexivity.
Qed.
XE*)
