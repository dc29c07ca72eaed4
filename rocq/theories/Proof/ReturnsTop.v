(** The statements of Props/PReturns.v. *)
From Verif Require Import Model.GGlob Model.GTags Spec.Symbols Spec.GlobSpec Spec.ApartSpec Spec.GGlobSpec Spec.PathSpec Spec.TagSpec Spec.QuerySpec Spec.SelectSpec Spec.RegistrySpec Spec.TagTreeSpec Spec.CalmSpec.
From Verif Require Import Proof.SortP Proof.SafeP Proof.PathP Proof.GGlobP Proof.RegistryP Proof.GTreeP Proof.TagTreeP Proof.SeriesP Proof.SelectP Proof.CheckP Proof.ApartP Proof.GGlobTop Proof.TagTop Proof.SelectTop Proof.ReturnsP.
From Coq Require Import Lia ZifyBool ZifyN ZifyNat Permutation.

(** C86: Match and MatchByParts of a parsed dotted glob with calm parts return, on every path, every list of parts and every length. *)
Lemma c86_gglob_l : forall (text : str) (g : gglob), gg_parse text = Ok g -> calm_parts text ->
  (forall path : str, exists b, gg_match g path = Ok b) /\ (forall (ps : list str) (len : Z), exists b, gg_match_by_parts g ps len = Ok b).
Proof. intros text g P C. exact (gives_gglob g (parts_sure text g P C)). Qed.
(*EX
Example c86_gglob_example : calm_parts (B "*{b*,c}d?") /\ exists g, gg_parse (B "*{b*,c}d?") = Ok g /\ gg_match g (B "xbbdd.") = Ok true /\ gg_match g [byte_of 255; byte_of 46] = Ok false /\
  gg_match_by_parts g [B "cdx"; B "b"] 3 = Ok false /\ gg_match_by_parts g [B "cdx"] 3 = Ok true.
Proof.
  split; [|eexists; split; [vm_compute; reflexivity|repeat split; vm_compute; reflexivity]]. intros gs p A Ip. assert (gs = [B "*{b*,c}d?"]) as ->.
  { eapply accepted_fun; [|exact A]. right. split; [intros [X|[]]; discriminate|]. left. split; [discriminate|]. split; [discriminate|]. split.
    - intros x [<-|[]]. vm_compute. intuition discriminate.
    - right. split; [reflexivity|]. intros q E. cbn in E. apply (f_equal (fun l => last l "a"%char)) in E. rewrite last_last in E. discriminate. }
  destruct Ip as [<-|[]]. now apply calm_glob_ok.
Qed.
XE*)
(** C86: so do Match and MatchByParts of trees of dotted globs, after any calls of Add. *)
Lemma c86_gtree_l : forall (calls : list (str * Z)) (gt : gglob_tree) rs (E : list entry),
  run_adds ggt_add ggt_new calls = Ok (gt, rs) -> history gg_canon calls rs E -> (forall e, In e E -> calm_parts (e_text e)) ->
  (forall path : str, exists o, ggt_match gt path = Ok o) /\ (forall ps : list str, exists o, ggt_match_by_parts gt ps = Ok o).
Proof.
  intros calls gt rs E R H C. destruct (history_tree _ _ _ _ R H) as (_ & _ & TR).
  assert (S : forall g, part_of E g /\ g_items g <> [] -> sure g) by (intros g [P _]; now apply (part_sure E)). split.
  - intros [|c p]; [eexists; reflexivity|]. rewrite match_at by discriminate. apply (gives_items _ S _ _ _ (le_n _)). apply TR.
  - intros [|p ps]; [eexists; reflexivity|]. rewrite by_parts_at by discriminate. apply (gives_tree_parts _ S); [discriminate|]. apply TR.
Qed.
(*EX
Example c86_gtree_example : let calls := [(B "x*y{?a,b*,}c?*.{a,?}", 3%Z); (B "*.{b*,c}d?", 4%Z); (B "a.[", 5%Z)] in
  (forall c, In c calls -> calm_parts (fst c)) /\ exists gt rs, run_adds ggt_add ggt_new calls = Ok (gt, rs) /\
  ggt_match gt (B "x1y" ++ [byte_of 255] ++ B "cc.z") = Ok ([], 0) /\ ggt_match gt (B "x1ybbcc.z") = Ok ([(B "x*y{,?a,b*}c*?.{?,a}", 3%Z)], 1) /\ ggt_match_by_parts gt [B "x"; B "bbdd"] = Ok ([(B "*.{b*,c}d?", 4%Z)], 1).
Proof.
  cbv zeta. split; [|do 2 eexists; split; [vm_compute; reflexivity|repeat split; vm_compute; reflexivity]].
  assert (K : forall a b, calm_glob_b a && calm_glob_b b = true -> a <> [] -> b <> [] -> ~ In "."%char a -> ~ In "."%char b -> calm_parts (a ++ "."%char :: b)).
  { intros a b Hc Na Nb Da Db gs p A Ip. apply andb_prop in Hc as [H1 H2]. assert (gs = [a; b]) as ->.
    { eapply accepted_fun; [|exact A]. right. split; [intros [X|[X|[]]]; auto|]. left. split; [now destruct a|]. split; [discriminate|]. split.
      - intros x [<-|[<-|[]]]; auto.
      - right. split; [reflexivity|]. intros q E. destruct (exists_last Nb) as (b' & c & ->). apply (f_equal (fun l => last l "a"%char)) in E.
        rewrite app_comm_cons, app_assoc, !last_last in E. subst c. apply Db. apply in_or_app. right. now left. }
    destruct Ip as [<-|[<-|[]]]; now apply calm_glob_ok. }
  intros c [<-|[<-|[<-|[]]]]; cbn [fst].
  - apply (K (B "x*y{?a,b*,}c?*") (B "{a,?}")); try (vm_compute; reflexivity); try discriminate; vm_compute; intuition discriminate.
  - apply (K (B "*") (B "{b*,c}d?")); try (vm_compute; reflexivity); try discriminate; vm_compute; intuition discriminate.
  - apply (K (B "a") (B "[")); try (vm_compute; reflexivity); try discriminate; vm_compute; intuition discriminate.
Qed.
XE*)
(** C86: MatchByTagsMap and MatchByTags of a parsed query with calm globs return, on any tags. *)
Lemma c86_query_l : forall (rx : regexps) (q : str) (ts : list tterm), parse_series rx q = Ok ts -> calm_query q ->
  forall tags : list tag, (exists b, terms_match_map rx ts tags = Ok b) /\ (exists b, terms_match_tags rx ts tags = Ok b).
Proof. intros rx q ts P C. apply terms_gives. now apply (query_terms rx q). Qed.
(** C86: so do those of trees of queries (no blank keys), after any calls of Add; for MatchByTags the tags have to be sorted. *)
Lemma c86_query_tree_l : forall (rx : regexps) (calls : list (str * Z)) (gt : gtags_tree) (rs : list add_res) (E : list entry) (tags : list tag),
  (forall c, In c calls -> named_query (fst c)) -> run_adds (tg_add rx) tg_new calls = Ok (gt, rs) -> history (tg_canon rx) calls rs E ->
  (forall e, In e E -> calm_query (e_text e)) ->
  (exists o, tg_match_map rx gt tags = Ok o) /\ (keys_sorted (map fst tags) -> exists o, tg_match_tags rx gt tags = Ok o).
Proof.
  intros rx calls gt rs E tags N R H C. assert (N' : forall c, In c calls -> named_keys rx (fst c)) by (intros c I; apply named_named; auto).
  pose proof (hist_ok rx calls gt rs E N' R H) as (_ & _ & W & _).
  assert (Ev : forall t v, accepted_term rx E t -> value_of tags (tt_key t) = Some v -> exists b, tt_match rx t v = Ok b) by (intros t v A _; now apply (accepted_gives rx E)).
  split.
  - unfold tg_match_map. destruct tags as [|x tags]; [destruct (tg_root gt); eexists; reflexivity|].
    rewrite (match_map_flat rx (x :: tags) (accepted_term rx E) ltac:(discriminate) Ev _ W). eexists. reflexivity.
  - intro S. unfold tg_match_tags. apply gives_oseq; [eexists; reflexivity|]. destruct tags as [|x tags]; [destruct (tg_root gt); eexists; reflexivity|].
    rewrite (match_tags_flat rx (x :: tags) (accepted_term rx E) ltac:(discriminate) S Ev _ W). eexists. reflexivity.
Qed.
(*EX
(** An engine that takes an expression as the text it matches. *)
Definition rx_self : regexps := mkRx (fun _ => true) (fun re v => str_eqb re v).
Ltac others := let c := fresh in let I := fresh in let J := fresh in intros c I J; vm_compute in I, J; (repeat destruct I as [<-|I]); try easy; intuition discriminate.
Example c86_query_example : let q := B "seriesByTag('name={a*,b}c*', 'a!=*{x?,1}')" in calm_query q /\ named_query q /\
  (exists ts, parse_series rx_self q = Ok ts /\ terms_match_map rx_self ts [(B "__name__", B "axc"); (B "a", B "1y")] = Ok true /\ terms_match_tags rx_self ts [(B "__name__", B "axc"); (B "a", B "yxz")] = Ok false) /\
  exists gt rs, run_adds (tg_add rx_self) tg_new [(q, 5%Z)] = Ok (gt, rs) /\ tg_match_map rx_self gt [(B "__name__", B "axc")] = Ok ([(B "seriesByTag('__name__={a*,b}c*','a!=*{1,x?}')", 5%Z)], 1).
Proof.
  cbv zeta.
  assert (H : forall l s k op v, query_text (B "seriesByTag('name={a*,b}c*', 'a!=*{x?,1}')") l -> In s l -> condition_text s k op v -> k <> [] /\ calm_glob v).
  { apply (query_cases (fun k op v => k <> [] /\ calm_glob v)) with (n := 128) (l := [B "name={a*,b}c*"; B "a!=*{x?,1}"]); [vm_compute; reflexivity|].
    constructor; [|constructor; [|constructor]].
    - exists (B "__name__"), OpEq, (B "{a*,b}c*"). split; [apply (text_intro (B "name") OpEq (B "{a*,b}c*")); [discriminate|others|intros _ w; discriminate]|split; [discriminate|now apply calm_glob_ok]].
    - exists (B "a"), OpNe, (B "*{x?,1}"). split; [apply (text_intro (B "a") OpNe (B "*{x?,1}")); [discriminate|others|intros _ w; discriminate]|split; [discriminate|now apply calm_glob_ok]]. }
  split; [|split; [|split]].
  - intros l s k op v Q I T _ _. exact (proj2 (H _ _ _ _ _ Q I T)).
  - intros l s k op v Q I T. exact (proj1 (H _ _ _ _ _ Q I T)).
  - eexists. split; [vm_compute; reflexivity|]. split; vm_compute; reflexivity.
  - do 2 eexists. split; [vm_compute; reflexivity|]. vm_compute. reflexivity.
Qed.
XE*)
(** C86 is false in general: a list with a '?' value after a star makes all of them panic. *)
Lemma c86_panic_refuted_l : forall rx : regexps,
  (exists g, gg_parse (B "a.*{?,b}") = Ok g /\ gg_match g (B "a.x") = Panic /\ gg_match_by_parts g [B "a"; B "x"] 3 = Panic) /\
  (exists gt rs, run_adds ggt_add ggt_new [(B "a.*{?,b}", 1%Z)] = Ok (gt, rs) /\ ggt_match gt (B "a.x") = Panic /\ ggt_match_by_parts gt [B "a"; B "x"] = Panic) /\
  (exists ts, parse_series rx (B "seriesByTag('a=*{?,b}')") = Ok ts /\ terms_match_map rx ts [(B "a", B "x")] = Panic /\ terms_match_tags rx ts [(B "a", B "x")] = Panic) /\
  (exists gt rs, run_adds (tg_add rx) tg_new [(B "seriesByTag('a=*{?,b}')", 1%Z)] = Ok (gt, rs) /\ tg_match_map rx gt [(B "a", B "x")] = Panic /\ tg_match_tags rx gt [(B "a", B "x")] = Panic).
Proof.
  intro rx. split; [|split; [|split]].
  - eexists. split; [vm_compute; reflexivity|]. split; vm_compute; reflexivity.
  - do 2 eexists. split; [vm_compute; reflexivity|]. split; vm_compute; reflexivity.
  - eexists. split; [vm_compute; reflexivity|]. split; vm_compute; reflexivity.
  - do 2 eexists. split; [vm_compute; reflexivity|]. split; vm_compute; reflexivity.
Qed.
