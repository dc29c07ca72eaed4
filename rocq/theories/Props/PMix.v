(** C90: trees filled with texts and with parsed globs or queries. *)
From Verif Require Import Model.GGlob Model.GTags Spec.GlobSpec Spec.Neat Spec.GGlobSpec Spec.RegistrySpec Spec.GlobTreeSpec Spec.TagSpec Spec.TagTreeSpec Spec.MixSpec.
From Verif Require Import Proof.SortP Proof.SafeP Proof.TotalP Proof.GGlobP Proof.RegistryP Proof.GTreeP Proof.TermsP Proof.TagTreeP Proof.RereadTop Proof.MixP Proof.TagMixP.
From Verif Require Import Props.PReread.
From Verif Require Import Proof.MixTop.


(** C90, GlobTree: after any mixture of Add and AddGlob, if no two of the accepted globs have a name (text or normalised text) in common,
    Match answers every string as the tree does that got the accepted ones with Add alone, which accepts all of them. *)
Theorem c90_glob : forall calls : list call, (forall c, In c calls -> c_text c <> []) ->
  exists gt rs, run_calls gt_add glob_parse (fun t g i => Ok (gt_add_glob t g i)) gt_new calls = Ok (gt, rs) /\
    let E := left_by gl_canon calls rs in
    no_common_name E -> exists gt' rs', run_adds gt_add gt_new (as_adds E) = Ok (gt', rs') /\ history gl_canon (as_adds E) rs' E /\
      forall fuel s, gt_match fuel gt s = gt_match fuel gt' s.
Proof. exact c90_glob_l. Qed.
Print Assumptions c90_glob.

Example c90_glob_example : let calls := [Parsed (B "{b,a}*") 1; Text (B "{a,b}?") 2; Text (B "{b,a}*") 3; Parsed (B "x") 2; Parsed (B "a*") 4] in
  exists gt rs, run_calls gt_add glob_parse (fun t g i => Ok (gt_add_glob t g i)) gt_new calls = Ok (gt, rs) /\
    left_by gl_canon calls rs = [mkEntry (B "{b,a}*") (B "{a,b}*") 1; mkEntry (B "{a,b}?") (B "{a,b}?") 2; mkEntry (B "a*") (B "a*") 4] /\
    no_common_name (left_by gl_canon calls rs) /\ gt_match 50 gt (B "ax") = Ok ([(B "{a,b}*", 1%Z); (B "{a,b}?", 2%Z); (B "a*", 4%Z)], 3).
Proof.
  cbv zeta. do 2 eexists. split; [vm_compute; reflexivity|]. split; [vm_compute; reflexivity|]. split; [|vm_compute; reflexivity].
  unfold no_common_name. cbn -[B]. repeat constructor; cbn; discriminate.
Qed.

(** C90 fails when names are common: AddGlob of the GlobTree does not record the normalised text, so that a later Add of that text is accepted too
    and takes the place of the glob. *)
Theorem c90_glob_refuted : exists gt rs, let calls := [Parsed (B "{b,a}") 1; Text (B "{a,b}") 2] in
  run_calls gt_add glob_parse (fun t g i => Ok (gt_add_glob t g i)) gt_new calls = Ok (gt, rs) /\
  left_by gl_canon calls rs = [mkEntry (B "{b,a}") (B "{a,b}") 1; mkEntry (B "{a,b}") (B "{a,b}") 2] /\
  gt_match 50 gt (B "a") = Ok ([(B "{a,b}", 2%Z)], 1).
Proof. exact c90_glob_refuted_l. Qed.
Print Assumptions c90_glob_refuted.

(** C90, GGlobTree: if normalising twice changes nothing, no two accepted globs have a name in common, the tree with Add alone accepts all of them,
    and both trees answer all paths and all lists of parts alike. *)
Theorem c90_gglob : forall calls : list call, (forall c, In c calls -> c_text c <> [] /\ settled gg_canon (c_text c)) ->
  exists gt rs, run_calls ggt_add gg_parse (fun t g i => Ok (ggt_add_glob t g i)) ggt_new calls = Ok (gt, rs) /\
    let E := left_by gg_canon calls rs in
    no_common_name E /\ exists gt' rs', run_adds ggt_add ggt_new (as_adds E) = Ok (gt', rs') /\ history gg_canon (as_adds E) rs' E /\
      (forall path, ggt_match gt path = ggt_match gt' path) /\ forall parts, ggt_match_by_parts gt parts = ggt_match_by_parts gt' parts.
Proof. exact c90_gglob_l. Qed.
Print Assumptions c90_gglob.

Example c90_gglob_example : let calls := [Parsed (B "x.{b,a}") 1; Text (B "x.{a,b}") 2; Parsed (B "x.{a,b}") 3; Text (B "x.a*.") 2; Parsed (B "x.*") 7] in
  (forall c, In c calls -> c_text c <> [] /\ settled gg_canon (c_text c)) /\
  exists gt rs, run_calls ggt_add gg_parse (fun t g i => Ok (ggt_add_glob t g i)) ggt_new calls = Ok (gt, rs) /\
    left_by gg_canon calls rs = [mkEntry (B "x.{b,a}") (B "x.{a,b}") 1; mkEntry (B "x.a*.") (B "x.a*") 2; mkEntry (B "x.*") (B "x.*") 7] /\
    ggt_match gt (B "x.a") = Ok ([(B "x.{a,b}", 1%Z); (B "x.a*", 2%Z); (B "x.*", 7%Z)], 3).
Proof.
  cbv zeta. split.
  - intros c I. cbn [In] in I. repeat destruct I as [<-|I]; try easy; (split; [discriminate|]); intros q H; vm_compute in H; injection H as <-; vm_compute; reflexivity.
  - do 2 eexists. split; [vm_compute; reflexivity|]. split; vm_compute; reflexivity.
Qed.

(** C90: normalising the texts of C78 twice changes nothing. *)
Theorem c90_settled : forall (text : str) (g : gglob), (forall parts, accepted_parts text parts -> Forall neat parts) ->
  gg_parse text = Ok g -> ~ In [] (map g_node (gg_parts g)) -> settled gg_canon text.
Proof. exact c90_settled_l. Qed.
Print Assumptions c90_settled.

From Verif Require Import Props.PReread.
Example c90_settled_example : settled gg_canon (B "a.x{b?,a}[a-cb]**?y.b.") /\ gg_canon (B "a.x{b?,a}[a-cb]**?y.b.") = Ok (B "a.x{a,b?}[a-c]*?y.b").
Proof.
  pose proof c78_gglob_example as X. cbv zeta in X. destruct X as (N & g & P & _ & E). split; [exact (c90_settled _ g N P E)|vm_compute; reflexivity].
Qed.

(** C90, queries: after any mixture of Add and AddTerms, MatchByTagsMap and, on sorted tags, MatchByTags report the matching queries
    accepted by Add, each once, and none of AddTerms. *)
Theorem c90_queries : forall (rx : regexps) (calls : list call), (forall c, In c calls -> named_keys rx (c_text c)) ->
  exists gt rs, run_calls (tg_add rx) (parse_series rx) tg_add_terms tg_new calls = Ok (gt, rs) /\
    forall tags, tags_coherent rx (left_by (tg_canon rx) calls rs) tags -> tags <> [] ->
    exists l n, tg_match_map rx gt tags = Ok (l, n) /\ n = length l /\ NoDup (map snd l) /\
      (forall q i, In (q, i) l <-> exists e ts, In e (left_by_text (tg_canon rx) calls rs) /\ e_node e = q /\ e_index e = i /\
         parse_series rx (e_text e) = Ok ts /\ ts <> [] /\ terms_match_map rx ts tags = Ok true) /\
      (keys_sorted (map fst tags) ->
         ((forall e, In e (left_by_text (tg_canon rx) calls rs) -> parse_series rx (e_text e) <> Ok []) -> tg_match_tags rx gt tags = Ok (l, n)) /\
         (forall e, In e (left_by_text (tg_canon rx) calls rs) -> parse_series rx (e_text e) = Ok [] -> tg_match_tags rx gt tags = Ok ((e_node e, e_index e) :: l, n))).
Proof. exact c90_queries_l. Qed.
Print Assumptions c90_queries.

Example c90_queries_example : let rx := mkRx (fun _ => true) (fun re v => str_eqb re v) in
  let calls := [Parsed (B "seriesByTag('a=1')") 1; Text (B "seriesByTag('b=2','a=1')") 2; Parsed (B "seriesByTag('b=2')") 3; Text (B "seriesByTag('b!=1')") 1; Text (B "seriesByTag('b!=1')") 4] in
  let tags := [(B "a", B "1"); (B "b", B "2")] in
  (forall c, In c calls -> named_keys rx (c_text c)) /\
  exists gt rs, run_calls (tg_add rx) (parse_series rx) tg_add_terms tg_new calls = Ok (gt, rs) /\ keys_sorted (map fst tags) /\
    left_by_text (tg_canon rx) calls rs = [mkEntry (B "seriesByTag('b=2','a=1')") (B "seriesByTag('a=1','b=2')") 2; mkEntry (B "seriesByTag('b!=1')") (B "seriesByTag('b!=1')") 4] /\
    length (left_by (tg_canon rx) calls rs) = 4 /\ tags_coherent rx (left_by (tg_canon rx) calls rs) tags /\
    tg_match_map rx gt tags = Ok ([(B "seriesByTag('a=1','b=2')", 2%Z); (B "seriesByTag('b!=1')", 4%Z)], 2).
Proof.
  cbv zeta. split.
  - intros c I ts t P It. cbn [In] in I. repeat destruct I as [<-|I]; try easy; vm_compute in P; apply ok_inj in P; subst ts; cbn [In] in It; repeat destruct It as [<-|It]; easy.
  - do 2 eexists. split; [vm_compute; reflexivity|]. split; [split; [intros k [<-|[]]; right; split; [discriminate|reflexivity]|split; [easy|exact I]]|]. split; [vm_compute; reflexivity|]. split; [reflexivity|]. split; [|vm_compute; reflexivity].
    match goal with |- tags_coherent ?r ?E _ => assert (X : forall t, accepted_term r E t -> In t [mkTerm (B "a") OpEq (B "1") None; mkTerm (B "b") OpEq (B "2") None; mkTerm (B "b") OpNe (B "1") None]) end.
    { intros t (e & ts & Ie & P & It). vm_compute in Ie. repeat destruct Ie as [<-|Ie]; try easy; vm_compute in P; apply ok_inj in P; subst ts; cbn [In] in It; cbn [In]; repeat destruct It as [<-|It]; auto; easy. }
    split.
    + intros t v A V. apply X in A. cbn [In] in A. repeat destruct A as [<-|A]; try easy; vm_compute in V; injection V as <-; eexists; vm_compute; reflexivity.
    + intros t u v A A' Q V. apply X in A, A'. cbn [In] in A, A'. repeat destruct A as [<-|A]; try easy; repeat destruct A' as [<-|A']; try easy; vm_compute in Q; discriminate Q.
Qed.
