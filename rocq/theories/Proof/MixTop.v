(** The statements of Props/PMix.v. *)
From Coq Require Import Lia ZifyBool ZifyN ZifyNat List Permutation.
From Verif Require Import Model.GGlob Model.GTags Spec.GlobSpec Spec.Neat Spec.GGlobSpec Spec.RegistrySpec Spec.GlobTreeSpec Spec.TagSpec Spec.TagTreeSpec Spec.MixSpec.
From Verif Require Import Proof.SortP Proof.SafeP Proof.TotalP Proof.GGlobP Proof.RegistryP Proof.GTreeP Proof.TermsP Proof.TagTreeP Proof.RereadTop Proof.MixP Proof.TagMixP.
Import ListNotations.

Lemma runs {T G} (add : T -> str -> Z -> res (T * add_res)) (parse : str -> res G) (ag : T -> G -> Z -> T * add_res) : (forall t s i, exists x, add t s i = Ok x) -> (forall s, fine (parse s)) ->
  forall calls t, exists t' rs, run_calls add parse (fun t g i => Ok (ag t g i)) t calls = Ok (t', rs).
Proof.
  intros A P. induction calls as [|c calls IH]; intro t; cbn [run_calls]; [eauto|]. destruct c as [s i|s i].
  - destruct (A t s i) as ([t1 r] & ->). destruct (IH t1) as (t2 & rs & ->). eauto.
  - specialize (P s). destruct (parse s) as [g|e| |]; try easy.
    + destruct (ag t g i) as [t1 r]. destruct (IH t1) as (t2 & rs & ->). eauto.
    + destruct (IH t) as (t2 & rs & ->). eauto.
Qed.
Lemma gt_add_ok gt s i : exists x, gt_add gt s i = Ok x.
Proof.
  unfold gt_add. destruct (null s); [eauto|]. destruct (i <? 0)%Z; [eauto|]. destruct (lookup str_eqb s _); [eauto|]. destruct (lookup Z.eqb i _); [eauto|].
  assert (F := glob_parse_fine s). destruct (glob_parse s); try easy; [|eauto]. destruct (lookup str_eqb _ _); eauto.
Qed.
Lemma ggt_add_ok gt s i : exists x, ggt_add gt s i = Ok x.
Proof.
  unfold ggt_add. destruct (null s); [eauto|]. destruct (i <? 0)%Z; [eauto|]. destruct (lookup str_eqb s _); [eauto|]. destruct (lookup Z.eqb i _); [eauto|].
  assert (F := gg_parse_fine s). destruct (gg_parse s); try easy; [|eauto]. destruct (lookup str_eqb _ _); eauto.
Qed.

(** C90, GlobTree: after any mixture of Add and AddGlob, if no two of the accepted globs have a name (text or normalised text) in common,
    Match answers every string as the tree does that got the accepted ones with Add alone, which accepts all of them. *)
Lemma c90_glob_l : forall calls : list call, (forall c, In c calls -> c_text c <> []) ->
  exists gt rs, run_calls gt_add glob_parse (fun t g i => Ok (gt_add_glob t g i)) gt_new calls = Ok (gt, rs) /\
    let E := left_by gl_canon calls rs in
    no_common_name E -> exists gt' rs', run_adds gt_add gt_new (as_adds E) = Ok (gt', rs') /\ history gl_canon (as_adds E) rs' E /\
      forall fuel s, gt_match fuel gt s = gt_match fuel gt' s.
Proof.
  intros calls N. destruct (runs gt_add glob_parse gt_add_glob gt_add_ok glob_parse_fine calls gt_new) as (gt & rs & R). exists gt, rs. split; [exact R|]. cbv zeta. intro NC.
  destruct (gt_mixed calls [] gt_new gt rs N) as (gt0 & (rs0 & R0 & H0) & Rt & _); [|exact R|exact NC|].
  { exists gt_new. split; [exists []; split; [reflexivity|constructor]|]. split; [reflexivity|easy]. }
  exists gt0, rs0. split; [exact R0|]. split; [exact H0|]. intros f s. unfold gt_match. now rewrite Rt.
Qed.
(*EX
Example c90_glob_example : let calls := [Parsed (B "{b,a}*") 1; Text (B "{a,b}?") 2; Text (B "{b,a}*") 3; Parsed (B "x") 2; Parsed (B "a*") 4] in
  exists gt rs, run_calls gt_add glob_parse (fun t g i => Ok (gt_add_glob t g i)) gt_new calls = Ok (gt, rs) /\
    left_by gl_canon calls rs = [mkEntry (B "{b,a}*") (B "{a,b}*") 1; mkEntry (B "{a,b}?") (B "{a,b}?") 2; mkEntry (B "a*") (B "a*") 4] /\
    no_common_name (left_by gl_canon calls rs) /\ gt_match 50 gt (B "ax") = Ok ([(B "{a,b}*", 1%Z); (B "{a,b}?", 2%Z); (B "a*", 4%Z)], 3).
Proof.
  cbv zeta. do 2 eexists. split; [vm_compute; reflexivity|]. split; [vm_compute; reflexivity|]. split; [|vm_compute; reflexivity].
  unfold no_common_name. cbn -[B]. repeat constructor; cbn; discriminate.
Qed.
XE*)
(** C90 fails when names are common: AddGlob of the GlobTree does not record the normalised text, so that a later Add of that text is accepted too
    and takes the place of the glob. *)
Lemma c90_glob_refuted_l : exists gt rs, let calls := [Parsed (B "{b,a}") 1; Text (B "{a,b}") 2] in
  run_calls gt_add glob_parse (fun t g i => Ok (gt_add_glob t g i)) gt_new calls = Ok (gt, rs) /\
  left_by gl_canon calls rs = [mkEntry (B "{b,a}") (B "{a,b}") 1; mkEntry (B "{a,b}") (B "{a,b}") 2] /\
  gt_match 50 gt (B "a") = Ok ([(B "{a,b}", 2%Z)], 1).
Proof. do 2 eexists. cbv zeta. split; [vm_compute; reflexivity|]. split; vm_compute; reflexivity. Qed.

(** C90, GGlobTree: if normalising twice changes nothing, no two accepted globs have a name in common, the tree with Add alone accepts all of them,
    and both trees answer all paths and all lists of parts alike. *)
Lemma c90_gglob_l : forall calls : list call, (forall c, In c calls -> c_text c <> [] /\ settled gg_canon (c_text c)) ->
  exists gt rs, run_calls ggt_add gg_parse (fun t g i => Ok (ggt_add_glob t g i)) ggt_new calls = Ok (gt, rs) /\
    let E := left_by gg_canon calls rs in
    no_common_name E /\ exists gt' rs', run_adds ggt_add ggt_new (as_adds E) = Ok (gt', rs') /\ history gg_canon (as_adds E) rs' E /\
      (forall path, ggt_match gt path = ggt_match gt' path) /\ forall parts, ggt_match_by_parts gt parts = ggt_match_by_parts gt' parts.
Proof.
  intros calls N. destruct (runs ggt_add gg_parse ggt_add_glob ggt_add_ok gg_parse_fine calls ggt_new) as (gt & rs & R). exists gt, rs. split; [exact R|]. cbv zeta.
  destruct (ggt_mixed calls [] ggt_new gt rs N) as ((gt0 & (rs0 & R0 & H0) & Rt) & NC & _); [|exact R|].
  { split; [exists ggt_new; split; [exists []; split; [reflexivity|constructor]|reflexivity]|]. split; [constructor|easy]. }
  split; [exact NC|]. exists gt0, rs0. split; [exact R0|]. split; [exact H0|]. unfold ggt_match, ggt_match_by_parts. rewrite Rt. split; reflexivity.
Qed.
(*EX
Example c90_gglob_example : let calls := [Parsed (B "x.{b,a}") 1; Text (B "x.{a,b}") 2; Parsed (B "x.{a,b}") 3; Text (B "x.a*.") 2; Parsed (B "x.*") 7] in
  (forall c, In c calls -> c_text c <> [] /\ settled gg_canon (c_text c)) /\
  exists gt rs, run_calls ggt_add gg_parse (fun t g i => Ok (ggt_add_glob t g i)) ggt_new calls = Ok (gt, rs) /\
    left_by gg_canon calls rs = [mkEntry (B "x.{b,a}") (B "x.{a,b}") 1; mkEntry (B "x.a*.") (B "x.a*") 2; mkEntry (B "x.*") (B "x.*") 7] /\
    ggt_match gt (B "x.a") = Ok ([(B "x.{a,b}", 1%Z); (B "x.a*", 2%Z); (B "x.*", 7%Z)], 3).
Proof.
  cbv zeta. split.
  - intros c I. cbn [In] in I. repeat destruct I as [<-|I]; try easy; (split; [discriminate|]); intros q H; vm_compute in H; injection H as <-; vm_compute; reflexivity.
  - do 2 eexists. split; [vm_compute; reflexivity|]. split; vm_compute; reflexivity.
Qed.
XE*)
(** C90: normalising the texts of C78 twice changes nothing. *)
Lemma c90_settled_l : forall (text : str) (g : gglob), (forall parts, accepted_parts text parts -> Forall neat parts) ->
  gg_parse text = Ok g -> ~ In [] (map g_node (gg_parts g)) -> settled gg_canon text.
Proof.
  intros text g N P E q H. rewrite (gg_canon_ok _ _ P) in H. injection H as <-. destruct (c78_gglob_l text g N P E) as (g2 & P2 & N2 & _). rewrite (gg_canon_ok _ _ P2). now rewrite N2.
Qed.
(*EX
From Verif Require Import Props.PReread.
Example c90_settled_example : settled gg_canon (B "a.x{b?,a}[a-cb]**?y.b.") /\ gg_canon (B "a.x{b?,a}[a-cb]**?y.b.") = Ok (B "a.x{a,b?}[a-c]*?y.b").
Proof.
  pose proof c78_gglob_example as X. cbv zeta in X. destruct X as (N & g & P & _ & E). split; [exact (c90_settled _ g N P E)|vm_compute; reflexivity].
Qed.
XE*)

(** C90, queries: after any mixture of Add and AddTerms, MatchByTagsMap and, on sorted tags, MatchByTags report the matching queries
    accepted by Add, each once, and none of AddTerms. *)
Lemma c90_queries_l : forall (rx : regexps) (calls : list call), (forall c, In c calls -> named_keys rx (c_text c)) ->
  exists gt rs, run_calls (tg_add rx) (parse_series rx) tg_add_terms tg_new calls = Ok (gt, rs) /\
    forall tags, tags_coherent rx (left_by (tg_canon rx) calls rs) tags -> tags <> [] ->
    exists l n, tg_match_map rx gt tags = Ok (l, n) /\ n = length l /\ NoDup (map snd l) /\
      (forall q i, In (q, i) l <-> exists e ts, In e (left_by_text (tg_canon rx) calls rs) /\ e_node e = q /\ e_index e = i /\
         parse_series rx (e_text e) = Ok ts /\ ts <> [] /\ terms_match_map rx ts tags = Ok true) /\
      (keys_sorted (map fst tags) ->
         ((forall e, In e (left_by_text (tg_canon rx) calls rs) -> parse_series rx (e_text e) <> Ok []) -> tg_match_tags rx gt tags = Ok (l, n)) /\
         (forall e, In e (left_by_text (tg_canon rx) calls rs) -> parse_series rx (e_text e) = Ok [] -> tg_match_tags rx gt tags = Ok ((e_node e, e_index e) :: l, n))).
Proof.
  intros rx calls N. destruct (tagmix_run rx calls [] [] tg_new N (tagmix_new rx)) as (gt & rs & R & T). exists gt, rs. split; [exact R|]. cbn [app] in T. intros tags C Nt.
  destruct (mixed_reported rx _ _ gt tags T C) as [D I]. destruct T as (_ & _ & _ & W & _ & TE & _). destruct C as [C _].
  exists (hits rx tags (flat (tg_root gt))), (length (hits rx tags (flat (tg_root gt)))). split; [apply (match_map_flat rx tags (accepted_term rx (left_by (tg_canon rx) calls rs))); auto|].
  split; [reflexivity|]. split; [exact D|]. split; [exact I|]. intro S. unfold tg_match_tags. rewrite (match_tags_flat rx tags (accepted_term rx (left_by (tg_canon rx) calls rs))); auto. split.
  - intro A. destruct (tg_end gt) as [x|] eqn:Ex; [|reflexivity]. destruct (proj1 (TE x) eq_refl) as (e & Ie & P & _). now apply A in P.
  - intros e Ie P. rewrite (proj2 (TE (e_node e, e_index e))) by eauto. reflexivity.
Qed.
(*EX
Example c90_queries_example : let rx := mkRx (fun _ => true) (fun re v => str_eqb re v) in
  let calls := [Parsed (B "seriesByTag('a=1')") 1; Text (B "seriesByTag('b=2','a=1')") 2; Parsed (B "seriesByTag('b=2')") 3; Text (B "seriesByTag('b!=1')") 1; Text (B "seriesByTag('b!=1')") 4] in
  let tags := [(B "a", B "1"); (B "b", B "2")] in
  (forall c, In c calls -> named_keys rx (c_text c)) /\
  exists gt rs, run_calls (tg_add rx) (parse_series rx) tg_add_terms tg_new calls = Ok (gt, rs) /\ keys_sorted (map fst tags) /\
    left_by_text (tg_canon rx) calls rs = [mkEntry (B "seriesByTag('b=2','a=1')") (B "seriesByTag('a=1','b=2')") 2; mkEntry (B "seriesByTag('b!=1')") (B "seriesByTag('b!=1')") 4] /\
    length (left_by (tg_canon rx) calls rs) = 4 /\ tags_coherent rx (left_by (tg_canon rx) calls rs) tags /\
    tg_match_map rx gt tags = Ok ([(B "seriesByTag('a=1','b=2')", 2%Z); (B "seriesByTag('b!=1')", 4%Z)], 2).
Proof.
  cbv zeta. split.
  - intros c I ts t P It. cbn [In] in I. repeat destruct I as [<-|I]; try easy; vm_compute in P; apply ok_inj in P; subst ts; cbn [In] in It; repeat destruct It as [<-|It]; easy.
  - do 2 eexists. split; [vm_compute; reflexivity|]. split; [split; [intros k [<-|[]]; right; split; [discriminate|reflexivity]|split; [easy|exact I]]|]. split; [vm_compute; reflexivity|]. split; [reflexivity|]. split; [|vm_compute; reflexivity].
    match goal with |- tags_coherent ?r ?E _ => assert (X : forall t, accepted_term r E t -> In t [mkTerm (B "a") OpEq (B "1") None; mkTerm (B "b") OpEq (B "2") None; mkTerm (B "b") OpNe (B "1") None]) end.
    { intros t (e & ts & Ie & P & It). vm_compute in Ie. repeat destruct Ie as [<-|Ie]; try easy; vm_compute in P; apply ok_inj in P; subst ts; cbn [In] in It; cbn [In]; repeat destruct It as [<-|It]; auto; easy. }
    split.
    + intros t v A V. apply X in A. cbn [In] in A. repeat destruct A as [<-|A]; try easy; vm_compute in V; injection V as <-; eexists; vm_compute; reflexivity.
    + intros t u v A A' Q V. apply X in A, A'. cbn [In] in A, A'. repeat destruct A as [<-|A]; try easy; repeat destruct A' as [<-|A']; try easy; vm_compute in Q; discriminate Q.
Qed.
XE*)
