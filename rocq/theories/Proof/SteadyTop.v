(** The statements of Props/PSteady.v. *)
From Coq Require Import Lia ZifyBool ZifyN ZifyNat Permutation.
From Verif Require Import Model.GGlob Model.GTags Spec.Symbols Spec.Class Spec.GlobSpec Spec.StarSpec Spec.ApartSpec Spec.Neat Spec.GGlobSpec Spec.PathSpec Spec.TagSpec Spec.QuerySpec Spec.SelectSpec Spec.RegistrySpec Spec.TagTreeSpec Spec.CalmSpec Spec.SteadySpec.
From Verif Require Import Proof.Utf8P Proof.SortP Proof.NextP Proof.PathP Proof.GGlobP Proof.RegistryP Proof.GTreeP Proof.TagTreeP Proof.SeriesP Proof.SelectP Proof.ApartP Proof.ReturnsP Proof.OrderP Proof.RereadP Proof.RereadGP Proof.RereadTop Proof.GGlobTop Proof.TagTop Proof.UseTop Proof.CheckNeatP.

(** A glob without wildcards matches its normalised text only. *)
Lemma steady_literal t g s : neat t -> glob_parse t = Ok g -> g_items g = [] -> glob_match g s = Ok (str_eqb (g_node g) s).
Proof.
  intros N P Ei. apply neat_xk in N. destruct (first_pieces t g N P) as (p & q & mn & mx & rl & -> & NS & (NP & _ & _ & En & Ex) & _).
  destruct (rev rl) as [|x l] eqn:Er; [|discriminate Ei]. assert (rl = []) as -> by (rewrite <- (rev_involutive rl), Er; reflexivity). cbn [tmin tmax] in En, Ex. subst mn mx.
  assert (NM := nometa_app p q NP NS).
  unfold finish_glob, glob_match. cbn [g_node g_min g_max g_items null]. rewrite <- zlen_app2. destruct (str_eqb (p ++ q) (B "*")) eqn:Es.
  - apply str_eqb_eq in Es. exfalso. apply (NM "*"%char); [rewrite Es; now left|vm_compute; auto 10].
  - destruct (str_eqb (p ++ q) s) eqn:E2.
    + apply str_eqb_eq in E2. rewrite <- E2, Z.ltb_irrefl. now rewrite andb_false_r.
    + repeat match goal with |- context [if ?c then _ else _] => destruct c end; reflexivity.
Qed.
(** The normalised text of a glob with wildcards has a wildcard. *)
Lemma steady_wild t g : neat t -> glob_parse t = Ok g -> g_items g <> [] -> wild (g_node g).
Proof.
  intros N P Ni. apply neat_xk in N. destruct (first_pieces t g N P) as (p & q & mn & mx & rl & -> & NS & (NP & F & _) & Hd).
  destruct rl as [|x rl]; [now cbn in Ni|]. cbn [rev] in *. inversion F as [|? ? Nx F']; subst. destruct (item_head x Nx Hd) as (c & w & Ew & Mc & _).
  exists c. split.
  - destruct (rev rl ++ [x]) as [|y l] eqn:El; [now destruct (rev rl)|]. cbn [finish_glob g_node]. rewrite <- El, map_app, concat_app. cbn [map concat]. rewrite Ew.
    apply in_or_app. right. apply in_or_app. left. apply in_or_app. right. now left.
  - unfold wild_byte. revert Mc. vm_compute. tauto.
Qed.
Lemma steady_literal_bare t g : neat t -> glob_parse t = Ok g -> g_items g = [] -> ~ wild (g_node g).
Proof.
  intros N P Ei (c & I & W). apply neat_xk in N. destruct (first_pieces t g N P) as (p & q & mn & mx & rl & -> & NS & (NP & _) & _).
  destruct (rev rl) as [|x l]; [|discriminate Ei]. cbn in I. apply (nometa_app p q NP NS c I). revert W. unfold wild_byte. vm_compute. tauto.
Qed.
Lemma steady_same t u g h s : neat t -> neat u -> glob_parse t = Ok g -> glob_parse u = Ok h -> g_node g = g_node h -> glob_match g s = glob_match h s.
Proof.
  intros Nt Nu P Q E. destruct (c78_match_l t g Nt P) as (g2 & R & _ & M), (c78_match_l u h Nu Q) as (h2 & R' & _ & M').
  rewrite E in R. rewrite R in R'. injection R' as <-. now rewrite <- M, M'.
Qed.
Lemma steady_part E g : (forall e, In e E -> steady_parts (e_text e)) -> part_of E g -> exists t, steady t /\ glob_parse t = Ok g.
Proof.
  intros S (e & gg & Ie & P & Ig). apply gg_parse_iff in P as (qs & gls & A & P & ->). cbn in Ig.
  destruct (forall2_in_r _ _ _ _ P Ig) as (t & It & Pt). exists t. split; auto. eapply S; eauto.
Qed.
Lemma steady_coherent E s : (forall e, In e E -> steady_parts (e_text e)) -> coherent E s.
Proof.
  intro S. split; [|split].
  - intros g P Ei. destruct (steady_part E g S P) as (t & [Nt _] & Pt). now apply (steady_literal t).
  - intros g P. refine (part_sure E g _ P s). intros e Ie gs p A Ip. exact (proj2 (S e Ie gs p A Ip)).
  - intros g g' P P' _ _ En. destruct (steady_part E g S P) as (t & [Nt _] & Pt), (steady_part E g' S P') as (u & [Nu _] & Pu). now apply (steady_same t u).
Qed.

(** C42: a tree of dotted globs with steady parts (wildcards anywhere in the values of their lists allowed) reports for any path
    exactly the accepted globs that match it part by part; a path with an empty part is not reported for anything. *)
Lemma c42_steady_l : forall (calls : list (str * Z)) (gt : gglob_tree) rs (E : list entry) (path : str) (ps : list str),
  run_adds ggt_add ggt_new calls = Ok (gt, rs) -> history gg_canon calls rs E -> (forall e, In e E -> steady_parts (e_text e)) -> parts_of path ps ->
  exists l, ggt_match gt path = Ok (l, length l) /\ NoDup l /\
    forall q i, In (q, i) l <-> ~ In [] ps /\ exists e g, In e E /\ e_node e = q /\ e_index e = i /\ gg_parse (e_text e) = Ok g /\ Forall2 part_matches (gg_parts g) ps.
Proof.
  intros calls gt rs E path ps R H S PO. destruct (in_dec (list_eq_dec Ascii.ascii_dec) [] ps) as [I|N].
  - exists []. rewrite (c42_empty_l calls gt rs E path ps R H PO I) by (intros; now apply steady_coherent). split; [reflexivity|]. split; [constructor|]. intros q i. split; [easy|]. now intros [X _].
  - destruct (c42_exact_l calls gt rs E path ps R H PO N) as (l & El & Nd & Hl); [intros; now apply steady_coherent|]. exists l. split; auto. split; auto. intros q i. rewrite Hl. tauto.
Qed.

(*EX
Definition st_calls : list (str * Z) := [(B "x*.{a*,c}{d,*e}[f-h]*", 5%Z); (B "*y.a*", 2%Z)].
Definition st_entries : list entry := [mkEntry (B "x*.{a*,c}{d,*e}[f-h]*") (B "x*.{a*,c}{*e,d}[f-h]*") 5%Z; mkEntry (B "*y.a*") (B "*y.a*") 2%Z].
Definition st_path : str := B "x" ++ byte_of 255 :: B "y.a1behj".
Lemma st_steady e : In e st_entries -> steady_parts (e_text e).
Proof.
  intros Ie gs p A Ip. destruct Ie as [<-|[<-|[]]].
  - assert (gs = [B "x*"; B "{a*,c}{d,*e}[f-h]*"]) as ->.
    { eapply accepted_fun; [|exact A]. right. split; [now intros [Z|[Z|[]]]|]. left. apply parts_of_iff. split; [discriminate|reflexivity]. }
    destruct Ip as [<-|[<-|[]]]; apply steady_ok; vm_compute; reflexivity.
  - assert (gs = [B "*y"; B "a*"]) as ->.
    { eapply accepted_fun; [|exact A]. right. split; [now intros [Z|[Z|[]]]|]. left. apply parts_of_iff. split; [discriminate|reflexivity]. }
    destruct Ip as [<-|[<-|[]]]; apply steady_ok; vm_compute; reflexivity.
Qed.
Example c42_steady_example : exists gt rs, run_adds ggt_add ggt_new st_calls = Ok (gt, rs) /\ history gg_canon st_calls rs st_entries /\ length st_entries = length st_calls /\
  (forall e, In e st_entries -> steady_parts (e_text e)) /\ parts_of st_path (path_split st_path) /\
  ggt_match gt st_path = Ok ([(B "x*.{a*,c}{*e,d}[f-h]*", 5%Z); (B "*y.a*", 2%Z)], 2) /\ ggt_match gt (B "xy.be") = Ok ([], 0).
Proof.
  destruct (ggt_history st_calls) as (gt & rs & E & R & H & _). exists gt, rs. split; [exact R|].
  destruct (history_entries _ _ _ _ H) as [EE _]. vm_compute in R. injection R as <- <-. vm_compute in EE. split; [rewrite EE in H; exact H|]. split; [reflexivity|]. split; [exact st_steady|].
  split; [apply parts_of_iff; split; [discriminate|vm_compute; reflexivity]|]. split; vm_compute; reflexivity.
Qed.
XE*)
(** C77: the order in which such globs are added does not matter, for any path. *)
Lemma c77_steady_gglob_l : forall (calls calls' : list (str * Z)) (gt : gglob_tree) rs (E : list entry) (path : str) (ps : list str),
  run_adds ggt_add ggt_new calls = Ok (gt, rs) -> history gg_canon calls rs E -> length E = length calls -> Permutation calls calls' ->
  (forall e, In e E -> steady_parts (e_text e)) -> parts_of path ps ->
  exists gt' rs' E' l l', run_adds ggt_add ggt_new calls' = Ok (gt', rs') /\ history gg_canon calls' rs' E' /\ Permutation E E' /\
    ggt_match gt path = Ok (l, length l) /\ ggt_match gt' path = Ok (l', length l') /\ Permutation l l'.
Proof.
  intros calls calls' gt rs E path ps R H L P S PO. destruct (GTreeP.ggt_history calls') as (gt' & rs' & E' & R' & H' & _).
  assert (PE := history_perm _ _ _ _ _ _ _ H L P H'). assert (IE : forall e, In e E <-> In e E') by (intro e; split; apply Permutation_in; auto; now apply Permutation_sym).
  destruct (c42_steady_l calls gt rs E path ps R H S PO) as (l & M & N & X).
  destruct (c42_steady_l calls' gt' rs' E' path ps R' H') as (l' & M' & N' & X'); auto; [intros e I; apply S, IE, I|].
  exists gt', rs', E', l, l'. repeat (split; [assumption|]). apply nodup_perm; auto. intros q i. rewrite X, X'.
  split; intros (F & e & gs & I & Y); (split; [exact F|]); exists e, gs; (split; [now apply IE|exact Y]).
Qed.

(*EX
Example c77_steady_gglob_example : exists gt rs gt' rs' l l', run_adds ggt_add ggt_new st_calls = Ok (gt, rs) /\ run_adds ggt_add ggt_new (rev st_calls) = Ok (gt', rs') /\
  ggt_match gt st_path = Ok (l, 2) /\ ggt_match gt' st_path = Ok (l', 2) /\ l <> l' /\ Permutation l l'.
Proof.
  destruct c42_steady_example as (gt & rs & R & H & L & S & PO & M1 & _).
  destruct (c77_steady_gglob_l st_calls (rev st_calls) gt rs st_entries _ _ R H L (Permutation_rev _) S PO) as (gt' & rs' & E' & l & l' & R' & _ & _ & M & M' & P).
  exists gt, rs, gt', rs', l, l'. rewrite M1 in M. injection M as <-. vm_compute in R'. injection R' as <- <-. vm_compute in M'. injection M' as <-.
  split; [exact R|]. split; [vm_compute; reflexivity|]. split; [exact M1|]. split; [vm_compute; reflexivity|]. split; [discriminate|exact P].
Qed.
XE*)
Lemma steady_term rx E t : (forall e, In e E -> steady_query (e_text e)) -> accepted_term rx E t ->
  exists v, keeps rx (tt_op t) v (tt_value t) (tt_glob t) /\ (eqne (tt_op t) -> wild v -> steady v).
Proof.
  intros S A. destruct (accepted_reads _ _ _ A) as (e & l & s & Ie & Q & Is & R). destruct (reads_text _ _ _ R) as (v & T & Kp).
  exists v. split; auto. intros Eo W. eapply (S e Ie); eauto.
Qed.
Lemma steady_kept rx op v kept gl : eqne op -> keeps rx op v kept gl -> (wild v -> steady v) ->
  (gl = None /\ ~ wild kept) \/ exists g, gl = Some g /\ wild kept /\ neat v /\ glob_parse v = Ok g /\ kept = g_node g.
Proof.
  intros Eo K S. assert (K' : keeps rx OpEq v kept gl) by (destruct Eo as [->| ->]; exact K). cbn [keeps] in K'.
  destruct K' as [(B & -> & ->)|(W & g & P & -> & [[Ei ->]|[Ni ->]])].
  - left. split; auto. intros (c & I & Wc). now apply (B c I).
  - left. split; auto. apply (steady_literal_bare v); auto. now apply S.
  - right. exists g. destruct (S W) as [N _]. split; [reflexivity|]. split; [now apply (steady_wild v)|]. auto.
Qed.
Lemma steady_tags rx E tags : (forall e, In e E -> steady_query (e_text e)) -> tags_coherent rx E tags.
Proof.
  intro S. split.
  - intros t x A _. apply (accepted_gives rx E t x); auto. intros e Ie l s k op v Q Is T Eo W. exact (proj2 (S e Ie l s k op v Q Is T Eo W)).
  - intros t u x A A' Ec _. destruct (steady_term rx E t S A) as (v & K & Sv), (steady_term rx E u S A') as (w & K' & Sw).
    destruct t as [k op kept gl], u as [k' op' kept' gl']. unfold condition in Ec. cbn [tt_key tt_op tt_value tt_glob] in *. injection Ec as <- <- <-. unfold tt_match. cbn [tt_op tt_value tt_glob].
    assert (C : eqne op -> (gl = None /\ gl' = None) \/ exists g g', gl = Some g /\ gl' = Some g' /\ glob_match g x = glob_match g' x).
    { intro Eo. destruct (steady_kept rx op v kept gl Eo K (Sv Eo)) as [[-> B]|(g & -> & W & N & P & E1)], (steady_kept rx op w kept gl' Eo K' (Sw Eo)) as [[-> B']|(g' & -> & W' & N' & P' & E2)]; try easy.
      - left. easy.
      - right. exists g, g'. split; auto. split; auto. apply (steady_same v w); auto. congruence. }
    destruct op; auto; (destruct C as [[-> ->]|(g & g' & -> & -> & M)]; [now (left + right)|reflexivity|cbn; rewrite ?M; reflexivity]).
Qed.

(** C64: the same for trees of queries: for any tags, the queries whose wildcard values are steady are reported exactly when all
    their conditions hold of the tags. *)
Lemma c64_steady_l : forall (rx : regexps) (calls : list (str * Z)) (gt : gtags_tree) (rs : list add_res) (E : list entry) (tags : list tag),
  (forall c, In c calls -> named_keys rx (fst c)) -> run_adds (tg_add rx) tg_new calls = Ok (gt, rs) -> history (tg_canon rx) calls rs E ->
  (forall e, In e E -> steady_query (e_text e)) -> tags <> [] ->
  exists l n, tg_match_map rx gt tags = Ok (l, n) /\ NoDup (map snd l) /\
    forall q i, In (q, i) l <-> exists e ts, In e E /\ e_node e = q /\ e_index e = i /\ parse_series rx (e_text e) = Ok ts /\ ts <> [] /\ terms_match_map rx ts tags = Ok true.
Proof. intros. eapply c64_exact_l; eauto. now apply steady_tags. Qed.
(*EX
(** An engine that takes an expression as the text it matches. *)
Definition rx_self : regexps := mkRx (fun _ => true) (fun re v => str_eqb re v).
Ltac others := let c := fresh in let I := fresh in let J := fresh in intros c I J; vm_compute in I, J; (repeat destruct I as [<-|I]); try easy; intuition discriminate.
Definition sq : str := B "seriesByTag('name={a*,b}c*', 'a!=*{x?,1}')".
Definition sq_calls : list (str * Z) := [(sq, 5%Z); (B "seriesByTag('name={b,a*}c*')", 6%Z)].
Lemma sq_texts : forall c, In c sq_calls -> forall l s k op v, query_text (fst c) l -> In s l -> condition_text s k op v -> k <> [] /\ steady v.
Proof.
  intros c [<-|[<-|[]]].
  - apply (query_cases (fun k op v => k <> [] /\ steady v)) with (n := 128) (l := [B "name={a*,b}c*"; B "a!=*{x?,1}"]); [vm_compute; reflexivity|].
    constructor; [|constructor; [|constructor]].
    + exists (B "__name__"), OpEq, (B "{a*,b}c*"). split; [apply (text_intro (B "name") OpEq (B "{a*,b}c*")); [discriminate|others|intros _ w; discriminate]|split; [discriminate|now apply steady_ok]].
    + exists (B "a"), OpNe, (B "*{x?,1}"). split; [apply (text_intro (B "a") OpNe (B "*{x?,1}")); [discriminate|others|intros _ w; discriminate]|split; [discriminate|now apply steady_ok]].
  - apply (query_cases (fun k op v => k <> [] /\ steady v)) with (n := 128) (l := [B "name={b,a*}c*"]); [vm_compute; reflexivity|].
    constructor; [|constructor].
    exists (B "__name__"), OpEq, (B "{b,a*}c*"). split; [apply (text_intro (B "name") OpEq (B "{b,a*}c*")); [discriminate|others|intros _ w; discriminate]|split; [discriminate|now apply steady_ok]].
Qed.
Example c64_steady_example : (forall c, In c sq_calls -> named_keys rx_self (fst c)) /\ exists gt rs E, run_adds (tg_add rx_self) tg_new sq_calls = Ok (gt, rs) /\
  history (tg_canon rx_self) sq_calls rs E /\ length E = length sq_calls /\ (forall e, In e E -> steady_query (e_text e)) /\
  tg_match_map rx_self gt [(B "__name__", B "axc"); (B "a", B "1y")] = Ok ([(B "seriesByTag('__name__={a*,b}c*')", 6%Z); (B "seriesByTag('__name__={a*,b}c*','a!=*{1,x?}')", 5%Z)], 2) /\
  tg_match_map rx_self gt [(B "__name__", B "axc"); (B "a", B "yxz")] = Ok ([(B "seriesByTag('__name__={a*,b}c*')", 6%Z)], 1).
Proof.
  assert (N : forall c, In c sq_calls -> named_keys rx_self (fst c)).
  { intros c I. apply named_named. intros l s k op v Q Is T. exact (proj1 (sq_texts c I _ _ _ _ _ Q Is T)). }
  split; [exact N|]. destruct (c68_add_l rx_self sq_calls N) as (gt & rs & E & R & H & _). exists gt, rs, E. split; [exact R|]. split; [exact H|].
  assert (S : forall e, In e E -> steady_query (e_text e)).
  { intros e Ie l s k op v Q Is T _ _. destruct (history_calls _ _ _ _ H e Ie) as (i & I). exact (proj2 (sq_texts _ I _ _ _ _ _ Q Is T)). }
  vm_compute in R. injection R as <- <-. split; [exact (history_ok_len _ _ _ _ H eq_refl)|]. split; [exact S|]. split; vm_compute; reflexivity.
Qed.
XE*)
(** C65: MatchByTags and MatchByTagsMap agree on them when the tags are sorted. *)
Lemma c65_steady_l : forall (rx : regexps) (calls : list (str * Z)) (gt : gtags_tree) (rs : list add_res) (E : list entry) (tags : list tag),
  (forall c, In c calls -> named_keys rx (fst c)) -> run_adds (tg_add rx) tg_new calls = Ok (gt, rs) -> history (tg_canon rx) calls rs E ->
  (forall e, In e E -> steady_query (e_text e)) -> tags <> [] -> keys_sorted (map fst tags) ->
  exists l n, tg_match_map rx gt tags = Ok (l, n) /\
    ((forall e, In e E -> parse_series rx (e_text e) <> Ok []) -> tg_match_tags rx gt tags = Ok (l, n)) /\
    (forall e, In e E -> parse_series rx (e_text e) = Ok [] -> tg_match_tags rx gt tags = Ok ((e_node e, e_index e) :: l, n)).
Proof. intros. eapply c65_agree_l; eauto. now apply steady_tags. Qed.
(*EX
Example c65_steady_example : keys_sorted (map fst [(B "__name__", B "axc"); (B "a", B "1y")]) /\ exists gt rs, run_adds (tg_add rx_self) tg_new sq_calls = Ok (gt, rs) /\
  tg_match_tags rx_self gt [(B "__name__", B "axc"); (B "a", B "1y")] = Ok ([(B "seriesByTag('__name__={a*,b}c*')", 6%Z); (B "seriesByTag('__name__={a*,b}c*','a!=*{1,x?}')", 5%Z)], 2).
Proof. split; [cbn; unfold key_lt; repeat split; auto; intros k I; (repeat destruct I as [<-|I]); try easy; left; split; [reflexivity|discriminate]|]. do 2 eexists. split; [vm_compute; reflexivity|]. vm_compute. reflexivity. Qed.
XE*)
(** C77: the order in which such queries are added does not matter, for any tags. *)
Lemma c77_steady_tags_l : forall (rx : regexps) (calls calls' : list (str * Z)) (gt : gtags_tree) rs (E : list entry) (tags : list tag),
  (forall c, In c calls -> named_keys rx (fst c)) -> run_adds (tg_add rx) tg_new calls = Ok (gt, rs) -> history (tg_canon rx) calls rs E ->
  length E = length calls -> Permutation calls calls' -> (forall e, In e E -> steady_query (e_text e)) -> tags <> [] ->
  exists gt' rs' E' l l' n n', run_adds (tg_add rx) tg_new calls' = Ok (gt', rs') /\ history (tg_canon rx) calls' rs' E' /\ Permutation E E' /\
    tg_match_map rx gt tags = Ok (l, n) /\ tg_match_map rx gt' tags = Ok (l', n') /\ Permutation l l'.
Proof.
  intros rx calls calls' gt rs E tags N R H L P S Nt.
  assert (N' : forall c, In c calls' -> named_keys rx (fst c)) by (intros c I; apply N; eapply Permutation_in; [apply Permutation_sym|]; eauto).
  destruct (c68_add_l rx calls' N') as (gt' & rs' & E' & R' & H' & _).
  assert (PE := history_perm _ _ _ _ _ _ _ H L P H'). assert (IE : forall e, In e E <-> In e E') by (intro e; split; apply Permutation_in; auto; now apply Permutation_sym).
  destruct (c64_steady_l rx calls gt rs E tags N R H S Nt) as (l & n & M & ND & X).
  destruct (c64_steady_l rx calls' gt' rs' E' tags N' R' H') as (l' & n' & M' & ND' & X'); auto; [intros e I; apply S, IE, I|].
  exists gt', rs', E', l, l', n, n'. repeat (split; [assumption|]). apply nodup_perm; try (eapply NoDup_map_inv; eassumption). intros q i. rewrite X, X'.
  split; intros (e & ts & I & Y); exists e, ts; (split; [now apply IE|exact Y]).
Qed.
(*EX
Example c77_steady_tags_example : exists gt rs gt' rs' l l', run_adds (tg_add rx_self) tg_new sq_calls = Ok (gt, rs) /\ run_adds (tg_add rx_self) tg_new (rev sq_calls) = Ok (gt', rs') /\
  tg_match_map rx_self gt [(B "__name__", B "axc"); (B "a", B "1y")] = Ok (l, 2) /\ tg_match_map rx_self gt' [(B "__name__", B "axc"); (B "a", B "1y")] = Ok (l', 2) /\ length l = 2 /\ Permutation l l'.
Proof.
  destruct c64_steady_example as (N & gt & rs & E & R & H & L & S & M1 & _).
  destruct (c77_steady_tags_l rx_self sq_calls (rev sq_calls) gt rs E [(B "__name__", B "axc"); (B "a", B "1y")] N R H L (Permutation_rev _) S ltac:(discriminate)) as (gt' & rs' & E' & l & l' & n & n' & R' & _ & _ & M & M' & P).
  exists gt, rs, gt', rs', l, l'. rewrite M1 in M. injection M as <- <-. vm_compute in R'. injection R' as <- <-. vm_compute in M'. injection M' as <- <-.
  split; [exact R|]. split; [vm_compute; reflexivity|]. split; [exact M1|]. split; [vm_compute; reflexivity|]. split; [reflexivity|exact P].
Qed.
XE*)
(** C77: adding further globs never changes whether an earlier one is reported. *)
Lemma c77_steady_gglob_later_l : forall (calls more : list (str * Z)) (gt gt' : gglob_tree) rs rs' (E E' : list entry) (path : str) (ps : list str),
  run_adds ggt_add ggt_new calls = Ok (gt, rs) -> history gg_canon calls rs E ->
  run_adds ggt_add ggt_new (calls ++ more) = Ok (gt', rs') -> history gg_canon (calls ++ more) rs' E' ->
  (forall e, In e E' -> steady_parts (e_text e)) -> parts_of path ps ->
  exists l l', ggt_match gt path = Ok (l, length l) /\ ggt_match gt' path = Ok (l', length l') /\
    forall e, In e E -> In e E' /\ (In (e_node e, e_index e) l <-> In (e_node e, e_index e) l').
Proof.
  intros calls more gt gt' rs rs' E E' path ps R H R' H' S PO. destruct (history_prefix _ _ _ _ _ _ _ H H') as (F & ->).
  destruct (c42_steady_l _ gt' rs' _ path ps R' H' S PO) as (l' & M' & _ & X').
  destruct (c42_steady_l _ gt rs E path ps R H) as (l & M & _ & X); auto; [intros e I; apply S, in_or_app; now left|].
  exists l, l'. repeat (split; [assumption|]). intros e Ie. split; [apply in_or_app; now left|]. rewrite X, X'. split; intros (Fp & e' & gs & I & Y & Z & W).
  - split; auto. exists e', gs. split; [apply in_or_app; now left|auto].
  - split; auto. exists e', gs. split; auto. assert (e' = e); [|now subst].
    eapply same_entry; [eapply history_distinct; exact H'|exact I|apply in_or_app; now left|exact Z].
Qed.
(*EX
Example c77_steady_gglob_later_example : exists gt rs gt' rs', run_adds ggt_add ggt_new (firstn 1 st_calls) = Ok (gt, rs) /\ run_adds ggt_add ggt_new (firstn 1 st_calls ++ skipn 1 st_calls) = Ok (gt', rs') /\
  ggt_match gt st_path = Ok ([(B "x*.{a*,c}{*e,d}[f-h]*", 5%Z)], 1) /\ ggt_match gt' st_path = Ok ([(B "x*.{a*,c}{*e,d}[f-h]*", 5%Z); (B "*y.a*", 2%Z)], 2).
Proof. do 4 eexists. split; [vm_compute; reflexivity|]. split; [vm_compute; reflexivity|]. split; vm_compute; reflexivity. Qed.
XE*)
(** C77: nor does adding further queries. *)
Lemma c77_steady_tags_later_l : forall (rx : regexps) (calls more : list (str * Z)) (gt gt' : gtags_tree) rs rs' (E E' : list entry) (tags : list tag),
  (forall c, In c (calls ++ more) -> named_keys rx (fst c)) -> run_adds (tg_add rx) tg_new calls = Ok (gt, rs) -> history (tg_canon rx) calls rs E ->
  run_adds (tg_add rx) tg_new (calls ++ more) = Ok (gt', rs') -> history (tg_canon rx) (calls ++ more) rs' E' ->
  (forall e, In e E' -> steady_query (e_text e)) -> tags <> [] ->
  exists l n l' n', tg_match_map rx gt tags = Ok (l, n) /\ tg_match_map rx gt' tags = Ok (l', n') /\
    forall e, In e E -> In e E' /\ (In (e_node e, e_index e) l <-> In (e_node e, e_index e) l').
Proof.
  intros rx calls more gt gt' rs rs' E E' tags N R H R' H' S Nt. destruct (history_prefix _ _ _ _ _ _ _ H H') as (F & ->).
  destruct (c64_steady_l rx _ gt' rs' _ tags N R' H' S Nt) as (l' & n' & M' & _ & X').
  destruct (c64_steady_l rx calls gt rs E tags) as (l & n & M & _ & X); auto; [intros c I; apply N, in_or_app; now left|intros e I; apply S, in_or_app; now left|].
  exists l, n, l', n'. repeat (split; [assumption|]). intros e Ie. split; [apply in_or_app; now left|]. rewrite X, X'. split; intros (e' & ts & I & Y & Z & W).
  - exists e', ts. split; [apply in_or_app; now left|auto].
  - exists e', ts. split; auto. assert (e' = e); [|now subst].
    eapply same_entry; [eapply history_distinct; exact H'|exact I|apply in_or_app; now left|exact Z].
Qed.
(*EX
Example c77_steady_tags_later_example : exists gt rs gt' rs', run_adds (tg_add rx_self) tg_new (firstn 1 sq_calls) = Ok (gt, rs) /\ run_adds (tg_add rx_self) tg_new (firstn 1 sq_calls ++ skipn 1 sq_calls) = Ok (gt', rs') /\
  tg_match_map rx_self gt [(B "__name__", B "axc"); (B "a", B "1y")] = Ok ([(B "seriesByTag('__name__={a*,b}c*','a!=*{1,x?}')", 5%Z)], 1) /\
  tg_match_map rx_self gt' [(B "__name__", B "axc"); (B "a", B "1y")] = Ok ([(B "seriesByTag('__name__={a*,b}c*')", 6%Z); (B "seriesByTag('__name__={a*,b}c*','a!=*{1,x?}')", 5%Z)], 2).
Proof. do 4 eexists. split; [vm_compute; reflexivity|]. split; [vm_compute; reflexivity|]. split; vm_compute; reflexivity. Qed.
XE*)
