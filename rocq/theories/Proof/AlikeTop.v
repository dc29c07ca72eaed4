(** C77: the order of registration, for all globs and queries. *)
From Coq Require Import Lia ZifyBool ZifyN ZifyNat Permutation.
From Verif Require Import Model.GGlob Model.GTags Spec.PathSpec Spec.RegistrySpec Spec.GGlobSpec Spec.FirstSpec Spec.TagSpec Spec.TagTreeSpec.
From Verif Require Import Proof.SortP Proof.PathP Proof.GGlobP Proof.RegistryP Proof.FirstP Proof.FirstTop Proof.UseTop.
From Verif Require Proof.GTreeP Proof.AlikeP Proof.AlikeTagsP Proof.LaterTagsP Proof.LaterGP Proof.TagTreeP Proof.LevelTop Proof.GGlobTop Proof.GlobTreeTop.

Lemma begins_dec k g g' : k < length (gg_parts g) -> begins_like k g g' \/ ~ begins_like k g g'.
Proof.
  intro L. unfold begins_like. destruct (Nat.eq_dec (length (gg_parts g)) (length (gg_parts g'))) as [D|D]; [|right; tauto].
  pose proof (pre_firstn k (gg_parts g) (gg_parts g') L) as P. destruct (pre _ _); [left; split; auto; now apply P|right; intros [_ X]; apply P in X; discriminate].
Qed.
Lemma first_stands k g : k < length (gg_parts g) -> forall E e g', In e E -> gg_parse (e_text e) = Ok g' -> begins_like k g g' -> exists p, stands_for E g k p.
Proof.
  intro L. assert (Here : forall e g' E2, gg_parse (e_text e) = Ok g' -> begins_like k g g' -> exists p, stands_for (e :: E2) g k p).
  { intros e g' E2 P B. destruct (nth_error (gg_parts g') k) as [p|] eqn:N; [|apply nth_error_None in N; destruct B as [B _]; lia]. exists p, [], e, E2, g'. split; [reflexivity|]. split; [exact P|]. split; [exact B|]. split; [exact N|easy]. }
  induction E as [|d E IH]; intros e g' I P B; [destruct I|].
  destruct (gg_parse (e_text d)) as [gd| | |] eqn:Pd.
  - destruct (begins_dec k g gd L) as [Bd|Bd]; [eapply Here; eauto|]. destruct I as [<-|I]; [exfalso; apply Bd; congruence|].
    destruct (IH e g' I P B) as (p & E1 & d' & E2 & g'' & -> & H1 & H2 & H3 & H4). exists p, (d :: E1), d', E2, g''. split; [reflexivity|]. repeat (split; [assumption|]). intros x gx [<-|Ix] Px; [|eauto]. assert (gx = gd) by congruence. now subst.
  - destruct I as [<-|I]; [congruence|]. destruct (IH e g' I P B) as (p & E1 & d' & E2 & g'' & -> & H1 & H2 & H3 & H4). exists p, (d :: E1), d', E2, g''. split; [reflexivity|]. repeat (split; [assumption|]). intros x gx [<-|Ix] Px; [congruence|eauto].
  - destruct I as [<-|I]; [congruence|]. destruct (IH e g' I P B) as (p & E1 & d' & E2 & g'' & -> & H1 & H2 & H3 & H4). exists p, (d :: E1), d', E2, g''. split; [reflexivity|]. repeat (split; [assumption|]). intros x gx [<-|Ix] Px; [congruence|eauto].
  - destruct I as [<-|I]; [congruence|]. destruct (IH e g' I P B) as (p & E1 & d' & E2 & g'' & -> & H1 & H2 & H3 & H4). exists p, (d :: E1), d', E2, g''. split; [reflexivity|]. repeat (split; [assumption|]). intros x gx [<-|Ix] Px; [congruence|eauto].
Qed.
Lemma stands_same E g k p : stands_for E g k p -> exists e g' q, In e E /\ gg_parse (e_text e) = Ok g' /\ In p (gg_parts g') /\ nth_error (gg_parts g) k = Some q /\ same_part q p.
Proof.
  intros (E1 & e & E2 & g' & -> & P & (L & B) & N & _). exists e, g'. assert (K : k < length (gg_parts g)) by (rewrite L; apply nth_error_Some; congruence).
  destruct (nth_error (gg_parts g) k) as [q|] eqn:Nq; [|apply nth_error_None in Nq; lia]. exists q. split; [apply in_or_app; right; now left|]. split; [exact P|]. split; [now apply nth_error_In in N|]. split; [reflexivity|].
  clear - B N Nq. remember (gg_parts g) as a. remember (gg_parts g') as b. clear Heqa Heqb. revert a b B N Nq. induction k as [|k IH]; intros [|x a] [|y b] B N Nq; try discriminate; cbn [firstn] in B; inversion B; subst.
  - cbn in N, Nq. injection N as <-. injection Nq as <-. assumption.
  - cbn in N, Nq. eapply IH; eauto.
Qed.
Lemma same_trans p q r : same_part q p -> same_part q r -> same_part p r.
Proof. unfold same_part. intros [A B] [C D]. split; [congruence|tauto]. Qed.
Lemma reached_perm E E' e g ps : (forall d, In d E <-> In d E') -> parts_agree E -> In e E -> gg_parse (e_text e) = Ok g -> reached E g ps -> reached E' g ps.
Proof.
  intros IE A I P [L H]. split; [exact L|]. intros k s Nk. destruct (H k s Nk) as (p & Sp & M). assert (K : k < length (gg_parts g)) by (rewrite L; apply nth_error_Some; congruence).
  destruct (first_stands k g K E' e g) as (p' & Sp'); [now apply IE|exact P| |].
  { split; [reflexivity|]. generalize (firstn (S k) (gg_parts g)). intro l. induction l; constructor; auto. split; [reflexivity|tauto]. }
  exists p'. split; [exact Sp'|]. destruct (stands_same _ _ _ _ Sp) as (d & gd & q & Id & Pd & Ip & Nq & Sq). destruct (stands_same _ _ _ _ Sp') as (d' & gd' & q' & Id' & Pd' & Ip' & Nq' & Sq').
  rewrite Nq in Nq'. injection Nq' as <-. pose proof (same_trans _ _ _ Sq Sq') as X. apply IE in Id'. rewrite (A d d' gd gd' p p' Id Id' Pd Pd' Ip Ip' X s) in M. destruct X as [X1 X2]. rewrite X1 in M.
  destruct M as [[M1 M2]|[M1 M2]]; [left|right]; split; tauto.
Qed.

(** C77: for a GGlobTree this holds of all globs and all paths, if parts that are normalised alike match alike: whenever
    Match (MatchByParts) returns on one of the trees it returns on the other, with the same count and the same reports
    in some order. *)
Lemma c77_gglob_alike_l : forall (calls calls' : list (str * Z)) (gt : gglob_tree) rs (E : list entry),
  run_adds ggt_add ggt_new calls = Ok (gt, rs) -> history gg_canon calls rs E -> length E = length calls -> Permutation calls calls' -> parts_agree E ->
  exists gt' rs' E', run_adds ggt_add ggt_new calls' = Ok (gt', rs') /\ history gg_canon calls' rs' E' /\ Permutation E E' /\
    forall path ps l n, (ggt_match gt path = Ok (l, n) -> exists l', ggt_match gt' path = Ok (l', n) /\ Permutation l l') /\
                        (ggt_match gt' path = Ok (l, n) -> exists l', ggt_match gt path = Ok (l', n) /\ Permutation l l') /\
                        (ggt_match_by_parts gt ps = Ok (l, n) -> exists l', ggt_match_by_parts gt' ps = Ok (l', n) /\ Permutation l l') /\
                        (ggt_match_by_parts gt' ps = Ok (l, n) -> exists l', ggt_match_by_parts gt ps = Ok (l', n) /\ Permutation l l').
Proof.
  intros calls calls' gt rs E R H L P A. destruct (GTreeP.ggt_history calls') as (gt' & rs' & E' & R' & H' & _).
  assert (PE := history_perm _ _ _ _ _ _ _ H L P H'). assert (IE : forall e, In e E <-> In e E') by (intro e; split; apply Permutation_in; auto; now apply Permutation_sym).
  assert (A' : parts_agree E') by (intros e e' g g' p p' I I'; apply (A e e'); now apply IE). assert (IE' : forall e, In e E' <-> In e E) by (intro e; symmetry; apply IE).
  exists gt', rs', E'. split; [exact R'|]. split; [exact H'|]. split; [exact PE|].
  assert (MP : forall path l n l' n', ggt_match gt path = Ok (l, n) -> ggt_match gt' path = Ok (l', n') -> n = n' /\ Permutation l l').
  { intros path l n l' n' M M'. destruct path as [|c path]; [injection M as <- <-; injection M' as <- <-; auto|].
    destruct (GGlobTop.c37_parts_l (c :: path)) as [[X _]|(ps & PO & _)]; [discriminate|].
    destruct (c42_first_l calls gt rs E _ ps l n R H PO M) as (-> & N & X). destruct (c42_first_l calls' gt' rs' E' _ ps l' n' R' H' PO M') as (-> & N' & X').
    assert (Q : Permutation l l'); [|split; [now apply Permutation_length|exact Q]]. apply nodup_perm; auto. intros q i. rewrite X, X'.
    split; intros (F & e & g & I & Y1 & Y2 & Y3 & Y4); (split; [exact F|]); exists e, g; (split; [now apply IE|]); repeat (split; [assumption|]); [eapply (reached_perm E E'); eauto|eapply (reached_perm E' E); eauto]. }
  assert (MB : forall ps l n l' n', ggt_match_by_parts gt ps = Ok (l, n) -> ggt_match_by_parts gt' ps = Ok (l', n') -> n = n' /\ Permutation l l').
  { intros ps l n l' n' M M'. destruct ps as [|p ps]; [injection M as <- <-; injection M' as <- <-; auto|]. assert (Np : p :: ps <> []) by discriminate.
    destruct (c42_first_parts_l calls gt rs E _ l n R H Np M) as (-> & N & X). destruct (c42_first_parts_l calls' gt' rs' E' _ l' n' R' H' Np M') as (-> & N' & X').
    assert (Q : Permutation l l'); [|split; [now apply Permutation_length|exact Q]]. apply nodup_perm; auto. intros q i. rewrite X, X'.
    split; intros (e & g & I & Y1 & Y2 & Y3 & Y4); exists e, g; (split; [now apply IE|]); repeat (split; [assumption|]); [eapply (reached_perm E E'); eauto|eapply (reached_perm E' E); eauto]. }
  destruct (first_tree _ _ _ _ R H) as [T I]. destruct (first_tree _ _ _ _ R' H') as [T' I'].
  assert (V : forall m, AlikeP.covers (GTreeP.tree_at m (ggt_root gt)) (GTreeP.tree_at m (ggt_root gt'))) by (intro m; apply (AlikeP.tree_covers E E'); auto; intro e; apply IE').
  assert (V' : forall m, AlikeP.covers (GTreeP.tree_at m (ggt_root gt')) (GTreeP.tree_at m (ggt_root gt))) by (intro m; apply (AlikeP.tree_covers E' E); auto; intro e; apply IE).
  intros path ps l n. repeat split; intro M.
  - assert (X : AlikeP.returns (ggt_match gt' path)).
    { rewrite LaterGP.match_at in *. destruct (null path); [eexists; reflexivity|]. destruct (path_level path) as [q k]. refine (AlikeP.items_returns _ q _ _ (le_n _) (V k) (AlikeP.ok_tidy _ _ _ T') _). eexists. exact M. }
    destruct X as ([l' n'] & X). destruct (MP path l n l' n' M X) as [<- Q]. eauto.
  - assert (X : AlikeP.returns (ggt_match gt path)).
    { rewrite LaterGP.match_at in *. destruct (null path); [eexists; reflexivity|]. destruct (path_level path) as [q k]. refine (AlikeP.items_returns _ q _ _ (le_n _) (V' k) (AlikeP.ok_tidy _ _ _ T) _). eexists. exact M. }
    destruct X as ([l' n'] & X). destruct (MP path l' n' l n X M) as [-> Q]. apply Permutation_sym in Q. eauto.
  - assert (X : AlikeP.returns (ggt_match_by_parts gt' ps)).
    { rewrite LaterGP.match_parts_at in *. destruct ps as [|p ps]; [eexists; reflexivity|]. refine (AlikeP.parts_returns _ _ _ _ (V _) (AlikeP.ok_tidy _ _ _ T') _); [discriminate|]. eexists. exact M. }
    destruct X as ([l' n'] & X). destruct (MB ps l n l' n' M X) as [<- Q]. eauto.
  - assert (X : AlikeP.returns (ggt_match_by_parts gt ps)).
    { rewrite LaterGP.match_parts_at in *. destruct ps as [|p ps]; [eexists; reflexivity|]. refine (AlikeP.parts_returns _ _ _ _ (V' _) (AlikeP.ok_tidy _ _ _ T) _); [discriminate|]. eexists. exact M. }
    destruct X as ([l' n'] & X). destruct (MB ps l' n' l n X M) as [-> Q]. apply Permutation_sym in Q. eauto.
Qed.
(*EX
Example c77_gglob_alike_example : let calls := [(B "{*a,b?}c.x", 1%Z); (B "{*a,b?}c.*", 2%Z); (B "*a*.?", 3%Z)] in let calls' := [(B "*a*.?", 3%Z); (B "{*a,b?}c.*", 2%Z); (B "{*a,b?}c.x", 1%Z)] in
  exists gt rs E gt' rs', run_adds ggt_add ggt_new calls = Ok (gt, rs) /\ history gg_canon calls rs E /\ length E = length calls /\ Permutation calls calls' /\ parts_agree E /\ run_adds ggt_add ggt_new calls' = Ok (gt', rs') /\
  ggt_match gt (B "bac.x") = Ok ([(B "{*a,b?}c.x", 1%Z); (B "{*a,b?}c.*", 2%Z); (B "*a*.?", 3%Z)], 3) /\ ggt_match gt' (B "bac.x") = Ok ([(B "*a*.?", 3%Z); (B "{*a,b?}c.x", 1%Z); (B "{*a,b?}c.*", 2%Z)], 3).
Proof.
  intros calls calls'. destruct (GTreeP.ggt_history calls) as (gt & rs & E & R & H & _). destruct (GTreeP.ggt_history calls') as (gt' & rs' & E' & R' & H' & _).
  exists gt, rs, E, gt', rs'. split; [exact R|]. split; [exact H|]. split; [vm_compute in R; injection R as <- <-; exact (history_ok_len _ _ _ _ H eq_refl)|]. split; [exact (Permutation_rev calls)|]. split.
  - assert (T := GlobTreeTop.history_texts _ _ _ _ H). intros e e' g g' p p' I I' P P' J J' [S _] s. apply T in I. apply T in I'. unfold calls in I, I'. cbn [In] in I, I'.
    assert (C : forall e g p, In (e_text e, e_index e) calls -> gg_parse (e_text e) = Ok g -> In p (gg_parts g) -> In p (flat_map (fun c => match gg_parse (fst c) with Ok g => gg_parts g | _ => [] end) calls)).
    { intros d gd pd Id Pd Jd. apply in_flat_map. exists (e_text d, e_index d). split; [exact Id|]. cbn [fst]. now rewrite Pd. }
    specialize (C _ _ _ I P J) as K. specialize (C _ _ _ I' P' J') as K'. clear - S K K'. vm_compute in K, K'. 
    repeat (destruct K as [<-|K]; [repeat (destruct K' as [<-|K']; [first [reflexivity|discriminate S]|]); destruct K'|]). destruct K.
  - split; [exact R'|]. vm_compute in R, R'. injection R as <- <-. injection R' as <- <-. split; vm_compute; reflexivity.
Qed.
XE*)

(** C77: for a GTagsTree this holds of all queries without blank keys, if conditions that are written alike hold of the
    tags alike: whenever MatchByTagsMap returns for both trees, it has stored the same queries in some order. *)
Lemma c77_tags_alike_l : forall (rx : regexps) (calls calls' : list (str * Z)) (gt : gtags_tree) rs (E : list entry) (tags : list tag),
  (forall c, In c calls -> named_keys rx (fst c)) -> run_adds (tg_add rx) tg_new calls = Ok (gt, rs) -> history (tg_canon rx) calls rs E -> length E = length calls -> Permutation calls calls' ->
  (forall t u, accepted_term rx E t -> accepted_term rx E u -> condition t = condition u -> holds rx t tags -> holds rx u tags) ->
  exists gt' rs' E', run_adds (tg_add rx) tg_new calls' = Ok (gt', rs') /\ history (tg_canon rx) calls' rs' E' /\ Permutation E E' /\
    forall l n l' n', tg_match_map rx gt tags = Ok (l, n) -> tg_match_map rx gt' tags = Ok (l', n') -> n = n' /\ Permutation l l'.
Proof.
  intros rx calls calls' gt rs E tags K R H L P A. assert (K' : forall c, In c calls' -> named_keys rx (fst c)) by (intros c I; apply K, (Permutation_in _ (Permutation_sym P)); exact I).
  destruct (TagTreeP.tg_history rx calls' K') as (gt' & rs' & E' & R' & H' & _).
  assert (PE := history_perm _ _ _ _ _ _ _ H L P H'). assert (IE : forall e, In e E <-> In e E') by (intro e; split; apply Permutation_in; auto; now apply Permutation_sym).
  assert (IT : forall t, accepted_term rx E t <-> accepted_term rx E' t) by (intro t; split; intros (e & ts & I & Y); exists e, ts; (split; [now apply IE|exact Y])).
  exists gt', rs', E'. split; [exact R'|]. split; [exact H'|]. split; [exact PE|]. intros l n l' n' M M'.
  assert (Nt : tags = [] \/ tags <> []) by (destruct tags; [now left|right; discriminate]). destruct Nt as [->|Nt].
  { unfold tg_match_map in M, M'. destruct (tg_root gt), (tg_root gt'). injection M as <- <-. injection M' as <- <-. auto. }
  destruct (LevelTop.c64_bounds_l rx calls gt rs E tags l n K R H Nt M) as (-> & N & X & Y). destruct (LevelTop.c64_bounds_l rx calls' gt' rs' E' tags l' n' K' R' H' Nt M') as (-> & N' & X' & Y').
  assert (Q : Permutation l l'); [|split; [now apply Permutation_length|exact Q]]. apply nodup_perm; try (eapply NoDup_map_inv; eassumption). intros q i. split; intro J.
  - destruct (X q i J) as (e & ts & I & <- & <- & Pe & Ne & Hc). apply (Y' e ts); auto; [now apply IE|]. intros t u It Au Cu. apply IT in Au. destruct (Hc t It) as (v & Av & Cv & Hv). apply (A v u); auto. congruence.
  - destruct (X' q i J) as (e & ts & I & <- & <- & Pe & Ne & Hc). apply (Y e ts); auto; [now apply IE|]. intros t u It Au Cu. destruct (Hc t It) as (v & Av & Cv & Hv). apply IT in Av. apply (A v u); auto. congruence.
Qed.
(*EX
(** A regexp engine for the example: every text compiles and matches itself. *)
Definition rx_self : regexps := mkRx (fun _ => true) (fun re v => str_eqb re v).
Example c77_tags_alike_example : let calls := [(B "seriesByTag('name=x*')", 1%Z); (B "seriesByTag('a=1','b!=2')", 2%Z); (B "seriesByTag('name=x')", 3%Z); (B "seriesByTag('name=x*','a=1')", 4%Z)] in
  let tags := [(B "__name__", B "x"); (B "a", B "1")] in
  exists gt rs E gt' rs', (forall c, In c calls -> named_keys rx_self (fst c)) /\ run_adds (tg_add rx_self) tg_new calls = Ok (gt, rs) /\ history (tg_canon rx_self) calls rs E /\ length E = length calls /\
  (forall t u, accepted_term rx_self E t -> accepted_term rx_self E u -> condition t = condition u -> holds rx_self t tags -> holds rx_self u tags) /\ run_adds (tg_add rx_self) tg_new (rev calls) = Ok (gt', rs') /\
  (exists l, tg_match_map rx_self gt tags = Ok (l, 4) /\ map snd l = [3%Z; 4%Z; 2%Z; 1%Z]) /\ (exists l, tg_match_map rx_self gt' tags = Ok (l, 4) /\ map snd l = [1%Z; 2%Z; 4%Z; 3%Z]).
Proof.
  intros calls tags. assert (K : forall c, In c calls -> named_keys rx_self (fst c)).
  { intros c I. repeat (destruct I as [<-|I]; [intros ts t P J; vm_compute in P; injection P as <-; repeat (destruct J as [<-|J]; [discriminate|]); destruct J|]). destruct I. }
  destruct (TagTreeP.tg_history rx_self calls K) as (gt & rs & E & R & H & _). destruct (TagTreeP.tg_history rx_self (rev calls)) as (gt' & rs' & E' & R' & H' & _); [intros c I; apply K, in_rev; exact I|].
  exists gt, rs, E, gt', rs'. split; [exact K|]. split; [exact R|]. split; [exact H|]. split; [vm_compute in R; injection R as <- <-; exact (history_ok_len _ _ _ _ H eq_refl)|]. split.
  - assert (T := GlobTreeTop.history_texts _ _ _ _ H).
    assert (C : forall t, accepted_term rx_self E t -> In t (flat_map (fun c => match parse_series rx_self (fst c) with Ok ts => ts | _ => [] end) calls)).
    { intros t (e & ts & Ie & Pe & It). apply in_flat_map. exists (e_text e, e_index e). split; [exact (T e Ie)|]. cbn [fst]. now rewrite Pe. }
    intros t u At Au S. apply C in At. apply C in Au. clear - S At Au. vm_compute in At, Au.
    repeat (destruct At as [<-|At]; [repeat (destruct Au as [<-|Au]; [first [exact (fun h => h)|discriminate S]|]); destruct Au|]). destruct At.
  - split; [exact R'|]. vm_compute in R, R'. injection R as <- <-. injection R' as <- <-. split; eexists; split; vm_compute; reflexivity.
Qed.
XE*)

(** C77: if conditions that are written alike give the same answer on the value of their tag, then MatchByTagsMap also
    returns for one of the trees exactly if it returns for the other, and so does MatchByTags on sorted tags; the reports
    are the same in some order. *)
Lemma c77_tags_returns_l : forall (rx : regexps) (calls calls' : list (str * Z)) (gt : gtags_tree) rs (E : list entry) (tags : list tag),
  (forall c, In c calls -> named_keys rx (fst c)) -> run_adds (tg_add rx) tg_new calls = Ok (gt, rs) -> history (tg_canon rx) calls rs E -> length E = length calls -> Permutation calls calls' ->
  (forall t u v, accepted_term rx E t -> accepted_term rx E u -> condition t = condition u -> value_of tags (tt_key t) = Some v -> tt_match rx t v = tt_match rx u v) ->
  exists gt' rs' E', run_adds (tg_add rx) tg_new calls' = Ok (gt', rs') /\ history (tg_canon rx) calls' rs' E' /\ Permutation E E' /\
    forall l n, (tg_match_map rx gt tags = Ok (l, n) -> exists l', tg_match_map rx gt' tags = Ok (l', n) /\ Permutation l l') /\
                (tg_match_map rx gt' tags = Ok (l, n) -> exists l', tg_match_map rx gt tags = Ok (l', n) /\ Permutation l l') /\
                (keys_sorted (map fst tags) -> (tg_match_tags rx gt tags = Ok (l, n) -> exists l', tg_match_tags rx gt' tags = Ok (l', n) /\ Permutation l l') /\
                                               (tg_match_tags rx gt' tags = Ok (l, n) -> exists l', tg_match_tags rx gt tags = Ok (l', n) /\ Permutation l l')).
Proof.
  intros rx calls calls' gt rs E tags K R H L P A. assert (K' : forall c, In c calls' -> named_keys rx (fst c)) by (intros c I; apply K, (Permutation_in _ (Permutation_sym P)); exact I).
  destruct (c77_tags_alike_l rx calls calls' gt rs E tags K R H L P) as (gt' & rs' & E' & R' & H' & PE & Q).
  { intros t u At Au C Ht. unfold holds in *. assert (Ck : tt_key t = tt_key u /\ tt_op t = tt_op u) by (unfold condition in C; split; congruence). destruct Ck as [Ck Co]. rewrite <- Ck, <- Co. destruct (value_of tags (tt_key t)) as [v|] eqn:V; [|exact Ht]. now rewrite <- (A t u v). }
  exists gt', rs', E'. split; [exact R'|]. split; [exact H'|]. split; [exact PE|].
  destruct (AlikeTagsP.fruitful_history rx calls K) as (gt0 & rs0 & E0 & R0 & H0 & T & F). rewrite R in R0. injection R0 as <- <-. destruct (history_fun _ _ _ _ H _ _ H0) as [_ <-].
  destruct (AlikeTagsP.fruitful_history rx calls' K') as (gt0 & rs0 & E0 & R0 & H0' & T' & F'). rewrite R' in R0. injection R0 as <- <-. destruct (history_fun _ _ _ _ H' _ _ H0') as [_ <-].
  assert (IE : forall e, In e E <-> In e E') by (intro e; split; apply Permutation_in; auto; now apply Permutation_sym).
  assert (MM : forall l n, (tg_match_map rx gt tags = Ok (l, n) -> exists l', tg_match_map rx gt' tags = Ok (l', n) /\ Permutation l l') /\ (tg_match_map rx gt' tags = Ok (l, n) -> exists l', tg_match_map rx gt tags = Ok (l', n) /\ Permutation l l')).
  { intros l n. split; intro M.
  - destruct (AlikeTagsP.alike_returns rx E E' gt gt' tags T F T' F' IE A) as ([l' n'] & X); [eexists; exact M|]. destruct (Q l n l' n' M X) as [<- Z]. eauto.
  - destruct (AlikeTagsP.alike_returns rx E' E gt' gt tags T' F' T F) as ([l' n'] & X); [intro e; symmetry; apply IE| |eexists; exact M|].
    + intros t u v (e & ts & I & Y) (e' & ts' & I' & Y'). apply A; [exists e, ts|exists e', ts']; (split; [now apply IE|assumption]).
    + destruct (Q l' n' l n X M) as [-> Z]. apply Permutation_sym in Z. eauto. }
  intros l n. split; [apply MM|]. split; [apply MM|]. intro S.
  assert (En : tg_end gt = tg_end gt').
  { destruct T as (_ & _ & _ & _ & TE & _). destruct T' as (_ & _ & _ & _ & TE' & _). destruct (tg_end gt) as [x|].
    - symmetry. apply TE'. destruct (proj1 (TE x) eq_refl) as (e & I & Y). exists e. split; [now apply IE|exact Y].
    - destruct (tg_end gt') as [x|]; [|reflexivity]. apply TE. destruct (proj1 (TE' x) eq_refl) as (e & I & Y). exists e. split; [now apply IE|exact Y]. }
  destruct T as (_ & _ & WF & _). destruct T' as (_ & _ & WF' & _). unfold tg_match_tags. rewrite (LaterTagsP.tags_as_map rx tags _ S _ WF), (LaterTagsP.tags_as_map rx tags _ S _ WF'), En. unfold tg_match_map in MM.
  split; intro M.
  - destruct (ti_match_map rx (tg_root gt) tags) as [[l2 n2]| | |] eqn:X; try (destruct (tg_end gt'); discriminate). destruct (MM l2 n2) as [M1 _]. destruct (M1 eq_refl) as (l3 & -> & Z).
    destruct (tg_end gt') as [x|]; cbn in M |- *; injection M as <- <-; eexists; (split; [reflexivity|]); first [exact Z|now apply perm_skip].
  - destruct (ti_match_map rx (tg_root gt') tags) as [[l2 n2]| | |] eqn:X; try (destruct (tg_end gt'); discriminate). destruct (MM l2 n2) as [_ M1]. destruct (M1 eq_refl) as (l3 & -> & Z).
    destruct (tg_end gt') as [x|]; cbn in M |- *; injection M as <- <-; eexists; (split; [reflexivity|]); first [exact Z|now apply perm_skip].
Qed.
(*EX
Example c77_tags_returns_example : let calls := [(B "seriesByTag('name=x*')", 1%Z); (B "seriesByTag('a=1','b!=2')", 2%Z); (B "seriesByTag('name=x*','a=1')", 4%Z)] in
  let tags := [(B "__name__", B "x"); (B "a", B "1")] in
  exists gt rs E gt' rs', (forall c, In c calls -> named_keys rx_self (fst c)) /\ run_adds (tg_add rx_self) tg_new calls = Ok (gt, rs) /\ history (tg_canon rx_self) calls rs E /\ length E = length calls /\
  (forall t u v, accepted_term rx_self E t -> accepted_term rx_self E u -> condition t = condition u -> value_of tags (tt_key t) = Some v -> tt_match rx_self t v = tt_match rx_self u v) /\ run_adds (tg_add rx_self) tg_new (rev calls) = Ok (gt', rs') /\
  (exists l, tg_match_map rx_self gt tags = Ok (l, 3) /\ map snd l = [4%Z; 2%Z; 1%Z]) /\ (exists l, tg_match_map rx_self gt' tags = Ok (l, 3) /\ map snd l = [1%Z; 2%Z; 4%Z]) /\ keys_sorted (map fst tags).
Proof.
  intros calls tags. assert (K : forall c, In c calls -> named_keys rx_self (fst c)).
  { intros c I. repeat (destruct I as [<-|I]; [intros ts t P J; vm_compute in P; injection P as <-; repeat (destruct J as [<-|J]; [discriminate|]); destruct J|]). destruct I. }
  destruct (TagTreeP.tg_history rx_self calls K) as (gt & rs & E & R & H & _). destruct (TagTreeP.tg_history rx_self (rev calls)) as (gt' & rs' & E' & R' & H' & _); [intros c I; apply K, in_rev; exact I|].
  exists gt, rs, E, gt', rs'. split; [exact K|]. split; [exact R|]. split; [exact H|]. split; [vm_compute in R; injection R as <- <-; exact (history_ok_len _ _ _ _ H eq_refl)|]. split.
  - assert (T := GlobTreeTop.history_texts _ _ _ _ H).
    assert (C : forall t, accepted_term rx_self E t -> In t (flat_map (fun c => match parse_series rx_self (fst c) with Ok ts => ts | _ => [] end) calls)).
    { intros t (e & ts & Ie & Pe & It). apply in_flat_map. exists (e_text e, e_index e). split; [exact (T e Ie)|]. cbn [fst]. now rewrite Pe. }
    intros t u v At Au S _. apply C in At. apply C in Au. clear - S At Au. vm_compute in At, Au.
    repeat (destruct At as [<-|At]; [repeat (destruct Au as [<-|Au]; [first [reflexivity|discriminate S]|]); destruct Au|]). destruct At.
  - split; [exact R'|]. vm_compute in R, R'. injection R as <- <-. injection R' as <- <-. split; [eexists; split; vm_compute; reflexivity|]. split; [eexists; split; vm_compute; reflexivity|]. cbn. unfold key_lt. repeat split; auto; intros k I; (repeat destruct I as [<-|I]); try easy; left; split; [reflexivity|discriminate].
Qed.
XE*)
