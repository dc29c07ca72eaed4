(** C33, C76: what trees store was registered; the least index does not depend on the order of registration. *)
From Coq Require Import Lia ZifyBool ZifyN ZifyNat Permutation.
From Verif Require Import Model.Tree Model.GGlob Model.GTags Model.Store Spec.PathSpec Spec.RegistrySpec Spec.GlobTreeSpec Spec.GGlobSpec Spec.FirstSpec Spec.TagSpec Spec.TagTreeSpec Spec.StoreSpec Spec.UseSpec.
From Verif Require Import Proof.SortP Proof.PathP Proof.RegistryP Proof.FirstTop Proof.StoreTop Proof.UseTop.
From Verif Require Proof.OriginP Proof.GTreeP Proof.TagTreeP Proof.LevelTop Proof.GGlobTop Proof.GlobTreeTop Proof.GlobTreeP Proof.TreePermTop Proof.AlikeTop.

Lemma least_perm l l' m m' : Permutation l l' -> least l m -> least l' m' -> m = m'.
Proof.
  intros P [[-> ->]|[I L]] [[-> ->]|[I' L']]; auto.
  - apply Permutation_nil in P. subst. destruct I'.
  - apply Permutation_sym, Permutation_nil in P. subst. destruct I.
  - assert (In m l') by (eapply Permutation_in; eauto). assert (In m' l) by (eapply Permutation_in; [apply Permutation_sym|]; eauto). specialize (L m' H0). specialize (L' m H). lia.
Qed.
Lemma min_perm l l' m0 m1 : (forall x, In x l -> (0 <= snd x)%Z) -> Permutation l l' -> fold_left min_do (SInit :: reports l) m0 = fold_left min_do (SInit :: reports l') m1.
Proof.
  intros N P. assert (N' : forall x, In x l' -> (0 <= snd x)%Z) by (intros x I; apply N; eapply Permutation_in; [apply Permutation_sym|]; eauto).
  assert (K : forall k, (forall x, In x k -> (0 <= snd x)%Z) -> least (map snd k) (fold_left min_do (reports k) min_new)).
  { intros k Nk. pose proof (c69_min_store_l (reports k)) as C. unfold stored in C. rewrite stored_reports in C. apply C. intros s i I. unfold reports in I. apply in_map_iff in I as (x & E & I). injection E as _ <-. auto. }
  cbn [fold_left min_do]. change (min_init m0) with min_new. change (min_init m1) with min_new. apply (least_perm (map snd l) (map snd l')); auto. now apply Permutation_map.
Qed.

(** C33: whatever the globs and the string, what GlobTree.Match stores is the canonical text and the index of an accepted glob. *)
Lemma c33_accepted_l : forall (calls : list (str * Z)) (gt : glob_tree) rs (E : list entry) (f : nat) (s : str) (l : list term) (n : nat) (q : str) (i : Z),
  run_adds gt_add gt_new calls = Ok (gt, rs) -> history gl_canon calls rs E -> gt_match f gt s = Ok (l, n) -> In (q, i) l ->
  exists e, In e E /\ e_node e = q /\ e_index e = i.
Proof. intros calls gt rs E f s l n q i R H M I. exact (OriginP.glob_origin E gt f s l n q i (GlobTreeTop.history_inv _ _ _ _ R H) M I). Qed.
(*EX
Example c33_accepted_example : let calls := [(B "*a*", 7%Z); (B "a[", 2%Z); (B "[a-c]??", 3%Z); (B "*?a*", 4%Z)] in exists gt rs,
  run_adds gt_add gt_new calls = Ok (gt, rs) /\ gt_match 14 gt (B "bya") = Ok ([(B "*a*", 7%Z); (B "[a-c]??", 3%Z); (B "*?a*", 4%Z)], 3).
Proof. do 2 eexists. split; [vm_compute; reflexivity|]. vm_compute. reflexivity. Qed.
XE*)

(** C76: the index that Match leaves in a MinStore does not depend on the order of registration, whatever the globs and the
    string, and whatever the store held before. *)
Lemma c76_order_glob_l : forall (calls calls' : list (str * Z)) (gt : glob_tree) rs (E : list entry),
  run_adds gt_add gt_new calls = Ok (gt, rs) -> history gl_canon calls rs E -> length E = length calls -> Permutation calls calls' ->
  exists gt' rs', run_adds gt_add gt_new calls' = Ok (gt', rs') /\
    forall f s l n (m0 m1 : min_store), gt_match f gt s = Ok (l, n) ->
      exists l', gt_match f gt' s = Ok (l', n) /\ fold_left min_do (SInit :: reports l) m0 = fold_left min_do (SInit :: reports l') m1.
Proof.
  intros calls calls' gt rs E R H L P. destruct (TreePermTop.c77_glob_all_l calls calls' gt rs E R H L P) as (gt' & rs' & E' & R' & _ & _ & Q). exists gt', rs'. split; [exact R'|].
  intros f s l n m0 m1 M. destruct (Q f s l n) as [Q1 _]. destruct (Q1 M) as (l' & M' & Pl). exists l'. split; [exact M'|]. apply min_perm; [|exact Pl].
  intros [q i] I. destruct (c33_accepted_l _ _ _ _ _ _ _ _ _ _ R H M I) as (e & Ie & _ & <-). exact (history_nonneg _ _ _ _ H e Ie).
Qed.
(*EX
Example c76_order_glob_example : let calls := [(B "*a*", 7%Z); (B "[a-c]??", 3%Z); (B "*?a*", 4%Z)] in exists gt rs E gt' rs' l n l',
  run_adds gt_add gt_new calls = Ok (gt, rs) /\ history gl_canon calls rs E /\ length E = length calls /\ Permutation calls (rev calls) /\ run_adds gt_add gt_new (rev calls) = Ok (gt', rs') /\
  gt_match 14 gt (B "bya") = Ok (l, n) /\ gt_match 14 gt' (B "bya") = Ok (l', n) /\ l <> l' /\ fold_left min_do (SInit :: reports l) 5%Z = 3%Z /\ fold_left min_do (SInit :: reports l') 0%Z = 3%Z.
Proof.
  intro calls. destruct (GlobTreeP.gt_history calls) as (gt & rs & E & R & H & _). destruct (GlobTreeP.gt_history (rev calls)) as (gt' & rs' & E' & R' & H' & _).
  exists gt, rs, E, gt', rs'. do 3 eexists. split; [exact R|]. split; [exact H|]. split; [vm_compute in R; injection R as <- <-; exact (history_ok_len _ _ _ _ H eq_refl)|]. split; [exact (Permutation_rev calls)|]. split; [exact R'|].
  vm_compute in R, R'. injection R as <- <-. injection R' as <- <-. split; [vm_compute; reflexivity|]. split; [vm_compute; reflexivity|]. split; [discriminate|]. split; vm_compute; reflexivity.
Qed.
XE*)

(** C76: the same for a GGlobTree, if parts that are normalised alike match alike. *)
Lemma c76_order_gglob_l : forall (calls calls' : list (str * Z)) (gt : gglob_tree) rs (E : list entry),
  run_adds ggt_add ggt_new calls = Ok (gt, rs) -> history gg_canon calls rs E -> length E = length calls -> Permutation calls calls' -> parts_agree E ->
  exists gt' rs', run_adds ggt_add ggt_new calls' = Ok (gt', rs') /\
    forall path l n (m0 m1 : min_store), ggt_match gt path = Ok (l, n) ->
      exists l', ggt_match gt' path = Ok (l', n) /\ fold_left min_do (SInit :: reports l) m0 = fold_left min_do (SInit :: reports l') m1.
Proof.
  intros calls calls' gt rs E R H L P A. destruct (AlikeTop.c77_gglob_alike_l calls calls' gt rs E R H L P A) as (gt' & rs' & E' & R' & _ & _ & Q). exists gt', rs'. split; [exact R'|].
  intros path l n m0 m1 M. destruct (Q path [] l n) as [Q1 _]. destruct (Q1 M) as (l' & M' & Pl). exists l'. split; [exact M'|]. apply min_perm; [|exact Pl].
  intros [q i] I. destruct path as [|c path]; [injection M as <- <-; destruct I|].
  destruct (GGlobTop.c37_parts_l (c :: path)) as [[X _]|(ps & PO & _)]; [discriminate|]. destruct (c42_first_l calls gt rs E _ ps l n R H PO M) as (Y1 & Y2 & X). destruct (proj1 (X q i) I) as (Y3 & e & g & Ie & Y4 & Y5 & Y6). cbn [snd]. rewrite <- Y5. exact (history_nonneg _ _ _ _ H e Ie).
Qed.
(*EX
Example c76_order_gglob_example : let calls := [(B "{*a,b?}c.x", 4%Z); (B "{*a,b?}c.*", 2%Z); (B "*a*.?", 3%Z)] in exists gt rs E gt' rs' l l',
  run_adds ggt_add ggt_new calls = Ok (gt, rs) /\ history gg_canon calls rs E /\ length E = length calls /\ Permutation calls (rev calls) /\ parts_agree E /\ run_adds ggt_add ggt_new (rev calls) = Ok (gt', rs') /\
  ggt_match gt (B "bac.x") = Ok (l, 3) /\ ggt_match gt' (B "bac.x") = Ok (l', 3) /\ l <> l' /\ fold_left min_do (SInit :: reports l) 1%Z = 2%Z /\ fold_left min_do (SInit :: reports l') 9%Z = 2%Z.
Proof.
  intro calls. destruct (GTreeP.ggt_history calls) as (gt & rs & E & R & H & _). destruct (GTreeP.ggt_history (rev calls)) as (gt' & rs' & E' & R' & H' & _).
  exists gt, rs, E, gt', rs'. do 2 eexists. split; [exact R|]. split; [exact H|]. split; [vm_compute in R; injection R as <- <-; exact (history_ok_len _ _ _ _ H eq_refl)|]. split; [exact (Permutation_rev calls)|]. split.
  - assert (T := GlobTreeTop.history_texts _ _ _ _ H). intros e e' g g' p p' I I' P P' J J' [S _] s. apply T in I. apply T in I'. unfold calls in I, I'. cbn [In] in I, I'.
    assert (C : forall e g p, In (e_text e, e_index e) calls -> gg_parse (e_text e) = Ok g -> In p (gg_parts g) -> In p (flat_map (fun c => match gg_parse (fst c) with Ok g => gg_parts g | _ => [] end) calls)).
    { intros d gd pd Id Pd Jd. apply in_flat_map. exists (e_text d, e_index d). split; [exact Id|]. cbn [fst]. now rewrite Pd. }
    specialize (C _ _ _ I P J) as K. specialize (C _ _ _ I' P' J') as K'. clear - S K K'. vm_compute in K, K'.
    repeat (destruct K as [<-|K]; [repeat (destruct K' as [<-|K']; [first [reflexivity|discriminate S]|]); destruct K'|]). destruct K.
  - split; [exact R'|]. vm_compute in R, R'. injection R as <- <-. injection R' as <- <-. split; [vm_compute; reflexivity|]. split; [vm_compute; reflexivity|]. split; [discriminate|]. split; vm_compute; reflexivity.
Qed.
XE*)

(** C76: the same for a GTagsTree and queries without blank keys, if conditions that are written alike match alike. *)
Lemma c76_order_tags_l : forall (rx : regexps) (calls calls' : list (str * Z)) (gt : gtags_tree) rs (E : list entry) (tags : list tag),
  (forall c, In c calls -> named_keys rx (fst c)) -> run_adds (tg_add rx) tg_new calls = Ok (gt, rs) -> history (tg_canon rx) calls rs E -> length E = length calls -> Permutation calls calls' ->
  (forall t u v, accepted_term rx E t -> accepted_term rx E u -> condition t = condition u -> value_of tags (tt_key t) = Some v -> tt_match rx t v = tt_match rx u v) ->
  exists gt' rs', run_adds (tg_add rx) tg_new calls' = Ok (gt', rs') /\
    forall l n (m0 m1 : min_store), tg_match_map rx gt tags = Ok (l, n) ->
      exists l', tg_match_map rx gt' tags = Ok (l', n) /\ fold_left min_do (SInit :: reports l) m0 = fold_left min_do (SInit :: reports l') m1.
Proof.
  intros rx calls calls' gt rs E tags K R H L P A. destruct (AlikeTop.c77_tags_returns_l rx calls calls' gt rs E tags K R H L P A) as (gt' & rs' & E' & R' & _ & _ & Q). exists gt', rs'. split; [exact R'|].
  intros l n m0 m1 M. destruct (Q l n) as [Q1 _]. destruct (Q1 M) as (l' & M' & Pl). exists l'. split; [exact M'|]. apply min_perm; [|exact Pl].
  intros [q i] I. assert (Nt : tags = [] \/ tags <> []) by (destruct tags; [now left|right; discriminate]). destruct Nt as [->|Nt].
  { unfold tg_match_map in M. destruct (tg_root gt). injection M as <- <-. destruct I. }
  destruct (LevelTop.c64_bounds_l rx calls gt rs E tags l n K R H Nt M) as (_ & _ & X & _). destruct (X q i I) as (e & ts & Ie & _ & <- & _). exact (history_nonneg _ _ _ _ H e Ie).
Qed.
(*EX
(** A regexp engine for the example: every text compiles and matches itself. *)
Definition rx_self : regexps := mkRx (fun _ => true) (fun re v => str_eqb re v).
Example c76_order_tags_example : let calls := [(B "seriesByTag('name=x*')", 4%Z); (B "seriesByTag('a=1','b!=2')", 2%Z); (B "seriesByTag('name=x*','a=1')", 3%Z)] in
  let tags := [(B "__name__", B "x"); (B "a", B "1")] in
  exists gt rs E gt' rs' l l', (forall c, In c calls -> named_keys rx_self (fst c)) /\ run_adds (tg_add rx_self) tg_new calls = Ok (gt, rs) /\ history (tg_canon rx_self) calls rs E /\ length E = length calls /\ Permutation calls (rev calls) /\
  (forall t u v, accepted_term rx_self E t -> accepted_term rx_self E u -> condition t = condition u -> value_of tags (tt_key t) = Some v -> tt_match rx_self t v = tt_match rx_self u v) /\ run_adds (tg_add rx_self) tg_new (rev calls) = Ok (gt', rs') /\
  tg_match_map rx_self gt tags = Ok (l, 3) /\ tg_match_map rx_self gt' tags = Ok (l', 3) /\ l <> l' /\ fold_left min_do (SInit :: reports l) 1%Z = 2%Z /\ fold_left min_do (SInit :: reports l') 9%Z = 2%Z.
Proof.
  intros calls tags. assert (K : forall c, In c calls -> named_keys rx_self (fst c)).
  { intros c I. repeat (destruct I as [<-|I]; [intros ts t P J; vm_compute in P; injection P as <-; repeat (destruct J as [<-|J]; [discriminate|]); destruct J|]). destruct I. }
  destruct (TagTreeP.tg_history rx_self calls K) as (gt & rs & E & R & H & _). destruct (TagTreeP.tg_history rx_self (rev calls)) as (gt' & rs' & E' & R' & H' & _); [intros c I; apply K, in_rev; exact I|].
  exists gt, rs, E, gt', rs'. do 2 eexists. split; [exact K|]. split; [exact R|]. split; [exact H|]. split; [vm_compute in R; injection R as <- <-; exact (history_ok_len _ _ _ _ H eq_refl)|]. split; [exact (Permutation_rev calls)|]. split.
  - assert (T := GlobTreeTop.history_texts _ _ _ _ H).
    assert (C : forall t, accepted_term rx_self E t -> In t (flat_map (fun c => match parse_series rx_self (fst c) with Ok ts => ts | _ => [] end) calls)).
    { intros t (e & ts & Ie & Pe & It). apply in_flat_map. exists (e_text e, e_index e). split; [exact (T e Ie)|]. cbn [fst]. now rewrite Pe. }
    intros t u v At Au S _. apply C in At. apply C in Au. clear - S At Au. vm_compute in At, Au.
    repeat (destruct At as [<-|At]; [repeat (destruct Au as [<-|Au]; [first [reflexivity|discriminate S]|]); destruct Au|]). destruct At.
  - split; [exact R'|]. vm_compute in R, R'. injection R as <- <-. injection R' as <- <-. split; [vm_compute; reflexivity|]. split; [vm_compute; reflexivity|]. split; [discriminate|]. split; vm_compute; reflexivity.
Qed.
XE*)
