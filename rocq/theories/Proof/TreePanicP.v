(** Matching in a tree of globs does not panic unless a '?' or U+FFFD directly follows a star in one of them. *)
From Verif Require Import Model.Tree Spec.Symbols Spec.GlobSpec Spec.Safe Spec.RegistrySpec Spec.GlobTreeSpec Spec.EndSpec.
From Verif Require Import Proof.SortP Proof.ListP Proof.LangP Proof.DenotesP Proof.ParseP Proof.NextP Proof.SafeP Proof.ItemP Proof.PanicP Proof.RegistryP Proof.ItemEqP Proof.TotalP Proof.TreeInsP Proof.GlobTreeP Proof.TreeMonoP Proof.TreeEndP Proof.TreeEnd2P Proof.MinP.
From Coq Require Import Lia ZifyBool ZifyN ZifyNat.

(** Neither a panic nor an error. *)
Definition np {A} (r : res A) : Prop := match r with Ok _ | Fuel => True | _ => False end.
Ltac dn := first [exact I | discriminate].
Lemma np_seq a b : np a -> np b -> np (oseq a b).
Proof. intros H1 H2. unfold oseq. destruct a; try easy. cbn. destruct b; easy. Qed.
Lemma np_all {A} (g : A -> res out) l : (forall x, In x l -> np (g x)) -> np (oall g l).
Proof. induction l as [|x l IH]; intro H; cbn [oall]; [exact I|]. apply np_seq; [apply H; now left|apply IH; intros; apply H; now right]. Qed.
Lemma np_bind {A C} (r : res A) (k : A -> res C) : np r -> (forall a, r = Ok a -> np (k a)) -> np (bind r k).
Proof. intros H K. destruct r; cbn; try easy; auto. Qed.

(** All the paths of items below a node, after the items [its], are quiet. *)
Definition bq (p : bool) (its : list item) (t : tree) : Prop := forall path n, node_at t path n -> quiet p (its ++ map fst path).
Definition named (t : tree) : Prop := every made t.
Lemma bq_child p its t c i : bq p its t -> In c (t_childs t) -> t_item c = Some i -> bq p (its ++ [i]) c.
Proof.
  intros H I E path n N. rewrite <- app_assoc. apply (H ((i, t_reverse c) :: path) n). exists c. auto.
Qed.
Lemma bq_map p q a b t : (forall R, quiet p (a ++ R) -> quiet q (b ++ R)) -> bq p a t -> bq q b t.
Proof. intros H B path n N. apply H. eapply B; eauto. Qed.
Lemma star_inv p k R : quiet p (IStar k :: R) -> quiet true R.
Proof. intro H. inversion H; subst; easy. Qed.
Lemma any_inv p n R : quiet p (IAny n :: R) -> p = false /\ quiet false R.
Proof. intro H. inversion H; subst; easy. Qed.
Lemma list_inv p l R : quiet p (IList l :: R) -> quiet false R /\ (sl_min l = 0%Z -> quiet p R).
Proof. intro H. inversion H; subst; easy. Qed.
Lemma group_inv p vals mn mx R : quiet p (IGroup vals mn mx :: R) -> (forall v, In v vals -> quiet p (val_items v ++ R)) /\ (mn = 0%Z -> quiet p R).
Proof. intro H. inversion H; subst; easy. Qed.
Lemma bq_any t n : ~ bq true [IAny n] t.
Proof. intro H. specialize (H [] t eq_refl). apply any_inv in H as [H _]. discriminate. Qed.
Lemma bq_any' t n R : ~ bq true (IAny n :: R) t.
Proof. intro H. specialize (H [] t eq_refl). apply any_inv in H as [H _]. discriminate. Qed.

Lemma bq_lit it R t : literal_item it -> bq true (it :: R) t -> it <> IRune RuneError.
Proof. intros L H. specialize (H [] t eq_refl). now apply lit_found in H. Qed.

Definition PM f := forall t s it, named t -> t_item t = Some it -> bq false [it] t -> np (t_match f t s).
Definition PS f := forall t s o it, named t -> t_item t = Some it -> bq true [it] t -> np (t_match_star f t s o).
Definition PL f := forall t l s, named t -> bq false [] t -> np (t_match_star_list f t l s).
Definition PI f := forall t s items, named t -> Forall c1 items -> bq false items t -> np (t_items f t s items).
Definition PSI f := forall t s items, named t -> Forall c1 items -> bq true items t -> np (t_star_items f t s items).

Lemma named_child t c : named t -> In c (t_childs t) -> named c /\ exists i, t_item c = Some i.
Proof.
  intros H I. inversion H as [it r tm cs H1 H2]; subst. specialize (H2 c I). split; [exact H2|]. inversion H2; subst. cbn. eauto.
Qed.
Lemma np_here f tm cs s : PM f -> (forall c, In c cs -> named c /\ exists i, t_item c = Some i /\ bq false [i] c) ->
  np (oseq (emit_if (null s) tm) (oall (fun c => t_match f c s) cs)).
Proof. intros H K. apply np_seq; [dn|]. apply np_all. intros c I. destruct (K c I) as (N & i & E & Q). eapply H; eauto. Qed.
Lemma np_matches f cs s : PM f -> (forall c, In c cs -> named c /\ exists i, t_item c = Some i /\ bq false [i] c) -> np (oall (fun c => t_match f c s) cs).
Proof. intros H K. apply np_all. intros c I. destruct (K c I) as (N & i & E & Q). eapply H; eauto. Qed.
Lemma np_stars f cs s o : PS f -> (forall c, In c cs -> named c /\ exists i, t_item c = Some i /\ bq true [i] c) -> np (oall (fun c => t_match_star f c s o) cs).
Proof. intros H K. apply np_all. intros c I. destruct (K c I) as (N & i & E & Q). eapply H; eauto. Qed.
Lemma children p it r tm cs : named (TNode it r tm cs) -> bq p [] (TNode it r tm cs) -> forall c, In c cs -> named c /\ exists i, t_item c = Some i /\ bq p [i] c.
Proof. intros N Q c I. destruct (named_child _ c N I) as (N' & i & E). split; [exact N'|]. exists i. split; [exact E|]. apply (bq_child p [] _ c i Q I E). Qed.
Lemma nil_lit p it t : literal_item it -> bq p [it] t -> bq false [] t.
Proof. intros L. apply bq_map. intros R. apply lit_quiet. exact L. Qed.

Lemma tree_np : forall f, PM f /\ PS f /\ PL f /\ PI f /\ PSI f.
Proof.
  induction f as [|f (IM & IS & IL & II & ISI)]; [repeat split; red; intros; exact I|]. repeat split; red.
  - (* t_match *)
    intros [it0 r tm cs] s it N E Q. cbn [t_item] in E. subst it0. cbn [t_match]. destruct (zlen s <? item_min it)%Z; [dn|].
    pose proof (item_match_flag it s) as Fl. destruct (item_match it s) as [[off|] fl]; [|dn]. specialize (Fl off fl eq_refl).
    assert (Mk : made it) by (inversion N; auto). destruct it as [x|x|x|x|x|x|l|vals mn mx|x]; try (exfalso; exact Mk); subst fl.
    + apply np_here; auto. eapply children; eauto. now apply (nil_lit false (IStr x)).
    + apply np_here; auto. eapply children; eauto. now apply (nil_lit false (IByte x)).
    + apply np_here; auto. eapply children; eauto. now apply (nil_lit false (IRune x)).
    + apply np_here; auto. eapply children; eauto. revert Q. apply bq_map. intros R H. now apply any_inv in H.
    + destruct (null cs); [dn|]. apply np_stars; auto. eapply children; eauto. revert Q. apply bq_map. intros R H. now apply star_inv in H.
    + apply np_here; auto. eapply children; eauto. now apply (nil_lit false (IRanges x)).
    + assert (Q' : bq false [] (TNode (Some (IList l)) r tm cs)) by (revert Q; apply bq_map; intros R H; now apply list_inv in H).
      apply np_seq; [destruct (sl_optional l); [|dn]; apply np_here; auto; eapply children; eauto|].
      apply np_all. intros v _. destruct (match_val _ v); [|dn]. apply np_here; auto; eapply children; eauto.
    + apply np_seq.
      * destruct (group_optional mn) eqn:Z; [|dn]. apply np_here; auto. eapply children; eauto. revert Q. apply bq_map. intros R H. apply group_inv in H. apply H. unfold group_optional in Z. lia.
      * apply np_all. intros v I. apply II; auto; [now apply (proj1 Mk)|]. revert Q. apply bq_map. intros R H. apply group_inv in H. now apply H.
  - (* t_match_star *)
    intros [it0 r tm cs] s o it N E Q. cbn [t_item] in E. subst it0. cbn [t_match_star]. destruct (zlen s <? item_min it)%Z; [dn|].
    assert (Sh : forall s o, np (let '(_, n) := decode_rune s in if Nat.eqb n 0 then Ok out_none else t_match_star f (TNode (Some it) r tm cs) (skipn n s) o)).
    { intros s' o'. destruct (decode_rune s') as [c n]. destruct (Nat.eqb n 0); [dn|]. now apply (IS _ _ _ it). }
    pose proof (item_find_flag it s) as Fl. destruct (item_find it s) as [[[off|] len] fl] eqn:Ef; [|dn]. specialize (Fl off len fl eq_refl).
    assert (Rm : literal_item it -> forall n, len = Some n -> n <= length (skipn off s)).
    { intros L n ->. apply (find_room it s off n fl); auto. now apply (bq_lit it [] _ L Q). }
    assert (Mk : made it) by (inversion N; auto).
    assert (Done : literal_item it -> forall n sub, np (oseq (if null sub && null cs && match tm with Some _ => true | None => false end then Ok (emit tm) else oall (fun c => t_match f c sub) cs)
                   (let '(_, n0) := decode_rune n in if Nat.eqb n0 0 then Ok out_none else t_match_star f (TNode (Some it) r tm cs) (skipn n0 n) o))).
    { intros L n sub. apply np_seq; [|apply Sh]. destruct (_ && _ && _); [dn|]. apply np_matches; auto. eapply children; eauto. now apply (nil_lit true it). }
    destruct it as [x|x|x|x|x|x|l|vals mn mx|x]; try (exfalso; exact Mk).
    + destruct Fl as [-> Fl]. destruct len as [n|]; [|congruence]. rewrite after_found_ok by (apply Rm; [exact I|reflexivity]). apply Done. exact I.
    + destruct Fl as [-> Fl]. destruct len as [n|]; [|congruence]. rewrite after_found_ok by (apply Rm; [exact I|reflexivity]). apply Done. exact I.
    + destruct Fl as [-> Fl]. destruct len as [n|]; [|congruence]. rewrite after_found_ok by (apply Rm; [exact I|reflexivity]). apply Done. exact I.
    + exfalso. eapply bq_any. exact Q.
    + subst fl. destruct (null cs && _); [dn|]. apply np_stars; auto. eapply children; eauto. revert Q. apply bq_map. intros R H. now apply star_inv in H.
    + destruct Fl as [-> Fl]. destruct len as [n|]; [|congruence]. rewrite after_found_ok by (apply Rm; [exact I|reflexivity]). apply Done. exact I.
    + subst fl. apply np_seq.
      * destruct (sl_optional l && o) eqn:Z; [|dn]. apply np_seq; [dn|]. apply np_stars; auto. eapply children; eauto. revert Q. apply bq_map. intros R H. apply list_inv in H. apply H. unfold sl_optional in Z. lia.
      * apply np_bind; [apply IL; auto; revert Q; apply bq_map; intros R H; now apply list_inv in H|]. intros [o1 s1] _. destruct (decode_rune s1) as [c n]. apply np_seq; [dn|]. apply Sh.
    + subst fl. apply np_seq.
      * destruct (group_optional mn) eqn:Z; [|dn]. apply np_seq; [dn|]. apply np_stars; auto. eapply children; eauto. revert Q. apply bq_map. intros R H. apply group_inv in H. apply H. unfold group_optional in Z. lia.
      * apply np_all. intros v I. apply ISI; auto; [now apply (proj1 Mk)|]. revert Q. apply bq_map. intros R H. apply group_inv in H. now apply H.
  - (* t_match_star_list *)
    intros [it0 r tm cs] l s N Q. cbn [t_match_star_list]. apply np_bind.
    + generalize (@None nat) as offset, out_none as o. induction (sl_vals l) as [|v vs IH]; intros offset o; [dn|]. destruct (find_val s v) as [k|]; [|apply IH].
      apply np_bind; [apply np_here; auto; eapply children; eauto|]. intros o' _. apply IH.
    + intros [o [k|]] _; [|dn]. destruct (decode_rune (skipn k s)) as [c n]. destruct (Nat.eqb n 0); [dn|].
      apply np_bind; [now apply IL|]. intros [o' s'] _. dn.
  - (* t_items *)
    intros [it0 r tm cs] s items N C Q. cbn [t_items]. destruct items as [|it rest]; [apply np_here; auto; eapply children; eauto|].
    inversion C as [|? ? C1 C2]; subst. destruct (zlen s <? item_min it)%Z; [dn|].
    pose proof (item_match_flag it s) as Fl. destruct (item_match it s) as [[off|] fl]; [|dn]. specialize (Fl off fl eq_refl).
    assert (Qr : literal_item it \/ (exists n, it = IAny n) -> bq false rest (TNode it0 r tm cs)).
    { intros [L|[n ->]]; revert Q; apply bq_map; intros R H; [now apply (lit_quiet false it)|now apply any_inv in H]. }
    destruct it as [x|x|x|x|x|x|l|vals mn mx|x]; try (exfalso; exact C1); subst fl; try (apply II; auto; apply Qr; (now left) || (right; eauto)).
    destruct (null rest) eqn:Er.
    + apply np_seq; [dn|]. apply np_stars; auto. eapply children; eauto. revert Q. apply bq_map. intros R H. destruct rest; [|dn]. now apply star_inv in H.
    + apply np_seq; [|now apply II]. apply ISI; auto. revert Q. apply bq_map. intros R H. now apply star_inv in H.
  - (* t_star_items *)
    intros [it0 r tm cs] s items N C Q. cbn [t_star_items]. destruct items as [|it rest]; [apply np_seq; [dn|]; apply np_stars; auto; eapply children; eauto|].
    inversion C as [|? ? C1 C2]; subst. destruct (zlen s <? item_min it)%Z; [dn|].
    pose proof (item_find_flag it s) as Fl. destruct (item_find it s) as [[[off|] len] fl] eqn:Ef; [|dn]. specialize (Fl off len fl eq_refl).
    assert (Rm : literal_item it -> forall n, len = Some n -> n <= length (skipn off s)).
    { intros L n ->. apply (find_room it s off n fl); auto. now apply (bq_lit it rest _ L Q). }
    assert (Done : literal_item it -> forall n sub, np (oseq (t_items f (TNode it0 r tm cs) sub rest)
                   (let '(_, n0) := decode_rune n in if Nat.eqb n0 0 then Ok out_none else t_star_items f (TNode it0 r tm cs) (skipn n0 n) (it :: rest)))).
    { intros L n sub. apply np_seq; [apply II; auto; revert Q; apply bq_map; intros R H; now apply (lit_quiet true it)|]. destruct (decode_rune n) as [c k]. destruct (Nat.eqb k 0); [dn|]. now apply ISI. }
    destruct it as [x|x|x|x|x|x|l|vals mn mx|x]; try (exfalso; exact C1).
    + destruct Fl as [-> Fl]. destruct len as [n|]; [|congruence]. rewrite after_found_ok by (apply Rm; [exact I|reflexivity]). apply Done. exact I.
    + destruct Fl as [-> Fl]. destruct len as [n|]; [|congruence]. rewrite after_found_ok by (apply Rm; [exact I|reflexivity]). apply Done. exact I.
    + destruct Fl as [-> Fl]. destruct len as [n|]; [|congruence]. rewrite after_found_ok by (apply Rm; [exact I|reflexivity]). apply Done. exact I.
    + exfalso. eapply bq_any'. exact Q.
    + subst fl. assert (Q' : bq true rest (TNode it0 r tm cs)) by (revert Q; apply bq_map; intros R H; now apply star_inv in H). destruct (null rest) eqn:Er; [|now apply ISI].
      destruct rest; [|dn]. apply np_seq; [dn|]. apply np_stars; auto. eapply children; eauto.
    + destruct Fl as [-> Fl]. destruct len as [n|]; [|congruence]. rewrite after_found_ok by (apply Rm; [exact I|reflexivity]). apply Done. exact I.
Qed.

(** ** The tree of a history *)
Lemma path_quiet g gl : glob_parse g = Ok gl -> ~ star_trap (g_items gl) -> quiet false (g_items gl).
Proof.
  intros P N. assert (C : Forall c2 (g_items gl)). { apply (parse_calm true true (fun _ => True)) in P; [exact P|]. split; [auto|split; auto]. }
  eapply paths_quiet; eauto. intros r Pa. now apply (trap_bad (g_items gl)).
Qed.
Lemma glob_path_quiet g gl : glob_parse g = Ok gl -> ~ star_trap (g_items gl) -> quiet false (map fst (glob_path gl)).
Proof.
  intros P N. apply path_quiet in P; auto. unfold glob_path. rewrite !map_app, map_map, map_id. destruct (null (g_suffix gl)), (null (g_prefix gl)); cbn [map fst app]; repeat (apply q_lit; [exact I|discriminate|]); exact P.
Qed.
Lemma eqp_eqi p q : eqp p q -> eqi (map fst p) (map fst q).
Proof. induction 1 as [|a b p q [E _] H IH]; constructor; auto. Qed.
Lemma node_made : forall p t n, named t -> node_at t p n -> Forall made (map fst p).
Proof.
  induction p as [|[it r] p IH]; intros t n N H; [constructor|]. destruct H as (c & I & E & _ & H). destruct (named_child t c N I) as (Nc & _). cbn [map fst]. constructor; [|now apply (IH c n)].
  inversion Nc; subst. cbn in E. injection E as <-. auto.
Qed.
Lemma root_quiet E gt : tree_inv E gt -> rooted made (gt_root gt) -> (forall e g, In e E -> glob_parse (e_text e) = Ok g -> ~ star_trap (g_items g)) ->
  forall p n, node_at (gt_root gt) p n -> quiet false (map fst p) /\ (forall it p', p = (it, true) :: p' -> exists x, it = IStr x).
Proof.
  intros (_ & _ & T & _ & L & _) V Q p n H. destruct p as [|e p]; [split; [constructor|discriminate]|].
  destruct (L (e :: p) n ltac:(discriminate) H) as (q & x & m & Hm & Hx).
  assert (Hh : holds (gt_root gt) ((e :: p) ++ q) x). { exists m. split; [|exact Hx]. apply node_at_app. eauto. }
  destruct (T ((e :: p) ++ q) x) as (e0 & g & I & P & _ & Eq); [discriminate|exact Hh|]. pose proof (Q e0 g I P) as NS. split.
  - apply (quiet_prefix false (map fst ((e :: p) ++ q))) with (C := map fst q); [|now rewrite map_app]. eapply quiet_equal; [eapply glob_path_quiet; eauto| | |apply eqp_eqi, eqp_sym; exact Eq].
    + rewrite Forall_map. apply path_all; [intro; constructor|]. eapply parse_made; eauto.
    + destruct Hh as (m' & Hh & _). destruct e as [it r]. destruct Hh as (c & Ic & Ec & _ & Hh). cbn [map fst]. assert (Nc : named c) by now apply V. constructor.
      * inversion Nc; subst. cbn in Ec. injection Ec as <-. auto.
      * eapply node_made; eauto.
  - intros it p' E0. injection E0 as -> ->. cbn [app] in Eq. unfold glob_path in Eq. destruct (null (g_suffix g)).
    + exfalso. cbn [app] in Eq. destruct (null (g_prefix g)).
      * cbn [app] in Eq. destruct (g_items g); inversion Eq as [|? ? ? ? [_ X] _]; subst. discriminate X.
      * inversion Eq as [|? ? ? ? [_ X] _]; subst. discriminate X.
    + inversion Eq as [|? ? ? ? [X _] _]; subst. cbn in X. apply equal_sym, equal_str in X. eauto.
Qed.
Lemma tree_no_panic calls gt rs E s : run_adds gt_add gt_new calls = Ok (gt, rs) -> history gl_canon calls rs E ->
  (forall e g, In e E -> glob_parse (e_text e) = Ok g -> ~ star_trap (g_items g)) -> forall f, np (gt_match f gt s).
Proof.
  intros R H Q f. destruct (history_every _ _ _ _ R H) as [T V].
  assert (M : rooted made (gt_root gt)). { apply V; [intro x; exact I|]. intros e g _ P. eapply parse_made; eauto. }
  pose proof (root_quiet E gt T M Q) as RQ. clear V. unfold gt_match, tree_match. apply np_all. intros c I.
  assert (N : named c) by now apply M. inversion N as [it r tm cs Mi Mc]; subst c.
  assert (Bc : bq false [it] (TNode (Some it) r tm cs)).
  { intros path n Hn. apply (RQ ((it, r) :: path) n). exists (TNode (Some it) r tm cs). auto. }
  cbn [t_reverse t_item t_term t_childs]. destruct r.
  - destruct (RQ [(it, true)] (TNode (Some it) true tm cs)) as [_ K]; [exists (TNode (Some it) true tm cs); repeat split; auto|]. destruct (K it [] eq_refl) as (x & ->).
    destruct (zlen s <? item_min (IStr x))%Z; [dn|]. apply np_bind; [dn|]. intros [off fl] _. destruct fl; try dn. destruct off as [o|]; [|dn].
    apply np_here; [apply tree_np|]. eapply children; eauto. now apply (nil_lit false (IStr x)).
  - now apply (proj1 (tree_np f) _ s it).
Qed.

(** ** Texts without '?' or without '*' *)
Lemma path_calm (star any : bool) F r : path F r -> Forall (calm star any (fun _ => True)) F -> forall i, In i r -> match i with IStar _ => star = true | IAny _ => any = true | _ => True end.
Proof.
  induction 1 as [F|it R r K P IH|l R r Z P IH|vals mn mx v R r I P IH|vals mn R mx r Z P IH]; intros C i J.
  - destruct J.
  - inversion C as [|? ? C1 C2]; subst. destruct J as [<-|J]; [|now apply IH]. destruct it; try easy. apply C1.
  - inversion C; subst. now apply IH.
  - inversion C as [|? ? C1 C2]; subst. apply IH; auto. apply Forall_app. split; [|exact C2]. eapply Forall_impl; [intro; apply calm1_calm|]. now apply (proj2 C1).
  - inversion C; subst. now apply IH.
Qed.
Lemma text_star_any g gl : ~ In "?"%char g \/ ~ In "*"%char g -> glob_parse g = Ok gl -> ~ star_any (g_items gl).
Proof.
  intros H P (r & a & k & n & b & Pa & E).
  destruct H as [H|H].
  - assert (C : Forall (calm true false (fun _ => True)) (g_items gl)). { apply (parse_calm true false (fun _ => True)) in P; [exact P|]. split; [auto|split; auto]. }
    assert (X := path_calm true false _ _ Pa C (IAny n)). cbn in X. discriminate X. rewrite E. apply in_or_app. right. right. now left.
  - assert (C : Forall (calm false true (fun _ => True)) (g_items gl)). { apply (parse_calm false true (fun _ => True)) in P; [exact P|]. split; [intro; contradiction|split; auto]. }
    assert (X := path_calm false true _ _ Pa C (IStar k)). cbn in X. discriminate X. rewrite E. apply in_or_app. right. now left.
Qed.
Lemma tree_returns calls gt rs E s : run_adds gt_add gt_new calls = Ok (gt, rs) -> history gl_canon calls rs E -> (forall e, In e E -> stars_last (e_text e)) ->
  (forall e g, In e E -> glob_parse (e_text e) = Ok g -> ~ star_trap (g_items g)) -> exists f0 o, forall f, f0 <= f -> gt_match f gt s = Ok o.
Proof.
  intros R H SL NS. destruct (tree_ends _ _ _ _ s R H SL) as (f0 & r & N & K). pose proof (tree_no_panic _ _ _ _ s R H NS f0) as P. rewrite (K f0) in P by lia.
  destruct r as [o|e| |]; try easy. eauto.
Qed.
