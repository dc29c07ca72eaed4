(** Whatever the globs of a tree, what Match reports is a match (unless a star with a minimum directly follows a star). *)
From Verif Require Import Model.Tree Spec.Symbols Spec.GlobSpec Spec.Lang Spec.Safe Spec.RegistrySpec Spec.GlobTreeSpec.
From Verif Require Import Proof.Utf8P Proof.SymbolsP Proof.SkipP Proof.SortP Proof.ListP Proof.LangP Proof.ItemP Proof.DenotesP Proof.MatchP Proof.ParseP Proof.NextP Proof.GlobP Proof.GlobMatchP Proof.SafeP Proof.PanicP Proof.RegistryP Proof.ItemEqP Proof.TotalP Proof.TreeInsP Proof.GlobTreeP Proof.TreeEndP Proof.TreeEnd2P Proof.MinP Proof.TreePanicP Proof.SoundP.
From Coq Require Import Lia ZifyBool ZifyN ZifyNat.

(** ** Results all of whose terms satisfy P *)
Definition so (P : term -> Prop) (r : res out) : Prop := match r with Ok o => forall x, In x (fst o) -> P x | _ => True end.
Lemma so_seq P a b : so P a -> so P b -> so P (oseq a b).
Proof.
  unfold oseq. destruct a as [[la na]|e| |]; cbn; auto. destruct b as [[lb nb]|e| |]; cbn; auto. intros H K x I. apply in_app_or in I as [I|I]; auto.
Qed.
Lemma so_all {A} P (g : A -> res out) l : (forall x, In x l -> so P (g x)) -> so P (oall g l).
Proof. induction l as [|x l IH]; intro H; cbn [oall]; [intros y []|]. apply so_seq; [apply H; now left|apply IH; intros; apply H; now right]. Qed.
Lemma so_mono (P Q : term -> Prop) r : (forall x, P x -> Q x) -> so P r -> so Q r.
Proof. destruct r; cbn; auto. Qed.
Lemma so_none P : so P (Ok out_none).
Proof. intros x []. Qed.
Lemma so_emit (P : term -> Prop) tm : (forall x, tm = Some x -> P x) -> so P (Ok (emit tm)).
Proof. intros H x. destruct tm as [y|]; cbn; [|easy]. intros [<-|[]]. auto. Qed.
Lemma so_emit_if (P : term -> Prop) b tm : (b = true -> forall x, tm = Some x -> P x) -> so P (emit_if b tm).
Proof. intro H. unfold emit_if. destruct b; [apply so_emit; auto|apply so_none]. Qed.
Lemma so_bind {A} P (r : res A) k : (forall a, r = Ok a -> so P (k a)) -> so P (bind r k).
Proof. intros H. destruct r; cbn; auto. Qed.

(** ** Sequences without a star with a minimum directly after a star *)
Lemma sone p it R : one_item it -> steady p (it :: R) -> steady false R.
Proof. intros O H. inversion H; subst; easy. Qed.
Lemma sstar p k R : steady p (IStar k :: R) -> (p = true -> k = 0) /\ steady true R.
Proof. intro H. inversion H; subst; easy. Qed.
Lemma slist p l R : steady p (IList l :: R) -> steady false R /\ (sl_min l = 0%Z -> steady p R).
Proof. intro H. inversion H; subst; easy. Qed.
Lemma sgroup p vals mn mx R : steady p (IGroup vals mn mx :: R) -> (forall v, In v vals -> steady p (val_items v ++ R)) /\ (mn = 0%Z -> steady p R).
Proof. intro H. inversion H; subst; easy. Qed.
Lemma steady_equal p F : steady p F -> forall F', Forall made F -> Forall made F' -> eqi F F' -> steady p F'.
Proof.
  induction 1 as [p|p it R L Q IH|p k R K Q IH|p l R Q IH Q2 IH2|p vals mn mx R Q IH Q2 IH2]; intros F' M M' E; inversion E as [|? b ? R' Eh Et]; subst; inversion M as [|? ? M1 M2]; inversion M' as [|? ? M1' M2']; subst.
  - constructor.
  - apply t_one; [|now apply IH]. destruct it; try easy; destruct b; easy.
  - destruct b; try discriminate. cbn in Eh. apply Nat.eqb_eq in Eh as <-. apply t_star; auto.
  - destruct b; try discriminate. cbn [item_equal] in Eh. apply sl_equal_eq in Eh as (Em & _). apply t_list; [now apply IH|]. rewrite <- Em. intro Z. now apply IH2.
  - destruct b; try discriminate. apply equal_erase in Eh. cbn [erase] in Eh. injection Eh as Eh. apply t_group.
    + intros w I. destruct (vals_eqi _ _ Eh w I) as (v & J & K). apply (IH v J); [| |now apply eqi_app]; apply Forall_app; (split; [|assumption]); apply c1_made.
      * now apply (proj1 M1).
      * now apply (proj1 M1').
    + intro Z. apply IH2; auto. eapply group_zero; [exact M1|exact M1'|exact Eh|exact Z].
Qed.
Lemma steady_prefix p F : steady p F -> forall A C, F = A ++ C -> steady p A.
Proof.
  induction 1 as [p|p it R L Q IH|p k R K Q IH|p l R Q IH Q2 IH2|p vals mn mx R Q IH Q2 IH2]; intros A C E; (destruct A as [|x A]; [constructor|]); try discriminate; injection E as <- E.
  - apply t_one; eauto.
  - apply t_star; eauto.
  - apply t_list; eauto.
  - apply t_group; [|eauto]. intros v I. apply (IH v I (val_items v ++ A) C). now rewrite E, app_assoc.
Qed.

(** ** Below a node *)
Definition gi (it : item) : Prop := made it /\ wfi true it.
Definition bs (p : bool) (its : list item) (t : tree) : Prop := forall path n, node_at t path n -> steady p (its ++ map fst path).
(** A term below the node t, whose path, after the items [its], fits the symbols w (all of them; an end of them) *)
Definition D (t : tree) (its : list item) (w : list str) (x : term) : Prop := exists path, holds t path x /\ dens (its ++ map fst path) w.
Definition X (t : tree) (its : list item) (w : list str) (x : term) : Prop := exists path, holds t path x /\ sfx w (its ++ map fst path).
Lemma bs_child p its t c i : bs p its t -> In c (t_childs t) -> t_item c = Some i -> bs p (its ++ [i]) c.
Proof. intros H I E path n N. rewrite <- app_assoc. apply (H ((i, t_reverse c) :: path) n). exists c. auto. Qed.
Lemma bs_map p q a b t : (forall R, steady p (a ++ R) -> steady q (b ++ R)) -> bs p a t -> bs q b t.
Proof. intros H K path n N. apply H. eapply K; eauto. Qed.
Lemma D_child t c i w x : In c (t_childs t) -> t_item c = Some i -> D c [i] w x -> D t [] w x.
Proof. intros I E (path & (n & H & T) & K). exists ((i, t_reverse c) :: path). split; [exists n; split; [|exact T]; exists c; auto|exact K]. Qed.
Lemma X_child t c i w x : In c (t_childs t) -> t_item c = Some i -> X c [i] w x -> X t [] w x.
Proof. intros I E (path & (n & H & T) & K). exists ((i, t_reverse c) :: path). split; [exists n; split; [|exact T]; exists c; auto|exact K]. Qed.
Lemma D_map t a b w w' x : (forall R, dens (a ++ R) w -> dens (b ++ R) w') -> D t a w x -> D t b w' x.
Proof. intros H (path & P & K). exists path. auto. Qed.
Lemma X_map t a b w w' x : (forall R, sfx w (a ++ R) -> sfx w' (b ++ R)) -> X t a w x -> X t b w' x.
Proof. intros H (path & P & K). exists path. auto. Qed.
Lemma DX_map t a b w w' x : (forall R, dens (a ++ R) w -> sfx w' (b ++ R)) -> D t a w x -> X t b w' x.
Proof. intros H (path & P & K). exists path. auto. Qed.
Lemma XD_map t a b w w' x : (forall R, sfx w (a ++ R) -> dens (b ++ R) w') -> X t a w x -> D t b w' x.
Proof. intros H (path & P & K). exists path. auto. Qed.
Lemma D_here it r x cs : D (TNode it r (Some x) cs) [] [] x.
Proof. exists []. split; [exists (TNode it r (Some x) cs); split; reflexivity|reflexivity]. Qed.
Lemma X_here it r x cs w : X (TNode it r (Some x) cs) [] w x.
Proof. exists []. split; [exists (TNode it r (Some x) cs); split; reflexivity|]. exists w, []. rewrite app_nil_r. split; reflexivity. Qed.

Definition TM f := forall t s it, every gi t -> t_item t = Some it -> bs false [it] t -> so (D t [it] (symbols s)) (t_match f t s).
Definition TS f := forall t s o it, every gi t -> t_item t = Some it -> bs true [it] t -> so (X t [it] (symbols s)) (t_match_star f t s o).
Definition TL f := forall t l s, every gi t -> bs false [] t -> Forall clean (sl_vals l) ->
  match t_match_star_list f t l s with
  | Ok (o, s1) => (forall x, In x (fst o) -> X t [IList l] (symbols s) x) /\ exists z, symbols s = z ++ symbols s1
  | _ => True
  end.
Definition TI f := forall t s items, every gi t -> Forall c1 items -> Forall (wfi true) items -> bs false items t -> so (D t items (symbols s)) (t_items f t s items).
Definition TSI f := forall t s items, every gi t -> Forall c1 items -> Forall (wfi true) items -> bs true items t -> so (X t items (symbols s)) (t_star_items f t s items).

Lemma every_child t c : every gi t -> In c (t_childs t) -> every gi c /\ exists i, t_item c = Some i.
Proof. intros H I. inversion H as [it r tm cs H1 H2]; subst. specialize (H2 c I). split; [exact H2|]. inversion H2; subst. cbn. eauto. Qed.
Lemma so_matches f t s : TM f -> every gi t -> bs false [] t -> so (D t [] (symbols s)) (oall (fun c => t_match f c s) (t_childs t)).
Proof.
  intros H E Q. apply so_all. intros c I. destruct (every_child t c E I) as (Ec & i & Ei). eapply so_mono; [|apply (H c s i Ec Ei (bs_child _ [] _ _ _ Q I Ei))].
  intros x K. eapply D_child; eauto.
Qed.
Lemma so_stars f t s o : TS f -> every gi t -> bs true [] t -> so (X t [] (symbols s)) (oall (fun c => t_match_star f c s o) (t_childs t)).
Proof.
  intros H E Q. apply so_all. intros c I. destruct (every_child t c E I) as (Ec & i & Ei). eapply so_mono; [|apply (H c s o i Ec Ei (bs_child _ [] _ _ _ Q I Ei))].
  intros x K. eapply X_child; eauto.
Qed.
Lemma so_here f it r tm cs s : let t := TNode it r tm cs in TM f -> every gi t -> bs false [] t ->
  so (D t [] (symbols s)) (oseq (emit_if (null s) tm) (oall (fun c => t_match f c s) cs)).
Proof.
  intros t H E Q. apply so_seq; [|now apply (so_matches f t s)]. apply so_emit_if. intros Ns x ->. apply null_symbols in Ns. rewrite Ns. apply D_here.
Qed.
Lemma so_star_here f it r tm cs s o : let t := TNode it r tm cs in TS f -> every gi t -> bs true [] t ->
  so (X t [] (symbols s)) (oseq (Ok (emit tm)) (oall (fun c => t_match_star f c s o) cs)).
Proof. intros t H E Q. apply so_seq; [|now apply (so_stars f t s o)]. apply so_emit. intros x ->. apply X_here. Qed.

Lemma dens_cons_one it R x y : den it x -> dens R y -> dens (it :: R) (x ++ y).
Proof. intros H K. exists x, y. auto. Qed.
Lemma lit_one it : literal_item it -> one_item it.
Proof. destruct it; easy. Qed.
Lemma star_skip k s off : skip_runes s k = Some off -> k <= length (symbols s) /\ symbols (skipn off s) = skipn k (symbols s).
Proof.
  rewrite skip_runes_symbols. destruct (Nat.leb_spec k (length (symbols s))) as [L|]; [|discriminate]. intros [= <-]. split; [exact L|].
  assert (Es : symbols s = firstn k (symbols s) ++ skipn k (symbols s)) by (symmetry; apply firstn_skipn). now destruct (len_concat_symbols _ _ _ Es) as (_ & Ey & _ & _).
Qed.
Lemma opt_list l R w : sl_min l = 0%Z -> dens R w -> dens (IList l :: R) w.
Proof. intros E H. exists [], w. split; [reflexivity|]. split; [now left|exact H]. Qed.
Lemma sfx_of (a b : list item) w : (forall w, dens a w -> dens b w) -> sfx w a -> sfx w b.
Proof. intros H (p & q & -> & K). exists p, q. auto. Qed.
Lemma star0 R w : sfx w R -> sfx w (IStar 0 :: R).
Proof. intros (p & q & -> & K). exists p, q. split; [reflexivity|]. exists [], q. split; [reflexivity|]. split; [cbn; lia|exact K]. Qed.

Lemma tree_sound : forall f, TM f /\ TS f /\ TL f /\ TI f /\ TSI f.
Proof.
  induction f as [|f (IM & IS & IL & II & ISI)]; [repeat split; red; intros; exact I|].
  split; [|split; [|split; [|split]]]; red.
  - (* t_match *)
    intros [it0 r tm cs] s it N E Q. cbn [t_item] in E. subst it0. cbn [t_match]. set (t := TNode (Some it) r tm cs) in *. destruct (zlen s <? item_min it)%Z; [apply so_none|].
    assert (G : gi it) by (inversion N; auto). destruct G as [Mk W].
    assert (One : one_item it -> forall off, match item_match it s with (Some o, FindDone) => o = off | _ => False end ->
       so (D t [it] (symbols s)) (oseq (emit_if (null (skipn off s)) tm) (oall (fun c => t_match f c (skipn off s)) cs))).
    { intros O off H. pose proof (item_match_one true it s W O) as M. destruct (item_match it s) as [[o|] fl]; [|destruct H]. destruct M as (-> & x & y & Ey & Dx & ->). subst off.
      destruct (len_concat_symbols _ _ _ Ey) as (_ & E2 & _ & _). eapply so_mono; [|apply (so_here f (Some it) r tm cs); auto; revert Q; apply bs_map; intros R; apply sone; exact O].
      intros z. apply D_map. intros R K. rewrite E2 in K. rewrite Ey. cbn [app] in *. now apply dens_cons_one. }
    pose proof (item_match_flag it s) as Fl. destruct (item_match it s) as [[off|] fl] eqn:Em; [|apply so_none]. specialize (Fl off fl eq_refl).
    destruct it as [x|x|x|x|x|x|l|vals mn mx|x]; try (exfalso; exact Mk); subst fl; try (apply One; [exact I|reflexivity]); clear One.
    + cbn [item_match] in Em. injection Em as Em. apply star_skip in Em as [L Es].
      destruct (null cs) eqn:Nc.
      * apply so_emit. intros y ->. exists []. split; [exists t; split; reflexivity|]. apply sfx_star. split; [exact L|]. exists (skipn x (symbols s)), []. rewrite app_nil_r. split; reflexivity.
      * eapply so_mono; [|apply (so_stars f t); auto; revert Q; apply bs_map; intros R K; now apply sstar in K].
        intros z. apply XD_map. intros R K. rewrite Es in K. cbn [app] in *. apply sfx_star. auto.
    + assert (off = 0) as -> by (cbn in Em; congruence). cbn [skipn]. destruct W as (Cv & _ & _ & _). rewrite Forall_forall in Cv.
      assert (Q' : bs false [] t) by (revert Q; apply bs_map; intros R K; now apply slist in K). apply so_seq.
      * destruct (sl_optional l) eqn:Z; [|apply so_none]. eapply so_mono; [|apply (so_here f (Some (IList l)) r tm cs); auto]. intros z. apply D_map. intros R. apply opt_list. unfold sl_optional in Z. lia.
      * apply so_all. intros v I. pose proof (match_val_spec s v (Cv v I)) as M. destruct (match_val s v) as [o|]; [|apply so_none]. destruct M as [-> Es].
        eapply so_mono; [|apply (so_here f (Some (IList l)) r tm cs); auto]. intros z. apply D_map. intros R K. rewrite Es. cbn [app] in *. apply dens_cons_one; auto. right. eauto.
    + assert (off = 0) as -> by (cbn in Em; congruence). cbn [skipn]. apply so_seq.
      * destruct (group_optional mn) eqn:Z; [|apply so_none]. assert (Z0 : mn = 0%Z) by (unfold group_optional in Z; lia).
        eapply so_mono; [|apply (so_here f (Some (IGroup vals mn mx)) r tm cs); auto; revert Q; apply bs_map; intros R K; apply sgroup in K; now apply K]. intros z. apply D_map. intros R K. now apply group_opt.
      * apply so_all. intros v I. eapply so_mono; [|apply II; auto; [now apply (proj1 Mk)|eapply wfi_group_vals; eauto|revert Q; apply bs_map; intros R K; apply sgroup in K; now apply K]].
        intros z. apply D_map. intros R K. cbn [app]. apply dens_group_cons. eauto.
  - (* t_match_star *)
    intros [it0 r tm cs] s o it N E Q. cbn [t_item] in E. subst it0. cbn [t_match_star]. set (t := TNode (Some it) r tm cs) in *. destruct (zlen s <? item_min it)%Z; [apply so_none|].
    assert (G : gi it) by (inversion N; auto). destruct G as [Mk W].
    assert (Sh : forall s o, so (X t [it] (symbols s)) (let '(_, n) := decode_rune s in if Nat.eqb n 0 then Ok out_none else t_match_star f t (skipn n s) o)).
    { intros s' o'. pose proof (decode_head s') as Dh. destruct (decode_rune s') as [c n]. cbn [snd] in Dh. destruct n as [|n]; [apply so_none|]. cbn [Nat.eqb].
      destruct Dh as (h & y & _ & Et & Es & _). rewrite Et. eapply so_mono; [|now apply (IS t y o' it)]. intros z. apply X_map. intros R K. rewrite Es. now apply (sfx_app [h]). }
    assert (Done : literal_item it -> forall off n fl, item_find it s = (Some off, Some n, fl) ->
        so (X t [it] (symbols s)) (oseq (if null (skipn n (skipn off s)) && null cs && match tm with Some _ => true | None => false end then Ok (emit tm) else oall (fun c => t_match f c (skipn n (skipn off s))) cs)
                   (let '(_, n0) := decode_rune (skipn off s) in if Nat.eqb n0 0 then Ok out_none else t_match_star f t (skipn n0 (skipn off s)) o))).
    { intros L off n fl Ef. destruct (find_sound true it s off n fl W L Ef) as (pre & x & y & Es & Dx & -> & ->).
      destruct (len_concat_symbols _ _ _ Es) as (_ & Ey & _ & _). destruct (len_concat_symbols _ _ _ Ey) as (_ & Ez & _ & _). apply so_seq.
      - set (sub := skipn (length (concat x)) (skipn (length (concat pre)) s)) in *.
        assert (J : forall z, D t [] (symbols sub) z -> X t [it] (symbols s) z).
        { intros z. apply DX_map. intros R K. rewrite Ez in K. rewrite Es. apply sfx_app. apply dens_sfx. cbn [app] in *. now apply dens_cons_one. }
        destruct (null sub) eqn:Ns; cbn [andb].
        + destruct (null cs && _) eqn:Nc.
          * apply so_emit. intros z ->. apply J. apply null_symbols in Ns. rewrite Ns. apply D_here.
          * eapply so_mono; [exact J|]. apply (so_matches f t); auto. revert Q. apply bs_map. intros R. apply sone. now apply lit_one.
        + eapply so_mono; [exact J|]. apply (so_matches f t); auto. revert Q. apply bs_map. intros R. apply sone. now apply lit_one.
      - eapply so_mono; [|apply Sh]. intros z. apply X_map. intros R K. rewrite Ey in K. rewrite Es. apply sfx_app. exact K. }
    pose proof (item_find_flag it s) as Fl. destruct (item_find it s) as [[[off|] len] fl] eqn:Ef; [|apply so_none]. specialize (Fl off len fl eq_refl).
    destruct it as [x|x|x|x|x|x|l|vals mn mx|x]; try (exfalso; exact Mk); try (destruct Fl as [-> Fl]; destruct (after_found len (skipn off s)) as [sub|] eqn:Ea; [|exact I]; apply after_found_inv in Ea as (n & -> & _ & ->); apply (Done I _ _ _ eq_refl)); clear Done.
    + cbn [item_find] in Ef. injection Ef as _ _ <-. exact I.
    + subst fl. assert (x = 0 /\ off = 0) as [-> ->].
      { split; [|cbn [item_find] in Ef; congruence]. specialize (Q [] t eq_refl). cbn [app map] in Q. apply sstar in Q as [Q _]. now apply Q. }
      cbn [skipn]. destruct (null cs && _).
      * apply so_emit. intros z ->. exists []. split; [exists t; split; reflexivity|]. apply star0. exists (symbols s), []. rewrite app_nil_r. split; reflexivity.
      * eapply so_mono; [|apply (so_stars f t); auto; revert Q; apply bs_map; intros R K; now apply sstar in K]. intros z. apply X_map. intros R. cbn [app]. apply star0.
    + subst fl. assert (off = 0) as -> by (cbn in Ef; congruence). cbn [skipn]. assert (Q' : bs false [] t) by (revert Q; apply bs_map; intros R K; now apply slist in K). apply so_seq.
      * destruct (sl_optional l && o) eqn:Z; [|apply so_none]. assert (Z0 : sl_min l = 0%Z) by (unfold sl_optional in Z; lia).
        eapply so_mono; [|apply (so_star_here f (Some (IList l)) r tm cs); auto; revert Q; apply bs_map; intros R K; apply slist in K; now apply K]. intros z. apply X_map. intros R. cbn [app]. apply sfx_of. intro w. now apply opt_list.
      * pose proof (IL t l s N Q' (proj1 W)) as K. destruct (t_match_star_list f t l s) as [[o1 s1]|e| |]; try exact I. cbn [bind]. destruct K as (K & z & Es).
        pose proof (decode_head s1) as Dh. destruct (decode_rune s1) as [c n]. cbn [snd] in Dh. apply so_seq; [exact K|]. destruct n as [|n].
        -- subst s1. cbn [skipn]. eapply so_mono; [|apply Sh]. intros y. apply X_map. intros R K2. rewrite Es. now apply sfx_app.
        -- destruct Dh as (h & y & _ & Et & Ey & _). rewrite Et. eapply so_mono; [|apply Sh]. intros u. apply X_map. intros R K2. rewrite Es, Ey. apply sfx_app. now apply (sfx_app [h]).
    + subst fl. assert (off = 0) as -> by (cbn in Ef; congruence). cbn [skipn]. apply so_seq.
      * destruct (group_optional mn) eqn:Z; [|apply so_none]. assert (Z0 : mn = 0%Z) by (unfold group_optional in Z; lia).
        eapply so_mono; [|apply (so_star_here f (Some (IGroup vals mn mx)) r tm cs); auto; revert Q; apply bs_map; intros R K; apply sgroup in K; now apply K]. intros z. apply X_map. intros R. cbn [app]. apply sfx_of. intros w K. now apply group_opt.
      * apply so_all. intros v I. eapply so_mono; [|apply ISI; auto; [now apply (proj1 Mk)|eapply wfi_group_vals; eauto|revert Q; apply bs_map; intros R K; apply sgroup in K; now apply K]].
        intros z. apply X_map. intros R. cbn [app]. apply sfx_of. intros w K. apply dens_group_cons. eauto.
  - (* t_match_star_list *)
    intros [it0 r tm cs] l s N Q C. cbn [t_match_star_list]. set (t := TNode it0 r tm cs) in *.
    assert (V : forall vs offset o, incl vs (sl_vals l) -> (forall x, In x (fst o) -> X t [IList l] (symbols s) x) ->
      (forall k, offset = Some k -> exists pre y, symbols s = pre ++ y /\ k = length (concat pre)) ->
      match (fix go (vs : list str) (offset : option nat) (o : out) : res (out * option nat) :=
               match vs with
               | [] => Ok (o, offset)
               | v :: vs' =>
                   match find_val s v with
                   | None => go vs' offset o
                   | Some k =>
                       let offset' := match offset with
                                      | None => Some k
                                      | Some p => if p <? k then Some k else Some p
                                      end in
                       bind (oseq (emit_if (null (skipn (k + length v) s)) tm) (oall (fun c => t_match f c (skipn (k + length v) s)) cs)) (fun o' => go vs' offset' (out_app o o'))
                   end
               end) vs offset o with
      | Ok (o, offset) => (forall x, In x (fst o) -> X t [IList l] (symbols s) x) /\ (forall k, offset = Some k -> exists pre y, symbols s = pre ++ y /\ k = length (concat pre))
      | _ => True
      end).
    { induction vs as [|v vs IH]; intros offset o In0 Ho Hk; [auto|]. assert (Iv : In v (sl_vals l)) by (apply In0; now left).
      assert (In1 : incl vs (sl_vals l)) by (intros z Iz; apply In0; now right). rewrite Forall_forall in C. pose proof (find_text_spec s v (C v Iv)) as Fv. fold (find_val s v) in Fv.
      destruct (find_val s v) as [k|]; [|now apply IH]. destruct Fv as (pre & y & Es & -> & _).
      destruct (len_concat_symbols _ _ _ Es) as (_ & Ey & _ & _). destruct (len_concat_symbols _ _ _ Ey) as (_ & Ez & _ & _). rewrite concat_symbols, skipn_plus in Ez.
      pose proof (so_here f it0 r tm cs (skipn (length (concat pre) + length v) s) IM N Q) as Hh. cbv zeta.
      destruct (oseq _ _) as [o'|e| |]; try exact I. cbn [bind]. apply IH; auto.
      - cbn [out_app fst]. intros x J. apply in_app_or in J as [J|J]; [auto|]. apply Hh in J. revert J. apply DX_map. intros R K. rewrite Ez in K. rewrite Es. apply sfx_app, dens_sfx. cbn [app] in *. apply dens_cons_one; auto. right. eauto.
      - intros k. destruct offset as [p|]; [|intros [= <-]; eauto]. destruct (p <? _); intros [= <-]; eauto. }
    specialize (V (sl_vals l) None out_none (incl_refl _)). destruct ((fix go (vs : list str) (offset : option nat) (o : out) : res (out * option nat) := _) (sl_vals l) None out_none) as [[o [k|]]|e| |]; try exact I; cbn [bind].
    + destruct V as [Ho Hk]; [intros x []|discriminate|]. destruct (Hk k eq_refl) as (pre & y & Es & ->). destruct (len_concat_symbols _ _ _ Es) as (_ & Ey & _ & _). set (s1 := skipn (length (concat pre)) s) in *.
      pose proof (decode_head s1) as Dh. destruct (decode_rune s1) as [c n]. cbn [snd] in Dh. destruct n as [|n]; cbn [Nat.eqb].
      * split; [exact Ho|]. exists pre. now rewrite Ey.
      * destruct Dh as (h & z & _ & Et & E1 & _). rewrite Et. pose proof (IL t l z N Q C) as K. destruct (t_match_star_list f t l z) as [[o' s']|e| |]; try exact I. cbn [bind]. destruct K as (K & z' & E2). split.
        -- cbn [out_app fst]. intros x J. apply in_app_or in J as [J|J]; [auto|]. apply K in J. revert J. apply X_map. intros R Kx. rewrite Es, <- Ey, E1. apply sfx_app. now apply (sfx_app [h]).
        -- exists (pre ++ h :: z'). rewrite Es, <- Ey, E1, E2. now rewrite <- app_assoc.
    + destruct V as [Ho _]; [intros x []|discriminate|]. split; [exact Ho|]. exists []. reflexivity.
  - (* t_items *)
    intros [it0 r tm cs] s items N C W Q. cbn [t_items]. set (t := TNode it0 r tm cs) in *. destruct items as [|it rest]; [now apply (so_here f it0 r tm cs)|].
    inversion C as [|? ? C1 C2]; subst. inversion W as [|? ? W1 W2]; subst. destruct (zlen s <? item_min it)%Z; [apply so_none|].
    assert (One : one_item it -> forall off, match item_match it s with (Some o, FindDone) => o = off | _ => False end -> so (D t (it :: rest) (symbols s)) (t_items f t (skipn off s) rest)).
    { intros O off H. pose proof (item_match_one true it s W1 O) as M. destruct (item_match it s) as [[o|] fl]; [|destruct H]. destruct M as (-> & x & y & Ey & Dx & ->). subst off.
      destruct (len_concat_symbols _ _ _ Ey) as (_ & E2 & _ & _). eapply so_mono; [|apply II; auto; revert Q; apply bs_map; intros R; apply sone; exact O].
      intros z. apply D_map. intros R K. rewrite E2 in K. rewrite Ey. cbn [app] in *. now apply dens_cons_one. }
    pose proof (item_match_flag it s) as Fl. destruct (item_match it s) as [[off|] fl] eqn:Em; [|apply so_none]. specialize (Fl off fl eq_refl).
    destruct it as [x|x|x|x|x|x|l|vals mn mx|x]; try (exfalso; exact C1); subst fl; try (apply One; [exact I|reflexivity]); clear One.
    cbn [item_match] in Em. injection Em as Em. apply star_skip in Em as [L Es]. assert (Q' : bs true rest t) by (revert Q; apply bs_map; intros R K; now apply sstar in K).
    assert (J : forall z, X t rest (symbols (skipn off s)) z -> D t (IStar x :: rest) (symbols s) z).
    { intros z. apply XD_map. intros R K. rewrite Es in K. cbn [app]. apply sfx_star. auto. }
    destruct (null rest) eqn:Er.
    + destruct rest; [|discriminate]. eapply so_mono; [exact J|]. now apply (so_star_here f it0 r tm cs).
    + apply so_seq; [eapply so_mono; [exact J|now apply ISI]|]. eapply so_mono; [|apply II; auto]. intros z. apply D_map. intros R K. cbn [app] in *. apply sfx_star_dens.
      rewrite <- (firstn_skipn x (symbols s)), <- Es. apply sfx_app. now apply dens_sfx.
  - (* t_star_items *)
    intros [it0 r tm cs] s items N C W Q. cbn [t_star_items]. set (t := TNode it0 r tm cs) in *. destruct items as [|it rest]; [now apply (so_star_here f it0 r tm cs)|].
    inversion C as [|? ? C1 C2]; subst. inversion W as [|? ? W1 W2]; subst. destruct (zlen s <? item_min it)%Z; [apply so_none|].
    assert (Done : literal_item it -> forall off n fl, item_find it s = (Some off, Some n, fl) -> so (X t (it :: rest) (symbols s)) (oseq (t_items f t (skipn n (skipn off s)) rest)
                   (let '(_, n0) := decode_rune (skipn off s) in if Nat.eqb n0 0 then Ok out_none else t_star_items f t (skipn n0 (skipn off s)) (it :: rest)))).
    { intros L off n fl Ef. destruct (find_sound true it s off n fl W1 L Ef) as (pre & x & y & Es & Dx & -> & ->).
      destruct (len_concat_symbols _ _ _ Es) as (_ & Ey & _ & _). destruct (len_concat_symbols _ _ _ Ey) as (_ & Ez & _ & _). apply so_seq.
      - eapply so_mono; [|apply II; auto; revert Q; apply bs_map; intros R; apply sone; now apply lit_one]. intros z. apply DX_map. intros R K. rewrite Ez in K. rewrite Es. apply sfx_app, dens_sfx. cbn [app] in *. now apply dens_cons_one.
      - set (s1 := skipn (length (concat pre)) s) in *. pose proof (decode_head s1) as Dh. destruct (decode_rune s1) as [c k]. cbn [snd] in Dh. destruct k as [|k]; [apply so_none|]. cbn [Nat.eqb].
        destruct Dh as (h & z & _ & Et & E1 & _). rewrite Et. eapply so_mono; [|now apply ISI]. intros u. apply X_map. intros R K. rewrite Es, <- Ey, E1. apply sfx_app. now apply (sfx_app [h]). }
    pose proof (item_find_flag it s) as Fl. destruct (item_find it s) as [[[off|] len] fl] eqn:Ef; [|apply so_none]. specialize (Fl off len fl eq_refl).
    destruct it as [x|x|x|x|x|x|l|vals mn mx|x]; try (exfalso; exact C1); try (destruct Fl as [-> Fl]; destruct (after_found len (skipn off s)) as [sub|] eqn:Ea; [|exact I]; apply after_found_inv in Ea as (n & -> & _ & ->); apply (Done I _ _ _ eq_refl)); clear Done.
    + cbn [item_find] in Ef. injection Ef as _ _ <-. exact I.
    + subst fl. assert (x = 0 /\ off = 0) as [-> ->].
      { split; [|cbn [item_find] in Ef; congruence]. specialize (Q [] t eq_refl). cbn [app map] in Q. apply sstar in Q as [Q _]. now apply Q. }
      cbn [skipn]. assert (Q' : bs true rest t) by (revert Q; apply bs_map; intros R K; now apply sstar in K).
      assert (J : forall z, X t rest (symbols s) z -> X t (IStar 0 :: rest) (symbols s) z) by (intros z; apply X_map; intros R; cbn [app]; apply star0).
      destruct (null rest) eqn:Er; [|eapply so_mono; [exact J|now apply ISI]]. destruct rest; [|discriminate]. eapply so_mono; [exact J|]. now apply (so_star_here f it0 r tm cs).
Qed.

(** ** The tree of a history *)
Definition paths_all (P : item -> Prop) (E : list entry) : Prop := forall e g, In e E -> glob_parse (e_text e) = Ok g -> Forall (fun e : elem => P (fst e)) (glob_path g).
Definition paths_inv (E : list entry) (gt : glob_tree) : Prop := tree_inv E gt /\ forall P : item -> Prop, paths_all P E -> rooted P (gt_root gt).
Lemma paths_step E gt text i : paths_inv E gt -> exists gt' r new, gt_add gt text i = Ok (gt', r) /\ registers gl_canon E text i new r /\
  paths_inv (match new with Some e => E ++ [e] | None => E end) gt' /\ (new = None -> gt' = gt).
Proof.
  intros [T V]. destruct (gt_step E gt text i T) as (gt' & r & new & A & R & T' & N). exists gt', r, new. split; [exact A|]. split; [exact R|]. split; [|exact N].
  split; [exact T'|]. intros P G. destruct new as [e|]; [|rewrite N by reflexivity; now apply V].
  inversion R as [| | | | | |q N1 N2 N3 N4 N5 N6]; subst. unfold gl_canon in N5. unfold gt_add in A.
  replace (null text) with false in A by now destruct text. destruct (Z.ltb_spec i 0); [lia|]. destruct (lookup str_eqb text (gt_globs gt)); [congruence|]. destruct (lookup Z.eqb i (gt_index gt)); [congruence|].
  destruct (glob_parse text) as [g|e| |] eqn:Pg; try congruence. destruct (lookup str_eqb (g_node g) (gt_globs gt)); [congruence|].
  assert (gt' = gt_accept gt g (g_node g) i) as -> by congruence. unfold gt_accept, add_glob. cbn [gt_root]. apply rooted_insert.
  - apply V; auto. intros e g' I. apply G. apply in_or_app. now left.
  - apply (G (mkEntry text q i)); [apply in_or_app; right; now left|exact Pg].
Qed.
Lemma history_paths calls gt rs E : run_adds gt_add gt_new calls = Ok (gt, rs) -> history gl_canon calls rs E -> paths_inv E gt.
Proof.
  intros R H. assert (I0 : paths_inv [] gt_new) by (split; [apply tree_new_inv|]; intros P _ c []).
  destruct (run_history gt_add gl_canon paths_inv paths_step gt_new I0 calls) as (gt0 & rs0 & E0 & R0 & H0 & V).
  rewrite R in R0. injection R0 as <- <-. destruct (history_fun _ _ _ _ H _ _ H0) as [_ ->]. exact V.
Qed.
Lemma parse_path_gi g gl : clean g -> ~ In zero g -> plain_singles g -> glob_parse g = Ok gl -> Forall (fun e : elem => gi (fst e)) (glob_path gl).
Proof.
  intros C Z P H. pose proof (parse_made g gl H) as M.
  destruct (parse_facts true g gl) as (px & sx & mn & mx & rl & Eg & G & _); auto; [split; [auto|split; [auto|discriminate]]|]. destruct G as (Cp & Cs & W & _).
  destruct (rev rl) as [|i0 its0] eqn:Er; [rewrite (path_literal g gl H) by (rewrite Eg; reflexivity); constructor|].
  assert (E1 : g_prefix gl = px /\ g_suffix gl = sx /\ g_items gl = rev rl) by (rewrite Eg, Er; repeat split; reflexivity). destruct E1 as (E1 & E2 & E3).
  unfold glob_path. rewrite E1, E2. apply Forall_app. split; [destruct (null sx); repeat constructor; exact Cs|]. apply Forall_app. split; [destruct (null px); repeat constructor; exact Cp|].
  rewrite Forall_map. cbn [fst]. rewrite Forall_forall in *. intros it I. split; [now apply M|]. rewrite E3 in I. apply W. now apply in_rev.
Qed.
Lemma path_denotes g gl w : clean g -> ~ In zero g -> plain_singles g -> glob_parse g = Ok gl -> glob_path gl <> [] -> (pden (glob_path gl) w <-> denotes g w).
Proof.
  intros C Z P H N. assert (Ni : g_items gl <> []) by (intro K; apply N; eapply path_literal; eauto).
  destruct (parse_facts true g gl) as (px & sx & mn & mx & rl & Eg & _ & Dn); auto; [split; [auto|split; [auto|discriminate]]|].
  rewrite pden_path, Dn. subst gl. destruct (rev rl); [now elim Ni|]. reflexivity.
Qed.
Lemma path_steady gl : steady false (g_items gl) -> steady false (map fst (glob_path gl)).
Proof.
  intro H. unfold glob_path. rewrite !map_app, map_map, map_id. destruct (null (g_suffix gl)), (null (g_prefix gl)); cbn [map fst app]; repeat (apply t_one; [exact I|]); exact H.
Qed.
Lemma node_gi : forall p t n, every gi t -> node_at t p n -> Forall made (map fst p).
Proof.
  induction p as [|[it r] p IH]; intros t n N H; [constructor|]. destruct H as (c & I & E & _ & H). destruct (every_child t c N I) as (Nc & _). cbn [map fst]. constructor; [|now apply (IH c n)].
  inversion Nc as [? ? ? ? G _]; subst. cbn in E. injection E as <-. apply G.
Qed.
Lemma history_sound calls gt rs E f s l n q i : run_adds gt_add gt_new calls = Ok (gt, rs) -> history gl_canon calls rs E ->
  (forall e, In e E -> clean (e_text e) /\ ~ In zero (e_text e) /\ plain_singles (e_text e)) ->
  (forall e g, In e E -> glob_parse (e_text e) = Ok g -> steady false (g_items g)) ->
  gt_match f gt s = Ok (l, n) -> In (q, i) l ->
  exists e, In e E /\ e_node e = q /\ e_index e = i /\ denotes (e_text e) (symbols s).
Proof.
  intros R H K Q M Il. destruct (history_paths _ _ _ _ R H) as [T V].
  assert (G : rooted gi (gt_root gt)). { apply V. intros e g I P. destruct (K e I) as (C & Z & Pl). eapply parse_path_gi; eauto. }
  destruct T as (_ & _ & TP & _ & L & _). set (root := gt_root gt) in *.
  assert (B : forall p m, node_at root p m -> steady false (map fst p) /\ (forall it p', p = (it, true) :: p' -> exists x, it = IStr x)).
  { intros p m Hm. destruct p as [|e p]; [split; [constructor|discriminate]|].
    destruct (L (e :: p) m ltac:(discriminate) Hm) as (p2 & x & m2 & Hm2 & Hx).
    assert (Hh : holds root ((e :: p) ++ p2) x). { exists m2. split; [|exact Hx]. apply node_at_app. eauto. }
    destruct (TP ((e :: p) ++ p2) x) as (e0 & g & I & P & _ & Eq); [discriminate|exact Hh|]. split.
    - apply (steady_prefix false (map fst ((e :: p) ++ p2))) with (C := map fst p2); [|now rewrite map_app].
      eapply steady_equal; [eapply path_steady, Q; eauto| | |apply eqp_eqi, eqp_sym; exact Eq].
      + rewrite Forall_map. apply path_all; [intro; constructor|]. eapply parse_made; eauto.
      + destruct Hh as (m' & Hh & _). destruct e as [it r]. destruct Hh as (c & Ic & Ec & _ & Hh). cbn [map fst]. assert (Nc : every gi c) by now apply G. constructor.
        * inversion Nc as [? ? ? ? Gi _]; subst. cbn in Ec. injection Ec as <-. apply Gi.
        * eapply node_gi; eauto.
    - intros it p' E0. injection E0 as -> ->. cbn [app] in Eq. unfold glob_path in Eq. destruct (null (g_suffix g)).
      + exfalso. cbn [app] in Eq. destruct (null (g_prefix g)).
        * cbn [app] in Eq. destruct (g_items g); inversion Eq as [|? ? ? ? [_ Y] _]; subst. discriminate Y.
        * inversion Eq as [|? ? ? ? [_ Y] _]; subst. discriminate Y.
      + inversion Eq as [|? ? ? ? [Y _] _]; subst. cbn in Y. apply equal_sym, equal_str in Y. eauto. }
  assert (Fin : exists p, p <> [] /\ holds root p (q, i) /\ pden p (symbols s)).
  { assert (So : so (fun x => exists p, p <> [] /\ holds root p x /\ pden p (symbols s)) (gt_match f gt s)); [|rewrite M in So; apply (So (q, i)); exact Il].
    unfold gt_match, tree_match. fold root. apply so_all. intros c I. assert (N : every gi c) by now apply G. inversion N as [it r tm cs Gi Gc]; subst c.
    assert (Bc : bs false [it] (TNode (Some it) r tm cs)).
    { intros path m Hn. apply (B ((it, r) :: path) m). exists (TNode (Some it) r tm cs). auto. }
    cbn [t_reverse t_item t_term t_childs]. destruct r.
    - destruct (B [(it, true)] (TNode (Some it) true tm cs)) as [_ Kx]; [exists (TNode (Some it) true tm cs); repeat split; auto|]. destruct (Kx it [] eq_refl) as (x & ->). destruct Gi as [_ Cx].
      destruct (zlen s <? item_min (IStr x))%Z; [apply so_none|]. cbn [item_match_last bind]. destruct (has_suffix s x) eqn:Sf; [|apply so_none].
      apply has_suffix_iff in Sf as (s0 & ->). rewrite app_length, Nat.add_sub, firstn_app, firstn_all, Nat.sub_diag. cbn [firstn]. rewrite app_nil_r.
      eapply so_mono; [|apply (so_here f (Some (IStr x)) true tm cs); [apply tree_sound|exact N|revert Bc; apply bs_map; intros RR; now apply sone]].
      intros y (path & (m & Hm & Tm) & Dn). exists ((IStr x, true) :: path). split; [discriminate|]. split; [exists m; split; [|exact Tm]; exists (TNode (Some (IStr x)) true tm cs); auto|].
      cbn [pden]. exists (symbols s0). split; [|exact Dn]. apply symbols_app. now apply bnd_clean.
    - eapply so_mono; [|apply (proj1 (tree_sound f) _ s it); auto]. intros y (path & (m & Hm & Tm) & Dn). exists ((it, false) :: path). split; [discriminate|].
      split; [exists m; split; [|exact Tm]; exists (TNode (Some it) false tm cs); auto|]. rewrite pden_first. destruct it; exact Dn. }
  destruct Fin as (p & Np & Hp & Dp). destruct (TP p (q, i) Np Hp) as (e & g & Ie & Pg & Ex & Eq). injection Ex as -> ->. destruct (K e Ie) as (C & Z & Pl).
  exists e. split; [exact Ie|]. split; [reflexivity|]. split; [reflexivity|]. apply (path_denotes (e_text e) g); auto.
  - intro Y. rewrite Y in Eq. inversion Eq; subst. now apply Np.
  - now apply (eqp_pden _ _ _ Eq).
Qed.

(** ** A check *)
Lemma more_split it r : more (it :: r) -> more r \/ exists k n b, it = IStar k /\ r = IStar (S n) :: b.
Proof. intros (a & k & n & b & E). destruct a as [|x a]; injection E as E1 E2; [right; eauto|left; exists a, k, n, b; exact E2]. Qed.
Lemma path_more : forall F r, path F r -> forall p : bool, steady p F -> ~ more (if p then IStar 0 :: r else r).
Proof.
  assert (Nil : forall p : bool, ~ more (if p then [IStar 0] else [])).
  { intros p M. destruct p; [apply more_split in M as [M|(k & n & b & _ & E)]; [|discriminate]|]; destruct M as (a & k & n & b & E); destruct a; discriminate. }
  assert (Cons : forall it r (p : bool), ~ more r -> (forall k, it <> IStar k) -> ~ more (if p then IStar 0 :: it :: r else it :: r)).
  { intros it r p N K M. assert (M' : more (it :: r)). { destruct p; [|exact M]. apply more_split in M as [M|(k & n & b & _ & E)]; [exact M|]. injection E as -> _. now elim (K (S n)). }
    apply more_split in M' as [M'|(k & n & b & -> & _)]; [auto|now elim (K k)]. }
  intros F r H. induction H as [F|it R r K P IH|l R r Z P IH|vals mn mx v R r I P IH|vals mn R mx r Z P IH]; intros p Q.
  - apply Nil.
  - destruct it as [x|x|x|x|k|x|l|vals mn mx|x]; try easy; try (apply Cons; [refine (IH false (sone p _ R _ Q)); exact Logic.I|discriminate]).
    + apply sstar in Q as [Q1 Q2]. specialize (IH true Q2). cbv iota in IH. intro M. assert (M' : more (IStar k :: r)).
      { destruct p; [|exact M]. specialize (Q1 eq_refl). subst k. apply more_split in M as [M|(k & n & b & _ & E)]; [exact M|discriminate]. }
      apply (more_star _ 0) in M'. auto.
    + apply slist in Q as [Q _]. apply Cons; [exact (IH false Q)|discriminate].
  - apply IH. now apply slist in Q as [_ Q]; apply Q.
  - apply IH. apply sgroup in Q as [Q _]. now apply Q.
  - apply IH. apply sgroup in Q as [_ Q]. now apply Q.
Qed.
Lemma steady_more F : steady false F -> ~ star_more F.
Proof. intros Q (r & a & k & n & b & P & E). apply (path_more F r P false Q). exists a, k, n, b. exact E. Qed.
Fixpoint steady_b (f : nat) (p : bool) (F : list item) : bool :=
  match f with
  | O => false
  | S f =>
    match F with
    | [] => true
    | it :: R =>
      match it with
      | IStr _ | IByte _ | IRune _ | IAny _ | IRanges _ => steady_b f false R
      | IStar k => (negb p || Nat.eqb k 0) && steady_b f true R
      | IList l => steady_b f false R && (negb (sl_min l =? 0)%Z || steady_b f p R)
      | IGroup vals mn _ => forallb (fun v => steady_b f p (val_items v ++ R)) vals && (negb (mn =? 0)%Z || steady_b f p R)
      | IChain _ _ _ => false
      end
    end
  end.
Lemma steady_b_ok : forall f p F, steady_b f p F = true -> steady p F.
Proof.
  induction f as [|f IH]; intros p F H; [discriminate|]. destruct F as [|it R]; [constructor|]. cbn [steady_b] in H.
  destruct it; try discriminate; try (apply t_one; [exact I|now apply IH]); apply andb_prop in H as [H1 H2].
  - apply t_star; [|now apply IH]. intros ->. cbn in H1. lia.
  - apply t_list; [now apply IH|]. intro Z. apply orb_prop in H2 as [H2|H2]; [lia|now apply IH].
  - apply t_group.
    + rewrite forallb_forall in H1. intros v I. apply IH. now apply H1.
    + intro Z. apply orb_prop in H2 as [H2|H2]; [lia|now apply IH].
Qed.
Lemma calm_or_more g gl : glob_parse g = Ok gl -> ~ In "?"%char g \/ ~ star_more (g_items gl) -> steady false (g_items gl).
Proof.
  intros H [N|N].
  - apply (steady_mono true), calm_steady. apply (parse_calm true false (fun _ => True) g); auto. now repeat split.
  - apply (paths_steady (list_sum (map wsize (g_items gl)))); auto.
    + apply (parse_calm true true (fun _ => True) g); auto. now repeat split.
    + intros r Pr (a & k & n & b & E). apply N. exists r, a, k, n, b. auto.
Qed.
