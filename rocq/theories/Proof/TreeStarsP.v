(** Trees of globs with stars in their lists: every glob that is not shadowed is reported. *)
From Verif Require Import Model.Tree Spec.Symbols Spec.Lang Spec.Safe.
From Verif Require Import Proof.Utf8P Proof.SymbolsP Proof.SkipP Proof.SortP Proof.ListP Proof.LangP Proof.ItemP Proof.MatchP Proof.SafeP Proof.PanicP Proof.StarsP Proof.TreeP Proof.TreeInsP.
From Coq Require Import Lia ZifyBool ZifyN ZifyNat.

(** ** Results that hold x, when there is a result *)
Definition co (x : term) (r : res out) : Prop := match r with Ok o => In x (fst o) | _ => True end.
Lemma co_left x a b : co x a -> co x (oseq a b).
Proof. unfold oseq. destruct a as [[la na]|e| |]; cbn; auto. destruct b as [[lb nb]|e| |]; cbn; auto. intro. apply in_or_app. auto. Qed.
Lemma co_right x a b : co x b -> co x (oseq a b).
Proof. unfold oseq. destruct a as [[la na]|e| |]; cbn; auto. destruct b as [[lb nb]|e| |]; cbn; auto. intro. apply in_or_app. auto. Qed.
Lemma co_all {A} x (g : A -> res out) l a : In a l -> co x (g a) -> co x (oall g l).
Proof. induction l as [|b l IH]; [easy|]. intros [->|I] H; cbn [oall]; [now apply co_left|]. apply co_right. auto. Qed.
Lemma co_emit x : co x (Ok (emit (Some x))).
Proof. now left. Qed.

(** ** What is kept *)
Definition ends_star (l : list item) : bool := match rev l with IStar _ :: _ => true | _ => false end.
Definition starry (it : item) : bool :=
  match it with IStar _ => true | IGroup vals _ _ => existsb (fun v => ends_star (val_items v)) vals | _ => false end.
(** [keep after t p x]: x is at the end of the path p of the tree t and the matcher looks at it there; [after]: t may be reached by a star. *)
Inductive keep : bool -> tree -> list item -> term -> Prop :=
| keep_here after it r cs x : (is_star it = true \/ (after = true /\ is_lit it = true) -> cs = []) -> keep after (TNode (Some it) r (Some x) cs) [it] x
| keep_below after it r tm cs c p x : In c cs -> keep (starry it) c p x -> keep after (TNode (Some it) r tm cs) (it :: p) x.
Lemma keep_mono a t p x : keep a t p x -> keep false t p x.
Proof. intro K. inversion K; subst; [constructor|econstructor; eauto]. intros [H'|[? _]]; [auto|discriminate]. Qed.
Definition under (e : bool) (tm : option term) (cs : list tree) (p : list item) (x : term) : Prop := (p = [] /\ tm = Some x) \/ exists c, In c cs /\ keep e c p x.
Lemma under_mono e tm cs p x : under e tm cs p x -> under false tm cs p x.
Proof. intros [H|(c & I & K)]; [now left|right]. exists c. split; auto. eapply keep_mono; eauto. Qed.
Lemma vrun_ends st l e : vrun st l e -> e = if null l then st else ends_star l.
Proof.
  unfold ends_star. induction 1 as [st|st it l e L V IH|n l e V IH|k l e V IH]; [reflexivity| | |]; cbn [null rev].
  - subst e. destruct l as [|i l]; [cbn; now destruct it|]. cbn [null rev]. destruct (rev l ++ [i]) as [|j r] eqn:E; [now destruct (rev l)|]. reflexivity.
  - subst e. destruct l as [|i l]; [reflexivity|]. cbn [null rev]. destruct (rev l ++ [i]) as [|j r] eqn:E; [now destruct (rev l)|]. reflexivity.
  - subst e. destruct l as [|i l]; [reflexivity|]. cbn [null rev]. destruct (rev l ++ [i]) as [|j r] eqn:E; [now destruct (rev l)|]. reflexivity.
Qed.

Section Complete.
Variable u : bool.
Definition nst (st : sstage) : Prop := st <> SStar.
Definition sst (st : sstage) : Prop := st = SStar \/ st = SMaybe.
(** after a value: reached by its star ([e]) or not *)
Definition vst (e : bool) (st : sstage) : Prop := if e then sst st else nst st.

Definition CM f := forall t s p x st st', nst st -> srun st p st' -> keep false t p x -> Forall (wfi u) p -> okstr u s -> dens p (symbols s) -> co x (t_match f t s).
Definition CS f := forall t s b p x st st', sst st -> srun st p st' -> keep true t p x -> Forall (wfi u) p -> okstr u s -> sfx (symbols s) p -> co x (t_match_star f t s b).
Definition CL f := forall it0 r tm cs l s p x st', srun SStarList p st' -> under false tm cs p x -> Forall (wfi u) p -> wfi u (IList l) -> okstr u s ->
  (exists v pre y, In v (sl_vals l) /\ symbols s = pre ++ symbols v ++ y /\ dens p y) ->
  match t_match_star_list f (TNode it0 r tm cs) l s with Ok (o, _) => In x (fst o) | _ => True end.
Definition CI f := forall it0 r tm cs s items e p x st st', vrun false items e -> vst e st -> srun st p st' -> under e tm cs p x -> Forall (wfi u) items -> Forall (wfi u) p -> okstr u s ->
  dens (items ++ p) (symbols s) -> co x (t_items f (TNode it0 r tm cs) s items).
Definition CSI f := forall it0 r tm cs s items e p x st st', items <> [] -> vrun true items e -> vst e st -> srun st p st' -> under e tm cs p x -> Forall (wfi u) items -> Forall (wfi u) p -> okstr u s ->
  sfx (symbols s) (items ++ p) -> co x (t_star_items f (TNode it0 r tm cs) s items).

Lemma co_here f tm cs s p x st st' : CM f -> nst st -> srun st p st' -> under false tm cs p x -> Forall (wfi u) p -> okstr u s -> dens p (symbols s) ->
  co x (oseq (emit_if (null s) tm) (oall (fun c => t_match f c s) cs)).
Proof.
  intros H N R [[-> ->]|(c & I & K)] W O D.
  - apply co_left. cbn in D. apply null_symbols in D. unfold emit_if. rewrite D. now left.
  - apply co_right. eapply co_all; [exact I|]. eapply H; eauto.
Qed.
Lemma co_star_here f tm cs s p x st st' b : CS f -> sst st -> srun st p st' -> under true tm cs p x -> Forall (wfi u) p -> okstr u s -> sfx (symbols s) p ->
  co x (oseq (Ok (emit tm)) (oall (fun c => t_match_star f c s b) cs)).
Proof.
  intros H N R [[-> ->]|(c & I & K)] W O D.
  - apply co_left. apply co_emit.
  - apply co_right. eapply co_all; [exact I|]. eapply H; eauto.
Qed.
Lemma long_enough it s pre w1 w2 : wfi u it -> symbols s = pre ++ w1 ++ w2 -> den it w1 -> (zlen s <? item_min it)%Z = false.
Proof. intros W E D. destruct (zlen s <? item_min it)%Z eqn:Z0; [|reflexivity]. exfalso. apply (short_no u it s pre w1 w2); auto. lia. Qed.
Lemma one_step it s w1 w2 : wfi u it -> one_item it -> okstr u s -> symbols s = w1 ++ w2 -> den it w1 ->
  exists off, item_match it s = (Some off, FindDone) /\ symbols (skipn off s) = w2 /\ okstr u (skipn off s).
Proof.
  intros W O K E D. pose proof (item_match_one u it s W O) as M. destruct (item_match it s) as [[off|] fl]; destruct M as [-> M].
  - destruct M as (w & y & E' & D' & ->). destruct (len_concat_symbols _ _ _ E') as (_ & Ey & _). exists (length (concat w)). split; [reflexivity|].
    assert (E2 := E'). rewrite E in E2. apply app_len_inj in E2 as [<- <-]; [|rewrite (den_cnt _ _ O D), (den_cnt _ _ O D'); auto]. split; [exact Ey|].
    eapply okstr_suffix; [exact K|]. rewrite Ey. exact E'.
  - exfalso. exact (M _ _ E D).
Qed.
(** the first occurrence, and what follows when the wanted one is later *)
Lemma find_step it s pre w1 w2 : wfi u it -> literal_item it -> okstr u s -> symbols s = pre ++ w1 ++ w2 -> den it w1 ->
  exists off n, item_find it s = (Some off, Some n, FindDone) /\ okstr u (skipn off s) /\ okstr u (skipn n (skipn off s)) /\
    (symbols (skipn n (skipn off s)) = w2 \/ exists h y z, decode_rune (skipn off s) = (h, S z) /\ okstr u (skipn (S z) (skipn off s)) /\ symbols (skipn (S z) (skipn off s)) = y ++ w1 ++ w2).
Proof.
  intros W L K E D. pose proof (item_find_lit u it s W L K) as M. assert (O : one_item it) by now apply literal_one.
  destruct (item_find it s) as [[[off|] [m|]] fl]; try easy; [|exfalso; exact (M _ _ _ E D)|exfalso; exact (M _ _ _ E D)].
  destruct M as (-> & p & w & y & E' & D' & -> & -> & Min). exists (length (concat p)), (length (concat w)). split; [reflexivity|].
  destruct (len_concat_symbols _ _ _ E') as (_ & Exy & _). set (s1 := skipn (length (concat p)) s) in *.
  destruct (len_concat_symbols _ _ _ Exy) as (_ & Ey & _). set (s2 := skipn (length (concat w)) s1) in *.
  assert (K1 : okstr u s1) by (eapply okstr_suffix; [exact K|]; rewrite Exy; exact E').
  assert (K2 : okstr u s2) by (eapply okstr_suffix; [exact K1|]; rewrite Ey; exact Exy).
  split; [exact K1|]. split; [exact K2|]. pose proof (Min _ _ _ E D) as LL. assert (E2 := E). rewrite E' in E2.
  destruct (app_suffix _ _ _ _ E2 LL) as (z & -> & Ez). destruct z as [|h z].
  - left. cbn in Ez. apply app_len_inj in Ez as [<- <-]; auto. rewrite (den_cnt _ _ O D), (den_cnt _ _ O D'); auto.
  - right. pose proof (decode_head s1) as Dh. destruct (decode_rune s1) as [c k]. cbn [snd] in Dh. rewrite Ez in Exy. destruct k as [|k].
    + exfalso. rewrite Dh in Exy. discriminate.
    + destruct Dh as (h' & t & _ & Et & Eh & _). exists c, z, k. split; [reflexivity|]. rewrite Et. split; [eapply (okstr_suffix u s1 t [h']); auto|]. rewrite Eh in Exy. cbn [app] in Exy. now injection Exy.
Qed.
Lemma group_under vals mn mx open v tm cs p x : vgroup vals open -> In v vals -> under (starry (IGroup vals mn mx)) tm cs p x ->
  exists e, vrun false (val_items v) e /\ vst e (after open) /\ under e tm cs p x.
Proof.
  intros G I U. destruct (G v I) as (e & V & Ho). exists e. split; [exact V|]. pose proof (vrun_ends _ _ _ V) as Ee. destruct e; cbn [vst].
  - rewrite (Ho eq_refl). split; [now right|]. replace (starry (IGroup vals mn mx)) with true in U; [exact U|]. symmetry. cbn [starry]. apply existsb_exists. exists v. split; [exact I|].
    destruct (val_items v); [discriminate|]. now symmetry.
  - split; [destruct open; discriminate|]. eapply under_mono; eauto.
Qed.
Lemma group_val vals mn mx w : wfi u (IGroup vals mn mx) -> den (IGroup vals mn mx) w -> exists v, In v vals /\ dens (val_items v) w /\ Forall (wfi u) (val_items v).
Proof.
  intros (_ & _ & Wv) D. apply den_group in D as (v & J & D). exists v. split; [exact J|]. split; [now apply den_val_items|]. apply wfi_val.
  clear - Wv J. induction vals as [|a vals IH]; [easy|]. destruct Wv as (_ & W & Wr). destruct J as [<-|J]; auto.
Qed.

Lemma go_list_ok tm cs f s : forall vals off0 o0 o off, go_list tm cs f s vals off0 o0 = Ok (o, off) ->
  incl (fst o0) (fst o) /\
  (forall v k, In v vals -> find_val s v = Some k -> (exists o', hereF tm cs f (skipn (k + length v) s) = Ok o' /\ incl (fst o') (fst o)) /\ exists m, off = Some m /\ k <= m) /\
  (off = off0 \/ exists v m, In v vals /\ off = Some m /\ find_val s v = Some m) /\
  (forall p, off0 = Some p -> exists m, off = Some m /\ p <= m).
Proof.
  induction vals as [|v vs IH]; intros off0 o0 o off H; cbn [go_list] in H.
  - injection H as <- <-. split; [apply incl_refl|]. split; [easy|]. split; [now left|]. intros p ->. eauto.
  - destruct (find_val s v) as [k|] eqn:Ei.
    + cbv zeta in H. set (off1 := match off0 with None => _ | Some p => _ end) in H.
      assert (O1 : exists m1, off1 = Some m1 /\ k <= m1 /\ (off1 = off0 \/ m1 = k) /\ forall p, off0 = Some p -> p <= m1).
      { unfold off1. destruct off0 as [p|]; [destruct (p <? k) eqn:Lp|].
        - exists k. repeat split; auto. intros p0 [= <-]. lia.
        - exists p. repeat split; auto; [lia|]. intros p0 [= <-]. lia.
        - exists k. repeat split; auto. discriminate. }
      destruct O1 as (m1 & E1 & G1 & G2 & G3). destruct (hereF tm cs f (skipn (k + length v) s)) as [o'|e| |] eqn:Eh; try discriminate. cbn [bind] in H.
      apply IH in H as (H0 & H1 & H2 & H3). cbn [out_app fst] in H0. destruct (H3 m1 E1) as (m & Em & Lm).
      split; [|split; [|split]].
      * intros z I. apply H0. apply in_or_app. now left.
      * intros v' k' [<-|J] Fk; [|now apply H1]. rewrite Ei in Fk. injection Fk as <-. split; [|exists m; split; auto; lia].
        exists o'. split; [exact Eh|]. intros z I. apply H0. apply in_or_app. now right.
      * destruct H2 as [H2|(v' & m' & J & X)].
        -- destruct G2 as [G2|G2]; [left; congruence|]. right. exists v, m1. split; [now left|]. rewrite H2. split; auto. congruence.
        -- right. exists v', m'. split; auto. now right.
      * intros p Ep. exists m. split; auto. apply G3 in Ep. lia.
    + apply IH in H as (H0 & H1 & H2 & H3). split; [exact H0|]. split; [|split; [|exact H3]].
      * intros v' k' [<-|J] Fk; [congruence|now apply H1].
      * destruct H2 as [H2|(v' & m' & J & X)]; [now left|]. right. exists v', m'. split; auto. now right.
Qed.

Lemma complete : forall f, CM f /\ CS f /\ CL f /\ CI f /\ CSI f.
Proof.
  induction f as [|f (IM & IS & IL & II & ISI)].
  { repeat split; red; intros; exact I. }
  split; [|split; [|split; [|split]]]; red.
  - (* t_match *)
    intros t s p x st st' N R K W O D.
    assert (T : exists it r tm cs p', t = TNode (Some it) r tm cs /\ p = it :: p' /\ under (starry it) tm cs p' x /\ (p' = [] -> is_star it = true -> cs = [])).
    { inversion K as [? it r cs ? Hc|? it r tm cs c p' ? J Kc]; subst; do 5 eexists; (split; [reflexivity|]); (split; [reflexivity|]); (split; [|intros]); [left; auto|apply Hc; auto|right; eauto|]. subst. inversion Kc. }
    destruct T as (it & r & tm & cs & p' & -> & -> & U & Nc). clear K. inversion R as [|? ? st1 ? ? S R']; subst. inversion W as [|? ? W1 W2]; subst.
    destruct D as (w1 & w2 & E & D1 & D2). cbn [t_match]. rewrite (long_enough it s [] w1 w2 W1 E D1).
    assert (One : one_item it -> nst st1 -> starry it = false -> co x match item_match it s with
      | (Some off, FindDone) => oseq (emit_if (null (skipn off s)) tm) (oall (fun c => t_match f c (skipn off s)) cs) | _ => Panic end).
    { intros Oi N1 Sf. destruct (one_step it s w1 w2 W1 Oi O E D1) as (off & -> & E2 & K2). rewrite Sf in U. eapply co_here; eauto. now rewrite E2. }
    inversion S as [? ? L Ns|n|? k Hs|l|? l Nz Hs|vals mn mx open G|? vals mn mx open G Fg Hs]; subst.
    + assert (Oi : one_item it) by now apply literal_one. specialize (One Oi ltac:(discriminate) ltac:(destruct it; easy)). destruct (one_step it s w1 w2 W1 Oi O E D1) as (off & Em & _). rewrite Em in *.
      destruct it; try (exfalso; exact L); exact One.
    + specialize (One Logic.I ltac:(discriminate) eq_refl). destruct (one_step _ s w1 w2 W1 Logic.I O E D1) as (off & Em & _). rewrite Em in *. exact One.
    + (* star *) cbn [item_match]. rewrite skip_runes_symbols. cbn in D1.
      assert (Lk : k <= length (symbols s)) by (rewrite E, app_length; lia). rewrite (proj2 (Nat.leb_le _ _) Lk).
      assert (Es : symbols s = firstn k (symbols s) ++ skipn k (symbols s)) by (symmetry; apply firstn_skipn).
      destruct (len_concat_symbols _ _ _ Es) as (_ & Ey & _). set (s1 := skipn _ s) in *.
      assert (K1 : okstr u s1) by (eapply okstr_suffix; [exact O|]; rewrite Ey; exact Es).
      assert (Sx : sfx (symbols s1) p'). { rewrite Ey, E, skipn_app. replace (k - length w1) with 0 by lia. exists (skipn k w1), w2. auto. }
      destruct U as [[-> ->]|(c & J & Kc)].
      * rewrite (Nc eq_refl eq_refl). apply co_emit.
      * destruct cs as [|c0 cs]; [destruct J|]. cbn [null]. eapply co_all; [exact J|]. eapply IS; eauto. now left.
    + cbn [item_match skipn starry] in *. destruct D1 as [[Z1 ->]|(v & J & ->)].
      * apply co_left. unfold sl_optional. rewrite Z1. cbn. eapply (co_here f tm cs s p' x SNormal); eauto. cbn in E. now rewrite E.
      * apply co_right. eapply co_all; [exact J|]. destruct W1 as (Cv & _). rewrite Forall_forall in Cv. pose proof (match_val_spec s v (Cv v J)) as M. destruct (match_val s v) as [o|].
        -- destruct M as [-> M]. assert (E2 := E). rewrite M in E2. apply app_inv_head in E2. eapply (co_here f tm cs _ p' x SNormal); eauto; try (rewrite E2; exact D2); try discriminate. eapply okstr_suffix; [exact O|exact M].
        -- exfalso. exact (M w2 E).
    + cbn [item_match skipn starry] in *. destruct D1 as [[Z1 _]|(v & J & ->)]; [easy|].
      apply co_right. eapply co_all; [exact J|]. destruct W1 as (Cv & _). rewrite Forall_forall in Cv. pose proof (match_val_spec s v (Cv v J)) as M. destruct (match_val s v) as [o|].
      * destruct M as [-> M]. assert (E2 := E). rewrite M in E2. apply app_inv_head in E2. eapply (co_here f tm cs _ p' x SStarList); eauto; try (rewrite E2; exact D2); try discriminate. eapply okstr_suffix; [exact O|exact M].
      * exfalso. exact (M w2 E).
    + cbn [item_match skipn]. apply co_right. destruct (group_val _ _ _ _ W1 D1) as (v & J & Dv & Wv). eapply co_all; [exact J|].
      destruct (group_under _ mn mx _ v _ _ _ _ G J U) as (e & V & Ve & Ue). eapply II; eauto. rewrite E. apply dens_app. exists w1, w2. auto.
    + cbn [item_match skipn]. apply co_right. destruct (group_val _ _ _ _ W1 D1) as (v & J & Dv & Wv). eapply co_all; [exact J|].
      destruct (group_under _ mn mx _ v _ _ _ _ G J U) as (e & V & Ve & Ue). eapply II; eauto. rewrite E. apply dens_app. exists w1, w2. auto.
  - (* t_match_star *)
    intros t s b p x st st' N R K W O (pre & w & E & D).
    assert (T : exists it r tm cs p', t = TNode (Some it) r tm cs /\ p = it :: p' /\ under (starry it) tm cs p' x /\ (p' = [] -> is_lit it = true -> cs = [])).
    { inversion K as [? it r cs ? Hc|? it r tm cs c p' ? J Kc]; subst; do 5 eexists; (split; [reflexivity|]); (split; [reflexivity|]); (split; [|intros]); [left; auto|apply Hc; auto|right; eauto|]. subst. inversion Kc. }
    destruct T as (it & r & tm & cs & p' & -> & -> & U & Nc). inversion R as [|? ? st1 ? ? S R']; subst. inversion W as [|? ? W1 W2]; subst.
    destruct D as (w1 & w2 & -> & D1 & D2). cbn [t_match_star]. rewrite (long_enough it s pre w1 w2 W1 E D1). set (t := TNode (Some it) r tm cs) in *.
    inversion S as [? ? L Ns|n|? k Hs|l|? l Nz Hs|vals mn mx open G|? vals mn mx open G Fg Hs]; subst st1; try (subst st; destruct N; discriminate).
    + assert (Lit : co x match item_find it s with
        | (Some off, Some n, FindDone) =>
            oseq (if null (skipn n (skipn off s)) && null cs && match tm with Some _ => true | None => false end then Ok (emit tm) else oall (fun c => t_match f c (skipn n (skipn off s))) cs)
                 (let '(_, n0) := decode_rune (skipn off s) in if Nat.eqb n0 0 then Ok out_none else t_match_star f t (skipn n0 (skipn off s)) b)
        | _ => Panic end).
      { destruct (find_step it s pre w1 w2 W1 L O E D1) as (off & n & -> & K1 & K2 & [E2|(h & y & z & Dr & K3 & E2)]).
        - apply co_left. replace (starry it) with false in U by (destruct it; easy). destruct U as [[-> ->]|(c & J & Kc)].
          + rewrite (Nc eq_refl) by (destruct it; easy). cbn in D2. subst w2. apply null_symbols in E2. rewrite E2. apply co_emit.
          + destruct cs as [|c0 cs]; [destruct J|]. rewrite andb_false_r. cbn [andb]. eapply co_all; [exact J|]. apply (IM c _ p' x SNormal st'); auto; [discriminate|now rewrite E2].
        - apply co_right. rewrite Dr. cbn [Nat.eqb]. eapply IS; eauto. rewrite E2. exists y, (w1 ++ w2). split; [reflexivity|]. exists w1, w2. auto. }
      destruct (item_find it s) as [[[off|] [n|]] fl] eqn:Ef; try exact I.
      * pose proof (item_find_flag it s off (Some n) fl Ef) as Fl. destruct it; try (exfalso; exact L); destruct Fl as [-> _]; (destruct (after_found (Some n) (skipn off s)) as [sub|] eqn:Ea; [|exact I]; apply after_found_inv in Ea as (m & Em & _ & ->); injection Em as <-; exact Lit).
      * pose proof (item_find_flag it s off None fl Ef) as Fl. destruct it; try (exfalso; exact L); destruct Fl as [_ Fl]; now elim Fl.
      * exfalso. destruct (find_step it s pre w1 w2 W1 L O E D1) as (off & m & Z & _). congruence.
      * exfalso. destruct (find_step it s pre w1 w2 W1 L O E D1) as (off & m & Z & _). congruence.
    + exfalso. destruct Hs, N; congruence.
    + subst it. cbn [item_find skipn]. apply co_right. destruct D1 as [[Z1 _]|(v & J & ->)]; [easy|].
      pose proof (IL (Some (IList l)) r tm cs l s p' x st' R' U W2 W1 O) as K'. fold t in K'. destruct (t_match_star_list f t l s) as [[o s1]|e| |]; try exact I.
      cbn [bind]. destruct (decode_rune s1) as [h n]. apply co_left. apply K'. exists v, pre, w2. auto.
    + subst it. cbn [item_find skipn]. apply co_right. destruct (group_val _ _ _ _ W1 D1) as (v & J & Dv & Wv). eapply co_all; [exact J|].
      destruct (group_under _ mn mx _ v _ _ _ _ G J U) as (e & V & Ve & Ue). destruct (Fg v J) as (i & its & Ei & Li & _). eapply (ISI (Some (IGroup vals mn mx)) r tm cs s (val_items v) e p' x (after open) st'); eauto.
      * rewrite Ei. discriminate.
      * rewrite Ei in *. apply v_lit; [exact Li|]. inversion V; subst; auto; destruct Li.
      * exists pre, (w1 ++ w2). split; [exact E|]. apply dens_app. exists w1, w2. auto.
  - (* t_match_star_list *)
    intros it0 r tm cs l s p x st' R U W (Cv & Wl) O (v & pre & y & J & E & D). cbn [t_match_star_list]. set (t := TNode it0 r tm cs) in *.
    assert (Nv : forall v, In v (sl_vals l) -> v <> []) by (destruct Wl as (_ & _ & _ & Nv); now rewrite Forall_forall in Nv). rewrite Forall_forall in Cv.
    match goal with |- match bind ?g _ with _ => _ end => change g with (go_list tm cs f s (sl_vals l) None out_none) end.
    destruct (go_list tm cs f s (sl_vals l) None out_none) as [[o off]|e| |] eqn:Eg; try exact I. cbn [bind]. apply go_list_ok in Eg as (_ & H1 & H2 & _).
    assert (FS : forall v k, In v (sl_vals l) -> find_val s v = Some k -> exists pre : list str, k = length (concat pre) /\ symbols s = pre ++ symbols v ++ symbols (skipn (k + length v) s) /\
       okstr u (skipn (k + length v) s) /\ forall pre' y', symbols s = pre' ++ symbols v ++ y' -> length pre <= length pre').
    { intros v0 k J0 Fk. pose proof (find_text_spec s v0 (Cv _ J0)) as Fv. unfold find_val in Fk. rewrite Fk in Fv. destruct Fv as (q & z & E0 & -> & Min).
      destruct (len_concat_symbols _ _ _ E0) as (_ & Exy & _). destruct (len_concat_symbols _ _ _ Exy) as (_ & Ey & _).
      rewrite concat_symbols, skipn_plus in Ey. exists q. rewrite Ey. repeat split; auto. eapply (okstr_suffix u s _ (q ++ symbols v0)); [exact O|]. now rewrite Ey, <- app_assoc. }
    assert (Fv : exists k, find_val s v = Some k).
    { pose proof (find_text_spec s v (Cv v J)) as Fv. fold (find_val s v) in Fv. destruct (find_val s v) as [k|]; [eauto|]. exfalso. exact (Fv _ _ E). }
    destruct Fv as (k & Fk). destruct (H1 v k J Fk) as ((o' & Eh & Inc) & m & -> & Lm). destruct H2 as [H2|(vm & m' & Jm & [= <-] & Fm)]; [discriminate|].
    destruct (FS v k J Fk) as (pv & Epv & Ev & Kv & Minv). destruct (FS vm m Jm Fm) as (prem & Em1 & Em & Km & Minm).
    set (yv := symbols (skipn (k + length v) s)) in *. set (ym := symbols (skipn (m + length vm) s)) in *.
    assert (Now : dens p yv -> In x (fst o)).
    { intro Dv. apply Inc. pose proof (co_here f tm cs (skipn (k + length v) s) p x SStarList st' IM ltac:(discriminate) R U W Kv Dv) as C. fold (hereF tm cs f (skipn (k + length v) s)) in C. rewrite Eh in C. exact C. }
    destruct (len_concat_symbols _ _ _ Em) as (_ & Exy & _). rewrite <- Em1 in Exy. cbv zeta. set (s1 := skipn m s) in *.
    pose proof (decode_head s1) as Dh. destruct (decode_rune s1) as [c z]. cbn [snd] in Dh. destruct z as [|z]; cbn [Nat.eqb].
    { exfalso. rewrite Dh, symbols_nil in Exy. symmetry in Exy. apply app_eq_nil in Exy as [Exy _]. apply symbols_eq_nil in Exy. now apply (Nv vm). }
    destruct Dh as (h & y0 & Es & Et & Ey & _). rewrite Et.
    assert (K1 : okstr u s1) by (eapply okstr_suffix; [exact O|]; rewrite Exy; exact Em).
    assert (Ky : okstr u y0) by (eapply (okstr_suffix u s1 y0 [h]); auto).
    destruct (le_lt_dec (length pre) (length prem)) as [Lp|Lp].
    + (* found in this round *)
      assert (F : In x (fst o)).
      { apply Now. pose proof (Minv pre y E) as Lv. destruct (Nat.eq_dec (length pv) (length pre)) as [G|G].
        { rewrite Ev in E. apply app_len_inj in E as [_ E]; auto. apply app_inv_head in E. now rewrite E. }
        inversion R as [|? it st1 p' ? S R']; subst.
        - exfalso. cbn in D. subst y. rewrite app_nil_r in E. rewrite Em in E. symmetry in E.
          destruct (app_suffix _ _ _ _ E Lp) as (q & Ez & Ezv). rewrite Ezv in Ev.
          pose proof (Minm (pv ++ q) (ym ++ yv)) as G2. rewrite Ev in G2. rewrite <- !app_assoc in G2. specialize (G2 eq_refl).
          rewrite Ez, !app_length in G2. lia.
        - assert (exists n, it = IStar n) as (n & ->) by (inversion S; subst; eauto; try congruence; match goal with H : SStarList = _ \/ _ |- _ => destruct H; discriminate end).
          rewrite Ev in E. rewrite !app_assoc in E. destruct (app_suffix _ _ _ _ E) as (q & _ & ->); [rewrite !app_length; lia|]. now apply dens_star_absorb. }
      destruct (t_match_star_list f t l y0) as [[o2 s2]|e| |]; cbn [bind]; try exact I. cbn [out_app fst]. apply in_or_app. now left.
    + pose proof (IL it0 r tm cs l y0 p x st' R U W) as K2. fold t in K2. destruct (t_match_star_list f t l y0) as [[o2 s2]|e| |]; cbn [bind]; try exact I.
      cbn [out_app fst]. apply in_or_app. right. apply K2; auto.
      * split; [now apply Forall_forall|exact Wl].
      * rewrite Em in E. destruct (app_suffix _ _ _ _ E) as (q & -> & Ez); [lia|]. rewrite app_length in Lp. destruct q as [|h' q]; [cbn in Lp; lia|].
        exists v, q, y. repeat split; auto. rewrite Exy, Ez in Ey. cbn in Ey. now injection Ey.
  - (* t_items *)
    intros it0 r tm cs s items e p x st st' V Ve R U W Wp O D. cbn [t_items]. set (t := TNode it0 r tm cs) in *. destruct items as [|it rest].
    { inversion V; subst. eapply co_here; eauto. }
    inversion W as [|? ? W1 W2]; subst. destruct D as (w1 & w2 & E & D1 & D2). rewrite (long_enough it s [] w1 w2 W1 E D1).
    assert (One : one_item it -> vrun false rest e -> co x match item_match it s with (Some off, FindDone) => t_items f t (skipn off s) rest | _ => Panic end).
    { intros Oi V'. destruct (one_step it s w1 w2 W1 Oi O E D1) as (off & -> & E2 & K2). eapply II; eauto. now rewrite E2. }
    inversion V as [|? ? ? ? L V'|n ? ? V'|k ? ? V']; subst.
    + assert (Oi : one_item it) by now apply literal_one. specialize (One Oi V'). destruct (one_step it s w1 w2 W1 Oi O E D1) as (off & Em & _). rewrite Em in *.
      destruct it; try (exfalso; exact L); exact One.
    + specialize (One Logic.I V'). destruct (one_step _ s w1 w2 W1 Logic.I O E D1) as (off & Em & _). rewrite Em in *. exact One.
    + cbn [item_match]. rewrite skip_runes_symbols. cbn in D1.
      assert (Lk : k <= length (symbols s)) by (rewrite E, app_length; lia). rewrite (proj2 (Nat.leb_le _ _) Lk).
      assert (Es : symbols s = firstn k (symbols s) ++ skipn k (symbols s)) by (symmetry; apply firstn_skipn).
      destruct (len_concat_symbols _ _ _ Es) as (_ & Ey & _). set (s1 := skipn _ s) in *.
      assert (K1 : okstr u s1) by (eapply okstr_suffix; [exact O|]; rewrite Ey; exact Es).
      assert (Sx : sfx (symbols s1) (rest ++ p)). { rewrite Ey, E, skipn_app. replace (k - length w1) with 0 by lia. exists (skipn k w1), w2. auto. }
      destruct rest as [|i rest]; cbn [null].
      * inversion V'; subst. eapply co_star_here; eauto.
      * apply co_left. eapply ISI; eauto. discriminate.
  - (* t_star_items *)
    intros it0 r tm cs s items e p x st st' Ni V Ve R U W Wp O (pre & w & E & D). cbn [t_star_items]. set (t := TNode it0 r tm cs) in *. destruct items as [|it rest]; [easy|].
    inversion W as [|? ? W1 W2]; subst. destruct D as (w1 & w2 & -> & D1 & D2). rewrite (long_enough it s pre w1 w2 W1 E D1).
    inversion V as [|? ? ? ? L V'|n ? ? V'|k ? ? V']; subst.
    assert (Lit : co x match item_find it s with
      | (Some off, Some n, FindDone) => oseq (t_items f t (skipn n (skipn off s)) rest)
               (let '(_, n0) := decode_rune (skipn off s) in if Nat.eqb n0 0 then Ok out_none else t_star_items f t (skipn n0 (skipn off s)) (it :: rest))
      | _ => Panic end).
    { destruct (find_step it s pre w1 w2 W1 L O E D1) as (off & n & -> & K1 & K2 & [E2|(h & y & z & Dr & K3 & E2)]).
      - apply co_left. eapply II; eauto. now rewrite E2.
      - apply co_right. rewrite Dr. cbn [Nat.eqb]. eapply ISI; eauto. rewrite E2. exists y, (w1 ++ w2). split; [reflexivity|]. exists w1, w2. auto. }
    destruct (item_find it s) as [[[off|] [n|]] fl] eqn:Ef; try exact I.
    * pose proof (item_find_flag it s off (Some n) fl Ef) as Fl. destruct it; try (exfalso; exact L); destruct Fl as [-> _]; (destruct (after_found (Some n) (skipn off s)) as [sub|] eqn:Ea; [|exact I]; apply after_found_inv in Ea as (m & Em & _ & ->); injection Em as <-; exact Lit).
    * pose proof (item_find_flag it s off None fl Ef) as Fl. destruct it; try (exfalso; exact L); destruct Fl as [_ Fl]; now elim Fl.
    * exfalso. destruct (find_step it s pre w1 w2 W1 L O E D1) as (off & m & Z & _). congruence.
    * exfalso. destruct (find_step it s pre w1 w2 W1 L O E D1) as (off & m & Z & _). congruence.
Qed.
End Complete.
