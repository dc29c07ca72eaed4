(** Whatever the items, a match that is reported is a match (unless a star with a minimum directly follows a star). *)
From Verif Require Import Model.Glob Spec.Symbols Spec.Class Spec.GlobSpec Spec.Lang Spec.Safe.
From Verif Require Import Proof.Utf8P Proof.SymbolsP Proof.SkipP Proof.SortP Proof.ClassSearchP Proof.LangP Proof.ListP Proof.ItemP Proof.DenotesP Proof.MatchP Proof.ParseP Proof.NextP Proof.GlobP Proof.GlobMatchP Proof.SafeP Proof.PanicP.
From Coq Require Import Lia ZifyBool ZifyN ZifyNat.

Inductive steady : bool -> list item -> Prop :=
| t_nil p : steady p []
| t_one p it R : one_item it -> steady false R -> steady p (it :: R)
| t_star p k R : (p = true -> k = 0) -> steady true R -> steady p (IStar k :: R)
| t_list p l R : steady false R -> (sl_min l = 0%Z -> steady p R) -> steady p (IList l :: R)
| t_group p vals mn mx R : (forall v, In v vals -> steady p (val_items v ++ R)) -> (mn = 0%Z -> steady p R) -> steady p (IGroup vals mn mx :: R).
Lemma steady_mono p F : steady p F -> steady false F.
Proof.
  induction 1 as [p|p it R L Q IH|p k R K Q IH|p l R Q IH Q2 IH2|p vals mn mx R Q IH Q2 IH2].
  - constructor.
  - now apply t_one.
  - apply t_star; [discriminate|exact Q].
  - now apply t_list.
  - apply t_group; auto.
Qed.

Lemma bind_ok {A C} (r : res A) (k : A -> res C) c : bind r k = Ok c -> exists a, r = Ok a /\ k a = Ok c.
Proof. destruct r; cbn; try discriminate. eauto. Qed.

(** Find on any string *)
Lemma find_sound u it s off n fl : wfi u it -> literal_item it -> item_find it s = (Some off, Some n, fl) ->
  exists pre x y, symbols s = pre ++ x ++ y /\ den it x /\ off = length (concat pre) /\ n = length (concat x).
Proof.
  intros W L H. destruct it as [t|b|r| | |rs| | |]; try easy;
    try (apply (item_find_lit false) with (s := s) in L; [|exact W|discriminate]; rewrite H in L; destruct L as (_ & pre & x & y & E & D & -> & -> & _); eauto 8; fail).
  destruct (null (rr_unicode rs)) eqn:N.
  - assert (U : rr_unicode rs = []) by (destruct (rr_unicode rs); [reflexivity|discriminate]). destruct W as (_ & W1 & W2).
    assert (W : wfi false (IRanges rs)) by (split; [auto|split; auto]).
    pose proof (item_find_lit false (IRanges rs) s W I ltac:(discriminate)) as X. rewrite H in X.
    destruct X as (_ & pre & x & y & E & D & -> & -> & _). eauto 8.
  - cbn [item_find] in H. unfold rr_index in H. rewrite N in H. rewrite rr_index_u_eq in H by lia.
    destruct (sidx rs 0 (symbols s)) as [[[p r] m]|] eqn:E; [|discriminate]. injection H as <- <- _.
    apply sidx_some in E as (pre & x & post & E & -> & Sx & _ & -> & ->). exists pre, [x], post. cbn [concat app]. rewrite app_nil_r.
    split; [exact E|]. split; [|auto]. exists x. split; auto. eapply symb_class; [|exact Sx]. rewrite E. apply in_or_app. right. now left.
Qed.

Definition SM f := forall s items next a, let F := items ++ concat next in Forall (wfi true) F -> steady false F ->
  matchItems f s items next = Ok (true, a) -> dens F (symbols s).
Definition SSI f := forall s items next a, let F := items ++ concat next in Forall (wfi true) F -> steady true F ->
  matchStarItems f s items next = Ok (true, a) -> sfx (symbols s) F.
Definition SSL f := forall s items next a, let F := items ++ concat next in Forall (wfi true) F -> steady true F ->
  starLoop f s items next = Ok (true, a) -> sfx (symbols s) F.
Definition SO f := forall s rest next a, let F := rest ++ concat next in Forall (wfi true) F -> steady true F ->
  optLoop f s rest next = Ok (true, a) -> sfx (symbols s) F.
Definition SL f := forall s vals rest next, let F := rest ++ concat next in Forall (wfi true) F -> steady false F -> Forall clean vals ->
  listLoop f s vals rest next = Ok true -> exists v pre y, In v vals /\ symbols s = pre ++ symbols v ++ y /\ dens F y.

Lemma cont_sound f s rest next : SM f -> Forall (wfi true) (rest ++ concat next) -> steady false (rest ++ concat next) ->
  (if null rest then if next_empty next then Ok (null s)
      else let '(its, nx) := next_next next in bind (matchItems f s its nx) (fun '(m, _) => Ok m)
    else bind (matchItems f s rest next) (fun '(m, _) => Ok m)) = Ok true -> dens (rest ++ concat next) (symbols s).
Proof.
  intros H W L. destruct rest as [|i rest]; cbn [null].
  - destruct (next_empty next) eqn:E.
    + intro X. apply ok_inj in X. apply null_symbols in X. apply next_empty_iff in E. rewrite E. exact X.
    + pose proof (next_next_spec next E) as N. destruct (next_next next) as [its nx]. destruct N as (N & _).
      intro X. apply bind_ok in X as ([m a] & X & Y). apply ok_inj in Y as ->. cbn [app] in *. rewrite <- N in *. eapply H; eauto.
  - intro X. apply bind_ok in X as ([m a] & X & Y). apply ok_inj in Y as ->. eapply H; eauto.
Qed.
Lemma group_opt mn vals mx R w : wfi true (IGroup vals mn mx) -> mn = 0%Z -> dens R w -> dens (IGroup vals mn mx :: R) w.
Proof.
  intros W E D. pose proof (den_min_0 true (IGroup vals mn mx) W E) as D0. exists [], w. auto.
Qed.
Lemma wfi_group_vals vals mn mx v : wfi true (IGroup vals mn mx) -> In v vals -> Forall (wfi true) (val_items v).
Proof.
  intros (_ & _ & W) I. apply wfi_val. induction vals as [|x vs IH]; [easy|]. destruct W as (_ & W1 & W2), I as [<-|I]; auto.
Qed.
Lemma sfx_of_skip s h t F : symbols s = h :: symbols t -> sfx (symbols t) F -> sfx (symbols s) F.
Proof. intros -> H. now apply (sfx_app [h]). Qed.

Theorem all_sound : forall f, SM f /\ SSI f /\ SSL f /\ SO f /\ SL f.
Proof.
  induction f as [|f (IM & ISI & ISL & IO & IL)]; [repeat split; intro; intros; discriminate|].
  split; [|split; [|split; [|split]]].
  - intros s items next a F W Q H. subst F. cbn [matchItems] in H. destruct items as [|it rest].
    + destruct (next_empty next) eqn:E.
      * apply ok_inj in H. injection H as H _. apply null_symbols in H. apply next_empty_iff in E. rewrite E. exact H.
      * pose proof (next_next_spec next E) as N. destruct (next_next next) as [its nx]. destruct N as (N & _).
        apply bind_ok in H as ([m b] & H & Y). apply ok_inj in Y. injection Y as -> _. cbn [app] in *. rewrite <- N in *. eapply IM; eauto.
    + destruct (zlen s <? item_min it)%Z; [discriminate|]. cbn [app] in *. set (R := rest ++ concat next) in *. inversion W as [|? ? Wi WR]; subst.
      assert (One : one_item it -> steady false R -> match item_match it s with
        | (Some off, FindDone) => matchItems f (skipn off s) rest next 
        | (Some off, _) => Panic
        | (None, _) => Ok (false, false) end = Ok (true, a) -> dens (it :: R) (symbols s)).
      { intros O SR K. pose proof (item_match_one true it s Wi O) as M. destruct (item_match it s) as [[off|] fl0]; [|discriminate].
        destruct M as (-> & x & y & E & D & ->). destruct (len_concat_symbols _ _ _ E) as (_ & Ey & _ & _).
        apply (IM _ rest next) in K; auto. fold R in K. rewrite Ey in K. rewrite E. exists x, y. auto. }
      destruct it as [t|b|r|n|n|rs|l|vals mn mx|its mn mx].
      * apply One; [exact I|inversion Q; subst; easy|]. cbn [item_match] in *. destruct (has_prefix s t); exact H.
      * apply One; [exact I|inversion Q; subst; easy|]. cbn [item_match] in *. destruct s; [|destruct (Ascii.eqb b _)]; exact H.
      * apply One; [exact I|inversion Q; subst; easy|]. cbn [item_match] in *. destruct (decode_rune s) as [c k].
        destruct (negb (c =? RuneError)%N); [destruct (c =? r)%N|]; exact H.
      * apply One; [exact I|inversion Q; subst; easy|]. cbn [item_match] in *. destruct (skip_runes s n); exact H.
      * clear One. assert (SR : steady true R) by (inversion Q; subst; easy). cbn [item_match] in H. rewrite skip_runes_symbols in H.
        destruct (n <=? length (symbols s)) eqn:Ln; [|discriminate].
        assert (Es : symbols s = firstn n (symbols s) ++ skipn n (symbols s)) by (symmetry; apply firstn_skipn).
        destruct (len_concat_symbols _ _ _ Es) as (_ & Ey & _ & _). set (s1 := skipn (length (concat (firstn n (symbols s)))) s) in *.
        apply sfx_star. split; [unfold str in *; lia|]. rewrite <- Ey.
        destruct rest as [|i rest]; cbn [null] in H.
        -- destruct (next_empty next) eqn:E.
           ++ apply next_empty_iff in E. subst R. rewrite E. exists (symbols s1), []. rewrite app_nil_r. split; reflexivity.
           ++ pose proof (next_next_spec next E) as N. destruct (next_next next) as [its nx]. destruct N as (N & _).
              subst R. cbn [app] in *. rewrite <- N in *. eapply ISI; eauto.
        -- eapply ISI; eauto.
      * apply One; [exact I|inversion Q; subst; easy|]. cbn [item_match] in *. destruct (snd (rr_starts_with rs s)); exact H.
      * clear One. assert (SR : steady false R) by (inversion Q; subst; easy). destruct Wi as (Cv & _ & Wm & _).
        cbn [item_match skipn] in H. apply bind_ok in H as (m & H0 & H). destruct m.
        -- unfold sl_optional in H0. destruct (Z.eqb_spec (sl_min l) 0); [|discriminate]. apply cont_sound in H0; auto. exists [], (symbols s). split; [reflexivity|]. split; [left; auto|exact H0].
        -- clear H0. revert H. assert (X : forall vs, incl vs (sl_vals l) -> (fix go (vs : list str) : res (bool * bool) :=
                   match vs with
                   | [] => Ok (false, false)
                   | v :: vs' =>
                       match match_val s v with
                       | None => go vs'
                       | Some o => bind (if null rest then if next_empty next then Ok (null (skipn o s))
                            else let '(its, nx) := next_next next in bind (matchItems f (skipn o s) its nx) (fun '(m, _) => Ok m)
                          else bind (matchItems f (skipn o s) rest next) (fun '(m, _) => Ok m)) (fun m =>
                                   if m then Ok (true, false) else go vs')
                       end
                   end) vs = Ok (true, a) -> dens (IList l :: R) (symbols s)).
           { induction vs as [|v vs IH]; intros In0 H; [discriminate|]. assert (Iv : In v (sl_vals l)) by (apply In0; now left).
             assert (C : clean v) by (rewrite Forall_forall in Cv; auto).
             assert (In1 : incl vs (sl_vals l)) by (intros z Iz; apply In0; now right).
             pose proof (match_val_spec s v C) as Mv. destruct (match_val s v) as [o|]; [|now apply IH]. destruct Mv as (-> & E).
             apply bind_ok in H as (m & H0 & H). destruct m; [|now apply IH]. apply cont_sound in H0; auto.
             rewrite E. exists (symbols v), (symbols (skipn (length v) s)). split; [reflexivity|]. split; [right; eauto|exact H0]. }
           apply X. apply incl_refl.
      * clear One. assert (Q1 : (forall v, In v vals -> steady false (val_items v ++ R)) /\ (mn = 0%Z -> steady false R)) by (inversion Q; subst; easy).
        destruct Q1 as [Q1 Q2]. cbn [item_match skipn] in H. apply bind_ok in H as (m & H0 & H). destruct m.
        -- unfold group_optional in H0. destruct (Z.eqb_spec mn 0) as [E0|]; [|discriminate]. apply cont_sound in H0; auto. now apply group_opt.
        -- clear H0. apply dens_group_cons.
           assert (K : forall v b, In v vals -> matchItems f s (val_items v) (rest :: next) = Ok (true, b) -> dens (val_items v ++ R) (symbols s)).
           { intros v b I K. apply (IM s (val_items v) (rest :: next) b); auto; cbn [concat]; fold R; auto. apply Forall_app. split; [eapply wfi_group_vals; eauto|auto]. }
           clear - K H. induction vals as [|v vs IH]; [discriminate|]. apply bind_ok in H as ([m b] & H0 & H). destruct m.
           ++ exists v. split; [now left|]. eapply K; eauto. now left.
           ++ destruct IH as (v' & I & D); auto; [|exists v'; split; [now right|auto]]. intros v' b' I. apply K. now right.
      * inversion Q; subst; easy.
  - intros s items next a F W Q H. subst F. cbn [matchStarItems] in H. destruct items as [|it rest]; [|eapply ISL; eauto].
    destruct (next_empty next) eqn:E.
    + apply ok_inj in H. injection H as H _. apply null_symbols in H. apply next_empty_iff in E. rewrite E. exists [], []. split; [exact H|reflexivity].
    + pose proof (next_next_spec next E) as N. destruct (next_next next) as [its nx]. destruct N as (N & _). cbn [app] in *. rewrite <- N in *. eapply ISI; eauto.
  - intros s items next a F W Q H. subst F. cbn [starLoop] in H. destruct items as [|it rest].
    + destruct (next_empty next) eqn:E.
      * apply ok_inj in H. injection H as H _. apply null_symbols in H. apply next_empty_iff in E. rewrite E. exists [], []. split; [exact H|reflexivity].
      * pose proof (next_next_spec next E) as N. destruct (next_next next) as [its nx]. destruct N as (N & _).
        apply bind_ok in H as ([m b] & H & Y). apply ok_inj in Y. injection Y as -> _. cbn [app] in *. rewrite <- N in *. apply dens_sfx. eapply IM; eauto. now apply steady_mono in Q.
    + destruct (zlen s <? item_min it)%Z; [discriminate|]. cbn [app] in *. set (R := rest ++ concat next) in *. inversion W as [|? ? Wi WR]; subst.
      assert (Sh : forall s1 its b, Forall (wfi true) (its ++ concat next) -> steady true (its ++ concat next) ->
         (let '(_, n) := decode_rune s1 in if Nat.eqb n 0 then Ok (false, false) else starLoop f (skipn n s1) its next) = Ok (true, b) -> sfx (symbols s1) (its ++ concat next)).
      { intros s1 its b Wi' Qi K. pose proof (decode_head s1) as Dh. destruct (decode_rune s1) as [r n]. cbn [snd] in Dh. destruct n as [|n]; [discriminate|]. cbn [Nat.eqb] in K.
        destruct Dh as (h & t & _ & Et & Es & _). rewrite Et in K. rewrite Es. apply (sfx_app [h]). eapply ISL; eauto. }
      assert (Li : forall off len, literal_item it -> steady false R -> item_find it s = (Some off, len, FindDone) ->
        match after_found len (skipn off s) with None => Panic | Some sub => bind (matchItems f sub rest next) (fun '(m, a) => if m || a then Ok (m, a) else
           let '(_, n) := decode_rune (skipn off s) in if Nat.eqb n 0 then Ok (false, false) else starLoop f (skipn n (skipn off s)) (it :: rest) next) end = Ok (true, a) -> sfx (symbols s) (it :: R)).
      { intros off len L SR Ef K. destruct (after_found len (skipn off s)) as [sub|] eqn:Ea; [|discriminate]. apply after_found_inv in Ea as (n & -> & _ & ->). destruct (find_sound true it s off n _ Wi L Ef) as (pre & x & y & E & D & -> & ->).
        destruct (len_concat_symbols _ _ _ E) as (_ & Ey & _ & _). destruct (len_concat_symbols _ _ _ Ey) as (_ & Ez & _ & _).
        apply bind_ok in K as ([m b] & K0 & K). destruct m; cbn [orb] in K.
        - apply (IM _ rest next) in K0; auto. fold R in K0. rewrite Ez in K0. exists pre, (x ++ y). split; [exact E|]. exists x, y. auto.
        - destruct b; [discriminate|]. apply (Sh _ (it :: rest)) in K; auto. rewrite Ey in K. rewrite E. apply sfx_app. exact K. }
      pose proof (item_find_flag it s) as Fl. destruct (item_find it s) as [[[off|] len] fl] eqn:Ef; [|discriminate]. specialize (Fl _ _ _ eq_refl).
      destruct it as [t|b|r|n|n|rs|l|vals mn mx|its mn mx]; try (destruct Fl as [-> _]; apply (Li _ _ I ltac:(inversion Q; subst; easy) eq_refl H)); clear Li; try subst fl.
      * cbn [item_find] in Ef. injection Ef as _ _ <-. discriminate.
      * assert (Q1 : n = 0 /\ steady true R) by (inversion Q; subst; [easy|auto]). destruct Q1 as [-> Q1].
        assert (Z0 : off = 0) by (cbn [item_find] in Ef; congruence). subst off. cbn [skipn] in H. clear Ef.
        assert (Ab : sfx (symbols s) R -> sfx (symbols s) (IStar 0 :: R)).
        { intros (p & q & E & D). rewrite E. apply sfx_app. exists [], q. split; [reflexivity|]. exists [], q. split; [reflexivity|]. split; [cbn; lia|exact D]. }
        destruct rest as [|i rest]; cbn [null] in H.
        -- destruct (next_empty next) eqn:E.
           ++ apply next_empty_iff in E. subst R. apply Ab. rewrite E. exists (symbols s), []. rewrite app_nil_r. split; reflexivity.
           ++ pose proof (next_next_spec next E) as N. destruct (next_next next) as [its nx]. destruct N as (N & _).
              apply bind_ok in H as ([m b] & H0 & H). apply Ab. destruct m.
              ** subst R. cbn [app] in *. rewrite <- N in *. eapply ISI; eauto.
              ** apply (Sh _ []) in H; auto.
        -- apply Ab. apply (Sh _ (i :: rest)) in H; auto.
      * assert (Z0 : off = 0) by (cbn [item_find] in Ef; congruence). subst off. cbn [skipn] in H. clear Ef.
        assert (Q1 : steady false R /\ (sl_min l = 0%Z -> steady true R)) by (inversion Q; subst; easy).
        destruct Q1 as [Q1 Q2]. destruct Wi as (Cv & _ & Wm & _). apply bind_ok in H as ([m ret] & H0 & H).
        assert (Op : sl_min l = 0%Z -> sfx (symbols s) R -> sfx (symbols s) (IList l :: R)).
        { intros E0 (p & q & E & D). rewrite E. apply sfx_app. exists [], q. split; [reflexivity|]. exists [], q. split; [reflexivity|]. split; [now left|exact D]. }
        assert (Mt : m = true -> sfx (symbols s) (IList l :: R)).
        { intros ->. unfold sl_optional in H0. destruct (Z.eqb_spec (sl_min l) 0) as [E0|]; [|discriminate]. apply Op; auto. eapply IO; eauto. }
        assert (Rt : ret = true -> m = true).
        { intros ->. unfold sl_optional in H0. destruct (Z.eqb_spec (sl_min l) 0) as [E0|]; [|discriminate]. clear - H0. revert s m H0.
          induction f as [|f IH]; intros s m H; [discriminate|]. cbn [optLoop] in H.
          assert (Sh : (let '(_, n) := decode_rune s in if Nat.eqb n 0 then Ok (false, false) else optLoop f (skipn n s) rest next) = Ok (m, true) -> m = true).
          { destruct (decode_rune s) as [r n]. destruct (Nat.eqb n 0); [discriminate|]. apply IH. }
          destruct (null rest).
          - destruct (next_empty next); [destruct (null s); [congruence|now apply Sh]|]. destruct (next_next next) as [its nx]. apply bind_ok in H as ([[|] b] & _ & H); [congruence|now apply Sh].
          - apply bind_ok in H as ([[|] b] & _ & H); [congruence|now apply Sh]. }
        destruct ret; [now apply Mt, Rt|]. apply bind_ok in H as (r & H1 & H). apply ok_inj in H. injection H as H _. destruct m; [now apply Mt|]. cbn [orb] in H. subst r.
        apply IL in H1; auto. destruct H1 as (v & pre & y & I & E & D). rewrite E. apply sfx_app. apply dens_sfx. exists (symbols v), y. split; [reflexivity|]. split; [right; eauto|exact D].
      * assert (Z0 : off = 0) by (cbn [item_find] in Ef; congruence). subst off. cbn [skipn] in H. clear Ef.
        assert (Q1 : (forall v, In v vals -> steady true (val_items v ++ R)) /\ (mn = 0%Z -> steady true R)) by (inversion Q; subst; easy).
        destruct Q1 as [Q1 Q2]. apply bind_ok in H as (m & H0 & H). destruct m.
        -- unfold group_optional in H0. destruct (Z.eqb_spec mn 0) as [E0|]; [|discriminate]. specialize (Q2 E0).
           assert (X : sfx (symbols s) R).
           { destruct rest as [|i rest]; cbn [null] in H0.
             - destruct (next_empty next) eqn:E.
               + apply ok_inj in H0. apply null_symbols in H0. apply next_empty_iff in E. subst R. rewrite E. exists [], []. split; [exact H0|reflexivity].
               + pose proof (next_next_spec next E) as N. destruct (next_next next) as [its nx]. destruct N as (N & _).
                 apply bind_ok in H0 as ([m b] & H0 & Y). apply ok_inj in Y as ->. subst R. cbn [app] in *. rewrite <- N in *. eapply ISI; eauto.
             - apply bind_ok in H0 as ([m b] & H0 & Y). apply ok_inj in Y as ->. eapply ISI; eauto. }
           destruct X as (p & q & E & D). exists p, q. split; [exact E|]. now apply group_opt.
        -- clear H0.
           assert (K : forall v b, In v vals -> matchStarItems f s (val_items v) (rest :: next) = Ok (true, b) -> sfx (symbols s) (IGroup vals mn mx :: R)).
           { intros v b I K. apply (ISI s (val_items v) (rest :: next)) in K; cbn [concat] in *; fold R in K |- *; auto.
             - destruct K as (p & q & E & D). exists p, q. split; [exact E|]. apply dens_group_cons. eauto.
             - apply Forall_app. split; [eapply wfi_group_vals; eauto|auto]. }
           clear - K H. assert (X : forall vs, incl vs vals -> (fix go (vs : list item) : res (bool * bool) :=
                   match vs with
                   | [] => Ok (false, false)
                   | v :: vs' =>
                       bind (matchStarItems f s (val_items v) (rest :: next)) (fun '(m, _) =>
                       if m then Ok (true, false) else go vs')
                   end) vs = Ok (true, a) -> sfx (symbols s) (IGroup vals mn mx :: R)).
           { induction vs as [|v vs IH]; intros I0 X; [discriminate|]. apply bind_ok in X as ([m b] & X0 & X). destruct m.
             - eapply K; eauto. apply I0. now left.
             - apply IH; auto. intros z Iz. apply I0. now right. }
           eapply X; [apply incl_refl|exact H].
      * inversion Q; subst; easy.
  - intros s rest next a F W Q H. subst F. cbn [optLoop] in H. set (R := rest ++ concat next) in *.
    assert (Sh : (let '(_, n) := decode_rune s in if Nat.eqb n 0 then Ok (false, false) else optLoop f (skipn n s) rest next) = Ok (true, a) -> sfx (symbols s) R).
    { intro K. pose proof (decode_head s) as Dh. destruct (decode_rune s) as [r n]. cbn [snd] in Dh. destruct n as [|n]; [discriminate|]. cbn [Nat.eqb] in K.
      destruct Dh as (h & t & _ & Et & Es & _). rewrite Et in K. rewrite Es. apply (sfx_app [h]). eapply IO; eauto. }
    destruct rest as [|i rest]; cbn [null] in H.
    + destruct (next_empty next) eqn:E.
      * destruct (null s) eqn:Ns; [|now apply Sh]. apply null_symbols in Ns. apply next_empty_iff in E. subst R. rewrite E. exists [], []. split; [exact Ns|reflexivity].
      * pose proof (next_next_spec next E) as N. destruct (next_next next) as [its nx]. destruct N as (N & _).
        apply bind_ok in H as ([[|] b] & H0 & H); [|now apply Sh]. subst R. cbn [app] in *. rewrite <- N in *. apply dens_sfx. eapply IM; eauto. now apply steady_mono in Q.
    + apply bind_ok in H as ([[|] b] & H0 & H); [|now apply Sh]. eapply ISI; eauto.
  - intros s vals rest next F W Q C H. subst F. cbn [listLoop] in H. set (R := rest ++ concat next) in *. apply bind_ok in H as (r & H0 & H).
    assert (X : forall vs off, incl vs vals -> (fix go (vs : list str) (offset : option nat) : res (unit + option nat) :=
             match vs with
             | [] => Ok (inr offset)
             | v :: vs' =>
                 match find_val s v with
                 | None => go vs' offset
                 | Some o =>
                     let offset' := match offset with
                                    | None => Some o
                                    | Some p => if p <? o then Some o else Some p
                                    end in
                     bind (if null rest then if next_empty next then Ok (null (skipn (o + length v) s))
                            else let '(its, nx) := next_next next in bind (matchItems f (skipn (o + length v) s) its nx) (fun '(m, _) => Ok m)
                          else bind (matchItems f (skipn (o + length v) s) rest next) (fun '(m, _) => Ok m)) (fun m =>
                     if m then Ok (inl tt) else go vs' offset')
                 end
             end) vs off = Ok r ->
       match r with
       | inl _ => exists v pre y, In v vals /\ symbols s = pre ++ symbols v ++ y /\ dens R y
       | inr o => o = off \/ exists v p, In v vals /\ o = Some p /\ find_val s v = Some p
       end).
    { induction vs as [|v vs IH]; intros off I0 X; [apply ok_inj in X; subst r; now left|]. assert (Iv : In v vals) by (apply I0; now left).
      assert (I1 : incl vs vals) by (intros z Iz; apply I0; now right).
      assert (Cv : clean v) by (rewrite Forall_forall in C; auto). pose proof (find_text_spec s v Cv) as Fv.
      assert (G : forall off' : option nat, (off' = off \/ exists v p, In v vals /\ off' = Some p /\ find_val s v = Some p) ->
        match r with
        | inl _ => exists v pre y, In v vals /\ symbols s = pre ++ symbols v ++ y /\ dens R y
        | inr o => o = off' \/ exists v p, In v vals /\ o = Some p /\ find_val s v = Some p
        end -> match r with
        | inl _ => exists v pre y, In v vals /\ symbols s = pre ++ symbols v ++ y /\ dens R y
        | inr o => o = off \/ exists v p, In v vals /\ o = Some p /\ find_val s v = Some p
        end).
      { intros off' O. destruct r; auto. intros [->|K]; auto. }
      destruct (find_val s v) as [o|] eqn:Efv; [|now apply IH]. pose proof Efv as Ei. unfold find_val in Ei. rewrite Ei in Fv. destruct Fv as (pre & y & E & -> & _).
      cbv zeta in X. apply bind_ok in X as (m & X0 & X). destruct m.
      - apply cont_sound in X0; auto. apply ok_inj in X. subst r. exists v, pre, y. split; [exact Iv|]. split; [exact E|].
        destruct (len_concat_symbols _ _ _ E) as (_ & Ey & _ & _). destruct (len_concat_symbols _ _ _ Ey) as (_ & Ez & _ & _).
        rewrite concat_symbols, skipn_plus in Ez. rewrite Ez in X0. exact X0.
      - apply IH in X; auto. revert X. apply G. destruct off as [p|]; [destruct (p <? length (concat pre)); [right; eauto|now left]|right; eauto]. }
    apply X in H0; [|apply incl_refl]. destruct r as [[]|[o|]]; [exact H0| |discriminate].
    cbv zeta in H. destruct H0 as [H0|(v & p & I & Ep & Fv)]; [discriminate|]. injection Ep as <-.
    assert (Cv : clean v) by (rewrite Forall_forall in C; auto). pose proof (find_text_spec s v Cv) as Fs. unfold find_val in Fv. rewrite Fv in Fs. destruct Fs as (pre & y & E & -> & _).
    destruct (len_concat_symbols _ _ _ E) as (_ & Ey & _ & _). set (s1 := skipn (length (concat pre)) s) in *.
    pose proof (decode_head s1) as Dh. destruct (decode_rune s1) as [rr n]. cbn [snd] in Dh. destruct n as [|n]; [discriminate|]. cbn [Nat.eqb] in H.
    destruct Dh as (h & t & _ & Et & Es & _). rewrite Et in H. apply IL in H; auto. destruct H as (v' & pre' & y' & I' & E' & D').
    exists v', (pre ++ h :: pre'), y'. split; [exact I'|]. split; [|exact D']. rewrite E, <- Ey, Es, E'. now rewrite <- app_assoc.
Qed.
Theorem match_items_sound s items : Forall (wfi true) items -> steady false items -> match_items s items = Ok true -> dens items (symbols s).
Proof.
  intros W Q H. unfold match_items in H. apply bind_ok in H as ([m a] & H & Y). apply ok_inj in Y as ->.
  destruct (all_sound (match_fuel s items)) as (X & _). specialize (X s items [] a). cbn [concat] in X. rewrite app_nil_r in X. auto.
Qed.

(** * Parsed globs *)
Lemma finish_sound g prefix suffix mn mx rl s gl : gl = finish_glob g prefix suffix mn mx (rev rl) -> ginv true prefix suffix mn mx rl ->
  steady false (rev rl) -> (rl = [] -> prefix ++ suffix <> B "*") -> glob_match gl s = Ok true -> glang prefix suffix (rev rl) s.
Proof.
  intros -> (I1 & I2 & I3 & I4 & I5 & I6 & I7 & I8 & I9) Sf NN H. apply glang_cut; auto.
  assert (W : Forall (wfi true) (rev rl)) by now apply Forall_rev.
  destruct rl as [|x rl].
  - cbn [rev finish_glob] in *. unfold glob_match in H. cbn [g_node g_min g_max g_items g_prefix g_suffix g_vals null] in H.
    destruct (str_eqb_spec (prefix ++ suffix) (B "*")) as [E|_]; [elim (NN eq_refl E)|].
    destruct (zlen s <? mn)%Z; [discriminate|]. destruct ((0 <? mx)%Z && (mx <? zlen s)%Z); [discriminate|].
    apply ok_inj in H. destruct (str_eqb_spec (prefix ++ suffix) s) as [<-|]; [|discriminate]. exists []. split; reflexivity.
  - destruct (rev (x :: rl)) as [|y l] eqn:Er.
    { apply (f_equal (@length item)) in Er. rewrite rev_length in Er. discriminate. }
    set (vals := match y :: l with [IList l] => if (2 <? length (sl_vals l))%nat then sl_map l else [] | _ => [] end).
    set (node := prefix ++ concat (map item_write (y :: l)) ++ suffix).
    assert (EG : finish_glob g prefix suffix mn mx (y :: l) = mkGlob g node mn mx prefix suffix vals (y :: l)) by reflexivity.
    rewrite EG in H. clear EG. unfold glob_match in H. cbn [g_node g_min g_max g_items g_prefix g_suffix g_vals null] in H.
    assert (Eyl : y :: l = rev (x :: rl)) by auto.
    assert (Wy : Forall wok (y :: l)) by (rewrite Eyl; now apply Forall_rev).
    destruct (str_eqb_spec node (B "*")) as [En|Nn].
    { clear H. inversion Wy as [|? ? [Wy1 Wy2] Wl]; subst.
      assert (Ly : lit_text y = None).
      { specialize (I9 ltac:(discriminate)). rewrite <- (rev_involutive (x :: rl)), <- Eyl in I9. cbn [rev] in I9. now rewrite last_last in I9. }
      unfold node in En. cbn [map concat] in En.
      assert (Ll : length (item_write y) >= 1) by (destruct (item_write y); [easy|cbn; lia]).
      assert (Q : prefix = [] /\ suffix = [] /\ l = []).
      { pose proof (f_equal (@length ascii) En) as Le. rewrite !app_length in Le. cbn in Le.
        split; [apply length_zero_iff_nil; lia|]. split; [apply length_zero_iff_nil; lia|]. destruct l as [|z l]; auto. exfalso. inversion Wl as [|? ? [Wz _] _]; subst.
        cbn [map concat] in Le. rewrite app_length in Le. destruct (item_write z); [easy|cbn in Le; lia]. }
      destruct Q as (-> & -> & ->). cbn in En. rewrite !app_nil_r in En. rewrite (Wy2 Ly En) in *.
      exists s. cbn [app]. rewrite app_nil_r. split; auto. apply (proj2 (dens_one _ _)). cbn. lia. }
    destruct (zlen s <? mn)%Z; [discriminate|]. destruct ((0 <? mx)%Z && (mx <? zlen s)%Z); [discriminate|].
    assert (P0 : negb (null prefix) && negb (has_prefix s prefix) = negb (has_prefix s prefix)) by (destruct prefix; [now rewrite has_prefix_nil|reflexivity]).
    rewrite P0 in H. destruct (has_prefix s prefix) eqn:Hp; cbn [negb] in H; [|discriminate].
    apply has_prefix_iff in Hp as (s1 & ->). rewrite skipn_app, skipn_all, Nat.sub_diag in H. cbn [app skipn] in H.
    assert (P1 : negb (null suffix) && negb (has_suffix s1 suffix) = negb (has_suffix s1 suffix)).
    { destruct suffix; [|reflexivity]. cbn. assert (X : has_suffix s1 [] = true) by (apply has_suffix_iff; exists s1; now rewrite app_nil_r). now rewrite X. }
    rewrite P1 in H. destruct (has_suffix s1 suffix) eqn:Hs; cbn [negb] in H; [|discriminate].
    apply has_suffix_iff in Hs as (mid & ->). rewrite app_length, Nat.add_sub, firstn_app, firstn_all, Nat.sub_diag in H. cbn [firstn] in H. rewrite app_nil_r in H.
    exists mid. split; [reflexivity|].
    destruct (null vals) eqn:Ev; cbn [negb] in H; [now apply match_items_sound|]. apply ok_inj in H.
    assert (X : exists sl, y :: l = [IList sl] /\ vals = sl_map sl).
    { unfold vals in *. destruct y; try discriminate. destruct l; [|discriminate]. destruct (2 <? length (sl_vals l0)); [|discriminate]. eauto. }
    destruct X as (sl & Ey & Evs). rewrite Ey. apply (proj2 (dens_one _ _)). cbn [den]. rewrite Evs in H. apply existsb_exists in H as (v & I & E).
    destruct (str_eqb_spec mid v) as [<-|]; [|discriminate]. unfold sl_map, sl_optional in I. apply in_app_or in I as [I|I].
    + left. destruct (sl_min sl =? 0)%Z eqn:E0; [|destruct I]. destruct I as [<-|[]]. split; [lia|]. reflexivity.
    + right. eauto.
Qed.

Definition more (r : list item) : Prop := exists a k n b, r = a ++ IStar k :: IStar (S n) :: b.
Lemma more_cons it r : more r -> more (it :: r).
Proof. intros (a & k & n & b & ->). exists (it :: a), k, n, b. reflexivity. Qed.
Lemma more_star k k' r : more (IStar k :: r) -> more (IStar k' :: r).
Proof.
  intros (a & j & n & b & E). destruct a as [|x a]; injection E as E1 E2.
  - subst r. exists [], k', n, b. reflexivity.
  - subst r. exists (IStar k' :: a), j, n, b. reflexivity.
Qed.
Lemma paths_steady : forall n F, list_sum (map wsize F) <= n -> Forall (calm true true (fun _ => True)) F ->
  forall p : bool, (forall r, path F r -> ~ more (if p then IStar 0 :: r else r)) -> steady p F.
Proof.
  induction n as [|n IH]; intros F L C p H.
  { destruct F as [|it R]; [constructor|]. exfalso. cbn in L. destruct it; cbn in L; lia. }
  destruct F as [|it R]; [constructor|].
  change (list_sum (map wsize (it :: R))) with (wsize it + list_sum (map wsize R)) in L.
  assert (W : 1 <= wsize it) by (destruct it; cbn; lia). inversion C as [|? ? Ci CR]; subst.
  assert (Next : forall q : bool, (forall r, path R r -> ~ more (if q then IStar 0 :: r else r)) -> steady q R) by (intros q Hq; apply IH; auto; lia).
  assert (One : match it with IGroup _ _ _ | IChain _ _ _ => False | _ => True end -> steady false R).
  { intro O. apply Next. intros r P X. apply (H (it :: r)); [now apply pa_one|]. destruct p; repeat apply more_cons; auto. }
  destruct it; try (apply t_one; [exact I|now apply One]).
  - apply t_star.
    + intros ->. destruct n0 as [|n0]; [reflexivity|]. exfalso. apply (H [IStar (S n0)]); [apply pa_one; [exact I|constructor]|]. exists [], 0, n0, []. reflexivity.
    + apply Next. intros r P X. apply (H (IStar n0 :: r)); [now apply pa_one|]. apply (more_star _ n0) in X. destruct p; [now apply more_cons|auto].
  - apply t_list; [now apply One|]. intro E. apply Next. intros r P. apply H. now apply pa_no_list.
  - apply t_group.
    + intros v I. pose proof (proj2 Ci v I) as Cv. apply IH.
      * rewrite list_sum_app', calm1_size by auto. cbn in L.
        pose proof (PanicP.in_list_sum (fun v => length (val_items v)) vals v I) as K. cbn beta in K. lia.
      * apply Forall_app. split; [now apply calm1_all|auto].
      * intros r P. apply H. now apply pa_group with v.
    + intro E. apply Next. intros r P. apply H. now apply pa_no_group.
  - destruct Ci.
Qed.
(** Without '?' no star has a minimum. *)
Lemma calm1_steady l R : Forall (calm1 true false (fun _ => True)) l -> steady true R -> steady true (l ++ R).
Proof.
  intros F Q. induction F as [|it l H F IH]; cbn [app]; auto. assert (Q0 : steady false (l ++ R)) by now apply steady_mono in IH.
  destruct it; try easy; try (now apply t_one). apply t_star; auto. intros _. now apply H.
Qed.
Lemma calm_steady l : Forall (calm true false (fun _ => True)) l -> steady true l.
Proof.
  induction 1 as [|it l H F IH]; [constructor|]. assert (IH0 : steady false l) by now apply steady_mono in IH.
  destruct it; try easy; try (now apply t_one).
  - apply t_star; auto. intros _. now apply H.
  - apply t_list; auto.
  - apply t_group; auto. intros v I. apply calm1_steady; auto. now apply H.
Qed.
Lemma steady_sound g gl s : clean g -> ~ In zero g -> plain_singles g -> ~ only_star g -> glob_parse g = Ok gl -> steady false (g_items gl) ->
  glob_match gl s = Ok true -> denotes g (symbols s).
Proof.
  intros C Z P NO H Sf M.
  destruct (parse_facts true g gl) as (prefix & suffix & mn & mx & rl & E & G & D); auto; [split; [auto|split; [auto|discriminate]]|].
  assert (FI : g_items gl = rev rl) by (rewrite E; destruct (rev rl); auto). rewrite FI in Sf.
  apply (finish_sound g prefix suffix mn mx rl s gl E G Sf) in M.
  - apply D. exact M.
  - intros -> En. apply NO. intro w. rewrite D. cbn [rev dens]. destruct G as (I1 & I2 & _).
    assert (Es : symbols prefix ++ symbols suffix = [B "*"]) by (rewrite <- symbols_clean_app, En by auto; reflexivity). split.
    + intros (w2 & -> & ->). exact Es.
    + intros ->. exists []. split; auto.
Qed.
Lemma glob_sound g gl s : clean g -> ~ In zero g -> plain_singles g -> ~ only_star g -> glob_parse g = Ok gl -> ~ In "?"%char g \/ ~ star_more (g_items gl) ->
  glob_match gl s = Ok true -> denotes g (symbols s).
Proof.
  intros C Z P NO H [N|N]; apply steady_sound; auto.
  - apply (steady_mono true), calm_steady. apply (parse_calm true false (fun _ => True) g); auto. now repeat split.
  - apply (paths_steady (list_sum (map wsize (g_items gl)))); auto.
    + apply (parse_calm true true (fun _ => True) g); auto. now repeat split.
    + intros r Pr (a & k & n & b & E). apply N. exists r, a, k, n, b. auto.
Qed.
