(** Globs with stars in their lists: regular ones parse to safe item sequences. *)
From Verif Require Import Model.Glob Spec.Symbols Spec.Class Spec.GlobSpec Spec.StarSpec Spec.Lang Spec.Safe.
From Verif Require Import Proof.Utf8P Proof.SymbolsP Proof.SortP Proof.AsciiSetP Proof.SkipP Proof.MergeP Proof.RangesP Proof.ClassSearchP Proof.RangesTop Proof.LangP Proof.ListP Proof.ItemP Proof.DenotesP Proof.MatchP Proof.ParseP Proof.NextP Proof.GlobP Proof.GlobMatchP Proof.SafeP.
From Coq Require Import Sorting.Sorted Lia ZifyBool ZifyN ZifyNat.

(** ** The items of a value *)
(** [vrun l open]: l consists of one-symbol items and stars, a star is followed by a literal item or is the last; [open]: the last item is a star. *)
Inductive vrun : bool -> list item -> bool -> Prop :=
| v_nil st : vrun st [] st
| v_lit st it l st' : literal_item it -> vrun false l st' -> vrun st (it :: l) st'
| v_any n l st' : vrun false l st' -> vrun false (IAny n :: l) st'
| v_star k l st' : vrun true l st' -> vrun false (IStar k :: l) st'.
Lemma vrun_app st l1 l2 st2 : vrun st (l1 ++ l2) st2 <-> exists st1, vrun st l1 st1 /\ vrun st1 l2 st2.
Proof.
  revert st. induction l1 as [|x l1 IH]; intro st; cbn [app].
  - split; [intro R; exists st; split; [constructor|exact R]|]. intros (st1 & R1 & R2). inversion R1; subst. exact R2.
  - split.
    + intro R. inversion R; subst; match goal with H : vrun _ (l1 ++ l2) _ |- _ => apply IH in H as (st3 & R1 & R2) end; exists st3; split; auto; first [now apply v_lit|now apply v_any|now apply v_star].
    + intros (st1 & R1 & R2). inversion R1; subst; first [apply v_lit; [assumption|]; apply IH; now eauto|apply v_any; apply IH; now eauto|apply v_star; apply IH; now eauto].
Qed.
Lemma vrun_safe R l st st' : vrun st l st' -> (st' = false -> safe R) -> (st' = true -> R = [] \/ safe_star R) ->
  if st then l ++ R = [] \/ safe_star (l ++ R) else safe (l ++ R).
Proof.
  intros V S1 S2. induction V; cbn [app].
  - destruct st; auto.
  - specialize (IHV S1 S2). cbn in IHV. destruct st; [right; now apply ss_one|]. apply safe_one; auto. now apply literal_one.
  - specialize (IHV S1 S2). apply safe_one; auto. exact I.
  - specialize (IHV S1 S2). cbn in IHV. now apply safe_starred.
Qed.
Definition vitem (it : item) : Prop := one_item it \/ exists k, it = IStar k.
Lemma vrun_append rl st it : vrun false (rev rl) st -> vitem it ->
  exists st', vrun false (rev (append_item_rev rl it)) st' /\ (literal_item it -> st' = false) /\ (one_item it -> st = false -> st' = false).
Proof.
  intros R S.
  assert (K : forall st0, (st0 = true -> ~ match it with IAny _ | IStar _ => True | _ => False end) -> exists st', vrun st0 [it] st' /\ (literal_item it -> st' = false) /\ (one_item it -> st0 = false -> st' = false)).
  { intros st0 N0. destruct S as [O|(k & ->)].
    - exists false. split; [|auto]. destruct it; try easy; try (apply v_lit; [exact I|constructor]). destruct st0; [now elim N0|]. apply v_any. constructor.
    - exists true. destruct st0; [now elim N0|]. split; [apply v_star; constructor|]. split; intros []. }
  destruct rl as [|x r].
  - inversion R; subst. cbn [append_item_rev rev app]. apply K. discriminate.
  - cbn [append_item_rev]. cbn [rev] in R. apply vrun_app in R as (st1 & R1 & R2).
    rewrite merge_last_lit.
    assert (Ap : (st = true -> ~ match it with IAny _ | IStar _ => True | _ => False end) ->
       exists st', vrun false (rev (it :: x :: r)) st' /\ (literal_item it -> st' = false) /\ (one_item it -> st = false -> st' = false)).
    { intro N0. destruct (K st N0) as (st' & V & K1). exists st'. split; auto. cbn [rev]. apply vrun_app. exists st. split; auto. apply vrun_app. eauto. }
    assert (Mg : forall m st', vrun st1 [m] st' -> vrun false (rev (m :: r)) st').
    { intros m st' V. cbn [rev]. apply vrun_app. exists st1. split; auto. }
    destruct (lit_text x) as [a|] eqn:Ea; [destruct (lit_text it) as [b|] eqn:Eb|].
    + exists false. split; [|auto]. apply Mg. apply v_lit; [exact I|constructor].
    + assert (Lx : literal_item x) by (destruct x; easy). assert (E : st = false) by (inversion R2 as [|? ? ? ? L0 V0|? ? ? V0|? ? ? V0]; subst; try easy; now inversion V0). subst st.
      destruct x; try easy; destruct it; try easy; apply Ap; discriminate.
    + destruct x as [| | |m|m| | | |]; try easy.
      * assert (E : st = false) by (inversion R2 as [|? ? ? ? L0 V0|? ? ? V0|? ? ? V0]; subst; try easy; now inversion V0). assert (E1 : st1 = false) by (now inversion R2; subst). subst st st1.
        destruct it as [| | |n|n| | | |]; try (apply Ap; discriminate).
        -- exists false. split; [|auto]. apply Mg. apply v_any. constructor.
        -- exists true. split; [|split; intros []]. apply Mg. apply v_star. constructor.
      * assert (E1 : st1 = false) by (now inversion R2; subst). subst st1. assert (E : st = true) by (inversion R2 as [|? ? ? ? L0 V0|? ? ? V0|? ? ? V0]; subst; try easy; now inversion V0). subst st.
        destruct it as [| | |n|n| | | |]; try (apply Ap; tauto).
        -- exists true. split; [|split; [intros []|easy]]. apply Mg. apply v_star. constructor.
        -- exists true. split; [|split; intros []]. apply Mg. apply v_star. constructor.
      * inversion R2; subst; try easy. assert (E : st = false) by (match goal with V0 : vrun _ [] _ |- _ => now inversion V0 end). subst st. destruct it; try (apply Ap; discriminate).
      * inversion R2; subst; easy.
      * inversion R2; subst; easy.
      * inversion R2; subst; easy.
Qed.

(** ** Values of groups *)
Lemma token_vitem f s oi a rest : token f s oi a rest -> ~ In "}"%char s -> match oi with Some i => vitem i | None => True end.
Proof.
  intros [body r o N H|body r o N H|n r N|r|b c r Na N Mc|b Na N] NB.
  - apply class_kind in H. destruct o; auto. left. now apply literal_one.
  - exfalso. apply NB. rewrite braced_app. right. apply in_or_app. right. now left.
  - right. eauto.
  - left. exact I.
  - left. apply literal_one, single_kind.
  - left. exact I.
Qed.
Definition closing (v : str) (st : bool) : Prop := (st = false /\ ~ In "*"%char v) \/ exists p c, v = p ++ [c] /\ ~ In c metas.
Lemma last_of {A} (a b p : list A) c : a ++ b = p ++ [c] -> b <> [] -> exists p', b = p' ++ [c].
Proof.
  intros E N. destruct (exists_last N) as (b' & c' & ->). rewrite app_assoc in E. apply app_inj_tail in E as [_ ->]. eauto.
Qed.
Lemma group_chain_v f0 : forall fuel v st rl mn mx s0, ~ In "}"%char v -> vrun false (rev (fst (fst st))) s0 ->
  group_chain fuel (next_item f0) v st = Ok (rl, mn, mx) -> exists s', vrun false (rev rl) s' /\ (closing v s0 -> s' = false).
Proof.
  induction fuel as [|f IH]; intros v [[rl0 mn0] mx0] rl mn mx s0 NB V H; cbn [group_chain] in H.
  - destruct v; [|discriminate]. injection H as <- <- <-. exists s0. split; auto. intros [[-> _]|(p & c & E & _)]; auto. now destruct p.
  - destruct v as [|c v]; [injection H as <- <- <-; exists s0; split; auto; intros [[-> _]|(p & c & E & _)]; auto; now destruct p|].
    destruct (next_item f0 (c :: v)) as [[oi rest]|e| |] eqn:E; try discriminate.
    destruct f0 as [|f0]; [discriminate|]. apply next_token in E as (a & T). pose proof (token_vitem _ _ _ _ _ T NB) as O.
    destruct (token_text _ _ _ _ _ T) as [Ea Na].
    assert (NB' : ~ In "}"%char rest) by (intro I; apply NB; rewrite Ea; apply in_or_app; now right).
    assert (Cl : forall s1, closing (c :: v) s0 ->
       match oi with Some it => (literal_item it -> s1 = false) /\ (one_item it -> s0 = false -> s1 = false) | None => s1 = s0 end -> closing rest s1).
    { intros s1 [[-> NS]|(p & c0 & Ep & Nc)] K.
      - left. split; [|intro I; apply NS; rewrite Ea; apply in_or_app; now right]. destruct oi as [it|]; auto. destruct K as [_ K]. apply K; auto.
        exact (token_one _ _ _ _ _ T NB NS).
      - destruct rest as [|y rest].
        + rewrite Ea, app_nil_r in Ep. left. split; [|easy]. assert (La : last a zero = c0) by (rewrite Ep; apply last_last). clear - T La Nc K. remember (@nil ascii) as rest eqn:Er. destruct T as [body r o N H|body r o N H|n r N|r|b c1 r Na N Mc|b Na N]; try discriminate.
          * exfalso. unfold bracketed in La. rewrite app_comm_cons, last_last in La. subst. apply Nc. cbn. tauto.
          * exfalso. unfold braced in La. rewrite app_comm_cons, last_last in La. subst. apply Nc. cbn. tauto.
          * exfalso. cbn [repeat] in La. rewrite repeat_cons, last_last in La. subst. apply Nc. cbn. tauto.
          * exfalso. cbn in La. subst. apply Nc. cbn. tauto.
          * exact (proj1 K Logic.I).
        + right. rewrite Ea in Ep. apply last_of in Ep as (p' & E'); [eauto|discriminate]. }
    destruct oi as [it|].
    + unfold chain_append in H. destruct (vrun_append rl0 s0 it V O) as (s1 & V1 & K). apply (IH _ _ _ _ _ s1) in H; auto. destruct H as (s' & V' & C'). exists s'. split; auto.
    + apply (IH _ _ _ _ _ s0) in H; auto. destruct H as (s' & V' & C'). exists s'. split; auto.
Qed.
Definition fixed_first (rl : list item) : Prop := exists r it, rl = r ++ [it] /\ fixed it.
Lemma fixed_first_append rl it : fixed_first rl -> fixed_first (append_item_rev rl it).
Proof.
  intros (r & x & -> & F). destruct r as [|y r]; cbn [app append_item_rev].
  - destruct (merge_last x it) as [m|] eqn:E; [|exists [it], x; auto].
    assert (O : one_item it). { rewrite merge_last_lit in E. destruct F as [L _]. destruct x, it; easy. }
    destruct (fixed_append [x] it) as (r & z & E2 & F2 & _); auto. { exists [], x. auto. } cbn [append_item_rev] in E2. rewrite E in E2. exists r, z. auto.
  - destruct (merge_last y it) as [m|]; [exists (m :: r), x; auto|exists (it :: y :: r), x; auto].
Qed.
Lemma group_chain_first f0 : forall fuel v st rl mn mx, fixed_first (fst (fst st)) ->
  group_chain fuel (next_item f0) v st = Ok (rl, mn, mx) -> fixed_first rl.
Proof.
  induction fuel as [|f IH]; intros v [[rl0 mn0] mx0] rl mn mx F H; cbn [group_chain] in H.
  - destruct v; [|discriminate]. now injection H as <- <- <-.
  - destruct v as [|c v]; [now injection H as <- <- <-|].
    destruct (next_item f0 (c :: v)) as [[oi rest]|e| |] eqn:E; try discriminate. destruct oi as [it|].
    + unfold chain_append in H. apply IH in H; auto. cbn in *. now apply fixed_first_append.
    + apply IH in H; auto.
Qed.
Lemma group_chain_starts_v f0 fuel v rl mn mx : starts_fixed v ->
  group_chain fuel (next_item f0) v ([], 0%Z, 0%Z) = Ok (rl, mn, mx) -> fixed_first rl.
Proof.
  intros F H. destruct v as [|c v]; [exfalso; destruct F as [(c & p & E & _)|(body & p & r & E & _)]; discriminate E|].
  destruct fuel as [|fuel]; cbn [group_chain] in H; [discriminate|].
  destruct (next_item f0 (c :: v)) as [[oi rest]|e| |] eqn:E; try discriminate.
  destruct f0 as [|f0]; [discriminate|]. apply next_token in E as (a & T). destruct (token_fixed _ _ _ _ _ T F) as (it & -> & Fi).
  unfold chain_append in H. apply group_chain_first in H; auto. exists [], it. auto.
Qed.
(** What a value becomes. *)
Definition val_ok (v : str) (it : item) : Prop :=
  (exists s', vrun false (val_items it) s' /\ (closed_value v -> s' = false)) /\
  (starts_fixed v -> exists i its, val_items it = i :: its /\ fixed i).
Lemma group_vals_ok f0 : forall vals l, Forall (fun v => ~ In "}"%char v) vals ->
  group_vals (next_item f0) vals = Ok (inr l) -> Forall2 val_ok vals l.
Proof.
  induction vals as [|v vals IH]; intros l NB H; cbn [group_vals] in H.
  - injection H as <-. constructor.
  - inversion NB as [|? ? N1 N2]; subst. destruct (has_wildcard v) eqn:W.
    + destruct (str_eqb_spec v (B "*")) as [->|Ns]; [discriminate|].
      destruct (if str_eqb v (B "?") then Ok (IAny 1) else group_val (next_item f0) v) as [it|e| |] eqn:E; try discriminate. cbn [bind] in H.
      destruct (group_vals (next_item f0) vals) as [[r0|r0]|e| |] eqn:E2; try discriminate. cbn [bind] in H. injection H as <-.
      constructor; [|now apply IH]. clear E2 IH. destruct (str_eqb_spec v (B "?")) as [->|Nq].
      * injection E as <-. split.
        -- exists false. split; auto. apply v_any. constructor.
        -- intros [(c & p & E2 & N)|(body & p & r & E2 & _)]; [|discriminate]. injection E2 as <- _. elim N. cbn. tauto.
      * unfold group_val in E. destruct (group_chain (length v) (next_item f0) v ([], 0%Z, 0%Z)) as [[[rl mn] mx]|e| |] eqn:E2; try discriminate. cbn [bind] in E.
        assert (Ev : val_items it = rev rl).
        { destruct (group_chain_v f0 _ _ ([], 0%Z, 0%Z) _ _ _ false N1 (v_nil false) E2) as (s' & V & _).
          destruct rl as [|x [|y rl]]; injection E as <-; try reflexivity. cbn [rev app] in *. destruct x; try reflexivity. inversion V; easy. }
        unfold val_ok. rewrite Ev. split.
        -- destruct (group_chain_v f0 _ _ ([], 0%Z, 0%Z) _ _ _ false N1 (v_nil false) E2) as (s' & V & C). exists s'. split; auto. intros [K|K]; apply C; [left; auto|now right].
        -- intro F. apply group_chain_starts_v in E2 as (r & i & -> & Fi); auto. rewrite rev_app_distr. cbn. eauto.
    + destruct (group_vals (next_item f0) vals) as [[r0|r0]|e| |] eqn:E2; try discriminate. cbn [bind] in H. injection H as <-.
      constructor; [|now apply IH]. split.
      * exists false. split; auto. apply v_lit; [exact I|constructor].
      * intro F1. exists (IStr v), []. repeat split; auto. destruct v; [destruct F1 as [(c & p & E & _)|(body & p & r & E & _)]; discriminate E|]. cbn [item_min]. unfold zlen. cbn [length]. lia.
Qed.

(** ** Whole globs *)
(** [Maybe]: after a list that may or may not end with a star. *)
Inductive sstage := SNormal | SStar | SStarList | SMaybe.
Definition vgroup (vals : list item) (open : bool) : Prop := forall v, In v vals -> exists s, vrun false (val_items v) s /\ (s = true -> open = true).
Definition fgroup (vals : list item) : Prop := forall v, In v vals -> exists i its, val_items v = i :: its /\ fixed i.
Definition after (open : bool) : sstage := if open then SMaybe else SNormal.
Inductive sstep : sstage -> item -> sstage -> Prop :=
| ss_lit st it : literal_item it -> st <> SStarList -> sstep st it SNormal
| ss_any n : sstep SNormal (IAny n) SNormal
| ss_star st k : st = SNormal \/ st = SStarList -> sstep st (IStar k) SStar
| ss_plain l : sstep SNormal (IList l) SNormal
| ss_star_list st l : sl_min l <> 0%Z -> st = SStar \/ st = SMaybe -> sstep st (IList l) SStarList
| ss_grp vals mn mx open : vgroup vals open -> sstep SNormal (IGroup vals mn mx) (after open)
| ss_star_grp st vals mn mx open : vgroup vals open -> fgroup vals -> st = SStar \/ st = SMaybe -> sstep st (IGroup vals mn mx) (after open).
Inductive srun : sstage -> list item -> sstage -> Prop :=
| sr_nil st : srun st [] st
| sr_cons st it st1 l st2 : sstep st it st1 -> srun st1 l st2 -> srun st (it :: l) st2.
Lemma srun_app st l1 l2 st2 : srun st (l1 ++ l2) st2 <-> exists st1, srun st l1 st1 /\ srun st1 l2 st2.
Proof.
  revert st. induction l1 as [|x l1 IH]; intro st; cbn [app].
  - split; [intro R; exists st; split; [constructor|exact R]|]. intros (st1 & R1 & R2). inversion R1; subst. exact R2.
  - split.
    + intro R. inversion R; subst. apply IH in H4 as (st3 & R1 & R2). exists st3. split; auto. econstructor; eauto.
    + intros (st1 & R1 & R2). inversion R1; subst. econstructor; eauto. apply IH. eauto.
Qed.
Lemma srun_one st it st2 : srun st [it] st2 <-> sstep st it st2.
Proof. split; [intro R; inversion R as [|? ? ? ? ? S R2]; inversion R2; subst; auto|]. intro S. econstructor; eauto. constructor. Qed.
Lemma fgroup_min u vals mn mx : wfi u (IGroup vals mn mx) -> fgroup vals -> mn <> 0%Z.
Proof.
  intros (_ & Wo & Wv) L Z. specialize (Wo Z). apply Exists_exists in Wo as (v & J & Zv).
  assert (W : wfi u v).
  { clear - Wv J. induction vals as [|a vals IH]; [easy|]. destruct Wv as (_ & W & Wr). destruct J as [<-|J]; auto. }
  destruct (L v J) as (it & its & E & Lt & Nn). apply (den_min_0 u) in Zv; auto. apply den_val_items in Zv. pose proof (wfi_val u v W) as F.
  rewrite E in Zv, F. inversion F; subst. destruct Zv as (w1 & w2 & E2 & D & _). symmetry in E2. apply app_eq_nil in E2 as [-> _]. now apply (den_lit_nil it Lt Nn) in D.
Qed.
Definition sfits (it : item) : Prop := match it with IGroup vals mn _ => fgroup vals -> mn <> 0%Z | _ => True end.
Lemma wfi_sfits u l : Forall (wfi u) l -> Forall sfits l.
Proof. intro F. eapply Forall_impl; [|exact F]. intros [] W; try exact I. exact (fgroup_min u _ _ _ W). Qed.
Lemma srun_safe l : Forall sfits l -> forall st st', srun st l st' ->
  match st with
  | SNormal => safe l
  | SStar => l = [] \/ safe_star l
  | SStarList => safe l /\ (l = [] \/ exists k l', l = IStar k :: l')
  | SMaybe => safe l /\ (l = [] \/ safe_star l)
  end.
Proof.
  intro W. induction W as [|it l Wi W IH]; intros st st' R.
  - destruct st; repeat split; auto; constructor.
  - inversion R as [|? ? st1 ? ? S R2]; subst. specialize (IH _ _ R2).
    assert (A : forall open, match after open with SNormal => safe l | SStar => l = [] \/ safe_star l | SStarList => safe l /\ (l = [] \/ exists k l', l = IStar k :: l') | SMaybe => safe l /\ (l = [] \/ safe_star l) end ->
       safe l /\ (open = true -> l = [] \/ safe_star l)).
    { intros [|]; cbn; [tauto|]. intro. split; auto. discriminate. }
    assert (V : forall vals open, vgroup vals open -> safe l /\ (open = true -> l = [] \/ safe_star l) -> forall v, In v vals -> safe (val_items v ++ l)).
    { intros vals open G [K1 K2] v J. destruct (G v J) as (s & Vr & So). now apply (vrun_safe l _ _ _ Vr); auto. }
    inversion S; subst.
    + assert (X : safe (it :: l)) by (apply safe_one; auto; now apply literal_one). assert (Y : safe_star (it :: l)) by now apply ss_one. destruct st; auto. easy.
    + apply safe_one; [exact I|auto].
    + assert (X : safe (IStar k :: l)) by now apply safe_starred. destruct st; auto; try (destruct H; discriminate). split; eauto.
    + now apply safe_list.
    + destruct IH as [I1 I2]. assert (Y : safe_star (IList l0 :: l)) by (apply ss_list; auto; easy). destruct H0 as [-> | ->]; [now right|]. split; [now apply safe_list|now right].
    + apply A in IH. apply safe_group; [now apply (V _ open)|]. intros _. apply IH.
    + apply A in IH. assert (X : safe (IGroup vals mn mx :: l)) by (apply safe_group; [now apply (V _ open)|]; intros _; apply IH).
      assert (Y : safe_star (IGroup vals mn mx :: l)).
      { apply ss_group; [|intro Z; now elim (Wi H0)]. intros v J. pose proof (V _ _ H IH v J) as Sv. destruct (H0 v J) as (i & its & E & L & _). rewrite E in *. split; [discriminate|].
        cbn [app] in *. apply ss_one; auto. destruct (H v J) as (s & Vr & So). rewrite E in Vr. assert (Vr' : vrun false its s) by (inversion Vr; subst; auto; now destruct L).
        destruct IH as [K1 K2]. apply (vrun_safe l _ _ _ Vr'); auto. }
      destruct H1 as [-> | ->]; auto.
Qed.
Lemma srun_append rl st it st' : srun SNormal (rev rl) st ->
  match it with
  | IAny _ => (st = SNormal \/ st = SStar) /\ st' = st
  | IStar _ => st <> SMaybe /\ st' = SStar
  | _ => sstep st it st'
  end -> srun SNormal (rev (append_item_rev rl it)) st'.
Proof.
  intros R S. destruct rl as [|x r].
  - inversion R; subst. cbn. apply srun_one. destruct it; auto.
    + destruct S as [_ ->]. apply ss_any.
    + destruct S as [_ ->]. apply ss_star. auto.
  - cbn [append_item_rev]. cbn [rev] in R. apply srun_app in R as (st1 & R1 & R2). apply (proj1 (srun_one _ _ _)) in R2.
    rewrite merge_last_lit.
    assert (Ap : sstep st it st' -> srun SNormal (rev (it :: x :: r)) st').
    { intro S1. cbn [rev]. apply srun_app. exists st. split; [|now apply srun_one]. apply srun_app. exists st1. split; auto. now apply srun_one. }
    assert (Mg : forall m, sstep st1 m st' -> srun SNormal (rev (m :: r)) st').
    { intros m S1. cbn [rev]. apply srun_app. exists st1. split; auto. now apply srun_one. }
    destruct (lit_text x) as [a|] eqn:Ea; [destruct (lit_text it) as [b|] eqn:Eb|].
    + apply Mg. assert (Lx : literal_item x) by (destruct x; easy). assert (Li : literal_item it) by (destruct it; easy).
      inversion R2; subst; try easy. assert (st' = SNormal) as ->. { destruct it; try easy; now inversion S. } constructor; [exact I|auto].
    + assert (Lx : literal_item x) by (destruct x; easy). assert (st = SNormal) as -> by (inversion R2; subst; easy).
      destruct it; try discriminate; try (now apply Ap).
      * destruct x; try easy; apply Ap; destruct S as [_ ->]; apply ss_any.
      * destruct x; try easy; apply Ap; destruct S as [_ ->]; apply ss_star; auto.
    + destruct it as [| | |n|n| | | |]; try (now apply Ap).
      * destruct S as [N ->]. destruct x as [| | |m|m| | | |]; try discriminate;
          inversion R2; subst; try (destruct N; discriminate); try easy; try (destruct open; cbn in *; destruct N as [N|N]; try discriminate N);
          first [apply Ap; apply ss_any; fail|apply Mg; apply ss_any; fail|apply Mg; now apply ss_star].
      * destruct S as [N ->]. destruct x as [| | |m|m| | | |]; try discriminate; inversion R2; subst; try easy; try (destruct open; cbn in *; [now elim N|]);
          first [apply Ap; apply ss_star; now auto|apply Mg; apply ss_star; now auto].
Qed.

Lemma forall2_in {A C} (P : A -> C -> Prop) l1 l2 y : Forall2 P l1 l2 -> In y l2 -> exists x, In x l1 /\ P x y.
Proof. induction 1 as [|a b l1 l2 Pa F IH]; intros []; [subst; exists a; split; auto; now left|]. destruct (IH H) as (x & J & K). exists x. split; auto. now right. Qed.
Lemma group_vals_inl nwi vals it : group_vals nwi vals = Ok (inl it) -> it = IStar 0.
Proof.
  revert it. induction vals as [|v vals IH]; intros it H; cbn [group_vals] in H; [discriminate|]. destruct (has_wildcard v).
  - destruct (str_eqb v (B "*")); [now injection H as <-|]. destruct (if str_eqb v (B "?") then Ok (IAny 1) else group_val nwi v); try discriminate. cbn [bind] in H.
    destruct (group_vals nwi vals) as [[|]| | |]; try discriminate. cbn [bind] in H. injection H as <-. eauto.
  - destruct (group_vals nwi vals) as [[|]| | |]; try discriminate. cbn [bind] in H. injection H as <-. eauto.
Qed.
(** What a list becomes. *)
Lemma list_kind_v f vals oi : Forall (fun v => ~ In "}"%char v) vals -> vals <> [] ->
  new_item_list (next_item f) vals = Ok oi ->
  match oi with
  | None => In [] vals
  | Some (IStar _) => In (B "*") vals
  | Some (IList l) => (Forall (fun v => v <> []) vals -> sl_min l <> 0%Z) /\ Forall (fun v => has_wildcard v = false) vals
  | Some (IGroup gs _ _) => Forall2 val_ok vals gs
  | Some it => literal_item it
  end.
Proof.
  intros NB NE H. unfold new_item_list in H. destruct vals as [|v [|v2 vals]]; [easy| |].
  - destruct v; cbn [null] in H; injection H as <-; [now left|]. pose proof (single_kind (a :: v)) as K. destruct (single_item (a :: v)); easy.
  - remember (v :: v2 :: vals) as vs eqn:Evs.
    destruct (list_scan vs max_int 0 true as_empty) as [[[[mn mx] st] fi] hs] eqn:E. destruct hs.
    + unfold new_group in H. destruct (group_vals (next_item f) vs) as [[it|l]|e| |] eqn:Eg; try discriminate; cbn [bind] in H.
      * injection H as <-. rewrite (group_vals_inl _ _ _ Eg) in *. now apply group_vals_star in Eg.
      * apply group_vals_ok in Eg; auto. destruct l as [|x l]; [exfalso; inversion Eg; subst; discriminate|]. destruct (group_bounds l (item_min x) (item_max x)).
        injection H as <-. exact Eg.
    + pose proof (list_scan_plain _ _ _ _ _ _ _ _ _ E) as Pl. apply list_scan_spec in E; [|apply as_ok_empty]. destruct E as (_ & _ & B1 & B2 & _).
      assert (K : forall vs0, match (if st then IList (mkSList st fi vs0 mn mx) else IList (mkSList false as_empty vs0 mn mx)) with
        | IList l => Forall (fun v => v <> []) vs -> sl_min l <> 0%Z | _ => False end).
      { intro vs0. assert (X : Forall (fun v => v <> []) vs -> mn <> 0%Z); [|destruct st; exact X]. intros F ->. destruct B2 as [B2|B2]; [discriminate|].
        apply Exists_exists in B2 as (w & I & E). rewrite Forall_forall in F. apply (F w I). now apply zlen_0. }
      assert (exists vs0, oi = Some (if st then IList (mkSList st fi vs0 mn mx) else IList (mkSList false as_empty vs0 mn mx))) as (vs0 & ->).
      { subst vs. destruct (mn =? 0)%Z; [destruct v; [|discriminate]|]; injection H as <-; eauto. }
      specialize (K vs0). destruct st; split; auto; exact K.
Qed.
Lemma not_starts : ~ starts_fixed [] /\ ~ starts_fixed (B "*").
Proof.
  split; intros [(c & p & E & N)|(body & p & r & E & _)]; try discriminate E. injection E as <- _. apply N. cbn. tauto.
Qed.
Lemma token_fixed_app f s oi a rest suffix : token f s oi a rest -> starts_fixed (s ++ suffix) -> exists it, oi = Some it /\ literal_item it.
Proof.
  intros T [(c & p & E & N)|(body & p & r & E & Nb & I & Nz)].
  - destruct T as [body rest oi Nb H|body rest oi Nb H|n rest Nr|rest|a c' rest Na N' Mc|a Na N'].
    1-4: exfalso; injection E as <- _; apply N; cbn; tauto.
    + eexists. split; [reflexivity|]. apply single_kind.
    + eexists. split; [reflexivity|]. exact Logic.I.
  - rewrite bracketed_app in E. destruct T as [body' rest oi Nb' H|body' rest oi Nb' H|n rest Nr|rest|a c' rest Na N' Mc|a Na N']; try discriminate E.
    + rewrite <- app_assoc, bracketed_app in E. injection E as E. apply cut_unique in E as [-> _]; auto. destruct oi as [it|]; [|now apply (class_some body r None) in H]. exists it. split; auto. now apply class_kind in H.
    + eexists. split; [reflexivity|]. apply single_kind.
    + eexists. split; [reflexivity|]. exact Logic.I.
Qed.
Lemma token_list_start f s oi a rest suffix body' b' : token f s oi a rest -> s ++ suffix = braced body' ++ b' -> exists body rest', s = braced body ++ rest' /\ ~ In "}"%char body.
Proof.
  intros T X. destruct T as [body rest oi N H0|body rest oi N H0|n rest N|rest|a c' rest Na' N Mc|a Na' N]; try (exfalso; apply (f_equal (hd zero)) in X; cbn in X; discriminate X).
  - exists body, rest. auto.
  - exfalso. destruct a as [|x a]; [easy|]. injection X as -> _. apply (N "{"%char); [now left|]. cbn. tauto.
  - exfalso. destruct a as [|x a]; [easy|]. injection X as -> _. apply (N "{"%char); [now left|]. cbn. tauto.
Qed.
(** What may follow an open list. *)
Definition goes_on (b : str) : Prop := b = [] \/ starts_fixed b \/ exists body' b', b = braced body' ++ b'.
Lemma vgroup_of body gs : Forall2 val_ok (norm (split_on "," body)) gs ->
  exists open, vgroup gs open /\ (open = true -> exists v, alternative body v /\ ~ closed_value v).
Proof.
  intro F.
  assert (D : (forall v, In v gs -> exists s, vrun false (val_items v) s /\ s = false) \/ exists v, alternative body v /\ ~ closed_value v).
  { assert (Dc : forall x, closed_value x \/ ~ closed_value x).
    { intro x. unfold closed_value. destruct (in_dec ascii_dec "*"%char x) as [I|N]; [|left; now left]. destruct x as [|c0 x0]; [left; now left|].
      destruct (exists_last (l := c0 :: x0)) as (p & c & E); [discriminate|]. destruct (in_dec ascii_dec c metas) as [M|M].
      - right. intros [K|(p' & c' & E' & K)]; [now apply K|]. rewrite E in E'. apply app_inj_tail in E' as [_ <-]. now apply K.
      - left. right. eauto. }
    assert (Al : Forall (fun x => alternative body x) (norm (split_on "," body))) by (apply Forall_forall; intros x I; apply alternative_split; now apply (proj1 (norm_in _ _)) in I).
    clear - F Dc Al. induction F as [|x y l1 l2 Pa F IH]; [left; intros v []|]. inversion Al; subst. destruct IH as [IH|IH]; auto. destruct (Dc x) as [C|C]; [|right; eauto].
    left. intros v [<-|I]; auto. destruct Pa as [(s & V & K) _]. exists s. auto. }
  destruct D as [D|D].
  - exists false. split; [|discriminate]. intros v I. destruct (D v I) as (s & V & ->). exists false. split; auto.
  - exists true. split; auto. intros v I. destruct (forall2_in _ _ _ _ F I) as (x & _ & (s & V & _) & _). exists s. auto.
Qed.
Lemma fgroup_of body gs : Forall2 val_ok (norm (split_on "," body)) gs -> (forall v, alternative body v -> starts_fixed v) -> fgroup gs.
Proof.
  intros F P v I. destruct (forall2_in _ _ _ _ F I) as (x & J & _ & K). apply K, P, alternative_split. now apply (proj1 (norm_in _ _)) in J.
Qed.
Lemma loop_srun g suffix : regular_stars g -> forall f t done prefix mn mx rl st prefix' mn' mx' rl', g = done ++ t ++ suffix ->
  srun SNormal (rev rl) st -> (st <> SNormal -> In "*"%char done) -> (st = SStarList -> t = [] \/ exists t', t = "*"%char :: t') -> (st = SMaybe -> goes_on (t ++ suffix)) ->
  parse_loop f t (prefix, mn, mx, rl) = Ok (prefix', mn', mx', rl') -> exists st', srun SNormal (rev rl') st'.
Proof.
  intro Rg. induction f as [|f IH]; intros t done prefix mn mx rl st prefix' mn' mx' rl' Eg R Hd Ha Hm H.
  { destruct t; [|discriminate]. injection H as <- <- <- <-. eauto. }
  destruct t as [|c t]; [injection H as <- <- <- <-; eauto|].
  cbn [parse_loop] in H. remember (c :: t) as s eqn:Es. 
  destruct (next_wildcard_item s) as [[oi rest]|e| |] eqn:E; try discriminate. unfold next_wildcard_item in E.
  apply next_token in E as (a & T). destruct (token_text _ _ _ _ _ T) as [Ea Na].
  assert (G : exists st1, match oi with Some it => srun SNormal (rev (append_item_rev rl it)) st1 | None => st1 = st /\ st <> SMaybe end /\
    (st1 <> SNormal -> In "*"%char (done ++ a)) /\ (st1 = SStarList -> rest = [] \/ exists t', rest = "*"%char :: t') /\ (st1 = SMaybe -> goes_on (rest ++ suffix)) /\
    (rl = [] -> match oi with Some it => literal_item it -> st1 = SNormal | None => True end)).
  { assert (Hd' : st <> SNormal -> In "*"%char (done ++ a)) by (intro; apply in_or_app; left; auto).
    assert (Hs : st <> SStarList \/ exists t', s = "*"%char :: t').
    { destruct st; auto; try (left; discriminate). destruct (Ha eq_refl) as [X|X]; auto. rewrite X in Es. discriminate. }
    assert (Hl : st = SMaybe -> (exists it, oi = Some it /\ literal_item it) \/ exists body rest', s = braced body ++ rest' /\ ~ In "}"%char body).
    { intro Em. destruct (Hm Em) as [X|[X|(body' & b' & X)]]; [rewrite Es in X; discriminate| |].
      - left. exact (token_fixed_app _ _ _ _ _ _ T X).
      - right. exact (token_list_start _ _ _ _ _ _ _ _ T X). }
    rewrite Ea in Eg, Hs, Hl. clear Es Ha Hm H Ea. destruct T as [body rest oi N H|body rest oi N H|n rest N|rest|a c' rest Na' N Mc|a Na' N].
    - assert (Hs' : st <> SStarList) by (destruct Hs as [X|(t' & E)]; [exact X|discriminate E]). apply class_kind in H. destruct oi as [it|].
      + exists SNormal. split; [|split; [easy|split; [easy|split; [easy|auto]]]]. apply srun_append with st; auto. destruct it; try easy; now apply ss_lit.
      + assert (Nm : st <> SMaybe). { intro Em. destruct (Hl Em) as [(it & X & _)|(b0 & r0 & X & _)]; discriminate X. }
        exists st. split; auto. split; auto. split; [easy|]. split; auto. now intro.
    - assert (Hs' : st <> SStarList) by (destruct Hs as [X|(t' & E)]; [exact X|discriminate E]).
      destruct (Rg done body (rest ++ suffix)) as [R1 R2]; auto. { rewrite Eg, <- app_assoc. reflexivity. }
      assert (Fx : st <> SNormal -> forall v, In v (split_on "," body) -> starts_fixed v).
      { intros X v I. apply (R1 (Hd X)). now apply alternative_split. }
      assert (Nmt : forall v, In v (split_on "," body) -> ~ starts_fixed v -> st = SNormal).
      { intros v I X. destruct st; auto; exfalso; apply X, Fx; auto; discriminate. }
      destruct H as [[-> ->]|[Nb H]].
      { assert (st = SNormal) as -> by (apply (Nmt []); [now left|apply not_starts]). exists SNormal. split; [split; [auto|discriminate]|]. split; [easy|]. split; [easy|]. split; [discriminate|auto]. }
      assert (Sub : forall v, In v (norm (split_on "," body)) -> forall x, In x v -> In x body).
      { intros v I x J. apply (proj1 (norm_in _ _)) in I. destruct (split_part "," body v I) as (p & q & -> & _). apply in_or_app. right. apply in_or_app. now left. }
      apply list_kind_v in H.
      + destruct oi as [it|].
        2:{ apply (proj1 (norm_in _ _)) in H. assert (st = SNormal) as -> by (apply (Nmt []); [exact H|apply not_starts]). exists SNormal. split; [split; [auto|discriminate]|]. split; [easy|]. split; [easy|]. split; [discriminate|auto]. }
        assert (Lit : literal_item it -> exists st1, srun SNormal (rev (append_item_rev rl it)) st1 /\ (st1 <> SNormal -> In "*"%char (done ++ braced body)) /\ (st1 = SStarList -> rest = [] \/ exists t', rest = "*"%char :: t') /\
           (st1 = SMaybe -> goes_on (rest ++ suffix)) /\ (rl = [] -> literal_item it -> st1 = SNormal)).
        { intro L. exists SNormal. split; [|split; [easy|split; [easy|split; [easy|auto]]]]. apply srun_append with st; auto. destruct it; try easy; now apply ss_lit. }
        destruct it; try (now apply Lit); clear Lit.
        * exists SStar. assert (st = SNormal) as -> by (apply (Nmt (B "*")); [now apply (proj1 (norm_in _ _)) in H|apply not_starts]).
          split; [apply srun_append with SNormal; auto; split; [discriminate|auto]|]. split; [intros _; apply in_or_app; right; right; apply in_or_app; left; eapply Sub; eauto; now left|]. split; [discriminate|]. split; [discriminate|]. intros _ [].
        * destruct (match st with SNormal => true | _ => false end) eqn:Est.
          -- destruct st; try discriminate. exists SNormal. split; [|split; [easy|split; [easy|split; [easy|auto]]]]. apply srun_append with SNormal; auto. apply ss_plain.
          -- assert (Sn : st <> SNormal) by (intros ->; discriminate). destruct (R1 (Hd Sn)) as (P1 & P3).
             assert (P4 : ~ exists c, In c body /\ In c metas).
             { intros (c0 & J & M). destruct (split_has "," body c0 J) as (v & Iv & Jv); [intros ->; cbn in M; repeat destruct M as [M|M]; try discriminate; easy|].
               destruct H as [_ H]. rewrite Forall_forall in H. specialize (H v (proj2 (norm_in _ _) Iv)). assert (W : has_wildcard v = true); [|congruence].
               apply existsb_exists. exists c0. split; auto. now apply is_wild_iff. }
             exists SStarList. split; [|split; [|split; [|split; [discriminate|]]]].
             ++ apply srun_append with st; auto. apply ss_star_list; [|destruct st; auto; easy]. apply H. apply Forall_forall. intros v I ->. apply (proj1 not_starts). apply P1, alternative_split. now apply (proj1 (norm_in _ _)) in I.
             ++ intros _. apply in_or_app. left. now apply Hd.
             ++ intros _. destruct rest as [|y rest]; auto. right. destruct P3 as [P3|[P3|(b' & P3)]]; [easy|discriminate|]. injection P3 as -> _. eauto.
             ++ intros _ [].
        * destruct (vgroup_of body vals H) as (open & Vg & Op).
          assert (St : sstep st (IGroup vals minsize maxsize) (after open)).
          { destruct (match st with SNormal => true | _ => false end) eqn:Est; [destruct st; try discriminate; now apply ss_grp|].
            assert (Sn : st <> SNormal) by (intros ->; discriminate). apply ss_star_grp; auto; [|destruct st; auto; easy]. apply (fgroup_of body); auto. now apply R1, Hd. }
          exists (after open). split; [apply srun_append with st; auto|]. split; [|split; [destruct open; discriminate|split; [|intros _ []]]].
          -- destruct open; [|easy]. intros _. destruct (Op eq_refl) as (v & Av & Cv). apply in_or_app. right. right. apply in_or_app. left.
             assert (J : In "*"%char v). { destruct (in_dec ascii_dec "*"%char v) as [I|X]; auto. elim Cv. now left. }
             destruct Av as (p & q & -> & _). apply in_or_app. right. apply in_or_app. now left.
          -- destruct open; [|discriminate]. intros _. apply R2. now apply Op.
      + apply Forall_forall. intros v I J. apply N. eapply Sub; eauto.
      + intro Z0. pose proof (split_on_nonempty "," body) as NE'. destruct (split_on "," body) as [|y l] eqn:Es; [easy|].
        assert (X : In y (norm (y :: l))) by (apply norm_in; now left). rewrite Z0 in X. destruct X.
    - assert (Nm : st <> SMaybe). { intro Em. destruct (Hl Em) as [(it & X & L)|(b0 & r0 & X & _)]; [injection X as <-; destruct L|discriminate X]. }
      exists SStar. split; [now apply srun_append with st|]. split; [intros _; apply in_or_app; right; now left|]. split; [easy|]. split; [easy|]. intros _ [].
    - assert (Hs' : st <> SStarList) by (destruct Hs as [X|(t' & E)]; [exact X|discriminate E]).
      assert (Nm : st <> SMaybe). { intro Em. destruct (Hl Em) as [(it & X & L)|(b0 & r0 & X & _)]; [injection X as <-; destruct L|discriminate X]. }
      exists st. split; [apply srun_append with st; auto; split; [destruct st; auto; easy|auto]|]. split; auto. split; [easy|]. split; [easy|]. intros _ [].
    - assert (Hs' : st <> SStarList).
      { destruct Hs as [|(t' & E)]; [auto|]. exfalso. destruct a as [|x a]; [easy|]. injection E as -> _. apply (N "*"%char); [now left|]. cbn. tauto. }
      exists SNormal. split; [|split; [easy|split; [easy|split; [easy|auto]]]]. apply srun_append with st; auto. pose proof (single_kind a) as K. destruct (single_item a); try easy; now apply ss_lit.
    - assert (Hs' : st <> SStarList).
      { destruct Hs as [|(t' & E)]; [auto|]. exfalso. rewrite app_nil_r in E. rewrite E in N. apply (N "*"%char); [now left|]. cbn. tauto. }
      exists SNormal. split; [|split; [easy|split; [easy|split; [easy|auto]]]]. apply srun_append with st; auto. now apply ss_lit. }
  destruct G as (st1 & G1 & G2 & G3 & G5 & G4). 
  assert (Eg' : g = (done ++ a) ++ rest ++ suffix) by (rewrite Eg, Ea, <- !app_assoc; reflexivity).
  destruct oi as [it|].
  - destruct (parse_step (prefix, mn, mx, rl) it) as [[[p1 n1] x1] r1] eqn:S1.
    assert (Er : r1 = append_item_rev rl it \/ (rl = [] /\ r1 = [] /\ literal_item it)).
    { unfold parse_step in S1. destruct rl; [|injection S1 as _ _ _ <-; now left]. destruct it; injection S1 as _ _ _ <-; auto; right; repeat split. }
    destruct Er as [->|(-> & -> & L)]; [exact (IH _ _ _ _ _ _ _ _ _ _ _ Eg' G1 G2 G3 G5 H)|].
    refine (IH _ _ _ _ _ _ SNormal _ _ _ _ Eg' _ _ _ _ H); [constructor|easy|easy|easy].
  - destruct G1 as [-> _]. exact (IH _ _ _ _ _ _ st _ _ _ _ Eg' R G2 G3 G5 H).
Qed.
Lemma take_suffix_srun suffix rl suffix' rl' st : srun SNormal (rev rl) st -> take_suffix suffix rl = (suffix', rl') -> exists st', srun SNormal (rev rl') st'.
Proof.
  intros R H. assert (X : rl' = rl \/ exists x, rl = x :: rl').
  { unfold take_suffix in H. destruct rl as [|x [|y r]]; [injection H as _ <-; auto|destruct x; injection H as _ <-; auto|].
    destruct x; injection H as _ <-; eauto. }
  destruct X as [->|(x & ->)]; [eauto|]. cbn [rev] in R. apply srun_app in R as (st1 & R1 & _). eauto.
Qed.
Lemma parse_srun g gl : regular_stars g -> glob_parse g = Ok gl -> exists st, srun SNormal (g_items gl) st.
Proof.
  intros Rg H. unfold glob_parse in H. destruct (index_wildcard g) as [pos|]; [|injection H as <-; exists SNormal; constructor].
  destruct (index_last_wildcard (skipn pos g)) as [e|]; [|discriminate].
  destruct (Nat.eqb e 0 && negb (Ascii.eqb (nth 0 (skipn pos g) zero) "?") && negb (Ascii.eqb (nth 0 (skipn pos g) zero) "*")); [discriminate|].
  destruct (if (e <? length (skipn pos g) - 1)%nat then (skipn (S e) (skipn pos g), firstn (S e) (skipn pos g)) else ([], skipn pos g)) as [suffix body] eqn:F.
  assert (Eg : g = firstn pos g ++ body ++ suffix).
  { destruct (e <? length (skipn pos g) - 1)%nat; pose proof (f_equal fst F) as F1; pose proof (f_equal snd F) as F2; cbn [fst snd] in F1, F2; rewrite <- F1, <- F2.
    - rewrite (firstn_skipn (S e) (skipn pos g)). now rewrite firstn_skipn.
    - now rewrite app_nil_r, firstn_skipn. }
  assert (FI : forall t p s mn mx its, g_items (finish_glob t p s mn mx its) = its) by (intros; destruct its; reflexivity).
  destruct (str_eqb body (B "*")); [apply ok_inj in H; rewrite <- H, FI; exists SStar; apply srun_one; apply ss_star; auto|].
  destruct (str_eqb body (B "?")); [apply ok_inj in H; rewrite <- H, FI; exists SNormal; apply srun_one; apply ss_any|].
  destruct (parse_loop (length body) body (firstn pos g, (zlen (firstn pos g) + zlen suffix)%Z, (zlen (firstn pos g) + zlen suffix)%Z, [])) as [[[[p1 n1] x1] r1]|e1| |] eqn:El; try discriminate.
  cbn [bind] in H. destruct (take_suffix suffix r1) as [s2 r2] eqn:Et. apply ok_inj in H. rewrite <- H, FI.
  apply (loop_srun g suffix Rg _ _ _ _ _ _ _ SNormal _ _ _ _ Eg) in El; [|constructor|easy|easy|easy]. destruct El as (st & R). exact (take_suffix_srun _ _ _ _ st R Et).
Qed.

(** ** Matching, up to the length filter *)
Lemma node_star u g prefix suffix mn mx rl gl : gl = finish_glob g prefix suffix mn mx (rev rl) -> ginv u prefix suffix mn mx rl -> rl <> [] -> g_node gl = B "*" -> mx = (-1)%Z.
Proof.
  intros -> (I1 & I2 & I3 & I4 & I5 & I6 & I7 & I8 & I9) Nr En. destruct rl as [|x rl]; [easy|].
  destruct (rev (x :: rl)) as [|y l] eqn:Er.
  { apply (f_equal (@length item)) in Er. rewrite rev_length in Er. discriminate. }
  assert (Eyl : y :: l = rev (x :: rl)) by auto. assert (Wy : Forall wok (y :: l)) by (rewrite Eyl; now apply Forall_rev).
  change (g_node _) with (prefix ++ concat (map item_write (y :: l)) ++ suffix) in En.
  inversion Wy as [|? ? [Wy1 Wy2] Wl]; subst.
  assert (Ly : lit_text y = None).
  { specialize (I9 Nr). rewrite <- (rev_involutive (x :: rl)), <- Eyl in I9. cbn [rev] in I9. now rewrite last_last in I9. }
  cbn [map concat] in En.
  assert (Ll : length (item_write y) >= 1) by (destruct (item_write y); [easy|cbn; lia]).
  assert (Q : prefix = [] /\ suffix = [] /\ l = []).
  { pose proof (f_equal (@length ascii) En) as Le. rewrite !app_length in Le. cbn in Le.
    split; [apply length_zero_iff_nil; lia|]. split; [apply length_zero_iff_nil; lia|]. destruct l as [|z l]; auto. exfalso. inversion Wl as [|? ? [Wz _] _]; subst.
    cbn [map concat] in Le. rewrite app_length in Le. destruct (item_write z); [easy|cbn in Le; lia]. }
  destruct Q as (-> & -> & ->). cbn in En. rewrite !app_nil_r in En. rewrite (Wy2 Ly En) in *.
  destruct (Z.eq_dec mx (-1)) as [|N]; auto. destruct (I8 N) as [F _]. rewrite Forall_forall in F. exfalso. apply (F (IStar 0)); [|reflexivity].
  rewrite <- (rev_involutive (x :: rl)), <- Eyl. now left.
Qed.
Lemma glob_match_safe g gl s : clean g -> ~ In zero g -> plain_singles g -> glob_parse g = Ok gl ->
  safe (g_items gl) -> ~ only_star g -> clean s \/ lone_classes g ->
  exists b, glob_match gl s = Ok b /\ (b = true <-> denotes g (symbols s) /\ (g_max gl <= 0 \/ zlen s <= g_max gl)%Z).
Proof.
  intros C Z P H Sf NO O. destruct (okstr_of g s O) as (u & Os & A).
  destruct (parse_facts u g gl) as (prefix & suffix & mn & mx & rl & E & G & D); auto; [split; auto|].
  assert (FI : g_items gl = rev rl /\ g_max gl = mx). { rewrite E. destruct (rev rl); auto. }
  destruct FI as [FI FM]. rewrite FI in *. 
  assert (G' : ginv u prefix suffix mn (-1) rl). { destruct G as (I1 & I2 & I3 & I4 & I5 & I6 & I7 & I8 & I9). repeat split; auto; try lia; intros; lia. }
  assert (NP : rl = [] -> prefix ++ suffix <> B "*").
  { intros -> En. apply NO. intro w. rewrite D. cbn [rev dens]. destruct G as (I1 & I2 & _).
    assert (Es : symbols prefix ++ symbols suffix = [B "*"]) by (rewrite <- symbols_clean_app, En by auto; reflexivity). split.
    + intros (w2 & -> & ->). exact Es.
    + intros ->. exists []. split; auto. }
  destruct (finish_match u g prefix suffix mn (-1) rl s (finish_glob g prefix suffix mn (-1) (rev rl))) as (b & Mb & Db); auto.
  rewrite FM.
  assert (NS : g_node gl = B "*" -> mx = (-1)%Z).
  { intro En. destruct rl as [|x rl].
    - exfalso. rewrite E in En. exact (NP eq_refl En).
    - now apply (node_star u g prefix suffix mn mx (x :: rl) gl). }
  assert (Eq : glob_match gl s = if (0 <? mx)%Z && (mx <? zlen s)%Z then Ok false else glob_match (finish_glob g prefix suffix mn (-1) (rev rl)) s).
  { assert (Nd : g_node (finish_glob g prefix suffix mn (-1) (rev rl)) = g_node gl) by (rewrite E; destruct (rev rl); reflexivity).
    assert (K : forall g1 g2, g_node g1 = g_node g2 -> g_min g1 = g_min g2 -> g_items g1 = g_items g2 -> g_prefix g1 = g_prefix g2 -> g_suffix g1 = g_suffix g2 -> g_vals g1 = g_vals g2 ->
      g_max g2 = (-1)%Z -> (g_node g1 = B "*" -> g_max g1 = (-1)%Z) ->
      glob_match g1 s = if (0 <? g_max g1)%Z && (g_max g1 <? zlen s)%Z then Ok false else glob_match g2 s).
    { intros g1 g2 E1 E2 E3 E4 E5 E6 E7 E8. unfold glob_match. rewrite <- E1, <- E2, <- E3, <- E4, <- E5, <- E6, E7. destruct (str_eqb_spec (g_node g1) (B "*")) as [X|X].
      - rewrite (E8 X). reflexivity.
      - destruct (zlen s <? g_min g1)%Z; [|reflexivity]. now destruct ((0 <? g_max g1)%Z && (g_max g1 <? zlen s)%Z). }
    rewrite <- FM in *. apply K; auto; try (rewrite E; destruct (rev rl); reflexivity). destruct (rev rl); reflexivity. }
  rewrite Eq. destruct ((0 <? mx)%Z && (mx <? zlen s)%Z) eqn:Fi.
  - exists false. split; auto. split; [discriminate|]. intros [_ X]. lia.
  - exists b. split; auto. rewrite Db, D. split; [intro X; split; auto; lia|intros [X _]; exact X].
Qed.
Lemma glob_match_stars g gl s : clean g -> ~ In zero g -> plain_singles g -> regular_stars g -> ~ only_star g -> glob_parse g = Ok gl -> clean s \/ lone_classes g ->
  exists b, glob_match gl s = Ok b /\ (b = true <-> denotes g (symbols s) /\ (g_max gl <= 0 \/ zlen s <= g_max gl)%Z).
Proof.
  intros C Z P R NO H O. destruct (parse_srun g gl R H) as (st & Rn). apply glob_match_safe; auto.
  destruct (parse_facts true g gl) as (prefix & suffix & mn & mx & rl & E & G & _); auto; [split; auto; split; auto; discriminate|].
  apply srun_safe in Rn; [exact Rn|]. apply (wfi_sfits true). assert (g_items gl = rev rl) as -> by (rewrite E; destruct (rev rl); auto). apply Forall_rev, G.
Qed.

(** Without stars in lists. *)
Lemma regular_exact g : regular g -> exact_lists g.
Proof.
  intro R. split.
  - intros a body b E N. destruct (R a body b E N) as [R1 R2]. split; auto. intros (v & A & C). exfalso. apply C. left. intro I. apply R1.
    destruct A as (p & q & -> & _). apply in_or_app. right. apply in_or_app. now left.
  - intros a body b v x y E N A Ev. destruct (R a body b E N) as [R1 _]. exfalso. apply R1. destruct A as (p & q & -> & _). apply in_or_app. right. apply in_or_app. left. rewrite Ev. apply in_or_app. right. now left.
Qed.
