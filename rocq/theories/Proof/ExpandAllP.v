(** Expand and ExpandTry of a text, from its factors. *)
From Coq Require Import Lia ZifyBool ZifyN ZifyNat.
From Verif Require Import Spec.ExpandSpec Proof.ExpandP Proof.ExpandReadP Proof.ExpandFacP.
Local Open Scope Z_scope.

Lemma wrap_id z : 0 <= z < 2 ^ 63 -> wrap64 z = z.
Proof. intros H. unfold wrap64. rewrite Z.mod_small by lia. lia. Qed.

Lemma plan_zero exps : forall count depth, plan count 0 depth exps = map (fun e => [e_body e]) exps.
Proof.
  induction exps as [|e r IH]; intros count depth; [reflexivity|]. cbn [plan map]. cbv zeta.
  change (0 <? 0) with false. cbn [andb].
  replace (if (0 <? depth) && (is_estr e || is_ewild e) && _ then 0 else 0) with 0 by (now destruct (_ && _)).
  rewrite IH. reflexivity.
Qed.
Lemma chosen_false max depth fs : forall n d, chosen max depth n d false fs = map (fun f => [raw f]) fs.
Proof.
  induction fs as [|[t|r vs] fs IH]; intros n d; cbn [chosen map raw andb]; [reflexivity| |]; cbv zeta; now rewrite IH.
Qed.
Lemma chosen_deep max depth fs : 0 < depth -> forall n d, depth <= d -> chosen max depth n d true fs = map (fun f => [raw f]) fs.
Proof.
  intros D. induction fs as [|[t|r vs] fs IH]; intros n d L; cbn [chosen map raw].
  - reflexivity.
  - rewrite IH by (pose proof (dots_pos t); lia). reflexivity.
  - cbv zeta. replace (depth <=? 0) with false by lia. replace (d <? depth) with false by lia.
    cbn [orb]. rewrite !andb_false_r. now rewrite chosen_false.
Qed.
Lemma chosen_zero depth fs : forall n d go, chosen 0 depth n d go fs = map (fun f => [raw f]) fs.
Proof.
  induction fs as [|[t|r vs] fs IH]; intros n d go; cbn [chosen map raw]; [reflexivity| |].
  - now rewrite IH.
  - cbv zeta. change (0 =? 0) with true. cbn [negb]. rewrite andb_false_r. cbn [andb]. now rewrite IH.
Qed.
Lemma facs_bodies exps : map (fun f => [raw f]) (facs exps) = map (fun e => [e_body e]) exps.
Proof. unfold facs. rewrite map_map. apply map_ext. intros e. unfold fac_of. now destruct (e_typ e). Qed.

Lemma vals_text e t : fac_of e = Text t -> (is_estr e || is_ewild e = true) /\ e_body e = t /\ vals e = [t] /\ e_count e = 1.
Proof. destruct e as [[] b l r p]; unfold fac_of, vals, e_count; cbn; intros H; inversion H; auto. Qed.
Lemma vals_choice e r vs : fac_of e = Choice r vs -> (is_estr e || is_ewild e = false) /\ e_body e = r /\ vals e = vs.
Proof. destruct e as [[] b l rs p]; unfold fac_of, vals; cbn; intros H; inversion H; auto. Qed.

Lemma plan_chosen max depth exps : max <> 0 ->
  Forall good_expr exps -> Forall (fun e => max * e_count e < 2 ^ 63) exps ->
  forall count D n d, 0 <= d ->
  (0 < max -> n = (if count <=? 0 then 1 else count) /\ 1 <= n <= max) ->
  (if 0 <? depth then D = depth + 1 - d /\ d < depth else D <= 0) ->
  plan count max D exps = chosen max depth n d true (facs exps).
Proof.
  intros M. induction exps as [|e r IH]; intros G W count D n d D0 Hn HD; [reflexivity|].
  inversion_clear G as [|? ? Ge Gr]. inversion_clear W as [|? ? We Wr]. destruct Ge as (Fr & C & V).
  cbn [plan]. cbv zeta. unfold facs. cbn [map]. fold (facs r).
  destruct (fac_of e) as [t|rw vs] eqn:FE.
  - destruct (vals_text e t FE) as (T & B & VE & CE). rewrite T, B, VE, CE, !andb_true_r, !Z.mul_1_r. cbn [chosen].
    rewrite dots_count.
    assert (EC : 0 < max -> wrap64 (if count <=? 0 then 1 else count) = n).
    { intros P. destruct (Hn P) as [E L]. rewrite <- E. rewrite CE in We. apply wrap_id. lia. }
    assert (EM : (if (0 <? max) && (max <? (if 0 <? max then wrap64 (if count <=? 0 then 1 else count) else count)) then 0 else max) = max).
    { destruct (0 <? max) eqn:P; [|reflexivity]. rewrite EC by lia. destruct (Hn ltac:(lia)) as [_ L].
      cbn [andb]. now replace (max <? n) with false by lia. }
    rewrite EM. pose proof (dots_pos t) as DP.
    destruct (0 <? depth) eqn:PD.
    + destruct HD as [-> Ld]. replace (0 <? depth + 1 - d) with true by lia. cbn [andb].
      destruct (Z.leb_spec (depth + 1 - d - dots t) 1) as [L|L].
      * change (0 =? 0) with true. cbv iota. f_equal. rewrite plan_zero, chosen_deep by lia. now rewrite facs_bodies.
      * replace (max =? 0) with false by lia. f_equal. apply IH; auto; try lia.
        intros P. replace (0 <? max) with true by lia. rewrite EC by lia. destruct (Hn P) as [_ Ln].
        split; [|exact Ln]. now replace (n <=? 0) with false by lia.
    + replace (0 <? D) with false by lia. cbn [andb].
      replace (max =? 0) with false by lia. f_equal. apply IH; auto; try lia.
      intros P. replace (0 <? max) with true by lia. rewrite EC by lia. destruct (Hn P) as [_ Ln].
      split; [|exact Ln]. now replace (n <=? 0) with false by lia.
  - destruct (vals_choice e rw vs FE) as (T & B & VE). rewrite T, !andb_false_r. cbn [andb chosen]. rewrite B, VE. rewrite VE in C, V.
    assert (K : 1 <= Z.of_nat (length vs)) by (destruct vs; [congruence|cbn; lia]).
    set (k := Z.of_nat (length vs)) in *. rewrite C in *.
    assert (FD : (depth <=? 0) || (d <? depth) = true) by (destruct (0 <? depth) eqn:PD; lia). rewrite FD, andb_true_r.
    replace (max =? 0) with false by lia. cbn [negb andb].
    destruct (0 <? max) eqn:P.
    + destruct (Hn ltac:(lia)) as [E L]. rewrite <- E. cbn [andb]. rewrite wrap_id by nia.
      replace (max <? 0) with false by lia. cbn [orb].
      destruct (Z.ltb_spec max (n * k)) as [X|X].
      * replace (n * k <=? max) with false by lia. change (0 =? 0) with true. cbv iota. f_equal.
        rewrite plan_zero, chosen_false. now rewrite facs_bodies.
      * replace (n * k <=? max) with true by lia. replace (max =? 0) with false by lia. f_equal. apply IH; auto.
        intros _. replace (n * k <=? 0) with false by nia. nia.
    + cbn [andb]. replace (max <? 0) with true by lia. cbn [orb]. replace (max =? 0) with false by lia.
      f_equal. apply IH; auto; lia.
Qed.

Lemma size_pos fs : (forall r vs, In (Choice r vs) fs -> vs <> []) -> 1 <= size fs.
Proof.
  induction fs as [|f fs IH]; intros H; [cbn; lia|]. unfold size in *. cbn [fold_right].
  assert (1 <= Z.of_nat (length (values f))).
  { destruct f as [t|r vs]; cbn; [lia|]. specialize (H r vs (or_introl eq_refl)). destruct vs; [easy|cbn; lia]. }
  specialize (IH ltac:(intros; eapply H; right; eauto)). nia.
Qed.
Lemma good_choices exps : Forall good_expr exps -> forall r vs, In (Choice r vs) (facs exps) -> vs <> [].
Proof.
  intros F r vs I. apply in_map_iff in I as (e & E & I). rewrite Forall_forall in F. destruct (F e I) as (_ & _ & V).
  apply vals_choice in E as (_ & _ & <-). exact V.
Qed.
Lemma capacity_ok exps : Forall good_expr exps -> forall c, 1 <= c -> c * size (facs exps) <= 2 ^ 44 ->
  1 <= exps_capacity exps c <= 2 ^ 44.
Proof.
  induction exps as [|e r IH]; intros F c C S.
  - cbn in *. lia.
  - inversion_clear F as [|? ? Ge Gr]. cbn [exps_capacity]. cbv zeta. destruct Ge as (Fr & EC & V).
    pose proof (size_pos (facs r) (good_choices r Gr)) as P.
    assert (E : size (facs (e :: r)) = e_count e * size (facs r)).
    { unfold facs, size. cbn [map fold_right]. f_equal. rewrite EC. unfold fac_of, vals. now destruct (e_typ e). }
    rewrite E in S. assert (1 <= e_count e) by (rewrite EC; destruct (vals e); [congruence|cbn; lia]).
    assert (c * e_count e <= 2 ^ 44) by nia. rewrite wrap_id by nia.
    destruct (is_ewild e); [nia|]. apply IH; auto; nia.
Qed.

Lemma hd_product vss : Forall (fun vs => vs <> []) vss -> product vss <> [] /\ hd [] (product vss) = concat (map (hd []) vss).
Proof.
  induction 1 as [|vs r N F [NE IH]]; [split; [discriminate|reflexivity]|]. cbn [product map concat].
  destruct vs as [|v vs]; [easy|]. cbn [flat_map hd]. destruct (product r) as [|x l]; [easy|]. cbn [map app hd] in *. subst x.
  split; [discriminate|reflexivity].
Qed.
Lemma plan_nonempty exps : Forall good_expr exps -> forall c m d, Forall (fun vs => vs <> []) (plan c m d exps).
Proof.
  induction 1 as [|e r G F IH]; intros c m d; cbn [plan]; [constructor|]. cbv zeta. constructor; auto.
  destruct (_ =? 0); [discriminate|apply G].
Qed.

Lemma expand_exps s fs max depth exps : factors s fs -> parse_expr s = Ok exps -> exps <> [] ->
  Forall good_expr exps -> eqf (facs exps) fs -> size fs <= 2 ^ 44 -> fits64 max fs ->
  exps_expand exps max depth false = Ok (exps, expansion max depth fs) /\
  exists exps', exps_expand exps max depth true = Ok (exps', [hd [] (expansion max depth fs)]).
Proof.
  intros Fs PE NE G EF S [W1 W2].
  assert (MK : make_ok (exps_capacity exps 1) = true).
  { rewrite <- (eqf_size _ _ EF) in S. pose proof (capacity_ok exps G 1 ltac:(lia)) as C. unfold make_ok. lia. }
  assert (FR : Forall fresh exps) by (eapply Forall_impl; [|exact G]; intros e H; apply H).
  assert (VN : Forall (fun e => vals e <> []) exps) by (eapply Forall_impl; [|exact G]; intros e H; apply H).
  set (D := if 0 <? depth then depth + 1 else depth).
  assert (PC : product (plan 0 max D exps) = expansion max depth fs).
  { unfold expansion. rewrite <- (eqf_chosen _ _ EF). f_equal. destruct (Z.eq_dec max 0) as [->|M].
    - now rewrite plan_zero, chosen_zero, facs_bodies.
    - apply plan_chosen; auto; try lia.
      + apply Forall_forall. intros e I. destruct (fac_of e) as [t|r vs] eqn:FE.
        * apply vals_text in FE as (_ & _ & _ & ->). lia.
        * rewrite Forall_forall in G. destruct (G e I) as (_ & -> & _).
          assert (IC : In (Choice r vs) fs).
          { apply (eqf_choice _ _ r vs EF). rewrite <- FE. now apply in_map. }
          apply vals_choice in FE as (_ & _ & ->). now apply (W2 r).
      + intros P. change (0 <=? 0) with true. lia.
      + unfold D. destruct (0 <? depth) eqn:X; lia. }
  destruct (expand_rec_good exps FR (length exps) 0 max D ltac:(lia) [] []) as (buf & ER & _).
  rewrite PC in ER. 
  match type of ER with _ = Ok (_, ?x, _) => assert (MI : x = expansion max depth fs) by apply map_id end.
  rewrite MI in ER. clear MI.
  destruct (expand_rec_first exps FR VN (length exps) 0 max D ltac:(lia) [] []) as (exps' & buf' & ET & _).
  cbn [app] in ET. destruct (hd_product _ (plan_nonempty exps G 0 max D)) as [_ HP]. rewrite PC in HP. rewrite <- HP in ET.
  assert (RF : exps_expand exps max depth false = (match exps with [e] => if is_estr e then Ok (exps, [e_body e]) else Ok (exps, expansion max depth fs) | _ => Ok (exps, expansion max depth fs) end)).
  { unfold exps_expand. rewrite MK. fold D. rewrite ER. reflexivity. }
  assert (RT : exps_expand exps max depth true = (match exps with [e] => if is_estr e then Ok (exps, [e_body e]) else Ok (exps', [hd [] (expansion max depth fs)]) | _ => Ok (exps', [hd [] (expansion max depth fs)]) end)).
  { unfold exps_expand. rewrite MK. fold D. rewrite ET. reflexivity. }
  rewrite RF, RT. destruct exps as [|e [|e2 r]]; [split; eauto| |split; eauto].
  destruct (is_estr e) eqn:SE; [|split; eauto].
  assert (EE : expansion max depth fs = [e_body e]).
  { unfold expansion. rewrite <- (eqf_chosen _ _ EF). unfold facs. cbn [map]. rewrite estr_fac by now rewrite SE.
    cbn. now rewrite app_nil_r. }
  rewrite EE. cbn [hd]. split; eauto.
Qed.

Lemma expand_spec s fs max depth : factors s fs -> ~ void s fs -> size fs <= 2 ^ 44 -> fits64 max fs ->
  expand s max depth = Ok (expansion max depth fs) /\
  expand_try s max depth = Ok [hd [] (expansion max depth fs)].
Proof.
  intros Fs NV S W. destruct (parse_spec s fs Fs) as [[V _]|(_ & exps & PE & NE & G & EF)]; [contradiction|].
  destruct (expand_exps s fs max depth exps Fs PE NE G EF S W) as (E1 & exps' & E2).
  unfold expand, expand_try. rewrite PE. cbn [bind]. rewrite E1, E2. split; reflexivity.
Qed.
