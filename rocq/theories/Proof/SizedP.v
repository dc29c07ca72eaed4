(** Upper length bounds of globs whose list values have stars only at the end. *)
From Verif Require Import Model.Glob Spec.Class Spec.Safe Spec.GlobSpec Spec.StarSpec Spec.Symbols.
From Verif Require Import Proof.ListP Proof.SortP Proof.LangP Proof.DenotesP Proof.ParseP Proof.NextP Proof.SafeP Proof.StarsP Proof.PanicP Proof.GlobP Proof.GlobMatchP Proof.CheckP.
From Coq Require Import Lia ZifyBool ZifyN ZifyNat.

Definition not_star (it : item) : Prop := match it with IStar _ | IGroup _ _ _ | IChain _ _ _ => False | _ => True end.
Lemma merge_not_star x y m : not_star x -> not_star y -> merge_last x y = Some m -> not_star m.
Proof. intros Nx Ny E. rewrite merge_last_lit in E. destruct x, y; try easy; injection E as <-; exact I. Qed.
Definition no_chain (it : item) : Prop := match it with IChain _ _ _ => False | _ => True end.
Lemma merge_no_chain x y m : no_chain x -> no_chain y -> merge_last x y = Some m -> no_chain m.
Proof. intros Nx Ny E. destruct y, x; try discriminate; injection E as <-; exact I. Qed.
Lemma not_star_chain l : Forall not_star l -> Forall no_chain l.
Proof. apply Forall_impl. intros []; easy. Qed.
Lemma ends_rest a v : ends_in_star (a ++ v) -> ends_in_star v.
Proof. intros E x y -> c J. apply (E (a ++ x) y); auto. now rewrite app_assoc. Qed.
Lemma token_star f s it a rest : token f s (Some it) a rest -> ~ In "}"%char s -> ends_in_star s -> not_star it \/ (rest = [] /\ exists k, it = IStar k).
Proof.
  intros T NB E. inversion T as [body r o N H|body r o N H|n r N|r|b c r Na N Mc|b Na N]; subst; try (now left).
  - apply class_kind in H. left. now destruct it.
  - exfalso. apply NB. rewrite braced_app. right. apply in_or_app. right. now left.
  - right. split; [|eauto]. destruct rest as [|c rest]; auto. exfalso. apply (N rest). f_equal.
    apply (E [] (repeat "*"%char n ++ c :: rest)); [reflexivity|]. apply in_or_app. right. now left.
  - left. pose proof (single_kind a) as K. destruct (single_item a); easy.
Qed.
Lemma chain_sized f0 : forall fuel v rl0 mn0 mx0 rl mn mx, ~ In "}"%char v -> ends_in_star v -> Forall not_star rl0 ->
  group_chain fuel (next_item f0) v (rl0, mn0, mx0) = Ok (rl, mn, mx) -> Forall no_chain rl /\ (Forall not_star rl \/ mx = (-1)%Z).
Proof.
  induction fuel as [|f IH]; intros v rl0 mn0 mx0 rl mn mx NB E F H; cbn [group_chain] in H.
  - destruct v; [|discriminate]. injection H as <- <- <-. split; [now apply not_star_chain|now left].
  - destruct v as [|c v]; [injection H as <- <- <-; split; [now apply not_star_chain|now left]|].
    destruct (next_item f0 (c :: v)) as [[oi rest]|e| |] eqn:En; try discriminate.
    destruct f0 as [|f0]; [discriminate|]. apply next_token in En as (a & T).
    destruct (token_text _ _ _ _ _ T) as [Ea _].
    assert (NB' : ~ In "}"%char rest) by (intro I; apply NB; rewrite Ea; apply in_or_app; now right).
    assert (E' : ends_in_star rest) by (apply (ends_rest a); now rewrite <- Ea).
    destruct oi as [it|]; [|now apply IH in H].
    destruct (token_star _ _ _ _ _ T NB E) as [N|[-> (k & ->)]]; cbn [chain_append] in H.
    + apply IH in H; auto. apply append_forall; auto. exact merge_not_star.
    + assert (G : Forall no_chain (append_item_rev rl0 (IStar k))) by (apply append_forall; [exact merge_no_chain|now apply not_star_chain|exact I]).
      destruct f; cbn in H; injection H as <- _ <-; auto.
Qed.
Lemma group_vals_sized f0 : forall vals l, Forall (fun v => ~ In "}"%char v) vals -> Forall ends_in_star vals ->
  group_vals (next_item f0) vals = Ok (inr l) -> forall its mn mx k, In (IChain its mn mx) l -> In (IStar k) its -> mx = (-1)%Z.
Proof.
  induction vals as [|v vals IH]; intros l NB NS H its mn mx k I J; cbn [group_vals] in H.
  - injection H as <-. destruct I.
  - inversion NB as [|? ? N1 N2]; inversion NS as [|? ? S1 S2]; subst. destruct (has_wildcard v) eqn:W.
    + destruct (str_eqb_spec v (B "*")) as [->|Ns]; [discriminate|].
      destruct (if str_eqb v (B "?") then Ok (IAny 1) else group_val (next_item f0) v) as [it|e| |] eqn:E; try discriminate. cbn [bind] in H.
      destruct (group_vals (next_item f0) vals) as [[r0|r0]|e| |] eqn:E2; try discriminate. cbn [bind] in H. injection H as <-.
      destruct I as [->|I]; [|eapply IH; eauto].
      destruct (str_eqb_spec v (B "?")) as [->|Nq]; [discriminate|].
      unfold group_val in E. destruct (group_chain (length v) (next_item f0) v ([], 0%Z, 0%Z)) as [[[rl mn1] mx1]|e| |] eqn:E3; try discriminate.
      cbn [bind] in E. apply chain_sized in E3 as [N F]; auto.
      destruct rl as [|x [|y rl]].
      * injection E as <- _ _. destruct J.
      * exfalso. injection E as ->. inversion N; easy.
      * remember (x :: y :: rl) as l0. injection E as <- _ <-. destruct F as [F|F]; auto. exfalso. apply in_rev in J. rewrite Forall_forall in F. exact (F _ J).
    + destruct (group_vals (next_item f0) vals) as [[r0|r0]|e| |] eqn:E2; try discriminate. cbn [bind] in H. injection H as <-.
      destruct I as [E|I]; [discriminate|]. eapply IH; eauto.
Qed.
Lemma list_shape f vals it : new_item_list (next_item f) vals = Ok (Some it) ->
  (exists l mn mx, group_vals (next_item f) vals = Ok (inr l) /\ it = IGroup l mn mx) \/ (forall l mn mx, it <> IGroup l mn mx).
Proof.
  intros H. unfold new_item_list in H. destruct vals as [|v [|v2 vals]]; [discriminate| |].
  - destruct v; cbn [null] in H; [discriminate|]. apply ok_inj in H. assert (E : single_item (a :: v) = it) by congruence. right. intros l mn mx ->. pose proof (single_kind (a :: v)) as K. now rewrite E in K.
  - remember (v :: v2 :: vals) as vs eqn:Evs.
    destruct (list_scan vs max_int 0 true as_empty) as [[[[mn mx] st] fi] hs] eqn:E. destruct hs.
    + unfold new_group in H. destruct (group_vals (next_item f) vs) as [[x|l]|e| |] eqn:Eg; try discriminate; cbn [bind] in H.
      * injection H as <-. right. clear - Eg. revert x Eg. induction vs as [|v vs IH]; intros x H; cbn [group_vals] in H; [discriminate|].
        destruct (has_wildcard v).
        -- destruct (str_eqb_spec v (B "*")) as [->|]; [injection H as <-; discriminate|].
           destruct (if str_eqb v (B "?") then Ok (IAny 1) else group_val (next_item f) v); try discriminate; cbn [bind] in H.
           destruct (group_vals (next_item f) vs) as [[r|r]|e| |]; try discriminate; cbn [bind] in H; injection H as <-; auto.
        -- destruct (group_vals (next_item f) vs) as [[r|r]|e| |]; try discriminate; cbn [bind] in H; injection H as <-; auto.
      * left. destruct l as [|x l]; [discriminate|]. destruct (group_bounds l (item_min x) (item_max x)) as [m1 m2]. injection H as <-. eauto.
    + right. assert (exists vs0, Some it = Some (if st then IList (mkSList st fi vs0 mn mx) else IList (mkSList false as_empty vs0 mn mx))) as (vs0 & Ei).
      { subst vs. destruct (mn =? 0)%Z; [destruct v; [|discriminate]|]; injection H as <-; eauto. }
      injection Ei as ->. destruct st; discriminate.
Qed.
Lemma stars_end_sized g gl : stars_end g -> glob_parse g = Ok gl -> Forall sized (g_items gl).
Proof.
  intros SL. apply parse_forall; try (intros; exact I).
  - intros x y m _ _ E. destruct y, x; try discriminate; injection E as <-; exact I.
  - intros f t it a rest done suffix T E. inversion T; subst; try exact I.
    + match goal with H : class_item _ = _ |- _ => apply class_kind in H end. now destruct it.
    + match goal with H : _ \/ _ |- _ => destruct H as [[_ ?]|[_ K]]; [discriminate|] end. destruct (list_shape _ _ _ K) as [(l & mn & mx & Hl & ->)|N]; [|destruct it; try exact I; now edestruct N].
      cbn [sized]. intros its mn0 mx0 k J Jk. eapply group_vals_sized; [| |exact Hl|exact J|exact Jk].
      * apply Forall_forall. intros v I0 J0. apply (proj1 (norm_in _ _)) in I0. destruct (split_part "," body v I0) as (p & q & -> & _).
        match goal with X : ~ In "}"%char _ |- _ => apply X end. apply in_or_app. right. apply in_or_app. now left.
      * apply Forall_forall. intros v I0 x y Ev. apply (proj1 (norm_in _ _)) in I0. apply alternative_split in I0. intros c J0. eapply (SL done body (rest ++ suffix)); eauto.
    + pose proof (single_kind a) as Y. now destruct (single_item a).
Qed.
Lemma glob_match_exact g gl s : clean g -> ~ In zero g -> plain_singles g -> exact_lists g -> ~ only_star g -> glob_parse g = Ok gl -> clean s \/ lone_classes g ->
  exists b, glob_match gl s = Ok b /\ (b = true <-> denotes g (symbols s)).
Proof.
  intros C Z P [R E] NO H O. destruct (parse_srun g gl R H) as (st & Rn). apply glob_match_items; auto; [|left; now apply (stars_end_sized g)].
  destruct (GlobP.parse_facts true g gl) as (prefix & suffix & mn & mx & rl & Eq & G & _); auto; [split; auto; split; auto; discriminate|].
  apply srun_safe in Rn; [exact Rn|]. apply (wfi_sfits true). assert (g_items gl = rev rl) as -> by (rewrite Eq; destruct (rev rl); auto). apply Forall_rev, G.
Qed.
