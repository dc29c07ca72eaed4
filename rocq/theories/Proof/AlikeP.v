(** Trees of dotted globs with the same nodes: if Match of one returns, so does that of the other. *)
From Coq Require Import Lia ZifyBool ZifyN ZifyNat List.
From Verif Require Import Model.GGlob Spec.PathSpec Spec.RegistrySpec Spec.GGlobSpec Spec.FirstSpec.
From Verif Require Import Proof.SortP Proof.ListP Proof.PathP Proof.GGlobP Proof.RegistryP Proof.SafeP Proof.TotalP Proof.GTreeP Proof.FirstP.
From Verif Require Proof.NextP.
Import ListNotations.

Definition returns (r : res out) : Prop := exists o, r = Ok o.
Definition covers (t t' : gtree) : Prop := forall ks c', ks <> [] -> node_at ks t' = Some c' -> exists c, node_at ks t = Some c /\
  forall g', gt_item c' = Some g' -> exists g, gt_item c = Some g /\ forall s, glob_match g s = glob_match g' s.
Lemma covers_child t t' k c c' : covers t t' -> child k t = Some c -> child k t' = Some c' -> covers c c'.
Proof.
  intros H C C' ks d' N Nd. destruct (H (k :: ks) d') as (d & Hd & X); [discriminate|cbn [node_at]; now rewrite C'|]. cbn [node_at] in Hd. rewrite C in Hd. eauto.
Qed.
Lemma returns_seq a b : returns (oseq a b) <-> returns a /\ returns b.
Proof.
  unfold returns, oseq. destruct a as [[l1 n1]| | |]; [destruct b as [[l2 n2]| | |]|..]; cbn; split; try (intros (o & X); discriminate); try (intros [(o & X) (o' & Y)]; discriminate); eauto.
Qed.
Lemma in_map_lookup f last part m : in_map f last part m = match lookup str_eqb part m with Some c => if last then Ok (emit (gt_term c)) else f c | None => Ok out_none end.
Proof. induction m as [|[k c] l IHl]; cbn; auto; destruct (str_eqb part k); auto. Qed.
Lemma in_list_returns f last part cs : returns (in_list f last part cs) <->
  forall c, In c cs -> exists g b, gt_item c = Some g /\ glob_match g part = Ok b /\ (b = true -> last = false -> returns (f c)).
Proof.
  induction cs as [|c cs IH]; cbn [in_list]; [split; [easy|intros _; eexists; reflexivity]|]. split.
  - intros R d [<-|I].
    + destruct (gt_item c) as [g|]; [|destruct R as (o & X); discriminate]. exists g. destruct (glob_match g part) as [b| | |]; cbn [bind] in R; [|destruct R as (o & X); discriminate..].
      exists b. split; [reflexivity|]. split; [reflexivity|]. apply returns_seq in R as [R _]. intros -> ->. exact R.
    + destruct (gt_item c) as [g|]; [|destruct R as (o & X); discriminate]. destruct (glob_match g part) as [b| | |]; cbn [bind] in R; [|destruct R as (o & X); discriminate..]. apply returns_seq in R as [_ R]. now apply (proj1 IH).
  - intro H. destruct (H c (or_introl eq_refl)) as (g & b & -> & -> & F). cbn [bind]. apply returns_seq. split; [|apply IH; intros d I; apply H; now right].
    destruct b; [|eexists; reflexivity]. destruct last; [eexists; reflexivity|auto].
Qed.
Lemma step_returns f last part t t' : covers t t' -> NoDup (map child_name (gt_childs t')) -> (forall c, In c (gt_childs t') -> exists g, gt_item c = Some g) ->
  (forall k c c', child k t = Some c -> child k t' = Some c' -> returns (f c) -> returns (f c')) ->
  returns (oseq (in_map f last part (gt_cmap t)) (in_list f last part (gt_childs t))) -> returns (oseq (in_map f last part (gt_cmap t')) (in_list f last part (gt_childs t'))).
Proof.
  intros H N Hg F R. apply returns_seq in R as [R1 R2]. apply returns_seq. split.
  - rewrite in_map_lookup in *. destruct (lookup str_eqb part (gt_cmap t')) as [c'|] eqn:L'; [|eexists; reflexivity]. destruct last; [eexists; reflexivity|].
    destruct (H [(true, part)] c') as (c & Hc & _); [discriminate|cbn; now rewrite L'|]. cbn in Hc. destruct (lookup str_eqb part (gt_cmap t)) as [c0|] eqn:L; [|discriminate].
    apply (F (true, part) c0); auto.
  - rewrite in_list_returns in *. intros c' I. assert (Fc : find_child (child_name c') (gt_childs t') = Some c') by (apply find_child_in; auto).
    destruct (H [(false, child_name c')] c') as (c & Hc & X); [discriminate|cbn; now rewrite Fc|]. cbn in Hc. destruct (find_child (child_name c') (gt_childs t)) as [c0|] eqn:L; [|discriminate]. injection Hc as ->.
    destruct (Hg c' I) as (g' & Eg'). destruct (X g' Eg') as (g & Eg & M). assert (Ic : In c (gt_childs t)) by (unfold find_child in L; now apply find_some in L).
    destruct (R2 c Ic) as (g0 & b & E0 & Mb & Fb). assert (g0 = g) by congruence. subst g0. exists g', b. split; [exact Eg'|]. split; [now rewrite <- M|]. intros Hb Hl. apply (F (false, child_name c') c); auto.
Qed.
Definition tidy_tree (t : gtree) : Prop := forall m, exists G, wft G m t.
Lemma tidy_level t : tidy_tree t -> NoDup (map child_name (gt_childs t)) /\ (forall c, In c (gt_childs t) -> exists g, gt_item c = Some g).
Proof. intro H. destruct (H 1) as (G & _ & W2 & W3). split; [exact W2|]. intros c I. destruct (W3 c I) as (g & E & _). eauto. Qed.
Lemma tidy_child t k c : tidy_tree t -> child k t = Some c -> tidy_tree c.
Proof.
  intros H C m. destruct (H (S m)) as (G & W1 & W2 & W3). exists G. destruct k as [[|] k]; cbn [child fst snd] in C; [now apply (W1 k)|]. unfold find_child in C. apply find_some in C as [I _]. destruct (W3 c I) as (g & _ & _ & W). exact W.
Qed.
Lemma parts_returns : forall ps t t', ps <> [] -> covers t t' -> tidy_tree t' -> returns (gt_match_parts t ps) -> returns (gt_match_parts t' ps).
Proof.
  induction ps as [|p ps IH]; intros t t' N H T R; [easy|]. rewrite gt_parts_eq in *. destruct (tidy_level _ T) as [T1 T2].
  destruct ps as [|q ps].
  - revert R. cbn [null]. intro R. apply returns_seq in R as [R1 R2]. apply returns_seq. split.
    + rewrite in_map_lookup. destruct (lookup str_eqb p (gt_cmap t')); eexists; reflexivity.
    + assert (X : returns (oseq (in_map (fun c => Ok out_none) true p (gt_cmap t)) (in_list (fun c => Ok out_none) true p (gt_childs t)))).
      { apply returns_seq. split; [rewrite in_map_lookup; destruct (lookup str_eqb p (gt_cmap t)); eexists; reflexivity|]. rewrite in_list_returns in *. intros c I. destruct (R2 c I) as (g & b & A & M & _). exists g, b. split; auto. split; auto. discriminate. }
      apply (step_returns _ true p t t' H T1 T2) in X; [|intros; eexists; reflexivity]. apply returns_seq in X as [_ X]. rewrite in_list_returns in *. intros c I. destruct (X c I) as (g & b & A & M & _). exists g, b. split; auto. split; auto. discriminate.
  - apply (step_returns _ _ _ t t' H T1 T2); auto. intros k c c' C C'. apply IH; [discriminate|eapply covers_child; eauto|eapply tidy_child; eauto].
Qed.
Lemma items_returns : forall n p t t', length p <= n -> covers t t' -> tidy_tree t' -> returns (gt_match_items t p) -> returns (gt_match_items t' p).
Proof.
  induction n as [|n IH]; intros p t t' L H T R; rewrite gt_items_eq in *; destruct (cut dot p) as [[part rest] fd] eqn:C.
  - destruct p; [|cbn in L; lia]. injection C as <- <- _. eexists; reflexivity.
  - destruct part as [|c0 part]; [eexists; reflexivity|]. cbn [null] in *. destruct (tidy_level _ T) as [T1 T2]. apply (step_returns _ _ _ t t' H T1 T2); auto.
    intros k c c' Ck Ck'. apply IH; [|eapply covers_child; eauto|eapply tidy_child; eauto]. destruct (index_byte p dot) as [i|] eqn:E.
    + apply NextP.index_byte_cut in E as (a & b & Ep & <- & N). rewrite Ep, cut_some in C by auto. injection C as _ E2 _. subst rest. rewrite Ep, app_length in L. cbn [length] in L. lia.
    + apply NextP.index_byte_no in E. rewrite cut_none in C by auto. injection C as _ E2 _. subst rest. cbn. lia.
Qed.

(** ** The nodes do not depend on the order *)
Lemma rep_some E n ks p : rep E n ks = Some p -> exists e g, In e E /\ gg_parse (e_text e) = Ok g /\ length (gg_parts g) = n /\ pre ks (gg_parts g) = true /\ last_part ks (gg_parts g) = Some p.
Proof.
  induction E as [|e E IH]; cbn [rep]; [discriminate|]. destruct (gg_parse (e_text e)) as [g| | |] eqn:P; try (intro H; destruct (IH H) as (d & gd & I & X); exists d, gd; split; [now right|exact X]).
  destruct (Nat.eqb (length (gg_parts g)) n && pre ks (gg_parts g)) eqn:C; [|intro H; destruct (IH H) as (d & gd & I & X); exists d, gd; split; [now right|exact X]].
  intro H. apply andb_true_iff in C as [C1 C2]. exists e, g. split; [now left|]. split; [exact P|]. split; [now apply Nat.eqb_eq|]. split; auto.
Qed.
Lemma some_rep E n ks e g : ks <> [] -> In e E -> gg_parse (e_text e) = Ok g -> length (gg_parts g) = n -> pre ks (gg_parts g) = true -> exists p, rep E n ks = Some p.
Proof.
  intros N I P L Pr. induction E as [|d E IH]; [destruct I|]. cbn [rep]. destruct I as [<-|I].
  - rewrite P, L, Nat.eqb_refl, Pr. now apply last_some.
  - destruct (gg_parse (e_text d)) as [gd| | |]; auto. destruct (Nat.eqb (length (gg_parts gd)) n && pre ks (gg_parts gd)) eqn:C; auto. apply andb_true_iff in C as [_ C]. now apply last_some.
Qed.
Lemma last_same : forall ks a b p q, pre ks a = true -> pre ks b = true -> last_part ks a = Some p -> last_part ks b = Some q -> gkey p = gkey q.
Proof.
  intros [|k ks] a b p q; [discriminate|]. cbn [last_part]. revert k a b. induction ks as [|k2 ks IH]; intros k [|x a] [|y b] Pa Pb La Lb; try discriminate; cbn [pre] in Pa, Pb; apply andb_true_iff in Pa as [A1 A2]; apply andb_true_iff in Pb as [B1 B2].
  - cbn in La, Lb. injection La as <-. injection Lb as <-. destruct (keqb_spec k (gkey x)); [|discriminate]. destruct (keqb_spec k (gkey y)); [|discriminate]. congruence.
  - exact (IH k2 a b A2 B2 La Lb).
Qed.
Lemma last_in ks parts p : last_part ks parts = Some p -> In p parts.
Proof. destruct ks; [discriminate|]. cbn. apply nth_error_In. Qed.
Lemma tree_covers E E' gt gt' n : (forall e, In e E' -> In e E) -> parts_agree E -> items_ok E gt -> items_ok E' gt' -> covers (tree_at n (ggt_root gt)) (tree_at n (ggt_root gt')).
Proof.
  intros S A I I' ks c' N Nd. specialize (I n ks N). specialize (I' n ks N). rewrite Nd in I'. destruct (rep E' n ks) as [p'|] eqn:R'; [|discriminate]. cbn in I'. injection I' as I'.
  destruct (rep_some _ _ _ _ R') as (e' & g' & Ie' & Pe' & Le' & Pr' & La'). apply S in Ie'. destruct (some_rep E n ks e' g' N Ie' Pe' Le' Pr') as (p & R). rewrite R in I. destruct (node_at ks (tree_at n (ggt_root gt))) as [c|]; [|discriminate]. cbn in I. injection I as I.
  exists c. split; [reflexivity|]. intros q' Eq'. assert (q' = p') by congruence. subst q'. exists p. split; [exact I|]. destruct (rep_some _ _ _ _ R) as (e & g & Ie & Pe & Le & Pr & La).
  exact (A e e' g g' p p' Ie Ie' Pe Pe' (last_in _ _ _ La) (last_in _ _ _ La') (proj2 (same_key p p') (last_same ks _ _ _ _ Pr Pr' La La'))).
Qed.
Lemma ok_tidy E gt n : tree_ok E gt -> tidy_tree (tree_at n (ggt_root gt)).
Proof. intros (_ & _ & T) m. eexists. apply (proj1 (T n)). Qed.
