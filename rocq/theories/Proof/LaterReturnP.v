(** A tree of globs with stars only at their end answers every string. *)
From Coq Require Import Lia ZifyBool ZifyN ZifyNat.
From Verif Require Import Model.Tree Spec.Symbols Spec.GlobSpec Spec.RegistrySpec Spec.GlobTreeSpec Spec.EndSpec Spec.LaterSpec.
From Verif Require Import Proof.SortP Proof.ListP Proof.DenotesP Proof.ParseP Proof.NextP Proof.SafeP Proof.PanicP Proof.SizedP Proof.RegistryP Proof.GlobTreeP Proof.TreeMonoP Proof.TreeEndP Proof.TreeEnd2P Proof.LaterP.

Definition smooth {A} (r : res A) : Prop := match r with Ok _ | Fuel => True | _ => False end.
Lemma smooth_seq a b : smooth a -> smooth b -> smooth (oseq a b).
Proof. unfold oseq. destruct a; cbn; try easy. intros _. destruct b; cbn; easy. Qed.
Lemma smooth_all {A} (g : A -> res out) l : (forall x, In x l -> smooth (g x)) -> smooth (oall g l).
Proof. induction l as [|x l IH]; intro H; cbn [oall]; [exact I|]. apply smooth_seq; [apply H; now left|apply IH; intros y J; apply H; now right]. Qed.
Lemma smooth_here f tm cs s : (forall c, In c cs -> smooth (t_match f c s)) -> smooth (oseq (emit_if (null s) tm) (oall (fun c => t_match f c s) cs)).
Proof. intro H. apply smooth_seq; [exact I|now apply smooth_all]. Qed.
Lemma smooth_match : forall f, (forall t s, resting t -> smooth (t_match f t s)) /\ (forall t s its, resting t -> Forall basic its -> smooth (t_items f t s its)).
Proof.
  induction f as [|f [IM II]]; [split; intros; exact I|]. split.
  - intros t s R. pose proof R as R0. destruct R as [it r tm cs St Rc|k r tm].
    + assert (K : forall s, smooth (oseq (emit_if (null s) tm) (oall (fun c => t_match f c s) cs))) by (intro; apply smooth_here; intros; apply IM; auto).
      cbn [t_match]. destruct (zlen s <? item_min it)%Z; [exact I|]. destruct (item_match it s) as [[off|] fl] eqn:M; [|exact I]. cbv zeta.
      destruct it as [| | | | | |l|vals mn mx|]; cbn [still] in St; try easy; cbn [item_match] in M; apply (f_equal snd) in M; cbn [snd] in M; subst fl; try apply K.
      * apply smooth_seq; [destruct (sl_optional l); [apply K|exact I]|]. apply smooth_all. intros v _. destruct (match_val _ v); [apply K|exact I].
      * apply smooth_seq; [destruct (group_optional mn); [apply K|exact I]|]. apply smooth_all. intros v Iv. apply II; auto.
    + cbn [t_match]. destruct (zlen s <? _)%Z; [exact I|]. cbn [item_match]. destruct (skip_runes s k); exact I.
  - intros t s its R F. assert (D : exists it r tm cs, t = TNode (Some it) r tm cs /\ forall c, In c cs -> resting c) by (destruct R; do 4 eexists; (split; [reflexivity|]); auto; intros ? []).
    destruct D as (it0 & r & tm & cs & Et & Rc). rewrite Et. cbn [t_items]. destruct F as [|it rest Fi F]; [apply smooth_here; intros; apply IM; auto|].
    destruct (zlen s <? item_min it)%Z; [exact I|]. rewrite <- Et. destruct it; cbn [basic] in Fi; try easy; cbn [item_match]; cbv zeta;
      repeat match goal with |- context [match ?x with Some _ => _ | None => _ end] => destruct x end; try exact I; now apply II.
Qed.
Lemma smooth_tree f t s : (forall c, In c (t_childs t) -> resting c) -> smooth (tree_match f t s).
Proof.
  intro R. rewrite tree_visit. apply smooth_all. intros c Ic. specialize (R c Ic). pose proof R as R0. unfold visit_root. destruct (t_reverse c); [|now apply smooth_match].
  assert (D : exists it r tm cs, c = TNode (Some it) r tm cs /\ forall c, In c cs -> resting c) by (destruct R; do 4 eexists; (split; [reflexivity|]); auto; intros ? []).
  destruct D as (it & r & tm & cs & -> & Rc). cbn [t_item t_term t_childs]. destruct (zlen s <? item_min it)%Z eqn:L; [exact I|].
  assert (K : smooth (item_match_last it s)). { destruct it; try exact I. cbn. destruct s as [|a s]; [discriminate L|]. destruct (rev (a :: s)) eqn:E; [apply (f_equal (@length _)) in E; rewrite rev_length in E; discriminate|exact I]. }
  destruct (item_match_last it s) as [[[o|] fl]|e| |]; cbn [bind]; try easy; destruct fl; try exact I. apply smooth_here. intros. apply smooth_match; auto.
Qed.
Lemma end_last g : stars_at_end g -> stars_last g.
Proof.
  intros O a body b v x y E N A Ev c I. apply alternative_split in A. destruct (split_part "," body v A) as (p & q & Eb & _).
  apply (O (a ++ "{"%char :: p ++ x) (y ++ q ++ "}"%char :: b)); [|apply in_or_app; now left].
  rewrite E, Eb, Ev, braced_app. rewrite <- !app_assoc. cbn [app]. rewrite <- !app_assoc. reflexivity.
Qed.
Lemma tree_answers calls gt rs E s : run_adds gt_add gt_new calls = Ok (gt, rs) -> history gl_canon calls rs E -> restful E gt -> (forall e, In e E -> stars_at_end (e_text e)) ->
  exists f0 l n, forall f, f0 <= f -> gt_match f gt s = Ok (l, n).
Proof.
  intros R H [_ V] O. destruct (tree_ends calls gt rs E s R H) as (f0 & r & Nf & M); [intros e I; apply end_last; auto|].
  pose proof (smooth_tree f0 (gt_root gt) s (V O)) as S. unfold gt_match in M. rewrite (M f0 (le_n _)) in S. destruct r as [[l n]|e| |]; try easy. exists f0, l, n. exact M.
Qed.
