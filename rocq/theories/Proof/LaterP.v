(** A tree of globs with stars only at their end, before and after further globs are added. *)
From Coq Require Import Lia ZifyBool ZifyN ZifyNat.
From Verif Require Import Model.Tree Spec.Symbols Spec.GlobSpec Spec.Safe Spec.RegistrySpec Spec.GlobTreeSpec Spec.EndSpec Spec.LaterSpec.
From Verif Require Import Proof.SortP Proof.ListP Proof.DenotesP Proof.ParseP Proof.NextP Proof.SafeP Proof.PanicP Proof.SizedP Proof.RegistryP Proof.TotalP Proof.TreeInsP Proof.GlobTreeP Proof.TreeMonoP Proof.TreeEndP Proof.TreeEnd2P Proof.FirstP Proof.MixP.

Definition still (it : item) : Prop :=
  match it with
  | IStar _ | IChain _ _ _ => False
  | IGroup vals _ _ => forall v, In v vals -> Forall basic (val_items v)
  | _ => True
  end.
Definition starry (it : item) : Prop := exists k, it = IStar k.
Definition empty_leaf (it : item) (r : bool) : tree := TNode (Some it) r None [].
Section Less.
Variable P : term -> bool.
Definition kept_term (tm : option term) : option term := match tm with Some x => if P x then Some x else None | None => None end.
(** cs with some of its members grown and others appended *)
Inductive wider (R : tree -> tree -> Prop) : list tree -> list tree -> Prop :=
| w_nil : wider R [] []
| w_cons c c' cs cs' : R c c' -> wider R cs cs' -> wider R (c :: cs) (c' :: cs')
| w_new it r c' cs' : still it \/ starry it -> R (empty_leaf it r) c' -> wider R [] cs' -> wider R [] (c' :: cs').
Inductive grown : tree -> tree -> Prop :=
| gr_node it r tm cs cs' : still it -> wider grown cs cs' -> grown (TNode (Some it) r (kept_term tm) cs) (TNode (Some it) r tm cs')
| gr_star k r tm : grown (TNode (Some (IStar k)) r (kept_term tm) []) (TNode (Some (IStar k)) r tm []).

(** ** Results *)
Definition less (r' r : res out) : Prop := match r' with Ok (l, _) => exists n, r = Ok (filter P l, n) | _ => True end.
Lemma less_seq a' a b' b : less a' a -> less b' b -> less (oseq a' b') (oseq a b).
Proof.
  unfold oseq. destruct a' as [[l1 n1]| | |]; try (intros; exact I). intros (m1 & ->). destruct b' as [[l2 n2]| | |]; try (intros; exact I). intros (m2 & ->).
  cbn [bind out_app fst snd less]. rewrite filter_app. eexists. reflexivity.
Qed.
Lemma less_none : less (Ok out_none) (Ok out_none).
Proof. exists 0. reflexivity. Qed.
Lemma less_all {A} (g' g : A -> res out) l : (forall x, In x l -> less (g' x) (g x)) -> less (oall g' l) (oall g l).
Proof. induction l as [|x l IH]; intro H; cbn [oall]; [apply less_none|]. apply less_seq; [apply H; now left|apply IH; intros y I; apply H; now right]. Qed.
Lemma less_emit tm : less (Ok (emit tm)) (Ok (emit (kept_term tm))).
Proof. destruct tm as [x|]; [|apply less_none]. cbn. destruct (P x); eexists; reflexivity. Qed.
Lemma less_emit_if b tm : less (emit_if b tm) (emit_if b (kept_term tm)).
Proof. unfold emit_if. destruct b; [apply less_emit|apply less_none]. Qed.

(** ** A leaf without a glob stores nothing *)
Definition silent (r : res out) : Prop := match r with Ok (l, _) => l = [] | _ => True end.
Lemma silent_seq a b : silent a -> silent b -> silent (oseq a b).
Proof. unfold oseq. destruct a as [[l1 n1]| | |]; try (intros; exact I). intros E. destruct b as [[l2 n2]| | |]; try (intros; exact I). intro E2. cbn in *. now subst. Qed.
Lemma silent_all {A} (g : A -> res out) l : (forall x, In x l -> silent (g x)) -> silent (oall g l).
Proof. induction l as [|x l IH]; intro H; cbn [oall]; [reflexivity|]. apply silent_seq; [apply H; now left|apply IH; intros y I; apply H; now right]. Qed.
Lemma silent_here f s : silent (oseq (emit_if (null s) None) (oall (fun c => t_match f c s) [])).
Proof. apply silent_seq; [unfold emit_if; destruct (null s); reflexivity|reflexivity]. Qed.
Lemma leaf_items it0 r : forall f s its, Forall basic its -> silent (t_items f (empty_leaf it0 r) s its).
Proof.
  induction f as [|f IH]; intros s its F; [exact I|]. unfold empty_leaf in *. cbn [t_items]. destruct F as [|it rest Fi F]; [apply silent_here|].
  destruct (zlen s <? item_min it)%Z; [reflexivity|]. destruct it; cbn [basic] in Fi; try easy; cbn [item_match]; cbv zeta;
    repeat match goal with |- context [match ?x with Some _ => _ | None => _ end] => destruct x end; try reflexivity; now apply IH.
Qed.
Lemma leaf_silent it r : still it \/ starry it -> forall f s, silent (t_match f (empty_leaf it r) s).
Proof.
  intros H f s. destruct f as [|f]; [exact I|]. unfold empty_leaf. cbn [t_match]. destruct (zlen s <? item_min it)%Z; [reflexivity|].
  destruct (item_match it s) as [[off|] fl] eqn:M; [|reflexivity]. cbv zeta. destruct fl; try exact I.
  - apply silent_here.
  - destruct it as [| | | | | |l| |]; try exact I. apply silent_seq; [destruct (sl_optional l); [apply silent_here|reflexivity]|]. apply silent_all. intros v _. destruct (match_val _ v); [apply silent_here|reflexivity].
  - reflexivity.
  - destruct it as [| | | | | | |vals mn mx|]; try exact I. apply silent_seq; [destruct (group_optional mn); [apply silent_here|reflexivity]|]. apply silent_all. intros v Iv. apply leaf_items. destruct H as [H|(k & H)]; [now apply H|discriminate].
Qed.

(** ** Matching *)
Lemma less_wide (g : tree -> res out) cs cs' : (forall t t', grown t t' -> less (g t') (g t)) -> (forall it r, still it \/ starry it -> silent (g (empty_leaf it r))) ->
  wider grown cs cs' -> less (oall g cs') (oall g cs).
Proof.
  intros IH SL. induction 1 as [|c c' cs cs' R W IHw|it r c' cs' Hi R W IHw]; cbn [oall]; [apply less_none|apply less_seq; auto|].
  specialize (IH _ _ R). pose proof (SL it r Hi) as Sl. cbn [oall] in IHw.
  destruct (g c') as [[l n]| | |]; cbn [less] in IH; try exact I. destruct IH as (m & E). rewrite E in Sl. cbn in Sl. unfold oseq. cbn [bind].
  destruct (oall g cs') as [[l2 n2]| | |]; try exact I. destruct IHw as (m2 & E2). cbn [bind less out_app fst]. rewrite filter_app, Sl. injection E2 as E2 _. rewrite <- E2. eexists. reflexivity.
Qed.
Lemma grown_parts f : (forall t t' s, grown t t' -> less (t_match f t' s) (t_match f t s)) -> (forall t t' s its, grown t t' -> Forall basic its -> less (t_items f t' s its) (t_items f t s its)) ->
  (forall t t' s, grown t t' -> less (t_match (S f) t' s) (t_match (S f) t s)) /\ (forall t t' s its, grown t t' -> Forall basic its -> less (t_items (S f) t' s its) (t_items (S f) t s its)).
Proof.
  intros IM II.
  assert (K : forall tm cs cs' s, wider grown cs cs' -> less (oseq (emit_if (null s) tm) (oall (fun c => t_match f c s) cs')) (oseq (emit_if (null s) (kept_term tm)) (oall (fun c => t_match f c s) cs))).
  { intros tm cs cs' s W. apply less_seq; [apply less_emit_if|apply less_wide; auto; intros; now apply leaf_silent]. }
  split.
  - intros t t' s G. destruct G as [it r tm cs cs' S W|k r tm].
    + cbn [t_match]. destruct (zlen s <? item_min it)%Z; [apply less_none|]. destruct (item_match it s) as [[off|] fl] eqn:M; [|apply less_none]. cbv zeta. destruct fl; try exact I.
      * now apply K.
      * destruct it as [| | | | | |l| |]; try exact I. apply less_seq; [destruct (sl_optional l); [now apply K|apply less_none]|]. apply less_all. intros v _. destruct (match_val _ v); [now apply K|apply less_none].
      * destruct it; try discriminate M. destruct S.
      * destruct it as [| | | | | | |vals mn mx|]; try exact I. apply less_seq; [destruct (group_optional mn); [now apply K|apply less_none]|]. apply less_all. intros v Iv. apply II; [now constructor|now apply S].
    + cbn [t_match]. destruct (zlen s <? _)%Z; [apply less_none|]. cbn [item_match]. destruct (skip_runes s k); [|apply less_none]. cbn [null]. apply less_emit.
  - intros t t' s its G F.
    assert (D : exists it r tm cs cs', t = TNode (Some it) r (kept_term tm) cs /\ t' = TNode (Some it) r tm cs' /\ wider grown cs cs').
    { destruct G as [it r tm cs cs' S W|k r tm]; do 5 eexists; (split; [reflexivity|]); (split; [reflexivity|]); [exact W|constructor]. }
    destruct D as (it0 & r & tm & cs & cs' & Et & Et' & W). rewrite Et, Et'. cbn [t_items]. destruct F as [|it rest Fi F]; [now apply K|].
    destruct (zlen s <? item_min it)%Z; [apply less_none|]. rewrite <- Et, <- Et'. destruct it; cbn [basic] in Fi; try easy; cbn [item_match]; cbv zeta;
      repeat match goal with |- context [match ?x with Some _ => _ | None => _ end] => destruct x end; try apply less_none; now apply II.
Qed.
Lemma grown_match : forall f, (forall t t' s, grown t t' -> less (t_match f t' s) (t_match f t s)) /\ (forall t t' s its, grown t t' -> Forall basic its -> less (t_items f t' s its) (t_items f t s its)).
Proof. induction f as [|f [IM II]]; [split; intros; exact I|now apply grown_parts]. Qed.
Lemma grown_inv c c' : grown c c' -> exists it r tm ds ds', c = TNode (Some it) r (kept_term tm) ds /\ c' = TNode (Some it) r tm ds' /\ wider grown ds ds'.
Proof. intros [it r tm ds ds' S R|k r tm]; do 5 eexists; (split; [reflexivity|]); (split; [reflexivity|]); [exact R|constructor]. Qed.
Definition visit_root (f : nat) (s : str) (child : tree) : res out :=
  if t_reverse child then
    match t_item child with
    | None => Panic
    | Some it =>
        if (zlen s <? item_min it)%Z then Ok out_none
        else bind (item_match_last it s) (fun '(off, fl) =>
          match fl, off with
          | FindDone, Some o =>
              let s := firstn o s in
              oseq (emit_if (null s) (t_term child))
                   (oall (fun c => t_match f c s) (t_childs child))
          | _, _ => Ok out_none
          end)
    end
  else t_match f child s.
Lemma tree_visit f t s : tree_match f t s = oall (visit_root f s) (t_childs t).
Proof. reflexivity. Qed.
Lemma grown_tree f t t' s : wider grown (t_childs t) (t_childs t') -> less (tree_match f t' s) (tree_match f t s).
Proof.
  intro W. rewrite !tree_visit. apply less_wide; auto.
  - intros c c' R. pose proof R as R0. apply grown_inv in R as (it & r & tm & ds & ds' & -> & -> & Wd). unfold visit_root. cbn [t_reverse t_item t_term t_childs]. destruct r; [|now apply (proj1 (grown_match f))].
    destruct (zlen s <? item_min it)%Z; [apply less_none|]. destruct (item_match_last it s) as [[[o|] fl]|e| |]; cbn [bind]; try exact I; destruct fl; try apply less_none.
    cbv zeta. apply less_seq; [apply less_emit_if|]. apply less_wide; auto; [intros; now apply (proj1 (grown_match f))|intros; now apply leaf_silent].
  - intros it r Hi. unfold visit_root. cbn [t_reverse t_item t_term t_childs empty_leaf]. destruct r; [|now apply leaf_silent].
    destruct (zlen s <? item_min it)%Z; [reflexivity|]. destruct (item_match_last it s) as [[[o|] fl]|e| |]; cbn [bind]; try exact I; destruct fl; try reflexivity.
    cbv zeta. apply silent_here.
Qed.

(** ** Insertion *)
Definition unheld (path : list elem) (t : tree) : Prop := forall p x, holds t p x -> ~ eqp p path.
Fixpoint tidy (path : list elem) : Prop :=
  match path with
  | [] => True
  | (it, _) :: rest => still it /\ tidy rest \/ starry it /\ rest = []
  end.
Lemma tidy_rest it r rest : tidy ((it, r) :: rest) -> tidy rest.
Proof. intros [[_ H]|[_ ->]]; [exact H|exact I]. Qed.
Lemma tidy_item it r rest : tidy ((it, r) :: rest) -> still it \/ starry it.
Proof. intros [[H _]|[H _]]; auto. Qed.
Lemma leaf_grown it r : still it \/ starry it -> grown (empty_leaf it r) (empty_leaf it r).
Proof. intros [H|(k & ->)]; unfold empty_leaf; change (@None term) with (kept_term None) at 1; [constructor; [exact H|constructor]|constructor 2]. Qed.
Definition starry_node (t : tree) : Prop := exists it, t_item t = Some it /\ starry it.
Lemma child_starry node rv rest c : tidy ((node, rv) :: rest) -> is_child node rv c = true -> starry_node c -> rest = [].
Proof.
  intros T Q (it & E & k & ->). unfold is_child in Q. rewrite E in Q. apply andb_true_iff in Q as [_ Q]. destruct node; try discriminate Q. destruct T as [[[] _]|[_ T]]. exact T.
Qed.
Lemma leaf_starry node rv rest : tidy ((node, rv) :: rest) -> starry_node (empty_leaf node rv) -> rest = [].
Proof. intros T (it & E & k & ->). cbn in E. injection E as ->. destruct T as [[[] _]|[_ T]]. exact T. Qed.
Definition clear_of (node : item) (rv : bool) (rest : list elem) (cs : list tree) : Prop :=
  forall c i, In c cs -> t_item c = Some i -> forall p x, holds c p x -> ~ eqp ((i, t_reverse c) :: p) ((node, rv) :: rest).
Lemma wide_insert node rv rest y cs cs' : tidy ((node, rv) :: rest) ->
  (forall t t', grown t t' -> (starry_node t' -> rest = []) -> unheld rest t' -> grown t (tree_insert rest y t')) ->
  clear_of node rv rest cs' -> wider grown cs cs' -> wider grown cs (ins (tree_insert rest y) node rv cs').
Proof.
  intros T G C W.
  assert (L : grown (empty_leaf node rv) (tree_insert rest y (empty_leaf node rv))).
  { apply G; [apply leaf_grown; eapply tidy_item; eauto|eapply leaf_starry; eauto|]. intros p x H. now apply holds_new in H. }
  assert (K : forall c c', In c' cs' -> is_child node rv c' = true -> grown c c' -> grown c (tree_insert rest y c')).
  { intros c c' I Q R. apply G; auto; [eapply child_starry; eauto|]. intros p x H E. apply is_child_iff in Q as (i & Ei & Q). apply (C c' i I Ei p x H). now constructor. }
  clear C. induction W as [|c c' cs cs' R W IH|it r c' cs' Hi R W IH]; cbn [ins].
  - eapply w_new; [eapply tidy_item; eauto|exact L|constructor].
  - destruct (is_child node rv c') eqn:Q; constructor; auto; [apply K; auto; now left|]. apply IH. intros d d' I. apply K. now right.
  - destruct (is_child node rv c') eqn:Q; apply (w_new _ it r); auto; [apply K; auto; now left|]. apply IH. intros d d' I. apply K. now right.
Qed.
Lemma grown_insert y : P y = false -> forall path t t', grown t t' -> tidy path -> (starry_node t' -> path = []) -> unheld path t' -> grown t (tree_insert path y t').
Proof.
  intro Py. induction path as [|[node rv] rest IH]; intros t t' G T S U.
  - rewrite insert_nil. destruct (t_term t') as [x|] eqn:Et; [exfalso; apply (U [] x); [exists t'; now split|constructor]|].
    destruct G as [it r tm cs cs' Si W|k r tm]; cbn [t_term t_item t_reverse t_childs] in *; subst tm; replace (kept_term None) with (kept_term (Some y)) by (cbn; now rewrite Py); now constructor.
  - rewrite insert_cons. destruct G as [it r tm cs cs' Si W|k r tm]; cbn [t_term t_item t_reverse t_childs] in *.
    + constructor; [exact Si|]. apply wide_insert; auto; [intros; apply IH; auto; eapply tidy_rest; eauto|].
      intros c i I Ei p x H. apply (U ((i, t_reverse c) :: p) x). apply holds_cons. exists c. auto.
    + exfalso. assert (X : (node, rv) :: rest = []); [|discriminate]. apply S. exists (IStar k). split; [reflexivity|now exists k].
Qed.
Lemma wide_root y path t t' : P y = false -> tidy path -> (forall p x, p <> [] -> holds t' p x -> ~ eqp p path) -> wider grown (t_childs t) (t_childs t') ->
  wider grown (t_childs t) (t_childs (tree_insert path y t')).
Proof.
  intros Py T U W. destruct path as [|[node rv] rest]; [rewrite insert_nil; exact W|]. rewrite insert_cons. cbn [t_childs]. apply wide_insert; auto.
  - intros; apply grown_insert; auto. eapply tidy_rest; eauto.
  - intros c i I Ei p x H. apply (U ((i, t_reverse c) :: p) x); [discriminate|]. apply holds_cons. exists c. auto.
Qed.

(** ** A tree that stays as it is *)
Inductive resting : tree -> Prop :=
| rt_node it r tm cs : still it -> (forall c, In c cs -> resting c) -> resting (TNode (Some it) r tm cs)
| rt_star k r tm : resting (TNode (Some (IStar k)) r tm []).
Lemma kept_all tm : (forall x, tm = Some x -> P x = true) -> kept_term tm = tm.
Proof. destruct tm as [x|]; [|reflexivity]. intro H. cbn. now rewrite (H x). Qed.
Lemma resting_grown t : resting t -> (forall p x, holds t p x -> P x = true) -> grown t t.
Proof.
  induction 1 as [it r tm cs S R IH|k r tm]; intro H.
  - rewrite <- (kept_all tm) at 1; [|intros x ->; apply (H [] x); eexists; split; reflexivity]. constructor; [exact S|].
    assert (K : forall c, In c cs -> grown c c). { intros c I. apply IH; auto. intros p x Hp. specialize (R c I). destruct (t_item c) as [i|] eqn:Ei; [|destruct R; discriminate]. apply (H ((i, t_reverse c) :: p)). apply holds_cons. exists c. auto. }
    clear -K. induction cs as [|c cs IHc]; constructor; [apply K; now left|]. apply IHc. intros d I. apply K. now right.
  - rewrite <- (kept_all tm) at 1; [constructor 2|]. intros x ->. apply (H [] x). eexists. split; reflexivity.
Qed.
Lemma wide_self t : (forall c, In c (t_childs t) -> resting c) -> (forall p x, p <> [] -> holds t p x -> P x = true) -> wider grown (t_childs t) (t_childs t).
Proof.
  intros R H. assert (K : forall c, In c (t_childs t) -> grown c c).
  { intros c I. apply resting_grown; auto. intros p x Hp. specialize (R c I). destruct (t_item c) as [i|] eqn:Ei; [|destruct R; discriminate]. apply (H ((i, t_reverse c) :: p)); [discriminate|]. apply holds_cons. exists c. auto. }
  clear -K. induction (t_childs t) as [|c cs IHc]; constructor; [apply K; now left|]. apply IHc. intros d I. apply K. now right.
Qed.
End Less.
Lemma resting_insert y : forall path t, resting t -> tidy path -> (starry_node t -> path = []) -> resting (tree_insert path y t).
Proof.
  induction path as [|[node rv] rest IH]; intros t H F S.
  - rewrite insert_nil. destruct H; cbn [t_item t_reverse t_childs]; now constructor.
  - rewrite insert_cons. destruct H as [it r tm cs H1 H2|k r tm].
    + cbn [t_item t_reverse t_childs t_term]. constructor; [exact H1|]. intros d I. apply ins_in in I as [I|[(c & I & Q & ->)| ->]]; [auto| |].
      * apply IH; auto; [eapply tidy_rest; eauto|eapply child_starry; eauto].
      * apply IH; [|eapply tidy_rest; eauto|eapply leaf_starry; eauto]. destruct (tidy_item _ _ _ F) as [Si|(k & ->)]; [constructor; easy|constructor 2].
    + exfalso. assert (X : (node, rv) :: rest = []); [|discriminate]. apply S. exists (IStar k). split; [reflexivity|now exists k].
Qed.
Lemma resting_root y path t : (forall c, In c (t_childs t) -> resting c) -> tidy path -> forall c, In c (t_childs (tree_insert path y t)) -> resting c.
Proof.
  intros H F. destruct path as [|[node rv] rest]; [rewrite insert_nil; exact H|]. rewrite insert_cons. cbn [t_childs].
  intros d I. apply ins_in in I as [I|[(c & I & Q & ->)| ->]]; [auto| |].
  - apply resting_insert; auto; [eapply tidy_rest; eauto|eapply child_starry; eauto].
  - apply resting_insert; [|eapply tidy_rest; eauto|eapply leaf_starry; eauto]. destruct (tidy_item _ _ _ F) as [Si|(k & ->)]; [constructor; easy|constructor 2].
Qed.

(** ** What a glob with stars only at its end is parsed to *)
Lemma basic_still it : basic it -> still it.
Proof. now destruct it. Qed.
Lemma plain_step f s oi a rest rl : token f s oi a rest -> ~ In "}"%char s -> ~ In "*"%char s -> Forall basic rl ->
  Forall basic (match oi with Some it => append_item_rev rl it | None => rl end).
Proof.
  intros T NB NS F. destruct T as [body r o N H|body r o N H|n r N|r|b c r Na N Mc|b Na N].
  - destruct o as [it|]; auto. apply basic_append; auto. eapply class_basic; eauto.
  - exfalso. apply NB. rewrite braced_app. right. apply in_or_app. right. now left.
  - exfalso. apply NS. now left.
  - apply basic_append; auto. exact I.
  - apply basic_append; auto. apply single_basic.
  - apply basic_append; auto. exact I.
Qed.
Lemma chain_plain f0 : forall fuel v st rl mn mx, ~ In "}"%char v -> ~ In "*"%char v -> Forall basic (fst (fst st)) ->
  group_chain fuel (next_item f0) v st = Ok (rl, mn, mx) -> Forall basic rl.
Proof.
  induction fuel as [|f IH]; intros v [[rl0 mn0] mx0] rl mn mx NB NS F H; cbn [group_chain] in H.
  - destruct v; [|discriminate]. now injection H as <- <- <-.
  - destruct v as [|c v]; [now injection H as <- <- <-|].
    destruct (next_item f0 (c :: v)) as [[oi rest]|e| |] eqn:E; try discriminate.
    destruct f0 as [|f0]; [discriminate|]. apply next_token in E as (a & T). pose proof (plain_step _ _ _ _ _ rl0 T NB NS F) as S1.
    destruct (token_text _ _ _ _ _ T) as [Ea _]. rewrite Ea in NB, NS.
    assert (NB' : ~ In "}"%char rest) by (intro I; apply NB; apply in_or_app; now right). assert (NS' : ~ In "*"%char rest) by (intro I; apply NS; apply in_or_app; now right).
    destruct oi as [it|]; apply IH in H; auto.
Qed.
Lemma vals_plain f0 : forall vals r, Forall (fun v => ~ In "}"%char v) vals -> Forall (fun v => ~ In "*"%char v) vals ->
  group_vals (next_item f0) vals = Ok r -> match r with inl _ => False | inr l => forall v, In v l -> Forall basic (val_items v) end.
Proof.
  induction vals as [|v vals IH]; intros l NB NS H; cbn [group_vals] in H.
  - injection H as <-. intros v [].
  - inversion NB as [|? ? N1 N2]; inversion NS as [|? ? S1 S2]; subst. destruct (has_wildcard v) eqn:W.
    + destruct (str_eqb_spec v (B "*")) as [->|Ns]; [exfalso; apply S1; now left|].
      destruct (if str_eqb v (B "?") then Ok (IAny 1) else group_val (next_item f0) v) as [it|e| |] eqn:E; try discriminate. cbn [bind] in H.
      assert (V : Forall basic (val_items it)).
      { destruct (str_eqb_spec v (B "?")) as [->|Nq].
        - injection E as <-. repeat constructor.
        - unfold group_val in E. destruct (group_chain (length v) (next_item f0) v ([], 0%Z, 0%Z)) as [[[rl mn] mx]|e| |] eqn:E2; try discriminate.
          cbn [bind] in E. apply chain_plain in E2; auto; [|constructor]. pose proof (Forall_rev E2) as B2. destruct rl as [|x [|y rl]]; injection E as <-; [exact B2| |exact B2].
          assert (val_items x = [x]) as ->; [|exact B2]. destruct x; auto. inversion E2; easy. }
      destruct (group_vals (next_item f0) vals) as [[r0|r0]|e| |] eqn:E2; try discriminate; specialize (IH _ N2 S2 eq_refl); [easy|]. cbn [bind] in H. injection H as <-.
      intros x [<-|I]; auto.
    + destruct (group_vals (next_item f0) vals) as [[r0|r0]|e| |] eqn:E2; try discriminate; specialize (IH _ N2 S2 eq_refl); [easy|]. cbn [bind] in H. injection H as <-.
      intros x [<-|I]; auto. repeat constructor.
Qed.
Lemma list_still f body it : ~ In "}"%char body -> ~ In "*"%char body -> new_item_list (next_item f) (norm (split_on "," body)) = Ok (Some it) -> still it.
Proof.
  intros NB NS H. assert (Fb : Forall (fun v => ~ In "}"%char v) (norm (split_on "," body)) /\ Forall (fun v => ~ In "*"%char v) (norm (split_on "," body))).
  { split; apply Forall_forall; intros v I J; apply (proj1 (norm_in _ _)) in I; destruct (split_part "," body v I) as (p & q & -> & _); [apply NB|apply NS]; apply in_or_app; right; apply in_or_app; now left. }
  destruct Fb as [F1 F2]. remember (norm (split_on "," body)) as vals eqn:V. clear V.
  destruct (list_shape _ _ _ H) as [(l & mn & mx & Hl & ->)|N].
  - exact (vals_plain _ _ _ F1 F2 Hl).
  - unfold new_item_list in H. destruct vals as [|v0 [|v1 vs]]; [discriminate|destruct (null v0); [discriminate|]; injection H as <-; apply basic_still, single_basic|].
    remember (v0 :: v1 :: vs) as vals. destruct (list_scan vals max_int 0 true as_empty) as [[[[mn mx] st] fi] hs]. destruct hs.
    + unfold new_group in H. destruct (group_vals (next_item f) vals) as [r|e| |] eqn:G; try discriminate. apply vals_plain in G; auto. destruct r as [x|l]; [easy|].
      exfalso. cbn [bind] in H. destruct l as [|x l]; [discriminate|]. destruct (group_bounds l (item_min x) (item_max x)) as [m1 m2]. injection H as <-. now apply (N (x :: l) m1 m2).
    + subst vals. destruct (mn =? 0)%Z; [destruct v0; [|discriminate]|]; injection H as <-; destruct st; exact I.
Qed.
Definition open_state (v : str) (rl : list item) : Prop :=
  Forall still rl \/ exists k r, rl = IStar k :: r /\ Forall still r /\ only_wild v.
Lemma still_merge x y m : still x -> still y -> merge_last x y = Some m -> still m.
Proof. intros Hx Hy E. destruct y, x; try discriminate; cbn in E; injection E as <-; easy. Qed.
Lemma still_append rl it : Forall still rl -> still it -> Forall still (append_item_rev rl it).
Proof. apply append_forall. exact still_merge. Qed.
Lemma still_star rl : Forall still rl -> exists k r, append_item_rev rl (IStar 0) = IStar k :: r /\ Forall still r.
Proof.
  intro F. destruct rl as [|x r]; [exists 0, []; split; auto|]. cbn [append_item_rev]. inversion F; subst. destruct x; cbn [merge_last]; try (eexists 0, _; split; [reflexivity|exact F]); eauto.
Qed.
Lemma open_step g f s oi a rest done suffix rl : stars_at_end g -> token f s oi a rest -> g = done ++ a ++ rest ++ suffix -> open_state s rl ->
  open_state rest (match oi with Some it => append_item_rev rl it | None => rl end).
Proof.
  intros O1 T Eg St. destruct T as [body r o N H|body r o N H|n r N|r|b c r Na N Mc|b Na N].
  - destruct St as [F|(k & r0 & _ & _ & W)]; [|exfalso; destruct (W "["%char) as [X|X]; [now left|discriminate|discriminate]].
    left. destruct o as [it|]; auto. apply still_append; auto. eapply basic_still, class_basic; eauto.
  - destruct St as [F|(k & r0 & _ & _ & W)]; [|exfalso; destruct (W "{"%char) as [X|X]; [now left|discriminate|discriminate]].
    left. destruct o as [it|]; auto. apply still_append; auto. destruct H as [[_ H]|[_ H]]; [discriminate|]. eapply list_still; eauto.
    intro I. apply in_split in I as (p & q & ->). destruct (O1 (done ++ "{"%char :: p) (q ++ "}"%char :: r ++ suffix)) with (c := "}"%char) as [X|X]; try discriminate; [|apply in_or_app; right; now left].
    rewrite Eg. unfold braced. cbn [app]. rewrite <- ?app_assoc. cbn [app]. rewrite <- ?app_assoc. reflexivity.
  - right. assert (W : only_wild r).
    { intros d I. apply (O1 (done ++ repeat "*"%char n) (r ++ suffix)); [|apply in_or_app; now left]. rewrite Eg. change (repeat "*"%char (S n)) with ("*"%char :: repeat "*"%char n). rewrite repeat_cons, <- !app_assoc. reflexivity. }
    destruct St as [F|(k & r0 & -> & F & _)].
    + destruct (still_star rl F) as (k & r0 & -> & F0). eauto 10.
    + destruct (wild_append k r0 (IStar 0)) as (k' & ->); auto. exists k', r0. auto.
  - destruct St as [F|(k & r0 & -> & F & W)].
    + left. apply still_append; auto. exact I.
    + right. destruct (wild_append k r0 (IAny 1)) as (k' & ->); auto. exists k', r0. split; auto. split; auto. intros c I. apply W. now right.
  - destruct St as [F|(k & r0 & _ & _ & W)]; [left; apply still_append; auto; apply basic_still, single_basic|]. exfalso. destruct b as [|d b]; [easy|]. apply (N d); [now left|]. apply wild_meta, W. now left.
  - destruct St as [F|(k & r0 & _ & _ & W)]; [left; apply still_append; auto; exact I|]. exfalso. destruct b as [|d b]; [easy|]. apply (N d); [now left|]. apply wild_meta, W. now left.
Qed.
Lemma loop_open g suffix : stars_at_end g -> forall f t done prefix mn mx rl prefix' mn' mx' rl', g = done ++ t ++ suffix -> open_state t rl ->
  parse_loop f t (prefix, mn, mx, rl) = Ok (prefix', mn', mx', rl') -> open_state [] rl'.
Proof.
  intro O. induction f as [|f IH]; intros t done prefix mn mx rl prefix' mn' mx' rl' Eg F H.
  { destruct t; [|discriminate]. now injection H as <- <- <- <-. }
  destruct t as [|c t]; [now injection H as <- <- <- <-|].
  cbn [parse_loop] in H. remember (c :: t) as s eqn:Es.
  destruct (next_wildcard_item s) as [[oi rest]|e| |] eqn:E; try discriminate. unfold next_wildcard_item in E.
  apply next_token in E as (a & Tk). destruct (token_text _ _ _ _ _ Tk) as [Ea Na].
  assert (Eg' : g = (done ++ a) ++ rest ++ suffix) by (rewrite Eg, Ea, <- !app_assoc; reflexivity).
  assert (S1 := open_step g _ _ _ _ _ done suffix rl O Tk). rewrite <- app_assoc in Eg'. specialize (S1 Eg' F). rewrite app_assoc in Eg'.
  destruct oi as [it|]; [|exact (IH _ _ _ _ _ _ _ _ _ _ Eg' S1 H)].
  destruct (parse_step (prefix, mn, mx, rl) it) as [[[p1 n1] x1] r1] eqn:S2.
  refine (IH _ _ _ _ _ _ _ _ _ _ Eg' _ H). apply (f_equal snd) in S2. change r1 with (snd (p1, n1, x1, r1)). rewrite <- S2.
  unfold parse_step. destruct rl; [destruct it; cbn; auto; now left|]. exact S1.
Qed.
Definition end_star (its : list item) : Prop := Forall still its \/ exists r k, its = r ++ [IStar k] /\ Forall still r.
Lemma parse_end_star g gl : stars_at_end g -> glob_parse g = Ok gl -> end_star (g_items gl).
Proof.
  intros O H. unfold glob_parse in H. destruct (index_wildcard g) as [pos|]; [|injection H as <-; left; constructor].
  destruct (index_last_wildcard (skipn pos g)) as [e|]; [|discriminate].
  destruct (Nat.eqb e 0 && negb (Ascii.eqb (nth 0 (skipn pos g) zero) "?") && negb (Ascii.eqb (nth 0 (skipn pos g) zero) "*")); [discriminate|].
  destruct (if (e <? length (skipn pos g) - 1)%nat then (skipn (S e) (skipn pos g), firstn (S e) (skipn pos g)) else ([], skipn pos g)) as [suffix body] eqn:F.
  assert (Eg : g = firstn pos g ++ body ++ suffix).
  { destruct (e <? length (skipn pos g) - 1)%nat; pose proof (f_equal fst F) as F1; pose proof (f_equal snd F) as F2; cbn [fst snd] in F1, F2; rewrite <- F1, <- F2.
    - rewrite (firstn_skipn (S e) (skipn pos g)). now rewrite firstn_skipn.
    - now rewrite app_nil_r, firstn_skipn. }
  assert (FI : forall t p s mn mx its, g_items (finish_glob t p s mn mx its) = its) by (intros; destruct its; reflexivity).
  destruct (str_eqb_spec body (B "*")) as [Eb|]; [apply ok_inj in H; rewrite <- H, FI; right; exists [], 0; split; auto|].
  destruct (str_eqb_spec body (B "?")) as [Eb|]; [apply ok_inj in H; rewrite <- H, FI; left; repeat constructor|].
  destruct (parse_loop (length body) body (firstn pos g, (zlen (firstn pos g) + zlen suffix)%Z, (zlen (firstn pos g) + zlen suffix)%Z, [])) as [[[[p1 n1] x1] r1]|e1| |] eqn:El; try discriminate.
  cbn [bind] in H. destruct (take_suffix suffix r1) as [s2 r2] eqn:Et. apply ok_inj in H. rewrite <- H, FI.
  apply (loop_open g suffix O) with (done := firstn pos g) in El; auto; [|left; constructor].
  assert (K : open_state [] r2).
  { unfold take_suffix in Et. destruct r1 as [|x [|y r]]; [now injection Et as _ <-|destruct x; now injection Et as _ <-|].
    destruct El as [El|(k & r0 & E & El & _)]; [|injection E as -> <-; injection Et as _ <-; right; eexists _, _; split; [reflexivity|]; split; [exact El|easy]].
    left. inversion El; subst. destruct x; injection Et as _ <-; auto. }
  destruct K as [K|(k & r & -> & K & _)]; [left; now apply Forall_rev|right]. exists (rev r), k. split; [reflexivity|now apply Forall_rev].
Qed.
Lemma path_tidy g : end_star (g_items g) -> tidy (glob_path g).
Proof.
  intro T. unfold glob_path. assert (K : tidy (map (fun i => (i, false)) (g_items g))).
  { destruct T as [T|(r & k & -> & T)]; [induction T; cbn; auto|]. induction T; cbn; auto. right. split; auto. now exists k. }
  destruct (null (g_suffix g)), (null (g_prefix g)); cbn; auto 10.
Qed.

(** ** Histories *)
Lemma new_clear E gt text g : tree_inv E gt -> glob_parse text = Ok g -> (forall n, ~ known E (g_node g) n) -> forall p x, p <> [] -> holds (gt_root gt) p x -> ~ eqp p (glob_path g).
Proof.
  intros (MO & PE & TS & TC & TL & TW & TO) P L3 p x Np H Q. destruct (TS p x Np H) as (e & g' & Ie & Pe & -> & Qe). apply (L3 (e_index e)). exists e. split; auto. split; auto. right.
  destruct (PE e Ie) as (g2 & P2 & <-). assert (g2 = g') by congruence. subst g2.
  assert (glob_path g <> [] /\ glob_path g' <> []) as [N1 N2] by (split; intro Z; rewrite Z in *; inversion Q; inversion Qe; subst; easy).
  assert (I1 : g_items g <> []) by (intro Z; apply N1; eapply path_literal; eauto). assert (I2 : g_items g' <> []) by (intro Z; apply N2; eapply path_literal; eauto).
  rewrite <- (path_text _ _ P I1), <- (path_text _ _ P2 I2). rewrite <- (eqp_text _ _ Q). symmetry. now apply eqp_text.
Qed.
Definition restful (E : list entry) (gt : glob_tree) : Prop :=
  tree_inv E gt /\ ((forall e, In e E -> stars_at_end (e_text e)) -> forall c, In c (t_childs (gt_root gt)) -> resting c).
(** A call that is accepted, in the model's own terms. *)
Lemma accepted_step E gt text i gt' r e : tree_inv E gt -> gt_add gt text i = Ok (gt', r) -> registers gl_canon E text i (Some e) r ->
  exists g, glob_parse text = Ok g /\ gt' = gt_accept gt g (g_node g) i /\ e = mkEntry text (g_node g) i /\ (forall n, ~ known E (g_node g) n) /\ (forall q, ~ used E i q).
Proof.
  intros T A R. inversion R as [| | | | | |q N1 N2 N3 N4 N5 N6]; subst. unfold gl_canon in N5. unfold gt_add in A.
  replace (null text) with false in A by now destruct text. destruct (Z.ltb_spec i 0); [lia|]. destruct (lookup str_eqb text (gt_globs gt)); [congruence|]. destruct (lookup Z.eqb i (gt_index gt)); [congruence|].
  destruct (glob_parse text) as [g|e| |] eqn:Pg; try congruence. destruct (lookup str_eqb (g_node g) (gt_globs gt)); [congruence|]. assert (q = g_node g) as -> by congruence.
  exists g. split; [reflexivity|]. split; [congruence|]. split; [reflexivity|]. split; auto.
Qed.
Lemma restful_step E gt text i : restful E gt -> exists gt' r new, gt_add gt text i = Ok (gt', r) /\ registers gl_canon E text i new r /\
  restful (match new with Some e => E ++ [e] | None => E end) gt' /\ (new = None -> gt' = gt).
Proof.
  intros (T & V). destruct (gt_step E gt text i T) as (gt' & r & new & A & R & T' & N). exists gt', r, new. split; [exact A|]. split; [exact R|]. split; [|exact N].
  split; [exact T'|]. destruct new as [e|]; [|rewrite N by reflexivity; auto].
  destruct (accepted_step _ _ _ _ _ _ _ T A R) as (g & Pg & -> & -> & K & U). unfold gt_accept, add_glob. cbn [gt_root]. intro HO.
  apply resting_root; [apply V; intros e I; apply HO, in_or_app; now left|]. apply path_tidy, (parse_end_star text); auto. apply (HO (mkEntry text (g_node g) i)). apply in_or_app. right. now left.
Qed.
Definition indexed (E : list entry) (x : term) : bool := existsb (fun e => (e_index e =? snd x)%Z) E.
Lemma later_steps calls gt rs E : run_adds gt_add gt_new calls = Ok (gt, rs) -> history gl_canon calls rs E -> restful E gt ->
  forall more, exists gt' rs' F, run_adds gt_add gt_new (calls ++ more) = Ok (gt', rs') /\ history gl_canon (calls ++ more) rs' (E ++ F) /\ tree_inv (E ++ F) gt' /\
    ((forall e, In e (E ++ F) -> stars_at_end (e_text e)) -> wider (grown (indexed E)) (t_childs (gt_root gt)) (t_childs (gt_root gt'))).
Proof.
  intros R H [T V]. induction more as [|[text i] more IH] using rev_ind.
  - exists gt, rs, []. rewrite !app_nil_r. split; [exact R|]. split; [exact H|]. split; [exact T|]. intro O. apply wide_self; [now apply V|].
    intros p x Np Hp. destruct T as (MO & PE & TS & _). destruct (TS p x Np Hp) as (e & g' & Ie & Pe & -> & _). unfold indexed. apply existsb_exists. exists e. split; auto. apply Z.eqb_refl.
  - destruct IH as (gt1 & rs1 & F & R1 & H1 & T1 & W1). destruct (gt_step _ gt1 text i T1) as (gt' & r & new & A & Rg & T' & N).
    exists gt', (rs1 ++ [r]). rewrite app_assoc. destruct new as [e|].
    + exists (F ++ [e]). rewrite app_assoc. split; [eapply run_adds_snoc; eauto|]. split; [exact (h_snoc _ _ _ _ _ _ _ _ H1 Rg)|]. split; [exact T'|]. intro O.
      destruct (accepted_step _ _ _ _ _ _ _ T1 A Rg) as (g & Pg & -> & -> & K & U). unfold gt_accept, add_glob. cbn [gt_root].
      apply wide_root; [|apply path_tidy, (parse_end_star text); auto; apply (O (mkEntry text (g_node g) i)); apply in_or_app; right; now left|now apply (new_clear (E ++ F) gt1 text)|apply W1; intros d I; apply O, in_or_app; now left].
      unfold indexed. cbn [snd]. destruct (existsb (fun e => (e_index e =? i)%Z) E) eqn:X; auto. exfalso. apply existsb_exists in X as (d & I & Q). apply (U (e_node d)). exists d. split; [apply in_or_app; now left|]. split; [lia|reflexivity].
    + exists F. rewrite (N eq_refl) in *. split; [eapply run_adds_snoc; eauto|]. split; [exact (h_snoc _ _ _ _ _ _ _ _ H1 Rg)|]. split; [exact T'|]. exact W1.
Qed.
