(** Trees in which a node is reached in one way. *)
From Coq Require Import Lia ZifyBool ZifyN ZifyNat.
From Verif Require Import Model.Tree Spec.Symbols Spec.GlobSpec Spec.Safe Spec.RegistrySpec Spec.GlobTreeSpec Spec.EndSpec Spec.OnceSpec.
From Verif Require Import Proof.SortP Proof.ListP Proof.DenotesP Proof.ParseP Proof.NextP Proof.SafeP Proof.PanicP Proof.SizedP Proof.RegistryP Proof.TotalP Proof.TreeInsP Proof.GlobTreeP Proof.TreeEndP Proof.TreeEnd2P Proof.FirstP Proof.LooseP Proof.CheckP.

(** ** The terms of a tree, and of a tree after an insertion *)
Fixpoint terms (t : tree) : list term := match t with TNode _ _ tm cs => fst (emit tm) ++ flat_map terms cs end.
Lemma sub_single {A} (l : list A) x : sublist l [x] -> l = [] \/ l = [x].
Proof. intro H. inversion H as [|? ? ? H1|? ? ? H1]; subst; inversion H1; auto. Qed.
Lemma insert_terms x : forall path t, exists l1 l2, terms (tree_insert path x t) = l1 ++ x :: l2 /\ sublist (l1 ++ l2) (terms t).
Proof.
  induction path as [|[node rv] rest IH]; intro t; destruct t as [i r tm cs].
  - rewrite insert_nil. cbn [terms t_term t_childs emit fst app]. exists [], (flat_map terms cs). split; [reflexivity|]. cbn [app].
    change (flat_map terms cs) with ([] ++ flat_map terms cs) at 1. apply sub_app; [apply sub_empty|apply sub_refl].
  - rewrite insert_cons. cbn [terms t_term t_childs].
    assert (K : exists l1 l2, flat_map terms (ins (tree_insert rest x) node rv cs) = l1 ++ x :: l2 /\ sublist (l1 ++ l2) (flat_map terms cs)).
    { induction cs as [|c cs IHc]; cbn [ins flat_map].
      - destruct (IH (TNode (Some node) rv None [])) as (l1 & l2 & E & S). exists l1, l2. rewrite app_nil_r. auto.
      - destruct (is_child node rv c).
        + destruct (IH c) as (l1 & l2 & E & S). exists l1, (l2 ++ flat_map terms cs). cbn [flat_map]. rewrite E, <- app_assoc. split; [reflexivity|].
          rewrite app_assoc. apply sub_app; [exact S|apply sub_refl].
        + destruct IHc as (l1 & l2 & E & S). exists (terms c ++ l1), l2. cbn [flat_map]. rewrite E, <- !app_assoc. split; [reflexivity|]. apply sub_app; [apply sub_refl|exact S]. }
    destruct K as (l1 & l2 & E & S). exists (fst (emit tm) ++ l1), l2. rewrite E, <- !app_assoc. split; [reflexivity|]. apply sub_app; [apply sub_refl|exact S].
Qed.

(** ** Nodes reached in one way *)
Definition settled (it : item) : Prop :=
  match it with
  | IList l => sl_optional l = false /\ NoDup (sl_vals l) /\ forall v x, In v (sl_vals l) -> In (v ++ x) (sl_vals l) -> x = []
  | IStar _ | IGroup _ _ _ => False
  | _ => True
  end.
Inductive narrow : tree -> Prop :=
| nw_node it r tm cs : settled it -> (forall c, In c cs -> narrow c) -> narrow (TNode (Some it) r tm cs)
| nw_star k r tm : narrow (TNode (Some (IStar k)) r tm []).
Lemma prefix_cut s v : has_prefix s v = true -> exists x, s = v ++ x.
Proof.
  revert s. induction v as [|c v IH]; intros s H; [now exists s|]. destruct s as [|d s]; [discriminate|]. cbn in H. apply andb_true_iff in H as [H1 H2].
  apply Ascii.eqb_eq in H1. subst. destruct (IH _ H2) as (x & ->). now exists x.
Qed.
Lemma prefix_two (v x : str) : forall w y : str, v ++ x = w ++ y -> (exists z, w = v ++ z) \/ (exists z, v = w ++ z).
Proof.
  induction v as [|c v IH]; intros w y E; [left; now exists w|]. destruct w as [|d w]; [right; now exists (c :: v)|]. injection E as <- E.
  destruct (IH w y E) as [(z & ->)|(z & ->)]; [left|right]; now exists z.
Qed.
Lemma here_sub f cs tm s b l n : (forall t s l n, narrow t -> t_match f t s = Ok (l, n) -> sublist l (terms t)) -> (forall c, In c cs -> narrow c) ->
  oseq (emit_if b tm) (oall (fun c => t_match f c s) cs) = Ok (l, n) -> sublist l (fst (emit tm) ++ flat_map terms cs).
Proof.
  intros IH N H. apply oseq_inv in H as (l1 & n1 & l2 & n2 & E1 & E2 & ->). apply sub_app.
  - unfold emit_if in E1. destruct b; [assert (emit tm = (l1, n1)) as -> by congruence; apply sub_refl|]. injection E1 as <- <-. apply sub_empty.
  - clear E1. revert l2 n2 E2. induction cs as [|c cs IHc]; intros l2 n2 E; cbn [oall] in E; [injection E as <- <-; constructor|].
    apply oseq_inv in E as (a1 & m1 & a2 & m2 & F1 & F2 & ->). cbn [flat_map]. apply sub_app; [eapply IH; [apply N; now left|exact F1]|]. eapply IHc; [|exact F2]. intros d I. apply N. now right.
Qed.
Lemma match_sub : forall f t s l n, narrow t -> t_match f t s = Ok (l, n) -> sublist l (terms t).
Proof.
  induction f as [|f IH]; intros t s l n W H; [discriminate|]. destruct W as [it r tm cs S N|k r tm]; cbn [t_match] in H; cbn [terms].
  2:{ cbn [flat_map]. rewrite app_nil_r. destruct (zlen s <? _)%Z; [injection H as <- <-; apply sub_empty|]. cbn [item_match null] in H. destruct (skip_runes s k); [assert (emit tm = (l, n)) as -> by congruence; apply sub_refl|injection H as <- <-; apply sub_empty]. }
  destruct (zlen s <? item_min it)%Z; [injection H as <- <-; apply sub_empty|].
  destruct (item_match it s) as [[off|] fl] eqn:M; [|injection H as <- <-; apply sub_empty]. cbv zeta in H.
  destruct it as [x|x|x|x|x|x|sl|vals mn mx|its mn mx]; cbn [settled] in S; try easy; cbn [item_match] in M; pose proof (f_equal snd M) as Fl; cbn [snd] in Fl; rewrite <- Fl in H; try (eapply here_sub; eauto; fail); try discriminate.
  destruct S as (O & ND & PF). rewrite O in H. apply oseq_inv in H as (l1 & n1 & l2 & n2 & E1 & E2 & ->). injection E1 as <- <-. cbn [app]. clear M Fl.
  set (s' := skipn off s) in *. set (T := fst (emit tm) ++ flat_map terms cs).
  assert (Z : forall vs a m, (forall v, In v vs -> has_prefix s' v = false) -> oall (fun v => match match_val s' v with None => Ok out_none | Some o => oseq (emit_if (null (skipn o s')) tm) (oall (fun c => t_match f c (skipn o s')) cs) end) vs = Ok (a, m) -> a = []).
  { induction vs as [|v vs IHv]; intros a m Nv E; cbn [oall] in E; [now injection E|]. apply oseq_inv in E as (a1 & m1 & a2 & m2 & F1 & F2 & ->). unfold match_val in F1. rewrite (Nv v) in F1 by now left. injection F1 as <- <-. cbn [app]. eapply IHv; [|exact F2]. intros w I. apply Nv. now right. }
  revert l2 n2 E2 ND PF. generalize (sl_vals sl). induction l as [|v vs IHv]; intros l2 n2 E ND PF; cbn [oall] in E; [injection E as <- <-; apply sub_empty|].
  apply oseq_inv in E as (a1 & m1 & a2 & m2 & F1 & F2 & ->). inversion ND as [|? ? Nv ND']; subst. unfold match_val in F1 at 1. destruct (has_prefix s' v) eqn:P.
  - assert (a2 = []) as ->; [|rewrite app_nil_r; eapply here_sub; eauto]. eapply Z; [|exact F2]. intros w I. destruct (has_prefix s' w) eqn:Pw; auto. exfalso.
    apply prefix_cut in P as (x & Ex), Pw as (y & Ey). rewrite Ex in Ey. destruct (prefix_two _ _ _ _ Ey) as [(z & ->)|(z & ->)].
    + assert (z = []) as -> by (eapply PF; [now left|now right]). rewrite app_nil_r in I. easy.
    + assert (z = []) as -> by (eapply (PF w); [now right|now left]). rewrite app_nil_r in Nv. easy.
  - injection F1 as <- <-. cbn [app]. eapply IHv; eauto. intros w x I J. apply (PF w); now right.
Qed.
Lemma tree_sub f t s l n : (forall c, In c (t_childs t) -> narrow c) -> tree_match f t s = Ok (l, n) -> sublist l (terms t).
Proof.
  destruct t as [i r tm cs]. cbn [t_childs terms]. intros N H. unfold tree_match in H. cbn [t_childs] in H. change l with ([] ++ l). apply sub_app; [apply sub_empty|].
  revert l n H. induction cs as [|c cs IHc]; intros l n H; cbn [oall] in H; [injection H as <- <-; constructor|].
  apply oseq_inv in H as (l1 & n1 & l2 & n2 & E1 & E2 & ->). cbn [flat_map]. apply sub_app; [|eapply IHc; [intros d I; apply N; now right|exact E2]].
  specialize (N c (or_introl eq_refl)). destruct (t_reverse c); [|eapply match_sub; eauto].
  assert (K : forall f s b l n, oseq (emit_if b (t_term c)) (oall (fun c => t_match f c s) (t_childs c)) = Ok (l, n) -> sublist l (terms c)).
  { intros f' s' b l' n' E. destruct N as [it r' tm' cs' S N|k r' tm']; cbn [terms t_term t_childs] in *; eapply here_sub; eauto; try apply match_sub. easy. }
  destruct (t_item c) as [it|]; [|discriminate]. destruct (zlen s <? item_min it)%Z; [injection E1 as <- <-; apply sub_empty|].
  destruct (item_match_last it s) as [[[o|] fl]|e| |]; try discriminate; cbn [bind] in E1; destruct fl; try (injection E1 as <- <-; apply sub_empty); eapply K; eauto.
Qed.

(** ** Insertion keeps the tree so *)
Fixpoint slim (path : list elem) : Prop :=
  match path with
  | [] => True
  | (it, _) :: rest => settled it /\ slim rest \/ (exists k, it = IStar k) /\ rest = []
  end.
Lemma narrow_insert y : forall path t, narrow t -> slim path -> (t_childs t = [] -> (exists k, t_item t = Some (IStar k)) -> path = []) -> narrow (tree_insert path y t).
Proof.
  induction path as [|[node rv] rest IH]; intros t H F S.
  - rewrite insert_nil. destruct H; cbn [t_item t_reverse t_childs]; now constructor.
  - rewrite insert_cons. destruct H as [it r tm cs H1 H2|k r tm]; [|cbn in S; specialize (S eq_refl (ex_intro _ k eq_refl)); discriminate]. cbn [t_item t_reverse t_childs t_term]. constructor; [exact H1|].
    assert (Nw : narrow (tree_insert rest y (TNode (Some node) rv None []))).
    { destruct F as [[F1 F2]|[(k & ->) ->]]; [|rewrite insert_nil; now constructor]. apply IH; auto; [constructor; easy|]. intros _ (k & E). cbn in E. injection E as ->. easy. }
    intros d I. apply ins_in in I as [I|[(c & I & Q & ->)| ->]]; [auto| |exact Nw].
    apply IH; auto; [destruct F as [[_ F2]|[_ ->]]; easy|]. intros _ (k & E). unfold is_child in Q. rewrite E in Q. apply andb_true_iff in Q as [_ Q]. destruct node; try discriminate Q. destruct F as [[[] _]|[_ ->]]. reflexivity.
Qed.
Lemma root_insert y path t : (forall c, In c (t_childs t) -> narrow c) -> slim path -> forall c, In c (t_childs (tree_insert path y t)) -> narrow c.
Proof.
  intros H F. destruct path as [|[node rv] rest]; [rewrite insert_nil; exact H|]. rewrite insert_cons. cbn [t_childs].
  intros d I. apply ins_in in I as [I|[(c & I & Q & ->)| ->]]; [auto| |].
  - apply narrow_insert; auto; [destruct F as [[_ F2]|[_ ->]]; easy|]. intros _ (k & E). unfold is_child in Q. rewrite E in Q. apply andb_true_iff in Q as [_ Q]. destruct node; try discriminate Q. destruct F as [[[] _]|[_ ->]]. reflexivity.
  - destruct F as [[F1 F2]|[(k & ->) ->]]; [|rewrite insert_nil; now constructor]. apply narrow_insert; auto; [constructor; easy|]. intros _ (k & E). cbn in E. injection E as ->. easy.
Qed.

(** ** What the parser makes of such globs *)
Definition open_state (v : str) (rl : list item) : Prop :=
  Forall settled rl \/ exists k r, rl = IStar k :: r /\ Forall settled r /\ only_wild v.
Lemma settled_merge x y m : settled x -> settled y -> merge_last x y = Some m -> settled m.
Proof. intros Hx Hy E. destruct y, x; try discriminate; cbn in E; injection E as <-; easy. Qed.
Lemma settled_append rl it : Forall settled rl -> settled it -> Forall settled (append_item_rev rl it).
Proof. apply append_forall. exact settled_merge. Qed.
Lemma settled_star rl : Forall settled rl -> exists k r, append_item_rev rl (IStar 0) = IStar k :: r /\ Forall settled r.
Proof.
  intro F. destruct rl as [|x r]; [exists 0, []; split; auto|]. cbn [append_item_rev]. inversion F; subst. destruct x; cbn [merge_last]; try (eexists 0, _; split; [reflexivity|exact F]); eauto.
Qed.
Lemma basic_settled it : basic it -> settled it.
Proof. now destruct it. Qed.
Lemma scan_plain : forall vals mn mx st fi, Forall literal_text vals -> snd (list_scan vals mn mx st fi) = false.
Proof.
  induction vals as [|v vals IH]; intros mn mx st fi F; [reflexivity|]. inversion F as [|? ? F1 F2]; subst. cbn [list_scan]. destruct v as [|c v]; [now apply IH|].
  destruct (as_add fi c) as [fi' ok]. replace (has_wildcard (c :: v)) with false; [now apply IH|]. symmetry. unfold has_wildcard.
  destruct (existsb is_wild (c :: v)) eqn:X; auto. exfalso. apply existsb_exists in X as (d & I & W). apply (F1 d I). unfold is_wild in W. unfold metas. cbn. rewrite !orb_true_iff, !Ascii.eqb_eq in W. intuition.
Qed.
Lemma list_settled f body it : (forall v, alternative body v -> literal_text v) -> (forall v x, alternative body v -> alternative body (v ++ x) -> x = []) ->
  new_item_list (next_item f) (norm (split_on "," body)) = Ok (Some it) -> settled it.
Proof.
  intros L PF H. assert (A : forall v, alternative body v <-> In v (norm (split_on "," body))) by (intro v; rewrite alternative_split, norm_in; reflexivity).
  pose proof (norm_nodup (split_on "," body)) as ND. remember (norm (split_on "," body)) as vals eqn:V. clear V.
  unfold new_item_list in H. destruct vals as [|v0 [|v1 vs]]; [discriminate|destruct (null v0); [discriminate|]; injection H as <-; apply basic_settled, single_basic|].
  remember (v0 :: v1 :: vs) as vals. assert (F : Forall literal_text vals) by (apply Forall_forall; intros v I; now apply L, A).
  pose proof (scan_plain vals max_int 0 true as_empty F) as Sc. destruct (list_scan vals max_int 0 true as_empty) as [[[[mn mx] st] fi] hs] eqn:LS. cbn in Sc. subst hs.
  assert (NE : forall t, vals = [] :: t -> False).
  { intros t E. rewrite E in Heqvals. injection Heqvals as <- ->. rewrite E in A, ND. assert (X : v1 = []). { apply (PF [] v1); apply A; [now left|right; now left]. } subst. inversion ND as [|? ? N _]. apply N. now left. }
  cbv zeta in H. destruct (Z.eqb_spec mn 0) as [Z|Z].
  - destruct v0 as [|c v0]; [exfalso; eauto|discriminate].
  - assert (K : forall b a, it = IList (mkSList b a vals mn mx) -> settled it).
    { intros b a ->. cbn. split; [unfold sl_optional; cbn; now apply Z.eqb_neq|]. split; [exact ND|]. intros v x I J. apply (PF v); now apply A. }
    destruct st; injection H as <-; eapply K; rewrite Heqvals; reflexivity.
Qed.

Lemma open_step g f s oi a rest done suffix rl : one_way g -> token f s oi a rest -> g = done ++ a ++ rest ++ suffix -> open_state s rl ->
  open_state rest (match oi with Some it => append_item_rev rl it | None => rl end).
Proof.
  intros [O1 O2] T Eg St. destruct T as [body r o N H|body r o N H|n r N|r|b c r Na N Mc|b Na N].
  - destruct St as [F|(k & r0 & _ & _ & W)]; [|exfalso; destruct (W "["%char) as [X|X]; [now left|discriminate|discriminate]].
    left. destruct o as [it|]; auto. apply settled_append; auto. eapply basic_settled, class_basic; eauto.
  - destruct St as [F|(k & r0 & _ & _ & W)]; [|exfalso; destruct (W "{"%char) as [X|X]; [now left|discriminate|discriminate]].
    left. destruct o as [it|]; auto. apply settled_append; auto. destruct H as [[_ H]|[_ H]]; [discriminate|]. destruct (O2 done body (r ++ suffix) Eg N) as [L P]. eapply list_settled; eauto.
  - right. assert (W : only_wild r).
    { intros d I. apply (O1 (done ++ repeat "*"%char n) (r ++ suffix)); [|apply in_or_app; now left]. rewrite Eg. change (repeat "*"%char (S n)) with ("*"%char :: repeat "*"%char n). rewrite repeat_cons, <- !app_assoc. reflexivity. }
    destruct St as [F|(k & r0 & -> & F & _)].
    + destruct (settled_star rl F) as (k & r0 & -> & F0). eauto 10.
    + destruct (wild_append k r0 (IStar 0)) as (k' & ->); auto. exists k', r0. auto.
  - destruct St as [F|(k & r0 & -> & F & W)].
    + left. apply settled_append; auto. exact I.
    + right. destruct (wild_append k r0 (IAny 1)) as (k' & ->); auto. exists k', r0. split; auto. split; auto. intros c I. apply W. now right.
  - destruct St as [F|(k & r0 & _ & _ & W)]; [left; apply settled_append; auto; apply basic_settled, single_basic|]. exfalso. destruct b as [|d b]; [easy|]. apply (N d); [now left|]. apply wild_meta, W. now left.
  - destruct St as [F|(k & r0 & _ & _ & W)]; [left; apply settled_append; auto; exact I|]. exfalso. destruct b as [|d b]; [easy|]. apply (N d); [now left|]. apply wild_meta, W. now left.
Qed.
Lemma loop_open g suffix : one_way g -> forall f t done prefix mn mx rl prefix' mn' mx' rl', g = done ++ t ++ suffix -> open_state t rl ->
  parse_loop f t (prefix, mn, mx, rl) = Ok (prefix', mn', mx', rl') -> open_state [] rl'.
Proof.
  intro O. induction f as [|f IH]; intros t done prefix mn mx rl prefix' mn' mx' rl' Eg F H.
  { destruct t; [|discriminate]. now injection H as <- <- <- <-. }
  destruct t as [|c t]; [now injection H as <- <- <- <-|].
  cbn [parse_loop] in H. remember (c :: t) as s eqn:Es.
  destruct (next_wildcard_item s) as [[oi rest]|e| |] eqn:E; try discriminate. unfold next_wildcard_item in E.
  apply next_token in E as (a & Tk). destruct (token_text _ _ _ _ _ Tk) as [Ea Na].
  assert (Eg' : g = (done ++ a) ++ rest ++ suffix) by (rewrite Eg, Ea, <- !app_assoc; reflexivity).
  assert (S1 := open_step g _ _ _ _ _ done suffix rl O Tk). rewrite <- app_assoc in Eg'. specialize (S1 Eg' F). rewrite app_assoc in Eg'.
  destruct oi as [it|]; [|exact (IH _ _ _ _ _ _ _ _ _ _ Eg' S1 H)].
  destruct (parse_step (prefix, mn, mx, rl) it) as [[[p1 n1] x1] r1] eqn:S2.
  refine (IH _ _ _ _ _ _ _ _ _ _ Eg' _ H). apply (f_equal snd) in S2. change r1 with (snd (p1, n1, x1, r1)). rewrite <- S2.
  unfold parse_step. destruct rl; [destruct it; cbn; auto; now left|]. exact S1.
Qed.
Definition trim (its : list item) : Prop := Forall settled its \/ exists r k, its = r ++ [IStar k] /\ Forall settled r.
Lemma parse_trim g gl : one_way g -> glob_parse g = Ok gl -> trim (g_items gl).
Proof.
  intros O H. unfold glob_parse in H. destruct (index_wildcard g) as [pos|]; [|injection H as <-; left; constructor].
  destruct (index_last_wildcard (skipn pos g)) as [e|]; [|discriminate].
  destruct (Nat.eqb e 0 && negb (Ascii.eqb (nth 0 (skipn pos g) zero) "?") && negb (Ascii.eqb (nth 0 (skipn pos g) zero) "*")); [discriminate|].
  destruct (if (e <? length (skipn pos g) - 1)%nat then (skipn (S e) (skipn pos g), firstn (S e) (skipn pos g)) else ([], skipn pos g)) as [suffix body] eqn:F.
  assert (Eg : g = firstn pos g ++ body ++ suffix).
  { destruct (e <? length (skipn pos g) - 1)%nat; pose proof (f_equal fst F) as F1; pose proof (f_equal snd F) as F2; cbn [fst snd] in F1, F2; rewrite <- F1, <- F2.
    - rewrite (firstn_skipn (S e) (skipn pos g)). now rewrite firstn_skipn.
    - now rewrite app_nil_r, firstn_skipn. }
  assert (FI : forall t p s mn mx its, g_items (finish_glob t p s mn mx its) = its) by (intros; destruct its; reflexivity).
  destruct (str_eqb_spec body (B "*")) as [Eb|]; [apply ok_inj in H; rewrite <- H, FI; right; exists [], 0; split; auto|].
  destruct (str_eqb_spec body (B "?")) as [Eb|]; [apply ok_inj in H; rewrite <- H, FI; left; repeat constructor|].
  destruct (parse_loop (length body) body (firstn pos g, (zlen (firstn pos g) + zlen suffix)%Z, (zlen (firstn pos g) + zlen suffix)%Z, [])) as [[[[p1 n1] x1] r1]|e1| |] eqn:El; try discriminate.
  cbn [bind] in H. destruct (take_suffix suffix r1) as [s2 r2] eqn:Et. apply ok_inj in H. rewrite <- H, FI.
  apply (loop_open g suffix O) with (done := firstn pos g) in El; auto; [|left; constructor].
  assert (K : open_state [] r2).
  { unfold take_suffix in Et. destruct r1 as [|x [|y r]]; [now injection Et as _ <-|destruct x; now injection Et as _ <-|].
    destruct El as [El|(k & r0 & E & El & _)]; [|injection E as -> <-; injection Et as _ <-; right; eexists _, _; split; [reflexivity|]; split; [exact El|easy]].
    left. inversion El; subst. destruct x; injection Et as _ <-; auto. }
  destruct K as [K|(k & r & -> & K & _)]; [left; now apply Forall_rev|right]. exists (rev r), k. split; [reflexivity|now apply Forall_rev].
Qed.
Lemma path_slim g : trim (g_items g) -> slim (glob_path g).
Proof.
  intro T. unfold glob_path. assert (K : slim (map (fun i => (i, false)) (g_items g))).
  { destruct T as [T|(r & k & -> & T)]; [induction T; cbn; auto|]. induction T; cbn; auto. right. split; eauto. }
  destruct (null (g_suffix g)), (null (g_prefix g)); cbn; auto 10.
Qed.

(** ** Histories *)
Definition once_inv (E : list entry) (gt : glob_tree) : Prop :=
  tree_inv E gt /\ NoDup (map snd (terms (gt_root gt))) /\ (forall x, In x (terms (gt_root gt)) -> exists e, In e E /\ e_index e = snd x) /\
  ((forall e, In e E -> one_way (e_text e)) -> forall c, In c (t_childs (gt_root gt)) -> narrow c).
Lemma once_step E gt text i : once_inv E gt -> exists gt' r new, gt_add gt text i = Ok (gt', r) /\ registers gl_canon E text i new r /\
  once_inv (match new with Some e => E ++ [e] | None => E end) gt' /\ (new = None -> gt' = gt).
Proof.
  intros (T & ND & Fr & V). destruct (gt_step E gt text i T) as (gt' & r & new & A & R & T' & N). exists gt', r, new. split; [exact A|]. split; [exact R|]. split; [|exact N].
  split; [exact T'|]. destruct new as [e|]; [|rewrite N by reflexivity; auto].
  inversion R as [| | | | | |q N1 N2 N3 N4 N5 N6]; subst. unfold gl_canon in N5. unfold gt_add in A.
  replace (null text) with false in A by now destruct text. destruct (Z.ltb_spec i 0); [lia|]. destruct (lookup str_eqb text (gt_globs gt)); [congruence|]. destruct (lookup Z.eqb i (gt_index gt)); [congruence|].
  destruct (glob_parse text) as [g|e| |] eqn:Pg; try congruence. destruct (lookup str_eqb (g_node g) (gt_globs gt)); [congruence|].
  assert (gt' = gt_accept gt g (g_node g) i) as -> by congruence. unfold gt_accept, add_glob. cbn [gt_root].
  destruct (insert_terms (g_node g, i) (glob_path g) (gt_root gt)) as (l1 & l2 & Et & Sb). rewrite Et. split; [|split].
  - rewrite map_app. cbn [map snd]. apply NoDup_Add with (a := i) (l := map snd (l1 ++ l2)); [rewrite map_app; apply Add_app|]. split.
    + eapply sub_nodup; [apply sub_map; exact Sb|exact ND].
    + intro I. apply in_map_iff in I as (x & Ex & I). eapply sub_in in I; [|exact Sb]. destruct (Fr x I) as (e & Ie & Ee). apply (N4 (e_node e)). exists e. split; auto. split; congruence.
  - intros x I. apply in_app_or in I as [I|[<-|I]]; [|exists (mkEntry text q i); split; [apply in_or_app; right; now left|reflexivity]|].
    all: destruct (Fr x) as (e & Ie & Ee); [eapply sub_in; [exact Sb|apply in_or_app; auto]|]; exists e; split; auto; apply in_or_app; now left.
  - intro HO. apply root_insert; [apply V; intros e I; apply HO, in_or_app; now left|]. apply path_slim. apply (parse_trim text); auto. apply (HO (mkEntry text q i)). apply in_or_app. right. now left.
Qed.
Lemma history_once calls gt rs E : run_adds gt_add gt_new calls = Ok (gt, rs) -> history gl_canon calls rs E -> once_inv E gt.
Proof.
  intros R H. assert (I0 : once_inv [] gt_new) by (split; [apply tree_new_inv|]; split; [constructor|]; split; [intros x []|intros _ c []]).
  destruct (run_history gt_add gl_canon once_inv once_step gt_new I0 calls) as (gt0 & rs0 & E0 & R0 & H0 & V).
  rewrite R in R0. injection R0 as <- <-. destruct (history_fun _ _ _ _ H _ _ H0) as [_ ->]. exact V.
Qed.
Lemma tree_once calls gt rs E f s l n : run_adds gt_add gt_new calls = Ok (gt, rs) -> history gl_canon calls rs E -> (forall e, In e E -> one_way (e_text e)) ->
  gt_match f gt s = Ok (l, n) -> NoDup (map snd l).
Proof.
  intros R H O M. destruct (history_once _ _ _ _ R H) as (_ & ND & _ & V). specialize (V O). eapply sub_nodup; [|exact ND]. apply sub_map. eapply tree_sub; eauto.
Qed.

(** ** A decision procedure for the examples *)
Definition values_b (vs : list str) : bool :=
  forallb no_metab vs && forallb (fun v => forallb (fun w => negb (has_prefix w v) || str_eqb w v) vs) vs.
Definition one_way_b (g : str) : bool := tail_check g && forallb (fun '(a, body, b) => values_b (split_on "," body)) (bodies "{" "}" [] g).
Lemma has_prefix_app (v x : str) : has_prefix (v ++ x) v = true.
Proof. induction v as [|c v IH]; [now destruct x|]. cbn. now rewrite Ascii.eqb_refl. Qed.
Lemma one_way_ok g : one_way_b g = true -> one_way g.
Proof.
  intro H. apply andb_true_iff in H as [H1 H2]. apply tail_check_ok in H1. split; [exact H1|]. intros a body b E N. rewrite forallb_forall in H2. specialize (H2 _ (braced_body _ _ _ _ E N)). cbv beta iota in H2.
  apply andb_true_iff in H2 as [V1 V2]. rewrite forallb_forall in V1, V2. split.
  - intros v A. apply alternative_split, V1 in A. intros c I. now apply (no_metab_ok v).
  - intros v x A1 A2. apply alternative_split in A1, A2. specialize (V2 _ A1). rewrite forallb_forall in V2. specialize (V2 _ A2). rewrite has_prefix_app in V2. cbn in V2.
    destruct (str_eqb_spec (v ++ x) v) as [V|]; [|discriminate]. clear V2. rename V into V2. rewrite <- (app_nil_r v) in V2 at 2. now apply app_inv_head in V2.
Qed.
