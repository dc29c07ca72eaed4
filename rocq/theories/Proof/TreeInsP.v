(** What a tree of globs holds after an insertion. *)
From Verif Require Import Model.Tree Spec.Symbols Spec.Lang Spec.Safe.
From Verif Require Import Proof.Utf8P Proof.SymbolsP Proof.SkipP Proof.SortP Proof.ListP Proof.LangP Proof.ItemP Proof.MatchP Proof.SafeP Proof.ItemTop Proof.ItemEqP Proof.TreeP.
From Coq Require Import Lia ZifyBool ZifyN ZifyNat.

Definition elem := (item * bool)%type.
Fixpoint node_at (t : tree) (p : list elem) (n : tree) : Prop :=
  match p with
  | [] => n = t
  | (it, r) :: p' => exists c, In c (t_childs t) /\ t_item c = Some it /\ t_reverse c = r /\ node_at c p' n
  end.
Definition eqe (a b : elem) : Prop := item_equal (fst a) (fst b) = true /\ snd a = snd b.
Definition eqp : list elem -> list elem -> Prop := Forall2 eqe.
Lemma eqe_refl a : eqe a a.
Proof. split; auto using equal_refl. Qed.
Lemma eqe_sym a b : eqe a b -> eqe b a.
Proof. intros [H K]. split; auto using equal_sym. Qed.
Lemma eqe_trans a b c : eqe a b -> eqe b c -> eqe a c.
Proof. intros [H K] [H2 K2]. split; [eapply equal_trans; eauto|congruence]. Qed.
Lemma eqp_refl p : eqp p p.
Proof. induction p; constructor; auto using eqe_refl. Qed.
Lemma eqp_sym p q : eqp p q -> eqp q p.
Proof. induction 1; constructor; auto using eqe_sym. Qed.
Lemma eqp_trans p q : eqp p q -> forall r, eqp q r -> eqp p r.
Proof. induction 1 as [|a b p q H F IH]; intros r K; inversion K; subst; constructor; [eapply eqe_trans; eauto|apply IH; auto]. Qed.
Lemma eqp_app_inv p a b : eqp p (a ++ b) -> exists p1 p2, p = p1 ++ p2 /\ eqp p1 a /\ eqp p2 b.
Proof. intro H. apply Forall2_app_inv_r in H as (p1 & p2 & H1 & H2 & ->). exists p1, p2. auto. Qed.
Lemma node_at_app t p q n : node_at t (p ++ q) n <-> exists m, node_at t p m /\ node_at m q n.
Proof.
  revert t. induction p as [|[it r] p IH]; intro t; cbn [app node_at].
  - split; [intro H; exists t; auto|]. intros (m & -> & H). exact H.
  - split.
    + intros (c & J & E & R & H). apply IH in H as (m & H1 & H2). exists m. split; auto. exists c. auto.
    + intros (m & (c & J & E & R & H1) & H2). exists c. repeat split; auto. apply IH. exists m. auto.
Qed.

Fixpoint ins (f : tree -> tree) (node : item) (rv : bool) (l : list tree) : list tree :=
  match l with
  | [] => [f (TNode (Some node) rv None [])]
  | c :: l' => if is_child node rv c then f c :: l' else c :: ins f node rv l'
  end.
Lemma insert_cons node rv rest x t : tree_insert ((node, rv) :: rest) x t = TNode (t_item t) (t_reverse t) (t_term t) (ins (tree_insert rest x) node rv (t_childs t)).
Proof. destruct t as [i r tm cs]. cbn [tree_insert t_item t_reverse t_term t_childs]. f_equal. induction cs as [|c cs IH]; [reflexivity|]. cbn [ins]. destruct (is_child node rv c); [reflexivity|]. now rewrite IH. Qed.
Lemma insert_nil x t : tree_insert [] x t = TNode (t_item t) (t_reverse t) (Some x) (t_childs t).
Proof. now destruct t. Qed.
Lemma insert_item path x t : t_item (tree_insert path x t) = t_item t.
Proof. destruct path as [|[i r] path]; [now rewrite insert_nil|now rewrite insert_cons]. Qed.
Lemma insert_reverse path x t : t_reverse (tree_insert path x t) = t_reverse t.
Proof. destruct path as [|[i r] path]; [now rewrite insert_nil|now rewrite insert_cons]. Qed.
Lemma is_child_iff node rv c : is_child node rv c = true <-> exists i, t_item c = Some i /\ eqe (i, t_reverse c) (node, rv).
Proof.
  unfold is_child, eqe. cbn [fst snd]. rewrite andb_true_iff, Bool.eqb_true_iff. destruct (t_item c) as [i|].
  - split; [intros [-> H]; exists i; auto|]. intros (i' & [= <-] & H & ->). auto.
  - split; [intros [_ ?]; discriminate|]. intros (i & ? & _). discriminate.
Qed.
(** a child of the result *)
Lemma ins_in f node rv l d : In d (ins f node rv l) ->
  In d l \/ (exists c, In c l /\ is_child node rv c = true /\ d = f c) \/ d = f (TNode (Some node) rv None []).
Proof.
  induction l as [|c l IH]; cbn [ins].
  - intros [<-|[]]. auto.
  - destruct (is_child node rv c) eqn:E.
    + intros [<-|J]; [right; left; exists c; split; [now left|auto]|left; now right].
    + intros [<-|J]; [left; now left|]. destruct (IH J) as [H|[(c' & J' & H)|H]]; [left; now right|right; left; exists c'; split; [now right|auto]|auto].
Qed.
Lemma ins_has f node rv l : exists c, (In c l /\ is_child node rv c = true \/ c = TNode (Some node) rv None []) /\ In (f c) (ins f node rv l).
Proof.
  induction l as [|c l (c' & H & J)]; cbn [ins].
  - eexists. split; [right; reflexivity|]. now left.
  - destruct (is_child node rv c) eqn:E; [exists c; split; [left; split; [now left|auto]|now left]|].
    exists c'. split; [|now right]. destruct H as [[H1 H2]|H]; [left; split; [now right|auto]|auto].
Qed.
Lemma ins_keeps f node rv l c : In c l -> In c (ins f node rv l) \/ (is_child node rv c = true /\ In (f c) (ins f node rv l)).
Proof.
  induction l as [|c' l IH]; [easy|]. cbn [ins]. intros [->|J].
  - destruct (is_child node rv c) eqn:E; [right; split; auto; now left|left; now left].
  - destruct (is_child node rv c') eqn:E; [left; now right|]. destruct (IH J) as [H|[H1 H2]]; [left; now right|right; split; auto; now right].
Qed.

Definition holds (t : tree) (p : list elem) (x : term) : Prop := exists n, node_at t p n /\ t_term n = Some x.
Lemma holds_cons t it r p x : holds t ((it, r) :: p) x <-> exists c, In c (t_childs t) /\ t_item c = Some it /\ t_reverse c = r /\ holds c p x.
Proof.
  unfold holds. cbn [node_at]. split.
  - intros (n & (c & J & E & R & H) & T). exists c. eauto 8.
  - intros (c & J & E & R & n & H & T). exists n. eauto 8.
Qed.
Lemma holds_new node rv p x : ~ holds (TNode (Some node) rv None []) p x.
Proof. intros (n & H & T). destruct p as [|[i r] p]; cbn in H; [subst n; discriminate|]. destruct H as (c & [] & _). Qed.
Lemma insert_sound path y : forall t p x, holds (tree_insert path y t) p x -> (eqp p path /\ x = y) \/ holds t p x.
Proof.
  induction path as [|[node rv] path IH]; intros t p x H.
  - rewrite insert_nil in H. destruct p as [|[i r] p].
    + destruct H as (n & -> & T). cbn in T. injection T as <-. left. split; [constructor|auto].
    + right. apply holds_cons in H as (c & J & K). apply holds_cons. exists c. auto.
  - rewrite insert_cons in H. destruct p as [|[i r] p].
    + destruct H as (n & -> & T). right. exists t. split; [reflexivity|exact T].
    + apply holds_cons in H as (c & J & E & R & H). cbn [t_childs] in J. apply ins_in in J as [J|[(c' & J & Ch & ->)| ->]].
      * right. apply holds_cons. exists c. auto.
      * rewrite insert_item in E. rewrite insert_reverse in R. apply is_child_iff in Ch as (i' & E' & Q). rewrite E in E'. injection E' as <-.
        apply IH in H as [[H ->]|H]; [left; split; auto; constructor; auto; now rewrite <- R|]. right. apply holds_cons. exists c'. auto.
      * rewrite insert_item in E. rewrite insert_reverse in R. cbn in E, R. injection E as <-. subst r. apply IH in H as [[H ->]|H]; [left; split; auto; constructor; auto using eqe_refl|]. now apply holds_new in H.
Qed.
Lemma insert_here path y : forall t, exists p, eqp p path /\ holds (tree_insert path y t) p y.
Proof.
  induction path as [|[node rv] path IH]; intro t.
  - rewrite insert_nil. exists []. split; [constructor|]. eexists. split; reflexivity.
  - rewrite insert_cons. destruct (ins_has (tree_insert path y) node rv (t_childs t)) as (c & Hc & J). destruct (IH c) as (p & Q & H).
    assert (exists i, t_item c = Some i /\ eqe (i, t_reverse c) (node, rv)) as (i & Ei & Qi).
    { destruct Hc as [[_ Hc]| ->]; [now apply is_child_iff|]. exists node. split; auto using eqe_refl. }
    exists ((i, t_reverse c) :: p). split; [constructor; auto|]. apply holds_cons. eexists. split; [exact J|]. rewrite insert_item, insert_reverse. auto.
Qed.
Lemma insert_keeps path y : forall t p x, holds t p x -> ~ eqp p path -> holds (tree_insert path y t) p x.
Proof.
  induction path as [|[node rv] path IH]; intros t p x H N.
  - rewrite insert_nil. destruct p as [|[i r] p]; [exfalso; apply N; constructor|]. apply holds_cons in H. now apply holds_cons.
  - rewrite insert_cons. destruct p as [|[i r] p]; [destruct H as (n & -> & T); eexists; split; [reflexivity|exact T]|].
    apply holds_cons in H as (c & J & E & R & H). apply holds_cons. cbn [t_childs].
    destruct (ins_keeps (tree_insert path y) node rv _ c J) as [K|[Ch K]]; [exists c; auto|].
    exists (tree_insert path y c). rewrite insert_item, insert_reverse. repeat split; auto. apply IH; auto. intro Q. apply N. constructor; auto.
    apply is_child_iff in Ch as (i' & E' & Q'). rewrite E in E'. injection E' as <-. now rewrite <- R.
Qed.
Lemma insert_nodes path y : forall t p n, node_at (tree_insert path y t) p n -> node_at t p n \/ exists path2 n0, n = tree_insert path2 y n0.
Proof.
  induction path as [|[node rv] path IH]; intros t p n H.
  - destruct p as [|[i r] p]; [right; exists [], t; exact H|]. rewrite insert_nil in H. left. exact H.
  - destruct p as [|[i r] p]; [right; exists ((node, rv) :: path), t; exact H|]. rewrite insert_cons in H. cbn [node_at t_childs] in H. destruct H as (c & J & E & R & H).
    apply ins_in in J as [J|[(c' & J & Ch & ->)| ->]].
    + left. exists c. auto.
    + rewrite insert_item in E. rewrite insert_reverse in R. apply IH in H as [H|H]; auto. left. exists c'. auto.
    + destruct p as [|[i' r'] p]; [right; exists path, (TNode (Some node) rv None []); exact H|].
      apply IH in H as [H|H]; auto. destruct H as (? & [] & _).
Qed.
Definition live (t : tree) : Prop := exists p x, holds t p x.
Lemma live_insert path y t : live (tree_insert path y t).
Proof. destruct (insert_here path y t) as (p & _ & H). exists p, y. exact H. Qed.
Definition all_live (t : tree) : Prop := forall p n, p <> [] -> node_at t p n -> live n.
Lemma all_live_insert path y t : all_live t -> all_live (tree_insert path y t).
Proof. intros A p n N H. apply insert_nodes in H as [H|(path2 & n0 & ->)]; [eapply A; eauto|apply live_insert]. Qed.

(** no two children with equal items *)
Definition same (c d : tree) : Prop := exists i j, t_item c = Some i /\ t_item d = Some j /\ eqe (i, t_reverse c) (j, t_reverse d).
Inductive wd : tree -> Prop :=
| wd_node i r tm cs : ForallOrdPairs (fun c d => ~ same c d) cs -> (forall c, In c cs -> wd c) -> wd (TNode i r tm cs).
Lemma same_sym c d : same c d -> same d c.
Proof. intros (i & j & E1 & E2 & Q). exists j, i. auto using eqe_sym. Qed.
Lemma pairs_unique cs : ForallOrdPairs (fun c d => ~ same c d) cs -> forall c d, In c cs -> In d cs -> same c d -> c = d.
Proof.
  induction 1 as [|a l F O IH]; [easy|]. rewrite Forall_forall in F. intros c d [<-|J] [<-|K] S; auto; exfalso.
  - now apply (F d K).
  - apply (F c J). now apply same_sym.
Qed.
Lemma node_unique : forall p p' t n n', wd t -> eqp p p' -> node_at t p n -> node_at t p' n' -> n = n'.
Proof.
  induction p as [|[i r] p IH]; intros p' t n n' W Q H H'; inversion Q as [|? [i' r'] ? p2 Q1 Q2]; subst; [cbn in *; congruence|].
  destruct H as (c & J & E & R & H). destruct H' as (d & K & E' & R' & H'). inversion W as [? ? ? cs O C]; subst. cbn [t_childs] in *.
  assert (c = d). { apply (pairs_unique cs); auto. exists i, i'. auto. }
  subst d. apply (IH p2 c n n'); auto.
Qed.
Lemma ins_pairs f node rv cs : (forall c, t_item (f c) = t_item c) -> (forall c, t_reverse (f c) = t_reverse c) ->
  ForallOrdPairs (fun c d => ~ same c d) cs -> ForallOrdPairs (fun c d => ~ same c d) (ins f node rv cs).
Proof.
  intros F1 F2. assert (SF : forall c d, same c (f d) <-> same c d) by (intros c d; unfold same; rewrite F1, F2; reflexivity).
  assert (SF' : forall c d, same (f c) d <-> same c d) by (intros c d; unfold same; rewrite F1, F2; reflexivity).
  induction 1 as [|a l F O IH]; cbn [ins].
  - constructor; [constructor|constructor].
  - rewrite Forall_forall in F. destruct (is_child node rv a) eqn:E; constructor; auto.
    + apply Forall_forall. intros d J S. apply (proj1 (SF' _ _)) in S. exact (F d J S).
    + apply Forall_forall. intros d J S. apply ins_in in J as [J|[(c & J & _ & ->)| ->]].
      * exact (F d J S).
      * apply (proj1 (SF _ _)) in S. exact (F c J S).
      * apply (proj1 (SF _ _)) in S. destruct S as (i & j & E1 & E2 & Q). cbn in E2, Q. injection E2 as <-. assert (is_child node rv a = true) by (apply is_child_iff; eauto). congruence.
Qed.
Lemma wd_insert path y : forall t, wd t -> wd (tree_insert path y t).
Proof.
  induction path as [|[node rv] path IH]; intros t W; inversion W as [i r tm cs O C]; subst.
  - rewrite insert_nil. now constructor.
  - rewrite insert_cons. cbn [t_item t_reverse t_term t_childs]. constructor.
    + apply ins_pairs; auto; intro c; [apply insert_item|apply insert_reverse].
    + intros d J. apply ins_in in J as [J|[(c & J & _ & ->)| ->]]; auto. apply IH. constructor; [constructor|easy].
Qed.

(** ** Insertion keeps trees regular *)
Lemma step_equal st a b s1 s2 : step st a s1 -> step st b s2 -> item_equal a b = true -> s1 = s2.
Proof.
  intros H K E. inversion H as [? ? L N|?|? k N|l|l Nz|vals mn mx O|vals mn mx O]; subst; inversion K as [? ? L' N'|?|? k' N'|l'|l' Nz'|vals' mn' mx' O'|vals' mn' mx' O']; subst; try reflexivity; try discriminate; try (destruct a; easy); try (destruct b; easy); try contradiction.
Qed.
Section Ok.
Variable u : bool.
Definition plain (its : list item) : list elem := map (fun i => (i, false)) its.
Lemma okt_insert : forall its st it st' r tm cs st2 y, okt u st (TNode (Some it) r tm cs) -> step st it st' -> run st' its st2 -> Forall (wfi u) its ->
  okt u st (tree_insert (plain its) y (TNode (Some it) r tm cs)).
Proof.
  induction its as [|i its IH]; intros st it st' r tm cs st2 y O S R W; inversion O as [? ? st1 ? ? ? Wi S1 Rv C]; subst; assert (st1 = st') by (eapply step_equal; eauto using equal_refl); subst st1.
  - cbn [plain map]. rewrite insert_nil. econstructor; eauto.
  - cbn [plain map]. rewrite insert_cons. cbn [t_item t_reverse t_term t_childs]. inversion R as [|? ? st3 ? ? S3 R3]; subst. inversion W as [|? ? W1 W2]; subst.
    econstructor; eauto.
    + intros d J. apply ins_in in J as [J|[(c & J & _ & ->)| ->]]; auto; rewrite insert_reverse; auto.
    + intros d J. apply ins_in in J as [J|[(c & J & Ch & ->)| ->]]; auto.
      * specialize (C c J). inversion C as [? it2 st4 r2 tm2 cs2 Wi2 S4 Rv4 C4]; subst.
        assert (st4 = st3). { apply is_child_iff in Ch as (i' & E' & Q'). cbn in E'. injection E' as <-. eapply step_equal; [exact S4|exact S3|apply Q']. }
        subst st4. eapply IH; eauto.
      * eapply IH; eauto. econstructor; eauto; easy.
Qed.
Definition okr (t : tree) : Prop :=
  t_item t = None /\ forall c, In c (t_childs t) -> okt u Normal c /\ (t_reverse c = true -> exists x, t_item c = Some (IStr x)).
Lemma okr_root : okr tree_root.
Proof. split; [reflexivity|easy]. Qed.
Lemma okr_insert it rv its st' st2 y t : okr t -> wfi u it -> step Normal it st' -> (rv = true -> exists x, it = IStr x) -> run st' its st2 -> Forall (wfi u) its ->
  okr (tree_insert ((it, rv) :: plain its) y t).
Proof.
  intros [Ot Oc] Wi S Rs R W. rewrite insert_cons. split; [exact Ot|]. cbn [t_childs]. intros d J.
  apply ins_in in J as [J|[(c & J & Ch & ->)| ->]]; auto.
  - rewrite insert_reverse, insert_item. destruct (Oc c J) as [C Rc]. split; auto. inversion C as [? it2 st4 r2 tm2 cs2 Wi2 S4 Rv4 C4]; subst.
    assert (st4 = st'). { apply is_child_iff in Ch as (i' & E' & Q'). cbn in E'. injection E' as <-. eapply step_equal; [exact S4|exact S|apply Q']. }
    subst st4. eapply okt_insert; eauto.
  - rewrite insert_reverse, insert_item. cbn [t_reverse t_item]. split; [|intro Z; destruct (Rs Z) as [x ->]; eauto].
    eapply okt_insert; eauto. econstructor; eauto; easy.
Qed.

(** ** kept paths are nodes *)
Fixpoint lossy (after : bool) (p : list item) : Prop :=
  match p with
  | [] => False
  | [it] => is_star it = true \/ (after = true /\ is_lit it = true)
  | it :: p' => lossy (is_star it) p'
  end.
Lemma lossy_cons after it p : p <> [] -> lossy after (it :: p) = lossy (is_star it) p.
Proof. now destruct p. Qed.
Lemma kept_node st t : okt u st t -> forall after p x, kept after t p x <->
  exists it p', p = it :: p' /\ t_item t = Some it /\ exists n, node_at t (plain p') n /\ t_term n = Some x /\ (lossy after p -> t_childs n = []).
Proof.
  induction 1 as [st it st' r tm cs W S Rv C IH]. intros after p x. split.
  - intro K. inversion K as [? ? ? ? ? Cnd|? ? ? ? ? c p' ? J Kc]; subst.
    + exists it, []. repeat split; auto. eexists. split; [reflexivity|]. split; [reflexivity|]. exact Cnd.
    + apply (IH c J) in Kc as (it2 & p2 & -> & E2 & n & Hn & T & L). exists it, (it2 :: p2). repeat split; auto. exists n. split; [|split; auto].
      cbn [plain map node_at t_childs]. exists c. repeat split; auto.
  - intros (it' & p' & -> & E & n & Hn & T & L). cbn in E. injection E as <-. destruct p' as [|it2 p'].
    + cbn in Hn. subst n. cbn in T. subst tm. constructor. exact L.
    + cbn [plain map node_at t_childs] in Hn. destruct Hn as (c & J & Ec & _ & Hn). econstructor; [exact J|]. apply (IH c J). exists it2, p'. repeat split; auto. exists n. auto.
Qed.
End Ok.
