(** What a tree of globs stores was registered: the matchers store nothing but the terms of the nodes. *)
From Verif Require Import Model.Tree Spec.RegistrySpec.
From Verif Require Import Proof.TreeInsP Proof.GlobTreeP Proof.TreeMonoP.
From Verif Require Proof.TreePermP.

Section Origin.
Variable P : term -> Prop.
Definition only (r : res out) : Prop := forall l n, r = Ok (l, n) -> Forall P l.
Definition only2 {A} (r : res (out * A)) : Prop := forall l n x, r = Ok (l, n, x) -> Forall P l.
Definition stocked (t : tree) : Prop := forall p x, holds t p x -> P x.
Lemma only_none : only (Ok out_none).
Proof. intros l n E. injection E as <- <-. constructor. Qed.
Lemma only_seq a b : only a -> only b -> only (oseq a b).
Proof. intros A C l n E. apply TreePermP.seq_ok in E as (l1 & n1 & l2 & n2 & E1 & E2 & -> & _). apply Forall_app. split; eauto. Qed.
Lemma only_all {A} (f : A -> res out) l : (forall x, In x l -> only (f x)) -> only (oall f l).
Proof. induction l as [|x l IH]; intro H; [apply only_none|]. cbn [oall]. apply only_seq; [apply H; now left|]. apply IH. intros y I. apply H. now right. Qed.
Lemma only_emit tm : (forall x, tm = Some x -> P x) -> only (Ok (emit tm)).
Proof. intros H l n E. destruct tm as [x|]; injection E as <- <-; auto. Qed.
Lemma only_emit_if b tm : (forall x, tm = Some x -> P x) -> only (emit_if b tm).
Proof. intro H. destruct b; [now apply only_emit|apply only_none]. Qed.
Lemma stocked_term i r tm cs : stocked (TNode i r tm cs) -> forall x, tm = Some x -> P x.
Proof. intros S x ->. apply (S [] x). exists (TNode i r (Some x) cs). split; reflexivity. Qed.
Lemma only_go s k (K : forall x, only (k x)) : forall vs offset o, Forall P (fst o) -> only2 (TreePermP.go_loop s k vs offset o).
Proof.
  induction vs as [|v vs IH]; intros offset o F l n x E.
  - cbn in E. injection E as -> <-. exact F.
  - cbn [TreePermP.go_loop] in E. destruct (find_val s v) as [i|]; [|eapply IH; eauto]. destruct (k (skipn (i + length v) s)) as [[l1 n1]| | |] eqn:X; try discriminate. cbn [bind] in E. refine (IH _ _ _ _ _ _ E). cbn. apply Forall_app. split; [exact F|]. exact (K _ _ _ X).
Qed.
Definition ready (t : tree) : Prop := t_item t <> None -> stocked t.
Lemma stocked_kid i r tm cs : stocked (TNode i r tm cs) -> forall c, In c cs -> ready c.
Proof. intros S c I N p x H. destruct (t_item c) as [it|] eqn:E; [|easy]. apply (S ((it, t_reverse c) :: p)). apply holds_cons. exists c. auto. Qed.
Lemma tree_only f : (forall t s, ready t -> only (t_match f t s)) /\ (forall t s b, ready t -> only (t_match_star f t s b)) /\ (forall t l s, stocked t -> only2 (t_match_star_list f t l s)) /\
  (forall t s its, stocked t -> only (t_items f t s its)) /\ (forall t s its, stocked t -> only (t_star_items f t s its)) /\ (forall t l s its, stocked t -> only (t_star_items_list f t l s its)).
Proof.
  induction f as [|f (H1 & H2 & H3 & H4 & H5 & H6)]; [split; [|split; [|split; [|split; [|split]]]]; intros; intros ? **; discriminate|].
  assert (Here : forall i r tm cs s, stocked (TNode i r tm cs) -> only (oseq (emit_if (null s) tm) (oall (fun c => t_match f c s) cs))).
  { intros i r tm cs s S. apply only_seq; [eapply only_emit_if, stocked_term; eauto|]. apply only_all. intros c I. eapply H1, stocked_kid; eauto. }
  assert (Stars : forall i r tm cs s b, stocked (TNode i r tm cs) -> only (oall (fun c => t_match_star f c s b) cs)).
  { intros i r tm cs s b S. apply only_all. intros c I. eapply H2, stocked_kid; eauto. }
  assert (SHere : forall i r tm cs s, stocked (TNode i r tm cs) -> only (oseq (Ok (emit tm)) (oall (fun c => t_match_star f c s true) cs))).
  { intros i r tm cs s S. apply only_seq; [eapply only_emit, stocked_term; eauto|]. eapply Stars; eauto. }
  assert (Bad : forall r : res out, (forall o, r <> Ok o) -> only r) by (intros r N l n E; now apply N in E).
  split; [|split; [|split; [|split; [|split]]]].
  - intros [[it|] r tm cs] s R; rewrite t_match_S; cbv beta iota zeta; [|now apply Bad]. assert (S : stocked (TNode (Some it) r tm cs)) by (apply R; discriminate). clear R.
    destruct (zlen s <? item_min it)%Z; [apply only_none|]. destruct (item_match it s) as [[off|] fl]; [|apply only_none].
    destruct fl; try (destruct it; now apply Bad).
    + destruct it; eapply Here; eassumption.
    + destruct it; try now apply Bad. apply only_seq; [destruct (sl_optional l); [eapply Here; eassumption|apply only_none]|]. apply only_all. intros v _. destruct (match_val (skipn off s) v); [eapply Here; eassumption|apply only_none].
    + assert (only (if null cs then Ok (emit tm) else oall (fun c => t_match_star f c (skipn off s) true) cs)) by (destruct (null cs); [eapply only_emit, stocked_term; eauto|eapply Stars; eauto]). destruct it; assumption.
    + destruct it; try now apply Bad. apply only_seq; [destruct (group_optional minsize); [eapply Here; eassumption|apply only_none]|]. apply only_all. intros v _. now apply H4.
  - intros [[it|] r tm cs] s b R; rewrite t_match_star_S; cbv beta iota zeta; [|now apply Bad]. assert (S : stocked (TNode (Some it) r tm cs)) by (apply R; discriminate).
    destruct (zlen s <? item_min it)%Z; [apply only_none|]. destruct (item_find it s) as [[[off|] len] fl]; [|apply only_none].
    assert (Sh : forall x b0, only (let '(_, n) := decode_rune x in if Nat.eqb n 0 then Ok out_none else t_match_star f (TNode (Some it) r tm cs) (skipn n x) b0)).
    { intros x b0. destruct (decode_rune x) as [q n]. destruct (Nat.eqb n 0); [apply only_none|now apply H2]. }
    destruct fl; try (destruct it; now apply Bad).
    + assert (G : only match after_found len (skipn off s) with None => Panic | Some sub => oseq (if null sub && null cs && match tm with Some _ => true | None => false end then Ok (emit tm) else oall (fun c => t_match f c sub) cs)
        (let '(_, n) := decode_rune (skipn off s) in if Nat.eqb n 0 then Ok out_none else t_match_star f (TNode (Some it) r tm cs) (skipn n (skipn off s)) b) end); [|destruct it; exact G].
      destruct (after_found len (skipn off s)) as [sub|]; [|now apply Bad]. apply only_seq; [|apply Sh]. destruct (_ && _ && _); [eapply only_emit, stocked_term; eauto|]. apply only_all. intros c I. eapply H1, stocked_kid; eauto.
    + destruct it; try now apply Bad. apply only_seq; [destruct (sl_optional l && b); [eapply SHere; eassumption|apply only_none]|].
      intros o n X. destruct (t_match_star_list f (TNode (Some (IList l)) r tm cs) l (skipn off s)) as [[[l1 n1] s1]|e| |] eqn:X1; try discriminate. cbn [bind] in X. destruct (decode_rune s1) as [q k].
      apply H3 in X1; [|exact S]. refine (only_seq _ _ _ (Sh (skipn k s1) _) _ _ X). intros l0 n0 E0. injection E0 as <- <-. exact X1.
    + assert (G : only (if null cs && match tm with Some _ => true | None => false end then Ok (emit tm) else oall (fun c => t_match_star f c (skipn off s) true) cs)) by (destruct (_ && _); [eapply only_emit, stocked_term; eauto|eapply Stars; eauto]). destruct it; exact G.
    + destruct it; try now apply Bad. apply only_seq; [destruct (group_optional minsize); [eapply SHere; eassumption|apply only_none]|]. apply only_all. intros v _. now apply H5.
  - intros [i r tm cs] l s S. rewrite t_match_star_list_S. cbv beta iota zeta. intros o n x X.
    match type of X with bind (?g ?va ?vb ?vc) _ = _ => change (g va vb vc) with (TreePermP.go_loop s (fun s => oseq (emit_if (null s) tm) (oall (fun c => t_match f c s) cs)) va vb vc) in X end.
    destruct (TreePermP.go_loop _ _ _ _ _) as [[[l1 n1] offset]|e| |] eqn:G; try discriminate. cbn [bind] in X. apply only_go in G; [|intro z; eapply Here; eassumption|constructor].
    destruct offset as [k|]; [|injection X as <- <- <-; exact G]. destruct (decode_rune (skipn k s)) as [q m]. destruct (Nat.eqb m 0); [injection X as <- <- <-; exact G|].
    destruct (t_match_star_list f (TNode i r tm cs) l (skipn m (skipn k s))) as [[[l2 n2] s2]|e| |] eqn:Y; try discriminate. cbn [bind] in X. injection X as <- <- <-. apply H3 in Y; [|exact S]. cbn. apply Forall_app. auto.
  - intros [i0 r tm cs] s its S. rewrite t_items_S. cbv beta iota zeta. destruct its as [|i rest]; [eapply Here; eassumption|]. destruct (zlen s <? item_min i)%Z; [apply only_none|].
    destruct (item_match i s) as [[off|] fl]; [|apply only_none]. destruct fl; try (destruct i; now apply Bad).
    + destruct i; now apply H4.
    + destruct i; try now apply Bad. destruct (sl_optional l && null rest); [eapply Here; eassumption|]. apply only_seq; [destruct (sl_optional l); [now apply H4|apply only_none]|].
      induction (sl_vals l) as [|v vs IH]; [apply only_none|]. destruct (match_val (skipn off s) v); [|exact IH]. destruct (null rest); [eapply Here; eassumption|]. apply only_seq; [now apply H4|exact IH].
    + assert (G : only (if null rest then oseq (Ok (emit tm)) (oall (fun c => t_match_star f c (skipn off s) true) cs) else oseq (t_star_items f (TNode i0 r tm cs) (skipn off s) rest) (t_items f (TNode i0 r tm cs) (skipn off s) (i :: rest)))); [|destruct i; exact G].
      destruct (null rest); [eapply SHere; eassumption|]. apply only_seq; [now apply H5|now apply H4].
    + destruct i; try now apply Bad. destruct (group_optional minsize && null rest); [eapply Here; eassumption|]. apply only_seq; [destruct (group_optional minsize); [now apply H4|apply only_none]|]. apply only_all. intros v _. now apply H4.
  - intros [i0 r tm cs] s its S. rewrite t_star_items_S. cbv beta iota zeta. destruct its as [|i rest]; [eapply SHere; eassumption|]. destruct (zlen s <? item_min i)%Z; [apply only_none|].
    destruct (item_find i s) as [[[off|] len] fl]; [|apply only_none]. destruct fl; try (destruct i; now apply Bad).
    + assert (G : only match after_found len (skipn off s) with None => Panic | Some sub => oseq (t_items f (TNode i0 r tm cs) sub rest)
        (let '(_, n) := decode_rune (skipn off s) in if Nat.eqb n 0 then Ok out_none else t_star_items f (TNode i0 r tm cs) (skipn n (skipn off s)) (i :: rest)) end); [|destruct i; exact G].
      destruct (after_found len (skipn off s)) as [sub|]; [|now apply Bad]. apply only_seq; [now apply H4|]. destruct (decode_rune (skipn off s)) as [q m]. destruct (Nat.eqb m 0); [apply only_none|now apply H5].
    + destruct i; try now apply Bad. apply only_seq; [destruct (sl_optional l); [destruct (null rest); [eapply SHere; eassumption|now apply H5]|apply only_none]|now apply H6].
    + assert (G : only (if null rest then oseq (Ok (emit tm)) (oall (fun c => t_match_star f c (skipn off s) true) cs) else t_star_items f (TNode i0 r tm cs) (skipn off s) rest)); [|destruct i; exact G].
      destruct (null rest); [eapply SHere; eassumption|now apply H5].
    + destruct i; try now apply Bad. apply only_seq; [destruct (group_optional minsize); [destruct (null rest); [eapply Here; eassumption|now apply H5]|apply only_none]|]. apply only_all. intros v _. now apply H5.
  - intros [i r tm cs] l s its S. rewrite t_star_items_list_S. cbv beta iota zeta. intros o n X.
    assert (K : forall z : str, only (if null its then oseq (emit_if (null z) tm) (oall (fun c => t_match f c z) cs) else t_items f (TNode i r tm cs) z its)) by (intro z; destruct (null its); [eapply Here; eassumption|now apply H4]).
    match type of X with bind (?g ?va ?vb ?vc) _ = _ => change (g va vb vc) with (TreePermP.go_loop s (fun s => if null its then oseq (emit_if (null s) tm) (oall (fun c => t_match f c s) cs) else t_items f (TNode i r tm cs) s its) va vb vc) in X end.
    destruct (TreePermP.go_loop _ _ _ _ _) as [[[l1 n1] offset]|e| |] eqn:G; try discriminate. cbn [bind] in X. apply only_go in G; [|exact K|constructor].
    destruct offset as [k|]; [|injection X as <- <-; exact G]. destruct (decode_rune (skipn k s)) as [q m]. destruct (Nat.eqb m 0); [injection X as <- <-; exact G|].
    refine (only_seq _ _ _ (H6 _ _ _ _ S) _ _ X). intros l0 n0 E0. injection E0 as <- <-. exact G.
Qed.
Lemma root_only f t s : (forall p x, p <> [] -> holds t p x -> P x) -> only (tree_match f t s).
Proof.
  intro H. unfold tree_match. apply only_all. intros c I.
  assert (R : ready c). { intros N p x Hx. destruct (t_item c) as [it|] eqn:E; [|easy]. apply (H ((it, t_reverse c) :: p)); [discriminate|]. apply holds_cons. exists c. auto. }
  destruct (tree_only f) as [H1 _]. destruct (t_reverse c) eqn:Rv; [|now apply H1]. destruct (t_item c) as [it|] eqn:E; [|intros l n X; discriminate]. destruct (zlen s <? item_min it)%Z; [apply only_none|].
  destruct (item_match_last it s) as [[off fl]| | |]; cbn [bind]; try (intros l n X; discriminate). destruct fl; try apply only_none. destruct off as [o|]; [|apply only_none].
  assert (S : stocked c) by (apply R; rewrite E; discriminate). destruct c as [i r tm cs]. cbn [t_term t_childs]. apply only_seq; [eapply only_emit_if, stocked_term; eauto|]. apply only_all. intros d J. eapply H1, stocked_kid; eauto.
Qed.
End Origin.
Lemma glob_origin E gt f s l n q i : tree_inv E gt -> gt_match f gt s = Ok (l, n) -> In (q, i) l -> exists e, In e E /\ e_node e = q /\ e_index e = i.
Proof.
  intros (_ & _ & A & _) M I. unfold gt_match in M. assert (F : Forall (fun x => exists e, In e E /\ x = (e_node e, e_index e)) l).
  { refine (root_only (fun x => exists e, In e E /\ x = (e_node e, e_index e)) f _ s _ l n M). intros p x N H. destruct (A p x N H) as (e & g & Ie & _ & -> & _). eauto. }
  rewrite Forall_forall in F. destruct (F _ I) as (e & Ie & Eq). injection Eq as -> ->. eauto.
Qed.
