(** The number a tree of globs returns is the number of globs it stored. *)
From Coq Require Import List Lia Arith Bool.
From Verif Require Import Model.Tree Model.GGlob.
From Verif Require Import Proof.GTreeP.
Import ListNotations.

Lemma counted_all {A} (f : A -> res out) l : (forall c, counted (f c)) -> counted (oall f l).
Proof. intro H. induction l as [|c l IH]; [apply counted_none|]. cbn. now apply counted_seq. Qed.
Lemma counted_emit_if b t : counted (emit_if b t).
Proof. unfold emit_if. destruct b; [apply counted_emit|apply counted_none]. Qed.
Definition counted2 {A} (r : res (out * A)) : Prop := forall o a, r = Ok (o, a) -> snd o = length (fst o).
Lemma counted2_bind {A B} (r : res (out * A)) (k : out * A -> res (out * B)) :
  counted2 r -> (forall o a, snd o = length (fst o) -> r = Ok (o, a) -> counted2 (k (o, a))) -> counted2 (bind r k).
Proof. intros H K o b E. destruct r as [[o' a]|e| |]; try discriminate. eapply (K o' a); eauto. Qed.
Lemma counted_bind2 {A} (r : res (out * A)) (k : out * A -> res out) :
  counted2 r -> (forall o a, snd o = length (fst o) -> counted (k (o, a))) -> counted (bind r k).
Proof. intros H K o E. destruct r as [[o' a]|e| |]; try discriminate. apply (K o' a); auto. now apply (H _ a). Qed.
Lemma counted_app o o' : snd o = length (fst o) -> snd o' = length (fst o') -> snd (out_app o o') = length (fst (out_app o o')).
Proof. intros H H'. cbn. rewrite app_length. lia. Qed.

Definition all_counted (f : nat) : Prop :=
  (forall t s, counted (t_match f t s)) /\ (forall t s b, counted (t_match_star f t s b)) /\
  (forall t l s, counted2 (t_match_star_list f t l s)) /\ (forall t s its, counted (t_items f t s its)) /\
  (forall t s its, counted (t_star_items f t s its)) /\ (forall t l s its, counted (t_star_items_list f t l s its)).
Ltac cnt := repeat first
  [ apply counted_none | apply counted_emit | apply counted_emit_if | apply counted_seq | apply counted_all; intro
  | discriminate | assumption
  | match goal with H : forall _ _, counted _ |- _ => apply H | H : forall _ _ _, counted _ |- _ => apply H | H : forall _ _ _ _, counted _ |- _ => apply H end
  | match goal with |- counted (if ?b then _ else _) => destruct b | |- counted (match ?x with _ => _ end) => destruct x end
  | progress intros o' E; discriminate ].
Lemma tree_counted f : all_counted f.
Proof.
  induction f as [|f (H1 & H2 & H3 & H4 & H5 & H6)]; [repeat split; intros; discriminate|].
  assert (Here : forall s tm cs, counted (oseq (emit_if (null s) tm) (oall (fun c => t_match f c s) cs))) by (intros; cnt).
  assert (Star : forall s tm cs, counted (oseq (Ok (emit tm)) (oall (fun c => t_match_star f c s true) cs))) by (intros; cnt).
  split; [|split; [|split; [|split; [|split]]]].
  - intros [i r tm cs] s. cbn [t_match]. cnt.
  - intros [i r tm cs] s b. cbn [t_match_star]. destruct i as [it|]; [|discriminate]. destruct (zlen s <? item_min it)%Z; [cnt|].
    destruct (item_find it s) as [[[off|] len] fl]; [|cnt].
    assert (Sh : forall s0 o, counted (let '(_, n) := decode_rune s0 in if Nat.eqb n 0 then Ok out_none else t_match_star f (TNode (Some it) r tm cs) (skipn n s0) o)).
    { intros s0 o. destruct (decode_rune s0) as [x n]. cnt. }
    destruct fl; try discriminate; cbn [andb]; try (cnt; fail).
    + destruct it; try discriminate. destruct (sl_optional l && b); apply counted_seq; try (cnt; fail); (apply counted_bind2; [apply H3|]); intros o s1 E;
        destruct (decode_rune s1) as [x n]; (apply counted_seq; [now apply counted_ok|apply Sh]).
  - intros [i r tm cs] l s. cbn [t_match_star_list]. apply counted2_bind.
    + assert (G : forall vs offset o, snd o = length (fst o) -> counted2 ((fix go (vs : list str) (offset : option nat) (o : out) : res (out * option nat) :=
               match vs with
               | [] => Ok (o, offset)
               | v :: vs' =>
                   match find_val s v with
                   | None => go vs' offset o
                   | Some k =>
                       let offset' := match offset with
                                      | None => Some k
                                      | Some p => if p <? k then Some k else Some p
                                      end in
                       bind (oseq (emit_if (null (skipn (k + length v) s)) tm) (oall (fun c => t_match f c (skipn (k + length v) s)) cs)) (fun o' => go vs' offset' (out_app o o'))
                   end
               end) vs offset o)).
      { induction vs as [|v vs IH]; intros offset o E.
        - intros o' a X. now injection X as <- _.
        - destruct (find_val s v) as [k|]; [|auto]. cbv zeta. pose proof (Here (skipn (k + length v) s) tm cs) as Hr.
          intros o' a X. destruct (oseq (emit_if (null (skipn (k + length v) s)) tm) (oall (fun c : tree => t_match f c (skipn (k + length v) s)) cs)) as [y|e| |] eqn:Ey; try discriminate.
          cbn [bind] in X. eapply IH; [|exact X]. apply counted_app; auto. }
      apply G. reflexivity.
    + intros o [k|] E _; [|intros o' a X; now injection X as <- _]. destruct (decode_rune (skipn k s)) as [x n]. destruct (Nat.eqb n 0); [intros o' a X; now injection X as <- _|].
      apply counted2_bind; [apply H3|]. intros o1 a1 E1 _ o' a X. injection X as <- _. now apply counted_app.
  - intros [i r tm cs] s its. cbn [t_items]. destruct its as [|it rest]; [cnt|]. destruct (zlen s <? item_min it)%Z; [cnt|].
    destruct (item_match it s) as [[off|] fl]; [|cnt]. destruct fl; try discriminate; try (cnt; fail).
    destruct it; try discriminate. destruct (sl_optional l && null rest); [cnt|]. apply counted_seq; [cnt|].
    induction (sl_vals l) as [|v vs IH]; [cnt|]. destruct (match_val (skipn off s) v); [|exact IH]. destruct (null rest); [cnt|]. apply counted_seq; [apply H4|exact IH].
  - intros [i r tm cs] s its. cbn [t_star_items]. destruct its as [|it rest]; [cnt|]. destruct (zlen s <? item_min it)%Z; [cnt|].
    destruct (item_find it s) as [[[off|] len] fl]; [|cnt]. destruct fl; try discriminate; try (cnt; fail).
  - intros [i r tm cs] l s its. cbn [t_star_items_list]. apply counted_bind2.
    + assert (G : forall vs offset o, snd o = length (fst o) -> counted2 ((fix go (vs : list str) (offset : option nat) (o : out) : res (out * option nat) :=
               match vs with
               | [] => Ok (o, offset)
               | v :: vs' =>
                   match find_val s v with
                   | None => go vs' offset o
                   | Some k =>
                       let offset' := match offset with
                                      | None => Some k
                                      | Some p => if p <? k then Some k else Some p
                                      end in
                       bind (if null its then oseq (emit_if (null (skipn (k + length v) s)) tm) (oall (fun c => t_match f c (skipn (k + length v) s)) cs)
                             else t_items f (TNode i r tm cs) (skipn (k + length v) s) its) (fun o' => go vs' offset' (out_app o o'))
                   end
               end) vs offset o)).
      { induction vs as [|v vs IH]; intros offset o E.
        - intros o' a X. now injection X as <- _.
        - destruct (find_val s v) as [k|]; [|auto]. cbv zeta.
          match goal with |- counted2 (bind ?r _) => assert (Hr : counted r) by cnt; intros o' a X; destruct r as [y|e| |] eqn:Ey; try discriminate end.
          cbn [bind] in X. eapply IH; [|exact X]. apply counted_app; auto. }
      apply G. reflexivity.
    + intros o [k|] E; [|now apply counted_ok]. destruct (decode_rune (skipn k s)) as [x n]. destruct (Nat.eqb n 0); [now apply counted_ok|].
      apply counted_seq; [now apply counted_ok|apply H6].
Qed.
Lemma tree_match_counted f t s : counted (tree_match f t s).
Proof.
  unfold tree_match. destruct (tree_counted f) as [H _]. apply counted_all. intro c. destruct (t_reverse c); [|apply H]. destruct (t_item c) as [it|]; [|discriminate].
  destruct (zlen s <? item_min it)%Z; [apply counted_none|]. apply counted_bind. intros [off fl] _. destruct fl, off; try apply counted_none.
  apply counted_seq; [apply counted_emit_if|]. apply counted_all. intro; apply H.
Qed.
