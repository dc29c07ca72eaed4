(** A tree match that ends with some fuel ends with the same answer with more fuel. *)
From Coq Require Import List Lia Arith Bool.
From Verif Require Import Model.Tree.
Import ListNotations.

Definition le {A} (a b : res A) : Prop := a <> Fuel -> b = a.
Lemma le_refl {A} (a : res A) : le a a.
Proof. intros _. reflexivity. Qed.
Lemma le_bind {A B} (a b : res A) (k m : A -> res B) : le a b -> (forall x, le (k x) (m x)) -> le (bind a k) (bind b m).
Proof.
  intros H K N. destruct a as [x|e| |]; cbn [bind] in *; [|now rewrite (H ltac:(discriminate))|now rewrite (H ltac:(discriminate))|now elim N].
  rewrite (H ltac:(discriminate)). now apply K.
Qed.
Lemma le_seq a b c d : le a b -> le c d -> le (oseq a c) (oseq b d).
Proof. intros H K. apply le_bind; auto. intro x. apply le_bind; auto. intro; apply le_refl. Qed.
Lemma le_all {A} (f g : A -> res out) l : (forall c, le (f c) (g c)) -> le (oall f l) (oall g l).
Proof. intro H. induction l as [|c l IH]; [apply le_refl|]. cbn. now apply le_seq. Qed.

Definition all_le (f : nat) : Prop :=
  (forall t s, le (t_match f t s) (t_match (S f) t s)) /\ (forall t s b, le (t_match_star f t s b) (t_match_star (S f) t s b)) /\
  (forall t l s, le (t_match_star_list f t l s) (t_match_star_list (S f) t l s)) /\ (forall t s its, le (t_items f t s its) (t_items (S f) t s its)) /\
  (forall t s its, le (t_star_items f t s its) (t_star_items (S f) t s its)) /\ (forall t l s its, le (t_star_items_list f t l s its) (t_star_items_list (S f) t l s its)).
Ltac mono := repeat first
  [ apply le_refl | apply le_seq | apply le_all; intro | apply le_bind; [|intro] | assumption
  | match goal with H : forall _ _, le _ _ |- _ => apply H | H : forall _ _ _, le _ _ |- _ => apply H | H : forall _ _ _ _, le _ _ |- _ => apply H end
  | match goal with |- le (if ?b then _ else _) _ => destruct b | |- le (match ?x with _ => _ end) _ => destruct x end ].
Lemma t_match_S f t s : t_match (S f) t s = ltac:(let x := eval cbn [t_match] in (t_match (S f) t s) in exact x).
Proof. reflexivity. Qed.
Lemma t_match_star_S f t s b : t_match_star (S f) t s b = ltac:(let x := eval cbn [t_match_star] in (t_match_star (S f) t s b) in exact x).
Proof. reflexivity. Qed.
Lemma t_match_star_list_S f t l s : t_match_star_list (S f) t l s = ltac:(let x := eval cbn [t_match_star_list] in (t_match_star_list (S f) t l s) in exact x).
Proof. reflexivity. Qed.
Lemma t_items_S f t s its : t_items (S f) t s its = ltac:(let x := eval cbn [t_items] in (t_items (S f) t s its) in exact x).
Proof. reflexivity. Qed.
Lemma t_star_items_S f t s its : t_star_items (S f) t s its = ltac:(let x := eval cbn [t_star_items] in (t_star_items (S f) t s its) in exact x).
Proof. reflexivity. Qed.
Lemma t_star_items_list_S f t l s its : t_star_items_list (S f) t l s its = ltac:(let x := eval cbn [t_star_items_list] in (t_star_items_list (S f) t l s its) in exact x).
Proof. reflexivity. Qed.

Lemma tree_le f : all_le f.
Proof.
  induction f as [|f (H1 & H2 & H3 & H4 & H5 & H6)]; [split; [|split; [|split; [|split; [|split]]]]; intros; intro N; now elim N|].
  split; [|split; [|split; [|split; [|split]]]].
  - intros [i r tm cs] s. rewrite (t_match_S f), (t_match_S (S f)). cbv beta iota zeta. mono.
  - intros [i r tm cs] s b. rewrite (t_match_star_S f), (t_match_star_S (S f)). cbv beta iota zeta. mono.
  - intros [i r tm cs] l s. rewrite (t_match_star_list_S f), (t_match_star_list_S (S f)). cbv beta iota zeta. apply le_bind; [|intro; mono].
    generalize (@None nat) out_none. induction (sl_vals l) as [|v vs IH]; intros offset o; [apply le_refl|]. destruct (find_val s v); [|apply IH]. apply le_bind; [mono|]. intro. apply IH.
  - intros [i r tm cs] s its. rewrite (t_items_S f), (t_items_S (S f)). cbv beta iota zeta. destruct its as [|it rest]; [mono|]. destruct (zlen s <? item_min it)%Z; [mono|].
    destruct (item_match it s) as [[off|] fl]; [|mono]. destruct fl; try (mono; fail). destruct it; try (mono; fail).
    destruct (sl_optional l && null rest); [mono|]. apply le_seq; [mono|].
    induction (sl_vals l) as [|v vs IH]; [mono|]. destruct (match_val (skipn off s) v); [|exact IH]. destruct (null rest); [mono|]. apply le_seq; [apply H4|exact IH].
  - intros [i r tm cs] s its. rewrite (t_star_items_S f), (t_star_items_S (S f)). cbv beta iota zeta. mono.
  - intros [i r tm cs] l s its. rewrite (t_star_items_list_S f), (t_star_items_list_S (S f)). cbv beta iota zeta. apply le_bind; [|intro; mono].
    generalize (@None nat) out_none. induction (sl_vals l) as [|v vs IH]; intros offset o; [apply le_refl|]. destruct (find_val s v); [|apply IH]. apply le_bind; [mono|]. intro. apply IH.
Qed.
Lemma le_trans {A} (a b c : res A) : le a b -> le b c -> le a c.
Proof. intros H K N. rewrite K by (rewrite H by exact N; exact N). now apply H. Qed.
Lemma tree_match_le f g t s : f <= g -> le (tree_match f t s) (tree_match g t s).
Proof.
  intro L. induction L as [|g L IH]; [apply le_refl|]. eapply le_trans; [exact IH|]. destruct (tree_le g) as [H _].
  unfold tree_match. apply le_all. intro c. mono.
Qed.
Lemma tree_match_fun f g t s o o' : tree_match f t s = Ok o -> tree_match g t s = Ok o' -> o = o'.
Proof.
  intros H K. assert (Hf := tree_match_le f (f + g) t s ltac:(lia)). assert (Kg := tree_match_le g (f + g) t s ltac:(lia)).
  unfold le in Hf, Kg. rewrite H in Hf. rewrite K in Kg. rewrite Hf in Kg by discriminate. specialize (Kg ltac:(discriminate)). congruence.
Qed.
