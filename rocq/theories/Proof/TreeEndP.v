(** Matching in a tree of globs ends when no value of a list has an item after a star. *)
From Coq Require Import List Lia Arith Bool.
From Verif Require Import Model.Tree Spec.Symbols Proof.Utf8P Proof.SymbolsP Proof.SkipP Proof.TreeMonoP Proof.ItemP.
Import ListNotations.

(** [bounded it]: no value of the list it has an item after a star that stands for any number of symbols
    (a star together with '?' stands for at least one symbol and does no harm). *)
Inductive bounded : item -> Prop :=
| bounded_group vals mn mx : (forall v, In v vals -> bounded_items (val_items v)) -> bounded (IGroup vals mn mx)
| bounded_other it : (forall vals mn mx, it <> IGroup vals mn mx) -> bounded it
with bounded_items : list item -> Prop :=
| bounded_items_nil : bounded_items []
| bounded_items_cons it rest : bounded it -> (it = IStar 0 -> rest = []) -> bounded_items rest -> bounded_items (it :: rest).

Definition nf {A} (a : res A) : Prop := a <> Fuel.
Lemma nf_ok {A} (a : A) : nf (Ok a). Proof. discriminate. Qed.
Lemma nf_panic {A} : nf (@Panic A). Proof. discriminate. Qed.
Lemma nf_bind {A C} (a : res A) (k : A -> res C) : nf a -> (forall x, a = Ok x -> nf (k x)) -> nf (bind a k).
Proof. destruct a as [x|e| |]; cbn; intros H K; [now apply K|discriminate|discriminate|now elim H]. Qed.
Lemma nf_seq a b : nf a -> nf b -> nf (oseq a b).
Proof. intros H K. apply nf_bind; auto. intros x _. apply nf_bind; auto. intros; apply nf_ok. Qed.
Lemma nf_all {A} (f : A -> res out) l : (forall c, In c l -> nf (f c)) -> nf (oall f l).
Proof. induction l as [|c l IH]; intro H; [apply nf_ok|]. cbn. apply nf_seq; [apply H; now left|]. apply IH. intros d I. apply H. now right. Qed.

Definition ends (t : tree) : Prop := forall n, exists f0, forall f s, f0 <= f -> length s <= n -> nf (t_match f t s) /\ forall b, nf (t_match_star f t s b).
Lemma ends_all cs : (forall c, In c cs -> ends c) ->
  forall n, exists f0, forall c f s, In c cs -> f0 <= f -> length s <= n -> nf (t_match f c s) /\ forall b, nf (t_match_star f c s b).
Proof.
  induction cs as [|c cs IH]; intros H n; [exists 0; easy|]. destruct IH with (n := n) as (f0 & K); [intros; apply H; now right|]. destruct (H c (or_introl eq_refl) n) as (f1 & K1).
  exists (max f0 f1). intros d f s [<-|I] L S; [apply K1; auto; lia|apply K; auto; lia].
Qed.

Lemma decode_shorter s r n : decode_rune s = (r, n) -> n <> 0 -> length (skipn n s) < length s.
Proof. intros D N. destruct s as [|c s]; [vm_compute in D; injection D as <- <-; easy|]. rewrite skipn_length. cbn [length]. lia. Qed.
Lemma skip_pos s n off : skip_runes s (S n) = Some off -> 0 < off.
Proof.
  rewrite skip_runes_symbols. destruct (Nat.leb_spec (S n) (length (symbols s))) as [L|]; [|discriminate]. intro E. injection E as <-.
  destruct (symbols s) as [|x l] eqn:Q; [cbn in L; lia|]. cbn [firstn concat]. rewrite app_length.
  assert (I : In x (symbols s)) by (rewrite Q; now left). apply symbols_nonempty in I. destruct x; [easy|]. cbn [length]. lia.
Qed.

Fixpoint isz (it : item) : nat :=
  match it with
  | IGroup vals _ _ => S (list_sum (map isz vals))
  | IChain its _ _ => S (list_sum (map isz its))
  | _ => 1
  end.
Lemma isz_in it its : In it its -> isz it <= list_sum (map isz its).
Proof. induction its as [|a its IH]; [easy|]. intros [->|I]; cbn [map list_sum fold_right]; [lia|]. apply IH in I. unfold list_sum in I. lia. Qed.
Lemma isz_val v : list_sum (map isz (val_items v)) <= isz v.
Proof. destruct v; unfold val_items, list_sum; cbn [isz map fold_right]; unfold list_sum; lia. Qed.

Section Items.
Variables (i : option item) (r : bool) (tm : option term) (cs : list tree).
Let t := TNode i r tm cs.
Hypothesis C : forall n, exists f0, forall c f s, In c cs -> f0 <= f -> length s <= n -> nf (t_match f c s) /\ forall b, nf (t_match_star f c s b).
Definition EI (its : list item) : Prop := forall n, exists f0, forall f s, f0 <= f -> length s <= n -> nf (t_items f t s its).
Definition ES (its : list item) : Prop := forall n, exists f0, forall f s, f0 <= f -> length s <= n -> nf (t_star_items f t s its).
Definition EL (l : slist) (rest : list item) : Prop := forall n, exists f0, forall f s, f0 <= f -> length s <= n -> nf (t_star_items_list f t l s rest).

Lemma here_nf n : exists f0, forall f s, f0 <= f -> length s <= n -> nf (oseq (emit_if (null s) tm) (oall (fun c => t_match f c s) cs)).
Proof. destruct (C n) as (f0 & K). exists f0. intros f s L S. apply nf_seq; [apply nf_ok|]. apply nf_all. intros c I. now apply K. Qed.
Lemma star_nf n : exists f0, forall f s, f0 <= f -> length s <= n -> nf (oseq (Ok (emit tm)) (oall (fun c => t_match_star f c s true) cs)).
Proof. destruct (C n) as (f0 & K). exists f0. intros f s L S. apply nf_seq; [apply nf_ok|]. apply nf_all. intros c I. now apply K. Qed.

Lemma EL_of l rest : EI rest -> EL l rest.
Proof.
  intros HI n. induction n as [|n (f2 & IH)].
  - destruct (HI 0) as (f0 & K0), (here_nf 0) as (f1 & K1). exists (S (f0 + f1)). intros [|f] s L S; [lia|]. rewrite t_star_items_list_S. cbv beta iota zeta. unfold t.
    apply nf_bind.
    + generalize (@None nat) out_none. induction (sl_vals l) as [|v vs IHv]; intros off o; [apply nf_ok|]. destruct (find_val s v) as [k|]; [|apply IHv]. apply nf_bind; [|intros; apply IHv].
      destruct (null rest); [apply K1|apply K0]; try lia; rewrite skipn_length; lia.
    + intros [o [k|]] _; [|apply nf_ok]. destruct (decode_rune (skipn k s)) as [x m] eqn:D. destruct (Nat.eqb_spec m 0); [apply nf_ok|]. apply decode_shorter in D; auto. rewrite (skipn_length k s) in D. lia.
  - destruct (HI (S n)) as (f0 & K0), (here_nf (S n)) as (f1 & K1). exists (S (f0 + f1 + f2)). intros [|f] s L S; [lia|]. rewrite t_star_items_list_S. cbv beta iota zeta. unfold t.
    apply nf_bind.
    + generalize (@None nat) out_none. induction (sl_vals l) as [|v vs IHv]; intros off o; [apply nf_ok|]. destruct (find_val s v) as [k|]; [|apply IHv]. apply nf_bind; [|intros; apply IHv].
      destruct (null rest); [apply K1|apply K0]; try lia; rewrite skipn_length; lia.
    + intros [o [k|]] _; [|apply nf_ok]. destruct (decode_rune (skipn k s)) as [x m] eqn:D. destruct (Nat.eqb_spec m 0); [apply nf_ok|]. apply nf_seq; [apply nf_ok|].
      apply decode_shorter in D; auto. rewrite (skipn_length k s) in D. apply IH; lia.
Qed.
Lemma all_vals (P : list item -> Prop) (F : nat -> str -> list item -> res out) (vals : list item) :
  (forall v, In v vals -> forall n, exists f0, forall f s, f0 <= f -> length s <= n -> nf (F f s (val_items v))) ->
  forall n, exists f0, forall f s, f0 <= f -> length s <= n -> nf (oall (fun v => F f s (val_items v)) vals).
Proof.
  clear. intros H n. assert (K : exists f0, forall f s v, In v vals -> f0 <= f -> length s <= n -> nf (F f s (val_items v))).
  { induction vals as [|v vals IH]; [exists 0; easy|]. destruct IH as (f0 & K); [intros; apply H; auto; now right|]. destruct (H v (or_introl eq_refl) n) as (f1 & K1).
    exists (f0 + f1). intros f s d [<-|I] L S; [apply K1; lia|apply K; auto; lia]. }
  destruct K as (f0 & K). exists f0. intros f s L S. apply nf_all. intros v I. now apply K.
Qed.
Definition group_vals_of (it : item) : list item := match it with IGroup vals _ _ => vals | _ => [] end.

Lemma ES_cons it rest : EI rest -> ES rest -> (forall v, In v (group_vals_of it) -> ES (val_items v)) -> ES (it :: rest).
Proof.
  intros HI HS HV n.
  assert (exists f0, forall f s, f0 <= f -> length s <= n -> nf (oall (fun v => t_star_items f t s (val_items v)) (group_vals_of it))) as (fv & KV).
  { apply (all_vals (fun _ => True) (fun f s its => t_star_items f t s its)). exact HV. }
  assert (exists f0, forall l f s, it = IList l -> f0 <= f -> length s <= n -> nf (t_star_items_list f t l s rest)) as (fl & KL).
  { destruct it; try (exists 0; discriminate). destruct (EL_of l rest HI n) as (f0 & K). exists f0. intros l' f s E. injection E as <-. apply K. }
  induction n as [|n IH]; [|destruct IH as (f5 & IH); [intros; apply KV; auto; lia|intros; apply KL; auto; lia|]].
  all: match goal with |- context [length _ <= ?m] => destruct (HI m) as (f0 & K0), (HS m) as (f1 & K1), (here_nf m) as (f2 & K2), (star_nf m) as (f3 & K3) end.
  - exists (S (f0 + f1 + f2 + f3 + fv + fl)). intros [|f] s L S; [lia|]. rewrite t_star_items_S. cbv beta iota zeta. unfold t in *.
    destruct (zlen s <? item_min it)%Z; [apply nf_ok|]. destruct (item_find it s) as [[[off|] len] fg] eqn:F; [|apply nf_ok]. destruct fg; try apply nf_panic.
    + destruct (after_found len (skipn off s)) as [sub|] eqn:Af; [|apply nf_panic]. apply after_found_inv in Af as (m & -> & _ & ->). apply nf_seq; [apply K0; try lia; rewrite !skipn_length; lia|]. destruct (decode_rune (skipn off s)) as [x k] eqn:D. destruct (Nat.eqb_spec k 0); [apply nf_ok|].
      apply decode_shorter in D; auto. rewrite (skipn_length off s) in D. lia.
    + destruct it; try apply nf_panic. apply nf_seq; [destruct (sl_optional l); [|apply nf_ok]; destruct (null rest); [apply K3|apply K1]; try lia; rewrite !skipn_length; lia|].
      apply KL; auto; try lia; rewrite !skipn_length; lia.
    + destruct (null rest); [apply K3|apply K1]; try lia; rewrite !skipn_length; lia.
    + destruct it; try apply nf_panic. apply nf_seq; [destruct (group_optional minsize); [|apply nf_ok]; destruct (null rest); [apply K2|apply K1]; try lia; rewrite !skipn_length; lia|].
      apply KV; auto; try lia; rewrite !skipn_length; lia.
  - exists (S (f0 + f1 + f2 + f3 + fv + fl + f5)). intros [|f] s L S; [lia|]. rewrite t_star_items_S. cbv beta iota zeta. unfold t in *.
    destruct (zlen s <? item_min it)%Z; [apply nf_ok|]. destruct (item_find it s) as [[[off|] len] fg] eqn:F; [|apply nf_ok]. destruct fg; try apply nf_panic.
    + destruct (after_found len (skipn off s)) as [sub|] eqn:Af; [|apply nf_panic]. apply after_found_inv in Af as (m & -> & _ & ->). apply nf_seq; [apply K0; try lia; rewrite !skipn_length; lia|]. destruct (decode_rune (skipn off s)) as [x k] eqn:D. destruct (Nat.eqb_spec k 0); [apply nf_ok|].
      apply decode_shorter in D; auto. rewrite (skipn_length off s) in D. apply IH; lia.
    + destruct it; try apply nf_panic. apply nf_seq; [destruct (sl_optional l); [|apply nf_ok]; destruct (null rest); [apply K3|apply K1]; try lia; rewrite !skipn_length; lia|].
      apply KL; auto; try lia; rewrite !skipn_length; lia.
    + destruct (null rest); [apply K3|apply K1]; try lia; rewrite !skipn_length; lia.
    + destruct it; try apply nf_panic. apply nf_seq; [destruct (group_optional minsize); [|apply nf_ok]; destruct (null rest); [apply K2|apply K1]; try lia; rewrite !skipn_length; lia|].
      apply KV; auto; try lia; rewrite !skipn_length; lia.
Qed.

Lemma EI_cons it rest : (it = IStar 0 -> rest = []) -> EI rest -> ES rest -> (forall v, In v (group_vals_of it) -> EI (val_items v)) -> EI (it :: rest).
Proof.
  intros H0 HI HS HV n.
  assert (exists f0, forall f s, f0 <= f -> length s <= n -> nf (oall (fun v => t_items f t s (val_items v)) (group_vals_of it))) as (fv & KV).
  { apply (all_vals (fun _ => True) (fun f s its => t_items f t s its)). exact HV. }
  assert (G : exists f5, forall k off f s, it = IStar (S k) -> item_match it s = (Some off, FindStar) -> f5 <= f -> length s <= n -> nf (t_items f t (skipn off s) (it :: rest))).
  2:{ destruct G as (f5 & G), (HI n) as (f0 & K0), (HS n) as (f1 & K1), (here_nf n) as (f2 & K2), (star_nf n) as (f3 & K3).
    exists (S (f0 + f1 + f2 + f3 + fv + f5)). intros [|f] s L S; [lia|]. rewrite t_items_S. cbv beta iota zeta. unfold t in *.
    destruct (zlen s <? item_min it)%Z; [apply nf_ok|]. destruct (item_match it s) as [[off|] fg] eqn:F; [|apply nf_ok]. destruct fg; try apply nf_panic.
    + apply K0; try lia; rewrite !skipn_length; lia.
    + destruct it; try apply nf_panic. destruct (sl_optional l && null rest); [apply K2; try lia; rewrite !skipn_length; lia|].
      apply nf_seq; [destruct (sl_optional l); [|apply nf_ok]; apply K0; try lia; rewrite !skipn_length; lia|].
      induction (sl_vals l) as [|v vs IHv]; [apply nf_ok|]. destruct (match_val (skipn off s) v); [|exact IHv]. destruct (null rest); [apply K2; try lia; rewrite !skipn_length; lia|].
      apply nf_seq; [apply K0; try lia; rewrite !skipn_length; lia|exact IHv].
    + destruct (null rest) eqn:Nr; [apply K3; try lia; rewrite !skipn_length; lia|]. apply nf_seq; [apply K1; try lia; rewrite !skipn_length; lia|].
      destruct it as [| | | |[|k]| | | |]; try discriminate F; [rewrite H0 in Nr by reflexivity; discriminate|]. eapply G; eauto; lia.
    + destruct it; try apply nf_panic. destruct (group_optional minsize && null rest); [apply K2; try lia; rewrite !skipn_length; lia|].
      apply nf_seq; [destruct (group_optional minsize); [|apply nf_ok]; apply K0; try lia; rewrite !skipn_length; lia|]. apply KV; auto; try lia; rewrite !skipn_length; lia. }
  destruct it as [| | | |[|k]| | | |]; try (exists 0; discriminate). clear H0 HV KV.
  assert (P : forall s off, item_match (IStar (S k)) s = (Some off, FindStar) -> length (skipn off s) < length s).
  { intros s off F. assert (Q : skip_runes s (Datatypes.S k) = Some off) by (change (item_match (IStar (Datatypes.S k)) s) with (skip_runes s (Datatypes.S k), FindStar) in F; congruence).
    pose proof (skip_pos _ _ _ Q) as P. rewrite skipn_length. destruct s; [|cbn [length]; lia]. rewrite skip_runes_symbols in Q. discriminate Q. }
  induction n as [|n IH].
  - exists 0. intros k' off f s _ F _ S. apply P in F. lia.
  - destruct IH as (f5 & G), (HI n) as (f0 & K0), (HS n) as (f1 & K1), (star_nf n) as (f3 & K3). exists (S (f0 + f1 + f3 + f5)). intros k' off f s _ F L S. apply P in F.
    set (s1 := skipn off s) in *. clearbody s1. destruct f as [|f]; [lia|]. rewrite t_items_S. cbv beta iota zeta. unfold t in *.
    destruct (zlen s1 <? item_min (IStar (Datatypes.S k)))%Z; [apply nf_ok|]. destruct (item_match (IStar (Datatypes.S k)) s1) as [[off1|] fg] eqn:F1; [|apply nf_ok].
    assert (fg = FindStar) as -> by (change (item_match (IStar (Datatypes.S k)) s1) with (skip_runes s1 (Datatypes.S k), FindStar) in F1; congruence).
    destruct (null rest) eqn:Nr; [apply K3; try lia; rewrite !skipn_length; lia|]. apply nf_seq; [apply K1; try lia; rewrite !skipn_length; lia|]. eapply G; eauto; lia.
Qed.

Lemma items_end : forall w its, list_sum (map isz its) <= w -> bounded_items its -> EI its /\ ES its.
Proof.
  induction w as [w IH] using lt_wf_ind. intros its W K. destruct its as [|it rest].
  - split; intro n.
    + destruct (here_nf n) as (f0 & K0). exists (S f0). intros [|f] s L S; [lia|]. rewrite t_items_S. apply K0; lia.
    + destruct (star_nf n) as (f0 & K0). exists (S f0). intros [|f] s L S; [lia|]. rewrite t_star_items_S. apply K0; lia.
  - inversion K as [|x y K1 K2 K3]; subst. cbn [map list_sum fold_right] in W. fold (list_sum (map isz rest)) in W.
    assert (P : 1 <= isz it) by (destruct it; cbn; lia).
    destruct (IH (list_sum (map isz rest))) with (its := rest) as [HI HS]; auto; [lia|].
    assert (V : forall v, In v (group_vals_of it) -> EI (val_items v) /\ ES (val_items v)).
    { intros v I. apply (IH (isz v)).
      - destruct it; try easy. cbn [group_vals_of] in I. apply isz_in in I. cbn [isz] in W. lia.
      - apply isz_val.
      - destruct it; try easy. inversion K1; subst; [auto|]. exfalso. eapply H. reflexivity. }
    split; [apply EI_cons|apply ES_cons]; auto; intros v I; now apply V.
Qed.
End Items.

Inductive every (P : item -> Prop) : tree -> Prop :=
| ev_node it r tm cs : P it -> (forall c, In c cs -> every P c) -> every P (TNode (Some it) r tm cs).
Lemma list_shorter : forall f t l s o s1, t_match_star_list f t l s = Ok (o, s1) -> length s1 <= length s.
Proof.
  induction f as [|f IH]; [discriminate|]. intros [i r tm cs] l s o s1. rewrite t_match_star_list_S. cbv beta iota zeta.
  match goal with |- bind ?x _ = _ -> _ => destruct x as [[o' [k|]]| | |] end; cbn [bind]; try discriminate; [|intro E; injection E as <- <-; lia].
  destruct (decode_rune (skipn k s)) as [x m]. destruct (Nat.eqb m 0); [intro E; injection E as <- <-; rewrite skipn_length; lia|].
  destruct (t_match_star_list f (TNode i r tm cs) l (skipn m (skipn k s))) as [[o2 s2]| | |] eqn:Q; cbn [bind]; try discriminate. intro E. injection E as <- <-. apply IH in Q. rewrite !skipn_length in Q. lia.
Qed.
Lemma bounded_ends t : every bounded t -> ends t.
Proof.
  induction 1 as [it r tm cs Hi Hc IH]. pose proof (ends_all cs IH) as C. set (t := TNode (Some it) r tm cs).
  assert (V : forall v, In v (group_vals_of it) -> EI (Some it) r tm cs (val_items v) /\ ES (Some it) r tm cs (val_items v)).
  { intros v I. apply (items_end (Some it) r tm cs C (isz v)); [apply isz_val|]. destruct it; try easy. inversion Hi; subst; [auto|]. exfalso. clear - H; now eapply H. }
  assert (ML : forall l n, exists f0, forall f s, f0 <= f -> length s <= n -> nf (t_match_star_list f t l s)).
  { intros l. induction n as [|n (f2 & IHn)].
    - destruct (here_nf tm cs C 0) as (f1 & K1). exists (S f1). intros [|f] s L S; [lia|]. unfold t. rewrite t_match_star_list_S. cbv beta iota zeta. apply nf_bind.
      + generalize (@None nat) out_none. induction (sl_vals l) as [|v vs IHv]; intros off o; [apply nf_ok|]. destruct (find_val s v) as [k|]; [|apply IHv]. apply nf_bind; [|intros; apply IHv]. apply K1; try lia; rewrite skipn_length; lia.
      + intros [o [k|]] _; [|apply nf_ok]. destruct (decode_rune (skipn k s)) as [x m] eqn:D. destruct (Nat.eqb_spec m 0); [apply nf_ok|]. apply decode_shorter in D; auto. rewrite (skipn_length k s) in D. lia.
    - destruct (here_nf tm cs C (S n)) as (f1 & K1). exists (S (f1 + f2)). intros [|f] s L S; [lia|]. unfold t. rewrite t_match_star_list_S. cbv beta iota zeta. apply nf_bind.
      + generalize (@None nat) out_none. induction (sl_vals l) as [|v vs IHv]; intros off o; [apply nf_ok|]. destruct (find_val s v) as [k|]; [|apply IHv]. apply nf_bind; [|intros; apply IHv]. apply K1; try lia; rewrite skipn_length; lia.
      + intros [o [k|]] _; [|apply nf_ok]. destruct (decode_rune (skipn k s)) as [x m] eqn:D. destruct (Nat.eqb_spec m 0); [apply nf_ok|]. apply decode_shorter in D; auto. rewrite (skipn_length k s) in D.
        apply nf_bind; [apply IHn; lia|]. intros [? ?] _. apply nf_ok. }
  assert (MS : forall n, exists f0, forall f s, f0 <= f -> length s <= n -> forall b, nf (t_match_star f t s b)).
  { intro n. assert (exists f0, forall f s, f0 <= f -> length s <= n -> nf (oall (fun v => t_star_items f t s (val_items v)) (group_vals_of it))) as (fv & KV).
    { apply (all_vals (fun _ => True) (fun f s its => t_star_items f t s its)). intros v I. apply V. exact I. }
    assert (exists f0, forall l f s, it = IList l -> f0 <= f -> length s <= n -> nf (t_match_star_list f t l s)) as (fl & KL).
    { destruct it; try (exists 0; discriminate). destruct (ML l n) as (f0 & K). exists f0. intros l' f s E. injection E as <-. apply K. }
    assert (G : exists f5, forall f s b, f5 <= f -> length s < n -> nf (t_match_star f t s b)).
    2:{ destruct G as (f5 & G), (C n) as (f0 & K0). exists (S (f0 + fv + fl + f5)). intros [|f] s L S b; [lia|]. unfold t. rewrite t_match_star_S. cbv beta iota zeta. fold t.
      destruct (zlen s <? item_min it)%Z; [apply nf_ok|]. destruct (item_find it s) as [[[off|] len] fg] eqn:F; [|apply nf_ok]. destruct fg; try apply nf_panic.
      + destruct (after_found len (skipn off s)) as [sub|] eqn:Af; [|apply nf_panic]. apply after_found_inv in Af as (m & -> & _ & ->). apply nf_seq.
        * match goal with |- nf (if ?b then _ else _) => destruct b end; [apply nf_ok|]. apply nf_all. intros c I. apply K0; auto; try lia; rewrite !skipn_length; lia.
        * destruct (decode_rune (skipn off s)) as [x k] eqn:D. destruct (Nat.eqb_spec k 0); [apply nf_ok|]. apply decode_shorter in D; auto. rewrite (skipn_length off s) in D. apply G; lia.
      + destruct it; try apply nf_panic. apply nf_seq.
        * destruct (sl_optional l && b); [|apply nf_ok]. apply nf_seq; [apply nf_ok|]. apply nf_all. intros c I. apply K0; auto; try lia; rewrite !skipn_length; lia.
        * apply nf_bind; [apply KL; auto; try lia; rewrite !skipn_length; lia|]. intros [o s1] Q. apply list_shorter in Q. rewrite skipn_length in Q. destruct (decode_rune s1) as [x1 n1] eqn:D1.
          apply nf_seq; [apply nf_ok|]. destruct (decode_rune (skipn n1 s1)) as [x k] eqn:D. destruct (Nat.eqb_spec k 0); [apply nf_ok|]. apply decode_shorter in D; auto. rewrite (skipn_length n1 s1) in D. apply G; lia.
      + match goal with |- nf (if ?b then _ else _) => destruct b end; [apply nf_ok|]. apply nf_all. intros c I. apply K0; auto; try lia; rewrite !skipn_length; lia.
      + destruct it; try apply nf_panic. apply nf_seq.
        * destruct (group_optional minsize); [|apply nf_ok]. apply nf_seq; [apply nf_ok|]. apply nf_all. intros c I. apply K0; auto; try lia; rewrite !skipn_length; lia.
        * apply KV; auto; try lia; rewrite !skipn_length; lia. }
    induction n as [|n IHn]; [exists 0; intros; lia|]. destruct IHn as (f5 & G); [intros; apply KV; auto; lia|intros; apply KL; auto; lia|]. destruct (C n) as (f0 & K0).
    exists (S (f0 + fv + fl + f5)). intros [|f] s b L S; [lia|]. unfold t. rewrite t_match_star_S. cbv beta iota zeta. fold t.
    destruct (zlen s <? item_min it)%Z; [apply nf_ok|]. destruct (item_find it s) as [[[off|] len] fg] eqn:F; [|apply nf_ok]. destruct fg; try apply nf_panic.
    + destruct (after_found len (skipn off s)) as [sub|] eqn:Af; [|apply nf_panic]. apply after_found_inv in Af as (m & -> & _ & ->). apply nf_seq.
      * match goal with |- nf (if ?b then _ else _) => destruct b end; [apply nf_ok|]. apply nf_all. intros c I. apply K0; auto; try lia; rewrite !skipn_length; lia.
      * destruct (decode_rune (skipn off s)) as [x k] eqn:D. destruct (Nat.eqb_spec k 0); [apply nf_ok|]. apply decode_shorter in D; auto. rewrite (skipn_length off s) in D. apply G; lia.
    + destruct it; try apply nf_panic. apply nf_seq.
      * destruct (sl_optional l && b); [|apply nf_ok]. apply nf_seq; [apply nf_ok|]. apply nf_all. intros c I. apply K0; auto; try lia; rewrite !skipn_length; lia.
      * apply nf_bind; [apply KL; auto; try lia; rewrite !skipn_length; lia|]. intros [o s1] Q. apply list_shorter in Q. rewrite skipn_length in Q. destruct (decode_rune s1) as [x1 n1] eqn:D1.
        apply nf_seq; [apply nf_ok|]. destruct (decode_rune (skipn n1 s1)) as [x k] eqn:D. destruct (Nat.eqb_spec k 0); [apply nf_ok|]. apply decode_shorter in D; auto. rewrite (skipn_length n1 s1) in D. apply G; lia.
    + match goal with |- nf (if ?b then _ else _) => destruct b end; [apply nf_ok|]. apply nf_all. intros c I. apply K0; auto; try lia; rewrite !skipn_length; lia.
    + destruct it; try apply nf_panic. apply nf_seq.
      * destruct (group_optional minsize); [|apply nf_ok]. apply nf_seq; [apply nf_ok|]. apply nf_all. intros c I. apply K0; auto; try lia; rewrite !skipn_length; lia.
      * apply KV; auto; try lia; rewrite !skipn_length; lia. }
  intro n. assert (exists f0, forall f s, f0 <= f -> length s <= n -> nf (oall (fun v => t_items f t s (val_items v)) (group_vals_of it))) as (fv & KV).
  { apply (all_vals (fun _ => True) (fun f s its => t_items f t s its)). intros v I. apply V. exact I. }
  destruct (MS n) as (f1 & K1), (C n) as (f0 & K0), (here_nf tm cs C n) as (f2 & K2). exists (S (f0 + f1 + f2 + fv)). intros f s L S. split; [|intro b; apply K1; lia].
  destruct f as [|f]; [lia|]. unfold t. rewrite t_match_S. cbv beta iota zeta. fold t.
  destruct (zlen s <? item_min it)%Z; [apply nf_ok|]. destruct (item_match it s) as [[off|] fg] eqn:F; [|apply nf_ok]. destruct fg; try apply nf_panic.
  - apply K2; try lia; rewrite !skipn_length; lia.
  - destruct it; try apply nf_panic. apply nf_seq; [destruct (sl_optional l); [|apply nf_ok]; apply K2; try lia; rewrite !skipn_length; lia|].
    apply nf_all. intros v _. destruct (match_val (skipn off s) v); [|apply nf_ok]. apply K2; try lia; rewrite !skipn_length; lia.
  - destruct (null cs); [apply nf_ok|]. apply nf_all. intros c I. apply K0; auto; try lia; rewrite !skipn_length; lia.
  - destruct it; try apply nf_panic. apply nf_seq; [destruct (group_optional minsize); [|apply nf_ok]; apply K2; try lia; rewrite !skipn_length; lia|].
    apply KV; auto; try lia; rewrite !skipn_length; lia.
Qed.
