(** What a tree of dotted globs reports, without any assumption on the matching of its parts. *)
From Verif Require Import Model.GGlob Spec.PathSpec Spec.RegistrySpec Spec.GGlobSpec.
From Verif Require Import Proof.SortP Proof.ListP Proof.PathP Proof.GGlobP Proof.RegistryP Proof.SafeP Proof.GTreeP.
From Coq Require Import Lia ZifyBool ZifyN ZifyNat.

Definition got (f : gtree -> res out) (last : bool) (c : gtree) (x : term) : Prop :=
  if last then gt_term c = Some x else exists o, f c = Ok o /\ In x (fst o).
Lemma in_emit t x : In x (fst (emit t)) -> t = Some x.
Proof. destruct t; cbn; [intros [->|[]]; auto|easy]. Qed.
Lemma oseq_in a b o x : oseq a b = Ok o -> In x (fst o) -> (exists o', a = Ok o' /\ In x (fst o')) \/ (exists o', b = Ok o' /\ In x (fst o')).
Proof.
  unfold oseq. destruct a as [o1|e| |]; try discriminate. destruct b as [o2|e| |]; try discriminate. intros E I. injection E as <-.
  cbn in I. apply in_app_or in I as [I|I]; eauto.
Qed.
Lemma visit_got f (last : bool) c o x : (if last then Ok (emit (gt_term c)) else f c) = Ok o -> In x (fst o) -> got f last c x.
Proof. unfold got. destruct last; [|eauto]. intros E I. injection E as <-. now apply in_emit. Qed.
Lemma map_got f last part l o x : in_map f last part l = Ok o -> In x (fst o) -> exists c, lookup str_eqb part l = Some c /\ got f last c x.
Proof.
  induction l as [|[k c] l IH]; cbn [in_map lookup].
  - intros E I. injection E as <-. destruct I.
  - destruct (str_eqb part k); [|auto]. intros E I. exists c. split; auto. eapply visit_got; eauto.
Qed.
Lemma list_got f last part l o x : in_list f last part l = Ok o -> In x (fst o) ->
  exists c g, In c l /\ gt_item c = Some g /\ glob_match g part = Ok true /\ got f last c x.
Proof.
  revert o. induction l as [|c l IH]; intro o; cbn [in_list].
  - intros E I. injection E as <-. destruct I.
  - destruct (gt_item c) as [g|] eqn:Eg; [|discriminate]. destruct (glob_match g part) as [b|e| |] eqn:Em; try discriminate. cbn [bind]. intros E I.
    destruct (oseq_in _ _ _ _ E I) as [(o' & E' & I')|(o' & E' & I')].
    + destruct b; [|injection E' as <-; destruct I']. exists c, g. split; [now left|]. split; auto. split; auto. eapply visit_got; eauto.
    + destruct (IH _ E' I') as (c' & g' & Ic & H). exists c', g'. split; [now right|auto].
Qed.

Section Sound.
  Variable G : glob -> Prop.
  Definition ms (k : key) (p : str) : Prop := if fst k then snd k = p else exists g, G g /\ g_node g = snd k /\ glob_match g p = Ok true.
  Lemma one_step f last t part x n : wft G (S n) t ->
    (forall o, oseq (in_map f last part (gt_cmap t)) (in_list f last part (gt_childs t)) = Ok o -> In x (fst o) ->
     exists k c, child k t = Some c /\ wft G n c /\ ms k part /\ got f last c x).
  Proof.
    intros (W1 & W2 & W3) o E I. destruct (oseq_in _ _ _ _ E I) as [(o' & E' & I')|(o' & E' & I')].
    - destruct (map_got _ _ _ _ _ _ E' I') as (c & L & H). exists (true, part), c. split; [exact L|]. split; [now apply (W1 part)|]. split; [reflexivity|auto].
    - destruct (list_got _ _ _ _ _ _ E' I') as (c & g & Ic & Eg & M & H). exists (false, child_name c), c.
      split; [apply find_child_in; auto; intros c' I2; destruct (W3 c' I2) as (g' & ? & _); eauto|]. destruct (W3 c Ic) as (g' & Eg' & Gg & Wc). rewrite Eg in Eg'. injection Eg' as <-.
      split; auto. split; auto. exists g. split; auto. split; auto. unfold child_name. now rewrite Eg.
  Qed.
  Lemma parts_sound ps : forall t o x, wft G (length ps) t -> ps <> [] -> gt_match_parts t ps = Ok o -> In x (fst o) ->
    exists ks, holds ks t = Some x /\ Forall2 ms ks ps.
  Proof.
    induction ps as [|p ps IH]; intros t o x W N E I; [easy|]. rewrite gt_parts_eq in E.
    destruct (one_step _ _ _ _ _ _ W _ E I) as (k & c & C & Wc & Mk & H).
    assert (K : exists ks, holds ks c = Some x /\ Forall2 ms ks ps).
    { unfold got in H. destruct ps as [|q ps]; cbn [null] in H; [exists []; split; [exact H|constructor]|]. destruct H as (o' & E' & I'). apply (IH c o' x); auto. discriminate. }
    destruct K as (ks & Hk & F). exists (k :: ks). split; [cbn [holds]; now rewrite C|constructor; auto].
  Qed.
  Lemma items_sound ps : forall t o x, wft G (length ps) t -> ps <> [] -> dotless ps -> (forall ks, length ks < length ps -> holds ks t = None) ->
    gt_match_items t (dotted ps) = Ok o -> In x (fst o) -> full ps /\ exists ks, holds ks t = Some x /\ Forall2 ms ks ps.
  Proof.
    induction ps as [|p ps IH]; intros t o x W N D Hn E I; [easy|].
    assert (Dp : ~ In dot p) by (apply D; now left). assert (Dr : dotless ps) by (intros y J; apply D; now right).
    rewrite gt_items_eq, cut_dotted in E by auto. destruct (null p) eqn:Np; [injection E as <-; destruct I|].
    destruct (one_step _ _ _ _ _ _ W _ E I) as (k & c & C & Wc & Mk & H). unfold got in H.
    assert (K : full ps /\ exists ks, holds ks c = Some x /\ Forall2 ms ks ps).
    { destruct ps as [|q ps]; [cbn [null dotted] in H; split; [easy|]; exists []; split; [exact H|constructor]|].
      destruct (null (dotted (q :: ps))) eqn:Nl.
      - exfalso. specialize (Hn [k]). cbn [holds] in Hn. rewrite C in Hn. rewrite Hn in H; [discriminate|]. cbn. lia.
      - destruct H as (o' & E' & I'). apply (IH c o' x); auto; [discriminate|]. intros ks L. specialize (Hn (k :: ks)). cbn [holds] in Hn. rewrite C in Hn. apply Hn. cbn in *. lia. }
    destruct K as (Fp & ks & Hk & F). split; [intros y [<-|J]; [destruct p; [discriminate Np|discriminate]|auto]|]. exists (k :: ks). split; [cbn [holds]; now rewrite C|constructor; auto].
  Qed.
End Sound.
