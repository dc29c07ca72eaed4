(** Merging of ranges that may consist of NUL only. *)
From Coq Require Import Lia ZifyBool ZifyN ZifyNat Permutation Sorted.
From Verif Require Import Model.Ranges Proof.SortP Proof.AsciiSetP Proof.MergeP.
Local Open Scope N_scope.

Definition nz (r : rrange) : bool := negb (Last r =? 0).
Lemma merge_outer_gen fuel : forall l i j l' j',
  (j <= i)%nat -> (length l < i + fuel)%nat -> (j <= length l)%nat ->
  merge_outer fuel l i j = (l', j') ->
  firstn j' l' = firstn j l ++ filter nz (absorb_all (skipn i l)).
Proof.
  induction fuel as [|f IH]; intros l i j l' j' J F JL.
  - cbn. intro E. injection E as <- <-. rewrite (skipn_all2 l) by lia. cbn. now rewrite app_nil_r.
  - cbn [merge_outer]. destruct (Nat.ltb_spec i (length l)) as [L|L].
    2:{ intro E. injection E as <- <-. rewrite (skipn_all2 l) by lia. cbn. now rewrite app_nil_r. }
    destruct (if (i <? length l - 1)%nat then merge_inner (length l) l i i else (l, i)) as [l1 i1] eqn:EI.
    assert (M : length l1 = length l /\ (i <= i1 < length l)%nat /\ firstn i l1 = firstn i l /\
      skipn (S i1) l1 = skipn (S i1) l /\ Last (nth i l range0) <= Last (nth i l1 range0) /\
      absorb (nth i l range0) (skipn (S i) l) = nth i l1 range0 :: absorb_all (skipn (S i1) l)).
    { destruct (Nat.ltb_spec i (length l - 1)) as [L1|L1].
      - eapply merge_inner_spec; eauto; lia.
      - injection EI as <- <-. repeat split; try lia; auto. rewrite (skipn_all2 l) by lia. reflexivity. }
    destruct M as (M1 & M2 & M3 & M4 & M5 & M6). intro E.
    rewrite (skipn_nth i l range0 L). cbn [absorb_all]. rewrite M6. cbn [filter]. unfold nz at 1.
    set (l2 := if negb (Nat.eqb i j) then set_last i 0 (set_nth j (nth i l1 range0) l1) else l1) in E.
    assert (L2 : length l2 = length l).
    { unfold l2. destruct (negb _); auto. now rewrite set_last_length, set_nth_length. }
    assert (N2 : nth j l2 range0 = nth i l1 range0).
    { unfold l2. destruct (Nat.eqb_spec i j) as [->|NE]; cbn [negb]; auto.
      unfold set_last. rewrite nth_set_nth. destruct (Nat.eqb_spec i j); [lia|]. cbn [andb].
      rewrite nth_set_nth, Nat.eqb_refl. now replace (j <? length l1)%nat with true by lia. }
    assert (S2 : skipn (S i1) l2 = skipn (S i1) l).
    { unfold l2. destruct (Nat.eqb_spec i j) as [->|NE]; cbn [negb]; auto.
      unfold set_last. now rewrite !skipn_set_nth by lia. }
    assert (F2 : firstn j l2 = firstn j l).
    { assert (X : firstn j l1 = firstn j l).
      { replace (firstn j l1) with (firstn j (firstn i l1)) by (rewrite firstn_firstn; f_equal; lia).
        rewrite M3, firstn_firstn. f_equal. lia. }
      unfold l2. destruct (negb (Nat.eqb i j)) eqn:Q; auto.
      unfold set_last. rewrite !firstn_set_nth by lia. auto. }
    rewrite N2 in E. destruct (Last (nth i l1 range0) =? 0); cbn [negb] in *.
    + apply IH in E; try lia. now rewrite E, S2, F2.
    + apply IH in E; try lia. rewrite E, S2. rewrite (firstn_S j l2 range0) by lia. rewrite F2, N2, <- app_assoc. reflexivity.
Qed.

Lemma ranges_merge_gen l : ranges_merge l = filter nz (absorb_all (isort range_ltb l)).
Proof.
  unfold ranges_merge. destruct (merge_outer _ _ 0 0) as [l' j] eqn:E.
  apply merge_outer_gen in E; try lia. rewrite E. reflexivity.
Qed.

Lemma ss_filter {A} (R : A -> A -> Prop) p l : StronglySorted R l -> StronglySorted R (filter p l).
Proof.
  induction 1 as [|x l S IH F]; cbn [filter]; [constructor|]. destruct (p x); auto. constructor; auto.
  rewrite Forall_forall in *. intros y I. apply filter_In in I as [I _]. auto.
Qed.

Lemma ranges_merge_all l : Forall (fun q => First q <= Last q) l ->
  Forall (fun q => First q <= Last q) (ranges_merge l) /\
  StronglySorted sep (ranges_merge l) /\
  forall r, in_ranges r (ranges_merge l) <-> in_ranges r l /\ (r = 0 -> in_ranges 1 l).
Proof.
  intro F. rewrite ranges_merge_gen.
  pose proof (isort_perm range_ltb l) as P. pose proof (isort_sorted range_ltb range_asym range_trans l) as S.
  assert (F' : Forall (fun q => First q <= Last q) (isort range_ltb l)).
  { rewrite Forall_forall in *. intros x I. apply F. eapply Permutation_in; eauto. }
  assert (M : forall r, in_ranges r (isort range_ltb l) <-> in_ranges r l).
  { intro r. unfold in_ranges. split; intros (p & I & R); exists p; split; auto.
    - now apply (Permutation_in _ P).
    - now apply (Permutation_in _ (Permutation_sym P)). }
  assert (H : Forall (fun q => First q <= Last q) (absorb_all (isort range_ltb l)) /\
    StronglySorted sep (absorb_all (isort range_ltb l)) /\
    forall r, in_ranges r (absorb_all (isort range_ltb l)) <-> in_ranges r l).
  { destruct (isort range_ltb l) as [|p m]; cbn [absorb_all].
    - split; [constructor|]. split; [apply SSorted_nil|exact M].
    - inversion_clear F' as [|? ? F0 F1]. inversion_clear S as [|? ? S1 SF].
      destruct (absorb_spec m p) as (A1 & A2 & A3 & A4); auto.
      { rewrite Forall_forall in *. intros x I. specialize (SF x I). unfold nlt, range_ltb in SF.
          destruct (First x =? First p) eqn:E; lia. }
      repeat split; auto; intro H; [apply M, A4, H|apply A4, M, H]. }
  destruct H as (H1 & H2 & H3). set (m := absorb_all _) in *.
  split; [|split].
  - rewrite Forall_forall in *. intros x I. apply filter_In in I as [I _]. auto.
  - now apply ss_filter.
  - intros r. rewrite <- H3, <- (H3 1). unfold in_ranges, in_range. split.
    + intros (p & I & R). apply filter_In in I as [I Z]. unfold nz in Z. split; [now exists p|]. intros ->. exists p. split; auto. lia.
    + intros ((p & I & R) & Z). destruct (N.eqb_spec (Last p) 0) as [E|E].
      2:{ exists p. split; [apply filter_In; split; auto; unfold nz; lia|auto]. }
      destruct Z as (q & J & Q); [lia|]. exfalso. destruct (In_nth _ _ range0 I) as (a & La & Ea). destruct (In_nth _ _ range0 J) as (b & Lb & Eb).
      assert (SN : forall i j, (i < j < length m)%nat -> sep (nth i m range0) (nth j m range0)).
      { clear - H2. induction H2 as [|x k S IH F]; intros i j L; [cbn in L; lia|]. destruct j as [|j]; [lia|]. cbn [length] in L.
        destruct i as [|i]; cbn [nth]; [|apply IH; lia]. rewrite Forall_forall in F. apply F, nth_In. lia. }
      destruct (Nat.lt_trichotomy a b) as [L|[L|L]].
      * specialize (SN a b ltac:(lia)). rewrite Ea, Eb in SN. unfold sep in SN. lia.
      * subst b. rewrite Ea in Eb. subst q. lia.
      * specialize (SN b a ltac:(lia)). rewrite Ea, Eb in SN. unfold sep in SN. lia.
Qed.
