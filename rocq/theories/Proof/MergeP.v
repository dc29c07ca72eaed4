(** RunesRangeMerge. *)
From Verif Require Import Model.Ranges Proof.AsciiSetP Proof.SortP.
From Coq Require Import Lia ZifyBool ZifyN ZifyNat Permutation Sorting.Sorted.
Local Open Scope N_scope.

Definition joins (p q : rrange) : bool := (First p =? First q) || (First q <=? Last p + 1).
Definition join (p q : rrange) : rrange := if Last p <? Last q then mkRange (First p) (Last q) else p.
Fixpoint absorb (p : rrange) (l : list rrange) : list rrange :=
  match l with
  | [] => [p]
  | q :: r => if joins p q then absorb (join p q) r else p :: absorb q r
  end.
Definition absorb_all (l : list rrange) : list rrange :=
  match l with [] => [] | p :: r => absorb p r end.

Lemma skipn_nth {A} i (l : list A) d : (i < length l)%nat -> skipn i l = nth i l d :: skipn (S i) l.
Proof.
  revert l. induction i; destruct l; cbn [length skipn nth]; intros; try lia; auto. apply IHi. lia.
Qed.
Lemma skipn_set_nth {A} k i (x : A) l : (i < k)%nat -> skipn k (set_nth i x l) = skipn k l.
Proof. revert k i. induction l; destruct i, k; cbn; intros; auto; try lia. apply IHl. lia. Qed.
Lemma firstn_set_nth {A} k i (x : A) l : (k <= i)%nat -> firstn k (set_nth i x l) = firstn k l.
Proof. revert k i. induction l; destruct i, k; cbn; intros; auto; try lia. f_equal. apply IHl. lia. Qed.
Lemma set_last_length i v l : length (set_last i v l) = length l.
Proof. apply set_nth_length. Qed.

Lemma merge_inner_spec fuel : forall l pos i l' i',
  (pos <= i < length l)%nat -> (length l <= i + fuel)%nat ->
  merge_inner fuel l pos i = (l', i') ->
  length l' = length l /\ (i <= i' < length l)%nat /\ firstn pos l' = firstn pos l /\
  skipn (S i') l' = skipn (S i') l /\ Last (nth pos l range0) <= Last (nth pos l' range0) /\
  absorb (nth pos l range0) (skipn (S i) l) = nth pos l' range0 :: absorb_all (skipn (S i') l).
Proof.
  induction fuel as [|f IH]; intros l pos i l' i' R F; [lia|]. cbn [merge_inner].
  destruct (Nat.ltb_spec (S i) (length l)) as [L|L].
  - rewrite (skipn_nth (S i) l range0 L). cbn [absorb]. unfold joins.
    set (p := nth pos l range0). set (q := nth (S i) l range0).
    destruct ((First p =? First q) || (First q <=? Last p + 1))%bool eqn:J.
    + set (l1 := if Last p <? Last q then set_last pos (Last q) l else l).
      intro E.
      assert (L1 : length l1 = length l) by (unfold l1; destruct (_ <? _); auto using set_last_length).
      assert (L2 : length (set_last (S i) 0 l1) = length l) by now rewrite set_last_length.
      apply IH in E; [|rewrite L2; lia|rewrite L2; lia]. destruct E as (A1 & A2 & A3 & A4 & A5 & A6).
      rewrite L2 in *.
      assert (N1 : nth pos (set_last (S i) 0 l1) range0 = join p q).
      { unfold set_last at 1. rewrite nth_set_nth. destruct (Nat.eqb_spec (S i) pos); [lia|]. cbn [andb].
        unfold l1, join. destruct (Last p <? Last q); auto.
        unfold set_last. rewrite nth_set_nth, Nat.eqb_refl. now replace (pos <? length l)%nat with true by lia. }
      assert (S1 : forall k, (S i < k)%nat -> skipn k (set_last (S i) 0 l1) = skipn k l).
      { intros k Lk. unfold set_last at 1. rewrite skipn_set_nth by lia. unfold l1. destruct (_ <? _); auto.
        unfold set_last. now rewrite skipn_set_nth by lia. }
      rewrite N1 in *. rewrite (S1 (S i')) in A4, A6 by lia. rewrite (S1 (S (S i))) in A6 by lia.
      repeat split; try lia; auto.
      * rewrite A3. unfold set_last at 1. rewrite firstn_set_nth by lia. unfold l1. destruct (_ <? _); auto.
        unfold set_last. now rewrite firstn_set_nth by lia.
      * unfold join in A5. destruct (N.ltb_spec (Last p) (Last q)); cbn [Last] in A5; lia.
    + intro E. injection E as <- <-. repeat split; try lia; auto.
      * unfold p. lia.
      * rewrite (skipn_nth (S i) l range0 L). reflexivity.
  - intro E. injection E as <- <-. repeat split; try lia; auto.
    rewrite (skipn_all2 l) by lia. reflexivity.
Qed.

Lemma nth_firstn_lt {A} k n (l : list A) d : (k < n)%nat -> nth k (firstn n l) d = nth k l d.
Proof. revert k l. induction n; destruct l, k; cbn; intros; auto; try lia. apply IHn. lia. Qed.
Lemma firstn_S {A} i (l : list A) d : (i < length l)%nat -> firstn (S i) l = firstn i l ++ [nth i l d].
Proof. revert l. induction i; destruct l; cbn [length]; intros; try lia; auto. cbn. f_equal. apply IHi. lia. Qed.

Lemma skipn_plus {A} x y (l : list A) : skipn x (skipn y l) = skipn (x + y) l.
Proof.
  revert l. induction y; intro l; [now rewrite Nat.add_0_r|]. replace (x + S y)%nat with (S (x + y)) by lia.
  destruct l; cbn; auto. now destruct x.
Qed.
Lemma Forall_skipn' {A} (P : A -> Prop) n l : Forall P l -> Forall P (skipn n l).
Proof. revert l. induction n; intros l F; cbn; auto. inversion F; auto. Qed.

Lemma merge_outer_spec fuel : forall l i j l' j',
  (j <= i)%nat -> (length l < i + fuel)%nat -> (j <= length l)%nat ->
  Forall (fun r => 0 < Last r) (skipn i l) ->
  merge_outer fuel l i j = (l', j') ->
  firstn j' l' = firstn j l ++ absorb_all (skipn i l).
Proof.
  induction fuel as [|f IH]; intros l i j l' j' J F JL P.
  - cbn. intro E. injection E as <- <-. rewrite (skipn_all2 l) by lia. cbn. now rewrite app_nil_r.
  - cbn [merge_outer]. destruct (Nat.ltb_spec i (length l)) as [L|L].
    2:{ intro E. injection E as <- <-. rewrite (skipn_all2 l) by lia. cbn. now rewrite app_nil_r. }
    destruct (if (i <? length l - 1)%nat then merge_inner (length l) l i i else (l, i)) as [l1 i1] eqn:EI.
    assert (M : length l1 = length l /\ (i <= i1 < length l)%nat /\ firstn i l1 = firstn i l /\
      skipn (S i1) l1 = skipn (S i1) l /\ Last (nth i l range0) <= Last (nth i l1 range0) /\
      absorb (nth i l range0) (skipn (S i) l) = nth i l1 range0 :: absorb_all (skipn (S i1) l)).
    { destruct (Nat.ltb_spec i (length l - 1)) as [L1|L1].
      - eapply merge_inner_spec; eauto; lia.
      - injection EI as <- <-. repeat split; try lia; auto. rewrite (skipn_all2 l) by lia. reflexivity. }
    destruct M as (M1 & M2 & M3 & M4 & M5 & M6). intro E.
    rewrite (skipn_nth i l range0 L) in P |- *. cbn [absorb_all]. rewrite M6.
    inversion_clear P as [|? ? P0 P'].
    set (l2 := if negb (Nat.eqb i j) then set_last i 0 (set_nth j (nth i l1 range0) l1) else l1) in E.
    assert (L2 : length l2 = length l).
    { unfold l2. destruct (negb _); auto. now rewrite set_last_length, set_nth_length. }
    assert (N2 : nth j l2 range0 = nth i l1 range0).
    { unfold l2. destruct (Nat.eqb_spec i j) as [->|NE]; cbn [negb]; auto.
      unfold set_last. rewrite nth_set_nth. destruct (Nat.eqb_spec i j); [lia|]. cbn [andb].
      rewrite nth_set_nth, Nat.eqb_refl. now replace (j <? length l1)%nat with true by lia. }
    assert (S2 : skipn (S i1) l2 = skipn (S i1) l).
    { unfold l2. destruct (Nat.eqb_spec i j) as [->|NE]; cbn [negb]; auto.
      unfold set_last. now rewrite !skipn_set_nth by lia. }
    assert (F2 : firstn j l2 = firstn j l).
    { assert (X : firstn j l1 = firstn j l).
      { replace (firstn j l1) with (firstn j (firstn i l1)) by (rewrite firstn_firstn; f_equal; lia).
        rewrite M3, firstn_firstn. f_equal. lia. }
      unfold l2. destruct (negb (Nat.eqb i j)) eqn:Q; auto.
      unfold set_last. rewrite !firstn_set_nth by lia. auto. }
    rewrite N2 in E. replace (Last (nth i l1 range0) =? 0) with false in E by lia. cbn [negb] in E.
    apply IH in E; try lia.
    + rewrite E, S2. rewrite (firstn_S j l2 range0) by lia. rewrite F2, N2, <- app_assoc. reflexivity.
    + rewrite S2. replace (S i1) with ((i1 - i) + S i)%nat by lia. rewrite <- skipn_plus.
      now apply Forall_skipn'.
Qed.

Lemma range_asym a b : range_ltb a b = true -> range_ltb b a = false.
Proof. unfold range_ltb. intro H. destruct (First a =? First b) eqn:E, (First b =? First a) eqn:E2; lia. Qed.
Lemma range_trans a b c : nlt range_ltb a b -> nlt range_ltb b c -> nlt range_ltb a c.
Proof.
  unfold nlt, range_ltb. intros. destruct (First b =? First a) eqn:E1, (First c =? First b) eqn:E2, (First c =? First a) eqn:E3; lia.
Qed.

Lemma ranges_merge_eq l : Forall (fun r => 0 < Last r) l -> ranges_merge l = absorb_all (isort range_ltb l).
Proof.
  intro P. unfold ranges_merge. destruct (merge_outer _ _ 0 0) as [l' j] eqn:E.
  apply merge_outer_spec in E; try lia.
  - rewrite E. reflexivity.
  - cbn [skipn]. apply Forall_forall. intros x I. rewrite Forall_forall in P. apply P.
    now apply (Permutation_in _ (isort_perm range_ltb l)).
Qed.

(** Well-formed ranges; membership; separation. *)
Definition in_range (r : rune) (p : rrange) : Prop := First p <= r <= Last p.
Definition in_ranges (r : rune) (l : list rrange) : Prop := exists p, In p l /\ in_range r p.
Definition sep (a b : rrange) : Prop := Last a + 1 < First b.

Lemma in_ranges_cons r p l : in_ranges r (p :: l) <-> in_range r p \/ in_ranges r l.
Proof.
  unfold in_ranges. split.
  - intros (q & [->|I] & R); eauto.
  - intros [R|(q & I & R)]; [exists p|exists q]; cbn; auto.
Qed.

Lemma absorb_spec l : forall p,
  First p <= Last p -> Forall (fun q => First q <= Last q) l ->
  Forall (fun q => First p <= First q) l -> StronglySorted (nlt range_ltb) l ->
  Forall (fun q => First q <= Last q) (absorb p l) /\
  Forall (fun q => First p <= First q) (absorb p l) /\
  StronglySorted sep (absorb p l) /\
  forall r, in_ranges r (absorb p l) <-> in_ranges r (p :: l).
Proof.
  induction l as [|q l IH]; intros p W F G S; cbn [absorb].
  - repeat split; auto; try (constructor; auto; lia). repeat constructor.
  - inversion_clear F as [|? ? F0 F']. inversion_clear G as [|? ? G0 G']. inversion_clear S as [|? ? S' SF].
    destruct (joins p q) eqn:J.
    + destruct (IH (join p q)) as (A1 & A2 & A3 & A4); auto.
      * unfold join. destruct (N.ltb_spec (Last p) (Last q)); cbn; lia.
      * unfold join. destruct (_ <? _); auto.
      * repeat split; auto.
        -- unfold join in A2 |- *. destruct (Last p <? Last q); exact A2.
        -- intro H. apply A4 in H. rewrite !in_ranges_cons in *. unfold join in H.
           destruct H as [H|H]; auto. unfold joins in J. unfold in_range in *.
           destruct (N.ltb_spec (Last p) (Last q)); cbn [First Last] in H; [|tauto].
           destruct (N.le_gt_cases r (Last p)); [left|right; left]; lia.
        -- intro H. apply A4. rewrite !in_ranges_cons in *. unfold join. unfold in_range in *.
           destruct H as [H|[H|H]]; auto; left;
           destruct (N.ltb_spec (Last p) (Last q)); cbn [First Last]; lia.
    + destruct (IH q) as (A1 & A2 & A3 & A4); auto.
      { rewrite Forall_forall in *. intros x I. specialize (SF x I). unfold nlt, range_ltb in SF.
        destruct (First x =? First q) eqn:E; lia. }
      assert (A2' : Forall (sep p) (absorb q l)).
      { unfold joins in J. rewrite Forall_forall in *. intros x I. specialize (A2 x I). unfold sep. lia. }
      repeat split.
      * constructor; auto.
      * constructor; [lia|]. rewrite Forall_forall in *. intros x I. specialize (A2 x I). cbn in A2. lia.
      * constructor; auto.
      * rewrite !in_ranges_cons, A4, in_ranges_cons. tauto.
      * rewrite !in_ranges_cons, A4, in_ranges_cons. tauto.
Qed.

Lemma ranges_merge_spec l : Forall (fun q => First q <= Last q /\ 0 < Last q) l ->
  Forall (fun q => First q <= Last q) (ranges_merge l) /\
  StronglySorted sep (ranges_merge l) /\
  forall r, in_ranges r (ranges_merge l) <-> in_ranges r l.
Proof.
  intro F. rewrite ranges_merge_eq.
  2:{ eapply Forall_impl; [|exact F]. cbn. tauto. }
  pose proof (isort_perm range_ltb l) as P. pose proof (isort_sorted range_ltb range_asym range_trans l) as S.
  assert (F' : Forall (fun q => First q <= Last q) (isort range_ltb l)).
  { rewrite Forall_forall in *. intros x I. apply F. eapply Permutation_in; eauto. }
  assert (M : forall r, in_ranges r (isort range_ltb l) <-> in_ranges r l).
  { intro r. unfold in_ranges. split; intros (p & I & R); exists p; split; auto.
    - now apply (Permutation_in _ P).
    - now apply (Permutation_in _ (Permutation_sym P)). }
  destruct (isort range_ltb l) as [|p m]; cbn [absorb_all].
  - split; [constructor|]. split; [apply SSorted_nil|exact M].
  - inversion_clear F' as [|? ? F0 F1]. inversion_clear S as [|? ? S1 SF].
    destruct (absorb_spec m p) as (A1 & A2 & A3 & A4); auto.
    { rewrite Forall_forall in *. intros x I. specialize (SF x I). unfold nlt, range_ltb in SF.
        destruct (First x =? First p) eqn:E; lia. }
    repeat split; auto; intro H; [apply M, A4, H|apply A4, M, H].
Qed.
