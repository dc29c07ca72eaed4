(** Facts about item languages and single items. *)
From Verif Require Import Model.Glob Spec.Symbols Spec.Lang Spec.Safe.
From Verif Require Import Proof.Utf8P Proof.SymbolsP Proof.SkipP Proof.ClassSearchP Proof.RangesP.
From Coq Require Import Lia ZifyBool ZifyN ZifyNat.

Lemma den_chain its mn mx w : den (IChain its mn mx) w <-> dens its w.
Proof.
  cbn [den]. revert w. induction its as [|i r IH]; intro w; [reflexivity|]. cbn [dens].
  split; intros (w1 & w2 & E & D & H); exists w1, w2; (split; [exact E|split; [exact D|now apply IH]]).
Qed.
Lemma den_group vals mn mx w : den (IGroup vals mn mx) w <-> exists v, In v vals /\ den v w.
Proof.
  cbn [den]. induction vals as [|v r IH].
  - split; [easy|]. now intros (? & [] & _).
  - rewrite IH. split.
    + intros [H|(x & I & D)]; [exists v; split; [now left|auto]|exists x; split; [now right|auto]].
    + intros (x & [->|I] & D); [now left|right; eauto].
Qed.
Lemma dens_app a b w : dens (a ++ b) w <-> exists w1 w2, w = w1 ++ w2 /\ dens a w1 /\ dens b w2.
Proof.
  revert w. induction a as [|i r IH]; intro w; cbn [dens app].
  - split; [intro H; exists [], w; auto|]. intros (w1 & w2 & -> & -> & H). auto.
  - split.
    + intros (w1 & w2 & -> & D & H). apply IH in H as (x & y & -> & X & Y).
      exists (w1 ++ x), y. rewrite app_assoc. split; auto. split; auto. exists w1, x. auto.
    + intros (x & y & -> & (w1 & w2 & -> & D & H) & Y). exists w1, (w2 ++ y). rewrite app_assoc. split; auto. split; auto.
      apply IH. exists w2, y. auto.
Qed.
Lemma dens_one i w : dens [i] w <-> den i w.
Proof.
  cbn [dens]. split.
  - intros (w1 & w2 & -> & D & ->). now rewrite app_nil_r.
  - intro D. exists w, []. now rewrite app_nil_r.
Qed.
Lemma den_val_items v w : den v w <-> dens (val_items v) w.
Proof. destruct v; cbn [val_items]; try (symmetry; apply dens_one). apply den_chain. Qed.
Lemma dens_group_cons vals mn mx R w : dens (IGroup vals mn mx :: R) w <-> exists v, In v vals /\ dens (val_items v ++ R) w.
Proof.
  cbn [dens]. split.
  - intros (w1 & w2 & -> & D & H). apply den_group in D as (v & I & D). exists v. split; auto.
    apply dens_app. exists w1, w2. split; auto. split; auto. now apply den_val_items.
  - intros (v & I & D). apply dens_app in D as (w1 & w2 & -> & D & H). exists w1, w2. split; auto. split; auto.
    apply den_group. exists v. split; auto. now apply den_val_items.
Qed.

(** byte length of symbols *)
Definition bytes (w : list str) : Z := zlen (concat w).
Lemma bytes_app a b : bytes (a ++ b) = (bytes a + bytes b)%Z.
Proof. unfold bytes, zlen. rewrite concat_app, app_length. lia. Qed.
Lemma bytes_symbols s : bytes (symbols s) = zlen s.
Proof. unfold bytes. now rewrite concat_symbols. Qed.
Lemma bytes_nonneg w : (0 <= bytes w)%Z.
Proof. unfold bytes, zlen. lia. Qed.
Lemma zlen_nonneg s : (0 <= zlen s)%Z.
Proof. unfold zlen. lia. Qed.

(** words whose symbols are non-empty and at most 4 bytes *)
Definition word (w : list str) : Prop := exists s, symbols s = w.
Lemma word_symbols s : word (symbols s).
Proof. now exists s. Qed.
Lemma word_app a b : word (a ++ b) -> word a /\ word b.
Proof. intros (s & E). apply symbols_split in E as (_ & A & B). split; eexists; eauto. Qed.
Lemma word_len w : word w -> (Z.of_nat (length w) <= bytes w <= 4 * Z.of_nat (length w))%Z.
Proof.
  intros (s & <-). induction s as [|s NE IH] using symbols_ind; [cbn; lia|].
  rewrite symbols_cons by auto. set (a := firstn _ s) in *. change (a :: ?b) with ([a] ++ b). rewrite bytes_app, app_length. cbn [length].
  pose proof (decode_size_pos s NE). pose proof (decode_size_le4 s). pose proof (decode_size_le s).
  assert (bytes [a] = Z.of_nat (snd (decode_rune s))).
  { unfold bytes, zlen, a. cbn. rewrite app_nil_r, firstn_length_le; auto. }
  unfold str in *. lia.
Qed.

(** Well-formed items. *)
Section Wf.
  Variable u : bool.
  Local Notation wfi := (Lang.wfi u).
  Lemma wfi_group vals mn mx : wfi (IGroup vals mn mx) <->
    (0 <= mn)%Z /\ (mn = 0%Z -> Exists (fun v => item_min v = 0%Z) vals) /\ Forall (fun v => (mn <= item_min v)%Z /\ wfi v) vals.
  Proof.
    cbn [Lang.wfi]. do 2 apply and_iff_compat_l. induction vals as [|v r IH]; [split; constructor|].
    rewrite IH. split; [intros (A & C & D); constructor; auto|intro F; inversion F; tauto].
  Qed.
  Lemma wfi_chain its mn mx : wfi (IChain its mn mx) <->
    mn = fold_right (fun i a => (item_min i + a)%Z) 0%Z its /\ Forall wfi its.
  Proof.
    cbn [Lang.wfi]. apply and_iff_compat_l. induction its as [|v r IH]; [split; constructor|].
    rewrite IH. split; [intros (A & D); constructor; auto|intro F; inversion F; tauto].
  Qed.
End Wf.

(** size of items as trees, for induction *)
Fixpoint isz (it : item) : nat :=
  match it with
  | IGroup vals _ _ => S (list_sum (map isz vals))
  | IChain its _ _ => S (list_sum (map isz its))
  | _ => 1
  end.
Lemma in_list_sum {A} (f : A -> nat) l x : In x l -> f x <= list_sum (map f l).
Proof.
  induction l as [|a l IH]; [easy|]. change (list_sum (map f (a :: l))) with (f a + list_sum (map f l)).
  intros [->|I]; [lia|]. specialize (IH I). lia.
Qed.

Lemma item_ind2 (P : item -> Prop) :
  (forall it, (forall vals mn mx, it = IGroup vals mn mx -> Forall P vals) ->
              (forall its mn mx, it = IChain its mn mx -> Forall P its) -> P it) -> forall it, P it.
Proof.
  intros H it. remember (isz it) as n eqn:E. revert it E. induction n as [n IH] using lt_wf_ind. intros it ->.
  apply H.
  - intros vals mn mx ->. apply Forall_forall. intros v I. apply (IH (isz v)); auto. cbn [isz].
    pose proof (in_list_sum isz vals v I). lia.
  - intros its mn mx ->. apply Forall_forall. intros v I. apply (IH (isz v)); auto. cbn [isz].
    pose proof (in_list_sum isz its v I). lia.
Qed.

Lemma rune_len_pos' r : scalar r -> (1 <= rune_len r)%Z.
Proof. intros [V _]. apply rune_len_pos in V. lia. Qed.

Lemma den_word_min u it : wfi u it -> forall w, word w -> den it w -> (item_min it <= bytes w)%Z.
Proof.
  induction it as [it IG IC] using item_ind2. destruct it; intros W w Ww D; cbn [item_min].
  - cbn in D. subst. rewrite bytes_symbols. lia.
  - cbn in D. subst. cbn. lia.
  - cbn in D. subst. unfold bytes, zlen. cbn [concat]. rewrite app_nil_r, encode_len_valid; [lia|]. apply W.
  - cbn in D. subst. apply word_len in Ww. lia.
  - cbn in D. apply word_len in Ww. lia.
  - cbn in D. destruct D as (x & -> & C). destruct W as (_ & _ & W). apply W in C. unfold bytes. cbn. rewrite app_nil_r. lia.
  - cbn in D, W. destruct W as (_ & W & ? & _). destruct D as [[E ->]|(v & I & ->)]; [cbn; lia|].
    rewrite bytes_symbols. rewrite Forall_forall in W. apply W in I. lia.
  - apply den_group in D as (v & I & D). apply wfi_group in W as (_ & _ & W). rewrite Forall_forall in W. destruct (W _ I) as [L Wv].
    specialize (IG _ _ _ eq_refl). rewrite Forall_forall in IG. specialize (IG v I Wv w Ww D). lia.
  - apply den_chain in D. apply wfi_chain in W as [E W]. specialize (IC _ _ _ eq_refl). subst minsize. clear IG.
    revert w Ww D. induction items as [|i r IH]; intros w Ww D; cbn [fold_right].
    + cbn in D. subst. cbn. lia.
    + cbn in D. destruct D as (w1 & w2 & -> & D1 & D2). inversion IC; inversion W; subst. apply word_app in Ww as [A C].
      rewrite bytes_app. specialize (IH H2 H6 w2 C D2). specialize (H1 H5 w1 A D1). lia.
Qed.

Lemma zlen_0 s : zlen s = 0%Z -> s = [].
Proof. destruct s; auto. unfold zlen. cbn [length]. lia. Qed.

Lemma item_min_nonneg u it : wfi u it -> (0 <= item_min it)%Z.
Proof.
  induction it as [it IG IC] using item_ind2. destruct it; intro W; cbn [item_min]; try (unfold zlen; lia).
  - pose proof (rune_len_pos' _ W). lia.
  - cbn in W. lia.
  - cbn in W. lia.
  - apply wfi_group in W. tauto.
  - apply wfi_chain in W as [-> W]. specialize (IC _ _ _ eq_refl). clear IG. induction items as [|i r IH]; cbn [fold_right]; [lia|].
    inversion IC; inversion W; subst. specialize (IH H2 H6). specialize (H1 H5). lia.
Qed.
(** an item with minimal length 0 matches the empty word *)
Lemma den_min_0 u it : wfi u it -> item_min it = 0%Z -> den it [].
Proof.
  induction it as [it IG IC] using item_ind2. destruct it; intros W E; cbn [item_min] in E; try discriminate.
  - apply zlen_0 in E as ->. reflexivity.
  - pose proof (rune_len_pos' _ W). lia.
  - cbn. lia.
  - cbn. lia.
  - cbn in W. lia.
  - cbn. auto.
  - apply wfi_group in W as (_ & W0 & W). specialize (IG _ _ _ eq_refl). apply den_group.
    apply Exists_exists in W0 as (v & I & E0); auto. exists v. split; auto. rewrite Forall_forall in *.
    apply IG; auto. now apply W.
  - apply den_chain. apply wfi_chain in W as [E' W]. specialize (IC _ _ _ eq_refl). rewrite E in E'. clear E IG.
    induction items as [|i r IH]; [reflexivity|]. cbn [fold_right] in E'.
    inversion IC; inversion W; subst. pose proof (item_min_nonneg _ _ H5).
    assert (0 <= fold_right (fun i a => (item_min i + a)%Z) 0%Z r)%Z.
    { clear - H6. induction H6 as [|i r W F IH]; cbn [fold_right]; [lia|]. pose proof (item_min_nonneg _ _ W). lia. }
    exists [], []. split; auto. split; [apply H1; auto; lia|apply IH; auto; lia].
Qed.
