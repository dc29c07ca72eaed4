(** Equal on items is an equivalence that keeps the written text and the meaning. *)
From Verif Require Import Model.Items Spec.Symbols Spec.Lang.
From Verif Require Import Proof.AsciiSetP Proof.SortP Proof.LangP Proof.ListP.
From Coq Require Import Lia ZifyBool ZifyN ZifyNat.

Lemma slice_equal_eq {A} (eqb : A -> A -> bool) (H : forall a b, eqb a b = true -> a = b) : forall x y, slice_equal eqb x y = true -> x = y.
Proof.
  induction x as [|a x IH]; intros [|b y]; cbn; try easy. intro E. apply andb_prop in E as [E1 E2]. f_equal; auto.
Qed.
Lemma rr_equal_eq a b : rr_equal a b = true -> rr_ascii a = rr_ascii b /\ rr_unicode a = rr_unicode b /\ rr_min a = rr_min b /\ rr_max a = rr_max b.
Proof.
  unfold rr_equal. intro H. apply andb_prop in H as [H H4]. apply andb_prop in H as [H H3]. apply andb_prop in H as [H1 H2].
  apply as_eqb_eq in H1. apply Z.eqb_eq in H2. apply Z.eqb_eq in H3. repeat split; auto.
  revert H4. apply slice_equal_eq. intros [f1 l1] [f2 l2]. unfold range_eqb. cbn. intro E. apply andb_prop in E as [E1 E2]. apply N.eqb_eq in E1. apply N.eqb_eq in E2. congruence.
Qed.
Lemma str_eqb_true a b : str_eqb a b = true -> a = b.
Proof. now destruct (str_eqb_spec a b). Qed.
Lemma sl_equal_eq a b : sl_equal a b = true -> sl_min a = sl_min b /\ sl_max a = sl_max b /\ sl_vals a = sl_vals b.
Proof.
  unfold sl_equal. intro H. apply andb_prop in H as [H H3]. apply andb_prop in H as [H1 H2]. apply Z.eqb_eq in H1. apply Z.eqb_eq in H2.
  repeat split; auto. revert H3. apply slice_equal_eq, str_eqb_true.
Qed.

Fixpoint erase (it : item) : item :=
  match it with
  | IRanges rs => IRanges (mkRR (rr_ascii rs) (rr_unicode rs) false (rr_min rs) (rr_max rs))
  | IList l => IList (mkSList false as_empty (sl_vals l) (sl_min l) (sl_max l))
  | IGroup vals _ _ => IGroup (map erase vals) 0 0
  | IChain its _ _ => IChain (map erase its) 0 0
  | _ => it
  end.
Lemma slice_equal_refl {A} (eqb : A -> A -> bool) (H : forall a, eqb a a = true) l : slice_equal eqb l l = true.
Proof. induction l as [|a l IH]; cbn; auto. now rewrite H, IH. Qed.
Lemma range_eqb_refl a : range_eqb a a = true.
Proof. unfold range_eqb. now rewrite !N.eqb_refl. Qed.
Lemma all_erase (vals : list item) : Forall (fun a => forall b, item_equal a b = true <-> erase a = erase b) vals ->
  forall vals', (fix go (x y : list item) : bool :=
         match x, y with
         | [], [] => true
         | a :: x', b :: y' => item_equal a b && go x' y'
         | _, _ => false
         end) vals vals' = true <-> map erase vals = map erase vals'.
Proof.
  induction 1 as [|a l H F IH]; intros [|b l']; cbn [map]; try (split; [discriminate|discriminate]); [easy|].
  rewrite andb_true_iff, H, IH. split; [intros [-> ->]; reflexivity|]. intro E. injection E; auto.
Qed.
Lemma equal_erase : forall a b : item, item_equal a b = true <-> erase a = erase b.
Proof.
  intro a. induction a as [a IHg IHc] using item_ind2. intro b. destruct a, b; cbn [item_equal erase]; try (split; discriminate).
  - rewrite str_eqb_eq. split; congruence.
  - rewrite Ascii.eqb_eq. split; congruence.
  - rewrite N.eqb_eq. split; congruence.
  - rewrite Nat.eqb_eq. split; congruence.
  - rewrite Nat.eqb_eq. split; congruence.
  - split.
    + intro H. apply rr_equal_eq in H as (-> & -> & -> & ->). reflexivity.
    + intro E. injection E as E1 E2 E3 E4. unfold rr_equal, as_eqb. rewrite E1, E2, E3, E4, !Z.eqb_refl, !slice_equal_refl; auto using range_eqb_refl, N.eqb_refl.
  - split.
    + intro H. apply sl_equal_eq in H as (-> & -> & ->). reflexivity.
    + intro E. injection E as E1 E2 E3. unfold sl_equal. rewrite E1, E2, E3, !Z.eqb_refl, slice_equal_refl; auto using str_eqb_refl.
  - rewrite (all_erase vals (IHg _ _ _ eq_refl)). split; congruence.
  - rewrite (all_erase items (IHc _ _ _ eq_refl)). split; congruence.
Qed.
Lemma write_erase : forall a : item, item_write (erase a) = item_write a.
Proof.
  intro a. induction a as [a IHg IHc] using item_ind2. destruct a; cbn [erase item_write]; auto.
  - rewrite map_map. do 3 f_equal. apply map_ext_in. specialize (IHg _ _ _ eq_refl). rewrite Forall_forall in IHg. auto.
  - rewrite map_map. do 1 f_equal. apply map_ext_in. specialize (IHc _ _ _ eq_refl). rewrite Forall_forall in IHc. auto.
Qed.
Lemma equal_refl a : item_equal a a = true.
Proof. now apply equal_erase. Qed.
Lemma equal_sym a b : item_equal a b = true -> item_equal b a = true.
Proof. rewrite !equal_erase. auto. Qed.
Lemma equal_trans a b c : item_equal a b = true -> item_equal b c = true -> item_equal a c = true.
Proof. rewrite !equal_erase. congruence. Qed.
Lemma equal_write a b : item_equal a b = true -> item_write a = item_write b.
Proof. rewrite equal_erase. intro E. rewrite <- (write_erase a), <- (write_erase b). congruence. Qed.
