(** Sorting: the insertion sort of Model/Bytes.v gives the sorted permutation. *)
From Verif Require Import Model.Bytes.
From Coq Require Import Permutation Sorting.Sorted.

Section S.
  Context {A : Type} (lt : A -> A -> bool).
  (** [le a b]: b is not below a. *)
  Definition nlt (a b : A) : Prop := lt b a = false.
  Hypothesis asym : forall a b, lt a b = true -> lt b a = false.
  Hypothesis trans : forall a b c, nlt a b -> nlt b c -> nlt a c.

  Lemma insert_perm x l : Permutation (insert_sorted lt x l) (x :: l).
  Proof.
    induction l as [|y r IH]; cbn; auto. destruct (lt y x); auto.
    rewrite perm_swap. now constructor.
  Qed.
  Lemma isort_perm l : Permutation (isort lt l) l.
  Proof. induction l as [|x r IH]; cbn; auto. rewrite insert_perm. now constructor. Qed.
  Lemma insert_sorted_sorted x l : StronglySorted nlt l -> StronglySorted nlt (insert_sorted lt x l).
  Proof.
    induction 1 as [|y r SR IH F]; cbn; [repeat constructor|].
    destruct (lt y x) eqn:E.
    - constructor; auto. apply Forall_forall. intros z I.
      apply (Permutation_in _ (insert_perm x r)) in I. destruct I as [<-|I].
      + now apply asym.
      + rewrite Forall_forall in F. now apply F.
    - constructor; [now constructor|]. constructor; auto.
      rewrite Forall_forall in *. intros z I. apply (trans x y z); [exact E|now apply F].
  Qed.
  Lemma isort_sorted l : StronglySorted nlt (isort lt l).
  Proof. induction l; cbn; [constructor|]. now apply insert_sorted_sorted. Qed.

  Hypothesis antisym : forall a b, nlt a b -> nlt b a -> a = b.
  Lemma sorted_unique l : forall l', Permutation l l' -> StronglySorted nlt l -> StronglySorted nlt l' -> l = l'.
  Proof.
    induction l as [|x r IH]; intros l' P S1 S2.
    - now apply Permutation_nil in P.
    - destruct l' as [|y r']; [now apply Permutation_sym, Permutation_nil in P|].
      inversion_clear S1 as [|? ? S1' F1]. inversion_clear S2 as [|? ? S2' F2].
      assert (x = y) as ->.
      { rewrite Forall_forall in F1, F2.
        assert (I1 : In x (y :: r')) by (eapply Permutation_in; [exact P|now left]).
        assert (I2 : In y (x :: r)) by (eapply Permutation_in; [apply Permutation_sym; exact P|now left]).
        destruct I1 as [->|I1]; auto. destruct I2 as [->|I2]; auto. }
      f_equal. apply IH; auto. now apply Permutation_cons_inv in P.
  Qed.
  Lemma isort_unique l l' : Permutation l l' -> isort lt l = isort lt l'.
  Proof.
    intro P. apply sorted_unique; try apply isort_sorted.
    now rewrite !isort_perm.
  Qed.
  Lemma isort_id l : StronglySorted nlt l -> isort lt l = l.
  Proof. intro S. apply sorted_unique; auto; try apply isort_sorted. apply isort_perm. Qed.
End S.

(** Go string comparison. *)
From Verif Require Import Proof.Utf8P.
From Coq Require Import Lia ZifyBool ZifyN ZifyNat.
Lemma str_eqb_eq (a b : str) : str_eqb a b = true <-> a = b.
Proof.
  revert b. induction a as [|x a IH]; destruct b as [|y b]; cbn; split; try discriminate; auto.
  - intro H. apply andb_prop in H as [H1 H2]. apply Ascii.eqb_eq in H1. apply IH in H2. congruence.
  - intro H. injection H as -> ->. rewrite Ascii.eqb_refl. now apply IH.
Qed.
Lemma str_eqb_refl (a : str) : str_eqb a a = true.
Proof. now apply str_eqb_eq. Qed.
Lemma str_eqb_neq (a b : str) : str_eqb a b = false <-> a <> b.
Proof. rewrite <- not_true_iff_false, str_eqb_eq. tauto. Qed.
Lemma str_eqb_spec (a b : str) : reflect (a = b) (str_eqb a b).
Proof. apply iff_reflect. symmetry. apply str_eqb_eq. Qed.
Lemma str_eqb_sym (a b : str) : str_eqb a b = str_eqb b a.
Proof. destruct (str_eqb_spec a b), (str_eqb_spec b a); congruence. Qed.

Lemma str_ltb_irrefl (a : str) : str_ltb a a = false.
Proof. induction a as [|x a IH]; cbn; auto. now rewrite N.ltb_irrefl. Qed.
Lemma str_ltb_asym (a b : str) : str_ltb a b = true -> str_ltb b a = false.
Proof.
  revert b. induction a as [|x a IH]; destruct b as [|y b]; cbn; auto; try discriminate.
  destruct (N.ltb_spec (code x) (code y)), (N.ltb_spec (code y) (code x)); auto; try lia; discriminate.
Qed.
Lemma str_ltb_nlt_trans (a b c : str) : str_ltb b a = false -> str_ltb c b = false -> str_ltb c a = false.
Proof.
  revert b c. induction a as [|x a IH]; destruct b as [|y b], c as [|z c]; cbn; auto; try discriminate.
  destruct (N.ltb_spec (code y) (code x)), (N.ltb_spec (code x) (code y)); try discriminate;
  destruct (N.ltb_spec (code z) (code y)), (N.ltb_spec (code y) (code z)); try discriminate;
  destruct (N.ltb_spec (code z) (code x)), (N.ltb_spec (code x) (code z)); intros; auto; try lia; eauto.
Qed.
Lemma str_ltb_total (a b : str) : str_ltb b a = false -> str_ltb a b = false -> a = b.
Proof.
  revert b. induction a as [|x a IH]; destruct b as [|y b]; cbn; auto; try discriminate.
  destruct (N.ltb_spec (code y) (code x)), (N.ltb_spec (code x) (code y)); try discriminate.
  intros. f_equal; auto. apply code_inj. lia.
Qed.
Lemma str_ltb_trans (a b c : str) : str_ltb a b = true -> str_ltb b c = true -> str_ltb a c = true.
Proof.
  revert b c. induction a as [|x a IH]; destruct b as [|y b], c as [|z c]; cbn; auto; try discriminate.
  destruct (N.ltb_spec (code y) (code x)), (N.ltb_spec (code x) (code y)); try discriminate;
  destruct (N.ltb_spec (code z) (code y)), (N.ltb_spec (code y) (code z)); try discriminate;
  destruct (N.ltb_spec (code z) (code x)), (N.ltb_spec (code x) (code z)); intros; auto; try lia; eauto.
Qed.
Definition str_isort_sorted := isort_sorted str_ltb str_ltb_asym str_ltb_nlt_trans.
Definition str_isort_unique := isort_unique str_ltb str_ltb_asym str_ltb_nlt_trans str_ltb_total.
