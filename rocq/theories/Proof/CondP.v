(** The order of conditions. *)
From Coq Require Import Lia ZifyBool ZifyN ZifyNat Permutation Sorting.Sorted.
From Verif Require Import Model.GTags Spec.TagSpec Proof.SortP Proof.TagsP Proof.KeyP Proof.TermsP Proof.TotalP.

Definition cond_ltb (a b : str * tagop * str) : bool :=
  let '(ka, oa, va) := a in let '(kb, ob, vb) := b in
  if str_eqb ka kb then if op_eqb oa ob then str_ltb va vb else (op_num oa <? op_num ob)%nat
  else if str_eqb ka name_key then true else if str_eqb kb name_key then false else str_ltb ka kb.
Lemma term_cond a b : term_ltb a b = cond_ltb (condition a) (condition b).
Proof. reflexivity. Qed.
Lemma op_num_inj a b : op_num a = op_num b -> a = b.
Proof. destruct a, b; cbn; congruence. Qed.
Lemma cond_lt_iff ka oa va kb ob vb : cond_ltb (ka, oa, va) (kb, ob, vb) = true <->
  key_lt ka kb \/ (ka = kb /\ ((op_num oa < op_num ob)%nat \/ (oa = ob /\ str_ltb va vb = true))).
Proof.
  unfold cond_ltb. destruct (str_eqb_spec ka kb) as [->|N].
  - unfold op_eqb. destruct (Nat.eqb_spec (op_num oa) (op_num ob)) as [E|E].
    + apply op_num_inj in E as ->. split; [auto|]. intros [H|[_ [H|[_ H]]]]; auto; [now apply key_lt_irrefl in H|lia].
    + split; [intro H; right; split; auto; left; lia|]. intros [H|[_ [H|[H _]]]]; [now apply key_lt_irrefl in H|lia|congruence].
  - transitivity (key_lt ka kb); [|intuition congruence]. rewrite <- kltb_iff. unfold kltb. destruct (str_eqb_spec ka name_key) as [->|NA]; destruct (str_eqb_spec kb name_key) as [->|NB]; cbn; try easy.
Qed.
Lemma cond_asym a b : cond_ltb a b = true -> cond_ltb b a = false.
Proof.
  destruct a as [[ka oa] va], b as [[kb ob] vb]. intro H. apply not_true_is_false. intro H'. apply cond_lt_iff in H, H'.
  destruct H as [H|[-> H]], H' as [H'|[E' H']]; try (subst kb).
  - now apply (key_lt_asym ka kb).
  - now apply key_lt_irrefl in H.
  - now apply key_lt_irrefl in H'.
  - destruct H as [H|[-> H]], H' as [H'|[E2 H']]; try lia; try (subst; lia). apply str_ltb_asym in H. congruence.
Qed.
Lemma cond_total a b : cond_ltb b a = false -> cond_ltb a b = false -> a = b.
Proof.
  destruct a as [[ka oa] va], b as [[kb ob] vb]. intros H H'.
  assert (N : ~ (cond_ltb (ka, oa, va) (kb, ob, vb) = true)) by congruence. assert (N' : ~ (cond_ltb (kb, ob, vb) (ka, oa, va) = true)) by congruence.
  rewrite cond_lt_iff in N, N'. assert (ka = kb) as -> by (apply key_lt_total; tauto).
  assert (oa = ob) as ->. { apply op_num_inj. assert (~ (op_num oa < op_num ob)%nat) by tauto. assert (~ (op_num ob < op_num oa)%nat) by tauto. lia. }
  f_equal. apply str_ltb_total; apply not_true_is_false; tauto.
Qed.
Lemma cond_trans a b c : cond_ltb a b = true -> cond_ltb b c = true -> cond_ltb a c = true.
Proof.
  destruct a as [[ka oa] va], b as [[kb ob] vb], c as [[kc oc] vc]. rewrite !cond_lt_iff. intros [H|[-> H]] [H'|[-> H']]; auto.
  - left. eapply key_lt_trans; eauto.
  - right. split; auto. destruct H as [H|[-> H]], H' as [H'|[-> H']]; auto; try (left; lia). right. split; auto. eapply str_ltb_trans; eauto.
Qed.
Lemma cond_nlt_trans a b c : cond_ltb b a = false -> cond_ltb c b = false -> cond_ltb c a = false.
Proof.
  intros H H'. apply not_true_is_false. intro X. destruct (cond_ltb b c) eqn:E.
  - assert (cond_ltb b a = true) by (eapply cond_trans; eauto). congruence.
  - assert (b = c) as -> by now apply cond_total. congruence.
Qed.

Lemma insert_map t l : map condition (insert_sorted term_ltb t l) = insert_sorted cond_ltb (condition t) (map condition l).
Proof. induction l as [|u l IH]; cbn [insert_sorted map]; auto. rewrite term_cond. destruct (cond_ltb (condition u) (condition t)); cbn [map]; auto. now rewrite IH. Qed.
Lemma isort_map l : map condition (isort term_ltb l) = isort cond_ltb (map condition l).
Proof. induction l as [|u l IH]; cbn [isort map]; auto. now rewrite insert_map, IH. Qed.
Lemma isort_conditions l l' : Permutation l l' -> map condition (isort term_ltb l) = map condition (isort term_ltb l').
Proof. intro P. rewrite !isort_map. apply (isort_unique cond_ltb cond_asym cond_nlt_trans cond_total). now apply Permutation_map. Qed.
Lemma isort_term_perm l : Permutation (isort term_ltb l) l.
Proof. apply isort_perm. Qed.

(** Texts depend on the conditions only. *)
Lemma write_conditions l l' : map condition l = map condition l' -> terms_write l = terms_write l'.
Proof.
  intro E. unfold terms_write. do 2 f_equal. f_equal. revert l' E. induction l as [|t l IH]; intros [|t' l'] E; cbn in E; try discriminate; auto.
  injection E as E1 E2 E3 E. cbn [map]. rewrite (IH l' E). unfold tt_write. now rewrite E1, E2, E3.
Qed.

(** Sorted lists of conditions are ordered by key. *)
Lemma sorted_ordered l : StronglySorted (fun a b => cond_ltb b a = false) (map condition l) -> terms_ordered l.
Proof.
  induction l as [|t l IH]; intro S.
  - intros a x b u E. destruct a; discriminate.
  - cbn [map] in S. apply StronglySorted_inv in S as [S F]. apply ordered_cons. split; auto. intros u I K.
    rewrite Forall_forall in F. specialize (F (condition u) (in_map condition _ _ I)). apply not_true_iff_false in F. apply F. destruct u, t. cbn. apply (cond_lt_iff). left. exact K.
Qed.
Lemma isort_ordered l : terms_ordered (isort term_ltb l).
Proof. apply sorted_ordered. rewrite isort_map. apply (isort_sorted cond_ltb cond_asym cond_nlt_trans). Qed.

(** Parsing of several conditions. *)
Lemma build_fine rx k op v : fine (tt_build rx k op v).
Proof.
  assert (G := glob_parse_fine v). unfold tt_build. destruct op; try (destruct (rx_ok rx v); exact I); destruct (has_wildcard v); try exact I; destruct (glob_parse v); exact G.
Qed.
Lemma condition_fine rx s : fine (parse_condition rx s).
Proof.
  unfold parse_condition. destruct (find_byte _ s) as [[|p]|]; try exact I. repeat match goal with |- context [if ?c then _ else _] => destruct c end; try exact I; apply build_fine.
Qed.
Lemma all_fine rx l : fine (parse_all rx l).
Proof. induction l as [|s l IH]; cbn; [exact I|]. assert (C := condition_fine rx s). destruct (parse_condition rx s); cbn in *; auto. destruct (parse_all rx l); auto. Qed.
Lemma all_iff rx l : forall ts, parse_all rx l = Ok ts <-> Forall2 (fun s t => parse_condition rx s = Ok t) l ts.
Proof.
  induction l as [|s l IH]; intro ts; cbn.
  - split; [intros [= <-]; constructor|now inversion 1].
  - destruct (parse_condition rx s) as [t|e| |] eqn:E; cbn; try (split; [discriminate|inversion 1; congruence]).
    destruct (parse_all rx l) as [us|e| |] eqn:El; cbn.
    + split; [intros [= <-]; constructor; auto; now apply IH|]. inversion 1; subst. apply IH in H4 as [= ->]. congruence.
    + split; [discriminate|]. inversion 1; subst. apply IH in H4. discriminate.
    + split; [discriminate|]. inversion 1; subst. apply IH in H4. discriminate.
    + split; [discriminate|]. inversion 1; subst. apply IH in H4. discriminate.
Qed.
Lemma forall2_perm {A C} (R : A -> C -> Prop) l l' : Permutation l l' -> forall m, Forall2 R l m -> exists m', Permutation m m' /\ Forall2 R l' m'.
Proof.
  induction 1 as [|x l l' P IH|x y l|l l2 l3 P1 IH1 P2 IH2]; intros m F.
  - exists m. auto.
  - inversion F; subst. destruct (IH _ H3) as (m' & Pm & Fm). exists (y :: m'). auto.
  - inversion F; subst. inversion H3; subst. exists (y1 :: y0 :: l'0). split; [apply perm_swap|auto].
  - destruct (IH1 _ F) as (m' & Pm & Fm). destruct (IH2 _ Fm) as (m2 & Pm2 & Fm2). exists m2. split; auto. eapply Permutation_trans; eauto.
Qed.
Lemma conditions_perm rx l l' : Permutation l l' -> 
  (exists ts ts', parse_conditions rx l = Ok ts /\ parse_conditions rx l' = Ok ts' /\ Permutation ts ts' /\ map condition ts = map condition ts') \/
  (exists e e', parse_conditions rx l = Err e /\ parse_conditions rx l' = Err e').
Proof.
  intro P. unfold parse_conditions. assert (F := all_fine rx l). assert (F' := all_fine rx l').
  destruct (parse_all rx l) as [ts|e| |] eqn:E; try easy.
  - apply all_iff in E. destruct (forall2_perm _ _ _ P _ E) as (us & Pu & Fu). apply all_iff in Fu. rewrite Fu. cbn. left. do 2 eexists. split; [reflexivity|]. split; [reflexivity|]. split.
    + eapply Permutation_trans; [apply isort_term_perm|]. eapply Permutation_trans; [exact Pu|]. apply Permutation_sym, isort_term_perm.
    + now apply isort_conditions.
  - destruct (parse_all rx l') as [ts'|e'| |] eqn:E'; try easy.
    + apply all_iff in E'. destruct (forall2_perm _ _ _ (Permutation_sym P) _ E') as (us & Pu & Fu). apply all_iff in Fu. congruence.
    + right. cbn. eauto.
Qed.
