(** List texts: splitting, sorting and removing duplicates. *)
From Verif Require Import Model.Items Spec.GlobSpec.
From Verif Require Import Proof.Utf8P Proof.SortP Proof.AsciiSetP Proof.SkipP.
From Coq Require Import Permutation Sorting.Sorted Lia ZifyBool ZifyN ZifyNat.

(** the reference: drop an element equal to its successor *)
Fixpoint dd (l : list str) : list str :=
  match l with
  | x :: ((y :: _) as t) => if str_eqb x y then dd t else x :: dd t
  | _ => l
  end.
Lemma dd_cons2 x y t : dd (x :: y :: t) = if str_eqb x y then dd (y :: t) else x :: dd (y :: t).
Proof. reflexivity. Qed.
Lemma dd_in l x : In x (dd l) <-> In x l.
Proof.
  induction l as [|a [|b t] IH]; [reflexivity|reflexivity|]. rewrite dd_cons2. destruct (str_eqb_spec a b) as [->|N].
  - rewrite IH. cbn. tauto.
  - cbn [In] in *. rewrite IH. tauto.
Qed.
Lemma dd_last l x : dd (l ++ [x; x]) = dd (l ++ [x]).
Proof.
  induction l as [|a [|b l] IH].
  - cbn [app]. rewrite !dd_cons2, str_eqb_refl. reflexivity.
  - cbn [app] in *. rewrite (dd_cons2 a x [x]), (dd_cons2 a x []), IH. reflexivity.
  - cbn [app] in *. rewrite (dd_cons2 a b (l ++ [x; x])), (dd_cons2 a b (l ++ [x])), IH. reflexivity.
Qed.
Lemma dd_skip i : forall l : list str, i < length l -> (forall m, m < i -> @nth str m l [] = @nth str (S m) l []) -> dd (skipn i l) = dd l.
Proof.
  induction i as [|i IH]; intros l L H; [reflexivity|]. destruct l as [|a [|b t]]; [cbn in L; lia|cbn in L; lia|].
  cbn [skipn]. rewrite IH.
  - rewrite dd_cons2. assert (E := H 0 ltac:(lia)). cbn in E. subst. now rewrite str_eqb_refl.
  - cbn in *. lia.
  - intros m Lm. apply (H (S m)). lia.
Qed.
Lemma dup_prefix_spec l : (l <> [] -> dup_prefix l < length l) /\ forall m, m < dup_prefix l -> @nth str m l [] = @nth str (S m) l [].
Proof.
  induction l as [|a [|b t] IH]; [split; [easy|cbn; lia]|split; [cbn; lia|cbn; lia]|].
  change (dup_prefix (a :: b :: t)) with (if str_eqb a b then S (dup_prefix (b :: t)) else 0).
  destruct (str_eqb_spec a b) as [->|N].
  - destruct IH as [I1 I2]. split.
    + intros _. cbn [length]. specialize (I1 ltac:(discriminate)). cbn [length] in I1. lia.
    + intros [|m] L; [reflexivity|]. apply (I2 m). lia.
  - split; [cbn; lia|lia].
Qed.
Lemma dup_suffix_spec a i : forall k j, dup_suffix k a i j <= j /\ (i <= j -> i <= dup_suffix k a i j) /\
  forall m, dup_suffix k a i j <= m < j -> @nth str m a [] = @nth str (S m) a [].
Proof.
  induction k as [|k IH]; intro j; cbn [dup_suffix]; [repeat split; auto; lia|].
  destruct (i <? j) eqn:L; [|repeat split; auto; lia].
  destruct (str_eqb_spec (nth (j - 1) a []) (nth j a [])) as [E|N]; [|repeat split; auto; lia].
  destruct (IH (j - 1)) as (A & C & D). repeat split; [lia|intro; apply C; lia|].
  intros m Lm. destruct (Nat.eq_dec m (j - 1)) as [->|Ne]; [|apply D; lia]. replace (S (j - 1)) with j by lia. exact E.
Qed.
Lemma firstn_snoc {A} (d : A) l m : m < length l -> firstn (S m) l = firstn m l ++ [nth m l d].
Proof.
  revert m. induction l as [|x l IH]; intros [|m] L; cbn in *; try lia; [reflexivity|]. f_equal. apply IH. lia.
Qed.
Lemma dd_firstn (a : list str) j : j < length a -> forall j', j' <= j -> (forall m, j' <= m < j -> @nth str m a [] = @nth str (S m) a []) ->
  dd (firstn (S j') a) = dd (firstn (S j) a).
Proof.
  intro L. induction j as [|j IH]; intros j' Lj H.
  - now replace j' with 0 by lia.
  - destruct (Nat.eq_dec j' (S j)) as [->|N]; [reflexivity|]. rewrite IH; [|lia|lia|intros m Lm; apply H; lia].
    rewrite (@firstn_snoc str [] a (S j)) by lia. rewrite (@firstn_snoc str [] a j) by lia. rewrite <- H by lia.
    rewrite <- app_assoc. cbn [app]. now rewrite dd_last.
Qed.

Lemma nth_skipn {A} (d : A) i : forall l m, nth m (skipn i l) d = nth (i + m) l d.
Proof. induction i as [|i IH]; intros [|x l] m; cbn; auto. now destruct m. Qed.
Lemma skipn_cons_nth {A} (d : A) l : forall i, i < length l -> skipn i l = nth i l d :: skipn (S i) l.
Proof.
  induction l as [|x l IH]; intros [|i] L; cbn in *; try lia; [reflexivity|]. apply IH. lia.
Qed.
Lemma firstn_set_nth {A} (x : A) l : forall j, firstn j (set_nth j x l) = firstn j l.
Proof. induction l as [|y l IH]; intros [|j]; cbn; auto. now rewrite IH. Qed.
Lemma skipn_set_nth {A} (x : A) l : forall i j, j < i -> skipn i (set_nth j x l) = skipn i l.
Proof. induction l as [|y l IH]; intros [|i] [|j] L; cbn; try lia; auto. apply IH. lia. Qed.
Lemma dedup_loop_spec : forall fuel (a : list str) i j, j <= i -> i + length (skipn i a) < fuel + i -> 
  let '(a', j') := dedup_loop fuel a i j in firstn j' a' = firstn j a ++ dd (skipn i a).
Proof.
  induction fuel as [|f IH]; intros a i j Lj L; [lia|]. cbn [dedup_loop].
  destruct (i <? length a) eqn:Li.
  - assert (Li' : i < length a) by lia. pose proof (@skipn_cons_nth str [] a i Li') as E1. rewrite E1 in L |- *.
    destruct (i <? length a - 1) eqn:Li2; cbn [andb].
    + assert (Li3 : S i < length a) by lia. pose proof (@skipn_cons_nth str [] a (S i) Li3) as E2. rewrite E2 in L |- *. destruct (str_eqb_spec (nth i a []) (nth (S i) a [])) as [E|N].
      * specialize (IH a (S i) j). destruct (dedup_loop f a (S i) j) as [a' j']. rewrite IH.
        -- rewrite dd_cons2, E, str_eqb_refl. now rewrite (@skipn_cons_nth str [] a (S i)) by lia.
        -- lia.
        -- rewrite (@skipn_cons_nth str [] a (S i)) by lia. cbn [length] in *. lia.
      * specialize (IH (set_nth j (nth i a []) a) (S i) (S j)). destruct (dedup_loop f _ (S i) (S j)) as [a' j'].
        rewrite skipn_set_nth in IH by lia. rewrite IH.
        -- rewrite (@firstn_snoc str []) by (rewrite set_nth_length; lia). rewrite firstn_set_nth, nth_set_nth, Nat.eqb_refl.
           replace (j <? length a) with true by lia. cbn [andb]. rewrite <- app_assoc. f_equal. cbn [app].
           rewrite (@skipn_cons_nth str [] a (S i)) by lia. rewrite dd_cons2. apply str_eqb_neq in N. now rewrite N.
        -- lia.
        -- rewrite (@skipn_cons_nth str [] a (S i)) by lia. cbn [length] in *. lia.
    + assert (E : skipn (S i) a = []) by (apply skipn_all2; lia). rewrite E in L |- *.
      specialize (IH (set_nth j (nth i a []) a) (S i) (S j)). destruct (dedup_loop f _ (S i) (S j)) as [a' j'].
      rewrite skipn_set_nth in IH by lia. rewrite E in IH. rewrite IH.
      * rewrite (@firstn_snoc str []) by (rewrite set_nth_length; lia). rewrite firstn_set_nth, nth_set_nth, Nat.eqb_refl.
        replace (j <? length a) with true by lia. cbn [andb]. rewrite <- app_assoc. reflexivity.
      * lia.
      * cbn in *. lia.
  - rewrite skipn_all2 by lia. cbn. now rewrite app_nil_r.
Qed.
Lemma remove_duplicated_dd a : remove_duplicated a = dd a.
Proof.
  unfold remove_duplicated. set (i := dup_prefix a). set (j := dup_suffix _ _ _ _).
  pose proof (dedup_loop_spec (S (length (skipn i (firstn (S j) a)))) (skipn i (firstn (S j) a)) 0 0 (le_n _)) as H.
  destruct (dedup_loop _ _ 0 0) as [a' j']. rewrite firstn_O in H. change (skipn 0 (skipn i (firstn (S j) a))) with (skipn i (firstn (S j) a)) in H. rewrite H by lia. cbn [app]. clear H.
  destruct a as [|x t]; [now destruct i, j|]. set (a := x :: t) in *. assert (La : 0 < length a) by (cbn; lia).
  destruct (dup_prefix_spec a) as [P1 P2]. specialize (P1 ltac:(discriminate)). fold i in P1, P2.
  destruct (dup_suffix_spec a i (length a) (length a - 1)) as (S1 & S2 & S3). fold j in S1, S2, S3. specialize (S2 ltac:(lia)).
  rewrite dd_skip.
  - rewrite (dd_firstn a (length a - 1)); auto; [|lia]. now replace (S (length a - 1)) with (length a) by lia; rewrite firstn_all.
  - rewrite firstn_length. lia.
  - intros m Lm. specialize (P2 m Lm).
    assert (G : forall k, k <= j -> nth k (firstn (S j) a) [] = nth k a []).
    { intros k Lk. rewrite <- (firstn_skipn (S j) a) at 2. rewrite app_nth1; auto. rewrite firstn_length. lia. }
    rewrite !G by lia. exact P2.
Qed.

Definition str_lt (a b : str) : Prop := str_ltb a b = true.
Lemma dd_sorted l : StronglySorted (nlt str_ltb) l -> StronglySorted str_lt (dd l).
Proof.
  induction l as [|a [|b t] IH]; intro S; [constructor|constructor; constructor|]. rewrite dd_cons2.
  inversion_clear S as [|? ? S' F]. destruct (str_eqb_spec a b) as [->|N]; [now apply IH|].
  constructor; [now apply IH|]. apply Forall_forall. intros x I. apply (proj1 (dd_in _ _)) in I. rewrite Forall_forall in F.
  unfold str_lt. destruct (str_ltb a x) eqn:E; auto. exfalso. apply N.
  assert (Lb : nlt str_ltb a b) by (apply F; now left). unfold nlt in Lb.
  apply str_ltb_total; auto. inversion_clear S' as [|? ? _ F']. destruct I as [<-|I]; auto.
  rewrite Forall_forall in F'. specialize (F' x I). unfold nlt in F'. exact (str_ltb_nlt_trans b x a F' E).
Qed.

(** ListExpand's values *)
Definition norm (vs : list str) : list str := remove_duplicated (isort str_ltb vs).
Lemma norm_in vs x : In x (norm vs) <-> In x vs.
Proof.
  unfold norm. rewrite remove_duplicated_dd, dd_in. split; apply Permutation_in; [|symmetry]; apply isort_perm.
Qed.
Lemma norm_sorted vs : StronglySorted str_lt (norm vs).
Proof. unfold norm. rewrite remove_duplicated_dd. apply dd_sorted, str_isort_sorted. Qed.
Lemma strict_unique (a : list str) : forall b, StronglySorted str_lt a -> StronglySorted str_lt b -> (forall x, In x a <-> In x b) -> a = b.
Proof.
  assert (Irr : forall x, ~ str_lt x x) by (intros x H; unfold str_lt in H; rewrite str_ltb_irrefl in H; discriminate).
  assert (Asym : forall x y, str_lt x y -> str_lt y x -> False) by (intros x y H1 H2; apply str_ltb_asym in H1; unfold str_lt in H2; congruence).
  induction a as [|x a IH]; intros b Sa Sb E.
  - destruct b as [|y b]; auto. exfalso. apply (proj2 (E y)). now left.
  - destruct b as [|y b]; [exfalso; apply (proj1 (E x)); now left|].
    inversion_clear Sa as [|? ? Sa' Fa]. inversion_clear Sb as [|? ? Sb' Fb]. rewrite Forall_forall in Fa, Fb.
    assert (x = y) as ->.
    { destruct (proj1 (E x) (or_introl eq_refl)) as [->|I1]; auto. destruct (proj2 (E y) (or_introl eq_refl)) as [->|I2]; auto.
      exfalso. eapply Asym; eauto. }
    f_equal. apply IH; auto. intro z. split; intro I.
    + destruct (proj1 (E z) (or_intror I)) as [->|]; auto. elim (Irr z). now apply Fa.
    + destruct (proj2 (E z) (or_intror I)) as [->|]; auto. elim (Irr z). now apply Fb.
Qed.
Lemma norm_ext vs vs' : (forall x, In x vs <-> In x vs') -> norm vs = norm vs'.
Proof. intro E. apply strict_unique; try apply norm_sorted. intro x. rewrite !norm_in. apply E. Qed.
Lemma norm_nodup vs : NoDup (norm vs).
Proof.
  induction (norm_sorted vs) as [|x l S IH F]; constructor; auto. rewrite Forall_forall in F. intro I.
  apply F in I. unfold str_lt in I. rewrite str_ltb_irrefl in I. discriminate.
Qed.


Lemma list_expand_braced body : list_expand (braced body) = if null body then Some [] else Some (norm (split_on "," body)).
Proof.
  unfold list_expand, braced, norm. cbn [length nth skipn]. rewrite app_length. cbn [length].
  replace (1 <? S (length body + 1)) with true by lia. cbn [andb].
  replace (S (length body + 1) - 1) with (S (length body)) by lia. cbn [nth].
  rewrite app_nth2, Nat.sub_diag by lia. cbn [nth andb Ascii.eqb].
  replace (S (length body + 1) - 2) with (length body) by lia.
  rewrite firstn_app, Nat.sub_diag, firstn_all, app_nil_r. reflexivity.
Qed.
Lemma not_braced s : (forall body, s <> braced body) -> list_expand s = None.
Proof.
  intro H. unfold list_expand.
  destruct ((1 <? length s)%nat && Ascii.eqb (nth 0 s zero) "{" && Ascii.eqb (nth (length s - 1) s zero) "}") eqn:E; auto.
  exfalso. apply andb_prop in E as [E E3]. apply andb_prop in E as [E1 E2].
  destruct s as [|c s]; [cbn in E1; lia|]. destruct s as [|d s _] using rev_ind; [cbn in E1; lia|].
  cbn [length nth] in *. rewrite app_length in *. cbn [length] in *.
  replace (S (length s + 1) - 1) with (S (length s)) in E3 by lia. cbn [nth] in E3.
  rewrite app_nth2, Nat.sub_diag in E3 by lia. cbn [nth] in E3. apply Ascii.eqb_eq in E2. apply Ascii.eqb_eq in E3.
  subst. now apply (H s).
Qed.

(** splitting *)
Lemma split_on_nonempty c s : split_on c s <> [].
Proof. destruct s as [|x t]; cbn; [discriminate|]. destruct (Ascii.eqb c x); [discriminate|]. destruct (split_on c t); discriminate. Qed.
Lemma split_join c s : join_with c (split_on c s) = s.
Proof.
  induction s as [|x t IH]; [reflexivity|]. cbn [split_on]. pose proof (split_on_nonempty c t) as N.
  destruct (Ascii.eqb_spec c x) as [->|Ne].
  - destruct (split_on x t) as [|h r] eqn:E; [easy|]. change (join_with x ([] :: h :: r)) with (x :: join_with x (h :: r)). now rewrite IH.
  - destruct (split_on c t) as [|h [|h2 r]] eqn:E; [easy| |].
    + cbn in *. now rewrite IH.
    + change (join_with c ((x :: h) :: h2 :: r)) with (x :: join_with c (h :: h2 :: r)). now rewrite IH.
Qed.
Lemma split_no_sep c s v : In v (split_on c s) -> ~ In c v.
Proof.
  revert v. induction s as [|x t IH]; intros v I; cbn [split_on] in I.
  - destruct I as [<-|[]]. easy.
  - destruct (Ascii.eqb_spec c x) as [->|Ne].
    + destruct I as [<-|I]; [easy|]. now apply IH.
    + destruct (split_on c t) as [|h r] eqn:E.
      * destruct I as [<-|[]]. intros [->|[]]. easy.
      * destruct I as [<-|I].
        -- intros [->|J]; [easy|]. apply (IH h); auto. now left.
        -- apply IH. now right.
Qed.
Lemma join_part c l v : In v l -> exists a b, join_with c l = a ++ v ++ b /\ (b = [] \/ exists b', b = c :: b') /\ (a = [] \/ exists a', a = a' ++ [c]).
Proof.
  induction l as [|p [|q l] IH]; intro I; [easy| |].
  - destruct I as [<-|[]]. exists [], []. cbn. rewrite app_nil_r. auto.
  - change (join_with c (p :: q :: l)) with (p ++ c :: join_with c (q :: l)). destruct I as [<-|I].
    + exists [], (c :: join_with c (q :: l)). repeat split; eauto.
    + destruct (IH I) as (a & b & -> & Hb & Ha). exists (p ++ c :: a), b. repeat split; auto.
      * rewrite <- !app_assoc. reflexivity.
      * right. destruct Ha as [->|(a' & ->)]; [now exists p|]. exists (p ++ c :: a'). now rewrite <- app_assoc.
Qed.
Lemma split_part c s v : In v (split_on c s) -> exists a b, s = a ++ v ++ b /\ (b = [] \/ exists b', b = c :: b') /\ (a = [] \/ exists a', a = a' ++ [c]).
Proof. intro I. pose proof (join_part c _ _ I) as H. rewrite split_join in H. exact H. Qed.
