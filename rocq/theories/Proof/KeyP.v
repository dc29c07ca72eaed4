(** Keys of tags: their order, the positional search. *)
From Coq Require Import Lia ZifyBool ZifyN ZifyNat Permutation Sorting.Sorted.
From Verif Require Import Model.GTags Spec.TagSpec Proof.SortP.

Lemma key_lt_irrefl a : ~ key_lt a a.
Proof. intros [[A B]|[_ A]]; [easy|]. now rewrite str_ltb_irrefl in A. Qed.
Lemma key_lt_trans a b c : key_lt a b -> key_lt b c -> key_lt a c.
Proof.
  intros [[A NB]|[NB A]] [[B' NC]|[NC B']]; subst; try easy; try (left; now split). right. split; auto. eapply str_ltb_trans; eauto.
Qed.
Lemma key_lt_asym a b : key_lt a b -> ~ key_lt b a.
Proof. intros A C. apply (key_lt_irrefl a). eapply key_lt_trans; eauto. Qed.
Definition kltb (a b : str) : bool := negb (str_eqb b name_key) && (str_eqb a name_key || str_ltb a b).
Lemma kltb_iff a b : kltb a b = true <-> key_lt a b.
Proof.
  unfold kltb, key_lt. change (B "__name__") with name_key. destruct (str_eqb_spec b name_key) as [->|N]; cbn.
  - split; [discriminate|]. now intros [[_ H]|[H _]].
  - rewrite orb_true_iff, str_eqb_eq. tauto.
Qed.
Lemma key_lt_total a b : ~ key_lt a b -> ~ key_lt b a -> a = b.
Proof.
  unfold key_lt. change (B "__name__") with name_key. intros H1 H2. destruct (str_eqb_spec a name_key) as [->|NA]; destruct (str_eqb_spec b name_key) as [->|NB]; auto.
  - exfalso. apply H1. left. auto.
  - exfalso. apply H2. left. auto.
  - apply str_ltb_total.
    + destruct (str_ltb b a) eqn:E; auto. exfalso. apply H2. right. auto.
    + destruct (str_ltb a b) eqn:E; auto. exfalso. apply H1. right. auto.
Qed.
Lemma key_nlt_trans a b c : ~ key_lt b a -> ~ key_lt c b -> ~ key_lt c a.
Proof.
  intros H1 H2 H3. destruct (kltb b c) eqn:E.
  - apply kltb_iff in E. apply H1. eapply key_lt_trans; eauto.
  - assert (b = c) as ->. { apply key_lt_total; auto. rewrite <- kltb_iff. congruence. } auto.
Qed.

(** Positions. *)
Definition at_ (keys : list str) (i : Z) : str := nth (Z.to_nat i) keys [].
Lemma key_at_ok keys i : (0 <= i < Z.of_nat (length keys))%Z -> key_at keys i = Ok (at_ keys i).
Proof.
  intro H. unfold key_at, at_. replace (0 <=? i)%Z with true by lia. rewrite (nth_error_nth' keys []) by lia. reflexivity.
Qed.
Lemma sorted_at keys : keys_sorted keys -> forall i j, (0 <= i < j)%Z -> (j < Z.of_nat (length keys))%Z -> key_lt (at_ keys i) (at_ keys j).
Proof.
  intros S i j H L. unfold at_. assert (Hn : (Z.to_nat i < Z.to_nat j < length keys)%nat) by lia. revert Hn. generalize (Z.to_nat i) (Z.to_nat j). clear H L i j.
  induction keys as [|k r IH]; intros i j Hn; [cbn in Hn; lia|]. destruct S as [S1 S2]. destruct j as [|j]; [lia|]. destruct i as [|i].
  - cbn. apply S1. apply nth_In. cbn in Hn. lia.
  - cbn. apply IH; auto. cbn in Hn. lia.
Qed.
Section Find.
  Variable keys : list str.
  Variable key : str.
  Variable lo : Z.
  Hypothesis lo0 : (0 <= lo)%Z.
  Let len := Z.of_nat (length keys).
  Hypothesis sorted : forall i j, (lo <= i < j)%Z -> (j < len)%Z -> str_ltb (at_ keys i) (at_ keys j) = true.
  Definition good_answer (r : option Z) : Prop :=
    match r with Some i => (lo <= i < len)%Z /\ at_ keys i = key | None => forall i, (lo <= i < len)%Z -> at_ keys i <> key end.
  Lemma find_loop_ok : forall fuel low high search, (lo <= low <= search)%Z -> (search <= high < len)%Z ->
    (forall i, (lo <= i < low)%Z -> str_ltb (at_ keys i) key = true) -> (forall i, (high < i < len)%Z -> str_ltb key (at_ keys i) = true) ->
    (high - low < Z.of_nat fuel)%Z -> exists r, find_loop fuel keys key search low high = Ok r /\ good_answer r.
  Proof.
    induction fuel as [|f IH]; intros low high search H1 H2 Lo Hi F; [lia|]. cbn [find_loop]. rewrite key_at_ok by (unfold len in *; lia). cbn [bind].
    destruct (str_eqb_spec key (at_ keys search)) as [E|N].
    - exists (Some search). split; auto. split; auto. lia.
    - destruct (str_ltb key (at_ keys search)) eqn:Lt.
      + assert (Hi' : forall i, (search - 1 < i < len)%Z -> str_ltb key (at_ keys i) = true).
        { intros i Ii. destruct (Z.eq_dec i search) as [->|]; auto. apply (str_ltb_trans _ (at_ keys search)); auto. apply sorted; lia. }
        destruct (Z.ltb_spec (search - 1) low).
        * exists None. split; auto. intros i Ii E. assert (i < low \/ search - 1 < i)%Z as [D|D] by lia.
          -- specialize (Lo i ltac:(lia)). rewrite E, str_ltb_irrefl in Lo. discriminate.
          -- specialize (Hi' i ltac:(lia)). rewrite E, str_ltb_irrefl in Hi'. discriminate.
        * destruct (Z.eqb_spec low (search - 1)).
          -- rewrite key_at_ok by (unfold len in *; lia). cbn [bind]. destruct (str_eqb_spec key (at_ keys low)) as [E|N'].
             ++ exists (Some low). split; auto. split; auto. lia.
             ++ exists None. split; auto. intros i Ii E. assert (i < low \/ i = low \/ search - 1 < i)%Z as [D|[D|D]] by lia.
                ** specialize (Lo i ltac:(lia)). rewrite E, str_ltb_irrefl in Lo. discriminate.
                ** subst i. congruence.
                ** specialize (Hi' i ltac:(lia)). rewrite E, str_ltb_irrefl in Hi'. discriminate.
          -- apply IH; auto; try lia; rewrite Z.quot_div_nonneg by lia; Z.div_mod_to_equations; lia.
      + assert (Gt : str_ltb (at_ keys search) key = true).
        { destruct (str_ltb (at_ keys search) key) eqn:E; auto. exfalso. apply N. now apply str_ltb_total. }
        assert (Lo' : forall i, (lo <= i < search + 1)%Z -> str_ltb (at_ keys i) key = true).
        { intros i Ii. destruct (Z.eq_dec i search) as [->|]; auto. apply (str_ltb_trans _ (at_ keys search)); auto. apply sorted; lia. }
        destruct (Z.ltb_spec high (search + 1)).
        * exists None. split; auto. intros i Ii E. assert (i < search + 1 \/ high < i)%Z as [D|D] by lia.
          -- specialize (Lo' i ltac:(lia)). rewrite E, str_ltb_irrefl in Lo'. discriminate.
          -- specialize (Hi i ltac:(lia)). rewrite E, str_ltb_irrefl in Hi. discriminate.
        * destruct (Z.eqb_spec (search + 1) high).
          -- rewrite key_at_ok by (unfold len in *; lia). cbn [bind]. destruct (str_eqb_spec key (at_ keys (search + 1))) as [E|N'].
             ++ exists (Some (search + 1)%Z). split; auto. split; auto. lia.
             ++ exists None. split; auto. intros i Ii E. assert (i < search + 1 \/ i = search + 1 \/ high < i)%Z as [D|[D|D]] by lia.
                ** specialize (Lo' i ltac:(lia)). rewrite E, str_ltb_irrefl in Lo'. discriminate.
                ** subst i. congruence.
                ** specialize (Hi i ltac:(lia)). rewrite E, str_ltb_irrefl in Hi. discriminate.
          -- apply IH; auto; try lia; rewrite Z.quot_div_nonneg by lia; Z.div_mod_to_equations; lia.
  Qed.
End Find.

Lemma find_key_ok keys key start : keys_sorted keys -> key <> [] -> (start < Z.of_nat (length keys))%Z ->
  exists r, find_key keys key start = Ok r /\
    match r with Some i => (0 <= i)%Z /\ nth_error keys (Z.to_nat i) = Some key | None => ~ In key keys end.
Proof.
  intros S K L. unfold find_key. destruct keys as [|k0 ks] eqn:Ek; [exists None; split; auto|]. rewrite <- Ek in *.
  assert (Hlen : (0 < length keys)%nat) by (rewrite Ek; cbn; lia).
  replace (null keys || null key) with false by (rewrite Ek; destruct key; cbn; auto; easy).
  assert (N0 : nth 0 keys [] = at_ keys 0) by reflexivity. rewrite N0.
  assert (Res : forall lo r, (0 <= lo)%Z -> good_answer keys key lo r -> (forall i, (0 <= i < lo)%Z -> at_ keys i <> key) ->
    match r with Some i => (0 <= i)%Z /\ nth_error keys (Z.to_nat i) = Some key | None => ~ In key keys end).
  { intros lo [i|] Ln G Pre; cbn in *.
    - destruct G as [G1 G2]. split; [lia|]. rewrite (nth_error_nth' keys []) by lia. now f_equal.
    - intro I. apply (In_nth _ _ []) in I as (n & Hn & E). assert (at_ keys (Z.of_nat n) = key) by (unfold at_; now rewrite Nat2Z.id).
      destruct (Z.ltb_spec (Z.of_nat n) lo); [apply (Pre (Z.of_nat n)); auto; lia|]. apply (G (Z.of_nat n)); auto. unfold str in *. lia. }
  assert (NN : forall i, (0 < i < Z.of_nat (length keys))%Z -> at_ keys i <> name_key).
  { intros i Hi E. assert (X := sorted_at keys S 0 i ltac:(lia) ltac:(lia)). rewrite E in X. destruct X as [[_ X]|[X _]]; now apply X. }
  destruct (str_eqb_spec key name_key) as [->|Nk].
  { destruct (str_eqb_spec (at_ keys 0) name_key) as [E|N]; eexists; (split; [reflexivity|]).
    - split; [lia|]. rewrite Ek in *. cbn in *. now f_equal.
    - apply (Res 0%Z None); [lia| |lia]. intros i Hi. destruct (Z.eq_dec i 0) as [->|]; auto. apply NN. lia. }
  set (lo := if str_eqb (at_ keys 0) name_key then 1%Z else 0%Z).
  assert (Hlo : (0 <= lo <= 1)%Z) by (unfold lo; destruct (str_eqb _ _); lia).
  assert (Srt : forall i j, (lo <= i < j)%Z -> (j < Z.of_nat (length keys))%Z -> str_ltb (at_ keys i) (at_ keys j) = true).
  { intros i j Hi Hj. destruct (sorted_at keys S i j ltac:(lia) ltac:(lia)) as [[E N]|[_ E]]; auto. exfalso. destruct (Z.eq_dec i 0) as [->|].
    - unfold lo in Hi. change (B "__name__") with name_key in E. rewrite E, str_eqb_refl in Hi. lia.
    - apply (NN i); auto. lia. }
  assert (Pre : forall i, (0 <= i < lo)%Z -> at_ keys i <> key).
  { intros i Hi E. assert (i = 0%Z) by lia. subst i. unfold lo in Hi. rewrite E in Hi. destruct (str_eqb_spec key name_key); [auto|lia]. }
  assert (Go : forall low high, (lo <= low <= high)%Z -> (high < Z.of_nat (length keys))%Z ->
    (forall i, (lo <= i < low)%Z -> str_ltb (at_ keys i) key = true) -> (forall i, (high < i < Z.of_nat (length keys))%Z -> str_ltb key (at_ keys i) = true) ->
    exists r, find_loop (Datatypes.S (Datatypes.S (length keys))) keys key (if (low + 4 <? Z.quot (low + high) 2)%Z then (low + 4)%Z else Z.quot (low + high) 2) low high = Ok r /\ good_answer keys key lo r).
  { intros low high H1 H2 H3 H4. rewrite Z.quot_div_nonneg by lia. apply find_loop_ok; auto; try lia; destruct (Z.ltb_spec (low + 4) ((low + high) / 2)); Z.div_mod_to_equations; lia. }
  cbv zeta. destruct (Z.ltb_spec lo start) as [Ls|Ls].
  - rewrite key_at_ok by lia. cbn [bind]. destruct (str_eqb_spec (at_ keys start) key) as [E|N].
    + eexists. split; [reflexivity|]. apply (Res lo (Some start)); auto; [lia|]. split; auto. lia.
    + destruct (str_ltb key (at_ keys start)) eqn:Lt.
      * destruct (Go lo (start - 1)%Z) as (r & -> & G); try lia.
        -- intros i Hi. destruct (Z.eq_dec i start) as [->|]; auto. apply (str_ltb_trans _ (at_ keys start)); auto. apply Srt; lia.
        -- exists r. split; auto. apply (Res lo r); auto; lia.
      * assert (Gt : str_ltb (at_ keys start) key = true).
        { destruct (str_ltb (at_ keys start) key) eqn:E; auto. exfalso. apply N. now apply str_ltb_total. }
        destruct (Go start (Z.of_nat (length keys) - 1)%Z) as (r & -> & G); try lia.
        -- intros i Hi. apply (str_ltb_trans _ (at_ keys start)); auto; apply Srt; lia.
        -- exists r. split; auto. apply (Res lo r); auto; lia.
  - destruct (Z.leb_spec lo (Z.of_nat (length keys) - 1)).
    + destruct (Go lo (Z.of_nat (length keys) - 1)%Z) as (r & -> & G); try lia. exists r. split; auto. apply (Res lo r); auto; lia.
    + assert (lo = 1%Z /\ length keys = 1%nat) as [El E1] by lia. rewrite El. replace (Z.of_nat (length keys) - 1)%Z with 0%Z by lia. change (Z.quot (1 + 0) 2) with 0%Z. change (1 + 4 <? 0)%Z with false. cbv iota. cbn [find_loop].
      rewrite (key_at_ok keys 0) by lia. cbn [bind].
      assert (En : at_ keys 0 = name_key). { unfold lo in El. destruct (str_eqb_spec (at_ keys 0) name_key); auto. lia. }
      rewrite En. destruct (str_eqb_spec key name_key); [easy|]. exists None. split; [destruct (str_ltb key name_key); reflexivity|].
      apply (Res lo None); [lia| |auto]. intros i Hi. lia.
Qed.
