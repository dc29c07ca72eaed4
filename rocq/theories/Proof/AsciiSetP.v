(** Lemmas about ASCII sets. *)
From Verif Require Import Model.Utils Proof.Utf8P.
From Coq Require Import Lia ZifyBool ZifyN ZifyNat Sorting.Sorted.
Ltac Zify.zify_post_hook ::= Z.div_mod_to_equations.
Local Open Scope N_scope.

Lemma land_bit x k : negb (N.land x (N.shiftl 1 k) =? 0) = N.testbit x k.
Proof.
  destruct (N.testbit x k) eqn:T.
  - destruct (N.eqb_spec (N.land x (N.shiftl 1 k)) 0) as [E|]; auto.
    assert (H : N.testbit (N.land x (N.shiftl 1 k)) k = false) by (rewrite E; apply N.bits_0).
    rewrite N.land_spec, T, N.shiftl_1_l, N.pow2_bits_true in H. discriminate.
  - destruct (N.eqb_spec (N.land x (N.shiftl 1 k)) 0) as [|E]; auto. exfalso. apply E.
    apply N.bits_inj_0. intro m. rewrite N.land_spec, N.shiftl_1_l.
    destruct (N.eq_dec m k) as [->|]; [now rewrite T|]. rewrite N.pow2_bits_false by auto. apply andb_false_r.
Qed.

Lemma contains_bit a c : as_contains a c =
  (code c <? 128) && N.testbit (nth (N.to_nat (code c / 32)) a 0) (code c mod 32).
Proof.
  unfold as_contains, RuneSelf. rewrite land_bit. destruct (128 <=? code c) eqn:E.
  - now replace (code c <? 128) with false by lia.
  - now replace (code c <? 128) with true by lia.
Qed.

Lemma set_nth_length {A} i (x : A) l : length (set_nth i x l) = length l.
Proof. revert i. induction l; destruct i; cbn; auto. Qed.
Lemma nth_set_nth {A} i j (x d : A) l : nth j (set_nth i x l) d =
  if (Nat.eqb i j && (i <? length l)%nat)%bool then x else nth j l d.
Proof.
  revert i j. induction l as [|y l IH]; intros [|i] [|j]; cbn [set_nth nth length]; try reflexivity.
  all: try (rewrite IH; reflexivity).
  all: cbn; destruct (Nat.eqb i j); reflexivity.
Qed.
Lemma nth_error_set_nth {A} i j (x : A) l : nth_error (set_nth i x l) j =
  if (Nat.eqb i j && (i <? length l)%nat)%bool then Some x else nth_error l j.
Proof.
  revert i j. induction l as [|y l IH]; intros [|i] [|j]; cbn [set_nth nth_error length]; try reflexivity.
  all: try (rewrite IH; reflexivity).
  all: cbn; destruct (Nat.eqb i j); reflexivity.
Qed.

(** Well-formed sets: 8 words, only bits of ASCII bytes. *)
Definition as_ok (a : ascii_set) : Prop :=
  length a = 8%nat /\ forall i j, N.testbit (nth i a 0) j = true -> (i < 4)%nat /\ j < 32.

Lemma as_ok_empty : as_ok as_empty.
Proof.
  split; [reflexivity|]. intros i j. unfold as_empty.
  assert (nth i (repeat 0 8) 0 = 0) as ->.
  { do 9 (destruct i as [|i]; [reflexivity|]). cbn. destruct i; reflexivity. }
  now rewrite N.bits_0.
Qed.
Lemma contains_empty c : as_contains as_empty c = false.
Proof.
  destruct (as_contains as_empty c) eqn:E; auto. rewrite contains_bit in E.
  apply andb_prop in E as [_ E].
  unfold as_empty in E. revert E. generalize (N.to_nat (code c / 32)).
  intros i. do 9 (destruct i as [|i]; [cbn; discriminate|]). cbn. destruct i; discriminate.
Qed.

Lemma as_ok_set_bit a c : as_ok a -> code c < 128 -> as_ok (as_set_bit a c).
Proof.
  intros [L B] H. unfold as_set_bit. split; [now rewrite set_nth_length|].
  intros i j T. rewrite nth_set_nth in T.
  destruct (Nat.eqb_spec (N.to_nat (code c / 32)) i) as [<-|]; [|now apply B].
  rewrite L in T. destruct (Nat.ltb_spec (N.to_nat (code c / 32)) 8); [|now apply B].
  cbn [andb] in T. rewrite N.lor_spec, N.shiftl_1_l in T. apply orb_prop in T as [T|T]; [now apply B|].
  destruct (N.eq_dec j (code c mod 32)) as [->|]; [lia|]. rewrite N.pow2_bits_false in T by auto. discriminate.
Qed.
Lemma contains_set_bit a c d : as_ok a -> code c < 128 ->
  as_contains (as_set_bit a c) d = Ascii.eqb d c || as_contains a d.
Proof.
  intros [L B] H. rewrite !contains_bit. unfold as_set_bit. rewrite nth_set_nth, L.
  destruct (Ascii.eqb_spec d c) as [->|NE].
  - rewrite Nat.eqb_refl. replace (N.to_nat (code c / 32) <? 8)%nat with true by lia. cbn [andb].
    rewrite N.lor_spec, N.shiftl_1_l, N.pow2_bits_true, orb_true_r. cbn. lia.
  - cbn [orb]. destruct (code d <? 128) eqn:Cd; auto. cbn [andb].
    destruct (Nat.eqb_spec (N.to_nat (code c / 32)) (N.to_nat (code d / 32))) as [E|]; auto.
    destruct (Nat.ltb_spec (N.to_nat (code c / 32)) 8); auto. cbn [andb].
    rewrite N.lor_spec, N.shiftl_1_l, N.pow2_bits_false, orb_false_r; auto.
    + now rewrite E.
    + intro X. apply NE, code_inj. lia.
Qed.

Lemma as_ok_add a c : as_ok a -> as_ok (fst (as_add a c)).
Proof.
  intro O. unfold as_add, RuneSelf. destruct (128 <=? code c) eqn:E; auto. apply as_ok_set_bit; auto; lia.
Qed.
Lemma contains_add a c d : as_ok a ->
  as_contains (fst (as_add a c)) d = (Ascii.eqb d c && (code c <? 128)) || as_contains a d.
Proof.
  intro O. unfold as_add, RuneSelf. destruct (128 <=? code c) eqn:E; cbn [fst].
  - replace (code c <? 128) with false by lia. now rewrite andb_false_r.
  - rewrite contains_set_bit by (auto; lia). replace (code c <? 128) with true by lia. now rewrite andb_true_r.
Qed.

(** Sets built by Add. *)
Definition adds (a : ascii_set) (cs : str) : ascii_set := fold_left (fun a c => fst (as_add a c)) cs a.
Lemma as_ok_adds cs : forall a, as_ok a -> as_ok (adds a cs).
Proof. induction cs; intros b O; cbn; auto. apply IHcs. now apply as_ok_add. Qed.
Lemma contains_adds cs d : forall a, as_ok a ->
  as_contains (adds a cs) d = existsb (Ascii.eqb d) cs && (code d <? 128) || as_contains a d.
Proof.
  induction cs as [|c cs IH]; intros a O; cbn [adds fold_left existsb]; auto.
  fold (adds (fst (as_add a c)) cs). rewrite IH by now apply as_ok_add. rewrite contains_add by auto.
  destruct (Ascii.eqb_spec d c) as [->|].
  - cbn [orb andb]. destruct (existsb (Ascii.eqb c) cs); destruct (code c <? 128); destruct (as_contains a c); auto.
  - reflexivity.
Qed.

(** MakeASCIISet. *)
Lemma make_from cs : forall a, as_ok a ->
  snd (make_ascii_set_from a cs) = forallb (fun c => code c <? 128) cs /\
  (snd (make_ascii_set_from a cs) = true -> fst (make_ascii_set_from a cs) = adds a cs).
Proof.
  induction cs as [|c cs IH]; intros a O; cbn [make_ascii_set_from forallb]; auto.
  unfold RuneSelf. destruct (128 <=? code c) eqn:E; cbn [fst snd].
  - replace (code c <? 128) with false by lia. cbn. auto. split; auto. discriminate.
  - replace (code c <? 128) with true by lia. cbn [andb adds fold_left].
    assert (as_add a c = (as_set_bit a c, true)) as H by (unfold as_add, RuneSelf; now rewrite E).
    rewrite H. cbn [fst]. destruct (IH (as_set_bit a c)) as [A B]; [apply as_ok_set_bit; auto; lia|].
    split; auto.
Qed.

(** Extensionality. *)
Lemma as_ext a b : as_ok a -> as_ok b -> (forall c, as_contains a c = as_contains b c) -> a = b.
Proof.
  intros [La Ba] [Lb Bb] E. apply (nth_ext _ _ 0 0); [congruence|]. intros i Li.
  apply N.bits_inj. intro j.
  assert (W : forall x, as_ok x -> (i < 4)%nat -> j < 32 ->
              N.testbit (nth i x 0) j = as_contains x (byte_of (32 * N.of_nat i + j))).
  { intros x _ H1 H2. rewrite contains_bit. rewrite code_byte_of by lia.
    replace (32 * N.of_nat i + j <? 128) with true by lia.
    replace (N.to_nat ((32 * N.of_nat i + j) / 32)) with i by lia.
    replace ((32 * N.of_nat i + j) mod 32) with j by lia. reflexivity. }
  destruct (lt_dec i 4) as [Hi|Hi]; [destruct (N.lt_ge_cases j 32) as [Hj|Hj]|].
  - rewrite !W by (auto; now split). apply E.
  - destruct (N.testbit (nth i a 0) j) eqn:Ta; destruct (N.testbit (nth i b 0) j) eqn:Tb; auto.
    + apply Ba in Ta. lia.
    + apply Bb in Tb. lia.
  - destruct (N.testbit (nth i a 0) j) eqn:Ta; destruct (N.testbit (nth i b 0) j) eqn:Tb; auto.
    + apply Ba in Ta. lia.
    + apply Bb in Tb. lia.
Qed.
Lemma is_empty_iff a : as_ok a -> (as_is_empty a = true <-> forall c, as_contains a c = false).
Proof.
  intro O. split.
  - intros E c. destruct (as_contains a c) eqn:C; auto. exfalso. rewrite contains_bit in C.
    apply andb_prop in C as [C1 C2]. destruct O as [L _].
    unfold as_is_empty in E. rewrite forallb_forall in E.
    assert (In (nth (N.to_nat (code c / 32)) a 0) a) by (apply nth_In; lia).
    apply E in H. apply N.eqb_eq in H. rewrite <- H, N.bits_0 in C2. discriminate.
  - intro H. assert (a = as_empty) as ->; [|reflexivity].
    apply as_ext; auto using as_ok_empty. intro c. now rewrite H, contains_empty.
Qed.
Lemma as_eqb_eq a b : as_eqb a b = true <-> a = b.
Proof.
  unfold as_eqb. revert b. induction a as [|x a IH]; destruct b as [|y b]; cbn; split; try discriminate; auto.
  - intro H. apply andb_prop in H as [H1 H2]. apply N.eqb_eq in H1. apply IH in H2. congruence.
  - intro H. injection H as -> ->. rewrite N.eqb_refl. now apply IH.
Qed.

(** Counting loops. *)
Lemma bytes_from_length lo n : length (bytes_from lo n) = n.
Proof. revert lo. induction n; intros; cbn; auto. Qed.
Lemma in_bytes_from c lo n : lo + N.of_nat n <= 256 ->
  (In c (bytes_from lo n) <-> lo <= code c < lo + N.of_nat n).
Proof.
  revert lo. induction n as [|n IH]; intros lo H.
  - cbn. lia.
  - cbn [bytes_from In]. rewrite IH by lia. split.
    + intros [<-|]; [rewrite code_byte_of by lia; lia|lia].
    + intro R. destruct (N.eq_dec (code c) lo) as [<-|]; [left; apply byte_of_code|right; lia].
Qed.

(** Positions. *)
Lemma find_byte_some p s i : find_byte p s = Some i <->
  ((i < length s)%nat /\ p (nth i s zero) = true /\ forall j, (j < i)%nat -> p (nth j s zero) = false).
Proof.
  revert i. induction s as [|c s IH]; intro i; cbn [find_byte length].
  - split; [discriminate|lia].
  - destruct (p c) eqn:E.
    + split.
      * intro H; injection H as <-. cbn. repeat split; auto; lia.
      * intros (L & H & B). destruct i; auto. specialize (B 0%nat ltac:(lia)). cbn in B. congruence.
    + destruct (find_byte p s) as [k|] eqn:F; cbn [option_map].
      * split.
        -- intro H; injection H as <-. cbn. destruct (proj1 (IH k) eq_refl) as (L & H & B).
           split; [lia|]. split; auto. intros [|j] Lj; cbn; auto. apply B. lia.
        -- intros (L & H & B). destruct i as [|i]; [cbn in H; congruence|]. cbn in H. f_equal. f_equal.
           assert (Some k = Some i) as X; [|now injection X].
           apply IH. split; [lia|]. split; auto. intros j Lj. apply (B (S j)). lia.
      * split; [discriminate|]. intros (L & H & B). destruct i as [|i]; [cbn in H; congruence|].
        exfalso. cbn in H. assert (@None nat = Some i) as X; [|discriminate]. apply IH.
        split; [lia|]. split; auto. intros j Lj. apply (B (S j)). lia.
Qed.
Lemma find_byte_none p s : find_byte p s = None <-> forall c, In c s -> p c = false.
Proof.
  induction s as [|c s IH]; cbn [find_byte In].
  - split; auto. intros _ c [].
  - destruct (p c) eqn:E.
    + split; [discriminate|]. intro H. rewrite (H c) in E by auto. discriminate.
    + destruct (find_byte p s); cbn [option_map].
      * split; [discriminate|]. intro H. assert (Some n = None) as X; [|discriminate]. apply IH. auto.
      * split; auto. intros _ d [<-|I]; auto. now apply IH.
Qed.
Lemma as_last_index_some a s i : as_last_index a s = Some i <->
  ((i < length s)%nat /\ as_contains a (nth i s zero) = true /\
   forall j, (i < j < length s)%nat -> as_contains a (nth j s zero) = false).
Proof.
  unfold as_last_index. destruct (find_byte (as_contains a) (rev s)) as [k|] eqn:F.
  - apply find_byte_some in F as (L & H & B). rewrite rev_length in L. rewrite rev_nth in H by auto.
    split.
    + intro E; injection E as <-. replace (length s - S k)%nat with (length s - 1 - k)%nat in H by lia.
      split; [lia|]. split; auto. intros j Lj. specialize (B (length s - 1 - j)%nat ltac:(lia)).
      rewrite rev_nth in B by lia. now replace (length s - S (length s - 1 - j))%nat with j in B by lia.
    + intros (Li & Hi & Bi). f_equal. destruct (Nat.lt_trichotomy (length s - 1 - k) i) as [X|[X|X]]; auto; exfalso.
      * specialize (B (length s - 1 - i)%nat ltac:(lia)). rewrite rev_nth in B by lia.
        replace (length s - S (length s - 1 - i))%nat with i in B by lia. congruence.
      * rewrite Bi in H by lia. discriminate.
  - split; [discriminate|]. intros (L & H & B). exfalso. rewrite find_byte_none in F.
    rewrite F in H; [discriminate|]. apply in_rev. rewrite rev_involutive. now apply nth_In.
Qed.
Lemma as_last_index_none a s : as_last_index a s = None <-> forall c, In c s -> as_contains a c = false.
Proof.
  unfold as_last_index. destruct (find_byte (as_contains a) (rev s)) as [k|] eqn:F.
  - split; [discriminate|]. intro H. exfalso. apply find_byte_some in F as (L & X & _).
    rewrite H in X; [discriminate|]. apply in_rev. now apply nth_In.
  - split; auto. intros _ c I. rewrite find_byte_none in F. apply F. now apply in_rev in I.
Qed.

(** Count. *)
Lemma count_fold a l n first :
  Forall (fun c => code c <> 0) l ->
  fold_left (fun '(n, first) i =>
         if as_contains a i
         then (S n, if (code first =? 0)%N then i else first)
         else (n, first)) l (n, first) =
  ((n + length (filter (as_contains a) l))%nat,
   if code first =? 0 then hd first (filter (as_contains a) l) else first).
Proof.
  revert n first. induction l as [|c l IH]; intros n first F; cbn [fold_left filter].
  - cbn. rewrite Nat.add_0_r. destruct (code first =? 0); auto.
  - inversion_clear F as [|? ? N0 F']. destruct (as_contains a c).
    + rewrite IH by auto. cbn [length hd]. f_equal; [lia|].
      destruct (code first =? 0) eqn:E; rewrite ?E; auto.
      now replace (code c =? 0) with false by lia.
    + now rewrite IH.
Qed.
Lemma bytes_from_nonzero lo n : 0 < lo -> lo + N.of_nat n <= 256 -> Forall (fun c => code c <> 0) (bytes_from lo n).
Proof.
  revert lo. induction n; intros lo H L; cbn; constructor.
  - rewrite code_byte_of; lia.
  - apply IHn; lia.
Qed.
Lemma count_eq a : as_ok a ->
  as_count a = (length (filter (as_contains a) (bytes_from 1 127)),
                hd zero (filter (as_contains a) (bytes_from 1 127))).
Proof.
  intro O. unfold as_count. destruct (as_is_empty a) eqn:E.
  - rewrite is_empty_iff in E by auto.
    assert (filter (as_contains a) (bytes_from 1 127) = []) as ->; [|reflexivity].
    induction (bytes_from 1 127); cbn; auto. now rewrite E.
  - rewrite count_fold by (apply bytes_from_nonzero; cbn; lia).
    change (byte_of 0) with zero. reflexivity.
Qed.
Lemma bytes_from_sorted lo n : lo + N.of_nat n <= 256 ->
  StronglySorted (fun a b => code a < code b) (bytes_from lo n).
Proof.
  revert lo. induction n; intros lo H; cbn; constructor.
  - apply IHn. lia.
  - apply Forall_forall. intros c I. apply in_bytes_from in I; [|lia]. rewrite code_byte_of; lia.
Qed.
Lemma strongly_sorted_filter {A} (R : A -> A -> Prop) p l :
  StronglySorted R l -> StronglySorted R (filter p l).
Proof.
  induction 1; cbn; [constructor|]. destruct (p a); auto. constructor; auto.
  rewrite Forall_forall in *. intros x I. apply filter_In in I. now apply H0.
Qed.
Lemma strongly_sorted_nodup l :
  StronglySorted (fun a b => code a < code b) l -> NoDup l.
Proof.
  induction 1; constructor; auto. intro I. rewrite Forall_forall in H0. apply H0 in I. lia.
Qed.

Lemma count_members a c : as_ok a ->
  (In c (filter (as_contains a) (bytes_from 1 127)) <-> as_contains a c = true /\ c <> zero).
Proof.
  intro O. rewrite filter_In, in_bytes_from by (cbn; lia). change (N.of_nat 127) with 127. split.
  - intros [R H]. split; auto. intros ->. cbn in R. lia.
  - intros [H NZ]. split; auto. assert (code c < 128) by (rewrite contains_bit in H; lia).
    assert (code c <> 0); [|lia]. intro X. apply NZ. apply code_inj. now rewrite X.
Qed.
Lemma count_spec a l : as_ok a -> NoDup l ->
  (forall c, In c l <-> as_contains a c = true /\ c <> zero) -> fst (as_count a) = length l.
Proof.
  intros O ND H. rewrite count_eq by auto. cbn [fst].
  apply Nat.le_antisymm; apply NoDup_incl_length; auto.
  - apply strongly_sorted_nodup, strongly_sorted_filter, bytes_from_sorted. cbn. lia.
  - intros c I. apply H. exact (proj1 (count_members a c O) I).
  - intros c I. apply (proj2 (count_members a c O)), H, I.
Qed.
Lemma count_first a : as_ok a ->
  (forall c, as_contains a c = true -> c <> zero ->
     code (snd (as_count a)) <= code c /\ as_contains a (snd (as_count a)) = true /\ snd (as_count a) <> zero) /\
  ((forall c, as_contains a c = true -> c = zero) -> snd (as_count a) = zero).
Proof.
  intros O. rewrite count_eq by auto. cbn [snd].
  assert (S : StronglySorted (fun a b => code a < code b) (filter (as_contains a) (bytes_from 1 127))).
  { apply strongly_sorted_filter, bytes_from_sorted. cbn. lia. }
  assert (M : forall c, In c (filter (as_contains a) (bytes_from 1 127)) <-> as_contains a c = true /\ c <> zero)
    by (intro c; exact (count_members a c O)).
  destruct (filter (as_contains a) (bytes_from 1 127)) as [|x l] eqn:E; cbn [hd].
  - split; auto. intros c H1 H2. exfalso. exact (proj2 (M c) (conj H1 H2)).
  - split.
    + intros c H1 H2. destruct (proj1 (M x) (or_introl eq_refl)) as [X1 X2]. split; auto.
      assert (I : In c (x :: l)) by exact (proj2 (M c) (conj H1 H2)). destruct I as [->|I]; [lia|].
      inversion_clear S as [|? ? S' F]. rewrite Forall_forall in F. apply F in I. lia.
    + intro H. exfalso. destruct (proj1 (M x) (or_introl eq_refl)) as [X1 X2]. auto.
Qed.
