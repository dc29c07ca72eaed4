(** Printing classes. *)
From Verif Require Import Model.Ranges Spec.Symbols Spec.Class Spec.SetSpec.
From Verif Require Import Proof.Utf8P Proof.SymbolsP Proof.AsciiSetP Proof.SortP Proof.MergeP Proof.RangesP.
From Coq Require Import Lia ZifyBool ZifyN ZifyNat Permutation Sorting.Sorted.
Ltac Zify.zify_post_hook ::= Z.div_mod_to_equations.
Local Open Scope N_scope.

Definition pr (p : rune * rune) : list rune := if fst p =? snd p then [fst p] else [fst p; dash; snd p].
Lemma encode_all_app a b : encode_all (a ++ b) = encode_all a ++ encode_all b.
Proof. unfold encode_all. now rewrite map_app, concat_app. Qed.

Definition no_dash (p : rune * rune) : Prop := fst p <> dash /\ snd p <> dash.
Lemma pr_head p t ps : no_dash p -> Forall no_dash ps -> forall d t', concat (map pr (p :: ps)) ++ t = d :: t' -> d <> dash.
Proof.
  intros [N _] F d t'. cbn [map concat]. unfold pr at 1. destruct (fst p =? snd p); cbn; intro E; now injection E as <- _.
Qed.
Lemma class_pairs_pr ps : Forall no_dash ps -> class_pairs (concat (map pr ps)) ps.
Proof.
  induction 1 as [|[a b] ps [Na Nb] F IH]; cbn [map concat]; [constructor|].
  unfold pr at 1. cbn [fst snd] in *. destruct (N.eqb_spec a b) as [->|NE].
  - cbn [app]. apply cp_single; auto. intros d t' E. destruct ps as [|p ps]; [discriminate|].
    inversion_clear F as [|? ? Np F']. apply (pr_head p [] ps Np F' d t'). now rewrite app_nil_r.
  - cbn [app]. apply (cp_range a [dash] b); auto; [discriminate|]. repeat constructor.
Qed.

Section Write.
  Variable a : ascii_set.
  Hypothesis Aok : as_ok a.
  Let con (c : N) : Prop := as_contains a (byte_of c) = true.
  Definition run (p : rune * rune) : Prop :=
    1 <= fst p <= snd p /\ snd p < 127 /\ (forall c, fst p <= c <= snd p -> con c) /\
    (fst p = 1 \/ ~ con (fst p - 1)) /\ ~ con (snd p + 1).
  Definition winv (i : N) (st : str * N) : Prop :=
    exists rl, fst st = encode_all (concat (map pr rl)) /\ Forall run rl /\
      (forall c, 1 <= c < (if snd st =? 0 then i else snd st) -> con c -> in_pairs c rl) /\
      (snd st = 0 -> i = 1 \/ ~ con (i - 1)) /\
      (snd st <> 0 -> 1 <= snd st < i /\ (forall c, snd st <= c < i -> con c) /\ (snd st = 1 \/ ~ con (snd st - 1))).

  Lemma winv_step i st : 1 <= i <= 127 -> winv i st -> winv (i + 1) (as_write_step a st (byte_of i)).
  Proof.
    intros Ri (rl & E & R & C & Z & O). destruct st as [out start]. cbn [fst snd] in *. unfold as_write_step.
    rewrite code_byte_of by lia. destruct (as_contains a (byte_of i)) eqn:Ci; fold (con i) in Ci.
    - exists rl. cbn [fst snd]. split; auto. split; auto. destruct (N.eqb_spec start 0) as [->|NZ].
      + cbn [N.eqb] in C. replace (i =? 0) with false by lia. split; [intros c Rc; apply C; lia|]. split; [lia|].
        intros _. split; [lia|]. split; [intros c Rc; replace c with i by lia; exact Ci|]. auto.
      + replace (start =? 0) with false in * by lia. split; auto. split; [lia|]. intros _. destruct (O NZ) as (O1 & O2 & O3).
        split; [lia|]. split; auto. intros c Rc. destruct (N.eq_dec c i) as [->|]; [exact Ci|]. apply O2; lia.
    - assert (NC : ~ con i) by (unfold con; rewrite Ci; discriminate).
      destruct (N.eqb_spec start 0) as [->|NZ]; cbn [negb].
      + exists rl. cbn [fst snd]. change (0 =? 0) with true in *. cbn [negb] in *. split; auto. split; auto. split.
        * intros c Rc Cc. apply C; auto. destruct (N.eq_dec c i) as [->|]; [contradiction|lia].
        * split; [|congruence]. intros _. right. now replace (i + 1 - 1) with i by lia.
      + replace (start =? 0) with false in * by lia. destruct (O NZ) as (O1 & O2 & O3).
        exists (rl ++ [(start, i - 1)]). cbn [fst snd]. change (0 =? 0) with true. repeat split.
        * rewrite map_app, concat_app, encode_all_app, <- E. f_equal. cbn [map concat]. rewrite app_nil_r.
          unfold pr. cbn [fst snd]. destruct (N.ltb_spec (start + 1) i).
          -- replace (start =? i - 1) with false by lia. unfold encode_all. cbn [map concat].
             rewrite !encode_ascii by (unfold dash; lia). reflexivity.
          -- replace (start =? i - 1) with true by lia. unfold encode_all. cbn [map concat].
             rewrite !encode_ascii by lia. reflexivity.
        * apply Forall_app. split; auto. constructor; auto. unfold run. cbn [fst snd]. repeat split; try lia; auto.
          -- intros c Rc. apply O2. lia.
          -- now replace (i - 1 + 1) with i by lia.
        * intros c Rc Cc. unfold in_pairs. destruct (N.lt_ge_cases c start) as [L|L].
          -- destruct (C c ltac:(lia) Cc) as (u & v & I & Ruv). exists u, v. split; auto. apply in_or_app. auto.
          -- exists start, (i - 1). split; [apply in_or_app; cbn; auto|].
             destruct (N.eq_dec c i) as [->|]; [contradiction|lia].
        * intros _. right. now replace (i + 1 - 1) with i by lia.
        * congruence.
        * congruence.
        * congruence.
        * congruence.
  Qed.
  Lemma winv_fold n : forall i st, 1 <= i -> i + N.of_nat n <= 128 -> winv i st ->
    winv (i + N.of_nat n) (fold_left (as_write_step a) (bytes_from i n) st).
  Proof.
    induction n as [|n IH]; intros i st L U W; cbn [bytes_from fold_left].
    - now rewrite N.add_0_r.
    - replace (i + N.of_nat (S n)) with ((i + 1) + N.of_nat n) by lia. apply IH; try lia.
      apply winv_step; auto. lia.
  Qed.
  Lemma con_0 c : con c -> c < 128 \/ 256 <= c.
  Proof.
    unfold con. rewrite contains_bit. intro H. apply andb_prop in H as [H _].
    destruct (N.lt_ge_cases c 256); auto. rewrite code_byte_of in H by auto. lia.
  Qed.
  (** The printed text lists the runs of the set. *)
  Lemma as_write_runs : ~ con 127 ->
    exists rl, as_write a = encode_all (concat (map pr rl)) /\ Forall run rl /\
      forall c, 1 <= c < 128 -> (con c <-> in_pairs c rl).
  Proof.
    intro D. unfold as_write. destruct (as_is_empty a) eqn:E.
    - rewrite is_empty_iff in E by auto. exists []. split; auto. split; auto. intros c Rc. unfold con. rewrite E.
      split; [discriminate|]. now intros (u & v & [] & _).
    - pose proof (winv_fold 127 1 ([], 0)) as W.
      destruct (fold_left (as_write_step a) (bytes_from 1 127) ([], 0)) as [out start].
      destruct W as (rl & Eo & R & C & Z & O); [lia|cbn; lia| |].
      { exists []. cbn. repeat split; auto; intros; lia. }
      cbn [fst snd] in *. change (1 + N.of_nat 127) with 128 in *.
      assert (start = 0) as ->.
      { destruct (N.eq_dec start 0); auto. destruct (O n) as (O1 & O2 & _). elim D. apply O2. lia. }
      cbn [N.eqb negb] in *. exists rl. split; auto. split; auto. intros c Rc. split; auto.
      intros (u & v & I & Ruv). rewrite Forall_forall in R. apply (R _ I). exact Ruv.
  Qed.
End Write.

Lemma byte_dash : byte_of dash = "-"%char.
Proof. reflexivity. Qed.

(** Runs do not touch a dash. *)
Lemma run_no_dash a p : (as_contains a "-" = true -> as_contains a "," = true /\ as_contains a "." = true) ->
  run a p -> no_dash p.
Proof.
  intros D (R1 & R2 & R3 & R4 & R5). split; intro E.
  - rewrite E in *. assert (as_contains a "-" = true) as H by (apply (R3 dash); unfold dash in *; lia).
    apply D in H as [H _]. destruct R4 as [R4|R4]; [discriminate|]. now apply R4.
  - rewrite E in *. assert (as_contains a "-" = true) as H by (apply (R3 dash); unfold dash in *; lia).
    apply D in H as [_ H]. now apply R5.
Qed.
Lemma run_good a p : run a p -> good_pairb p = true /\ scalar (fst p) /\ scalar (snd p).
Proof.
  intros (R1 & R2 & R3 & _ & _). destruct p as [u v]. cbn [fst snd] in *. unfold good_pairb. cbn [fst snd].
  unfold scalar, valid_rune, RuneError, rune_len.
  replace (u <? 128) with true by lia. replace (v <? 128) with true by lia. repeat split; lia.
Qed.

Definition print_ok (a : ascii_set) : Prop :=
  as_contains a zero = false /\ as_contains a (byte_of 127) = false /\
  (as_contains a "-" = true -> as_contains a "," = true /\ as_contains a "." = true).

(** Printed unicode ranges as pairs. *)
Definition upair (r : rrange) : rune * rune := (First r, Last r).
Lemma rr_write_pairs rs : as_ok (rr_ascii rs) -> print_ok (rr_ascii rs) ->
  exists rl, Forall (run (rr_ascii rs)) rl /\ (forall c, c < 128 -> (as_contains (rr_ascii rs) (byte_of c) = true <-> in_pairs c rl)) /\
    rr_write rs = bracketed (encode_all (concat (map pr (rl ++ map upair (rr_unicode rs))))).
Proof.
  intros A (P0 & PD & Pm). destruct (as_write_runs (rr_ascii rs) A) as (rl & E & R & C).
  { rewrite PD. discriminate. }
  exists rl. split; auto. split.
  - intros c Lc. destruct (N.eq_dec c 0) as [->|]; [|apply C; lia]. change (byte_of 0) with zero. rewrite P0.
    split; [discriminate|]. intros (u & v & I & Ruv). rewrite Forall_forall in R. destruct (R _ I) as (R1 & _). cbn in R1. lia.
  - unfold rr_write, bracketed. rewrite E. cbn [app]. f_equal. rewrite app_assoc. f_equal.
    rewrite map_app, concat_app, encode_all_app. f_equal.
    induction (rr_unicode rs) as [|q l IH]; [reflexivity|]. cbn [map concat]. rewrite encode_all_app, IH. f_equal.
    unfold pr, upair. cbn [fst snd]. destruct (First q =? Last q); unfold encode_all; cbn [map concat]; rewrite ?app_nil_r; [reflexivity|]. reflexivity.
Qed.

Lemma absorb_sep l : forall p, StronglySorted sep (p :: l) -> Forall (fun q => First q <= Last q) (p :: l) -> absorb p l = p :: l.
Proof.
  induction l as [|q l IH]; intros p S W; cbn [absorb]; auto.
  inversion_clear S as [|? ? S' F]. inversion_clear W as [|? ? W0 W']. rewrite (IH q) by auto.
  inversion_clear F as [|? ? F0 F']. unfold joins, sep in *. replace ((First p =? First q) || (First q <=? Last p + 1)) with false by lia.
  reflexivity.
Qed.
Lemma ss_impl {A} (R R' : A -> A -> Prop) l : (forall x y, In x l -> In y l -> R x y -> R' x y) -> StronglySorted R l -> StronglySorted R' l.
Proof.
  intros H S. induction S as [|x l S IH F]; constructor.
  - apply IH. intros. apply H; cbn; auto.
  - rewrite Forall_forall in *. intros y I. apply H; cbn; auto.
Qed.
Lemma range_antisym a b : nlt range_ltb a b -> nlt range_ltb b a -> a = b.
Proof.
  unfold nlt, range_ltb. destruct a as [a1 a2], b as [b1 b2]. cbn [First Last]. intros H1 H2.
  destruct (b1 =? a1) eqn:E1, (a1 =? b1) eqn:E2; f_equal; lia.
Qed.
Lemma ranges_merge_id l : StronglySorted sep l -> Forall range_ok l -> ranges_merge l = l.
Proof.
  intros S W.
  assert (Q : isort range_ltb l = l).
  { apply (isort_id range_ltb range_asym range_trans range_antisym). eapply ss_impl; [|exact S].
    intros x y Ix Iy Sx. unfold nlt, range_ltb, sep in *. rewrite Forall_forall in W. pose proof (W _ Ix) as X. unfold range_ok in X.
    destruct (First y =? First x) eqn:E1; lia. }
  rewrite ranges_merge_eq.
  - rewrite Q. destruct l as [|p l]; cbn [absorb_all]; auto. apply absorb_sep; auto.
    eapply Forall_impl; [|exact W]. unfold range_ok. intros; lia.
  - eapply Forall_impl; [|exact W]. unfold range_ok. intros; lia.
Qed.

Lemma fold_add_pair_ascii ps : forall rs, Forall (fun p => fst p <= 127) ps -> rr_unicode (fold_left add_pair ps rs) = rr_unicode rs /\ rr_need_merge (fold_left add_pair ps rs) = rr_need_merge rs.
Proof.
  induction ps as [|[a b] ps IH]; intros rs F; cbn [fold_left]; auto. inversion_clear F as [|? ? F0 F']. cbn [fst] in F0.
  destruct (IH (add_pair rs (a, b)) F') as [-> ->]. unfold add_pair. replace (a <=? 127) with true by lia.
  unfold rr_add_ascii_range. rewrite add_ascii_fold. auto.
Qed.
Lemma fold_add_pair_unicode l : forall rs, Forall range_ok l ->
  rr_unicode (fold_left add_pair (map upair l) rs) = rr_unicode rs ++ l /\
  rr_ascii (fold_left add_pair (map upair l) rs) = rr_ascii rs /\
  rr_need_merge (fold_left add_pair (map upair l) rs) = rr_need_merge rs.
Proof.
  induction l as [|q l IH]; intros rs F; cbn [map fold_left]; [now rewrite app_nil_r|].
  inversion_clear F as [|? ? F0 F']. destruct (IH (add_pair rs (upair q)) F') as (-> & -> & ->).
  unfold add_pair, upair. unfold range_ok in F0. replace (First q <=? 127) with false by lia.
  cbn. rewrite <- app_assoc. destruct q. auto.
Qed.
Lemma mem_ext_sizes rs rs' : sizes_ok rs -> sizes_ok rs' -> (forall r, mem rs r <-> mem rs' r) ->
  rr_min rs = rr_min rs' /\ rr_max rs = rr_max rs'.
Proof.
  intros [B E] [B' E'] M.
  destruct E as [(E1 & E2 & E3)|((r1 & S1 & M1 & L1) & (r2 & S2 & M2 & L2))];
  destruct E' as [(E1' & E2' & E3')|((r1' & S1' & M1' & L1') & (r2' & S2' & M2' & L2'))].
  - now rewrite E1, E2, E1', E2'.
  - exfalso. apply (E3 r1'). now apply M.
  - exfalso. apply (E3' r1). now apply M.
  - destruct S1 as [V1 _], S2 as [V2 _], S1' as [V1' _], S2' as [V2' _].
    pose proof (B' r1 V1 (proj1 (M _) M1)). pose proof (B' r2 V2 (proj1 (M _) M2)).
    pose proof (B r1' V1' (proj2 (M _) M1')). pose proof (B r2' V2' (proj2 (M _) M2')). lia.
Qed.
Lemma in_pairs_app r a b : in_pairs r (a ++ b) <-> in_pairs r a \/ in_pairs r b.
Proof.
  unfold in_pairs. split.
  - intros (u & v & I & R). apply in_app_or in I as [I|I]; [left|right]; eauto.
  - intros [(u & v & I & R)|(u & v & I & R)]; exists u, v; split; auto; apply in_or_app; auto.
Qed.
Lemma in_pairs_upair r l : in_pairs r (map upair l) <-> in_ranges r l.
Proof.
  unfold in_pairs, in_ranges, in_range. split.
  - intros (u & v & I & R). apply in_map_iff in I as (q & E & I). injection E as <- <-. eauto.
  - intros (q & I & R). exists (First q), (Last q). split; auto. apply in_map_iff. exists q. auto.
Qed.

(** Reading back a printed class. *)
Lemma rr_write_reread rs : rs_fin rs -> sizes_ok rs -> rr_need_merge rs = false -> print_ok (rr_ascii rs) ->
  Forall (fun q => scalar (First q) /\ scalar (Last q) /\ rune_len (First q) = rune_len (Last q)) (rr_unicode rs) ->
  ranges_expand (rr_write rs) = Some rs.
Proof.
  intros (A & U & Sep) Sz NM P V. destruct (rr_write_pairs rs A P) as (rl & R & C & W). rewrite W.
  set (ps := rl ++ map upair (rr_unicode rs)).
  assert (G : Forall (fun p => good_pairb p = true /\ scalar (fst p) /\ scalar (snd p) /\ no_dash p) ps).
  { apply Forall_app. split.
    - eapply Forall_impl; [|exact R]. intros p Rp. destruct (run_good _ _ Rp) as (? & ? & ?).
      pose proof (run_no_dash _ _ (proj2 (proj2 P)) Rp). auto.
    - apply Forall_forall. intros p I. apply in_map_iff in I as (q & <- & I). rewrite Forall_forall in U, V.
      specialize (U q I). destruct (V q I) as (V1 & V2 & V3). unfold range_ok in U. unfold upair. cbn [fst snd].
      repeat split; auto; try (apply V1 || apply V2); unfold good_pairb, dash; cbn [fst snd]; lia. }
  assert (Gb : forallb good_pairb ps = true).
  { apply forallb_forall. rewrite Forall_forall in G. intros p I. now apply G. }
  assert (Sc : Forall (fun p => scalar (fst p) /\ scalar (snd p)) ps).
  { eapply Forall_impl; [|exact G]. cbn. tauto. }
  assert (CP : class_pairs (concat (map pr ps)) ps).
  { apply class_pairs_pr. eapply Forall_impl; [|exact G]. cbn. tauto. }
  assert (SL : Forall scalar (concat (map pr ps))).
  { clear - Sc. induction Sc as [|[a b] ps [Sa Sb] F IH]; cbn [map concat]; [constructor|]. apply Forall_app. split; auto.
    unfold pr. cbn [fst snd] in *. assert (scalar dash) by (split; [reflexivity|discriminate]). destruct (a =? b); auto. }
  fold ps. rewrite (ranges_expand_pairs _ ps SL CP), Gb. f_equal.
  destruct (class_of_pairs_spec ps Gb Sc) as ((A' & U' & Sep') & Sz' & M').
  assert (MM : forall r, mem (class_of_pairs ps) r <-> mem rs r).
  { intro r. rewrite M'. unfold ps. rewrite in_pairs_app, in_pairs_upair. unfold mem.
    destruct (N.leb_spec r 127) as [L|L].
    - rewrite C by lia. split; auto. intros [?|(q & I & Rq)]; auto. rewrite Forall_forall in U. specialize (U q I).
      unfold range_ok, in_range in *. lia.
    - split; auto. intros [(u & v & I & Ruv)|?]; auto. rewrite Forall_forall in R. destruct (R _ I) as (R1 & R2 & _).
      cbn [fst snd] in *. lia. }
  destruct (mem_ext_sizes _ _ Sz' Sz MM) as [Emin Emax].
  assert (Ea : rr_ascii (class_of_pairs ps) = rr_ascii rs).
  { apply as_ext; auto. intro c. pose proof (MM (code c)) as X. unfold mem in X. rewrite byte_of_code in X.
    destruct (N.leb_spec (code c) 127).
    - apply eq_true_iff_eq. exact X.
    - rewrite !contains_bit. now replace (code c <? 128) with false by lia. }
  assert (Eu : rr_unicode (fold_left add_pair ps rr_empty) = rr_unicode rs /\ rr_need_merge (fold_left add_pair ps rr_empty) = false).
  { unfold ps. rewrite fold_left_app. destruct (fold_add_pair_unicode (rr_unicode rs) (fold_left add_pair rl rr_empty) U) as (-> & _ & ->).
    destruct (fold_add_pair_ascii rl rr_empty) as [-> ->]; auto.
    eapply Forall_impl; [|exact R]. intros [u v] (R1 & R2 & _). cbn [fst snd] in *. lia. }
  unfold class_of_pairs in *. cbn [rr_min rr_max rr_ascii] in *. rewrite Ea, Emin, Emax. destruct Eu as [-> ->].
  rewrite ranges_merge_id by auto. destruct rs. cbn in *. now subst.
Qed.
