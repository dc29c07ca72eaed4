(** Character classes. *)
From Verif Require Import Model.Ranges Spec.Symbols Spec.Class Spec.SetSpec.
From Verif Require Import Proof.Utf8P Proof.SymbolsP Proof.AsciiSetP Proof.SortP Proof.MergeP.
From Coq Require Import Lia ZifyBool ZifyN ZifyNat Permutation Sorting.Sorted.
Ltac Zify.zify_post_hook ::= Z.div_mod_to_equations.
Local Open Scope N_scope.

(** range over encoded text *)
Lemma range_from_encode rs : forall f i, Forall (fun r => valid_rune r = true) rs ->
  (length (encode_all rs) <= f)%nat -> map snd (range_from f i (encode_all rs)) = rs.
Proof.
  induction rs as [|r rs IH]; intros f i F L; [now destruct f|].
  inversion_clear F as [|? ? V F']. unfold encode_all in *. cbn [map concat] in *. fold (encode_all rs) in *.
  pose proof (encode_len_pos r) as P. rewrite app_length in L.
  destruct f as [|f]; [lia|]. cbn [range_from].
  destruct (encode_rune r ++ encode_all rs) as [|b s] eqn:E.
  { apply app_eq_nil in E as [E _]. now apply encode_nonempty in E. }
  rewrite <- E, decode_encode by auto. cbn [map snd]. f_equal.
  rewrite skipn_app, skipn_all, Nat.sub_diag. cbn [app skipn]. apply IH; auto. lia.
Qed.
Lemma range_encode rs : Forall (fun r => valid_rune r = true) rs -> map snd (range (encode_all rs)) = rs.
Proof. intro F. now apply range_from_encode. Qed.
Lemma scalar_valid rs : Forall scalar rs -> Forall (fun r => valid_rune r = true) rs.
Proof. apply Forall_impl. now intros a []. Qed.

(** The scan, by intervals. *)
Definition add_pair (rs : rranges) (p : rune * rune) : rranges :=
  let (a, b) := p in
  if a <=? 127 then rr_set_sizes (rr_add_ascii_range rs a b) 1
  else rr_set_sizes (rr_append rs (mkRange a b)) (rune_len a).
Definition good_pairb (p : rune * rune) : bool :=
  (fst p <=? snd p) && (rune_len (fst p) =? rune_len (snd p))%Z.

Lemma add_single_pair rs a : rr_add_single rs a = add_pair rs (a, a).
Proof.
  unfold rr_add_single, add_pair, rr_add_ascii_range. now replace (a + 1 - a) with 1 by lia.
Qed.
Lemma scan_RE t rs : rr_scan t RuneError true rs = rr_scan t RuneError false rs.
Proof. destruct t as [|c t]; cbn [rr_scan]; auto. Qed.
Lemma scan_dashes ds : forall t c b rs, Forall is_dash ds ->
  rr_scan (ds ++ t) c b rs = rr_scan t c (b || negb (null ds)) rs.
Proof.
  induction ds as [|d ds IH]; intros t c b rs F; cbn [app null negb].
  - now rewrite orb_false_r.
  - inversion_clear F as [|? ? D F']. rewrite D. cbn [rr_scan]. change (dash =? 45) with true. cbn [orb].
    rewrite IH by auto. now rewrite orb_true_r.
Qed.
Lemma neq_eqb (a b : N) : a <> b -> (a =? b) = false.
Proof. apply N.eqb_neq. Qed.

Lemma scan_pending c t rs : c <> dash -> scalar c -> Forall scalar t ->
  (forall d t', t = d :: t' -> d <> dash) ->
  rr_scan t c false rs = rr_scan t RuneError false (add_pair rs (c, c)).
Proof.
  intros D [_ S] F H. destruct t as [|d t]; cbn [rr_scan].
  - rewrite (neq_eqb c RuneError) by auto. cbn [negb]. now rewrite add_single_pair.
  - rewrite (neq_eqb d 45) by (apply (H d t); auto). rewrite (neq_eqb c RuneError) by auto.
    cbn [negb]. now rewrite add_single_pair.
Qed.
Lemma scan_first c t rs : c <> dash -> rr_scan (c :: t) RuneError false rs = rr_scan t c false rs.
Proof. intro D. cbn [rr_scan]. now rewrite (neq_eqb c 45) by auto. Qed.

Lemma scan_spec l ps : class_pairs l ps -> Forall scalar l -> forall rs,
  rr_scan l RuneError false rs = if forallb good_pairb ps then Some (fold_left add_pair ps rs) else None.
Proof.
  induction 1 as [|t ps CP IH|c t ps D H CP IH|c ds D H|c ds d t ps D NE H D' CP IH]; intros F rs.
  - reflexivity.
  - inversion_clear F as [|? ? S F']. cbn [rr_scan]. change (dash =? 45) with true. cbn [orb].
    rewrite scan_RE. auto.
  - inversion_clear F as [|? ? S F']. rewrite scan_first, scan_pending by auto. rewrite IH by auto.
    cbn [forallb fold_left]. unfold good_pairb at 2. cbn [fst snd]. now rewrite N.leb_refl, Z.eqb_refl.
  - inversion_clear F as [|? ? S F']. rewrite scan_first by auto.
    rewrite <- (app_nil_r ds), scan_dashes by auto. cbn [rr_scan forallb fold_left]. destruct S as [_ S].
    rewrite (neq_eqb c RuneError), add_single_pair by auto. unfold good_pairb. cbn [fst snd].
    now rewrite N.leb_refl, Z.eqb_refl.
  - inversion_clear F as [|? ? S F']. apply Forall_app in F' as [_ F']. inversion_clear F' as [|? ? S' F''].
    rewrite scan_first by auto. rewrite scan_dashes by auto. cbn [orb].
    replace (negb (null ds)) with true by (destruct ds; auto; congruence).
    cbn [rr_scan]. rewrite (neq_eqb d 45) by auto. destruct S as [Vc Sc]. destruct S' as [Vd Sd].
    rewrite (neq_eqb c RuneError) by auto.
    cbn [forallb fold_left]. unfold good_pairb at 1. unfold add_pair at 2. cbn [fst snd].
    destruct (N.leb_spec c 127) as [Lc|Lc].
    + destruct (N.ltb_spec 127 d) as [Ld|Ld].
      * replace (rune_len c =? rune_len d)%Z with false; [now rewrite andb_false_r|].
        unfold rune_len. replace (c <? 128) with true by lia. replace (d <? 128) with false by lia.
        rewrite Vd. cbn [negb]. destruct (d <? 2048), (d <? 65536); reflexivity.
      * replace (rune_len c =? rune_len d)%Z with true.
        2:{ unfold rune_len. now replace (c <? 128) with true by lia; replace (d <? 128) with true by lia. }
        destruct (N.leb_spec c d); cbn [andb]; auto.
    + destruct (N.leb_spec c d); cbn [andb]; auto. destruct (rune_len c =? rune_len d)%Z; cbn [negb]; auto.
Qed.

Lemma split_dashes (t : list rune) : exists ds r, t = ds ++ r /\ Forall is_dash ds /\
  (forall d r', r = d :: r' -> d <> dash).
Proof.
  induction t as [|c t IH].
  - exists [], []. repeat split; auto. discriminate.
  - destruct (N.eq_dec c dash) as [->|N].
    + destruct IH as (ds & r & -> & F & H). exists (dash :: ds), r. repeat split; auto. constructor; auto. reflexivity.
    + exists [], (c :: t). repeat split; auto. intros d r' E. now injection E as <- _.
Qed.
Lemma class_pairs_total : forall l, exists ps, class_pairs l ps.
Proof.
  intro l. remember (length l) as n eqn:E. revert l E.
  induction n as [n IH] using lt_wf_ind. intros l ->. destruct l as [|c t].
  - exists []. constructor.
  - destruct (N.eq_dec c dash) as [->|N].
    + destruct (IH (length t) ltac:(cbn; lia) t eq_refl) as [ps P]. exists ps. now constructor.
    + destruct (split_dashes t) as (ds & r & -> & F & H). destruct r as [|d r].
      * rewrite app_nil_r. exists [(c, c)]. now constructor.
      * destruct ds as [|d0 ds].
        -- cbn [app] in *. destruct (IH (length (d :: r)) ltac:(cbn; lia) _ eq_refl) as [ps P].
           exists ((c, c) :: ps). constructor; auto.
        -- destruct (IH (length r)) with (l := r) as [ps P]; auto; [cbn; rewrite app_length; cbn; lia|].
           exists ((c, d) :: ps). apply cp_range; auto; [discriminate|]. now apply (H d r).
Qed.

(** Members of a class. *)
Definition range_ok (q : rrange) : Prop := First q <= Last q /\ 127 < First q.
Definition rs_ok (rs : rranges) : Prop := as_ok (rr_ascii rs) /\ Forall range_ok (rr_unicode rs).
Definition mem (rs : rranges) (r : rune) : Prop :=
  if r <=? 127 then as_contains (rr_ascii rs) (byte_of r) = true else in_ranges r (rr_unicode rs).

Lemma rs_ok_empty : rs_ok rr_empty.
Proof. split; [apply as_ok_empty|constructor]. Qed.
Lemma mem_empty r : ~ mem rr_empty r.
Proof. unfold mem. destruct (r <=? 127); [cbn; now rewrite contains_empty|]. now intros (p & [] & _). Qed.

Lemma add_ascii_fold l : forall rs,
  fold_left rr_add_ascii l rs = rr_with_ascii rs (adds (rr_ascii rs) l).
Proof.
  induction l as [|c l IH]; intro rs; cbn [fold_left adds].
  - now destruct rs.
  - rewrite IH. reflexivity.
Qed.

Lemma rs_ok_add_pair rs a b : rs_ok rs -> good_pairb (a, b) = true -> rs_ok (add_pair rs (a, b)).
Proof.
  intros [A U] G. unfold add_pair. destruct (N.leb_spec a 127).
  - unfold rr_add_ascii_range. rewrite add_ascii_fold. split; cbn; auto. now apply as_ok_adds.
  - split; cbn; auto. apply Forall_app. split; auto. constructor; auto. unfold good_pairb in G. cbn in G.
    unfold range_ok. cbn. lia.
Qed.
Lemma mem_add_pair rs a b r : rs_ok rs -> good_pairb (a, b) = true -> scalar a -> scalar b ->
  (mem (add_pair rs (a, b)) r <-> a <= r <= b \/ mem rs r).
Proof.
  intros [A U] G [Va _] [Vb _]. unfold good_pairb in G. cbn [fst snd] in G. unfold mem, add_pair.
  destruct (N.leb_spec a 127) as [La|La].
  - assert (b <= 127).
    { unfold rune_len in G. destruct (N.le_gt_cases b 127); auto.
      replace (a <? 128) with true in G by lia. replace (b <? 128) with false in G by lia.
      rewrite Vb in G. cbn [negb] in G. destruct (b <? 2048), (b <? 65536); lia. }
    unfold rr_add_ascii_range. rewrite add_ascii_fold. cbn [rr_ascii rr_set_sizes rr_with_ascii rr_unicode].
    destruct (N.leb_spec r 127) as [Lr|Lr]; [|split; [tauto|]; intros [?|?]; [lia|auto]].
    rewrite contains_adds by auto. rewrite orb_true_iff, andb_true_iff, existsb_exists.
    assert (E : (exists x, In x (bytes_from a (N.to_nat (b + 1 - a))) /\ Ascii.eqb (byte_of r) x = true) <-> a <= r <= b).
    { split.
      - intros (x & I & Ex). apply Ascii.eqb_eq in Ex as <-. apply in_bytes_from in I; [|lia].
        rewrite code_byte_of in I; lia.
      - intro R. exists (byte_of r). rewrite Ascii.eqb_refl. split; auto. apply in_bytes_from; [lia|].
        rewrite code_byte_of; lia. }
    rewrite E. rewrite code_byte_of by lia. rewrite N.ltb_lt. split; [tauto|]. intros [?|?]; [left; lia|tauto].
  - cbn [rr_ascii rr_set_sizes rr_append rr_unicode].
    destruct (N.leb_spec r 127) as [Lr|Lr]; [split; [tauto|]; intros [?|?]; [lia|auto]|].
    unfold in_ranges. split.
    + intros (p & I & R). apply in_app_or in I as [I|[<-|[]]]; [right|left]; eauto.
    + intros [R|(p & I & R)].
      * exists (mkRange a b). split; [apply in_or_app; cbn; auto|auto].
      * exists p. split; auto. apply in_or_app. auto.
Qed.
Lemma add_pairs_spec ps : forall rs, rs_ok rs -> forallb good_pairb ps = true ->
  Forall (fun p => scalar (fst p) /\ scalar (snd p)) ps ->
  rs_ok (fold_left add_pair ps rs) /\
  forall r, mem (fold_left add_pair ps rs) r <-> in_pairs r ps \/ mem rs r.
Proof.
  induction ps as [|[a b] ps IH]; intros rs O G F; cbn [fold_left].
  - split; auto. intro r. split; auto. intros [(a & b & [] & _)|]; auto.
  - cbn [forallb] in G. apply andb_prop in G as [G0 G]. inversion_clear F as [|? ? [Sa Sb] F']. cbn [fst snd] in *.
    destruct (IH (add_pair rs (a, b))) as [O' M]; auto using rs_ok_add_pair. split; auto.
    intro r. rewrite M, mem_add_pair by auto. unfold in_pairs. split.
    + intros [(u & v & I & R)|[R|R]]; auto; left.
      * exists u, v. cbn. auto.
      * exists a, b. cbn. auto.
    + intros [(u & v & [E|I] & R)|R]; auto.
      * injection E as -> ->. auto.
      * left. eauto.
Qed.
Lemma pairs_scalar l ps : class_pairs l ps -> Forall scalar l -> Forall (fun p => scalar (fst p) /\ scalar (snd p)) ps.
Proof.
  induction 1 as [|t ps CP IH|c t ps D H CP IH|c ds D H|c ds d t ps D NE H D' CP IH]; intros F;
    repeat match goal with
    | H : Forall scalar (_ :: _) |- _ => inversion_clear H
    | H : Forall scalar (_ ++ _) |- _ => apply Forall_app in H as [? ?]
    end; auto.
Qed.
Lemma good_pairb_iff a b : scalar a -> scalar b -> (good_pairb (a, b) = true <-> good_pair (a, b)).
Proof.
  intros [Va _] [Vb _]. unfold good_pairb, good_pair. cbn [fst snd].
  rewrite <- (encode_len_valid a), <- (encode_len_valid b) by auto. lia.
Qed.

(** Lookup. *)
Lemma ss_nth {A} (R : A -> A -> Prop) l d : StronglySorted R l ->
  forall i j, (i < j < length l)%nat -> R (nth i l d) (nth j l d).
Proof.
  induction 1 as [|x l S IH F]; cbn [length]; intros i j L; [lia|].
  destruct j as [|j]; [lia|]. destruct i as [|i]; cbn [nth].
  - rewrite Forall_forall in F. apply F, nth_In. lia.
  - apply IH. lia.
Qed.
Lemma in_ranges_nth r l : in_ranges r l <-> exists k, (k < length l)%nat /\ in_range r (nth k l range0).
Proof.
  unfold in_ranges. split.
  - intros (p & I & R). destruct (In_nth l p range0 I) as (k & L & E). exists k. rewrite E. auto.
  - intros (k & L & R). exists (nth k l range0). split; auto. now apply nth_In.
Qed.
Definition before (a b : rrange) : Prop := Last a < First b.
Lemma contains_loop_spec fuel : forall l c low high,
  StronglySorted before l -> Forall (fun q => First q <= Last q) l -> (1 <= low)%nat -> (high < length l)%nat ->
  (high + 1 < low + fuel)%nat ->
  (contains_loop fuel l c low high = true <-> exists k, (low <= k <= high)%nat /\ in_range c (nth k l range0)).
Proof.
  induction fuel as [|f IH]; intros l c low high S W L1 Lh Lf.
  - cbn. split; [discriminate|]. intros (k & R & _). lia.
  - cbn [contains_loop]. destruct (Nat.leb_spec low high) as [L|L].
    2:{ split; [discriminate|]. intros (k & R & _). lia. }
    set (mid := ((low + high) / 2)%nat). assert (M : (low <= mid <= high)%nat) by (unfold mid; lia).
    assert (B : forall i j, (i < j < length l)%nat -> Last (nth i l range0) < First (nth j l range0)).
    { intros i j R. pose proof (ss_nth before l range0 S i j R) as X. unfold before in X. lia. }
    assert (W' : forall i, (i < length l)%nat -> First (nth i l range0) <= Last (nth i l range0)).
    { intros i R. rewrite Forall_forall in W. apply W, nth_In, R. }
    destruct (N.leb_spec (First (nth mid l range0)) c) as [Hf|Hf]; [destruct (N.leb_spec c (Last (nth mid l range0))) as [Hl|Hl]|].
    + split; auto. intros _. exists mid. split; auto. split; auto.
    + rewrite IH by (auto; lia). split; intros (k & R & I); exists k; split; auto; try lia.
      destruct (Nat.lt_trichotomy k mid) as [X|[->|X]]; try lia; unfold in_range in I; try lia.
      exfalso. pose proof (B k mid ltac:(lia)) as Y. lia.
    + rewrite IH by (auto; lia). split; intros (k & R & I); exists k; split; auto; try lia.
      destruct (Nat.lt_trichotomy k mid) as [X|[->|X]]; try lia; unfold in_range in I; try lia.
      exfalso. pose proof (B mid k ltac:(lia)) as Y. pose proof (W' mid ltac:(lia)). lia.
Qed.
Lemma contains_unicode_spec rs c :
  StronglySorted before (rr_unicode rs) -> Forall (fun q => First q <= Last q) (rr_unicode rs) ->
  (contains_unicode rs c = true <-> in_ranges c (rr_unicode rs)).
Proof.
  intros S W. unfold contains_unicode. set (l := rr_unicode rs) in *.
  destruct l as [|a [|b l0]] eqn:El.
  - split; [discriminate|]. now intros (p & [] & _).
  - rewrite andb_true_iff, !N.leb_le. split.
    + intro R. exists a. cbn. auto.
    + intros (p & [<-|[]] & R). exact R.
  - rewrite <- El in *. assert (L : (2 <= length l)%nat) by (rewrite El; cbn; lia). clear El a b l0.
    set (high := (length l - 1)%nat).
    assert (B : forall i j, (i < j < length l)%nat -> Last (nth i l range0) < First (nth j l range0)).
    { intros i j R. pose proof (ss_nth before l range0 S i j R) as X. unfold before in X. lia. }
    assert (W' : forall i, (i < length l)%nat -> First (nth i l range0) <= Last (nth i l range0)).
    { intros i R. rewrite Forall_forall in W. apply W, nth_In, R. }
    rewrite in_ranges_nth. unfold in_range.
    destruct ((c <? First (nth 0 l range0)) || (Last (nth high l range0) <? c)) eqn:O.
    + split; [discriminate|]. intros (k & Lk & R). exfalso.
      assert (First (nth 0 l range0) <= First (nth k l range0)).
      { destruct k; [lia|]. pose proof (B 0%nat (Datatypes.S k) ltac:(lia)). pose proof (W' 0%nat ltac:(lia)). lia. }
      assert (Last (nth k l range0) <= Last (nth high l range0)).
      { destruct (Nat.eq_dec k high) as [->|]; [lia|]. pose proof (B k high ltac:(unfold high in *; lia)). pose proof (W' high ltac:(unfold high in *; lia)). lia. }
      lia.
    + destruct (N.leb_spec c (Last (nth 0 l range0))) as [H0|H0].
      { split; auto. intros _. exists 0%nat. split; lia. }
      destruct (N.leb_spec (First (nth high l range0)) c) as [H1|H1].
      { split; auto. intros _. exists high. split; [unfold high|]; lia. }
      rewrite contains_loop_spec; auto; try (unfold high; lia). split.
      * intros (k & R & I). exists k. split; auto. unfold high in R. lia.
      * intros (k & R & I). exists k. split; auto. split.
        -- destruct k; lia.
        -- destruct (Nat.eq_dec k high) as [->|]; [lia|]. unfold high in *. lia.
Qed.

(** A class whose ranges are in the final form. *)
Definition rs_fin (rs : rranges) : Prop :=
  as_ok (rr_ascii rs) /\ Forall range_ok (rr_unicode rs) /\ StronglySorted sep (rr_unicode rs).
Lemma fin_contains rs r : rs_fin rs -> (rr_contains rs r = true <-> mem rs r).
Proof.
  intros (A & U & S). unfold rr_contains, mem. destruct (r <=? 127); [tauto|].
  apply contains_unicode_spec.
  - clear - S. induction S as [|x l S IH F]; constructor; auto. eapply Forall_impl; [|exact F].
    unfold sep, before. intros; lia.
  - eapply Forall_impl; [|exact U]. unfold range_ok. intros; lia.
Qed.
Lemma merge_fin rs : rs_ok rs ->
  let rs' := mkRR (rr_ascii rs) (ranges_merge (rr_unicode rs)) (rr_need_merge rs) (rr_min rs) (rr_max rs) in
  rs_fin rs' /\ forall r, mem rs' r <-> mem rs r.
Proof.
  intros [A U]. destruct (ranges_merge_spec (rr_unicode rs)) as (M1 & M2 & M3).
  { eapply Forall_impl; [|exact U]. unfold range_ok. intros; lia. }
  split.
  - split; [exact A|]. cbn [rr_unicode]. split; auto. rewrite Forall_forall in *. intros q I. split; [now apply M1|].
    assert (In_q : in_ranges (First q) (ranges_merge (rr_unicode rs))).
    { exists q. split; auto. specialize (M1 q I). cbn in M1. split; lia. }
    apply M3 in In_q as (p & Ip & Rp). specialize (U p Ip). unfold range_ok, in_range in *. lia.
  - intro r. unfold mem. cbn [rr_ascii rr_unicode]. destruct (r <=? 127); [tauto|apply M3].
Qed.

(** Sizes. *)
Lemma rune_len_range a b r : good_pairb (a, b) = true -> valid_rune a = true -> valid_rune b = true ->
  valid_rune r = true -> a <= r <= b -> rune_len r = rune_len a.
Proof.
  unfold good_pairb. cbn [fst snd]. intros G Va Vb Vr R. unfold rune_len in *. rewrite Va, Vb, Vr in *. cbn [negb] in *.
  destruct (a <? 128) eqn:A1, (b <? 128) eqn:B1, (r <? 128) eqn:R1; try lia;
  destruct (a <? 2048) eqn:A2, (b <? 2048) eqn:B2, (r <? 2048) eqn:R2; try lia;
  destruct (a <? 65536) eqn:A3, (b <? 65536) eqn:B3, (r <? 65536) eqn:R3; try lia.
Qed.
Lemma rune_len_pos r : valid_rune r = true -> (1 <= rune_len r <= 4)%Z.
Proof. intro V. unfold rune_len. rewrite V. cbn. destruct (r <? 128), (r <? 2048), (r <? 65536); lia. Qed.

Definition sizes_ok (rs : rranges) : Prop :=
  (forall r, valid_rune r = true -> mem rs r -> (rr_min rs <= rune_len r <= rr_max rs)%Z) /\
  ((rr_min rs = 0%Z /\ rr_max rs = 0%Z /\ forall r, ~ mem rs r) \/
   ((exists r, scalar r /\ mem rs r /\ rune_len r = rr_min rs) /\
    (exists r, scalar r /\ mem rs r /\ rune_len r = rr_max rs))).
Lemma sizes_ok_empty : sizes_ok rr_empty.
Proof.
  split.
  - intros r _ M. now apply mem_empty in M.
  - left. repeat split. apply mem_empty.
Qed.
Lemma add_pair_min rs a b : rr_min (add_pair rs (a, b)) =
  if ((rune_len a <? rr_min rs) || (rr_min rs =? 0))%Z then rune_len a else rr_min rs.
Proof.
  unfold add_pair. destruct (N.leb_spec a 127).
  - unfold rr_add_ascii_range. rewrite add_ascii_fold. cbn. unfold rune_len. replace (a <? 128) with true by lia. reflexivity.
  - reflexivity.
Qed.
Lemma add_pair_max rs a b : rr_max (add_pair rs (a, b)) =
  if (rr_max rs <? rune_len a)%Z then rune_len a else rr_max rs.
Proof.
  unfold add_pair. destruct (N.leb_spec a 127).
  - unfold rr_add_ascii_range. rewrite add_ascii_fold. cbn. unfold rune_len. replace (a <? 128) with true by lia. reflexivity.
  - reflexivity.
Qed.
Lemma sizes_ok_add_pair rs a b : rs_ok rs -> good_pairb (a, b) = true -> scalar a -> scalar b ->
  sizes_ok rs -> sizes_ok (add_pair rs (a, b)).
Proof.
  intros O G Sa Sb [B E]. unfold sizes_ok. rewrite add_pair_min, add_pair_max.
  pose proof (rune_len_pos a (proj1 Sa)) as Pa.
  assert (Ga : a <= a <= b) by (unfold good_pairb in G; cbn in G; lia).
  assert (Ma : mem (add_pair rs (a, b)) a) by (apply mem_add_pair; auto).
  assert (Z0 : (rr_min rs = 0 -> rr_max rs = 0 /\ forall r, ~ mem rs r)%Z).
  { intro Z. destruct E as [(_ & ? & ?)|((r & S & M & L) & _)]; auto. pose proof (rune_len_pos r (proj1 S)). lia. }
  split.
  - intros r V M. apply mem_add_pair in M; auto. destruct M as [M|M].
    + rewrite (rune_len_range a b r) by (auto; now apply Sa || now apply Sb).
      destruct ((rune_len a <? rr_min rs) || (rr_min rs =? 0))%Z eqn:X1; destruct (rr_max rs <? rune_len a)%Z eqn:X2; lia.
    + specialize (B r V M).
      destruct (rr_min rs =? 0)%Z eqn:X0; [destruct (Z0 ltac:(lia)) as [_ Z]; now apply Z in M|].
      destruct (rune_len a <? rr_min rs)%Z eqn:X1; cbn [orb]; destruct (rr_max rs <? rune_len a)%Z eqn:X2; lia.
  - right. split.
    + destruct ((rune_len a <? rr_min rs) || (rr_min rs =? 0))%Z eqn:X1; [exists a; auto|].
      destruct E as [(? & ? & ?)|((r & S & M & L) & _)]; [lia|]. exists r. rewrite mem_add_pair by auto. auto.
    + destruct (rr_max rs <? rune_len a)%Z eqn:X2; [exists a; auto|].
      destruct E as [(? & ? & ?)|(_ & (r & S & M & L))]; [lia|]. exists r. rewrite mem_add_pair by auto. auto.
Qed.
Lemma sizes_ok_add_pairs ps : forall rs, rs_ok rs -> forallb good_pairb ps = true ->
  Forall (fun p => scalar (fst p) /\ scalar (snd p)) ps -> sizes_ok rs -> sizes_ok (fold_left add_pair ps rs).
Proof.
  induction ps as [|[a b] ps IH]; intros rs O G F S; cbn [fold_left]; auto.
  cbn [forallb] in G. apply andb_prop in G as [G0 G]. inversion_clear F as [|? ? [Sa Sb] F']. cbn [fst snd] in *.
  apply IH; auto using rs_ok_add_pair, sizes_ok_add_pair.
Qed.

(** RunesRangeExpand on bracketed clean text. *)
Definition class_of_pairs (ps : list (rune * rune)) : rranges :=
  let rs := fold_left add_pair ps rr_empty in
  mkRR (rr_ascii rs) (ranges_merge (rr_unicode rs)) (rr_need_merge rs) (rr_min rs) (rr_max rs).

Lemma ranges_expand_bracketed body : ranges_expand (bracketed body) =
  if null body then Some rr_empty
  else match rr_scan (map snd (range body)) RuneError false rr_empty with
       | None => None
       | Some rs => Some (mkRR (rr_ascii rs) (ranges_merge (rr_unicode rs)) (rr_need_merge rs) (rr_min rs) (rr_max rs))
       end.
Proof.
  unfold ranges_expand, bracketed. cbn [length]. rewrite app_length. cbn [length].
  replace (1 <? S (length body + 1))%nat with true by lia. cbn [nth andb]. rewrite Ascii.eqb_refl. cbn [andb].
  replace (S (length body + 1) - 1)%nat with (S (length body)) by lia. cbn [nth].
  rewrite app_nth2, Nat.sub_diag by lia. cbn [nth]. rewrite Ascii.eqb_refl.
  replace (S (length body + 1) - 2)%nat with (length body) by lia. cbn [skipn].
  rewrite firstn_app, Nat.sub_diag, firstn_all. cbn [firstn]. rewrite app_nil_r. reflexivity.
Qed.
Lemma ranges_expand_pairs rs ps : Forall scalar rs -> class_pairs rs ps ->
  ranges_expand (bracketed (encode_all rs)) = if forallb good_pairb ps then Some (class_of_pairs ps) else None.
Proof.
  intros S P. rewrite ranges_expand_bracketed. destruct (null (encode_all rs)) eqn:N.
  - assert (rs = []) as ->.
    { destruct rs as [|r rs]; auto. unfold encode_all in N. cbn in N. destruct (encode_rune r) eqn:E; [|discriminate].
      now apply encode_nonempty in E. }
    inversion P; subst. reflexivity.
  - rewrite range_encode by now apply scalar_valid. rewrite (scan_spec rs ps P S rr_empty). destruct (forallb _ _); reflexivity.
Qed.
Lemma not_bracketed s : (forall body, s <> bracketed body) -> ranges_expand s = None.
Proof.
  intro H. unfold ranges_expand.
  destruct ((1 <? length s)%nat && Ascii.eqb (nth 0 s zero) "[" && Ascii.eqb (nth (length s - 1) s zero) "]")%bool eqn:E; auto.
  exfalso. apply andb_prop in E as [E E3]. apply andb_prop in E as [E1 E2].
  apply Ascii.eqb_eq in E2, E3. destruct s as [|c s]; [discriminate|]. cbn in E2. subst c. cbn [length] in *.
  destruct s as [|d s0] using rev_ind; [discriminate|]. rewrite app_length in E3. cbn [length] in E3.
  replace (S (length s0 + 1) - 1)%nat with (S (length s0)) in E3 by lia. cbn [nth] in E3.
  rewrite app_nth2, Nat.sub_diag in E3 by lia. cbn in E3. subst d. now apply (H s0).
Qed.

Lemma class_of_pairs_spec ps : forallb good_pairb ps = true -> Forall (fun p => scalar (fst p) /\ scalar (snd p)) ps ->
  rs_fin (class_of_pairs ps) /\ sizes_ok (class_of_pairs ps) /\ forall r, mem (class_of_pairs ps) r <-> in_pairs r ps.
Proof.
  intros G F. destruct (add_pairs_spec ps rr_empty rs_ok_empty G F) as [O M].
  destruct (merge_fin _ O) as [Fin M2]. unfold class_of_pairs. cbn zeta in *.
  assert (MM : forall r, mem (mkRR (rr_ascii (fold_left add_pair ps rr_empty)) (ranges_merge (rr_unicode (fold_left add_pair ps rr_empty)))
     (rr_need_merge (fold_left add_pair ps rr_empty)) (rr_min (fold_left add_pair ps rr_empty))
     (rr_max (fold_left add_pair ps rr_empty))) r <-> in_pairs r ps).
  { intro r. rewrite M2, M. split; auto. intros [?|X]; auto. now apply mem_empty in X. }
  split; auto. split; auto.
  destruct (sizes_ok_add_pairs ps rr_empty rs_ok_empty G F sizes_ok_empty) as [S1 S2].
  split; cbn [rr_min rr_max].
  - intros r V X. apply S1; auto. now apply M2.
  - destruct S2 as [(? & ? & S2)|((r1 & ? & X1 & ?) & (r2 & ? & X2 & ?))]; [left|right].
    + repeat split; auto. intros r X. apply (S2 r). now apply M2.
    + split; [exists r1|exists r2]; rewrite M2; auto.
Qed.

(** Everything about a parsed class, for a clean body. *)
Lemma ranges_expand_ok body rs : clean body -> ranges_expand (bracketed body) = Some rs ->
  rs_fin rs /\ sizes_ok rs /\ good_class body /\ forall r, rr_contains rs r = true <-> in_class body r.
Proof.
  intros (l & S & ->) E. destruct (class_pairs_total l) as [ps P]. rewrite (ranges_expand_pairs l ps S P) in E.
  destruct (forallb good_pairb ps) eqn:G; [|discriminate]. injection E as <-.
  pose proof (pairs_scalar l ps P S) as F. destruct (class_of_pairs_spec ps G F) as (A & B & C).
  split; auto. split; auto. split.
  - exists l, ps. repeat split; auto. rewrite forallb_forall in G. rewrite Forall_forall in *.
    intros [a b] I. destruct (F _ I). apply good_pairb_iff; auto.
  - intro r. rewrite fin_contains, C by auto. split; [exists l, ps; auto|].
    intros (l' & ps' & S' & E & P' & I). assert (l' = l) as ->.
    { apply scalar_valid in S, S'. rewrite <- (range_encode l), <- (range_encode l') by auto. now rewrite E. }
    assert (X : ranges_expand (bracketed (encode_all l)) = Some (class_of_pairs ps)).
    { now rewrite (ranges_expand_pairs l ps S P), G. }
    rewrite (ranges_expand_pairs l ps' S P') in X. destruct (forallb good_pairb ps') eqn:G'; [|discriminate].
    assert (X2 : class_of_pairs ps' = class_of_pairs ps) by congruence. rewrite <- C, <- X2.
    apply (class_of_pairs_spec ps' G' (pairs_scalar _ _ P' S)). exact I.
Qed.
Lemma ranges_expand_fail body : clean body -> (ranges_expand (bracketed body) = None <-> ~ good_class body).
Proof.
  intros (l & S & ->). destruct (class_pairs_total l) as [ps P]. rewrite (ranges_expand_pairs l ps S P).
  destruct (forallb good_pairb ps) eqn:G.
  - split; [discriminate|]. intro H. exfalso. apply H. exists l, ps. repeat split; auto.
    pose proof (pairs_scalar l ps P S) as F. rewrite forallb_forall in G. rewrite Forall_forall in *.
    intros [a b] I. destruct (F _ I). apply good_pairb_iff; auto.
  - split; auto. intros _ (l' & ps' & S' & E & P' & F). assert (l' = l) as ->.
    { apply scalar_valid in S, S'. rewrite <- (range_encode l), <- (range_encode l') by auto. now rewrite E. }
    pose proof (ranges_expand_pairs l ps S P) as X. rewrite G in X. rewrite (ranges_expand_pairs l ps' S P') in X.
    assert (G' : forallb good_pairb ps' = true); [|rewrite G' in X; discriminate].
    pose proof (pairs_scalar l ps' P' S) as F'. rewrite forallb_forall. rewrite Forall_forall in *.
    intros [a b] I. destruct (F' _ I). apply good_pairb_iff; auto.
Qed.
