(** What holds of the expressions of every text, well-formed or not. *)
From Coq Require Import Lia ZifyBool ZifyN ZifyNat.
From Verif Require Import Spec.ExpandSpec Proof.Utf8P Proof.SymbolsP Proof.MergeP Proof.MergeNulP Proof.ExpandP Proof.ExpandReadP Proof.ExpandAllP.
Local Open Scope nat_scope.

Definition weak (n : Z) (e : expr) : Prop :=
  fresh e /\ (Z.of_nat (length (vals e)) <= e_count e <= n)%Z /\ (1 <= e_count e)%Z.

Lemma weak_estr n s : (1 <= n)%Z -> weak n (estr s).
Proof. intros H. repeat split; cbn; lia. Qed.
Lemma weak_ewild n s : (1 <= n)%Z -> weak n (ewild s).
Proof. intros H. repeat split; cbn; lia. Qed.
Lemma weak_body n e b : is_estr e || is_ewild e = true -> weak n e ->
  weak n (mkExpr (e_typ e) b (e_list e) (e_runes e) (e_pos e)).
Proof.
  destruct e as [ty bd ls rs p]. unfold is_estr, is_ewild. cbn [e_typ]. intros T ((R & W) & C & V).
  cbn [e_body e_list e_runes e_pos]. unfold weak, fresh, wfe, e_reset, e_count, vals in *.
  cbn [e_typ e_body e_list e_runes e_pos] in *. injection R as R P.
  destruct ty; try discriminate; repeat split; try rewrite R, P; try (destruct p; exact I); try lia; reflexivity.
Qed.

Definition top : N := 1114111.
Definition inside (q : rrange) : Prop := (First q <= Last q /\ Last q <= top)%N.
Lemma ex_scan_inside l : forall c b rs rs', Forall (fun r => r <= top)%N l -> (c <= top)%N -> Forall inside rs ->
  ex_scan l c b rs = Some rs' -> Forall inside rs'.
Proof.
  assert (SG : forall c rs, (c <= top)%N -> Forall inside rs -> Forall inside (if negb (c =? RuneError)%N then rs ++ [mkRange c c] else rs)).
  { intros c rs L F. destruct (negb _); auto. apply Forall_app. split; auto. constructor; auto. split; cbn; lia. }
  induction l as [|x l IH]; intros c b rs rs' FL C F; cbn [ex_scan].
  - intros E. injection E as <-. now apply SG.
  - inversion_clear FL as [|? ? X FL']. destruct (x =? 45)%N; [now apply IH|]. destruct b.
    + destruct (c =? RuneError)%N; [now apply IH|]. destruct (N.leb_spec c x); [|discriminate].
      destruct (negb _); [discriminate|]. apply IH; auto. { now vm_compute. }
      apply Forall_app. split; auto. constructor; auto. split; cbn; lia.
    + apply IH; auto.
Qed.
Lemma range_from_top f : forall i s, Forall (fun r => r <= top)%N (map snd (range_from f i s)).
Proof.
  induction f as [|f IH]; intros i s; cbn [range_from]; [constructor|]. destruct s as [|c t]; [constructor|].
  destruct (decode_rune (c :: t)) as [r n] eqn:E. cbn [map snd]. constructor; auto.
  destruct (N.eqb_spec r RuneError) as [->|N]; [now vm_compute|].
  apply encode_decode in E as (V & _); [|discriminate|now intros [B _]]. unfold valid_rune in V. unfold top. lia.
Qed.

Lemma sum_count l : StronglySorted sep l -> Forall (fun q => First q <= Last q)%N l -> forall lo,
  (forall q, In q l -> (lo <= First q /\ Last q <= top)%N) -> (lo <= top + 1)%N ->
  (fold_left (fun n r => n + runes_count r)%Z (map start_runes l) 0 <= Z.of_N (top + 1 - lo))%Z.
Proof.
  induction 1 as [|q l S IH F]; intros W lo H L; cbn [map fold_left]; [lia|].
  inversion_clear W as [|? ? W1 W2]. rewrite fold_count. rewrite Forall_forall in F. unfold sep in F.
  pose proof (H q (or_introl eq_refl)) as Hq.
  specialize (IH W2 (Last q + 1)%N). assert (X : (fold_left (fun n r => n + runes_count r) (map start_runes l) 0 <= Z.of_N (top + 1 - (Last q + 1)))%Z).
  { apply IH; [|lia]. intros q' I. specialize (F _ I). specialize (H q' (or_intror I)). lia. }
  assert (RC : runes_count (start_runes q) = (Z.of_N (Last q) - Z.of_N (First q) + 1)%Z) by reflexivity. lia.
Qed.
Lemma count_vals l : Forall (fun q => First q <= Last q)%N l ->
  (Z.of_nat (length (flat_map runes_all (map start_runes l))) <= fold_left (fun n r => n + runes_count r) (map start_runes l) 0)%Z /\
  (Z.of_nat (length l) <= fold_left (fun n r => n + runes_count r) (map start_runes l) 0)%Z.
Proof.
  induction 1 as [|q l W F [IH1 IH2]]; cbn [map flat_map fold_left length]; [lia|].
  rewrite app_length, fold_count. pose proof (runes_all_length (start_runes q)) as R.
  assert (C : (1 <= runes_count (start_runes q))%Z) by (unfold runes_count, start_runes; cbn [r_stop r_start]; lia). lia.
Qed.

Lemma split_length c s : length (split_on c s) <= S (length s).
Proof.
  induction s as [|x s IH]; cbn [split_on]; [cbn; lia|]. destruct (Ascii.eqb c x); cbn [length]; [lia|].
  destruct (split_on c s); cbn [length] in *; lia.
Qed.
Definition bound (s : str) : Z := (Z.of_nat (length s) + 1114112)%Z.

Lemma weak_expression u : weak (bound u) (get_expression u).
Proof.
  unfold bound. assert (P1 : (1 <= Z.of_nat (length u) + 1114112)%Z) by lia.
  unfold get_expression. set (body := firstn (length u - 2) (skipn 1 u)). cbv zeta.
  assert (LB : length body <= length u - 2) by (unfold body; apply firstn_le_length).
  destruct (null body) eqn:NB; [now apply weak_estr|].
  assert (LP : 1 <= length body) by (destruct body; [discriminate|cbn; lia]).
  destruct (Ascii.eqb (nth 0 u zero) "{").
  - destruct (contains_byte "," body); [|now apply weak_estr].
    assert (NE : 0 < length (split_on "," body)).
    { destruct body as [|c b]; [discriminate|]. cbn [split_on]. destruct (Ascii.eqb "," c); [cbn; lia|].
      destruct (split_on "," b); cbn; lia. }
    pose proof (split_length "," body). unfold weak, fresh, wfe, e_count, vals. cbn [e_typ e_list e_pos].
    split; [split; [reflexivity|exact NE]|]. lia.
  - destruct (Ascii.eqb (nth 0 u zero) "[").
    + destruct (Nat.eqb (length body) 1); [now apply weak_estr|].
      unfold ex_runes_expand. rewrite NB. destruct (ex_scan _ _ _ _) as [rs|] eqn:E; [|now apply weak_ewild].
      assert (IN : Forall inside rs).
      { eapply ex_scan_inside; [apply range_from_top| |constructor|exact E]. now vm_compute. }
      destruct (ranges_merge_all rs) as (W & S & M).
      { eapply Forall_impl; [|exact IN]. intros q [H _]. exact H. }
      assert (T : forall q, In q (ranges_merge rs) -> (0 <= First q /\ Last q <= top)%N).
      { intros q I. split; [lia|]. assert (R : in_ranges (Last q) (ranges_merge rs)).
        { exists q. split; auto. rewrite Forall_forall in W. specialize (W q I). unfold in_range. cbn in W. lia. }
        apply M in R as [(p & J & X) _]. rewrite Forall_forall in IN. destruct (IN p J). unfold in_range in X. lia. }
      pose proof (sum_count _ S W 0%N T ltac:(unfold top; lia)) as SC. pose proof (count_vals _ W) as [CV1 CV2].
      change (fun r : rrange => mkRunes (First r) (Last r) (Some (First r))) with start_runes.
      destruct (ranges_merge rs) as [|q l]; [now apply weak_estr|]. set (L := q :: l) in *.
      assert (X : weak (Z.of_nat (length u) + 1114112) (mkExpr expRunes u [] (map start_runes L) (Some 0))); [|exact X].
      unfold weak, fresh, wfe, e_count, vals, e_reset. cbn [e_typ e_list e_pos e_runes e_body].
      rewrite map_map. change (fun x : rrange => runes_reset (start_runes x)) with start_runes.
      split; [split; [reflexivity|cbn; lia]|]. rewrite map_length. unfold rune in *.
      assert (1 <= length L) by (cbn; lia). unfold top in SC. lia.
    + destruct (has_wildcard u); [now apply weak_ewild|now apply weak_estr].
Qed.

Lemma weak_le n m e : (n <= m)%Z -> weak n e -> weak m e.
Proof. intros L (F & C & V). repeat split; try apply F; lia. Qed.

Lemma weak_push n rl e : Forall (weak n) rl -> weak n e -> Forall (weak n) (push_exp rl e).
Proof.
  intros F W. unfold push_exp. destruct (is_estr e) eqn:E; [|now constructor].
  destruct rl as [|l r].
  - destruct (negb _); auto.
  - inversion_clear F as [|? ? Fl Fr]. destruct (is_estr l) eqn:L.
    + constructor; auto. destruct l as [ty bd ls rs p]. cbn [e_typ e_body e_list e_runes e_pos] in *. destruct ty; try discriminate.
      refine (weak_body n (mkExpr expString bd ls rs p) _ _ Fl). reflexivity.
    + destruct (negb _); auto.
Qed.

Lemma weak_loop n fuel : (1 <= n)%Z -> forall s a b rl rl', (bound s <= n)%Z -> Forall (weak n) rl ->
  parse_expr_loop fuel s a b rl = Ok rl' -> Forall (weak n) rl'.
Proof.
  intros N1. induction fuel as [|fuel IH]; intros s a b rl rl' L F; cbn [parse_expr_loop]; [discriminate|].
  assert (PF : forall k, Forall (weak n) (if 0 <? k then estr (firstn k s) :: rl else rl)).
  { intros k. destruct (0 <? k); auto. constructor; auto. now apply weak_estr. }
  destruct a as [a|].
  - destruct b as [b|].
    + cbv zeta. set (u := firstn (S b - a) (skipn a s)).
      assert (LU : length u <= length s) by (unfold u; rewrite firstn_length, skipn_length; lia).
      assert (F2 : Forall (weak n) (push_exp (if 0 <? a then estr (firstn a s) :: rl else rl) (get_expression u))).
      { apply weak_push; auto. eapply weak_le; [|apply weak_expression]. unfold bound in *. lia. }
      destruct (null (skipn (S b) s)).
      * intros E. injection E as <-. exact F2.
      * destruct (get_pair (skipn (S b) s)) as [a' b']. apply IH; auto.
        unfold bound in *. rewrite skipn_length. lia.
    + cbv zeta. intros E. injection E as <-. constructor; auto. now apply weak_ewild.
  - intros E. injection E as <-. constructor; auto. now apply weak_estr.
Qed.

Lemma weak_parse s exps : parse_expr s = Ok exps -> Forall (weak (bound s)) exps.
Proof.
  assert (N1 : (1 <= bound s)%Z) by (unfold bound; lia).
  assert (LP : forall a b, bind (parse_expr_loop (S (length s)) s a b []) split_last_wild = Ok exps -> Forall (weak (bound s)) exps).
  { intros a b E. destruct (parse_expr_loop _ _ _ _ _) as [rl| | |] eqn:PL; try discriminate.
    assert (F : Forall (weak (bound s)) rl) by (eapply weak_loop; [exact N1|apply Z.le_refl|constructor|exact PL]).
    cbn [bind] in E. destruct rl as [|l r]; [discriminate|]. cbn [split_last_wild] in E.
    inversion_clear F as [|? ? Fl Fr].
    assert (ID : Forall (weak (bound s)) (rev (l :: r))) by (apply Forall_rev; now constructor).
    destruct (is_ewild l) eqn:W; [|injection E as <-; exact ID]. cbv zeta in E.
    destruct (_ <? _); injection E as <-; [|exact ID]. apply (Forall_rev (l := estr _ :: _ :: r)).
    constructor; [now apply weak_estr|]. constructor; auto. apply weak_body; auto. rewrite W. apply orb_true_r. }
  assert (EE : forall l, Forall (weak (bound s)) l -> Ok l = Ok exps -> Forall (weak (bound s)) exps) by (intros l F E; now injection E as <-).
  unfold parse_expr. destruct (get_pair s) as [a b]. destruct a as [a|], b as [b|].
  - destruct a; apply LP.
  - destruct a; cbv zeta; destruct (_ <? _); apply EE; repeat (constructor; try (now apply weak_estr); try now apply weak_ewild).
  - apply LP.
  - apply EE. constructor; auto. now apply weak_estr.
Qed.

Local Open Scope Z_scope.
Lemma product_length vss : Z.of_nat (length (product vss)) = fold_right (fun vs n => Z.of_nat (length vs) * n) 1 vss.
Proof.
  induction vss as [|vs r IH]; [reflexivity|]. cbn [product fold_right]. rewrite <- IH. unfold str in *.
  induction vs as [|v vs IHv]; [reflexivity|]. cbn [flat_map length]. rewrite app_length, map_length. lia.
Qed.
Lemma plan_zero_length c d exps : fold_right (fun vs n => Z.of_nat (length vs) * n) 1 (plan c 0 d exps) = 1.
Proof. rewrite plan_zero. induction exps as [|e r IH]; cbn [map fold_right length]; lia. Qed.

Lemma plan_bound b max exps : 0 < max -> max * b < 2 ^ 63 -> Forall (weak b) exps -> forall count D n,
  n = (if count <=? 0 then 1 else count) -> n <= max ->
  n * fold_right (fun vs n => Z.of_nat (length vs) * n) 1 (plan count max D exps) <= max.
Proof.
  intros P W. induction exps as [|e r IH]; intros F count D n En Ln; cbn [plan fold_right]; [lia|].
  assert (Pn : 1 <= n) by (destruct (Z.leb_spec count 0); lia).
  inversion_clear F as [|? ? (Fe & [Ce Ne] & Pe) Fr]. cbv zeta. replace (0 <? max) with true by lia. rewrite <- En. cbn [andb].
  rewrite wrap_id by nia.
  assert (Z0 : forall C D', n * (Z.of_nat (length [e_body e]) * fold_right (fun vs n => Z.of_nat (length vs) * n) 1 (plan C 0 D' r)) <= max).
  { intros. rewrite plan_zero_length. cbn [length]. lia. }
  destruct (Z.ltb_spec max (n * e_count e)) as [X|X].
  - replace (if _ && _ then 0 else 0) with 0 by (now destruct (_ && _)). change (0 =? 0) with true. cbv iota. apply Z0.
  - set (dd := if (0 <? D) && _ then _ else D). destruct ((0 <? D) && (is_estr e || is_ewild e) && (dd <=? 1)).
    + change (0 =? 0) with true. cbv iota. apply Z0.
    + replace (max =? 0) with false by lia.
      specialize (IH Fr (n * e_count e) dd (n * e_count e)).
      replace (n * e_count e <=? 0) with false in IH by nia. specialize (IH eq_refl X).
      set (R := fold_right _ 1 (plan _ _ _ r)) in *.
      assert (0 <= R) by (unfold R; rewrite <- product_length; lia). nia.
Qed.

Lemma expand_bound s max depth rs : 0 < max < 2 ^ 31 -> Z.of_nat (length s) < 2 ^ 31 ->
  expand s max depth = Ok rs -> Z.of_nat (length rs) <= max.
Proof.
  intros M L. unfold expand. destruct (parse_expr s) as [exps| | |] eqn:PE; try discriminate. cbn [bind].
  pose proof (weak_parse s exps PE) as W.
  assert (FR : Forall fresh exps) by (eapply Forall_impl; [|exact W]; intros e H; apply H).
  unfold exps_expand. set (D := if 0 <? depth then depth + 1 else depth). cbv zeta.
  destruct (expand_rec_good exps FR (length exps) 0 max D ltac:(lia) [] []) as (buf & ER & _). rewrite ER. cbn [bind].
  assert (RUN : forall x, (if make_ok (exps_capacity exps 1) then Ok (exps, [] ++ map (app []) (product (plan 0 max D exps))) else Panic) = Ok x ->
    Z.of_nat (length (snd x)) <= max).
  { intros x E. destruct (make_ok _); [|discriminate]. injection E as <-. cbn [snd app]. rewrite map_length, product_length. pose proof (plan_bound (bound s) max exps ltac:(lia)) as PB.
    specialize (PB ltac:(unfold bound; nia) W 0 D 1 eq_refl ltac:(lia)). lia. }
  destruct exps as [|e [|e2 r]].
  - destruct (make_ok _); [|discriminate]. cbn [bind]. intros E. injection E as <-. apply (RUN _ eq_refl).
  - destruct (is_estr e).
    + cbn [bind]. intros E. injection E as <-. cbn [length]. lia.
    + destruct (make_ok _); [|discriminate]. cbn [bind]. intros E. injection E as <-. apply (RUN _ eq_refl).
  - destruct (make_ok _); [|discriminate]. cbn [bind]. intros E. injection E as <-. apply (RUN _ eq_refl).
Qed.

Lemma expand_restores s exps max depth exps' rs : parse_expr s = Ok exps ->
  exps_expand exps max depth false = Ok (exps', rs) -> exps' = exps.
Proof.
  intros PE. pose proof (weak_parse s exps PE) as W.
  assert (FR : Forall fresh exps) by (eapply Forall_impl; [|exact W]; intros e H; apply H).
  unfold exps_expand. set (D := if 0 <? depth then depth + 1 else depth). cbv zeta.
  destruct (expand_rec_good exps FR (length exps) 0 max D ltac:(lia) [] []) as (buf & ER & _). rewrite ER. cbn [bind].
  destruct exps as [|e [|e2 r]]; [| destruct (is_estr e)|]; try destruct (make_ok _); intros E; congruence.
Qed.
