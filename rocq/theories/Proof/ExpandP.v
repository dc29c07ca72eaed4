(** The expansion of a list of expressions. *)
From Coq Require Import Lia ZifyBool ZifyN ZifyNat.
From Verif Require Import Spec.ExpandSpec.
Local Open Scope nat_scope.

(** * The values an expression still has to produce *)
Fixpoint upto (n : nat) (c : N) : list N :=
  match n with
  | O => []
  | S n => if (c =? RuneError)%N then [] else c :: upto n (c + 1)%N
  end.
Definition runes_left (r : runes) : list N :=
  match r_pos r with None => [] | Some c => upto (N.to_nat (r_stop r + 1 - c)) c end.
Definition runes_all (r : runes) : list N := runes_left (runes_reset r).
Definition left (e : expr) : list str :=
  match e_pos e with
  | None => []
  | Some p =>
      match e_typ e with
      | expString | expWildcard => [e_body e]
      | expList => skipn p (e_list e)
      | expRunes => map encode_rune (flat_map runes_left (firstn 1 (skipn p (e_runes e))) ++
                                     flat_map runes_all (skipn (S p) (e_runes e)))
      end
  end.
Definition wfe (e : expr) : Prop :=
  match e_pos e with
  | None => True
  | Some p =>
      match e_typ e with
      | expString | expWildcard => True
      | expList => p < length (e_list e)
      | expRunes => p < length (e_runes e)
      end
  end.
Definition fresh (e : expr) : Prop := e_reset e = e /\ wfe e.

Lemma runes_next_spec r c r' : runes_next r = (c, r') ->
  runes_reset r' = runes_reset r /\
  match runes_left r with
  | [] => c = RuneError
  | x :: l => c = x /\ x <> RuneError /\ runes_left r' = l
  end.
Proof.
  unfold runes_next, runes_left. destruct r as [a b [p|]]; cbn [r_pos r_stop r_start].
  - destruct (N.ltb_spec b p) as [L|L]; intros H; inversion H; subst; clear H.
    + split; [reflexivity|]. replace (N.to_nat (b + 1 - p)) with 0 by lia. reflexivity.
    + split; [reflexivity|]. replace (N.to_nat (b + 1 - c)) with (S (N.to_nat (b + 1 - (c + 1)))) by lia.
      cbn [upto r_pos r_stop]. destruct (N.eqb_spec c RuneError); auto.
  - intros H; inversion H; subst; clear H. auto.
Qed.

Lemma nth_mid {A} (a : list A) x b : nth_error (a ++ x :: b) (length a) = Some x.
Proof. rewrite nth_error_app2, Nat.sub_diag by lia. reflexivity. Qed.
Lemma set_mid {A} (a : list A) x y b : set_nth (length a) y (a ++ x :: b) = a ++ y :: b.
Proof. induction a; cbn; [reflexivity|]. now rewrite IHa. Qed.

Lemma skipn_mid {A} (a : list A) x b : skipn (length a) (a ++ x :: b) = x :: b.
Proof. rewrite skipn_app, skipn_all, Nat.sub_diag. reflexivity. Qed.
Lemma skipn_mid1 {A} (a : list A) x b : skipn (S (length a)) (a ++ x :: b) = b.
Proof. induction a; cbn [app length]; [reflexivity|]. exact IHa. Qed.

Lemma next_rune_spec b : forall a r fuel, S (length b) <= fuel ->
  exists o rs' p', next_rune fuel (a ++ r :: b) (length a) = Ok (o, rs', p') /\
    map runes_reset rs' = map runes_reset (a ++ r :: b) /\
    match runes_left r ++ flat_map runes_all b with
    | [] => o = None
    | x :: l => o = Some x /\ p' < length rs' /\
        flat_map runes_left (firstn 1 (skipn p' rs')) ++ flat_map runes_all (skipn (S p') rs') = l
    end.
Proof.
  induction b as [|r2 b IH]; intros a r fuel L; (destruct fuel as [|fuel]; [cbn in L; lia|]); cbn [next_rune];
    rewrite nth_mid; destruct (runes_next r) as [c r'] eqn:E; destruct (runes_next_spec r c r' E) as [R S];
    cbv zeta; rewrite set_mid.
  - cbn [flat_map]. rewrite app_nil_r. destruct (runes_left r) as [|x l].
    + subst c. rewrite N.eqb_refl. rewrite app_length. cbn [length].
      replace (length a <? length a + 1 - 1) with false by lia.
      eexists _, _, _. split; [reflexivity|]. split; [|reflexivity]. rewrite !map_app. cbn. now rewrite R.
    + destruct S as (-> & N & L'). replace (x =? RuneError)%N with false by lia.
      eexists _, _, _. split; [reflexivity|]. split; [rewrite !map_app; cbn; now rewrite R|].
      split; [reflexivity|]. split; [rewrite app_length; cbn; lia|].
      rewrite skipn_mid, skipn_mid1. cbn [app firstn flat_map]. now rewrite !app_nil_r.
  - destruct (runes_left r) as [|x l].
    + subst c. rewrite N.eqb_refl. rewrite app_length. cbn [length].
      replace (length a <? length a + S (S (length b)) - 1) with true by lia.
      replace (nth_error (a ++ r' :: r2 :: b) (S (length a))) with (Some r2).
      2:{ change (r' :: r2 :: b) with ([r'] ++ r2 :: b). rewrite app_assoc.
          replace (S (length a)) with (length (a ++ [r'])) by (rewrite app_length; cbn; lia). now rewrite nth_mid. }
      change (r' :: r2 :: b) with ([r'] ++ r2 :: b). rewrite app_assoc.
      replace (S (length a)) with (length (a ++ [r'])) by (rewrite app_length; cbn; lia). rewrite set_mid.
      destruct (IH (a ++ [r']) (runes_reset r2) fuel) as (o & rs' & p' & -> & M & X).
      { cbn in L. lia. }
      eexists _, _, _. split; [reflexivity|]. split.
      * rewrite M, !map_app. cbn. rewrite R. rewrite <- app_assoc. reflexivity.
      * exact X.
    + destruct S as (-> & N & L'). replace (x =? RuneError)%N with false by lia.
      eexists _, _, _. split; [reflexivity|]. split; [rewrite !map_app; cbn; now rewrite R|].
      cbn [app]. split; [reflexivity|]. split; [rewrite app_length; cbn; lia|].
      rewrite skipn_mid, skipn_mid1. cbn [app firstn flat_map]. now rewrite app_nil_r, L'.
Qed.

Lemma append_next_spec e buf : wfe e ->
  exists e' b', match left e with
  | [] => append_next e buf = Ok (e', buf, true) /\ e_reset e' = e_reset e
  | v :: vs => append_next e buf = Ok (e', buf ++ v, false) /\ e_reset e' = e_reset e /\ wfe e' /\ left e' = vs
  end /\ b' = buf.
Proof.
  unfold wfe, left, append_next. intros W. destruct e as [ty bd ls rs [p|]]; cbn [e_pos e_typ e_body e_list e_runes] in *.
  2:{ eexists _, _. split; [split; reflexivity|reflexivity]. }
  destruct ty.
  1,2: eexists _, _; split; [split; [reflexivity|]; split; [reflexivity|]; split; [exact I|reflexivity]|reflexivity].
  - destruct (skipn p ls) as [|v vs] eqn:E.
    { apply (f_equal (@length _)) in E. rewrite skipn_length in E. cbn in E. lia. }
    assert (N : nth_error ls p = Some v).
    { rewrite <- (firstn_skipn p ls), E, nth_error_app2; rewrite firstn_length_le; try lia. now rewrite Nat.sub_diag. }
    assert (S1 : skipn (S p) ls = vs).
    { rewrite <- (firstn_skipn p ls), E. rewrite skipn_app, firstn_length_le by lia.
      rewrite skipn_all2 by (rewrite firstn_length_le; lia). replace (S p - p) with 1 by lia. reflexivity. }
    rewrite N. eexists _, buf. split; [|reflexivity]. split; [reflexivity|]. split; [reflexivity|].
    pose proof (f_equal (@length _) S1) as LS. rewrite skipn_length in LS.
    destruct (p <? length ls - 1) eqn:X; cbn [e_set_pos e_pos e_typ e_list e_body e_runes].
    + split; [lia|exact S1].
    + split; [exact I|]. destruct vs; [reflexivity|cbn in LS; lia].
  - destruct (skipn p rs) as [|r b] eqn:E.
    { apply (f_equal (@length _)) in E. rewrite skipn_length in E. cbn in E. lia. }
    set (a := firstn p rs). assert (LA : length a = p) by (unfold a; rewrite firstn_length_le; lia).
    assert (RS : rs = a ++ r :: b) by (rewrite <- E; unfold a; symmetry; apply firstn_skipn).
    assert (S1 : skipn (S p) rs = b).
    { rewrite RS, skipn_app, LA, skipn_all2 by lia. replace (S p - p) with 1 by lia. reflexivity. }
    rewrite S1. rewrite RS, <- LA. cbn [firstn flat_map]. rewrite app_nil_r.
    destruct (next_rune_spec b a r (S (length (a ++ r :: b)))) as (o & rs' & p' & -> & M & X).
    { rewrite app_length. cbn. lia. }
    cbn [bind]. destruct (runes_left r ++ flat_map runes_all b) as [|x l]; cbn [map].
    + subst o. eexists _, buf. split; [|reflexivity]. split; [reflexivity|].
      unfold e_reset, e_set_runes. cbn [e_typ e_body e_list e_runes]. now rewrite M.
    + destruct X as (-> & P & L). eexists _, buf. split; [|reflexivity]. split; [reflexivity|].
      split; [unfold e_reset, e_set_runes; cbn [e_typ e_body e_list e_runes]; now rewrite M|].
      cbn [e_set_runes e_pos e_typ e_runes]. split; [exact P|]. exact (f_equal (map encode_rune) L).
Qed.

(** * The loops *)
Definition rec_good (P : list str) (rest : list expr)
  (rec : list expr -> str -> list str -> res (list expr * list str * str)) : Prop :=
  forall buf result, exists buf', rec rest buf result = Ok (rest, result ++ map (app buf) P, buf') /\
    firstn (length buf) buf' = buf.
Definition rec_first (v : str) (rest : list expr)
  (rec : list expr -> str -> list str -> res (list expr * list str * str)) : Prop :=
  forall buf result, exists rest' buf', rec rest buf result = Ok (rest', result ++ [buf ++ v], buf') /\
    firstn (length buf) buf' = buf.

Lemma firstn_prefix {A} (a b c : list A) : firstn (length (a ++ b)) c = a ++ b -> firstn (length a) c = a.
Proof.
  intros H. rewrite <- (firstn_skipn (length (a ++ b)) c), H, <- app_assoc.
  rewrite firstn_app, firstn_all, Nat.sub_diag. cbn. apply app_nil_r.
Qed.

Lemma loop_good P rest rec : rec_good P rest rec -> forall fuel e buf result,
  wfe e -> length (left e) < fuel ->
  expand_loop fuel rec false e rest (length buf) buf result =
  Ok (e_reset e :: rest, result ++ flat_map (fun v => map (app (buf ++ v)) P) (left e), buf).
Proof.
  intros G. induction fuel as [|fuel IH]; intros e buf result W L; [lia|]. cbn [expand_loop].
  destruct (append_next_spec e buf W) as (e' & b' & H & _).
  destruct (left e) as [|v vs] eqn:E.
  - destruct H as [-> R]. cbn [bind flat_map]. now rewrite app_nil_r, R.
  - destruct H as (-> & R & W' & L'). cbn [bind].
    destruct (G (buf ++ v) result) as (buf' & -> & F). cbn [bind]. cbv zeta.
    rewrite (firstn_prefix buf v buf' F). rewrite IH; auto.
    + rewrite R, L'. cbn [flat_map]. now rewrite <- app_assoc.
    + rewrite L'. cbn in L. lia.
Qed.

Lemma loop_first v w rest rec : rec_first w rest rec -> forall fuel e buf result vs,
  wfe e -> left e = v :: vs -> 0 < fuel ->
  exists e' rest', expand_loop fuel rec true e rest (length buf) buf result = Ok (e' :: rest', result ++ [buf ++ v ++ w], buf).
Proof.
  intros G fuel e buf result vs W L F. destruct fuel as [|fuel]; [lia|]. cbn [expand_loop].
  destruct (append_next_spec e buf W) as (e' & b' & H & _). rewrite L in H. destruct H as (-> & R & W' & L').
  cbn [bind]. destruct (G (buf ++ v) result) as (rest' & buf' & -> & F'). cbn [bind]. cbv zeta.
  rewrite (firstn_prefix buf v buf' F'). rewrite <- app_assoc. eauto.
Qed.

(** * Fuel *)
Lemma upto_length n : forall c, length (upto n c) <= n.
Proof. induction n; intros c; cbn; [lia|]. destruct (c =? RuneError)%N; cbn; [lia|]. specialize (IHn (c + 1)%N). lia. Qed.
Lemma runes_all_length r : (Z.of_nat (length (runes_all r)) <= Z.max 0 (runes_count r))%Z.
Proof.
  unfold runes_all, runes_left, runes_reset, runes_count. cbn [r_pos r_stop].
  pose proof (upto_length (N.to_nat (r_stop r + 1 - r_start r)) (r_start r)). lia.
Qed.
Lemma fold_max l : forall n, fold_left (fun n r => n + Z.max 0 (runes_count r))%Z l n =
  (n + fold_left (fun n r => n + Z.max 0 (runes_count r)) l 0)%Z.
Proof.
  induction l as [|r l IH]; intros n; cbn [fold_left]; [lia|]. rewrite IH, (IH (0 + _)%Z). lia.
Qed.
Lemma fold_count l : forall n, fold_left (fun n r => n + runes_count r)%Z l n =
  (n + fold_left (fun n r => n + runes_count r) l 0)%Z.
Proof.
  induction l as [|r l IH]; intros n; cbn [fold_left]; [lia|]. rewrite IH, (IH (0 + _)%Z). lia.
Qed.
Lemma all_length l : (Z.of_nat (length (flat_map runes_all l)) <= fold_left (fun n r => n + Z.max 0 (runes_count r)) l 0)%Z.
Proof.
  induction l as [|r l IH]; cbn [flat_map fold_left]; [cbn; lia|].
  rewrite app_length, fold_max. pose proof (runes_all_length r). lia.
Qed.

(** The values of a fresh expression. *)
Definition vals (e : expr) : list str :=
  match e_typ e with
  | expString | expWildcard => [e_body e]
  | expList => e_list e
  | expRunes => map encode_rune (flat_map runes_all (e_runes e))
  end.
Lemma left_fresh e : fresh e -> left e = vals e.
Proof.
  intros [R W]. pose proof (f_equal e_pos R) as P. pose proof (f_equal e_runes R) as Q.
  cbn [e_reset e_pos e_runes] in P, Q. unfold left, vals. rewrite <- P.
  destruct (e_typ e); try reflexivity. f_equal.
  destruct (e_runes e) as [|r l]; [reflexivity|]. cbn [skipn firstn flat_map]. rewrite app_nil_r. f_equal.
  injection Q as Q _. unfold runes_all. now rewrite Q.
Qed.
Lemma loop_fuel_ok e : fresh e -> length (left e) < loop_fuel e.
Proof.
  intros F. rewrite left_fresh by auto. unfold vals, loop_fuel. destruct (e_typ e); cbn [length]; try lia.
  rewrite map_length. pose proof (all_length (e_runes e)). unfold rune in *. lia.
Qed.

(** * The whole recursion *)
Fixpoint plan (count max depth : Z) (exps : list expr) : list (list str) :=
  match exps with
  | [] => []
  | e :: rest =>
      let limited := (0 <? max)%Z in
      let count := if limited then wrap64 ((if count <=? 0 then 1 else count) * e_count e)%Z else count in
      let max := if limited && (max <? count)%Z then 0%Z else max in
      let dotted := (0 <? depth)%Z && (is_estr e || is_ewild e) in
      let depth := if dotted then (depth - Z.of_nat (count_byte "." (e_body e)))%Z else depth in
      let max := if dotted && (depth <=? 1)%Z then 0%Z else max in
      (if (max =? 0)%Z then [e_body e] else vals e) :: plan count max depth rest
  end.

Lemma map_app_flat (buf : str) (vs P : list str) :
  flat_map (fun v => map (app (buf ++ v)) P) vs = map (app buf) (flat_map (fun v => map (app v) P) vs).
Proof.
  induction vs as [|v vs IH]; cbn [flat_map map]; [reflexivity|]. rewrite map_app, map_map, IH. f_equal.
  apply map_ext. intros x. now rewrite app_assoc.
Qed.

Lemma expand_rec_good exps : Forall fresh exps -> forall n count max depth, length exps <= n ->
  rec_good (product (plan count max depth exps)) exps (fun r b a => expand_rec n r count max depth false b a).
Proof.
  induction 1 as [|e rest F Fr IH]; intros n count max depth L buf result.
  - exists buf. destruct n; cbn [expand_rec plan product map]; (split; [rewrite app_nil_r; reflexivity|apply firstn_all]).
  - destruct n as [|n]; [cbn in L; lia|]. cbn [expand_rec plan product]. cbv zeta.
    match goal with |- context [plan ?c ?m ?d rest] => set (M := m); set (D := d); set (C := c) end.
    assert (L' : length rest <= n) by (cbn in L; lia).
    pose proof (IH n C M D L') as G. destruct (M =? 0)%Z.
    + destruct (G (buf ++ e_body e) result) as (buf' & E & Fi). cbn beta in E. rewrite E. cbn [bind].
      exists buf'. split; [|eapply firstn_prefix; exact Fi]. cbn [flat_map].
      rewrite app_nil_r, map_map. do 3 f_equal. f_equal. apply map_ext. intros x. now rewrite app_assoc.
    + exists buf. split; [|apply firstn_all].
      rewrite (loop_good _ _ _ G) by (try apply F; now apply loop_fuel_ok).
      destruct F as [R W]. rewrite R. rewrite left_fresh by now split. now rewrite map_app_flat.
Qed.

Lemma expand_rec_first exps : Forall fresh exps -> Forall (fun e => vals e <> []) exps ->
  forall n count max depth, length exps <= n ->
  rec_first (concat (map (hd []) (plan count max depth exps))) exps
    (fun r b a => expand_rec n r count max depth true b a).
Proof.
  induction 1 as [|e rest F Fr IH]; intros NE n count max depth L buf result.
  - exists [], buf. destruct n; cbn [expand_rec plan concat map]; (split; [rewrite app_nil_r; reflexivity|apply firstn_all]).
  - inversion_clear NE as [|? ? NE1 NE2].
    destruct n as [|n]; [cbn in L; lia|]. cbn [expand_rec plan map concat]. cbv zeta.
    match goal with |- context [plan ?c ?m ?d rest] => set (M := m); set (D := d); set (C := c) end.
    assert (L' : length rest <= n) by (cbn in L; lia).
    pose proof (IH NE2 n C M D L') as G. destruct (M =? 0)%Z.
    + destruct (G (buf ++ e_body e) result) as (rest' & buf' & E & Fi). cbn beta in E. rewrite E. cbn [bind].
      exists (e :: rest'), buf'. split; [|eapply firstn_prefix; exact Fi]. cbn [hd]. now rewrite <- app_assoc.
    + destruct (vals e) as [|v vs] eqn:V; [congruence|].
      destruct (loop_first v _ _ _ G (loop_fuel e) e buf result vs) as (e' & rest' & E).
      * apply F.
      * rewrite left_fresh; auto.
      * unfold loop_fuel. lia.
      * eexists _, buf. split; [exact E|apply firstn_all].
Qed.
