(** The least lengths recorded in parsed items (any bytes): they are never negative, and a list of values with wildcards has least
    length 0 exactly when one of its values has only items of least length 0. *)
From Verif Require Import Model.Tree Spec.Class Spec.GlobSpec Spec.Safe.
From Verif Require Import Proof.Utf8P Proof.MergeP Proof.RangesP Proof.RangesTop Proof.ListP Proof.SortP Proof.LangP Proof.DenotesP Proof.ParseP Proof.NextP Proof.SafeP Proof.PanicP Proof.ItemEqP Proof.TotalP Proof.GGlobP Proof.TreeEndP Proof.TreeEnd2P.
From Coq Require Import Lia ZifyBool ZifyN ZifyNat.

Lemma decode_valid s : valid_rune (fst (decode_rune s)) = true.
Proof.
  destruct (decode_rune s) as [r n] eqn:E. cbn [fst]. destruct s as [|c s]; [injection E as <- <-; reflexivity|].
  destruct (N.eq_dec r RuneError) as [->|D]; [reflexivity|]. apply encode_decode in E as (V & _); auto; [discriminate|]. unfold Utf8P.bad. cbn. tauto.
Qed.
Lemma range_valid s : Forall (fun r => valid_rune r = true) (map snd (range s)).
Proof.
  unfold range. generalize (length s) as f, 0 as i. intro f. revert s. induction f as [|f IH]; intros s i; [constructor|]. cbn [range_from]. destruct s as [|c s]; [constructor|].
  pose proof (decode_valid (c :: s)) as V. destruct (decode_rune (c :: s)) as [r n]. cbn [map snd]. constructor; [exact V|apply IH].
Qed.
Lemma sizes_min rs n : (0 <= rr_min rs)%Z -> (1 <= n)%Z -> (0 <= rr_min (rr_set_sizes rs n))%Z.
Proof. intros H N. cbn. destruct ((n <? rr_min rs) || (rr_min rs =? 0))%Z; lia. Qed.
Definition scanned (rs : rranges) : Prop := (0 <= rr_min rs)%Z /\ Forall (fun q => valid_rune (First q) = true /\ (0 < Last q)%N) (rr_unicode rs).
Lemma scanned_ascii rs a c : scanned rs -> scanned (rr_set_sizes (rr_add_ascii_range rs a c) 1).
Proof.
  intros [H F]. unfold rr_add_ascii_range. generalize (bytes_from a (N.to_nat (c + 1 - a))). intro l. assert (G : rr_min (fold_left rr_add_ascii l rs) = rr_min rs /\ rr_unicode (fold_left rr_add_ascii l rs) = rr_unicode rs).
  { revert rs H F. induction l as [|x l IH]; intros rs H F; [auto|]. cbn [fold_left]. destruct (IH (rr_add_ascii rs x)) as [-> ->]; auto. }
  destruct G as [G1 G2]. split; [apply sizes_min; [now rewrite G1|lia]|]. cbn. now rewrite G2.
Qed.
Lemma scanned_single rs r : valid_rune r = true -> scanned rs -> scanned (rr_add_single rs r).
Proof.
  intros V [H F]. unfold rr_add_single. destruct (N.leb_spec r 127).
  - split; [apply sizes_min; auto; lia|exact F].
  - split; [apply sizes_min; auto; pose proof (rune_len_pos r V); lia|]. cbn. apply Forall_app. split; auto. repeat constructor; auto. cbn. lia.
Qed.
Lemma scan_scanned : forall l start isr rs rs', Forall (fun r => valid_rune r = true) l -> valid_rune start = true -> scanned rs ->
  rr_scan l start isr rs = Some rs' -> scanned rs'.
Proof.
  induction l as [|c l IH]; intros start isr rs rs' F V S H; cbn [rr_scan] in H.
  - assert (Some rs' = Some rs' /\ rs' = if negb (start =? RuneError)%N then rr_add_single rs start else rs) as [_ ->] by (split; congruence).
    destruct (negb (start =? RuneError)%N); auto. now apply scanned_single.
  - inversion F as [|? ? F1 F2]; subst. destruct (c =? 45)%N; [now apply IH in H|]. destruct isr.
    + destruct (N.eqb_spec start RuneError); [now apply IH in H|]. destruct (N.leb_spec start 127).
      * destruct (127 <? c)%N; [discriminate|]. destruct (start <=? c)%N; [|discriminate]. eapply IH; [exact F2| | |exact H]; [reflexivity|]. now apply scanned_ascii.
      * destruct (N.leb_spec start c); [|discriminate]. destruct (negb (rune_len start =? rune_len c)%Z); [discriminate|]. eapply IH; [exact F2| | |exact H]; [reflexivity|].
        destruct S as [S1 S2]. split; [apply (sizes_min rs); auto; pose proof (rune_len_pos start V); lia|]. cbn. apply Forall_app. split; auto. repeat constructor; auto. cbn. lia.
    + eapply IH; [exact F2| | |exact H]; auto. destruct (negb (start =? RuneError)%N); auto. now apply scanned_single.
Qed.
Lemma class_min body it : class_item body = Ok (Some it) -> (0 <= item_min it)%Z.
Proof.
  unfold class_item. destruct (ranges_expand (bracketed body)) as [rs|] eqn:E; [|discriminate].
  assert (S : (0 <= rr_min rs)%Z /\ forall q, In q (rr_unicode rs) -> valid_rune (First q) = true).
  { unfold ranges_expand in E. destruct (_ && _ && _); [|discriminate]. set (b := firstn _ _) in E. destruct (null b); [assert (rs = rr_empty) as -> by congruence; now split|].
    destruct (rr_scan (map snd (range b)) RuneError false rr_empty) as [rs0|] eqn:E2; [|discriminate]. apply scan_scanned in E2; [|apply range_valid|reflexivity|now split; [|constructor]].
    destruct E2 as [E2 E3]. assert (rs = mkRR (rr_ascii rs0) (ranges_merge (rr_unicode rs0)) (rr_need_merge rs0) (rr_min rs0) (rr_max rs0)) as -> by congruence. split; [exact E2|].
    intros q I. apply merge_ends in I as [I _]; [|eapply Forall_impl; [|exact E3]; cbn; tauto]. apply in_map_iff in I as (p & <- & I). rewrite Forall_forall in E3. now apply E3. }
  destruct S as [S1 S2]. destruct (as_count (rr_ascii rs)) as [n c]. destruct (Nat.eqb n 0 && null (rr_unicode rs)); [discriminate|].
  destruct (null (rr_unicode rs) && Nat.eqb n 1); [intro H; apply ok_inj in H; assert (it = IByte c) as -> by congruence; cbn; lia|].
  destruct (rr_unicode rs) as [|r [|r2 l]]; [| |]; try (intro H; apply ok_inj in H; assert (it = IRanges rs) as -> by congruence; exact S1).
  destruct (Nat.eqb n 0 && (First r =? Last r)%N); intro H; apply ok_inj in H; [assert (it = IRune (First r)) as -> by congruence|assert (it = IRanges rs) as -> by congruence; exact S1].
  cbn. pose proof (rune_len_pos (First r) (S2 r (or_introl eq_refl))). lia.
Qed.
Lemma single_min v : (0 <= item_min (single_item v))%Z.
Proof.
  unfold single_item. pose proof (decode_valid v) as V. destruct (decode_rune v) as [r n]. cbn [fst] in V. destruct (Nat.eqb n (length v)); [destruct (r <=? 127)%N|]; cbn [item_min]; try lia.
  - pose proof (rune_len_pos r V). lia.
  - unfold zlen. lia.
Qed.

Notation c1 := (calm1 true true (fun _ => True)).
Notation c2 := (calm true true (fun _ => True)).
Definition empty_min (it : item) : Prop := item_min it = 0%Z.
Definition sane (it : item) : Prop := c1 it /\ (0 <= item_min it)%Z.
Lemma token_sane f s it a rest : token f s (Some it) a rest -> ~ In "}"%char s -> sane it.
Proof.
  intros T NB. split.
  - apply (token_calm true true (fun _ => True) f s (Some it) a rest); auto. split; [auto|split; auto].
  - inversion T; subst.
    + eapply class_min; eauto.
    + exfalso. apply NB. rewrite braced_app. right. apply in_or_app. right. now left.
    + cbn. lia.
    + cbn. lia.
    + apply single_min.
    + cbn. unfold zlen. lia.
Qed.
Lemma zlen_zero s : zlen s = 0%Z <-> s = [].
Proof. unfold zlen. split; [|intros ->; reflexivity]. destruct s; auto. cbn. lia. Qed.
Lemma sane_rune r : sane (IRune r) -> item_min (IRune r) <> 0%Z.
Proof. intros _. cbn. unfold rune_len. destruct (r <? 128)%N, (r <? 2048)%N, (negb (valid_rune r)), (r <? 65536)%N; lia. Qed.
Lemma string_byte_nonempty b : string_of_byte b <> [].
Proof. apply encode_nonempty. Qed.
Lemma merge_sane x y m : sane x -> sane y -> merge_last x y = Some m -> sane m /\ (empty_min m <-> empty_min x /\ empty_min y).
Proof.
  intros Sx Sy E. pose proof (fun r (H : x = IRune r) => sane_rune r (eq_rect x sane Sx _ H)) as Rx. pose proof (fun r (H : y = IRune r) => sane_rune r (eq_rect y sane Sy _ H)) as Ry. destruct Sx as [Cx Mx], Sy as [Cy My].
  split; [split; [exact (calm1_merge true true (fun _ => True) x y m Cx Cy E)|]|]; destruct y, x; try discriminate; cbn in E; injection E as <-; unfold empty_min; cbn [item_min] in *; unfold zlen in *; rewrite ?app_length; try lia;
  repeat match goal with
  | |- context [encode_rune ?r] => lazymatch goal with H : 1 <= length (encode_rune r) |- _ => fail | _ => pose proof (encode_len_pos r) end
  | |- context [string_of_byte ?b] => lazymatch goal with H : 1 <= length (string_of_byte b) |- _ => fail | _ => assert (1 <= length (string_of_byte b)) by (pose proof (string_byte_nonempty b); destruct (string_of_byte b); [congruence|cbn; lia]) end end;
  try lia; try (specialize (Rx _ eq_refl)); try (specialize (Ry _ eq_refl)); cbn [item_min] in *; lia.
Qed.
Lemma append_sane rl it : Forall sane rl -> sane it -> Forall sane (append_item_rev rl it) /\ (Forall empty_min (append_item_rev rl it) <-> Forall empty_min rl /\ empty_min it).
Proof.
  intros F S. destruct rl as [|x r]; cbn [append_item_rev].
  - split; [auto|]. split; [intro H; inversion H; auto|intros [_ H]; auto].
  - inversion F as [|? ? F1 F2]; subst. destruct (merge_last x it) as [m|] eqn:E.
    + destruct (merge_sane _ _ _ F1 S E) as [Sm Z]. split; [auto|]. rewrite !Forall_cons_iff. tauto.
    + split; [auto|]. rewrite !Forall_cons_iff. tauto.
Qed.
Definition chain_inv (st : list item * Z * Z) : Prop :=
  let '(rl, mn, _) := st in Forall sane rl /\ (0 <= mn)%Z /\ (mn = 0%Z <-> Forall empty_min rl) /\ (mn <= zsum item_min rl)%Z.
Lemma chain_sane f0 : forall fuel v st st', ~ In "}"%char v -> chain_inv st -> group_chain fuel (next_item f0) v st = Ok st' -> chain_inv st'.
Proof.
  induction fuel as [|f IH]; intros v st st' NB F H; cbn [group_chain] in H.
  - destruct v; [|discriminate]. apply ok_inj in H. now subst.
  - destruct v as [|c v]; [apply ok_inj in H; now subst|].
    destruct (next_item f0 (c :: v)) as [[oi rest]|e| |] eqn:E; try discriminate.
    destruct f0 as [|f0]; [discriminate|]. apply next_token in E as (a & T).
    destruct (token_text _ _ _ _ _ T) as [Ea _].
    assert (NB' : ~ In "}"%char rest) by (intro I; apply NB; rewrite Ea; apply in_or_app; now right).
    destruct oi as [it|]; apply IH in H; auto. apply token_sane in T; auto. destruct st as [[rl mn] mx]. destruct F as (F1 & F2 & F3 & F4). cbn [chain_append chain_inv].
    destruct (append_sane rl it F1 T) as [A1 A2]. split; [exact A1|]. destruct T as [_ T]. split; [lia|]. split; [rewrite A2, <- F3; unfold empty_min; lia|]. pose proof (append_min rl it). lia.
Qed.
Definition val_ok (v : item) : Prop := Forall sane (val_items v) /\ (0 <= item_min v)%Z /\ (item_min v = 0%Z <-> Forall empty_min (val_items v)) /\ (item_min v <= zsum item_min (val_items v))%Z.
Lemma sane_val it : sane it -> val_ok it.
Proof.
  intros S. assert (val_items it = [it]) as E by (destruct S as [S _]; destruct it; easy). unfold val_ok. rewrite E. destruct S as [S1 S2]. split; [repeat constructor; auto|]. split; [exact S2|].
  rewrite Forall_cons_iff. unfold empty_min. split; [intuition|]. cbn. lia.
Qed.
Lemma group_val_ok f0 v it : ~ In "}"%char v -> group_val (next_item f0) v = Ok it -> val_ok it.
Proof.
  intros NB H. unfold group_val in H. destruct (group_chain (length v) (next_item f0) v ([], 0%Z, 0%Z)) as [[[rl mn] mx]|e| |] eqn:E; try discriminate.
  cbn [bind] in H. apply chain_sane in E; auto; [|cbn; repeat split; auto; lia]. destruct E as (E1 & E2 & E3 & E4).
  destruct rl as [|x [|y rl]]; apply ok_inj in H; subst it.
  - cbn. unfold val_ok. cbn. repeat split; auto; try lia; apply E3.
  - apply sane_val. now inversion E1.
  - unfold val_ok. cbn [val_items item_min]. split; [now apply Forall_rev|]. split; [exact E2|]. rewrite E3. split; [split; intro F; apply Forall_rev in F; now rewrite ?rev_involutive in F|]. now rewrite zsum_rev.
Qed.
Lemma group_vals_ok f0 : forall vals l, Forall (fun v => ~ In "}"%char v) vals ->
  group_vals (next_item f0) vals = Ok (inr l) -> forall v, In v l -> val_ok v.
Proof.
  induction vals as [|v vals IH]; intros l NB H; cbn [group_vals] in H.
  - injection H as <-. intros v [].
  - inversion NB as [|? ? N1 N2]; subst. destruct (has_wildcard v) eqn:W.
    + destruct (str_eqb_spec v (B "*")) as [->|Ns]; [discriminate|].
      destruct (if str_eqb v (B "?") then Ok (IAny 1) else group_val (next_item f0) v) as [it|e| |] eqn:E; try discriminate. cbn [bind] in H.
      assert (V : val_ok it).
      { destruct (str_eqb_spec v (B "?")) as [->|Nq]; [injection E as <-; apply sane_val; split; [reflexivity|cbn; lia]|now apply group_val_ok in E]. }
      destruct (group_vals (next_item f0) vals) as [[r0|r0]|e| |] eqn:E2; try discriminate. cbn [bind] in H. injection H as <-.
      specialize (IH r0 N2 eq_refl). intros x [<-|I]; auto.
    + destruct (group_vals (next_item f0) vals) as [[r0|r0]|e| |] eqn:E2; try discriminate. cbn [bind] in H. injection H as <-.
      specialize (IH r0 N2 eq_refl). intros x [<-|I]; auto. apply sane_val. split; [exact I|cbn; unfold zlen; lia].
Qed.
Lemma bounds_le : forall l mn mx, (fst (group_bounds l mn mx) <= mn)%Z /\ forall v, In v l -> (fst (group_bounds l mn mx) <= item_min v)%Z.
Proof.
  induction l as [|x l IH]; intros mn mx; cbn [group_bounds]; [split; [cbn; lia|easy]|].
  destruct (IH (if (item_min x <? mn)%Z then item_min x else mn) (if negb (mx =? -1)%Z && ((item_max x =? -1)%Z || (mx <? item_max x)%Z) then item_max x else mx)) as [A C].
  split; [destruct (Z.ltb_spec (item_min x) mn); lia|]. intros v [<-|I]; [destruct (Z.ltb_spec (item_min x) mn); lia|now apply C].
Qed.
Lemma bounds_zero : forall l mn mx, (0 <= mn)%Z -> (forall v, In v l -> 0 <= item_min v)%Z ->
  (fst (group_bounds l mn mx) = 0%Z <-> mn = 0%Z \/ exists v, In v l /\ item_min v = 0%Z).
Proof.
  induction l as [|x l IH]; intros mn mx H F; cbn [group_bounds].
  - cbn. split; [auto|]. intros [E|(v & [] & _)]; auto.
  - pose proof (F x (or_introl eq_refl)) as Fx. rewrite IH; [| |intros; apply F; now right].
    + split.
      * intros [E|(v & I & E)]; [|right; exists v; split; [now right|auto]]. destruct (item_min x <? mn)%Z; auto. right. exists x. split; [now left|auto].
      * intros [E|(v & [<-|I] & E)]; [left; subst; destruct (Z.ltb_spec (item_min x) 0); lia|left; destruct (Z.ltb_spec (item_min x) mn); lia|right; eauto].
    + destruct (item_min x <? mn)%Z; lia.
Qed.
(** What is known of every item of a parsed glob. *)
Definition made (it : item) : Prop :=
  match it with
  | IList _ => True
  | IGroup vals mn _ => (forall v, In v vals -> Forall c1 (val_items v)) /\ (mn = 0%Z <-> exists v, In v vals /\ Forall empty_min (val_items v)) /\
    (forall v, In v vals -> mn <= zsum item_min (val_items v))%Z
  | _ => c1 it
  end.
Lemma made_merge x y m : made x -> made y -> merge_last x y = Some m -> made m.
Proof.
  intros Hx Hy E. assert (C : c1 m) by (apply (calm1_merge true true (fun _ => True) x y); auto; destruct y, x; try discriminate; auto). destruct m; easy.
Qed.
Lemma list_made f vals it : Forall (fun v => ~ In "}"%char v) vals -> new_item_list (next_item f) vals = Ok (Some it) -> made it.
Proof.
  intros NB H. unfold new_item_list in H. destruct vals as [|v [|v2 vals]]; [discriminate| |].
  - destruct v; cbn [null] in H; [discriminate|]. apply ok_inj in H. assert (E : single_item (a :: v) = it) by congruence. pose proof (single_calm true true (fun _ => True) (a :: v)) as K. rewrite E in K. destruct it; easy.
  - remember (v :: v2 :: vals) as vs eqn:Evs.
    destruct (list_scan vs max_int 0 true as_empty) as [[[[mn mx] st] fi] hs] eqn:E. destruct hs.
    + unfold new_group in H. destruct (group_vals (next_item f) vs) as [[x|l]|e| |] eqn:Eg; try discriminate; cbn [bind] in H.
      * injection H as <-. clear - Eg. revert x Eg. induction vs as [|v vs IH]; intros x H; cbn [group_vals] in H; [discriminate|].
        destruct (has_wildcard v).
        -- destruct (str_eqb_spec v (B "*")) as [->|]; [injection H as <-; split; [reflexivity|discriminate]|].
           destruct (if str_eqb v (B "?") then Ok (IAny 1) else group_val (next_item f) v); try discriminate; cbn [bind] in H.
           destruct (group_vals (next_item f) vs) as [[r|r]|e| |]; try discriminate; cbn [bind] in H; injection H as <-; auto.
        -- destruct (group_vals (next_item f) vs) as [[r|r]|e| |]; try discriminate; cbn [bind] in H; injection H as <-; auto.
      * pose proof (group_vals_ok f vs l NB Eg) as V. destruct l as [|x l]; [discriminate|].
        pose proof (bounds_zero l (item_min x) (item_max x)) as Bz. pose proof (bounds_le l (item_min x) (item_max x)) as Bl. destruct (group_bounds l (item_min x) (item_max x)) as [m1 m2]. injection H as <-. cbn [made fst] in *. split.
        -- intros w I. eapply Forall_impl; [|exact (proj1 (V w I))]. intros i [X _]; exact X.
        -- split; [|intros w [<-|I]; [pose proof (proj2 (proj2 (proj2 (V x (or_introl eq_refl))))); lia|pose proof (proj2 (proj2 (proj2 (V w (or_intror I))))); pose proof (proj2 Bl w I); lia]].
           rewrite Bz; [|apply V; now left|intros w I; apply V; now right]. split.
           ++ intros [Z|(w & I & Z)]; [exists x|exists w]; (split; [auto with datatypes|]); apply V; auto with datatypes.
           ++ intros (w & [<-|I] & F); [left|right; exists w; split; auto]; apply V; auto with datatypes.
    + assert (exists vs0, Some it = Some (if st then IList (mkSList st fi vs0 mn mx) else IList (mkSList false as_empty vs0 mn mx))) as (vs0 & Ei).
      { subst vs. destruct (mn =? 0)%Z; [destruct v; [|discriminate]|]; injection H as <-; eauto. }
      injection Ei as ->. destruct st; exact I.
Qed.
Lemma parse_made g gl : glob_parse g = Ok gl -> Forall made (g_items gl).
Proof.
  apply parse_forall.
  - exact made_merge.
  - split; [reflexivity|discriminate].
  - reflexivity.
  - intros f s it a rest done suffix T _. inversion T; subst; try exact I; try reflexivity; try (split; [reflexivity|discriminate]).
    + match goal with H : class_item _ = _ |- _ => apply class_kind in H end. destruct it; easy.
    + match goal with H : _ \/ _ |- _ => destruct H as [[_ ?]|[_ K]]; [discriminate|] end. eapply list_made; [|exact K].
      apply Forall_forall. intros v I J. apply (proj1 (norm_in _ _)) in I. destruct (split_part "," body v I) as (p & q & -> & _).
      match goal with X : ~ In "}"%char _ |- _ => apply X end. apply in_or_app. right. apply in_or_app. now left.
    + pose proof (single_calm true true (fun _ => True) a) as K. destruct (single_item a); easy.
Qed.

(** ** The same holds of equal items *)
Definition eqi : list item -> list item -> Prop := Forall2 (fun a b => item_equal a b = true).
Lemma c1_min a b : c1 a -> item_equal a b = true -> item_min a = item_min b.
Proof.
  intros C E. apply equal_erase in E. destruct a; try easy; destruct b; try discriminate; cbn in E; injection E; intros; subst; cbn [item_min]; congruence.
Qed.
Lemma eqi_empty l l' : Forall c1 l -> eqi l l' -> (Forall empty_min l <-> Forall empty_min l').
Proof.
  intros C H. induction H as [|a b l l' E H IH]; [split; auto|]. inversion C; subst. rewrite !Forall_cons_iff, IH by auto. unfold empty_min. rewrite (c1_min a b) by auto. tauto.
Qed.
Lemma erase_eqi l l' : map erase l = map erase l' -> eqi l l'.
Proof.
  revert l'. induction l as [|a l IH]; intros [|b l'] E; try discriminate; constructor; injection E as E1 E2; [now apply equal_erase|now apply IH].
Qed.
Lemma val_eqi v w : item_equal v w = true -> eqi (val_items v) (val_items w).
Proof.
  intro E. assert (E2 := E). apply equal_erase in E2. destruct v, w; try discriminate; try (repeat constructor; exact E). cbn in E2. injection E2 as E2. now apply erase_eqi.
Qed.
Lemma vals_eqi vals vals' : map erase vals = map erase vals' -> forall w, In w vals' -> exists v, In v vals /\ eqi (val_items v) (val_items w).
Proof.
  revert vals'. induction vals as [|a l IH]; intros [|b l'] E w I; try discriminate; [destruct I|]. injection E as E1 E2. destruct I as [<-|I].
  - exists a. split; [now left|]. now apply val_eqi, equal_erase.
  - destruct (IH _ E2 w I) as (v & J & K). exists v. split; [now right|exact K].
Qed.
Lemma group_zero vals vals' mn mn' mx mx' : made (IGroup vals mn mx) -> made (IGroup vals' mn' mx') -> map erase vals = map erase vals' -> mn' = 0%Z -> mn = 0%Z.
Proof.
  intros (A1 & A2 & _) (_ & B2 & _) E Z. apply A2. apply B2 in Z as (w & I & F). destruct (vals_eqi _ _ E w I) as (v & J & K). exists v. split; [exact J|]. eapply eqi_empty; eauto.
Qed.
Lemma eqi_refl l : eqi l l.
Proof. induction l; constructor; auto. apply equal_refl. Qed.
Lemma eqi_app a a' b b' : eqi a a' -> eqi b b' -> eqi (a ++ b) (a' ++ b').
Proof. apply Forall2_app. Qed.
Lemma c1_made l : Forall c1 l -> Forall made l.
Proof. intro F. eapply Forall_impl; [|exact F]. intros [] C; easy. Qed.
Lemma equal_lit a b : literal_item a -> item_equal a b = true -> literal_item b.
Proof. intros L E. destruct a; try easy; destruct b; easy. Qed.
Lemma quiet_equal p F : quiet p F -> forall F', Forall made F -> Forall made F' -> eqi F F' -> quiet p F'.
Proof.
  induction 1 as [p|p it R L St Q IH|n R Q IH|p k R Q IH|p l R Q IH Q2 IH2|p vals mn mx R Q IH Q2 IH2]; intros F' M M' E; inversion E as [|? b ? R' Eh Et]; subst; inversion M as [|? ? M1 M2]; inversion M' as [|? ? M1' M2']; subst.
  - constructor.
  - apply q_lit; [eapply equal_lit; eauto| |now apply IH]. intros Ep ->. apply (St Ep). destruct it as [| |r| | | | | |]; try discriminate. cbn [item_equal] in Eh. f_equal. now apply N.eqb_eq in Eh.
  - destruct b; try discriminate. apply q_any. now apply IH.
  - destruct b; try discriminate. apply q_star. now apply IH.
  - destruct b; try discriminate. cbn [item_equal] in Eh. apply sl_equal_eq in Eh as (Em & _). apply q_list; [now apply IH|]. rewrite <- Em. intro Z. now apply IH2.
  - destruct b; try discriminate. apply equal_erase in Eh. cbn [erase] in Eh. injection Eh as Eh. apply q_group.
    + intros w I. destruct (vals_eqi _ _ Eh w I) as (v & J & K). apply (IH v J); [| |now apply eqi_app]; apply Forall_app; (split; [|assumption]); apply c1_made.
      * now apply (proj1 M1).
      * now apply (proj1 M1').
    + intro Z. apply IH2; auto. eapply group_zero; [exact M1|exact M1'|exact Eh|exact Z].
Qed.
Lemma quiet_prefix p F : quiet p F -> forall A C, F = A ++ C -> quiet p A.
Proof.
  induction 1 as [p|p it R L St Q IH|n R Q IH|p k R Q IH|p l R Q IH Q2 IH2|p vals mn mx R Q IH Q2 IH2]; intros A C E; (destruct A as [|x A]; [constructor|]); try discriminate; injection E as <- E.
  - apply q_lit; eauto.
  - apply q_any; eauto.
  - apply q_star; eauto.
  - apply q_list; eauto.
  - apply q_group; [|eauto]. intros v I. apply (IH v I (val_items v ++ A) C). now rewrite E, app_assoc.
Qed.
