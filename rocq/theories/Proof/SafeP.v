(** Regular globs parse to safe item sequences. *)
From Verif Require Import Model.Glob Spec.Symbols Spec.Class Spec.GlobSpec Spec.Lang Spec.Safe.
From Verif Require Import Proof.Utf8P Proof.SymbolsP Proof.SortP Proof.AsciiSetP Proof.SkipP Proof.MergeP Proof.RangesP Proof.ClassSearchP Proof.RangesTop Proof.LangP Proof.ListP Proof.ItemP Proof.DenotesP Proof.MatchP Proof.ParseP Proof.NextP Proof.GlobP Proof.GlobMatchP.
From Coq Require Import Sorting.Sorted Lia ZifyBool ZifyN ZifyNat.

Inductive stage := Normal | AfterStar | AfterStarList.
Definition one_group (vals : list item) : Prop := forall v, In v vals -> Forall one_item (val_items v).
Definition lit_group (vals : list item) : Prop := forall v, In v vals -> exists it its, val_items v = it :: its /\ literal_item it /\ (1 <= item_min it)%Z /\ Forall one_item its.
Inductive step : stage -> item -> stage -> Prop :=
| st_lit st it : literal_item it -> st <> AfterStarList -> step st it Normal
| st_any n : step Normal (IAny n) Normal
| st_star st k : st <> AfterStar -> step st (IStar k) AfterStar
| st_list l : step Normal (IList l) Normal
| st_star_list l : sl_min l <> 0%Z -> step AfterStar (IList l) AfterStarList
| st_group vals mn mx : one_group vals -> step Normal (IGroup vals mn mx) Normal
| st_star_group vals mn mx : lit_group vals -> step AfterStar (IGroup vals mn mx) Normal.
Inductive run : stage -> list item -> stage -> Prop :=
| r_nil st : run st [] st
| r_cons st it st1 l st2 : step st it st1 -> run st1 l st2 -> run st (it :: l) st2.
Lemma run_app st l1 l2 st2 : run st (l1 ++ l2) st2 <-> exists st1, run st l1 st1 /\ run st1 l2 st2.
Proof.
  revert st. induction l1 as [|x l1 IH]; intro st; cbn [app].
  - split; [intro R; exists st; split; [constructor|exact R]|]. intros (st1 & R1 & R2). inversion R1; subst. exact R2.
  - split.
    + intro R. inversion R; subst. apply IH in H4 as (st3 & R1 & R2). exists st3. split; auto. econstructor; eauto.
    + intros (st3 & R1 & R2). inversion R1; subst. econstructor; eauto. apply IH. eauto.
Qed.
Lemma run_one st it st2 : run st [it] st2 <-> step st it st2.
Proof. split; [intro R; inversion R as [|? ? ? ? ? S R2]; inversion R2; subst; auto|]. intro S. econstructor; eauto. constructor. Qed.

Lemma safe_ones l R : Forall one_item l -> safe R -> safe (l ++ R).
Proof. induction 1; cbn; auto. intro. now apply safe_one; auto. Qed.
Lemma literal_one it : literal_item it -> one_item it.
Proof. destruct it; easy. Qed.
Lemma den_lit_nil it : literal_item it -> (1 <= item_min it)%Z -> ~ den it [].
Proof.
  intros L N D. destruct it; try (now destruct L); cbn in D; try discriminate.
  - symmetry in D. apply symbols_eq_nil in D. subst. cbn in N. lia.
  - destruct D as (x & E & _). discriminate.
Qed.
Lemma lit_group_min u vals mn mx : wfi u (IGroup vals mn mx) -> lit_group vals -> mn <> 0%Z.
Proof.
  intros (_ & Wo & Wv) L Z. specialize (Wo Z). apply Exists_exists in Wo as (v & J & Zv).
  assert (W : wfi u v).
  { clear - Wv J. induction vals as [|a vals IH]; [easy|]. destruct Wv as (_ & W & Wr). destruct J as [<-|J]; auto. }
  destruct (L v J) as (it & its & E & Lt & Nn & _). apply (den_min_0 u) in Zv; auto. apply den_val_items in Zv. pose proof (wfi_val u v W) as F.
  rewrite E in Zv, F. inversion F; subst. destruct Zv as (w1 & w2 & E2 & D & _). symmetry in E2. apply app_eq_nil in E2 as [-> _]. now apply (den_lit_nil it Lt Nn) in D.
Qed.
Definition fits (it : item) : Prop := match it with IGroup vals mn _ => lit_group vals -> mn <> 0%Z | _ => True end.
Lemma wfi_fits u l : Forall (wfi u) l -> Forall fits l.
Proof. intro F. eapply Forall_impl; [|exact F]. intros [] W; try exact I. exact (lit_group_min u _ _ _ W). Qed.
Lemma run_safe l : Forall fits l -> forall st st', run st l st' ->
  match st with
  | Normal => safe l
  | AfterStar => l = [] \/ safe_star l
  | AfterStarList => safe l /\ (l = [] \/ exists k l', l = IStar k :: l')
  end.
Proof.
  intro W. induction W as [|it l Wi W IH]; intros st st' R.
  - destruct st; auto. constructor. split; auto. constructor.
  - inversion R as [|? ? st1 ? ? S R2]; subst. specialize (IH _ _ R2). inversion S; subst.
    + destruct st; try easy; [apply safe_one; auto; now apply literal_one|]. right. now apply ss_one.
    + apply safe_one; [exact I|auto].
    + assert (X : safe (IStar k :: l)) by now apply safe_starred. destruct st; try easy. split; eauto.
    + now apply safe_list.
    + destruct IH as [I1 I2]. right. apply ss_list; auto. easy.
    + apply safe_group; auto. intros v I. apply safe_ones; auto.
    + right. apply ss_group; auto.
      * intros v J. destruct (H v J) as (i & its & -> & L & _ & O). split; [discriminate|]. cbn [app]. apply ss_one; auto. now apply safe_ones.
      * intro Z. now elim (Wi H Z).
Qed.

Lemma run_append rl st it st' : run Normal (rev rl) st ->
  match it with
  | IAny _ => st <> AfterStarList /\ st' = st
  | IStar _ => st' = AfterStar
  | _ => step st it st'
  end -> run Normal (rev (append_item_rev rl it)) st'.
Proof.
  intros R S. destruct rl as [|x r].
  - inversion R; subst. cbn. apply run_one. destruct it; auto.
    + destruct S as [_ ->]. apply st_any.
    + subst. now apply st_star.
  - cbn [append_item_rev]. cbn [rev] in R. apply run_app in R as (st1 & R1 & R2). apply (proj1 (run_one _ _ _)) in R2.
    rewrite merge_last_lit.
    assert (Ap : step st it st' -> run Normal (rev (it :: x :: r)) st').
    { intro S1. cbn [rev]. apply run_app. exists st. split; [|now apply run_one]. apply run_app. exists st1. split; auto. now apply run_one. }
    assert (Mg : forall m, step st1 m st' -> run Normal (rev (m :: r)) st').
    { intros m S1. cbn [rev]. apply run_app. exists st1. split; auto. now apply run_one. }
    destruct (lit_text x) as [a|] eqn:Ea; [destruct (lit_text it) as [b|] eqn:Eb|].
    + apply Mg. assert (Lx : literal_item x) by (destruct x; easy). assert (Li : literal_item it) by (destruct it; easy).
      inversion R2; subst; try easy. assert (st' = Normal) as ->. { destruct it; try easy; now inversion S. } constructor; [exact I|auto].
    + assert (Lx : literal_item x) by (destruct x; easy). assert (st = Normal) as -> by (inversion R2; subst; easy).
      destruct it; try discriminate; try (now apply Ap).
      * destruct x; try easy; apply Ap; destruct S as [_ ->]; apply st_any.
      * destruct x; try easy; apply Ap; subst; now apply st_star.
    + destruct it as [| | |n|n| | | |]; try (now apply Ap).
      * destruct S as [N ->]. destruct x as [| | |m|m| | | |]; try discriminate;
          inversion R2; subst; try easy; first [apply Ap; apply st_any; fail|apply Mg; apply st_any; fail|apply Mg; now apply st_star].
      * subst st'. destruct x as [| | |m|m| | | |]; try discriminate; inversion R2; subst; try easy; first [apply Ap; now apply st_star|apply Mg; now apply st_star].
Qed.

(** Kinds of tokens. *)
Lemma class_kind body oi : class_item body = Ok oi -> match oi with Some i => literal_item i | None => True end.
Proof.
  unfold class_item. destruct (ranges_expand (bracketed body)) as [rs|]; [|discriminate].
  destruct (as_count (rr_ascii rs)) as [n c].
  destruct (Nat.eqb n 0 && null (rr_unicode rs)); [intro H; injection H as <-; exact I|].
  destruct (null (rr_unicode rs) && Nat.eqb n 1); [intro H; injection H as <-; exact I|].
  destruct (rr_unicode rs) as [|q [|q2 l]]; try (intro H; injection H as <-; exact I).
  destruct (Nat.eqb n 0 && (First q =? Last q)%N); intro H; injection H as <-; exact I.
Qed.
Lemma single_kind v : literal_item (single_item v).
Proof. unfold single_item. destruct (decode_rune v) as [r n]. destruct (Nat.eqb n (length v)); [destruct (r <=? 127)%N|]; exact I. Qed.
Lemma token_one f s oi a rest : token f s oi a rest -> ~ In "}"%char s -> ~ In "*"%char s -> match oi with Some i => one_item i | None => True end.
Proof.
  intros [body r o N H|body r o N H|n r N|r|b c r Na N Mc|b Na N] NB NS.
  - apply class_kind in H. destruct o; auto. now apply literal_one.
  - exfalso. apply NB. rewrite braced_app. right. apply in_or_app. right. now left.
  - exfalso. apply NS. now left.
  - exact I.
  - apply literal_one, single_kind.
  - exact I.
Qed.
Lemma one_append rl it : Forall one_item rl -> one_item it -> Forall one_item (append_item_rev rl it).
Proof.
  intros F O. destruct rl as [|x r]; [now constructor|]. cbn [append_item_rev]. inversion F; subst.
  destruct (merge_last x it) as [m|] eqn:E; [|now repeat constructor]. constructor; auto.
  rewrite merge_last_lit in E. destruct x, it; try easy; injection E as <-; exact I.
Qed.
Lemma group_chain_one f0 : forall fuel v st rl mn mx, ~ In "}"%char v -> ~ In "*"%char v -> Forall one_item (fst (fst st)) ->
  group_chain fuel (next_item f0) v st = Ok (rl, mn, mx) -> Forall one_item rl.
Proof.
  induction fuel as [|f IH]; intros v [[rl0 mn0] mx0] rl mn mx NB NS F H; cbn [group_chain] in H.
  - destruct v; [|discriminate]. now injection H as <- <- <-.
  - destruct v as [|c v]; [now injection H as <- <- <-|].
    destruct (next_item f0 (c :: v)) as [[oi rest]|e| |] eqn:E; try discriminate.
    destruct f0 as [|f0]; [discriminate|]. apply next_token in E as (a & T). pose proof (token_one _ _ _ _ _ T NB NS) as O.
    destruct (token_text _ _ _ _ _ T) as [Ea _]. rewrite Ea in NB, NS.
    assert (NB' : ~ In "}"%char rest) by (intro I; apply NB; apply in_or_app; now right).
    assert (NS' : ~ In "*"%char rest) by (intro I; apply NS; apply in_or_app; now right).
    destruct oi as [it|].
    + unfold chain_append in H. apply IH in H; auto. cbn in *. now apply one_append.
    + apply IH in H; auto.
Qed.
Lemma group_vals_one f0 : forall vals l, Forall (fun v => ~ In "}"%char v) vals -> Forall (fun v => ~ In "*"%char v) vals ->
  group_vals (next_item f0) vals = Ok (inr l) -> one_group l.
Proof.
  induction vals as [|v vals IH]; intros l NB NS H; cbn [group_vals] in H.
  - injection H as <-. intros v [].
  - inversion NB as [|? ? N1 N2]; inversion NS as [|? ? S1 S2]; subst. destruct (has_wildcard v) eqn:W.
    + destruct (str_eqb_spec v (B "*")) as [->|Ns]; [discriminate|].
      destruct (if str_eqb v (B "?") then Ok (IAny 1) else group_val (next_item f0) v) as [it|e| |] eqn:E; try discriminate. cbn [bind] in H.
      assert (V : Forall one_item (val_items it)).
      { destruct (str_eqb_spec v (B "?")) as [->|Nq].
        - injection E as <-. repeat constructor.
        - unfold group_val in E. destruct (group_chain (length v) (next_item f0) v ([], 0%Z, 0%Z)) as [[[rl mn] mx]|e| |] eqn:E2; try discriminate.
          cbn [bind] in E. apply group_chain_one in E2; auto; [|constructor]. destruct rl as [|x [|y rl]]; injection E as <-.
          + constructor.
          + inversion E2; subst. destruct x; try easy; repeat constructor.
          + exact (Forall_rev E2). }
      destruct (group_vals (next_item f0) vals) as [[r0|r0]|e| |] eqn:E2; try discriminate. cbn [bind] in H. injection H as <-.
      specialize (IH r0 N2 S2 eq_refl). intros x [<-|I]; auto.
    + destruct (group_vals (next_item f0) vals) as [[r0|r0]|e| |] eqn:E2; try discriminate. cbn [bind] in H. injection H as <-.
      specialize (IH r0 N2 S2 eq_refl). intros x [<-|I]; auto. repeat constructor.
Qed.
(** A value that starts with a character or a class becomes a literal item and one-symbol items. *)
Lemma class_some body r oi : in_class body r -> r <> 0%N -> class_item body = Ok oi -> oi <> None.
Proof.
  intros I Nz H ->. assert (C : clean body) by (destruct I as (rs & ps & F & E & _); exists rs; auto).
  unfold class_item in H. destruct (ranges_expand (bracketed body)) as [rs|] eqn:E; [|discriminate].
  destruct (ranges_expand_ok _ _ C E) as ((AO & UO & SO) & Sz & _ & D). apply D in I. apply fin_contains in I; [|split; auto].
  rewrite (count_eq _ AO) in H. unfold mem in I. destruct (r <=? 127)%N eqn:L.
  - assert (J : In (byte_of r) (filter (as_contains (rr_ascii rs)) (bytes_from 1 127))).
    { apply (count_members _ _ AO). split; auto. intro Z0. apply (f_equal code) in Z0. rewrite code_byte_of in Z0 by lia. now apply Nz. }
    destruct (filter _ _) as [|y l]; [destruct J|]. cbn [length Nat.eqb andb] in H. rewrite andb_false_r in H || idtac.
    repeat match type of H with context [match ?x with _ => _ end] => destruct x; try discriminate end.
  - destruct I as (q & J & _). destruct (rr_unicode rs) as [|y l]; [destruct J|]. cbn [null] in H. rewrite andb_false_r in H.
    repeat match type of H with context [match ?x with _ => _ end] => destruct x; try discriminate end.
Qed.
Lemma rune_len_1 r : (1 <= rune_len r \/ rune_len r = -1)%Z.
Proof. unfold rune_len. repeat match goal with |- context [if ?b then _ else _] => destruct b end; lia. Qed.
Lemma single_text v : v <> [] -> (1 <= item_min (single_item v))%Z.
Proof.
  intros N. unfold single_item. destruct (decode_rune v) as [r n] eqn:E. destruct (Nat.eqb n (length v)); [destruct (r <=? 127)%N|]; cbn [item_min]; try lia.
  - destruct (N.eq_dec r RuneError) as [->|D]; [cbn; lia|]. apply encode_decode in E as (V & _); auto; [|unfold Utf8P.bad; cbn; tauto].
    pose proof (rune_len_pos r V). lia.
  - destruct v; [easy|]. unfold zlen. cbn [length]. lia.
Qed.
Definition fixed (it : item) : Prop := literal_item it /\ (1 <= item_min it)%Z.
Lemma class_fixed body r it : in_class body r -> class_item body = Ok (Some it) -> fixed it.
Proof.
  intros I H. split; [now apply class_kind in H|].
  assert (C : clean body) by (destruct I as (rs & ps & F & E & _); exists rs; auto).
  unfold class_item in H. destruct (ranges_expand (bracketed body)) as [rs|] eqn:E; [|discriminate].
  destruct (ranges_expand_ok _ _ C E) as (Fin & Sz & _ & D). apply D in I. apply (fin_contains _ _ Fin) in I.
  assert (M : (1 <= rr_min rs)%Z).
  { destruct Sz as [_ [(_ & _ & Z0)|((r1 & S1 & M1 & L1) & _)]]; [now elim (Z0 r)|]. rewrite <- L1. pose proof (rune_len_pos r1 (proj1 S1)). lia. }
  destruct (as_count (rr_ascii rs)) as [n c]. destruct (Nat.eqb n 0 && null (rr_unicode rs)); [discriminate|].
  destruct (null (rr_unicode rs) && Nat.eqb n 1); [injection H as <-; cbn; lia|].
  pose proof (expand_ends body rs C E) as EE. destruct (rr_unicode rs) as [|q [|q2 l]]; try (injection H as <-; exact M).
  inversion EE as [|? ? [S1 _] _]; subst.
  destruct (Nat.eqb n 0 && (First q =? Last q)%N); injection H as <-; [|exact M]. cbn. pose proof (rune_len_pos (First q) (proj1 S1)). lia.
Qed.
Lemma token_fixed f s oi a rest : token f s oi a rest -> starts_fixed s -> exists it, oi = Some it /\ fixed it.
Proof.
  intros T [(c & p & E & N)|(body & p & r & E & Nb & I & Nz)].
  - destruct T as [body rest oi Nb H|body rest oi Nb H|n rest Nr|rest|a c' rest Na N' Mc|a Na N'].
    1-4: exfalso; injection E as <- _; apply N; cbn; tauto.
    + eexists. split; [reflexivity|]. split; [apply single_kind|now apply single_text].
    + eexists. split; [reflexivity|]. split; [exact Logic.I|]. destruct a; [easy|]. cbn [item_min]. unfold zlen. cbn [length]. lia.
  - rewrite bracketed_app in E. destruct T as [body' rest oi Nb' H|body' rest oi Nb' H|n rest Nr|rest|a c' rest Na N' Mc|a Na N']; try discriminate E.
    + rewrite bracketed_app in E. injection E as E. apply cut_unique in E as [-> _]; auto. destruct oi as [it|]; [|now apply (class_some body r None) in H]. exists it. split; auto. now apply (class_fixed body r) in H.
    + exfalso. destruct a as [|x a]; [easy|]. injection E as -> _. apply (N' "["%char); [now left|]. cbn. tauto.
    + exfalso. destruct a as [|x a]; [easy|]. injection E as -> _. apply (N' "["%char); [now left|]. cbn. tauto.
Qed.
Definition fixed_rev (rl : list item) : Prop := exists r it, rl = r ++ [it] /\ fixed it /\ Forall one_item r.
Lemma fixed_append rl it : fixed_rev rl -> one_item it -> fixed_rev (append_item_rev rl it).
Proof.
  intros (r & x & -> & [L N] & F) O. destruct r as [|y r]; cbn [app append_item_rev].
  - destruct (merge_last x it) as [m|] eqn:E.
    + exists [], m. repeat split; auto; rewrite merge_last_lit in E.
      * destruct x, it; try easy; injection E as <-; exact I.
      * assert (A : exists a b, m = IStr (a ++ b) /\ a <> []); [|destruct A as ([|a0 a] & b & -> & Nz); [easy|]; cbn [item_min]; unfold zlen; cbn [app length]; lia].
        destruct x as [tx|bx|rx| | | | | |], it as [ti|bi|ri| | | | | |]; try easy; cbn [lit_text] in E; injection E as <-; eexists _, _; (split; [reflexivity|]).
        1-3: intros ->; cbn in N; lia.
        all: unfold string_of_byte, encode_rune; repeat match goal with |- context [if ?b then _ else _] => destruct b end; discriminate.
    + exists [it], x. repeat split; auto.
  - inversion F as [|? ? F1 F2]; subst. pose proof (one_append (y :: r) it F O) as A. cbn [append_item_rev] in A. destruct (merge_last y it) as [m|].
    + exists (m :: r), x. repeat split; auto.
    + exists (it :: y :: r), x. repeat split; auto.
Qed.
Lemma group_chain_fixed f0 : forall fuel v st rl mn mx, ~ In "}"%char v -> ~ In "*"%char v -> fixed_rev (fst (fst st)) ->
  group_chain fuel (next_item f0) v st = Ok (rl, mn, mx) -> fixed_rev rl.
Proof.
  induction fuel as [|f IH]; intros v [[rl0 mn0] mx0] rl mn mx NB NS F H; cbn [group_chain] in H.
  - destruct v; [|discriminate]. now injection H as <- <- <-.
  - destruct v as [|c v]; [now injection H as <- <- <-|].
    destruct (next_item f0 (c :: v)) as [[oi rest]|e| |] eqn:E; try discriminate.
    destruct f0 as [|f0]; [discriminate|]. apply next_token in E as (a & T). pose proof (token_one _ _ _ _ _ T NB NS) as O.
    destruct (token_text _ _ _ _ _ T) as [Ea _]. rewrite Ea in NB, NS.
    assert (NB' : ~ In "}"%char rest) by (intro I; apply NB; apply in_or_app; now right).
    assert (NS' : ~ In "*"%char rest) by (intro I; apply NS; apply in_or_app; now right).
    destruct oi as [it|].
    + unfold chain_append in H. apply IH in H; auto. cbn in *. now apply fixed_append.
    + apply IH in H; auto.
Qed.
Lemma group_chain_starts f0 fuel v rl mn mx : ~ In "}"%char v -> ~ In "*"%char v -> starts_fixed v ->
  group_chain fuel (next_item f0) v ([], 0%Z, 0%Z) = Ok (rl, mn, mx) -> fixed_rev rl.
Proof.
  intros NB NS F H. destruct v as [|c v]; [exfalso; destruct F as [(c & p & E & _)|(body & p & r & E & _)]; discriminate E|].
  destruct fuel as [|fuel]; cbn [group_chain] in H; [discriminate|].
  destruct (next_item f0 (c :: v)) as [[oi rest]|e| |] eqn:E; try discriminate.
  destruct f0 as [|f0]; [discriminate|]. apply next_token in E as (a & T). destruct (token_fixed _ _ _ _ _ T F) as (it & -> & Fi).
  destruct (token_text _ _ _ _ _ T) as [Ea _]. rewrite Ea in NB, NS. unfold chain_append in H. apply group_chain_fixed in H; auto.
  - intro J. apply NB. apply in_or_app. now right.
  - intro J. apply NS. apply in_or_app. now right.
  - exists [], it. repeat split; auto; apply Fi.
Qed.
Lemma group_vals_lit f0 : forall vals l, Forall (fun v => ~ In "}"%char v) vals -> Forall (fun v => ~ In "*"%char v) vals -> Forall starts_fixed vals ->
  group_vals (next_item f0) vals = Ok (inr l) -> lit_group l.
Proof.
  induction vals as [|v vals IH]; intros l NB NS SF H; cbn [group_vals] in H.
  - injection H as <-. intros v [].
  - inversion NB as [|? ? N1 N2]; inversion NS as [|? ? S1 S2]; inversion SF as [|? ? F1 F2]; subst. destruct (has_wildcard v) eqn:W.
    + destruct (str_eqb_spec v (B "*")) as [->|Ns]; [discriminate|].
      destruct (if str_eqb v (B "?") then Ok (IAny 1) else group_val (next_item f0) v) as [it|e| |] eqn:E; try discriminate. cbn [bind] in H.
      assert (V : exists i its, val_items it = i :: its /\ literal_item i /\ (1 <= item_min i)%Z /\ Forall one_item its).
      { destruct (str_eqb_spec v (B "?")) as [->|Nq].
        - exfalso. destruct F1 as [(c & p & E2 & N)|(body & p & r & E2 & _)]; [|discriminate]. injection E2 as <- _. apply N. cbn. tauto.
        - unfold group_val in E. destruct (group_chain (length v) (next_item f0) v ([], 0%Z, 0%Z)) as [[[rl mn] mx]|e| |] eqn:E2; try discriminate.
          cbn [bind] in E. apply group_chain_starts in E2 as (r & i & -> & [L N] & O); auto. exists i, (rev r). 
          assert (val_items it = i :: rev r) as ->; [|repeat split; auto; now apply Forall_rev].
          destruct r as [|x [|y r]]; cbn [app] in E.
          + injection E as <-. destruct i; easy.
          + injection E as <-. reflexivity.
          + injection E as <-. cbn [val_items].
            change (x :: y :: r ++ [i]) with ((x :: y :: r) ++ [i]). now rewrite rev_app_distr. }
      destruct (group_vals (next_item f0) vals) as [[r0|r0]|e| |] eqn:E2; try discriminate. cbn [bind] in H. injection H as <-.
      specialize (IH r0 N2 S2 F2 eq_refl). intros x [<-|I]; auto.
    + destruct (group_vals (next_item f0) vals) as [[r0|r0]|e| |] eqn:E2; try discriminate. cbn [bind] in H. injection H as <-.
      specialize (IH r0 N2 S2 F2 eq_refl). intros x [<-|I]; auto. exists (IStr v), []. repeat split; auto.
      destruct v; [destruct F1 as [(c & p & E & _)|(body & p & r & E & _)]; discriminate E|]. cbn [item_min]. unfold zlen. cbn [length]. lia.
Qed.
Lemma group_vals_star nwi vals it : group_vals nwi vals = Ok (inl it) -> In (B "*") vals.
Proof.
  revert it. induction vals as [|v vals IH]; intros it H; cbn [group_vals] in H; [discriminate|]. destruct (has_wildcard v).
  - destruct (str_eqb_spec v (B "*")) as [->|]; [now left|]. destruct (if str_eqb v (B "?") then Ok (IAny 1) else group_val nwi v); try discriminate. cbn [bind] in H.
    destruct (group_vals nwi vals) as [[|]| | |]; try discriminate. right. eauto.
  - destruct (group_vals nwi vals) as [[|]| | |]; try discriminate. right. eauto.
Qed.
Lemma list_scan_star vals : forall mn mx st fi mn' mx' st' fi', Forall (fun v => has_wildcard v = false) vals -> list_scan vals mn mx st fi = (mn', mx', st', fi', true) -> False.
Proof.
  induction vals as [|v vals IH]; intros mn mx st fi mn' mx' st' fi' F H; cbn [list_scan] in H; [discriminate|].
  inversion F as [|? ? F1 F2]; subst. destruct v as [|c t]; [now apply IH in H|]. destruct (as_add fi c) as [fi1 ok]. rewrite F1 in H. now apply IH in H.
Qed.
Lemma list_scan_plain vals : forall mn mx st fi mn' mx' st' fi', list_scan vals mn mx st fi = (mn', mx', st', fi', false) -> Forall (fun v => has_wildcard v = false) vals.
Proof.
  induction vals as [|v vals IH]; intros mn mx st fi mn' mx' st' fi' H; cbn [list_scan] in H; [constructor|].
  destruct v as [|c t]; [constructor; [reflexivity|]; now apply IH in H|]. destruct (as_add fi c) as [fi1 ok]. destruct (has_wildcard (c :: t)) eqn:W; [discriminate|]. constructor; auto. now apply IH in H.
Qed.
(** An alternative list becomes nothing, a literal, a list or a group of one-symbol items. *)
Lemma list_kind f vals oi : Forall (fun v => ~ In "}"%char v) vals -> Forall (fun v => ~ In "*"%char v) vals -> vals <> [] ->
  new_item_list (next_item f) vals = Ok oi ->
  match oi with
  | None => True
  | Some (IList l) => (Forall (fun v => v <> []) vals -> sl_min l <> 0%Z) /\ Forall (fun v => has_wildcard v = false) vals
  | Some (IGroup gs _ _) => one_group gs /\ (Forall starts_fixed vals -> lit_group gs)
  | Some it => literal_item it
  end.
Proof.
  intros NB NS NE H. unfold new_item_list in H. destruct vals as [|v [|v2 vals]]; [easy| |].
  - destruct v; cbn [null] in H; injection H as <-; [exact I|]. pose proof (single_kind (a :: v)) as K. destruct (single_item (a :: v)); easy.
  - remember (v :: v2 :: vals) as vs eqn:Evs.
    destruct (list_scan vs max_int 0 true as_empty) as [[[[mn mx] st] fi] hs] eqn:E. destruct hs.
    + unfold new_group in H. destruct (group_vals (next_item f) vs) as [[it|l]|e| |] eqn:Eg; try discriminate; cbn [bind] in H.
      * apply group_vals_star in Eg. rewrite Forall_forall in NS. elim (NS _ Eg). now left.
      * assert (Lg : Forall starts_fixed vs -> lit_group l) by (intro SF; now apply group_vals_lit in Eg).
        apply group_vals_one in Eg; auto. destruct l as [|x l]; [injection H as <-; exact I|]. destruct (group_bounds l (item_min x) (item_max x)).
        injection H as <-. split; auto.
    + pose proof (list_scan_plain _ _ _ _ _ _ _ _ _ E) as Pl. apply list_scan_spec in E; [|apply as_ok_empty]. destruct E as (_ & _ & B1 & B2 & _).
      assert (K : forall vs0, match (if st then IList (mkSList st fi vs0 mn mx) else IList (mkSList false as_empty vs0 mn mx)) with
        | IList l => Forall (fun v => v <> []) vs -> sl_min l <> 0%Z | _ => False end).
      { intro vs0. assert (X : Forall (fun v => v <> []) vs -> mn <> 0%Z); [|destruct st; exact X]. intros F ->. destruct B2 as [B2|B2]; [discriminate|].
        apply Exists_exists in B2 as (w & I & E). rewrite Forall_forall in F. apply (F w I). now apply zlen_0. }
      assert (exists vs0, oi = Some (if st then IList (mkSList st fi vs0 mn mx) else IList (mkSList false as_empty vs0 mn mx))) as (vs0 & ->).
      { subst vs. destruct (mn =? 0)%Z; [destruct v; [|discriminate]|]; injection H as <-; eauto. }
      specialize (K vs0). destruct st; split; auto; exact K.
Qed.

Lemma run_sized l : forall st st', run st l st' -> Forall sized l.
Proof.
  induction l as [|it l IH]; intros st st' R; [constructor|]. inversion R as [|? ? st1 ? ? S R2]; subst. constructor; [|now apply IH in R2].
  inversion S; subst; try exact I.
  - destruct it; easy.
  - match goal with O : one_group _ |- _ => intros its mn0 mx0 k I J; specialize (O _ I) end. cbn in *. rewrite Forall_forall in *. exfalso.
    match goal with O : forall x, In x its -> _ |- _ => exact (O _ J) end.
  - match goal with O : lit_group _ |- _ => intros its mn0 mx0 k I J; destruct (O _ I) as (i & r & E & L & _ & F) end. cbn in *. subst its. rewrite Forall_forall in F. exfalso.
    destruct J as [->|J]; [exact L|exact (F _ J)].
Qed.
Lemma split_has sep (s : str) c : In c s -> c <> sep -> exists v, In v (split_on sep s) /\ In c v.
Proof.
  intros I N. induction s as [|d s IH]; [destruct I|]. cbn [split_on]. destruct (Ascii.eqb_spec sep d) as [<-|Nd].
  - destruct I as [E|I]; [congruence|]. destruct (IH I) as (v & J & K). exists v. split; auto. now right.
  - pose proof (split_on_nonempty sep s) as Ne. destruct (split_on sep s) as [|v0 l]; [easy|]. destruct I as [->|I].
    + exists (c :: v0). split; now left.
    + destruct (IH I) as (v & [<-|J] & K); [exists (d :: v0); split; [now left|now right]|]. exists v. split; auto. now right.
Qed.
Lemma lit_head (a : str) : a <> [] -> (forall d, In d a -> ~ In d metas) -> forall t', a <> "*"%char :: t'.
Proof. intros _ N t' ->. apply (N "*"%char); [now left|]. cbn. tauto. Qed.
Lemma loop_run g suffix : regular g -> forall f t done prefix mn mx rl st prefix' mn' mx' rl', g = done ++ t ++ suffix ->
  run Normal (rev rl) st -> (st <> Normal -> In "*"%char done) -> (st = AfterStarList -> t = [] \/ exists t', t = "*"%char :: t') ->
  parse_loop f t (prefix, mn, mx, rl) = Ok (prefix', mn', mx', rl') -> exists st', run Normal (rev rl') st'.
Proof.
  intro Rg. induction f as [|f IH]; intros t done prefix mn mx rl st prefix' mn' mx' rl' Eg R Hd Ha H.
  { destruct t; [|discriminate]. injection H as <- <- <- <-. eauto. }
  destruct t as [|c t]; [injection H as <- <- <- <-; eauto|].
  cbn [parse_loop] in H. remember (c :: t) as s eqn:Es. 
  destruct (next_wildcard_item s) as [[oi rest]|e| |] eqn:E; try discriminate. unfold next_wildcard_item in E.
  apply next_token in E as (a & T). destruct (token_text _ _ _ _ _ T) as [Ea Na].
  assert (G : exists st1, match oi with Some it => run Normal (rev (append_item_rev rl it)) st1 | None => st1 = st end /\
    (st1 <> Normal -> In "*"%char (done ++ a)) /\ (st1 = AfterStarList -> rest = [] \/ exists t', rest = "*"%char :: t') /\
    (rl = [] -> match oi with Some it => literal_item it -> st1 = Normal | None => True end)).
  { assert (Hd' : st <> Normal -> In "*"%char (done ++ a)) by (intro; apply in_or_app; left; auto).
    assert (Hs : st <> AfterStarList \/ exists t', s = "*"%char :: t').
    { destruct st; auto; try (left; discriminate). destruct (Ha eq_refl) as [X|X]; auto. rewrite X in Es. discriminate. }
    rewrite Ea in Eg, Hs. clear Es Ha H Ea. destruct T as [body rest oi N H|body rest oi N H|n rest N|rest|a c' rest Na' N Mc|a Na' N].
    - assert (Hs' : st <> AfterStarList) by (destruct Hs as [X|(t' & E)]; [exact X|discriminate E]). apply class_kind in H. destruct oi as [it|].
      + exists Normal. split; [|split; [easy|split; [easy|auto]]]. apply run_append with st; auto. destruct it; try easy; now apply st_lit.
      + exists st. split; auto. split; auto. split; auto. easy.
    - assert (Hs' : st <> AfterStarList) by (destruct Hs as [X|(t' & E)]; [exact X|discriminate E]).
      destruct (Rg done body (rest ++ suffix)) as [R1 R2]; auto. { rewrite Eg, <- app_assoc. reflexivity. }
      destruct H as [[-> ->]|[Nb H]]; [exists st; split; auto; split; auto; split; auto; easy|].
      assert (Sub : forall v, In v (norm (split_on "," body)) -> forall x, In x v -> In x body).
      { intros v I x J. apply (proj1 (norm_in _ _)) in I. destruct (split_part "," body v I) as (p & q & -> & _). apply in_or_app. right. apply in_or_app. now left. }
      apply list_kind in H.
      + destruct oi as [it|]; [|exists st; split; auto; split; auto; split; auto; easy].
        assert (Lit : literal_item it -> exists st1, run Normal (rev (append_item_rev rl it)) st1 /\ (st1 <> Normal -> In "*"%char (done ++ braced body)) /\ (st1 = AfterStarList -> rest = [] \/ exists t', rest = "*"%char :: t') /\
           (rl = [] -> literal_item it -> st1 = Normal)).
        { intro L. exists Normal. split; [|split; [easy|split; [easy|auto]]]. apply run_append with st; auto. destruct it; try easy; now apply st_lit. }
        destruct it; try (now apply Lit); clear Lit.
        * destruct st; try easy.
          -- exists Normal. split; [|split; [easy|split; [easy|auto]]]. apply run_append with Normal; auto. apply st_list.
          -- destruct (R2 (Hd ltac:(discriminate))) as (P1 & P3).
             assert (P4 : ~ exists c, In c body /\ In c metas).
             { intros (c0 & J & M). destruct (split_has "," body c0 J) as (v & Iv & Jv); [intros ->; cbn in M; repeat destruct M as [M|M]; try discriminate; easy|].
               destruct H as [_ H]. rewrite Forall_forall in H. specialize (H v (proj2 (norm_in _ _) Iv)). assert (W : has_wildcard v = true); [|congruence].
               apply existsb_exists. exists c0. split; auto. now apply is_wild_iff. }
             exists AfterStarList. split; [|split; [|split]].
             ++ apply run_append with AfterStar; auto. apply st_star_list. apply H. apply Forall_forall. intros v I ->. assert (F : starts_fixed []) by (apply P1, alternative_split; now apply (proj1 (norm_in _ _)) in I).
                destruct F as [(c0 & p0 & E0 & _)|(b0 & p0 & r0 & E0 & _)]; discriminate E0.
             ++ intros _. apply in_or_app. left. now apply Hd.
             ++ intros _. destruct rest as [|y rest]; auto. right. destruct P3 as [P3|[P3|(b' & P3)]]; [easy|discriminate|]. injection P3 as -> _. eauto.
             ++ intros _ [].
        * destruct H as [H1 H2]. destruct st; try easy.
          -- exists Normal. split; [|split; [easy|split; [easy|auto]]]. apply run_append with Normal; auto. now apply st_group.
          -- destruct (R2 (Hd ltac:(discriminate))) as (P1 & _). exists Normal. split; [|split; [easy|split; [easy|auto]]]. apply run_append with AfterStar; auto. apply st_star_group, H2.
             apply Forall_forall. intros v I. apply P1, alternative_split. now apply (proj1 (norm_in _ _)) in I.
      + apply Forall_forall. intros v I J. apply N. eapply Sub; eauto.
      + apply Forall_forall. intros v I J. apply R1. eapply Sub; eauto.
      + intro Z0. pose proof (split_on_nonempty "," body) as NE'. destruct (split_on "," body) as [|y l] eqn:Es; [easy|].
        assert (X : In y (norm (y :: l))) by (apply norm_in; now left). rewrite Z0 in X. destruct X.
    - exists AfterStar. split; [now apply run_append with st|]. split; [intros _; apply in_or_app; right; now left|]. split; [easy|]. intros _ [].
    - assert (Hs' : st <> AfterStarList) by (destruct Hs as [X|(t' & E)]; [exact X|discriminate E]).
      exists st. split; [apply run_append with st; auto|]. split; auto. split; auto. easy. intros _ [].
    - assert (Hs' : st <> AfterStarList).
      { destruct Hs as [|(t' & E)]; [auto|]. exfalso. destruct a as [|x a]; [easy|]. injection E as -> _. apply (N "*"%char); [now left|]. cbn. tauto. }
      exists Normal. split; [|split; [easy|split; [easy|auto]]]. apply run_append with st; auto. pose proof (single_kind a) as K. destruct (single_item a); try easy; now apply st_lit.
    - assert (Hs' : st <> AfterStarList).
      { destruct Hs as [|(t' & E)]; [auto|]. exfalso. rewrite app_nil_r in E. rewrite E in N. apply (N "*"%char); [now left|]. cbn. tauto. }
      exists Normal. split; [|split; [easy|split; [easy|auto]]]. apply run_append with st; auto. now apply st_lit. }
  destruct G as (st1 & G1 & G2 & G3 & G4). 
  assert (Eg' : g = (done ++ a) ++ rest ++ suffix) by (rewrite Eg, Ea, <- !app_assoc; reflexivity).
  destruct oi as [it|].
  - destruct (parse_step (prefix, mn, mx, rl) it) as [[[p1 n1] x1] r1] eqn:S1.
    assert (Er : r1 = append_item_rev rl it \/ (rl = [] /\ r1 = [] /\ literal_item it)).
    { unfold parse_step in S1. destruct rl; [|injection S1 as _ _ _ <-; now left]. destruct it; injection S1 as _ _ _ <-; auto; right; repeat split. }
    destruct Er as [->|(-> & -> & L)]; [exact (IH _ _ _ _ _ _ _ _ _ _ _ Eg' G1 G2 G3 H)|].
    refine (IH _ _ _ _ _ _ Normal _ _ _ _ Eg' _ _ _ H); [constructor|easy|easy].
  - subst st1. exact (IH _ _ _ _ _ _ st _ _ _ _ Eg' R G2 G3 H).
Qed.
Lemma take_suffix_run suffix rl suffix' rl' st : run Normal (rev rl) st -> take_suffix suffix rl = (suffix', rl') -> exists st', run Normal (rev rl') st'.
Proof.
  intros R H. assert (X : rl' = rl \/ exists x, rl = x :: rl').
  { unfold take_suffix in H. destruct rl as [|x [|y r]]; [injection H as _ <-; auto|destruct x; injection H as _ <-; auto|].
    destruct x; injection H as _ <-; eauto. }
  destruct X as [->|(x & ->)]; [eauto|]. cbn [rev] in R. apply run_app in R as (st1 & R1 & _). eauto.
Qed.
Lemma ok_inj {A} (a b : A) : Ok a = Ok b -> a = b.
Proof. congruence. Qed.
Lemma parse_run g gl : regular g -> glob_parse g = Ok gl -> exists st, run Normal (g_items gl) st.
Proof.
  intros Rg H. unfold glob_parse in H. destruct (index_wildcard g) as [pos|]; [|injection H as <-; exists Normal; constructor].
  destruct (index_last_wildcard (skipn pos g)) as [e|]; [|discriminate].
  destruct (Nat.eqb e 0 && negb (Ascii.eqb (nth 0 (skipn pos g) zero) "?") && negb (Ascii.eqb (nth 0 (skipn pos g) zero) "*")); [discriminate|].
  destruct (if (e <? length (skipn pos g) - 1)%nat then (skipn (S e) (skipn pos g), firstn (S e) (skipn pos g)) else ([], skipn pos g)) as [suffix body] eqn:F.
  assert (Eg : g = firstn pos g ++ body ++ suffix).
  { destruct (e <? length (skipn pos g) - 1)%nat; pose proof (f_equal fst F) as F1; pose proof (f_equal snd F) as F2; cbn [fst snd] in F1, F2; rewrite <- F1, <- F2.
    - rewrite (firstn_skipn (S e) (skipn pos g)). now rewrite firstn_skipn.
    - now rewrite app_nil_r, firstn_skipn. }
  assert (FI : forall t p s mn mx its, g_items (finish_glob t p s mn mx its) = its) by (intros; destruct its; reflexivity).
  destruct (str_eqb body (B "*")); [apply ok_inj in H; rewrite <- H, FI; exists AfterStar; apply run_one; now apply st_star|].
  destruct (str_eqb body (B "?")); [apply ok_inj in H; rewrite <- H, FI; exists Normal; apply run_one; apply st_any|].
  destruct (parse_loop (length body) body (firstn pos g, (zlen (firstn pos g) + zlen suffix)%Z, (zlen (firstn pos g) + zlen suffix)%Z, [])) as [[[[p1 n1] x1] r1]|e1| |] eqn:El; try discriminate.
  cbn [bind] in H. destruct (take_suffix suffix r1) as [s2 r2] eqn:Et. apply ok_inj in H. rewrite <- H, FI.
  apply (loop_run g suffix Rg _ _ _ _ _ _ _ Normal _ _ _ _ Eg) in El; [|constructor|easy|easy]. destruct El as (st & R). exact (take_suffix_run _ _ _ _ st R Et).
Qed.

(** Matching is exact. *)
Lemma okstr_of g s : clean s \/ lone_classes g -> exists u, okstr u s /\ (u = false -> lone_classes g).
Proof. intros [C|A]; [exists true|exists false]; split; auto; try easy; discriminate. Qed.
Lemma glob_match_items g gl s : clean g -> ~ In zero g -> plain_singles g -> glob_parse g = Ok gl ->
  safe (g_items gl) -> Forall sized (g_items gl) \/ g_max gl = (-1)%Z -> ~ only_star g -> clean s \/ lone_classes g ->
  exists b, glob_match gl s = Ok b /\ (b = true <-> denotes g (symbols s)).
Proof.
  intros C Z P H Sf Sz NO O. destruct (okstr_of g s O) as (u & Os & A).
  destruct (parse_facts u g gl) as (prefix & suffix & mn & mx & rl & E & G & D); auto; [split; auto|].
  assert (FI : g_items gl = rev rl /\ g_max gl = mx). { rewrite E. destruct (rev rl); auto. }
  destruct FI as [FI FM]. rewrite FI in *. rewrite FM in *.
  destruct (finish_match u g prefix suffix mn mx rl s gl) as (b & Mb & Db); auto.
  - destruct Sz as [Sz|Sz]; auto. right. rewrite <- (rev_involutive rl). now apply Forall_rev.
  - intros -> En. apply NO. intro w. rewrite D. cbn [rev dens]. destruct G as (I1 & I2 & _).
    assert (Es : symbols prefix ++ symbols suffix = [B "*"]) by (rewrite <- symbols_clean_app, En by auto; reflexivity). split.
    + intros (w2 & -> & ->). exact Es.
    + intros ->. exists []. split; auto.
  - exists b. split; auto. rewrite Db, D. reflexivity.
Qed.
Lemma glob_match_regular g gl s : clean g -> ~ In zero g -> plain_singles g -> regular g -> ~ only_star g -> glob_parse g = Ok gl -> clean s \/ lone_classes g ->
  exists b, glob_match gl s = Ok b /\ (b = true <-> denotes g (symbols s)).
Proof.
  intros C Z P R NO H O. destruct (parse_run g gl R H) as (st & Rn). apply glob_match_items; auto.
  - destruct (parse_facts true g gl) as (prefix & suffix & mn & mx & rl & E & G & _); auto; [split; auto; split; auto; discriminate|].
    apply run_safe in Rn; [exact Rn|]. apply (wfi_fits true). assert (g_items gl = rev rl) as -> by (rewrite E; destruct (rev rl); auto). apply Forall_rev, G.
  - left. now apply run_sized in Rn.
Qed.
