(** A well-formed glob without U+FFFD has no item that is U+FFFD alone. *)
From Verif Require Import Model.Glob Spec.Symbols Spec.Class Spec.GlobSpec Spec.Safe.
From Verif Require Import Proof.SymbolsP Proof.MergeP Proof.RangesP Proof.LangP Proof.ItemP Proof.SortP Proof.ListP Proof.DenotesP Proof.ParseP Proof.NextP Proof.GlobP Proof.SafeP Proof.PanicP Proof.TotalP Proof.WellP Proof.AcceptP.
From Coq Require Import Lia ZifyBool ZifyN ZifyNat.

Lemma scalar_tidy r : scalar r -> tidy (IRune r).
Proof. intros [_ N]. unfold tidy. cbn [stray]. now apply N.eqb_neq. Qed.
Lemma single_tidy v : clean v -> v <> [] -> tidy (single_item v).
Proof.
  intros C N. unfold single_item. destruct (clean_decode v C N) as (r & t & S & _ & _ & D). rewrite D.
  destruct (Nat.eqb _ _); [destruct (r <=? 127)%N; [reflexivity|now apply scalar_tidy]|reflexivity].
Qed.
Lemma class_tidy body it : clean body -> class_item body = Ok (Some it) -> tidy it.
Proof.
  intros (l & S & ->) H. unfold class_item in H. destruct (class_pairs_total l) as [ps P]. rewrite (ranges_expand_pairs l ps S P) in H.
  destruct (forallb good_pairb ps) eqn:G; [|discriminate]. pose proof (pairs_scalar l ps P S) as F. destruct (class_of_pairs_spec ps G F) as ((_ & UO & _) & _ & M).
  set (rs := class_of_pairs ps) in *. clearbody rs. destruct (as_count (rr_ascii rs)) as [n c].
  destruct (Nat.eqb n 0 && null (rr_unicode rs)); [discriminate|]. destruct (null (rr_unicode rs) && Nat.eqb n 1); [injection H as <-; reflexivity|].
  unfold mem in M. destruct (rr_unicode rs) as [|q [|q2 ql]]; try (injection H as <-; reflexivity).
  destruct (Nat.eqb n 0 && (First q =? Last q)%N) eqn:Eq; injection H as <-; [|reflexivity]. apply andb_true_iff in Eq as [_ Eq]. apply N.eqb_eq in Eq.
  inversion UO as [|? ? [_ Lq] _]; subst. apply scalar_tidy.
  assert (I : in_pairs (First q) ps) by (apply M; replace (First q <=? 127)%N with false by lia; exists q; split; [now left|unfold in_range; lia]).
  destruct I as (a & b & Iab & L). rewrite Forall_forall in F. destruct (F _ Iab) as [Sa Sb]. cbn [fst snd] in Sa, Sb.
  rewrite forallb_forall in G. apply G in Iab as Gab.
  assert (La : (127 < a)%N).
  { pose proof (rune_len_range a b b Gab (proj1 Sa) (proj1 Sb) (proj1 Sb) ltac:(lia)) as X2.
    revert X2. unfold rune_len. rewrite (proj1 Sb). cbn [negb]. destruct (N.ltb_spec a 128); [|lia]. destruct (b <? 128)%N eqn:?, (b <? 2048)%N, (b <? 65536)%N; intros; try discriminate; lia. }
  assert (Ia : in_pairs a ps) by (exists a, b; split; auto; lia). apply M in Ia. replace (a <=? 127)%N with false in Ia by lia.
  destruct Ia as (p & [<-|[]] & Ip). unfold in_range in Ip. replace (First q) with a by lia. exact Sa.
Qed.
Lemma merge_tidy x y m : tidy x -> tidy y -> merge_last x y = Some m -> tidy m.
Proof. intros _ _ E. destruct x, y; try discriminate; injection E as <-; reflexivity. Qed.
Lemma token_rest f s oi a rest : token f s oi a rest -> clean s -> clean rest.
Proof.
  intros [body r o N H|body r o N H|n r N|r|b c r Na N Mc|b Na N] C.
  - rewrite bracketed_app in C. apply clean_cons_ascii in C; [|reflexivity]. now apply clean_mid in C as [C1 C2].
  - rewrite braced_app in C. apply clean_cons_ascii in C; [|reflexivity]. now apply clean_mid in C as [C1 C2].
  - induction (S n) as [|k IH]; auto. apply IH. cbn [repeat app] in C. apply clean_cons_ascii in C; [exact C|reflexivity].
  - apply clean_cons_ascii in C; [exact C|reflexivity].
  - apply clean_app_inv in C as [_ C]; auto. apply bnd_ascii. now apply metas_ascii.
  - apply clean_nil.
Qed.
Lemma chain_tidy f0 : forall fuel v st rl mn mx, (forall f oi a s rest, f < f0 -> token f s (Some oi) a rest -> clean s -> tidy oi) ->
  clean v -> Forall tidy (fst (fst st)) -> group_chain fuel (next_item f0) v st = Ok (rl, mn, mx) -> Forall tidy rl.
Proof.
  induction fuel as [|f IH]; intros v [[rl0 mn0] mx0] rl mn mx T C F H; cbn [group_chain] in H.
  - destruct v; [|discriminate]. now injection H as <- <- <-.
  - destruct v as [|c v]; [now injection H as <- <- <-|].
    destruct (next_item f0 (c :: v)) as [[oi rest]|e| |] eqn:E; try discriminate.
    destruct f0 as [|f0]; [discriminate|]. apply next_token in E as (a & Tk). pose proof (token_rest _ _ _ _ _ Tk C) as Cr.
    destruct oi as [it|].
    + assert (Ti : tidy it) by (eapply T; [|exact Tk|exact C]; lia). unfold chain_append in H. apply IH in H; auto. cbn in *. apply append_forall; auto. exact merge_tidy.
    + apply IH in H; auto.
Qed.
Lemma vals_tidy f0 : forall vals r, (forall f oi a s rest, f < f0 -> token f s (Some oi) a rest -> clean s -> tidy oi) ->
  Forall clean vals -> group_vals (next_item f0) vals = Ok r -> match r with inl it => tidy it | inr l => Forall tidy l end.
Proof.
  induction vals as [|v vals IH]; intros r T C H; cbn [group_vals] in H.
  - injection H as <-. constructor.
  - inversion C as [|? ? C1 C2]; subst. destruct (has_wildcard v) eqn:W.
    + destruct (str_eqb_spec v (B "*")) as [->|Ns]; [injection H as <-; reflexivity|].
      destruct (if str_eqb v (B "?") then Ok (IAny 1) else group_val (next_item f0) v) as [it|e| |] eqn:E; try discriminate. cbn [bind] in H.
      assert (V : tidy it).
      { destruct (str_eqb_spec v (B "?")) as [->|Nq].
        - injection E as <-. reflexivity.
        - unfold group_val in E. destruct (group_chain (length v) (next_item f0) v ([], 0%Z, 0%Z)) as [[[rl mn] mx]|e| |] eqn:E2; try discriminate.
          cbn [bind] in E. apply chain_tidy in E2; auto; [|constructor]. destruct rl as [|x [|y rl]]; injection E as <-.
          + reflexivity.
          + now inversion E2.
          + apply (tidy_existsb (rev (x :: y :: rl))). now apply Forall_rev. }
      destruct (group_vals (next_item f0) vals) as [[r0|r0]|e| |] eqn:E2; try discriminate; cbn [bind] in H; injection H as <-; specialize (IH _ T C2 eq_refl); auto.
    + destruct (group_vals (next_item f0) vals) as [[r0|r0]|e| |] eqn:E2; try discriminate; cbn [bind] in H; injection H as <-; specialize (IH _ T C2 eq_refl); auto. constructor; [reflexivity|auto].
Qed.
Lemma token_tidy : forall f it a s rest, token f s (Some it) a rest -> clean s -> tidy it.
Proof.
  induction f as [f IH] using lt_wf_ind. intros it a s rest T C. inversion T as [body r o N H|body r o N H|n r N|r|b c r Na N Mc|b Na N]; subst; try reflexivity.
  - rewrite bracketed_app in C. apply clean_cons_ascii in C; [|reflexivity]. apply clean_mid in C as [C1 C2]; [|reflexivity]. now apply (class_tidy body).
  - rewrite braced_app in C. apply clean_cons_ascii in C; [|reflexivity]. apply clean_mid in C as [C1 C2]; [|reflexivity].
    destruct H as [[_ H]|[_ H]]; [discriminate|].
    assert (CV : Forall clean (norm (split_on "," body))).
    { apply Forall_forall. intros v I. apply (proj1 (norm_in _ _)) in I. apply (alternative_clean body); auto. now apply alternative_split. }
    unfold new_item_list in H. destruct (norm (split_on "," body)) as [|v [|v2 vals]]; [discriminate| |].
    + destruct v as [|x v]; cbn [null] in H; [discriminate|]. injection H as <-. inversion CV; subst. apply single_tidy; auto. discriminate.
    + remember (v :: v2 :: vals) as vs eqn:Evs. destruct (list_scan vs max_int 0 true as_empty) as [[[[mn mx] st] fi] hs]. destruct hs.
      * unfold new_group in H. destruct (group_vals (next_item f) vs) as [[x|l]|e| |] eqn:Eg; try discriminate; cbn [bind] in H.
        -- injection H as <-. apply (vals_tidy f vs (inl x)); auto. intros; eapply IH; eauto.
        -- apply (vals_tidy f vs (inr l)) in Eg; auto; [|intros; eapply IH; eauto]. destruct l as [|x l]; [discriminate|]. destruct (group_bounds l (item_min x) (item_max x)).
           injection H as <-. apply (tidy_existsb (x :: l)). exact Eg.
      * subst vs. destruct st; (destruct (mn =? 0)%Z; [destruct v; [|discriminate]|]); injection H as <-; reflexivity.
  - apply clean_app_inv in C as [C _]; [|apply bnd_ascii; now apply metas_ascii]. now apply single_tidy.
Qed.
Lemma loop_tidy : forall f t prefix mn mx rl prefix' mn' mx' rl', clean t -> Forall tidy rl ->
  parse_loop f t (prefix, mn, mx, rl) = Ok (prefix', mn', mx', rl') -> Forall tidy rl'.
Proof.
  induction f as [|f IH]; intros t prefix mn mx rl prefix' mn' mx' rl' C F H.
  { destruct t; [|discriminate]. now injection H as <- <- <- <-. }
  destruct t as [|c t]; [now injection H as <- <- <- <-|].
  cbn [parse_loop] in H. destruct (next_wildcard_item (c :: t)) as [[oi rest]|e| |] eqn:E; try discriminate. unfold next_wildcard_item in E.
  apply next_token in E as (a & Tk). pose proof (token_rest _ _ _ _ _ Tk C) as Cr. destruct oi as [it|]; [|exact (IH _ _ _ _ _ _ _ _ _ Cr F H)].
  pose proof (token_tidy _ _ _ _ _ Tk C) as Ti. destruct (parse_step (prefix, mn, mx, rl) it) as [[[p1 n1] x1] r1] eqn:S1.
  refine (IH _ _ _ _ _ _ _ _ _ Cr _ H). apply (f_equal snd) in S1. change r1 with (snd (p1, n1, x1, r1)). rewrite <- S1.
  unfold parse_step. destruct rl; [destruct it; cbn; auto|]. apply append_forall; auto. exact merge_tidy.
Qed.
Lemma parse_tidy g gl : clean g -> glob_parse g = Ok gl -> Forall tidy (g_items gl).
Proof.
  intros C H. unfold glob_parse in H. destruct (index_wildcard g) as [pos|] eqn:E; [|injection H as <-; constructor].
  apply find_cut in E as (a & c & b & Eg & <- & P & Na).
  assert (Es : skipn (length a) g = c :: b) by (rewrite Eg, skipn_app, skipn_all, Nat.sub_diag; reflexivity). rewrite Es in H. cbv zeta in H.
  destruct (index_last_wildcard (c :: b)) as [e|] eqn:El; [|discriminate].
  apply find_last_cut in El as (x & y & t & Ex & <- & Py & Nt).
  assert (F : firstn (S (length x)) (c :: b) = x ++ [y] /\ skipn (S (length x)) (c :: b) = t) by (rewrite Ex; apply cut_firstn). destruct F as [F1 F2].
  destruct (Nat.eqb (length x) 0 && negb (Ascii.eqb (nth 0 (c :: b) zero) "?") && negb (Ascii.eqb (nth 0 (c :: b) zero) "*")); [discriminate|].
  assert (X : (if (length x <? length (c :: b) - 1)%nat then (skipn (S (length x)) (c :: b), firstn (S (length x)) (c :: b)) else ([], c :: b)) = (t, x ++ [y])).
  { rewrite F1, F2. destruct (Nat.ltb_spec (length x) (length (c :: b) - 1)) as [Lt|Ge]; eauto. rewrite Ex in *. rewrite app_length in Ge. cbn [length] in Ge. destruct t; [reflexivity|cbn in Ge; lia]. }
  rewrite X in H. clear X F1 F2.
  assert (Cb : clean (x ++ [y])).
  { assert (Ic : In c metas) by now apply is_wild_iff. assert (Iy : In y metas) by now apply is_wild_iff.
    rewrite Eg, Ex in C. apply clean_app_inv in C as [_ C]; [|rewrite <- Ex; apply bnd_ascii; now apply metas_ascii].
    apply clean_mid in C as [C1 C2]; [|now apply metas_ascii]. apply clean_app; auto. apply clean_byte. now apply metas_ascii. }
  assert (FI : forall t p s mn mx its, g_items (finish_glob t p s mn mx its) = its) by (intros; destruct its; reflexivity).
  destruct (str_eqb (x ++ [y]) (B "*")); [apply ok_inj in H; rewrite <- H, FI; now repeat constructor|].
  destruct (str_eqb (x ++ [y]) (B "?")); [apply ok_inj in H; rewrite <- H, FI; now repeat constructor|].
  destruct (parse_loop (length (x ++ [y])) (x ++ [y]) _) as [[[[p1 n1] x1] r1]| | |] eqn:L; try discriminate. apply loop_tidy in L; auto.
  cbn [bind] in H. destruct (take_suffix t r1) as [s2 r2] eqn:Et. apply ok_inj in H. rewrite <- H, FI.
  apply Forall_rev. unfold take_suffix in Et. destruct r1 as [|z [|z' r]]; [now injection Et as _ <-|destruct z; now injection Et as _ <-|].
  inversion L; subst. destruct z; injection Et as _ <-; auto.
Qed.
(** The items of a glob without '*' have no star. *)
Lemma path_unstarred F r : path F r -> Forall (calm false true (fun _ => True)) F -> forall k, ~ In (IStar k) r.
Proof.
  induction 1 as [|it R r O P IH|l R r Z P IH|vals mn mx v R r I P IH|vals mn R mx r Z P IH]; intros T k; [intros []| | | |]; inversion T as [|? ? T1 T2]; subst; auto.
  - intros [->|J]; [destruct T1; discriminate|]. now apply (IH T2 k).
  - apply IH. apply Forall_app. split; auto. eapply Forall_impl; [|now apply T1]. apply calm1_calm.
Qed.
Lemma text_stray g gl : clean g \/ ~ In "*"%char g -> glob_parse g = Ok gl -> ~ star_stray (g_items gl).
Proof.
  intros [C|N] H; [apply tidy_stray; now apply (parse_tidy g)|].
  intros (r & a & k & b & P & ->). apply (path_unstarred _ _ P) with (k := k).
  - apply (parse_calm false true (fun _ => True) g); auto. now repeat split.
  - apply in_or_app. right. now left.
Qed.
