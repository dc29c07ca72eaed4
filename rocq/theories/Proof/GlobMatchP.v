(** Match decides the language of the glob text. *)
From Verif Require Import Model.Glob Spec.Symbols Spec.Class Spec.GlobSpec Spec.Lang Spec.Safe.
From Verif Require Import Proof.Utf8P Proof.SymbolsP Proof.SortP Proof.AsciiSetP Proof.SkipP Proof.MergeP Proof.RangesP Proof.ClassSearchP Proof.RangesTop Proof.LangP Proof.ListP Proof.ItemP Proof.DenotesP Proof.MatchP Proof.ParseP Proof.NextP Proof.GlobP.
From Coq Require Import Sorting.Sorted Lia ZifyBool ZifyN ZifyNat.

Lemma has_suffix_iff s t : has_suffix s t = true <-> exists r, s = r ++ t.
Proof.
  unfold has_suffix. rewrite has_prefix_iff. split; intros (r & E).
  - exists (rev r). apply (f_equal (@rev ascii)) in E. rewrite rev_involutive, rev_app_distr, rev_involutive in E. exact E.
  - exists (rev r). rewrite E. apply rev_app_distr.
Qed.
Lemma star_free_dec l : star_free l \/ exists k, In (IStar k) l.
Proof.
  induction l as [|i l [IH|(k & IH)]].
  - left. intros k [].
  - destruct i; try (left; apply star_free_cons; split; [exact I|exact IH]). right. eexists. now left.
  - right. exists k. now right.
Qed.
Section GM.
Variable u : bool.
Lemma simple_word_max it : wfi u it -> simple it -> (item_max it <> -1)%Z -> forall w, word w -> den it w -> (bytes w <= item_max it)%Z.
Proof.
  intros W S N w Ww D. destruct it; cbn [item_max] in *.
  - cbn in D. subst. rewrite bytes_symbols. lia.
  - cbn in D. subst. cbn. lia.
  - cbn in D. subst. unfold bytes, zlen. cbn [concat]. rewrite app_nil_r, encode_len_valid; [lia|]. apply W.
  - cbn in D. apply word_len in Ww. lia.
  - lia.
  - cbn in D. destruct D as (x & -> & C). apply W in C. unfold bytes. cbn [concat]. rewrite app_nil_r. unfold zlen in *. lia.
  - destruct S as [[]|(k & S)]; discriminate S.
  - destruct S as [[]|(k & S)]; discriminate S.
  - destruct S as [[]|(k & S)]; discriminate S.
Qed.
Lemma chain_word_max its : Forall (wfi u) its -> Forall simple its -> star_free its -> forall w, word w -> dens its w -> (bytes w <= zsum item_max its)%Z.
Proof.
  induction its as [|i its IH]; intros W S F w Ww D.
  - cbn in D. subst. cbn. lia.
  - cbn [dens] in D. destruct D as (w1 & w2 & -> & D1 & D2). inversion W; inversion S; subst. apply star_free_cons in F as [F1 F2].
    apply word_app in Ww as [Wa Wb]. rewrite bytes_app. specialize (IH ltac:(auto) ltac:(auto) F2 w2 Wb D2).
    assert (X : (bytes w1 <= item_max i)%Z).
    { apply simple_word_max; auto. destruct (simple_max u i) as [Q _]; auto. intro E. apply Q in E. auto. }
    cbn. fold (zsum item_max its). lia.
Qed.
Lemma den_word_max it : wfi u it -> wfm it -> sized it -> (item_max it <> -1)%Z -> forall w, word w -> den it w -> (bytes w <= item_max it)%Z.
Proof.
  intros W M S N w Ww D.
  assert (Si : simple it -> (bytes w <= item_max it)%Z) by (intro; now apply simple_word_max).
  destruct it; try (apply Si; left; exact I).
  - cbn in N. congruence.
  - cbn [den item_max] in *. destruct W as (_ & W & W2 & _). destruct D as [[_ ->]|(v & I & ->)]; [cbn; lia|]. rewrite bytes_symbols.
    rewrite Forall_forall in W. apply W in I. lia.
  - apply den_group in D as (v & I & D). apply wfi_group in W as (_ & _ & W). cbn [wfm] in M. destruct M as [(M1 & M2) M3].
    cbn [item_max] in *. destruct M2 as [->|M2]; [easy|]. rewrite Forall_forall in W, M2, M3. specialize (W v I) as [_ W]. specialize (M2 v I) as [M2 M4]. specialize (M3 v I).
    enough (bytes w <= item_max v)%Z by lia.
    destruct v as [| | | | | | | |its mn1 mx1]; try (now apply simple_word_max). destruct M3 as (C1 & C2 & C3). cbn [item_max] in *.
    destruct (star_free_dec its) as [SF|(k & SF)].
    + rewrite C3 by auto. apply wfi_chain in W as [_ W]. apply den_chain in D. now apply chain_word_max.
    + elim M2. exact (S _ _ _ _ I SF).
  - destruct M.
Qed.
Lemma dens_bounds its : Forall (wfi u) its -> forall w, word w -> dens its w -> (zsum item_min its <= bytes w)%Z /\
  (Forall wfm its -> Forall sized its -> Forall (fun i => item_max i <> -1)%Z its -> bytes w <= zsum item_max its)%Z.
Proof.
  induction its as [|i its IH]; intros W w Ww D.
  - cbn in D. subst. cbn. lia.
  - cbn [dens] in D. destruct D as (w1 & w2 & -> & D1 & D2). inversion W; subst. apply word_app in Ww as [Wa Wb]. rewrite bytes_app.
    destruct (IH ltac:(auto) w2 Wb D2) as [I1 I2]. assert (item_min i <= bytes w1)%Z by now apply (den_word_min u).
    cbn. fold (zsum item_max its). fold (zsum item_min its). split; [lia|]. intros F1 F2 F3. inversion F1; inversion F2; inversion F3; subst.
    assert (bytes w1 <= item_max i)%Z by now apply den_word_max. specialize (I2 ltac:(auto) ltac:(auto) ltac:(auto)). lia.
Qed.

Definition glang (prefix suffix : str) (its : list item) (s : str) : Prop :=
  exists w2, symbols s = symbols prefix ++ w2 ++ symbols suffix /\ dens its w2.
Lemma glang_cut prefix suffix its s : clean prefix -> clean suffix ->
  (glang prefix suffix its s <-> exists mid, s = prefix ++ mid ++ suffix /\ dens its (symbols mid)).
Proof.
  intros Cp Cs. split.
  - intros (w2 & E & D). 
    assert (Ww : word w2). { pose proof (word_symbols s) as W. rewrite E in W. apply word_app in W as [_ W]. now apply word_app in W. }
    destruct Ww as (mid & <-). exists mid. split; auto. rewrite <- (concat_symbols s), E, !concat_app, !concat_symbols. reflexivity.
  - intros (mid & -> & D). exists (symbols mid). split; auto. rewrite symbols_clean_app by auto. rewrite symbols_app by now apply bnd_clean. reflexivity.
Qed.
Lemma okstr_mid prefix mid suffix : clean prefix -> clean suffix -> okstr u (prefix ++ mid ++ suffix) -> okstr u mid.
Proof.
  intros Cp Cs O U. specialize (O U). rewrite clean_symbols in O |- *. rewrite symbols_clean_app in O by auto.
  rewrite symbols_app in O by now apply bnd_clean. apply Forall_app in O as [_ O]. now apply Forall_app in O.
Qed.
Lemma finish_match g prefix suffix mn mx rl s gl : gl = finish_glob g prefix suffix mn mx (rev rl) -> ginv u prefix suffix mn mx rl ->
  safe (rev rl) -> (mx = -1 \/ Forall sized rl)%Z -> okstr u s -> (rl = [] -> prefix ++ suffix <> B "*") ->
  exists b, glob_match gl s = Ok b /\ (b = true <-> glang prefix suffix (rev rl) s).
Proof.
  intros -> (I1 & I2 & I3 & I4 & I5 & I6 & I7 & I8 & I9) Sf Sz O NN.
  assert (W : Forall (wfi u) (rev rl)) by now apply Forall_rev.
  assert (Mn : glang prefix suffix (rev rl) s -> (mn <= zlen s)%Z /\ (mx <> -1 -> zlen s <= mx)%Z).
  { intros (w2 & E & D). assert (Ww : word w2). { pose proof (word_symbols s) as X. rewrite E in X. apply word_app in X as [_ X]. now apply word_app in X. }
    destruct (dens_bounds (rev rl) W w2 Ww D) as [B1 B2]. rewrite !zsum_rev in *. apply (f_equal bytes) in E. rewrite !bytes_app, !bytes_symbols in E. split; [lia|].
    intro N. destruct (I8 N) as [F1 F2]. destruct Sz as [Sz|Sz]; [easy|]. specialize (B2 (Forall_rev I4) (Forall_rev Sz) (Forall_rev F1)). lia. }
  destruct rl as [|x rl].
  - cbn [rev finish_glob] in *. unfold glob_match. cbn [g_node g_min g_max g_items g_prefix g_suffix g_vals null]. 
    destruct (str_eqb_spec (prefix ++ suffix) (B "*")) as [E|_]; [elim (NN eq_refl E)|].
    assert (L : glang prefix suffix [] s <-> s = prefix ++ suffix).
    { rewrite glang_cut by auto. cbn [dens]. split; [intros (mid & -> & E)|intros ->; exists []; auto]. 
      apply symbols_eq_nil in E as ->. reflexivity. }
    destruct (zlen s <? mn)%Z eqn:E1; [exists false; split; auto; split; [easy|]; intro G; apply Mn in G; lia|].
    destruct ((0 <? mx)%Z && (mx <? zlen s)%Z) eqn:E2; [exists false; split; auto; split; [easy|]; intro G; apply Mn in G; lia|].
    exists (str_eqb (prefix ++ suffix) s). split; auto. rewrite L. destruct (str_eqb_spec (prefix ++ suffix) s); split; try easy; congruence.
  - destruct (rev (x :: rl)) as [|y l] eqn:Er.
    { apply (f_equal (@length item)) in Er. rewrite rev_length in Er. discriminate. }
    set (vals := match y :: l with [IList l] => if (2 <? length (sl_vals l))%nat then sl_map l else [] | _ => [] end).
    set (node := prefix ++ concat (map item_write (y :: l)) ++ suffix).
    assert (EG : finish_glob g prefix suffix mn mx (y :: l) = mkGlob g node mn mx prefix suffix vals (y :: l)) by reflexivity.
    rewrite EG. clear EG. unfold glob_match. cbn [g_node g_min g_max g_items g_prefix g_suffix g_vals null].
    assert (Eyl : y :: l = rev (x :: rl)) by auto.
    assert (Wy : Forall wok (y :: l)) by (rewrite Eyl; now apply Forall_rev).
    destruct (str_eqb_spec node (B "*")) as [En|Nn].
    { exists true. split; auto. split; [intros _|auto]. inversion Wy as [|? ? [Wy1 Wy2] Wl]; subst.
      assert (Ly : lit_text y = None).
      { specialize (I9 ltac:(discriminate)). rewrite <- (rev_involutive (x :: rl)), <- Eyl in I9. cbn [rev] in I9. now rewrite last_last in I9. }
      unfold node in En. cbn [map concat] in En.
      assert (Ll : length (item_write y) >= 1) by (destruct (item_write y); [easy|cbn; lia]).
      assert (Q : prefix = [] /\ suffix = [] /\ l = []).
      { pose proof (f_equal (@length ascii) En) as Le. rewrite !app_length in Le. cbn in Le.
        split; [apply length_zero_iff_nil; lia|]. split; [apply length_zero_iff_nil; lia|]. destruct l as [|z l]; auto. exfalso. inversion Wl as [|? ? [Wz _] _]; subst.
        cbn [map concat] in Le. rewrite app_length in Le. destruct (item_write z); [easy|cbn in Le; lia]. }
      destruct Q as (-> & -> & ->). cbn in En. rewrite !app_nil_r in En. rewrite (Wy2 Ly En) in *.
      exists (symbols s). cbn [app]. rewrite symbols_nil, app_nil_r. split; auto. apply (proj2 (dens_one _ _)). cbn. lia. }
    destruct (zlen s <? mn)%Z eqn:E1; [exists false; split; auto; split; [easy|]; intro G; apply Mn in G; lia|].
    destruct ((0 <? mx)%Z && (mx <? zlen s)%Z) eqn:E2; [exists false; split; auto; split; [easy|]; intro G; apply Mn in G; lia|].
    assert (P0 : negb (null prefix) && negb (has_prefix s prefix) = negb (has_prefix s prefix)) by (destruct prefix; [now rewrite has_prefix_nil|reflexivity]).
    rewrite P0. destruct (has_prefix s prefix) eqn:Hp; cbn [negb].
    2:{ exists false. split; auto. split; [easy|]. intro G. apply glang_cut in G as (mid & -> & _); auto.
        assert (has_prefix (prefix ++ mid ++ suffix) prefix = true) by (apply has_prefix_iff; eauto). congruence. }
    apply has_prefix_iff in Hp as (s1 & ->). rewrite skipn_app, skipn_all, Nat.sub_diag. cbn [app skipn].
    assert (P1 : negb (null suffix) && negb (has_suffix s1 suffix) = negb (has_suffix s1 suffix)).
    { destruct suffix; [|reflexivity]. cbn. assert (X : has_suffix s1 [] = true) by (apply has_suffix_iff; exists s1; now rewrite app_nil_r). now rewrite X. }
    rewrite P1. destruct (has_suffix s1 suffix) eqn:Hs; cbn [negb].
    2:{ exists false. split; auto. split; [easy|]. intro G. apply glang_cut in G as (mid & E & _); auto. apply app_inv_head in E. subst s1.
        assert (has_suffix (mid ++ suffix) suffix = true) by (apply has_suffix_iff; eauto). congruence. }
    apply has_suffix_iff in Hs as (mid & ->). rewrite app_length, Nat.add_sub, firstn_app, firstn_all, Nat.sub_diag. cbn [firstn]. rewrite app_nil_r.
    assert (G : glang prefix suffix (y :: l) (prefix ++ mid ++ suffix) <-> dens (y :: l) (symbols mid)).
    { rewrite glang_cut by auto. split; [intros (m & E & D)|intro D; eauto]. apply app_inv_head, app_inv_tail in E. now subst. }
    pose proof (okstr_mid prefix mid suffix I1 I2 O) as Om.
    assert (MI : exists b, match_items mid (y :: l) = Ok b /\ (b = true <-> dens (y :: l) (symbols mid))) by (apply (match_items_exact u); auto).
    destruct (null vals) eqn:Ev; cbn [negb].
    { destruct MI as (b & E & D). exists b. split; auto. now rewrite G. }
    exists (existsb (str_eqb mid) vals). split; auto. rewrite G.
    assert (X : exists sl, y :: l = [IList sl] /\ vals = sl_map sl).
    { unfold vals in *. destruct y; try discriminate. destruct l; [|discriminate]. destruct (2 <? length (sl_vals l0)); [|discriminate]. eauto. }
    destruct X as (sl & Ey & Evs). rewrite Evs, Ey, dens_one. cbn [den]. inversion Ey; subst y l. clear Ey.
    inversion W as [|? ? Wl _]; subst. cbn in Wl. destruct Wl as (Wc & _).
    rewrite existsb_exists. split.
    + intros (v & I & E). destruct (str_eqb_spec mid v) as [<-|]; [|discriminate]. unfold sl_map, sl_optional in I. apply in_app_or in I as [I|I].
      * left. destruct (sl_min sl =? 0)%Z eqn:E0; [|destruct I]. destruct I as [<-|[]]. split; [lia|]. reflexivity.
      * right. eauto.
    + unfold sl_map, sl_optional. intros [[E0 E]|(v & I & E)].
      * apply symbols_eq_nil in E as ->. exists []. split; [|reflexivity]. apply in_or_app. left. replace (sl_min sl =? 0)%Z with true by lia. now left.
      * exists mid. assert (mid = v). { rewrite <- (concat_symbols mid), E, concat_symbols. reflexivity. } subst v. split; [apply in_or_app; now right|]. 
        destruct (str_eqb_spec mid mid); congruence.
Qed.
End GM.
