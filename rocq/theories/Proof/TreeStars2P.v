(** The tree of a history whose globs may have stars in their lists. *)
From Verif Require Import Model.Tree Spec.Symbols Spec.GlobSpec Spec.StarSpec Spec.EndSpec Spec.Lang Spec.Safe Spec.RegistrySpec Spec.GlobTreeSpec Spec.TreeStarSpec.
From Verif Require Import Proof.Utf8P Proof.SymbolsP Proof.SkipP Proof.SortP Proof.ListP Proof.LangP Proof.ItemP Proof.DenotesP Proof.MatchP Proof.ParseP Proof.NextP Proof.GlobP Proof.GlobMatchP Proof.SafeP Proof.PanicP Proof.StarsP Proof.RegistryP Proof.ItemEqP Proof.ItemTop Proof.TotalP Proof.TreeP Proof.TreeInsP Proof.GlobTreeP Proof.TreeEndP Proof.TreeEnd2P Proof.MinP Proof.TreePanicP Proof.SoundP Proof.TreeSoundP Proof.TreeStarsP.
From Coq Require Import Lia ZifyBool ZifyN ZifyNat.

(** ** Neither '?' nor a star after a star *)
Lemma vrun_steady R st l e : vrun st l e -> (e = true -> steady true R) -> steady false R -> steady st (l ++ R).
Proof.
  intros V H1 H2. induction V as [st|st it l e L V IH|n l e V IH|k l e V IH]; cbn [app].
  - destruct st; auto.
  - apply t_one; [now apply literal_one|auto].
  - apply t_one; [exact I|auto].
  - apply t_star; [discriminate|auto].
Qed.
Lemma srun_steady l : Forall sfits l -> forall st st', srun st l st' -> (nst st -> steady false l) /\ (sst st -> steady true l).
Proof.
  intro W. induction W as [|it l Wi W IH]; intros st st' R; [split; intros _; constructor|]. inversion R as [|? ? st1 ? ? S R2]; subst. destruct (IH _ _ R2) as [I1 I2].
  inversion S as [? ? L Ns|n|? k Hs|x|? x Nz Hs|vals mn mx open G|? vals mn mx open G Fg Hs]; subst.
  - specialize (I1 ltac:(discriminate)). split; intros _; (apply t_one; [now apply literal_one|exact I1]).
  - specialize (I1 ltac:(discriminate)). split; intros H; [apply t_one; [exact I|exact I1]|destruct H; discriminate].
  - specialize (I2 (or_introl eq_refl)). split; intro H; [apply t_star; [discriminate|exact I2]|]. destruct Hs; destruct H; congruence.
  - specialize (I1 ltac:(discriminate)). split; intro H; [apply t_list; auto|destruct H; discriminate].
  - specialize (I1 ltac:(discriminate)). split; intro H; apply t_list; auto; easy.
  - assert (N1 : nst (after open)) by (destruct open; discriminate). specialize (I1 N1). split; intro H; [|destruct H; discriminate]. apply t_group; [|auto].
    intros v J. destruct (G v J) as (e & V & Ho). eapply vrun_steady; eauto. intro He. rewrite (Ho He) in I2. apply I2. now right.
  - assert (N1 : nst (after open)) by (destruct open; discriminate). specialize (I1 N1).
    assert (X : forall p, steady p (IGroup vals mn mx :: l)).
    { intro p. apply t_group; [|intro Z; now elim (Wi Fg)]. intros v J. destruct (G v J) as (e & V & Ho). apply (vrun_steady l p (val_items v) e); auto.
      - destruct p; [|exact V]. destruct (Fg v J) as (i & its & Ei & Li & _). rewrite Ei in *. apply v_lit; [exact Li|]. inversion V; subst; auto; destruct Li.
      - intro He. rewrite (Ho He) in I2. apply I2. now right. }
    split; intros _; apply X.
Qed.
Definition any_after (r : list item) : Prop := exists a k n b, r = a ++ IStar k :: IAny n :: b.
Lemma any_split it r : any_after (it :: r) -> any_after r \/ exists k n b, it = IStar k /\ r = IAny n :: b.
Proof. intros (a & k & n & b & E). destruct a as [|x a]; injection E as E1 E2; [right; eauto|left; exists a, k, n, b; exact E2]. Qed.
Lemma any_nil : ~ any_after [].
Proof. intros (a & k & n & b & E). destruct a; discriminate. Qed.
Lemma safe_any F r : path F r -> (safe F -> ~ any_after r) /\ (F = [] \/ safe_star F -> ~ any_after r /\ forall n b, r <> IAny n :: b).
Proof.
  induction 1 as [F|it R r K P [I1 I2]|l R r Z P [I1 I2]|vals mn mx v R r J P [I1 I2]|vals mn R mx r Z P [I1 I2]].
  - pose proof any_nil. split; [auto|]. intros _. split; [auto|discriminate].
  - assert (C : (forall k, it <> IStar k) -> ~ any_after r -> ~ any_after (it :: r)).
    { intros Ns N A. apply any_split in A as [A|(k & n & b & -> & _)]; [auto|now elim (Ns k)]. }
    assert (C1 : forall k, R = [] \/ safe_star R -> ~ any_after (IStar k :: r)).
    { intros k H. destruct (I2 H) as [N1 N2]. intro A. apply any_split in A as [A|(k' & n & b & _ & ->)]; [auto|now elim (N2 n b)]. }
    split.
    + intro S. inversion S as [|? ? O S1|? ? S1|? ? S1|]; subst; [|apply C; [discriminate|auto]|now apply C1|easy]. apply C; [|auto]. intros k ->. exact O.
    + intros [?|S]; [discriminate|]. inversion S; subst; try easy.
      * split; [apply C; auto; intros k ->; easy|]. intros n b Q. injection Q as -> _. easy.
      * split; [apply C1; now left|discriminate].
      * split; [apply C; auto; discriminate|discriminate].
  - split.
    + intro S. inversion S; subst; auto; easy.
    + intros [?|S]; [discriminate|]. inversion S; subst; auto; easy.
  - split.
    + intro S. inversion S; subst; auto; easy.
    + intros [?|S]; [discriminate|]. inversion S as [? ? L|?|?|? ? ? ? H]; subst; [easy|]. apply I2. right. now apply H.
  - split.
    + intro S. inversion S; subst; auto; easy.
    + intros [?|S]; [discriminate|]. inversion S; subst; auto; easy.
Qed.
Lemma parse_calm_stars u text g : tok u text -> plain_singles text -> regular_stars text -> glob_parse text = Ok g -> ~ star_any (g_items g) /\ steady false (g_items g).
Proof.
  intros T P Rg H. destruct (parse_srun _ _ Rg H) as (st & R). destruct (parse_facts u text g T P H) as (px & sx & mn & mx & rl & Eg & G & _). destruct G as (_ & _ & W & _).
  assert (W' : Forall (wfi u) (g_items g)) by (rewrite Eg; destruct (rev rl) eqn:Er; [constructor|]; cbn [finish_glob g_items]; rewrite <- Er; now apply Forall_rev).
  pose proof (wfi_sfits u _ W') as Sf. split.
  - intros (r & a & k & n & b & Pr & E). apply (proj1 (safe_any _ _ Pr)); [exact (srun_safe _ Sf _ _ R)|]. exists a, k, n, b. exact E.
  - now apply (srun_steady _ Sf _ _ R).
Qed.

(** ** Equal items *)
Lemma vrun_equal st l e : vrun st l e -> forall l', eqi l l' -> vrun st l' e.
Proof.
  induction 1 as [st|st it l e L V IH|n l e V IH|k l e V IH]; intros l' Q; inversion Q as [|? b ? r Qh Qt]; subst.
  - constructor.
  - apply v_lit; [destruct it; try easy; destruct b; easy|auto].
  - destruct b; try discriminate. apply v_any. auto.
  - destruct b; try discriminate. apply v_star. auto.
Qed.
Lemma group_erase vals mn mx vals' mn' mx' : item_equal (IGroup vals mn mx) (IGroup vals' mn' mx') = true -> map erase vals = map erase vals'.
Proof. intro H. apply equal_erase in H. cbn [erase] in H. now injection H. Qed.
Lemma vgroup_equal vals vals' open : map erase vals = map erase vals' -> vgroup vals open -> vgroup vals' open.
Proof. intros E G w I. destruct (vals_eqi _ _ E w I) as (v & J & Q). destruct (G v J) as (e & V & H). exists e. split; [|exact H]. eapply vrun_equal; eauto. Qed.
Lemma fgroup_equal vals vals' : map erase vals = map erase vals' -> fgroup vals -> fgroup vals'.
Proof.
  intros E G w I. destruct (vals_eqi _ _ E w I) as (v & J & Q). destruct (G v J) as (i & its & Ei & Li & Mi). rewrite Ei in Q. inversion Q as [|? b ? r Qh Qt]; subst.
  exists b, r. split; [now symmetry|]. assert (C : c1 i) by (destruct i; easy). rewrite (c1_min _ _ C Qh) in Mi. split; [destruct i; try easy; destruct b; easy|exact Mi].
Qed.
Lemma sstep_equal st a st' b : sstep st a st' -> item_equal a b = true -> sstep st b st'.
Proof.
  intros S Q. inversion S as [? ? L Ns|n|? k Hs|x|? x Nz Hs|vals mn mx open G|? vals mn mx open G Fg Hs]; subst.
  - apply ss_lit; auto. destruct a; try easy; destruct b; easy.
  - destruct b; try discriminate. apply ss_any.
  - destruct b; try discriminate. now apply ss_star.
  - destruct b; try discriminate. apply ss_plain.
  - destruct b; try discriminate. apply ss_star_list; auto. cbn [item_equal] in Q. apply sl_equal_eq in Q as (Em & _). congruence.
  - destruct b; try discriminate. apply group_erase in Q. apply ss_grp. eapply vgroup_equal; eauto.
  - destruct b; try discriminate. apply group_erase in Q. apply ss_star_grp; auto; [eapply vgroup_equal|eapply fgroup_equal]; eauto.
Qed.
Lemma srun_equal st l st' : srun st l st' -> forall l', eqi l l' -> srun st l' st'.
Proof. induction 1 as [|st it st1 l st2 S R IH]; intros l' Q; inversion Q; subst; [constructor|]. econstructor; [eapply sstep_equal; eauto|auto]. Qed.
Lemma eqi_ends l l' : eqi l l' -> ends_star l = ends_star l'.
Proof.
  intro Q. unfold ends_star. assert (R : eqi (rev l) (rev l')).
  { clear - Q. induction Q as [|a b l l' H F IH]; [constructor|]. cbn [rev]. apply Forall2_app; [exact IH|]. repeat constructor. exact H. }
  inversion R as [|a b r r' H F]; [reflexivity|]. destruct a, b; try reflexivity; discriminate.
Qed.
Lemma starry_equal a b : item_equal a b = true -> starry a = starry b.
Proof.
  intro Q. destruct a, b; try discriminate; try reflexivity. apply group_erase in Q. cbn [starry]. apply eq_true_iff_eq. rewrite !existsb_exists. split; intros (v & J & E).
  - symmetry in Q. destruct (vals_eqi _ _ Q v J) as (w & K & R). exists w. split; [exact K|]. now rewrite (eqi_ends _ _ R).
  - destruct (vals_eqi _ _ Q v J) as (w & K & R). exists w. split; [exact K|]. now rewrite (eqi_ends _ _ R).
Qed.

(** ** Lost ends *)
Fixpoint slossy (after : bool) (p : list item) : Prop :=
  match p with
  | [] => False
  | [it] => is_star it = true \/ (after = true /\ is_lit it = true)
  | it :: p' => slossy (starry it) p'
  end.
Lemma slossy_cons after it p : p <> [] -> slossy after (it :: p) = slossy (starry it) p.
Proof. now destruct p. Qed.
Lemma eqp_slossy p p' : eqp p p' -> forall af, slossy af (map fst p) -> slossy af (map fst p').
Proof.
  induction 1 as [|a b p p' [H _] F IH]; intro af; [auto|]. destruct (equal_kind _ _ H) as [E1 E2]. cbn [map]. inversion F as [|c d q q' G F2]; subst.
  - cbn. now rewrite E1, E2.
  - specialize (IH (starry (fst b))). cbn [map] in *. rewrite !slossy_cons by discriminate. now rewrite (starry_equal _ _ H).
Qed.
Lemma ends_star_iff l : ends_star l = true -> star_end l.
Proof.
  unfold ends_star, star_end. intro H. rewrite <- (rev_involutive l). destruct (rev l) as [|i r]; [discriminate|]. destruct i; try discriminate. cbn [rev]. eauto.
Qed.
Lemma starry_item it : starry it = true -> star_item it.
Proof.
  destruct it; try discriminate; cbn [starry]; intro H; [left; eauto|]. apply existsb_exists in H as (v & J & E). right. do 4 eexists. split; [reflexivity|]. split; [exact J|now apply ends_star_iff].
Qed.
Lemma slossy_open its : forall af, slossy af its -> star_end its \/ (exists a i it, its = a ++ [i; it] /\ star_item i /\ literal_item it) \/ (af = true /\ exists it, literal_item it /\ its = [it]).
Proof.
  induction its as [|it its IH]; intros af; [easy|]. destruct its as [|it2 its].
  - cbn [slossy]. intros [H|[-> H]]; [left|right; right; split; auto; exists it; split; auto; now apply lit_item]. destruct it; try discriminate. exists [], n. reflexivity.
  - rewrite slossy_cons by discriminate. intro H. apply IH in H as [(a & k & E)|[(a & i & j & E & S & L)|(S & i & L & E)]].
    + left. exists (it :: a), k. now rewrite E.
    + right. left. exists (it :: a), i, j. rewrite E. auto.
    + right. left. exists [], it, i. rewrite E. split; [reflexivity|]. split; [now apply starry_item|exact L].
Qed.
Lemma slossy_path g : g_items g <> [] -> slossy false (map fst (glob_path g)) -> star_end (g_items g) \/ exists a i it, g_items g = a ++ [i; it] /\ star_item i /\ literal_item it.
Proof.
  intro N. rewrite glob_path_eq, map_app, map_plain. unfold pitems.
  assert (S1 : forall x l, l <> [] -> slossy false (IStr x :: l) = slossy false l) by (intros x l Nl; now apply slossy_cons).
  assert (H : slossy false (g_items g) -> star_end (g_items g) \/ exists a i it, g_items g = a ++ [i; it] /\ star_item i /\ literal_item it).
  { intro S. apply slossy_open in S as [S|[S|[S _]]]; [auto|auto|discriminate]. }
  destruct (null (g_suffix g)), (null (g_prefix g)); cbn [map fst app]; rewrite ?S1; auto; discriminate.
Qed.
Lemma keep_node n x : forall (path : list elem) t it af, t_item t = Some it -> node_at t path n -> t_term n = Some x -> (slossy af (it :: map fst path) -> t_childs n = []) -> keep af t (it :: map fst path) x.
Proof.
  induction path as [|[i r] path IH]; intros [it0 r0 tm cs] it af E N T L; cbn in E; subst it0.
  - cbn in N. subst n. cbn in T. subst tm. constructor. exact L.
  - destruct N as (c & J & Ei & _ & N). cbn in J. cbn [map fst]. econstructor; [exact J|]. apply IH; auto.
Qed.

(** ** Histories *)
Lemma eqp_cons_inv (a : elem) p b q : eqp (a :: p) (b :: q) -> eqe a b /\ eqp p q.
Proof. intro H. inversion H; subst; auto. Qed.
Definition star_fragment (u : bool) (E : list entry) : Prop := forall e, In e E -> tok u (e_text e) /\ plain_singles (e_text e) /\ regular_stars (e_text e).
Lemma parse_path_wfi u text g : tok u text -> plain_singles text -> glob_parse text = Ok g -> Forall (fun e : elem => wfi u (fst e)) (glob_path g).
Proof.
  intros T P H. destruct (parse_facts u text g T P H) as (px & sx & mn & mx & rl & Eg & G & _). destruct G as (Cp & Cs & W & _).
  destruct (rev rl) as [|i0 its0] eqn:Er; [rewrite (path_literal text g H) by (rewrite Eg; reflexivity); constructor|].
  assert (E1 : g_prefix g = px /\ g_suffix g = sx /\ g_items g = rev rl) by (rewrite Eg, Er; repeat split; reflexivity). destruct E1 as (E1 & E2 & E3).
  unfold glob_path. rewrite E1, E2. apply Forall_app. split; [destruct (null sx); repeat constructor; exact Cs|]. apply Forall_app. split; [destruct (null px); repeat constructor; exact Cp|].
  rewrite Forall_map. cbn [fst]. rewrite E3. now apply Forall_rev.
Qed.
Lemma node_every (P : item -> Prop) : forall p t n, rooted P t -> node_at t p n -> Forall P (map fst p).
Proof.
  induction p as [|[it r] p IH]; intros t n N H; [constructor|]. destruct H as (c & I & E & _ & H). specialize (N c I). cbn [map fst]. constructor.
  - inversion N as [? ? ? ? G _]; subst. cbn in E. now injection E as <-.
  - apply (IH c n); [|exact H]. now apply every_rooted.
Qed.
Lemma history_stars u calls gt rs E e f s l n : run_adds gt_add gt_new calls = Ok (gt, rs) -> history gl_canon calls rs E -> star_fragment u E -> okstr u s ->
  In e E -> ~ plain_text (e_text e) -> ~ shadowed E e -> denotes (e_text e) (symbols s) -> gt_match f gt s = Ok (l, n) -> In (e_node e, e_index e) l.
Proof.
  intros R H F O Ie NP NS Dn M. destruct (history_paths _ _ _ _ R H) as [T V].
  assert (Wr : rooted (wfi u) (gt_root gt)). { apply V. intros e0 g0 I0 P0. destruct (F e0 I0) as (T0 & Q0 & _). eapply parse_path_wfi; eauto. }
  destruct T as (_ & TP & TS & TC & AL & _ & _). destruct (TP e Ie) as (g & Hp & _). destruct (F e Ie) as (Tk & Pl & Rg).
  assert (Ni : g_items g <> []) by (intro Z; apply NP; exists g; auto).
  destruct (TC e g Ie Hp Ni) as (p & Q & m & Nm & Tm). assert (Np : p <> []). { intros ->. inversion Q as [X|]. now apply (path_nil g Ni). }
  assert (Lo : slossy false (map fst p) -> t_childs m = []).
  { intro Lo. destruct (t_childs m) as [|c cs] eqn:Ec; auto. exfalso. apply NS.
    assert (Ic : In c (t_childs m)) by (rewrite Ec; now left).
    assert (It : exists it, t_item c = Some it).
    { assert (G : forall q t k, rooted (wfi u) t -> node_at t q k -> rooted (wfi u) k).
      { clear. induction q as [|[i r] q IH]; intros t k N Hk; [cbn in Hk; now subst|]. destruct Hk as (d & I & _ & _ & Hk). apply (IH d); [|exact Hk]. now apply every_rooted, N. }
      pose proof (G p (gt_root gt) m Wr Nm c Ic) as Ev. inversion Ev; subst. cbn. eauto. }
    destruct It as (it & It).
    assert (Nc : node_at (gt_root gt) (p ++ [(it, t_reverse c)]) c). { apply node_at_app. exists m. split; auto. cbn. exists c. auto. }
    destruct (AL (p ++ [(it, t_reverse c)]) c ltac:(now destruct p) Nc) as (q & x & m2 & Nq & Tx).
    destruct (TS ((p ++ [(it, t_reverse c)]) ++ q) x ltac:(now destruct p)) as (e' & g' & Ie' & Hp' & _ & Q').
    { exists m2. split; auto. apply node_at_app. exists c. auto. }
    apply eqp_sym in Q'. rewrite <- app_assoc in Q'. apply eqp_app_inv in Q' as (p1 & p2 & Ep & Q1 & Q2).
    assert (N2 : p2 <> []) by (intros ->; inversion Q2).
    destruct (F e' Ie') as (T' & P' & _).
    destruct (path_extends g g' p1 p2) as (E1 & E2 & its & more & E3 & E4 & E5); auto; [exact (parse_nolit u _ g Tk Pl Hp)|exact (parse_nolit u _ g' T' P' Hp')|eapply eqp_trans; eauto|].
    exists e', g, g'. do 5 (split; auto). split; [|exists its, more; auto]. apply (slossy_path g Ni). now apply (eqp_slossy _ _ Q). }
  assert (Dp : pden p (symbols s)).
  { apply (eqp_pden _ _ _ Q). destruct (parse_facts u _ _ Tk Pl Hp) as (px & sx & mn & mx & rl & Eg & _ & D). rewrite pden_path. apply D in Dn. subst g. destruct (rev rl); [now elim Ni|]. exact Dn. }
  assert (Wp : Forall (wfi u) (map fst p)) by (eapply node_every; eauto).
  destruct (parse_srun _ _ Rg Hp) as (st & Sr).
  assert (Sp : srun SNormal (pitems g) st). { unfold pitems. destruct (null (g_prefix g)); [exact Sr|]. cbn [app]. econstructor; [|exact Sr]. apply ss_lit; [exact Logic.I|discriminate]. }
  pose proof Q as Q0. rewrite glob_path_eq in Q0. destruct p as [|[it r] p]; [easy|]. destruct Nm as (c & Jc & Ei & Er & Nm).
  assert (C : co (e_node e, e_index e) (gt_match f gt s)); [|rewrite M in C; exact C].
  unfold gt_match, tree_match. eapply co_all; [exact Jc|]. rewrite Er, Ei. cbn [map fst] in Wp, Lo. pose proof (Forall_inv Wp) as W1. pose proof (Forall_inv_tail Wp) as W2. set (x := (e_node e, e_index e)) in *.
  destruct (null (g_suffix g)) eqn:Ns; cbn [app] in Q0.
  - destruct (pitems g) as [|i its] eqn:Ep; [inversion Q0|]. cbn [plain map] in Q0. fold (plain its) in Q0. pose proof Q0 as Q1. apply eqp_cons_inv in Q0 as [[Qh Qr] Qt]. cbn in Qr. rewrite Qr in *.
    assert (K : keep false c (it :: map fst p) x) by (eapply keep_node; eauto).
    apply (proj1 (complete u f) c s (it :: map fst p) x SNormal st); auto; [discriminate| |].
    + eapply srun_equal; [exact Sp|]. assert (Qe : eqi (map fst ((i, false) :: plain its)) (map fst ((it, false) :: p))) by (apply eqp_eqi, eqp_sym; exact Q1).
      cbn [map fst] in Qe. now rewrite map_plain in Qe.
    + rewrite pden_first in Dp. destruct it; exact Dp.
  - apply eqp_cons_inv in Q0 as [[Qh Qr] Qt]. cbn in Qh, Qr. rewrite Qr in *. apply equal_sym in Qh. apply equal_str in Qh. subst it. rewrite pden_first in Dp. destruct Dp as (w2 & Ew & D2).
    set (y := g_suffix g) in *. assert (Sf : has_suffix s y = true).
    { apply has_suffix_iff. exists (concat w2). rewrite <- (concat_symbols s), Ew, concat_app, concat_symbols. reflexivity. }
    assert (Zs : (zlen s <? item_min (IStr y))%Z = false) by (apply (long_enough u (IStr y) s w2 (symbols y) []); [exact W1|now rewrite app_nil_r|reflexivity]). rewrite Zs. cbn [item_match_last]. rewrite Sf. cbn [bind].
    apply has_suffix_iff in Sf as (s0 & ->). rewrite app_length, Nat.add_sub, firstn_app_le, firstn_all by lia.
    assert (Es : symbols (s0 ++ y) = symbols s0 ++ symbols y) by (apply symbols_app; now apply bnd_clean). rewrite Es in Ew. apply app_inv_tail in Ew. subst w2.
    assert (K0 : okstr u s0). { intro U. specialize (O U). apply clean_app_inv in O; [tauto|now apply bnd_clean]. }
    destruct c as [i0 r0 tm cs]. cbn in Ei, Er. subst i0 r0. cbn [t_term t_childs].
    assert (U : under false tm cs (map fst p) x).
    { destruct p as [|[i2 r2] p]; [left; cbn in Nm; subst m; auto|]. destruct Nm as (d & Jd & Ei & _ & Nm). right. exists d. split; [exact Jd|]. cbn [map fst] in *. eapply keep_node; eauto. }
    eapply (co_here u f tm cs s0 (map fst p) x SNormal st); auto; [apply complete|discriminate|].
    eapply srun_equal; [exact Sp|]. assert (Qe : eqi (map fst (plain (pitems g))) (map fst p)) by (apply eqp_eqi, eqp_sym; exact Qt). now rewrite map_plain in Qe.
Qed.
