(** Trees of globs: registration and matching. *)
From Verif Require Import Model.Tree Spec.Symbols Spec.GlobSpec Spec.Lang Spec.Safe Spec.RegistrySpec Spec.GlobTreeSpec.
From Verif Require Import Proof.Utf8P Proof.SymbolsP Proof.SkipP Proof.SortP Proof.ListP Proof.LangP Proof.ItemP Proof.MatchP Proof.ParseP Proof.GlobP Proof.GlobMatchP Proof.SafeP Proof.ItemTop Proof.ItemEqP Proof.RegistryP Proof.TotalP Proof.NodeP Proof.TreeP Proof.TreeInsP.
From Coq Require Import Lia ZifyBool ZifyN ZifyNat.

Definition pden (p : list elem) (w : list str) : Prop :=
  match p with
  | (IStr x, true) :: p' => exists w2, w = w2 ++ symbols x /\ dens (map fst p') w2
  | _ => dens (map fst p) w
  end.
Section Root.
Variable u : bool.
Definition reported (t : tree) (w : list str) (x : term) : Prop :=
  exists p n, p <> [] /\ node_at t p n /\ t_term n = Some x /\ (lossy false (map fst p) -> t_childs n = []) /\ pden p w.
Lemma map_plain its : map fst (plain its) = its.
Proof. unfold plain. rewrite map_map. cbn. apply map_id. Qed.
Lemma plain_nodes st t : okt u st t -> forall p n, node_at t p n -> p = plain (map fst p).
Proof.
  induction 1 as [st it st' r tm cs W S Rv C IH]. intros [|[i r'] p] n H; [reflexivity|]. destruct H as (c & J & E & R & H). cbn [t_childs] in J.
  cbn [map fst plain]. rewrite (Rv c J) in R. subst r'. f_equal. eapply IH; eauto.
Qed.
Definition below (c : tree) (w : list str) (x : term) : Prop :=
  exists it p n, t_item c = Some it /\ node_at c p n /\ t_term n = Some x /\ (lossy false (it :: map fst p) -> t_childs n = []) /\ pden ((it, t_reverse c) :: p) w.
Lemma reported_below t w x : reported t w x <-> exists c, In c (t_childs t) /\ below c w x.
Proof.
  split.
  - intros (p & n & N & H & T & L & D). destruct p as [|[it r] p]; [easy|]. destruct H as (c & J & E & R & H). exists c. split; auto. exists it, p, n. subst r. auto.
  - intros (c & J & it & p & n & E & H & T & L & D). exists ((it, t_reverse c) :: p), n. split; [discriminate|]. split; [exists c; auto|]. auto.
Qed.
Lemma below_forward c w x : okt u Normal c -> t_reverse c = false -> (matched c w x <-> below c w x).
Proof.
  intros O R. unfold matched, below. split.
  - intros (p & K & D). apply (kept_node u _ _ O) in K as (it & p' & -> & E & n & H & T & L). exists it, (plain p'), n. rewrite R, map_plain. cbn [pden map fst]. rewrite ?map_plain.
    repeat split; auto. destruct it; exact D.
  - intros (it & p & n & E & H & T & L & D). rewrite R in D. exists (it :: map fst p). split; [|destruct it; exact D].
    apply (kept_node u _ _ O). exists it, (map fst p). repeat split; auto. exists n. rewrite <- (plain_nodes _ _ O p n H). auto.
Qed.
Lemma below_reverse y tm cs w x : okt u Normal (TNode (Some (IStr y)) true tm cs) ->
  (below (TNode (Some (IStr y)) true tm cs) w x <-> exists w2, w = w2 ++ symbols y /\ Hx tm cs w2 x).
Proof.
  intro O. inversion O as [? ? st' ? ? ? W S Rv C]; subst. assert (st' = Normal) by (inversion S; auto). subst st'. unfold below, Hx. split.
  - intros (it & p & n & E & H & T & L & D). cbn in E. injection E as <-. destruct D as (w2 & -> & D). exists w2. split; auto. destruct p as [|[i r] p].
    + cbn in H. subst n. left. auto.
    + right. destruct H as (c & J & E & R & H). cbn in J. exists c, (i :: map fst p). split; auto. split; [|exact D].
      apply (kept_node u _ _ (C c J)). exists i, (map fst p). repeat split; auto. exists n. rewrite <- (plain_nodes _ _ (C c J) p n H). auto.
  - intros (w2 & -> & [[-> ->]|(c & p & J & K & D)]).
    + exists (IStr y), [], (TNode (Some (IStr y)) true (Some x) cs). repeat split; auto; [|exists []; split; [reflexivity|exact eq_refl]].
      cbn. intros [?|[? ?]]; discriminate.
    + apply (kept_node u _ _ (C c J)) in K as (it & p' & -> & E & n & H & T & L). exists (IStr y), ((it, false) :: plain p'), n. repeat split; auto.
      * cbn [node_at t_childs]. exists c. auto.
      * cbn [map fst]. rewrite map_plain. exact L.
      * cbn [t_reverse pden map fst]. rewrite map_plain. exists w2. auto.
Qed.
Lemma root_ev t s : okr u t -> okstr u s -> ev (fun f => tree_match f t s) (rep (reported t (symbols s))).
Proof.
  intros [_ Oc] K. unfold tree_match. eapply ev_rep; [apply (ev_all (t_childs t) _ (fun c => below c (symbols s)))|intro x; symmetry; apply reported_below].
  intros c J. destruct (Oc c J) as [O Rs]. destruct (t_reverse c) eqn:R.
  - destruct (Rs eq_refl) as (y & E). inversion O as [? it st' r tm cs W S Rv C]; subst. cbn in E, R |- *. injection E as ->. subst r.
    assert (st' = Normal) by (inversion S; auto). subst st'. cbn [t_item t_reverse t_term t_childs item_min item_match_last].
    destruct (zlen s <? zlen y)%Z eqn:Z0.
    { apply ev_ok, rep_none. intros x H. apply (below_reverse y tm cs _ _ O) in H as (w2 & E & _). apply (short_no u (IStr y) s w2 (symbols y) []); [exact W|cbn; lia|now rewrite app_nil_r|reflexivity]. }
    destruct (has_suffix s y) eqn:Sf.
    + apply has_suffix_iff in Sf as (s0 & ->). cbn [bind]. rewrite app_length, Nat.add_sub, firstn_app_le, firstn_all by lia.
      assert (Es : symbols (s0 ++ y) = symbols s0 ++ symbols y) by (apply symbols_app; now apply bnd_clean).
      eapply ev_rep; [apply (here_ev u tm cs s0)|].
      * intro U. specialize (K U). apply clean_app_inv in K; [tauto|now apply bnd_clean].
      * intros d Jd. apply (tree_ev u Normal); auto. discriminate.
      * intro x. rewrite (below_reverse y tm cs _ _ O), Es. split; [intro H; exists (symbols s0); auto|]. intros (w2 & E & H). apply app_inv_tail in E. now rewrite E.
    + cbn [bind]. apply ev_ok, rep_none. intros x H. apply (below_reverse y tm cs _ _ O) in H as (w2 & E & _). assert (has_suffix s y = true); [|congruence].
      apply has_suffix_iff. exists (concat w2). rewrite <- (concat_symbols s), E, concat_app, concat_symbols. reflexivity.
  - eapply ev_rep; [apply (tree_ev u Normal c O); [discriminate|exact K]|]. intro x. now apply below_forward.
Qed.
End Root.

(** ** Paths of globs *)
Lemma parse_shape text g : glob_parse text = Ok g -> g_glob g = text /\
  ((g_items g = [] /\ g_prefix g = [] /\ g_suffix g = []) \/ (g_items g <> [] /\ g_node g = g_prefix g ++ concat (map item_write (g_items g)) ++ g_suffix g)).
Proof.
  assert (F : forall p s mn mx its gl, gl = finish_glob text p s mn mx its -> g_glob gl = text /\
    ((g_items gl = [] /\ g_prefix gl = [] /\ g_suffix gl = []) \/ (g_items gl <> [] /\ g_node gl = g_prefix gl ++ concat (map item_write (g_items gl)) ++ g_suffix gl))).
  { intros p s mn mx its gl ->. destruct its as [|i its]; (split; [reflexivity|]); [left; auto|right]. split; [discriminate|reflexivity]. }
  unfold glob_parse. destruct (index_wildcard text) as [pos|]; [|intro H; apply ok_inj in H; subst g; auto].
  destruct (index_last_wildcard (skipn pos text)) as [e|]; [|discriminate]. cbv zeta.
  destruct (Nat.eqb e 0 && negb (Ascii.eqb (nth 0 (skipn pos text) zero) "?") && negb (Ascii.eqb (nth 0 (skipn pos text) zero) "*")); [discriminate|].
  destruct (if (e <? length (skipn pos text) - 1)%nat then (skipn (S e) (skipn pos text), firstn (S e) (skipn pos text)) else ([], skipn pos text)) as [suffix body].
  destruct (str_eqb body (B "*")); [intro H; apply ok_inj in H; eapply F; eauto|]. destruct (str_eqb body (B "?")); [intro H; apply ok_inj in H; eapply F; eauto|].
  destruct (parse_loop _ _ _) as [[[[p1 n1] x1] r1]|e1| |]; try discriminate. cbn [bind]. destruct (take_suffix suffix r1) as [s2 r2].
  intro H. apply ok_inj in H. eapply F; eauto.
Qed.
Definition pitems (g : glob) : list item := (if null (g_prefix g) then [] else [IStr (g_prefix g)]) ++ g_items g.
Lemma glob_path_eq g : glob_path g = (if null (g_suffix g) then [] else [(IStr (g_suffix g), true)]) ++ plain (pitems g).
Proof. unfold glob_path, pitems, plain. rewrite map_app. destruct (null (g_prefix g)); reflexivity. Qed.
Definition ptext (p : list elem) : str :=
  match p with
  | (it, true) :: p' => concat (map (fun e => item_write (fst e)) p') ++ item_write it
  | _ => concat (map (fun e => item_write (fst e)) p)
  end.
Lemma eqp_write p p' : eqp p p' -> map (fun e => item_write (fst e)) p = map (fun e => item_write (fst e)) p'.
Proof. induction 1 as [|a b p p' [H _] F IH]; cbn; auto. now rewrite IH, (equal_write _ _ H). Qed.
Lemma eqp_text p p' : eqp p p' -> ptext p = ptext p'.
Proof.
  intro Q. pose proof (eqp_write _ _ Q) as W. inversion Q as [|[i r] [i' r'] q q' [H1 H2] F]; subst; auto. cbn in H1, H2. subst r'. cbn [ptext]. destruct r; [|now rewrite W].
  cbn in W. injection W as W1 W2. unfold str in *. rewrite W1, W2. reflexivity.
Qed.
Lemma writes_plain its : map (fun e : elem => item_write (fst e)) (plain its) = map item_write its.
Proof. unfold plain. now rewrite map_map. Qed.
Lemma path_text text g : glob_parse text = Ok g -> g_items g <> [] -> ptext (glob_path g) = g_node g.
Proof.
  intros P N. destruct (parse_shape _ _ P) as [_ [[? _]|[_ ->]]]; [easy|]. rewrite glob_path_eq.
  assert (C : concat (map item_write (pitems g)) = g_prefix g ++ concat (map item_write (g_items g))).
  { unfold pitems. destruct (g_prefix g); [reflexivity|]. cbn [null]. rewrite map_app, concat_app. cbn [map concat item_write]. now rewrite app_nil_r. }
  destruct (g_suffix g) as [|c sx]; cbn [null app].
  - assert (H : ptext (plain (pitems g)) = concat (map item_write (pitems g))). { rewrite <- (writes_plain (pitems g)). unfold plain. destruct (pitems g); reflexivity. }
    rewrite H, C. now rewrite app_nil_r.
  - cbn [ptext item_write]. rewrite writes_plain, C. now rewrite <- app_assoc.
Qed.
Lemma path_nil g : g_items g <> [] -> glob_path g <> [].
Proof. intros N E. rewrite glob_path_eq in E. apply app_eq_nil in E as [_ E]. unfold pitems, plain in E. apply map_eq_nil in E. apply app_eq_nil in E as [_ E]. easy. Qed.
Lemma path_literal text g : glob_parse text = Ok g -> g_items g = [] -> glob_path g = [].
Proof. intros P N. destruct (parse_shape _ _ P) as [_ [(_ & E1 & E2)|[? _]]]; [|easy]. unfold glob_path. now rewrite N, E1, E2. Qed.

(** ** The registry and the tree *)
Definition tree_inv (E : list entry) (gt : glob_tree) : Prop :=
  maps_ok E (gt_globs gt) (gt_index gt) /\
  (forall e, In e E -> exists g, glob_parse (e_text e) = Ok g /\ g_node g = e_node e) /\
  (forall p x, p <> [] -> holds (gt_root gt) p x -> exists e g, In e E /\ glob_parse (e_text e) = Ok g /\ x = (e_node e, e_index e) /\ eqp p (glob_path g)) /\
  (forall e g, In e E -> glob_parse (e_text e) = Ok g -> g_items g <> [] -> exists p, eqp p (glob_path g) /\ holds (gt_root gt) p (e_node e, e_index e)) /\
  all_live (gt_root gt) /\ wd (gt_root gt) /\
  (forall u, (forall e, In e E -> tok u (e_text e) /\ plain_singles (e_text e) /\ regular (e_text e)) -> okr u (gt_root gt)).
Lemma tree_new_inv : tree_inv [] gt_new.
Proof.
  split; [apply maps_nil|]. split; [easy|]. split; [|split; [easy|split; [|split]]].
  - intros [|[i r] p] x N (n & H & _); [easy|]. destruct H as (c & [] & _).
  - intros [|[i r] p] n N H; [easy|]. destruct H as (c & [] & _).
  - constructor; [constructor|easy].
  - intros u _. apply okr_root.
Qed.
Lemma okr_add u text g y t : okr u t -> tok u text -> plain_singles text -> regular text -> glob_parse text = Ok g -> okr u (tree_insert (glob_path g) y t).
Proof.
  intros O T Pl Rg P. destruct (parse_run _ _ Rg P) as (st & R). destruct (parse_facts u text g T Pl P) as (px & sx & mn & mx & rl & Eg & I & _).
  destruct I as (Cp & Cs & W & _). destruct (rev rl) as [|i0 its0] eqn:Er.
  { rewrite (path_literal text g P) by (rewrite Eg; reflexivity). rewrite insert_nil. destruct O as [O1 O2]. split; auto. }
  assert (E1 : g_prefix g = px /\ g_suffix g = sx /\ g_items g = rev rl) by (rewrite Eg, Er; repeat split; reflexivity). destruct E1 as (E1 & E2 & E3).
  assert (W' : Forall (wfi u) (pitems g)).
  { unfold pitems. apply Forall_app. split; [destruct (null (g_prefix g)); repeat constructor; rewrite E1; exact Cp|]. rewrite E3. now apply Forall_rev. }
  assert (R' : run Normal (pitems g) st). { unfold pitems. destruct (null (g_prefix g)); [exact R|]. cbn [app]. econstructor; [|exact R]. apply st_lit; [exact Logic.I|discriminate]. }
  rewrite glob_path_eq. destruct (null (g_suffix g)) eqn:Ns; cbn [app].
  - assert (Np : pitems g <> []). { unfold pitems. intro Z. apply app_eq_nil in Z as [_ Z]. rewrite E3, Er in Z. discriminate. }
    destruct (pitems g) as [|i its]; [easy|]. inversion R' as [|? ? st1 ? ? S1 R1]; subst. inversion W' as [|? ? W1 W2]; subst.
    eapply okr_insert; eauto. discriminate.
  - eapply (okr_insert u (IStr (g_suffix g)) true (pitems g) Normal); eauto; [rewrite E2; exact Cs|]. apply st_lit; [exact Logic.I|discriminate].
Qed.
Lemma null_false {A} (l : list A) : null l = false -> l <> [].
Proof. now destruct l. Qed.
Lemma gt_step E gt text i : tree_inv E gt -> exists gt' r new, gt_add gt text i = Ok (gt', r) /\ registers gl_canon E text i new r /\
  tree_inv (match new with Some e => E ++ [e] | None => E end) gt' /\ (new = None -> gt' = gt).
Proof.
  intros T. pose proof T as (MO & PE & TS & TC & TL & TW & TO). unfold gt_add. destruct (null text) eqn:Nt.
  { exists gt, ([], 0%Z, None), None. split; [reflexivity|]. split; [constructor; now destruct text|auto]. }
  apply null_false in Nt. destruct (i <? 0)%Z eqn:Ni.
  { do 3 eexists. split; [reflexivity|]. split; [apply reg_negative; [auto|lia]|auto]. }
  destruct (lookup str_eqb text (gt_globs gt)) as [n|] eqn:L1.
  { do 3 eexists. split; [reflexivity|]. split; [apply reg_again; [auto|lia|now apply (proj1 (proj2 MO))]|auto]. }
  rewrite (maps_none _ _ _ _ MO) in L1. destruct (lookup Z.eqb i (gt_index gt)) as [q|] eqn:L2.
  { do 3 eexists. split; [reflexivity|]. split; [apply reg_index; [auto|lia|auto|now apply (proj2 (proj2 MO))]|auto]. }
  rewrite (maps_unused _ _ _ _ MO) in L2. assert (Fi := glob_parse_fine text). destruct (glob_parse text) as [g|e| |] eqn:P; try easy.
  2:{ do 3 eexists. split; [reflexivity|]. split; [apply reg_bad; auto; [lia|unfold gl_canon; now rewrite P]|auto]. }
  destruct (lookup str_eqb (g_node g) (gt_globs gt)) as [n|] eqn:L3.
  { do 3 eexists. split; [reflexivity|]. split; [apply reg_same; auto; [lia|unfold gl_canon; now rewrite P|now apply (proj1 (proj2 MO))]|auto]. }
  rewrite (maps_none _ _ _ _ MO) in L3. do 3 eexists. split; [reflexivity|]. split; [apply reg_new; auto; [lia|unfold gl_canon; now rewrite P]|]. split; [|discriminate].
  destruct (parse_shape _ _ P) as [Gt Gs].
  assert (NO : forall p x, p <> [] -> holds (gt_root gt) p x -> ~ eqp p (glob_path g)).
  { intros p x Np H Q. destruct (TS p x Np H) as (e & g' & Ie & Pe & -> & Qe). apply (L3 (e_index e)). exists e. split; auto. split; auto. right.
    destruct (PE e Ie) as (g2 & P2 & <-). assert (g2 = g') by congruence. subst g2.
    assert (glob_path g <> [] /\ glob_path g' <> []) as [N1 N2] by (split; intro Z; rewrite Z in *; inversion Q; inversion Qe; subst; easy).
    assert (I1 : g_items g <> []) by (intro Z; apply N1; eapply path_literal; eauto). assert (I2 : g_items g' <> []) by (intro Z; apply N2; eapply path_literal; eauto).
    rewrite <- (path_text _ _ P I1), <- (path_text _ _ P2 I2). rewrite <- (eqp_text _ _ Q). symmetry. now apply eqp_text. }
  unfold gt_accept, add_glob. set (y := (g_node g, i)). split; [|split; [|split; [|split; [|split; [|split]]]]]; cbn [gt_globs gt_index gt_root].
  - rewrite Gt. apply (maps_snoc E (gt_globs gt) (gt_index gt)); auto.
    + intro k. destruct (str_eqb_spec (g_node g) text) as [->|D]; rewrite !lookup_assign by apply str_eqb_spec; destruct (str_eqb k text), (str_eqb k (g_node g)); reflexivity.
    + intro k. apply lookup_assign, zeqb_spec.
  - intros e Ie. apply in_app_or in Ie as [Ie|[<-|[]]]; [auto|]. cbn. eauto.
  - intros p x Np H. apply insert_sound in H as [[Q ->]|H].
    + exists (mkEntry text (g_node g) i), g. split; [apply in_or_app; right; now left|]. auto.
    + destruct (TS p x Np H) as (e & g' & Ie & R). exists e, g'. split; auto. apply in_or_app. now left.
  - intros e g' Ie Pe Ne. apply in_app_or in Ie as [Ie|[<-|[]]].
    + destruct (TC e g' Ie Pe Ne) as (p & Q & H). exists p. split; auto. apply insert_keeps; auto. eapply NO; eauto. intros ->. apply (path_nil g' Ne). now inversion Q.
    + cbn in Pe. assert (g' = g) by congruence. subst g'. apply insert_here.
  - now apply all_live_insert.
  - now apply wd_insert.
  - intros u H. destruct (H (mkEntry text (g_node g) i)) as (T1 & T2 & T3); [apply in_or_app; right; now left|]. apply (okr_add u text); auto. apply TO. intros e Ie. apply H. apply in_or_app. now left.
Qed.
Lemma gt_history calls : exists gt rs E, run_adds gt_add gt_new calls = Ok (gt, rs) /\ history gl_canon calls rs E /\ tree_inv E gt.
Proof. apply run_history; [apply gt_step|apply tree_new_inv]. Qed.

(** ** Matching against the registry *)
Lemma eqp_dens p p' : eqp p p' -> forall w, dens (map fst p) w <-> dens (map fst p') w.
Proof.
  induction 1 as [|a b p p' [H _] F IH]; intro w; [reflexivity|]. cbn [map dens].
  split; intros (w1 & w2 & -> & D1 & D2); exists w1, w2; (split; [reflexivity|]); (split; [now apply (c17_equal_l _ _ H)|now apply IH]).
Qed.
Lemma equal_str x b : item_equal (IStr x) b = true -> b = IStr x.
Proof. destruct b; cbn; try discriminate. intro H. apply str_eqb_true in H. now subst. Qed.
Lemma pden_first i r p : pden ((i, r) :: p) = match i, r with IStr x, true => fun w => exists w2, w = w2 ++ symbols x /\ dens (map fst p) w2 | _, _ => dens (i :: map fst p) end.
Proof. destruct i, r; reflexivity. Qed.
Lemma eqp_pden p p' w : eqp p p' -> (pden p w <-> pden p' w).
Proof.
  intro Q. pose proof (eqp_dens _ _ Q w) as D. inversion Q as [|[i r] [i' r'] q q' [H1 H2] F]; subst; [exact D|]. cbn in H1, H2. subst r'.
  destruct (is_lit i) eqn:L; [destruct i; try discriminate|].
  - apply equal_str in H1. subst i'. destruct r; [|exact D]. cbn [pden]. split; intros (w2 & -> & D2); exists w2; split; auto; now apply (eqp_dens _ _ F).
  - destruct i'; try discriminate. exact D.
  - destruct i'; try discriminate. exact D.
  - destruct i'; try discriminate. exact D.
  - destruct i; try discriminate; destruct i'; try discriminate; exact D.
Qed.
Lemma equal_kind a b : item_equal a b = true -> is_star a = is_star b /\ is_lit a = is_lit b.
Proof. destruct a, b; try discriminate; auto. Qed.
Lemma eqp_lossy p p' : eqp p p' -> forall af, lossy af (map fst p) <-> lossy af (map fst p').
Proof.
  induction 1 as [|a b p p' [H _] F IH]; intro af; [reflexivity|]. destruct (equal_kind _ _ H) as [E1 E2]. cbn [map]. inversion F as [|c d q q' G F2]; subst.
  - cbn. now rewrite E1, E2.
  - specialize (IH (is_star (fst b))). cbn [map] in *. change (lossy af (fst a :: fst c :: map fst q)) with (lossy (is_star (fst a)) (fst c :: map fst q)).
    change (lossy af (fst b :: fst d :: map fst q')) with (lossy (is_star (fst b)) (fst d :: map fst q')). now rewrite E1.
Qed.
Lemma lit_item it : is_lit it = true <-> literal_item it.
Proof. destruct it; cbn; split; easy. Qed.
Lemma lossy_open its : forall af, lossy af its <-> open_end its \/ (af = true /\ exists it, literal_item it /\ its = [it]).
Proof.
  induction its as [|it its IH]; intro af.
  - cbn. split; [easy|]. intros [(a & k & [E|(i & _ & E)])|(_ & i & _ & E)]; try discriminate; destruct a; discriminate.
  - destruct its as [|it2 its].
    + cbn [lossy]. split.
      * intros [H|[-> H]]; [left|right; split; auto; exists it; split; auto; now apply lit_item]. destruct it; try discriminate. exists [], n. now left.
      * intros [(a & k & [E|(i & _ & E)])|(-> & i & L & E)].
        -- destruct a as [|x [|y a]]; try discriminate. injection E as ->. now left.
        -- destruct a as [|x [|y a]]; discriminate.
        -- injection E as ->. right. split; auto. now apply lit_item.
    + rewrite lossy_cons by discriminate. rewrite IH. split.
      * intros [(a & k & [E|(i & L & E)])|(S & i & L & E)].
        -- left. exists (it :: a), k. left. now rewrite E.
        -- left. exists (it :: a), k. right. exists i. split; auto. now rewrite E.
        -- left. destruct it; try discriminate. exists [], n. right. exists i. split; auto. cbn. now rewrite E.
      * intros [(a & k & [E|(i & L & E)])|(_ & i & _ & E)]; [| |discriminate].
        -- destruct a as [|x a]; [discriminate|]. injection E as <- E. left. exists a, k. now left.
        -- destruct a as [|x a].
           ++ injection E as -> -> ->. right. split; [reflexivity|]. exists i. auto.
           ++ injection E as _ E. left. exists a, k. right. exists i. auto.
Qed.
Lemma lossy_path g : g_items g <> [] -> (lossy false (map fst (glob_path g)) <-> open_end (g_items g)).
Proof.
  intro N. rewrite glob_path_eq, map_app, map_plain. unfold pitems.
  assert (S1 : forall x l, l <> [] -> lossy false (IStr x :: l) = lossy false l) by (intros x l Nl; now apply lossy_cons).
  assert (H : lossy false (g_items g) <-> open_end (g_items g)) by (rewrite lossy_open; split; [intros [?|[? _]]; [auto|discriminate]|auto]).
  destruct (null (g_suffix g)), (null (g_prefix g)); cbn [map fst app]; rewrite ?S1; auto; discriminate.
Qed.
Lemma pden_path g w :
  (pden (glob_path g) w <-> exists w2, w = symbols (g_prefix g) ++ w2 ++ symbols (g_suffix g) /\ dens (g_items g) w2).
Proof.
  rewrite glob_path_eq.
  assert (H : forall w, dens (pitems g) w <-> exists w2, w = symbols (g_prefix g) ++ w2 /\ dens (g_items g) w2).
  { intro w0. unfold pitems. destruct (g_prefix g) as [|c px]; cbn [null app].
    - split; [intro D; exists w0; auto|]. intros (w2 & -> & D). exact D.
    - cbn [dens den]. split; [intros (w1 & w2 & -> & -> & D); exists w2; auto|]. intros (w2 & -> & D). exists (symbols (c :: px)), w2. auto. }
  assert (P : forall its, pden (plain its) = dens its). { intros [|i its]; [reflexivity|]. cbn [plain map]. rewrite pden_first. fold (plain its). rewrite map_plain. now destruct i. }
  destruct (g_suffix g) as [|c sx]; cbn [null app].
  - rewrite P, H. split; intros (w2 & -> & D); exists w2; rewrite ?app_nil_r; split; auto.
  - rewrite pden_first, map_plain. split.
    + intros (w2 & -> & D). apply H in D as (w3 & -> & D). exists w3. rewrite <- app_assoc. auto.
    + intros (w2 & -> & D). exists (symbols (g_prefix g) ++ w2). rewrite <- app_assoc. split; auto. apply H. exists w2. auto.
Qed.

Lemma forall2_plain its its' : eqp (plain its) (plain its') <-> Forall2 (fun a b => item_equal a b = true) its its'.
Proof.
  split.
  - revert its'. induction its as [|i its IH]; intros [|i' its'] F; inversion F as [|? ? ? ? [Q _] F2]; subst; constructor; auto.
  - induction 1 as [|a b l l' Q F IH]; constructor; [split; auto|exact IH].
Qed.
Lemma plain_app a b : plain (a ++ b) = plain a ++ plain b.
Proof. apply map_app. Qed.
Lemma plain_split its a b : plain its = a ++ b -> exists x y, its = x ++ y /\ a = plain x /\ b = plain y.
Proof.
  revert a. induction its as [|i its IH]; intros a E.
  - destruct a; [|discriminate]. exists [], []. auto.
  - destruct a as [|e a]; [exists [], (i :: its); auto|]. injection E as <- E. destruct (IH _ E) as (x & y & -> & -> & ->). exists (i :: x), y. auto.
Qed.
Definition nolit (g : glob) : Prop := forall x its, g_items g <> IStr x :: its.
Lemma parse_nolit u text g : tok u text -> plain_singles text -> glob_parse text = Ok g -> nolit g.
Proof.
  intros T P H. destruct (parse_facts u _ _ T P H) as (px & sx & mn & mx & rl & -> & (_ & _ & _ & _ & _ & _ & _ & _ & I) & _). intros x its E.
  destruct (rev rl) as [|y l] eqn:Er; [discriminate|]. cbn in E. injection E as -> ->.
  assert (N : rl <> []) by (intros ->; discriminate). specialize (I N). rewrite <- (rev_involutive rl), Er in I. cbn [rev] in I. rewrite last_last in I. discriminate.
Qed.
Lemma path_extends g g' p q : nolit g -> nolit g' -> g_items g <> [] -> q <> [] -> eqp p (glob_path g) -> glob_path g' = p ++ q ->
  g_prefix g' = g_prefix g /\ g_suffix g' = g_suffix g /\ exists its more, g_items g' = its ++ more /\ more <> [] /\ Forall2 (fun a b => item_equal a b = true) its (g_items g).
Proof.
  intros L L' N Nq Q E. rewrite glob_path_eq in Q, E.
  assert (X : g_suffix g' = g_suffix g /\ exists p0, eqp p0 (plain (pitems g)) /\ plain (pitems g') = p0 ++ q).
  { assert (Np : pitems g <> []) by (unfold pitems; destruct (null (g_prefix g)), (g_items g); easy).
    destruct (null (g_suffix g)) eqn:S1, (null (g_suffix g')) eqn:S2; cbn [app] in *.
    - destruct (g_suffix g), (g_suffix g'); try discriminate. split; auto. exists p. auto.
    - exfalso. destruct (pitems g) as [|i its]; [easy|]. inversion Q as [|a b l l' [_ R] F]; subst. injection E as E _. subst a. discriminate.
    - exfalso. inversion Q as [|a b l l' [_ R] F]; subst. destruct (pitems g'); [discriminate|]. injection E as E _. subst a. discriminate.
    - inversion Q as [|a b l l' [R _] F]; subst. injection E as E E2. subst a. cbn in R. apply str_eqb_true in R. split; auto. exists l. auto. }
  destruct X as [Es (p0 & Q0 & E0)]. clear Q E p. apply plain_split in E0 as (x & y & E0 & -> & ->). apply forall2_plain in Q0.
  assert (Ny : y <> []) by (intros ->; now apply Nq). 
  unfold pitems in Q0, E0. destruct (null (g_prefix g)) eqn:P1, (null (g_prefix g')) eqn:P2; cbn [app] in *.
  - destruct (g_prefix g), (g_prefix g'); try discriminate. split; auto. split; auto. exists x, y. auto.
  - exfalso. inversion Q0 as [e1 e2|a b l l' R F]; subst; [now elim N|]. injection E0 as E0 _. subst a. apply equal_str in R. subst b. eapply L. eauto.
  - exfalso. inversion Q0 as [|a b l l' R F]; subst. apply equal_sym in R. apply equal_str in R. subst a. eapply L'. exact E0.
  - inversion Q0 as [|a b l l' R F]; subst. injection E0 as E0 E1. subst a. cbn in R. apply str_eqb_true in R. split; auto. split; auto. exists l, y. auto.
Qed.
Lemma path_extended g g' its more : g_prefix g' = g_prefix g -> g_suffix g' = g_suffix g -> g_items g' = its ++ more ->
  Forall2 (fun a b => item_equal a b = true) its (g_items g) -> exists p, glob_path g' = p ++ plain more /\ eqp p (glob_path g).
Proof.
  intros Ep Es Ei F. rewrite !glob_path_eq. unfold pitems. rewrite Ep, Es, Ei.
  exists ((if null (g_suffix g) then [] else [(IStr (g_suffix g), true)]) ++ plain ((if null (g_prefix g) then [] else [IStr (g_prefix g)]) ++ its)).
  split; [rewrite <- app_assoc, <- plain_app; now rewrite <- app_assoc|].
  apply Forall2_app; [apply eqp_refl|]. rewrite !plain_app. apply Forall2_app; [apply eqp_refl|]. now apply forall2_plain.
Qed.

Lemma okr_node u t : okr u t -> forall p n, p <> [] -> node_at t p n -> exists st, okt u st n.
Proof.
  assert (G : forall p st t n, okt u st t -> node_at t p n -> exists st, okt u st n).
  { induction p as [|[it r] p IH]; intros st t0 n O N; [cbn in N; subst; eauto|]. destruct N as (c & Ic & _ & _ & N). 
    inversion O as [st0 i0 st' r0 tm cs W S R C]; subst. cbn in Ic. exact (IH st' c n (C c Ic) N). }
  intros [_ R] p n Np N. destruct p as [|[it r] p]; [easy|]. destruct N as (c & Ic & _ & _ & N). destruct (R _ Ic) as [O _]. eapply G; eauto.
Qed.
Definition in_fragment (u : bool) (E : list entry) : Prop := forall e, In e E -> tok u (e_text e) /\ plain_singles (e_text e) /\ regular (e_text e).
Lemma reported_spec u E gt s q i : tree_inv E gt -> in_fragment u E ->
  (reported (gt_root gt) (symbols s) (q, i) <->
   exists e, In e E /\ e_node e = q /\ e_index e = i /\ ~ plain_text (e_text e) /\ ~ hidden E e /\ denotes (e_text e) (symbols s)).
Proof.
  intros (M & TP & TS & TC & AL & W & OK) F. specialize (OK u F).
  assert (D : forall e g w, In e E -> glob_parse (e_text e) = Ok g -> g_items g <> [] -> (pden (glob_path g) w <-> denotes (e_text e) w)).
  { intros e g w Ie Hp Ni. destruct (F e Ie) as (T & P & _). destruct (parse_facts u _ _ T P Hp) as (px & sx & mn & mx & rl & Eg & _ & Dn).
    rewrite pden_path, Dn. subst g. destruct (rev rl); [now elim Ni|]. reflexivity. }
  split.
  - intros (p & n & Np & N & Tm & Lo & Dp). destruct (TS p (q, i) Np) as (e & g & Ie & Hp & Ex & Q); [exists n; auto|]. injection Ex as -> ->.
    assert (Ni : g_items g <> []). { intro Z. rewrite (path_literal _ _ Hp Z) in Q. inversion Q; subst; now elim Np. }
    exists e. split; auto. split; auto. split; auto. split; [|split].
    + intros (g' & Hp' & Z). rewrite Hp in Hp'. injection Hp' as <-. auto.
    + intros (e' & g1 & g' & Ie' & Hp1 & Hp' & Epx & Esx & Op & its & more & Ei & Nm & Q2). rewrite Hp in Hp1. injection Hp1 as <-.
      apply (lossy_path g Ni) in Op. apply (eqp_lossy _ _ Q) in Op. specialize (Lo Op).
      assert (Ni' : g_items g' <> []) by (rewrite Ei; destruct its, more; easy).
      destruct (TC e' g' Ie' Hp' Ni') as (p' & Qp' & n' & Nn' & _).
      destruct (path_extended _ _ _ _ Epx Esx Ei Q2) as (p0 & Ep0 & Q0). rewrite Ep0 in Qp'. apply eqp_app_inv in Qp' as (p1 & p2 & -> & Qp1 & Qp2).
      apply node_at_app in Nn' as (m & Nm1 & Nm2).
      assert (n = m). { eapply node_unique; [exact W| |exact N|exact Nm1]. eapply eqp_trans; [exact Q|]. apply eqp_sym. eapply eqp_trans; eauto. }
      subst m. destruct p2 as [|[it r] p2]; [inversion Qp2; destruct more; easy|]. destruct Nm2 as (c & Ic & _). rewrite Lo in Ic. destruct Ic.
    + apply (D e g); auto. now apply (eqp_pden _ _ _ Q).
  - intros (e & Ie & <- & <- & NP & NH & Dn). destruct (TP e Ie) as (g & Hp & _).
    assert (Ni : g_items g <> []) by (intro Z; apply NP; exists g; auto).
    destruct (TC e g Ie Hp Ni) as (p & Q & n & N & Tm). 
    assert (Np : p <> []). { intros ->. inversion Q as [X|]. now apply (path_nil g Ni). }
    exists p, n. split; auto. split; auto. split; auto. split; [|apply (eqp_pden _ _ _ Q); now apply (D e g)].
    intro Lo. destruct (t_childs n) as [|c cs] eqn:Ec; auto. exfalso. apply NH.
    assert (Ic : In c (t_childs n)) by (rewrite Ec; now left).
    assert (It : exists it, t_item c = Some it). { destruct (okr_node u _ OK p n Np N) as (st & O). inversion O as [st0 i0 st' r0 tm cs0 W0 S R C]; subst. cbn in Ic.
      pose proof (C c Ic) as Oc. inversion Oc; subst. eexists; reflexivity. }
    destruct It as (it & It).
    assert (Nc : node_at (gt_root gt) (p ++ [(it, t_reverse c)]) c). { apply node_at_app. exists n. split; auto. cbn. exists c. auto. }
    destruct (AL (p ++ [(it, t_reverse c)]) c ltac:(now destruct p) Nc) as (q & x & m & Nq & Tx).
    destruct (TS ((p ++ [(it, t_reverse c)]) ++ q) x ltac:(now destruct p)) as (e' & g' & Ie' & Hp' & _ & Q').
    { exists m. split; auto. apply node_at_app. exists c. auto. }
    apply eqp_sym in Q'. rewrite <- app_assoc in Q'. apply eqp_app_inv in Q' as (p1 & p2 & Ep & Q1 & Q2).
    assert (N2 : p2 <> []) by (intros ->; inversion Q2).
    destruct (F e Ie) as (T & P & _). destruct (F e' Ie') as (T' & P' & _).
    destruct (path_extends g g' p1 p2) as (E1 & E2 & its & more & E3 & E4 & E5); auto; [exact (parse_nolit u _ g T P Hp)|exact (parse_nolit u _ g' T' P' Hp')|eapply eqp_trans; eauto|].
    exists e', g, g'. do 5 (split; auto). split; [|exists its, more; auto]. apply (lossy_path g Ni). now apply (eqp_lossy _ _ Q).
Qed.
