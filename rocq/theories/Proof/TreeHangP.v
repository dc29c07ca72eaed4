(** Matching in a tree with a glob that has text after a star inside a list never returns. *)
From Verif Require Import Model.Tree Spec.Symbols Spec.GlobSpec Spec.Safe Spec.RegistrySpec Spec.GlobTreeSpec Spec.EndSpec.
From Verif Require Import Proof.Utf8P Proof.SymbolsP Proof.ItemP Proof.GlobMatchP Proof.SortP Proof.ListP Proof.LangP Proof.DenotesP Proof.ParseP Proof.NextP Proof.SafeP Proof.PanicP Proof.RegistryP Proof.ItemEqP Proof.TotalP Proof.OrderP Proof.GGlobP Proof.TreeInsP Proof.GlobTreeP Proof.TreeMonoP Proof.TreeEndP Proof.TreeEnd2P Proof.MinP.
From Coq Require Import Lia ZifyBool ZifyN ZifyNat.

(** ** Never returning *)
Definition never (r : res out) : Prop := forall o, r <> Ok o.
Lemma never_seq_l a b : never a -> never (oseq a b).
Proof. intros H o E. unfold oseq in E. destruct a as [x|e| |]; try discriminate. now apply (H x). Qed.
Lemma never_seq_r a b : never b -> never (oseq a b).
Proof. intros H o E. unfold oseq in E. destruct a as [x|e| |]; try discriminate. cbn [bind] in E. destruct b as [y|e| |]; try discriminate. now apply (H y). Qed.
Lemma never_all {A} (g : A -> res out) l x : In x l -> never (g x) -> never (oall g l).
Proof. intros I H. induction l as [|y l IH]; [destruct I|]. destruct I as [->|I]; cbn [oall]; [now apply never_seq_l|now apply never_seq_r, IH]. Qed.

Lemma star_never rest t : rest <> [] -> forall f s, never (t_items f t s (IStar 0 :: rest)).
Proof.
  intros Nr. induction f as [|f IH]; intros s; [easy|]. destruct t as [it r tm cs]. cbn [t_items].
  assert (zlen s <? item_min (IStar 0) = false)%Z as -> by (cbn; unfold zlen; lia). cbn [item_match]. cbn [skip_runes].
  destruct rest as [|x rest]; [congruence|]. cbn [null]. apply never_seq_r. apply IH.
Qed.
(** ** A literal matches the text it was made from *)
Lemma zlen_app' (a b : str) : zlen (a ++ b) = (zlen a + zlen b)%Z.
Proof. unfold zlen. rewrite app_length. lia. Qed.
Lemma single_match u r : clean u -> u <> [] -> (zlen (u ++ r) <? item_min (single_item u))%Z = false /\ item_match (single_item u) (u ++ r) = (Some (length u), FindDone) /\ (item_min (single_item u) = zlen u).
Proof.
  intros (rs & F & ->) N. destruct rs as [|c rs]; [easy|]. inversion F as [|? ? [V NE] F2]; subst.
  change (encode_all (c :: rs)) with (encode_rune c ++ encode_all rs) in *. unfold single_item. rewrite decode_encode by auto.
  pose proof (encode_len_valid c V) as EL.
  destruct (Nat.eqb_spec (length (encode_rune c)) (length (encode_rune c ++ encode_all rs))) as [E|E].
  - rewrite app_length in E. assert (encode_all rs = []) as Er by (destruct (encode_all rs); auto; cbn in E; lia). rewrite Er, app_nil_r.
    destruct (N.leb_spec c 127) as [L|L].
    + rewrite encode_ascii by lia. cbn [app item_min item_match length]. rewrite Ascii.eqb_refl. unfold zlen. cbn [length]. repeat split; lia.
    + cbn [item_min item_match]. rewrite decode_encode by auto. destruct (N.eqb_spec c RuneError); [congruence|]. cbn [negb]. rewrite N.eqb_refl. unfold zlen. rewrite app_length. repeat split; lia.
  - cbn [item_min item_match]. rewrite !zlen_app'. repeat split; [unfold zlen; lia|]. 
    assert (has_prefix ((encode_rune c ++ encode_all rs) ++ r) (encode_rune c ++ encode_all rs) = true) as ->; [|reflexivity].
    apply has_prefix_iff. eauto.
Qed.
Definition lits (u : str) : list item := if null u then [] else [single_item u].
Lemma value_never u w r t f : clean u -> length w <= length r -> w <> [] -> never (t_items f t (u ++ r) (lits u ++ [IStar 0; IStr w])).
Proof.
  intros C L Nw. unfold lits. destruct (null u) eqn:Nu; [destruct u; [|discriminate]; apply star_never; discriminate|].
  assert (Ne : u <> []) by (intros ->; discriminate). destruct (single_match u r C Ne) as (M1 & M2 & _). destruct f as [|f]; [easy|]. destruct t as [it rv tm cs]. cbn [t_items app].
  rewrite M1, M2. apply star_never. discriminate.
Qed.

(** ** The items of the list *)
Lemma cut_metas (u a : str) c d p q : (forall x, In x u -> ~ In x metas) -> (forall x, In x a -> ~ In x metas) -> In c metas -> In d metas -> u ++ c :: p = a ++ d :: q -> u = a /\ c = d /\ p = q.
Proof.
  revert a. induction u as [|x u IH]; intros [|y a] Hu Ha Mc Md E; cbn in E; injection E as E1 E2; subst.
  - auto.
  - exfalso. apply (Ha y); [now left|exact Mc].
  - exfalso. apply (Hu d); [now left|exact Md].
  - destruct (IH a) as (-> & -> & ->); auto; intros z I; [apply Hu|apply Ha]; now right.
Qed.
Lemma meta_in c : "["%char = c \/ "{"%char = c \/ "*"%char = c \/ "?"%char = c -> In c metas.
Proof. cbn. intuition auto. Qed.
Lemma token_lit f u w oi a rest : u <> [] -> literal_text u -> token f (u ++ "*"%char :: w) oi a rest -> oi = Some (single_item u) /\ rest = "*"%char :: w.
Proof.
  intros Nu Hu T. destruct u as [|x u]; [congruence|]. assert (Hx : ~ In x metas) by (apply Hu; now left).
  remember ((x :: u) ++ "*"%char :: w) as s0 eqn:E. symmetry in E. destruct T as [body r o N H|body r o N H|n r N|r|b c r Na N Mc|b Na N].
  - exfalso. injection E as E _. apply Hx, meta_in. auto.
  - exfalso. injection E as E _. apply Hx, meta_in. auto.
  - exfalso. injection E as E _. apply Hx, meta_in. auto.
  - exfalso. injection E as E _. apply Hx, meta_in. auto.
  - symmetry in E. apply (cut_metas _ _ _ _ _ _ N Hu Mc) in E as (-> & -> & ->); [auto|cbn; tauto].
  - exfalso. apply (N "*"%char); [rewrite <- E; apply in_or_app; right; now left|cbn; tauto].
Qed.
Lemma token_star f w oi a rest : (forall p, w <> "*"%char :: p) -> token f ("*"%char :: w) oi a rest -> oi = Some (IStar 0) /\ rest = w.
Proof.
  intros Nw T. assert (M : In "*"%char metas) by (cbn; tauto). remember ("*"%char :: w) as s0 eqn:E. symmetry in E. destruct T as [body r o N H|body r o N H|n r N|r|b c r Na N Mc|b Na N]; try discriminate.
  - split; [reflexivity|]. cbn [repeat app] in E. injection E as E. destruct n as [|n]; [symmetry; exact E|]. cbn in E. exfalso. now apply (Nw (repeat "*"%char n ++ r)).
  - exfalso. destruct b as [|y b]; [congruence|]. injection E as <- _. apply (N "*"%char); [now left|exact M].
  - exfalso. rewrite <- E in N. apply (N "*"%char); [now left|exact M].
Qed.
Lemma token_end f w oi a rest : literal_text w -> token f w oi a rest -> oi = Some (IStr w) /\ rest = [].
Proof.
  intros Hw T. destruct T as [body r o N H|body r o N H|n r N|r|b c r Na N Mc|b Na N]; auto; exfalso.
  - apply (Hw "["%char); [now left|cbn; tauto].
  - apply (Hw "{"%char); [now left|cbn; tauto].
  - apply (Hw "*"%char); [now left|cbn; tauto].
  - apply (Hw "?"%char); [now left|cbn; tauto].
  - apply (Hw c); [apply in_or_app; right; now left|exact Mc].
Qed.
Lemma single_literal u : literal_item (single_item u).
Proof. pose proof (single_kind u) as H. destruct (single_item u); try easy. Qed.
Lemma star_chain f0 u w it : literal_text u -> literal_text w -> w <> [] -> group_val (next_item f0) (u ++ "*"%char :: w) = Ok it -> val_items it = lits u ++ [IStar 0; IStr w].
Proof.
  intros Hu Hw Nw. assert (Ns : forall p, w <> "*"%char :: p) by (intros p ->; apply (Hw "*"%char); [now left|cbn; tauto]).
  assert (St : forall fuel rl mn mx rl' mn' mx', group_chain fuel (next_item f0) ("*"%char :: w) (rl, mn, mx) = Ok (rl', mn', mx') -> Forall (fun i => literal_item i) rl -> rl' = IStr w :: IStar 0 :: rl).
  { intros fuel rl mn mx rl' mn' mx' H Fl. destruct fuel as [|f]; [discriminate|]. cbn [group_chain] in H. destruct (next_item f0 ("*"%char :: w)) as [[oi rest]|e| |] eqn:E; try discriminate.
    destruct f0 as [|f1]; [discriminate|]. apply next_token in E as (a & T). apply token_star in T as [-> ->]; auto. 
    destruct w as [|c w]; [congruence|]. destruct f as [|f]; [discriminate|]. cbn [group_chain] in H. destruct (next_item (S f1) (c :: w)) as [[oi rest]|e| |] eqn:E; try discriminate.
    apply next_token in E as (b & T). apply token_end in T as [-> ->]; auto. destruct f; cbn [group_chain] in H; apply ok_inj in H; unfold chain_append in H;
    (assert (A1 : append_item_rev rl (IStar 0) = IStar 0 :: rl) by (destruct Fl as [|i rl Hi _]; [reflexivity|destruct i; easy])); rewrite A1 in H; cbn [append_item_rev merge_last] in H; congruence. }
  intro H. unfold group_val in H. destruct (group_chain (length (u ++ "*"%char :: w)) (next_item f0) (u ++ "*"%char :: w) ([], 0%Z, 0%Z)) as [[[rl mn] mx]|e| |] eqn:E; try discriminate. cbn [bind] in H.
  assert (R : rl = IStr w :: IStar 0 :: rev (lits u)).
  { unfold lits. destruct u as [|x u]; [apply St in E; auto|]. cbn [null]. cbn [app length group_chain] in E. destruct (next_item f0 (x :: u ++ "*"%char :: w)) as [[oi rest]|e| |] eqn:En; try discriminate.
    destruct f0 as [|f1]; [discriminate|]. apply next_token in En as (a & T). change (x :: u ++ "*"%char :: w) with ((x :: u) ++ "*"%char :: w) in T. apply token_lit in T as [-> ->]; auto; [|discriminate].
    apply St in E; [exact E|]. cbn. constructor; [apply single_literal|constructor]. }
  subst rl. apply ok_inj in H. subst it. cbn [val_items rev]. rewrite rev_involutive, <- app_assoc. reflexivity.
Qed.
Lemma group_has f0 : forall vals l v, group_vals (next_item f0) vals = Ok (inr l) -> In v vals -> has_wildcard v = true -> v <> B "?" -> exists it, In it l /\ group_val (next_item f0) v = Ok it.
Proof.
  induction vals as [|x vals IH]; intros l v H I W Q; [destruct I|]. cbn [group_vals] in H. destruct (has_wildcard x) eqn:Wx.
  - destruct (str_eqb_spec x (B "*")) as [->|Ns]; [discriminate|].
    destruct (if str_eqb x (B "?") then Ok (IAny 1) else group_val (next_item f0) x) as [it|e| |] eqn:E; try discriminate. cbn [bind] in H.
    destruct (group_vals (next_item f0) vals) as [[r0|r0]|e| |] eqn:E2; try discriminate. cbn [bind] in H. injection H as <-. destruct I as [->|I].
    + exists it. split; [now left|]. destruct (str_eqb_spec v (B "?")); [congruence|exact E].
    + destruct (IH r0 v eq_refl I W Q) as (i & J & K). exists i. split; [now right|exact K].
  - destruct (group_vals (next_item f0) vals) as [[r0|r0]|e| |] eqn:E2; try discriminate. cbn [bind] in H. injection H as <-. destruct I as [->|I]; [congruence|].
    destruct (IH r0 v eq_refl I W Q) as (i & J & K). exists i. split; [now right|exact K].
Qed.
Lemma list_scan_star : forall vals mn mx st fi v, In v vals -> has_wildcard v = true -> snd (list_scan vals mn mx st fi) = true.
Proof.
  induction vals as [|x vals IH]; intros mn mx st fi v I W; [destruct I|]. cbn [list_scan]. destruct x as [|c x].
  - destruct I as [<-|I]; [discriminate|]. now apply (IH _ _ _ _ v).
  - destruct (as_add fi c) as [fi' ok]. destruct (has_wildcard (c :: x)) eqn:Wx; [reflexivity|]. destruct I as [<-|I]; [congruence|]. now apply (IH _ _ _ _ v).
Qed.
Lemma star_list f body u w it : literal_text u -> literal_text w -> w <> [] -> alternative body (u ++ "*"%char :: w) -> ~ alternative body (B "*") -> (exists v, alternative body v /\ v <> u ++ "*"%char :: w) ->
  new_item_list (next_item f) (norm (split_on "," body)) = Ok it -> exists vals mn mx v, it = Some (IGroup vals mn mx) /\ In v vals /\ val_items v = lits u ++ [IStar 0; IStr w].
Proof.
  intros Hu Hw Nw A NA (v2 & A2 & D) H. apply alternative_split, norm_in in A. apply alternative_split, norm_in in A2.
  assert (NS : ~ In (B "*") (norm (split_on "," body))) by (intro I; apply NA, alternative_split, norm_in, I).
  assert (W : has_wildcard (u ++ "*"%char :: w) = true) by (apply existsb_exists; exists "*"%char; split; [apply in_or_app; right; now left|reflexivity]).
  remember (norm (split_on "," body)) as vals eqn:Ev. clear Ev. destruct vals as [|a [|b vals]]; [destruct A| |].
  - destruct A as [A|[]], A2 as [A2|[]]. congruence.
  - remember (a :: b :: vals) as vs eqn:Evs. unfold new_item_list in H. rewrite Evs in H. rewrite <- Evs in H. pose proof (list_scan_star vs max_int 0 true as_empty _ A W) as Sc.
    destruct (list_scan vs max_int 0 true as_empty) as [[[[mn mx] st] fi] hs]. cbn [snd] in Sc. subst hs. unfold new_group in H.
    destruct (group_vals (next_item f) vs) as [[x|l]|e| |] eqn:Eg; try discriminate; cbn [bind] in H; [exfalso; apply NS; eapply group_vals_star; eauto|].
    destruct (group_has f vs l _ Eg A W) as (v & I & V); [intro E; destruct u as [|? [|? ?]]; try discriminate; injection E; discriminate|].
    destruct l as [|x l]; [destruct I|]. destruct (group_bounds l (item_min x) (item_max x)) as [m1 m2]. apply ok_inj in H. exists (x :: l), m1, m2, v. split; [congruence|]. split; [exact I|]. eapply star_chain; eauto.
Qed.
Lemma star_parse g p u w q gl : star_inside g p u w q -> glob_parse g = Ok gl ->
  g_prefix gl = p /\ g_suffix gl = q /\ exists vals mn mx v, g_items gl = [IGroup vals mn mx] /\ In v vals /\ val_items v = lits u ++ [IStar 0; IStr w].
Proof.
  intros (body & -> & NB & Hp & Hu & Hw & Hq & Nw & A & NA & O) P. unfold braced in P. change (("{"%char :: body ++ ["}"%char])) with ("{"%char :: body ++ ["}"%char]) in P.
  rewrite (parse_cut p q "{" "}" body Hp Hq) in P; [|cbn; tauto|cbn; tauto]. change ("{"%char :: body ++ ["}"%char]) with (braced body) in P.
  assert (X : next_wildcard_item (braced body) = bind (list_item body) (fun it => Ok (it, []))) by (rewrite <- (app_nil_r (braced body)) at 1; now apply next_list).
  destruct (length (braced body)) as [|n] eqn:L; [discriminate|]. rewrite loop_unfold in P. change (match braced body with [] => _ | _ :: _ => ?y end) with y in P. rewrite X in P. unfold list_item in P.
  destruct (new_item_list (next_item (S (length body))) (norm (split_on "," body))) as [oi|e| |] eqn:En; try discriminate. cbn [bind] in P.
  apply (star_list _ _ u w) in En as (vals & mn & mx & v & -> & I & V); auto.
  assert (Lo : forall st, parse_loop n [] st = Ok st) by (now destruct n). rewrite Lo in P. cbn in P. apply ok_inj in P. subst gl. cbn. repeat split. exists vals, mn, mx, v. auto.
Qed.

(** ** The tree *)
Lemma basic_equal a b : match b with IStr _ | IByte _ | IRune _ | IStar _ | IAny _ => True | _ => False end -> item_equal a b = true -> a = b.
Proof. intros K E. apply equal_erase in E. destruct b; try easy; destruct a; try discriminate; exact E. Qed.
Lemma eqi_basic l' l : Forall (fun b => match b with IStr _ | IByte _ | IRune _ | IStar _ | IAny _ => True | _ => False end) l -> eqi l' l -> l' = l.
Proof. intros F H. induction H as [|a b l' l E H IH]; [reflexivity|]. inversion F; subst. f_equal; [now apply basic_equal|now apply IH]. Qed.
Lemma lits_basic u w : Forall (fun b => match b with IStr _ | IByte _ | IRune _ | IStar _ | IAny _ => True | _ => False end) (lits u ++ [IStar 0; IStr w]).
Proof.
  apply Forall_app. split; [|repeat constructor]. unfold lits. destruct (null u); constructor; [|constructor]. unfold single_item. destruct (decode_rune u) as [c n]. destruct (Nat.eqb n (length u)); [destruct (c <=? 127)%N|]; exact I.
Qed.
Lemma lits_sum u w : clean u -> zsum item_min (lits u ++ [IStar 0; IStr w]) = (zlen u + zlen w)%Z.
Proof.
  intro C. unfold lits. destruct u as [|c u]; [cbn; lia|]. cbn [null]. destruct (single_match (c :: u) [] C) as (_ & _ & M); [discriminate|]. cbn [app zsum fold_right]. rewrite M. cbn [item_min]. lia.
Qed.
Lemma group_never vals mn mx v u w r f rv tm cs : made (IGroup vals mn mx) -> In v vals -> val_items v = lits u ++ [IStar 0; IStr w] -> clean u -> length w <= length r -> w <> [] ->
  never (t_match f (TNode (Some (IGroup vals mn mx)) rv tm cs) (u ++ r)).
Proof.
  intros (_ & _ & M) I V C L Nw. destruct f as [|f]; [easy|]. cbn [t_match item_min item_match].
  specialize (M v I). rewrite V, lits_sum in M by auto.
  assert (zlen (u ++ r) <? mn = false)%Z as -> by (rewrite zlen_app'; unfold zlen in *; lia). apply never_seq_r. apply (never_all _ _ v I). rewrite V. cbn [skipn]. now apply value_never.
Qed.
Definition hangs (c : tree) (s : str) : Prop := forall f, never (t_match f c s).
Lemma path_hangs p u w r vals mn mx v : In v vals -> val_items v = lits u ++ [IStar 0; IStr w] -> clean u -> length w <= length r -> w <> [] ->
  forall path, eqp path ((if null p then [] else [(IStr p, false)]) ++ [(IGroup vals mn mx, false)]) ->
  forall cs n, (forall c, In c cs -> every made c) -> node_at (TNode None false None cs) path n -> exists c, In c cs /\ t_reverse c = false /\ hangs c (p ++ u ++ r).
Proof.
  intros I V C L Nw path Eq cs n M H.
  assert (G : forall c vals' mn' mx', every made c -> t_item c = Some (IGroup vals' mn' mx') -> item_equal (IGroup vals' mn' mx') (IGroup vals mn mx) = true -> hangs c (u ++ r)).
  { intros c vals' mn' mx' Mc Ic E f. destruct c as [it rv tm cs']. cbn in Ic. subst it. assert (Mg : made (IGroup vals' mn' mx')) by (inversion Mc; auto).
    apply equal_erase in E. cbn [erase] in E. injection E as E. destruct (vals_eqi _ _ E v I) as (v' & I' & K). rewrite V in K. apply eqi_basic in K; [|apply lits_basic].
    eapply group_never; eauto. }
  assert (Gk : forall a, item_equal a (IGroup vals mn mx) = true -> exists vals' mn' mx', a = IGroup vals' mn' mx') by (intros a E; destruct a; try discriminate; eauto).
  destruct (null p) eqn:Np; cbn [app] in Eq.
  - destruct p; [|discriminate]. inversion Eq as [|e1 e2 l1 l2 [E1 E2] Et]; subst. inversion Et; subst. destruct e1 as [it rv]. cbn in E1, E2. subst rv. destruct H as (c & Ic & Ei & Er & _).
    destruct (Gk _ E1) as (vals' & mn' & mx' & ->). exists c. split; [exact Ic|]. split; [exact Er|]. cbn [app]. eapply G; eauto.
  - inversion Eq as [|e1 e2 l1 l2 [E1 E2] Et]; subst. inversion Et as [|e3 e4 l3 l4 [E3 E4] Et2]; subst. inversion Et2; subst. destruct e1 as [it1 rv1], e3 as [it2 rv2]. cbn in E1, E2, E3, E4. subst rv1 rv2.
    destruct H as (c & Ic & Ei & Er & d & Id & Di & Dr & _). destruct (Gk _ E3) as (vals' & mn' & mx' & ->). apply basic_equal in E1; [|exact Logic.I]. subst it1.
    exists c. split; [exact Ic|]. split; [exact Er|]. intro f. destruct c as [it rv tm cs']. cbn in Ei, Er, Id. subst it rv. destruct f as [|f]; [easy|]. cbn [t_match item_match].
    assert (zlen (p ++ u ++ r) <? item_min (IStr p) = false)%Z as -> by (cbn; rewrite zlen_app'; unfold zlen; lia).
    assert (has_prefix (p ++ u ++ r) p = true) as -> by (apply has_prefix_iff; eauto). rewrite skipn_app, skipn_all, Nat.sub_diag. cbn [skipn app].
    apply never_seq_r. apply (never_all _ _ d Id). eapply G; eauto. specialize (M _ Ic). inversion M; subst; auto.
Qed.
Lemma eqp_cons a b p q : eqp (a :: p) (b :: q) -> eqe a b /\ eqp p q.
Proof. intro H. inversion H; auto. Qed.
Lemma tree_hangs calls gt rs E e p u w q r : run_adds gt_add gt_new calls = Ok (gt, rs) -> history gl_canon calls rs E -> In e E ->
  star_inside (e_text e) p u w q -> clean u -> length w <= length r -> forall f o, gt_match f gt (p ++ u ++ r ++ q) <> Ok o.
Proof.
  intros R H I S C L f. destruct (history_every _ _ _ _ R H) as [T Vy].
  assert (M : rooted made (gt_root gt)). { apply Vy; [intro x; exact Logic.I|]. intros e0 g _ P. eapply parse_made; eauto. }
  destruct T as (_ & T1 & _ & T2 & _). destruct (T1 e I) as (g & P & _). assert (Nw : w <> []) by (destruct S as (body & S); tauto).
  destruct (star_parse _ _ _ _ _ _ S P) as (Ep & Eq & vals & mn & mx & v & Ei & Iv & V).
  destruct (T2 e g I P) as (path & Pe & n & Nd & _); [rewrite Ei; discriminate|]. unfold glob_path in Pe. rewrite Ep, Eq, Ei in Pe. cbn [map] in Pe.
  change (never (gt_match f gt (p ++ u ++ r ++ q))). unfold gt_match, tree_match. destruct (gt_root gt) as [it0 rv0 tm0 cs]. cbn [t_childs] in *.
  destruct (null q) eqn:Nq; cbn [app] in Pe.
  - destruct q; [|discriminate]. rewrite app_nil_r. destruct (path_hangs p u w r vals mn mx v Iv V C L Nw path Pe cs n M) as (c & Ic & Er & K).
    { destruct path; [inversion Pe; destruct (null p); discriminate|exact Nd]. }
    apply (never_all _ _ c Ic). rewrite Er. apply K.
  - destruct path as [|[it rv] path]; [inversion Pe|]. apply eqp_cons in Pe as ([E1 E2] & Et). cbn in E1, E2. subst rv. apply basic_equal in E1; [|exact Logic.I]. subst it.
    destruct Nd as (c & Ic & Ci & Cr & Nd). apply (never_all _ _ c Ic). rewrite Cr, Ci. cbn [item_min item_match_last].
    set (s := p ++ u ++ r ++ q). assert (Es : s = (p ++ u ++ r) ++ q) by (unfold s; now rewrite <- !app_assoc).
    assert (zlen s <? zlen q = false)%Z as -> by (rewrite Es, zlen_app'; unfold zlen; lia).
    assert (has_suffix s q = true) as -> by (apply has_suffix_iff; eauto). cbn [bind].
    replace (length s - length q) with (length (p ++ u ++ r)) by (rewrite Es, !app_length; lia). rewrite Es, firstn_app, firstn_all, Nat.sub_diag. cbn [firstn]. rewrite app_nil_r.
    clear Ep Eq. apply never_seq_r. destruct c as [it1 rv1 tm1 cs1]. cbn [t_childs t_item t_reverse] in *. specialize (M _ Ic). inversion M; subst.
    destruct (path_hangs p u w r vals mn mx v Iv V C L Nw path Et cs1 n) as (d & Id & _ & K); auto.
    { destruct path as [|[it2 rv2] path]; [inversion Et; destruct (null p); discriminate|exact Nd]. }
    apply (never_all _ _ d Id). apply K.
Qed.
