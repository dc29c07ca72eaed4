(** A tree of dotted globs before and after further ones are added. *)
From Coq Require Import Lia ZifyBool ZifyN ZifyNat.
From Verif Require Import Model.GGlob Spec.PathSpec Spec.RegistrySpec Spec.GGlobSpec Spec.LaterSpec.
From Verif Require Import Proof.SortP Proof.PathP Proof.GGlobP Proof.RegistryP Proof.SafeP Proof.TotalP Proof.GTreeP Proof.MixP.
From Verif Require Proof.NextP Proof.LaterP.

Section Less.
Variable P : term -> bool.
Notation kept := (LaterP.kept_term P).
Notation less := (LaterP.less P).
Inductive mwider (R : gtree -> gtree -> Prop) : list (str * gtree) -> list (str * gtree) -> Prop :=
| mw_nil : mwider R [] []
| mw_cons k c c' m m' : R c c' -> mwider R m m' -> mwider R ((k, c) :: m) ((k, c') :: m')
| mw_new k g c' m' : R (new_node g) c' -> mwider R [] m' -> mwider R [] ((k, c') :: m').
Inductive lwider (R : gtree -> gtree -> Prop) : list gtree -> list gtree -> Prop :=
| lw_nil : lwider R [] []
| lw_cons c c' m m' : R c c' -> lwider R m m' -> lwider R (c :: m) (c' :: m')
| lw_new g c' m' : R (new_node g) c' -> lwider R [] m' -> lwider R [] (c' :: m').
Inductive grown : gtree -> gtree -> Prop :=
| gr_node it tm m m' cs cs' : mwider grown m m' -> lwider grown cs cs' -> grown (GNode it (kept tm) m cs) (GNode it tm m' cs').
Lemma grown_item t t' : grown t t' -> gt_item t' = gt_item t.
Proof. now intros []. Qed.
Lemma grown_term t t' : grown t t' -> gt_term t = kept (gt_term t').
Proof. now intros []. Qed.

(** ** Matching *)
Lemma none_less r' l : LaterP.less P r' (Ok out_none) -> l = Ok out_none -> less r' l.
Proof. now intros H ->. Qed.
Lemma less_map (f : gtree -> res out) last part m m' : (last = false -> forall c c', grown c c' -> less (f c') (f c)) -> (forall g, f (new_node g) = Ok out_none) ->
  mwider grown m m' -> less (in_map f last part m') (in_map f last part m).
Proof.
  intros H N. induction 1 as [|k c c' m m' R W IH|k g c' m' R W IH]; cbn [in_map]; [apply LaterP.less_none| |].
  - destruct (str_eqb part k); [|exact IH]. destruct last; [rewrite (grown_term _ _ R); apply LaterP.less_emit|now apply H].
  - destruct (str_eqb part k); [|exact IH]. destruct last; [|rewrite <- (N g); now apply H].
    pose proof (LaterP.less_emit P (gt_term c')) as L. rewrite <- (grown_term _ _ R) in L. exact L.
Qed.
Lemma less_list (f : gtree -> res out) last part m m' : (last = false -> forall c c', grown c c' -> less (f c') (f c)) -> (forall g, f (new_node g) = Ok out_none) ->
  lwider grown m m' -> less (in_list f last part m') (in_list f last part m).
Proof.
  intros H N. induction 1 as [|c c' m m' R W IH|g c' m' R W IH]; cbn [in_list]; [apply LaterP.less_none| |].
  - rewrite (grown_item _ _ R). destruct (gt_item c) as [g|]; [|exact I]. destruct (glob_match g part) as [b| | |]; try exact I. cbn [bind]. apply LaterP.less_seq; [|exact IH].
    destruct b; [|apply LaterP.less_none]. destruct last; [rewrite (grown_term _ _ R); apply LaterP.less_emit|now apply H].
  - rewrite (grown_item _ _ R). cbn [gt_item new_node]. destruct (glob_match g part) as [b| | |]; try exact I. cbn [bind in_list] in *.
    apply (LaterP.less_seq P _ (Ok out_none) _ (Ok out_none)); [|exact IH].
    destruct b; [|apply LaterP.less_none]. destruct last; [|rewrite <- (N g); now apply H].
    pose proof (LaterP.less_emit P (gt_term c')) as L. rewrite <- (grown_term _ _ R) in L. exact L.
Qed.
Lemma new_items g p : gt_match_items (new_node g) p = Ok out_none.
Proof. cbn. destruct (cut dot p) as [[part rest] fd]. destruct (null part); reflexivity. Qed.
Lemma new_parts g ps : gt_match_parts (new_node g) ps = Ok out_none.
Proof. destruct ps; reflexivity. Qed.
Lemma grown_lists t t' : grown t t' -> mwider grown (gt_cmap t) (gt_cmap t') /\ lwider grown (gt_childs t) (gt_childs t').
Proof. now intros []. Qed.
Lemma less_items : forall n p t t', length p <= n -> grown t t' -> less (gt_match_items t' p) (gt_match_items t p).
Proof.
  induction n as [|n IH]; intros p t t' L G; rewrite !gt_items_eq; destruct (cut dot p) as [[part rest] fd] eqn:C.
  - destruct p; [|cbn in L; lia]. injection C as <- <- _. apply LaterP.less_none.
  - destruct part as [|c0 part]; [apply LaterP.less_none|]. cbn [null]. destruct (grown_lists _ _ G) as [W1 W2].
    assert (K : null rest = false -> forall c c', grown c c' -> less (gt_match_items c' rest) (gt_match_items c rest)).
    { intros _ c c' R. apply IH; auto. destruct (index_byte p dot) as [i|] eqn:E.
      - apply NextP.index_byte_cut in E as (a & b & Ep & <- & N). rewrite Ep, cut_some in C by auto. injection C as _ E2 _. subst rest. rewrite Ep, app_length in L. cbn [length] in L. lia.
      - apply NextP.index_byte_no in E. rewrite cut_none in C by auto. injection C as _ E2 _. subst rest. cbn. lia. }
    apply LaterP.less_seq; [apply less_map|apply less_list]; auto; intro; apply new_items.
Qed.
Lemma less_parts : forall ps t t', grown t t' -> less (gt_match_parts t' ps) (gt_match_parts t ps).
Proof.
  induction ps as [|p ps IH]; intros t t' G.
  - destruct G as [it tm m m' cs cs' W1 W2]. cbn [gt_match_parts]. destruct W1; destruct W2; cbn [null andb]; try exact I. exact (LaterP.less_none P).
  - rewrite !gt_parts_eq. destruct (grown_lists _ _ G) as [W1 W2]. apply LaterP.less_seq; [apply less_map|apply less_list]; auto; intro; apply new_parts.
Qed.

(** ** Insertion *)
Lemma new_grown g : grown (new_node g) (new_node g).
Proof. apply (gr_node (Some g) None); constructor. Qed.
Lemma map_insert g rest y m m' : (forall t t', grown t t' -> holds (map gkey rest) t' = None -> grown t (gt_insert rest y t')) ->
  (forall c, lookup str_eqb (g_node g) m' = Some c -> holds (map gkey rest) c = None) -> mwider grown m m' -> mwider grown m (upd_map (gt_insert rest y) (new_node g) (g_node g) m').
Proof.
  intros G U W. assert (L : grown (new_node g) (gt_insert rest y (new_node g))) by (apply G; [apply new_grown|apply holds_new]).
  induction W as [|k c c' m m' R W IH|k g0 c' m' R W IH]; cbn [upd_map].
  - apply (mw_new _ _ g); [exact L|constructor].
  - cbn [lookup] in U. destruct (str_eqb_spec k (g_node g)) as [->|D].
    + constructor; auto. apply G; auto. apply U. now rewrite str_eqb_refl.
    + constructor; auto. apply IH. intros d E. apply U. destruct (str_eqb_spec (g_node g) k); [congruence|exact E].
  - cbn [lookup] in U. destruct (str_eqb_spec k (g_node g)) as [->|D].
    + apply (mw_new _ _ g0); auto. apply G; auto. apply U. now rewrite str_eqb_refl.
    + apply (mw_new _ _ g0); auto. apply IH. intros d E. apply U. destruct (str_eqb_spec (g_node g) k); [congruence|exact E].
Qed.
Lemma list_insert g rest y m m' : (forall t t', grown t t' -> holds (map gkey rest) t' = None -> grown t (gt_insert rest y t')) ->
  (forall c, find_child (g_node g) m' = Some c -> holds (map gkey rest) c = None) -> lwider grown m m' -> lwider grown m (upd_list (gt_insert rest y) (new_node g) (g_node g) m').
Proof.
  intros G U W. assert (L : grown (new_node g) (gt_insert rest y (new_node g))) by (apply G; [apply new_grown|apply holds_new]).
  unfold find_child in U. induction W as [|c c' m m' R W IH|g0 c' m' R W IH]; cbn [upd_list].
  - apply (lw_new _ g); [exact L|constructor].
  - cbn [find] in U. destruct (gt_is_child (g_node g) c'); constructor; auto.
  - cbn [find] in U. destruct (gt_is_child (g_node g) c'); apply (lw_new _ g0); auto.
Qed.
Lemma grown_insert y : P y = false -> forall parts t t', grown t t' -> holds (map gkey parts) t' = None -> grown t (gt_insert parts y t').
Proof.
  intro Py. induction parts as [|g rest IH]; intros t t' G U.
  - rewrite insert_nil. cbn in U. destruct G as [it tm m m' cs cs' W1 W2]. cbn [gt_term gt_item gt_cmap gt_childs] in *. subst tm.
    replace (kept None) with (kept (Some y)) by (cbn; now rewrite Py). now constructor.
  - rewrite insert_eq. cbn [map holds] in U. unfold child, gkey in U. cbn [fst snd] in U. destruct G as [it tm m m' cs cs' W1 W2]. cbn [gt_term gt_item gt_cmap gt_childs] in *.
    destruct (null (g_items g)); constructor; auto; [apply map_insert|apply list_insert]; auto; intros c E; now rewrite E in U.
Qed.

(** ** A tree that stays as it is *)
Inductive inside : gtree -> Prop :=
| ins_node it tm m cs : (forall x, tm = Some x -> P x = true) -> (forall k c, In (k, c) m -> inside c) -> (forall c, In c cs -> inside c) -> inside (GNode it tm m cs).
Lemma inside_grown t : inside t -> grown t t.
Proof.
  induction 1 as [it tm m cs H1 _ H2 _ H3]. rewrite <- (LaterP.kept_all P tm H1) at 1. constructor.
  - clear -H2. induction m as [|[k c] m IH]; constructor; [apply (H2 k); now left|]. apply IH. intros k' d J. apply (H2 k'). now right.
  - clear -H3. induction cs as [|c cs IH]; constructor; [apply H3; now left|]. apply IH. intros d J. apply H3. now right.
Qed.
Lemma inside_insert y : P y = true -> forall parts t, inside t -> inside (gt_insert parts y t).
Proof.
  intro Py. induction parts as [|g rest IH]; intros t H; destruct H as [it tm m cs H1 H2 H3].
  - cbn. constructor; auto. intros x E. now injection E as <-.
  - assert (L : inside (gt_insert rest y (new_node g))) by (apply IH; constructor; easy).
    rewrite insert_eq. cbn [gt_item gt_term gt_cmap gt_childs]. destruct (null (g_items g)); constructor; auto.
    + clear -H2 L IH. induction m as [|[k c] m IHm]; cbn [upd_map]; intros k' d J; [destruct J as [J|[]]; now injection J as <- <-|].
      destruct (str_eqb k (g_node g)); destruct J as [J|J].
      * injection J as <- <-. apply IH, (H2 k). now left.
      * apply (H2 k'). now right.
      * injection J as <- <-. apply (H2 k). now left.
      * apply (IHm (fun k0 c0 I0 => H2 k0 c0 (or_intror I0)) k' d J).
    + clear -H3 L IH. induction cs as [|c m IHm]; cbn [upd_list]; intros d J; [destruct J as [J|[]]; now subst|].
      destruct (gt_is_child (g_node g) c); destruct J as [J|J].
      * subst. apply IH, H3. now left.
      * apply H3. now right.
      * subst. apply H3. now left.
      * apply (IHm (fun c0 I0 => H3 c0 (or_intror I0)) d J).
Qed.
End Less.
Lemma inside_mono (P Q : term -> bool) t : (forall x, P x = true -> Q x = true) -> inside P t -> inside Q t.
Proof. intros S H. induction H; constructor; auto. Qed.

(** ** Histories *)
Lemma match_at gt p : ggt_match gt p = if null p then Ok out_none else let '(q, n) := path_level p in gt_match_items (tree_at n (ggt_root gt)) q.
Proof.
  unfold ggt_match, tree_at. destruct (null p); [reflexivity|]. destruct (path_level p) as [q n]. destruct (lookup Nat.eqb n (ggt_root gt)); [reflexivity|].
  cbn. destruct (cut dot q) as [[part rest] fd]. destruct (null part); reflexivity.
Qed.
Lemma match_parts_at gt ps : ggt_match_by_parts gt ps = if null ps then Ok out_none else gt_match_parts (tree_at (length ps) (ggt_root gt)) ps.
Proof. unfold ggt_match_by_parts, tree_at. destruct ps as [|p ps]; [reflexivity|]. cbn [null]. destruct (lookup Nat.eqb (length (p :: ps)) (ggt_root gt)); reflexivity. Qed.
Lemma tree_at_add root g i n : tree_at n (add_gglob root g i) = if Nat.eqb n (length (gg_parts g)) then gt_insert (gg_parts g) (gg_node g, i) (tree_at n root) else tree_at n root.
Proof.
  unfold add_gglob. unfold tree_at at 1. rewrite lookup_assign by apply neqb_spec. destruct (Nat.eqb_spec n (length (gg_parts g))) as [->|]; reflexivity.
Qed.
Lemma accepted_step E gt text i gt' r e : tree_ok E gt -> ggt_add gt text i = Ok (gt', r) -> registers gg_canon E text i (Some e) r ->
  exists g, gg_parse text = Ok g /\ ggt_root gt' = add_gglob (ggt_root gt) g i /\ e = mkEntry text (gg_node g) i /\ holds (map gkey (gg_parts g)) (tree_at (length (gg_parts g)) (ggt_root gt)) = None /\ (forall q, ~ used E i q).
Proof.
  intros T A R. inversion R as [| | | | | |q N1 N2 N3 N4 N5 N6]; subst. unfold gg_canon in N5. unfold ggt_add in A.
  replace (null text) with false in A by now destruct text. destruct (Z.ltb_spec i 0); [lia|]. destruct (lookup str_eqb text (ggt_globs gt)); [congruence|]. destruct (lookup Z.eqb i (ggt_index gt)); [congruence|].
  destruct (gg_parse text) as [g|e| |] eqn:Pg; try congruence. destruct (lookup str_eqb (gg_node g) (ggt_globs gt)); [congruence|]. assert (q = gg_node g) as -> by congruence.
  exists g. split; [reflexivity|]. split; [cbv zeta in A; apply ok_inj in A; apply (f_equal fst) in A; cbn [fst] in A; now rewrite <- A|]. split; [reflexivity|]. split; [|exact N4].
  destruct (holds _ _) as [x|] eqn:Hx; [exfalso|reflexivity]. destruct T as (MO & PE & TR). apply (proj2 (TR _)) in Hx as (e & g' & Ie & Pe & Ne & Ke & _ & _).
  apply (N6 (e_index e)). exists e. split; auto. split; auto. right. rewrite <- Ne. eapply keys_node; eauto.
Qed.
Definition indexed (E : list entry) (x : term) : bool := existsb (fun e => (e_index e =? snd x)%Z) E.
Definition filled (E : list entry) (gt : gglob_tree) : Prop := tree_ok E gt /\ forall n, inside (indexed E) (tree_at n (ggt_root gt)).
Lemma filled_step E gt text i : filled E gt -> exists gt' r new, ggt_add gt text i = Ok (gt', r) /\ registers gg_canon E text i new r /\
  filled (match new with Some e => E ++ [e] | None => E end) gt' /\ (new = None -> gt' = gt).
Proof.
  intros (T & V). destruct (ggt_step E gt text i T) as (gt' & r & new & A & R & T' & N). exists gt', r, new. split; [exact A|]. split; [exact R|]. split; [|exact N].
  split; [exact T'|]. destruct new as [e|]; [|rewrite N by reflexivity; auto].
  destruct (accepted_step _ _ _ _ _ _ _ T A R) as (g & Pg & Er & -> & _ & _). intro n. rewrite Er, tree_at_add.
  assert (K : inside (indexed (E ++ [mkEntry text (gg_node g) i])) (tree_at n (ggt_root gt))) by (apply (inside_mono (indexed E)); auto; intros x X; unfold indexed in *; rewrite existsb_app, X; reflexivity).
  destruct (Nat.eqb n (length (gg_parts g))); [|exact K]. apply inside_insert; [|exact K]. unfold indexed. rewrite existsb_app. cbn. rewrite Z.eqb_refl. now rewrite orb_true_r.
Qed.
Lemma history_filled calls gt rs E : run_adds ggt_add ggt_new calls = Ok (gt, rs) -> history gg_canon calls rs E -> filled E gt.
Proof.
  intros R H. assert (I0 : filled [] ggt_new) by (split; [apply tree_new_ok|intro n; constructor; easy]).
  destruct (run_history ggt_add gg_canon filled filled_step ggt_new I0 calls) as (gt0 & rs0 & E0 & R0 & H0 & V0).
  rewrite R in R0. injection R0 as <- <-. destruct (history_fun _ _ _ _ H _ _ H0) as [_ ->]. exact V0.
Qed.
Lemma later_steps calls gt rs E : run_adds ggt_add ggt_new calls = Ok (gt, rs) -> history gg_canon calls rs E -> filled E gt ->
  forall more, exists gt' rs' F, run_adds ggt_add ggt_new (calls ++ more) = Ok (gt', rs') /\ history gg_canon (calls ++ more) rs' (E ++ F) /\ tree_ok (E ++ F) gt' /\
    forall n, grown (indexed E) (tree_at n (ggt_root gt)) (tree_at n (ggt_root gt')).
Proof.
  intros R H [T V]. induction more as [|[text i] more IH] using rev_ind.
  - exists gt, rs, []. rewrite !app_nil_r. split; [exact R|]. split; [exact H|]. split; [exact T|]. intro n. apply inside_grown, V.
  - destruct IH as (gt1 & rs1 & F & R1 & H1 & T1 & W1). destruct (ggt_step _ gt1 text i T1) as (gt' & r & new & A & Rg & T' & N).
    exists gt', (rs1 ++ [r]). rewrite app_assoc. destruct new as [e|].
    + exists (F ++ [e]). rewrite app_assoc. split; [eapply run_adds_snoc; eauto|]. split; [exact (h_snoc _ _ _ _ _ _ _ _ H1 Rg)|]. split; [exact T'|]. intro n.
      destruct (accepted_step _ _ _ _ _ _ _ T1 A Rg) as (g & Pg & Er & -> & K & U). rewrite Er, tree_at_add. destruct (Nat.eqb_spec n (length (gg_parts g))) as [->|]; [|apply W1].
      apply grown_insert; auto. unfold indexed. cbn [snd]. destruct (existsb (fun e => (e_index e =? i)%Z) E) eqn:X; auto. exfalso. apply existsb_exists in X as (d & I & Q). apply (U (e_node d)). exists d. split; [apply in_or_app; now left|]. split; [lia|reflexivity].
    + exists F. rewrite (N eq_refl) in *. split; [eapply run_adds_snoc; eauto|]. split; [exact (h_snoc _ _ _ _ _ _ _ _ H1 Rg)|]. split; [exact T'|]. exact W1.
Qed.
Lemma gtree_later calls more gt gt' rs rs' E E' : run_adds ggt_add ggt_new calls = Ok (gt, rs) -> history gg_canon calls rs E ->
  run_adds ggt_add ggt_new (calls ++ more) = Ok (gt', rs') -> history gg_canon (calls ++ more) rs' E' ->
  (forall path, LaterP.less (indexed E) (ggt_match gt' path) (ggt_match gt path)) /\ (forall ps, LaterP.less (indexed E) (ggt_match_by_parts gt' ps) (ggt_match_by_parts gt ps)).
Proof.
  intros R H R' H'. destruct (later_steps calls gt rs E R H (history_filled _ _ _ _ R H) more) as (gt1 & rs1 & F & R1 & _ & _ & W). rewrite R' in R1. injection R1 as <- <-. split.
  - intro path. rewrite !match_at. destruct (null path); [apply LaterP.less_none|]. destruct (path_level path) as [q n]. eapply less_items; eauto.
  - intro ps. rewrite !match_parts_at. destruct (null ps); [apply LaterP.less_none|]. apply less_parts, W.
Qed.
