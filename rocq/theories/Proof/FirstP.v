(** Trees of dotted globs: what is reported, without conditions on the globs. *)
From Coq Require Import Lia ZifyBool ZifyN ZifyNat List.
From Verif Require Import Model.GGlob Spec.PathSpec Spec.RegistrySpec Spec.GGlobSpec Spec.FirstSpec.
From Verif Require Import Proof.SortP Proof.ListP Proof.PathP Proof.GGlobP Proof.RegistryP Proof.SafeP Proof.TotalP Proof.GTreeP.
Import ListNotations.

(** ** The node at a list of keys *)
Fixpoint node_at (ks : list key) (t : gtree) : option gtree :=
  match ks with
  | [] => Some t
  | k :: ks' => match child k t with Some c => node_at ks' c | None => None end
  end.
Fixpoint pre (ks : list key) (parts : list glob) : bool :=
  match ks, parts with
  | [], _ => true
  | k :: ks', g :: parts' => keqb k (gkey g) && pre ks' parts'
  | _, [] => false
  end.
Definition last_part (ks : list key) (parts : list glob) : option glob := match ks with [] => None | _ :: r => nth_error parts (length r) end.
Lemma node_new ks g : node_at ks (new_node g) = match ks with [] => Some (new_node g) | _ => None end.
Proof. destruct ks as [|[[] n] ks]; reflexivity. Qed.
Lemma node_insert parts : forall x t ks, option_map gt_item (node_at ks (gt_insert parts x t)) =
  match node_at ks t with Some c => Some (gt_item c) | None => if pre ks parts then Some (last_part ks parts) else None end.
Proof.
  induction parts as [|g parts IH]; intros x t ks.
  - rewrite insert_nil. destruct ks as [|[[] n] ks]; cbn [node_at option_map child fst snd gt_cmap gt_childs gt_item pre].
    + reflexivity.
    + destruct (lookup str_eqb n (gt_cmap t)) as [c|]; [|reflexivity]. now destruct (node_at ks c).
    + destruct (find_child n (gt_childs t)) as [c|]; [|reflexivity]. now destruct (node_at ks c).
  - destruct ks as [|k ks]; [cbn [node_at option_map]; now rewrite insert_item|].
    cbn [node_at pre]. rewrite child_insert. destruct (keqb_spec k (gkey g)) as [->|N]; cbn [andb].
    + rewrite IH. destruct (child (gkey g) t) as [c|].
      * destruct ks as [|k2 ks]; [reflexivity|]. destruct (node_at (k2 :: ks) c); [reflexivity|]. destruct (pre (k2 :: ks) parts); reflexivity.
      * rewrite node_new. destruct ks as [|k2 ks]; [reflexivity|]. destruct (pre (k2 :: ks) parts); reflexivity.
    + destruct (child k t) as [c|]; [|reflexivity]. now destruct (node_at ks c).
Qed.

(** ** The first accepted part at a list of keys *)
Fixpoint rep (E : list entry) (n : nat) (ks : list key) : option glob :=
  match E with
  | [] => None
  | e :: E' => match gg_parse (e_text e) with
               | Ok g => if Nat.eqb (length (gg_parts g)) n && pre ks (gg_parts g) then last_part ks (gg_parts g) else rep E' n ks
               | _ => rep E' n ks
               end
  end.
Lemma pre_length ks : forall parts, pre ks parts = true -> length ks <= length parts.
Proof. induction ks as [|k ks IH]; intros [|g parts] H; cbn in *; try lia; try discriminate. apply andb_true_iff in H as [_ H]. apply IH in H. lia. Qed.
Lemma last_some ks parts : ks <> [] -> pre ks parts = true -> exists p, last_part ks parts = Some p.
Proof.
  intros N H. apply pre_length in H. destruct ks as [|k ks]; [easy|]. cbn in *. destruct (nth_error parts (length ks)) eqn:E; [eauto|]. apply nth_error_None in E. lia.
Qed.
Lemma rep_app E e n ks : ks <> [] -> rep (E ++ [e]) n ks = match rep E n ks with Some p => Some p | None => rep [e] n ks end.
Proof.
  intro N. induction E as [|a E IH]; cbn [app]; [reflexivity|]. cbn [rep]. destruct (gg_parse (e_text a)) as [g| | |]; try exact IH.
  destruct (Nat.eqb (length (gg_parts g)) n && pre ks (gg_parts g)) eqn:C; [|exact IH]. apply andb_true_iff in C as [_ C]. destruct (last_some _ _ N C) as (p & ->). reflexivity.
Qed.
Definition items_ok (E : list entry) (gt : gglob_tree) : Prop :=
  forall n ks, ks <> [] -> option_map gt_item (node_at ks (tree_at n (ggt_root gt))) = option_map Some (rep E n ks).
Lemma items_step E gt e g root : items_ok E gt -> gg_parse (e_text e) = Ok g -> ggt_root gt = root ->
  forall gt', ggt_root gt' = add_gglob root g (e_index e) -> items_ok (E ++ [e]) gt'.
Proof.
  intros I P <- gt' R n ks N. rewrite R, (rep_app _ _ _ _ N). cbn [rep]. rewrite P. unfold add_gglob.
  assert (TA : tree_at n (assign Nat.eqb (length (gg_parts g)) (gt_insert (gg_parts g) (gg_node g, e_index e) (match lookup Nat.eqb (length (gg_parts g)) (ggt_root gt) with Some t => t | None => gt_empty end)) (ggt_root gt)) =
    if Nat.eqb n (length (gg_parts g)) then gt_insert (gg_parts g) (gg_node g, e_index e) (tree_at n (ggt_root gt)) else tree_at n (ggt_root gt)).
  { unfold tree_at at 1. rewrite lookup_assign by apply neqb_spec. destruct (Nat.eqb_spec n (length (gg_parts g))) as [->|]; reflexivity. }
  cbv zeta. rewrite TA, (Nat.eqb_sym (length (gg_parts g)) n). specialize (I n ks N). destruct (Nat.eqb n (length (gg_parts g))); cbn [andb].
  - rewrite node_insert. destruct (node_at ks (tree_at n (ggt_root gt))) as [c|], (rep E n ks) as [p|]; cbn [option_map] in *; try discriminate; [exact I|].
    destruct (pre ks (gg_parts g)) eqn:Pr; [|reflexivity]. destruct (last_some _ _ N Pr) as (p & ->). reflexivity.
  - rewrite I. now destruct (rep E n ks).
Qed.
Lemma accepted_root gt text i gt' q : text <> [] -> ggt_add gt text i = Ok (gt', (q, i, None)) -> exists g, gg_parse text = Ok g /\ ggt_root gt' = add_gglob (ggt_root gt) g i.
Proof.
  intros Nt. unfold ggt_add. replace (null text) with false by now destruct text. destruct (i <? 0)%Z; [discriminate|]. destruct (lookup str_eqb text _); [discriminate|]. destruct (lookup Z.eqb i _); [discriminate|].
  destruct (gg_parse text) as [g|e| |]; try discriminate. destruct (lookup str_eqb _ _); [discriminate|]. intro H. injection H as <- _. exists g. auto.
Qed.
Lemma first_history calls : exists gt rs E, run_adds ggt_add ggt_new calls = Ok (gt, rs) /\ history gg_canon calls rs E /\ tree_ok E gt /\ items_ok E gt.
Proof.
  apply (run_history ggt_add gg_canon (fun E gt => tree_ok E gt /\ items_ok E gt)).
  - intros E gt text i [T I]. destruct (ggt_step E gt text i T) as (gt' & r & new & A & Rg & T' & K). exists gt', r, new. split; [exact A|]. split; [exact Rg|]. split; [|exact K]. split; [exact T'|].
    destruct new as [e|]; [|rewrite K; auto]. inversion Rg; subst. destruct (accepted_root _ _ _ _ _ ltac:(eassumption) A) as (g & P & R). eapply items_step; eauto.
  - split; [apply tree_new_ok|]. intros n ks N. cbn [rep option_map]. unfold tree_at. cbn. destruct ks as [|[[] k] ks]; [easy|reflexivity|reflexivity].
Qed.

(** ** Matching *)
Definition fits (k : key) (c : gtree) (p : str) : Prop := if fst k then snd k = p else exists g, gt_item c = Some g /\ glob_match g p = Ok true.
Fixpoint okpath (t : gtree) (ks : list key) (ps : list str) : Prop :=
  match ks, ps with
  | [], [] => True
  | k :: ks', p :: ps' => exists c, child k t = Some c /\ fits k c p /\ okpath c ks' ps'
  | _, _ => False
  end.
Definition found_at (t : gtree) (ps : list str) (l : list term) : Prop :=
  (forall x, In x l <-> exists ks, holds ks t = Some x /\ okpath t ks ps) /\ (uniq t -> NoDup l).
Lemma oseq_inv a b l n : oseq a b = Ok (l, n) -> exists l1 n1 l2 n2, a = Ok (l1, n1) /\ b = Ok (l2, n2) /\ l = l1 ++ l2.
Proof. unfold oseq. destruct a as [[l1 n1]| | |]; try discriminate. destruct b as [[l2 n2]| | |]; try discriminate. intro H. injection H as <- <-. do 4 eexists. auto. Qed.
Lemma disj_nodup (l l2 : list term) : NoDup l -> NoDup l2 -> (forall x, In x l -> ~ In x l2) -> NoDup (l ++ l2).
Proof.
  intros A C Dj. induction l as [|x l IH]; cbn; auto. inversion A as [|? ? H1 H2]; subst. constructor; [|apply IH; auto; intros; apply Dj; now right].
  intro I. apply in_app_or in I as [I|I]; [auto|]. apply (Dj x); [now left|auto].
Qed.
Lemma match_any G ps : forall t l n, ps <> [] -> wft G (length ps) t -> gt_match_parts t ps = Ok (l, n) -> found_at t ps l.
Proof.
  induction ps as [|p ps IH]; intros t l n N W Mt; [easy|].
  assert (V : forall c l n, wft G (length ps) c -> visit ps c = Ok (l, n) -> found_at c ps l).
  { intros c l0 n0 Wc. unfold visit. destruct ps as [|q ps]; [|apply IH; auto; discriminate].
    cbn [null]. destruct (gt_term c) as [x|] eqn:E; cbn; intro H; injection H as <- <-; split; try (intros; repeat constructor; easy).
    - intro y. split.
      + intros [<-|[]]. exists []. now split.
      + intros ([|k ks] & H & F); [|easy]. cbn in H. left. congruence.
    - intro y. split; [easy|]. intros ([|k ks] & H & F); [|easy]. cbn in H. congruence. }
  destruct W as (W1 & W2 & W3). rewrite gt_parts_eq in Mt. apply oseq_inv in Mt as (l1 & n1 & l2 & n2 & E1 & E2 & ->).
  assert (A : (forall x, In x l1 <-> exists ks, holds ((true, p) :: ks) t = Some x /\ okpath t ((true, p) :: ks) (p :: ps)) /\ (uniq t -> NoDup l1)).
  { assert (E : in_map (fun c => gt_match_parts c ps) (null ps) p (gt_cmap t) = match lookup str_eqb p (gt_cmap t) with Some c => visit ps c | None => Ok out_none end).
    { clear. induction (gt_cmap t) as [|[k c] l IHl]; cbn; auto; destruct (str_eqb p k); auto. }
    rewrite E in E1. cbn [holds okpath child fst snd]. destruct (lookup str_eqb p (gt_cmap t)) as [c|] eqn:L.
    - destruct (V c l1 n1 (W1 _ _ L) E1) as (F1 & F2). split.
      + intro x. rewrite F1. split; intros (ks & H & O); exists ks; (split; [exact H|]); [exists c; repeat split; auto|]. destruct O as (c' & Z & _ & O). injection Z as <-. exact O.
      + intro U. apply F2. apply (uniq_child t (true, p)); auto.
    - injection E1 as <- <-. split; [|constructor]. intro x. split; [easy|]. intros (ks & H & _). discriminate. }
  assert (Hg : forall c, In c (gt_childs t) -> exists g, gt_item c = Some g) by (intros c Ic; destruct (W3 c Ic) as (g & E & _); eauto).
  assert (C : forall cs l2 n2, (forall c, In c cs -> In c (gt_childs t)) -> NoDup (map child_name cs) -> in_list (fun c => gt_match_parts c ps) (null ps) p cs = Ok (l2, n2) ->
    (forall x, In x l2 <-> exists c g ks, In c cs /\ gt_item c = Some g /\ glob_match g p = Ok true /\ holds ks c = Some x /\ okpath c ks ps) /\ (uniq t -> NoDup l2)).
  { clear l2 n2 E2. induction cs as [|c cs IHc]; intros l2 n2 S Nd E2.
    - injection E2 as <- <-. split; [|constructor]. intro x. split; [easy|]. intros (c & g & ks & [] & _).
    - inversion Nd as [|? ? N1 N2]; subst. assert (Ic : In c (gt_childs t)) by (apply S; now left). destruct (W3 c Ic) as (g & Eg & Gg & Wc). cbn [in_list] in E2. rewrite Eg in E2.
      destruct (glob_match g p) as [b|e| |] eqn:Em; try discriminate. cbn [bind] in E2. apply oseq_inv in E2 as (la & na & lb & nb & Ea & Eb & ->).
      destruct (IHc lb nb) as (F2 & U2); auto; [intros; apply S; now right|]. destruct b.
      + destruct (V c la na Wc Ea) as (F1 & U1). split.
        * intro x. rewrite in_app_iff, F1, F2. split.
          -- intros [(ks & H & O)|(c' & g' & ks & I & H)]; [exists c, g, ks; split; [now left|auto]|exists c', g', ks; split; [now right|auto]].
          -- intros (c' & g' & ks & [<-|I] & Hi & Hm & H & O); [left; eauto|right; eauto 8].
        * intro U. apply disj_nodup; auto.
          -- apply U1. apply (uniq_child t (false, child_name c)); auto. apply find_child_in; auto.
          -- intros x I1 I2. apply F1 in I1 as (ks & H1 & _). apply F2 in I2 as (c' & g' & ks' & I & _ & _ & H2 & _).
             assert (X : (false, child_name c) :: ks = (false, child_name c') :: ks').
             { apply (U _ _ x); cbn [holds child fst snd]; rewrite find_child_in; auto. apply S. now right. }
             apply N1. apply in_map_iff. exists c'. split; [congruence|auto].
      + injection Ea as <- <-. cbn [app]. split; auto. intro x. rewrite F2. split.
        * intros (c' & g' & ks & I & H). exists c', g', ks. split; [now right|auto].
        * intros (c' & g' & ks & [<-|I] & Hi & Hm & H); [congruence|eauto 8]. }
  destruct A as (F1 & U1). destruct (C (gt_childs t) l2 n2) as (F2 & U2); auto. split.
  - intro x. rewrite in_app_iff, F1, F2. split.
    + intros [(ks & H & O)|(c & g & ks & I & Hi & Hm & H & O)]; [eauto|].
      assert (Fc : find_child (child_name c) (gt_childs t) = Some c) by (apply find_child_in; auto).
      exists ((false, child_name c) :: ks). cbn [holds okpath child fst snd]. rewrite Fc. split; [exact H|]. exists c. split; [reflexivity|]. split; [exists g; auto|auto].
    + intros (ks & H & O). destruct ks as [|[b k] ks]; [easy|]. pose proof O as O'. cbn [okpath] in O'. destruct O' as (c & Hc & Hf & Oc). destruct b; unfold fits in Hf; cbn [fst snd] in Hf.
      * left. subst k. eauto.
      * right. destruct Hf as (g & Hi & Hm). cbn [holds] in H. rewrite Hc in H. cbn [child fst snd] in Hc. unfold find_child in Hc. apply find_some in Hc as [Ic _]. exists c, g, ks. auto 8.
  - intro U. apply disj_nodup; auto. intros x I1 I2. apply F1 in I1 as (ks & H1 & _). apply F2 in I2 as (c' & g' & ks' & I & _ & _ & H2 & _).
    assert (X : (true, p) :: ks = (false, child_name c') :: ks'); [|congruence].
    apply (U _ _ x); auto. cbn [holds child fst snd]. rewrite find_child_in; auto.
Qed.
Lemma okpath_nth : forall ps t ks, okpath t ks ps <-> length ks = length ps /\ forall j s k, nth_error ps j = Some s -> nth_error ks j = Some k -> exists c, node_at (firstn (S j) ks) t = Some c /\ fits k c s.
Proof.
  induction ps as [|p ps IH]; intros t [|k ks]; cbn [okpath].
  - split; [|easy]. intros _. split; [reflexivity|]. intros [|j]; discriminate.
  - split; [easy|]. intros [H _]. discriminate.
  - split; [easy|]. intros [H _]. discriminate.
  - split.
    + intros (c & Hc & Hf & O). apply IH in O as [L O]. split; [cbn; congruence|]. intros [|j] s k' Hs Hk; cbn in Hs, Hk.
      * injection Hs as <-. injection Hk as <-. exists c. cbn [firstn node_at]. now rewrite Hc.
      * destruct (O j s k' Hs Hk) as (c' & Hn & Hf'). exists c'. split; [|exact Hf']. change (firstn (S (S j)) (k :: ks)) with (k :: firstn (S j) ks). cbn [node_at]. now rewrite Hc.
    + intros [L O]. destruct (O 0 p k eq_refl eq_refl) as (c & Hn & Hf). cbn [firstn node_at] in Hn. destruct (child k t) as [c'|] eqn:Hc; [|discriminate]. injection Hn as ->.
      exists c. split; [reflexivity|]. split; [exact Hf|]. apply IH. split; [cbn in L; congruence|]. intros j s k' Hs Hk. destruct (O (S j) s k' Hs Hk) as (c' & Hn & Hf'). exists c'. split; [|exact Hf'].
      change (firstn (S (S j)) (k :: ks)) with (k :: firstn (S j) ks) in Hn. cbn [node_at] in Hn. now rewrite Hc in Hn.
Qed.

(** ** The part that stands for another *)
Lemma same_key p p' : same_part p p' <-> gkey p = gkey p'.
Proof.
  unfold same_part, gkey. split.
  - intros [-> H]. f_equal. destruct (g_items p), (g_items p'); cbn; auto; exfalso; [assert (X : i :: l = []) by now apply H|assert (X : i :: l = []) by now apply H]; discriminate.
  - intro H. injection H as H1 H2. split; [exact H2|]. destruct (g_items p), (g_items p'); try discriminate; easy.
Qed.
Lemma pre_firstn j : forall parts parts', j < length parts -> (pre (firstn (S j) (map gkey parts)) parts' = true <-> Forall2 same_part (firstn (S j) parts) (firstn (S j) parts')).
Proof.
  induction j as [|j IH]; intros [|g parts] [|g' parts'] L; try (cbn in L; lia).
  - cbn. split; [discriminate|]. intro H. inversion H.
  - cbn [firstn map pre]. rewrite andb_true_r. split.
    + intro H. destruct (keqb_spec (gkey g) (gkey g')); [|discriminate]. constructor; [now apply same_key|constructor].
    + intro H. inversion H as [|? ? ? ? S _]; subst. apply same_key in S. rewrite S. destruct (keqb_spec (gkey g') (gkey g')); [reflexivity|congruence].
  - cbn. split; [discriminate|]. intro H. inversion H.
  - change (firstn (S (S j)) (map gkey (g :: parts))) with (gkey g :: firstn (S j) (map gkey parts)). change (firstn (S (S j)) (g :: parts)) with (g :: firstn (S j) parts). change (firstn (S (S j)) (g' :: parts')) with (g' :: firstn (S j) parts').
    cbn [pre]. cbn in L. specialize (IH parts parts' ltac:(lia)). rewrite andb_true_iff, IH. split.
    + intros [H F]. destruct (keqb_spec (gkey g) (gkey g')); [|discriminate]. constructor; [now apply same_key|exact F].
    + intro H. inversion H as [|? ? ? ? S F]; subst. apply same_key in S. rewrite S. destruct (keqb_spec (gkey g') (gkey g')); [auto|congruence].
Qed.
Lemma stands_rep E g j p : j < length (gg_parts g) -> (stands_for E g j p <-> rep E (length (gg_parts g)) (firstn (S j) (map gkey (gg_parts g))) = Some p).
Proof.
  intro L. set (ks := firstn (S j) (map gkey (gg_parts g))).
  assert (Lk : length ks = S j) by (unfold ks; rewrite firstn_length, map_length; lia).
  assert (Tst : forall g', Nat.eqb (length (gg_parts g')) (length (gg_parts g)) && pre ks (gg_parts g') = true <-> begins_like j g g').
  { intro g'. rewrite andb_true_iff, Nat.eqb_eq. unfold begins_like, ks. rewrite (pre_firstn j _ _ L). intuition congruence. }
  assert (Lst : forall g', last_part ks (gg_parts g') = nth_error (gg_parts g') j).
  { intro g'. unfold last_part. destruct ks as [|k r]; [discriminate|]. cbn in Lk. now injection Lk as ->. }
  split.
  - intros (E1 & e & E2 & g' & -> & P & Bl & Hp & No). induction E1 as [|a E1 IH]; cbn [app rep].
    + rewrite P, (proj2 (Tst g') Bl), Lst. exact Hp.
    + assert (IH' : rep (E1 ++ e :: E2) (length (gg_parts g)) ks = Some p) by (apply IH; intros; eapply No; eauto; now right).
      destruct (gg_parse (e_text a)) as [ga| | |] eqn:Pa; auto. destruct (_ && _) eqn:T; [|exact IH']. apply Tst in T. exfalso. exact (No a ga (or_introl eq_refl) Pa T).
  - induction E as [|a E IH]; cbn [rep]; [discriminate|]. destruct (gg_parse (e_text a)) as [ga| | |] eqn:Pa.
    + destruct (_ && _) eqn:T.
      * rewrite Lst. intro Hp. apply Tst in T. exists [], a, E, ga. repeat split; auto; easy || apply T.
      * intro H. destruct (IH H) as (E1 & e & E2 & g' & -> & P & Bl & Hp & No). exists (a :: E1), e, E2, g'. repeat split; auto; try apply Bl. intros e' g'' [<-|I] P'; [|eauto].
        assert (g'' = ga) by congruence. subst. intro X. apply Tst in X. congruence.
    + intro H. destruct (IH H) as (E1 & e' & E2 & g' & -> & P & Bl & Hp & No). exists (a :: E1), e', E2, g'. repeat split; auto; try apply Bl. intros e2 g'' [<-|I] P'; [congruence|eauto].
    + intro H. destruct (IH H) as (E1 & e' & E2 & g' & -> & P & Bl & Hp & No). exists (a :: E1), e', E2, g'. repeat split; auto; try apply Bl. intros e2 g'' [<-|I] P'; [congruence|eauto].
    + intro H. destruct (IH H) as (E1 & e' & E2 & g' & -> & P & Bl & Hp & No). exists (a :: E1), e', E2, g'. repeat split; auto; try apply Bl. intros e2 g'' [<-|I] P'; [congruence|eauto].
Qed.
