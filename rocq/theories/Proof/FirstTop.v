(** What a tree of dotted globs reports, for all globs. *)
From Verif Require Import Model.GGlob Spec.PathSpec Spec.RegistrySpec Spec.GGlobSpec Spec.FirstSpec.
From Verif Require Import Proof.SortP Proof.ListP Proof.PathP Proof.GGlobP Proof.RegistryP Proof.GTreeP Proof.GGlobTop Proof.FirstP.
From Coq Require Import Lia ZifyBool ZifyN ZifyNat.

Lemma items_empty_any G ps : forall t l n, ps <> [] -> dotless ps -> In [] ps -> wft G (length ps) t ->
  (forall ks, length ks < length ps -> holds ks t = None) -> gt_match_items t (dotted ps) = Ok (l, n) -> l = [].
Proof.
  induction ps as [|p ps IH]; intros t l n N D E W Hn; [easy|].
  assert (Dp : ~ In dot p) by (apply D; now left). assert (Dr : dotless ps) by (intros x J; apply D; now right).
  rewrite gt_items_eq, cut_dotted by auto. destruct p as [|c0 p0]; [intro H; injection H; auto|]. cbn [null]. remember (c0 :: p0) as p. assert (Np : p <> []) by (subst; discriminate). clear Heqp c0 p0.
  destruct E as [E|E]; [easy|]. destruct ps as [|q ps]; [easy|]. destruct W as (W1 & W2 & W3).
  assert (V : forall k c l n, child k t = Some c -> wft G (length (q :: ps)) c -> (if null (dotted (q :: ps)) then Ok (emit (gt_term c)) else gt_match_items c (dotted (q :: ps))) = Ok (l, n) -> l = []).
  { intros k c l0 n0 C Wc. destruct (null (dotted (q :: ps))) eqn:Nl.
    - assert (H := Hn [k]). cbn [holds] in H. rewrite C in H. rewrite H; [|cbn; lia]. intro X. injection X. auto.
    - apply IH; auto; [discriminate|]. intros ks L. specialize (Hn (k :: ks)). cbn [holds] in Hn. rewrite C in Hn. apply Hn. cbn in *. lia. }
  intro Mt. apply oseq_inv in Mt as (l1 & n1 & l2 & n2 & E1 & E2 & ->).
  assert (A : l1 = []).
  { assert (X : in_map (fun c => gt_match_items c (dotted (q :: ps))) (null (dotted (q :: ps))) p (gt_cmap t) = match lookup str_eqb p (gt_cmap t) with Some c => if null (dotted (q :: ps)) then Ok (emit (gt_term c)) else gt_match_items c (dotted (q :: ps)) | None => Ok out_none end).
    { clear. induction (gt_cmap t) as [|[k c] l IHl]; cbn; auto; destruct (str_eqb p k); auto. }
    rewrite X in E1. destruct (lookup str_eqb p (gt_cmap t)) as [c|] eqn:L; [|injection E1; auto]. apply (V (true, p) c _ _ L) in E1; auto. now apply (W1 p). }
  assert (Hg : forall c, In c (gt_childs t) -> exists g, gt_item c = Some g) by (intros c Ic; destruct (W3 c Ic) as (g & E' & _); eauto).
  assert (C : forall cs l2 n2, (forall c, In c cs -> In c (gt_childs t)) -> in_list (fun c => gt_match_items c (dotted (q :: ps))) (null (dotted (q :: ps))) p cs = Ok (l2, n2) -> l2 = []).
  { clear l2 n2 E2. induction cs as [|c cs IHc]; intros l2 n2 S E2; [injection E2; auto|]. assert (Ic : In c (gt_childs t)) by (apply S; now left). destruct (W3 c Ic) as (g & Eg & Gg & Wc).
    cbn [in_list] in E2. rewrite Eg in E2. destruct (glob_match g p) as [b|e| |]; try discriminate. cbn [bind] in E2. apply oseq_inv in E2 as (la & na & lb & nb & Ea & Eb & ->).
    apply IHc in Eb; [|intros; apply S; now right]. subst lb. destruct b; [|injection Ea as <- <-; reflexivity]. apply (V (false, child_name c) c) in Ea; auto; [now subst|]. apply find_child_in; auto. }
  apply C in E2; auto. now subst.
Qed.
Lemma first_tree calls gt rs E : run_adds ggt_add ggt_new calls = Ok (gt, rs) -> history gg_canon calls rs E -> tree_ok E gt /\ items_ok E gt.
Proof.
  intros R H. destruct (first_history calls) as (gt0 & rs0 & E0 & R0 & H0 & T). rewrite R in R0. injection R0 as <- <-. destruct (history_fun _ _ _ _ H _ _ H0) as [_ ->]. exact T.
Qed.
Lemma okpath_reached E gt g ps : items_ok E gt -> length (gg_parts g) = length ps ->
  (okpath (tree_at (length ps) (ggt_root gt)) (map gkey (gg_parts g)) ps <-> reached E g ps).
Proof.
  intros I L. rewrite okpath_nth, map_length. unfold reached.
  assert (S1 : forall j s, nth_error ps j = Some s -> j < length (gg_parts g)) by (intros j s Hs; rewrite L; apply nth_error_Some; congruence).
  assert (K : forall j s, nth_error ps j = Some s -> forall k, nth_error (map gkey (gg_parts g)) j = Some k ->
    ((exists c, node_at (firstn (S j) (map gkey (gg_parts g))) (tree_at (length ps) (ggt_root gt)) = Some c /\ fits k c s) <->
     (exists p, stands_for E g j p /\ (g_items p = [] /\ g_node p = s \/ g_items p <> [] /\ glob_match p s = Ok true)))).
  { intros j s Hs k Hk. assert (Lj := S1 j s Hs). specialize (I (length ps) (firstn (S j) (map gkey (gg_parts g)))).
    assert (N : firstn (S j) (map gkey (gg_parts g)) <> []) by (destruct (map gkey (gg_parts g)); [destruct j; discriminate|discriminate]). specialize (I N).
    assert (Kp : forall p, stands_for E g j p -> gkey p = k).
    { intros p (E1 & e & E2 & g' & _ & _ & [_ Bl] & Hp & _). rewrite nth_error_map in Hk. destruct (nth_error (gg_parts g) j) as [pg|] eqn:Hg; [|discriminate]. injection Hk as <-.
      symmetry. apply same_key. clear - Bl Hp Hg. revert Bl Hp Hg. generalize (gg_parts g), (gg_parts g'). induction j as [|j IH]; intros [|a l] [|a' l'] Bl Hp Hg; try discriminate.
      - cbn in *. inversion Bl; subst. congruence.
      - change (firstn (S (S j)) (a :: l)) with (a :: firstn (S j) l) in Bl. change (firstn (S (S j)) (a' :: l')) with (a' :: firstn (S j) l') in Bl. inversion Bl; subst. eapply IH; eauto. }
    rewrite <- L in I at 2. split.
    - intros (c & Hn & Hf). rewrite Hn in I. destruct (rep E _ _) as [p|] eqn:Rp; [|discriminate]. cbn in I. injection I as I. apply (stands_rep E g j p Lj) in Rp. exists p. split; [exact Rp|].
      apply Kp in Rp. subst k. unfold fits, gkey in Hf. cbn [fst snd] in Hf. destruct (g_items p) as [|it its] eqn:Ei; cbn [null] in Hf; [left; auto|]. right. split; [discriminate|]. destruct Hf as (g0 & E0 & Hm). congruence.
    - intros (p & St & Hp). assert (Rp := proj1 (stands_rep E g j p Lj) St). rewrite Rp in I. destruct (node_at _ _) as [c|]; [|discriminate]. cbn in I. injection I as I. exists c. split; [reflexivity|].
      apply Kp in St. subst k. unfold fits, gkey. cbn [fst snd]. destruct Hp as [[Ei Hp]|[Ei Hp]]; [rewrite Ei; exact Hp|]. destruct (g_items p); [easy|]. cbn [null]. exists p. auto. }
  split; intros [L2 H]; (split; [exact L2|]).
  - intros j s Hs. assert (Lj := S1 j s Hs). destruct (nth_error (map gkey (gg_parts g)) j) as [k|] eqn:Hk; [|apply nth_error_None in Hk; rewrite map_length in Hk; lia]. apply (K j s Hs k Hk). eauto.
  - intros j s k Hs Hk. apply (K j s Hs k Hk). eauto.
Qed.

(** C42: for all globs, also for parts that are normalised alike and mean different things: whenever MatchByParts returns, it has stored
    exactly the accepted globs for which every part of the path is matched by the part that stands for theirs (the one that was accepted
    first in that place), each once. *)
Lemma c42_first_parts_l : forall (calls : list (str * Z)) (gt : gglob_tree) rs (E : list entry) (ps : list str) (l : list term) (n : nat),
  run_adds ggt_add ggt_new calls = Ok (gt, rs) -> history gg_canon calls rs E -> ps <> [] -> ggt_match_by_parts gt ps = Ok (l, n) ->
  n = length l /\ NoDup l /\
  forall q i, In (q, i) l <-> exists e g, In e E /\ e_node e = q /\ e_index e = i /\ gg_parse (e_text e) = Ok g /\ reached E g ps.
Proof.
  intros calls gt rs E ps l n R H N Mt. destruct (first_tree _ _ _ _ R H) as [(MO & PE & TR) I]. rewrite by_parts_at in Mt by auto.
  split; [apply counted_parts in Mt; exact Mt|]. destruct (TR (length ps)) as [W Hh]. destruct (match_any _ _ _ _ _ N (W _) Mt) as [F U]. split.
  { apply U. intros ks ks' x Hx Hx'. apply Hh in Hx, Hx'. destruct MO as [D _]. eapply held_uniq; eauto. }
  intros q i. rewrite F. split.
  - intros (ks & Hk & O). apply Hh in Hk as (e & g & Ie & P & _ & Kk & Lg & X). injection X as -> ->. exists e, g. repeat (split; [now auto|]). subst ks. apply (okpath_reached E gt g ps I Lg). exact O.
  - intros (e & g & Ie & <- & <- & P & Rc). exists (map gkey (gg_parts g)). assert (Lg : length (gg_parts g) = length ps) by apply Rc. split.
    + apply Hh. exists e, g. destruct (PE e Ie) as (g' & P' & Ng). assert (g' = g) by congruence. subst g'. auto 8.
    + apply (okpath_reached E gt g ps I Lg). exact Rc.
Qed.
(** C42: the same of Match, for any path; a path with an empty part finds nothing. *)
Lemma c42_first_l : forall (calls : list (str * Z)) (gt : gglob_tree) rs (E : list entry) (path : str) (ps : list str) (l : list term) (n : nat),
  run_adds ggt_add ggt_new calls = Ok (gt, rs) -> history gg_canon calls rs E -> parts_of path ps -> ggt_match gt path = Ok (l, n) ->
  n = length l /\ NoDup l /\
  forall q i, In (q, i) l <-> ~ In [] ps /\ exists e g, In e E /\ e_node e = q /\ e_index e = i /\ gg_parse (e_text e) = Ok g /\ reached E g ps.
Proof.
  intros calls gt rs E path ps l n R H PO Mt. assert (N : ps <> []) by apply PO. destruct (in_dec (list_eq_dec Ascii.ascii_dec) [] ps) as [Em|Ne].
  - assert (El : l = []).
    { destruct (first_tree _ _ _ _ R H) as [(MO & PE & TR) I]. assert (D : dotless ps) by apply PO. apply parts_of_iff in PO as [Np Ep]. assert (Et : trim path = dotted ps) by (rewrite Ep; now rewrite dotted_split).
      rewrite match_at in Mt by auto. rewrite <- Ep, Et in Mt. destruct (TR (length ps)) as [W Hh]. refine (items_empty_any _ ps _ _ _ N D Em (W _) _ Mt).
      intros ks L. destruct (holds ks (tree_at (length ps) (ggt_root gt))) eqn:Eh; auto. apply Hh in Eh as (e & g & _ & _ & _ & K & Lg & _). rewrite <- K, map_length in L. lia. }
    subst l. split; [|split; [constructor|intros q i; split; [easy|tauto]]].
    destruct path as [|c p]; [now injection Mt as <-|]. rewrite match_at in Mt by discriminate. apply (counted_items _ _ _ (le_n _)) in Mt. exact Mt.
  - rewrite <- (c43_same_l gt path ps PO Ne) in Mt. destruct (c42_first_parts_l _ _ _ _ _ _ _ R H N Mt) as (C & D & X). split; [exact C|]. split; [exact D|]. intros q i. rewrite X. tauto.
Qed.
(*EX
(** The first glob's part, a star and a class of the one symbol '?', stands for the second glob's '*?'. *)
Example c42_first_example : let E := [mkEntry (B "*[?].x") (B "*?.x") 1%Z; mkEntry (B "*?.y") (B "*?.y") 2%Z] in exists gt rs g1 g2 p,
  run_adds ggt_add ggt_new [(B "*[?].x", 1%Z); (B "*?.y", 2%Z)] = Ok (gt, rs) /\ history gg_canon [(B "*[?].x", 1%Z); (B "*?.y", 2%Z)] rs E /\
  ggt_match gt (B "a?.y") = Ok ([(B "*?.y", 2%Z)], 1) /\ ggt_match gt (B "ab.y") = Ok ([], 0) /\
  gg_parse (B "*[?].x") = Ok g1 /\ gg_parse (B "*?.y") = Ok g2 /\ nth_error (gg_parts g1) 0 = Some p /\ nth_error (gg_parts g2) 0 <> Some p /\
  stands_for E g2 0 p /\ glob_match p (B "a?") = Ok true /\ glob_match p (B "ab") = Ok false.
Proof.
  cbv zeta. destruct (ggt_history [(B "*[?].x", 1%Z); (B "*?.y", 2%Z)]) as (gt & rs & E & R & H & _). exists gt, rs. do 3 eexists. split; [exact R|].
  destruct (history_entries _ _ _ _ H) as [EE _]. vm_compute in R. injection R as <- <-. vm_compute in EE. split; [rewrite EE in H; exact H|].
  do 5 (split; [vm_compute; reflexivity|]). split; [vm_compute; discriminate|]. split; [|split; vm_compute; reflexivity].
  exists [], (mkEntry (B "*[?].x") (B "*?.x") 1%Z), [mkEntry (B "*?.y") (B "*?.y") 2%Z]. eexists. split; [reflexivity|]. split; [vm_compute; reflexivity|].
  split; [|split; [vm_compute; reflexivity|intros ? ? []]]. split; [reflexivity|]. cbn. repeat constructor; cbn; intro X; discriminate.
Qed.
XE*)
