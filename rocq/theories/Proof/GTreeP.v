(** Lemmas about trees of dotted globs (gglob/gtree.go). *)
From Verif Require Import Model.GGlob Spec.PathSpec Spec.RegistrySpec Spec.GGlobSpec.
From Verif Require Import Proof.SortP Proof.ListP Proof.PathP Proof.GGlobP Proof.RegistryP Proof.SafeP Proof.TotalP.
From Coq Require Import Lia ZifyBool ZifyN ZifyNat.

(** ** The two loops over children *)
Section Loops.
  Variables (f : gtree -> res out) (last : bool) (part : str).
  Fixpoint in_map (l : list (str * gtree)) : res out :=
    match l with
    | [] => Ok out_none
    | (k, c) :: l' => if str_eqb part k then if last then Ok (emit (gt_term c)) else f c else in_map l'
    end.
  Fixpoint in_list (l : list gtree) : res out :=
    match l with
    | [] => Ok out_none
    | c :: l' =>
        match gt_item c with
        | None => Panic
        | Some g => bind (glob_match g part) (fun b =>
                    oseq (if b then if last then Ok (emit (gt_term c)) else f c else Ok out_none) (in_list l'))
        end
    end.
End Loops.
Lemma gt_items_eq t p : gt_match_items t p =
  let '(part, rest, _) := cut dot p in
  if null part then Ok out_none
  else oseq (in_map (fun c => gt_match_items c rest) (null rest) part (gt_cmap t)) (in_list (fun c => gt_match_items c rest) (null rest) part (gt_childs t)).
Proof. destruct t. cbn [gt_match_items gt_cmap gt_childs]. destruct (cut dot p) as [[part rest] fd]. reflexivity. Qed.
Lemma gt_parts_eq t part rest : gt_match_parts t (part :: rest) =
  oseq (in_map (fun c => gt_match_parts c rest) (null rest) part (gt_cmap t)) (in_list (fun c => gt_match_parts c rest) (null rest) part (gt_childs t)).
Proof. destruct t. reflexivity. Qed.

(** ** C43 *)
Lemma in_map_ext f f' last part l : (forall c, f c = f' c) -> in_map f last part l = in_map f' last part l.
Proof. intro H. induction l as [|[k c] l IH]; cbn; auto. now rewrite H, IH. Qed.
Lemma in_list_ext f f' last part l : (forall c, f c = f' c) -> in_list f last part l = in_list f' last part l.
Proof. intro H. induction l as [|c l IH]; cbn; auto. now rewrite H, IH. Qed.
Lemma in_map_last f f' part l : in_map f true part l = in_map f' true part l.
Proof. induction l as [|[k c] l IH]; cbn; auto; now destruct (str_eqb part k). Qed.
Lemma in_list_last f f' part l : in_list f true part l = in_list f' true part l.
Proof. induction l as [|c l IH]; cbn [in_list]; auto; now rewrite IH. Qed.
Lemma items_parts ps : forall t, ps <> [] -> dotless ps -> full ps -> gt_match_items t (dotted ps) = gt_match_parts t ps.
Proof.
  induction ps as [|p ps IH]; intros t N D F; [easy|].
  assert (Dp : ~ In dot p) by (apply D; now left). assert (Dr : dotless ps) by (intros x J; apply D; now right). assert (Fr : full ps) by (intros x J; apply F; now right).
  rewrite gt_items_eq, gt_parts_eq, cut_dotted by auto. assert (Np : p <> []) by (apply F; now left). replace (null p) with false by now destruct p.
  destruct ps as [|q ps].
  - cbn [dotted null]. rewrite (in_map_last _ (fun c => gt_match_parts c [])), (in_list_last _ (fun c => gt_match_parts c [])). reflexivity.
  - assert (dotted (q :: ps) <> []). { intro Z. apply dotted_nil in Z; [discriminate|exact Fr]. }
    replace (null (dotted (q :: ps))) with false by (destruct (dotted (q :: ps)); [easy|reflexivity]). cbn [null].
    f_equal; [apply in_map_ext|apply in_list_ext]; intro c; apply IH; auto; discriminate.
Qed.

(** ** C44 *)
Definition counted (r : res out) : Prop := forall o, r = Ok o -> snd o = length (fst o).
Lemma counted_ok o : snd o = length (fst o) -> counted (Ok o).
Proof. intros H o' E. now injection E as <-. Qed.
Lemma counted_none : counted (Ok out_none).
Proof. now apply counted_ok. Qed.
Lemma counted_emit t : counted (Ok (emit t)).
Proof. apply counted_ok. now destruct t. Qed.
Lemma counted_seq a b : counted a -> counted b -> counted (oseq a b).
Proof.
  intros A C o H. unfold oseq in H. destruct a as [x|e| |]; try discriminate. destruct b as [y|e| |]; try discriminate. injection H as <-.
  cbn. rewrite app_length, (A x eq_refl), (C y eq_refl). reflexivity.
Qed.
Lemma counted_bind {A} (r : res A) (k : A -> res out) : (forall a, r = Ok a -> counted (k a)) -> counted (bind r k).
Proof. intros H o E. destruct r as [a|e| |]; try discriminate. now apply (H a). Qed.
Lemma counted_map f last part l : (last = false -> forall c, counted (f c)) -> counted (in_map f last part l).
Proof. intro H. induction l as [|[k c] l IH]; cbn; [apply counted_none|]. destruct (str_eqb part k); auto. destruct last; [apply counted_emit|auto]. Qed.
Lemma counted_list f last part l : (last = false -> forall c, counted (f c)) -> counted (in_list f last part l).
Proof.
  intro H. induction l as [|c l IH]; cbn; [apply counted_none|]. destruct (gt_item c); [|discriminate].
  apply counted_bind. intros b _. apply counted_seq; auto. destruct b; [|apply counted_none]. destruct last; [apply counted_emit|auto].
Qed.
Lemma counted_items : forall n p t, length p <= n -> counted (gt_match_items t p).
Proof.
  induction n as [|n IH]; intros p t L; rewrite gt_items_eq; destruct (cut dot p) as [[part rest] fd] eqn:C.
  - destruct p; [|cbn in L; lia]. injection C as <- <- _. apply counted_none.
  - destruct part as [|c0 part]; [apply counted_none|]. cbn [null].
    assert (null rest = false -> forall c, counted (gt_match_items c rest)).
    { intros _ c. apply IH. destruct (index_byte p dot) as [i|] eqn:E.
      - apply NextP.index_byte_cut in E as (a & b & Ep & <- & N). rewrite Ep, cut_some in C by auto. injection C as _ E2 _. subst rest. rewrite Ep, app_length in L. cbn [length] in L. lia.
      - apply NextP.index_byte_no in E. rewrite cut_none in C by auto. injection C as _ E2 _. subst rest. cbn. lia. }
    apply counted_seq; [now apply counted_map|now apply counted_list].
Qed.
Lemma counted_parts ps : forall t, counted (gt_match_parts t ps).
Proof.
  induction ps as [|p ps IH]; intro t.
  - destruct t. cbn. destruct (null cmap && null childs); [apply counted_none|discriminate].
  - rewrite gt_parts_eq. apply counted_seq; [apply counted_map|apply counted_list]; auto.
Qed.

(** ** What a tree holds *)
Definition key := (bool * str)%type.
Definition gkey (g : glob) : key := (null (g_items g), g_node g).
Definition find_child (n : str) (cs : list gtree) : option gtree := find (gt_is_child n) cs.
Definition child (k : key) (t : gtree) : option gtree :=
  if fst k then lookup str_eqb (snd k) (gt_cmap t) else find_child (snd k) (gt_childs t).
Fixpoint holds (ks : list key) (t : gtree) : option term :=
  match ks with
  | [] => gt_term t
  | k :: ks' => match child k t with Some c => holds ks' c | None => None end
  end.
Definition keqb (a b : key) : bool := Bool.eqb (fst a) (fst b) && str_eqb (snd a) (snd b).
Lemma keqb_spec a b : reflect (a = b) (keqb a b).
Proof.
  apply iff_reflect. destruct a as [a1 a2], b as [b1 b2]. unfold keqb. cbn. rewrite andb_true_iff, Bool.eqb_true_iff, str_eqb_eq. split; [intro H; injection H; auto|intros [-> ->]; auto].
Qed.
Fixpoint lkeqb (a b : list key) : bool :=
  match a, b with [], [] => true | x :: a', y :: b' => keqb x y && lkeqb a' b' | _, _ => false end.
Lemma lkeqb_spec a : forall b, reflect (a = b) (lkeqb a b).
Proof.
  induction a as [|x a IH]; intros [|y b]; cbn; try (constructor; congruence). destruct (keqb_spec x y) as [->|N]; cbn; [|constructor; congruence].
  destruct (IH b) as [->|N]; constructor; congruence.
Qed.

Section Updates.
  Variables (f : gtree -> gtree) (new : gtree) (n : str).
  Fixpoint upd_map (l : list (str * gtree)) : list (str * gtree) :=
    match l with
    | [] => [(n, f new)]
    | (k, c) :: l' => if str_eqb k n then (k, f c) :: l' else (k, c) :: upd_map l'
    end.
  Fixpoint upd_list (l : list gtree) : list gtree :=
    match l with
    | [] => [f new]
    | c :: l' => if gt_is_child n c then f c :: l' else c :: upd_list l'
    end.
End Updates.
Definition new_node (g : glob) : gtree := GNode (Some g) None [] [].
Lemma insert_eq g rest x t : gt_insert (g :: rest) x t =
  if null (g_items g) then GNode (gt_item t) (gt_term t) (upd_map (gt_insert rest x) (new_node g) (g_node g) (gt_cmap t)) (gt_childs t)
  else GNode (gt_item t) (gt_term t) (gt_cmap t) (upd_list (gt_insert rest x) (new_node g) (g_node g) (gt_childs t)).
Proof. destruct t. cbn [gt_insert gt_item gt_term gt_cmap gt_childs]. destruct (null (g_items g)); reflexivity. Qed.
Lemma insert_nil x t : gt_insert [] x t = GNode (gt_item t) (Some x) (gt_cmap t) (gt_childs t).
Proof. now destruct t. Qed.
Lemma insert_item parts x t : gt_item (gt_insert parts x t) = gt_item t.
Proof. destruct parts as [|g parts]; [now rewrite insert_nil|]. rewrite insert_eq. now destruct (null (g_items g)). Qed.
Lemma insert_term g parts x t : gt_term (gt_insert (g :: parts) x t) = gt_term t.
Proof. rewrite insert_eq. now destruct (null (g_items g)). Qed.
Lemma is_child_new n m g : g_node g = m -> gt_is_child n (new_node g) = str_eqb m n.
Proof. intros <-. reflexivity. Qed.
Lemma is_child_insert n parts x t : gt_is_child n (gt_insert parts x t) = gt_is_child n t.
Proof. unfold gt_is_child. now rewrite insert_item. Qed.
Lemma lookup_upd f new n k l : lookup str_eqb k (upd_map f new n l) =
  if str_eqb k n then Some (f (match lookup str_eqb n l with Some c => c | None => new end)) else lookup str_eqb k l.
Proof.
  induction l as [|[a c] l IH]; cbn.
  - now destruct (str_eqb k n).
  - destruct (str_eqb_spec a n) as [->|N]; cbn.
    + rewrite str_eqb_refl. destruct (str_eqb_spec k n); auto.
    + destruct (str_eqb_spec n a) as [->|_]; [congruence|]. destruct (str_eqb_spec k a) as [->|N2]; [destruct (str_eqb_spec a n); congruence|]. exact IH.
Qed.
Lemma is_child_two n m c : gt_is_child n c = true -> gt_is_child m c = true -> n = m.
Proof. unfold gt_is_child. destruct (gt_item c); [|discriminate]. rewrite !str_eqb_eq. congruence. Qed.
Lemma find_upd f new n k l : (forall m c, gt_is_child m (f c) = gt_is_child m c) -> gt_is_child n new = true ->
  find_child k (upd_list f new n l) =
  if str_eqb k n then Some (f (match find_child n l with Some c => c | None => new end)) else find_child k l.
Proof.
  intros Hf Hn. unfold find_child. induction l as [|c l IH]; cbn.
  - rewrite Hf. destruct (str_eqb_spec k n) as [->|N]; [now rewrite Hn|]. destruct (gt_is_child k new) eqn:E; auto. now rewrite (is_child_two _ _ _ E Hn) in N.
  - destruct (gt_is_child n c) eqn:E; cbn.
    + rewrite Hf. destruct (str_eqb_spec k n) as [->|N]; [now rewrite E|]. destruct (gt_is_child k c) eqn:E2; auto. now rewrite (is_child_two _ _ _ E2 E) in N.
    + destruct (gt_is_child k c) eqn:E2; [|exact IH]. destruct (str_eqb_spec k n) as [->|N]; [congruence|auto].
Qed.
Lemma child_insert g rest x t k : child k (gt_insert (g :: rest) x t) =
  if keqb k (gkey g) then Some (gt_insert rest x (match child (gkey g) t with Some c => c | None => new_node g end)) else child k t.
Proof.
  rewrite insert_eq. unfold child, keqb, gkey. cbn [fst snd]. destruct (null (g_items g)), k as [[] n]; cbn [fst snd gt_cmap gt_childs Bool.eqb andb]; auto.
  - apply lookup_upd.
  - apply find_upd; [intros m c; apply is_child_insert|cbn; now rewrite str_eqb_refl].
Qed.
Lemma holds_new g ks : holds ks (new_node g) = None.
Proof. destruct ks as [|[[] n] ks]; reflexivity. Qed.
Lemma holds_insert parts : forall x t ks, holds ks (gt_insert parts x t) = if lkeqb ks (map gkey parts) then Some x else holds ks t.
Proof.
  induction parts as [|g parts IH]; intros x t ks.
  - rewrite insert_nil. destruct ks as [|[[] n] ks]; reflexivity.
  - destruct ks as [|k ks]; [cbn [holds map lkeqb]; apply insert_term|].
    cbn [holds map lkeqb]. rewrite child_insert. destruct (keqb_spec k (gkey g)) as [->|N]; cbn [andb]; auto. rewrite IH. destruct (lkeqb ks (map gkey parts)); auto.
    destruct (child (gkey g) t); auto. apply holds_new.
Qed.

(** ** Matching finds exactly what is held under matching keys *)
Definition child_name (c : gtree) : str := match gt_item c with Some g => g_node g | None => [] end.
Section Exact.
  Variables (G : glob -> Prop) (M : str -> str -> bool).
  Fixpoint wft (n : nat) (t : gtree) : Prop :=
    match n with
    | O => True
    | S n => (forall k c, lookup str_eqb k (gt_cmap t) = Some c -> wft n c) /\ NoDup (map child_name (gt_childs t)) /\
             forall c, In c (gt_childs t) -> exists g, gt_item c = Some g /\ G g /\ wft n c
    end.
  Lemma wft_new n g : wft n (new_node g).
  Proof. destruct n; cbn; auto. split; [discriminate|]. split; [constructor|easy]. Qed.
  Lemma wft_empty n : wft n gt_empty.
  Proof. destruct n; cbn; auto. split; [discriminate|]. split; [constructor|easy]. Qed.
  Lemma in_upd f new n l c : In c (upd_list f new n l) -> In c l \/ c = f new /\ (forall c', In c' l -> gt_is_child n c' = false) \/ exists c', In c' l /\ gt_is_child n c' = true /\ c = f c'.
  Proof.
    induction l as [|a l IH]; cbn.
    - intros [<-|[]]. right. left. split; auto. easy.
    - destruct (gt_is_child n a) eqn:E; intros [<-|I]; [right; right; exists a; auto|auto|auto|].
      destruct (IH I) as [I2|[[-> H]|(c' & I2 & H)]]; eauto 6. right. left. split; auto. intros c' [<-|I2]; auto.
  Qed.
  Lemma names_upd f new n l : (forall c, child_name (f c) = child_name c) -> child_name new = n ->
    (forall c, In c l -> exists g, gt_item c = Some g) -> NoDup (map child_name l) -> NoDup (map child_name (upd_list f new n l)).
  Proof.
    intros Hf Hn Hg. induction l as [|a l IH]; cbn; intro H; [constructor; [easy|constructor]|].
    inversion H as [|? ? N1 N2]; subst. destruct (gt_is_child (child_name new) a) eqn:E; cbn; [rewrite Hf; auto|].
    constructor; [|apply IH; auto; intros; apply Hg; now right]. intro I. apply in_map_iff in I as (c & Ec & I). apply in_upd in I as [I|[[-> _]|(c' & I & Hc & ->)]].
    - apply N1. apply in_map_iff. eauto.
    - rewrite Hf in Ec. destruct (Hg a) as (g & Ea); [now left|]. unfold gt_is_child in E. rewrite Ea in E. unfold child_name at 2 in Ec. rewrite Ea in Ec. rewrite Ec, str_eqb_refl in E. discriminate.
    - rewrite Hf in Ec. apply N1. apply in_map_iff. eauto.
  Qed.
  Lemma lookup_insert_wft n g rest x t : (forall t, wft n t -> wft n (gt_insert rest x t)) ->
    (forall k c, lookup str_eqb k (gt_cmap t) = Some c -> wft n c) ->
    forall k c, lookup str_eqb k (upd_map (gt_insert rest x) (new_node g) (g_node g) (gt_cmap t)) = Some c -> wft n c.
  Proof.
    intros IH H k c. rewrite lookup_upd. destruct (str_eqb k (g_node g)); [|apply H]. intro E. injection E as <-. apply IH.
    destruct (lookup str_eqb (g_node g) (gt_cmap t)) eqn:E; [now apply (H (g_node g))|apply wft_new].
  Qed.
  Lemma wft_insert parts : forall n x t, (forall g, In g parts -> g_items g <> [] -> G g) -> wft n t -> wft n (gt_insert parts x t).
  Proof.
    induction parts as [|g parts IH]; intros n x t Gp W.
    - rewrite insert_nil. destruct n; cbn in *; auto.
    - assert (IH' : forall n t, wft n t -> wft n (gt_insert parts x t)) by (intros; apply IH; auto; intros; apply Gp; auto; now right).
      rewrite insert_eq. destruct n as [|n]; [exact Logic.I|]. destruct W as (W1 & W2 & W3). destruct (null (g_items g)) eqn:Nl; cbn [wft gt_cmap gt_childs].
      + split; [|split; auto]. apply (lookup_insert_wft n g parts x t); auto.
      + split; [auto|]. split.
        * apply names_upd; auto; [intro c; unfold child_name; now rewrite insert_item|]. intros c Ic. destruct (W3 c Ic) as (g' & H & _). eauto.
        * intros c Ic. apply in_upd in Ic as [Ic|[[-> _]|(c' & Ic & _ & ->)]].
          -- now apply W3.
          -- rewrite insert_item. exists g. split; auto. split; [apply Gp; [now left|destruct (g_items g); easy]|apply IH', wft_new].
          -- destruct (W3 c' Ic) as (g' & H & Gg & Wc). rewrite insert_item. exists g'. auto.
  Qed.

  Definition mk (k : key) (p : str) : Prop := if fst k then snd k = p else M (snd k) p = true.
  Definition uniq (t : gtree) : Prop := forall ks ks' x, holds ks t = Some x -> holds ks' t = Some x -> ks = ks'.
  Definition found (t : gtree) (ps : list str) (l : list term) : Prop :=
    (forall x, In x l <-> exists ks, holds ks t = Some x /\ Forall2 mk ks ps) /\ (uniq t -> NoDup l).
  Definition visit (rest : list str) (c : gtree) : res out := if null rest then Ok (emit (gt_term c)) else gt_match_parts c rest.
  Lemma uniq_child t k c : uniq t -> child k t = Some c -> uniq c.
  Proof.
    intros U C ks ks' x H H'. assert (X : k :: ks = k :: ks'); [|congruence]. apply (U _ _ x); cbn [holds]; now rewrite C.
  Qed.
  Lemma oseq_ok (l1 l2 : list term) : oseq (Ok (l1, length l1)) (Ok (l2, length l2)) = Ok (l1 ++ l2, length (l1 ++ l2)).
  Proof. cbn. unfold out_app. cbn. now rewrite app_length. Qed.
  Lemma find_child_in t c : NoDup (map child_name (gt_childs t)) -> (forall c, In c (gt_childs t) -> exists g, gt_item c = Some g) ->
    In c (gt_childs t) -> find_child (child_name c) (gt_childs t) = Some c.
  Proof.
    unfold find_child. induction (gt_childs t) as [|a l IH]; [easy|]. cbn. intros N Hg [->|I].
    - destruct (Hg c) as (g & E); [now left|]. unfold gt_is_child, child_name. rewrite E, str_eqb_refl. reflexivity.
    - inversion N as [|? ? N1 N2]; subst. destruct (gt_is_child (child_name c) a) eqn:E; [|apply IH; auto].
      exfalso. apply N1. apply in_map_iff. exists c. split; auto. destruct (Hg a) as (g & Ea); [now left|]. unfold gt_is_child in E. rewrite Ea in E. apply str_eqb_eq in E.
      unfold child_name at 2. now rewrite Ea.
  Qed.
  Lemma match_found ps : forall t, ps <> [] -> wft (length ps) t -> (forall g s, G g -> In s ps -> glob_match g s = Ok (M (g_node g) s)) ->
    exists l, gt_match_parts t ps = Ok (l, length l) /\ found t ps l.
  Proof.
    induction ps as [|p ps IH]; intros t N W HM; [easy|].
    assert (V : forall c, wft (length ps) c -> exists l, visit ps c = Ok (l, length l) /\ found c ps l).
    { intros c Wc. unfold visit. destruct ps as [|q ps]; [|apply IH; auto; [discriminate|intros; apply HM; auto; now right]].
      cbn [null]. destruct (gt_term c) as [x|] eqn:E; [exists [x]|exists []]; cbn; (split; [reflexivity|]); split; try (intros; repeat constructor; easy).
      - intro y. split.
        + intros [<-|[]]. exists []. now split.
        + intros (ks & H & F). inversion F; subst. cbn in H. left. congruence.
      - intro y. split; [easy|]. intros (ks & H & F). inversion F; subst. cbn in H. congruence. }
    destruct W as (W1 & W2 & W3). rewrite gt_parts_eq.
    (* literal children *)
    assert (A : exists l1, in_map (fun c => gt_match_parts c ps) (null ps) p (gt_cmap t) = Ok (l1, length l1) /\
      (forall x, In x l1 <-> exists ks, holds ((true, p) :: ks) t = Some x /\ Forall2 mk ks ps) /\ (uniq t -> NoDup l1)).
    { assert (E : in_map (fun c => gt_match_parts c ps) (null ps) p (gt_cmap t) = match lookup str_eqb p (gt_cmap t) with Some c => visit ps c | None => Ok out_none end).
      { clear. induction (gt_cmap t) as [|[k c] l IHl]; cbn; auto; destruct (str_eqb p k); auto. }
      rewrite E. cbn [holds child fst snd]. destruct (lookup str_eqb p (gt_cmap t)) as [c|] eqn:L.
      - destruct (V c (W1 _ _ L)) as (l & Hv & F1 & F2). exists l. split; auto. split; auto. intro U. apply F2. apply (uniq_child t (true, p)); auto.
      - exists []. split; [reflexivity|]. split; [|constructor]. intro x. split; [easy|]. intros (ks & H & _). discriminate. }
    (* other children *)
    assert (Hg : forall c, In c (gt_childs t) -> exists g, gt_item c = Some g) by (intros c Ic; destruct (W3 c Ic) as (g & E & _); eauto).
    assert (C : forall cs, (forall c, In c cs -> In c (gt_childs t)) -> NoDup (map child_name cs) ->
      exists l2, in_list (fun c => gt_match_parts c ps) (null ps) p cs = Ok (l2, length l2) /\
      (forall x, In x l2 <-> exists c ks, In c cs /\ M (child_name c) p = true /\ holds ks c = Some x /\ Forall2 mk ks ps) /\ (uniq t -> NoDup l2)).
    { induction cs as [|c cs IHc]; intros S Nd.
      - exists []. split; [reflexivity|]. split; [|constructor]. intro x. split; [easy|]. intros (c & ks & [] & _).
      - inversion Nd as [|? ? N1 N2]; subst. destruct IHc as (l2 & E2 & F2 & U2); auto; [intros; apply S; now right|].
        assert (Ic : In c (gt_childs t)) by (apply S; now left). destruct (W3 c Ic) as (g & Eg & Gg & Wc). cbn [in_list]. rewrite Eg, (HM g p Gg) by now left. cbn [bind].
        assert (En : child_name c = g_node g) by (unfold child_name; now rewrite Eg). rewrite E2.
        destruct (M (g_node g) p) eqn:Em.
        + fold (visit ps c). destruct (V c Wc) as (l & Hv & F1 & U1). exists (l ++ l2). rewrite <- oseq_ok. fold (visit ps c). rewrite Hv. split; [reflexivity|]. split.
          * intro x. rewrite in_app_iff, F1, F2. split.
            -- intros [(ks & H)|(c' & ks & I & H)]; [exists c, ks; split; [now left|]; split; [congruence|auto]|exists c', ks; split; [now right|auto]].
            -- intros (c' & ks & [<-|I] & Hm & H); [left; eauto|right; eauto 6].
          * intro U. assert (Uc : uniq c). { apply (uniq_child t (false, child_name c)); auto. apply find_child_in; auto. }
            assert (Dj : forall x, In x l -> ~ In x l2).
            { intros x I1 I2. apply F1 in I1 as (ks & H1 & _). apply F2 in I2 as (c' & ks' & I & _ & H2 & _).
              assert (X : (false, child_name c) :: ks = (false, child_name c') :: ks').
              { apply (U _ _ x); cbn [holds child fst snd]; rewrite find_child_in; auto. apply S. now right. }
              apply N1. apply in_map_iff. exists c'. split; [congruence|auto]. }
            apply U1 in Uc. apply U2 in U. revert Uc U Dj. clear. induction l as [|x l IH]; cbn; auto. intros A C Dj. inversion A as [|? ? H1 H2]; subst. constructor; [|apply IH; auto].
            intro I. apply in_app_or in I as [I|I]; [auto|]. apply (Dj x); auto.
        + exists l2. split; [reflexivity|]. split; auto. intro x. rewrite F2. split.
          * intros (c' & ks & I & H). exists c', ks. split; [now right|auto].
          * intros (c' & ks & [<-|I] & Hm & H); [congruence|eauto 6]. }
    destruct A as (l1 & E1 & F1 & U1). destruct (C (gt_childs t)) as (l2 & E2 & F2 & U2); auto. exists (l1 ++ l2). rewrite E1, E2, oseq_ok. split; [reflexivity|]. split.
    - intro x. rewrite in_app_iff, F1, F2. split.
      + intros [(ks & H & F)|(c & ks & I & Hm & H & F)].
        * exists ((true, p) :: ks). split; auto. constructor; auto. reflexivity.
        * exists ((false, child_name c) :: ks). split; [cbn [holds child fst snd]; rewrite find_child_in; auto|]. constructor; auto.
      + intros (ks & H & F). inversion F as [|[[] n] ? ks' ? Hk F']; subst; unfold mk in Hk; cbn [fst snd] in Hk.
        * left. subst n. eauto.
        * right. cbn [holds child fst snd] in H. unfold find_child in H. destruct (find (gt_is_child n) (gt_childs t)) as [c|] eqn:Ef; [|discriminate].
          apply find_some in Ef as [Ic Hc]. exists c, ks'. split; auto. split; auto. unfold gt_is_child in Hc. unfold child_name. destruct (gt_item c); [|discriminate]. apply str_eqb_eq in Hc. congruence.
    - intro U. specialize (U1 U). specialize (U2 U).
      assert (Dj : forall x, In x l1 -> ~ In x l2).
      { intros x I1 I2. apply F1 in I1 as (ks & H1 & _). apply F2 in I2 as (c' & ks' & I & _ & H2 & _).
        assert (X : (true, p) :: ks = (false, child_name c') :: ks'); [|congruence].
        apply (U _ _ x); auto. cbn [holds child fst snd]. rewrite find_child_in; auto. }
      revert U1 U2 Dj. clear. induction l1 as [|x l IH]; cbn; auto. intros A C Dj. inversion A as [|? ? H1 H2]; subst. constructor; [|apply IH; auto].
      intro I. apply in_app_or in I as [I|I]; [auto|]. apply (Dj x); auto.
  Qed.
End Exact.
Lemma wft_mono (G G' : glob -> Prop) : (forall g, G g -> G' g) -> forall n t, wft G n t -> wft G' n t.
Proof.
  intro H. induction n as [|n IH]; intros t W; [exact I|]. destruct W as (W1 & W2 & W3). split; [intros; eauto|]. split; auto.
  intros c Ic. destruct (W3 c Ic) as (g & E & Gg & Wc). exists g. auto.
Qed.
(** A path with an empty part finds nothing in a tree of its depth. *)
Lemma items_empty G M ps : forall t, ps <> [] -> dotless ps -> In [] ps -> wft G (length ps) t ->
  (forall ks, length ks < length ps -> holds ks t = None) ->
  (forall g s, G g -> In s ps -> s <> [] -> glob_match g s = Ok (M (g_node g) s)) -> gt_match_items t (dotted ps) = Ok out_none.
Proof.
  induction ps as [|p ps IH]; intros t N D E W Hn HM; [easy|].
  assert (Dp : ~ In dot p) by (apply D; now left). assert (Dr : dotless ps) by (intros x J; apply D; now right).
  rewrite gt_items_eq, cut_dotted by auto. destruct p as [|c0 p0]; [reflexivity|]. cbn [null]. remember (c0 :: p0) as p. assert (Np : p <> []) by (subst; discriminate). clear Heqp c0 p0.
  destruct E as [E|E]; [easy|]. destruct ps as [|q ps]; [easy|]. destruct W as (W1 & W2 & W3).
  assert (V : forall k c, child k t = Some c -> wft G (length (q :: ps)) c -> (if null (dotted (q :: ps)) then Ok (emit (gt_term c)) else gt_match_items c (dotted (q :: ps))) = Ok out_none).
  { intros k c C Wc. destruct (null (dotted (q :: ps))) eqn:Nl.
    - assert (H := Hn [k]). cbn [holds] in H. rewrite C in H. rewrite H; [reflexivity|]. cbn. lia.
    - apply IH; auto; [discriminate| |intros g s Gg I; apply HM; auto; now right]. intros ks L. specialize (Hn (k :: ks)). cbn [holds] in Hn. rewrite C in Hn. apply Hn. cbn in *. lia. }
  assert (A : in_map (fun c => gt_match_items c (dotted (q :: ps))) (null (dotted (q :: ps))) p (gt_cmap t) = Ok out_none).
  { transitivity (match lookup str_eqb p (gt_cmap t) with Some c => if null (dotted (q :: ps)) then Ok (emit (gt_term c)) else gt_match_items c (dotted (q :: ps)) | None => Ok out_none end).
    { clear. induction (gt_cmap t) as [|[k c] l IHl]; cbn; auto; destruct (str_eqb p k); auto. }
    destruct (lookup str_eqb p (gt_cmap t)) as [c|] eqn:L; auto. apply (V (true, p) c L). now apply (W1 p). }
  rewrite A. assert (Hg : forall c, In c (gt_childs t) -> exists g, gt_item c = Some g) by (intros c Ic; destruct (W3 c Ic) as (g & E' & _); eauto).
  assert (C : forall cs, (forall c, In c cs -> In c (gt_childs t)) -> in_list (fun c => gt_match_items c (dotted (q :: ps))) (null (dotted (q :: ps))) p cs = Ok out_none).
  { induction cs as [|c cs IHc]; intro S; auto. assert (Ic : In c (gt_childs t)) by (apply S; now left). destruct (W3 c Ic) as (g & Eg & Gg & Wc).
    cbn [in_list]. rewrite Eg, (HM g p Gg) by (auto; now left). cbn [bind]. rewrite IHc by (intros; apply S; now right).
    destruct (M (g_node g) p); [|reflexivity]. rewrite (V (false, child_name c) c); auto. apply find_child_in; auto. }
  rewrite C by auto. reflexivity.
Qed.

(** ** The registry *)
Definition tree_at (n : nat) (root : list (nat * gtree)) : gtree := match lookup Nat.eqb n root with Some t => t | None => gt_empty end.
Definition held (E : list entry) (n : nat) (ks : list key) (x : term) : Prop :=
  exists e g, In e E /\ gg_parse (e_text e) = Ok g /\ gg_node g = e_node e /\ map gkey (gg_parts g) = ks /\ length (gg_parts g) = n /\ x = (e_node e, e_index e).
Definition tree_ok (E : list entry) (gt : gglob_tree) : Prop :=
  maps_ok E (ggt_globs gt) (ggt_index gt) /\
  (forall e, In e E -> exists g, gg_parse (e_text e) = Ok g /\ gg_node g = e_node e) /\
  forall n, (forall m, wft (fun g => part_of E g /\ g_items g <> []) m (tree_at n (ggt_root gt))) /\ forall ks x, holds ks (tree_at n (ggt_root gt)) = Some x <-> held E n ks x.
Lemma tree_new_ok : tree_ok [] ggt_new.
Proof.
  split; [apply maps_nil|]. split; [easy|]. intro n. split; [intro; apply wft_empty|]. intros ks x. split.
  - destruct ks as [|[[] k] ks]; discriminate.
  - intros (e & g & [] & _).
Qed.
Lemma keys_node g g' text text' : gg_parse text = Ok g -> gg_parse text' = Ok g' -> map gkey (gg_parts g) = map gkey (gg_parts g') -> gg_node g = gg_node g'.
Proof.
  intros P P' H. apply gg_parse_iff in P as (qs & gs & _ & _ & ->). apply gg_parse_iff in P' as (qs' & gs' & _ & _ & ->). cbn [gg_parts gg_node] in *.
  f_equal. apply (f_equal (map snd)) in H. rewrite !map_map in H. exact H.
Qed.
Lemma null_false (s : str) : null s = false -> s <> [].
Proof. now destruct s. Qed.
Lemma ggt_step E gt text i : tree_ok E gt -> exists gt' r new, ggt_add gt text i = Ok (gt', r) /\ registers gg_canon E text i new r /\
  tree_ok (match new with Some e => E ++ [e] | None => E end) gt' /\ (new = None -> gt' = gt).
Proof.
  intros T. pose proof T as (MO & PE & TR). unfold ggt_add. destruct (null text) eqn:Nt.
  { exists gt, ([], 0%Z, None), None. split; [reflexivity|]. split; [constructor; now destruct text|auto]. }
  apply null_false in Nt. destruct (i <? 0)%Z eqn:Ni.
  { do 3 eexists. split; [reflexivity|]. split; [apply reg_negative; [auto|lia]|auto]. }
  destruct (lookup str_eqb text (ggt_globs gt)) as [n|] eqn:L1.
  { do 3 eexists. split; [reflexivity|]. split; [apply reg_again; [auto|lia|now apply (proj1 (proj2 MO))]|auto]. }
  rewrite (maps_none _ _ _ _ MO) in L1. destruct (lookup Z.eqb i (ggt_index gt)) as [q|] eqn:L2.
  { do 3 eexists. split; [reflexivity|]. split; [apply reg_index; [auto|lia|auto|now apply (proj2 (proj2 MO))]|auto]. }
  rewrite (maps_unused _ _ _ _ MO) in L2. assert (Fi := gg_parse_fine text). destruct (gg_parse text) as [g|e| |] eqn:P; try easy.
  2:{ do 3 eexists. split; [reflexivity|]. split; [apply reg_bad; auto; [lia|unfold gg_canon; now rewrite P]|auto]. }
  destruct (lookup str_eqb (gg_node g) (ggt_globs gt)) as [n|] eqn:L3.
  { do 3 eexists. split; [reflexivity|]. split; [apply reg_same; auto; [lia|unfold gg_canon; now rewrite P|now apply (proj1 (proj2 MO))]|auto]. }
  rewrite (maps_none _ _ _ _ MO) in L3. do 3 eexists. split; [reflexivity|]. split; [apply reg_new; auto; [lia|unfold gg_canon; now rewrite P]|]. split; [|discriminate].
  cbn [ggt_globs ggt_index ggt_root]. split; [|split].
  - cbn [ggt_globs ggt_index]. apply (maps_snoc E (ggt_globs gt) (ggt_index gt)); auto.
    + intro k. destruct (str_eqb_spec (gg_node g) text) as [->|D]; rewrite !lookup_assign by apply str_eqb_spec; destruct (str_eqb k text), (str_eqb k (gg_node g)); reflexivity.
    + intro k. apply lookup_assign, zeqb_spec.
  - intros e Ie. apply in_app_or in Ie as [Ie|[<-|[]]]; [auto|]. cbn. eauto.
  - intro n. cbn [ggt_root]. unfold add_gglob.
    set (x := (gg_node g, i)). set (n0 := length (gg_parts g)).
    assert (TA : tree_at n (assign Nat.eqb n0 (gt_insert (gg_parts g) x (match lookup Nat.eqb n0 (ggt_root gt) with Some t => t | None => gt_empty end)) (ggt_root gt)) =
      if Nat.eqb n n0 then gt_insert (gg_parts g) x (tree_at n0 (ggt_root gt)) else tree_at n (ggt_root gt)).
    { unfold tree_at at 1. rewrite lookup_assign by apply neqb_spec. destruct (Nat.eqb n n0); reflexivity. }
    rewrite TA. clear TA.
    assert (MG : forall g0, part_of E g0 /\ g_items g0 <> [] -> part_of (E ++ [mkEntry text (gg_node g) i]) g0 /\ g_items g0 <> []).
    { intros g0 [(e & g' & Ie & H) H2]. split; auto. exists e, g'. split; auto. apply in_or_app. now left. }
    assert (HE : forall ks y, held (E ++ [mkEntry text (gg_node g) i]) n ks y <-> held E n ks y \/ (map gkey (gg_parts g) = ks /\ n0 = n /\ y = x)).
    { intros ks y. split.
      - intros (e & g' & Ie & Pe & Ne & Ke & Le & ->). apply in_app_or in Ie as [Ie|[<-|[]]]; [left; exists e, g'; auto 8|right]. cbn in *. rewrite P in Pe. injection Pe as <-. auto.
      - intros [(e & g' & Ie & H)|(K & L & ->)]; [exists e, g'; split; [apply in_or_app; now left|auto]|].
        eexists _, g. split; [apply in_or_app; right; now left|]. cbn. auto 8. }
    destruct (Nat.eqb_spec n n0) as [->|D].
    + destruct (TR n0) as [W H]. split.
      * intro m. apply wft_insert; [|apply (wft_mono _ _ MG); auto]. intros g0 I0 N0. split; auto. eexists _, g. split; [apply in_or_app; right; now left|]. cbn. auto.
      * intros ks y. rewrite holds_insert, HE, <- H. destruct (lkeqb_spec ks (map gkey (gg_parts g))) as [->|D].
        -- split; [intro Z; injection Z as <-; auto|]. intros [Z|(_ & _ & ->)]; auto. exfalso.
           apply H in Z as (e & g' & Ie & Pe & Ne & Ke & _ & _). apply (L3 (e_index e)). exists e. split; auto. split; auto. right. rewrite <- Ne. eapply keys_node; eauto.
        -- split; auto. intros [Z|(Z & _)]; auto. congruence.
    + destruct (TR n) as [W H]. split; [intro m; apply (wft_mono _ _ MG); auto|]. intros ks y. rewrite HE, <- H. split; auto. intros [Z|(_ & Z & _)]; auto. congruence.
Qed.
Lemma ggt_history calls : exists gt rs E, run_adds ggt_add ggt_new calls = Ok (gt, rs) /\ history gg_canon calls rs E /\ tree_ok E gt.
Proof. apply run_history; [apply ggt_step|apply tree_new_ok]. Qed.

(** ** Matching against the registry *)
Definition all_parts (E : list entry) : list glob := flat_map (fun e => match gg_parse (e_text e) with Ok g => gg_parts g | _ => [] end) E.
Lemma all_parts_in E g : part_of E g <-> In g (all_parts E).
Proof.
  unfold all_parts. rewrite in_flat_map. split.
  - intros (e & g' & Ie & P & I). exists e. split; auto. now rewrite P.
  - intros (e & Ie & I). destruct (gg_parse (e_text e)) as [g'|x| |] eqn:P; try easy. exists e, g'. auto.
Qed.
Definition MM (E : list entry) (n s : str) : bool :=
  existsb (fun g => negb (null (g_items g)) && str_eqb (g_node g) n && match glob_match g s with Ok true => true | _ => false end) (all_parts E).
Lemma null_items (l : list item) : null l = false <-> l <> [].
Proof. now destruct l. Qed.
Lemma MM_ok E g s : coherent E s -> part_of E g -> g_items g <> [] -> glob_match g s = Ok (MM E (g_node g) s).
Proof.
  intros (C1 & C2 & C3) P N. destruct (C2 g P) as (b & E'). rewrite E'. f_equal. unfold MM. symmetry. destruct b.
  - apply existsb_exists. exists g. split; [now apply all_parts_in|]. rewrite E', str_eqb_refl. now destruct (g_items g).
  - apply not_true_is_false. intro H. apply existsb_exists in H as (g' & I & H). apply all_parts_in in I. apply andb_true_iff in H as [H H3]. apply andb_true_iff in H as [H1 H2].
    apply str_eqb_eq in H2. apply negb_true_iff, null_items in H1. rewrite (C3 g' g), E' in H3; auto. discriminate.
Qed.
Lemma held_uniq E n ks ks' x : distinct E -> held E n ks x -> held E n ks' x -> ks = ks'.
Proof.
  intros [D _] (e & g & Ie & P & _ & K & _ & ->) (e' & g' & Ie' & P' & _ & K' & _ & H). injection H as H1 H2.
  assert (e = e').
  { revert D Ie Ie' H2. clear. induction E as [|a E IH]; [easy|]. cbn. intros D I I' H. inversion D as [|? ? N1 N2]; subst.
    destruct I as [->|I], I' as [->|I']; auto; exfalso; apply N1; apply in_map_iff; eauto. }
  subst e'. congruence.
Qed.
Lemma forall2_length {A C} (R : A -> C -> Prop) l l' : Forall2 R l l' -> length l = length l'.
Proof. induction 1; cbn; congruence. Qed.
Lemma tree_match_parts E gt ps : tree_ok E gt -> ps <> [] -> (forall s, In s ps -> coherent E s) ->
  exists l, gt_match_parts (tree_at (length ps) (ggt_root gt)) ps = Ok (l, length l) /\ NoDup l /\
  forall q i, In (q, i) l <-> exists e g, In e E /\ e_node e = q /\ e_index e = i /\ gg_parse (e_text e) = Ok g /\ Forall2 part_matches (gg_parts g) ps.
Proof.
  intros (MO & PE & TR) N C. destruct (TR (length ps)) as [W H].
  destruct (match_found (fun g => part_of E g /\ g_items g <> []) (MM E) ps _ N (W (length ps))) as (l & El & F & U).
  { intros g s [P Ng] Is. apply MM_ok; auto. }
  exists l. split; auto. split.
  { apply U. intros ks ks' x Hx Hx'. apply H in Hx, Hx'. destruct MO as [D _]. eapply held_uniq; eauto. }
  assert (K : forall g s, part_of E g -> In s ps -> (mk (MM E) (gkey g) s <-> part_matches g s)).
  { intros g s P Is. unfold mk, gkey, part_matches. cbn [fst snd]. destruct (null (g_items g)) eqn:Nl.
    - assert (g_items g = []) as Ei by now destruct (g_items g). rewrite (proj1 (C s Is) g P Ei). split; [intros ->; now rewrite str_eqb_refl|]. intro X. injection X as X. now apply str_eqb_eq.
    - apply null_items in Nl. rewrite (MM_ok E g s); auto. split; [now intros ->|now intro X; injection X]. }
  intros q i. rewrite F. split.
  - intros (ks & Hk & F2). apply H in Hk as (e & g & Ie & P & _ & Kk & _ & X). injection X as -> ->. exists e, g. split; auto. split; auto. split; auto. split; auto.
    subst ks. assert (Pg : forall x, In x (gg_parts g) -> part_of E x) by (intros; exists e, g; auto).
    assert (Sub : forall s, In s ps -> In s ps) by auto. revert F2 Pg Sub K. generalize ps at 1 2 5. clear. generalize (gg_parts g). induction l as [|x l IH]; intros ss F2 Pg Sub K; inversion F2; subst; constructor.
    + apply K; auto; [apply Pg; now left|apply Sub; now left].
    + apply IH; auto; intros; [apply Pg|apply Sub]; now right.
  - intros (e & g & Ie & <- & <- & P & F2). exists (map gkey (gg_parts g)). split.
    + apply H. exists e, g. destruct (PE e Ie) as (g' & P' & Ng). assert (g' = g) by congruence. subst g'. repeat split; auto. eapply forall2_length; eauto.
    + assert (Pg : forall x, In x (gg_parts g) -> part_of E x) by (intros; exists e, g; auto).
      assert (Sub : forall s, In s ps -> In s ps) by auto. revert F2 Pg Sub K. generalize ps at 1 2 5. clear. generalize (gg_parts g). induction l as [|x l IH]; intros ss F2 Pg Sub K; inversion F2; subst; constructor.
      * apply K; auto; [apply Pg; now left|apply Sub; now left].
      * apply IH; auto; intros; [apply Pg|apply Sub]; now right.
Qed.
