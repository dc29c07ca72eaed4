(** Trees built from the same globs in another order: the sizes of equal parsed items agree, the trees agree up to the order
    of the children, and so do their answers. *)
From Verif Require Import Model.Tree Spec.Class Spec.GlobSpec Spec.Safe Spec.RegistrySpec Spec.GlobTreeSpec.
From Verif Require Import Proof.Utf8P Proof.MergeP Proof.RangesP Proof.RangesTop Proof.ListP Proof.SortP Proof.LangP Proof.DenotesP Proof.ParseP Proof.NextP Proof.SafeP Proof.PanicP Proof.ItemEqP Proof.TotalP Proof.GGlobP Proof.TreeEndP Proof.TreeEnd2P Proof.MinP Proof.SizedP.
From Verif Require Import Proof.ItemTop Proof.TreeInsP Proof.RegistryP Proof.GlobTreeP Proof.TreeMonoP.
From Coq Require Import Lia ZifyBool ZifyN ZifyNat Permutation.

(** ** Sizes of parsed items *)
Definition whole (it : item) : Prop :=
  match it with IByte b => (code b < 128)%N | IRune r => valid_rune r = true | _ => True end.
Lemma merge_whole x y m : whole x -> whole y -> merge_last x y = Some m -> whole m /\ item_min m = (item_min x + item_min y)%Z.
Proof.
  intros Hx Hy E. destruct y, x; try discriminate; cbn in E; injection E as <-; cbn [whole item_min] in *; (split; [exact I|]); unfold zlen, string_of_byte; rewrite ?app_length, ?Nat2Z.inj_add; rewrite ?encode_len_valid by auto;
  rewrite ?encode_ascii by lia; cbn [length]; try lia; rewrite encode_len_valid by assumption; lia.
Qed.
Lemma count_ascii a : (code (snd (as_count a)) < 128)%N.
Proof.
  unfold as_count. destruct (as_is_empty a); [cbn; lia|]. 
  assert (F : Forall (fun c => (code c < 128)%N) (bytes_from 1 127)). { apply Forall_forall. intros c I. vm_compute in I. repeat (destruct I as [<-|I]; [reflexivity|]). destruct I. }
  revert F. generalize (bytes_from 1 127). intro l. assert (G : forall st : nat * ascii, (code (snd st) < 128)%N -> Forall (fun c => (code c < 128)%N) l ->
    (code (snd (fold_left (fun '(n, first) i => if as_contains a i then (S n, if (code first =? 0)%N then i else first) else (n, first)) l st)) < 128)%N); [|apply G; reflexivity].
  induction l as [|c l IH]; intros [n f] H0 F; [exact H0|]. inversion F; subst. cbn [fold_left]. apply IH; auto. destruct (as_contains a c); [|exact H0]. cbn. now destruct (code f =? 0)%N.
Qed.
Lemma class_whole body it : class_item body = Ok (Some it) -> whole it.
Proof.
  unfold class_item. destruct (ranges_expand (bracketed body)) as [rs|] eqn:E; [|discriminate].
  assert (S2 : forall q, In q (rr_unicode rs) -> valid_rune (First q) = true).
  { unfold ranges_expand in E. destruct (_ && _ && _); [|discriminate]. set (b := firstn _ _) in E. destruct (null b); [assert (rs = rr_empty) as -> by congruence; easy|].
    destruct (rr_scan (map snd (range b)) RuneError false rr_empty) as [rs0|] eqn:E2; [|discriminate]. apply scan_scanned in E2; [|apply range_valid|reflexivity|now split; [|constructor]].
    destruct E2 as [E2 E3]. assert (rs = mkRR (rr_ascii rs0) (ranges_merge (rr_unicode rs0)) (rr_need_merge rs0) (rr_min rs0) (rr_max rs0)) as -> by congruence.
    intros q I. apply merge_ends in I as [I _]; [|eapply Forall_impl; [|exact E3]; cbn; tauto]. apply in_map_iff in I as (p & <- & I). rewrite Forall_forall in E3. now apply E3. }
  pose proof (count_ascii (rr_ascii rs)) as CA. destruct (as_count (rr_ascii rs)) as [n c]. destruct (Nat.eqb n 0 && null (rr_unicode rs)); [discriminate|].
  destruct (null (rr_unicode rs) && Nat.eqb n 1); [intro H; apply ok_inj in H; assert (it = IByte c) as -> by congruence; exact CA|].
  destruct (rr_unicode rs) as [|r [|r2 l]]; [| |]; try (intro H; apply ok_inj in H; assert (it = IRanges rs) as -> by congruence; exact I).
  destruct (Nat.eqb n 0 && (First r =? Last r)%N); intro H; apply ok_inj in H; [assert (it = IRune (First r)) as -> by congruence|assert (it = IRanges rs) as -> by congruence; exact I].
  apply (S2 r (or_introl eq_refl)).
Qed.
Lemma single_whole v : whole (single_item v).
Proof.
  unfold single_item. pose proof (decode_valid v) as V. destruct (decode_rune v) as [r n]. cbn [fst] in V. destruct (Nat.eqb n (length v)); [destruct (N.leb_spec r 127)|exact I]; cbn [whole]; auto.
  rewrite code_byte_of by lia. lia.
Qed.
Lemma token_whole f s it a rest : token f s (Some it) a rest -> ~ In "}"%char s -> whole it.
Proof.
  intros T NB. inversion T; subst; try exact I.
  - eapply class_whole; eauto.
  - exfalso. apply NB. rewrite braced_app. right. apply in_or_app. right. now left.
  - apply single_whole.
Qed.
Definition chain_whole (st : list item * Z * Z) : Prop := let '(rl, mn, _) := st in Forall whole rl /\ mn = zsum item_min rl.
Lemma chain_whole_ok f0 : forall fuel v st st', ~ In "}"%char v -> chain_whole st -> group_chain fuel (next_item f0) v st = Ok st' -> chain_whole st'.
Proof.
  induction fuel as [|f IH]; intros v st st' NB F H; cbn [group_chain] in H.
  - destruct v; [|discriminate]. apply ok_inj in H. now subst.
  - destruct v as [|c v]; [apply ok_inj in H; now subst|].
    destruct (next_item f0 (c :: v)) as [[oi rest]|e| |] eqn:E; try discriminate.
    destruct f0 as [|f0]; [discriminate|]. apply next_token in E as (a & T).
    destruct (token_text _ _ _ _ _ T) as [Ea _].
    assert (NB' : ~ In "}"%char rest) by (intro I; apply NB; rewrite Ea; apply in_or_app; now right).
    destruct oi as [it|]; apply IH in H; auto. apply token_whole in T; auto. destruct st as [[rl mn] mx]. destruct F as (F1 & F2). cbn [chain_append chain_whole].
    destruct rl as [|x r]; cbn [append_item_rev].
    + split; [auto|]. subst. cbn. lia.
    + inversion F1 as [|? ? W1 W2]; subst. destruct (merge_last x it) as [m|] eqn:Em.
      * destruct (merge_whole _ _ _ W1 T Em) as [Wm Z]. split; [auto|]. cbn [zsum fold_right] in *. rewrite Z. fold (zsum item_min r). fold (zsum item_min r) in T. lia.
      * split; [auto|]. cbn. lia.
Qed.
(** The size of a group is given by its values. *)
Definition val_min (v : item) : Z := zsum item_min (val_items v).
Fixpoint vals_min (l : list item) (mn : Z) : Z :=
  match l with [] => mn | v :: l' => vals_min l' (if (val_min v <? mn)%Z then val_min v else mn) end.
Definition std (it : item) : Prop :=
  made it /\ match it with IGroup (x :: l) mn _ => mn = vals_min l (val_min x) | IGroup [] _ _ => False | _ => True end.
Lemma group_val_min f0 v it : ~ In "}"%char v -> group_val (next_item f0) v = Ok it -> item_min it = val_min it.
Proof.
  intros NB H. unfold group_val in H. destruct (group_chain (length v) (next_item f0) v ([], 0%Z, 0%Z)) as [[[rl mn] mx]|e| |] eqn:E; try discriminate.
  cbn [bind] in H. assert (S := E). apply chain_whole_ok in E; auto; [|cbn; auto]. apply chain_sane in S; auto; [|cbn; repeat split; auto; lia]. destruct E as (E1 & E2). destruct S as (S1 & _).
  destruct rl as [|x [|y rl]]; apply ok_inj in H; subst it.
  - cbn. now subst.
  - inversion S1 as [|? ? [C _] _]; subst. destruct x; try easy; cbn; lia.
  - unfold val_min. cbn [val_items item_min]. now rewrite zsum_rev.
Qed.
Lemma group_vals_min f0 : forall vals l, Forall (fun v => ~ In "}"%char v) vals -> group_vals (next_item f0) vals = Ok (inr l) -> Forall (fun v => item_min v = val_min v) l.
Proof.
  induction vals as [|v vals IH]; intros l NB H; cbn [group_vals] in H.
  - injection H as <-. constructor.
  - inversion NB as [|? ? N1 N2]; subst. destruct (has_wildcard v) eqn:W.
    + destruct (str_eqb_spec v (B "*")) as [->|Ns]; [discriminate|].
      destruct (if str_eqb v (B "?") then Ok (IAny 1) else group_val (next_item f0) v) as [it|e| |] eqn:E; try discriminate. cbn [bind] in H.
      assert (V : item_min it = val_min it) by (destruct (str_eqb_spec v (B "?")) as [->|Nq]; [injection E as <-; reflexivity|now apply group_val_min in E]).
      destruct (group_vals (next_item f0) vals) as [[r0|r0]|e| |] eqn:E2; try discriminate. cbn [bind] in H. injection H as <-. constructor; auto.
    + destruct (group_vals (next_item f0) vals) as [[r0|r0]|e| |] eqn:E2; try discriminate. cbn [bind] in H. injection H as <-. constructor; auto. cbn. lia.
Qed.
Lemma bounds_min l : Forall (fun v => item_min v = val_min v) l -> forall mn mx, fst (group_bounds l mn mx) = vals_min l mn.
Proof. induction 1 as [|v l E F IH]; intros mn mx; cbn [group_bounds vals_min]; [reflexivity|]. rewrite IH, E. reflexivity. Qed.
Lemma std_merge x y m : std x -> std y -> merge_last x y = Some m -> std m.
Proof. intros [Hx _] [Hy _] E. split; [exact (made_merge x y m Hx Hy E)|]. destruct y, x; try discriminate; cbn in E; injection E as <-; exact I. Qed.
Lemma list_std f vals it : Forall (fun v => ~ In "}"%char v) vals -> new_item_list (next_item f) vals = Ok (Some it) -> std it.
Proof.
  intros NB H. split; [eapply list_made; eauto|]. destruct (list_shape f vals it H) as [(l & mn & mx & G & ->)|N]; [|destruct it; try exact I; exfalso; eapply N; eauto].
  unfold new_item_list in H. destruct vals as [|v [|v2 vals]]; [discriminate| |].
  - destruct v; cbn [null] in H; [discriminate|]. apply ok_inj in H. unfold single_item in H. destruct (decode_rune (a :: v)). destruct (Nat.eqb n (length (a :: v))); [destruct (r <=? 127)%N|]; discriminate.
  - remember (v :: v2 :: vals) as vs eqn:Evs. destruct (list_scan vs max_int 0 true as_empty) as [[[[mn0 mx0] st] fi] hs] eqn:E. destruct hs.
    + unfold new_group in H. rewrite G in H. cbn [bind] in H. pose proof (group_vals_min f vs l NB G) as V. destruct l as [|x l]; [discriminate|].
      inversion V as [|? ? Vx Vl]; subst. pose proof (bounds_min l Vl (item_min x) (item_max x)) as Bm. destruct (group_bounds l (item_min x) (item_max x)) as [m1 m2]. injection H as <- <-. cbn [fst] in Bm. now rewrite Bm, Vx.
    + exfalso. subst vs. destruct st; (destruct (mn0 =? 0)%Z; [destruct v; [|discriminate]|]; discriminate).
Qed.
Lemma parse_std g gl : glob_parse g = Ok gl -> Forall std (g_items gl).
Proof.
  apply parse_forall.
  - exact std_merge.
  - split; [split; [reflexivity|discriminate]|exact I].
  - split; [reflexivity|exact I].
  - intros f s it a rest done suffix T _. inversion T; subst; try (split; [reflexivity || exact I || (split; [reflexivity|discriminate])|exact I]).
    + match goal with H : class_item _ = _ |- _ => apply class_kind in H end. destruct it; easy.
    + match goal with H : _ \/ _ |- _ => destruct H as [[_ ?]|[_ K]]; [discriminate|] end. eapply list_std; [|exact K].
      apply Forall_forall. intros v I J. apply (proj1 (norm_in _ _)) in I. destruct (split_part "," body v I) as (p & q & -> & _).
      match goal with X : ~ In "}"%char _ |- _ => apply X end. apply in_or_app. right. apply in_or_app. now left.
    + pose proof (single_calm true true (fun _ => True) a) as K. destruct (single_item a); easy.
Qed.

(** ** Equal parsed items have the same size *)
Definition ieq (a b : item) : Prop := item_equal a b = true /\ std a /\ std b.
Lemma c1_std a : c1 a -> std a.
Proof. intro C. destruct a; easy. Qed.
Lemma eqi_sum l l' : Forall c1 l -> eqi l l' -> zsum item_min l = zsum item_min l'.
Proof.
  intros C H. induction H as [|a b l l' E H IH]; [reflexivity|]. inversion C; subst. unfold zsum in *. cbn [fold_right]. rewrite (c1_min a b), IH by auto. reflexivity.
Qed.
Lemma vals_min_eq : forall l l' mn, (forall v, In v l -> Forall c1 (val_items v)) -> map erase l = map erase l' -> vals_min l mn = vals_min l' mn.
Proof.
  induction l as [|v l IH]; intros [|v' l'] mn C E; try discriminate; [reflexivity|]. injection E as E1 E2. cbn [vals_min].
  assert (val_min v = val_min v') as -> by (apply eqi_sum; [apply C; now left|apply val_eqi, equal_erase, E1]). apply IH; auto. intros w I. apply C. now right.
Qed.
Lemma ieq_min a b : ieq a b -> item_min a = item_min b.
Proof.
  intros (E & [Ma Sa] & [Mb Sb]). apply equal_erase in E. destruct a, b; try discriminate; cbn in E; try (injection E; intros; subst; cbn [item_min]; congruence).
  2: easy.
  destruct vals as [|x l]; [easy|]. destruct vals0 as [|x' l']; [easy|]. cbn [item_min]. subst. injection E as E1 E2. destruct Ma as [Ma _].
  assert (val_min x = val_min x') as -> by (apply eqi_sum; [apply Ma; now left|apply val_eqi, equal_erase, E1]). apply vals_min_eq; auto. intros w I. apply Ma. now right.
Qed.
Lemma eqi_ieq l l' : Forall c1 l -> Forall c1 l' -> eqi l l' -> Forall2 ieq l l'.
Proof. intros C C' H. induction H as [|a b l l' E H IH]; [constructor|]. inversion C; inversion C'; subst. constructor; auto. split; [exact E|]. split; now apply c1_std. Qed.
Lemma group_ieq vals mn mx vals' mn' mx' : ieq (IGroup vals mn mx) (IGroup vals' mn' mx') -> mn = mn' /\ Forall2 (fun v v' => Forall2 ieq (val_items v) (val_items v')) vals vals'.
Proof.
  intro H. split; [exact (ieq_min _ _ H)|]. destruct H as (E & [[Ma _] _] & [[Mb _] _]). apply equal_erase in E. cbn in E. injection E as E.
  revert vals' E Ma Mb. induction vals as [|v l IH]; intros [|v' l'] E Ma Mb; try discriminate; [constructor|]. injection E as E1 E2. constructor.
  - apply eqi_ieq; [apply Ma; now left|apply Mb; now left|apply val_eqi, equal_erase, E1].
  - apply IH; auto; intros w I; [apply Ma|apply Mb]; now right.
Qed.

(** ** Trees that differ in the order of children *)
Definition oeq (a b : option item) : Prop := match a, b with Some i, Some j => ieq i j | None, None => True | _, _ => False end.
Inductive teq : tree -> tree -> Prop :=
| teq_node i j r tm cs ds cs' : oeq i j -> Permutation cs ds -> Forall2 teq ds cs' -> teq (TNode i r tm cs) (TNode j r tm cs').
(** The second answer is the first with the reports in another order, if there is a first. *)
Definition ro (a b : res out) : Prop := forall l n, a = Ok (l, n) -> exists l', b = Ok (l', n) /\ Permutation l l'.
Lemma ro_refl a : ro a a.
Proof. intros l n ->. eauto. Qed.
Lemma ro_trans a b c : ro a b -> ro b c -> ro a c.
Proof. intros H K l n E. apply H in E as (l1 & E & P). apply K in E as (l2 & E & Q). exists l2. split; auto. now transitivity l1. Qed.
Lemma ro_bad a b : (forall o, a <> Ok o) -> ro a b.
Proof. intros H l n E. now apply H in E. Qed.
Lemma seq_ok a b l n : oseq a b = Ok (l, n) <-> exists l1 n1 l2 n2, a = Ok (l1, n1) /\ b = Ok (l2, n2) /\ l = l1 ++ l2 /\ n = n1 + n2.
Proof.
  unfold oseq. split.
  - destruct a as [[l1 n1]|e| |]; try discriminate. destruct b as [[l2 n2]|e| |]; try discriminate. cbn. intro E. injection E as <- <-. eauto 10.
  - intros (l1 & n1 & l2 & n2 & -> & -> & -> & ->). reflexivity.
Qed.
Lemma ro_seq a b c d : ro a b -> ro c d -> ro (oseq a c) (oseq b d).
Proof.
  intros H K l n E. apply seq_ok in E as (l1 & n1 & l2 & n2 & E1 & E2 & -> & ->). apply H in E1 as (l1' & E1 & P1). apply K in E2 as (l2' & E2 & P2).
  exists (l1' ++ l2'). split; [apply seq_ok; eauto 10|now apply Permutation_app].
Qed.
Lemma ro_all {A B} (R : A -> B -> Prop) (f : A -> res out) (g : B -> res out) l l' : Forall2 R l l' -> (forall x y, R x y -> ro (f x) (g y)) -> ro (oall f l) (oall g l').
Proof. intros F H. induction F as [|x y l l' E F IH]; [apply ro_refl|]. cbn. apply ro_seq; auto. Qed.
Lemma ro_same {A} (f g : A -> res out) l : (forall x, ro (f x) (g x)) -> ro (oall f l) (oall g l).
Proof. intro H. induction l as [|x l IH]; [apply ro_refl|]. cbn. now apply ro_seq. Qed.
Lemma ro_perm {A} (f : A -> res out) l l' : Permutation l l' -> ro (oall f l) (oall f l').
Proof.
  induction 1 as [|x l l' P IH|x y l|l l1 l2 P1 IH1 P2 IH2].
  - apply ro_refl.
  - cbn. apply ro_seq; [apply ro_refl|exact IH].
  - intros o n E. cbn in *. apply seq_ok in E as (l1 & n1 & l2 & n2 & E1 & E2 & -> & ->). apply seq_ok in E2 as (l3 & n3 & l4 & n4 & E2 & E3 & -> & ->).
    exists (l3 ++ l1 ++ l4). split; [|rewrite !app_assoc; apply Permutation_app_tail, Permutation_app_comm]. apply seq_ok. exists l3, n3, (l1 ++ l4), (n1 + n4). split; [exact E2|]. split; [apply seq_ok; eauto 10|]. split; [reflexivity|lia].
  - now apply (ro_trans _ (oall f l1)).
Qed.
Lemma ro_childs (f g : tree -> res out) cs ds cs' : Permutation cs ds -> Forall2 teq ds cs' -> (forall c d, teq c d -> ro (f c) (g d)) -> ro (oall f cs) (oall g cs').
Proof. intros P F H. apply (ro_trans _ (oall f ds)); [now apply ro_perm|]. now apply (ro_all teq). Qed.
Lemma childs_null cs ds cs' : Permutation cs ds -> Forall2 teq ds cs' -> null cs' = null cs.
Proof.
  intros P F. destruct cs as [|c cs]; [apply Permutation_nil in P; subst; inversion F; reflexivity|]. destruct F; [|reflexivity]. apply Permutation_sym, Permutation_nil in P. discriminate.
Qed.
Definition ro2 (a b : res (out * str)) : Prop := forall l n s, a = Ok (l, n, s) -> exists l', b = Ok (l', n, s) /\ Permutation l l'.
Definition all_ro (f : nat) : Prop :=
  (forall t t' s, teq t t' -> ro (t_match f t s) (t_match f t' s)) /\ (forall t t' s b, teq t t' -> ro (t_match_star f t s b) (t_match_star f t' s b)) /\
  (forall t t' l l' s, teq t t' -> sl_vals l = sl_vals l' -> ro2 (t_match_star_list f t l s) (t_match_star_list f t' l' s)) /\
  (forall t t' s its its', teq t t' -> Forall2 ieq its its' -> ro (t_items f t s its) (t_items f t' s its')) /\
  (forall t t' s its its', teq t t' -> Forall2 ieq its its' -> ro (t_star_items f t s its) (t_star_items f t' s its')) /\
  (forall t t' l l' s its its', teq t t' -> sl_vals l = sl_vals l' -> Forall2 ieq its its' -> ro (t_star_items_list f t l s its) (t_star_items_list f t' l' s its')).
Lemma ieq_answers a b s : ieq a b -> item_match a s = item_match b s /\ item_find a s = item_find b s.
Proof. intros [E _]. now apply c17_equal_answers_l. Qed.
Lemma ieq_list l l' : ieq (IList l) (IList l') -> sl_vals l = sl_vals l' /\ sl_optional l = sl_optional l'.
Proof. intros [E _]. cbn in E. apply sl_equal_eq in E as (A & _ & C). unfold sl_optional. now rewrite A. Qed.
Lemma forall2_null {A} (R : A -> A -> Prop) l l' : Forall2 R l l' -> null l' = null l.
Proof. intro F. now destruct F. Qed.
(** The loops over the values of a list after a star. *)
Definition go_loop (s : str) (k : str -> res out) :=
  fix go (vs : list str) (offset : option nat) (o : out) : res (out * option nat) :=
               match vs with
               | [] => Ok (o, offset)
               | v :: vs' =>
                   match find_val s v with
                   | None => go vs' offset o
                   | Some i =>
                       let offset' := match offset with
                                      | None => Some i
                                      | Some p => if p <? i then Some i else Some p
                                      end in
                       bind (k (skipn (i + length v) s)) (fun o' => go vs' offset' (out_app o o'))
                   end
               end.
Lemma go_ro s k k' (K : forall x, ro (k x) (k' x)) : forall vs offset l m l1 n x, go_loop s k vs offset (l, m) = Ok (l1, n, x) ->
  forall l', Permutation l l' -> exists l1', go_loop s k' vs offset (l', m) = Ok (l1', n, x) /\ Permutation l1 l1'.
Proof.
  induction vs as [|v vs IH]; intros offset l m l1 n x E l' P; cbn [go_loop] in *.
  - injection E as <- <- <-. eauto.
  - destruct (find_val s v) as [i|]; [|eapply IH; eauto]. destruct (k (skipn (i + length v) s)) as [[l2 n2]|e| |] eqn:E2; try discriminate. cbn [bind] in E.
    apply K in E2 as (l2' & E2 & P2). rewrite E2. cbn [bind]. unfold out_app in *. cbn [fst snd] in *. eapply IH; [exact E|]. now apply Permutation_app.
Qed.
Ltac flags fl a b E := destruct fl; try (destruct a, b; try discriminate E; apply ro_refl).
Lemma tree_ro f : all_ro f.
Proof.
  induction f as [|f (H1 & H2 & H3 & H4 & H5 & H6)]; [split; [|split; [|split; [|split; [|split]]]]; intros; intros ? **; discriminate|].
  assert (Here : forall tm cs ds cs' s, Permutation cs ds -> Forall2 teq ds cs' ->
    ro (oseq (emit_if (null s) tm) (oall (fun c => t_match f c s) cs)) (oseq (emit_if (null s) tm) (oall (fun c => t_match f c s) cs'))).
  { intros. apply ro_seq; [apply ro_refl|]. eapply ro_childs; eauto. }
  assert (Stars : forall cs ds cs' s b, Permutation cs ds -> Forall2 teq ds cs' -> ro (oall (fun c => t_match_star f c s b) cs) (oall (fun c => t_match_star f c s b) cs')).
  { intros. eapply ro_childs; eauto. }
  assert (SHere : forall tm cs ds cs' s, Permutation cs ds -> Forall2 teq ds cs' ->
    ro (oseq (Ok (emit tm)) (oall (fun c => t_match_star f c s true) cs)) (oseq (Ok (emit tm)) (oall (fun c => t_match_star f c s true) cs'))).
  { intros. apply ro_seq; [apply ro_refl|]. eapply ro_childs; eauto. }
  split; [|split; [|split; [|split; [|split]]]].
  - intros t t' s T. assert (T0 := T). destruct T as [i j r tm cs ds cs' Q P F]. rewrite (t_match_S f _ s), (t_match_S f _ s). cbv beta iota zeta.
    destruct i as [i|], j as [j|]; try easy. cbn in Q. rewrite <- (ieq_min _ _ Q). destruct (zlen s <? item_min i)%Z; [apply ro_refl|].
    destruct (ieq_answers _ _ s Q) as [<- _]. destruct (item_match i s) as [[off|] fl]; [|apply ro_refl]. assert (E := proj1 Q).
    flags fl i j E; try (eapply Here; eassumption).
    + destruct i, j; try discriminate E; try apply ro_refl. destruct (ieq_list _ _ Q) as [V O]. rewrite <- V, <- O. apply ro_seq; [destruct (sl_optional l); [eapply Here; eassumption|apply ro_refl]|].
      apply ro_same. intro v. destruct (match_val (skipn off s) v); [eapply Here; eassumption|apply ro_refl].
    + rewrite (childs_null _ _ _ P F). destruct (null cs); [apply ro_refl|eapply Stars; eassumption].
    + destruct i, j; try discriminate E; try apply ro_refl. destruct (group_ieq _ _ _ _ _ _ Q) as [<- V]. apply ro_seq; [destruct (group_optional minsize); [eapply Here; eassumption|apply ro_refl]|].
      eapply ro_all; [exact V|]. intros v v' Hv. now apply H4.
  - intros t t' s b T. assert (T0 := T). destruct T as [i j r tm cs ds cs' Q P F]. rewrite (t_match_star_S f _ s b), (t_match_star_S f _ s b). cbv beta iota zeta.
    destruct i as [i|], j as [j|]; try easy. cbn in Q. rewrite <- (ieq_min _ _ Q). destruct (zlen s <? item_min i)%Z; [apply ro_refl|].
    destruct (ieq_answers _ _ s Q) as [_ <-]. destruct (item_find i s) as [[[off|] len] fl]; [|apply ro_refl]. assert (E := proj1 Q).
    assert (Sh : forall x b0, ro (let '(_, n) := decode_rune x in if Nat.eqb n 0 then Ok out_none else t_match_star f (TNode (Some i) r tm cs) (skipn n x) b0)
      (let '(_, n) := decode_rune x in if Nat.eqb n 0 then Ok out_none else t_match_star f (TNode (Some j) r tm cs') (skipn n x) b0)).
    { intros x b0. destruct (decode_rune x) as [q n]. destruct (Nat.eqb n 0); [apply ro_refl|now apply H2]. }
    flags fl i j E.
    + destruct (after_found len (skipn off s)) as [sub|]; [|apply ro_refl]. rewrite (childs_null _ _ _ P F). apply ro_seq; [|apply Sh]. destruct (_ && _ && _); [apply ro_refl|eapply ro_childs; eauto].
    + destruct i, j; try discriminate E; try apply ro_refl. destruct (ieq_list _ _ Q) as [V O]. rewrite <- O. apply ro_seq; [destruct (sl_optional l && b); [eapply SHere; eassumption|apply ro_refl]|].
      intros o n X. destruct (t_match_star_list f (TNode (Some (IList l)) r tm cs) l (skipn off s)) as [[[l1 n1] s1]|e| |] eqn:X1; try discriminate. cbn [bind] in X.
      apply (H3 _ _ _ _ _ T0 V) in X1 as (l1' & X1 & P1). rewrite X1. cbn [bind]. destruct (decode_rune s1) as [q k].
      apply seq_ok in X as (la & na & lb & nb & X & Y & -> & ->). injection X as <- <-.
      apply (Sh (skipn k s1)) in Y as (lb' & Y & PY). exists (l1' ++ lb'). split; [apply seq_ok; eauto 10|now apply Permutation_app].
    + rewrite (childs_null _ _ _ P F). destruct (_ && _); [apply ro_refl|eapply Stars; eassumption].
    + destruct i, j; try discriminate E; try apply ro_refl. destruct (group_ieq _ _ _ _ _ _ Q) as [<- V]. apply ro_seq; [destruct (group_optional minsize); [eapply SHere; eassumption|apply ro_refl]|].
      eapply ro_all; [exact V|]. intros v v' Hv. now apply H5.
  - intros t t' l l' s T V. assert (T0 := T). destruct T as [i j r tm cs ds cs' Q P F]. rewrite (t_match_star_list_S f _ l s), (t_match_star_list_S f _ l' s). cbv beta iota zeta. rewrite <- V.
    intros o n x X.
    match type of X with bind (?g ?va ?vb ?vc) _ = _ => change (g va vb vc) with (go_loop s (fun s => oseq (emit_if (null s) tm) (oall (fun c => t_match f c s) cs)) va vb vc) in X end.
    match goal with |- exists _, bind (?g ?va ?vb ?vc) _ = _ /\ _ => change (g va vb vc) with (go_loop s (fun s => oseq (emit_if (null s) tm) (oall (fun c => t_match f c s) cs')) va vb vc) end.
    unfold out_none in *. destruct (go_loop _ _ _ _ _) as [[[l1 n1] offset]|e| |] eqn:G; try discriminate. cbn [bind] in X. eapply go_ro in G as (l1' & G & P1); [|intro z; eapply Here; eassumption|reflexivity]. rewrite G. cbn [bind].
    destruct offset as [k|]; [|injection X as <- <- <-; eauto]. destruct (decode_rune (skipn k s)) as [q m]. destruct (Nat.eqb m 0); [injection X as <- <- <-; eauto|].
    destruct (t_match_star_list f (TNode i r tm cs) l (skipn m (skipn k s))) as [[[l2 n2] s2]|e| |] eqn:Y; try discriminate. cbn [bind] in X. injection X as <- <- <-.
    apply (H3 _ _ _ _ _ T0 V) in Y as (l2' & Y & P2). rewrite Y. cbn [bind]. exists (l1' ++ l2'). split; [reflexivity|now apply Permutation_app].
  - intros t t' s its its' T I2. assert (T0 := T). destruct T as [i0 j0 r tm cs ds cs' Q0 P F]. rewrite (t_items_S f _ s its), (t_items_S f _ s its'). cbv beta iota zeta.
    assert (I0 := I2). destruct I2 as [|i j rest rest' Q IR]; [eapply Here; eassumption|]. rewrite <- (ieq_min _ _ Q). destruct (zlen s <? item_min i)%Z; [apply ro_refl|].
    destruct (ieq_answers _ _ s Q) as [<- _]. destruct (item_match i s) as [[off|] fl]; [|apply ro_refl]. assert (E := proj1 Q). rewrite (forall2_null _ _ _ IR).
    flags fl i j E; try (now apply H4).
    + destruct i, j; try discriminate E; try apply ro_refl. destruct (ieq_list _ _ Q) as [V O]. rewrite <- V, <- O. destruct (sl_optional l && null rest); [eapply Here; eassumption|].
      apply ro_seq; [destruct (sl_optional l); [now apply H4|apply ro_refl]|].
      clear V. induction (sl_vals l) as [|v vs IH]; [apply ro_refl|]. destruct (match_val (skipn off s) v); [|exact IH]. destruct (null rest); [eapply Here; eassumption|]. apply ro_seq; [now apply H4|exact IH].
    + destruct (null rest); [eapply SHere; eassumption|]. apply ro_seq; [now apply H5|now apply H4].
    + destruct i, j; try discriminate E; try apply ro_refl. destruct (group_ieq _ _ _ _ _ _ Q) as [<- V]. destruct (group_optional minsize && null rest); [eapply Here; eassumption|].
      apply ro_seq; [destruct (group_optional minsize); [now apply H4|apply ro_refl]|]. eapply ro_all; [exact V|]. intros v v' Hv. now apply H4.
  - intros t t' s its its' T I2. assert (T0 := T). destruct T as [i0 j0 r tm cs ds cs' Q0 P F]. rewrite (t_star_items_S f _ s its), (t_star_items_S f _ s its'). cbv beta iota zeta.
    assert (I0 := I2). destruct I2 as [|i j rest rest' Q IR]; [eapply SHere; eassumption|]. rewrite <- (ieq_min _ _ Q). destruct (zlen s <? item_min i)%Z; [apply ro_refl|].
    destruct (ieq_answers _ _ s Q) as [_ <-]. destruct (item_find i s) as [[[off|] len] fl]; [|apply ro_refl]. assert (E := proj1 Q). rewrite (forall2_null _ _ _ IR).
    flags fl i j E.
    + destruct (after_found len (skipn off s)) as [sub|]; [|apply ro_refl]. apply ro_seq; [now apply H4|]. destruct (decode_rune (skipn off s)) as [q m]. destruct (Nat.eqb m 0); [apply ro_refl|now apply H5].
    + destruct i, j; try discriminate E; try apply ro_refl. destruct (ieq_list _ _ Q) as [V O]. rewrite <- O.
      apply ro_seq; [destruct (sl_optional l); [destruct (null rest); [eapply SHere; eassumption|now apply H5]|apply ro_refl]|now apply H6].
    + destruct (null rest); [eapply SHere; eassumption|now apply H5].
    + destruct i, j; try discriminate E; try apply ro_refl. destruct (group_ieq _ _ _ _ _ _ Q) as [<- V].
      apply ro_seq; [destruct (group_optional minsize); [destruct (null rest); [eapply Here; eassumption|now apply H5]|apply ro_refl]|]. eapply ro_all; [exact V|]. intros v v' Hv. now apply H5.
  - intros t t' l l' s its its' T V IR. assert (T0 := T). destruct T as [i j r tm cs ds cs' Q P F]. rewrite (t_star_items_list_S f _ l s its), (t_star_items_list_S f _ l' s its'). cbv beta iota zeta. rewrite <- V.
    rewrite (forall2_null _ _ _ IR). intros o n X.
    assert (K : forall z : str, ro (if null its then oseq (emit_if (null z) tm) (oall (fun c => t_match f c z) cs) else t_items f (TNode i r tm cs) z its)
      (if null its then oseq (emit_if (null z) tm) (oall (fun c => t_match f c z) cs') else t_items f (TNode j r tm cs') z its')) by (intro z; destruct (null its); [eapply Here; eassumption|now apply H4]).
    match type of X with bind (?g ?va ?vb ?vc) _ = _ => change (g va vb vc) with (go_loop s (fun s => if null its then oseq (emit_if (null s) tm) (oall (fun c => t_match f c s) cs) else t_items f (TNode i r tm cs) s its) va vb vc) in X end.
    match goal with |- exists _, bind (?g ?va ?vb ?vc) _ = _ /\ _ => change (g va vb vc) with (go_loop s (fun s => if null its then oseq (emit_if (null s) tm) (oall (fun c => t_match f c s) cs') else t_items f (TNode j r tm cs') s its') va vb vc) end.
    unfold out_none in *. destruct (go_loop _ _ _ _ _) as [[[l1 n1] offset]|e| |] eqn:G; try discriminate. cbn [bind] in X. eapply (go_ro s _ _ K) in G as (l1' & G & P1); [|reflexivity]. rewrite G. cbn [bind].
    destruct offset as [k|]; [|injection X as <- <-; eauto]. destruct (decode_rune (skipn k s)) as [q m]. destruct (Nat.eqb m 0); [injection X as <- <-; eauto|].
    apply seq_ok in X as (la & na & lb & nb & X & Y & -> & ->). injection X as <- <-. apply (H6 _ _ _ _ _ _ _ T0 V IR) in Y as (lb' & Y & PY).
    exists (l1' ++ lb'). split; [apply seq_ok; eauto 10|now apply Permutation_app].
Qed.

(** ** Trees that hold the same globs *)
Definition sub (t t' : tree) : Prop := forall p x, holds t p x -> exists p', eqp p p' /\ holds t' p' x.
Definition sub1 (t t' : tree) : Prop := forall p x, p <> [] -> holds t p x -> exists p', eqp p p' /\ holds t' p' x.
Definition fit (c : tree) : Prop := wd c /\ all_live c /\ every std c.
Lemma same_trans a b c : same a b -> same b c -> same a c.
Proof.
  intros (i & j & A1 & A2 & A3) (j' & k & B1 & B2 & B3). assert (j' = j) as -> by congruence. exists i, k. repeat split; auto; eapply eqe_trans; eauto.
Qed.
Lemma every_item P c : every P c -> exists i, t_item c = Some i /\ P i.
Proof. intro H. destruct H. cbn. eauto. Qed.
Lemma fit_child t c : wd t -> all_live t -> (forall d, In d (t_childs t) -> every std d) -> In c (t_childs t) -> fit c /\ live c.
Proof.
  intros W L E I. destruct (every_item _ _ (E c I)) as (i & Ei & _). split; [split; [|split]|].
  - inversion W; subst. cbn in I. auto.
  - intros p n N H. apply (L ((i, t_reverse c) :: p) n); [discriminate|]. cbn. eauto.
  - auto.
  - apply (L [(i, t_reverse c)] c); [discriminate|]. cbn. eauto.
Qed.
Lemma pairs_of t : wd t -> ForallOrdPairs (fun c d => ~ same c d) (t_childs t).
Proof. intro W. now inversion W. Qed.
(** The child that corresponds to a child. *)
Lemma partner t t' c : sub1 t t' -> sub1 t' t -> wd t -> wd t' -> all_live t -> (forall d, In d (t_childs t) -> every std d) -> (forall d, In d (t_childs t') -> every std d) ->
  In c (t_childs t) -> exists c', In c' (t_childs t') /\ same c c' /\ sub c c' /\ sub c' c.
Proof.
  intros S S' W W' L E E' I. destruct (fit_child t c W L E I) as [_ (p & x & H)]. destruct (every_item _ _ (E c I)) as (i & Ei & _).
  assert (Up : forall q y, holds c q y -> exists c' q', In c' (t_childs t') /\ same c c' /\ eqp q q' /\ holds c' q' y).
  { intros q y Hq. destruct (S ((i, t_reverse c) :: q) y) as (q' & Q & Hq'); [discriminate|apply holds_cons; eauto|].
    inversion Q as [|? [i' r'] ? q2 Q1 Q2]; subst. apply holds_cons in Hq' as (c' & I' & Ei' & Er' & Hc'). exists c', q2. split; [exact I'|]. split; [|auto]. exists i, i'. subst r'. auto. }
  destruct (Up p x H) as (c' & p' & I' & Sm & _ & _). exists c'. split; [exact I'|]. split; [exact Sm|]. split.
  - intros q y Hq. destruct (Up q y Hq) as (c2 & q' & I2 & S2 & Q & Hq'). assert (c2 = c') as -> by (apply (pairs_unique (t_childs t') (pairs_of _ W')); auto; apply (same_trans _ c); auto; now apply same_sym). eauto.
  - intros q y Hq. destruct (every_item _ _ (E' c' I')) as (i' & Ei' & _).
    destruct (S' ((i', t_reverse c') :: q) y) as (q' & Q & Hq'); [discriminate|apply holds_cons; eauto|].
    inversion Q as [|? [i2 r2] ? q2 Q1 Q2]; subst. apply holds_cons in Hq' as (c2 & I2 & Ei2 & Er2 & Hc2).
    assert (same c' c2) by (exists i', i2; subst r2; auto). assert (c2 = c) as -> by (apply (pairs_unique (t_childs t) (pairs_of _ W)); auto; apply (same_trans _ c'); apply same_sym; auto). eauto.
Qed.
Lemma match_kids (R : tree -> tree -> Prop) : forall cs' cs, ForallOrdPairs (fun c d => ~ same c d) cs -> ForallOrdPairs (fun c d => ~ same c d) cs' ->
  (forall c, In c cs -> exists c', In c' cs' /\ same c c') -> (forall c', In c' cs' -> exists c, In c cs /\ same c c') ->
  (forall c c', In c cs -> In c' cs' -> same c c' -> R c c') -> exists ds, Permutation cs ds /\ Forall2 R ds cs'.
Proof.
  induction cs' as [|d cs' IH]; intros cs W W' A B C.
  - destruct cs as [|c cs]; [exists []; split; constructor|]. destruct (A c (or_introl eq_refl)) as (? & [] & _).
  - destruct (B d (or_introl eq_refl)) as (c & I & Sm). destruct (in_split _ _ I) as (a & b & ->).
    assert (P : Permutation (a ++ c :: b) (c :: a ++ b)) by (symmetry; apply Permutation_middle).
    assert (J : forall x, In x (a ++ b) -> In x (a ++ c :: b)) by (intros x Ix; apply in_app_or in Ix; apply in_or_app; cbn; tauto).
    assert (Un := pairs_unique _ W). assert (Un' := pairs_unique _ W').
    assert (Wc : forall x, In x (a ++ b) -> ~ same x c).
    { intros x Ix Sx. clear - W Ix Sx. induction a as [|y a IH]; cbn in *.
      - inversion W as [|? ? F _]; subst. rewrite Forall_forall in F. apply (F x Ix). now apply same_sym.
      - inversion W as [|? ? F W2]; subst. destruct Ix as [<-|Ix]; [|now apply IH]. rewrite Forall_forall in F. apply (F c); [apply in_or_app; cbn; auto|exact Sx]. }
    inversion W' as [|? ? F W2]; subst. rewrite Forall_forall in F.
    destruct (IH (a ++ b)) as (ds & P2 & F2); auto.
    + clear - W. induction a as [|y a IH]; cbn in *; inversion W as [|? ? F W2]; subst; auto. constructor; [|now apply IH]. rewrite Forall_forall in *. intros z Iz. apply F. apply in_app_or in Iz. apply in_or_app. cbn. tauto.
    + intros x Ix. destruct (A x (J x Ix)) as (x' & [<-|Ix'] & Sx); [|eauto]. exfalso. apply (Wc x Ix). apply (same_trans _ d); auto. now apply same_sym.
    + intros x' Ix'. destruct (B x' (or_intror Ix')) as (x & Ix & Sx). exists x. split; [|exact Sx]. apply in_app_or in Ix. apply in_or_app. destruct Ix as [Ix|[<-|Ix]]; auto.
      exfalso. apply (F x' Ix'). apply (same_trans _ c); auto. now apply same_sym.
    + intros x x' Ix Ix' Sx. apply C; auto. now right.
    + exists (c :: ds). split; [rewrite P; now constructor|]. constructor; auto. apply C; auto. now left.
Qed.
Lemma same_oeq c c' : every std c -> every std c' -> same c c' -> oeq (t_item c) (t_item c') /\ t_reverse c = t_reverse c'.
Proof.
  intros E E' (i & j & A & B & [Q1 Q2]). destruct (every_item _ _ E) as (i' & Ei & Si). destruct (every_item _ _ E') as (j' & Ej & Sj). assert (i' = i) as -> by congruence. assert (j' = j) as -> by congruence.
  rewrite A, B. split; [|exact Q2]. split; auto.
Qed.
Lemma kids_teq t t' : wd t -> wd t' -> all_live t -> all_live t' -> (forall d, In d (t_childs t) -> every std d) -> (forall d, In d (t_childs t') -> every std d) -> sub1 t t' -> sub1 t' t ->
  (forall c c', In c (t_childs t) -> fit c -> fit c' -> same c c' -> sub c c' -> sub c' c -> teq c c') -> exists ds, Permutation (t_childs t) ds /\ Forall2 teq ds (t_childs t').
Proof.
  intros W W' L L' E E' S S' R. apply match_kids; auto using pairs_of.
  - intros c I. destruct (partner t t' c) as (c' & A & B & _); eauto.
  - intros c' I. destruct (partner t' t c') as (c & A & B & _); auto. exists c. split; [exact A|now apply same_sym].
  - intros c c' I I' Sm. destruct (partner t t' c) as (c2 & A & B & C & D); auto. assert (c2 = c') as -> by (apply (pairs_unique _ (pairs_of _ W')); auto; apply (same_trans _ c); auto; now apply same_sym).
    apply R; auto; [apply (fit_child t)|apply (fit_child t')]; auto.
Qed.
Lemma fit_teq : forall c, wd c -> forall c', fit c -> fit c' -> same c c' -> sub c c' -> sub c' c -> teq c c'.
Proof.
  induction 1 as [i r tm cs W0 W1 IH]. intros [j r' tm' cs'] (W & L & E) (W' & L' & E') Sm S S'.
  destruct (same_oeq _ _ E E' Sm) as [Q Qr]. cbn [t_item t_reverse] in Q, Qr. subst r'.
  assert (tm' = tm) as ->.
  { destruct tm as [x|].
    - destruct (S [] x) as (p & Q1 & n & H1 & H2); [exists (TNode i r (Some x) cs); split; reflexivity|]. inversion Q1; subst. cbn in H1. subst n. exact H2.
    - destruct tm' as [x|]; [|reflexivity]. destruct (S' [] x) as (p & Q1 & n & H1 & H2); [exists (TNode j r (Some x) cs'); split; reflexivity|]. inversion Q1; subst. cbn in H1. subst n. symmetry. exact H2. }
  assert (N : forall a b, sub a b -> sub1 a b) by (intros a b H p x _; apply H).
  destruct (kids_teq (TNode i r tm cs) (TNode j r tm cs')) as (ds & P & F); auto.
  - intros d I. inversion E; subst. auto.
  - intros d I. inversion E'; subst. auto.
  - cbn [t_childs] in *. econstructor; eauto.
Qed.
Lemma last_equal a b s : item_equal a b = true -> item_match_last a s = item_match_last b s.
Proof. intro E. apply equal_erase in E. destruct a, b; try discriminate; cbn in E; try (injection E; intros; subst; reflexivity). destruct rs, rs0; cbn in E. injection E; intros; subst. reflexivity. Qed.
Lemma root_ro f t t' ds s : Permutation (t_childs t) ds -> Forall2 teq ds (t_childs t') -> ro (tree_match f t s) (tree_match f t' s).
Proof.
  intros P F. unfold tree_match. eapply ro_childs; [exact P|exact F|]. intros c d T. assert (T0 := T). destruct T as [i j r tm cs es cs' Q P2 F2]. cbn [t_reverse]. destruct (tree_ro f) as [H1 _].
  destruct r; [|now apply H1]. cbn [t_item t_term t_childs]. destruct i as [i|], j as [j|]; try easy. cbn in Q. rewrite <- (ieq_min _ _ Q). destruct (zlen s <? item_min i)%Z; [apply ro_refl|].
  rewrite <- (last_equal _ _ s (proj1 Q)). destruct (item_match_last i s) as [[off fl]|e| |]; cbn [bind]; try apply ro_refl. destruct fl; try apply ro_refl. destruct off; [|apply ro_refl].
  apply ro_seq; [apply ro_refl|]. eapply ro_childs; eauto.
Qed.
(** Registering the same globs gives the same answers up to order. *)
Lemma registry_ro E E' gt gt' : every_inv E gt -> every_inv E' gt' -> (forall e, In e E <-> In e E') -> forall f s, ro (gt_match f gt s) (gt_match f gt' s).
Proof.
  intros [T V] [T' V'] IE f s.
  assert (St : forall E0 gt0, tree_inv E0 gt0 -> every_inv E0 gt0 -> rooted std (gt_root gt0)).
  { intros E0 gt0 (_ & T2 & _) [_ V0]. apply V0; [split; exact I|]. intros e g Ie G. now apply parse_std in G. }
  assert (Sb : forall E1 E2 gt1 gt2, tree_inv E1 gt1 -> tree_inv E2 gt2 -> (forall e, In e E1 -> In e E2) -> sub1 (gt_root gt1) (gt_root gt2)).
  { intros E1 E2 gt1 gt2 (_ & _ & A & _) (_ & _ & _ & B & _) IE2 p x N H. destruct (A p x N H) as (e & g & Ie & G & -> & Q).
    destruct (B e g (IE2 e Ie) G) as (p' & Q' & H'); [intro Z; rewrite (path_literal _ _ G Z) in Q; inversion Q; subst; now elim N|]. exists p'. split; auto. apply (eqp_trans _ (glob_path g)); auto. now apply eqp_sym. }
  assert (T0 := T). assert (T0' := T'). destruct T as (_ & _ & _ & _ & L & W & _). destruct T' as (_ & _ & _ & _ & L' & W' & _).
  destruct (kids_teq (gt_root gt) (gt_root gt')) as (ds & P & F); auto.
  - apply (St E gt); [exact T0|split; auto].
  - apply (St E' gt'); [exact T0'|split; auto].
  - apply (Sb E E'); auto. intros e. apply IE.
  - apply (Sb E' E); auto. intros e. apply IE.
  - intros c c' I Fc Fc' Sm S1 S2. apply fit_teq; auto. apply Fc.
  - unfold gt_match. eapply root_ro; eauto.
Qed.
