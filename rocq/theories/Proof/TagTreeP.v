(** Trees of tag queries: what they hold and what they report. *)
From Coq Require Import Lia ZifyBool ZifyN ZifyNat Permutation Sorting.Sorted.
From Verif Require Import Model.GTags Spec.TagSpec Spec.RegistrySpec Spec.TagTreeSpec Proof.SortP Proof.TagsP Proof.KeyP Proof.TermsP Proof.CondP Proof.RoundP Proof.TotalP Proof.RegistryP.

(** Induction on the nodes. *)
Section Ind.
  Variables (P : titem -> Prop) (Q : tslot -> Prop).
  Hypothesis Hi : forall tm e slots, Forall Q slots -> P (TItem tm e slots).
  Hypothesis Hs : forall k nm m, Forall P nm -> Forall P m -> Q (TSlot k nm m).
  Fixpoint ti_ind (i : titem) : P i :=
    match i with
    | TItem tm e slots => Hi tm e slots ((fix go l : Forall Q l := match l with [] => Forall_nil Q | s :: r => Forall_cons s (ts_ind s) (go r) end) slots)
    end
  with ts_ind (s : tslot) : Q s :=
    match s with
    | TSlot k nm m => Hs k nm m
        ((fix go l : Forall P l := match l with [] => Forall_nil P | c :: r => Forall_cons c (ti_ind c) (go r) end) nm)
        ((fix go l : Forall P l := match l with [] => Forall_nil P | c :: r => Forall_cons c (ti_ind c) (go r) end) m)
    end.
End Ind.

(** The queries below a node: the conditions on the way and the query. *)
Definition pathed := (list tterm * term)%type.
Definition own (e : option term) : list pathed := match e with Some x => [([], x)] | None => [] end.
Definition under (t : tterm) (l : list pathed) : list pathed := map (fun px => (t :: fst px, snd px)) l.
Section Flat.
  Variable rec : titem -> list pathed.
  Definition branch (c : titem) : list pathed := match ti_term c with Some t => under t (own (ti_end c) ++ rec c) | None => [] end.
  Fixpoint branches (l : list titem) : list pathed := match l with [] => [] | c :: r => branch c ++ branches r end.
End Flat.
Fixpoint flat (i : titem) : list pathed :=
  match i with TItem _ _ slots => (fix go l := match l with [] => [] | s :: r => flat_slot s ++ go r end) slots end
with flat_slot (s : tslot) : list pathed :=
  match s with
  | TSlot _ nm m =>
      (fix go l := match l with [] => [] | c :: r => (match ti_term c with Some t => under t (own (ti_end c) ++ flat c) | None => [] end) ++ go r end) m ++
      (fix go l := match l with [] => [] | c :: r => (match ti_term c with Some t => under t (own (ti_end c) ++ flat c) | None => [] end) ++ go r end) nm
  end.
Fixpoint flat_slots (l : list tslot) : list pathed := match l with [] => [] | s :: r => flat_slot s ++ flat_slots r end.
Lemma flat_item tm e slots : flat (TItem tm e slots) = flat_slots slots.
Proof. cbn. induction slots; cbn; congruence. Qed.
Lemma flat_slot_eq k nm m : flat_slot (TSlot k nm m) = branches flat m ++ branches flat nm.
Proof. reflexivity. Qed.
Lemma slots_app a b : flat_slots (a ++ b) = flat_slots a ++ flat_slots b.
Proof. induction a; cbn; auto. now rewrite IHa, app_assoc. Qed.

(** Well-formed nodes over a set of conditions. *)
Inductive wf_item (T : tterm -> Prop) : titem -> Prop :=
| wf_i tm e slots : Forall (wf_slot T) slots -> wf_item T (TItem tm e slots)
with wf_slot (T : tterm -> Prop) : tslot -> Prop :=
| wf_s k nm m : k <> [] -> Forall (wf_child T k true) nm -> Forall (wf_child T k false) m -> wf_slot T (TSlot k nm m)
with wf_child (T : tterm -> Prop) : str -> bool -> titem -> Prop :=
| wf_c k neg t e slots : T t -> tt_key t = k -> op_negative (tt_op t) = neg -> wf_item T (TItem (Some t) e slots) -> wf_child T k neg (TItem (Some t) e slots).

Lemma wf_mono (T T' : tterm -> Prop) : (forall t, T t -> T' t) -> forall i, wf_item T i -> wf_item T' i.
Proof.
  intros M. apply (ti_ind (fun i => wf_item T i -> wf_item T' i) (fun s => wf_slot T s -> wf_slot T' s)).
  - intros tm e slots IH W. inversion W; subst. constructor. rewrite Forall_forall in *. auto.
  - intros k nm m IHn IHm W. inversion W as [? ? ? K Wn Wm]; subst. rewrite Forall_forall in *. constructor; auto; apply Forall_forall; intros c I.
    + specialize (Wn c I). specialize (IHn c I). inversion Wn; subst. constructor; auto.
    + specialize (Wm c I). specialize (IHm c I). inversion Wm; subst. constructor; auto.
Qed.

(** ** Insertion *)
Section Ins.
  Variables (t : tterm) (rec : titem -> res titem).
  Fixpoint ins (l : list titem) : res (list titem) :=
    match l with
    | [] => bind (rec (TItem (Some t) None [])) (fun c => Ok [c])
    | c :: l' => if same_term t c then bind (rec c) (fun c' => Ok (c' :: l')) else bind (ins l') (fun l'' => Ok (c :: l''))
    end.
End Ins.
Lemma parse_cons t rest x tm e slots : ti_parse (t :: rest) x (TItem tm e slots) =
  let '(pos, slots) := find_or_append slots (tt_key t) in
  match nth_error slots pos with
  | None => Panic
  | Some (TSlot k nm m) =>
      bind (ins t (ti_parse rest x) (if op_negative (tt_op t) then nm else m)) (fun childs =>
      Ok (TItem tm e (set_nth pos (if op_negative (tt_op t) then TSlot k childs m else TSlot k nm childs) slots)))
  end.
Proof. reflexivity. Qed.
Lemma parse_nil x tm e slots : ti_parse [] (Some x) (TItem tm e slots) = Ok (TItem tm (Some x) slots).
Proof. reflexivity. Qed.

(** The slot of a key. *)
Lemma foa_loop_ok slots key : forall fuel low high, (0 <= low)%Z -> (high <= Z.of_nat (length slots) - 1)%Z ->
  match foa_loop fuel slots key low high with
  | inl mid => (0 <= mid < Z.of_nat (length slots))%Z /\ ts_key (nth (Z.to_nat mid) slots slot0) = key
  | inr h => (h <= Z.of_nat (length slots))%Z
  end.
Proof.
  induction fuel as [|f IH]; intros low high L H; cbn [foa_loop]; [lia|]. destruct (Z.leb_spec low high) as [LH|]; [|lia]. cbv zeta.
  assert (M : (low <= Z.quot (low + high) 2 <= high)%Z) by (rewrite Z.quot_div_nonneg by lia; Z.div_mod_to_equations; lia).
  set (mid := Z.quot (low + high) 2) in *. destruct (str_eqb_spec key (ts_key (nth (Z.to_nat mid) slots slot0))) as [E|N]; [split; [lia|auto]|].
  destruct (str_ltb key _).
  - destruct (Z.eqb_spec low mid); [lia|]. apply IH; lia.
  - destruct (Z.eqb_spec low high); [lia|]. apply IH; lia.
Qed.
Lemma find_or_append_ok slots key : key <> [] -> exists a nm m b, find_or_append slots key = (length a, a ++ TSlot key nm m :: b) /\
  (slots = a ++ TSlot key nm m :: b \/ (nm = [] /\ m = [] /\ slots = a ++ b)).
Proof.
  intro K. unfold find_or_append. destruct key as [|c0 key0] eqn:Ek; [easy|]. rewrite <- Ek in *. replace (null key) with false by now rewrite Ek. clear Ek c0 key0 K.
  assert (Ex : forall mid, (0 <= mid < Z.of_nat (length slots))%Z -> ts_key (nth (Z.to_nat mid) slots slot0) = key -> 
    exists a nm m b, (Z.to_nat mid, slots) = (length a, a ++ TSlot key nm m :: b) /\ (slots = a ++ TSlot key nm m :: b \/ (nm = [] /\ m = [] /\ slots = a ++ b))).
  { intros mid H E. destruct (nth_split slots slot0 (n := Z.to_nat mid)) as (a & b & Es & La); [lia|]. destruct (nth (Z.to_nat mid) slots slot0) as [k nm m]. cbn in E. subst k.
    exists a, nm, m, b. rewrite La. split; [now rewrite <- Es|now left]. }
  assert (New : forall a b, slots = a ++ b -> exists a' nm m b', (length a, a ++ TSlot key [] [] :: b) = (length a', a' ++ TSlot key nm m :: b') /\ (slots = a' ++ TSlot key nm m :: b' \/ (nm = [] /\ m = [] /\ slots = a' ++ b'))).
  { intros a b E. exists a, [], [], b. split; auto. }
  destruct slots as [|s0 sr] eqn:Es; [apply (New [] []); auto|]. rewrite <- Es in *. replace (null slots) with false by now rewrite Es.
  assert (L0 : (0 < length slots)%nat) by (rewrite Es; cbn; lia).
  destruct (str_eqb_spec key name_key) as [->|N].
  - destruct (str_eqb_spec (ts_key (nth 0 slots slot0)) name_key) as [E|E]; [apply (Ex 0%Z); [lia|auto]|]. apply (New [] slots); auto.
  - cbv zeta. assert (H := foa_loop_ok slots key (S (length slots)) (if str_eqb (ts_key (nth 0 slots slot0)) name_key then 1%Z else 0%Z) (Z.of_nat (length slots) - 1)%Z ltac:(destruct (str_eqb _ _); lia) ltac:(lia)).
    destruct (foa_loop _ _ _ _ _) as [mid|h].
    + apply Ex; tauto.
    + destruct (Z.eqb_spec h (Z.of_nat (length slots))) as [->|].
      * rewrite Nat2Z.id. apply (New slots []). now rewrite app_nil_r.
      * destruct (Z.leb_spec h 0); [apply (New [] slots); auto|].
        assert (La : length (firstn (Z.to_nat h) slots) = Z.to_nat h) by (rewrite firstn_length; lia).
        assert (N' := New (firstn (Z.to_nat h) slots) (skipn (Z.to_nat h) slots) ltac:(now rewrite firstn_skipn)). rewrite La in N'. exact N'.
Qed.
Lemma set_nth_mid {A} (a : list A) x y b : set_nth (length a) y (a ++ x :: b) = a ++ y :: b.
Proof. induction a; cbn; auto. now rewrite IHa. Qed.
Lemma nth_error_mid {A} (a : list A) x b : nth_error (a ++ x :: b) (length a) = Some x.
Proof. rewrite nth_error_app2, Nat.sub_diag by lia. reflexivity. Qed.

Definition sim (p q : list tterm) : Prop := map condition p = map condition q.
Definition fresh (p : list tterm) (l : list pathed) : Prop := forall q y, In (q, y) l -> ~ sim q p.
Definition adds (T : tterm -> Prop) (p : list tterm) (x : term) (l l' : list pathed) : Prop :=
  exists p', sim p' p /\ Forall T p' /\ Permutation l' ((p', x) :: l).
Definition whole (i : titem) : list pathed := own (ti_end i) ++ flat i.
Lemma same_term_iff t u e slots : same_term t (TItem (Some u) e slots) = true <-> condition u = condition t.
Proof.
  unfold same_term, condition. cbn. rewrite !andb_true_iff, !str_eqb_eq. unfold op_eqb. rewrite Nat.eqb_eq. split.
  - intros [[-> E] ->]. now rewrite (op_num_inj _ _ E).
  - intros [= -> -> ->]. auto.
Qed.
Lemma under_in t q y l : In (q, y) (under t l) <-> exists q', q = t :: q' /\ In (q', y) l.
Proof.
  unfold under. rewrite in_map_iff. split.
  - intros ([q' y'] & [= <- <-] & I). eauto.
  - intros (q' & -> & I). exists (q', y). auto.
Qed.

Lemma insert_ok (T : tterm -> Prop) x : forall terms item, Forall (fun t => T t /\ tt_key t <> []) terms -> wf_item T item -> fresh terms (whole item) ->
  exists item', ti_parse terms (Some x) item = Ok item' /\ wf_item T item' /\ ti_term item' = ti_term item /\ (terms <> [] -> ti_end item' = ti_end item) /\ adds T terms x (whole item) (whole item').
Proof.
  induction terms as [|t rest IH]; intros [tm e slots] F W Fr.
  - rewrite parse_nil. eexists. split; [reflexivity|]. split; [inversion W; subst; now constructor|]. split; [reflexivity|]. split; [easy|]. exists []. split; [reflexivity|]. split; [constructor|].
    unfold whole. cbn [ti_end own]. rewrite !flat_item. destruct e as [y|]; [|reflexivity]. exfalso. apply (Fr [] y); [now left|reflexivity].
  - inversion F as [|? ? [Tt Kt] F']; subst. rewrite parse_cons. destruct (find_or_append_ok slots (tt_key t) Kt) as (a & nm & m & b & -> & Sl). rewrite nth_error_mid.
    inversion W as [? ? ? Ws]; subst.
    assert (Wa : Forall (wf_slot T) (a ++ TSlot (tt_key t) nm m :: b)).
    { destruct Sl as [<-|(-> & -> & ->)]; auto. apply Forall_app in Ws as [Wa Wb]. apply Forall_app. split; auto. constructor; auto. constructor; auto. }
    assert (Fa : flat_slots slots = flat_slots a ++ (branches flat m ++ branches flat nm) ++ flat_slots b).
    { destruct Sl as [-> |(-> & -> & ->)]; rewrite slots_app; cbn [flat_slots]; [now rewrite flat_slot_eq|reflexivity]. }
    assert (Wm := Wa). apply Forall_app in Wm as [Wl Wr]. inversion Wr as [|? ? Wk Wb]; subst. inversion Wk as [? ? ? _ Wnm Wmm]; subst.
    assert (Ins : forall l neg, op_negative (tt_op t) = neg -> Forall (wf_child T (tt_key t) neg) l -> fresh (t :: rest) (branches flat l) ->
      exists l', ins t (ti_parse rest (Some x)) l = Ok l' /\ Forall (wf_child T (tt_key t) neg) l' /\ adds T (t :: rest) x (branches flat l) (branches flat l')).
    { intros l neg En. induction l as [|c l IHl]; intros Wc Fc; cbn [ins].
      - destruct (IH (TItem (Some t) None []) F') as (c' & -> & Wc' & Tc & _ & p' & S & Fp & Pm); [repeat constructor|intros q y []|]. cbn [bind]. exists [c']. split; auto.
        destruct c' as [tc ec sc]. cbn in Tc. subst tc. split; [constructor; [now constructor|constructor]|]. exists (t :: p'). split; [unfold sim in *; cbn; now rewrite S|]. split; [now constructor|].
        cbn [branches branch ti_term]. rewrite app_nil_r. change ((t :: p', x) :: []) with (under t [(p', x)]). apply Permutation_map. exact Pm.
      - inversion Wc as [|? ? Wc1 Wc2]; subst. inversion Wc1 as [? ? u ec sc Tu Ku Nu Wu]; subst. destruct (same_term t (TItem (Some u) ec sc)) eqn:Sm.
        + apply same_term_iff in Sm. destruct (IH (TItem (Some u) ec sc) F' Wu) as (c' & -> & Wc' & Tc & _ & p' & S & Fp & Pm).
          { intros q y I Sq. apply (Fc (u :: q) y); [|unfold sim in *; cbn; now rewrite Sm, Sq]. cbn [branches branch ti_term]. apply in_or_app. left. apply under_in. eauto. }
          cbn [bind]. exists (c' :: l). split; auto. destruct c' as [tc ec' sc']. cbn in Tc. subst tc. split; [constructor; auto; now constructor|].
          exists (u :: p'). split; [unfold sim in *; cbn; now rewrite Sm, S|]. split; [now constructor|]. cbn [branches branch ti_term ti_end] in *.
          change ((u :: p', x) :: under u (own ec ++ flat (TItem (Some u) ec sc)) ++ branches flat l) with ((under u ((p', x) :: (own ec ++ flat (TItem (Some u) ec sc)))) ++ branches flat l).
          apply Permutation_app_tail. apply Permutation_map. exact Pm.
        + destruct IHl as (l' & -> & Wl' & p' & S & Fp & Pm); auto.
          { intros q y I. apply (Fc q y). cbn [branches]. apply in_or_app. now right. }
          cbn [bind]. eexists. split; [reflexivity|]. split; [constructor; auto|]. exists p'. split; auto. split; auto. cbn [branches].
          eapply Permutation_trans; [apply Permutation_app_head; exact Pm|]. apply Permutation_sym, Permutation_middle. }
    assert (Fl : forall l, (l = m \/ l = nm) -> fresh (t :: rest) (branches flat l)).
    { intros l Hl q y I. apply (Fr q y). unfold whole. apply in_or_app. right. rewrite flat_item, Fa. apply in_or_app. right. apply in_or_app. left. apply in_or_app. destruct Hl as [->| ->]; auto. }
    destruct (op_negative (tt_op t)) eqn:En.
    + destruct (Ins nm true eq_refl Wnm (Fl nm (or_intror eq_refl))) as (l' & -> & Wl' & p' & S & Fp & Pm). cbn [bind]. rewrite set_nth_mid. eexists. split; [reflexivity|]. split.
      * constructor. apply Forall_app. split; auto. constructor; auto. now constructor.
      * split; [reflexivity|]. split; [reflexivity|]. exists p'. split; auto. split; auto. unfold whole. cbn [ti_end]. rewrite !flat_item, Fa, slots_app. cbn [flat_slots]. rewrite flat_slot_eq.
        apply (Permutation_trans (l' := own e ++ flat_slots a ++ (branches flat m ++ (p', x) :: branches flat nm) ++ flat_slots b)).
        -- do 2 apply Permutation_app_head. apply Permutation_app_tail. apply Permutation_app_head. exact Pm.
        -- rewrite !app_assoc. rewrite <- (app_assoc _ ((p', x) :: branches flat nm)). apply Permutation_sym. rewrite <- !app_assoc. rewrite !app_assoc. rewrite <- !app_assoc. 
           change (((p', x) :: branches flat nm) ++ flat_slots b) with ((p', x) :: (branches flat nm ++ flat_slots b)). rewrite !app_assoc. rewrite <- (app_assoc _ (branches flat nm)). apply Permutation_middle.
    + destruct (Ins m false eq_refl Wmm (Fl m (or_introl eq_refl))) as (l' & -> & Wl' & p' & S & Fp & Pm). cbn [bind]. rewrite set_nth_mid. eexists. split; [reflexivity|]. split.
      * constructor. apply Forall_app. split; auto. constructor; auto. now constructor.
      * split; [reflexivity|]. split; [reflexivity|]. exists p'. split; auto. split; auto. unfold whole. cbn [ti_end]. rewrite !flat_item, Fa, slots_app. cbn [flat_slots]. rewrite flat_slot_eq.
        apply (Permutation_trans (l' := own e ++ flat_slots a ++ (((p', x) :: branches flat m) ++ branches flat nm) ++ flat_slots b)).
        -- do 2 apply Permutation_app_head. apply Permutation_app_tail. apply Permutation_app_tail. exact Pm.
        -- cbn [app]. rewrite app_assoc. rewrite (app_assoc (own e) (flat_slots a) ((branches flat m ++ branches flat nm) ++ flat_slots b)). apply Permutation_sym, Permutation_middle.
Qed.

(** ** Matching *)
Definition sat (rx : regexps) (tags : list tag) (t : tterm) : bool :=
  match value_of tags (tt_key t) with
  | Some v => match tt_match rx t v with Ok true => true | _ => false end
  | None => op_negative (tt_op t)
  end.
Definition hits (rx : regexps) (tags : list tag) (l : list pathed) : list term := map snd (filter (fun px => forallb (sat rx tags) (fst px)) l).
Lemma hits_app rx tags a b : hits rx tags (a ++ b) = hits rx tags a ++ hits rx tags b.
Proof. unfold hits. now rewrite filter_app, map_app. Qed.
Lemma hits_under rx tags t l : hits rx tags (under t l) = if sat rx tags t then hits rx tags l else [].
Proof.
  unfold hits, under. induction l as [|[p x] l IH]; cbn; [now destruct (sat rx tags t)|]. destruct (sat rx tags t); cbn.
  - destruct (forallb (sat rx tags) p); cbn; now rewrite IH.
  - exact IH.
Qed.
Definition full (l : list term) : res out := Ok (l, length l).
Lemma oseq_full a b : oseq (full a) (full b) = full (a ++ b).
Proof. unfold oseq, full, out_app. cbn. now rewrite app_length. Qed.
Lemma emit_full rx tags e : Ok (emit e) = full (hits rx tags (own e)).
Proof. now destruct e. Qed.

Section GoVal.
  Variables (rx : regexps) (rec : titem -> res out) (v : str).
  Fixpoint go_val (l : list titem) : res out :=
    match l with
    | [] => Ok out_none
    | c :: l' =>
        match ti_term c with
        | None => Panic
        | Some t => bind (tt_match rx t v) (fun b => if b then oseq (Ok (emit (ti_end c))) (oseq (rec c) (go_val l')) else go_val l')
        end
    end.
  Fixpoint go_abs (l : list titem) : res out :=
    match l with [] => Ok out_none | c :: l' => oseq (Ok (emit (ti_end c))) (oseq (rec c) (go_abs l')) end.
End GoVal.
Section MapMatch.
  Variables (rx : regexps) (tags : list tag) (rec : titem -> res out).
  Variable T : tterm -> Prop.
  Hypothesis ev : forall t v, T t -> value_of tags (tt_key t) = Some v -> exists b, tt_match rx t v = Ok b.
  Lemma go_val_ok k neg v : value_of tags k = Some v -> forall l, Forall (wf_child T k neg) l -> Forall (fun c => wf_item T c -> rec c = full (hits rx tags (flat c))) l ->
    go_val rx rec v l = full (hits rx tags (branches flat l)).
  Proof.
    intros V. induction l as [|c l IH]; intros W R; [reflexivity|]. inversion W as [|? ? Wc Wl]; inversion R as [|? ? Rc Rl]; subst.
    inversion Wc as [? ? t e slots Tt Kt Nt Wi]; subst. cbn [go_val ti_term]. destruct (ev t v Tt V) as (b & Eb). rewrite Eb. cbn [bind branches]. unfold branch. cbn [ti_term ti_end].
    rewrite hits_app, hits_under. unfold sat at 1. rewrite V, Eb. destruct b.
    - rewrite (IH Wl Rl), (emit_full rx tags), (Rc Wi), !oseq_full, hits_app. now rewrite app_assoc.
    - now rewrite (IH Wl Rl).
  Qed.
  Lemma go_abs_ok k : value_of tags k = None -> forall l, Forall (wf_child T k true) l -> Forall (fun c => wf_item T c -> rec c = full (hits rx tags (flat c))) l ->
    go_abs rec l = full (hits rx tags (branches flat l)).
  Proof.
    intros V. induction l as [|c l IH]; intros W R; [reflexivity|]. inversion W as [|? ? Wc Wl]; inversion R as [|? ? Rc Rl]; subst.
    inversion Wc as [? ? t e slots Tt Kt Nt Wi]; subst. cbn [go_abs branches]. unfold branch. cbn [ti_term ti_end].
    rewrite hits_app, hits_under. unfold sat at 1. rewrite V, Nt. rewrite (IH Wl Rl), (emit_full rx tags), (Rc Wi), !oseq_full, hits_app. now rewrite app_assoc.
  Qed.
  Lemma pos_abs k : value_of tags k = None -> forall l, Forall (wf_child T k false) l -> hits rx tags (branches flat l) = [].
  Proof.
    intros V. induction l as [|c l IH]; intros W; [reflexivity|]. inversion W as [|? ? Wc Wl]; subst.
    inversion Wc as [? ? t e slots Tt Kt Nt Wi]; subst. cbn [branches]. unfold branch. cbn [ti_term]. rewrite hits_app, hits_under. unfold sat at 1. rewrite V, Nt. now apply IH.
  Qed.
End MapMatch.
Lemma slot_map_eq rx key nm m tags : slot_match_map rx (TSlot key nm m) tags =
  match value_of tags key with
  | Some v => oseq (go_val rx (fun c => ti_match_map rx c tags) v m) (go_val rx (fun c => ti_match_map rx c tags) v nm)
  | None => go_abs (fun c => ti_match_map rx c tags) nm
  end.
Proof. reflexivity. Qed.
Fixpoint over_map (rx : regexps) (tags : list tag) (l : list tslot) : res out := match l with [] => Ok out_none | sl :: l' => oseq (slot_match_map rx sl tags) (over_map rx tags l') end.
Lemma item_map_eq rx tm e slots tags : ti_match_map rx (TItem tm e slots) tags = if null tags then Ok out_none else over_map rx tags slots.
Proof. cbn. destruct (null tags); auto. induction slots; cbn; [auto|]. now rewrite IHslots. Qed.

Lemma match_map_flat rx (tags : list tag) (T : tterm -> Prop) : tags <> [] -> (forall t v, T t -> value_of tags (tt_key t) = Some v -> exists b, tt_match rx t v = Ok b) ->
  forall i, wf_item T i -> ti_match_map rx i tags = full (hits rx tags (flat i)).
Proof.
  intros N Ev. apply (ti_ind (fun i => wf_item T i -> ti_match_map rx i tags = full (hits rx tags (flat i))) (fun s => wf_slot T s -> slot_match_map rx s tags = full (hits rx tags (flat_slot s)))).
  - intros tm e slots IH W. inversion W as [? ? ? Ws]; subst. rewrite item_map_eq, flat_item. replace (null tags) with false by now destruct tags.
    clear W. induction slots as [|s slots IHs]; [reflexivity|]. inversion IH; inversion Ws; subst. cbn [over_map flat_slots]. rewrite IHs, hits_app by auto. rewrite H1 by auto. apply oseq_full.
  - intros k nm m IHn IHm W. inversion W as [? ? ? K Wn Wm]; subst. rewrite slot_map_eq, flat_slot_eq, hits_app. destruct (value_of tags k) as [v|] eqn:V.
    + rewrite (go_val_ok rx tags _ T Ev k false v V m Wm IHm), (go_val_ok rx tags _ T Ev k true v V nm Wn IHn). apply oseq_full.
    + rewrite (go_abs_ok rx tags _ T k V nm Wn IHn), (pos_abs rx tags T k V m Wm). reflexivity.
Qed.

(** Matching a sorted list of tags. *)
Lemma slot_tags_eq rx key nm m tags pos : slot_match_tags rx (TSlot key nm m) tags pos =
  bind (find_key (map fst tags) key pos) (fun n =>
  match n with
  | Some i => match nth_error tags (Z.to_nat i) with
              | None => Panic
              | Some (_, v) => bind (oseq (go_val rx (fun c => ti_match_tags rx c tags) v m) (go_val rx (fun c => ti_match_tags rx c tags) v nm)) (fun o => Ok (o, i))
              end
  | None => bind (go_abs (fun c => ti_match_tags rx c tags) nm) (fun o => Ok (o, pos))
  end).
Proof. reflexivity. Qed.
Fixpoint over_tags (rx : regexps) (tags : list tag) (l : list tslot) (pos : Z) : res out :=
  match l with [] => Ok out_none | sl :: l' => bind (slot_match_tags rx sl tags pos) (fun '(o, pos') => oseq (Ok o) (over_tags rx tags l' pos')) end.
Lemma item_tags_eq rx tm e slots tags : ti_match_tags rx (TItem tm e slots) tags = if null tags then Ok out_none else over_tags rx tags slots 0.
Proof.
  cbn. destruct (null tags); auto. generalize 0%Z. induction slots as [|s slots IH]; intro p; cbn; [auto|]. destruct (slot_match_tags rx s tags p) as [[o p']|x| |]; cbn; auto. now rewrite IH.
Qed.
Lemma sorted_nodup keys : keys_sorted keys -> NoDup keys.
Proof. induction keys as [|k r IH]; cbn; constructor; [intro I; now apply H, key_lt_irrefl in I|now apply IH]. Qed.
Lemma lookup_nth (tags : list tag) i k : NoDup (map fst tags) -> nth_error (map fst tags) i = Some k -> exists v, nth_error tags i = Some (k, v) /\ value_of tags k = Some v.
Proof.
  revert i. induction tags as [|[k0 v0] tags IH]; intros i D E; [now destruct i|]. inversion D as [|? ? N1 N2]; subst. destruct i as [|i]; cbn in E.
  - injection E as ->. exists v0. split; auto. unfold value_of. cbn. now rewrite str_eqb_refl.
  - destruct (IH i N2 E) as (v & A & V). exists v. split; auto. unfold value_of in *. cbn. destruct (str_eqb_spec k k0) as [->|]; auto. exfalso. apply N1. now apply nth_error_In in E.
Qed.
Lemma find_value (tags : list tag) key start : keys_sorted (map fst tags) -> key <> [] -> (0 <= start < Z.of_nat (length tags))%Z -> exists r, find_key (map fst tags) key start = Ok r /\
  match r with
  | Some i => (0 <= i < Z.of_nat (length tags))%Z /\ exists v, nth_error tags (Z.to_nat i) = Some (key, v) /\ value_of tags key = Some v
  | None => value_of tags key = None
  end.
Proof.
  intros S K St. destruct (find_key_ok (map fst tags) key start S K ltac:(rewrite map_length; unfold tag in *; lia)) as ([i|] & E & H); eexists; (split; [exact E|]).
  - destruct H as [Hi H]. destruct (lookup_nth tags _ key (sorted_nodup _ S) H) as (v & A & V). split; [|eauto]. assert (Z.to_nat i < length tags)%nat by (apply (proj1 (nth_error_Some tags (Z.to_nat i))); intro X; pose proof (eq_trans (eq_sym A) X) as Y; discriminate Y). lia.
  - apply (proj2 (scan_out key tags H)).
Qed.
Lemma match_tags_flat rx (tags : list tag) (T : tterm -> Prop) : tags <> [] -> keys_sorted (map fst tags) -> (forall t v, T t -> value_of tags (tt_key t) = Some v -> exists b, tt_match rx t v = Ok b) ->
  forall i, wf_item T i -> ti_match_tags rx i tags = full (hits rx tags (flat i)).
Proof.
  intros N S Ev. assert (L : (0 < length tags)%nat) by (destruct tags; cbn; [easy|lia]).
  apply (ti_ind (fun i => wf_item T i -> ti_match_tags rx i tags = full (hits rx tags (flat i)))
    (fun s => wf_slot T s -> forall pos, (0 <= pos < Z.of_nat (length tags))%Z -> exists pos', (0 <= pos' < Z.of_nat (length tags))%Z /\ slot_match_tags rx s tags pos = Ok (hits rx tags (flat_slot s), length (hits rx tags (flat_slot s)), pos'))).
  - intros tm e slots IH W. inversion W as [? ? ? Ws]; subst. rewrite item_tags_eq, flat_item. replace (null tags) with false by now destruct tags.
    assert (G : forall pos, (0 <= pos < Z.of_nat (length tags))%Z -> over_tags rx tags slots pos = full (hits rx tags (flat_slots slots))); [|apply G; lia].
    clear W. induction slots as [|s slots IHs]; intros pos P; [reflexivity|]. inversion IH; inversion Ws; subst. cbn [over_tags flat_slots]. destruct (H1 H5 pos P) as (pos' & P' & ->). cbn [bind]. rewrite IHs, hits_app by auto. apply oseq_full.
  - intros k nm m IHn IHm W pos P. inversion W as [? ? ? K Wn Wm]; subst. rewrite slot_tags_eq, flat_slot_eq, hits_app. destruct (find_value tags k pos S K P) as ([i|] & -> & H); cbn [bind].
    + destruct H as (Hi & v & -> & V). exists i. split; auto.
      rewrite (go_val_ok rx tags _ T Ev k false v V m Wm IHm), (go_val_ok rx tags _ T Ev k true v V nm Wn IHn), oseq_full. reflexivity.
    + rewrite (go_abs_ok rx tags _ T k H nm Wn IHn), (pos_abs rx tags T k H m Wm). exists pos. split; auto.
Qed.

(** ** The registry *)
Lemma index_byte_bound s c i : index_byte s c = Some i -> (i < length s)%nat.
Proof.
  intro H. unfold index_byte in H. apply find_byte_inv in H as (a & b0 & b & -> & L & _). rewrite app_length. cbn. lia.

Qed.
Lemma args_fine q cap : forall fuel e acc, (length e <= fuel)%nat -> fine (series_args_loop q fuel cap e acc).
Proof.
  induction fuel as [|f IH]; intros [|c t] acc L; cbn [series_args_loop]; try exact I; [cbn in L; lia|]. cbn in L.
  destruct (Ascii.eqb c apos || Ascii.eqb c quot) eqn:Q.
  - unfold parse_string. rewrite Q. destruct (index_byte t c) as [i|] eqn:E; [|exact I]. cbn [bind]. assert (length (skipn (S i) t) <= f)%nat by (rewrite skipn_length; lia).
    destruct (null _); [now apply IH|]. destruct (Nat.eqb _ _); [exact I|now apply IH].
  - destruct (Ascii.eqb c " " || Ascii.eqb c ","); [apply IH; lia|exact I].
Qed.
Lemma series_fine rx q : fine (parse_series rx q).
Proof.
  unfold parse_series. apply fine_bind; [|intros; unfold parse_conditions; apply fine_bind; [apply all_fine|intros; exact I]].
  unfold series_by_tag_args. cbv zeta. destruct (has_prefix (trim_sp q) (B "seriesByTag(")) eqn:P; [|exact I]. cbn [negb]. destruct (rev (trim_sp q)) as [|c r] eqn:R.
  - apply (f_equal (@rev ascii)) in R. rewrite rev_involutive in R. rewrite R in P. discriminate.
  - destruct (negb _); [exact I|]. now apply args_fine.
Qed.

Definition tied (rx : regexps) (E : list entry) (L : list pathed) : Prop :=
  (forall p x, In (p, x) L -> exists e ts, In e E /\ parse_series rx (e_text e) = Ok ts /\ ts <> [] /\ sim p ts /\ x = (e_node e, e_index e)) /\
  (forall e ts, In e E -> parse_series rx (e_text e) = Ok ts -> ts <> [] -> exists p, In (p, (e_node e, e_index e)) L /\ sim p ts) /\
  NoDup (map (fun px => snd (snd px)) L).
Definition tagtree_ok (rx : regexps) (E : list entry) (gt : gtags_tree) : Prop :=
  maps_ok E (tg_queries gt) (tg_index gt) /\
  (forall e, In e E -> exists ts, parse_series rx (e_text e) = Ok ts /\ terms_write ts = e_node e) /\
  wf_item (accepted_term rx E) (tg_root gt) /\ ti_end (tg_root gt) = None /\
  (forall x, tg_end gt = Some x <-> exists e, In e E /\ parse_series rx (e_text e) = Ok [] /\ x = (e_node e, e_index e)) /\
  tied rx E (flat (tg_root gt)).
Lemma tagtree_new rx : tagtree_ok rx [] tg_new.
Proof.
  split; [apply maps_nil|]. split; [easy|]. split; [repeat constructor|]. split; [reflexivity|]. split.
  - intro x. split; [discriminate|]. intros (e & [] & _).
  - split; [easy|]. split; [easy|]. constructor.
Qed.
Lemma tg_step rx E gt text i : named_keys rx text -> tagtree_ok rx E gt -> exists gt' r new, tg_add rx gt text i = Ok (gt', r) /\ registers (tg_canon rx) E text i new r /\
  tagtree_ok rx (match new with Some e => E ++ [e] | None => E end) gt' /\ (new = None -> gt' = gt).
Proof.
  intros NK T. pose proof T as (MO & PE & WF & EN & TE & (T1 & T2 & T3)). unfold tg_add. destruct (null text) eqn:Nt.
  { exists gt, ([], 0%Z, None), None. split; [reflexivity|]. split; [constructor; now destruct text|auto]. }
  assert (Nt' : text <> []) by now destruct text. clear Nt. destruct (i <? 0)%Z eqn:Ni.
  { do 3 eexists. split; [reflexivity|]. split; [apply reg_negative; [auto|lia]|auto]. }
  destruct (lookup str_eqb text (tg_queries gt)) as [n|] eqn:L1.
  { do 3 eexists. split; [reflexivity|]. split; [apply reg_again; [auto|lia|now apply (proj1 (proj2 MO))]|auto]. }
  rewrite (maps_none _ _ _ _ MO) in L1. destruct (lookup Z.eqb i (tg_index gt)) as [q|] eqn:L2.
  { do 3 eexists. split; [reflexivity|]. split; [apply reg_index; [auto|lia|auto|now apply (proj2 (proj2 MO))]|auto]. }
  rewrite (maps_unused _ _ _ _ MO) in L2. assert (Fi := series_fine rx text). destruct (parse_series rx text) as [ts|e| |] eqn:P; try easy.
  2:{ do 3 eexists. split; [reflexivity|]. split; [apply reg_bad; auto; [lia|unfold tg_canon; now rewrite P]|auto]. }
  cbv zeta. destruct (lookup str_eqb (terms_write ts) (tg_queries gt)) as [n|] eqn:L3.
  { do 3 eexists. split; [reflexivity|]. split; [apply reg_same; auto; [lia|unfold tg_canon; now rewrite P|now apply (proj1 (proj2 MO))]|auto]. }
  rewrite (maps_none _ _ _ _ MO) in L3. set (e0 := mkEntry text (terms_write ts) i).
  assert (MO' : maps_ok (E ++ [e0]) (let m := assign str_eqb text i (tg_queries gt) in if str_eqb (terms_write ts) text then m else assign str_eqb (terms_write ts) i m) (assign Z.eqb i (terms_write ts) (tg_index gt))).
  { apply (maps_snoc E (tg_queries gt) (tg_index gt)); auto.
    + intro k. cbv zeta. destruct (str_eqb_spec (terms_write ts) text) as [->|D]; rewrite !lookup_assign by apply str_eqb_spec; destruct (str_eqb k text), (str_eqb k (terms_write ts)); reflexivity.
    + intro k. apply lookup_assign, zeqb_spec. }
  assert (PE' : forall e, In e (E ++ [e0]) -> exists ts, parse_series rx (e_text e) = Ok ts /\ terms_write ts = e_node e).
  { intros e Ie. apply in_app_or in Ie as [Ie|[<-|[]]]; [auto|]. cbn. eauto. }
  assert (Mono : forall t, accepted_term rx E t -> accepted_term rx (E ++ [e0]) t).
  { intros t (e & us & Ie & H). exists e, us. split; auto. apply in_or_app. now left. }
  assert (Here : In e0 (E ++ [e0])) by (apply in_or_app; right; now left).
  assert (RN : registers (tg_canon rx) E text i (Some e0) (terms_write ts, i, None)) by (apply reg_new; auto; [lia|unfold tg_canon; now rewrite P]).
  assert (Nts : ts = [] \/ ts <> []) by (destruct ts; [now left|right; discriminate]). destruct Nts as [-> |Nts].
  - cbn [bind]. do 3 eexists. split; [reflexivity|]. split; [exact RN|]. split; [|discriminate].
    split; [exact MO'|]. split; [exact PE'|]. cbn [tg_root tg_end]. split; [apply (wf_mono _ _ Mono); auto|]. split; auto. split.
    + intro y. split.
      * intro H. injection H as <-. exists e0. auto.
      * intros (e & Ie & Pe & ->). apply in_app_or in Ie as [Ie|[<-|[]]]; [|reflexivity]. exfalso. destruct (PE e Ie) as (us & Pu & Wu). assert (us = []) by congruence. subst us.
        apply (L3 (e_index e)). exists e. split; auto.
    + split; [|split; auto].
      * intros p y I. destruct (T1 p y I) as (e & us & Ie & H). exists e, us. split; auto. apply in_or_app. now left.
      * intros e us Ie Pe N. apply in_app_or in Ie as [Ie|[<-|[]]]; [eauto|]. cbn in Pe. congruence.
  - assert (Mts : forall A (a b : A), match ts with [] => a | _ :: _ => b end = b) by (intros; now destruct ts). rewrite Mts.
    destruct (insert_ok (accepted_term rx (E ++ [e0])) (terms_write ts, i) ts (tg_root gt)) as (root' & R & W' & _ & N' & (p' & S' & F' & Pm)).
    + apply Forall_forall. intros t It. split; [exists e0, ts; auto|]. now apply (NK ts).
    + apply (wf_mono _ _ Mono); auto.
    + intros q y I S. unfold whole in I. rewrite EN in I. cbn in I. destruct (T1 q y I) as (e & us & Ie & Pe & _ & Sq & _). destruct (PE e Ie) as (us' & Pe' & We). assert (us' = us) by congruence. subst us'.
      apply (L3 (e_index e)). exists e. split; auto. split; auto. right. rewrite <- We. apply write_conditions. unfold sim in *. congruence.
    + specialize (N' Nts). match goal with |- context [ti_parse ?a ?b ?c] => change (ti_parse a b c = Ok root') in R end. rewrite R. cbn [bind]. do 3 eexists. split; [reflexivity|]. split; [exact RN|]. split; [|discriminate].
      split; [exact MO'|]. split; [exact PE'|]. cbn [tg_root tg_end]. split; [exact W'|]. split; [congruence|]. unfold whole in Pm. rewrite N', EN in Pm. cbn [own app] in Pm. split.
      * intro y. rewrite TE. split.
        -- intros (e & Ie & H). exists e. split; auto. apply in_or_app. now left.
        -- intros (e & Ie & Pe & ->). apply in_app_or in Ie as [Ie|[<-|[]]]; [eauto|]. cbn in Pe. congruence.
      * split; [|split].
        -- intros p y I. apply (Permutation_in _ Pm) in I. destruct I as [I|I].
           ++ injection I as <- <-. exists e0, ts. auto 8.
           ++ destruct (T1 p y I) as (e & us & Ie & H). exists e, us. split; auto. apply in_or_app. now left.
        -- intros e us Ie Pe N. apply in_app_or in Ie as [Ie|[<-|[]]].
           ++ destruct (T2 e us Ie Pe N) as (p & I & S). exists p. split; auto. apply (Permutation_in _ (Permutation_sym Pm)). now right.
           ++ cbn in Pe. assert (us = ts) by congruence. subst us. exists p'. split; auto. apply (Permutation_in _ (Permutation_sym Pm)). now left.
        -- apply (Permutation_map (fun px => snd (snd px))) in Pm. apply (Permutation_NoDup (Permutation_sym Pm)). cbn. constructor; auto.
           intro I. apply in_map_iff in I as ([p y] & Ey & I). cbn in Ey. destruct (T1 p y I) as (e & us & Ie & _ & _ & _ & ->). cbn in Ey. apply (L2 (e_node e)). exists e. auto.
Qed.
Lemma tg_history rx calls : (forall c, In c calls -> named_keys rx (fst c)) -> exists gt rs E, run_adds (tg_add rx) tg_new calls = Ok (gt, rs) /\ history (tg_canon rx) calls rs E /\ tagtree_ok rx E gt.
Proof. apply (run_history_if (tg_add rx) (tg_canon rx) (tagtree_ok rx) (named_keys rx)); [apply tg_step|apply tagtree_new]. Qed.

(** ** What is reported *)
Lemma sat_holds rx tags t : sat rx tags t = true <-> holds rx t tags.
Proof.
  unfold sat, holds. destruct (value_of tags (tt_key t)) as [v|]; [|apply negative_iff]. destruct (tt_match rx t v) as [[]|e| |]; split; auto; discriminate.
Qed.
Lemma flat_over (T : tterm -> Prop) : forall i, wf_item T i -> forall p x, In (p, x) (flat i) -> Forall T p.
Proof.
  assert (Br : forall k neg l, Forall (fun c => wf_item T c -> forall p x, In (p, x) (flat c) -> Forall T p) l -> Forall (wf_child T k neg) l -> forall p x, In (p, x) (branches flat l) -> Forall T p).
  { intros k neg. induction l as [|c l IH]; intros R W p x I; [easy|]. inversion R; inversion W as [|? ? Wc Wl]; subst. cbn [branches] in I. apply in_app_or in I as [I|I]; [|eapply IH; eauto].
    inversion Wc as [? ? t e slots Tt Kt Nt Wi]; subst. unfold branch in I. cbn [ti_term ti_end] in I. apply under_in in I as (q & -> & I). constructor; auto. apply in_app_or in I as [I|I]; [|eauto].
    destruct e; [|easy]. destruct I as [I|[]]. injection I as <- <-. constructor. }
  apply (ti_ind (fun i => wf_item T i -> forall p x, In (p, x) (flat i) -> Forall T p) (fun s => wf_slot T s -> forall p x, In (p, x) (flat_slot s) -> Forall T p)).
  - intros tm e slots IH W p x. inversion W as [? ? ? Ws]; subst. rewrite flat_item. clear W. induction slots as [|s slots IHs]; [easy|]. cbn [flat_slots]. inversion IH; inversion Ws; subst.
    intro I. apply in_app_or in I as [I|I]; eauto.
  - intros k nm m IHn IHm W p x. inversion W as [? ? ? K Wn Wm]; subst. rewrite flat_slot_eq. intro I. apply in_app_or in I as [I|I]; eauto.
Qed.
Lemma hits_in rx tags l x : In x (hits rx tags l) <-> exists p, In (p, x) l /\ forall t, In t p -> holds rx t tags.
Proof.
  unfold hits. rewrite in_map_iff. split.
  - intros ([p y] & <- & I). apply filter_In in I as [I F]. cbn in F. rewrite forallb_forall in F. exists p. split; auto. intros t It. apply sat_holds. auto.
  - intros (p & I & H). exists (p, x). split; auto. apply filter_In. split; auto. cbn. rewrite forallb_forall. intros t It. apply sat_holds. auto.
Qed.
Lemma hits_nodup rx tags l : NoDup (map (fun px : pathed => snd (snd px)) l) -> NoDup (map snd (hits rx tags l)).
Proof.
  unfold hits. induction l as [|px l IH]; cbn; intro D; [constructor|]. inversion D as [|? ? N1 N2]; subst. destruct (forallb _ _); cbn; auto. constructor; auto.
  intro I. apply N1. apply in_map_iff in I as (y & Ey & I). apply in_map_iff in I as (z & Ez & I). apply filter_In in I as [I _]. apply in_map_iff. exists z. split; [rewrite <- Ey, <- Ez; reflexivity|exact I].
Qed.
Lemma sim_holds rx E tags p q : tags_coherent rx E tags -> Forall (accepted_term rx E) p -> Forall (accepted_term rx E) q -> sim p q -> (forall t, In t p -> holds rx t tags) -> forall t, In t q -> holds rx t tags.
Proof.
  intros (_ & C). revert q. induction p as [|a p IH]; intros [|b q] Fp Fq S H t I; try discriminate; [easy|]. inversion Fp; inversion Fq; subst. unfold sim in S. cbn in S. injection S as S1 S2 S3 S.
  destruct I as [<-|I].
  - assert (Ha := H a (or_introl eq_refl)). unfold holds in *. rewrite <- S1. destruct (value_of tags (tt_key a)) as [v|] eqn:V; [|congruence]. rewrite <- (C a b v); auto. unfold condition. congruence.
  - eapply IH; eauto. intros u Iu. apply H. now right.
Qed.
Lemma reported rx E gt tags : tagtree_ok rx E gt -> tags_coherent rx E tags -> NoDup (map snd (hits rx tags (flat (tg_root gt)))) /\
  forall q i, In (q, i) (hits rx tags (flat (tg_root gt))) <-> exists e ts, In e E /\ e_node e = q /\ e_index e = i /\ parse_series rx (e_text e) = Ok ts /\ ts <> [] /\ terms_match_map rx ts tags = Ok true.
Proof.
  intros (MO & PE & WF & EN & TE & (T1 & T2 & T3)) C. split; [now apply hits_nodup|]. intros q i. rewrite hits_in. split.
  - intros (p & I & H). destruct (T1 p _ I) as (e & ts & Ie & Pe & N & S & Ex). injection Ex as -> ->. exists e, ts. repeat split; auto. apply match_map_true. apply (sim_holds rx E tags p); auto.
    + eapply flat_over; eauto.
    + apply Forall_forall. intros t It. exists e, ts. auto.
  - intros (e & ts & Ie & <- & <- & Pe & N & M). destruct (T2 e ts Ie Pe N) as (p & I & S). exists p. split; auto. eapply sim_holds; [exact C| | |unfold sim in *; symmetry; exact S|].
    + apply Forall_forall. intros t It. exists e, ts. auto.
    + eapply flat_over; eauto.
    + now apply match_map_true.
Qed.
Lemma map_reports rx E gt tags : tagtree_ok rx E gt -> tags_coherent rx E tags -> tags <> [] -> tg_match_map rx gt tags = full (hits rx tags (flat (tg_root gt))).
Proof. intros (MO & PE & WF & _) [C _] N. apply (match_map_flat rx tags (accepted_term rx E)); auto. Qed.
Lemma tags_reports rx E gt tags : tagtree_ok rx E gt -> tags_coherent rx E tags -> tags <> [] -> keys_sorted (map fst tags) -> 
  tg_match_tags rx gt tags = oseq (Ok (match tg_end gt with Some x => ([x], 0) | None => out_none end)) (full (hits rx tags (flat (tg_root gt)))).
Proof. intros (MO & PE & WF & _) [C _] N S. unfold tg_match_tags. f_equal. apply (match_tags_flat rx tags (accepted_term rx E)); auto. Qed.

(** Conditions that can be written down and read back are determined by what is written. *)
Lemma series_parsed rx q ts t : parse_series rx q = Ok ts -> In t ts -> exists s, parse_condition rx s = Ok t.
Proof.
  intros P I. unfold parse_series in P. destruct (series_by_tag_args q 128) as [args|e| |] eqn:A; cbn [bind] in P; try discriminate.
  unfold parse_conditions in P. destruct (parse_all rx args) as [us|e| |] eqn:E; cbn [bind] in P; try discriminate. injection P as <-. apply all_iff in E.
  apply (Permutation_in _ (isort_term_perm us)) in I. clear A. induction E; [easy|]. destruct I as [<-|I]; eauto.
Qed.
Lemma plain_coherent rx E tags : (forall t, accepted_term rx E t -> plain_term t /\ evaluable rx [t] tags) -> tags_coherent rx E tags.
Proof.
  intro H. split.
  - intros t v A V. destruct (H t A) as [_ Ev]. apply (Ev t v); [now left|auto].
  - intros t u v At Au C V. f_equal. destruct (H t At) as [Pt _]. destruct (H u Au) as [Pu _].
    destruct At as (e & ts & Ie & P & It), Au as (e' & us & Ie' & P' & Iu). destruct (series_parsed _ _ _ _ P It) as (s & S). destruct (series_parsed _ _ _ _ P' Iu) as (s' & S').
    apply parsed_rebuilds in S as (_ & _ & _ & _ & _ & _ & R); auto. apply parsed_rebuilds in S' as (_ & _ & _ & _ & _ & _ & R'); auto.
    unfold condition in C. injection C as C1 C2 C3. rewrite C1, C2, C3, R' in R. now injection R.
Qed.
Lemma history_calls canon calls rs E : history canon calls rs E -> forall e, In e E -> exists i, In (e_text e, i) calls.
Proof.
  induction 1 as [|calls rs E text i new r H IH R]; [easy|]. intros e I.
  assert (K : In e E \/ new = Some e) by (destruct new as [e'|]; [apply in_app_or in I as [I|[->|[]]]; auto|auto]). destruct K as [K| ->].
  - destruct (IH e K) as (j & J). exists j. apply in_or_app. now left.
  - exists i. apply in_or_app. right. left. inversion R; subst. reflexivity.
Qed.

(** ** AddTerms *)
Lemma insert_none (T : tterm -> Prop) : forall terms item, Forall (fun t => T t /\ tt_key t <> []) terms -> wf_item T item ->
  exists item', ti_parse terms None item = Ok item' /\ wf_item T item' /\ ti_term item' = ti_term item /\ ti_end item' = ti_end item /\ flat item' = flat item.
Proof.
  induction terms as [|t rest IH]; intros [tm e slots] F W.
  - exists (TItem tm e slots). auto.
  - inversion F as [|? ? [Tt Kt] F']; subst. change (ti_parse (t :: rest) None (TItem tm e slots)) with 
      (let '(pos, slots) := find_or_append slots (tt_key t) in
       match nth_error slots pos with
       | None => Panic
       | Some (TSlot k nm m) =>
           bind (ins t (ti_parse rest None) (if op_negative (tt_op t) then nm else m)) (fun childs =>
           Ok (TItem tm e (set_nth pos (if op_negative (tt_op t) then TSlot k childs m else TSlot k nm childs) slots)))
       end).
    destruct (find_or_append_ok slots (tt_key t) Kt) as (a & nm & m & b & -> & Sl). rewrite nth_error_mid.
    inversion W as [? ? ? Ws]; subst.
    assert (Wa : Forall (wf_slot T) (a ++ TSlot (tt_key t) nm m :: b)).
    { destruct Sl as [<-|(-> & -> & ->)]; auto. apply Forall_app in Ws as [Wa Wb]. apply Forall_app. split; auto. constructor; auto. constructor; auto. }
    assert (Fa : flat_slots slots = flat_slots a ++ (branches flat m ++ branches flat nm) ++ flat_slots b).
    { destruct Sl as [-> |(-> & -> & ->)]; rewrite slots_app; cbn [flat_slots]; [now rewrite flat_slot_eq|reflexivity]. }
    assert (Wm := Wa). apply Forall_app in Wm as [Wl Wr]. inversion Wr as [|? ? Wk Wb]; subst. inversion Wk as [? ? ? _ Wnm Wmm]; subst.
    assert (Ins : forall l neg, op_negative (tt_op t) = neg -> Forall (wf_child T (tt_key t) neg) l ->
      exists l', ins t (ti_parse rest None) l = Ok l' /\ Forall (wf_child T (tt_key t) neg) l' /\ branches flat l' = branches flat l).
    { intros l neg En. induction l as [|c l IHl]; intros Wc; cbn [ins].
      - destruct (IH (TItem (Some t) None []) F') as (c' & -> & Wc' & Tc & Ec & Fc); [repeat constructor|]. cbn [bind]. exists [c']. split; auto.
        destruct c' as [tc ec sc]. cbn in Tc, Ec. subst tc ec. split; [constructor; [now constructor|constructor]|]. cbn [branches]. unfold branch. cbn [ti_term ti_end]. now rewrite Fc.
      - inversion Wc as [|? ? Wc1 Wc2]; subst. inversion Wc1 as [? ? u ec sc Tu Ku Nu Wu]; subst. destruct (same_term t (TItem (Some u) ec sc)) eqn:Sm.
        + destruct (IH (TItem (Some u) ec sc) F' Wu) as (c' & -> & Wc' & Tc & Ec & Fc).
          cbn [bind]. exists (c' :: l). split; auto. destruct c' as [tc ec' sc']. cbn in Tc, Ec. subst tc ec'. split; [constructor; auto; now constructor|].
          cbn [branches]. unfold branch. cbn [ti_term ti_end]. now rewrite Fc.
        + destruct IHl as (l' & -> & Wl' & Fl); auto. cbn [bind]. eexists. split; [reflexivity|]. split; [constructor; auto|]. cbn [branches]. now rewrite Fl. }
    destruct (op_negative (tt_op t)) eqn:En.
    + destruct (Ins nm true eq_refl Wnm) as (l' & -> & Wl' & Fl). cbn [bind]. rewrite set_nth_mid. eexists. split; [reflexivity|]. split.
      * constructor. apply Forall_app. split; auto. constructor; auto. now constructor.
      * split; [reflexivity|]. split; [reflexivity|]. rewrite !flat_item, Fa, slots_app. cbn [flat_slots]. now rewrite flat_slot_eq, Fl.
    + destruct (Ins m false eq_refl Wmm) as (l' & -> & Wl' & Fl). cbn [bind]. rewrite set_nth_mid. eexists. split; [reflexivity|]. split.
      * constructor. apply Forall_app. split; auto. constructor; auto. now constructor.
      * split; [reflexivity|]. split; [reflexivity|]. rewrite !flat_item, Fa, slots_app. cbn [flat_slots]. now rewrite flat_slot_eq, Fl.
Qed.

(** ** Counting *)
Definition counted (r : res out) : Prop := forall l n, r = Ok (l, n) -> n = length l.
Lemma counted_none : counted (Ok out_none).
Proof. now intros l n [= <- <-]. Qed.
Lemma counted_emit e : counted (Ok (emit e)).
Proof. intros l n. destruct e; now intros [= <- <-]. Qed.
Lemma counted_oseq a b : counted a -> counted b -> counted (oseq a b).
Proof.
  intros Ha Hb l n. unfold oseq. destruct a as [[la na]|e| |]; cbn; try discriminate. destruct b as [[lb nb]|e| |]; cbn; try discriminate.
  intros [= <- <-]. rewrite app_length. cbn. now rewrite (Ha la na), (Hb lb nb).
Qed.
Lemma counted_val rx rec v l : Forall (fun c => counted (rec c)) l -> counted (go_val rx rec v l).
Proof.
  induction 1 as [|c l H Hl IH]; cbn [go_val]; [apply counted_none|]. destruct (ti_term c) as [t|]; [|discriminate]. destruct (tt_match rx t v) as [[|]|e| |]; try (intros l0 n0 X; discriminate X); [|exact IH]. change (counted (oseq (Ok (emit (ti_end c))) (oseq (rec c) (go_val rx rec v l)))).
  apply counted_oseq; [apply counted_emit|]. now apply counted_oseq.
Qed.
Lemma counted_abs rec l : Forall (fun c => counted (rec c)) l -> counted (go_abs rec l).
Proof. induction 1 as [|c l H Hl IH]; cbn [go_abs]; [apply counted_none|]. apply counted_oseq; [apply counted_emit|]. now apply counted_oseq. Qed.
Lemma counted_map rx tags : forall i, counted (ti_match_map rx i tags).
Proof.
  apply (ti_ind (fun i => counted (ti_match_map rx i tags)) (fun s => counted (slot_match_map rx s tags))).
  - intros tm e slots IH. rewrite item_map_eq. destruct (null tags); [apply counted_none|]. induction IH; cbn [over_map]; [apply counted_none|]. now apply counted_oseq.
  - intros k nm m IHn IHm. rewrite slot_map_eq. destruct (value_of tags k) as [v|]; [apply counted_oseq; now apply counted_val|now apply counted_abs].
Qed.
Lemma counted_tags rx tags : forall i, counted (ti_match_tags rx i tags).
Proof.
  apply (ti_ind (fun i => counted (ti_match_tags rx i tags)) (fun s => forall pos l n pos', slot_match_tags rx s tags pos = Ok (l, n, pos') -> n = length l)).
  - intros tm e slots IH. rewrite item_tags_eq. destruct (null tags); [apply counted_none|]. generalize 0%Z. induction IH as [|s slots Hs H IHs]; intro pos; cbn [over_tags]; [apply counted_none|].
    destruct (slot_match_tags rx s tags pos) as [[[l n] pos']|x| |] eqn:E; cbn [bind]; try discriminate. apply counted_oseq; [|apply IHs]. intros l' n' [= <- <-]. eauto.
  - intros k nm m IHn IHm pos l n pos'. rewrite slot_tags_eq. destruct (find_key (map fst tags) k pos) as [[i|]|x| |]; cbn [bind]; try discriminate.
    + destruct (nth_error tags (Z.to_nat i)) as [[k' v]|]; [|discriminate].
      destruct (oseq _ _) as [[l1 n1]|x| |] eqn:E; cbn [bind]; try discriminate. intros [= <- <- <-].
      eapply counted_oseq; [| |exact E]; now apply counted_val.
    + destruct (go_abs _ nm) as [[l1 n1]|x| |] eqn:E; cbn [bind]; try discriminate. intros [= <- <- <-]. eapply counted_abs; [exact IHn|exact E].
Qed.
