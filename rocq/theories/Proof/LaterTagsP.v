(** A tree of queries before and after further ones are added. *)
From Coq Require Import Lia ZifyBool ZifyN ZifyNat Permutation.
From Verif Require Import Model.GTags Spec.TagSpec Spec.RegistrySpec Spec.TagTreeSpec Spec.LaterSpec.
From Verif Require Import Proof.SortP Proof.SafeP Proof.TagsP Proof.KeyP Proof.TermsP Proof.CondP Proof.RoundP Proof.TotalP Proof.RegistryP Proof.TagTreeP Proof.MixP.
From Verif Require Proof.LaterP Proof.LaterGP.

Section Less.
Variable P : term -> bool.
Notation kept := (LaterP.kept_term P).
Notation less := (LaterP.less P).
Definition new_item (t : tterm) : titem := TItem (Some t) None [].
Inductive cwider (R : titem -> titem -> Prop) : list titem -> list titem -> Prop :=
| cw_nil : cwider R [] []
| cw_cons c c' l l' : R c c' -> cwider R l l' -> cwider R (c :: l) (c' :: l')
| cw_new t c' l' : R (new_item t) c' -> cwider R [] l' -> cwider R [] (c' :: l').
Inductive swider (R : titem -> titem -> Prop) : list tslot -> list tslot -> Prop :=
| sw_nil : swider R [] []
| sw_cons k nm nm' m m' l l' : cwider R nm nm' -> cwider R m m' -> swider R l l' -> swider R (TSlot k nm m :: l) (TSlot k nm' m' :: l')
| sw_new k nm' m' l l' : cwider R [] nm' -> cwider R [] m' -> swider R l l' -> swider R l (TSlot k nm' m' :: l').
Inductive grown : titem -> titem -> Prop :=
| gr_item tm e s s' : swider grown s s' -> grown (TItem tm (kept e) s) (TItem tm e s').
Lemma grown_term i i' : grown i i' -> ti_term i' = ti_term i.
Proof. now intros []. Qed.
Lemma grown_end i i' : grown i i' -> ti_end i = kept (ti_end i').
Proof. now intros []. Qed.

(** ** Matching *)
Section Match.
Variables (rx : regexps) (tags : list tag).
Notation rec := (fun c => ti_match_map rx c tags).
Lemma new_map t : ti_match_map rx (new_item t) tags = Ok out_none.
Proof. unfold new_item. rewrite item_map_eq. now destruct (null tags). Qed.
Lemma less_val v l l' : Forall (fun c' => forall c, grown c c' -> less (rec c') (rec c)) l' -> cwider grown l l' -> less (go_val rx rec v l') (go_val rx rec v l).
Proof.
  intros F W. induction W as [|c c' l l' R W IH|t c' l' R W IH]; cbn [go_val]; [apply LaterP.less_none| |]; inversion F as [|? ? Fc Fl]; subst; specialize (IH Fl); cbv beta in Fc.
  - rewrite (grown_term _ _ R). destruct (ti_term c) as [t|]; [|exact I]. destruct (tt_match rx t v) as [[|]| | |]; try exact I; cbn [bind]; [|exact IH].
    apply LaterP.less_seq; [rewrite (grown_end _ _ R); apply LaterP.less_emit|]. apply LaterP.less_seq; auto.
  - rewrite (grown_term _ _ R). cbn [ti_term new_item]. destruct (tt_match rx t v) as [[|]| | |]; try exact I; cbn [bind]; [|exact IH].
    change (Ok out_none) with (oseq (Ok (emit None)) (oseq (Ok out_none) (Ok out_none))).
    apply LaterP.less_seq; [|apply LaterP.less_seq; [rewrite <- (new_map t); auto|exact IH]]. change None with (ti_end (new_item t)). rewrite (grown_end _ _ R). apply LaterP.less_emit.
Qed.
Lemma less_abs l l' : Forall (fun c' => forall c, grown c c' -> less (rec c') (rec c)) l' -> cwider grown l l' -> less (go_abs rec l') (go_abs rec l).
Proof.
  intros F W. induction W as [|c c' l l' R W IH|t c' l' R W IH]; cbn [go_abs]; [apply LaterP.less_none| |]; inversion F as [|? ? Fc Fl]; subst; specialize (IH Fl); cbv beta in Fc.
  - apply LaterP.less_seq; [rewrite (grown_end _ _ R); apply LaterP.less_emit|]. apply LaterP.less_seq; auto.
  - change (Ok out_none) with (oseq (Ok (emit None)) (oseq (Ok out_none) (Ok out_none))).
    apply LaterP.less_seq; [|apply LaterP.less_seq; [rewrite <- (new_map t); auto|exact IH]]. change None with (ti_end (new_item t)). rewrite (grown_end _ _ R). apply LaterP.less_emit.
Qed.
Lemma less_item : forall i' i, grown i i' -> less (ti_match_map rx i' tags) (ti_match_map rx i tags).
Proof.
  apply (ti_ind (fun i' => forall i, grown i i' -> less (ti_match_map rx i' tags) (ti_match_map rx i tags))
    (fun s' => match s' with TSlot k nm' m' => forall nm m, cwider grown nm nm' -> cwider grown m m' -> less (slot_match_map rx (TSlot k nm' m') tags) (slot_match_map rx (TSlot k nm m) tags) end)).
  - intros tm e slots IH i G. inversion G as [tm0 e0 s s' W]; subst. rewrite !item_map_eq. destruct (null tags); [apply LaterP.less_none|]. clear G.
    induction W as [|k nm nm' m m' l l' Wn Wm W IHw|k nm' m' l l' Wn Wm W IHw]; cbn [over_map]; [apply LaterP.less_none| |]; inversion IH as [|? ? H Hl]; subst; specialize (IHw Hl).
    + apply LaterP.less_seq; auto.
    + specialize (H [] [] Wn Wm). assert (N : slot_match_map rx (TSlot k [] []) tags = Ok out_none) by (rewrite slot_map_eq; now destruct (value_of tags k)). rewrite N in H.
      destruct (slot_match_map rx (TSlot k nm' m') tags) as [[l1 n1]| | |]; try exact I. destruct H as (n & H). injection H as H _. destruct (over_map rx tags l') as [[l2 n2]| | |]; try exact I. destruct IHw as (n3 & ->).
      cbn. rewrite filter_app, <- H. eexists. reflexivity.
  - intros k nm' m' Hn Hm nm m Wn Wm. rewrite !slot_map_eq. destruct (value_of tags k) as [v|]; [apply LaterP.less_seq; apply less_val; auto|apply less_abs; auto].
Qed.
End Match.

(** ** Insertion *)
Lemma new_grown t : grown (new_item t) (new_item t).
Proof. apply (gr_item (Some t) None); constructor. Qed.
Lemma cw_same l : Forall (fun c => grown c c) l -> cwider grown l l.
Proof. induction 1; constructor; auto. Qed.
Definition open (terms : list tterm) (i : titem) : Prop := fresh terms (whole i).
Lemma sw_split s a x b : swider grown s (a ++ x :: b) -> exists s1 s2, s = s1 ++ s2 /\ swider grown s1 a /\ swider grown s2 (x :: b).
Proof.
  revert s. induction a as [|y a IH]; intros s W; [exists [], s; repeat constructor; exact W|]. cbn [app] in W. inversion W as [|k nm nm' m m' l l' Wn Wm Wl E1 E2|k nm' m' l l' Wn Wm Wl E1 E2]; subst.
  - destruct (IH _ Wl) as (s1 & s2 & -> & W1 & W2). exists (TSlot k nm m :: s1), s2. split; [reflexivity|]. split; [now constructor|exact W2].
  - destruct (IH _ Wl) as (s1 & s2 & -> & W1 & W2). exists s1, s2. split; [reflexivity|]. split; [now constructor|exact W2].
Qed.
Lemma sw_split2 s a b : swider grown s (a ++ b) -> exists s1 s2, s = s1 ++ s2 /\ swider grown s1 a /\ swider grown s2 b.
Proof.
  revert s. induction a as [|y a IH]; intros s W; [exists [], s; repeat constructor; exact W|]. cbn [app] in W. inversion W as [|k nm nm' m m' l l' Wn Wm Wl E1 E2|k nm' m' l l' Wn Wm Wl E1 E2]; subst.
  - destruct (IH _ Wl) as (s1 & s2 & -> & W1 & W2). exists (TSlot k nm m :: s1), s2. split; [reflexivity|]. split; [now constructor|exact W2].
  - destruct (IH _ Wl) as (s1 & s2 & -> & W1 & W2). exists s1, s2. split; [reflexivity|]. split; [now constructor|exact W2].
Qed.
Lemma sw_app s1 s2 a b : swider grown s1 a -> swider grown s2 b -> swider grown (s1 ++ s2) (a ++ b).
Proof. induction 1; intro W; cbn; auto; constructor; auto. Qed.
Lemma grown_insert y : P y = false -> forall terms i i' j, Forall (fun t => tt_key t <> []) terms -> grown i i' -> fresh terms (whole i') -> ti_parse terms (Some y) i' = Ok j -> grown i j.
Proof.
  intro Py. induction terms as [|t rest IH]; intros i i' j K G Fr E.
  - destruct G as [tm e s s' W]. rewrite parse_nil in E. injection E as <-. destruct e as [x|]; [exfalso; apply (Fr [] x); [now left|reflexivity]|].
    replace (kept None) with (kept (Some y)) by (cbn; now rewrite Py). now constructor.
  - inversion K as [|? ? Kt K']; subst. destruct G as [tm e s s' W]. rewrite parse_cons in E. destruct (find_or_append_ok s' (tt_key t) Kt) as (a & nm' & m' & b & F & Sl). rewrite F, nth_error_mid in E.
    assert (Fa : forall q z, In (q, z) (branches flat m' ++ branches flat nm') -> ~ sim q (t :: rest)).
    { intros q z J. destruct Sl as [Sl|(-> & -> & _)]; [|destruct J]. apply (Fr q z). unfold whole. apply in_or_app. right. rewrite flat_item, Sl, slots_app. apply in_or_app. right. cbn [flat_slots]. apply in_or_app. left. now rewrite flat_slot_eq. }
    assert (Wx : exists s1 s2, s = s1 ++ s2 /\ swider grown s1 a /\ swider grown s2 (TSlot (tt_key t) nm' m' :: b)).
    { destruct Sl as [->|(-> & -> & ->)]; [now apply sw_split2|]. destruct (sw_split2 _ _ _ W) as (s1 & s2 & -> & W1 & W2). exists s1, s2. split; [reflexivity|]. split; [exact W1|]. apply sw_new; auto; constructor. }
    destruct Wx as (s1 & s2 & -> & W1 & W2).
    assert (Ins : forall l' l, cwider grown l l' -> (forall q z, In (q, z) (branches flat l') -> ~ sim q (t :: rest)) -> forall l'', ins t (ti_parse rest (Some y)) l' = Ok l'' -> cwider grown l l'').
    { clear - IH K'. assert (New : forall c', ti_parse rest (Some y) (TItem (Some t) None []) = Ok c' -> grown (new_item t) c') by (intros c'; apply (IH (new_item t)); auto; [apply new_grown|intros q z []]).
      assert (Same : forall c c' d l', same_term t c' = true -> grown c c' -> (forall q z, In (q, z) (branches flat (c' :: l')) -> ~ sim q (t :: rest)) -> ti_parse rest (Some y) c' = Ok d -> grown c d).
      { intros c [[u|] e sl] d l' S R Q. 2:{ cbn in S. discriminate. } apply IH; auto. apply same_term_iff in S. intros q z J Sq. apply (Q (u :: q) z); [|unfold sim in *; cbn; now rewrite S, Sq]. cbn [branches branch ti_term]. apply in_or_app. left. apply under_in. eauto. }
      intros l' l W. induction W as [|c c' l l' R W IHw|u c' l' R W IHw]; intros Q l'' E; cbn [ins] in E.
      - destruct (ti_parse rest (Some y) (TItem (Some t) None [])) as [c'| | |] eqn:X; try discriminate. injection E as <-. apply (cw_new _ t); [auto|constructor].
      - destruct (same_term t c') eqn:S.
        + destruct (ti_parse rest (Some y) c') as [d| | |] eqn:X; try discriminate. injection E as <-. constructor; eauto.
        + destruct (ins t (ti_parse rest (Some y)) l') as [d| | |] eqn:X; try discriminate. injection E as <-. constructor; auto. apply IHw; auto. intros q z J. apply (Q q z). cbn [branches]. apply in_or_app. now right.
      - destruct (same_term t c') eqn:S.
        + destruct (ti_parse rest (Some y) c') as [d| | |] eqn:X; try discriminate. injection E as <-. apply (cw_new _ u); eauto.
        + destruct (ins t (ti_parse rest (Some y)) l') as [d| | |] eqn:X; try discriminate. injection E as <-. apply (cw_new _ u); auto. apply IHw; auto. intros q z J. apply (Q q z). cbn [branches]. apply in_or_app. now right. }
    assert (Qn : forall q z, In (q, z) (branches flat nm') -> ~ sim q (t :: rest)) by (intros q z J; apply (Fa q z), in_or_app; now right).
    assert (Qm : forall q z, In (q, z) (branches flat m') -> ~ sim q (t :: rest)) by (intros q z J; apply (Fa q z), in_or_app; now left).
    destruct (op_negative (tt_op t)).
    + destruct (ins t (ti_parse rest (Some y)) nm') as [l''| | |] eqn:X; try discriminate. cbn [bind] in E. rewrite set_nth_mid in E. injection E as <-. constructor. apply sw_app; auto.
      inversion W2 as [|k nm nm0 m m0 l l0 Wn Wm Wl|k nm0 m0 l l0 Wn Wm Wl]; subst; [apply sw_cons|apply sw_new]; auto; (refine (Ins _ _ _ _ _ X); auto).
    + destruct (ins t (ti_parse rest (Some y)) m') as [l''| | |] eqn:X; try discriminate. cbn [bind] in E. rewrite set_nth_mid in E. injection E as <-. constructor. apply sw_app; auto.
      inversion W2 as [|k nm nm0 m m0 l l0 Wn Wm Wl|k nm0 m0 l l0 Wn Wm Wl]; subst; [apply sw_cons|apply sw_new]; auto; (refine (Ins _ _ _ _ _ X); auto).
Qed.
(** ** A tree that stays as it is *)
Lemma flat_grown T : forall i, wf_item T i -> (forall p x, In (p, x) (whole i) -> P x = true) -> grown i i.
Proof.
  apply (ti_ind (fun i => wf_item T i -> (forall p x, In (p, x) (whole i) -> P x = true) -> grown i i)
    (fun s => wf_slot T s -> (forall p x, In (p, x) (flat_slot s) -> P x = true) -> match s with TSlot _ nm m => cwider grown nm nm /\ cwider grown m m end)).
  - intros tm e slots IH W H. assert (He : forall x, e = Some x -> P x = true) by (intros x ->; apply (H [] x); now left). rewrite <- (LaterP.kept_all P e He) at 1. constructor.
    inversion W as [? ? ? Ws]; subst. assert (Hs : forall p x, In (p, x) (flat_slots slots) -> P x = true) by (intros p x J; apply (H p x); unfold whole; apply in_or_app; right; now rewrite flat_item).
    clear - IH Ws Hs. induction slots as [|s slots IHs]; [constructor|]. inversion IH as [|? ? H1 H2]; inversion Ws as [|? ? H3 H4]; subst. cbn [flat_slots] in Hs. destruct s as [k nm m].
    destruct (H1 H3) as [A B]; [intros p x J; apply (Hs p x), in_or_app; now left|]. constructor; auto. apply IHs; auto. intros p x J. apply (Hs p x), in_or_app. now right.
  - intros k nm m IHn IHm W H. inversion W as [? ? ? K Wn Wm]; subst. rewrite flat_slot_eq in H.
    assert (L : forall neg l, Forall (fun c => wf_item T c -> (forall p x, In (p, x) (whole c) -> P x = true) -> grown c c) l -> Forall (wf_child T k neg) l -> (forall p x, In (p, x) (branches flat l) -> P x = true) -> cwider grown l l).
    { intros neg l. induction l as [|c l IHl]; intros A B C; [constructor|]. inversion A as [|? ? A1 A2]; inversion B as [|? ? B1 B2]; subst. inversion B1 as [? ? t e sl Tt Kt Nt Wc]; subst. cbn [branches] in C. constructor.
      - apply A1; auto. intros p x J. apply (C (t :: p) x). apply in_or_app. left. unfold branch. cbn [ti_term]. apply under_in. eauto.
      - apply IHl; auto. intros p x J. apply (C p x), in_or_app. now right. }
    split; [apply (L true)|apply (L false)]; auto; intros p x J; apply (H p x), in_or_app; auto.
Qed.
End Less.

(** ** The list of tags and the map of tags *)
Lemma tags_as_map rx (tags : list tag) (T : tterm -> Prop) : keys_sorted (map fst tags) -> forall i, wf_item T i -> ti_match_tags rx i tags = ti_match_map rx i tags.
Proof.
  intros S. destruct tags as [|tg tags0] eqn:Et; [intros [tm e slots] _; reflexivity|]. rewrite <- Et in *. assert (L : (0 < length tags)%nat) by (subst; cbn; lia). assert (Nn : null tags = false) by now subst. clear Et.
  assert (V : forall v l, Forall (fun c => ti_match_tags rx c tags = ti_match_map rx c tags) l -> go_val rx (fun c => ti_match_tags rx c tags) v l = go_val rx (fun c => ti_match_map rx c tags) v l).
  { intros v l. induction 1 as [|c l H Hl IH]; cbn [go_val]; auto. now rewrite H, IH. }
  assert (A : forall l, Forall (fun c => ti_match_tags rx c tags = ti_match_map rx c tags) l -> go_abs (fun c => ti_match_tags rx c tags) l = go_abs (fun c => ti_match_map rx c tags) l).
  { intros l. induction 1 as [|c l H Hl IH]; cbn [go_abs]; auto. now rewrite H, IH. }
  assert (C : forall k neg l, Forall (wf_child T k neg) l -> Forall (fun c => wf_item T c -> ti_match_tags rx c tags = ti_match_map rx c tags) l -> Forall (fun c => ti_match_tags rx c tags = ti_match_map rx c tags) l).
  { intros k neg l W H. rewrite Forall_forall in *. intros c J. apply H; auto. specialize (W c J). now inversion W. }
  apply (ti_ind (fun i => wf_item T i -> ti_match_tags rx i tags = ti_match_map rx i tags)
    (fun s => wf_slot T s -> forall pos, (0 <= pos < Z.of_nat (length tags))%Z -> exists pos', (0 <= pos' < Z.of_nat (length tags))%Z /\ slot_match_tags rx s tags pos = bind (slot_match_map rx s tags) (fun o => Ok (o, pos')))).
  - intros tm e slots IH W. inversion W as [? ? ? Ws]; subst. rewrite item_tags_eq, item_map_eq, Nn.
    assert (G : forall pos, (0 <= pos < Z.of_nat (length tags))%Z -> over_tags rx tags slots pos = over_map rx tags slots); [|apply G; lia].
    clear W. induction slots as [|s slots IHs]; intros pos Hp; [reflexivity|]. inversion IH as [|? ? H1 H2]; inversion Ws as [|? ? H3 H4]; subst. cbn [over_tags over_map]. destruct (H1 H3 pos Hp) as (pos' & P' & ->).
    destruct (slot_match_map rx s tags) as [o| | |]; cbn [bind]; auto. now rewrite IHs.
  - intros k nm m IHn IHm W pos Hp. inversion W as [? ? ? K Wn Wm]; subst. rewrite slot_tags_eq, slot_map_eq. destruct (find_value tags k pos S K Hp) as ([i|] & -> & H); cbn [bind].
    + destruct H as (Hi & v & -> & Hv). exists i. split; auto. rewrite Hv, !V by eauto. reflexivity.
    + exists pos. split; auto. rewrite H, A by eauto. reflexivity.
Qed.

(** ** Histories *)
Lemma accepted_step rx E gt text i gt' r e : tagtree_ok rx E gt -> tg_add rx gt text i = Ok (gt', r) -> registers (tg_canon rx) E text i (Some e) r ->
  exists ts, parse_series rx text = Ok ts /\ e = mkEntry text (terms_write ts) i /\ (forall q, ~ used E i q) /\
    (ts = [] /\ tg_root gt' = tg_root gt /\ tg_end gt = None /\ tg_end gt' = Some (terms_write ts, i) \/
     tg_end gt' = tg_end gt /\ ti_parse ts (Some (terms_write ts, i)) (tg_root gt) = Ok (tg_root gt') /\ fresh ts (whole (tg_root gt))).
Proof.
  intros T A R. inversion R as [| | | | | |q N1 N2 N3 N4 N5 N6]; subst. unfold tg_canon in N5. unfold tg_add in A. pose proof T as (MO & PE & WF & EN & TE & (T1 & T2 & T3)).
  replace (null text) with false in A by now destruct text. destruct (Z.ltb_spec i 0); [lia|]. destruct (lookup str_eqb text (tg_queries gt)); [congruence|]. destruct (lookup Z.eqb i (tg_index gt)); [congruence|].
  destruct (parse_series rx text) as [ts|e| |] eqn:Pg; cbn [bind] in N5; try congruence. destruct (lookup str_eqb (terms_write ts) (tg_queries gt)); [congruence|]. assert (q = terms_write ts) as -> by congruence.
  exists ts. split; [reflexivity|]. split; [reflexivity|]. split; [exact N4|]. cbv zeta in A. destruct (match ts with [] => _ | _ => _ end) as [[e1 root1]| | |] eqn:Em; try discriminate. cbn [bind] in A. apply ok_inj in A. apply (f_equal fst) in A. cbn [fst] in A.
  rewrite <- A. cbn [tg_end tg_root]. destruct ts as [|t ts].
  - left. injection Em as <- <-. split; [reflexivity|]. split; [reflexivity|]. split; [|reflexivity]. destruct (tg_end gt) as [x|]; auto. exfalso. destruct (proj1 (TE x) eq_refl) as (e & Ie & Pe & ->). destruct (PE e Ie) as (us & Pu & Wu). assert (us = []) by congruence. subst us.
    apply (N6 (e_index e)). exists e. split; auto.
  - right. destruct (ti_parse (t :: ts) (Some (terms_write (t :: ts), i)) (tg_root gt)) as [root2| | |]; try discriminate. injection Em as <- <-. split; [reflexivity|]. split; [reflexivity|].
    intros q y I S. unfold whole in I. rewrite EN in I. cbn in I. destruct (T1 q y I) as (e & us & Ie & Pe & _ & Sq & _). destruct (PE e Ie) as (us' & Pe' & We). assert (us' = us) by congruence. subst us'.
    apply (N6 (e_index e)). exists e. split; auto. split; auto. right. rewrite <- We. apply write_conditions. unfold sim in *. congruence.
Qed.
Notation indexed := LaterGP.indexed.
Definition wide (E : list entry) (gt gt' : gtags_tree) : Prop := grown (indexed E) (tg_root gt) (tg_root gt') /\ tg_end gt = LaterP.kept_term (indexed E) (tg_end gt').
Lemma wide_same rx E gt : tagtree_ok rx E gt -> wide E gt gt.
Proof.
  intros (MO & PE & WF & EN & TE & (T1 & T2 & T3)).
  assert (U : forall e, In e E -> indexed E (e_node e, e_index e) = true) by (intros e Ie; unfold LaterGP.indexed; apply existsb_exists; exists e; split; auto; cbn; lia). split.
  - apply (flat_grown (indexed E) (accepted_term rx E)); auto. intros p x J. unfold whole in J. rewrite EN in J. cbn in J. destruct (T1 p x J) as (e & us & Ie & _ & _ & _ & ->). auto.
  - symmetry. apply LaterP.kept_all. intros x J. apply TE in J as (e & Ie & _ & ->). auto.
Qed.
Lemma later_steps rx calls gt rs E : run_adds (tg_add rx) tg_new calls = Ok (gt, rs) -> history (tg_canon rx) calls rs E -> tagtree_ok rx E gt ->
  forall more, (forall c, In c more -> named_keys rx (fst c)) -> exists gt' rs' F, run_adds (tg_add rx) tg_new (calls ++ more) = Ok (gt', rs') /\ history (tg_canon rx) (calls ++ more) rs' (E ++ F) /\ tagtree_ok rx (E ++ F) gt' /\ wide E gt gt'.
Proof.
  intros R H T. induction more as [|[text i] more IH] using rev_ind; intro K.
  - exists gt, rs, []. rewrite !app_nil_r. split; [exact R|]. split; [exact H|]. split; [exact T|]. now apply (wide_same rx).
  - destruct IH as (gt1 & rs1 & F & R1 & H1 & T1 & W1); [intros c J; apply K, in_or_app; now left|]. assert (Kt : named_keys rx text) by (apply (K (text, i)), in_or_app; right; now left).
    destruct (tg_step rx _ gt1 text i Kt T1) as (gt' & r & new & A & Rg & T' & N).
    exists gt', (rs1 ++ [r]). rewrite app_assoc. destruct new as [e|].
    + exists (F ++ [e]). rewrite app_assoc. split; [eapply run_adds_snoc; eauto|]. split; [exact (h_snoc _ _ _ _ _ _ _ _ H1 Rg)|]. split; [exact T'|].
      destruct (accepted_step _ _ _ _ _ _ _ _ T1 A Rg) as (ts & Pg & -> & U & Q).
      assert (X : indexed E (terms_write ts, i) = false).
      { unfold LaterGP.indexed. cbn [snd]. destruct (existsb (fun e => (e_index e =? i)%Z) E) eqn:X; auto. exfalso. apply existsb_exists in X as (d & I & Eq). apply (U (e_node d)). exists d. split; [apply in_or_app; now left|]. split; [lia|reflexivity]. }
      destruct W1 as [W1 W2]. destruct Q as [(-> & Er & En & En')|(En & Pr & Fr)].
      * split; [now rewrite Er|]. rewrite W2, En, En'. cbn [LaterP.kept_term]. now rewrite X.
      * split; [|now rewrite En]. refine (grown_insert _ _ X ts _ _ _ _ W1 Fr Pr). apply Forall_forall. intros t It. now apply (Kt ts).
    + exists F. rewrite (N eq_refl) in *. split; [eapply run_adds_snoc; eauto|]. split; [exact (h_snoc _ _ _ _ _ _ _ _ H1 Rg)|]. split; [exact T'|]. exact W1.
Qed.
Lemma tags_later rx calls more gt gt' rs rs' E E' : (forall c, In c (calls ++ more) -> named_keys rx (fst c)) -> run_adds (tg_add rx) tg_new calls = Ok (gt, rs) -> history (tg_canon rx) calls rs E ->
  run_adds (tg_add rx) tg_new (calls ++ more) = Ok (gt', rs') -> history (tg_canon rx) (calls ++ more) rs' E' ->
  (forall tags, LaterP.less (indexed E) (tg_match_map rx gt' tags) (tg_match_map rx gt tags)) /\
  (forall tags, keys_sorted (map fst tags) -> LaterP.less (indexed E) (tg_match_tags rx gt' tags) (tg_match_tags rx gt tags)).
Proof.
  intros K R H R' H'. destruct (tg_history rx calls) as (gt0 & rs0 & E0 & R0 & H0 & T0); [intros c J; apply K, in_or_app; now left|]. rewrite R in R0. injection R0 as <- <-. destruct (history_fun _ _ _ _ H _ _ H0) as [_ <-].
  destruct (later_steps rx calls gt rs E R H T0 more) as (gt1 & rs1 & F & R1 & _ & T1 & W1 & W2); [intros c J; apply K, in_or_app; now right|]. rewrite R' in R1. injection R1 as <- <-.
  assert (M : forall tags, LaterP.less (indexed E) (ti_match_map rx (tg_root gt') tags) (ti_match_map rx (tg_root gt) tags)) by (intro tags; now apply less_item).
  split; [exact M|]. intros tags S. unfold tg_match_tags. apply LaterP.less_seq.
  - rewrite W2. destruct (tg_end gt') as [x|]; [|apply LaterP.less_none]. cbn [LaterP.kept_term LaterP.less filter]. destruct (indexed E x); eexists; reflexivity.
  - destruct T0 as (_ & _ & WF0 & _). destruct T1 as (_ & _ & WF1 & _). rewrite (tags_as_map rx tags _ S _ WF0), (tags_as_map rx tags _ S _ WF1). apply M.
Qed.
