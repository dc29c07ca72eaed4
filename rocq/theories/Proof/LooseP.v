(** Tags in any order: the search for a key and the walk through a tree of queries. *)
From Coq Require Import Lia ZifyBool ZifyN ZifyNat.
From Verif Require Import Model.GTags Spec.TagSpec Spec.RegistrySpec Spec.TagTreeSpec.
From Verif Require Import Proof.SortP Proof.TagsP Proof.KeyP Proof.TermsP Proof.CondP Proof.RoundP Proof.TotalP Proof.RegistryP Proof.TagTreeP Proof.LevelTop.

(** ** The search for a key *)
Definition found (keys : list str) (key : str) (r : option Z) : Prop :=
  match r with Some i => (0 <= i < Z.of_nat (length keys))%Z /\ nth_error keys (Z.to_nat i) = Some key | None => True end.
Lemma found_at keys i : (0 <= i < Z.of_nat (length keys))%Z -> found keys (at_ keys i) (Some i).
Proof. intro H. split; auto. unfold at_. apply nth_error_nth'. lia. Qed.
Lemma loop_found keys key : forall fuel low high search, (0 <= low <= search)%Z -> (search <= high < Z.of_nat (length keys))%Z ->
  (high - low < Z.of_nat fuel)%Z -> exists r, find_loop fuel keys key search low high = Ok r /\ found keys key r.
Proof.
  induction fuel as [|f IH]; intros low high search H1 H2 F; [lia|]. cbn [find_loop]. rewrite key_at_ok by lia. cbn [bind].
  destruct (str_eqb_spec key (at_ keys search)) as [->|N]; [exists (Some search); split; auto; apply found_at; lia|].
  assert (K : forall low' high', (low <= low')%Z -> (high' <= high)%Z -> (low' = search + 1 /\ high' = high \/ low' = low /\ high' = search - 1)%Z ->
    exists r, (if (high' <? low')%Z then Ok None else if (low' =? high')%Z then bind (key_at keys low') (fun k => if str_eqb key k then Ok (Some low') else Ok None) else find_loop f keys key (Z.quot (low' + high') 2) low' high') = Ok r /\ found keys key r).
  { intros low' high' A B C. destruct (Z.ltb_spec high' low'); [exists None; split; [auto|exact I]|]. destruct (Z.eqb_spec low' high').
    - rewrite key_at_ok by lia. cbn [bind]. destruct (str_eqb_spec key (at_ keys low')) as [->|]; [exists (Some low'); split; auto; apply found_at; lia|exists None; split; [auto|exact I]].
    - rewrite Z.quot_div_nonneg by lia. apply IH; Z.div_mod_to_equations; lia. }
  cbv zeta. destruct (str_ltb key (at_ keys search)); apply K; lia.
Qed.
Lemma key_found keys key start : (0 <= start < Z.of_nat (length keys))%Z -> exists r, find_key keys key start = Ok r /\ found keys key r.
Proof.
  intro L. unfold find_key. destruct keys as [|k0 ks] eqn:Ek; [cbn in L; lia|]. rewrite <- Ek in *. replace (null keys) with false by now rewrite Ek. cbn [orb].
  destruct (null key); [exists None; split; [auto|exact I]|]. change (nth 0 keys []) with (at_ keys 0).
  destruct (str_eqb_spec key name_key) as [->|Nk].
  { destruct (str_eqb_spec (at_ keys 0) name_key) as [E|N]; [exists (Some 0%Z); split; auto; rewrite <- E; apply found_at; lia|exists None; split; [auto|exact I]]. }
  cbv zeta. set (lo := if str_eqb (at_ keys 0) name_key then 1%Z else 0%Z). assert (Lo : (0 <= lo <= 1)%Z) by (unfold lo; destruct (str_eqb _ _); lia).
  assert (Go : forall low high, (0 <= low <= high)%Z -> (high < Z.of_nat (length keys))%Z ->
    exists r, find_loop (Datatypes.S (Datatypes.S (length keys))) keys key (if (low + 4 <? Z.quot (low + high) 2)%Z then (low + 4)%Z else Z.quot (low + high) 2) low high = Ok r /\ found keys key r).
  { intros low high H1 H2. rewrite Z.quot_div_nonneg by lia. apply loop_found; try lia; destruct (Z.ltb_spec (low + 4) ((low + high) / 2)); Z.div_mod_to_equations; lia. }
  destruct (Z.ltb_spec lo start) as [Ls|Ls].
  - rewrite key_at_ok by lia. cbn [bind]. destruct (str_eqb_spec (at_ keys start) key) as [<-|N]; [exists (Some start); split; auto; now apply found_at|].
    destruct (str_ltb key (at_ keys start)); apply Go; lia.
  - destruct (Z.leb_spec lo (Z.of_nat (length keys) - 1)) as [H|H]; [apply Go; lia|].
    assert (lo = 1%Z /\ length keys = 1%nat) as [El E1] by lia. rewrite El. replace (Z.of_nat (length keys) - 1)%Z with 0%Z by lia. change (Z.quot (1 + 0) 2) with 0%Z. change (1 + 4 <? 0)%Z with false. cbv iota. cbn [find_loop].
    rewrite (key_at_ok keys 0) by lia. cbn [bind].
    assert (En : at_ keys 0 = name_key). { unfold lo in El. destruct (str_eqb_spec (at_ keys 0) name_key); auto. lia. }
    rewrite En. destruct (str_eqb_spec key name_key); [easy|]. exists None. split; [destruct (str_ltb key name_key); reflexivity|exact I].
Qed.
Lemma fst_at key : forall (tags : list (str * str)) n, nth_error (map fst tags) n = Some key -> exists v, nth_error tags n = Some (key, v).
Proof. induction tags as [|[k v] tags IH]; intros [|n] H; try discriminate; cbn in *; [injection H as ->; eauto|eauto]. Qed.
Lemma value_found (tags : list tag) key pos : (0 <= pos < Z.of_nat (length tags))%Z -> exists r, find_key (map fst tags) key pos = Ok r /\
  match r with Some i => (0 <= i < Z.of_nat (length tags))%Z /\ exists v, nth_error tags (Z.to_nat i) = Some (key, v) /\ In (key, v) tags | None => True end.
Proof.
  intro P. destruct (key_found (map fst tags) key pos) as (r & E & F); [now rewrite map_length|]. exists r. split; auto. destruct r as [i|]; auto. destruct F as [Hi Hn]. rewrite map_length in Hi. split; auto.
  apply fst_at in Hn as (v & Ev). exists v. split; auto. eapply nth_error_In; eauto.
Qed.

(** ** What is reported comes from a part of the paths *)
Inductive sublist {A} : list A -> list A -> Prop :=
| sub_nil : sublist [] []
| sub_keep x l L : sublist l L -> sublist (x :: l) (x :: L)
| sub_skip x l L : sublist l L -> sublist l (x :: L).
Lemma sub_empty {A} (L : list A) : sublist [] L.
Proof. induction L; constructor; auto. Qed.
Lemma sub_refl {A} (L : list A) : sublist L L.
Proof. induction L; constructor; auto. Qed.
Lemma sub_app {A} (l1 L1 l2 L2 : list A) : sublist l1 L1 -> sublist l2 L2 -> sublist (l1 ++ l2) (L1 ++ L2).
Proof. induction 1; intro H'; cbn; auto; constructor; auto. Qed.
Lemma sub_map {A B} (f : A -> B) l L : sublist l L -> sublist (map f l) (map f L).
Proof. induction 1; cbn; constructor; auto. Qed.
Lemma sub_in {A} (l L : list A) : sublist l L -> forall x, In x l -> In x L.
Proof. induction 1; cbn; intros y I; auto. destruct I; auto. Qed.
Lemma sub_nodup {A} (l L : list A) : sublist l L -> NoDup L -> NoDup l.
Proof. induction 1; intro N; auto; inversion N; subst; auto. constructor; auto. intro I. eapply sub_in in I; eauto. Qed.

Section Loose.
  Variables (rx : regexps) (tags : list tag) (T : tterm -> Prop).
  Definition loose (t : tterm) : Prop := (exists v, In (tt_key t, v) tags /\ tt_match rx t v = Ok true) \/ op_negative (tt_op t) = true.
  Definition from (l : list term) (L : list pathed) : Prop := exists L', sublist L' L /\ l = map snd L' /\ forall p x t, In (p, x) L' -> In t p -> loose t.
  Lemma from_nil L : from [] L.
  Proof. exists []. split; [apply sub_empty|]. split; [reflexivity|]. intros p x t []. Qed.
  Lemma from_app l1 L1 l2 L2 : from l1 L1 -> from l2 L2 -> from (l1 ++ l2) (L1 ++ L2).
  Proof.
    intros (A & A1 & -> & A2) (C & C1 & -> & C2). exists (A ++ C). split; [now apply sub_app|]. split; [now rewrite map_app|]. intros p x t I It. apply in_app_or in I as [I|I]; eauto.
  Qed.
  Lemma from_own e l n : Ok (emit e) = Ok (l, n) -> from l (own e).
  Proof. destruct e as [x|]; cbn; intro H; injection H as <- <-; [|apply from_nil]. exists [([], x)]. split; [apply sub_refl|]. split; auto. intros p y t [[= <- <-]|[]] []. Qed.
  Lemma from_under t l L : loose t -> from l L -> from l (under t L).
  Proof.
    intros Lt (A & A1 & -> & A2). exists (under t A). split; [now apply sub_map|]. split; [unfold under; rewrite map_map; now apply map_ext|].
    intros p x u I Iu. apply under_in in I as (p' & -> & I). destruct Iu as [<-|Iu]; eauto.
  Qed.
  Definition fromr (r : res out) (L : list pathed) : Prop := forall l n, r = Ok (l, n) -> from l L.

  Variable rec : titem -> res out.
  Lemma val_from k neg v : In (k, v) tags -> forall l, Forall (wf_child T k neg) l -> Forall (fun c => wf_item T c -> fromr (rec c) (flat c)) l -> fromr (go_val rx rec v l) (branches flat l).
  Proof.
    intros V. induction l as [|c l IH]; intros W R l' n Go; [injection Go as <- <-; apply from_nil|]. inversion W as [|? ? Wc Wl]; inversion R as [|? ? Rc Rl]; subst.
    inversion Wc as [? ? t e slots Tt Kt Nt Wi]; subst. cbn [go_val ti_term] in Go. destruct (tt_match rx t v) as [b| | |] eqn:Eb; try discriminate. cbn [bind] in Go. cbn [branches]. unfold branch. cbn [ti_term ti_end] in *. destruct b.
    - apply oseq_inv in Go as (l1 & n1 & l2 & n2 & G1 & G2 & ->). apply from_own in G1. apply oseq_inv in G2 as (l3 & n3 & l4 & n4 & G3 & G4 & ->). apply (Rc Wi) in G3. apply (IH Wl Rl) in G4. rewrite app_assoc.
      apply from_app; auto. apply from_under; [left; eauto|now apply from_app].
    - apply (IH Wl Rl) in Go. apply (from_app [] _ l'); [apply from_nil|auto].
  Qed.
  Lemma abs_from k : forall l, Forall (wf_child T k true) l -> Forall (fun c => wf_item T c -> fromr (rec c) (flat c)) l -> fromr (go_abs rec l) (branches flat l).
  Proof.
    induction l as [|c l IH]; intros W R l' n Go; [injection Go as <- <-; apply from_nil|]. inversion W as [|? ? Wc Wl]; inversion R as [|? ? Rc Rl]; subst.
    inversion Wc as [? ? t e slots Tt Kt Nt Wi]; subst. cbn [go_abs] in Go. cbn [branches]. unfold branch. cbn [ti_term ti_end] in *.
    apply oseq_inv in Go as (l1 & n1 & l2 & n2 & G1 & G2 & ->). apply from_own in G1. apply oseq_inv in G2 as (l3 & n3 & l4 & n4 & G3 & G4 & ->). apply (Rc Wi) in G3. apply (IH Wl Rl) in G4. rewrite app_assoc.
    apply from_app; auto. apply from_under; [now right|now apply from_app].
  Qed.
End Loose.

Lemma match_tags_from rx (tags : list tag) (T : tterm -> Prop) : forall i, wf_item T i -> fromr rx tags (ti_match_tags rx i tags) (flat i).
Proof.
  destruct tags as [|g0 tags0]; [intros [tm e slots] _ l n H; injection H as <- <-; apply from_nil|]. remember (g0 :: tags0) as tags eqn:Et. assert (L : (0 < length tags)%nat) by (rewrite Et; cbn; lia). assert (Nn : null tags = false) by (rewrite Et; reflexivity). clear Et g0 tags0.
  apply (ti_ind (fun i => wf_item T i -> fromr rx tags (ti_match_tags rx i tags) (flat i))
    (fun s => wf_slot T s -> forall pos, (0 <= pos < Z.of_nat (length tags))%Z -> forall l n pos', slot_match_tags rx s tags pos = Ok (l, n, pos') -> (0 <= pos' < Z.of_nat (length tags))%Z /\ from rx tags l (flat_slot s))).
  - intros tm e slots IH W. inversion W as [? ? ? Ws]; subst. rewrite item_tags_eq, flat_item. rewrite Nn.
    assert (G : forall pos, (0 <= pos < Z.of_nat (length tags))%Z -> fromr rx tags (over_tags rx tags slots pos) (flat_slots slots)); [|apply G; lia].
    clear W. induction slots as [|s slots IHs]; intros pos P l n Go; [injection Go as <- <-; apply from_nil|]. inversion IH as [|? ? H1 H2]; inversion Ws as [|? ? W1 W2]; subst. cbn [over_tags flat_slots] in *.
    destruct (slot_match_tags rx s tags pos) as [[[l1 n1] pos']| | |] eqn:Es; try discriminate. cbn [bind] in Go. destruct (H1 W1 pos P _ _ _ Es) as [P' F1]. apply oseq_inv in Go as (l2 & n2 & l3 & n3 & G1 & G2 & ->). injection G1 as <- <-.
    apply from_app; auto. eapply IHs; eauto.
  - intros k nm m IHn IHm W pos P l n pos' Go. inversion W as [? ? ? K Wn Wm]; subst. rewrite slot_tags_eq in Go. rewrite flat_slot_eq. destruct (value_found tags k pos P) as ([i|] & E & H); rewrite E in Go; cbn [bind] in Go.
    + destruct H as (Hi & v & Ev & V). rewrite Ev in Go. destruct (oseq _ _) as [[lo no]| | |] eqn:Eo; try discriminate. cbn [bind] in Go. injection Go as <- <- <-. split; auto.
      apply oseq_inv in Eo as (l1 & n1 & l2 & n2 & G1 & G2 & ->). apply from_app; [apply (val_from rx tags T _ k false v V m Wm IHm _ _ G1)|apply (val_from rx tags T _ k true v V nm Wn IHn _ _ G2)].
    + destruct (go_abs _ _) as [[lo no]| | |] eqn:Eo; try discriminate. cbn [bind] in Go. injection Go as <- <- <-. split; auto. apply (from_app rx tags [] _ lo); [apply from_nil|]. apply (abs_from rx tags T _ k nm Wn IHn _ _ Eo).
Qed.

(** ** It returns when the conditions can be evaluated *)
Section Gives.
  Variables (rx : regexps) (T : tterm -> Prop) (rec : titem -> res out).
  Hypothesis ev : forall t v, T t -> exists b, tt_match rx t v = Ok b.
  Lemma oseq_gives a b : (exists o, a = Ok o) -> (exists o, b = Ok o) -> exists o : out, oseq a b = Ok o.
  Proof. intros (x & ->) (y & ->). unfold oseq. cbn. eauto. Qed.
  Lemma val_gives k neg v : forall l, Forall (wf_child T k neg) l -> Forall (fun c => wf_item T c -> exists o, rec c = Ok o) l -> exists o, go_val rx rec v l = Ok o.
  Proof.
    induction l as [|c l IH]; intros W R; [eexists; reflexivity|]. inversion W as [|? ? Wc Wl]; inversion R as [|? ? Rc Rl]; subst. inversion Wc as [? ? t e slots Tt Kt Nt Wi]; subst.
    cbn [go_val ti_term]. destruct (ev t v Tt) as ([] & ->); cbn [bind]; [|auto]. apply oseq_gives; [eauto|]. apply oseq_gives; auto.
  Qed.
  Lemma abs_gives k neg : forall l, Forall (wf_child T k neg) l -> Forall (fun c => wf_item T c -> exists o, rec c = Ok o) l -> exists o, go_abs rec l = Ok o.
  Proof.
    induction l as [|c l IH]; intros W R; [eexists; reflexivity|]. inversion W as [|? ? Wc Wl]; inversion R as [|? ? Rc Rl]; subst. inversion Wc as [? ? t e slots Tt Kt Nt Wi]; subst.
    cbn [go_abs]. apply oseq_gives; [eauto|]. apply oseq_gives; auto.
  Qed.
End Gives.
Lemma match_tags_gives rx (tags : list tag) (T : tterm -> Prop) : (forall t v, T t -> exists b, tt_match rx t v = Ok b) -> forall i, wf_item T i -> exists o, ti_match_tags rx i tags = Ok o.
Proof.
  intro Ev. destruct tags as [|g0 tags0]; [intros [tm e slots] _; eexists; reflexivity|]. remember (g0 :: tags0) as tags eqn:Et. assert (L : (0 < length tags)%nat) by (rewrite Et; cbn; lia). assert (Nn : null tags = false) by (rewrite Et; reflexivity). clear Et g0 tags0.
  apply (ti_ind (fun i => wf_item T i -> exists o, ti_match_tags rx i tags = Ok o)
    (fun s => wf_slot T s -> forall pos, (0 <= pos < Z.of_nat (length tags))%Z -> exists o pos', slot_match_tags rx s tags pos = Ok (o, pos') /\ (0 <= pos' < Z.of_nat (length tags))%Z)).
  - intros tm e slots IH W. inversion W as [? ? ? Ws]; subst. rewrite item_tags_eq. rewrite Nn.
    assert (G : forall pos, (0 <= pos < Z.of_nat (length tags))%Z -> exists o, over_tags rx tags slots pos = Ok o); [|apply G; lia].
    clear W. induction slots as [|s slots IHs]; intros pos P; [eexists; reflexivity|]. inversion IH as [|? ? H1 H2]; inversion Ws as [|? ? W1 W2]; subst. cbn [over_tags] in *.
    destruct (H1 W1 pos P) as (o & pos' & -> & P'). cbn [bind]. apply oseq_gives; eauto.
  - intros k nm m IHn IHm W pos P. inversion W as [? ? ? K Wn Wm]; subst. rewrite slot_tags_eq. destruct (value_found tags k pos P) as ([i|] & -> & H); cbn [bind].
    + destruct H as (Hi & v & -> & V). destruct (val_gives rx T _ Ev k false v m Wm IHm) as (o1 & ->). destruct (val_gives rx T _ Ev k true v nm Wn IHn) as (o2 & ->). destruct (oseq_gives (Ok o1) (Ok o2)) as (o & ->); eauto. cbn [bind]. eauto.
    + destruct (abs_gives T _ k true nm Wn IHn) as (o & ->). cbn [bind]. eauto.
Qed.
