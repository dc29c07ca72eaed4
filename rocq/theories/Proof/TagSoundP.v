(** What trees of queries report, whenever they return. *)
From Coq Require Import Lia ZifyBool ZifyN ZifyNat Permutation.
From Verif Require Import Model.GTags Spec.Symbols Spec.GlobSpec Spec.ApartSpec Spec.GGlobSpec Spec.TagSpec Spec.QuerySpec Spec.SelectSpec Spec.RegistrySpec Spec.TagTreeSpec Spec.TameSpec.
From Verif Require Import Proof.SortP Proof.SymbolsP Proof.DenotesP Proof.ParseP Proof.RegistryP Proof.TagTreeP Proof.SafeP Proof.KeyP Proof.TermsP Proof.SeriesP Proof.NodeTop Proof.GlobTop Proof.GGlobTop Proof.TagTop Proof.SelectP Proof.CheckP.

Definition just (r : res out) (l : list term) : Prop := forall o, r = Ok o -> o = (l, length l).
Lemma just_oseq a b l m : just a l -> just b m -> just (oseq a b) (l ++ m).
Proof.
  intros A C o H. unfold oseq in H. destruct a as [x|e| |]; cbn in H; try discriminate. destruct b as [y|e| |]; cbn in H; try discriminate. apply ok_inj in H. subst o.
  rewrite (A x eq_refl), (C y eq_refl). unfold out_app. cbn. now rewrite app_length.
Qed.
Lemma just_full l : just (full l) l.
Proof. intros o H. apply ok_inj in H. now subst. Qed.
Lemma just_emit rx tags e : just (Ok (emit e)) (hits rx tags (own e)).
Proof. rewrite (emit_full rx tags). apply just_full. Qed.
Section Just.
  Variables (rx : regexps) (tags : list tag) (rec : titem -> res out).
  Variable T : tterm -> Prop.
  Lemma go_val_just k neg v : value_of tags k = Some v -> forall l, Forall (wf_child T k neg) l -> Forall (fun c => wf_item T c -> just (rec c) (hits rx tags (flat c))) l ->
    just (go_val rx rec v l) (hits rx tags (branches flat l)).
  Proof.
    intros V. induction l as [|c l IH]; intros W R; [apply just_full|]. inversion W as [|? ? Wc Wl]; inversion R as [|? ? Rc Rl]; subst.
    inversion Wc as [? ? t e slots Tt Kt Nt Wi]; subst. cbn [go_val ti_term branches]. unfold branch. cbn [ti_term ti_end].
    rewrite hits_app, hits_under. unfold sat at 1. rewrite V. destruct (tt_match rx t v) as [b|e1| |]; cbn [bind]; try (intros o H; discriminate). destruct b.
    - rewrite hits_app, <- app_assoc. apply just_oseq; [apply just_emit|]. apply just_oseq; auto.
    - auto.
  Qed.
  Lemma go_abs_just k : value_of tags k = None -> forall l, Forall (wf_child T k true) l -> Forall (fun c => wf_item T c -> just (rec c) (hits rx tags (flat c))) l ->
    just (go_abs rec l) (hits rx tags (branches flat l)).
  Proof.
    intros V. induction l as [|c l IH]; intros W R; [apply just_full|]. inversion W as [|? ? Wc Wl]; inversion R as [|? ? Rc Rl]; subst.
    inversion Wc as [? ? t e slots Tt Kt Nt Wi]; subst. cbn [go_abs branches]. unfold branch. cbn [ti_term ti_end].
    rewrite hits_app, hits_under. unfold sat at 1. rewrite V, Nt, hits_app, <- app_assoc. apply just_oseq; [apply just_emit|]. apply just_oseq; auto.
  Qed.
End Just.
Lemma match_map_just rx (tags : list tag) (T : tterm -> Prop) : tags <> [] -> forall i, wf_item T i -> just (ti_match_map rx i tags) (hits rx tags (flat i)).
Proof.
  intros N. apply (ti_ind (fun i => wf_item T i -> just (ti_match_map rx i tags) (hits rx tags (flat i))) (fun s => wf_slot T s -> just (slot_match_map rx s tags) (hits rx tags (flat_slot s)))).
  - intros tm e slots IH W. inversion W as [? ? ? Ws]; subst. rewrite item_map_eq, flat_item. replace (null tags) with false by now destruct tags.
    clear W. induction slots as [|s slots IHs]; [apply just_full|]. inversion IH; inversion Ws; subst. cbn [over_map flat_slots]. rewrite hits_app. apply just_oseq; auto.
  - intros k nm m IHn IHm W. inversion W as [? ? ? K Wn Wm]; subst. rewrite slot_map_eq, flat_slot_eq, hits_app. destruct (value_of tags k) as [v|] eqn:V.
    + apply just_oseq; [apply (go_val_just rx tags _ T k false)|apply (go_val_just rx tags _ T k true)]; auto.
    + rewrite (pos_abs rx tags T k V m Wm). apply (go_abs_just rx tags _ T k); auto.
Qed.
Lemma match_tags_just rx (tags : list tag) (T : tterm -> Prop) : tags <> [] -> keys_sorted (map fst tags) -> forall i, wf_item T i -> just (ti_match_tags rx i tags) (hits rx tags (flat i)).
Proof.
  intros N S. assert (L : (0 < length tags)%nat) by (destruct tags; cbn; [easy|lia]).
  apply (ti_ind (fun i => wf_item T i -> just (ti_match_tags rx i tags) (hits rx tags (flat i)))
    (fun s => wf_slot T s -> forall pos, (0 <= pos < Z.of_nat (length tags))%Z -> forall o pos', slot_match_tags rx s tags pos = Ok (o, pos') -> (0 <= pos' < Z.of_nat (length tags))%Z /\ o = (hits rx tags (flat_slot s), length (hits rx tags (flat_slot s))))).
  - intros tm e slots IH W. inversion W as [? ? ? Ws]; subst. rewrite item_tags_eq, flat_item. replace (null tags) with false by now destruct tags.
    assert (G : forall pos, (0 <= pos < Z.of_nat (length tags))%Z -> just (over_tags rx tags slots pos) (hits rx tags (flat_slots slots))); [|apply G; lia].
    clear W. induction slots as [|s slots IHs]; intros pos P; [apply just_full|]. inversion IH as [|? ? H1 H2]; inversion Ws as [|? ? H4 H5]; subst. cbn [over_tags flat_slots]. specialize (H1 H4 pos P).
    destruct (slot_match_tags rx s tags pos) as [[o pos']|e1| |]; cbn [bind]; try (intros o1 H; discriminate). destruct (H1 o pos' eq_refl) as [P' ->]. rewrite hits_app. apply just_oseq; [apply just_full|auto].
  - intros k nm m IHn IHm W pos P o pos' H. inversion W as [? ? ? K Wn Wm]; subst. rewrite slot_tags_eq in H. rewrite flat_slot_eq, hits_app. destruct (find_value tags k pos S K P) as ([i|] & Ef & Hf); rewrite Ef in H; cbn [bind] in H.
    + destruct Hf as (Hi & v & En & V). rewrite En in H.
      pose proof (just_oseq _ _ _ _ (go_val_just rx tags _ T k false v V m Wm IHm) (go_val_just rx tags _ T k true v V nm Wn IHn)) as J.
      destruct (oseq _ _) as [o1|e1| |] in H, J; cbn [bind] in H; try discriminate. apply ok_inj in H. injection H as -> ->. split; [auto|]. now apply J.
    + pose proof (go_abs_just rx tags _ T k Hf nm Wn IHn) as J. rewrite (pos_abs rx tags T k Hf m Wm). destruct (go_abs _ nm) as [o1|e1| |] in H, J; cbn [bind] in H; try discriminate.
      apply ok_inj in H. injection H as -> ->. split; [auto|]. now apply J.
Qed.

(** ** Soundness *)
Definition tame (v : str) : Prop := clean v /\ (wild v -> ~ In (byte_of 0) v /\ ~ In (byte_of 127) v /\ plain_singles v /\ plain_classes v /\ calm_glob v).
Lemma tame_written rx v kept gl : keeps rx OpEq v kept gl -> tame v -> forall w, denotes kept w <-> denotes v w.
Proof.
  intros K [C T] w. destruct K as [(_ & -> & _)|(W & g & P & -> & _)]; [reflexivity|]. destruct (T W) as (Z & D & S & Q & _). now apply c28_node_l.
Qed.
Lemma tame_match rx k v kept gl x : keeps rx OpEq v kept gl -> tame v -> tt_match rx (mkTerm k OpEq kept gl) x = Ok true -> denotes kept (symbols x).
Proof.
  intros K T M. rewrite (tame_written rx v kept gl K T). destruct T as [C T]. unfold tt_match in M. cbn [tt_op tt_glob tt_value] in M. destruct K as [(W & -> & ->)|(W & g & P & -> & [[Ei ->]|[Ei ->]])].
  - apply ok_inj in M. apply str_eqb_eq in M. subst x. apply means_denotes; auto. left. split; [intros (c & I & Wc); now apply (W c)|auto].
  - apply ok_inj in M. apply str_eqb_eq in M. subst x. destruct (T W) as (Z & D & S & Q & _).
    apply (gk_literal v g); auto. split; [split; [auto|split; [exact Z|discriminate]]|auto].
  - destruct (T W) as (Z & D & S & Q & A). eapply c80_sound_l; eauto. now apply plain_not_star.
Qed.
Lemma reads_sound rx s u t tags : reads rx s u -> condition t = condition u -> (exists s', reads rx s' t /\ forall k v, condition_text s' k OpEq v -> tame v) -> (forall k v, condition_text s k OpEq v -> tame v) ->
  holds rx t tags -> satisfied rx s tags \/ exists k v, condition_text s k OpNe v.
Proof.
  intros R Ec (s' & R' & T') T H. destruct (reads_text _ _ _ R) as (v & C & K), (reads_text _ _ _ R') as (v' & C' & K'). destruct t as [k op kept gl], u as [k2 op2 kept2 gl2].
  unfold condition in Ec. cbn [tt_key tt_op tt_value tt_glob] in *. injection Ec as <- <- <-.
  destruct op; [left|left|right; eauto|left]; exists k; eexists; exists v; (split; [exact C|]); unfold holds in H; cbn [tt_key tt_op tt_value] in H; destruct (value_of tags k) as [x|]; cbn [admits];
    try (unfold positive in H; exfalso; apply H; auto; fail).
  - apply (tame_match rx k v' kept gl x K' (T' _ _ C')) in H. rewrite (tame_written rx v kept gl2 K (T _ _ C)) in H. apply means_denotes; [apply (T _ _ C)|exact H].
  - unfold tt_match in H. cbn in H. apply ok_inj in H. destruct K as (_ & -> & _). exact H.
  - unfold tt_match in H. cbn in H. apply ok_inj in H. destruct K as (_ & -> & _). now destruct (rx_match rx v x).
  - auto.
Qed.
Lemma query_sound rx q ts tags : parse_series rx q = Ok ts -> tame_query q -> terms_match_map rx ts tags = Ok true -> mostly_selects rx q tags.
Proof.
  intros P T M. destruct (series_reads rx q ts P) as (l & us & Q & L & R & Pm). rewrite match_map_true in M. exists l. split; auto. intros s Is.
  destruct (forall2_in_l _ _ _ _ R Is) as (t & It & Rt). assert (Ts : forall k v, condition_text s k OpEq v -> tame v) by (intros k v C; eapply T; eauto).
  apply (reads_sound rx s t t tags); eauto. apply M. eapply Permutation_in; eauto.
Qed.
Lemma hits_sound rx E gt tags q i : tagtree_ok rx E gt -> (forall e, In e E -> tame_query (e_text e)) -> In (q, i) (hits rx tags (flat (tg_root gt))) ->
  exists e, In e E /\ e_node e = q /\ e_index e = i /\ mostly_selects rx (e_text e) tags.
Proof.
  intros (_ & _ & W & _ & _ & (T1 & _ & _)) T I. apply hits_in in I as (p & Ip & A). destruct (T1 p (q, i) Ip) as (e & ts & Ie & P & _ & Sm & Ex). injection Ex as -> ->. exists e. split; auto. split; auto. split; auto.
  pose proof (flat_over _ _ W p _ Ip) as Fo. destruct (series_reads rx _ ts P) as (l & us & Q & L & R & Pm). exists l. split; auto. intros s Is. destruct (forall2_in_l _ _ _ _ R Is) as (u & Iu & Ru).
  apply (Permutation_in u Pm) in Iu. assert (Ic : In (condition u) (map condition p)) by (rewrite Sm; now apply in_map). apply in_map_iff in Ic as (t & Ec & It). rewrite Forall_forall in Fo.
  destruct (accepted_reads rx E t (Fo t It)) as (e' & l' & s' & Ie' & Q' & Is' & R').
  apply (reads_sound rx s u t tags); auto.
  - exists s'. split; auto. intros k v C. eapply (T e' Ie'); eauto.
  - intros k v C. eapply (T e Ie); eauto.
Qed.
