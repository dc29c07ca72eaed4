(** What a query text selects: Spec/SelectSpec.v. *)
From Coq Require Import Lia ZifyBool ZifyN ZifyNat Permutation.
From Verif Require Import Model.GTags Spec.Symbols Spec.GlobSpec Spec.GGlobSpec Spec.TagSpec Spec.QuerySpec Spec.SelectSpec Spec.RegistrySpec Spec.TagTreeSpec.
From Verif Require Import Proof.SortP Proof.SymbolsP Proof.DenotesP Proof.ParseP Proof.RegistryP Proof.TagTreeP Proof.SafeP Proof.KeyP Proof.TermsP Proof.SeriesP Proof.NodeTop Proof.GGlobTop.

Lemma reads_text rx s t : reads rx s t -> exists v, condition_text s (tt_key t) (tt_op t) v /\ keeps rx (tt_op t) v (tt_value t) (tt_glob t).
Proof. intros (key & value & k & v & E & N & F & T & Bk & Bv & K & Kp). exists v. split; auto. exists key, value, k. auto 10. Qed.
Lemma text_unique s k op v : forall k' op' v', condition_text s k op v -> condition_text s k' op' v' -> k' = k /\ op' = op /\ v' = v.
Proof.
  intros k' op' v' C C'.
  destruct C as (key & value & k0 & E & N & F & T & Bk & Bv & K), C' as (key' & value' & k0' & E' & N' & F' & T' & Bk' & Bv' & K').
  assert (Ekey : key' = key /\ op_string op ++ value = op_string op' ++ value').
  { rewrite E in E'. clear - E' F F'. revert key' F' E'. induction key as [|a r IH]; intros [|b r'] F' E'; cbn [app] in *.
    - auto.
    - exfalso. apply (F' b); [now left|]. destruct op; cbn in E'; injection E' as <- _; cbn; auto.
    - exfalso. apply (F a); [now left|]. destruct op'; cbn in E'; injection E' as -> _; cbn; auto.
    - injection E' as -> E'. destruct (IH ltac:(intros c I; apply F; now right) r' ltac:(intros c I; apply F'; now right) E') as [-> ?]. auto. }
  destruct Ekey as [-> Ev]. apply bare_iff in Bk, Bk', Bv, Bv'. subst k0 k0'.
  assert (Eo : op' = op /\ value' = value).
  { clear - Ev T T'. destruct op, op'; cbn in Ev; try discriminate; injection Ev as Ev; subst; auto; exfalso;
      first [now eapply (T ltac:(auto))|now eapply (T' ltac:(auto))|discriminate]. }
  destruct Eo as [-> ->]. split; [|split]; auto; [|congruence]. destruct K as [[? ->]|[? ->]], K' as [[? ->]|[? ->]]; congruence.
Qed.
Lemma means_literal v x : ~ wild v -> (means v x <-> x = v).
Proof. unfold means. intuition. Qed.
Lemma symbols_inj a b : symbols a = symbols b -> a = b.
Proof. intro H. rewrite <- (concat_symbols a), H. apply concat_symbols. Qed.
Definition eqne (op : tagop) : Prop := op = OpEq \/ op = OpNe.

(** One condition on one value. *)
Lemma keeps_match rx op k v kept gl x : keeps rx op v kept gl -> (eqne op -> wild v -> good_glob v) -> clean x \/ (eqne op -> wild v -> lone_classes v) ->
  exists b, tt_match rx (mkTerm k op kept gl) x = Ok b /\ (b = true <-> admits rx op v x).
Proof.
  intros K G C.
  assert (M : eqne op -> exists b, (match gl with Some g => glob_match g x | None => Ok (str_eqb x kept) end) = Ok b /\ (b = true <-> means v x)).
  { intro Eo. assert (K' : ((forall c, In c v -> ~ wild_byte c) /\ kept = v /\ gl = None) \/ ((exists c, In c v /\ wild_byte c) /\ exists g, glob_parse v = Ok g /\ kept = g_node g /\
         ((g_items g = [] /\ gl = None) \/ (g_items g <> [] /\ gl = Some g)))) by (destruct Eo as [-> | ->]; exact K).
    destruct K' as [(W & -> & ->)|(W & g & P & -> & Kg)].
    - eexists. split; [reflexivity|]. assert (N : ~ wild v) by (intros (c & I & Wc); now apply (W c)). rewrite str_eqb_eq. symmetry. now apply means_literal.
    - assert (Mv : means v x <-> denotes v (symbols x)) by (unfold means, wild; intuition). specialize (G Eo W). destruct Kg as [[Ei ->]|[Ei ->]].
      + eexists. split; [reflexivity|]. rewrite Mv, str_eqb_eq, (good_literal v g G P Ei). split; [congruence|apply symbols_inj].
      + destruct (good_match v g x G P) as (b & Eb & Hb); [destruct C as [C|C]; auto|]. exists b. split; auto. rewrite Mv. exact Hb. }
  unfold tt_match, admits. cbn [tt_op tt_glob tt_value]. destruct op.
  - apply M. now left.
  - eexists. split; [reflexivity|]. destruct K as (_ & -> & _). reflexivity.
  - destruct (M ltac:(now right)) as (b & E & Hb). exists (negb b). split.
    + destruct gl; [rewrite E; reflexivity|]. now injection E as ->.
    + rewrite <- Hb. destruct b; cbn; intuition discriminate.
  - eexists. split; [reflexivity|]. destruct K as (_ & -> & _). destruct (rx_match rx v x); cbn; intuition discriminate.
Qed.
(** ... in terms of what is written of the condition. *)
Lemma keeps_written rx op v kept gl : eqne op -> keeps rx op v kept gl -> (wild v -> good_glob v) -> clean v -> forall w, denotes kept w <-> denotes v w.
Proof.
  intros Eo K G C w. assert (K' : ((forall c, In c v -> ~ wild_byte c) /\ kept = v /\ gl = None) \/ ((exists c, In c v /\ wild_byte c) /\ exists g, glob_parse v = Ok g /\ kept = g_node g /\
         ((g_items g = [] /\ gl = None) \/ (g_items g <> [] /\ gl = Some g)))) by (destruct Eo as [-> | ->]; exact K).
  destruct K' as [(_ & -> & _)|(W & g & P & -> & _)]; [reflexivity|]. destruct (G W) as (C1 & Z & D & S & Q & R). now apply c28_node_l.
Qed.
Lemma means_denotes v x : clean v -> (means v x <-> denotes v (symbols x)).
Proof.
  intro C. destruct (has_wildcard v) eqn:H.
  - apply wild_iff in H. unfold means, wild. intuition.
  - assert (N : ~ wild v) by (intro W; apply wild_iff in W; congruence). rewrite (means_literal v x N), denotes_text; [|auto|now apply no_wild_meta].
    split; [now intros ->|apply symbols_inj].
Qed.

Lemma query_unique q l l' : query_text q l -> query_text q l' -> l' = l.
Proof.
  intros Q Q'. set (n := Nat.max (length l) (length l')). assert (A : series_by_tag_args q n = Ok l) by (apply args_iff; split; [auto|subst n; lia]).
  assert (A' : series_by_tag_args q n = Ok l') by (apply args_iff; split; [auto|subst n; lia]). rewrite A in A'. now apply ok_inj in A'.
Qed.
Lemma value_clean tags k x : clean_tags tags -> value_of tags k = Some x -> clean x.
Proof.
  intros C. unfold value_of. induction tags as [|[k' x'] r IH]; cbn [lookup]; [discriminate|]. destruct (str_eqb_spec k k') as [->|].
  - intros [= ->]. eapply C. now left.
  - intro H. apply IH; auto. intros k2 x2 I. eapply C. right. eauto.
Qed.
Lemma reads_holds rx s t tags : reads rx s t -> (forall k op v, condition_text s k op v -> eqne op -> wild v -> good_glob v) ->
  clean_tags tags \/ (forall k op v, condition_text s k op v -> eqne op -> wild v -> lone_classes v) ->
  (forall x, value_of tags (tt_key t) = Some x -> exists b, tt_match rx t x = Ok b) /\ (holds rx t tags <-> satisfied rx s tags).
Proof.
  intros R G C. destruct (reads_text _ _ _ R) as (v & T & K).
  assert (M : forall x, value_of tags (tt_key t) = Some x -> exists b, tt_match rx t x = Ok b /\ (b = true <-> admits rx (tt_op t) v x)).
  { intros x Ex. destruct (keeps_match rx _ (tt_key t) _ _ _ x K) as (b & E & Hb); [eauto|destruct C as [C|C]; [left; eapply value_clean; eauto|right; eauto]|]. exists b. split; [destruct t; exact E|auto]. }
  split; [intros x Ex; destruct (M x Ex) as (b & E & _); eauto|]. unfold holds, satisfied. split.
  - intro H. exists (tt_key t), (tt_op t), v. split; auto. destruct (value_of tags (tt_key t)) as [x|].
    + destruct (M x eq_refl) as (b & E & Hb). apply Hb. rewrite E in H. now apply ok_inj in H.
    + unfold positive in H. destruct (tt_op t); auto; exfalso; apply H; auto.
  - intros (k & op & v' & T' & H). destruct (text_unique _ _ _ _ _ _ _ T T') as (-> & -> & ->). destruct (value_of tags (tt_key t)) as [x|].
    + destruct (M x eq_refl) as (b & E & Hb). rewrite E. f_equal. now apply Hb.
    + unfold positive. intros [E|E]; rewrite E in H; destruct H; discriminate.
Qed.
Lemma series_reads rx q ts : parse_series rx q = Ok ts -> exists l us, query_text q l /\ (length l <= 128)%nat /\ Forall2 (reads rx) l us /\ Permutation us ts.
Proof.
  unfold parse_series. destruct (series_by_tag_args q 128) as [l|e| |] eqn:E; cbn [bind]; try discriminate. intro P. apply args_iff in E as [Q L].
  apply conditions_reads in P as (us & R & Pm & O). eauto 8.
Qed.
Lemma forall2_in_r {A C} (P : A -> C -> Prop) l m y : Forall2 P l m -> In y m -> exists x, In x l /\ P x y.
Proof. induction 1 as [|a b l m H F IH]; intros I; [easy|]. destruct I as [<-|I]; [exists a; split; [now left|auto]|]. destruct (IH I) as (x & Ix & Hx). exists x. split; [now right|auto]. Qed.
Lemma forall2_in_l {A C} (P : A -> C -> Prop) l m x : Forall2 P l m -> In x l -> exists y, In y m /\ P x y.
Proof. induction 1 as [|a b l m H F IH]; intros I; [easy|]. destruct I as [<-|I]; [exists b; split; [now left|auto]|]. destruct (IH I) as (y & Iy & Hy). exists y. split; [now right|auto]. Qed.
Lemma select_map rx q ts tags : parse_series rx q = Ok ts -> good_query q -> clean_tags tags \/ lone_query q -> exists b, terms_match_map rx ts tags = Ok b /\ (b = true <-> selects rx q tags).
Proof.
  intros P G C. destruct (series_reads rx q ts P) as (l & us & Q & L & R & Pm).
  assert (H : forall s t, In s l -> reads rx s t -> (forall x, value_of tags (tt_key t) = Some x -> exists b, tt_match rx t x = Ok b) /\ (holds rx t tags <-> satisfied rx s tags)).
  { intros s t Is Rt. apply reads_holds; auto; [intros k op v T Eo W; eapply G; eauto|]. destruct C as [C|C]; auto. right. intros k op v T Eo W. eapply C; eauto. }
  assert (E : evaluable rx ts tags).
  { intros t x It Ex. apply (Permutation_in t (Permutation_sym Pm)) in It. destruct (forall2_in_r _ _ _ _ R It) as (s & Is & Rt). now apply (H s t Is Rt). }
  destruct (match_map_total rx ts tags E) as (b & Eb). exists b. split; auto.
  assert (Hb : b = true <-> terms_match_map rx ts tags = Ok true) by (rewrite Eb; split; [intros ->; reflexivity|intro X; now apply ok_inj in X]).
  rewrite Hb, match_map_true. split.
  - intro A. exists l. split; auto. intros s Is. destruct (forall2_in_l _ _ _ _ R Is) as (t & It & Rt). apply (H s t Is Rt). apply A. eapply Permutation_in; eauto.
  - intros (l' & Q' & A) t It. rewrite (query_unique _ _ _ Q Q') in A. apply (Permutation_in t (Permutation_sym Pm)) in It. destruct (forall2_in_r _ _ _ _ R It) as (s & Is & Rt). apply (H s t Is Rt). auto.
Qed.
Lemma accepted_reads rx E t : accepted_term rx E t -> exists e l s, In e E /\ query_text (e_text e) l /\ In s l /\ reads rx s t.
Proof.
  intros (e & ts & Ie & P & It). destruct (series_reads _ _ _ P) as (l & us & Q & _ & R & Pm). apply (Permutation_in t (Permutation_sym Pm)) in It.
  destruct (forall2_in_r _ _ _ _ R It) as (s & Is & Rt). exists e, l, s. auto.
Qed.
Lemma select_coherent rx E tags : (forall e, In e E -> good_query (e_text e) /\ clean_query (e_text e)) -> clean_tags tags \/ (forall e, In e E -> lone_query (e_text e)) -> tags_coherent rx E tags.
Proof.
  intros G C.
  assert (K : forall t x, accepted_term rx E t -> value_of tags (tt_key t) = Some x -> exists b, tt_match rx t x = Ok b /\
    match tt_op t with OpEq => b = true <-> denotes (tt_value t) (symbols x) | OpNe => b = true <-> ~ denotes (tt_value t) (symbols x) | OpMatch => b = rx_match rx (tt_value t) x | OpNotMatch => b = negb (rx_match rx (tt_value t) x) end).
  { intros t x A Ex. destruct (accepted_reads _ _ _ A) as (e & l & s & Ie & Q & Is & R). destruct (reads_text _ _ _ R) as (v & T & Kp). destruct (G e Ie) as [Gq Cq].
    destruct (keeps_match rx _ (tt_key t) _ _ _ x Kp) as (b & Eb & Hb); [intros; eapply Gq; eauto|destruct C as [C|C]; [left; eapply value_clean; eauto|right; intros; eapply (C e Ie); eauto]|]. exists b. split; [destruct t; exact Eb|].
    assert (D : eqne (tt_op t) -> (means v x <-> denotes (tt_value t) (symbols x))).
    { intro Eo. rewrite (keeps_written rx _ v _ _ Eo Kp); [|intro; eapply Gq; eauto|eapply Cq; eauto]. apply means_denotes. eapply Cq; eauto. }
    destruct t as [k op kept gl]. cbn [tt_op tt_value tt_glob] in *. unfold admits in Hb. unfold tt_match in Eb. cbn [tt_op tt_value tt_glob] in Eb. destruct op.
    - rewrite Hb. apply D. now left.
    - now apply ok_inj in Eb.
    - rewrite Hb, D by now right. reflexivity.
    - now apply ok_inj in Eb. }
  split.
  - intros t x A Ex. destruct (K t x A Ex) as (b & Eb & _). eauto.
  - intros t u x A A' Ec Ex. assert (Ex' : value_of tags (tt_key u) = Some x) by (unfold condition in Ec; injection Ec as <- _ _; exact Ex).
    destruct (K t x A Ex) as (b & -> & Hb), (K u x A' Ex') as (b' & -> & Hb'). f_equal. unfold condition in Ec. injection Ec as _ Eo Ev. rewrite <- Eo, <- Ev in Hb'.
    destruct (tt_op t); try congruence; apply eq_true_iff_eq; rewrite Hb, Hb'; reflexivity.
Qed.
Lemma named_named rx q : named_query q -> named_keys rx q.
Proof.
  intros N ts t P It. destruct (series_reads _ _ _ P) as (l & us & Q & _ & R & Pm). apply (Permutation_in t (Permutation_sym Pm)) in It.
  destruct (forall2_in_r _ _ _ _ R It) as (s & Is & Rt). destruct (reads_text _ _ _ Rt) as (v & T & _). eapply N; eauto.
Qed.
Lemma empty_series rx q ts : parse_series rx q = Ok ts -> (ts = [] <-> query_text q []).
Proof.
  intro P. destruct (series_reads _ _ _ P) as (l & us & Q & _ & R & Pm). split.
  - intros ->. apply Permutation_sym, Permutation_nil in Pm. subst us. inversion R; subst. exact Q.
  - intro Q'. apply (query_unique _ _ _ Q') in Q. subst l. inversion R; subst. now apply Permutation_nil in Pm.
Qed.
Lemma history_canon canon calls rs E : history canon calls rs E -> forall e, In e E -> canon (e_text e) = Ok (e_node e).
Proof.
  induction 1 as [|calls rs E text i new r H IH R]; [easy|]. intros e I.
  assert (K : In e E \/ new = Some e) by (destruct new as [e'|]; [apply in_app_or in I as [I|[->|[]]]; auto|auto]). destruct K as [K| ->]; [auto|]. inversion R; subst. assumption.
Qed.
(** For concrete queries. *)
Lemma text_intro key op value : key <> [] -> (forall c, In c key -> ~ In c (B "=~!")) -> (op = OpEq \/ op = OpNe -> forall w, value <> "~"%char :: w) ->
  condition_text (key ++ op_string op ++ value) (if str_eqb (trim_space key) (B "name") then B "__name__" else trim_space key) op (trim_space value).
Proof.
  intros N F T. exists key, value, (trim_space key). split; auto. split; auto. split; auto. split; auto. split; [now apply bare_iff|]. split; [now apply bare_iff|]. now apply key_case.
Qed.
Lemma query_cases (P : str -> tagop -> str -> Prop) q n l : series_by_tag_args q n = Ok l -> Forall (fun s => exists k op v, condition_text s k op v /\ P k op v) l ->
  forall l' s k op v, query_text q l' -> In s l' -> condition_text s k op v -> P k op v.
Proof.
  intros A F l' s k op v Q I T. apply args_iff in A as [Q' _]. apply (query_unique _ _ _ Q') in Q. subst l'. rewrite Forall_forall in F. destruct (F s I) as (k' & op' & v' & T' & H).
  now destruct (text_unique _ _ _ _ _ _ _ T' T) as (-> & -> & ->).
Qed.
