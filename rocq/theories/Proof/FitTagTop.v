(** C82: queries with stars inside list values. *)
From Verif Require Import Model.GTags Spec.Symbols Spec.Class Spec.GlobSpec Spec.StarSpec Spec.ApartSpec Spec.Neat Spec.GGlobSpec Spec.TagSpec Spec.QuerySpec Spec.SelectSpec Spec.RegistrySpec Spec.TagTreeSpec Spec.SteadySpec Spec.FitSpec Spec.FitTagSpec.
From Verif Require Import Proof.SortP Proof.SafeP Proof.KeyP Proof.TermsP Proof.SeriesP Proof.RegistryP Proof.TagTreeP Proof.SelectP Proof.CheckP Proof.CheckNeatP Proof.GlobTop Proof.GGlobTop Proof.TagTop Proof.SelectTop Proof.SteadyTop Proof.FitTop.
From Coq Require Import Lia ZifyBool ZifyN ZifyNat Permutation.

Lemma within_literal v x : ~ wild v -> (means_within v x <-> x = v).
Proof. unfold means_within. intuition. Qed.
Lemma keeps_within rx op k v kept gl x : keeps rx op v kept gl -> (eqne op -> wild v -> part_glob v /\ neat v) -> clean x \/ (eqne op -> wild v -> lone_classes v) ->
  exists b, tt_match rx (mkTerm k op kept gl) x = Ok b /\ (b = true <-> admits_within rx op v x).
Proof.
  intros K G C.
  assert (M : eqne op -> exists b, (match gl with Some g => glob_match g x | None => Ok (str_eqb x kept) end) = Ok b /\ (b = true <-> means_within v x)).
  { intro Eo. assert (K' : keeps rx OpEq v kept gl) by (destruct Eo as [-> | ->]; exact K). cbn [keeps] in K'.
    destruct K' as [(W & -> & ->)|(W & g & P & -> & Kg)].
    - eexists. split; [reflexivity|]. assert (N : ~ wild v) by (intros (c & I & Wc); now apply (W c)). rewrite str_eqb_eq. symmetry. now apply within_literal.
    - destruct (G Eo W) as [Gp Gn]. destruct (star_part v g x Gp P) as (b & Eb & Hb); [destruct C as [C|C]; auto|].
      assert (Mv : b = true <-> means_within v x). { rewrite Hb. unfold means_within, part_denotes. split; [intros [D F]; right; eauto|]. intros [[N _]|(_ & D & g' & P' & F)]; [easy|]. split; auto. congruence. }
      destruct Kg as [[Ei ->]|[Ei ->]]; [|eauto].
      rewrite (steady_literal v g x Gn P Ei) in Eb. apply ok_inj in Eb. exists b. split; auto. rewrite <- Eb. f_equal. apply eq_true_iff_eq. rewrite !str_eqb_eq. split; congruence. }
  unfold tt_match, admits_within. cbn [tt_op tt_glob tt_value]. destruct op.
  - apply M. now left.
  - eexists. split; [reflexivity|]. destruct K as (_ & -> & _). reflexivity.
  - destruct (M ltac:(now right)) as (b & E & Hb). exists (negb b). split.
    + destruct gl; [rewrite E; reflexivity|]. now injection E as ->.
    + rewrite <- Hb. destruct b; cbn; intuition discriminate.
  - eexists. split; [reflexivity|]. destruct K as (_ & -> & _). destruct (rx_match rx v x); cbn; intuition discriminate.
Qed.
Lemma holds_within rx s t tags : reads rx s t -> (forall k op v, condition_text s k op v -> eqne op -> wild v -> part_glob v /\ neat v) ->
  clean_tags tags \/ (forall k op v, condition_text s k op v -> eqne op -> wild v -> lone_classes v) ->
  (forall x, value_of tags (tt_key t) = Some x -> exists b, tt_match rx t x = Ok b) /\ (holds rx t tags <-> satisfied_within rx s tags).
Proof.
  intros R G C. destruct (reads_text _ _ _ R) as (v & T & K).
  assert (M : forall x, value_of tags (tt_key t) = Some x -> exists b, tt_match rx t x = Ok b /\ (b = true <-> admits_within rx (tt_op t) v x)).
  { intros x Ex. destruct (keeps_within rx _ (tt_key t) _ _ _ x K) as (b & E & Hb); [eauto|destruct C as [C|C]; [left; eapply value_clean; eauto|right; eauto]|]. exists b. split; [destruct t; exact E|auto]. }
  split; [intros x Ex; destruct (M x Ex) as (b & E & _); eauto|]. unfold holds, satisfied_within. split.
  - intro H. exists (tt_key t), (tt_op t), v. split; auto. destruct (value_of tags (tt_key t)) as [x|].
    + destruct (M x eq_refl) as (b & E & Hb). apply Hb. rewrite E in H. now apply ok_inj in H.
    + unfold positive in H. destruct (tt_op t); auto; exfalso; apply H; auto.
  - intros (k & op & v' & T' & H). destruct (text_unique _ _ _ _ _ _ _ T T') as (-> & -> & ->). destruct (value_of tags (tt_key t)) as [x|].
    + destruct (M x eq_refl) as (b & E & Hb). rewrite E. f_equal. now apply Hb.
    + unfold positive. intros [E|E]; rewrite E in H; destruct H; discriminate.
Qed.
Lemma star_steady q : star_query q -> steady_query q.
Proof. intros G l s k op v Q I T Eo W. destruct (G l s k op v Q I T Eo W) as [Gp Gn]. split; auto. now apply star_calm. Qed.

(** C82: a query whose globs may have stars anywhere in list values accepts a map of tags exactly when its text selects the tags, no value being
    longer than the MaxLen of the glob it is compared with (by '!=' such a value is accepted). *)
Lemma c82_stars_l : forall (rx : regexps) (q : str) (ts : list tterm) (tags : list tag), parse_series rx q = Ok ts -> star_query q -> clean_tags tags \/ lone_query q ->
  exists b, terms_match_map rx ts tags = Ok b /\ (b = true <-> selects_within rx q tags).
Proof.
  intros rx q ts tags P G C. destruct (series_reads rx q ts P) as (l & us & Q & L & R & Pm).
  assert (H : forall s t, In s l -> reads rx s t -> (forall x, value_of tags (tt_key t) = Some x -> exists b, tt_match rx t x = Ok b) /\ (holds rx t tags <-> satisfied_within rx s tags)).
  { intros s t Is Rt. apply holds_within; auto; [intros k op v T Eo W; eapply G; eauto|]. destruct C as [C|C]; auto. right. intros k op v T Eo W. eapply C; eauto. }
  assert (E : evaluable rx ts tags).
  { intros t x It Ex. apply (Permutation_in t (Permutation_sym Pm)) in It. destruct (forall2_in_r _ _ _ _ R It) as (s & Is & Rt). now apply (H s t Is Rt). }
  destruct (match_map_total rx ts tags E) as (b & Eb). exists b. split; auto.
  assert (Hb : b = true <-> terms_match_map rx ts tags = Ok true) by (rewrite Eb; split; [intros ->; reflexivity|intro X; now apply ok_inj in X]).
  rewrite Hb, match_map_true. split.
  - intro A. exists l. split; auto. intros s Is. destruct (forall2_in_l _ _ _ _ R Is) as (t & It & Rt). apply (H s t Is Rt). apply A. eapply Permutation_in; eauto.
  - intros (l' & Q' & A) t It. rewrite (query_unique _ _ _ Q Q') in A. apply (Permutation_in t (Permutation_sym Pm)) in It. destruct (forall2_in_r _ _ _ _ R It) as (s & Is & Rt). apply (H s t Is Rt). auto.
Qed.
(** C82: a tree of such queries reports, on a non-empty map of tags, exactly the accepted queries with conditions whose text selects the tags
    in this sense. *)
Lemma c82_stars_tree_l : forall (rx : regexps) (calls : list (str * Z)) (gt : gtags_tree) (rs : list add_res) (E : list entry) (tags : list tag),
  (forall c, In c calls -> named_query (fst c)) -> run_adds (tg_add rx) tg_new calls = Ok (gt, rs) -> history (tg_canon rx) calls rs E ->
  (forall e, In e E -> star_query (e_text e)) -> clean_tags tags \/ (forall e, In e E -> lone_query (e_text e)) -> tags <> [] ->
  exists l, tg_match_map rx gt tags = Ok (l, length l) /\ NoDup (map snd l) /\
    forall q i, In (q, i) l <-> exists e, In e E /\ e_node e = q /\ e_index e = i /\ ~ query_text (e_text e) [] /\ selects_within rx (e_text e) tags.
Proof.
  intros rx calls gt rs E tags N R H G C Nt. assert (N' : forall c, In c calls -> named_keys rx (fst c)) by (intros c I; apply named_named; auto).
  assert (C2 : forall e, In e E -> clean_tags tags \/ lone_query (e_text e)) by (intros e Ie; destruct C; auto).
  assert (S : forall e, In e E -> steady_query (e_text e)) by (intros e Ie; apply star_steady; auto).
  destruct (c64_steady_l rx calls gt rs E tags N' R H S Nt) as (l & n & M & D & X). exists l. split; [|split; auto].
  - destruct (c67_count_l rx gt tags l n) as [Cn _]. rewrite <- (Cn M). exact M.
  - intros q i. rewrite X. split.
    + intros (e & ts & Ie & En & Ei & P & Nts & Mt). exists e. split; auto. split; auto. split; auto. split; [intro Q; now apply Nts, (empty_series rx (e_text e) ts P)|].
      destruct (c82_stars_l rx _ ts tags P (G e Ie) (C2 e Ie)) as (b & Eb & Hb). apply Hb. rewrite Eb in Mt. now apply ok_inj in Mt.
    + intros (e & Ie & En & Ei & Ne & Se). assert (Cn := history_canon _ _ _ _ H e Ie). unfold tg_canon in Cn. destruct (parse_series rx (e_text e)) as [ts|er| |] eqn:P; cbn [bind] in Cn; try discriminate.
      exists e, ts. split; auto. split; auto. split; auto. split; auto. split; [intro Q; now apply Ne, (empty_series rx (e_text e) ts P)|].
      destruct (c82_stars_l rx _ ts tags P (G e Ie) (C2 e Ie)) as (b & Eb & Hb). rewrite Eb. f_equal. now apply Hb.
Qed.
(*EX
(** An engine that takes an expression as the text it matches. *)
Definition rx_self : regexps := mkRx (fun _ => true) (fun re v => str_eqb re v).
Ltac letters := let c := fresh in let I := fresh in intros c I; vm_compute in I; (repeat destruct I as [<-|I]); try easy; vm_compute; reflexivity.
Ltac others := let c := fresh in let I := fresh in let J := fresh in intros c I J; vm_compute in I, J; (repeat destruct I as [<-|I]); try easy; intuition discriminate.
Lemma ft_part g : node_glob_b g && regular_stars_b g = true -> part_glob g.
Proof.
  intro H. apply andb_prop in H as [N R]. destruct (node_glob_ok g N) as (C & Z & _ & P & Q). split; [exact C|]. split; [exact Z|]. split; [exact P|]. split; [now apply plain_not_star|now apply regular_stars_ok].
Qed.
Definition fq : str := B "seriesByTag('name={a*b,cdef}[0-9]', 'a!=x*')".
Lemma fq_texts : forall l s k op v, query_text fq l -> In s l -> condition_text s k op v -> k <> [] /\ part_glob v /\ neat v.
Proof.
  apply (query_cases (fun k op v => k <> [] /\ part_glob v /\ neat v)) with (n := 128) (l := [B "name={a*b,cdef}[0-9]"; B "a!=x*"]); [vm_compute; reflexivity|].
  constructor; [|constructor; [|constructor]].
  - exists (B "__name__"), OpEq, (B "{a*b,cdef}[0-9]"). split; [apply (text_intro (B "name") OpEq (B "{a*b,cdef}[0-9]")); [discriminate|others|intros _ w; discriminate]|].
    split; [discriminate|]. split; [now apply ft_part|now apply steady_ok].
  - exists (B "a"), OpNe, (B "x*"). split; [apply (text_intro (B "a") OpNe (B "x*")); [discriminate|others|intros _ w; discriminate]|].
    split; [discriminate|]. split; [now apply ft_part|now apply steady_ok].
Qed.
(** 'azzzb7' is denoted by the glob but longer than its MaxLen, which is 5. *)
Example c82_stars_example : named_query fq /\ star_query fq /\ (forall s, In s [B "ab7"; B "azb7"; B "azzzb7"] -> clean_tags [(B "__name__", s)]) /\
  exists ts gt rs, parse_series rx_self fq = Ok ts /\ run_adds (tg_add rx_self) tg_new [(fq, 5%Z)] = Ok (gt, rs) /\
  terms_match_map rx_self ts [(B "__name__", B "azb7")] = Ok true /\ terms_match_map rx_self ts [(B "__name__", B "azzzb7")] = Ok false /\
  tg_match_map rx_self gt [(B "__name__", B "azb7")] = Ok ([(B "seriesByTag('__name__={a*b,cdef}[0-9]','a!=x*')", 5%Z)], 1) /\
  tg_match_map rx_self gt [(B "__name__", B "azzzb7")] = Ok ([], 0).
Proof.
  split; [intros l s k op v Q I T; exact (proj1 (fq_texts _ _ _ _ _ Q I T))|]. split; [intros l s k op v Q I T _ _; exact (proj2 (fq_texts _ _ _ _ _ Q I T))|].
  split; [intros s I k x [Ix|[]]; injection Ix as _ <-; repeat (destruct I as [<-|I]; [apply clean_ascii; letters|]); easy|].
  do 3 eexists. split; [vm_compute; reflexivity|]. split; [vm_compute; reflexivity|]. repeat (split; [vm_compute; reflexivity|]). vm_compute; reflexivity.
Qed.
XE*)
