(** The statements of Props/PSelect.v. *)
From Verif Require Import Model.GTags Spec.Symbols Spec.GlobSpec Spec.ApartSpec Spec.GGlobSpec Spec.TagSpec Spec.QuerySpec Spec.SelectSpec Spec.RegistrySpec Spec.TagTreeSpec Spec.TameSpec.
From Verif Require Import Proof.SortP Proof.RegistryP Proof.SafeP Proof.SeriesP Proof.SelectP Proof.TagTreeP Proof.CheckP Proof.GGlobTop Proof.TagTop Proof.TagSoundP Proof.ApartP.
From Coq Require Import Lia ZifyBool ZifyN ZifyNat Permutation.

(*EX
(** Regular expressions that are all valid and match themselves. *)
Definition rx_self : regexps := mkRx (fun _ => true) (fun re v => str_eqb re v).
Ltac letters := let c := fresh in let I := fresh in intros c I; vm_compute in I; (repeat destruct I as [<-|I]); try easy; vm_compute; reflexivity.
Ltac others := let c := fresh in let I := fresh in let J := fresh in intros c I J; vm_compute in I, J; (repeat destruct I as [<-|I]); try easy; intuition discriminate.
Lemma glob_x_star : good_glob (B "x*").
Proof. apply good_glob_ok. vm_compute. reflexivity. Qed.
Lemma example_query : good_query (B "seriesByTag('name=x*', 'a != 1')") /\ clean_query (B "seriesByTag('name=x*', 'a != 1')") /\ named_query (B "seriesByTag('name=x*', 'a != 1')").
Proof.
  assert (H : forall l s k op v, query_text (B "seriesByTag('name=x*', 'a != 1')") l -> In s l -> condition_text s k op v -> (k = B "__name__" /\ op = OpEq /\ v = B "x*") \/ (k = B "a" /\ op = OpNe /\ v = B "1")).
  { apply (query_cases (fun k op v => (k = B "__name__" /\ op = OpEq /\ v = B "x*") \/ (k = B "a" /\ op = OpNe /\ v = B "1"))) with (n := 128) (l := [B "name=x*"; B "a != 1"]); [vm_compute; reflexivity|].
    constructor; [|constructor; [|constructor]].
    - exists (B "__name__"), OpEq, (B "x*"). split; [|now left]. apply (text_intro (B "name") OpEq (B "x*")); [discriminate|others|intros _ w; discriminate].
    - exists (B "a"), OpNe, (B "1"). split; [|now right]. apply (text_intro (B "a ") OpNe (B " 1")); [discriminate|others|intros _ w; discriminate]. }
  split; [|split].
  - intros l s k op v Q I T _ W. destruct (H _ _ _ _ _ Q I T) as [(_ & _ & ->)|(_ & _ & ->)]; [apply glob_x_star|]. exfalso. apply wild_iff in W. discriminate W.
  - intros l s k op v Q I T _. destruct (H _ _ _ _ _ Q I T) as [(_ & _ & ->)|(_ & _ & ->)]; apply clean_ascii; letters.
  - intros l s k op v Q I T. destruct (H _ _ _ _ _ Q I T) as [(-> & _)|(-> & _)]; discriminate.
Qed.
XE*)
(** C82: an accepted query accepts a map of tags exactly when its text selects the tags. *)
Lemma c82_map_l : forall (rx : regexps) (q : str) (ts : list tterm) (tags : list tag), parse_series rx q = Ok ts -> good_query q -> clean_tags tags \/ lone_query q ->
  exists b, terms_match_map rx ts tags = Ok b /\ (b = true <-> selects rx q tags).
Proof. intros. now apply select_map. Qed.
(*EX
Example c82_map_example : exists ts, parse_series rx_self (B "seriesByTag('name=x*', 'a != 1')") = Ok ts /\ good_query (B "seriesByTag('name=x*', 'a != 1')") /\
  terms_match_map rx_self ts [(B "__name__", B "xy"); (B "a", B "2")] = Ok true /\ terms_match_map rx_self ts [(B "__name__", B "xy"); (B "a", B "1")] = Ok false.
Proof. eexists. split; [vm_compute; reflexivity|]. split; [apply example_query|]. split; vm_compute; reflexivity. Qed.
XE*)
(** C82: a tree of queries reports, on a non-empty map of tags, exactly the accepted queries with conditions whose text selects the tags. *)
Lemma c82_tree_l : forall (rx : regexps) (calls : list (str * Z)) (gt : gtags_tree) (rs : list add_res) (E : list entry) (tags : list tag),
  (forall c, In c calls -> named_query (fst c)) -> run_adds (tg_add rx) tg_new calls = Ok (gt, rs) -> history (tg_canon rx) calls rs E ->
  (forall e, In e E -> good_query (e_text e) /\ clean_query (e_text e)) -> clean_tags tags \/ (forall e, In e E -> lone_query (e_text e)) -> tags <> [] ->
  exists l, tg_match_map rx gt tags = Ok (l, length l) /\ NoDup (map snd l) /\
    forall q i, In (q, i) l <-> exists e, In e E /\ e_node e = q /\ e_index e = i /\ ~ query_text (e_text e) [] /\ selects rx (e_text e) tags.
Proof.
  intros rx calls gt rs E tags N R H G C Nt. assert (N' : forall c, In c calls -> named_keys rx (fst c)) by (intros c I; apply named_named; auto).
  assert (C2 : forall e, In e E -> clean_tags tags \/ lone_query (e_text e)) by (intros e Ie; destruct C; auto).
  destruct (c64_exact_l rx calls gt rs E tags N' R H (select_coherent rx E tags G C) Nt) as (l & n & M & D & X). exists l. split; [|split; auto].
  - destruct (c67_count_l rx gt tags l n) as [Cn _]. rewrite <- (Cn M). exact M.
  - intros q i. rewrite X. split.
    + intros (e & ts & Ie & En & Ei & P & Nts & Mt). exists e. split; auto. split; auto. split; auto. split; [intro Q; now apply Nts, (empty_series rx (e_text e) ts P)|].
      destruct (select_map rx _ ts tags P (proj1 (G e Ie)) (C2 e Ie)) as (b & Eb & Hb). apply Hb. rewrite Eb in Mt. now apply ok_inj in Mt.
    + intros (e & Ie & En & Ei & Ne & S). assert (Cn := history_canon _ _ _ _ H e Ie). unfold tg_canon in Cn. destruct (parse_series rx (e_text e)) as [ts|er| |] eqn:P; cbn [bind] in Cn; try discriminate.
      exists e, ts. split; auto. split; auto. split; auto. split; auto. split; [intro Q; now apply Ne, (empty_series rx (e_text e) ts P)|].
      destruct (select_map rx _ ts tags P (proj1 (G e Ie)) (C2 e Ie)) as (b & Eb & Hb). rewrite Eb. f_equal. now apply Hb.
Qed.
(** C82: on sorted tags MatchByTags reports exactly the accepted queries whose text selects the tags. *)
Lemma c82_tree_tags_l : forall (rx : regexps) (calls : list (str * Z)) (gt : gtags_tree) (rs : list add_res) (E : list entry) (tags : list tag),
  (forall c, In c calls -> named_query (fst c)) -> run_adds (tg_add rx) tg_new calls = Ok (gt, rs) -> history (tg_canon rx) calls rs E ->
  (forall e, In e E -> good_query (e_text e) /\ clean_query (e_text e)) -> clean_tags tags \/ (forall e, In e E -> lone_query (e_text e)) -> tags <> [] -> keys_sorted (map fst tags) ->
  exists l n, tg_match_tags rx gt tags = Ok (l, n) /\ NoDup (map snd l) /\
    forall q i, In (q, i) l <-> exists e, In e E /\ e_node e = q /\ e_index e = i /\ selects rx (e_text e) tags.
Proof.
  intros rx calls gt rs E tags N R H G C Nt S. destruct (c82_tree_l rx calls gt rs E tags N R H G C Nt) as (l & M & D & X).
  assert (N' : forall c, In c calls -> named_keys rx (fst c)) by (intros c I; apply named_named; auto).
  destruct (c65_agree_l rx calls gt rs E tags N' R H (select_coherent rx E tags G C) Nt S) as (l' & n & M' & A & A'). rewrite M in M'. apply ok_inj in M'. injection M' as <- <-.
  assert (Cn : forall e, In e E -> exists ts, parse_series rx (e_text e) = Ok ts).
  { intros e Ie. assert (Cn := history_canon _ _ _ _ H e Ie). unfold tg_canon in Cn. destruct (parse_series rx (e_text e)) as [ts|er| |]; cbn [bind] in Cn; try discriminate. eauto. }
  assert (K : (exists e, In e E /\ parse_series rx (e_text e) = Ok []) \/ (forall e, In e E -> parse_series rx (e_text e) <> Ok [])).
  { clear - Cn. induction E as [|e r IH]; [right; easy|]. destruct IH as [(e' & I & P)|F].
    - intros e' I. apply Cn. now right.
    - left. exists e'. split; [now right|auto].
    - destruct (Cn e (or_introl eq_refl)) as ([|t ts] & P); [left; exists e; split; [now left|auto]|]. right. intros e' [<-|I]; [rewrite P; discriminate|auto]. }
  destruct K as [(e0 & I0 & P0)|F].
  - exists ((e_node e0, e_index e0) :: l), (length l). split; [now apply A'|]. assert (Q0 : query_text (e_text e0) []) by now apply (empty_series rx (e_text e0) [] P0). cbn [map snd].
    assert (Un : forall e, In e E -> query_text (e_text e) [] -> e = e0).
    { intros e Ie Q. apply history_distinct in H as Ds. destruct Ds as [_ Ds]. apply (Ds e e0 (e_node e0)); auto. right. assert (C1 := history_canon _ _ _ _ H e Ie). assert (C2 := history_canon _ _ _ _ H e0 I0).
      destruct (Cn e Ie) as (ts & P). apply (empty_series rx (e_text e) ts P) in Q. subst ts. unfold tg_canon in C1, C2. rewrite P in C1. rewrite P0 in C2. congruence. }
    split.
    + constructor; auto. intro I. apply in_map_iff in I as ((q & i) & Ei & I). cbn in Ei. apply X in I as (e & Ie & _ & Ei' & Nq & _). apply history_distinct in H as [Nd _].
      assert (e = e0); [|subst e; easy]. rewrite Ei in Ei'. clear - Ie I0 Nd Ei'. induction E as [|a r IH]; [easy|]. cbn [map] in Nd. inversion Nd; subst.
      destruct Ie as [<-|Ie], I0 as [<-|I0]; auto; exfalso; apply H1; [rewrite Ei'|rewrite <- Ei']; now apply in_map.
    + intros q i. cbn [In]. rewrite X. split.
      * intros [[= <- <-]|(e & Ie & En & Ei & _ & Se)]; [|eauto 6]. exists e0. split; auto. split; auto. split; auto. exists []. split; auto. easy.
      * intros (e & Ie & <- & <- & Se). destruct (Cn e Ie) as (ts & P). destruct ts as [|t ts]; [left; now rewrite (Un e Ie (proj1 (empty_series rx _ _ P) eq_refl))|].
        right. exists e. split; auto. split; auto. split; auto. split; auto. intro Q. apply (empty_series rx _ _ P) in Q. discriminate.
  - exists l, (length l). split; [now apply A|]. split; auto. intros q i. rewrite X. split; [intros (e & Ie & En & Ei & _ & Se); eauto 6|].
    intros (e & Ie & En & Ei & Se). exists e. split; auto. split; auto. split; auto. split; auto. intro Q. destruct (Cn e Ie) as (ts & P). apply (empty_series rx _ _ P) in Q. subst ts. now apply (F e Ie).
Qed.
(*EX
Example c82_tree_example : let q := B "seriesByTag('name=x*', 'a != 1')" in let calls := [(q, 5%Z); (B "seriesByTag()", 6%Z)] in
  let tags := [(B "__name__", B "xy"); (B "a", B "2")] in
  (forall c, In c calls -> named_query (fst c) /\ good_query (fst c) /\ clean_query (fst c)) /\ clean_tags tags /\ keys_sorted (map fst tags) /\
  exists gt rs, run_adds (tg_add rx_self) tg_new calls = Ok (gt, rs) /\
    tg_match_map rx_self gt tags = Ok ([(B "seriesByTag('__name__=x*','a!=1')", 5%Z)], 1) /\
    tg_match_tags rx_self gt tags = Ok ([(B "seriesByTag()", 6%Z); (B "seriesByTag('__name__=x*','a!=1')", 5%Z)], 1) /\
    tg_match_map rx_self gt [(B "__name__", B "xy"); (B "a", B "1")] = Ok ([], 0).
Proof.
  cbv zeta. split; [|split; [|split]].
  - intros c [<-|[<-|[]]]; cbn [fst].
    + destruct example_query as (G & C & N). auto.
    + assert (H : forall l s k op v, query_text (B "seriesByTag()") l -> In s l -> condition_text s k op v -> False) by (apply (query_cases (fun _ _ _ => False)) with (n := 128) (l := []); [vm_compute; reflexivity|constructor]).
      split; [|split]; intros l s k op v Q I T; exfalso; eapply H; eauto.
  - intros k x [[= <- <-]|[[= <- <-]|[]]]; apply clean_ascii; letters.
  - cbn. unfold key_lt. repeat split; auto; intros k I; (repeat destruct I as [<-|I]); try easy; left; split; [reflexivity|discriminate].
  - do 2 eexists. split; [vm_compute; reflexivity|]. repeat match goal with |- _ /\ _ => split end; vm_compute; reflexivity.
Qed.
XE*)
(** C80: when an accepted query accepts a map of tags, the tags satisfy its conditions (those with '!=' aside), whatever the lists in its globs
    look like and whatever the tags. *)
Lemma c80_query_l : forall (rx : regexps) (q : str) (ts : list tterm) (tags : list tag), parse_series rx q = Ok ts -> tame_query q ->
  terms_match_map rx ts tags = Ok true -> mostly_selects rx q tags.
Proof. intros. eapply query_sound; eauto. Qed.
(** C80: trees of queries report only accepted queries whose conditions (those with '!=' aside) the tags satisfy. *)
Lemma c80_query_tree_l : forall (rx : regexps) (calls : list (str * Z)) (gt : gtags_tree) (rs : list add_res) (E : list entry) (tags : list tag),
  (forall c, In c calls -> named_query (fst c)) -> run_adds (tg_add rx) tg_new calls = Ok (gt, rs) -> history (tg_canon rx) calls rs E ->
  (forall e, In e E -> tame_query (e_text e)) ->
  (forall l n q i, tg_match_map rx gt tags = Ok (l, n) -> In (q, i) l -> exists e, In e E /\ e_node e = q /\ e_index e = i /\ mostly_selects rx (e_text e) tags) /\
  (forall l n q i, keys_sorted (map fst tags) -> tg_match_tags rx gt tags = Ok (l, n) -> In (q, i) l -> exists e, In e E /\ e_node e = q /\ e_index e = i /\ mostly_selects rx (e_text e) tags).
Proof.
  intros rx calls gt rs E tags N R H T. assert (N' : forall c, In c calls -> named_keys rx (fst c)) by (intros c I; apply named_named; auto).
  pose proof (hist_ok rx calls gt rs E N' R H) as K. pose proof K as (_ & _ & W & _ & En & _). split.
  - intros l n q i M I. unfold tg_match_map in M. destruct tags as [|x tags]; [destruct (tg_root gt); cbn in M; apply ok_inj in M; injection M as <- <-; easy|].
    assert (X := match_map_just rx (x :: tags) _ ltac:(discriminate) _ W _ M). injection X as -> _. eapply hits_sound; eauto.
  - intros l n q i S M I. unfold tg_match_tags, oseq in M. cbn [bind] in M. destruct (ti_match_tags rx (tg_root gt) tags) as [[l1 n1]|e1| |] eqn:M1; cbn [bind] in M; try discriminate. apply ok_inj in M. injection M as <- _.
    cbn [fst] in I. apply in_app_or in I as [I|I].
    + destruct (tg_end gt) as [x|] eqn:Ex; [|easy]. destruct I as [->|[]]. destruct (proj1 (En (q, i)) eq_refl) as (e & Ie & Pe & Xe). injection Xe as -> ->. exists e. split; auto. split; auto. split; auto.
      exists []. split; [|easy]. now apply (empty_series rx (e_text e) [] Pe).
    + destruct tags as [|x tags]; [destruct (tg_root gt); cbn in M1; apply ok_inj in M1; injection M1 as <- <-; easy|].
      assert (X := match_tags_just rx (x :: tags) _ ltac:(discriminate) S _ W _ M1). injection X as -> _. eapply hits_sound; eauto.
Qed.
(*EX
Example c80_query_example : let q := B "seriesByTag('name={a*,b}*c', 'a!=*{?,1}')" in tame_query q /\ named_query q /\
  (exists ts, parse_series rx_self q = Ok ts /\ terms_match_map rx_self ts [(B "__name__", B "axc")] = Ok true) /\
  exists gt rs, run_adds (tg_add rx_self) tg_new [(q, 5%Z)] = Ok (gt, rs) /\ tg_match_map rx_self gt [(B "__name__", B "axc")] = Ok ([(B "seriesByTag('__name__={a*,b}*c','a!=*{1,?}')", 5%Z)], 1).
Proof.
  cbv zeta.
  assert (H : forall l s k op v, query_text (B "seriesByTag('name={a*,b}*c', 'a!=*{?,1}')") l -> In s l -> condition_text s k op v -> (k = B "__name__" /\ op = OpEq /\ v = B "{a*,b}*c") \/ (k = B "a" /\ op = OpNe)).
  { apply (query_cases (fun k op v => (k = B "__name__" /\ op = OpEq /\ v = B "{a*,b}*c") \/ (k = B "a" /\ op = OpNe))) with (n := 128) (l := [B "name={a*,b}*c"; B "a!=*{?,1}"]); [vm_compute; reflexivity|].
    constructor; [|constructor; [|constructor]].
    - exists (B "__name__"), OpEq, (B "{a*,b}*c"). split; [|now left]. apply (text_intro (B "name") OpEq (B "{a*,b}*c")); [discriminate|others|intros _ w; discriminate].
    - exists (B "a"), OpNe, (B "*{?,1}"). split; [|now right]. apply (text_intro (B "a") OpNe (B "*{?,1}")); [discriminate|others|intros _ w; discriminate]. }
  split; [|split; [|split]].
  - intros l s k v Q I T. destruct (H _ _ _ _ _ Q I T) as [(_ & _ & ->)|(_ & X)]; [|discriminate]. destruct (node_glob_ok (B "{a*,b}*c") ltac:(vm_compute; reflexivity)) as (C & Z & D & P & Q2).
    split; [exact C|]. intros _. do 4 (split; [assumption|]). apply calm_glob_ok; vm_compute; reflexivity.
  - intros l s k op v Q I T. destruct (H _ _ _ _ _ Q I T) as [(-> & _)|(-> & _)]; discriminate.
  - eexists. split; [vm_compute; reflexivity|]. vm_compute. reflexivity.
  - do 2 eexists. split; [vm_compute; reflexivity|]. vm_compute. reflexivity.
Qed.
XE*)
