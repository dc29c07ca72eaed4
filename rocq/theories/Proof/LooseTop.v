(** Tags in any order. *)
From Verif Require Import Model.GTags Spec.TagSpec Spec.QuerySpec Spec.SelectSpec Spec.RegistrySpec Spec.TagTreeSpec Spec.CalmSpec.
From Verif Require Import Proof.SortP Proof.SafeP Proof.TagsP Proof.KeyP Proof.TermsP Proof.CondP Proof.RoundP Proof.TotalP Proof.RegistryP Proof.TagTreeP Proof.TagTop Proof.SelectTop Proof.ReturnsP Proof.LevelTop Proof.LooseP.
From Coq Require Import Lia ZifyBool ZifyN ZifyNat Permutation.

(*EX
(** Regular expressions that are all valid and match themselves. *)
Definition rx_self : regexps := mkRx (fun _ => true) (fun re v => str_eqb re v).
XE*)
Lemma scan_in k : forall tags k' v rest, scan_key k tags = (k', v) :: rest -> In (k, v) tags /\ (forall x, In x ((k', v) :: rest) -> In x tags).
Proof.
  induction tags as [|[k0 v0] tags IH]; intros k' v rest E; [discriminate|]. cbn [scan_key] in E. destruct (str_eqb_spec k0 k) as [->|N].
  - injection E as <- <- <-. split; [now left|auto].
  - apply IH in E as [I S]. split; [now right|]. intros x Ix. right. auto.
Qed.
Lemma loose_terms rx : forall ts tags, terms_match_tags rx ts tags = Ok true -> forall t, In t ts -> loose rx tags t.
Proof.
  assert (Z : forall ts, terms_match_tags rx ts [] = Ok true -> forall t, In t ts -> op_negative (tt_op t) = true).
  { induction ts as [|u ts IH]; intros M t I; [easy|]. cbn in M. destruct (op_negative (tt_op u)) eqn:O; [|discriminate]. destruct I as [<-|I]; auto. }
  induction ts as [|u ts IH]; intros tags M t I; [easy|]. destruct tags as [|g tags0] eqn:Et; [right; eapply Z; eauto|]. rewrite <- Et in *.
  assert (M' : match scan_key (tt_key u) tags with [] => if op_negative (tt_op u) then terms_match_tags rx ts [] else Ok false
    | ((_, v) :: _) as tags' => bind (tt_match rx u v) (fun b => if b then terms_match_tags rx ts tags' else Ok false) end = Ok true) by (rewrite Et in *; exact M). clear M.
  destruct (scan_key (tt_key u) tags) as [|[k' v] rest] eqn:Es.
  - destruct (op_negative (tt_op u)) eqn:O; [|discriminate]. right. destruct I as [<-|I]; auto. eapply Z; eauto.
  - apply scan_in in Es as [Iv S]. destruct (tt_match rx u v) as [[]| | |] eqn:Em; try discriminate. cbn [bind] in M'. destruct I as [<-|I]; [left; eauto|].
    destruct (IH _ M' t I) as [(w & Iw & W)|O]; [left; exists w; auto|now right].
Qed.
Lemma lookup_distinct (tags : list tag) k v : NoDup (map fst tags) -> In (k, v) tags -> value_of tags k = Some v.
Proof.
  unfold value_of. induction tags as [|[k0 v0] tags IH]; intros N I; [easy|]. cbn in *. inversion N as [|? ? N1 N2]; subst. destruct I as [I|I].
  - injection I as -> ->. destruct (str_eqb_spec k k); easy.
  - destruct (str_eqb_spec k k0) as [->|Q]; auto. exfalso. apply N1. apply in_map_iff. exists (k0, v). auto.
Qed.
Lemma loose_holds rx tags t : NoDup (map fst tags) -> positive (tt_op t) -> loose rx tags t -> holds rx t tags.
Proof. intros N P [(v & I & M)|O]; [|now apply negative_iff in O]. unfold holds. now rewrite (lookup_distinct tags _ v N I). Qed.
Lemma all_hold rx : forall ts tags, (forall t, In t ts -> holds rx t tags /\ positive (tt_op t)) -> terms_match_map rx ts tags = Ok true.
Proof.
  induction ts as [|t ts IH]; intros tags H; [reflexivity|]. destruct (H t (or_introl eq_refl)) as [Ht P]. unfold holds, value_of in Ht. cbn [terms_match_map].
  destruct (lookup str_eqb (tt_key t) tags) as [v|]; [|easy]. rewrite Ht. cbn [bind]. apply IH. intros u I. apply H. now right.
Qed.

(** C92: MatchByTags of conditions, on tags in any order, with keys that may repeat: if it accepts, then every '=' and '=~' condition is met by a
    value that its key has in the tags. *)
Lemma c92_query_l : forall (rx : regexps) (ts : list tterm) (tags : list tag), terms_match_tags rx ts tags = Ok true ->
  forall t, In t ts -> positive (tt_op t) -> exists v, In (tt_key t, v) tags /\ tt_match rx t v = Ok true.
Proof. intros rx ts tags M t I P. destruct (loose_terms rx ts tags M t I) as [H|O]; auto. now apply negative_iff in O. Qed.
(** C92: so if the keys differ and there are only such conditions, MatchByTagsMap accepts as well. *)
Lemma c92_query_map_l : forall (rx : regexps) (ts : list tterm) (tags : list tag), NoDup (map fst tags) -> (forall t, In t ts -> positive (tt_op t)) ->
  terms_match_tags rx ts tags = Ok true -> terms_match_map rx ts tags = Ok true.
Proof. intros rx ts tags N P M. apply all_hold. intros t I. split; auto. apply loose_holds; auto. eapply loose_terms; eauto. Qed.
(*EX
Example c92_query_example : exists ts, parse_series rx_self (B "seriesByTag('b=2','a=x*')") = Ok ts /\ (forall t, In t ts -> positive (tt_op t)) /\
  let tags := [(B "c", B "3"); (B "a", B "xy"); (B "__name__", B "m"); (B "b", B "2")] in
  NoDup (map fst tags) /\ terms_match_tags rx_self ts tags = Ok true.
Proof.
  eexists. split; [vm_compute; reflexivity|]. split; [intros t [<-|[<-|[]]]; now left|]. cbv zeta. split; [|vm_compute; reflexivity].
  repeat constructor; cbn; intuition discriminate.
Qed.
XE*)
(** C92: MatchByTags of a tree of queries (no blank keys), after any calls of Add and on any tags: whenever it returns, each index is stored at
    most once and belongs to an accepted query, and for each '=' and '=~' condition of that query the tags have its key with a value that an
    accepted condition, written alike, accepts. *)
Lemma c92_tree_l : forall (rx : regexps) (calls : list (str * Z)) (gt : gtags_tree) (rs : list add_res) (E : list entry) (tags : list tag) (l : list term) (n : nat),
  (forall c, In c calls -> named_keys rx (fst c)) -> run_adds (tg_add rx) tg_new calls = Ok (gt, rs) -> history (tg_canon rx) calls rs E ->
  tg_match_tags rx gt tags = Ok (l, n) ->
  NoDup (map snd l) /\
  forall q i, In (q, i) l -> exists e ts, In e E /\ e_node e = q /\ e_index e = i /\ parse_series rx (e_text e) = Ok ts /\
    forall t, In t ts -> positive (tt_op t) -> exists u v, accepted_term rx E u /\ condition u = condition t /\ In (tt_key t, v) tags /\ tt_match rx u v = Ok true.
Proof.
  intros rx calls gt rs E tags l n N R H M. destruct (hist_ok rx calls gt rs E N R H) as ((D & _) & _ & WF & _ & TE & (T1 & T2 & T3)).
  unfold tg_match_tags in M. apply oseq_inv in M as (l1 & n1 & l2 & n2 & G1 & G2 & ->). apply (match_tags_from rx tags _ _ WF) in G2 as (L' & S & -> & Lo).
  assert (Here : forall p x, In (p, x) L' -> exists e ts, In e E /\ parse_series rx (e_text e) = Ok ts /\ ts <> [] /\ x = (e_node e, e_index e) /\
    forall t, In t ts -> positive (tt_op t) -> exists u v, accepted_term rx E u /\ condition u = condition t /\ In (tt_key t, v) tags /\ tt_match rx u v = Ok true).
  { intros p x I. pose proof (sub_in _ _ S _ I) as I'. destruct (T1 p x I') as (e & ts & Ie & Pe & Ne & Sm & Ex). exists e, ts. repeat (split; [now auto|]).
    intros t It Pt. apply (in_map condition) in It. rewrite <- Sm in It. apply in_map_iff in It as (u & Cu & Iu). pose proof (flat_over _ _ WF _ _ I') as F. rewrite Forall_forall in F.
    assert (Ku : tt_key u = tt_key t /\ tt_op u = tt_op t) by (unfold condition in Cu; injection Cu; auto). destruct Ku as [Ku Ou].
    destruct (Lo p x u I Iu) as [(v & Iv & Mv)|O]; [|rewrite Ou in O; now apply negative_iff in O]. exists u, v. rewrite <- Ku. auto. }
  assert (Nd : NoDup (map snd (map snd L'))). { rewrite map_map. eapply sub_nodup; [apply sub_map; exact S|exact T3]. }
  destruct (tg_end gt) as [x|] eqn:Ex; injection G1 as <- <-.
  - destruct (proj1 (TE x) eq_refl) as (e0 & Ie0 & P0 & ->). split.
    + cbn [app map snd]. constructor; auto. intro I. apply in_map_iff in I as (y & Ey & I). apply in_map_iff in I as ([p z] & Ez & I). cbn in Ez. subst z.
      destruct (Here p y I) as (e & ts & Ie & Pe & Ne & -> & _). cbn in Ey. rewrite (distinct_index E e e0 D Ie Ie0 Ey), P0 in Pe. injection Pe as <-. easy.
    + intros q i [Iq|Iq]; [injection Iq as <- <-; exists e0, []; repeat (split; [now auto|]); intros t []|].
      apply in_map_iff in Iq as ([p z] & Ez & I). cbn in Ez. subst z. destruct (Here p _ I) as (e & ts & Ie & Pe & Ne & Eq & K). injection Eq as -> ->. exists e, ts. auto 6.
  - split; [exact Nd|]. intros q i Iq. apply in_map_iff in Iq as ([p z] & Ez & I). cbn in Ez. subst z. destruct (Here p _ I) as (e & ts & Ie & Pe & Ne & Eq & K). injection Eq as -> ->. exists e, ts. auto 6.
Qed.
(** C92: with different keys an accepted query that has only '=' and '=~' conditions is stored by MatchByTags only if it is stored by
    MatchByTagsMap, whatever the order of the tags. *)
Lemma c92_subset_l : forall (rx : regexps) (calls : list (str * Z)) (gt : gtags_tree) (rs : list add_res) (E : list entry) (tags : list tag) (l l' : list term) (n n' : nat),
  (forall c, In c calls -> named_keys rx (fst c)) -> run_adds (tg_add rx) tg_new calls = Ok (gt, rs) -> history (tg_canon rx) calls rs E ->
  tags <> [] -> NoDup (map fst tags) -> tg_match_tags rx gt tags = Ok (l, n) -> tg_match_map rx gt tags = Ok (l', n') ->
  forall e ts, In e E -> parse_series rx (e_text e) = Ok ts -> ts <> [] -> (forall t, In t ts -> positive (tt_op t)) ->
  In (e_node e, e_index e) l -> In (e_node e, e_index e) l'.
Proof.
  intros rx calls gt rs E tags l l' n n' N R H Nt Nk M M' e ts Ie Pe Ne Ps I. destruct (hist_ok rx calls gt rs E N R H) as ((D & _) & _ & WF & _ & TE & (T1 & T2 & T3)).
  apply (match_map_any rx tags _ Nt _ WF) in M'. subst l'. unfold tg_match_tags in M. apply oseq_inv in M as (l1 & n1 & l2 & n2 & G1 & G2 & ->). apply (match_tags_from rx tags _ _ WF) in G2 as (L' & S & -> & Lo).
  apply in_app_or in I as [I|I].
  - exfalso. destruct (tg_end gt) as [x|] eqn:Ex; injection G1 as <- <-; [|easy]. destruct (proj1 (TE x) eq_refl) as (e0 & Ie0 & P0 & ->). destruct I as [I|[]]. injection I as _ J.
    rewrite (distinct_index E e e0 D Ie Ie0 (eq_sym J)), P0 in Pe. injection Pe as <-. easy.
  - apply in_map_iff in I as ([p z] & Ez & I). cbn in Ez. subst z. apply hits_in. exists p. pose proof (sub_in _ _ S _ I) as I'. split; auto. intros u Iu.
    destruct (T1 p _ I') as (e1 & ts1 & Ie1 & Pe1 & Ne1 & Sm & Ex). injection Ex as _ Ex. rewrite <- (distinct_index E e e1 D Ie Ie1 Ex), Pe in Pe1. apply ok_inj in Pe1. subst ts1.
    apply loose_holds; auto; [|eapply Lo; eauto]. pose proof (in_map condition _ _ Iu) as X. rewrite Sm in X. apply in_map_iff in X as (t & Ct & It). unfold condition in Ct. injection Ct as _ Eo _. rewrite <- Eo. auto.
Qed.
(** C92: on any tags MatchByTags returns if the conditions with wildcards are calm globs (C86 asks for sorted tags). *)
Lemma c92_returns_l : forall (rx : regexps) (calls : list (str * Z)) (gt : gtags_tree) (rs : list add_res) (E : list entry) (tags : list tag),
  (forall c, In c calls -> named_keys rx (fst c)) -> run_adds (tg_add rx) tg_new calls = Ok (gt, rs) -> history (tg_canon rx) calls rs E ->
  (forall e, In e E -> calm_query (e_text e)) -> exists o, tg_match_tags rx gt tags = Ok o.
Proof.
  intros rx calls gt rs E tags N R H C. destruct (hist_ok rx calls gt rs E N R H) as (_ & _ & WF & _). unfold tg_match_tags. apply oseq_gives; [eexists; reflexivity|].
  apply (match_tags_gives rx tags (accepted_term rx E)); auto. intros t v A. now apply (accepted_gives rx E).
Qed.
(*EX
Ltac keys := intros ? I ts t P It; repeat (destruct I as [<-|I]; [vm_compute in P; injection P as <-; repeat (destruct It as [<-|It]; [discriminate|]); easy|]); easy.
(** Tags out of order with a key that repeats: of the two values of 'a' the second is found. *)
Example c92_tree_example : let calls := [(B "seriesByTag('a=1','b=2')", 1%Z); (B "seriesByTag('c=3')", 2%Z); (B "seriesByTag('c=3','d!=4')", 3%Z)] in
  (forall c, In c calls -> named_keys rx_self (fst c)) /\ exists gt rs E, run_adds (tg_add rx_self) tg_new calls = Ok (gt, rs) /\ history (tg_canon rx_self) calls rs E /\
  tg_match_tags rx_self gt [(B "c", B "3"); (B "a", B "1"); (B "a", B "5"); (B "b", B "2")] = Ok ([(B "seriesByTag('a=1','b=2')", 1%Z)], 1) /\
  tg_match_tags rx_self gt [(B "b", B "2"); (B "c", B "3"); (B "a", B "1")] = Ok ([(B "seriesByTag('c=3')", 2%Z); (B "seriesByTag('c=3','d!=4')", 3%Z)], 2) /\
  tg_match_map rx_self gt [(B "b", B "2"); (B "c", B "3"); (B "a", B "1")] = Ok ([(B "seriesByTag('a=1','b=2')", 1%Z); (B "seriesByTag('c=3')", 2%Z); (B "seriesByTag('c=3','d!=4')", 3%Z)], 3).
Proof.
  cbv zeta. match goal with |- ?G /\ _ => assert (N : G) by keys end.
  split; [exact N|]. destruct (c68_add_l rx_self _ N) as (gt & rs & E & R & H & _). exists gt, rs, E. split; [exact R|]. split; [exact H|]. vm_compute in R. injection R as <- <-.
  split; [vm_compute; reflexivity|]. split; vm_compute; reflexivity.
Qed.
XE*)
(** C92: without the order more does not hold: on 'b=2', 'a=1' MatchByTags misses a query that the tags meet, and reports one that they do not
    meet, both for the conditions and for a tree of queries. *)
Lemma c92_unsorted_refuted_l : forall rx : regexps, let tags := [(B "b", B "2"); (B "a", B "1")] in
  (exists ts, parse_series rx (B "seriesByTag('a=1','b=2')") = Ok ts /\ terms_match_map rx ts tags = Ok true /\ terms_match_tags rx ts tags = Ok false) /\
  (exists ts, parse_series rx (B "seriesByTag('a=1','b!=2')") = Ok ts /\ terms_match_map rx ts tags = Ok false /\ terms_match_tags rx ts tags = Ok true) /\
  exists gt rs, run_adds (tg_add rx) tg_new [(B "seriesByTag('a=1','b=2')", 1%Z); (B "seriesByTag('a!=1')", 2%Z)] = Ok (gt, rs) /\
    tg_match_map rx gt tags = Ok ([(B "seriesByTag('a=1','b=2')", 1%Z)], 1) /\ tg_match_tags rx gt tags = Ok ([(B "seriesByTag('a!=1')", 2%Z)], 1).
Proof.
  intro rx. cbv zeta. split; [|split].
  - eexists. split; [vm_compute; reflexivity|]. split; vm_compute; reflexivity.
  - eexists. split; [vm_compute; reflexivity|]. split; vm_compute; reflexivity.
  - do 2 eexists. split; [vm_compute; reflexivity|]. split; vm_compute; reflexivity.
Qed.
