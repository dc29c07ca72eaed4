(** Trees of tag queries filled by mixed calls of Add and AddTerms. *)
From Coq Require Import Lia ZifyBool ZifyN ZifyNat List Permutation.
From Verif Require Import Model.GTags Spec.TagSpec Spec.RegistrySpec Spec.TagTreeSpec Spec.MixSpec.
From Verif Require Import Proof.SortP Proof.RegistryP Proof.TermsP Proof.CondP Proof.RoundP Proof.TagTreeP Proof.MixP.
Import ListNotations.

(** A are the entries of Add, C all entries. *)
Definition tagmix (rx : regexps) (A C : list entry) (gt : gtags_tree) : Prop :=
  (forall e, In e A -> lookup Z.eqb (e_index e) (tg_index gt) <> None /\ lookup str_eqb (e_node e) (tg_queries gt) <> None) /\
  (forall e, In e A -> exists ts, parse_series rx (e_text e) = Ok ts /\ terms_write ts = e_node e) /\
  incl A C /\ wf_item (accepted_term rx C) (tg_root gt) /\ ti_end (tg_root gt) = None /\
  (forall x, tg_end gt = Some x <-> exists e, In e A /\ parse_series rx (e_text e) = Ok [] /\ x = (e_node e, e_index e)) /\
  tied rx A (flat (tg_root gt)).
Lemma tagmix_new rx : tagmix rx [] [] tg_new.
Proof.
  split; [easy|]. split; [easy|]. split; [easy|]. split; [repeat constructor|]. split; [reflexivity|]. split.
  - intro x. split; [discriminate|]. intros (e & [] & _).
  - split; [easy|]. split; [easy|]. constructor.
Qed.
Lemma accepted_more rx C D t : accepted_term rx C t -> accepted_term rx (C ++ D) t.
Proof. intros (e & us & Ie & H). exists e, us. split; auto. apply in_or_app. now left. Qed.

Lemma tagmix_add rx A C gt text i : named_keys rx text -> tagmix rx A C gt -> exists gt' q n e, tg_add rx gt text i = Ok (gt', (q, n, e)) /\
  let new := left_by (tg_canon rx) [Text text i] [(q, n, e)] in tagmix rx (A ++ new) (C ++ new) gt'.
Proof.
  intros NK T. pose proof T as (MO & PE & IC & WF & EN & TE & (T1 & T2 & T3)).
  assert (Rej : forall q n e, left_by (tg_canon rx) [Text text i] [(q, n, e)] = [] -> exists q0 n0 e0, Ok (gt, (q, n, e)) = Ok (gt, (q0, n0, e0)) /\ 
    let new := left_by (tg_canon rx) [Text text i] [(q0, n0, e0)] in tagmix rx (A ++ new) (C ++ new) gt).
  { intros q n e Z. exists q, n, e. split; [reflexivity|]. cbv zeta. now rewrite Z, !app_nil_r. }
  unfold tg_add. destruct (null text) eqn:Nt; [exists gt; apply Rej; now destruct text|].
  destruct (i <? 0)%Z eqn:Ni; [exists gt; now apply Rej|].
  destruct (lookup str_eqb text (tg_queries gt)) as [n|] eqn:L1; [exists gt; now apply Rej|].
  destruct (lookup Z.eqb i (tg_index gt)) as [q|] eqn:L2; [exists gt; now apply Rej|].
  assert (Fi := series_fine rx text). destruct (parse_series rx text) as [ts|e| |] eqn:P; try easy; [|exists gt; now apply Rej].
  cbv zeta. destruct (lookup str_eqb (terms_write ts) (tg_queries gt)) as [n|] eqn:L3; [exists gt; now apply Rej|].
  set (e0 := mkEntry text (terms_write ts) i).
  assert (New : left_by (tg_canon rx) [Text text i] [(terms_write ts, i, None)] = [e0]).
  { cbn [left_by c_text c_index]. unfold tg_canon. rewrite P. cbn [bind]. destruct text; [discriminate|reflexivity]. }
  set (m := assign str_eqb text i (tg_queries gt)). set (m2 := if str_eqb (terms_write ts) text then m else assign str_eqb (terms_write ts) i m).
  assert (MO' : forall e, In e (A ++ [e0]) -> lookup Z.eqb (e_index e) (assign Z.eqb i (terms_write ts) (tg_index gt)) <> None /\ lookup str_eqb (e_node e) m2 <> None).
  { intros e I. apply in_app_or in I as [I|[<-|[]]].
    - destruct (MO e I) as [X1 X2]. split; [apply lookup_keep; [apply zeqb_spec|exact X1]|]. unfold m2, m.
      destruct (str_eqb (terms_write ts) text); [|apply lookup_keep; [apply str_eqb_spec|]]; (apply lookup_keep; [apply str_eqb_spec|exact X2]).
    - cbn [e_index e_node e0]. split; [apply lookup_here, zeqb_spec|]. unfold m2, m. destruct (str_eqb_spec (terms_write ts) text) as [->|]; apply lookup_here, str_eqb_spec. }
  assert (PE' : forall e, In e (A ++ [e0]) -> exists ts, parse_series rx (e_text e) = Ok ts /\ terms_write ts = e_node e).
  { intros e Ie. apply in_app_or in Ie as [Ie|[<-|[]]]; [auto|]. cbn. eauto. }
  assert (IC' : incl (A ++ [e0]) (C ++ [e0])) by (apply incl_app; [now apply incl_appl|now apply incl_appr]).
  assert (Here : In e0 (A ++ [e0])) by (apply in_or_app; right; now left).
  assert (No3 : forall e, In e A -> e_node e = terms_write ts -> False) by (intros e I Z; destruct (MO e I) as [_ X]; apply X; now rewrite Z).
  assert (Nts : ts = [] \/ ts <> []) by (destruct ts; [now left|right; discriminate]). destruct Nts as [-> |Nts].
  - cbn [bind]. eexists. exists (terms_write []), i, None. split; [reflexivity|]. rewrite New. cbv zeta.
    split; [exact MO'|]. split; [exact PE'|]. split; [exact IC'|]. cbn [tg_root tg_end]. split; [apply (wf_mono (accepted_term rx C)); [intros; now apply accepted_more|auto]|]. split; auto. split.
    + intro y. split.
      * intro H. injection H as <-. exists e0. auto.
      * intros (e & Ie & Pe & ->). apply in_app_or in Ie as [Ie|[<-|[]]]; [|reflexivity]. exfalso. destruct (PE e Ie) as (us & Pu & Wu). assert (us = []) by congruence. subst us. now apply (No3 e).
    + split; [|split; auto].
      * intros p y I. destruct (T1 p y I) as (e & us & Ie & H). exists e, us. split; auto. apply in_or_app. now left.
      * intros e us Ie Pe N. apply in_app_or in Ie as [Ie|[<-|[]]]; [eauto|]. cbn in Pe. congruence.
  - assert (Mts : forall X (a b : X), match ts with [] => a | _ :: _ => b end = b) by (intros; now destruct ts). rewrite Mts.
    destruct (insert_ok (accepted_term rx (C ++ [e0])) (terms_write ts, i) ts (tg_root gt)) as (root' & R & W' & _ & N' & (p' & S' & F' & Pm)).
    + apply Forall_forall. intros t It. split; [exists e0, ts; auto|]. now apply (NK ts).
    + apply (wf_mono (accepted_term rx C)); [intros; now apply accepted_more|auto].
    + intros q y I S. unfold whole in I. rewrite EN in I. cbn in I. destruct (T1 q y I) as (e & us & Ie & Pe & _ & Sq & _). destruct (PE e Ie) as (us' & Pe' & We). assert (us' = us) by congruence. subst us'.
      apply (No3 e Ie). rewrite <- We. apply write_conditions. unfold sim in *. congruence.
    + specialize (N' Nts). match goal with |- context [ti_parse ?a ?b ?c] => change (ti_parse a b c = Ok root') in R end. rewrite R. cbn [bind]. eexists. exists (terms_write ts), i, None. split; [reflexivity|]. rewrite New. cbv zeta.
      split; [exact MO'|]. split; [exact PE'|]. split; [exact IC'|]. cbn [tg_root tg_end]. split; [exact W'|]. split; [congruence|]. unfold whole in Pm. rewrite N', EN in Pm. cbn [own app] in Pm. split.
      * intro y. rewrite TE. split.
        -- intros (e & Ie & H). exists e. split; auto. apply in_or_app. now left.
        -- intros (e & Ie & Pe & ->). apply in_app_or in Ie as [Ie|[<-|[]]]; [eauto|]. cbn in Pe. congruence.
      * split; [|split].
        -- intros p y I. apply (Permutation_in _ Pm) in I. destruct I as [I|I].
           ++ injection I as <- <-. exists e0, ts. auto 8.
           ++ destruct (T1 p y I) as (e & us & Ie & H). exists e, us. split; auto. apply in_or_app. now left.
        -- intros e us Ie Pe N. apply in_app_or in Ie as [Ie|[<-|[]]].
           ++ destruct (T2 e us Ie Pe N) as (p & I & S). exists p. split; auto. apply (Permutation_in _ (Permutation_sym Pm)). now right.
           ++ cbn in Pe. assert (us = ts) by congruence. subst us. exists p'. split; auto. apply (Permutation_in _ (Permutation_sym Pm)). now left.
        -- apply (Permutation_map (fun px => snd (snd px))) in Pm. apply (Permutation_NoDup (Permutation_sym Pm)). cbn. constructor; auto.
           intro I. apply in_map_iff in I as ([p y] & Ey & I). cbn in Ey. destruct (T1 p y I) as (e & us & Ie & _ & _ & _ & ->). cbn in Ey. destruct (MO e Ie) as [X _]. apply X. now rewrite Ey.
Qed.
Lemma tagmix_terms rx A C gt text i ts : named_keys rx text -> parse_series rx text = Ok ts -> tagmix rx A C gt -> exists gt' q n e, tg_add_terms gt ts i = Ok (gt', (q, n, e)) /\
  tagmix rx A (C ++ left_by (tg_canon rx) [Parsed text i] [(q, n, e)]) gt'.
Proof.
  intros NK P T. pose proof T as (MO & PE & IC & WF & EN & TE & TI).
  assert (More : forall D, tagmix rx A (C ++ D) gt).
  { intro D. split; [exact MO|]. split; [exact PE|]. split; [now apply incl_appl|]. split; [apply (wf_mono (accepted_term rx C)); [intros; now apply accepted_more|auto]|]. auto. }
  unfold tg_add_terms. destruct (null ts); [do 4 eexists; split; [reflexivity|apply More]|]. destruct (i <? 0)%Z; [do 4 eexists; split; [reflexivity|apply More]|]. cbv zeta.
  destruct (lookup str_eqb (terms_write ts) (tg_queries gt)); [do 4 eexists; split; [reflexivity|apply More]|].
  destruct (lookup Z.eqb i (tg_index gt)); [do 4 eexists; split; [reflexivity|apply More]|].
  assert (New : left_by (tg_canon rx) [Parsed text i] [([], i, None)] = [mkEntry text (terms_write ts) i]).
  { cbn [left_by c_text c_index]. unfold tg_canon. rewrite P. cbn [bind]. destruct text; [vm_compute in P; discriminate|reflexivity]. }
  set (e0 := mkEntry text (terms_write ts) i) in *.
  destruct (insert_none (accepted_term rx (C ++ [e0])) ts (tg_root gt)) as (root' & R & Wr & _ & En & F).
  { apply Forall_forall. intros t It. split; [exists e0, ts; split; [apply in_or_app; right; now left|auto]|now apply (NK ts)]. }
  { apply (wf_mono (accepted_term rx C)); [intros; now apply accepted_more|auto]. }
  rewrite R. cbn [bind]. eexists. exists [], i, None. split; [reflexivity|]. replace (left_by _ _ _) with [e0] by (symmetry; exact New). split; [|split; [exact PE|]].
  - intros e I. destruct (MO e I) as [X1 X2]. cbn [tg_index tg_queries]. split; apply lookup_keep; auto using zeqb_spec, str_eqb_spec.
  - split; [now apply incl_appl|]. cbn [tg_root tg_end]. split; [exact Wr|]. split; [congruence|]. split; [exact TE|]. now rewrite F.
Qed.
Definition tg_calls (rx : regexps) := run_calls (tg_add rx) (parse_series rx) tg_add_terms.
Lemma left_one canon c calls r rs : left_by canon (c :: calls) (r :: rs) = left_by canon [c] [r] ++ left_by canon calls rs.
Proof. destruct r as [[q n] e]. cbn [left_by]. now rewrite app_nil_r. Qed.
Lemma tagmix_run rx calls : forall A C gt, (forall c, In c calls -> named_keys rx (c_text c)) -> tagmix rx A C gt -> exists gt' rs, tg_calls rx gt calls = Ok (gt', rs) /\
  tagmix rx (A ++ left_by_text (tg_canon rx) calls rs) (C ++ left_by (tg_canon rx) calls rs) gt'.
Proof.
  induction calls as [|c calls IH]; intros A C gt NK T; unfold tg_calls; cbn [run_calls].
  - exists gt, []. split; [reflexivity|]. cbn. now rewrite !app_nil_r.
  - assert (Nc : named_keys rx (c_text c)) by (apply NK; now left). assert (NK' : forall c, In c calls -> named_keys rx (c_text c)) by (intros; apply NK; now right).
    destruct c as [text i|text i]; cbn [c_text] in Nc.
    + destruct (tagmix_add rx A C gt text i Nc T) as (gt1 & q & n & e & -> & T1). cbv zeta in T1. destruct (IH _ _ gt1 NK' T1) as (gt2 & rs & R & T2). unfold tg_calls in R. rewrite R.
      exists gt2, ((q, n, e) :: rs). split; [reflexivity|]. rewrite left_one. cbn [left_by_text]. now rewrite <- !app_assoc in T2.
    + assert (Fi := series_fine rx text). destruct (parse_series rx text) as [ts|er| |] eqn:P; try easy.
      * destruct (tagmix_terms rx A C gt text i ts Nc P T) as (gt1 & q & n & e & -> & T1). destruct (IH _ _ gt1 NK' T1) as (gt2 & rs & R & T2). unfold tg_calls in R. rewrite R.
        exists gt2, ((q, n, e) :: rs). split; [reflexivity|]. rewrite left_one. cbn [left_by_text]. now rewrite <- !app_assoc in T2.
      * destruct (IH _ _ gt NK' T) as (gt2 & rs & R & T2). unfold tg_calls in R. rewrite R. exists gt2, (([], 0%Z, Some er) :: rs). split; [reflexivity|]. rewrite left_one. cbn [left_by_text]. exact T2.
Qed.

(** What such a tree reports. *)
Lemma mixed_reported rx A C gt tags : tagmix rx A C gt -> tags_coherent rx C tags -> NoDup (map snd (hits rx tags (flat (tg_root gt)))) /\
  forall q i, In (q, i) (hits rx tags (flat (tg_root gt))) <-> exists e ts, In e A /\ e_node e = q /\ e_index e = i /\ parse_series rx (e_text e) = Ok ts /\ ts <> [] /\ terms_match_map rx ts tags = Ok true.
Proof.
  intros (MO & PE & IC & WF & EN & TE & (T1 & T2 & T3)) Co. split; [now apply hits_nodup|]. intros q i. rewrite hits_in. split.
  - intros (p & I & H). destruct (T1 p _ I) as (e & ts & Ie & Pe & N & S & Ex). injection Ex as -> ->. exists e, ts. repeat split; auto. apply match_map_true. apply (sim_holds rx C tags p); auto.
    + eapply flat_over; eauto.
    + apply Forall_forall. intros t It. exists e, ts. auto.
  - intros (e & ts & Ie & <- & <- & Pe & N & M). destruct (T2 e ts Ie Pe N) as (p & I & S). exists p. split; auto. eapply sim_holds; [exact Co| | |unfold sim in *; symmetry; exact S|].
    + apply Forall_forall. intros t It. exists e, ts. auto.
    + eapply flat_over; eauto.
    + now apply match_map_true.
Qed.
