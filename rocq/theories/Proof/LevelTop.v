(** Trees of tag queries in general: their levels, what they report, and that both ways of matching agree. *)
From Verif Require Import Model.GTags Spec.TagSpec Spec.RegistrySpec Spec.TagTreeSpec Spec.LevelSpec.
From Verif Require Import Proof.SortP Proof.SafeP Proof.TagsP Proof.KeyP Proof.TermsP Proof.CondP Proof.RoundP Proof.TotalP Proof.RegistryP Proof.TagTreeP Proof.TagTop Proof.LevelP.
From Coq Require Import Lia ZifyBool ZifyN ZifyNat Permutation.

(*EX
(** Regular expressions that are all valid and match themselves. *)
Definition rx_self : regexps := mkRx (fun _ => true) (fun re v => str_eqb re v).
XE*)
Lemma levels_ok rx calls gt rs E : (forall c, In c calls -> named_keys rx (fst c)) -> run_adds (tg_add rx) tg_new calls = Ok (gt, rs) -> history (tg_canon rx) calls rs E -> tagtree_ok rx E gt /\ steps_ok rx E gt.
Proof.
  intros N R H. destruct (steps_history rx calls N) as (gt' & rs' & E' & R' & H' & T). rewrite R in R'. apply ok_inj in R'. injection R' as <- <-.
  destruct (history_fun _ _ _ _ H _ _ H') as [_ ->]. exact T.
Qed.
Lemma within_di T i j : within i j -> forall top, di top i -> wf_item T i -> exists top', di top' j /\ wf_item T j.
Proof.
  induction 1 as [i|i s c j Is Ic _ IH]; intros top D W; [eauto|]. destruct D as [top tm e slots _ _ F]. inversion W as [? ? ? Ws]; subst. cbn in Is. rewrite Forall_forall in F, Ws. specialize (F s Is). specialize (Ws s Is).
  destruct s as [k nm m]. inversion F as [? ? ? _ _ _ Dn Dm]; subst. inversion Ws as [? ? ? _ Wn Wm]; subst. cbn in Ic. rewrite Forall_forall in *. apply in_app_or in Ic as [Ic|Ic].
  - specialize (Dn c Ic). specialize (Wn c Ic). inversion Dn; subst. inversion Wn; subst. eauto.
  - specialize (Dm c Ic). specialize (Wm c Ic). inversion Dm; subst. inversion Wm; subst. eauto.
Qed.
Lemma nodup_disj {A} (l l2 : list A) : NoDup l -> NoDup l2 -> (forall x, In x l -> ~ In x l2) -> NoDup (l ++ l2).
Proof.
  intros A1 C Dj. induction l as [|x l IH]; cbn; auto. inversion A1 as [|? ? H1 H2]; subst. constructor; [|apply IH; auto; intros; apply Dj; now right].
  intro I. apply in_app_or in I as [I|I]; [auto|]. apply (Dj x); [now left|auto].
Qed.

(** C91: in a tree of queries with at most one condition on the name each, all of which or the first of which does not have one, the keys
    at every level are sorted, '__name__' first, none occurs twice, and no condition is stored twice at the same place. *)
Lemma c91_levels_l : forall (rx : regexps) (calls : list (str * Z)) (gt : gtags_tree) (rs : list add_res) (E : list entry),
  (forall c, In c calls -> named_keys rx (fst c)) -> run_adds (tg_add rx) tg_new calls = Ok (gt, rs) -> history (tg_canon rx) calls rs E ->
  (forall e ts, In e E -> parse_series rx (e_text e) = Ok ts -> once_named ts) -> names_late rx E ->
  forall i, within (tg_root gt) i -> keys_sorted (level i) /\ NoDup (level i) /\
    forall s, In s (ti_slots i) -> NoDup (map (fun c => option_map condition (ti_term c)) (slot_items s)).
Proof.
  intros rx calls gt rs E N R H On La i Wi. destruct (levels_ok rx calls gt rs E N R H) as [(_ & _ & WF & _) St]. destruct (St On La) as [D _].
  destruct (within_di _ _ _ Wi _ D WF) as (top & D' & W'). destruct D' as [top tm e slots S _ F]. split; [exact S|]. split; [now apply sorted_nodup|]. inversion W' as [? ? ? Ws]; subst. intros s Is. cbn in Is. rewrite Forall_forall in F, Ws.
  specialize (F s Is). specialize (Ws s Is). destruct s as [k nm m]. inversion F as [? ? ? _ Cn Cm _ _]; subst. inversion Ws as [? ? ? _ Wn Wm]; subst. cbn [slot_items]. rewrite map_app. apply nodup_disj; auto.
  intros x I1 I2. apply in_map_iff in I1 as (c1 & E1 & I1). apply in_map_iff in I2 as (c2 & E2 & I2). rewrite Forall_forall in Wn, Wm. specialize (Wn c1 I1). specialize (Wm c2 I2).
  inversion Wn as [? ? t1 ? ? _ _ O1 _]; subst. inversion Wm as [? ? t2 ? ? _ _ O2 _]; subst. cbn in E2. injection E2 as _ E2 _. congruence.
Qed.
(*EX
(** Three queries; the last condition is the text 'b*' between braces, which is written like the glob of the first query. *)
Definition lv_calls : list (str * Z) := [(B "seriesByTag('a=b*','c=1')", 1%Z); (B "seriesByTag('name=x','c=1','b=2')", 2%Z); (B "seriesByTag('a={b*}')", 3%Z)].
Lemma lv_parse c ts : In c lv_calls -> parse_series rx_self (fst c) = Ok ts -> once_named ts /\ forall t, In t ts -> tt_key t <> [].
Proof.
  intros [<-|[<-|[<-|[]]]] P; vm_compute in P; injection P as <-; (split; [apply once_ok; vm_compute; reflexivity|]); intros t I; repeat (destruct I as [<-|I]; [discriminate|]); easy.
Qed.
Lemma lv_history : (forall c, In c lv_calls -> named_keys rx_self (fst c)) /\ exists gt rs E, run_adds (tg_add rx_self) tg_new lv_calls = Ok (gt, rs) /\ history (tg_canon rx_self) lv_calls rs E /\
  (forall e ts, In e E -> parse_series rx_self (e_text e) = Ok ts -> once_named ts) /\ names_late rx_self E /\
  level (tg_root gt) = [B "__name__"; B "a"] /\ map (fun s => map level (slot_items s)) (ti_slots (tg_root gt)) = [[[B "b"]]; [[B "c"]]] /\
  tg_match_map rx_self gt [(B "a", B "bx")] = Ok ([(B "seriesByTag('a=b*')", 3%Z)], 1) /\
  tg_match_tags rx_self gt [(B "__name__", B "x"); (B "b", B "2"); (B "c", B "1")] = Ok ([(B "seriesByTag('__name__=x','b=2','c=1')", 2%Z)], 1).
Proof.
  assert (N : forall c, In c lv_calls -> named_keys rx_self (fst c)) by (intros c I ts t P It; eapply lv_parse; eauto).
  split; [exact N|]. destruct (c68_add_l rx_self lv_calls N) as (gt & rs & E & R & H & _). exists gt, rs, E. split; [exact R|]. split; [exact H|].
  split; [intros e ts Ie P; destruct (history_calls _ _ _ _ H e Ie) as (i & I); eapply (lv_parse (e_text e, i)); eauto|].
  destruct (history_entries _ _ _ _ H) as [EE _]. vm_compute in R. injection R as <- <-. split; [|repeat split; vm_compute; reflexivity].
  right. rewrite EE. exists []. do 3 eexists. split; [reflexivity|]. split; [vm_compute; reflexivity|]. split; [discriminate|]. split; [|easy].
  intros (t & [<-|[<-|[]]] & K); discriminate.
Qed.
Example c91_levels_example : exists gt rs E, run_adds (tg_add rx_self) tg_new lv_calls = Ok (gt, rs) /\ history (tg_canon rx_self) lv_calls rs E /\
  (forall e ts, In e E -> parse_series rx_self (e_text e) = Ok ts -> once_named ts) /\ names_late rx_self E /\ level (tg_root gt) = [B "__name__"; B "a"].
Proof. destruct lv_history as (_ & gt & rs & E & R & H & O & L & V & _). exists gt, rs, E. auto 8. Qed.
XE*)
(** C91: otherwise they are not: after the query 'name=x' the key 'a' is put in front of '__name__', and the next condition on the name
    gets an entry of its own. *)
Lemma c91_levels_refuted_l : forall rx : regexps,
  (exists gt rs, run_adds (tg_add rx) tg_new [(B "seriesByTag('name=x')", 1%Z); (B "seriesByTag('a=1')", 2%Z)] = Ok (gt, rs) /\ level (tg_root gt) = [B "a"; B "__name__"] /\ ~ keys_sorted (level (tg_root gt))) /\
  (exists gt rs, run_adds (tg_add rx) tg_new [(B "seriesByTag('name=x')", 1%Z); (B "seriesByTag('a=1')", 2%Z); (B "seriesByTag('name=y')", 3%Z)] = Ok (gt, rs) /\
     level (tg_root gt) = [B "__name__"; B "a"; B "__name__"] /\ ~ NoDup (level (tg_root gt))).
Proof.
  intro rx. split.
  - do 2 eexists. split; [vm_compute; reflexivity|]. split; [vm_compute; reflexivity|]. vm_compute level. intros [S _]. destruct (S (B "__name__")) as [[X _]|[X _]]; [now left|discriminate|now apply X].
  - do 2 eexists. split; [vm_compute; reflexivity|]. split; [vm_compute; reflexivity|]. vm_compute level. intro S. inversion S as [|? ? X _]. apply X. right. now left.
Qed.

(** ** What is reported, whenever the tree returns *)
Lemma oseq_inv a b l n : oseq a b = Ok (l, n) -> exists l1 n1 l2 n2, a = Ok (l1, n1) /\ b = Ok (l2, n2) /\ l = l1 ++ l2.
Proof. unfold oseq. destruct a as [[l1 n1]| | |]; try discriminate. destruct b as [[l2 n2]| | |]; try discriminate. intro H. injection H as <- <-. do 4 eexists. auto. Qed.
Section Any.
  Variables (rx : regexps) (tags : list tag) (rec : titem -> res out) (T : tterm -> Prop).
  Definition got (r : res out) (l : list term) : Prop := forall l' n, r = Ok (l', n) -> l' = l.
  Lemma emit_got e l n : Ok (emit e) = Ok (l, n) -> l = hits rx tags (own e).
  Proof. destruct e; cbn; intro H; injection H as <- <-; reflexivity. Qed.
  Lemma go_val_any k neg v : value_of tags k = Some v -> forall l, Forall (wf_child T k neg) l -> Forall (fun c => wf_item T c -> got (rec c) (hits rx tags (flat c))) l ->
    got (go_val rx rec v l) (hits rx tags (branches flat l)).
  Proof.
    intros V. induction l as [|c l IH]; intros W R l' n Go; [now injection Go as <- <-|]. inversion W as [|? ? Wc Wl]; inversion R as [|? ? Rc Rl]; subst.
    inversion Wc as [? ? t e slots Tt Kt Nt Wi]; subst. cbn [go_val ti_term] in Go. destruct (tt_match rx t v) as [b| | |] eqn:Eb; try discriminate. cbn [bind] in Go. cbn [branches]. unfold branch. cbn [ti_term ti_end] in *.
    rewrite hits_app, hits_under. unfold sat at 1. rewrite V, Eb. destruct b.
    - apply oseq_inv in Go as (l1 & n1 & l2 & n2 & G1 & G2 & ->). apply emit_got in G1. apply oseq_inv in G2 as (l3 & n3 & l4 & n4 & G3 & G4 & ->). apply (Rc Wi) in G3. apply (IH Wl Rl) in G4. subst. rewrite hits_app. now rewrite app_assoc.
    - now apply (IH Wl Rl) in Go.
  Qed.
  Lemma go_abs_any k : value_of tags k = None -> forall l, Forall (wf_child T k true) l -> Forall (fun c => wf_item T c -> got (rec c) (hits rx tags (flat c))) l ->
    got (go_abs rec l) (hits rx tags (branches flat l)).
  Proof.
    intros V. induction l as [|c l IH]; intros W R l' n Go; [now injection Go as <- <-|]. inversion W as [|? ? Wc Wl]; inversion R as [|? ? Rc Rl]; subst.
    inversion Wc as [? ? t e slots Tt Kt Nt Wi]; subst. cbn [go_abs] in Go. cbn [branches]. unfold branch. cbn [ti_term ti_end] in *. rewrite hits_app, hits_under. unfold sat at 1. rewrite V, Nt.
    apply oseq_inv in Go as (l1 & n1 & l2 & n2 & G1 & G2 & ->). apply emit_got in G1. apply oseq_inv in G2 as (l3 & n3 & l4 & n4 & G3 & G4 & ->). apply (Rc Wi) in G3. apply (IH Wl Rl) in G4. subst. rewrite hits_app. now rewrite app_assoc.
  Qed.
End Any.
Lemma match_map_any rx (tags : list tag) (T : tterm -> Prop) : tags <> [] -> forall i, wf_item T i -> got (ti_match_map rx i tags) (hits rx tags (flat i)).
Proof.
  intros N. apply (ti_ind (fun i => wf_item T i -> got (ti_match_map rx i tags) (hits rx tags (flat i))) (fun s => wf_slot T s -> got (slot_match_map rx s tags) (hits rx tags (flat_slot s)))).
  - intros tm e slots IH W. inversion W as [? ? ? Ws]; subst. rewrite item_map_eq, flat_item. replace (null tags) with false by now destruct tags.
    clear W. induction slots as [|s slots IHs]; [intros l n H; now injection H as <- <-|]. inversion IH; inversion Ws; subst. cbn [over_map flat_slots]. rewrite hits_app. intros l n Go. apply oseq_inv in Go as (l1 & n1 & l2 & n2 & G1 & G2 & ->).
    apply IHs in G2; auto. apply H1 in G1; auto. now subst.
  - intros k nm m IHn IHm W. inversion W as [? ? ? K Wn Wm]; subst. rewrite slot_map_eq, flat_slot_eq, hits_app. destruct (value_of tags k) as [v|] eqn:V.
    + intros l n Go. apply oseq_inv in Go as (l1 & n1 & l2 & n2 & G1 & G2 & ->). apply (go_val_any rx tags _ T k false v V m Wm IHm) in G1. apply (go_val_any rx tags _ T k true v V nm Wn IHn) in G2. now subst.
    + rewrite (pos_abs rx tags T k V m Wm). apply (go_abs_any rx tags _ T k V nm Wn IHn).
Qed.
Lemma val_ext rx rec rec' v l : Forall (fun c => rec c = rec' c) l -> go_val rx rec v l = go_val rx rec' v l.
Proof. induction 1 as [|c l E _ IH]; [reflexivity|]. cbn [go_val]. destruct (ti_term c); [|reflexivity]. destruct (tt_match _ _ _) as [[]| | |]; cbn [bind]; auto. now rewrite E, IH. Qed.
Lemma abs_ext rec rec' l : Forall (fun c => rec c = rec' c) l -> go_abs rec l = go_abs rec' l.
Proof. induction 1 as [|c l E _ IH]; [reflexivity|]. cbn [go_abs]. now rewrite E, IH. Qed.
Lemma tags_map_same rx (tags : list tag) (T : tterm -> Prop) : tags <> [] -> keys_sorted (map fst tags) -> forall i, wf_item T i -> ti_match_tags rx i tags = ti_match_map rx i tags.
Proof.
  intros N S. assert (L : (0 < length tags)%nat) by (destruct tags; cbn; [easy|lia]).
  apply (ti_ind (fun i => wf_item T i -> ti_match_tags rx i tags = ti_match_map rx i tags)
    (fun s => wf_slot T s -> forall pos, (0 <= pos < Z.of_nat (length tags))%Z -> exists pos', (0 <= pos' < Z.of_nat (length tags))%Z /\ slot_match_tags rx s tags pos = bind (slot_match_map rx s tags) (fun o => Ok (o, pos')))).
  - intros tm e slots IH W. inversion W as [? ? ? Ws]; subst. rewrite item_tags_eq, item_map_eq. replace (null tags) with false by now destruct tags.
    assert (G : forall pos, (0 <= pos < Z.of_nat (length tags))%Z -> over_tags rx tags slots pos = over_map rx tags slots); [|apply G; lia].
    clear W. induction slots as [|s slots IHs]; intros pos P; [reflexivity|]. inversion IH; inversion Ws; subst. cbn [over_tags over_map]. destruct (H1 H5 pos P) as (pos' & P' & ->). destruct (slot_match_map rx s tags) as [o| | |]; cbn [bind]; auto. now rewrite IHs.
  - intros k nm m IHn IHm W pos P. inversion W as [? ? ? K Wn Wm]; subst. rewrite slot_tags_eq, slot_map_eq.
    assert (En : Forall (fun c => ti_match_tags rx c tags = ti_match_map rx c tags) nm).
    { rewrite Forall_forall in *. intros c Ic. apply IHn; auto. specialize (Wn c Ic). now inversion Wn. }
    assert (Em : Forall (fun c => ti_match_tags rx c tags = ti_match_map rx c tags) m).
    { rewrite Forall_forall in *. intros c Ic. apply IHm; auto. specialize (Wm c Ic). now inversion Wm. }
    destruct (find_value tags k pos S K P) as ([i|] & -> & H); cbn [bind].
    + destruct H as (Hi & v & -> & ->). exists i. split; auto. now rewrite (val_ext rx _ _ v m Em), (val_ext rx _ _ v nm En).
    + rewrite H. exists pos. split; auto. now rewrite (abs_ext _ _ nm En).
Qed.

(** C65: on sorted tags MatchByTags does what MatchByTagsMap does, for all queries and values: it returns or panics alike, with the same
    reports in the same order, after the query without conditions if there is one. *)
Lemma c65_always_l : forall (rx : regexps) (calls : list (str * Z)) (gt : gtags_tree) (rs : list add_res) (E : list entry) (tags : list tag),
  (forall c, In c calls -> named_keys rx (fst c)) -> run_adds (tg_add rx) tg_new calls = Ok (gt, rs) -> history (tg_canon rx) calls rs E -> tags <> [] -> keys_sorted (map fst tags) ->
  ((forall e, In e E -> parse_series rx (e_text e) <> Ok []) -> tg_match_tags rx gt tags = tg_match_map rx gt tags) /\
  (forall e, In e E -> parse_series rx (e_text e) = Ok [] -> tg_match_tags rx gt tags = bind (tg_match_map rx gt tags) (fun '(l, n) => Ok ((e_node e, e_index e) :: l, n))).
Proof.
  intros rx calls gt rs E tags N R H Nt S. destruct (hist_ok rx calls gt rs E N R H) as (_ & _ & WF & _ & TE & _). unfold tg_match_tags, tg_match_map. rewrite (tags_map_same rx tags _ Nt S _ WF). split.
  - intro A. destruct (tg_end gt) as [x|] eqn:Ex; [destruct (proj1 (TE x) eq_refl) as (e & Ie & P & _); now apply A in P|]. destruct (ti_match_map rx (tg_root gt) tags) as [[l n]| | |]; reflexivity.
  - intros e Ie P. rewrite (proj2 (TE (e_node e, e_index e))) by eauto. destruct (ti_match_map rx (tg_root gt) tags) as [[l n]| | |]; reflexivity.
Qed.
(*EX
Example c65_always_example : keys_sorted (map fst [(B "__name__", B "x"); (B "b", B "2"); (B "c", B "1")]) /\ exists gt rs, run_adds (tg_add rx_self) tg_new lv_calls = Ok (gt, rs) /\
  tg_match_tags rx_self gt [(B "__name__", B "x"); (B "b", B "2"); (B "c", B "1")] = Ok ([(B "seriesByTag('__name__=x','b=2','c=1')", 2%Z)], 1).
Proof.
  split; [|destruct lv_history as (_ & gt & rs & E & R & _ & _ & _ & _ & _ & _ & M); exists gt, rs; auto].
  split; [intros k [<-|[<-|[]]]; left; split; reflexivity || discriminate|]. split; [intros k [<-|[]]; right; split; [discriminate|reflexivity]|]. split; [easy|exact I].
Qed.
XE*)
(** C64: for all queries, also for conditions that are written alike and mean different things: whenever MatchByTagsMap returns, it has
    stored exactly the accepted queries each of whose conditions is met by the one that stands for it (the one that was accepted first in
    that place), each once; for queries that name the metric at most once, all of which or the first of which does not. *)
Lemma c64_first_l : forall (rx : regexps) (calls : list (str * Z)) (gt : gtags_tree) (rs : list add_res) (E : list entry) (tags : list tag) (l : list term) (n : nat),
  (forall c, In c calls -> named_keys rx (fst c)) -> run_adds (tg_add rx) tg_new calls = Ok (gt, rs) -> history (tg_canon rx) calls rs E ->
  (forall e ts, In e E -> parse_series rx (e_text e) = Ok ts -> once_named ts) -> names_late rx E ->
  tags <> [] -> tg_match_map rx gt tags = Ok (l, n) ->
  n = length l /\ NoDup (map snd l) /\
  forall q i, In (q, i) l <-> exists e ts, In e E /\ e_node e = q /\ e_index e = i /\ parse_series rx (e_text e) = Ok ts /\ ts <> [] /\ all_met rx E ts tags.
Proof.
  intros rx calls gt rs E tags l n N R H On La Nt Mt. destruct (levels_ok rx calls gt rs E N R H) as [(MO & PE & WF & EN & TE & (T1 & T2 & T3)) St]. destruct (St On La) as [D Sf].
  split; [apply counted_map in Mt; exact Mt|]. apply (match_map_any rx tags _ Nt _ WF) in Mt. subst l. split; [now apply hits_nodup|]. intros q i. rewrite hits_in.
  assert (Ln : forall p ts : list tterm, sim p ts -> length p = length ts) by (intros p ts S; apply (f_equal (@length _)) in S; now rewrite !map_length in S). split.
  - intros (p & I & Hs). destruct (T1 p _ I) as (e & ts & Ie & Pe & Ne & S & Ex). injection Ex as -> ->. exists e, ts. repeat (split; [now auto|]). intros k t Hk.
    destruct (nth_error p k) as [u|] eqn:Hu; [|apply nth_error_None in Hu; assert (X : nth_error ts k <> None) by congruence; apply nth_error_Some in X; rewrite (Ln _ _ S) in Hu; lia].
    exists u. split; [|apply Hs; eapply nth_error_In; eauto]. apply (stands_swap rx E p); [now apply sim_starts|]. eapply Sf; eauto.
  - intros (e & ts & Ie & <- & <- & Pe & Ne & A). destruct (T2 e ts Ie Pe Ne) as (p & I & S). exists p. split; auto. intros u Iu. apply In_nth_error in Iu as (k & Hu).
    destruct (nth_error ts k) as [t|] eqn:Hk; [|apply nth_error_None in Hk; assert (X : nth_error p k <> None) by congruence; apply nth_error_Some in X; rewrite (Ln _ _ S) in X; lia].
    destruct (A k t Hk) as (u' & Su & Hh). assert (u = u') as ->; [|exact Hh]. apply (stands_fun rx E ts k); auto. apply (stands_swap rx E p); [now apply sim_starts|]. eapply Sf; eauto.
Qed.
(*EX
Example c64_first_example : exists gt rs E, run_adds (tg_add rx_self) tg_new lv_calls = Ok (gt, rs) /\ history (tg_canon rx_self) lv_calls rs E /\
  (forall e ts, In e E -> parse_series rx_self (e_text e) = Ok ts -> once_named ts) /\ names_late rx_self E /\
  tg_match_map rx_self gt [(B "a", B "bx")] = Ok ([(B "seriesByTag('a=b*')", 3%Z)], 1).
Proof. destruct lv_history as (_ & gt & rs & E & R & H & O & L & _ & _ & M & _). exists gt, rs, E. auto 8. Qed.
XE*)
(** C64: for all queries with keys, wherever they name the metric: whenever MatchByTagsMap returns, it has stored each query at most once;
    a query that is stored has each of its conditions met by an accepted condition that is written alike, and a query is stored if all
    accepted conditions that are written like one of its conditions are met. *)
Lemma c64_bounds_l : forall (rx : regexps) (calls : list (str * Z)) (gt : gtags_tree) (rs : list add_res) (E : list entry) (tags : list tag) (l : list term) (n : nat),
  (forall c, In c calls -> named_keys rx (fst c)) -> run_adds (tg_add rx) tg_new calls = Ok (gt, rs) -> history (tg_canon rx) calls rs E ->
  tags <> [] -> tg_match_map rx gt tags = Ok (l, n) ->
  n = length l /\ NoDup (map snd l) /\
  (forall q i, In (q, i) l -> exists e ts, In e E /\ e_node e = q /\ e_index e = i /\ parse_series rx (e_text e) = Ok ts /\ ts <> [] /\
     forall t, In t ts -> exists u, accepted_term rx E u /\ condition u = condition t /\ holds rx u tags) /\
  (forall e ts, In e E -> parse_series rx (e_text e) = Ok ts -> ts <> [] ->
     (forall t u, In t ts -> accepted_term rx E u -> condition u = condition t -> holds rx u tags) -> In (e_node e, e_index e) l).
Proof.
  intros rx calls gt rs E tags l n N R H Nt Mt. destruct (hist_ok rx calls gt rs E N R H) as (_ & _ & WF & _ & _ & (T1 & T2 & T3)).
  split; [apply counted_map in Mt; exact Mt|]. apply (match_map_any rx tags _ Nt _ WF) in Mt. subst l. split; [now apply hits_nodup|]. split.
  - intros q i I. apply hits_in in I as (p & I & Hs). destruct (T1 p _ I) as (e & ts & Ie & Pe & Ne & S & Ex). injection Ex as -> ->. exists e, ts. repeat (split; [now auto|]).
    intros t It. apply (in_map condition) in It. rewrite <- S in It. apply in_map_iff in It as (u & Cu & Iu). exists u. split; [|auto].
    pose proof (flat_over _ _ WF _ _ I) as F. rewrite Forall_forall in F. auto.
  - intros e ts Ie Pe Ne A. apply hits_in. destruct (T2 e ts Ie Pe Ne) as (p & I & S). exists p. split; auto. intros u Iu.
    pose proof (flat_over _ _ WF _ _ I) as F. rewrite Forall_forall in F. pose proof (in_map condition _ _ Iu) as X. rewrite S in X. apply in_map_iff in X as (t & Ct & It). eapply A; eauto.
Qed.
(*EX
(** The three queries of c64_late_refuted: on 'xx' the third one is not stored, since its text is 'x*', although the condition written alike of the first query is met. *)
Example c64_bounds_example : let calls := [(B "seriesByTag('name=x*','b=1')", 1%Z); (B "seriesByTag('a=1')", 2%Z); (B "seriesByTag('name={x*}')", 3%Z)] in
  (forall c, In c calls -> named_keys rx_self (fst c)) /\ exists gt rs E, run_adds (tg_add rx_self) tg_new calls = Ok (gt, rs) /\ history (tg_canon rx_self) calls rs E /\
  tg_match_map rx_self gt [(B "__name__", B "xx")] = Ok ([], 0) /\
  tg_match_map rx_self gt [(B "__name__", B "x*"); (B "b", B "1")] = Ok ([(B "seriesByTag('__name__=x*')", 3%Z); (B "seriesByTag('__name__=x*','b=1')", 1%Z)], 2).
Proof.
  cbv zeta. match goal with |- ?G /\ _ => assert (N : G) by (intros c [<-|[<-|[<-|[]]]] ts t P It; vm_compute in P; injection P as <-; repeat (destruct It as [<-|It]; [discriminate|]); easy) end.
  split; [exact N|]. destruct (c68_add_l rx_self _ N) as (gt & rs & E & R & H & _). exists gt, rs, E. split; [exact R|]. split; [exact H|]. vm_compute in R. injection R as <- <-. split; vm_compute; reflexivity.
Qed.
XE*)
(** C64: otherwise a condition may also be stored twice, and then the first one does not stand for the second: after 'name=x*' with 'b=1'
    and a query without a name, the text 'x*' between braces is compared as it is. *)
Lemma c64_late_refuted_l : forall rx : regexps, exists calls gt rs E e ts, calls = [(B "seriesByTag('name=x*','b=1')", 1%Z); (B "seriesByTag('a=1')", 2%Z); (B "seriesByTag('name={x*}')", 3%Z)] /\
  run_adds (tg_add rx) tg_new calls = Ok (gt, rs) /\ history (tg_canon rx) calls rs E /\ In e E /\ parse_series rx (e_text e) = Ok ts /\ once_named ts /\
  all_met rx E ts [(B "__name__", B "xy")] /\ tg_match_map rx gt [(B "__name__", B "xy")] = Ok ([], 0).
Proof.
  intro rx. set (calls := [(B "seriesByTag('name=x*','b=1')", 1%Z); (B "seriesByTag('a=1')", 2%Z); (B "seriesByTag('name={x*}')", 3%Z)]).
  assert (N : forall c, In c calls -> named_keys rx (fst c)).
  { intros c [<-|[<-|[<-|[]]]] ts t P It; vm_compute in P; injection P as <-; repeat (destruct It as [<-|It]; [discriminate|]); easy. }
  destruct (c68_add_l rx calls N) as (gt & rs & E & R & H & _). destruct (history_entries _ _ _ _ H) as [EE _]. vm_compute in R. injection R as <- <-. vm_compute in EE. subst E.
  exists calls. do 2 eexists. exists [mkEntry (B "seriesByTag('name=x*','b=1')") (B "seriesByTag('__name__=x*','b=1')") 1%Z; mkEntry (B "seriesByTag('a=1')") (B "seriesByTag('a=1')") 2%Z; mkEntry (B "seriesByTag('name={x*}')") (B "seriesByTag('__name__=x*')") 3%Z].
  exists (mkEntry (B "seriesByTag('name={x*}')") (B "seriesByTag('__name__=x*')") 3%Z). eexists. split; [reflexivity|]. split; [vm_compute; reflexivity|]. split; [exact H|]. split; [right; right; now left|]. split; [vm_compute; reflexivity|].
  split; [apply once_ok; vm_compute; reflexivity|]. split; [|vm_compute; reflexivity].
  intros [|k] t Hk; [|now destruct k]. eexists. split.
  - exists []. do 3 eexists. split; [reflexivity|]. split; [vm_compute; reflexivity|]. split; [vm_compute; reflexivity|]. split; [reflexivity|easy].
  - vm_compute. reflexivity.
Qed.
