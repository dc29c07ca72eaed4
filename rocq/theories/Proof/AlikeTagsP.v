(** Trees of queries with the same conditions: if MatchByTagsMap of one returns, so does that of the other. *)
From Coq Require Import Lia ZifyBool ZifyN ZifyNat Permutation.
From Verif Require Import Model.GTags Spec.TagSpec Spec.RegistrySpec Spec.TagTreeSpec.
From Verif Require Import Proof.SortP Proof.SafeP Proof.TagsP Proof.KeyP Proof.TermsP Proof.CondP Proof.RoundP Proof.TotalP Proof.RegistryP Proof.TagTreeP Proof.MixP.
From Verif Require Proof.LaterTagsP.

Definition returns (r : res out) : Prop := exists o, r = Ok o.
Lemma returns_seq a b : returns (oseq a b) <-> returns a /\ returns b.
Proof.
  unfold returns, oseq. destruct a as [[l1 n1]| | |]; [destruct b as [[l2 n2]| | |]|..]; cbn; split; try (intros (o & X); discriminate); try (intros [(o & X) (o' & Y)]; discriminate); eauto.
Qed.

(** ** No node is without a query *)
Inductive fruitful : titem -> Prop :=
| fr_item tm e s : Forall fruitful_slot s -> fruitful (TItem tm e s)
with fruitful_slot : tslot -> Prop :=
| fr_slot k nm m : Forall (fun c => whole c <> [] /\ fruitful c) nm -> Forall (fun c => whole c <> [] /\ fruitful c) m -> fruitful_slot (TSlot k nm m).
Lemma whole_grows y : forall terms i j, Forall (fun t => tt_key t <> []) terms -> fruitful i -> ti_parse terms (Some y) i = Ok j -> whole j <> [] /\ fruitful j /\ ti_term j = ti_term i.
Proof.
  induction terms as [|t rest IH]; intros [tm e s] j K G E.
  - rewrite parse_nil in E. injection E as <-. split; [discriminate|]. inversion G; subst. split; [now constructor|reflexivity].
  - inversion K as [|? ? Kt K']; subst. rewrite parse_cons in E. destruct (find_or_append_ok s (tt_key t) Kt) as (a & nm & m & b & F & Sl). rewrite F, nth_error_mid in E. inversion G as [? ? ? Gs]; subst.
    assert (Ga : Forall fruitful_slot (a ++ TSlot (tt_key t) nm m :: b)).
    { destruct Sl as [<-|(-> & -> & ->)]; auto. apply Forall_app in Gs as [A B]. apply Forall_app. split; auto. constructor; auto. repeat constructor. }
    apply Forall_app in Ga as [Ga Gb]. inversion Gb as [|? ? Gk Gb']; subst. inversion Gk as [? ? ? Gn Gm]; subst.
    assert (Ins : forall l, Forall (fun c => whole c <> [] /\ fruitful c) l -> forall l', ins t (ti_parse rest (Some y)) l = Ok l' -> Forall (fun c => whole c <> [] /\ fruitful c) l' /\ branches flat l' <> []).
    { clear - IH K'. intros l H. induction H as [|c l Hc Hl IHl]; intros l' E; cbn [ins] in E.
      - destruct (ti_parse rest (Some y) (TItem (Some t) None [])) as [c'| | |] eqn:X; try discriminate. injection E as <-. destruct (IH (TItem (Some t) None []) c' K') as (A & B & C); [repeat constructor|exact X|]. split; [now repeat constructor|].
        cbn [branches]. unfold branch. rewrite C. cbn [ti_term]. destruct (whole c') eqn:W; [easy|]. unfold whole in W. rewrite W. discriminate.
      - destruct (same_term t c) eqn:S.
        + destruct (ti_parse rest (Some y) c) as [c'| | |] eqn:X; try discriminate. injection E as <-. destruct (IH c c' K' (proj2 Hc) X) as (A & B & C). split; [now constructor|].
          cbn [branches]. unfold branch. rewrite C. unfold same_term in S. destruct (ti_term c) as [u|]; [|discriminate]. destruct (whole c') eqn:W; [easy|]. unfold whole in W. rewrite W. discriminate.
        + destruct (ins t (ti_parse rest (Some y)) l) as [l0| | |] eqn:X; try discriminate. injection E as <-. destruct (IHl l0 eq_refl) as [A B]. split; [now constructor|]. cbn [branches]. intro Z. apply app_eq_nil in Z as [_ Z]. auto. }
    destruct (op_negative (tt_op t)).
    + destruct (ins t (ti_parse rest (Some y)) nm) as [l'| | |] eqn:X; try discriminate. cbn [bind] in E. rewrite set_nth_mid in E. injection E as <-. destruct (Ins nm Gn l' X) as [A B]. split; [|split; [|reflexivity]].
      * unfold whole. rewrite flat_item, slots_app. cbn [flat_slots]. rewrite flat_slot_eq. intro Z. apply app_eq_nil in Z as [_ Z]. apply app_eq_nil in Z as [_ Z]. apply app_eq_nil in Z as [Z _]. apply app_eq_nil in Z as [_ Z]. auto.
      * constructor. apply Forall_app. split; auto. constructor; auto. now constructor.
    + destruct (ins t (ti_parse rest (Some y)) m) as [l'| | |] eqn:X; try discriminate. cbn [bind] in E. rewrite set_nth_mid in E. injection E as <-. destruct (Ins m Gm l' X) as [A B]. split; [|split; [|reflexivity]].
      * unfold whole. rewrite flat_item, slots_app. cbn [flat_slots]. rewrite flat_slot_eq. intro Z. apply app_eq_nil in Z as [_ Z]. apply app_eq_nil in Z as [_ Z]. apply app_eq_nil in Z as [Z _]. apply app_eq_nil in Z as [Z _]. auto.
      * constructor. apply Forall_app. split; auto. constructor; auto. now constructor.
Qed.

(** ** When MatchByTagsMap returns *)
Section Ret.
Variables (rx : regexps) (tags : list tag).
Fixpoint okp (p : list tterm) : Prop :=
  match p with
  | [] => True
  | t :: p => match value_of tags (tt_key t) with Some v => exists b, tt_match rx t v = Ok b /\ (b = true -> okp p) | None => op_negative (tt_op t) = true -> okp p end
  end.
Definition clear (l : list pathed) : Prop := forall p x, In (p, x) l -> okp p.
Lemma clear_app a b : clear (a ++ b) <-> clear a /\ clear b.
Proof. unfold clear. split; [intro H; split; intros p x I; apply (H p x), in_or_app; auto|]. intros [A B] p x I. apply in_app_or in I as [I|I]; eauto. Qed.
Lemma clear_own e : clear (own e).
Proof. destruct e; intros p y H; [destruct H as [H|[]]; injection H as <- <-; exact I|destruct H]. Qed.
Notation rec := (fun c => ti_match_map rx c tags).
Variable T : tterm -> Prop.
Notation good := (fun c => wf_item T c -> fruitful c -> (returns (rec c) <-> clear (flat c))).
Lemma clear_under t l : l <> [] -> (clear (under t l) <-> match value_of tags (tt_key t) with Some v => exists b, tt_match rx t v = Ok b /\ (b = true -> clear l) | None => op_negative (tt_op t) = true -> clear l end).
Proof.
  intro N. split.
  - intro H. assert (H' : forall p x, In (p, x) l -> okp (t :: p)) by (intros p x I; apply (H (t :: p) x), under_in; eauto). cbn [okp] in H'. destruct (value_of tags (tt_key t)) as [v|].
    + destruct l as [|[p0 x0] l]; [easy|]. destruct (H' p0 x0 (or_introl eq_refl)) as (b & Eb & _). exists b. split; [exact Eb|]. intros -> p x I. destruct (H' p x I) as (b & Eb' & Hb). assert (b = true) by congruence. auto.
    + intros Ng p x I. exact (H' p x I Ng).
  - intros H p x I. apply under_in in I as (q & -> & I). cbn [okp]. destruct (value_of tags (tt_key t)) as [v|].
    + destruct H as (b & Eb & H). exists b. split; [exact Eb|]. intro B. exact (H B q x I).
    + intro Ng. exact (H Ng q x I).
Qed.
Lemma val_returns k neg v : value_of tags k = Some v -> forall l, Forall good l -> Forall (wf_child T k neg) l -> Forall (fun c => whole c <> [] /\ fruitful c) l ->
  (returns (go_val rx rec v l) <-> clear (branches flat l)).
Proof.
  intro V. induction l as [|c l IH]; intros H W F; [split; [intros _ p x []|intros _; eexists; reflexivity]|]. inversion H as [|? ? H1 H2]; inversion W as [|? ? W1 W2]; inversion F as [|? ? F1 F2]; subst. inversion W1 as [? ? t e s Tt Kt Nt Wi]; subst.
  specialize (IH H2 W2 F2). specialize (H1 Wi (proj2 F1)). cbv beta in H1. cbn [go_val branches ti_term ti_end]. unfold branch. cbn [ti_term ti_end]. rewrite clear_app, <- IH. destruct F1 as [F1 _]. unfold whole in F1. cbn [ti_end] in F1. rewrite (clear_under t _ F1), V.
  assert (Q : clear (own e ++ flat (TItem (Some t) e s)) <-> returns (ti_match_map rx (TItem (Some t) e s) tags)) by (rewrite clear_app, <- H1; pose proof (clear_own e); tauto). destruct (tt_match rx t v) as [[|]| | |]; cbn [bind].
  - rewrite !returns_seq. split; [intros (_ & A & B); split; [exists true; split; [reflexivity|intros _; now apply Q]|exact B]|]. intros [(b & Eb & A) B]. injection Eb as <-. split; [eexists; reflexivity|]. split; [now apply Q, A|exact B].
  - split; [intro A; split; [exists false; split; [reflexivity|discriminate]|exact A]|tauto].
  - split; [intros (o & X); discriminate|intros [(b & X & _) _]; discriminate].
  - split; [intros (o & X); discriminate|intros [(b & X & _) _]; discriminate].
  - split; [intros (o & X); discriminate|intros [(b & X & _) _]; discriminate].
Qed.
Lemma abs_returns k : value_of tags k = None -> forall l, Forall good l -> Forall (wf_child T k true) l -> Forall (fun c => whole c <> [] /\ fruitful c) l ->
  (returns (go_abs rec l) <-> clear (branches flat l)).
Proof.
  intro V. induction l as [|c l IH]; intros H W F; [split; [intros _ p x []|intros _; eexists; reflexivity]|]. inversion H as [|? ? H1 H2]; inversion W as [|? ? W1 W2]; inversion F as [|? ? F1 F2]; subst. inversion W1 as [? ? t e s Tt Kt Nt Wi]; subst.
  specialize (IH H2 W2 F2). specialize (H1 Wi (proj2 F1)). cbv beta in H1. cbn [go_abs branches ti_term ti_end]. unfold branch. cbn [ti_term ti_end]. rewrite clear_app, <- IH. destruct F1 as [F1 _]. unfold whole in F1. cbn [ti_end] in F1. rewrite (clear_under t _ F1), V.
  assert (Q : clear (own e ++ flat (TItem (Some t) e s)) <-> returns (ti_match_map rx (TItem (Some t) e s) tags)) by (rewrite clear_app, <- H1; pose proof (clear_own e); tauto). rewrite !returns_seq. split; [intros (_ & A & B); split; [intros _; now apply Q|exact B]|]. intros [A B]. split; [eexists; reflexivity|]. split; [now apply Q, A|exact B].
Qed.
Lemma pos_clear k : value_of tags k = None -> forall l, Forall (wf_child T k false) l -> clear (branches flat l).
Proof.
  intro V. induction l as [|c l IH]; intros W; [intros p x []|]. inversion W as [|? ? W1 W2]; subst. inversion W1 as [? ? t e s Tt Kt Nt Wi]; subst. cbn [branches]. apply clear_app. split; [|auto].
  intros p x I. unfold branch in I. cbn [ti_term] in I. apply under_in in I as (q & -> & _). cbn [okp]. rewrite V, Nt. discriminate.
Qed.
Lemma item_returns : tags <> [] -> forall i, wf_item T i -> fruitful i -> (returns (ti_match_map rx i tags) <-> clear (flat i)).
Proof.
  intro N. apply (ti_ind (fun i => wf_item T i -> fruitful i -> (returns (ti_match_map rx i tags) <-> clear (flat i))) (fun s => wf_slot T s -> fruitful_slot s -> (returns (slot_match_map rx s tags) <-> clear (flat_slot s)))).
  - intros tm e slots IH W G. inversion W as [? ? ? Ws]; inversion G as [? ? ? Gs]; subst. rewrite item_map_eq, flat_item. replace (null tags) with false by now destruct tags. clear W G.
    induction slots as [|s slots IHs]; [split; [intros _ p x []|intros _; eexists; reflexivity]|]. inversion IH; inversion Ws; inversion Gs; subst. cbn [over_map flat_slots]. rewrite returns_seq, clear_app, IHs by auto. rewrite H1 by auto. reflexivity.
  - intros k nm m IHn IHm W G. inversion W as [? ? ? K Wn Wm]; inversion G as [? ? ? Gn Gm]; subst. rewrite slot_map_eq, flat_slot_eq, clear_app. destruct (value_of tags k) as [v|] eqn:V.
    + now rewrite returns_seq, (val_returns k false v V m IHm Wm Gm), (val_returns k true v V nm IHn Wn Gn).
    + rewrite (abs_returns k V nm IHn Wn Gn). pose proof (pos_clear k V m Wm). tauto.
Qed.
(** Paths of conditions that match alike. *)
Lemma okp_sim (A : tterm -> Prop) : (forall t u v, A t -> A u -> condition t = condition u -> value_of tags (tt_key t) = Some v -> tt_match rx t v = tt_match rx u v) ->
  forall p q, Forall A p -> Forall A q -> sim p q -> okp p -> okp q.
Proof.
  intro Ag. induction p as [|t p IH]; intros [|u q] Fp Fq S O; try discriminate; [exact I|]. inversion Fp; inversion Fq; subst. unfold sim in S. cbn [map] in S. injection S as S1 S2 S3 S. cbn [okp] in *.
  assert (Sc : condition t = condition u) by (unfold condition; congruence). rewrite <- S1. destruct (value_of tags (tt_key t)) as [v|] eqn:V.
  - destruct O as (b & Eb & Hb). exists b. rewrite <- (Ag t u v); auto.
  - intro Ng. apply IH; auto. apply O. congruence.
Qed.
End Ret.

(** ** Histories *)
Lemma fruitful_history rx calls : (forall c, In c calls -> named_keys rx (fst c)) -> exists gt rs E, run_adds (tg_add rx) tg_new calls = Ok (gt, rs) /\ history (tg_canon rx) calls rs E /\ tagtree_ok rx E gt /\ fruitful (tg_root gt).
Proof.
  induction calls as [|[text i] calls IH] using rev_ind; intro K.
  - exists tg_new, [], []. split; [reflexivity|]. split; [constructor|]. split; [apply tagtree_new|]. repeat constructor.
  - destruct IH as (gt & rs & E & R & H & T & F); [intros c J; apply K, in_or_app; now left|]. assert (Kt : named_keys rx text) by (apply (K (text, i)), in_or_app; right; now left).
    destruct (tg_step rx _ gt text i Kt T) as (gt' & r & new & A & Rg & T' & N). exists gt', (rs ++ [r]). destruct new as [e|].
    + exists (E ++ [e]). split; [eapply run_adds_snoc; eauto|]. split; [exact (h_snoc _ _ _ _ _ _ _ _ H Rg)|]. split; [exact T'|].
      destruct (LaterTagsP.accepted_step _ _ _ _ _ _ _ _ T A Rg) as (ts & Pg & -> & U & [(-> & Er & _)|(_ & Pr & _)]); [now rewrite Er|].
      refine (proj1 (proj2 (whole_grows _ ts _ _ _ F Pr))). apply Forall_forall. intros t It. now apply (Kt ts).
    + exists E. rewrite (N eq_refl) in *. split; [eapply run_adds_snoc; eauto|]. split; [|auto]. exact (h_snoc _ _ _ _ _ _ _ _ H Rg).
Qed.
Lemma alike_returns rx E E' gt gt' tags : tagtree_ok rx E gt -> fruitful (tg_root gt) -> tagtree_ok rx E' gt' -> fruitful (tg_root gt') -> (forall e, In e E <-> In e E') ->
  (forall t u v, accepted_term rx E t -> accepted_term rx E u -> condition t = condition u -> value_of tags (tt_key t) = Some v -> tt_match rx t v = tt_match rx u v) ->
  returns (tg_match_map rx gt tags) -> returns (tg_match_map rx gt' tags).
Proof.
  intros (_ & _ & WF & _ & _ & (T1 & T2 & _)) F (_ & _ & WF' & _ & _ & (T1' & T2' & _)) F' IE Ag M. unfold tg_match_map in *.
  assert (Nt : tags = [] \/ tags <> []) by (destruct tags; [now left|right; discriminate]). destruct Nt as [->|Nt]; [destruct (tg_root gt'); eexists; reflexivity|].
  apply (item_returns rx tags _ Nt _ WF F) in M. apply (item_returns rx tags _ Nt _ WF' F'). intros p x J. destruct (T1' p x J) as (e & ts & I & P & N & S & ->).
  destruct (T2 e ts) as (q & Iq & Sq); auto; [now apply IE|]. refine (okp_sim rx tags (accepted_term rx E) Ag q p _ _ _ (M q _ Iq)).
  - exact (flat_over _ _ WF _ _ Iq).
  - eapply Forall_impl; [|exact (flat_over _ _ WF' _ _ J)]. intros t (d & us & Id & Y). exists d, us. split; [now apply IE|exact Y].
  - unfold sim in *. congruence.
Qed.
