(** Lists of conditions: meaning and order. *)
From Coq Require Import Lia ZifyBool ZifyN ZifyNat Permutation Sorting.Sorted.
From Verif Require Import Model.GTags Spec.TagSpec Proof.SortP Proof.TagsP Proof.KeyP Proof.RegistryP.

Lemma negative_iff op : op_negative op = true <-> ~ positive op.
Proof. unfold positive. destruct op; cbn; split; try easy; try (intro H; exfalso; apply H; auto); intros _ [H|H]; discriminate. Qed.
Lemma negative_false op : op_negative op = false <-> positive op.
Proof. unfold positive. destruct op; cbn; split; auto; try easy; intros [H|H]; discriminate. Qed.

Lemma match_map_true rx terms tags : terms_match_map rx terms tags = Ok true <-> forall t, In t terms -> holds rx t tags.
Proof.
  induction terms as [|t r IH]; cbn [terms_match_map]; [split; [easy|auto]|].
  assert (X : (holds rx t tags /\ terms_match_map rx r tags = Ok true) <-> forall t', In t' (t :: r) -> holds rx t' tags).
  { rewrite IH. split; [intros [H1 H2] t' [<-|I]; auto|]. intro H. split; [apply H; now left|]. intros t' I. apply H. now right. }
  rewrite <- X. unfold holds, value_of. destruct (lookup str_eqb (tt_key t) tags) as [v|].
  - destruct (tt_match rx t v) as [[|]|e| |] eqn:E; cbn [bind]; split; try tauto; try discriminate; intros [H _]; discriminate.
  - destruct (op_negative (tt_op t)) eqn:E.
    + apply negative_iff in E. tauto.
    + apply negative_false in E. split; [discriminate|]. tauto.
Qed.
Lemma match_map_total rx terms tags : evaluable rx terms tags -> exists b, terms_match_map rx terms tags = Ok b.
Proof.
  induction terms as [|t r IH]; intro Ev; cbn [terms_match_map]; [eauto|]. destruct IH as (b & E); [intros t' v I; apply Ev; now right|]. unfold value_of in *.
  destruct (lookup str_eqb (tt_key t) tags) as [v|] eqn:Ek.
  - destruct (Ev t v (or_introl eq_refl) Ek) as ([|] & ->); cbn; eauto.
  - destruct (op_negative (tt_op t)); eauto.
Qed.
Lemma match_accepts rx t v : tt_match rx t v = Ok true <-> accepts rx t v.
Proof.
  unfold tt_match, accepts. destruct (tt_op t).
  - destruct (tt_glob t); [reflexivity|]. destruct (str_eqb_spec v (tt_value t)); split; congruence.
  - split; [now intros [= ->]|now intros ->].
  - destruct (tt_glob t) as [g|].
    + destruct (glob_match g v) as [[|]|e| |]; cbn; split; congruence.
    + destruct (str_eqb_spec v (tt_value t)); cbn; split; congruence.
  - destruct (rx_match rx (tt_value t) v); cbn; split; congruence.
Qed.
Lemma match_map_perm rx ts ts' tags : Permutation ts ts' -> evaluable rx ts tags -> terms_match_map rx ts tags = terms_match_map rx ts' tags.
Proof.
  intros P Ev. assert (Ev' : evaluable rx ts' tags). { intros t v I. apply Ev. eapply Permutation_in; [apply Permutation_sym|]; eauto. }
  destruct (match_map_total _ _ _ Ev) as (b & E). destruct (match_map_total _ _ _ Ev') as (b' & E').
  assert (X : terms_match_map rx ts tags = Ok true <-> terms_match_map rx ts' tags = Ok true).
  { rewrite !match_map_true. split; intros H t I; apply H; [apply (Permutation_in _ (Permutation_sym P))|apply (Permutation_in _ P)]; auto. }
  rewrite E, E' in *. destruct b, b'; auto; destruct X as [X1 X2]; (discriminate (X1 eq_refl) || discriminate (X2 eq_refl)).
Qed.

(** Slices. *)
Lemma scan_in k tags : In k (map fst tags) -> exists a v b, tags = a ++ (k, v) :: b /\ ~ In k (map fst a) /\ scan_key k tags = (k, v) :: b /\ value_of tags k = Some v.
Proof.
  unfold value_of. induction tags as [|[k' v'] tags IH]; cbn; [easy|]. intro I. rewrite (str_eqb_sym k k'). destruct (str_eqb_spec k' k) as [->|N].
  - exists [], v', tags. auto.
  - destruct I as [I|I]; [easy|]. destruct (IH I) as (a & v & b & -> & Na & Es & El). exists ((k', v') :: a), v, b. repeat split; auto. cbn. tauto.
Qed.
Lemma scan_out k tags : ~ In k (map fst tags) -> scan_key k tags = [] /\ value_of tags k = None.
Proof.
  unfold value_of. induction tags as [|[k' v'] tags IH]; cbn; [auto|]. intro I. rewrite (str_eqb_sym k k'). destruct (str_eqb_spec k' k) as [->|N]; [tauto|]. apply IH. tauto.
Qed.
Lemma value_app a b k : ~ In k (map fst a) -> value_of (a ++ b) k = value_of b k.
Proof. unfold value_of. induction a as [|[k' v'] a IH]; cbn; auto. intro I. destruct (str_eqb_spec k k') as [->|N]; [tauto|]. apply IH. tauto. Qed.
Lemma keys_in_dec k (keys : list str) : In k keys \/ ~ In k keys.
Proof. destruct (in_dec (list_eq_dec Ascii.ascii_dec) k keys); auto. Qed.
Lemma sorted_app_lt a k b : keys_sorted (a ++ k :: b) -> (forall x, In x a -> key_lt x k) /\ keys_sorted (k :: b).
Proof.
  induction a as [|y a IH]; cbn [app]; [now split|]. intros [H S]. destruct (IH S) as [IH1 IH2]. split; auto. intros x [<-|I]; auto. apply H. apply in_or_app. right. now left.
Qed.
Definition terms_ordered (terms : list tterm) : Prop := forall a t b u, terms = a ++ t :: b -> In u b -> ~ key_lt (tt_key u) (tt_key t).
Lemma ordered_cons t r : terms_ordered (t :: r) <-> (forall u, In u r -> ~ key_lt (tt_key u) (tt_key t)) /\ terms_ordered r.
Proof.
  split.
  - intro O. split; [intros u I; now apply (O [] t r u)|]. intros a x b u -> I. now apply (O (t :: a) x b u).
  - intros [O1 O2] [|x a] y b u E I; cbn in E; injection E as -> E; [subst; auto|]. now apply (O2 a y b u).
Qed.
Lemma match_tags_gen rx : forall terms pre suf, keys_sorted (map fst (pre ++ suf)) -> terms_ordered terms ->
  (forall t, In t terms -> ~ In (tt_key t) (map fst pre)) -> (forall t, In t terms -> ~ positive (tt_op t) -> value_of (pre ++ suf) (tt_key t) <> None) ->
  terms_match_tags rx terms suf = terms_match_map rx terms (pre ++ suf).
Proof.
  induction terms as [|t r IH]; intros pre suf S O Np Ab; cbn [terms_match_tags terms_match_map]; auto.
  apply ordered_cons in O as [O1 O2]. assert (Nt := Np t (or_introl eq_refl)). assert (At := Ab t (or_introl eq_refl)).
  change (lookup str_eqb (tt_key t) (pre ++ suf)) with (value_of (pre ++ suf) (tt_key t)). rewrite (value_app pre suf) in * by auto.
  destruct (keys_in_dec (tt_key t) (map fst suf)) as [I|NI].
  - destruct (scan_in _ _ I) as (a & v & b & -> & Na & -> & ->). destruct (a ++ (tt_key t, v) :: b) as [|x y] eqn:Ex; [now destruct a|]. rewrite <- Ex in *. clear Ex x y.
    destruct (tt_match rx t v) as [[|]|e| |]; cbn [bind]; auto. rewrite app_assoc in *. apply IH; auto.
    + intros u Iu Ju. rewrite map_app in Ju. apply in_app_or in Ju as [Ju|Ju]; [apply (Np u); auto; now right|].
      apply (O1 u Iu). rewrite map_app in S. cbn [map fst] in S. apply sorted_app_lt in S as [S _]. apply S. rewrite map_app. apply in_or_app. auto.
    + intros u Iu. apply Ab. now right.
  - destruct (scan_out _ _ NI) as [Es Ev]. rewrite Es, Ev in *. destruct (op_negative (tt_op t)) eqn:E; [|now destruct suf].
    apply negative_iff in E. exfalso. now apply At.
Qed.
Lemma sorted_value tags k : keys_sorted (map fst tags) -> value_of (tags_map tags) k = value_of tags k.
Proof.
  intro S. destruct (keys_in_dec k (map fst tags)) as [I|N].
  - destruct (scan_in _ _ I) as (a & v & b & -> & Na & _ & ->). apply tags_map_value. exists a, b. split; auto. intros v' J.
    rewrite map_app in S. cbn [map fst] in S. apply sorted_app_lt in S as [_ [S _]]. apply (key_lt_irrefl k). apply S. apply (in_map fst) in J. exact J.
  - destruct (scan_out _ _ N) as [_ ->]. destruct (value_of (tags_map tags) k) as [v|] eqn:E; auto. apply tags_map_value in E as (a & b & -> & _). exfalso. apply N. rewrite map_app. apply in_or_app. right. now left.
Qed.
Lemma match_map_ext rx terms m m' : (forall k, value_of m k = value_of m' k) -> terms_match_map rx terms m = terms_match_map rx terms m'.
Proof.
  intro H. induction terms as [|t r IH]; cbn [terms_match_map]; auto. change (lookup str_eqb (tt_key t) m) with (value_of m (tt_key t)). change (lookup str_eqb (tt_key t) m') with (value_of m' (tt_key t)). rewrite H, IH. reflexivity.
Qed.
Lemma match_tags_done rx terms : terms_match_tags rx terms [] = Ok (forallb (fun t => op_negative (tt_op t)) terms).
Proof. induction terms as [|t r IH]; cbn; auto. destruct (op_negative (tt_op t)); auto. Qed.
(** The first '!=' condition whose key is absent ends the comparison. *)
Lemma match_tags_absent rx : forall pre0 t post tags, keys_sorted (map fst tags) -> terms_ordered (pre0 ++ t :: post) ->
  (forall u, In u pre0 -> ~ positive (tt_op u) -> value_of tags (tt_key u) <> None) -> ~ positive (tt_op t) -> value_of tags (tt_key t) = None ->
  terms_match_tags rx (pre0 ++ t :: post) tags = bind (terms_match_map rx pre0 tags) (fun b => Ok (b && forallb (fun u => op_negative (tt_op u)) post)).
Proof.
  intros pre0 t post tags S O Ab Nt Vt.
  enough (H : forall pre suf, tags = pre ++ suf -> (forall u, In u (pre0 ++ t :: post) -> ~ In (tt_key u) (map fst pre)) ->
    terms_match_tags rx (pre0 ++ t :: post) suf = bind (terms_match_map rx pre0 tags) (fun b => Ok (b && forallb (fun u => op_negative (tt_op u)) post))).
  { apply (H []); auto. }
  induction pre0 as [|u r IH]; intros pre suf E Np.
  - cbn [app] in *. subst tags. assert (Npt := Np t (or_introl eq_refl)). rewrite (value_app pre suf) in Vt by auto.
    cbn [terms_match_tags terms_match_map bind]. apply negative_iff in Nt. rewrite Nt.
    destruct (keys_in_dec (tt_key t) (map fst suf)) as [I|NI].
    + destruct (scan_in _ _ I) as (a & v & b & _ & _ & _ & Ev). unfold str, tag in *. congruence.
    + destruct (scan_out _ _ NI) as [-> _]. rewrite match_tags_done. now destruct suf.
  - cbn [app terms_match_tags terms_match_map] in *. apply ordered_cons in O as [O1 O2]. assert (Npu := Np u (or_introl eq_refl)).
    change (lookup str_eqb (tt_key u) tags) with (value_of tags (tt_key u)).
    assert (Au := Ab u (or_introl eq_refl)). rewrite E in *. rewrite (value_app pre suf) in Au by auto. rewrite (value_app pre suf (tt_key u)) by auto.
    destruct (keys_in_dec (tt_key u) (map fst suf)) as [I|NI].
    + destruct (scan_in _ _ I) as (a & v & b & -> & Na & -> & ->). destruct (a ++ (tt_key u, v) :: b) as [|x y] eqn:Ex; [now destruct a|]. rewrite <- Ex in *. clear Ex x y.
      destruct (tt_match rx u v) as [[|]|e| |]; cbn [bind]; auto. apply (IH O2 (fun w Iw => Ab w (or_intror Iw)) (pre ++ a)); [now rewrite <- app_assoc|].
      intros w Iw Jw. rewrite map_app in Jw. apply in_app_or in Jw as [Jw|Jw]; [apply (Np w); auto; now right|].
      apply (O1 w Iw). rewrite app_assoc, map_app in S. cbn [map fst] in S. apply sorted_app_lt in S as [S _]. apply S. rewrite map_app. apply in_or_app. auto.
    + destruct (scan_out _ _ NI) as [Es Ev]. rewrite Es, Ev in *. destruct (op_negative (tt_op u)) eqn:En; [|now destruct suf].
      apply negative_iff in En. exfalso. now apply Au.
Qed.
