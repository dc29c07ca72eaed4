(** Matching dotted globs, queries and trees of them returns. *)
From Coq Require Import Lia ZifyBool ZifyN ZifyNat Permutation.
From Verif Require Import Model.GGlob Model.GTags Spec.Symbols Spec.GlobSpec Spec.ApartSpec Spec.GGlobSpec Spec.PathSpec Spec.TagSpec Spec.QuerySpec Spec.SelectSpec Spec.RegistrySpec Spec.TagTreeSpec Spec.CalmSpec.
From Verif Require Import Proof.SortP Proof.NextP Proof.PathP Proof.GGlobP Proof.RegistryP Proof.GTreeP Proof.TagTreeP Proof.SeriesP Proof.SelectP Proof.ApartP.

Definition gives {A} (r : res A) : Prop := exists a, r = Ok a.
Definition sure (g : glob) : Prop := forall s, gives (glob_match g s).
Lemma gives_oseq a b : gives a -> gives b -> gives (oseq a b).
Proof. intros (x & ->) (y & ->). unfold oseq. cbn. unfold gives. eauto. Qed.
Lemma gives_loop gs : Forall sure gs -> forall p, gives (gg_match_loop gs p).
Proof.
  induction 1 as [|g gs S F IH]; intro p; cbn [gg_match_loop]; [now exists (null p)|]. destruct (cut dot p) as [[part rest] fd]. destruct (null part); [now exists false|].
  destruct (S part) as (b & ->). cbn [bind]. destruct b; [apply IH|now exists false].
Qed.
Lemma gives_parts_loop gs : Forall sure gs -> forall ps, length gs = length ps -> gives (gg_match_parts_loop gs ps).
Proof.
  induction 1 as [|g gs S F IH]; intros [|p ps] L; try discriminate; cbn [gg_match_parts_loop]; [now exists true|].
  destruct (S p) as (b & ->). cbn [bind]. destruct b; [apply IH; now injection L|now exists false].
Qed.
Lemma gives_gglob g : Forall sure (gg_parts g) -> (forall p, gives (gg_match g p)) /\ forall ps len, gives (gg_match_by_parts g ps len).
Proof.
  intro F. split.
  - intro p. unfold gg_match. destruct (null p); [now exists false|]. destruct (path_level p) as [q n]. repeat match goal with |- context [if ?c then _ else _] => destruct c; [now exists false|] end. now apply gives_loop.
  - intros ps len. unfold gg_match_by_parts. destruct (null ps); [now exists false|]. destruct (Nat.eqb_spec (length (gg_parts g)) (length ps)) as [L|]; [|now exists false]. cbn [negb].
    repeat match goal with |- context [if ?c then _ else _] => destruct c; [now exists false|] end. now apply gives_parts_loop.
Qed.

Lemma gives_map f last part l : (forall k c, lookup str_eqb k l = Some c -> last = true \/ gives (f c)) -> gives (in_map f last part l).
Proof.
  intro H. assert (K : forall c, lookup str_eqb part l = Some c -> last = true \/ gives (f c)) by (intros c; apply H). clear H.
  induction l as [|[k c] l IH]; cbn [in_map lookup] in *; [now exists out_none|]. destruct (str_eqb part k); [|auto].
  destruct last; [eexists; reflexivity|]. destruct (K c eq_refl) as [X|X]; [discriminate|exact X].
Qed.
Lemma gives_list f last part l : (forall c, In c l -> exists g, gt_item c = Some g /\ sure g /\ (last = true \/ gives (f c))) -> gives (in_list f last part l).
Proof.
  induction l as [|c l IH]; intro H; cbn [in_list]; [now exists out_none|]. destruct (H c (or_introl eq_refl)) as (g & -> & S & K). destruct (S part) as (b & ->). cbn [bind].
  apply gives_oseq; [|apply IH; intros; apply H; now right]. destruct b; [|now exists out_none]. destruct last; [eexists; reflexivity|]. destruct K as [X|X]; [discriminate|exact X].
Qed.
Section Tree.
  Variable G : glob -> Prop.
  Hypothesis GS : forall g, G g -> sure g.
  Lemma gives_items n : forall t p, length p <= n -> (forall m, wft G m t) -> gives (gt_match_items t p).
  Proof.
    induction n as [|n IH]; intros t p L W; rewrite gt_items_eq; destruct (cut dot p) as [[part rest] fd] eqn:C.
    - destruct p; [|cbn in L; lia]. injection C as <- <- _. now exists out_none.
    - destruct part as [|c0 part]; [now exists out_none|]. cbn [null].
      assert (R : null rest = true \/ length rest <= n).
      { unfold cut in C. destruct (index_byte p dot) as [i|] eqn:E; [|injection C as _ <- _; now left]. right. apply index_byte_cut in E as (a & b & -> & <- & _).
        destruct (cut_firstn a dot b) as [_ X]. rewrite X in C. injection C as _ <- _. rewrite app_length in L. cbn in L. lia. }
      apply gives_oseq.
      + apply gives_map. intros k c Lk. destruct R as [R|R]; [now left|right]. apply IH; auto. intro m. now apply (W (S m)) in Lk.
      + apply gives_list. intros c Ic. destruct (W 1) as (_ & _ & W1). destruct (W1 c Ic) as (g & Eg & Gg & _). exists g. split; auto. split; auto.
        destruct R as [R|R]; [now left|right]. apply IH; auto. intro m. destruct (W (S m)) as (_ & _ & Wm). now destruct (Wm c Ic) as (? & _ & _ & ?).
  Qed.
  Lemma gives_tree_parts ps : forall t, ps <> [] -> (forall m, wft G m t) -> gives (gt_match_parts t ps).
  Proof.
    induction ps as [|p ps IH]; intros t N W; [easy|]. rewrite gt_parts_eq.
    assert (R : forall c, (forall m, wft G m c) -> null ps = true \/ gives (gt_match_parts c ps)) by (intros c Wc; destruct ps; [now left|right; now apply IH]).
    apply gives_oseq.
    - apply gives_map. intros k c Lk. apply R. intro m. now apply (W (S m)) in Lk.
    - apply gives_list. intros c Ic. destruct (W 1) as (_ & _ & W1). destruct (W1 c Ic) as (g & Eg & Gg & _). exists g. split; auto. split; auto.
      apply R. intro m. destruct (W (S m)) as (_ & _ & Wm). now destruct (Wm c Ic) as (? & _ & _ & ?).
  Qed.
End Tree.
Lemma parts_sure text g : gg_parse text = Ok g -> calm_parts text -> Forall sure (gg_parts g).
Proof.
  intros P C. apply gg_parse_iff in P as (qs & gls & A & P & ->). cbn [gg_parts]. assert (K : forall q, In q qs -> calm_glob q) by (intros q I; eapply C; eauto). clear C A.
  induction P as [|q gl qs gls Pq P IH]; constructor; [intro s; apply (calm_answers q); auto; apply K; now left|apply IH; intros; apply K; now right].
Qed.
Lemma part_sure E g : (forall e, In e E -> calm_parts (e_text e)) -> part_of E g -> sure g.
Proof.
  intros C (e & gg & Ie & P & Ig). pose proof (parts_sure _ _ P (C e Ie)) as F. rewrite Forall_forall in F. now apply F.
Qed.

(** ** Queries *)
Lemma term_gives rx s t x : reads rx s t -> (forall k op v, condition_text s k op v -> op = OpEq \/ op = OpNe -> wild v -> calm_glob v) -> gives (tt_match rx t x).
Proof.
  intros R C. destruct (reads_text _ _ _ R) as (v & T & K). specialize (C _ _ _ T). destruct t as [k op kept gl]. cbn [tt_key tt_op tt_value tt_glob] in *. unfold tt_match. cbn [tt_op tt_glob tt_value].
  destruct op; try (eexists; reflexivity); destruct gl as [g|]; try (eexists; reflexivity); cbn [keeps] in K;
    (destruct K as [(_ & _ & X)|(W & g' & P & _ & [[_ X]|[_ X]])]; try discriminate X; injection X as <-; destruct (calm_answers v g x (C ltac:(tauto) W) P) as (b & ->); eexists; reflexivity).
Qed.
Lemma query_terms rx q ts : parse_series rx q = Ok ts -> calm_query q -> forall t x, In t ts -> gives (tt_match rx t x).
Proof.
  intros P C t x It. destruct (series_reads _ _ _ P) as (l & us & Q & _ & R & Pm). apply (Permutation_in t (Permutation_sym Pm)) in It.
  destruct (forall2_in_r _ _ _ _ R It) as (s & Is & Rt). apply (term_gives rx s); auto. intros k op v T. eapply C; eauto.
Qed.
Lemma terms_gives rx ts : (forall t x, In t ts -> gives (tt_match rx t x)) -> forall tags, gives (terms_match_map rx ts tags) /\ gives (terms_match_tags rx ts tags).
Proof.
  induction ts as [|t ts IH]; intros H tags; [split; now exists true|]. assert (IH' := IH (fun u x I => H u x (or_intror I))). split; cbn [terms_match_map terms_match_tags].
  - destruct (lookup str_eqb (tt_key t) tags) as [v|].
    + destruct (H t v (or_introl eq_refl)) as (b & ->). cbn. destruct b; [apply IH'|now exists false].
    + destruct (op_negative (tt_op t)); [apply IH'|now exists false].
  - destruct tags as [|x tags]; [destruct (op_negative (tt_op t)); [apply IH'|now exists false]|].
    destruct (scan_key (tt_key t) (x :: tags)) as [|[k v] r]; [destruct (op_negative (tt_op t)); [apply IH'|now exists false]|].
    destruct (H t v (or_introl eq_refl)) as (b & ->). cbn. destruct b; [apply IH'|now exists false].
Qed.
Lemma accepted_gives rx E t x : (forall e, In e E -> calm_query (e_text e)) -> accepted_term rx E t -> gives (tt_match rx t x).
Proof. intros C (e & ts & Ie & P & It). exact (query_terms rx _ ts P (C e Ie) t x It). Qed.
