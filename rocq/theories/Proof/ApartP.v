(** Globs in which no list brings a wildcard next to a star: the items of [apart] globs. *)
From Verif Require Import Model.Tree Spec.Symbols Spec.GlobSpec Spec.StarSpec Spec.EndSpec Spec.Lang Spec.Safe Spec.ApartSpec.
From Verif Require Import Proof.Utf8P Proof.SymbolsP Proof.SkipP Proof.SortP Proof.ListP Proof.LangP Proof.ItemP Proof.DenotesP Proof.MatchP Proof.ParseP Proof.NextP Proof.GlobP Proof.GlobMatchP Proof.SafeP Proof.PanicP Proof.TidyP Proof.MinP Proof.StarsP Proof.RegNpP Proof.SoundP Proof.CheckP Proof.TreePanicP Proof.TreeSoundP Proof.NoErrP.
From Coq Require Import Lia ZifyBool ZifyN ZifyNat.

(** ** Items in which neither '?' nor a star comes after a star *)
Inductive calmly : bool -> list item -> Prop :=
| ca_nil p : calmly p []
| ca_lit p it R : literal_item it -> calmly false R -> calmly p (it :: R)
| ca_any n R : calmly false R -> calmly false (IAny n :: R)
| ca_star k R : calmly true R -> calmly false (IStar k :: R)
| ca_list p l R : calmly false R -> (sl_min l = 0%Z -> calmly p R) -> calmly p (IList l :: R)
| ca_group p vals mn mx R : (forall v, In v vals -> calmly p (val_items v ++ R)) -> (mn = 0%Z -> calmly p R) -> calmly p (IGroup vals mn mx :: R).
Lemma calmly_steady p F : calmly p F -> steady p F.
Proof.
  induction 1 as [p|p it R L C IH|n R C IH|k R C IH|p l R C IH C2 IH2|p vals mn mx R C IH C2 IH2].
  - constructor.
  - apply t_one; [now destruct it|exact IH].
  - apply t_one; [exact I|exact IH].
  - apply t_star; [discriminate|exact IH].
  - apply t_list; auto.
  - apply t_group; auto.
Qed.
Definition any_next (r : list item) : Prop := exists a k n b, r = a ++ IStar k :: IAny n :: b.
Lemma any_next_cons it r : any_next (it :: r) -> any_next r \/ exists k n b, it = IStar k /\ r = IAny n :: b.
Proof. intros (a & k & n & b & E). destruct a as [|x a]; injection E as E1 E2; [right; eauto|left; exists a, k, n, b; exact E2]. Qed.
Lemma calmly_any F r : path F r -> forall p, calmly p F -> ~ any_next r /\ (p = true -> forall n b, r <> IAny n :: b).
Proof.
  induction 1 as [F|it R r K P IH|l R r Z P IH|vals mn mx v R r J P IH|vals mn R mx r Z P IH]; intros p C.
  - split; [intros (a & k & n & b & E); destruct a; discriminate|discriminate].
  - assert (Ns : (forall k, it <> IStar k) -> ~ any_next r -> ~ any_next (it :: r)).
    { intros N A H. apply any_next_cons in H as [H|(k & n & b & E & _)]; [auto|now elim (N k)]. }
    inversion C as [|? ? ? L C1|? ? C1|? ? C1|? ? ? C1 C2|]; subst; try easy.
    + destruct (IH _ C1) as [I1 _]. split; [apply Ns; auto; intros k ->; easy|]. intros _ n b E. injection E as -> _. easy.
    + destruct (IH _ C1) as [I1 _]. split; [apply Ns; auto; discriminate|discriminate].
    + destruct (IH _ C1) as [I1 I2]. split; [|discriminate]. intro H. apply any_next_cons in H as [H|(k' & n & b & _ & E)]; [auto|]. now apply (I2 eq_refl n b).
    + destruct (IH _ C1) as [I1 _]. split; [apply Ns; auto; discriminate|discriminate].
  - inversion C; subst; try easy. auto.
  - inversion C; subst; try easy. auto.
  - inversion C; subst; try easy. auto.
Qed.
Lemma calmly_quiet F : calmly false F -> ~ star_any F.
Proof. intros C (r & a & k & n & b & P & E). apply (proj1 (calmly_any F r P false C)). exists a, k, n, b. exact E. Qed.

(** ** The run of the parser *)
Inductive nstep : bool -> item -> bool -> Prop :=
| n_lit p it : literal_item it -> nstep p it false
| n_any n : nstep false (IAny n) false
| n_star k : nstep false (IStar k) true
| n_list p l : (p = true -> sl_min l <> 0%Z) -> nstep p (IList l) false
| n_group p vals mn mx open : vgroup vals open -> (p = true -> fgroup vals) -> nstep p (IGroup vals mn mx) open.
Inductive nrun : bool -> list item -> bool -> Prop :=
| nr_nil p : nrun p [] p
| nr_cons p it p1 l p2 : nstep p it p1 -> nrun p1 l p2 -> nrun p (it :: l) p2.
Lemma nrun_app p l1 l2 p2 : nrun p (l1 ++ l2) p2 <-> exists p1, nrun p l1 p1 /\ nrun p1 l2 p2.
Proof.
  revert p. induction l1 as [|it l1 IH]; intro p; cbn [app].
  - split; [intro H; exists p; split; [constructor|exact H]|]. intros (p1 & R1 & R2). inversion R1; subst. exact R2.
  - split.
    + intro H. inversion H; subst. apply IH in H5 as (q & R1 & R2). exists q. split; [econstructor; eauto|exact R2].
    + intros (q & R1 & R2). inversion R1; subst. econstructor; [eauto|]. apply IH. eauto.
Qed.
Lemma nrun_one p it p2 : nrun p [it] p2 <-> nstep p it p2.
Proof. split; [intro H; inversion H as [|? ? ? ? ? S R]; subst; inversion R; subst; exact S|intro S; econstructor; [exact S|constructor]]. Qed.
Lemma vrun_calmly R p l e : vrun p l e -> (e = true -> calmly true R) -> calmly false R -> calmly p (l ++ R).
Proof.
  intros V H1 H2. induction V as [st|st it l e L V IH|n l e V IH|k l e V IH]; cbn [app].
  - destruct st; auto.
  - apply ca_lit; auto.
  - apply ca_any. auto.
  - apply ca_star. auto.
Qed.
Lemma vrun_fixed i its e : literal_item i -> vrun false (i :: its) e -> vrun true (i :: its) e.
Proof. intros L V. inversion V; subst; try easy. now apply v_lit. Qed.
(** An optional group comes after no star. *)
Lemma nrun_calmly l : Forall sfits l -> forall p p', nrun p l p' -> calmly p l /\ calmly false l.
Proof.
  intro W. induction W as [|it l Wi W IH]; intros p p' R; [split; constructor|]. inversion R as [|? ? p1 ? ? S R2]; subst. destruct (IH _ _ R2) as [I1 I2].
  inversion S as [? ? L|n|k|? x Hm|? vals mn mx open G Fg]; subst.
  - split; apply ca_lit; auto.
  - split; apply ca_any; auto.
  - split; apply ca_star; auto.
  - split; apply ca_list; auto. intro Z. destruct p; [now elim (Hm eq_refl)|auto].
  - assert (X : forall q, (q = true -> fgroup vals) -> calmly q (IGroup vals mn mx :: l)).
    { intros q Fq. apply ca_group.
      - intros v J. destruct (G v J) as (e & V & Ho). apply (vrun_calmly l q (val_items v) e); auto; [|intro He; rewrite (Ho He) in I1; exact I1].
        destruct q; [|exact V]. destruct (Fq eq_refl v J) as (i & its & Ei & Li & _). rewrite Ei in *. now apply vrun_fixed.
      - intro Z. destruct q; [|auto]. exfalso. now apply (Wi (Fq eq_refl)). }
    split; apply X; auto. discriminate.
Qed.
Definition top_star (rl : list item) : Prop := exists k r, rl = IStar k :: r.
Lemma nrun_append rl p it p' : nrun false (rev rl) p ->
  match it with
  | IAny _ => (p = false \/ top_star rl) /\ p' = p
  | IStar _ => (p = false \/ top_star rl) /\ p' = true
  | _ => nstep p it p'
  end -> nrun false (rev (append_item_rev rl it)) p' /\ (match it with IAny _ => p' = true | IStar _ => True | _ => False end -> top_star (append_item_rev rl it)).
Proof.
  intros R S. destruct rl as [|x r].
  - inversion R; subst. cbn. rewrite nrun_one. destruct it; try (split; [exact S|easy]).
    + destruct S as [_ ->]. split; [apply n_any|discriminate].
    + destruct S as [_ ->]. split; [apply n_star|intros _; do 2 eexists; reflexivity].
  - cbn [append_item_rev]. cbn [rev] in R. apply nrun_app in R as (p1 & R1 & R2). apply (proj1 (nrun_one _ _ _)) in R2.
    rewrite merge_last_lit.
    assert (Ap : nstep p it p' -> nrun false (rev (it :: x :: r)) p').
    { intro S1. cbn [rev]. apply nrun_app. exists p. split; [|now apply nrun_one]. apply nrun_app. exists p1. split; auto. now apply nrun_one. }
    assert (Mg : forall m, nstep p1 m p' -> nrun false (rev (m :: r)) p').
    { intros m S1. cbn [rev]. apply nrun_app. exists p1. split; auto. now apply nrun_one. }
    assert (Ts : forall k l, top_star (IStar k :: l)) by (intros; do 2 eexists; reflexivity).
    destruct (lit_text x) as [a|] eqn:Ea; [destruct (lit_text it) as [b|] eqn:Eb|].
    + assert (Li : literal_item it) by (destruct it; easy). split; [|destruct it; easy]. apply Mg.
      assert (p' = false) as ->. { destruct it; try easy; now inversion S. } constructor. exact I.
    + assert (Lx : literal_item x) by (destruct x; easy). assert (p = false) as -> by (inversion R2; subst; easy).
      destruct it; try discriminate; try (split; [now apply Ap|easy]).
      * destruct S as [_ ->]. destruct x; try easy; (split; [apply Ap, n_any|discriminate]).
      * destruct S as [_ ->]. destruct x; try easy; (split; [apply Ap, n_star|auto]).
    + destruct it as [| | |n|n| | | |]; try (split; [now apply Ap|easy]).
      * destruct S as [N ->]. destruct x as [| | |m|m| | | |]; try discriminate; inversion R2; subst; try easy;
          try (destruct N as [N|(k0 & r0 & N)]; [subst|discriminate N]);
          first [split; [apply Ap, n_any|discriminate]; fail|split; [apply Mg, n_any|discriminate]; fail|split; [apply Mg, n_star|auto]].
      * destruct S as [N ->]. destruct x as [| | |m|m| | | |]; try discriminate; inversion R2; subst; try easy;
          try (destruct N as [N|(k0 & r0 & N)]; [subst|discriminate N]);
          first [split; [apply Ap, n_star|auto]; fail|split; [apply Mg, n_star|auto]].
Qed.
Definition wild_end (d : str) : Prop := In "*"%char d /\ exists p c, d = p ++ [c] /\ In c (B "*?]").
Definition goes_fixed (b : str) : Prop := b = [] \/ starts_fixed b \/ fixed_list b.
Lemma loop_nrun g suffix : apart g -> forall f t done prefix mn mx rl p prefix' mn' mx' rl', g = done ++ t ++ suffix ->
  nrun false (rev rl) p -> (p = true -> (top_star rl /\ wild_end done) \/ goes_fixed (t ++ suffix)) ->
  parse_loop f t (prefix, mn, mx, rl) = Ok (prefix', mn', mx', rl') -> exists p', nrun false (rev rl') p'.
Proof.
  intro Rg. induction f as [|f IH]; intros t done prefix mn mx rl p prefix' mn' mx' rl' Eg R Hp H.
  { destruct t; [|discriminate]. injection H as <- <- <- <-. eauto. }
  destruct t as [|c t]; [injection H as <- <- <- <-; eauto|].
  cbn [parse_loop] in H. remember (c :: t) as s eqn:Es.
  destruct (next_wildcard_item s) as [[oi rest]|e| |] eqn:E; try discriminate. unfold next_wildcard_item in E.
  apply next_token in E as (a & T). destruct (token_text _ _ _ _ _ T) as [Ea Na].
  assert (G : exists p1, match oi with Some it => nrun false (rev (append_item_rev rl it)) p1 /\ (p1 = true -> (top_star (append_item_rev rl it) /\ wild_end (done ++ a)) \/ goes_fixed (rest ++ suffix)) /\ (literal_item it -> p1 = false)
    | None => p1 = p /\ (p = true -> top_star rl /\ wild_end (done ++ a)) end).
  { assert (Hl : p = true -> (top_star rl /\ wild_end done) \/ (exists it, oi = Some it /\ literal_item it) \/ fixed_list (s ++ suffix)).
    { intro Ep. destruct (Hp Ep) as [X|[X|[X|X]]]; [auto|rewrite Es in X; discriminate| |auto]. right. left. exact (token_fixed_app _ _ _ _ _ _ T X). }
    rewrite Ea in Eg, Hl. clear Es Hp H Ea. destruct T as [body rest oi N H|body rest oi N H|n rest N|rest|a c' rest Na' N Mc|a Na' N].
    - apply class_kind in H. destruct oi as [it|].
      + exists false. split; [|split; [discriminate|auto]]. apply (proj1 (nrun_append rl p it false R ltac:(destruct it; try easy; now apply n_lit))).
      + exists p. split; auto. intro Ep. destruct (Hl Ep) as [[X1 (X2 & _)]|[(it & X & _)|(b0 & r0 & X & _)]]; [|discriminate|exfalso; rewrite <- app_assoc, bracketed_app, braced_app in X; discriminate X].
        split; auto. split; [apply in_or_app; now left|]. exists (done ++ "["%char :: body), "]"%char. split; [|cbn; tauto]. rewrite <- app_assoc. reflexivity.
    - destruct (Rg done body (rest ++ suffix)) as [R1 R2]; auto. { rewrite Eg, <- app_assoc. reflexivity. }
      assert (Fx0 : (exists it, oi = Some it /\ literal_item it) \/ (p = true -> forall v, alternative body v -> starts_fixed v)).
      { destruct p; [|right; discriminate]. destruct (Hl eq_refl) as [[_ (X1 & X2)]|[X|(b0 & r0 & X & Nb0 & Fv)]]; [right; intros _; now apply R1|auto|right; intros _].
        rewrite <- app_assoc, !braced_app in X. injection X as X. apply cut_unique in X as [-> _]; auto. }
      destruct Fx0 as [(it & -> & L)|Fx0].
      { exists false. split; [|split; [discriminate|auto]]. apply (proj1 (nrun_append rl p it false R ltac:(destruct it; try easy; now apply n_lit))). }
      assert (Fx : p = true -> forall v, In v (split_on "," body) -> starts_fixed v) by (intros Ep v I; apply (Fx0 Ep); now apply alternative_split).
      assert (Nmt : forall v, In v (split_on "," body) -> ~ starts_fixed v -> p = false).
      { intros v I X. destruct p; auto. exfalso. apply X, Fx; auto. }
      destruct H as [[-> ->]|[Nb H]].
      { assert (p = false) as -> by (apply (Nmt []); [now left|apply not_starts]). exists false. split; [auto|discriminate]. }
      assert (Sub : forall v, In v (norm (split_on "," body)) -> forall x, In x v -> In x body).
      { intros v I x J. apply (proj1 (norm_in _ _)) in I. destruct (split_part "," body v I) as (q1 & q & -> & _). apply in_or_app. right. apply in_or_app. now left. }
      apply list_kind_v in H.
      + destruct oi as [it|].
        2:{ apply (proj1 (norm_in _ _)) in H. assert (p = false) as -> by (apply (Nmt []); [exact H|apply not_starts]). exists false. split; [auto|discriminate]. }
        assert (Lit : literal_item it -> exists p1, nrun false (rev (append_item_rev rl it)) p1 /\ (p1 = true -> (top_star (append_item_rev rl it) /\ wild_end (done ++ braced body)) \/ goes_fixed (rest ++ suffix)) /\ (literal_item it -> p1 = false)).
        { intro L. exists false. split; [|split; [discriminate|auto]]. apply (proj1 (nrun_append rl p it false R ltac:(destruct it; try easy; now apply n_lit))). }
        destruct it; try (now apply Lit); clear Lit.
        * exists true. assert (Is : In (B "*") (split_on "," body)) by now apply (proj1 (norm_in _ _)) in H. assert (p = false) as -> by (apply (Nmt (B "*")); [exact Is|apply not_starts]).
          split; [|split; [|intros []]]; [apply (proj1 (nrun_append rl false (IStar n) true R (conj (or_introl eq_refl) eq_refl)))|]. intros _. right. apply R2. exists (B "*"). split; [now apply alternative_split|].
          intros [K|(q1 & c0 & K & M)]; [apply K; now left|]. destruct q1 as [|? q1]; [injection K as <-; apply M; cbn; tauto|]. destruct q1; discriminate K.
        * exists false. split; [|split; [discriminate|intros []]]. refine (proj1 (nrun_append rl p (IList l) false R _)). apply n_list. intro Ep. apply H. apply Forall_forall. intros v I ->. apply (proj1 not_starts). apply (Fx Ep). now apply (proj1 (norm_in _ _)) in I.
        * destruct (vgroup_of body vals H) as (open & Vg & Op). exists open. split; [|split; [|intros []]].
          -- refine (proj1 (nrun_append rl p (IGroup vals minsize maxsize) open R _)). apply n_group; auto. intro Ep. apply (fgroup_of body); auto.
          -- intros ->. right. apply R2. now apply Op.
      + apply Forall_forall. intros v I J. apply N. eapply Sub; eauto.
      + intro Z0. pose proof (split_on_nonempty "," body) as NE'. destruct (split_on "," body) as [|y l] eqn:Es; [easy|].
        assert (X : In y (norm (y :: l))) by (apply norm_in; now left). rewrite Z0 in X. destruct X.
    - assert (Nm : p = false \/ top_star rl).
      { destruct p; auto. right. destruct (Hl eq_refl) as [[X _]|[(it & X & L)|(b0 & r0 & X & _)]]; [exact X|injection X as <-; destruct L|discriminate X]. }
      destruct (nrun_append rl p (IStar 0) true R (conj Nm eq_refl)) as [G1 G2]. exists true. split; auto. split; [|intros []]. intros _. left. split; auto.
      split; [apply in_or_app; right; now left|]. exists (done ++ repeat "*"%char n), "*"%char. split; [|cbn; tauto]. change (repeat "*"%char (S n)) with ("*"%char :: repeat "*"%char n). rewrite repeat_cons. now rewrite app_assoc.
    - assert (Nm : p = false \/ top_star rl).
      { destruct p; auto. right. destruct (Hl eq_refl) as [[X _]|[(it & X & L)|(b0 & r0 & X & _)]]; [exact X|injection X as <-; destruct L|discriminate X]. }
      destruct (nrun_append rl p (IAny 1) p R (conj Nm eq_refl)) as [G1 G2]. exists p. split; auto. split; [|intros []]. intros Ep. left. split; auto.
      destruct (Hl Ep) as [[_ (X1 & _)]|[(it & X & L)|(b0 & r0 & X & _)]]; [|injection X as <-; destruct L|discriminate X].
      split; [apply in_or_app; now left|]. exists done, "?"%char. split; auto. cbn. tauto.
    - exists false. split; [|split; [discriminate|auto]]. pose proof (single_kind a) as K. apply (proj1 (nrun_append rl p (single_item a) false R ltac:(destruct (single_item a); try easy; now apply n_lit))).
    - exists false. split; [|split; [discriminate|auto]]. apply (proj1 (nrun_append rl p (IStr a) false R ltac:(now apply n_lit))). }
  destruct G as (p1 & G). assert (Eg' : g = (done ++ a) ++ rest ++ suffix) by (rewrite Eg, Ea, <- !app_assoc; reflexivity).
  destruct oi as [it|].
  - destruct G as (G1 & G2 & G3). destruct (parse_step (prefix, mn, mx, rl) it) as [[[q1 n1] x1] r1] eqn:S1.
    assert (Er : r1 = append_item_rev rl it \/ (rl = [] /\ r1 = [] /\ literal_item it)).
    { unfold parse_step in S1. destruct rl; [|injection S1 as _ _ _ <-; now left]. destruct it; injection S1 as _ _ _ <-; auto; right; repeat split. }
    destruct Er as [->|(-> & -> & L)]; [exact (IH _ _ _ _ _ _ _ _ _ _ _ Eg' G1 G2 H)|].
    refine (IH _ _ _ _ _ _ false _ _ _ _ Eg' _ _ H); [constructor|discriminate].
  - destruct G as [-> G]. eapply IH; [exact Eg'|exact R| |exact H]. intro Ep. left. now apply G.
Qed.
Lemma parse_nrun g gl : apart g -> glob_parse g = Ok gl -> exists p, nrun false (g_items gl) p.
Proof.
  intros Rg H. unfold glob_parse in H. destruct (index_wildcard g) as [pos|]; [|injection H as <-; exists false; constructor].
  destruct (index_last_wildcard (skipn pos g)) as [e|]; [|discriminate].
  destruct (Nat.eqb e 0 && negb (Ascii.eqb (nth 0 (skipn pos g) zero) "?") && negb (Ascii.eqb (nth 0 (skipn pos g) zero) "*")); [discriminate|].
  destruct (if (e <? length (skipn pos g) - 1)%nat then (skipn (S e) (skipn pos g), firstn (S e) (skipn pos g)) else ([], skipn pos g)) as [suffix body] eqn:F.
  assert (Eg : g = firstn pos g ++ body ++ suffix).
  { destruct (e <? length (skipn pos g) - 1)%nat; pose proof (f_equal fst F) as F1; pose proof (f_equal snd F) as F2; cbn [fst snd] in F1, F2; rewrite <- F1, <- F2.
    - rewrite (firstn_skipn (S e) (skipn pos g)). now rewrite firstn_skipn.
    - now rewrite app_nil_r, firstn_skipn. }
  assert (FI : forall t p s mn mx its, g_items (finish_glob t p s mn mx its) = its) by (intros; destruct its; reflexivity).
  destruct (str_eqb body (B "*")); [apply ok_inj in H; rewrite <- H, FI; exists true; apply nrun_one; apply n_star; auto|].
  destruct (str_eqb body (B "?")); [apply ok_inj in H; rewrite <- H, FI; exists false; apply nrun_one; apply n_any|].
  destruct (parse_loop (length body) body (firstn pos g, (zlen (firstn pos g) + zlen suffix)%Z, (zlen (firstn pos g) + zlen suffix)%Z, [])) as [[[[p1 n1] x1] r1]|e1| |] eqn:El; try discriminate.
  cbn [bind] in H. destruct (take_suffix suffix r1) as [s2 r2] eqn:Et. apply ok_inj in H. rewrite <- H, FI.
  apply (loop_nrun g suffix Rg _ _ _ _ _ _ _ false _ _ _ _ Eg) in El; [|constructor|discriminate]. destruct El as (p & R).
  assert (X : r2 = r1 \/ exists x, r1 = x :: r2).
  { unfold take_suffix in Et. destruct r1 as [|x [|y r]]; [injection Et as _ <-; auto|destruct x; injection Et as _ <-; auto|].
    destruct x; injection Et as _ <-; eauto. }
  destruct X as [->|(x & ->)]; [eauto|]. cbn [rev] in R. apply nrun_app in R as (q & R1 & _). eauto.
Qed.
Lemma parse_apart g gl : apart g -> glob_parse g = Ok gl -> ~ star_any (g_items gl) /\ steady false (g_items gl).
Proof.
  intros A H. destruct (parse_nrun g gl A H) as (p & R). apply nrun_calmly in R; [|eapply Forall_impl; [exact made_sfits|]; now apply (parse_made g)].
  split; [now apply calmly_quiet|now apply calmly_steady].
Qed.
Lemma apart_no_star g : ~ In "*"%char g -> apart g.
Proof.
  intros N a body b -> Nb. split.
  - intro I. elim N. apply in_or_app. now left.
  - intros (v & (p & q & -> & _) & C). elim C. left. intro I. apply N. apply in_or_app. right. unfold braced. right. apply in_or_app. left. apply in_or_app. left. apply in_or_app. right. apply in_or_app. now left.
Qed.
Lemma apart_regular g : regular_stars g -> apart g.
Proof.
  intros R a body b -> Nb. destruct (R a body b eq_refl Nb) as [R1 R2]. split; [intros I _; now apply R1|].
  intros (v & A & C). destruct R2 as [->|[Sf|(body' & b' & ->)]]; [eauto|auto|auto|]. right. right.
  assert (X : exists body1 b1, braced body' ++ b' = braced body1 ++ b1 /\ ~ In "}"%char body1).
  { rewrite braced_app. destruct (index_byte (body' ++ "}"%char :: b') "}") as [i|] eqn:Ei.
    - apply index_byte_cut in Ei as (a1 & b1 & E & _ & N). exists a1, b1. rewrite braced_app, E. auto.
    - exfalso. apply index_byte_no in Ei. apply Ei. apply in_or_app. right. now left. }
  destruct X as (body1 & b1 & E & N1). exists body1, b1. split; auto. split; auto.
  destruct (R (a ++ braced body) body1 b1) as [R3 _]; auto; [now rewrite E, <- app_assoc|]. apply R3.
  apply in_or_app. right. unfold braced. right. apply in_or_app. left. destruct (in_dec ascii_dec "*"%char v) as [J|J]; [|elim C; now left].
  destruct A as (p & q & -> & _). apply in_or_app. right. apply in_or_app. now left.
Qed.

(** ** Checking the condition on a concrete text *)
Definition wild_end_b (a : str) : bool := existsb (Ascii.eqb "*") a && existsb (Ascii.eqb (last a zero)) (B "*?]").
Definition fixed_list_b (b : str) : bool :=
  match b with
  | x :: t => Ascii.eqb x "{" && match index_byte t "}" with Some i => forallb starts_fixed_b (split_on "," (firstn i t)) | None => false end
  | [] => false
  end.
Definition apart_b (g : str) : bool := forallb (fun '(a, body, b) =>
  (negb (wild_end_b a) || forallb starts_fixed_b (split_on "," body)) &&
  (forallb closed_b (split_on "," body) || null b || starts_fixed_b b || fixed_list_b b)) (bodies "{" "}" [] g).
Lemma apart_ok g : apart_b g = true -> apart g.
Proof.
  unfold apart_b. rewrite forallb_forall. intros H a body b E N. specialize (H _ (braced_body _ _ _ _ E N)). cbn beta iota in H. apply andb_prop in H as [H1 H2]. split.
  - intros I (p & c & Ea & Ic) v A. apply alternative_split in A. assert (W : wild_end_b a = true).
    { unfold wild_end_b. apply in_b in I. rewrite I. cbn [andb]. rewrite Ea, last_last. now apply in_b. }
    rewrite W in H1. cbn in H1. rewrite forallb_forall in H1. apply starts_fixed_ok. now apply H1.
  - intros (v & A & C). apply orb_prop in H2 as [H2|H2]; [apply orb_prop in H2 as [H2|H2]; [apply orb_prop in H2 as [H2|H2]|]|].
    + exfalso. apply C, closed_ok. apply alternative_split in A. rewrite forallb_forall in H2. now apply H2.
    + left. now destruct b.
    + right. left. now apply starts_fixed_ok.
    + right. right. destruct b as [|x t]; [discriminate|]. apply andb_prop in H2 as [H2 H3]. apply Ascii.eqb_eq in H2. subst x. destruct (index_byte t "}") as [i|] eqn:Ei; [|discriminate].
      apply index_byte_cut in Ei as (a1 & b1 & -> & <- & N1). rewrite firstn_app, firstn_all, Nat.sub_diag in H3. cbn [firstn] in H3. rewrite app_nil_r in H3.
      exists a1, b1. rewrite braced_app. split; auto. split; auto. intros w Aw. apply alternative_split in Aw. rewrite forallb_forall in H3. apply starts_fixed_ok. now apply H3.
Qed.

(** ** Globs that do not panic *)
Lemma calm_glob_quiet g gl : calm_glob g -> glob_parse g = Ok gl -> ~ star_trap (g_items gl).
Proof. intros [C NA] H [S|S]; [|exact (text_stray g gl C H S)]. destruct NA as [N|A]; [apply (text_star_any g gl) in S; auto|now apply (parse_apart g gl A H)]. Qed.
Lemma calm_glob_steady g gl : calm_glob g -> glob_parse g = Ok gl -> steady false (g_items gl).
Proof. intros [_ [N|A]] H; [apply (calm_or_more g); auto|now apply (parse_apart g)]. Qed.
Lemma quiet_answers g gl s : glob_parse g = Ok gl -> ~ star_trap (g_items gl) -> exists b, glob_match gl s = Ok b.
Proof. intros H N. apply glob_answers. now apply (items_np g). Qed.
Lemma calm_answers g gl s : calm_glob g -> glob_parse g = Ok gl -> exists b, glob_match gl s = Ok b.
Proof. intros C H. apply (quiet_answers g); auto. now apply (calm_glob_quiet g). Qed.
Definition calm_glob_b (g : str) : bool := (clean_b g || negb (existsb (Ascii.eqb "*") g)) && (negb (existsb (Ascii.eqb "?") g) || apart_b g).
Lemma calm_glob_ok g : calm_glob_b g = true -> calm_glob g.
Proof.
  unfold calm_glob_b. intro H. apply andb_prop in H as [H1 H2]. split.
  - apply orb_prop in H1 as [H|H]; [left; now apply clean_b_ok|right]. apply not_in_b. now destruct (existsb (Ascii.eqb "*") g).
  - apply orb_prop in H2 as [H|H]; [left|right; now apply apart_ok]. apply not_in_b. now destruct (existsb (Ascii.eqb "?") g).
Qed.
