(** Which trees of globs are such that matching ends: the parser and the calls of Add. *)
From Verif Require Import Model.Tree Spec.Symbols Spec.GlobSpec Spec.Safe Spec.RegistrySpec Spec.GlobTreeSpec Spec.EndSpec.
From Verif Require Import Proof.SortP Proof.ListP Proof.DenotesP Proof.ParseP Proof.NextP Proof.SafeP Proof.PanicP Proof.SizedP Proof.RegistryP Proof.TotalP Proof.TreeInsP Proof.GlobTreeP Proof.TreeMonoP Proof.TreeEndP.
From Coq Require Import Lia ZifyBool ZifyN ZifyNat.

(** ** Every item of a tree is an item of an accepted glob *)
Definition rooted (P : item -> Prop) (t : tree) : Prop := forall c, In c (t_childs t) -> every P c.
Lemma every_rooted P t : every P t -> rooted P t.
Proof. intros [it r tm cs _ H]. exact H. Qed.
Lemma every_insert (P : item -> Prop) y : forall path t, every P t -> Forall (fun e : elem => P (fst e)) path -> every P (tree_insert path y t).
Proof.
  induction path as [|[node rv] rest IH]; intros t H F.
  - rewrite insert_nil. inversion H; subst. now constructor.
  - rewrite insert_cons. inversion H as [it r tm cs H1 H2]; inversion F as [|? ? F1 F2]; subst. constructor; [exact H1|]. cbn [t_childs].
    intros d I. apply ins_in in I as [I|[(c & I & _ & ->)| ->]]; [auto| |]; apply IH; auto. constructor; [exact F1|easy].
Qed.
Lemma rooted_insert (P : item -> Prop) y path t : rooted P t -> Forall (fun e : elem => P (fst e)) path -> rooted P (tree_insert path y t).
Proof.
  intros H F. destruct path as [|[node rv] rest]; [rewrite insert_nil; exact H|]. rewrite insert_cons. inversion F as [|? ? F1 F2]; subst.
  intros d I. cbn [t_childs] in I. apply ins_in in I as [I|[(c & I & _ & ->)| ->]]; [auto| |]; apply every_insert; auto. constructor; [exact F1|easy].
Qed.
Definition globs_all (P : item -> Prop) (E : list entry) : Prop := forall e g, In e E -> glob_parse (e_text e) = Ok g -> Forall P (g_items g).
Lemma path_all (P : item -> Prop) g : (forall x, P (IStr x)) -> Forall P (g_items g) -> Forall (fun e : elem => P (fst e)) (glob_path g).
Proof.
  intros S F. unfold glob_path. apply Forall_app. split; [destruct (null (g_suffix g)); repeat constructor; apply S|].
  apply Forall_app. split; [destruct (null (g_prefix g)); repeat constructor; apply S|]. apply Forall_map. exact F.
Qed.
Definition every_inv (E : list entry) (gt : glob_tree) : Prop :=
  tree_inv E gt /\ forall P : item -> Prop, (forall x, P (IStr x)) -> globs_all P E -> rooted P (gt_root gt).
Lemma every_step E gt text i : every_inv E gt -> exists gt' r new, gt_add gt text i = Ok (gt', r) /\ registers gl_canon E text i new r /\
  every_inv (match new with Some e => E ++ [e] | None => E end) gt' /\ (new = None -> gt' = gt).
Proof.
  intros [T V]. destruct (gt_step E gt text i T) as (gt' & r & new & A & R & T' & N). exists gt', r, new. split; [exact A|]. split; [exact R|]. split; [|exact N].
  split; [exact T'|]. intros P S G. destruct new as [e|]; [|rewrite N by reflexivity; now apply V].
  inversion R as [| | | | | |q N1 N2 N3 N4 N5 N6]; subst. unfold gl_canon in N5. unfold gt_add in A.
  replace (null text) with false in A by now destruct text. destruct (Z.ltb_spec i 0); [lia|]. destruct (lookup str_eqb text (gt_globs gt)); [congruence|]. destruct (lookup Z.eqb i (gt_index gt)); [congruence|].
  destruct (glob_parse text) as [g|e| |] eqn:Pg; try congruence. destruct (lookup str_eqb (g_node g) (gt_globs gt)); [congruence|].
  assert (gt' = gt_accept gt g (g_node g) i) as -> by congruence. unfold gt_accept, add_glob. cbn [gt_root]. apply rooted_insert.
  - apply V; auto. intros e g' I. apply G. apply in_or_app. now left.
  - apply path_all; auto. apply (G (mkEntry text q i)); [apply in_or_app; right; now left|exact Pg].
Qed.
Lemma history_every calls gt rs E : run_adds gt_add gt_new calls = Ok (gt, rs) -> history gl_canon calls rs E -> every_inv E gt.
Proof.
  intros R H. assert (I0 : every_inv [] gt_new) by (split; [apply tree_new_inv|]; intros P _ _ c []).
  destruct (run_history gt_add gl_canon every_inv every_step gt_new I0 calls) as (gt0 & rs0 & E0 & R0 & H0 & V).
  rewrite R in R0. injection R0 as <- <-. destruct (history_fun _ _ _ _ H _ _ H0) as [_ ->]. exact V.
Qed.

(** ** The values of lists *)
Definition only_wild (v : str) : Prop := forall c, In c v -> c = "*"%char \/ c = "?"%char.
Definition tail_ok (v : str) : Prop := forall x y, v = x ++ "*"%char :: y -> only_wild y.
Definition basic (it : item) : Prop := match it with IStar _ | IList _ | IGroup _ _ _ | IChain _ _ _ => False | _ => True end.
Definition star_state (v : str) (rl : list item) : Prop :=
  Forall basic rl \/ exists k r, rl = IStar k :: r /\ Forall basic r /\ only_wild v.
Lemma tail_ok_app a b : tail_ok (a ++ b) -> tail_ok b.
Proof. intros H x y E. apply (H (a ++ x) y). now rewrite E, app_assoc. Qed.
Lemma basic_merge x y m : basic x -> basic y -> merge_last x y = Some m -> basic m.
Proof. intros Hx Hy E. destruct y, x; try discriminate; cbn in E; injection E as <-; easy. Qed.
Lemma basic_append rl it : Forall basic rl -> basic it -> Forall basic (append_item_rev rl it).
Proof. apply append_forall. exact basic_merge. Qed.
Lemma star_append rl : Forall basic rl -> exists k r, append_item_rev rl (IStar 0) = IStar k :: r /\ Forall basic r.
Proof.
  intro F. destruct rl as [|x r]; [exists 0, []; auto|]. inversion F; subst. destruct x; cbn; try easy; try (eexists 0, _; split; [reflexivity|now constructor]). eexists _, _. split; [reflexivity|auto].
Qed.
Lemma wild_append k r it : it = IStar 0 \/ it = IAny 1 -> exists k', append_item_rev (IStar k :: r) it = IStar k' :: r.
Proof. intros [->| ->]; cbn; eauto. Qed.
Lemma meta_wild c : In c metas -> c = "["%char \/ c = "]"%char \/ c = "{"%char \/ c = "}"%char \/ c = "*"%char \/ c = "?"%char.
Proof. intros [H|[H|[H|[H|[H|[H|[]]]]]]]; auto 10. Qed.
Lemma wild_meta c : c = "*"%char \/ c = "?"%char -> In c metas.
Proof. intros [->| ->]; cbn; auto 10. Qed.
Lemma class_basic body it : class_item body = Ok (Some it) -> basic it.
Proof. intro H. apply class_kind in H. destruct it; easy. Qed.
Lemma single_basic v : basic (single_item v).
Proof. pose proof (single_kind v) as H. destruct (single_item v); easy. Qed.
Lemma state_step f s oi a rest rl : token f s oi a rest -> ~ In "}"%char s -> tail_ok s -> star_state s rl ->
  star_state rest (match oi with Some it => append_item_rev rl it | None => rl end).
Proof.
  intros T NB TO St. destruct T as [body r o N H|body r o N H|n r N|r|b c r Na N Mc|b Na N].
  - destruct St as [F|(k & r0 & _ & _ & W)]; [|exfalso; destruct (W "["%char) as [X|X]; [now left|discriminate|discriminate]].
    left. destruct o as [it|]; auto. apply basic_append; auto. eapply class_basic; eauto.
  - exfalso. apply NB. rewrite braced_app. right. apply in_or_app. right. now left.
  - right. assert (W : only_wild r).
    { apply (TO (repeat "*"%char n) r). change (repeat "*"%char (S n)) with ("*"%char :: repeat "*"%char n). rewrite repeat_cons, <- app_assoc. reflexivity. }
    destruct St as [F|(k & r0 & -> & F & _)].
    + destruct (star_append rl F) as (k & r0 & -> & F0). eauto 10.
    + destruct (wild_append k r0 (IStar 0)) as (k' & ->); auto. exists k', r0. auto.
  - destruct St as [F|(k & r0 & -> & F & W)].
    + left. apply basic_append; auto. exact I.
    + right. destruct (wild_append k r0 (IAny 1)) as (k' & ->); auto. exists k', r0. split; auto. split; auto. intros c I. apply W. now right.
  - destruct St as [F|(k & r0 & _ & _ & W)]; [left; apply basic_append; auto; apply single_basic|]. exfalso. destruct b as [|d b]; [easy|]. apply (N d); [now left|]. apply wild_meta, W. now left.
  - destruct St as [F|(k & r0 & _ & _ & W)]; [left; apply basic_append; auto; exact I|]. exfalso. destruct b as [|d b]; [easy|]. apply (N d); [now left|]. apply wild_meta, W. now left.
Qed.
Lemma chain_state f0 : forall fuel v st rl mn mx, ~ In "}"%char v -> tail_ok v -> star_state v (fst (fst st)) ->
  group_chain fuel (next_item f0) v st = Ok (rl, mn, mx) -> star_state [] rl.
Proof.
  induction fuel as [|f IH]; intros v [[rl0 mn0] mx0] rl mn mx NB NS F H; cbn [group_chain] in H.
  - destruct v; [|discriminate]. now injection H as <- <- <-.
  - destruct v as [|c v]; [now injection H as <- <- <-|].
    destruct (next_item f0 (c :: v)) as [[oi rest]|e| |] eqn:E; try discriminate.
    destruct f0 as [|f0]; [discriminate|]. apply next_token in E as (a & T). pose proof (state_step _ _ _ _ _ rl0 T NB NS F) as S1.
    destruct (token_text _ _ _ _ _ T) as [Ea _]. rewrite Ea in NB, NS.
    assert (NB' : ~ In "}"%char rest) by (intro I; apply NB; apply in_or_app; now right). apply tail_ok_app in NS.
    destruct oi as [it|]; apply IH in H; auto.
Qed.
Lemma basic_bounded l : Forall basic l -> bounded_items l.
Proof. induction 1 as [|it l H F IH]; constructor; auto; [constructor 2; intros vals mn mx ->; easy|intros ->; easy]. Qed.
Lemma basic_app l m : Forall basic l -> bounded_items m -> bounded_items (l ++ m).
Proof. induction 1 as [|it l H F IH]; intro M; auto. cbn [app]. constructor; auto; [constructor 2; intros vals mn mx ->; easy|intros ->; easy]. Qed.
Lemma state_bounded rl : star_state [] rl -> bounded_items (rev rl).
Proof.
  intros [F|(k & r & -> & F & _)]; [apply basic_bounded; now apply Forall_rev|]. cbn [rev]. apply basic_app; [now apply Forall_rev|]. constructor; [constructor 2; discriminate|auto|constructor].
Qed.
Lemma vals_bounded f0 : forall vals l, Forall (fun v => ~ In "}"%char v) vals -> Forall tail_ok vals ->
  group_vals (next_item f0) vals = Ok (inr l) -> forall v, In v l -> bounded_items (val_items v).
Proof.
  induction vals as [|v vals IH]; intros l NB NS H; cbn [group_vals] in H.
  - injection H as <-. intros v [].
  - inversion NB as [|? ? N1 N2]; inversion NS as [|? ? S1 S2]; subst. destruct (has_wildcard v) eqn:W.
    + destruct (str_eqb_spec v (B "*")) as [->|Ns]; [discriminate|].
      destruct (if str_eqb v (B "?") then Ok (IAny 1) else group_val (next_item f0) v) as [it|e| |] eqn:E; try discriminate. cbn [bind] in H.
      assert (V : bounded_items (val_items it)).
      { destruct (str_eqb_spec v (B "?")) as [->|Nq].
        - injection E as <-. apply basic_bounded. repeat constructor.
        - unfold group_val in E. destruct (group_chain (length v) (next_item f0) v ([], 0%Z, 0%Z)) as [[[rl mn] mx]|e| |] eqn:E2; try discriminate.
          cbn [bind] in E. apply chain_state in E2; auto; [|left; constructor]. apply state_bounded in E2 as B2. destruct rl as [|x [|y rl]]; injection E as <-; [exact B2| |exact B2].
          assert (val_items x = [x]) as ->; [|exact B2]. destruct x; auto. exfalso. destruct E2 as [E2|(k & r & E2 & _)]; [inversion E2; easy|discriminate]. }
      destruct (group_vals (next_item f0) vals) as [[r0|r0]|e| |] eqn:E2; try discriminate. cbn [bind] in H. injection H as <-.
      specialize (IH r0 N2 S2 eq_refl). intros x [<-|I]; auto.
    + destruct (group_vals (next_item f0) vals) as [[r0|r0]|e| |] eqn:E2; try discriminate. cbn [bind] in H. injection H as <-.
      specialize (IH r0 N2 S2 eq_refl). intros x [<-|I]; auto. apply basic_bounded. repeat constructor.
Qed.
Lemma parse_bounded g gl : stars_last g -> glob_parse g = Ok gl -> Forall bounded (g_items gl).
Proof.
  intros SL. apply parse_forall; try (intros; constructor 2; discriminate).
  - intros x y m _ _ E. constructor 2. intros l mn mx ->. destruct y, x; discriminate.
  - intros f t it a rest done suffix T E. inversion T; subst; try (constructor 2; discriminate).
    + constructor 2. intros l mn mx ->. match goal with H : class_item _ = _ |- _ => apply class_basic in H; easy end.
    + match goal with H : _ \/ _ |- _ => destruct H as [[_ ?]|[_ K]]; [discriminate|] end. destruct (list_shape _ _ _ K) as [(l & mn & mx & Hl & ->)|N]; [|now constructor 2].
      constructor. eapply vals_bounded; [| |exact Hl].
      * apply Forall_forall. intros v I J. apply (proj1 (norm_in _ _)) in I. destruct (split_part "," body v I) as (p & q & -> & _).
        match goal with X : ~ In "}"%char _ |- _ => apply X end. apply in_or_app. right. apply in_or_app. now left.
      * apply Forall_forall. intros v I x y Ev. apply (proj1 (norm_in _ _)) in I. apply alternative_split in I. red. intros c J. eapply (SL done body (rest ++ suffix)); eauto.
    + constructor 2. intros l mn mx X. pose proof (single_basic a) as Y. rewrite X in Y. easy.
Qed.

(** ** Matching ends *)
Lemma root_ends t s : (forall c, In c (t_childs t) -> ends c) -> rooted bounded t -> exists f0, forall f, f0 <= f -> tree_match f t s <> Fuel.
Proof.
  intros H V. unfold rooted in V. destruct (ends_all (t_childs t) H (length s)) as (f0 & K). 
  assert (G : exists f1, forall c f s', In c (t_childs t) -> f1 <= f -> length s' <= length s -> forall d, In d (t_childs c) -> nf (t_match f d s')).
  { clear K f0. induction (t_childs t) as [|c cs IH]; [exists 0; easy|]. destruct IH as (f1 & K1); [intros; apply H; now right|intros; apply V; now right|].
    destruct (ends_all (t_childs c)) with (n := length s) as (f2 & K2). { intros d I. apply bounded_ends. apply (every_rooted bounded c); [apply V; now left|exact I]. }
    exists (f1 + f2). intros c' f s' [<-|I] L S d J; [apply K2; auto; lia|eapply K1; eauto; lia]. }
  destruct G as (f1 & K1). exists (f0 + f1). intros f L. change (nf (tree_match f t s)). unfold tree_match. apply nf_all. intros c I.
  destruct (t_reverse c); [|apply K; auto; lia]. destruct (t_item c) as [it|]; [|apply nf_panic]. destruct (zlen s <? item_min it)%Z; [apply nf_ok|].
  apply nf_bind; [destruct it; cbn; try apply nf_ok; destruct (rev s); [apply nf_panic|apply nf_ok]|]. intros [off fl] _. destruct fl; try apply nf_ok. destruct off as [o|]; [|apply nf_ok].
  apply nf_seq; [apply nf_ok|]. apply nf_all. intros d J. eapply K1; eauto; [lia|]. rewrite firstn_length. lia.
Qed.
Lemma tree_ends calls gt rs E s : run_adds gt_add gt_new calls = Ok (gt, rs) -> history gl_canon calls rs E -> (forall e, In e E -> stars_last (e_text e)) ->
  exists f0 r, r <> Fuel /\ forall f, f0 <= f -> gt_match f gt s = r.
Proof.
  intros R H SL. destruct (history_every _ _ _ _ R H) as [_ V].
  assert (Bc : rooted bounded (gt_root gt)). { apply V; [intro x; constructor 2; discriminate|]. intros e g I P. eapply parse_bounded; eauto. }
  destruct (root_ends (gt_root gt) s) as (f0 & K); auto; [intros c I; now apply bounded_ends, Bc|].
  exists f0, (gt_match f0 gt s). split; [apply K; lia|]. intros f L. apply (tree_match_le f0 f (gt_root gt) s L). apply K. lia.
Qed.

(** ** Checking the condition on a concrete text *)
Fixpoint tail_check (v : str) : bool :=
  match v with
  | [] => true
  | c :: t => (if Ascii.eqb c "*" then forallb (fun d => Ascii.eqb d "*" || Ascii.eqb d "?") t else true) && tail_check t
  end.
Fixpoint last_check (g : str) : bool :=
  match g with
  | [] => true
  | c :: t => (if Ascii.eqb c "{" then match index_byte t "}" with Some i => forallb tail_check (split_on "," (firstn i t)) | None => true end else true) && last_check t
  end.
Lemma tail_check_ok v : tail_check v = true -> tail_ok v.
Proof.
  induction v as [|c t IH]; intros H x y E; [destruct x; discriminate|]. cbn [tail_check] in H. apply andb_true_iff in H as [H1 H2].
  destruct x as [|d x]; injection E as -> E; [|now apply (IH H2 x y)]. subst t. rewrite Ascii.eqb_refl in H1. intros d I. rewrite forallb_forall in H1. apply H1 in I. apply orb_true_iff in I as [I|I]; apply Ascii.eqb_eq in I; auto.
Qed.
Lemma last_check_ok g : last_check g = true -> stars_last g.
Proof.
  induction g as [|c t IH]; intros H a body b v x y E N A Ev d I; [destruct a; discriminate|]. cbn [last_check] in H. apply andb_true_iff in H as [H1 H2].
  destruct a as [|e a]; [|injection E as -> E; now apply (IH H2 a body b v x y)]. rewrite app_nil_l, braced_app in E. injection E as -> E. rewrite Ascii.eqb_refl in H1.
  rewrite (index_byte_some t "}" body b N E) in H1. rewrite E, firstn_app, firstn_all, Nat.sub_diag, app_nil_r in H1. rewrite forallb_forall in H1. apply alternative_split, H1, tail_check_ok in A. now apply (A x y Ev).
Qed.
