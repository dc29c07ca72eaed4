(** Computable checks of the conditions of Spec/GlobSpec.v; the examples beside the theorems use them. *)
From Verif Require Import Model.Glob Spec.Symbols Spec.Class Spec.GlobSpec Spec.StarSpec Spec.GGlobSpec.
From Verif Require Import Proof.Utf8P Proof.SymbolsP Proof.RangesP Proof.DenotesP Proof.NextP Proof.NodeP Proof.TagsP Proof.SortP.
From Coq Require Import Lia ZifyBool ZifyN ZifyNat.

Lemma in_b c s : existsb (Ascii.eqb c) s = true <-> In c s.
Proof.
  rewrite existsb_exists. split.
  - intros (d & I & E). apply Ascii.eqb_eq in E. now subst.
  - intro I. exists c. split; auto. apply Ascii.eqb_refl.
Qed.
Lemma not_in_b c s : existsb (Ascii.eqb c) s = false <-> ~ In c s.
Proof. rewrite <- in_b. now destruct (existsb (Ascii.eqb c) s). Qed.
Definition is_metab (c : ascii) : bool := existsb (Ascii.eqb c) metas.
Definition no_metab (s : str) : bool := forallb (fun c => negb (is_metab c)) s.
Lemma no_metab_ok s : no_metab s = true -> forall c, In c s -> ~ In c metas.
Proof. unfold no_metab. rewrite forallb_forall. intros H c I. apply not_in_b. specialize (H c I). unfold is_metab in H. now destruct (existsb (Ascii.eqb c) metas). Qed.

(** All bodies between an opening byte and the next closing byte, with what comes before and after. *)
Fixpoint bodies (o c : ascii) (a g : str) : list (str * str * str) :=
  match g with
  | [] => []
  | x :: g' => (if Ascii.eqb x o then let '(body, b, found) := cut c g' in if found then [(a, body, b)] else [] else []) ++ bodies o c (a ++ [x]) g'
  end.
Lemma bodies_in o c body b : ~ In c body -> forall a a0, In (a0 ++ a, body, b) (bodies o c a0 (a ++ o :: body ++ c :: b)).
Proof.
  intro N. induction a as [|x a IH]; intro a0; cbn [app bodies]; apply in_or_app.
  - left. rewrite Ascii.eqb_refl, cut_hit by auto. rewrite app_nil_r. now left.
  - right. specialize (IH (a0 ++ [x])). rewrite <- app_assoc in IH. exact IH.
Qed.
Lemma braced_body g a body b : g = a ++ braced body ++ b -> ~ In "}"%char body -> In (a, body, b) (bodies "{" "}" [] g).
Proof. intros -> N. unfold braced. rewrite <- app_comm_cons, <- app_assoc. now apply (bodies_in "{" "}" body b N a []). Qed.
Lemma bracketed_body g a body b : g = a ++ bracketed body ++ b -> ~ In "]"%char body -> In (a, body, b) (bodies "[" "]" [] g).
Proof. intros -> N. unfold bracketed. rewrite <- app_comm_cons, <- app_assoc. now apply (bodies_in "[" "]" body b N a []). Qed.

(** ** The checks *)
Definition clean_b (s : str) : bool := let rs := map snd (range s) in forallb (fun r => valid_rune r && negb (r =? RuneError)%N) rs && str_eqb s (encode_all rs).
Lemma clean_b_ok s : clean_b s = true -> clean s.
Proof.
  unfold clean_b. intro H. apply andb_prop in H as [H1 H2]. apply str_eqb_eq in H2. exists (map snd (range s)). split; [|exact H2].
  rewrite forallb_forall in H1. apply Forall_forall. intros r I. specialize (H1 r I). split; lia.
Qed.
Definition single_b (body : str) : bool := match split_on "," body with [] => true | v :: vs => forallb (str_eqb v) vs end.
Definition plain_singles_b (g : str) : bool := forallb (fun '(a, body, b) => negb (single_b body) || no_metab body) (bodies "{" "}" [] g).
Lemma plain_singles_ok g : plain_singles_b g = true -> plain_singles g.
Proof.
  unfold plain_singles_b. rewrite forallb_forall. intros H a body b E N U. specialize (H _ (braced_body _ _ _ _ E N)). cbn beta iota in H.
  destruct (single_b body) eqn:S; [now apply no_metab_ok|]. exfalso. clear H. unfold single_b in S. destruct (split_on "," body) as [|v vs] eqn:Es; [discriminate|].
  assert (X : forallb (str_eqb v) vs = true); [|congruence]. apply forallb_forall. intros v' I. apply str_eqb_eq. apply U; apply alternative_split; rewrite Es; [now left|now right].
Qed.
Definition plain_class_b (body : str) : bool :=
  clean_b body && match ranges_expand (bracketed body) with
  | None => false
  | Some rs => forallb (fun c => negb (rr_contains rs (code c)) || existsb (fun r => rr_contains rs r && negb (r =? code c)%N) (map snd (range body))) metas
  end.
Definition plain_classes_b (g : str) : bool := forallb (fun '(a, body, b) => plain_class_b body) (bodies "[" "]" [] g).
Lemma plain_classes_ok g : plain_classes_b g = true -> plain_classes g.
Proof.
  unfold plain_classes_b. rewrite forallb_forall. intros H a body b c E N M U. specialize (H _ (bracketed_body _ _ _ _ E N)). cbn beta iota in H.
  unfold plain_class_b in H. apply andb_prop in H as [C H]. apply clean_b_ok in C. destruct (ranges_expand (bracketed body)) as [rs|] eqn:R; [|discriminate].
  destruct (ranges_expand_ok _ _ C R) as (_ & _ & _ & D). rewrite forallb_forall in H. specialize (H c M). apply orb_prop in H as [H|H].
  - assert (X : rr_contains rs (code c) = true) by (apply D, U; reflexivity). rewrite X in H. discriminate.
  - apply existsb_exists in H as (r & _ & H). apply andb_prop in H as [H1 H2]. apply D, U in H1. subst r. lia.
Qed.
Definition member_b (body : str) : bool :=
  clean_b body && match ranges_expand (bracketed body) with
  | None => false
  | Some rs => existsb (fun r => rr_contains rs r && negb (r =? 0)%N) (map snd (range body))
  end.
Definition starts_fixed_b (v : str) : bool :=
  match v with
  | [] => false
  | c :: p => no_metab [c] || (Ascii.eqb c "[" && match index_byte p "]" with Some i => member_b (firstn i p) | None => false end)
  end.
Lemma starts_fixed_ok v : starts_fixed_b v = true -> starts_fixed v.
Proof.
  destruct v as [|c p]; [discriminate|]. cbn [starts_fixed_b]. intro H. apply orb_prop in H as [H|H].
  - left. exists c, p. split; auto. apply (no_metab_ok [c] H). now left.
  - right. apply andb_prop in H as [H1 H]. apply Ascii.eqb_eq in H1. subst c. destruct (index_byte p "]") as [i|] eqn:Ei; [|discriminate].
    apply index_byte_cut in Ei as (a & b & -> & <- & N). rewrite firstn_app, firstn_all, Nat.sub_diag in H. cbn [firstn] in H. rewrite app_nil_r in H.
    unfold member_b in H. apply andb_prop in H as [C H]. apply clean_b_ok in C. destruct (ranges_expand (bracketed a)) as [rs|] eqn:R; [|discriminate].
    destruct (ranges_expand_ok _ _ C R) as (_ & _ & _ & D). apply existsb_exists in H as (r & _ & H). apply andb_prop in H as [H1 H2].
    exists a, b, r. rewrite bracketed_app. repeat split; auto; [now apply D|lia].
Qed.
Definition regular_b (g : str) : bool := forallb (fun '(a, body, b) => negb (existsb (Ascii.eqb "*") body) &&
  (negb (existsb (Ascii.eqb "*") a) || (forallb starts_fixed_b (split_on "," body) && (has_wildcard body || match b with [] => true | x :: _ => Ascii.eqb x "*" end)))) (bodies "{" "}" [] g).
Lemma regular_ok g : regular_b g = true -> regular g.
Proof.
  unfold regular_b. rewrite forallb_forall. intros H a body b E N. specialize (H _ (braced_body _ _ _ _ E N)). cbn beta iota in H. apply andb_prop in H as [H1 H2]. split.
  - apply not_in_b. now destruct (existsb (Ascii.eqb "*") body).
  - intro I. apply in_b in I. rewrite I in H2. cbn [negb orb] in H2. apply andb_prop in H2 as [H2 H3]. split.
    + intros v A. apply alternative_split in A. rewrite forallb_forall in H2. apply starts_fixed_ok, (H2 v A).
    + apply orb_prop in H3 as [H3|H3].
      * left. apply existsb_exists in H3 as (c & J & W). exists c. split; auto. now apply is_wild_iff.
      * right. destruct b as [|x b]; [now left|]. apply Ascii.eqb_eq in H3. subst. right. now exists b.
Qed.

Definition closed_b (v : str) : bool := negb (existsb (Ascii.eqb "*") v) || negb (is_metab (last v zero)).
Lemma closed_ok v : closed_b v = true -> closed_value v.
Proof.
  unfold closed_b. intro H. apply orb_prop in H as [H|H].
  - left. apply not_in_b. now destruct (existsb (Ascii.eqb "*") v).
  - destruct v as [|c v]; [now left|]. right. destruct (exists_last (l := c :: v)) as (p & d & E); [discriminate|]. exists p, d. split; auto. rewrite E, last_last in H.
    apply not_in_b. unfold is_metab in H. now destruct (existsb (Ascii.eqb d) metas).
Qed.
Definition regular_stars_b (g : str) : bool := forallb (fun '(a, body, b) =>
  (negb (existsb (Ascii.eqb "*") a) || (forallb starts_fixed_b (split_on "," body) && (has_wildcard body || match b with [] => true | x :: _ => Ascii.eqb x "*" end))) &&
  (forallb closed_b (split_on "," body) || match b with [] => true | x :: t => starts_fixed_b b || (Ascii.eqb x "{" && existsb (Ascii.eqb "}") t) end)) (bodies "{" "}" [] g).
Lemma regular_stars_ok g : regular_stars_b g = true -> regular_stars g.
Proof.
  unfold regular_stars_b. rewrite forallb_forall. intros H a body b E N. specialize (H _ (braced_body _ _ _ _ E N)). cbn beta iota in H. apply andb_prop in H as [H1 H2]. split.
  - intro I. apply in_b in I. rewrite I in H1. cbn [negb orb] in H1. apply andb_prop in H1 as [H1 H3]. split.
    + intros v A. apply alternative_split in A. rewrite forallb_forall in H1. apply starts_fixed_ok, (H1 v A).
    + apply orb_prop in H3 as [H3|H3].
      * left. apply existsb_exists in H3 as (c & J & W). exists c. split; auto. now apply is_wild_iff.
      * right. destruct b as [|x b]; [now left|]. apply Ascii.eqb_eq in H3. subst. right. now exists b.
  - intros (v & A & C). apply orb_prop in H2 as [H2|H2].
    + exfalso. apply C, closed_ok. apply alternative_split in A. rewrite forallb_forall in H2. now apply H2.
    + destruct b as [|x b]; [now left|]. right. apply orb_prop in H2 as [H2|H2]; [left; now apply starts_fixed_ok|]. right. apply andb_prop in H2 as [H2 H3]. apply Ascii.eqb_eq in H2. subst x.
      apply in_b, in_split in H3 as (p & q & ->). exists p, q. now rewrite braced_app.
Qed.

(** ** Checking the condition on a concrete text *)
Definition ends_in_star (v : str) : Prop := forall x y, v = x ++ "*"%char :: y -> forall c, In c y -> c = "*"%char.
Fixpoint end_check (v : str) : bool :=
  match v with
  | [] => true
  | c :: t => (if Ascii.eqb c "*" then forallb (fun d => Ascii.eqb d "*") t else true) && end_check t
  end.
Fixpoint stars_end_b (g : str) : bool :=
  match g with
  | [] => true
  | c :: t => (if Ascii.eqb c "{" then match index_byte t "}" with Some i => forallb end_check (split_on "," (firstn i t)) | None => true end else true) && stars_end_b t
  end.
Lemma end_check_ok v : end_check v = true -> ends_in_star v.
Proof.
  induction v as [|c t IH]; intros H x y E; [destruct x; discriminate|]. cbn [end_check] in H. apply andb_true_iff in H as [H1 H2].
  destruct x as [|d x]; injection E as -> E; [|now apply (IH H2 x y)]. subst t. rewrite Ascii.eqb_refl in H1. intros d I. rewrite forallb_forall in H1. apply H1 in I. now apply Ascii.eqb_eq.
Qed.
Lemma stars_end_ok g : stars_end_b g = true -> stars_end g.
Proof.
  induction g as [|c t IH]; intros H a body b v x y E N A Ev d I; [destruct a; discriminate|]. cbn [stars_end_b] in H. apply andb_true_iff in H as [H1 H2].
  destruct a as [|e a]; [|injection E as -> E; now apply (IH H2 a body b v x y)]. rewrite app_nil_l, braced_app in E. injection E as -> E. rewrite Ascii.eqb_refl in H1.
  rewrite (index_byte_some t "}" body b N E) in H1. rewrite E, firstn_app, firstn_all, Nat.sub_diag, app_nil_r in H1. rewrite forallb_forall in H1. apply alternative_split, H1, end_check_ok in A. now apply (A x y Ev).
Qed.

(** ** A glob whose classes are plain does not stand for the text "*" alone *)
Definition star_sym : str := B "*".
Lemma pair_ends l ps : class_pairs l ps -> Forall scalar l -> forall a b, In (a, b) ps -> scalar a /\ scalar b.
Proof. intros P F a b I. apply (proj1 (Forall_forall _ _) (pairs_scalar l ps P F) _ I). Qed.
Lemma other_member body r : in_class body r -> r = code "*"%char -> ~ (forall r, in_class body r <-> r = code "*"%char) ->
  ~ ~ exists r', scalar r' /\ in_class body r' /\ r' <> code "*"%char.
Proof.
  intros (rs & ps & F & -> & P & Hr) -> N X. apply N. intro r. rewrite (in_class_pairs rs ps r F P). split; [|intros ->; auto].
  intros (a & b & I & L). destruct (pair_ends rs ps P F a b I) as [Sa Sb].
  assert (Ma : in_class (encode_all rs) a) by (apply (in_class_pairs rs ps); auto; exists a, b; split; auto; lia).
  assert (Mb : in_class (encode_all rs) b) by (apply (in_class_pairs rs ps); auto; exists a, b; split; auto; lia).
  destruct (N.eq_dec a (code "*"%char)) as [Ea|Ea]; [|exfalso; apply X; eauto].
  destruct (N.eq_dec b (code "*"%char)) as [Eb|Eb]; [|exfalso; apply X; eauto]. lia.
Qed.
Lemma encode_star r : scalar r -> encode_rune r = star_sym -> r = code "*"%char.
Proof. intros [S _] E. apply (encode_app_inj r (code "*"%char) [] []); [exact S|reflexivity|]. rewrite !app_nil_r. exact E. Qed.
Lemma swap_stars g w : denotes g w -> plain_classes g -> ~ ~ exists w', denotes g w' /\ ~ In star_sym w'.
Proof.
  induction 1 as [|r p w S M D IH|p x w D IH|p w1 w2 D IH|body p r w N S C D IH|body p w N C D IH|body v p w1 w2 N A D1 IH1 D2 IH2]; intros P X.
  - apply X. exists []. split; [constructor|easy].
  - apply IH; [apply (plain_classes_part (encode_rune r) p []); now rewrite app_nil_r|]. intros (w' & D' & Nw). apply X. exists (encode_rune r :: w'). split; [now constructor|].
    intros [E|I]; auto. apply encode_star in E; auto. apply (M "*"%char); auto. vm_compute. tauto.
  - apply IH; [apply (plain_classes_part (B "?") p []); now rewrite app_nil_r|]. intros (w' & D' & Nw). apply X. exists (B "x" :: w'). split; [now constructor|]. intros [E|I]; [discriminate|auto].
  - apply IH; [apply (plain_classes_part (B "*") p []); now rewrite app_nil_r|]. intros (w' & D' & Nw). apply X. exists ([] ++ w'). split; [now constructor|]. exact Nw.
  - apply IH; [apply (plain_classes_part (bracketed body) p []); now rewrite app_nil_r|]. intros (w' & D' & Nw).
    destruct (N.eq_dec r (code "*"%char)) as [Er|Er].
    + apply (other_member body r C Er); [apply (P [] body p "*"%char eq_refl N); vm_compute; tauto|]. intros (r' & S' & C' & N'). apply X. exists (encode_rune r' :: w'). split; [now constructor|].
      intros [E|I]; auto. apply encode_star in E; auto.
    + apply X. exists (encode_rune r :: w'). split; [now constructor|]. intros [E|I]; auto. apply encode_star in E; auto.
  - apply IH; [apply (plain_classes_part (bracketed body) p []); now rewrite app_nil_r|]. intros (w' & D' & Nw). apply X. exists w'. split; [now apply d_no_class|auto].
  - apply IH2; [apply (plain_classes_part (braced body) p []); now rewrite app_nil_r|]. intros (w2' & D2' & N2).
    apply IH1.
    + destruct A as (a & b & Eb & _). apply (plain_classes_part ("{"%char :: a) v (b ++ "}"%char :: p)).
      replace (("{"%char :: a) ++ v ++ b ++ "}"%char :: p) with (braced body ++ p); auto. rewrite Eb. unfold braced. cbn [app]. now rewrite <- !app_assoc.
    + intros (w1' & D1' & N1). apply X. exists (w1' ++ w2'). split; [eapply d_list; eauto|]. intro I. apply in_app_or in I as [I|I]; auto.
Qed.
(** Hence the condition on the lone star is part of the one on classes. *)
Lemma plain_not_star g : plain_classes g -> ~ only_star g.
Proof.
  intros P O. assert (D : denotes g [B "*"]) by now apply O. apply (swap_stars g _ D P). intros (w' & D' & N). apply O in D'. subst w'. apply N. now left.
Qed.

(** ** All together *)
Definition no_byte_b (n : N) (g : str) : bool := negb (existsb (Ascii.eqb (byte_of n)) g).
Lemma no_byte_ok n g : no_byte_b n g = true -> ~ In (byte_of n) g.
Proof. unfold no_byte_b. intro H. apply not_in_b. now destruct (existsb (Ascii.eqb (byte_of n)) g). Qed.
Definition node_glob_b (g : str) : bool := clean_b g && no_byte_b 0 g && no_byte_b 127 g && plain_singles_b g && plain_classes_b g.
Lemma node_glob_ok g : node_glob_b g = true -> clean g /\ ~ In (byte_of 0) g /\ ~ In (byte_of 127) g /\ plain_singles g /\ plain_classes g.
Proof.
  unfold node_glob_b. intro H. apply andb_prop in H as [H H5]. apply andb_prop in H as [H H4]. apply andb_prop in H as [H H3]. apply andb_prop in H as [H1 H2].
  split; [now apply clean_b_ok|]. split; [now apply no_byte_ok|]. split; [now apply no_byte_ok|]. split; [now apply plain_singles_ok|now apply plain_classes_ok].
Qed.
Definition exact_lists_b (g : str) : bool := regular_stars_b g && stars_end_b g.
Lemma exact_lists_ok g : exact_lists_b g = true -> exact_lists g.
Proof. unfold exact_lists_b. intro H. apply andb_prop in H as [H1 H2]. split; [now apply regular_stars_ok|now apply stars_end_ok]. Qed.
Definition good_glob_b (g : str) : bool := node_glob_b g && exact_lists_b g.
Lemma good_glob_ok g : good_glob_b g = true -> good_glob g.
Proof.
  unfold good_glob_b. intro H. apply andb_prop in H as [H1 H2]. destruct (node_glob_ok g H1) as (C & Z & D & S & P). apply exact_lists_ok in H2. unfold good_glob. auto 8.
Qed.
