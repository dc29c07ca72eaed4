(** Lemmas about escaping. *)
From Verif Require Import Model.Escape Spec.Url.
From Coq Require Import Lia ZifyBool ZifyN ZifyNat.
Local Open Scope N_scope.

(** one byte of the output of escape *)
Definition esc1 (mode : encoding) (c : ascii) : str :=
  if is_space c && is_query mode then ["+"%char] else if should_escape c mode then percent c else [c].

Lemma space_query : should_escape " " encodeQueryComponent = true.
Proof. reflexivity. Qed.
Lemma is_query_eq m : is_query m = true -> m = encodeQueryComponent.
Proof. destruct m; try discriminate; auto. Qed.
Lemma is_space_eq c : is_space c = true -> c = " "%char.
Proof. apply Ascii.eqb_eq. Qed.

Lemma counts_fold s mode : forall a, fold_left (fun '(sp, hx) c =>
    if should_escape c mode then
      if is_space c && is_query mode then (S sp, hx) else (sp, S hx)
    else (sp, hx)) s a =
    (fst a + fst (escape_counts s mode), snd a + snd (escape_counts s mode))%nat.
Proof.
  unfold escape_counts. induction s as [|c s IH]; intros [x y]; cbn [fold_left fst snd].
  - now rewrite !Nat.add_0_r.
  - rewrite IH. rewrite (IH (if should_escape c mode then _ else _)).
    destruct (should_escape c mode), (is_space c && is_query mode); cbn [fst snd]; f_equal; lia.
Qed.
Lemma counts_cons c s mode : escape_counts (c :: s) mode =
  let '(x, y) := escape_counts s mode in
  if should_escape c mode then if is_space c && is_query mode then (S x, y) else (x, S y) else (x, y).
Proof.
  unfold escape_counts at 1. cbn [fold_left]. rewrite counts_fold. destruct (escape_counts s mode).
  destruct (should_escape c mode), (is_space c && is_query mode); reflexivity.
Qed.

Lemma counts_nonquery s mode : is_query mode = false -> fst (escape_counts s mode) = 0%nat.
Proof.
  intro Q. induction s as [|c s IH]; auto. rewrite counts_cons. destruct (escape_counts s mode) as [x y].
  rewrite Q, andb_false_r. destruct (should_escape c mode); auto.
Qed.

Lemma escape_eq s mode : escape s mode = concat (map (esc1 mode) s).
Proof.
  unfold escape. destruct (escape_counts s mode) as [sp hx] eqn:E.
  destruct (Nat.eqb hx 0) eqn:H.
  - apply Nat.eqb_eq in H. subst. rewrite andb_true_r. destruct (Nat.eqb sp 0) eqn:H.
    + apply Nat.eqb_eq in H. subst. induction s as [|c s IH]; auto. rewrite counts_cons in E.
      destruct (escape_counts s mode) as [x y]. cbn. unfold esc1 at 1.
      destruct (should_escape c mode) eqn:A.
      * destruct (is_space c && is_query mode); congruence.
      * injection E as -> ->. rewrite <- IH by auto. destruct (is_space c && is_query mode) eqn:Q; auto.
        apply andb_true_iff in Q as [Q1 Q2]. apply is_space_eq in Q1 as ->. apply is_query_eq in Q2 as ->. discriminate.
    + destruct (is_query mode) eqn:Q.
      2: { exfalso. pose proof (counts_nonquery s mode Q) as Z. rewrite E in Z. cbn in Z. subst. discriminate. }
      apply is_query_eq in Q. subst mode.
      clear H. revert sp E. induction s as [|c s IH]; intros sp E; auto. rewrite counts_cons in E.
      destruct (escape_counts s encodeQueryComponent) as [x y]. cbn. unfold esc1 at 1. cbn [is_query] in *. rewrite andb_true_r in *.
      destruct (should_escape c encodeQueryComponent) eqn:A.
      * destruct (is_space c); [|congruence]. injection E as <- ->. cbn. f_equal. eapply IH; eauto.
      * injection E as -> ->. destruct (is_space c) eqn:Q; [apply is_space_eq in Q as ->; discriminate|]. cbn. f_equal. eapply IH; eauto.
  - rewrite andb_false_r. reflexivity.
Qed.

Lemma percent_spec c : percent c = percent_form c.
Proof. destruct c as [[] [] [] [] [] [] [] []]; reflexivity. Qed.

Lemma among_In c l : among c l = true <-> In c l.
Proof.
  unfold among. rewrite existsb_exists. split.
  - intros (x & I & E). apply Ascii.eqb_eq in E as ->. auto.
  - intro I. exists c. now rewrite Ascii.eqb_refl.
Qed.
Lemma alnum_iff c : alnum c = true <-> 97 <= code c <= 122 \/ 65 <= code c <= 90 \/ 48 <= code c <= 57.
Proof. unfold alnum. lia. Qed.
Lemma unreserved_b c : unreserved c <-> alnum c = true \/ among c (B "-_.~") = true.
Proof. rewrite alnum_iff, among_In. unfold unreserved. cbn. intuition. Qed.
Lemma should_query c : should_escape c encodeQueryComponent = negb (alnum c || among c (B "-_.~")).
Proof. destruct c as [[] [] [] [] [] [] [] []]; reflexivity. Qed.
Lemma should_path c : should_escape c encodePath = negb (alnum c || among c (B "-_.~") || among c (B "$&+,/:;=@")).
Proof. destruct c as [[] [] [] [] [] [] [] []]; reflexivity. Qed.
Lemma unreserved_dec c : unreserved c <-> should_escape c encodeQueryComponent = false.
Proof. rewrite unreserved_b, should_query, negb_false_iff, orb_true_iff. tauto. Qed.
Lemma path_plain_dec c : path_plain c <-> should_escape c encodePath = false.
Proof. unfold path_plain. rewrite unreserved_b, <- among_In, should_path, negb_false_iff, !orb_true_iff. tauto. Qed.

Lemma esc1_query c : query_byte c (esc1 encodeQueryComponent c).
Proof.
  unfold esc1. cbn [is_query]. rewrite andb_true_r. destruct (is_space c) eqn:S.
  - apply is_space_eq in S as ->. constructor.
  - destruct (should_escape c encodeQueryComponent) eqn:E.
    + rewrite percent_spec. constructor.
      * rewrite unreserved_dec. congruence.
      * intros ->. discriminate.
    + constructor. now apply unreserved_dec.
Qed.
Lemma esc1_path c : path_byte c (esc1 encodePath c).
Proof.
  unfold esc1. cbn [is_query]. rewrite andb_false_r. destruct (should_escape c encodePath) eqn:E.
  - rewrite percent_spec. constructor. rewrite path_plain_dec. congruence.
  - constructor. now apply path_plain_dec.
Qed.

(** unescape *)
Lemma unescape_loop_plain s t : Forall (fun c => among c (B "%+") = false) s -> unescape_loop (s ++ t) = s ++ unescape_loop t.
Proof.
  induction 1 as [|c s H F IH]; auto. cbn [app unescape_loop].
  assert (E : Ascii.eqb c "%" = false /\ Ascii.eqb c "+" = false).
  { cbn in H. destruct (Ascii.eqb c "%"), (Ascii.eqb c "+"); auto; discriminate. }
  destruct E as [-> ->]. now rewrite IH.
Qed.
Lemma find_byte_split p s : match find_byte p s with
  | Some i => (i < length s)%nat /\ Forall (fun c => p c = false) (firstn i s)
  | None => Forall (fun c => p c = false) s end.
Proof.
  induction s as [|c s IH]; cbn [find_byte]; auto. destruct (p c) eqn:E; cbn; [split; auto; lia|].
  destruct (find_byte p s); cbn; auto. destruct IH. split; [lia|auto].
Qed.
Lemma unescape_eq s : unescape s = unescape_loop s.
Proof.
  unfold unescape, unescape_first. generalize (find_byte_split (fun c => among c (B "%+")) s).
  destruct (find_byte _ s) as [i|]; intro H.
  - destruct H as [L F]. cbn. rewrite <- (firstn_skipn i s) at 3. now rewrite unescape_loop_plain.
  - rewrite <- (app_nil_r s) at 2. rewrite unescape_loop_plain by auto. cbn. now rewrite app_nil_r.
Qed.
Lemma skipn_app_exact {A} (l r : list A) : skipn (length l) (l ++ r) = r.
Proof. rewrite skipn_app, skipn_all, Nat.sub_diag. reflexivity. Qed.
Lemma unescape_to_eq s sb : unescape_to s sb = (sb ++ match unescape_first s with None => [] | Some _ => unescape s end, unescape s).
Proof.
  unfold unescape_to, unescape. destruct (unescape_first s) as [i|]; cbn [unescape_at snd app].
  - unfold unescape_at. cbn. now rewrite skipn_app_exact.
  - now rewrite app_nil_r.
Qed.

Lemma unescape_loop_percent c r : unescape_loop (percent c ++ r) = c :: unescape_loop r.
Proof. destruct c as [[] [] [] [] [] [] [] []]; reflexivity. Qed.
Lemma should_percent m : should_escape "%" m = true.
Proof. destruct m; reflexivity. Qed.
Lemma unescape_escape s mode : (is_query mode = true \/ ~ In "+"%char s) -> unescape_loop (concat (map (esc1 mode) s)) = s.
Proof.
  intro H. induction s as [|c s IH]; auto. cbn [map concat].
  assert (IH' : unescape_loop (concat (map (esc1 mode) s)) = s) by (apply IH; destruct H; auto; right; intro; apply H; now right).
  unfold esc1 at 1. destruct (is_space c && is_query mode) eqn:Q.
  - apply andb_true_iff in Q as [Q _]. apply is_space_eq in Q as ->. cbn. now rewrite IH'.
  - destruct (should_escape c mode) eqn:E.
    + now rewrite unescape_loop_percent, IH'.
    + cbn [app unescape_loop].
      assert (P : Ascii.eqb c "%" = false). { apply Ascii.eqb_neq. intros ->. rewrite should_percent in E. discriminate. }
      assert (P' : Ascii.eqb c "+" = false).
      { apply Ascii.eqb_neq. intros ->. destruct H as [H|H]; [|apply H; now left]. apply is_query_eq in H as ->. discriminate. }
      now rewrite P, P', IH'.
Qed.

Lemma hexval_dec a : (ishex a = true /\ hexval a (unhex a)) \/ (ishex a = false /\ forall x, ~ hexval a x).
Proof.
  unfold ishex, unhex, hexval. cbv zeta.
  destruct ((48 <=? code a) && (code a <=? 57)) eqn:E1; [left; split; auto; lia|].
  destruct ((97 <=? code a) && (code a <=? 102)) eqn:E2; [left; split; auto; lia|].
  destruct ((65 <=? code a) && (code a <=? 70)) eqn:E3; [left; split; auto; lia|].
  right. split; auto. intros x H. lia.
Qed.
Lemma hexval_unhex a x : hexval a x -> ishex a = true /\ x = unhex a /\ x < 16.
Proof.
  intro H. assert (x < 16) by (unfold hexval in H; lia).
  assert (x = unhex a). { unfold unhex, hexval in *. cbv zeta.
    destruct ((48 <=? code a) && (code a <=? 57)) eqn:E1; [lia|].
    destruct ((97 <=? code a) && (code a <=? 102)) eqn:E2; [lia|].
    destruct ((65 <=? code a) && (code a <=? 70)) eqn:E3; lia. }
  destruct (hexval_dec a) as [[A _]|[_ A]]; auto. now elim (A x).
Qed.
Lemma lor_shift x y : x < 16 -> y < 16 -> N.lor (N.shiftl x 4) y = 16 * x + y.
Proof.
  intros Hx Hy.
  assert (forallb (fun a => forallb (fun b => N.lor (N.shiftl a 4) b =? 16 * a + b) (map N.of_nat (seq 0 16))) (map N.of_nat (seq 0 16)) = true) as F by reflexivity.
  rewrite forallb_forall in F. specialize (F x). rewrite forallb_forall in F.
  apply N.eqb_eq, F; apply in_map_iff; eexists; (split; [apply N2Nat.id|apply in_seq; lia]).
Qed.
Lemma unescape_loop_decoded : forall n s, (length s <= n)%nat -> decoded s (unescape_loop s).
Proof.
  induction n as [|n IH]; intros s L.
  - destruct s; [constructor|cbn in L; lia].
  - destruct s as [|c s]; [constructor|]. cbn [length] in L. cbn [unescape_loop]. destruct (Ascii.eqb_spec c "%") as [->|P].
    + destruct s as [|a [|b r]]; try (apply d_short; cbn; lia).
      cbn [length] in L. assert (D : decoded r (unescape_loop r)) by (apply IH; lia).
      destruct (hexval_dec a) as [[A A']|[A A']]; rewrite A; cbn [andb].
      * destruct (hexval_dec b) as [[E E']|[E E']]; rewrite E; cbn [app].
        -- rewrite lor_shift by (eapply hexval_unhex; eauto). now apply d_hex.
        -- apply d_bad; auto. intros [_ [y Hy]]. now elim (E' y).
      * cbn [app]. apply d_bad; auto. intros [[y Hy] _]. now elim (A' y).
    + destruct (Ascii.eqb_spec c "+") as [->|Q]; constructor; auto; apply IH; lia.
Qed.
Lemma decoded_fun s t : decoded s t -> t = unescape_loop s.
Proof.
  induction 1 as [|s t H IH|c s t N1 N2 H IH|a b x y s t Hx Hy H IH|a b s t N H IH|s L]; auto.
  - cbn. now rewrite IH.
  - cbn [unescape_loop]. apply Ascii.eqb_neq in N1, N2. now rewrite N2, N1, IH.
  - cbn. destruct (hexval_unhex _ _ Hx) as (-> & -> & ?), (hexval_unhex _ _ Hy) as (-> & -> & ?). cbn.
    rewrite lor_shift by auto. now rewrite IH.
  - cbn. destruct (hexval_dec a) as [[A A']|[A A']]; rewrite A; cbn; [|now rewrite IH].
    destruct (hexval_dec b) as [[E E']|[E E']]; rewrite E; cbn; [|now rewrite IH]. elim N. eauto.
  - destruct s as [|a [|b r]]; auto. cbn in L. lia.
Qed.
Lemma unescape_loop_length : forall n s, (length s <= n)%nat -> (length (unescape_loop s) <= length s)%nat.
Proof.
  induction n as [|n IH]; intros s L.
  - destruct s; [auto|cbn in L; lia].
  - destruct s as [|c s]; auto. cbn [length] in L. cbn [unescape_loop].
    destruct (Ascii.eqb c "%").
    + destruct s as [|a [|b r]]; auto. cbn [length] in L. specialize (IH r). rewrite app_length.
      destruct (ishex a && ishex b); cbn [length]; lia.
    + specialize (IH s). destruct (Ascii.eqb c "+"); cbn [length]; lia.
Qed.

(** escapeTo *)
Lemma firstn_snoc {A} (l : list A) i c t : skipn i l = c :: t -> firstn (S i) l = firstn i l ++ [c].
Proof. revert l; induction i as [|i IH]; intros [|x l] H; cbn in *; try discriminate; [now injection H as -> ->|]. f_equal. now apply IH. Qed.
Lemma skipn_tl {A} (l : list A) i c t : skipn i l = c :: t -> skipn (S i) l = t.
Proof. revert l; induction i as [|i IH]; intros [|x l] H; cbn in *; try discriminate; [now injection H as -> ->|]. now apply IH. Qed.
Lemma esc1_plain mode c : should_escape c mode = false -> esc1 mode c = [c].
Proof.
  intro H. unfold esc1. rewrite H. destruct (is_space c && is_query mode) eqn:Q; auto.
  apply andb_true_iff in Q as [Q1 Q2]. apply is_space_eq in Q1 as ->. apply is_query_eq in Q2 as ->. discriminate.
Qed.
Lemma esc_plain mode l : Forall (fun c => should_escape c mode = false) l -> concat (map (esc1 mode) l) = l.
Proof. induction 1 as [|c l H F IH]; auto. cbn. now rewrite esc1_plain, IH. Qed.

(** the state of the loop: everything before pos is written, nothing between pos and i needs escaping *)
Lemma escape_to_loop_spec s mode sb0 : forall rest i pos sb, skipn i s = rest -> (pos <= i)%nat ->
  Forall (fun c => should_escape c mode = false) (firstn (i - pos) (skipn pos s)) ->
  sb = sb0 ++ concat (map (esc1 mode) (firstn pos s)) ->
  (pos = 0%nat \/ exists c, nth_error s (pos - 1) = Some c /\ should_escape c mode = true) ->
  let '(pos', sb') := escape_to_loop s rest mode i pos sb in
  sb' = sb0 ++ concat (map (esc1 mode) (firstn pos' s)) /\
  Forall (fun c => should_escape c mode = false) (skipn pos' s) /\
  (pos' = 0%nat \/ exists c, nth_error s (pos' - 1) = Some c /\ should_escape c mode = true).
Proof.
  induction rest as [|c t IH]; intros i pos sb R L F E P; cbn [escape_to_loop].
  - repeat split; auto. rewrite firstn_all2 in F; auto. rewrite skipn_length.
    assert (length (skipn i s) = 0%nat) by now rewrite R. rewrite skipn_length in H. lia.
  - assert (S1 : firstn (S i) s = firstn pos s ++ firstn (i - pos) (skipn pos s) ++ [c]).
    { rewrite (firstn_snoc _ _ _ _ R). rewrite app_assoc. f_equal.
      rewrite <- (firstn_skipn pos (firstn i s)). rewrite firstn_firstn, Nat.min_l by lia. f_equal. rewrite firstn_skipn_comm. do 2 f_equal. lia. }
    destruct (should_escape c mode) eqn:Sc.
    + apply IH.
      * now apply skipn_tl in R.
      * lia.
      * rewrite Nat.sub_diag. constructor.
      * rewrite S1, !map_app, !concat_app, (esc_plain mode _ F). cbn. rewrite app_nil_r, E, <- !app_assoc. do 3 f_equal.
        unfold esc1. rewrite Sc. destruct (is_space c && is_query mode); auto.
      * right. exists c. cbn. rewrite Nat.sub_0_r. split; auto.
        rewrite <- (firstn_skipn i s), R. rewrite nth_error_app2; rewrite firstn_length_le; try lia.
        now rewrite Nat.sub_diag.
        all: assert (length (skipn i s) = length (c :: t)) by now rewrite R. all: rewrite skipn_length in *; cbn in *; lia.
    + apply IH; auto; try lia; [now apply skipn_tl in R|].
      replace (S i - pos)%nat with (S (i - pos)) by lia.
      rewrite (firstn_snoc _ _ c t). apply Forall_app. split; auto.
      rewrite <- R. replace i with (pos + (i - pos))%nat at 2 by lia.
      clear. generalize (i - pos)%nat. intro k. revert s. induction pos; intros s; auto. destruct s; cbn; [now destruct k|apply IHpos].
Qed.
