(** Decoding of tagged paths. *)
From Coq Require Import Lia ZifyBool ZifyN ZifyNat.
From Verif Require Import Model.GTags Spec.TagSpec Proof.SortP Proof.EscapeTop Proof.RegistryP.

Lemma find_byte_none p s : find_byte p s = None <-> Forall (fun c => p c = false) s.
Proof.
  induction s as [|c s IH]; cbn; [split; auto|]. destruct (p c) eqn:E.
  - split; [discriminate|]. inversion 1; congruence.
  - destruct (find_byte p s); cbn.
    + split; [discriminate|]. inversion 1; subst. apply IH in H3. discriminate.
    + split; auto. intros _. constructor; auto. now apply IH.
Qed.
Lemma index_byte_none s c : index_byte s c = None <-> ~ In c s.
Proof.
  unfold index_byte. rewrite find_byte_none, Forall_forall. split.
  - intros H I. apply H in I. now rewrite Ascii.eqb_refl in I.
  - intros H x I. destruct (Ascii.eqb_spec c x) as [->|]; auto. contradiction.
Qed.
Lemma find_byte_app p a c b : Forall (fun x => p x = false) a -> p c = true -> find_byte p (a ++ c :: b) = Some (length a).
Proof. induction a as [|x a IH]; cbn; intros F E; [now rewrite E|]. inversion F; subst. rewrite H1, IH; auto. Qed.
Lemma index_byte_app a c b : ~ In c a -> index_byte (a ++ c :: b) c = Some (length a).
Proof.
  intro N. apply find_byte_app; [|apply Ascii.eqb_refl]. apply Forall_forall. intros x I. destruct (Ascii.eqb_spec c x) as [->|]; auto. contradiction.
Qed.
Lemma firstn_len {A} (a b : list A) : firstn (length a) (a ++ b) = a.
Proof. rewrite firstn_app, Nat.sub_diag, firstn_all. cbn. apply app_nil_r. Qed.
Lemma skipn_len {A} (a b : list A) : skipn (length a) (a ++ b) = b.
Proof. rewrite skipn_app, Nat.sub_diag, skipn_all. reflexivity. Qed.
Lemma skipn_len1 {A} (a : list A) x b : skipn (S (length a)) (a ++ x :: b) = b.
Proof. replace (a ++ x :: b) with ((a ++ [x]) ++ b) by (rewrite <- app_assoc; reflexivity). replace (S (length a)) with (length (a ++ [x])) by (rewrite app_length; cbn; lia). apply skipn_len. Qed.
Lemma find_byte_inv p s i : find_byte p s = Some i -> exists a c b, s = a ++ c :: b /\ length a = i /\ p c = true /\ Forall (fun x => p x = false) a.
Proof.
  revert i. induction s as [|c s IH]; cbn; intros i; [discriminate|]. destruct (p c) eqn:E.
  - intros [= <-]. exists [], c, s. repeat split; auto.
  - destruct (find_byte p s) as [j|]; cbn; [|discriminate]. intros [= <-]. destruct (IH j eq_refl) as (a & d & b & -> & <- & Ed & F).
    exists (c :: a), d, b. repeat split; auto.
Qed.
Lemma cut_cases c s : (~ In c s /\ cut c s = (s, [], false)) \/ exists a b, s = a ++ c :: b /\ ~ In c a /\ cut c s = (a, b, true).
Proof.
  unfold cut. destruct (index_byte s c) as [i|] eqn:E.
  - right. apply find_byte_inv in E as (a & d & b & -> & <- & Ed & F). apply Ascii.eqb_eq in Ed as <-. exists a, b. split; auto. split.
    + rewrite Forall_forall in F. intro I. apply F in I. now rewrite Ascii.eqb_refl in I.
    + now rewrite firstn_len, skipn_len1.
  - left. split; auto. now apply index_byte_none.
Qed.
Lemma cut_hit c a b : ~ In c a -> cut c (a ++ c :: b) = (a, b, true).
Proof. intro N. unfold cut. now rewrite index_byte_app, firstn_len, skipn_len1. Qed.
Lemma cut_miss c a : ~ In c a -> cut c a = (a, [], false).
Proof. intro N. unfold cut. now rewrite (proj2 (index_byte_none a c) N). Qed.

Lemma loop_raw sep : forall fuel args acc l, raw_args sep args l -> (length args < fuel)%nat ->
  tags_loop fuel sep args acc = (acc ++ map decode_tag l, true).
Proof.
  induction fuel as [|f IH]; intros args acc l R L; [lia|]. cbn [tags_loop]. destruct R as [|k v K V|k v rest l K V R].
  - cbn. now rewrite app_nil_r.
  - destruct (k ++ "="%char :: v) as [|x y] eqn:E; [now destruct k|]. rewrite <- E. unfold next_tag. rewrite cut_hit, cut_miss by auto.
    rewrite (IH [] _ []); [|constructor|cbn in *; lia]. cbn. now rewrite app_nil_r.
  - destruct (k ++ "="%char :: v ++ sep :: rest) as [|x y] eqn:E; [now destruct k|]. rewrite <- E. unfold next_tag. rewrite !cut_hit by auto.
    rewrite (IH rest _ l); auto.
    + rewrite <- app_assoc. reflexivity.
    + rewrite <- E in L. rewrite app_length in L. cbn in L. rewrite app_length in L. cbn in L. lia.
Qed.
Lemma loop_raw_inv sep : forall fuel args acc r, tags_loop fuel sep args acc = (r, true) -> exists l, raw_args sep args l.
Proof.
  induction fuel as [|f IH]; intros args acc r; cbn [tags_loop]; [discriminate|]. destruct args as [|x y].
  - intros _. exists []. constructor.
  - unfold next_tag. destruct (cut_cases "=" (x :: y)) as [[N ->]|(k & b & E & K & ->)]; [discriminate|].
    destruct (cut_cases sep b) as [[V ->]|(v & rest & -> & V & ->)]; intro H.
    + exists [(k, b)]. rewrite E. now constructor.
    + apply IH in H as (l & R). exists ((k, v) :: l). rewrite E. now constructor.
Qed.
Lemma contains_iff c s : contains_byte c s = false <-> ~ In c s.
Proof. unfold contains_byte. rewrite <- index_byte_none. destruct (index_byte s c); split; congruence. Qed.

Lemma path_err_none reason ok1 ok2 : path_err reason ok1 ok2 = None <-> ok1 && ok2 = true.
Proof. destruct ok1, ok2; cbn; easy. Qed.
Lemma path_tags_iff reason nsep sep p tags : path_tags_gen reason nsep sep p = (tags, None) <->
  exists name args l, p = name ++ nsep :: args /\ ~ In nsep name /\ ~ In "="%char name /\ raw_args sep args l /\
    tags = (B "__name__", unescape name) :: map decode_tag l.
Proof.
  unfold path_tags_gen. split.
  - destruct (cut_cases nsep p) as [[N ->]|(name & args & -> & N & ->)].
    + destruct (tags_loop _ _ _ _) as [r ok]. intros [= -> E]. now apply path_err_none in E.
    + destruct (tags_loop _ _ _ _) as [r ok] eqn:E. intros [= -> H]. apply path_err_none, andb_true_iff in H as [H ->]. cbn in H.
      apply negb_true_iff, contains_iff in H. destruct (loop_raw_inv _ _ _ _ _ E) as (l & R). rewrite (loop_raw sep _ args _ l R) in E by lia.
      injection E as <-. exists name, args, l. repeat split; auto.
  - intros (name & args & l & -> & N & Q & R & ->). rewrite cut_hit by auto. rewrite (loop_raw sep _ args _ l R) by lia. apply contains_iff in Q. now rewrite Q.
Qed.
Lemma raw_encode sep tags : sep = "&"%char \/ sep = ";"%char -> raw_args sep (join_with sep (map encode_tag tags)) (map (fun t => (query (fst t), query (snd t))) tags).
Proof.
  intro S. assert (K : forall s, ~ In "="%char (query s)) by (intros s I; apply c53_query_safe_l in I as [_ I]; apply I; cbn; auto).
  assert (V : forall s, ~ In sep (query s)) by (intros s I; apply c53_query_safe_l in I as [_ I]; apply I; destruct S as [->| ->]; cbn; auto 8).
  induction tags as [|[k v] tags IH]; [constructor|]. destruct tags as [|t tags].
  - cbn. unfold encode_tag. cbn [fst snd]. now constructor.
  - change (join_with sep (map encode_tag ((k, v) :: t :: tags))) with (encode_tag (k, v) ++ sep :: join_with sep (map encode_tag (t :: tags))).
    unfold encode_tag at 1. cbn [fst snd]. rewrite <- app_assoc. cbn [app map]. constructor; auto.
Qed.

(** Maps. *)
Lemma loop_grows sep : forall fuel args acc, exists r, fst (tags_loop fuel sep args acc) = acc ++ r.
Proof.
  induction fuel as [|f IH]; intros args acc; cbn [tags_loop]; [exists []; symmetry; apply app_nil_r|]. destruct args as [|x y]; [exists []; symmetry; apply app_nil_r|].
  destruct (next_tag sep (x :: y)) as [[[k v] next]|]; [|exists []; symmetry; apply app_nil_r].
  destruct (IH next (acc ++ [(unescape k, unescape v)])) as (r & ->). exists ((unescape k, unescape v) :: r). now rewrite <- app_assoc.
Qed.
Lemma map_loop_eq sep : forall fuel args acc m, tags_map_loop fuel sep args m = let '(l, ok) := tags_loop fuel sep args acc in
  (fold_left (fun m '(k, v) => assign str_eqb k v m) (skipn (length acc) l) m, ok).
Proof.
  assert (K : forall acc (m : list tag), fold_left (fun m '(k, v) => assign str_eqb k v m) (skipn (length acc) (acc : list tag)) m = m).
  { intros acc m. now rewrite skipn_all. }
  induction fuel as [|f IH]; intros args acc m; cbn [tags_loop tags_map_loop]; [now rewrite K|]. destruct args as [|x y]; [now rewrite K|].
  destruct (next_tag sep (x :: y)) as [[[k v] next]|]; [|now rewrite K].
  rewrite (IH next (acc ++ [(unescape k, unescape v)])). destruct (loop_grows sep f next (acc ++ [(unescape k, unescape v)])) as (r & Hr).
  destruct (tags_loop f sep next _) as [l ok]. cbn [fst] in Hr. subst l. rewrite skipn_len. rewrite <- app_assoc, skipn_len. reflexivity.
Qed.
Lemma path_map_eq nsep sep p : path_tags_map_gen nsep sep p = let '(l, e) := path_tags_gen (fun _ => B "not found") nsep sep p in (tags_map l, e).
Proof.
  unfold path_tags_map_gen, path_tags_gen. destruct (cut nsep p) as [[name args] ok]. rewrite (map_loop_eq sep _ _ [(name_key, unescape name)]).
  assert (H := loop_grows sep (S (length args)) args [(name_key, unescape name)]).
  destruct (tags_loop _ _ _ _) as [l k]. destruct H as (r & H). cbn [fst] in H. subst l. cbn [length skipn app]. reflexivity.
Qed.
Lemma path_reason r1 r2 nsep sep p : fst (path_tags_gen r1 nsep sep p) = fst (path_tags_gen r2 nsep sep p) /\
  (snd (path_tags_gen r1 nsep sep p) = None <-> snd (path_tags_gen r2 nsep sep p) = None).
Proof. unfold path_tags_gen. destruct (cut nsep p) as [[name args] ok]. destruct (tags_loop _ _ _ _) as [l k]. cbn. now rewrite !path_err_none. Qed.
Lemma delete_nil (ks : list str) : fold_left (fun m k => map_delete k m) ks [] = [].
Proof. induction ks; cbn; auto. Qed.
Lemma map_clear_nil m : map_clear m = [].
Proof.
  unfold map_clear. assert (H : forall ks m, (forall k, In k (map fst m) -> In k ks) -> fold_left (fun m k => map_delete k m) ks m = []).
  { induction ks as [|k ks IH]; intros l H; cbn.
    - destruct l as [|[a b] l]; auto. destruct (H a); now left.
    - apply IH. intros x I. apply in_map_iff in I as ([a b] & <- & I). apply filter_In in I as [I E]. cbn in *. destruct (H a) as [->|]; auto.
      + apply in_map_iff. exists (a, b). auto.
      + now rewrite str_eqb_refl in E. }
  apply H. auto.
Qed.
Lemma map_b_eq nsep sep p m : path_tags_map_b_gen nsep sep p (Some m) = Ok (path_tags_map_gen nsep sep p).
Proof. unfold path_tags_map_b_gen, path_tags_map_gen. rewrite map_clear_nil. destruct (cut nsep p) as [[? ?] ?]. now destruct (tags_map_loop _ _ _ _). Qed.

Lemma tags_map_snoc l k v : tags_map (l ++ [(k, v)]) = assign str_eqb k v (tags_map l).
Proof. unfold tags_map. now rewrite fold_left_app. Qed.
Lemma tags_map_value l k v : value_of (tags_map l) k = Some v <-> last_value l k v.
Proof.
  unfold value_of. revert k v. induction l as [|[a b] l IH] using rev_ind; intros k v.
  - cbn. split; [discriminate|]. intros ([|] & y & E & _); discriminate.
  - rewrite tags_map_snoc, (lookup_assign str_eqb str_eqb_spec). destruct (str_eqb_spec k a) as [->|N].
    + split.
      * intros [= ->]. exists l, []. split; auto.
      * intros (x & y & E & H). destruct y as [|z y _] using rev_ind.
        -- apply app_inj_tail in E as [_ E]. congruence.
        -- exfalso. rewrite app_comm_cons, app_assoc in E. apply app_inj_tail in E as [_ <-]. apply (H b). apply in_or_app. right. now left.
    + rewrite IH. split.
      * intros (x & y & -> & H). exists x, (y ++ [(a, b)]). split; [now rewrite <- app_assoc|]. intros v' I. apply in_app_or in I as [I|[I|[]]]; [now apply H in I|]. congruence.
      * intros (x & y & E & H). destruct y as [|z y _] using rev_ind.
        -- apply app_inj_tail in E as [_ E]. congruence.
        -- rewrite app_comm_cons, app_assoc in E. apply app_inj_tail in E as [-> _]. exists x, y. split; auto. intros v' I. apply (H v'). apply in_or_app. now left.
Qed.
