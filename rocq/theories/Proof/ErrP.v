(** What the errors say. *)
From Verif Require Import Model.GTags Spec.Symbols Spec.Class Spec.GlobSpec Spec.Accept Spec.PathSpec Spec.TagSpec Spec.QuerySpec Spec.ErrSpec.
From Verif Require Import Proof.SymbolsP Proof.RangesP Proof.LangP Proof.ItemP Proof.SortP Proof.ListP Proof.DenotesP Proof.ParseP Proof.NextP Proof.GlobP Proof.SafeP Proof.PanicP Proof.TotalP Proof.WellP Proof.AcceptP.
From Coq Require Import Lia ZifyBool ZifyN ZifyNat.

(** ** Globs *)
(** [comp u]: complains, without the conditions on the encoding unless u. *)
Inductive comp (u : bool) : str -> err -> Prop :=
| cm_stray a c t : (u = true -> accepted a) -> c = "]"%char \/ c = "}"%char -> comp u (a ++ c :: t) (ErrNodeUnclosed (c :: t))
| cm_class a body b : (u = true -> accepted a) -> ~ In "]"%char body -> (u = true -> ~ good_class body) ->
    comp u (a ++ bracketed body ++ b) (ErrNodeMissmatch (B "rune") (bracketed body))
| cm_open_class a t : (u = true -> accepted a) -> ~ In "]"%char t -> comp u (a ++ "["%char :: t) (ErrNodeMissmatch (B "rune") ("["%char :: t))
| cm_open_list a t : (u = true -> accepted a) -> ~ In "}"%char t -> comp u (a ++ "{"%char :: t) (ErrNodeMissmatch (B "list") ("{"%char :: t))
| cm_value a body b v e : (u = true -> accepted a) -> ~ In "}"%char body -> alternative body v -> comp u v e -> comp u (a ++ braced body ++ b) e.
Lemma comp_complains g e : comp true g e -> complains g e.
Proof. induction 1; [apply co_stray|apply co_class|apply co_open_class|apply co_open_list|eapply co_value]; eauto. Qed.
Lemma names_more x y g e : names_piece g e -> names_piece (x ++ g ++ y) e.
Proof. intros (a & c & t & b & m & -> & I & E). exists (x ++ a), c, t, (b ++ y), m. split; [now rewrite <- !app_assoc|auto]. Qed.
Lemma comp_names u g e : comp u g e -> names_piece g e.
Proof.
  assert (K : forall a c t b e m, In c brackets -> err_text e = m ++ c :: t -> names_piece (a ++ (c :: t) ++ b) e) by (intros a c t b e0 m I E; exists a, c, t, b, m; auto).
  assert (K2 : forall a c t e m, In c brackets -> err_text e = m ++ c :: t -> names_piece (a ++ c :: t) e) by (intros a c t e0 m I E; rewrite <- (app_nil_r (c :: t)); eapply K; eauto).
  induction 1 as [a c t _ C|a body b _ _ _|a t _ _|a t _ _|a body b v e _ _ (x & y & -> & _) _ IH].
  - eapply K2; [destruct C as [-> | ->]; cbn; auto|cbn [err_text]; reflexivity].
  - eapply (K a "["%char (body ++ ["]"%char]) b); [cbn; auto|]. cbn [err_text]. unfold bracketed. rewrite !app_assoc. reflexivity.
  - eapply K2; [cbn; auto|]. cbn [err_text]. rewrite !app_assoc. reflexivity.
  - eapply K2; [cbn; auto|]. cbn [err_text]. rewrite !app_assoc. reflexivity.
  - unfold braced. replace (a ++ ("{"%char :: (x ++ v ++ y) ++ ["}"%char]) ++ b) with ((a ++ "{"%char :: x) ++ v ++ (y ++ "}"%char :: b)) by (rewrite <- ?app_assoc; cbn; rewrite <- ?app_assoc; reflexivity).
    now apply names_more.
Qed.
Lemma comp_more u x g e : (u = true -> forall p, accepted p -> accepted (x ++ p)) -> comp u g e -> comp u (x ++ g) e.
Proof. intros X []; rewrite app_assoc; econstructor; eauto. Qed.
Lemma token_step f s oi a rest : clean s -> token f s oi a rest -> clean rest /\ forall p, accepted p -> accepted (a ++ p).
Proof.
  intros C T. destruct T as [body r o N H|body r o N H|n r N|r|b c r Na N Mc|b Na N].
  - rewrite bracketed_app in C. apply clean_cons_ascii in C; [|reflexivity]. apply clean_mid in C as [C1 C2]; [|reflexivity]. split; auto.
    intros p Hp. apply ac_class; auto. unfold class_item in H. destruct (ranges_expand (bracketed body)) as [rs|] eqn:E; [|discriminate].
    now apply ranges_expand_ok in E as (_ & _ & E & _).
  - rewrite braced_app in C. apply clean_cons_ascii in C; [|reflexivity]. apply clean_mid in C as [C1 C2]; [|reflexivity]. split; auto.
    intros p Hp. apply ac_list; auto. destruct H as [[-> _]|[_ H]]; [|eapply list_values_accepted; eauto].
    left. intros v v' I J. apply alternative_split in I, J. destruct I as [<-|[]], J as [<-|[]]. reflexivity.
  - split; [|intros p; apply ac_stars]. induction (S n); auto. apply IHn0. cbn [repeat app] in C. apply clean_cons_ascii in C; [exact C|reflexivity].
  - split; [apply clean_cons_ascii in C; [exact C|reflexivity]|]. intros p Hp. now apply ac_any.
  - split; [|intros p Hp; now apply ac_app]. apply clean_app_inv in C as [_ C]; auto. apply bnd_ascii. now apply metas_ascii.
  - split; [apply clean_nil|]. intros p Hp. now apply ac_app.
Qed.

Lemma chain_comp u f0 e : (forall s, s <> [] -> (u = true -> clean s) -> next_item f0 s = Err e -> comp u s e) ->
  forall fuel v st, (u = true -> clean v) -> group_chain fuel (next_item f0) v st = Err e -> comp u v e.
Proof.
  intro H. induction fuel as [|f IH]; intros v st C E; destruct v as [|c v]; try discriminate.
  cbn [group_chain] in E. destruct (next_item f0 (c :: v)) as [[oi rest]|e'| |] eqn:En; try discriminate.
  - destruct f0 as [|f0]; [discriminate|]. apply next_token in En as (a & T). destruct (token_text _ _ _ _ _ T) as [Ea _]. rewrite Ea.
    apply comp_more; [intro U; now apply (token_step _ _ _ _ _ (C U) T)|].
    assert (Cr : u = true -> clean rest) by (intro U; now apply (token_step _ _ _ _ _ (C U) T)). destruct oi; eapply IH; eauto.
  - injection E as ->. apply H; auto. discriminate.
Qed.
Lemma vals_comp u f0 e : (forall s, s <> [] -> (u = true -> clean s) -> next_item f0 s = Err e -> comp u s e) ->
  forall vals, (u = true -> Forall clean vals) -> group_vals (next_item f0) vals = Err e -> exists v, In v vals /\ comp u v e.
Proof.
  intro H. induction vals as [|v vals IH]; intros C E; cbn [group_vals] in E; [discriminate|].
  assert (C1 : u = true -> clean v) by (intro U; specialize (C U); now inversion C). assert (C2 : u = true -> Forall clean vals) by (intro U; specialize (C U); now inversion C).
  assert (R : group_vals (next_item f0) vals = Err e -> exists w, In w (v :: vals) /\ comp u w e) by (intro X; destruct (IH C2 X) as (w & I & Cw); exists w; split; [now right|auto]).
  destruct (has_wildcard v).
  - destruct (str_eqb v (B "*")); [discriminate|].
    destruct (if str_eqb v (B "?") then Ok (IAny 1) else group_val (next_item f0) v) as [it|e'| |] eqn:Ev; try discriminate; cbn [bind] in E.
    + destruct (group_vals (next_item f0) vals) as [[r|r]|e'| |]; try discriminate. cbn [bind] in E. injection E as ->. auto.
    + injection E as ->. destruct (str_eqb v (B "?")); [discriminate|]. unfold group_val in Ev.
      destruct (group_chain (length v) (next_item f0) v ([], 0%Z, 0%Z)) as [[[rl mn] mx]|e'| |] eqn:Eg; try discriminate; cbn [bind] in Ev; [destruct rl as [|? [|? ?]]; discriminate|].
      injection Ev as ->. exists v. split; [now left|]. eapply chain_comp; eauto.
  - destruct (group_vals (next_item f0) vals) as [[r|r]|e'| |]; try discriminate. cbn [bind] in E. injection E as ->. auto.
Qed.
Lemma item_comp u f e : forall s, s <> [] -> (u = true -> clean s) -> next_item f s = Err e -> comp u s e.
Proof.
  induction f as [|f IH]; intros s NE C H; [discriminate|]. destruct s as [|c0 s]; [easy|]. clear NE. cbn [next_item] in H.
  destruct (Ascii.eqb_spec c0 "[") as [->|N1].
  { destruct (index_byte ("["%char :: s) "]") as [i|] eqn:Ei.
    - apply index_byte_cut in Ei as (a & b & E & L & N). destruct a as [|x a]; [discriminate|]. injection E as <- ->.
      assert (Nb : ~ In "]"%char a) by (intro; apply N; now right). subst i.
      change ("["%char :: a ++ "]"%char :: b) with (("["%char :: a) ++ "]"%char :: b) in *.
      destruct (cut_firstn ("["%char :: a) "]" b) as [E1 E2]. rewrite E1, E2 in H. clear E1 E2.
      change (("["%char :: a) ++ ["]"%char]) with (bracketed a) in H. change (("["%char :: a) ++ "]"%char :: b) with ("["%char :: (a ++ "]"%char :: b)) in *. rewrite <- bracketed_app in *.
      destruct (ranges_expand (bracketed a)) as [rs|] eqn:Er.
      + exfalso. destruct (as_count (rr_ascii rs)) as [n0 c]. destruct (Nat.eqb n0 0 && null (rr_unicode rs)); try discriminate; destruct (null (rr_unicode rs) && Nat.eqb n0 1); try discriminate;
          destruct (rr_unicode rs) as [|q [|q2 l]]; try discriminate; destruct (Nat.eqb n0 0 && (First q =? Last q)%N); discriminate.
      + injection H as <-. apply (cm_class u []); auto; [intro; constructor|]. intro U. apply ranges_expand_fail; auto. specialize (C U). rewrite bracketed_app in C. apply clean_cons_ascii in C; [|reflexivity]. now apply clean_mid in C as [C1 C2].
    - apply index_byte_no in Ei. rewrite not_bracketed in H; [|intros body E; apply Ei; rewrite E; unfold bracketed; right; apply in_or_app; right; now left].
      injection H as <-. apply (cm_open_class u []); [intro; constructor|]. intro I. apply Ei. now right. }
  destruct (Ascii.eqb_spec c0 "{") as [->|N2].
  { destruct (index_byte ("{"%char :: s) "}") as [i|] eqn:Ei.
    - apply index_byte_cut in Ei as (a & b & E & L & N). destruct a as [|x a]; [discriminate|]. injection E as <- ->.
      assert (Nb : ~ In "}"%char a) by (intro; apply N; now right). subst i.
      change ("{"%char :: a ++ "}"%char :: b) with (("{"%char :: a) ++ "}"%char :: b) in *.
      destruct (cut_firstn ("{"%char :: a) "}" b) as [E1 E2]. rewrite E1, E2 in H. clear E1 E2.
      change (("{"%char :: a) ++ ["}"%char]) with (braced a) in H. change (("{"%char :: a) ++ "}"%char :: b) with ("{"%char :: (a ++ "}"%char :: b)) in *. rewrite <- braced_app in *.
      rewrite list_expand_braced in H. destruct (null a); [discriminate|].
      destruct (new_item_list (next_item f) (norm (split_on "," a))) as [o|e'| |] eqn:En; try discriminate. injection H as ->.
      assert (Cv : u = true -> Forall clean (norm (split_on "," a))).
      { intro U. specialize (C U). rewrite braced_app in C. apply clean_cons_ascii in C; [|reflexivity]. apply clean_mid in C as [C1 C2]; [|reflexivity].
        apply Forall_forall. intros v I. apply (proj1 (norm_in _ _)), alternative_split in I. apply (alternative_clean a); auto. }
      unfold new_item_list in En. remember (norm (split_on "," a)) as vals eqn:V. destruct vals as [|v0 [|v1 vs]]; [discriminate|destruct (null v0); discriminate|].
      rewrite V in *. destruct (list_scan (norm (split_on "," a)) max_int 0 true as_empty) as [[[[mn mx] st] fi] hs]. destruct hs.
      + unfold new_group in En. destruct (group_vals (next_item f) (norm (split_on "," a))) as [[x|[|x l]]|e'| |] eqn:Eg; try discriminate; [cbn [bind] in En; destruct (group_bounds l (item_min x) (item_max x)); discriminate|].
        injection En as ->. apply (vals_comp u) in Eg as (v & I & Cm); auto. apply (proj1 (norm_in _ _)), alternative_split in I. apply (cm_value u [] a b v); auto. intro; constructor.
      + destruct (mn =? 0)%Z; [|discriminate]. repeat match type of En with context [match ?x with _ => _ end] => destruct x end; discriminate.
    - apply index_byte_no in Ei. rewrite not_braced in H; [|intros body E; apply Ei; rewrite E; unfold braced; right; apply in_or_app; right; now left].
      injection H as <-. apply (cm_open_list u []); [intro; constructor|]. intro I. apply Ei. now right. }
  destruct (Ascii.eqb c0 "*"); [discriminate|]. destruct (Ascii.eqb c0 "?"); [discriminate|].
  destruct (Ascii.eqb c0 "]" || Ascii.eqb c0 "}") eqn:N5.
  - injection H as <-. apply (cm_stray u []); [intro; constructor|]. apply orb_true_iff in N5 as [N5|N5]; apply Ascii.eqb_eq in N5; auto.
  - destruct (index_wildcard (c0 :: s)) as [x|]; [|discriminate]. destruct (split_string (c0 :: s) x); discriminate.
Qed.
Lemma loop_comp u e : forall f t st, (u = true -> clean t) -> parse_loop f t st = Err e -> comp u t e.
Proof.
  induction f as [|f IH]; intros t st C E; destruct t as [|c t]; try discriminate.
  cbn [parse_loop] in E. destruct (next_wildcard_item (c :: t)) as [[oi rest]|e'| |] eqn:En; try discriminate; unfold next_wildcard_item in En.
  - apply next_token in En as (a & T). destruct (token_text _ _ _ _ _ T) as [Ea _]. rewrite Ea.
    apply comp_more; [intro U; now apply (token_step _ _ _ _ _ (C U) T)|].
    assert (Cr : u = true -> clean rest) by (intro U; now apply (token_step _ _ _ _ _ (C U) T)). destruct oi; eapply IH; eauto.
  - injection E as ->. eapply item_comp; eauto. discriminate.
Qed.
Lemma parse_comp u g e : (u = true -> clean g) -> glob_parse g = Err e ->
  (exists a c b, g = a ++ c :: b /\ In c brackets /\ (forall d, In d (a ++ b) -> ~ In d metas) /\ e = ErrNodeUnclosed (c :: b)) \/
  (exists h b, g = h ++ b /\ (forall d, In d b -> ~ In d metas) /\ comp u h e).
Proof.
  intros C H. unfold glob_parse in H. destruct (index_wildcard g) as [pos|] eqn:E; [|discriminate].
  apply find_cut in E as (a & c & b & Eg & <- & P & Na).
  assert (Es : skipn (length a) g = c :: b) by (rewrite Eg, skipn_app, skipn_all, Nat.sub_diag; reflexivity). rewrite Es in H. cbv zeta in H.
  destruct (index_last_wildcard (c :: b)) as [x0|] eqn:El; [|discriminate].
  apply find_last_cut in El as (x & y & t & Ex & <- & Py & Nt).
  assert (F : firstn (S (length x)) (c :: b) = x ++ [y] /\ skipn (S (length x)) (c :: b) = t) by (rewrite Ex; apply cut_firstn). destruct F as [F1 F2].
  destruct (Nat.eqb (length x) 0 && negb (Ascii.eqb (nth 0 (c :: b) zero) "?") && negb (Ascii.eqb (nth 0 (c :: b) zero) "*")) eqn:Ec.
  { left. injection H as <-. apply andb_prop in Ec as [Ec E3]. apply andb_prop in Ec as [E1 E2]. destruct x as [|? ?]; [|discriminate]. injection Ex as <- <-. cbn [nth] in E2, E3.
    assert (Ic : In c metas) by now apply is_wild_iff. exists a, c, b. split; auto. split; [|split; auto].
    - destruct Ic as [<-|[<-|[<-|[<-|[<-|[<-|[]]]]]]]; try discriminate; cbn; auto.
    - intros d I. apply wild_meta. apply in_app_or in I as [I|I]; auto. }
  assert (X : (if (length x <? length (c :: b) - 1)%nat then (skipn (S (length x)) (c :: b), firstn (S (length x)) (c :: b)) else ([], c :: b)) = (t, x ++ [y])).
  { rewrite F1, F2. destruct (Nat.ltb_spec (length x) (length (c :: b) - 1)) as [Lt|Ge]; eauto. rewrite Ex in *. rewrite app_length in Ge. cbn [length] in Ge. destruct t; [reflexivity|cbn in Ge; lia]. }
  rewrite X in H. clear X F1 F2.
  assert (Eg2 : g = (a ++ (x ++ [y])) ++ t) by (rewrite Eg, Ex, <- !app_assoc; reflexivity).
  assert (Cb : u = true -> clean (x ++ [y])).
  { intro U. specialize (C U). assert (Ic : In c metas) by now apply is_wild_iff. assert (Iy : In y metas) by now apply is_wild_iff.
    rewrite Eg, Ex in C. apply clean_app_inv in C as [_ C]; [|rewrite <- Ex; apply bnd_ascii; now apply metas_ascii].
    apply clean_mid in C as [C1 C2]; [|now apply metas_ascii]. apply clean_app; auto. apply clean_byte. now apply metas_ascii. }
  right. exists (a ++ (x ++ [y])), t. split; auto. split; [intros d I; apply wild_meta; auto|].
  apply comp_more; [intros _ p Hp; apply ac_app; auto; intros d I; apply wild_meta; auto|].
  destruct (str_eqb (x ++ [y]) (B "*")); [discriminate|]. destruct (str_eqb (x ++ [y]) (B "?")); [discriminate|].
  destruct (parse_loop (length (x ++ [y])) (x ++ [y]) _) as [[[[p n] z] r]|e'| |] eqn:L; try discriminate; cbn [bind] in H; [destruct (take_suffix t r); discriminate|].
  injection H as ->. eapply loop_comp; eauto.
Qed.
Lemma glob_part_error g e : glob_parse g = Err e -> part_error g e.
Proof.
  intro H. split.
  - destruct (parse_comp false g e ltac:(discriminate) H) as [(a & c & b & -> & I & _ & ->)|(h & b & -> & _ & Cm)].
    + exists a, c, b, [], (B "glob contain unclosed node segment: "). split; [now rewrite app_nil_r|]. split; auto.
    + apply (names_more [] b). now apply comp_names in Cm.
  - intro C. destruct (parse_comp true g e (fun _ => C) H) as [(a & c & b & -> & I & N & ->)|(h & b & -> & N & Cm)]; constructor; auto. now apply comp_complains.
Qed.
