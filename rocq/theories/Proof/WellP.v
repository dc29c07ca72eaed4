(** Which globs are accepted. *)
From Verif Require Import Model.Glob Spec.Symbols Spec.Class Spec.GlobSpec.
From Verif Require Import Proof.SymbolsP Proof.RangesP Proof.LangP Proof.ItemP Proof.SortP Proof.AsciiSetP Proof.ListP Proof.DenotesP Proof.MatchP Proof.ParseP Proof.NextP Proof.GlobP Proof.SafeP Proof.PanicP Proof.TotalP.
From Coq Require Import Sorting.Sorted Lia ZifyBool ZifyN ZifyNat.

Ltac meta := cbn; tauto.
Ltac wfinv H := match type of H with well_formed ?s => let x := fresh in let E := fresh "E" in remember s as x eqn:E;
  destruct H as [|c' p' N' H'|p' H'|p' H'|body p' N' G' H'|body p' N' G' H']; [discriminate E|first [discriminate E|injection E as ? ?; subst]|first [discriminate E|injection E as ? ?; subst]|first [discriminate E|injection E as ? ?; subst]| |] end.
Lemma wf_cons_inv c p : ~ In c metas -> well_formed (c :: p) -> well_formed p.
Proof.
  intros N H. wfinv H; auto; exfalso; apply N.
  - rewrite bracketed_app in E. injection E as <- _. meta.
  - rewrite braced_app in E. injection E as <- _. meta.
Qed.
Lemma wf_strip a p : (forall c, In c a -> ~ In c metas) -> well_formed (a ++ p) -> well_formed p.
Proof.
  induction a as [|c a IH]; intros N H; auto. apply IH; [intros d I; apply N; now right|]. apply wf_cons_inv in H; auto. apply N. now left.
Qed.
Lemma wf_mark c p : c = "?"%char \/ c = "*"%char -> well_formed (c :: p) -> well_formed p.
Proof.
  intros N H. wfinv H; auto; exfalso.
  - rewrite bracketed_app in E. injection E as <- _. destruct N; discriminate.
  - rewrite braced_app in E. injection E as <- _. destruct N; discriminate.
Qed.
Lemma wf_stars n p : well_formed (repeat "*"%char n ++ p) -> well_formed p.
Proof. induction n as [|n IH]; auto. cbn [repeat app]. intro H. apply wf_mark in H; auto. Qed.
Lemma wf_class_inv s : well_formed ("["%char :: s) -> exists body p, "["%char :: s = bracketed body ++ p /\ ~ In "]"%char body /\ good_class body /\ well_formed p.
Proof.
  intro H. wfinv H.
  - elim N'. meta.
  - exists body, p'. auto.
  - rewrite braced_app in E. discriminate.
Qed.
Lemma wf_list_inv s : well_formed ("{"%char :: s) -> exists body p, "{"%char :: s = braced body ++ p /\ ~ In "}"%char body /\ (forall v, alternative body v -> well_formed v) /\ well_formed p.
Proof.
  intro H. wfinv H.
  - elim N'. meta.
  - rewrite bracketed_app in E. discriminate.
  - exists body, p'. auto.
Qed.
Lemma wf_close c p : c = "]"%char \/ c = "}"%char -> ~ well_formed (c :: p).
Proof.
  intros N H. wfinv H; try (destruct N; discriminate).
  - apply N'. destruct N as [-> | ->]; meta.
  - rewrite bracketed_app in E. injection E as <- _. destruct N; discriminate.
  - rewrite braced_app in E. injection E as <- _. destruct N; discriminate.
Qed.
Lemma cut2 (c : ascii) (a b p t : str) : a ++ c :: p = b ++ t -> ~ In c t -> exists p', b = a ++ c :: p' /\ p = p' ++ t.
Proof.
  revert b. induction a as [|x a IH]; intros b E N.
  - destruct b as [|y b]; [cbn in E; rewrite <- E in N; elim N; now left|]. injection E as <- ->. exists b. auto.
  - destruct b as [|y b]; [cbn in E; rewrite <- E in N; elim N; right; apply in_or_app; right; now left|]. injection E as <- E.
    apply IH in E as (p' & -> & ->); auto. exists p'. auto.
Qed.
Lemma wf_cut g : well_formed g -> forall b suf, g = b ++ suf -> (forall c, In c suf -> ~ In c metas) -> well_formed b.
Proof.
  induction 1 as [|c p N H IH|p H IH|p H IH|body p N G H IH|body p N G IH1 H IH]; intros b suf E M.
  - destruct b; [constructor|discriminate].
  - destruct b as [|x b]; [constructor|]. injection E as <- E. constructor; eauto.
  - destruct b as [|x b]; [constructor|]. injection E as <- E. apply wf_any; eauto.
  - destruct b as [|x b]; [constructor|]. injection E as <- E. apply wf_star; eauto.
  - rewrite bracketed_app in E. destruct b as [|x b]; [constructor|]. injection E as <- E. apply cut2 in E as (p' & -> & ->); [|intro I; apply (M _ I); meta].
    rewrite <- bracketed_app. apply wf_class; eauto.
  - rewrite braced_app in E. destruct b as [|x b]; [constructor|]. injection E as <- E. apply cut2 in E as (p' & -> & ->); [|intro I; apply (M _ I); meta].
    rewrite <- braced_app. apply wf_list; eauto.
Qed.
Lemma token_wf f s oi a rest : token f s oi a rest -> well_formed s -> well_formed rest.
Proof.
  intros [body r o N H|body r o N H|n r N|r|b c r Na N Mc|b Na N] W.
  - rewrite bracketed_app in W. apply wf_class_inv in W as (body' & p & E & N' & _ & W). rewrite bracketed_app in E. injection E as E. apply cut_unique in E as [_ ->]; auto.
  - rewrite braced_app in W. apply wf_list_inv in W as (body' & p & E & N' & _ & W). rewrite braced_app in E. injection E as E. apply cut_unique in E as [_ ->]; auto.
  - now apply wf_stars in W.
  - apply wf_mark in W; auto.
  - now apply wf_strip in W.
  - constructor.
Qed.
Lemma good_clean body : good_class body -> clean body.
Proof. intros (rs & ps & S & E & _). exists rs. auto. Qed.

Definition isok {A} (r : res A) : Prop := match r with Ok _ => True | _ => False end.
Lemma isok_bind {A C} (r : res A) (k : A -> res C) : isok r -> (forall a, r = Ok a -> isok (k a)) -> isok (bind r k).
Proof. destruct r; cbn; auto. Qed.
Lemma group_chain_ok f0 : forall fuel v st, (forall t, length t <= length v -> well_formed t -> t <> [] -> isok (next_item (S f0) t)) -> length v <= fuel -> well_formed v -> isok (group_chain fuel (next_item (S f0)) v st).
Proof.
  induction fuel as [|f IH]; intros v st Hn L W; destruct v as [|c v]; try exact I; [cbn in L; lia|].
  cbn [group_chain]. specialize (Hn (c :: v) (le_n _) W ltac:(discriminate)) as H1. destruct (next_item (S f0) (c :: v)) as [[oi rest]|e| |] eqn:E; try easy.
  apply next_token in E as (a & T). pose proof (token_wf _ _ _ _ _ T W) as Wr. apply token_text in T as [Ea Na].
  assert (Lr : length rest < length (c :: v)). { rewrite Ea, app_length. destruct a; [easy|cbn; lia]. }
  destruct oi; apply IH; try lia; auto; intros t Lt; apply Hn; lia.
Qed.
Lemma group_vals_ok f0 vals : (forall v t, In v vals -> length t <= length v -> well_formed t -> t <> [] -> isok (next_item (S f0) t)) -> Forall well_formed vals -> isok (group_vals (next_item (S f0)) vals).
Proof.
  induction vals as [|v vals IH]; intros H F; [exact I|]. cbn [group_vals]. inversion F; subst.
  assert (IH' : isok (group_vals (next_item (S f0)) vals)) by (apply IH; auto; intros v0 t I; apply H; now right).
  destruct (has_wildcard v).
  - destruct (str_eqb v (B "*")); [exact I|]. apply isok_bind.
    + destruct (str_eqb v (B "?")); [exact I|]. unfold group_val. apply isok_bind; [apply group_chain_ok; auto; intros t; apply H; now left|].
      intros [[rl mn] mx] _. destruct rl as [|? [|? ?]]; exact I.
    + intros it _. apply isok_bind; auto. intros [x|l] _; exact I.
  - apply isok_bind; auto. intros [x|l] _; exact I.
Qed.
Lemma item_list_ok f0 vals : StronglySorted str_lt vals -> Forall well_formed vals ->
  (forall v t, In v vals -> length t <= length v -> fine (next_item (S f0) t) /\ (well_formed t -> t <> [] -> isok (next_item (S f0) t))) -> isok (new_item_list (next_item (S f0)) vals).
Proof.
  intros S F H. pose proof (item_list_fine f0 vals S (fun v t I L => proj1 (H v t I L))) as X. revert X. unfold new_item_list. destruct vals as [|v [|v2 vals]]; [easy|destruct (null v); easy|].
  remember (v :: v2 :: vals) as vs eqn:Evs. destruct (list_scan vs max_int 0 true as_empty) as [[[[mn mx] st] fi] hs] eqn:E. destruct hs; intro X.
  - unfold new_group. apply isok_bind; [apply group_vals_ok; auto; intros; eapply H; eauto|]. intros [it|[|x l]] _; try exact I. destruct (group_bounds l (item_min x) (item_max x)); exact I.
  - subst vs. destruct (mn =? 0)%Z; [|exact I]. destruct v; [exact I|easy].
Qed.
Lemma next_item_ok : forall f s, length s < f -> well_formed s -> s <> [] -> isok (next_item f s).
Proof.
  induction f as [|f IH]; intros s L W NE; [lia|]. cbn [next_item]. destruct s as [|c0 s]; [easy|].
  destruct (Ascii.eqb_spec c0 "[") as [->|N1].
  { apply wf_class_inv in W as (body & p & E & N & G & W). rewrite E, bracketed_app. change ("["%char :: body ++ "]"%char :: p) with (("["%char :: body) ++ "]"%char :: p).
    rewrite (index_byte_some _ _ ("["%char :: body) p) by first [reflexivity|intros [X|X]; [discriminate|auto]].
    destruct (cut_firstn ("["%char :: body) "]" p) as [E1 E2]. rewrite E1, E2. change (("["%char :: body) ++ ["]"%char]) with (bracketed body).
    destruct (ranges_expand (bracketed body)) as [rs|] eqn:Er; [|elim (proj1 (ranges_expand_fail body (good_clean _ G)) Er); auto].
    destruct (as_count (rr_ascii rs)) as [n0 c];
      destruct (Nat.eqb n0 0 && null (rr_unicode rs)); try exact I; destruct (null (rr_unicode rs) && Nat.eqb n0 1); try exact I;
      destruct (rr_unicode rs) as [|q [|q2 l]]; try exact I; destruct (Nat.eqb n0 0 && (First q =? Last q)%N); exact I. }
  destruct (Ascii.eqb_spec c0 "{") as [->|N2].
  { apply wf_list_inv in W as (body & p & E & N & G & W). rewrite E, braced_app in *. change ("{"%char :: body ++ "}"%char :: p) with (("{"%char :: body) ++ "}"%char :: p).
    rewrite (index_byte_some _ _ ("{"%char :: body) p) by first [reflexivity|intros [X|X]; [discriminate|auto]].
    destruct (cut_firstn ("{"%char :: body) "}" p) as [E1 E2]. rewrite E1, E2. change (("{"%char :: body) ++ ["}"%char]) with (braced body).
    rewrite list_expand_braced. destruct (null body); [exact I|]. apply isok_bind; [|intros; exact I].
    cbn [length] in L. rewrite app_length in L. cbn [length] in L. destruct f as [|f]; [lia|].
    apply item_list_ok.
    - apply norm_sorted.
    - apply Forall_forall. intros v Iv. apply G, alternative_split. now apply (proj1 (norm_in _ _)) in Iv.
    - intros v t Iv Lt. apply (proj1 (norm_in _ _)) in Iv. destruct (split_part "," body v Iv) as (x & y & -> & _). rewrite !app_length in L.
      split; [apply next_item_fine; lia|intros Wt Nt; apply IH; auto; lia]. }
  destruct (Ascii.eqb c0 "*"); [exact I|]. destruct (Ascii.eqb c0 "?"); [exact I|].
  destruct (Ascii.eqb_spec c0 "]") as [->|N5]; [elim (wf_close _ s (or_introl eq_refl) W)|].
  destruct (Ascii.eqb_spec c0 "}") as [->|N6]; [elim (wf_close _ s (or_intror eq_refl) W)|]. cbn [orb].
  destruct (index_wildcard (c0 :: s)) as [e|]; [|exact I]. destruct (split_string (c0 :: s) e); exact I.
Qed.
Lemma parse_loop_ok : forall f t st, length t <= f -> well_formed t -> isok (parse_loop f t st).
Proof.
  induction f as [|f IH]; intros t st L W; destruct t as [|c t]; try exact I; [cbn in L; lia|].
  cbn [parse_loop]. pose proof (next_item_ok (S (length (c :: t))) (c :: t) (le_n _) W ltac:(discriminate)) as H. unfold next_wildcard_item.
  destruct (next_item (S (length (c :: t))) (c :: t)) as [[oi rest]|e| |] eqn:E; try easy.
  apply next_token in E as (a & T). pose proof (token_wf _ _ _ _ _ T W) as Wr. apply token_text in T as [Ea Na].
  assert (Lr : length rest < length (c :: t)). { rewrite Ea, app_length. destruct a; [easy|cbn; lia]. }
  destruct oi; apply IH; auto; lia.
Qed.
Lemma wild_meta c : is_wild c = false -> ~ In c metas.
Proof. intros H I. apply is_wild_iff in I. congruence. Qed.
Lemma glob_parse_ok g : well_formed g -> isok (glob_parse g).
Proof.
  intro W. unfold glob_parse. destruct (index_wildcard g) as [pos|] eqn:E; [|exact I].
  apply find_cut in E as (a & c & b & Eg & <- & P & Na). assert (W1 : well_formed (c :: b)).
  { rewrite Eg in W. apply wf_strip in W; auto. intros d I. apply wild_meta. auto. }
  assert (Es : skipn (length a) g = c :: b) by (rewrite Eg, skipn_app, skipn_all, Nat.sub_diag; reflexivity). rewrite Es. cbv zeta.
  destruct (index_last_wildcard (c :: b)) as [e|] eqn:El.
  - apply find_last_cut in El as (x & y & t & Ex & <- & Py & Nt).
    assert (F : firstn (S (length x)) (c :: b) = x ++ [y] /\ skipn (S (length x)) (c :: b) = t) by (rewrite Ex; apply cut_firstn). destruct F as [F1 F2].
    assert (W2 : well_formed (x ++ [y])). { apply (wf_cut _ W1 _ t); [now rewrite Ex, <- app_assoc|]. intros d I. apply wild_meta. auto. }
    destruct (Nat.eqb (length x) 0 && negb (Ascii.eqb (nth 0 (c :: b) zero) "?") && negb (Ascii.eqb (nth 0 (c :: b) zero) "*")) eqn:Ec.
    { exfalso. apply andb_prop in Ec as [Ec E3]. apply andb_prop in Ec as [E1 E2]. destruct x as [|? ?]; [|discriminate]. injection Ex as <- <-. cbn [nth] in E2, E3.
      assert (Ic : In c metas) by now apply is_wild_iff. destruct Ic as [<-|[<-|[<-|[<-|[<-|[<-|[]]]]]]]; try discriminate.
      - apply wf_class_inv in W2 as (body & p & X & _). rewrite bracketed_app in X. injection X as X. destruct body; discriminate.
      - elim (wf_close _ _ (or_introl eq_refl) W2).
      - apply wf_list_inv in W2 as (body & p & X & _). rewrite braced_app in X. injection X as X. destruct body; discriminate.
      - elim (wf_close _ _ (or_intror eq_refl) W2). }
    assert (X : exists suffix, (if (length x <? length (c :: b) - 1)%nat then (skipn (S (length x)) (c :: b), firstn (S (length x)) (c :: b)) else ([], c :: b)) = (suffix, x ++ [y])).
    { rewrite F1, F2. destruct (Nat.ltb_spec (length x) (length (c :: b) - 1)) as [Lt|Ge]; eauto. exists []. f_equal. rewrite Ex in *. rewrite app_length in Ge. cbn [length] in Ge. destruct t; [reflexivity|cbn in Ge; lia]. }
    destruct X as (suffix & ->). destruct (str_eqb (x ++ [y]) (B "*")); [exact I|]. destruct (str_eqb (x ++ [y]) (B "?")); [exact I|].
    apply isok_bind; [now apply parse_loop_ok|]. intros [[[p n] z] r] _. destruct (take_suffix suffix r); exact I.
  - exfalso. unfold index_last_wildcard in El. cbn [find_last_byte] in El. rewrite P in El. destruct (find_last_byte is_wild b); discriminate.
Qed.

(** Accepted globs have their brackets closed. *)
Lemma clean_cons_ascii c p : (code c < 128)%N -> clean (c :: p) -> clean p.
Proof. intros L C. rewrite clean_symbols in *. rewrite symbols_ascii in C by auto. now inversion C. Qed.
Lemma clean_mid c (a b : str) : (code c < 128)%N -> clean (a ++ c :: b) -> clean a /\ clean b.
Proof. intros L T. apply clean_app_inv in T as [Ta Tb]; [|now apply bnd_ascii]. split; auto. now apply clean_cons_ascii in Tb. Qed.
Lemma bc_app a p : (forall c, In c a -> ~ In c metas) -> brackets_closed p -> brackets_closed (a ++ p).
Proof. induction a as [|c a IH]; intros N H; auto. cbn [app]. constructor; [apply N; now left|]. apply IH; auto. intros d I. apply N. now right. Qed.
Lemma bc_stars n p : brackets_closed p -> brackets_closed (repeat "*"%char n ++ p).
Proof. induction n; auto. intro. cbn [repeat app]. apply bc_star. auto. Qed.
Lemma token_bc f s oi a rest : clean s -> token f s oi a rest -> (clean rest -> brackets_closed rest) -> clean rest /\ brackets_closed s.
Proof.
  intros C T H. assert (X : clean rest /\ forall p, clean p -> brackets_closed p -> brackets_closed (a ++ p)).
  2:{ destruct X as [X1 X2]. destruct (token_text _ _ _ _ _ T) as [-> _]. auto. }
  clear H.
  destruct T as [body r o N H|body r o N H|n r N|r|b c r Na N Mc|b Na N].
  - rewrite bracketed_app in C. apply clean_cons_ascii in C; [|reflexivity]. apply clean_mid in C as [C1 C2]; [|reflexivity]. split; auto.
    intros p _ Hp. apply bc_class; auto. unfold class_item in H. destruct (ranges_expand (bracketed body)) as [rs|] eqn:E; [|discriminate].
    now apply ranges_expand_ok in E as (_ & _ & E & _).
  - rewrite braced_app in C. apply clean_cons_ascii in C; [|reflexivity]. apply clean_mid in C as [C1 C2]; [|reflexivity]. split; auto.
    intros p _ Hp. now apply bc_list.
  - split; [|intros p _; apply bc_stars]. induction (S n); auto. apply IHn0. cbn [repeat app] in C. apply clean_cons_ascii in C; [exact C|reflexivity].
  - split; [apply clean_cons_ascii in C; [exact C|reflexivity]|]. intros p _ Hp. now apply bc_any.
  - split; [|intros p _ Hp; now apply bc_app]. apply clean_app_inv in C as [_ C]; auto. apply bnd_ascii. now apply metas_ascii.
  - split; [apply clean_nil|]. intros p _ Hp. now apply bc_app.
Qed.

Lemma loop_bc : forall f t st st', clean t -> parse_loop f t st = Ok st' -> brackets_closed t.
Proof.
  induction f as [|f IH]; intros t st st' C H; destruct t as [|c t]; try apply bc_end; [discriminate|].
  cbn [parse_loop] in H. destruct (next_wildcard_item (c :: t)) as [[oi rest]|e| |] eqn:E; try discriminate. unfold next_wildcard_item in E.
  apply next_token in E as (a & T). apply (token_bc _ _ _ _ _ C T). intro Cr. destruct oi; eapply IH; eauto.
Qed.
Lemma bc_end_app a : brackets_closed a -> forall p, brackets_closed p -> brackets_closed (a ++ p).
Proof.
  induction 1 as [|c q N H IH|q H IH|q H IH|body q N G H IH|body q N H IH]; intros p Hp; auto; cbn [app].
  - apply bc_text; auto.
  - apply bc_any; auto.
  - apply bc_star; auto.
  - rewrite <- app_assoc. apply bc_class; auto.
  - rewrite <- app_assoc. apply bc_list; auto.
Qed.
Lemma bc_text_only a : (forall c, In c a -> ~ In c metas) -> brackets_closed a.
Proof. intro N. rewrite <- (app_nil_r a). apply bc_app; auto. constructor. Qed.
Lemma parse_closed g gl : clean g -> glob_parse g = Ok gl -> brackets_closed g.
Proof.
  intros C H. unfold glob_parse in H. destruct (index_wildcard g) as [pos|] eqn:E.
  2:{ apply bc_text_only. unfold index_wildcard in E. rewrite find_byte_none in E. intros c I. apply wild_meta. now apply E. }
  apply find_cut in E as (a & c & b & Eg & <- & P & Na).
  assert (Es : skipn (length a) g = c :: b) by (rewrite Eg, skipn_app, skipn_all, Nat.sub_diag; reflexivity). rewrite Es in H. cbv zeta in H.
  destruct (index_last_wildcard (c :: b)) as [e|] eqn:El; [|discriminate].
  apply find_last_cut in El as (x & y & t & Ex & <- & Py & Nt).
  assert (F : firstn (S (length x)) (c :: b) = x ++ [y] /\ skipn (S (length x)) (c :: b) = t) by (rewrite Ex; apply cut_firstn). destruct F as [F1 F2].
  destruct (Nat.eqb (length x) 0 && negb (Ascii.eqb (nth 0 (c :: b) zero) "?") && negb (Ascii.eqb (nth 0 (c :: b) zero) "*")); [discriminate|].
  assert (X : (if (length x <? length (c :: b) - 1)%nat then (skipn (S (length x)) (c :: b), firstn (S (length x)) (c :: b)) else ([], c :: b)) = (t, x ++ [y])).
  { rewrite F1, F2. destruct (Nat.ltb_spec (length x) (length (c :: b) - 1)) as [Lt|Ge]; eauto. rewrite Ex in *. rewrite app_length in Ge. cbn [length] in Ge. destruct t; [reflexivity|cbn in Ge; lia]. }
  rewrite X in H. clear X F1 F2.
  assert (Eg2 : g = a ++ (x ++ [y]) ++ t) by (rewrite Eg, Ex, <- app_assoc; reflexivity).
  assert (Cb : clean (x ++ [y])).
  { assert (Ic : In c metas) by now apply is_wild_iff. assert (Iy : In y metas) by now apply is_wild_iff.
    rewrite Eg, Ex in C. apply clean_app_inv in C as [_ C]; [|rewrite <- Ex; apply bnd_ascii; now apply metas_ascii].
    change (x ++ y :: t) with (x ++ [y] ++ t) in C. rewrite app_assoc in C. rewrite <- app_assoc in C. cbn [app] in C. 
    apply clean_mid in C as [C1 C2]; [|now apply metas_ascii]. apply clean_app; auto. apply clean_byte. now apply metas_ascii. }
  rewrite Eg2. apply bc_app; [intros d I; apply wild_meta; auto|]. apply bc_end_app; [|apply bc_text_only; intros d I; apply wild_meta; auto].
  destruct (str_eqb_spec (x ++ [y]) (B "*")) as [->|]; [apply bc_star, bc_end|]. destruct (str_eqb_spec (x ++ [y]) (B "?")) as [->|]; [apply bc_any, bc_end|].
  destruct (parse_loop (length (x ++ [y])) (x ++ [y]) _) as [st| | |] eqn:L; try discriminate. eapply loop_bc; eauto.
Qed.
Lemma bc_wf g : brackets_closed g -> ~ In "{"%char g -> well_formed g.
Proof.
  induction 1 as [|c q N H IH|q H IH|q H IH|body q N G H IH|body q N H IH]; intro NB.
  - apply wf_end.
  - apply wf_text; auto. apply IH. intro. apply NB. now right.
  - apply wf_any; auto. apply IH. intro. apply NB. now right.
  - apply wf_star; auto. apply IH. intro. apply NB. now right.
  - apply wf_class; auto. apply IH. intro I. apply NB. apply in_or_app. now right.
  - elim NB. now left.
Qed.
