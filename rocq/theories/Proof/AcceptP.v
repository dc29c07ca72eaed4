(** Exactly which globs are accepted. *)
From Verif Require Import Model.Glob Spec.Symbols Spec.Class Spec.GlobSpec Spec.Accept.
From Verif Require Import Proof.SymbolsP Proof.RangesP Proof.LangP Proof.ItemP Proof.SortP Proof.AsciiSetP Proof.ListP Proof.DenotesP Proof.MatchP Proof.ParseP Proof.NextP Proof.GlobP Proof.SafeP Proof.PanicP Proof.TotalP Proof.WellP Proof.ItemTop.
From Coq Require Import Sorting.Sorted Lia ZifyBool ZifyN ZifyNat.

(** Accepted texts are parsed. *)
Ltac acinv H := match type of H with accepted ?s => let x := fresh in let E := fresh "E" in remember s as x eqn:E;
  destruct H as [|c' p' N' H'|p' H'|p' H'|body p' N' G' H'|body p' N' G' H']; [discriminate E|first [discriminate E|injection E as ? ?; subst]|first [discriminate E|injection E as ? ?; subst]|first [discriminate E|injection E as ? ?; subst]| |] end.
Lemma ac_cons_inv c p : ~ In c metas -> accepted (c :: p) -> accepted p.
Proof.
  intros N H. acinv H; auto; exfalso; apply N.
  - rewrite bracketed_app in E. injection E as <- _. meta.
  - rewrite braced_app in E. injection E as <- _. meta.
Qed.
Lemma ac_strip a p : (forall c, In c a -> ~ In c metas) -> accepted (a ++ p) -> accepted p.
Proof.
  induction a as [|c a IH]; intros N H; auto. apply IH; [intros d I; apply N; now right|]. apply ac_cons_inv in H; auto. apply N. now left.
Qed.
Lemma ac_mark c p : c = "?"%char \/ c = "*"%char -> accepted (c :: p) -> accepted p.
Proof.
  intros N H. acinv H; auto; exfalso.
  - rewrite bracketed_app in E. injection E as <- _. destruct N; discriminate.
  - rewrite braced_app in E. injection E as <- _. destruct N; discriminate.
Qed.
Lemma ac_stars_inv n p : accepted (repeat "*"%char n ++ p) -> accepted p.
Proof. induction n as [|n IH]; auto. cbn [repeat app]. intro H. apply ac_mark in H; auto. Qed.
Lemma ac_class_inv s : accepted ("["%char :: s) -> exists body p, "["%char :: s = bracketed body ++ p /\ ~ In "]"%char body /\ good_class body /\ accepted p.
Proof.
  intro H. acinv H.
  - elim N'. meta.
  - exists body, p'. auto.
  - rewrite braced_app in E. discriminate.
Qed.
Lemma ac_list_inv s : accepted ("{"%char :: s) -> exists body p, "{"%char :: s = braced body ++ p /\ ~ In "}"%char body /\ values_accepted body /\ accepted p.
Proof.
  intro H. acinv H.
  - elim N'. meta.
  - rewrite bracketed_app in E. discriminate.
  - exists body, p'. auto.
Qed.
Lemma ac_close c p : c = "]"%char \/ c = "}"%char -> ~ accepted (c :: p).
Proof.
  intros N H. acinv H; try (destruct N; discriminate).
  - apply N'. destruct N as [-> | ->]; meta.
  - rewrite bracketed_app in E. injection E as <- _. destruct N; discriminate.
  - rewrite braced_app in E. injection E as <- _. destruct N; discriminate.
Qed.
Lemma ac_cut g : accepted g -> forall b suf, g = b ++ suf -> (forall c, In c suf -> ~ In c metas) -> accepted b.
Proof.
  induction 1 as [|c p N H IH|p H IH|p H IH|body p N G H IH|body p N G H IH]; intros b suf E M.
  - destruct b; [constructor|discriminate].
  - destruct b as [|x b]; [constructor|]. injection E as <- E. constructor; eauto.
  - destruct b as [|x b]; [constructor|]. injection E as <- E. apply ac_any; eauto.
  - destruct b as [|x b]; [constructor|]. injection E as <- E. apply ac_star; eauto.
  - rewrite bracketed_app in E. destruct b as [|x b]; [constructor|]. injection E as <- E. apply cut2 in E as (p' & -> & ->); [|intro I; apply (M _ I); meta].
    rewrite <- bracketed_app. apply ac_class; eauto.
  - rewrite braced_app in E. destruct b as [|x b]; [constructor|]. injection E as <- E. apply cut2 in E as (p' & -> & ->); [|intro I; apply (M _ I); meta].
    rewrite <- braced_app. apply ac_list; eauto.
Qed.
Lemma token_ac_rest f s oi a rest : token f s oi a rest -> accepted s -> accepted rest.
Proof.
  intros [body r o N H|body r o N H|n r N|r|b c r Na N Mc|b Na N] W.
  - rewrite bracketed_app in W. apply ac_class_inv in W as (body' & p & E & N' & _ & W). rewrite bracketed_app in E. injection E as E. apply cut_unique in E as [_ ->]; auto.
  - rewrite braced_app in W. apply ac_list_inv in W as (body' & p & E & N' & _ & W). rewrite braced_app in E. injection E as E. apply cut_unique in E as [_ ->]; auto.
  - now apply ac_stars_inv in W.
  - apply ac_mark in W; auto.
  - now apply ac_strip in W.
  - constructor.
Qed.

Lemma group_vals_ac f0 vals : StronglySorted str_lt vals ->
  (forall v t, In v vals -> length t <= length v -> well_formed t -> t <> [] -> isok (next_item (S f0) t)) ->
  (forall v, In v vals -> well_formed v \/ In (B "*") vals /\ str_lt (B "*") v) -> isok (group_vals (next_item (S f0)) vals).
Proof.
  induction 1 as [|v vals SS IH Fv]; intros H W; [exact I|]. cbn [group_vals].
  destruct (str_eqb_spec v (B "*")) as [->|Nv]; [exact I|].
  assert (Wv : well_formed v).
  { destruct (W v (or_introl eq_refl)) as [Wv|[[X|I] L]]; auto; [congruence|]. exfalso. rewrite Forall_forall in Fv. apply Fv in I.
    unfold str_lt in *. apply byte_order_iff in I, L. apply byte_order_iff in I, L.
    pose proof (str_ltb_trans _ _ _ I L) as X. rewrite str_ltb_irrefl in X. discriminate. }
  assert (IH' : isok (group_vals (next_item (S f0)) vals)).
  { apply IH; [intros v0 t I; apply H; now right|]. intros v0 I. destruct (W v0 (or_intror I)) as [X|[[X|X] L]]; auto. congruence. }
  destruct (has_wildcard v).
  - apply isok_bind.
    + destruct (str_eqb v (B "?")); [exact Logic.I|]. unfold group_val. apply isok_bind; [apply group_chain_ok; auto; intros t; apply H; now left|].
      intros [[rl mn] mx] _. destruct rl as [|? [|? ?]]; exact I.
    + intros it _. apply isok_bind; auto. intros [x|l] _; exact I.
  - apply isok_bind; auto. intros [x|l] _; exact I.
Qed.
Lemma item_list_ac f0 vals : StronglySorted str_lt vals ->
  (length vals <= 1 \/ forall v, In v vals -> well_formed v \/ In (B "*") vals /\ str_lt (B "*") v) ->
  (forall v t, In v vals -> length t <= length v -> fine (next_item (S f0) t) /\ (well_formed t -> t <> [] -> isok (next_item (S f0) t))) -> isok (new_item_list (next_item (S f0)) vals).
Proof.
  intros S F H. pose proof (item_list_fine f0 vals S (fun v t I L => proj1 (H v t I L))) as X. revert X. unfold new_item_list. destruct vals as [|v [|v2 vals]]; [easy|destruct (null v); easy|].
  destruct F as [F|F]; [cbn in F; lia|].
  remember (v :: v2 :: vals) as vs eqn:Evs. destruct (list_scan vs max_int 0 true as_empty) as [[[[mn mx] st] fi] hs] eqn:E. destruct hs; intro X.
  - unfold new_group. apply isok_bind; [apply group_vals_ac; auto; intros; eapply H; eauto|]. intros [it|[|x l]] _; try exact I. destruct (group_bounds l (item_min x) (item_max x)); exact I.
  - subst vs. destruct (mn =? 0)%Z; [|exact I]. destruct v; [exact I|easy].
Qed.
Lemma norm_one body : (forall v v', alternative body v -> alternative body v' -> v = v') -> length (norm (split_on "," body)) <= 1.
Proof.
  intro H. pose proof (norm_sorted (split_on "," body)) as SS. destruct (norm (split_on "," body)) as [|a [|b l]] eqn:E; cbn [length]; try lia. exfalso.
  assert (a = b). { apply H; apply alternative_split, norm_in; rewrite E; cbn; auto. }
  subst b. inversion SS as [|? ? _ F]; subst. inversion F as [|? ? L _]; subst. unfold str_lt in L. rewrite str_ltb_irrefl in L. discriminate.
Qed.
Lemma values_norm body : values_accepted body ->
  length (norm (split_on "," body)) <= 1 \/ forall v, In v (norm (split_on "," body)) -> well_formed v \/ In (B "*") (norm (split_on "," body)) /\ str_lt (B "*") v.
Proof.
  intros [H|H]; [left; now apply norm_one|right]. intros v I. apply (proj1 (norm_in _ _)), alternative_split, H in I. destruct I as [W|[A L]]; auto. right.
  split; [now apply norm_in, alternative_split|]. now apply byte_order_iff.
Qed.
Lemma next_item_ac : forall f s, length s < f -> accepted s -> s <> [] -> isok (next_item f s).
Proof.
  destruct f as [|f]; intros s L W NE; [lia|]. cbn [next_item]. destruct s as [|c0 s]; [easy|].
  destruct (Ascii.eqb_spec c0 "[") as [->|N1].
  { apply ac_class_inv in W as (body & p & E & N & G & W). rewrite E, bracketed_app. change ("["%char :: body ++ "]"%char :: p) with (("["%char :: body) ++ "]"%char :: p).
    rewrite (index_byte_some _ _ ("["%char :: body) p) by first [reflexivity|intros [X|X]; [discriminate|auto]].
    destruct (cut_firstn ("["%char :: body) "]" p) as [E1 E2]. rewrite E1, E2. change (("["%char :: body) ++ ["]"%char]) with (bracketed body).
    destruct (ranges_expand (bracketed body)) as [rs|] eqn:Er; [|elim (proj1 (ranges_expand_fail body (good_clean _ G)) Er); auto].
    destruct (as_count (rr_ascii rs)) as [n0 c];
      destruct (Nat.eqb n0 0 && null (rr_unicode rs)); try exact I; destruct (null (rr_unicode rs) && Nat.eqb n0 1); try exact I;
      destruct (rr_unicode rs) as [|q [|q2 l]]; try exact I; destruct (Nat.eqb n0 0 && (First q =? Last q)%N); exact I. }
  destruct (Ascii.eqb_spec c0 "{") as [->|N2].
  { apply ac_list_inv in W as (body & p & E & N & G & W). rewrite E, braced_app in *. change ("{"%char :: body ++ "}"%char :: p) with (("{"%char :: body) ++ "}"%char :: p).
    rewrite (index_byte_some _ _ ("{"%char :: body) p) by first [reflexivity|intros [X|X]; [discriminate|auto]].
    destruct (cut_firstn ("{"%char :: body) "}" p) as [E1 E2]. rewrite E1, E2. change (("{"%char :: body) ++ ["}"%char]) with (braced body).
    rewrite list_expand_braced. destruct (null body); [exact I|]. apply isok_bind; [|intros; exact I].
    cbn [length] in L. rewrite app_length in L. cbn [length] in L. destruct f as [|f]; [lia|].
    apply item_list_ac.
    - apply norm_sorted.
    - now apply values_norm.
    - intros v t Iv Lt. apply (proj1 (norm_in _ _)) in Iv. destruct (split_part "," body v Iv) as (x & y & -> & _). rewrite !app_length in L.
      split; [apply next_item_fine; lia|intros Wt Nt; apply next_item_ok; auto; lia]. }
  destruct (Ascii.eqb c0 "*"); [exact I|]. destruct (Ascii.eqb c0 "?"); [exact I|].
  destruct (Ascii.eqb_spec c0 "]") as [->|N5]; [elim (ac_close _ s (or_introl eq_refl) W)|].
  destruct (Ascii.eqb_spec c0 "}") as [->|N6]; [elim (ac_close _ s (or_intror eq_refl) W)|]. cbn [orb].
  destruct (index_wildcard (c0 :: s)) as [e|]; [|exact I]. destruct (split_string (c0 :: s) e); exact I.
Qed.
Lemma parse_loop_ac : forall f t st, length t <= f -> accepted t -> isok (parse_loop f t st).
Proof.
  induction f as [|f IH]; intros t st L W; destruct t as [|c t]; try exact I; [cbn in L; lia|].
  cbn [parse_loop]. pose proof (next_item_ac (S (length (c :: t))) (c :: t) (le_n _) W ltac:(discriminate)) as H. unfold next_wildcard_item.
  destruct (next_item (S (length (c :: t))) (c :: t)) as [[oi rest]|e| |] eqn:E; try easy.
  apply next_token in E as (a & T). pose proof (token_ac_rest _ _ _ _ _ T W) as Wr. apply token_text in T as [Ea Na].
  assert (Lr : length rest < length (c :: t)). { rewrite Ea, app_length. destruct a; [easy|cbn; lia]. }
  destruct oi; apply IH; auto; lia.
Qed.
Lemma glob_parse_ac g : accepted g -> isok (glob_parse g).
Proof.
  intro W. unfold glob_parse. destruct (index_wildcard g) as [pos|] eqn:E; [|exact I].
  apply find_cut in E as (a & c & b & Eg & <- & P & Na). assert (W1 : accepted (c :: b)).
  { rewrite Eg in W. apply ac_strip in W; auto. intros d I. apply wild_meta. auto. }
  assert (Es : skipn (length a) g = c :: b) by (rewrite Eg, skipn_app, skipn_all, Nat.sub_diag; reflexivity). rewrite Es. cbv zeta.
  destruct (index_last_wildcard (c :: b)) as [e|] eqn:El.
  - apply find_last_cut in El as (x & y & t & Ex & <- & Py & Nt).
    assert (F : firstn (S (length x)) (c :: b) = x ++ [y] /\ skipn (S (length x)) (c :: b) = t) by (rewrite Ex; apply cut_firstn). destruct F as [F1 F2].
    assert (W2 : accepted (x ++ [y])). { apply (ac_cut _ W1 _ t); [now rewrite Ex, <- app_assoc|]. intros d I. apply wild_meta. auto. }
    destruct (Nat.eqb (length x) 0 && negb (Ascii.eqb (nth 0 (c :: b) zero) "?") && negb (Ascii.eqb (nth 0 (c :: b) zero) "*")) eqn:Ec.
    { exfalso. apply andb_prop in Ec as [Ec E3]. apply andb_prop in Ec as [E1 E2]. destruct x as [|? ?]; [|discriminate]. injection Ex as <- <-. cbn [nth] in E2, E3.
      assert (Ic : In c metas) by now apply is_wild_iff. destruct Ic as [<-|[<-|[<-|[<-|[<-|[<-|[]]]]]]]; try discriminate.
      - apply ac_class_inv in W2 as (body & p & X & _). rewrite bracketed_app in X. injection X as X. destruct body; discriminate.
      - elim (ac_close _ _ (or_introl eq_refl) W2).
      - apply ac_list_inv in W2 as (body & p & X & _). rewrite braced_app in X. injection X as X. destruct body; discriminate.
      - elim (ac_close _ _ (or_intror eq_refl) W2). }
    assert (X : exists suffix, (if (length x <? length (c :: b) - 1)%nat then (skipn (S (length x)) (c :: b), firstn (S (length x)) (c :: b)) else ([], c :: b)) = (suffix, x ++ [y])).
    { rewrite F1, F2. destruct (Nat.ltb_spec (length x) (length (c :: b) - 1)) as [Lt|Ge]; eauto. exists []. f_equal. rewrite Ex in *. rewrite app_length in Ge. cbn [length] in Ge. destruct t; [reflexivity|cbn in Ge; lia]. }
    destruct X as (suffix & ->). destruct (str_eqb (x ++ [y]) (B "*")); [exact I|]. destruct (str_eqb (x ++ [y]) (B "?")); [exact I|].
    apply isok_bind; [now apply parse_loop_ac|]. intros [[[p n] z] r] _. destruct (take_suffix suffix r); exact I.
  - exfalso. unfold index_last_wildcard in El. cbn [find_last_byte] in El. rewrite P in El. destruct (find_last_byte is_wild b); discriminate.
Qed.

(** Parsed texts are accepted. *)
Lemma bc_wf2 g : brackets_closed g -> ~ In "}"%char g -> well_formed g.
Proof.
  induction 1 as [|c q N H IH|q H IH|q H IH|body q N G H IH|body q N H IH]; intro NB.
  - apply wf_end.
  - apply wf_text; auto. apply IH. intro. apply NB. now right.
  - apply wf_any; auto. apply IH. intro. apply NB. now right.
  - apply wf_star; auto. apply IH. intro. apply NB. now right.
  - apply wf_class; auto. apply IH. intro I. apply NB. apply in_or_app. now right.
  - elim NB. unfold braced. right. rewrite <- app_assoc. apply in_or_app. right. now left.
Qed.
Lemma group_chain_bc f0 : forall fuel v st st', clean v -> group_chain fuel (next_item f0) v st = Ok st' -> brackets_closed v.
Proof.
  induction fuel as [|f IH]; intros v st st' C H; destruct v as [|c v]; try apply bc_end; [discriminate|].
  cbn [group_chain] in H. destruct f0 as [|f0]; [discriminate|]. destruct (next_item (S f0) (c :: v)) as [[oi rest]|e| |] eqn:E; try discriminate.
  apply next_token in E as (a & T). apply (token_bc _ _ _ _ _ C T). intro Cr. destruct oi; eapply IH; eauto.
Qed.
Lemma wf_plain v : has_wildcard v = false -> well_formed v.
Proof.
  intro H. assert (N : forall c, In c v -> ~ In c metas).
  { intros c I J. apply is_wild_iff in J. assert (has_wildcard v = true) by (apply existsb_exists; eauto). congruence. }
  clear H. induction v as [|c v IH]; [constructor|]. apply wf_text; [apply N; now left|]. apply IH. intros d I. apply N. now right.
Qed.
Lemma group_vals_inv f0 vals r : StronglySorted str_lt vals -> (forall v, In v vals -> clean v /\ ~ In "}"%char v) -> group_vals (next_item f0) vals = Ok r ->
  forall v, In v vals -> well_formed v \/ In (B "*") vals /\ str_lt (B "*") v.
Proof.
  intro SS. revert r. induction SS as [|v vals SS IH Fv]; intros r H E; [easy|]. cbn [group_vals] in E.
  destruct (str_eqb_spec v (B "*")) as [->|Nv].
  { intros v [<-|I]; [left; apply wf_star; constructor|]. right. split; [now left|]. rewrite Forall_forall in Fv. auto. }
  assert (R : forall r, group_vals (next_item f0) vals = Ok r -> well_formed v -> forall v0, In v0 (v :: vals) -> well_formed v0 \/ In (B "*") (v :: vals) /\ str_lt (B "*") v0).
  { intros r' E' W v0 [<-|I]; auto. destruct (IH r' (fun v I => H v (or_intror I)) E' v0 I) as [X|[X Y]]; auto. right. split; auto. now right. }
  destruct (has_wildcard v) eqn:Wv.
  - destruct (if str_eqb v (B "?") then Ok (IAny 1) else group_val (next_item f0) v) as [it| | |] eqn:Ev; try discriminate. cbn [bind] in E.
    destruct (group_vals (next_item f0) vals) as [r'| | |] eqn:Er; try discriminate. apply (R _ eq_refl).
    destruct (str_eqb_spec v (B "?")) as [->|Nq]; [apply wf_any; constructor|]. unfold group_val in Ev.
    destruct (group_chain (length v) (next_item f0) v ([], 0%Z, 0%Z)) as [st| | |] eqn:Eg; try discriminate. destruct (H v (or_introl eq_refl)) as [C N].
    apply bc_wf2; auto. eapply group_chain_bc; eauto.
  - destruct (group_vals (next_item f0) vals) as [r'| | |] eqn:Er; try discriminate. apply (R _ eq_refl). now apply wf_plain.
Qed.
Lemma scan_plain : forall vals mn mx st fi mn' mx' st' fi', list_scan vals mn mx st fi = (mn', mx', st', fi', false) -> forall v, In v vals -> has_wildcard v = false.
Proof.
  induction vals as [|v vals IH]; intros mn mx st fi mn' mx' st' fi' E w I; [easy|]. cbn [list_scan] in E. destruct v as [|c v].
  - destruct I as [<-|I]; [reflexivity|eauto].
  - destruct (as_add fi c) as [fi2 ok]. destruct (has_wildcard (c :: v)) eqn:W; [discriminate|]. destruct I as [<-|I]; [auto|eauto].
Qed.
Lemma alternative_clean body v : clean body -> alternative body v -> clean v.
Proof.
  intros C (x & y & -> & _ & Hx & Hy).
  assert (C1 : clean (v ++ y)).
  { destruct Hx as [->|(x' & ->)]; auto. rewrite <- app_assoc in C. cbn [app] in C. now apply clean_mid in C as [_ C]. }
  destruct Hy as [->|(y' & ->)]; [now rewrite app_nil_r in C1|]. now apply clean_mid in C1 as [C1 _].
Qed.
Lemma list_values_accepted f body oi : clean body -> ~ In "}"%char body -> new_item_list (next_item f) (norm (split_on "," body)) = Ok oi -> values_accepted body.
Proof.
  intros C N H. pose proof (norm_sorted (split_on "," body)) as SS.
  assert (A : forall v, alternative body v <-> In v (norm (split_on "," body))) by (intro; rewrite norm_in; apply alternative_split).
  assert (Cv : forall v, In v (norm (split_on "," body)) -> clean v /\ ~ In "}"%char v).
  { intros v I. apply A in I. split; [eapply alternative_clean; eauto|]. destruct I as (x & y & -> & _). intro I. apply N. apply in_or_app. right. apply in_or_app. now left. }
  unfold new_item_list in H. remember (norm (split_on "," body)) as vals eqn:V. clear V.
  assert (G : (forall v, In v vals -> well_formed v \/ In (B "*") vals /\ str_lt (B "*") v) -> values_accepted body).
  { intro X. right. intros v I. apply A, X in I. destruct I as [W|[I L]]; auto. right. split; [now apply A|now apply byte_order_iff]. }
  destruct vals as [|v0 [|v1 vs]].
  - left. intros v v' I. apply A in I. destruct I.
  - left. intros v v' I J. apply A in I, J. destruct I as [<-|[]], J as [<-|[]]. reflexivity.
  - remember (v0 :: v1 :: vs) as vals' eqn:V. destruct (list_scan vals' max_int 0 true as_empty) as [[[[mn mx] st] fi] hs] eqn:E. apply G. destruct hs.
    + unfold new_group in H. destruct (group_vals (next_item f) vals') as [r| | |] eqn:Er; try discriminate. now apply (group_vals_inv _ _ _ SS Cv Er).
    + intros v I. left. apply wf_plain. eapply scan_plain; eauto.
Qed.

Lemma ac_app a p : (forall c, In c a -> ~ In c metas) -> accepted p -> accepted (a ++ p).
Proof. induction a as [|c a IH]; intros N H; auto. cbn [app]. constructor; [apply N; now left|]. apply IH; auto. intros d I. apply N. now right. Qed.
Lemma ac_stars n p : accepted p -> accepted (repeat "*"%char n ++ p).
Proof. induction n; auto. intro. cbn [repeat app]. apply ac_star. auto. Qed.
Lemma token_ac f s oi a rest : clean s -> token f s oi a rest -> (clean rest -> accepted rest) -> accepted s.
Proof.
  intros C T H. assert (X : clean rest /\ forall p, clean p -> accepted p -> accepted (a ++ p)).
  2:{ destruct X as [X1 X2]. destruct (token_text _ _ _ _ _ T) as [-> _]. auto. }
  clear H.
  destruct T as [body r o N H|body r o N H|n r N|r|b c r Na N Mc|b Na N].
  - rewrite bracketed_app in C. apply clean_cons_ascii in C; [|reflexivity]. apply clean_mid in C as [C1 C2]; [|reflexivity]. split; auto.
    intros p _ Hp. apply ac_class; auto. unfold class_item in H. destruct (ranges_expand (bracketed body)) as [rs|] eqn:E; [|discriminate].
    now apply ranges_expand_ok in E as (_ & _ & E & _).
  - rewrite braced_app in C. apply clean_cons_ascii in C; [|reflexivity]. apply clean_mid in C as [C1 C2]; [|reflexivity]. split; auto.
    intros p _ Hp. apply ac_list; auto. destruct H as [[-> _]|[_ H]]; [|eapply list_values_accepted; eauto].
    left. intros v v' I J. apply alternative_split in I, J. destruct I as [<-|[]], J as [<-|[]]. reflexivity.
  - split; [|intros p _; apply ac_stars]. induction (S n); auto. apply IHn0. cbn [repeat app] in C. apply clean_cons_ascii in C; [exact C|reflexivity].
  - split; [apply clean_cons_ascii in C; [exact C|reflexivity]|]. intros p _ Hp. now apply ac_any.
  - split; [|intros p _ Hp; now apply ac_app]. apply clean_app_inv in C as [_ C]; auto. apply bnd_ascii. now apply metas_ascii.
  - split; [apply clean_nil|]. intros p _ Hp. now apply ac_app.
Qed.
Lemma loop_ac : forall f t st st', clean t -> parse_loop f t st = Ok st' -> accepted t.
Proof.
  induction f as [|f IH]; intros t st st' C H; destruct t as [|c t]; try apply ac_end; [discriminate|].
  cbn [parse_loop] in H. destruct (next_wildcard_item (c :: t)) as [[oi rest]|e| |] eqn:E; try discriminate. unfold next_wildcard_item in E.
  apply next_token in E as (a & T). apply (token_ac _ _ _ _ _ C T). intro Cr. destruct oi; eapply IH; eauto.
Qed.
Lemma ac_end_app a : accepted a -> forall p, accepted p -> accepted (a ++ p).
Proof.
  induction 1 as [|c q N H IH|q H IH|q H IH|body q N G H IH|body q N G H IH]; intros p Hp; auto; cbn [app].
  - apply ac_text; auto.
  - apply ac_any; auto.
  - apply ac_star; auto.
  - rewrite <- app_assoc. apply ac_class; auto.
  - rewrite <- app_assoc. apply ac_list; auto.
Qed.
Lemma ac_text_only a : (forall c, In c a -> ~ In c metas) -> accepted a.
Proof. intro N. rewrite <- (app_nil_r a). apply ac_app; auto. constructor. Qed.
Lemma parse_accepted g gl : clean g -> glob_parse g = Ok gl -> accepted g.
Proof.
  intros C H. unfold glob_parse in H. destruct (index_wildcard g) as [pos|] eqn:E.
  2:{ apply ac_text_only. unfold index_wildcard in E. rewrite find_byte_none in E. intros c I. apply wild_meta. now apply E. }
  apply find_cut in E as (a & c & b & Eg & <- & P & Na).
  assert (Es : skipn (length a) g = c :: b) by (rewrite Eg, skipn_app, skipn_all, Nat.sub_diag; reflexivity). rewrite Es in H. cbv zeta in H.
  destruct (index_last_wildcard (c :: b)) as [e|] eqn:El; [|discriminate].
  apply find_last_cut in El as (x & y & t & Ex & <- & Py & Nt).
  assert (F : firstn (S (length x)) (c :: b) = x ++ [y] /\ skipn (S (length x)) (c :: b) = t) by (rewrite Ex; apply cut_firstn). destruct F as [F1 F2].
  destruct (Nat.eqb (length x) 0 && negb (Ascii.eqb (nth 0 (c :: b) zero) "?") && negb (Ascii.eqb (nth 0 (c :: b) zero) "*")); [discriminate|].
  assert (X : (if (length x <? length (c :: b) - 1)%nat then (skipn (S (length x)) (c :: b), firstn (S (length x)) (c :: b)) else ([], c :: b)) = (t, x ++ [y])).
  { rewrite F1, F2. destruct (Nat.ltb_spec (length x) (length (c :: b) - 1)) as [Lt|Ge]; eauto. rewrite Ex in *. rewrite app_length in Ge. cbn [length] in Ge. destruct t; [reflexivity|cbn in Ge; lia]. }
  rewrite X in H. clear X F1 F2.
  assert (Eg2 : g = a ++ (x ++ [y]) ++ t) by (rewrite Eg, Ex, <- app_assoc; reflexivity).
  assert (Cb : clean (x ++ [y])).
  { assert (Ic : In c metas) by now apply is_wild_iff. assert (Iy : In y metas) by now apply is_wild_iff.
    rewrite Eg, Ex in C. apply clean_app_inv in C as [_ C]; [|rewrite <- Ex; apply bnd_ascii; now apply metas_ascii].
    change (x ++ y :: t) with (x ++ [y] ++ t) in C. rewrite app_assoc in C. rewrite <- app_assoc in C. cbn [app] in C. 
    apply clean_mid in C as [C1 C2]; [|now apply metas_ascii]. apply clean_app; auto. apply clean_byte. now apply metas_ascii. }
  rewrite Eg2. apply ac_app; [intros d I; apply wild_meta; auto|]. apply ac_end_app; [|apply ac_text_only; intros d I; apply wild_meta; auto].
  destruct (str_eqb_spec (x ++ [y]) (B "*")) as [->|]; [apply ac_star, ac_end|]. destruct (str_eqb_spec (x ++ [y]) (B "?")) as [->|]; [apply ac_any, ac_end|].
  destruct (parse_loop (length (x ++ [y])) (x ++ [y]) _) as [st| | |] eqn:L; try discriminate. eapply loop_ac; eauto.
Qed.
