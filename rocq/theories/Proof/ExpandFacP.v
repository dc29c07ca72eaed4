(** From the expressions of a text to its factors. *)
From Coq Require Import Lia ZifyBool ZifyN ZifyNat.
From Verif Require Import Spec.ExpandSpec Proof.OrderP Proof.GlobP Proof.ExpandP Proof.ExpandReadP.
Local Open Scope nat_scope.

(** * Lists of factors that read the same *)
Inductive eqf : list fac -> list fac -> Prop :=
| q_refl l : eqf l l
| q_sym a b : eqf a b -> eqf b a
| q_trans a b c : eqf a b -> eqf b c -> eqf a c
| q_cons f a b : eqf a b -> eqf (f :: a) (f :: b)
| q_merge s t l : eqf (Text (s ++ t) :: l) (Text s :: Text t :: l)
| q_nil l : eqf (Text [] :: l) l.

Lemma eqf_app c a b : eqf a b -> eqf (c ++ a) (c ++ b).
Proof. intros E. induction c; cbn [app]; auto. now apply q_cons. Qed.
Lemma eqf_app_r a b c : eqf a b -> eqf (a ++ c) (b ++ c).
Proof.
  induction 1; cbn [app].
  - apply q_refl.
  - now apply q_sym.
  - eapply q_trans; eauto.
  - now apply q_cons.
  - apply q_merge.
  - apply q_nil.
Qed.

Lemma dots_app s t : (dots (s ++ t) = dots s + dots t)%Z.
Proof. unfold dots. rewrite filter_app, app_length. lia. Qed.
Lemma dots_count s : Z.of_nat (count_byte "." s) = dots s.
Proof.
  unfold dots. induction s as [|c s IH]; [reflexivity|]. cbn [count_byte filter].
  destruct (Ascii.eqb "." c); cbn [length] in *; lia.
Qed.
Lemma dots_pos s : (0 <= dots s)%Z.
Proof. unfold dots. lia. Qed.

Lemma eqf_chosen a b : eqf a b -> forall max depth n d go,
  product (chosen max depth n d go a) = product (chosen max depth n d go b).
Proof.
  induction 1 as [l|a b E IH|a b c E1 IH1 E2 IH2|f a b E IH|s t l|l]; intros max depth n d go; auto.
  - now rewrite IH1.
  - destruct f as [t|r vs]; cbn [chosen].
    + cbn [product flat_map]. now rewrite IH.
    + cbv zeta. destruct (_ && _ && _); cbn [product]; now rewrite IH.
  - cbn [chosen product flat_map]. rewrite !app_nil_r, map_map, dots_app, Z.add_assoc.
    apply map_ext. intros x. now rewrite app_assoc.
  - cbn [chosen product flat_map]. rewrite app_nil_r. rewrite map_id.
    change (dots []) with 0%Z. now rewrite Z.add_0_r.
Qed.
Lemma eqf_raw a b : eqf a b -> concat (map raw a) = concat (map raw b).
Proof.
  induction 1; cbn [map concat raw]; try congruence; rewrite <- ?app_assoc; reflexivity.
Qed.
Lemma eqf_size a b : eqf a b -> size a = size b.
Proof.
  induction 1; unfold size in *; cbn [fold_right values length]; try lia.
Qed.
Lemma eqf_choice a b r vs : eqf a b -> (In (Choice r vs) a <-> In (Choice r vs) b).
Proof.
  induction 1 as [l|a b E IH|a b c E1 IH1 E2 IH2|f a b E IH|s t l|l]; cbn [In]; try tauto; intuition discriminate.
Qed.

Lemma eqf_cut k s l : eqf (Text (firstn k s) :: Text (skipn k s) :: l) (Text s :: l).
Proof. pose proof (q_merge (firstn k s) (skipn k s) l) as Q. rewrite firstn_skipn in Q. now apply q_sym. Qed.

(** * ParseExpr *)
Definition facs (l : list expr) : list fac := map fac_of l.
Definition ok_expr (e : expr) : Prop := good_expr e /\ e_body e <> [].

Lemma good_body e b : is_estr e || is_ewild e = true -> good_expr e ->
  good_expr (mkExpr (e_typ e) b (e_list e) (e_runes e) (e_pos e)).
Proof.
  destruct e as [ty bd ls rs p]. unfold is_estr, is_ewild. cbn [e_typ]. intros T ((R & W) & C & V).
  cbn [e_body e_list e_runes e_pos]. unfold good_expr, fresh, wfe, e_reset, e_count, vals in *.
  cbn [e_typ e_body e_list e_runes e_pos] in *. injection R as R P.
  destruct ty; try discriminate; repeat split; try rewrite R, P; try (destruct p; exact I); try congruence; discriminate.
Qed.
Lemma estr_fac e : is_estr e || is_ewild e = true -> fac_of e = Text (e_body e).
Proof. destruct e as [[] bd ls rs p]; try discriminate; reflexivity. Qed.

Lemma push_text rl t : Forall ok_expr rl ->
  Forall ok_expr (push_exp rl (estr t)) /\ eqf (facs (rev (push_exp rl (estr t)))) (facs (rev rl) ++ [Text t]).
Proof.
  intros F. unfold push_exp. change (is_estr (estr t)) with true. cbv iota. change (e_body (estr t)) with t.
  assert (PUSH : Forall ok_expr (if negb (null t) then estr t :: rl else rl) /\
    eqf (facs (rev (if negb (null t) then estr t :: rl else rl))) (facs (rev rl) ++ [Text t])).
  { destruct t as [|c t]; cbn [null negb].
    - split; auto. apply q_sym. eapply q_trans; [apply eqf_app, q_nil|]. rewrite app_nil_r. apply q_refl.
    - split; [constructor; auto; split; [apply good_estr|discriminate]|].
      cbn [rev]. unfold facs. rewrite map_app. apply q_refl. }
  destruct rl as [|l r]; [exact PUSH|]. destruct (is_estr l) eqn:L; [|exact PUSH].
  inversion_clear F as [|? ? [G NE] F']. split.
  - constructor; auto. split.
    + destruct l as [ty bd ls rs p]. cbn [e_typ e_body e_list e_runes e_pos] in *. destruct ty; try discriminate.
      refine (good_body (mkExpr expString bd ls rs p) (bd ++ t) _ G). reflexivity.
    + cbn [e_body]. destruct (e_body l); [congruence|discriminate].
  - cbn [rev]. unfold facs. rewrite !map_app. cbn [map]. rewrite <- app_assoc. apply eqf_app. cbn [app].
    rewrite (estr_fac l) by now rewrite L. unfold fac_of. cbn [e_typ e_body]. apply q_merge.
Qed.

Lemma push_bracket rl u f : Forall ok_expr rl -> bracket u f ->
  Forall ok_expr (push_exp rl (get_expression u)) /\
  eqf (facs (rev (push_exp rl (get_expression u)))) (facs (rev rl) ++ [f]).
Proof.
  intros F U. destruct (bracket_expr u f U) as (G & FE & T & C). destruct f as [t|r vs].
  - rewrite (T t eq_refl). now apply push_text.
  - destruct (C r vs eq_refl) as (NR & NS & NW). unfold push_exp. rewrite NS. split.
    + constructor; auto. split; auto. unfold fac_of in FE. destruct (e_typ (get_expression u)); inversion FE; subst; auto.
    + cbn [rev]. unfold facs. rewrite map_app. cbn [map]. rewrite FE. apply q_refl.
Qed.

Lemma firstn_len_app {A} (a b : list A) : firstn (length a) (a ++ b) = a.
Proof. now rewrite firstn_app, firstn_all, Nat.sub_diag, app_nil_r. Qed.
Lemma skipn_len_app {A} (a b : list A) : skipn (length a) (a ++ b) = b.
Proof. now rewrite skipn_app, skipn_all, Nat.sub_diag. Qed.

Lemma push_prefix rl p s : Forall ok_expr rl ->
  let rl' := if (0 <? length p)%nat then estr (firstn (length p) (p ++ s)) :: rl else rl in
  Forall ok_expr rl' /\ eqf (facs (rev rl')) (facs (rev rl) ++ [Text p]).
Proof.
  intros F. cbv zeta. rewrite firstn_len_app. destruct p as [|c p].
  - cbn [length]. change (0 <? 0) with false. cbv iota. split; auto. apply q_sym.
    eapply q_trans; [apply eqf_app, q_nil|]. rewrite app_nil_r. apply q_refl.
  - change (0 <? length (c :: p)) with true. cbv iota. split; [constructor; auto; split; [apply good_estr|discriminate]|].
    cbn [rev]. unfold facs. rewrite map_app. apply q_refl.
Qed.

Lemma bracket_length u f : bracket u f -> 2 <= length u.
Proof. destruct 1; unfold braced, bracketed; cbn [length]; rewrite ?app_length; cbn; lia. Qed.

Lemma parse_loop s fs : factors s fs -> s <> [] -> forall fuel rl, length s < fuel -> Forall ok_expr rl ->
  exists rl', (let '(a, b) := get_pair s in parse_expr_loop fuel s a b rl) = Ok rl' /\ Forall ok_expr rl' /\
    eqf (facs (rev rl')) (facs (rev rl) ++ fs).
Proof.
  induction 1 as [p w P St|p u f s fs P U Fs IH]; intros NE fuel rl L F; (destruct fuel as [|fuel]; [lia|]).
  - rewrite get_pair_rest by auto. destruct w as [|c w].
    + cbn [parse_expr_loop]. rewrite app_nil_r in *. exists (estr p :: rl). split; [reflexivity|]. split.
      * constructor; auto. split; [apply good_estr|exact NE].
      * cbn [rev]. unfold facs. rewrite map_app. apply q_refl.
    + cbn [parse_expr_loop]. cbv zeta. destruct (push_prefix rl p (c :: w) F) as [F1 E1]. cbv zeta in F1, E1.
      rewrite skipn_len_app. eexists. split; [reflexivity|]. split.
      * constructor; auto. split; [apply good_ewild|discriminate].
      * cbn [rev]. unfold facs in *. rewrite map_app. eapply q_trans; [apply eqf_app_r, E1|].
        rewrite <- app_assoc. apply eqf_app. cbn [app map]. apply q_sym, q_merge.
  - rewrite (get_pair_pair p u f s P U). cbn [parse_expr_loop]. cbv zeta. pose proof (bracket_length u f U) as LU.
    destruct (push_prefix rl p (u ++ s) F) as [F1 E1]. cbv zeta in F1, E1.
    set (rl1 := if (0 <? length p)%nat then _ else _) in *.
    rewrite skipn_len_app. replace (S (length p + length u - 1) - length p) with (length u) by lia.
    rewrite firstn_len_app. replace (S (length p + length u - 1)) with (length (p ++ u)) by (rewrite app_length; lia).
    rewrite (app_assoc p u s), skipn_len_app.
    destruct (push_bracket rl1 u f F1 U) as [F2 E2].
    assert (E3 : eqf (facs (rev (push_exp rl1 (get_expression u)))) (facs (rev rl) ++ [Text p; f])).
    { eapply q_trans; [exact E2|]. eapply q_trans; [apply eqf_app_r, E1|]. rewrite <- app_assoc. apply q_refl. }
    destruct s as [|c s]; cbn [null].
    + eexists. split; [reflexivity|]. split; [exact F2|]. eapply q_trans; [exact E3|].
      apply eqf_app. cbn [app]. apply q_cons, q_cons. inversion Fs as [p0 w0 P0 S0 EQ0|p0 u0 f0 s0 fs0 P0 U0 Fs0 EQ0]; subst.
      * apply app_eq_nil in EQ0 as [-> ->]. cbn [app]. apply q_sym, q_nil.
      * apply bracket_length in U0. apply (f_equal (@length _)) in EQ0. rewrite !app_length in EQ0. cbn in EQ0. lia.
    + destruct (IH ltac:(discriminate) fuel (push_exp rl1 (get_expression u))) as (rl' & E & F' & EF).
      * rewrite !app_length in L. cbn [length] in *. lia.
      * exact F2.
      * exists rl'. split; [exact E|]. split; [exact F'|]. eapply q_trans; [exact EF|].
        eapply q_trans; [apply eqf_app_r, E3|]. rewrite <- app_assoc. apply q_refl.
Qed.

Lemma after_last_le s : after_last_wild s <= length s.
Proof.
  unfold after_last_wild, last_wild, index_last_wildcard. destruct (find_last_byte is_wild s) as [i|] eqn:E; [|lia].
  apply find_last_cut in E as (a & c & b & -> & <- & _). rewrite app_length. cbn. lia.
Qed.

Lemma split_last rl : rl <> [] -> Forall ok_expr rl ->
  exists exps, split_last_wild rl = Ok exps /\ exps <> [] /\ Forall good_expr exps /\ eqf (facs exps) (facs (rev rl)).
Proof.
  intros NE F. destruct rl as [|l r]; [easy|]. cbn [split_last_wild].
  assert (ID : rev (l :: r) <> [] /\ Forall good_expr (rev (l :: r)) /\ eqf (facs (rev (l :: r))) (facs (rev (l :: r)))).
  { split; [cbn; destruct (rev r); discriminate|]. split; [|apply q_refl]. apply Forall_rev. eapply Forall_impl; [|exact F].
    intros e [G _]. exact G. }
  destruct (is_ewild l) eqn:W; [|eauto]. cbv zeta.
  destruct (after_last_wild (e_body l) <? length (e_body l)) eqn:X; [|eauto].
  inversion_clear F as [|? ? [G NB] F']. eexists. split; [reflexivity|].
  assert (FR : Forall good_expr (rev r)) by (apply Forall_rev; eapply Forall_impl; [|exact F']; intros e [G' _]; exact G').
  split; [cbn; destruct (rev r); discriminate|]. split.
  - cbn [rev]. apply Forall_app. split; [apply Forall_app; split; auto|].
    + constructor; auto. apply good_body; auto. rewrite W. apply orb_true_r.
    + constructor; auto. apply good_estr.
  - cbn [rev]. unfold facs. rewrite !map_app. rewrite <- app_assoc. apply eqf_app. cbn [map app].
    rewrite (estr_fac l) by (rewrite W; apply orb_true_r).
    rewrite (estr_fac (mkExpr _ _ _ _ _)) by (unfold is_estr, is_ewild in *; cbn [e_typ]; destruct (e_typ l); auto).
    rewrite (estr_fac (estr _)) by reflexivity. cbn [e_body estr].
    apply eqf_cut.
Qed.

Lemma facs_raw l : concat (map raw (facs l)) = concat (map e_body l).
Proof. unfold facs. rewrite map_map. f_equal. apply map_ext. intros e. unfold fac_of. now destruct (e_typ e). Qed.

Lemma stops_head w c t : stops w -> w = c :: t -> In c metas.
Proof. intros [H _]. apply H. Qed.

Lemma last_wild_pos c w p : In c metas -> length p < after_last_wild (p ++ c :: w).
Proof.
  intros M. unfold after_last_wild, last_wild, index_last_wildcard.
  destruct (find_last_byte is_wild (p ++ c :: w)) as [i|] eqn:E.
  - apply find_last_cut in E as (a & x & b & E & <- & _ & H).
    destruct (Nat.ltb_spec (length a) (length p)) as [L|L]; [|lia]. exfalso.
    assert (I : In c b).
    { assert (E2 : skipn (S (length a)) (p ++ c :: w) = b) by (rewrite E; apply skipn_mid1).
      rewrite skipn_app in E2. replace (S (length a) - length p) with 0 in E2 by lia. cbn [skipn] in E2. rewrite <- E2.
      apply in_app_iff. right. now left. }
    apply H in I. unfold metas in M. repeat (destruct M as [<-|M]; [discriminate|]). destruct M.
  - exfalso. assert (X : is_wild c = true) by (unfold metas in M; repeat (destruct M as [<-|M]; [reflexivity|]); destruct M).
    destruct (find_last_byte is_wild (p ++ c :: w)) eqn:E2; [discriminate|].
    clear E. induction p as [|y p IH]; cbn in E2.
    + rewrite X in E2. destruct (find_last_byte is_wild w); discriminate.
    + apply IH. destruct (find_last_byte is_wild (p ++ c :: w)); [discriminate|reflexivity].
Qed.

Lemma parse_spec s fs : factors s fs ->
  (void s fs /\ parse_expr s = Panic) \/
  (~ void s fs /\ exists exps, parse_expr s = Ok exps /\ exps <> [] /\ Forall good_expr exps /\ eqf (facs exps) fs).
Proof.
  intros Fs. pose proof Fs as Fs0. destruct Fs as [p w P St|p u f s fs P U Fs].
  - right. split; [intros [N E]; cbn in E; rewrite app_nil_r in E; congruence|].
    unfold parse_expr. rewrite get_pair_rest by auto. destruct w as [|c w].
    + rewrite app_nil_r. eexists. split; [reflexivity|]. split; [discriminate|]. split; [repeat constructor; try apply good_estr; discriminate|apply q_refl].
    + pose proof (last_wild_pos c w p (stops_head _ _ _ St eq_refl)) as LP. pose proof (after_last_le (p ++ c :: w)) as LE.
      set (s := p ++ c :: w) in *. set (pos := after_last_wild s) in *. cbv zeta.
      destruct p as [|x p].
      * cbn [length]. destruct (pos <? length s).
        -- eexists. split; [reflexivity|]. split; [discriminate|].
           split; [constructor; [apply good_ewild|constructor; [apply good_estr|constructor]]|].
           unfold facs. cbn [map]. unfold fac_of. cbn [e_typ e_body ewild estr].
           apply eqf_cut.
        -- eexists. split; [reflexivity|]. split; [discriminate|]. split; [constructor; [apply good_ewild|constructor]|apply q_refl].
      * set (q := x :: p) in *. change (match length q with O => _ | S _ => _ end) with
          (if (pos <? length s)%nat
           then Ok [estr (firstn (length q) s); ewild (firstn (pos - length q) (skipn (length q) s)); estr (skipn pos s)]
           else Ok [estr (firstn (length q) s); ewild (skipn (length q) s)]).
        destruct (pos <? length s).
        -- eexists. split; [reflexivity|]. split; [discriminate|].
           split; [constructor; [apply good_estr|constructor; [apply good_ewild|constructor; [apply good_estr|constructor]]]|].
           unfold facs. cbn [map]. unfold fac_of. cbn [e_typ e_body ewild estr].
           assert (E : s = firstn (length q) s ++ firstn (pos - length q) (skipn (length q) s) ++ skipn pos s).
           { rewrite app_assoc. rewrite <- (firstn_skipn pos s) at 1. f_equal.
             rewrite <- (firstn_skipn (length q) (firstn pos s)) at 1. rewrite firstn_firstn, Nat.min_l by lia. f_equal.
             rewrite skipn_firstn_comm. reflexivity. }
           rewrite E at 4. apply q_sym. eapply q_trans; [apply q_merge|]. apply q_cons, q_merge.
        -- eexists. split; [reflexivity|]. split; [discriminate|].
           split; [constructor; [apply good_estr|constructor; [apply good_ewild|constructor]]|].
           unfold facs. cbn [map]. unfold fac_of. cbn [e_typ e_body ewild estr].
           apply eqf_cut.
  - pose proof (bracket_length u f U) as LU.
    assert (NE : p ++ u ++ s <> []).
    { intros E. apply (f_equal (@length _)) in E. rewrite !app_length in E. cbn in E. lia. }
    destruct (parse_loop _ _ Fs0 NE (S (length (p ++ u ++ s))) []) as (rl & E & F & EF); [lia|constructor|].
    assert (PE : parse_expr (p ++ u ++ s) = bind (Ok rl) split_last_wild).
    { rewrite <- E. unfold parse_expr. rewrite (get_pair_pair p u f s P U). destruct (length p); reflexivity. }
    cbn [rev app facs map] in EF. rewrite PE. cbn [bind]. destruct rl as [|l r].
    + left. split; [|reflexivity]. split; [exact NE|]. now rewrite <- (eqf_raw _ _ EF).
    + right. split.
      * intros [_ V]. rewrite <- (eqf_raw _ _ EF), facs_raw in V. cbn [rev] in V. rewrite map_app, concat_app in V.
        apply app_eq_nil in V as [_ V]. cbn in V. rewrite app_nil_r in V. inversion_clear F as [|? ? [_ NB] _]. contradiction.
      * destruct (split_last (l :: r)) as (exps & E1 & NE1 & G & E2); [discriminate|exact F|].
        exists exps. split; [exact E1|]. split; [exact NE1|]. split; [exact G|]. eapply q_trans; [exact E2|exact EF].
Qed.
