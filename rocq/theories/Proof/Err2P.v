(** What the errors of dotted globs, queries and tagged paths say. *)
From Verif Require Import Model.GTags Model.GGlob Spec.Symbols Spec.Class Spec.GlobSpec Spec.Accept Spec.PathSpec Spec.TagSpec Spec.QuerySpec Spec.ErrSpec.
From Verif Require Import Proof.SortP Proof.NextP Proof.ItemP Proof.SafeP Proof.AcceptP Proof.PathP Proof.GGlobP Proof.TagsP Proof.CondP Proof.RoundP Proof.SeriesP Proof.ErrP.
From Coq Require Import Lia ZifyBool ZifyN ZifyNat.

(** ** Dotted globs *)
Lemma gg_loop_err path e : forall fuel next acc mn mx, gg_parse_loop path fuel next acc mn mx = Err e ->
  exists ps p rest, next = dotted (ps ++ [p]) ++ rest /\ (rest = [] \/ exists r, rest = "."%char :: r) /\ dotless (ps ++ [p]) /\
    (forall q, In q ps -> q <> [] /\ exists gl, glob_parse q = Ok gl) /\
    ((p = [] /\ rest <> [] /\ e = ErrNodeEmpty path) \/ (p <> [] /\ glob_parse p = Err e)).
Proof.
  induction fuel as [|f IH]; intros next acc mn mx H; destruct next as [|c0 next]; try discriminate. cbn [gg_parse_loop] in H.
  destruct (cut_cases dot (c0 :: next)) as [[N C]|(p & r & E & N & C)]; rewrite C in H.
  - cbn [null] in H. destruct (glob_parse (c0 :: next)) as [g|e'| |] eqn:Eg; try discriminate; cbn [bind] in H; [destruct f; discriminate|]. injection H as ->.
    exists [], (c0 :: next), []. split; [now rewrite app_nil_r|]. split; auto. split; [intros x [<-|[]]; exact N|]. split; [intros q []|]. right. split; [discriminate|auto].
  - rewrite E. destruct p as [|c p].
    + injection H as <-. exists [], [], ("."%char :: r). split; [reflexivity|]. split; [eauto|]. split; [intros x [<-|[]]; exact N|]. split; [intros q []|]. left. split; auto. split; [discriminate|auto].
    + cbn [null] in H. destruct (glob_parse (c :: p)) as [g|e'| |] eqn:Eg; try discriminate; cbn [bind] in H.
      * apply IH in H as (ps & p' & rest & -> & R & D & F & X). exists ((c :: p) :: ps), p', rest.
        split; [cbn [app]; rewrite (dotted_cons (c :: p)) by (destruct ps; discriminate); rewrite <- app_assoc; reflexivity|]. split; auto.
        split; [intros x [<-|I]; [exact N|auto]|]. split; auto. intros q [<-|I]; auto. split; [discriminate|eauto].
      * injection H as ->. exists [], (c :: p), ("."%char :: r). split; [reflexivity|]. split; [eauto|]. split; [intros x [<-|[]]; exact N|]. split; [intros q []|]. right. split; [discriminate|auto].
Qed.
Lemma gg_error s e : gg_parse s = Err e -> gglob_error s e.
Proof.
  intro H. unfold gg_parse in H. destruct (path_level s) as [path n] eqn:E. apply (f_equal fst) in E. rewrite path_level_fst in E. cbn [fst] in E.
  destruct s as [|c s]; [subst path; discriminate|]. symmetry in E. apply trim_iff in E.
  destruct (gg_parse_loop path (length path) path [] 0 0) as [[[gs mn] mx]|e'| |] eqn:L; try discriminate. injection H as ->.
  apply gg_loop_err in L as (ps & p & rest & Ep & R & D & F & X). exists path, ps, p, rest. split; auto. split; auto. split; auto. split; auto. split.
  - intros q I. destruct (F q I) as [Nq (gl & G)]. split; auto. intro C. eapply parse_accepted; eauto.
  - destruct X as [X|[Np X]]; auto. right. split; auto. now apply glob_part_error.
Qed.

(** ** Queries *)
Lemma args_err q cap er : forall fuel e acc, (length acc <= cap)%nat -> series_args_loop q fuel cap e acc = Err er ->
  exists x l y, e = x ++ y /\ quoted_args x l /\
    ((er = ErrExprOverflow q /\ length acc + length l = S cap) \/
     (length acc + length l <= cap /\ exists c t, y = c :: t /\
        ((~ quote c /\ c <> " "%char /\ c <> ","%char /\ er = ErrNodeNotTerminated (c :: t)) \/ (quote c /\ ~ In c t /\ er = ErrNodeNotTerminated t))))%nat.
Proof.
  induction fuel as [|f IH]; intros [|c t] acc L H; cbn [series_args_loop] in H; try discriminate.
  destruct (Ascii.eqb c apos || Ascii.eqb c quot) eqn:Q.
  - assert (Qc : quote c) by now apply quote_iff. unfold parse_string in H. rewrite Q in H. destruct (index_byte t c) as [i|] eqn:Ei.
    + apply index_byte_cut in Ei as (a & b & -> & Li & N). rewrite <- Li, firstn_len, skipn_len1 in H. cbn [bind] in H. destruct a as [|a0 a].
      * cbn [null] in H. apply IH in H as (x & l & y & -> & A & X); auto. exists (c :: c :: x), l, y. split; [reflexivity|]. split; auto. now constructor.
      * cbn [null] in H. destruct (Nat.eqb_spec (length acc) cap) as [El|El].
        -- injection H as <-. exists (c :: (a0 :: a) ++ [c]), [a0 :: a], b. split; [cbn; now rewrite <- app_assoc|]. split; [apply qa_arg; auto; [discriminate|constructor]|]. left. split; auto. cbn. lia.
        -- apply IH in H as (x & l & y & -> & A & X); [|rewrite app_length; cbn; lia]. exists (c :: (a0 :: a) ++ c :: x), ((a0 :: a) :: l), y.
           split; [cbn; rewrite <- app_assoc; reflexivity|]. split; [apply qa_arg; auto; discriminate|]. rewrite app_length in X. cbn [length] in *. replace (length acc + S (length l)) with (length acc + 1 + length l) by lia. exact X.
    + injection H as <-. exists [], [], (c :: t). split; [reflexivity|]. split; [constructor|]. right. cbn. split; [lia|]. exists c, t. split; auto. right. split; auto. split; auto. now apply index_byte_none.
  - assert (Qc : ~ quote c) by (intro X; apply quote_iff in X; congruence). destruct (Ascii.eqb c " " || Ascii.eqb c ",") eqn:S.
    + apply IH in H as (x & l & y & -> & A & X); auto. exists (c :: x), l, y. split; [reflexivity|]. split; auto. constructor; auto. apply orb_true_iff in S as [S|S]; apply Ascii.eqb_eq in S; auto.
    + injection H as <-. exists [], [], (c :: t). split; [reflexivity|]. split; [constructor|]. right. cbn. split; [lia|]. exists c, t. split; auto. left. apply orb_false_iff in S as [S1 S2]. apply Ascii.eqb_neq in S1, S2. auto.
Qed.
Lemma call_cut q : has_prefix (trim_sp q) (B "seriesByTag(") = true -> forall r, rev (trim_sp q) = ")"%char :: r ->
  exists a args b, spaces a /\ spaces b /\ q = a ++ B "seriesByTag(" ++ args ++ B ")" ++ b /\ firstn (length (trim_sp q) - 13) (skipn 12 (trim_sp q)) = args.
Proof.
  intros P r R. apply has_prefix_iff in P as (x & Ex). assert (Ey : exists y, x = y ++ B ")").
  { apply (f_equal (@rev ascii)) in R. rewrite rev_involutive in R. cbn [rev] in R. rewrite Ex in R. destruct x as [|z x _] using rev_ind.
    - rewrite app_nil_r in R. change (B "seriesByTag(") with (B "seriesByTag" ++ ["("%char]) in R. apply app_inj_tail in R as [_ R]. discriminate.
    - rewrite app_assoc in R. apply app_inj_tail in R as [_ ->]. now exists x. }
  destruct Ey as (y & ->). destruct (trim_sp_inv q) as (a & b & Sa & Sb & Eq). exists a, y, b. split; auto. split; auto. split; [rewrite Eq, Ex; now rewrite <- !app_assoc|].
  rewrite Ex. change (skipn 12 (B "seriesByTag(" ++ y ++ B ")")) with (y ++ B ")"). rewrite !app_length. cbn [length B list_ascii_of_string]. replace (12 + (length y + 1) - 13)%nat with (length y) by lia. now rewrite firstn_len.
Qed.
Lemma series_args_err rx q er : series_by_tag_args q 128 = Err er -> query_error rx q er.
Proof.
  unfold series_by_tag_args. cbv zeta. 
  assert (K : (forall a args b, spaces a -> spaces b -> q = a ++ B "seriesByTag(" ++ args ++ B ")" ++ b -> has_prefix (trim_sp q) (B "seriesByTag(") = true /\ exists r, rev (trim_sp q) = ")"%char :: r)).
  { intros a args b Sa Sb ->. rewrite query_trim by auto. split; [apply (hp_app (B "seriesByTag("))|]. eexists. rewrite (app_assoc (B "seriesByTag(")), (rev_app_distr (B "seriesByTag(" ++ args)). reflexivity. }
  destruct (has_prefix (trim_sp q) (B "seriesByTag(")) eqn:P; cbn [negb].
  2:{ intros [= <-]. apply qe_call. intros a args b Sa Sb E. now destruct (K a args b Sa Sb E). }
  destruct (rev (trim_sp q)) as [|c r] eqn:R; [discriminate|]. destruct (Ascii.eqb_spec c ")") as [->|Nc]; cbn [negb].
  2:{ intros [= <-]. apply qe_call. intros a args b Sa Sb E. destruct (K a args b Sa Sb E) as [_ (r' & X)]. congruence. }
  destruct (call_cut q P r R) as (a & args & b & Sa & Sb & Eq & ->). intro H. apply args_err in H as (x & l & y & -> & A & X); [|cbn; lia]. cbn [length] in X.
  destruct X as [[-> L]|(L & c & t & -> & [(N1 & N2 & N3 & ->)|(N1 & N2 & ->)])].
  - now apply (qe_many rx q a (x ++ y) b x l y).
  - now apply (qe_bare rx q a (x ++ c :: t) b x l).
  - now apply (qe_open rx q a (x ++ c :: t) b x l c).
Qed.
Lemma build_err rx k op v e : tt_build rx k op v = Err e ->
  (((op = OpMatch \/ op = OpNotMatch) /\ rx_ok rx v = false /\ e = ErrExprInvalid v) \/ ((op = OpEq \/ op = OpNe) /\ part_error v e)).
Proof.
  assert (G : forall o, (if has_wildcard v then bind (glob_parse v) (fun g => Ok (mkTerm k o (g_node g) (if null (g_items g) then None else Some g))) else Ok (mkTerm k o v None)) = Err e -> part_error v e).
  { intros o H. destruct (has_wildcard v); [|discriminate]. destruct (glob_parse v) as [g|e'| |] eqn:E; try discriminate. injection H as ->. now apply glob_part_error. }
  unfold tt_build. destruct op; intro H.
  - right. eauto.
  - left. destruct (rx_ok rx v); [discriminate|]. injection H as <-. auto.
  - right. eauto.
  - left. destruct (rx_ok rx v); [discriminate|]. injection H as <-. auto.
Qed.
Lemma condition_err rx s e : parse_condition rx s = Err e -> condition_error rx s e.
Proof.
  unfold parse_condition. cbv zeta. destruct (find_byte _ s) as [n|] eqn:E.
  2:{ intros [= <-]. apply ce_none. left. rewrite find_byte_none in E. intros c I. apply op_char_iff. rewrite Forall_forall in E. now apply E. }
  apply find_byte_inv in E as (a & c & b & Es & La & Pc & F).
  assert (Ic : In c (B "=~!")). { apply orb_true_iff in Pc as [Pc|Pc]; [apply orb_true_iff in Pc as [Pc|Pc]|]; apply Ascii.eqb_eq in Pc as ->; cbn; auto. }
  destruct n as [|n].
  { intros [= <-]. apply ce_none. right. destruct a; [|discriminate]. exists c, b. auto. }
  rewrite <- La, Es, firstn_len, skipn_len.
  assert (Na : a <> []) by (intros ->; discriminate). assert (Fa : forall d, In d a -> ~ In d (B "=~!")). { intros d I. apply op_char_iff. rewrite Forall_forall in F. now apply F. }
  assert (K : forall op value, c :: b = op_string op ++ value -> (op = OpEq \/ op = OpNe -> forall w, value <> "~"%char :: w) ->
    tt_build rx (if str_eqb (trim_space a) (B "name") then B "__name__" else trim_space a) op (trim_space value) = Err e -> condition_error rx (a ++ c :: b) e).
  { intros op value Ec Nt H. rewrite Ec. apply build_err in H as [(O & Hx & ->)|(O & Hp)].
    - apply ce_regexp; auto. now apply bare_iff.
    - apply ce_glob with (v := trim_space value); auto. now apply bare_iff. }
  destruct (has_prefix (c :: b) (B "=")) eqn:P1.
  + destruct (has_prefix (c :: b) (B "=~")) eqn:P2.
    * intro H. apply (has_prefix_iff _ (B "=~")) in P2 as (r & Er). rewrite Er in *. now apply (K OpMatch r); [|intros []|].
    * intro H. apply (has_prefix_iff _ (B "=")) in P1 as (r & Er). rewrite Er in *. apply (K OpEq r); auto. intros _ w ->. now apply (hp_false _ _ P2 w).
  + destruct (has_prefix (c :: b) (B "!=")) eqn:P3.
    * destruct (has_prefix (c :: b) (B "!=~")) eqn:P2.
      -- intro H. apply (has_prefix_iff _ (B "!=~")) in P2 as (r & Er). rewrite Er in *. now apply (K OpNotMatch r); [|intros []|].
      -- intro H. apply (has_prefix_iff _ (B "!=")) in P3 as (r & Er). rewrite Er in *. apply (K OpNe r); auto. intros _ w ->. now apply (hp_false _ _ P2 w).
    * intros [= <-]. apply ce_operator; auto. destruct Ic as [<-|[<-|[<-|[]]]]; [elim (hp_false _ _ P1 b); reflexivity|left; eauto|right].
      exists b. split; auto. intros w ->. now apply (hp_false _ _ P3 w).
Qed.
Lemma all_err rx e : forall l, parse_all rx l = Err e -> exists l1 s l2, l = l1 ++ s :: l2 /\ (forall s', In s' l1 -> exists t, reads rx s' t) /\ condition_error rx s e.
Proof.
  induction l as [|s l IH]; cbn [parse_all]; intro H; [discriminate|]. destruct (parse_condition rx s) as [t|e'| |] eqn:E; try discriminate; cbn [bind] in H.
  - destruct (parse_all rx l) as [ts|e'| |]; try discriminate. cbn [bind] in H. injection H as ->. destruct (IH eq_refl) as (l1 & s0 & l2 & -> & F & C). exists (s :: l1), s0, l2. split; auto. split; auto.
    intros s' [<-|I]; auto. exists t. now apply condition_iff.
  - injection H as ->. exists [], s, l. split; auto. split; [intros s' []|]. now apply condition_err.
Qed.
Lemma series_err rx q e : parse_series rx q = Err e -> query_error rx q e.
Proof.
  unfold parse_series. destruct (series_by_tag_args q 128) as [l|e'| |] eqn:A; cbn [bind]; try discriminate.
  - apply args_iff in A as [Q L]. unfold parse_conditions. destruct (parse_all rx l) as [ts|e'| |] eqn:P; cbn [bind]; try discriminate. intros [= ->].
    apply all_err in P as (l1 & s & l2 & -> & F & C). eapply qe_condition; eauto.
  - intros [= ->]. now apply series_args_err.
Qed.

(** ** Tagged paths *)
Lemma loop_bad sep : forall fuel args acc l bad, raw_upto sep args l bad -> (length args < fuel)%nat -> tags_loop fuel sep args acc = (acc ++ map decode_tag l, false).
Proof.
  induction fuel as [|f IH]; intros args acc l bad R L; [lia|]. cbn [tags_loop]. destruct R as [bad N K|k v rest l bad K V R].
  - destruct bad as [|x y]; [easy|]. unfold next_tag. rewrite cut_miss by auto. cbn. now rewrite app_nil_r.
  - destruct (k ++ "="%char :: v ++ sep :: rest) as [|x y] eqn:E; [now destruct k|]. rewrite <- E. unfold next_tag. rewrite !cut_hit by auto.
    rewrite (IH rest _ l bad); auto.
    + rewrite <- app_assoc. reflexivity.
    + rewrite <- E in L. rewrite app_length in L. cbn in L. rewrite app_length in L. cbn in L. lia.
Qed.
Lemma args_cases sep : forall n args, (length args < n)%nat -> (exists l, raw_args sep args l) \/ exists l bad, raw_upto sep args l bad.
Proof.
  induction n as [|n IH]; intros args L; [lia|]. destruct args as [|x y]; [left; exists []; constructor|].
  destruct (cut_cases "=" (x :: y)) as [[N _]|(k & b & E & K & _)]; [right; exists [], (x :: y); constructor; auto; discriminate|].
  destruct (cut_cases sep b) as [[V _]|(v & rest & -> & V & _)]; [left; exists [(k, b)]; rewrite E; now constructor|].
  assert (Lr : (length rest < n)%nat). { rewrite E, app_length in L. cbn in L. rewrite app_length in L. cbn in L. lia. }
  rewrite E. destruct (IH rest Lr) as [(l & R)|(l & bad & R)]; [left; exists ((k, v) :: l)|right; exists ((k, v) :: l), bad]; now constructor.
Qed.
Lemma path_gen_iff reason nsep sep p tags e : path_tags_gen reason nsep sep p = (tags, e) <-> decoding reason nsep sep p tags e.
Proof.
  assert (D : forall tags e, decoding reason nsep sep p tags e -> path_tags_gen reason nsep sep p = (tags, e)).
  { clear tags e. intros tags e (name & args & l & P & -> & X). unfold path_tags_gen.
    assert (C : exists ok, cut nsep p = (name, args, ok) /\ (ok && negb (contains_byte "=" name) = true <-> In nsep p /\ ~ In "="%char name)).
    { destruct P as [[-> N]|(-> & N & ->)].
      - exists true. split; [now apply cut_hit|]. cbn [andb]. rewrite negb_true_iff, contains_iff. split; [intro; split; auto; apply in_or_app; cbn; auto|tauto].
      - exists false. split; [now apply cut_miss|]. cbn [andb]. split; [discriminate|tauto]. }
    destruct C as (ok & -> & K). destruct X as [(R & X)|(bad & R & ->)].
    - rewrite (loop_raw sep _ args _ l R) by lia. unfold path_err. destruct (ok && _).
      + destruct X as [(A & B & ->)|[X ->]]; [reflexivity|]. tauto.
      + destruct X as [(A & B & ->)|[X ->]]; [|reflexivity]. assert (false = true) by now apply K. discriminate.
    - now rewrite (loop_bad sep _ args _ l bad R) by lia. }
  split; auto. intro H.
  assert (P : exists name args, (p = name ++ nsep :: args /\ ~ In nsep name) \/ (p = name /\ ~ In nsep name /\ args = [])).
  { destruct (cut_cases nsep p) as [[N _]|(name & args & E & N & _)]; [exists p, []|exists name, args]; auto. }
  destruct P as (name & args & P).
  assert (Y : (In nsep p /\ ~ In "="%char name) \/ ~ (In nsep p /\ ~ In "="%char name)).
  { destruct (in_dec ascii_dec nsep p), (in_dec ascii_dec "="%char name); tauto. }
  assert (Z : exists tags' e', decoding reason nsep sep p tags' e').
  { destruct (args_cases sep (S (length args)) args (Nat.lt_succ_diag_r _)) as [(l & R)|(l & bad & R)].
    - destruct Y as [[Y1 Y2]|Y]; do 2 eexists; exists name, args, l; (split; [exact P|]); (split; [reflexivity|]); left; (split; [exact R|]); [left|right]; repeat split; auto.
    - do 2 eexists; exists name, args, l; (split; [exact P|]); (split; [reflexivity|]); right; eauto. }
  destruct Z as (tags' & e' & Z). rewrite (D _ _ Z) in H. injection H as <- <-. exact Z.
Qed.
