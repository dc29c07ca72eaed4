(** Reading the text of a query: Spec/QuerySpec.v. *)
From Coq Require Import Lia ZifyBool ZifyN ZifyNat Permutation Sorting.Sorted.
From Verif Require Import Model.GTags Spec.TagSpec Spec.Symbols Spec.QuerySpec Proof.SortP Proof.Utf8P Proof.SymbolsP Proof.SkipP Proof.TagsP Proof.KeyP Proof.TermsP Proof.CondP Proof.RoundP Proof.TotalP Proof.LangP Proof.SafeP Proof.NextP Proof.ItemP.

(** The arguments. *)
Lemma quote_iff c : quote c <-> Ascii.eqb c apos || Ascii.eqb c quot = true.
Proof. unfold quote. rewrite orb_true_iff, !Ascii.eqb_eq. reflexivity. Qed.
Lemma args_sound q cap : forall fuel e acc r, series_args_loop q fuel cap e acc = Ok r -> exists l, quoted_args e l /\ r = acc ++ l.
Proof.
  induction fuel as [|f IH]; intros [|c t] acc r; cbn [series_args_loop]; try discriminate; try (intros [= <-]; exists []; rewrite app_nil_r; split; [constructor|auto]; fail).
  destruct (Ascii.eqb c apos || Ascii.eqb c quot) eqn:Q.
  - unfold parse_string. rewrite Q. apply quote_iff in Q. destruct (index_byte t c) as [i|] eqn:E; [|discriminate]. apply index_byte_cut in E as (a & b & -> & <- & N).
    rewrite firstn_len, skipn_len1. cbn [bind]. destruct a as [|x a]; cbn [null].
    + intro H. apply IH in H as (l & A & ->). exists l. split; auto. now apply qa_empty.
    + destruct (Nat.eqb _ _); [discriminate|]. intro H. apply IH in H as (l & A & ->). exists ((x :: a) :: l). rewrite <- app_assoc. split; auto. apply qa_arg; auto. discriminate.
  - destruct (Ascii.eqb c " " || Ascii.eqb c ",") eqn:S; [|discriminate]. intro H. apply IH in H as (l & A & ->). exists l. split; auto. apply qa_sep; auto.
    apply orb_true_iff in S as [S|S]; apply Ascii.eqb_eq in S; auto.
Qed.
Lemma args_complete query cap e l : quoted_args e l -> forall fuel acc, (length e <= fuel)%nat -> (length acc + length l <= cap)%nat -> series_args_loop query fuel cap e acc = Ok (acc ++ l).
Proof.
  induction 1 as [|c t l S A IH|q t l Q A IH|q a t l Q Na Ni A IH]; intros fuel acc F C.
  - destruct fuel; cbn; now rewrite app_nil_r.
  - cbn in F. destruct fuel as [|f]; [lia|]. cbn [series_args_loop]. replace (Ascii.eqb c apos || Ascii.eqb c quot) with false by (destruct S; subst; reflexivity).
    replace (Ascii.eqb c " " || Ascii.eqb c ",") with true by (destruct S; subst; reflexivity). apply IH; auto. lia.
  - cbn in F. destruct fuel as [|f]; [lia|]. apply quote_iff in Q. cbn [series_args_loop]. rewrite Q. unfold parse_string. rewrite Q. change (q :: t) with ([] ++ q :: t). rewrite index_byte_app by easy.
    cbn [length firstn skipn app bind null]. apply IH; auto. lia.
  - cbn in F. rewrite app_length in F. cbn in F, C. destruct fuel as [|f]; [lia|]. apply quote_iff in Q. cbn [series_args_loop]. rewrite Q. unfold parse_string. rewrite Q. rewrite index_byte_app by auto.
    rewrite firstn_len, skipn_len1. cbn [bind]. replace (null a) with false by (destruct a; easy). destruct (Nat.eqb_spec (length acc) cap); [lia|].
    rewrite IH; [now rewrite <- app_assoc|lia|rewrite app_length; cbn; lia].
Qed.

(** The spaces around the query. *)
Lemma trim_left_spaces a x : spaces a -> trim_left_sp (a ++ x) = trim_left_sp x.
Proof. induction a as [|c a IH]; intro S; auto. cbn. replace (is_space c) with true by (rewrite (S c); [reflexivity|now left]). apply IH. intros d I. apply S. now right. Qed.
Lemma trim_left_inv s : exists a, spaces a /\ s = a ++ trim_left_sp s.
Proof.
  induction s as [|c s (a & S & E)]; [exists []; split; [easy|auto]|]. cbn. destruct (is_space c) eqn:Sp; [|exists []; split; [easy|auto]].
  exists (c :: a). split; [|cbn; now f_equal]. intros d [<-|I]; [|auto]. now apply Ascii.eqb_eq.
Qed.
Lemma spaces_rev a : spaces a -> spaces (rev a).
Proof. intros S c I. apply S. now apply in_rev. Qed.
Lemma trim_sp_inv s : exists a b, spaces a /\ spaces b /\ s = a ++ trim_sp s ++ b.
Proof.
  unfold trim_sp. destruct (trim_left_inv s) as (a & Sa & Ea). destruct (trim_left_inv (rev (trim_left_sp s))) as (b & Sb & Eb).
  exists a, (rev b). split; auto. split; [now apply spaces_rev|]. rewrite <- rev_app_distr, <- Eb, rev_involutive. auto.
Qed.
Lemma query_trim a args b : spaces a -> spaces b -> trim_sp (a ++ B "seriesByTag(" ++ args ++ B ")" ++ b) = B "seriesByTag(" ++ args ++ B ")".
Proof.
  intros Sa Sb. unfold trim_sp. rewrite trim_left_spaces by auto.
  change (trim_left_sp (B "seriesByTag(" ++ args ++ B ")" ++ b)) with (B "seriesByTag(" ++ args ++ B ")" ++ b).
  replace (rev (B "seriesByTag(" ++ args ++ B ")" ++ b)) with (rev b ++ rev (B "seriesByTag(" ++ args ++ B ")")) by (rewrite <- rev_app_distr, <- !app_assoc; reflexivity).
  rewrite trim_left_spaces by now apply spaces_rev. rewrite app_assoc, rev_app_distr. change (rev (B ")")) with (B ")").
  change (trim_left_sp (B ")" ++ rev (B "seriesByTag(" ++ args))) with (B ")" ++ rev (B "seriesByTag(" ++ args)). rewrite rev_app_distr, rev_involutive. now rewrite <- app_assoc.
Qed.
Lemma args_iff q l cap : series_by_tag_args q cap = Ok l <-> query_text q l /\ (length l <= cap)%nat.
Proof.
  unfold series_by_tag_args. cbv zeta. split.
  - destruct (has_prefix (trim_sp q) (B "seriesByTag(")) eqn:P; [|discriminate]. cbn [negb]. destruct (rev (trim_sp q)) as [|c r] eqn:R; [discriminate|]. destruct (Ascii.eqb_spec c ")") as [->|]; [|discriminate]. cbn [negb].
    apply has_prefix_iff in P as (x & Ex). assert (Ey : exists y, x = y ++ B ")").
    { apply (f_equal (@rev ascii)) in R. rewrite rev_involutive in R. cbn [rev] in R. rewrite Ex in R. destruct x as [|z x _] using rev_ind.
      - rewrite app_nil_r in R. change (B "seriesByTag(") with (B "seriesByTag" ++ ["("%char]) in R. apply app_inj_tail in R as [_ R]. discriminate.
      - rewrite app_assoc in R. apply app_inj_tail in R as [_ ->]. now exists x. }
    destruct Ey as (y & ->). rewrite Ex. replace (firstn _ _) with y.
    + intro H. pose proof (args_count _ _ _ _ _ _ H (Nat.le_0_l _)) as C. apply args_sound in H as (l' & A & E). cbn in E. subst l'. split; auto.
      destruct (trim_sp_inv q) as (a & b & Sa & Sb & Eq). exists a, y, b. split; auto. split; auto. split; auto. rewrite Eq, Ex. now rewrite <- !app_assoc.
    + change (skipn 12 (B "seriesByTag(" ++ y ++ B ")")) with (y ++ B ")"). rewrite !app_length. cbn [length B list_ascii_of_string]. replace (12 + (length y + 1) - 13)%nat with (length y) by lia. now rewrite firstn_len.
  - intros ((a & args & b & Sa & Sb & -> & A) & C). rewrite query_trim by auto. rewrite (hp_app (B "seriesByTag(")). cbn [negb].
    replace (rev (B "seriesByTag(" ++ args ++ B ")")) with (")"%char :: rev (B "seriesByTag(" ++ args)) by (rewrite (app_assoc (B "seriesByTag(")), (rev_app_distr (B "seriesByTag(" ++ args)); reflexivity).
    cbn [Ascii.eqb negb]. change (Ascii.eqb ")" ")") with true. cbn [negb].
    replace (firstn _ _) with args.
    + now rewrite (args_complete _ cap args l).
    + change (skipn 12 (B "seriesByTag(" ++ args ++ B ")")) with (args ++ B ")"). rewrite !app_length. cbn [length B list_ascii_of_string]. replace (12 + (length args + 1) - 13)%nat with (length args) by lia. now rewrite firstn_len.
Qed.

(** White space. *)
Lemma white_rune_iff r : is_space_rune r = true <-> In r white_runes.
Proof.
  split.
  - intro H. unfold is_space_rune in H. unfold white_runes. cbn [In]. lia.
  - intro H. unfold white_runes in H. cbn [In] in H. unfold is_space_rune. lia.
Qed.
Lemma space_white x s : In x (symbols s) -> space_sym x = true <-> white x.
Proof.
  intro I. unfold space_sym, white. rewrite white_rune_iff. split.
  - intro H. exists (fst (decode_rune x)). split; auto.
    assert (Nx : x <> []) by now apply symbols_nonempty in I. destruct (decode_rune x) as [r n] eqn:D. cbn [fst] in *.
    assert (L : snd (decode_rune x) = length x). { apply in_split in I as (a & b & E). change (x :: b) with ([x] ++ b) in E. rewrite app_assoc in E. apply symbols_split in E as (_ & E & _). now apply decode_last_symbol in E. }
    rewrite D in L. cbn in L. destruct (encode_decode x r n D Nx) as (V & Ln & Eq).
    + unfold bad. cbn. intros [-> _]. unfold RuneError, white_runes in H. cbn [In] in H. lia.
    + rewrite Eq, L, skipn_all, app_nil_r. reflexivity.
  - intros (r & Ir & ->). rewrite <- (app_nil_r (encode_rune r)). rewrite decode_encode; auto. unfold white_runes in Ir. cbn [In] in Ir. unfold valid_rune. lia.
Qed.
Lemma drop_white l r : (forall x, In x l -> space_sym x = true) -> drop_space (l ++ r) = drop_space r.
Proof. induction l as [|x l IH]; intro H; auto. cbn. rewrite (H x) by now left. apply IH. intros y I. apply H. now right. Qed.
Lemma drop_inv l : exists a, l = a ++ drop_space l /\ forall x, In x a -> space_sym x = true.
Proof.
  induction l as [|x l (a & E & F)]; [now exists []|]. cbn. destruct (space_sym x) eqn:S; [|now exists []]. exists (x :: a). split; [cbn; now f_equal|]. intros y [<-|I]; auto.
Qed.
Lemma bare_iff s t : bare s t <-> t = trim_space s.
Proof.
  split.
  - intros (a & b & E & Wa & Wb & H1 & H2). apply symbols_inj. rewrite trim_symbols, E.
    assert (Sa : forall x, In x a -> space_sym x = true). { intros x I. rewrite Forall_forall in Wa. apply (space_white x s); auto. rewrite E. apply in_or_app. now left. }
    assert (Sb : forall x, In x b -> space_sym x = true). { intros x I. rewrite Forall_forall in Wb. apply (space_white x s); auto. rewrite E. apply in_or_app. right. apply in_or_app. now right. }
    rewrite drop_white by auto. assert (NS : forall x, In x (symbols t) -> ~ white x -> space_sym x = false). { intros x I N. destruct (space_sym x) eqn:S; auto. exfalso. apply N. now apply (space_white x t). }
    destruct (symbols t) as [|x l] eqn:Et.
    + cbn [app]. rewrite <- (app_nil_r b), drop_white by auto. reflexivity.
    + cbn [app]. assert (Sx : space_sym x = false). { apply NS; [now left|]. eapply H1. reflexivity. }
      cbn [drop_space]. rewrite Sx. change (x :: l ++ b) with ((x :: l) ++ b). rewrite rev_app_distr, drop_white by (intros y I; apply Sb; now apply in_rev).
      destruct (rev (x :: l)) as [|z r] eqn:R; [apply (f_equal (@length _)) in R; rewrite rev_length in R; discriminate|].
      assert (El : x :: l = rev r ++ [z]). { apply (f_equal (@rev _)) in R. now rewrite rev_involutive in R. }
      cbn [drop_space]. rewrite (NS z); [|rewrite El; apply in_or_app; right; now left|eapply H2; exact El]. rewrite <- R. now rewrite rev_involutive.
  - intros ->. unfold bare. pose proof (trim_symbols s) as E. destruct (drop_inv (symbols s)) as (a & Ea & Fa). destruct (drop_inv (rev (drop_space (symbols s)))) as (b & Eb & Fb).
    assert (Em : drop_space (symbols s) = symbols (trim_space s) ++ rev b). { rewrite E, <- rev_app_distr, <- Eb. now rewrite rev_involutive. }
    rewrite Em in Ea. exists a, (rev b). split; auto.
    assert (Wh : forall x, In x (symbols s) -> space_sym x = true -> white x) by (intros x I; apply (space_white x s I)).
    split; [|split; [|split]].
    + apply Forall_forall. intros x I. apply Wh; auto. rewrite Ea. apply in_or_app. now left.
    + apply Forall_forall. intros x I. apply Wh; [|apply Fb; now apply in_rev]. rewrite Ea. apply in_or_app. right. apply in_or_app. now right.
    + intros x l Ex W. assert (S : space_sym x = true) by (apply (space_white x (trim_space s)); [rewrite Ex; now left|auto]).
      pose proof (drop_idem (symbols s)) as D. rewrite Em, Ex in D. apply drop_head in D. congruence.
    + intros x l Ex W. assert (S : space_sym x = true) by (apply (space_white x (trim_space s)); [rewrite Ex; apply in_or_app; right; now left|auto]).
      rewrite E in Ex. apply (f_equal (@rev _)) in Ex. rewrite rev_involutive, rev_app_distr in Ex. cbn in Ex. pose proof (drop_idem (rev (drop_space (symbols s)))) as D. rewrite Ex in D. apply drop_head in D. congruence.
Qed.

(** One condition. *)
Lemma wild_iff v : has_wildcard v = true <-> exists c, In c v /\ wild_byte c.
Proof.
  unfold has_wildcard. rewrite existsb_exists. assert (W : forall c, is_wild c = true <-> wild_byte c).
  { intro c. unfold is_wild, wild_byte. cbn [B list_ascii_of_string In]. rewrite !orb_true_iff, !Ascii.eqb_eq. intuition. }
  split; intros (c & I & H); exists c; split; auto; now apply W.
Qed.
Lemma build_iff rx k op v t : tt_build rx k op v = Ok t <-> tt_key t = k /\ tt_op t = op /\ keeps rx op v (tt_value t) (tt_glob t).
Proof.
  assert (G : forall o, (if has_wildcard v then bind (glob_parse v) (fun g => Ok (mkTerm k o (g_node g) (if null (g_items g) then None else Some g))) else Ok (mkTerm k o v None)) = Ok t <->
    tt_key t = k /\ tt_op t = o /\ (((forall c, In c v -> ~ wild_byte c) /\ tt_value t = v /\ tt_glob t = None) \/
      ((exists c, In c v /\ wild_byte c) /\ exists g, glob_parse v = Ok g /\ tt_value t = g_node g /\ ((g_items g = [] /\ tt_glob t = None) \/ (g_items g <> [] /\ tt_glob t = Some g))))).
  { intro o. pose proof (wild_iff v) as W. destruct (has_wildcard v).
    - assert (Wt : exists c, In c v /\ wild_byte c) by now apply W. split.
      + destruct (glob_parse v) as [g|e| |] eqn:E; cbn [bind]; try discriminate. intro H. apply ok_inj in H as <-. cbn. split; auto. split; auto. right. split; auto. exists g. split; auto. split; auto.
        destruct (g_items g); cbn [null]; [left; auto|right; split; [discriminate|auto]].
      + intros (Ek & Eo & [(N & _)|(_ & g & E & Ev & Eg)]); [exfalso; destruct Wt as (c & I & H); now apply (N c)|]. rewrite E. cbn [bind]. destruct t. cbn in *. subst. f_equal. f_equal.
        destruct Eg as [[-> ->]|[N ->]]; [reflexivity|]. destruct (g_items g); [easy|reflexivity].
    - assert (Wt : ~ exists c, In c v /\ wild_byte c) by (intro X; apply W in X; discriminate). split.
      + intro H. apply ok_inj in H as <-. cbn. split; auto. split; auto. left. split; auto. intros c I H. apply Wt. eauto.
      + intros (Ek & Eo & [(_ & Ev & Eg)|(X & _)]); [|easy]. destruct t. cbn in *. now subst. }
  assert (R : forall o, (if rx_ok rx v then Ok (mkTerm k o v None) else Err (ErrExprInvalid v)) = Ok t <-> tt_key t = k /\ tt_op t = o /\ rx_ok rx v = true /\ tt_value t = v /\ tt_glob t = None).
  { intro o. destruct (rx_ok rx v); split; try discriminate.
    - intro H. apply ok_inj in H as <-. auto.
    - intros (Ek & Eo & _ & Ev & Eg). destruct t. cbn in *. now subst.
    - intros (_ & _ & X & _). discriminate. }
  unfold tt_build, keeps. destruct op; auto.
Qed.
Lemma op_char_iff c : op_char c = false <-> ~ In c (B "=~!").
Proof. unfold op_char. cbn [B list_ascii_of_string In]. rewrite !orb_false_iff, !Ascii.eqb_neq. intuition. Qed.
Lemma key_case k (x : str) : x = (if str_eqb k (B "name") then B "__name__" else k) <-> (k = B "name" /\ x = B "__name__") \/ (k <> B "name" /\ x = k).
Proof. destruct (str_eqb_spec k (B "name")); intuition. Qed.
Lemma hp_false s p : has_prefix s p = false -> forall r, s <> p ++ r.
Proof. intros H r ->. rewrite hp_app in H. discriminate. Qed.
Lemma condition_iff rx s t : parse_condition rx s = Ok t <-> reads rx s t.
Proof.
  unfold parse_condition. cbv zeta. split.
  - destruct (find_byte _ s) as [[|n]|] eqn:E; try discriminate. apply find_byte_inv in E as (a & c & b & Es & La & Pc & F). rewrite <- La, Es, firstn_len, skipn_len.
    assert (Na : a <> []) by (intros ->; discriminate). assert (Fa : forall d, In d a -> ~ In d (B "=~!")). { intros d I. apply op_char_iff. rewrite Forall_forall in F. now apply F. }
    assert (K : forall op value, c :: b = op_string op ++ value -> (op = OpEq \/ op = OpNe -> forall w, value <> "~"%char :: w) ->
      tt_build rx (if str_eqb (trim_space a) (B "name") then B "__name__" else trim_space a) op (trim_space value) = Ok t -> reads rx (a ++ c :: b) t).
    { intros op value Ec Nt H. apply build_iff in H as (Hk & Ho & Kp). exists a, value, (trim_space a), (trim_space value). rewrite Ho, <- Ec. split; auto. split; auto. split; auto. split; auto.
      split; [now apply bare_iff|]. split; [now apply bare_iff|]. split; auto. now apply key_case. }
    destruct (has_prefix (c :: b) (B "=")) eqn:P1.
    + destruct (has_prefix (c :: b) (B "=~")) eqn:P2.
      * intro H. apply (has_prefix_iff _ (B "=~")) in P2 as (r & Er). rewrite Er in *. now apply (K OpMatch r); [|intros []|].
      * intro H. apply (has_prefix_iff _ (B "=")) in P1 as (r & Er). rewrite Er in *. apply (K OpEq r); auto. intros _ w ->. now apply (hp_false _ _ P2 w).
    + destruct (has_prefix (c :: b) (B "!=")) eqn:P3; [|discriminate]. destruct (has_prefix (c :: b) (B "!=~")) eqn:P2.
      * intro H. apply (has_prefix_iff _ (B "!=~")) in P2 as (r & Er). rewrite Er in *. now apply (K OpNotMatch r); [|intros []|].
      * intro H. apply (has_prefix_iff _ (B "!=")) in P3 as (r & Er). rewrite Er in *. apply (K OpNe r); auto. intros _ w ->. now apply (hp_false _ _ P2 w).
  - intros (key & value & k & v & -> & Nk & Fk & Nt & Bk & Bv & Ek & Kp). apply bare_iff in Bk as ->. apply bare_iff in Bv as ->.
    assert (E : find_byte (fun c => Ascii.eqb c "=" || Ascii.eqb c "~" || Ascii.eqb c "!") (key ++ op_string (tt_op t) ++ value) = Some (length key)).
    { destruct (op_string (tt_op t)) as [|c0 o] eqn:Eo; [now destruct (tt_op t)|]. cbn [app]. apply find_byte_app.
      - apply Forall_forall. intros d I. apply op_char_iff. auto.
      - destruct (tt_op t); cbn in Eo; injection Eo as <- _; reflexivity. }
    rewrite E. destruct (length key) as [|n] eqn:El; [destruct key; easy|]. rewrite <- El. clear E El n. rewrite firstn_len, skipn_len.
    apply key_case in Ek. assert (Bd : tt_build rx (if str_eqb (trim_space key) (B "name") then B "__name__" else trim_space key) (tt_op t) (trim_space value) = Ok t) by (apply build_iff; auto).
    destruct (tt_op t) eqn:Eo; cbn [op_string].
    + rewrite (hp_app (B "=") value). cbv iota. replace (has_prefix (B "=" ++ value) (B "=~")) with false; [exact Bd|]. symmetry. apply (hp_tilde (B "=")). auto.
    + replace (has_prefix (B "=~" ++ value) (B "=")) with true by reflexivity. rewrite (hp_app (B "=~") value). exact Bd.
    + change (has_prefix (B "!=" ++ value) (B "=")) with false. rewrite (hp_app (B "!=") value). cbv iota. replace (has_prefix (B "!=" ++ value) (B "!=~")) with false; [exact Bd|]. symmetry. apply (hp_tilde (B "!=")). auto.
    + change (has_prefix (B "!=~" ++ value) (B "=")) with false. replace (has_prefix (B "!=~" ++ value) (B "!=")) with true by reflexivity. rewrite (hp_app (B "!=~") value). exact Bd.
Qed.

(** The order. *)
Lemma before_iff t u : before t u <-> cond_ltb (condition t) (condition u) = true.
Proof. destruct t as [k o v g], u as [k' o' v' g']. unfold condition. cbn [tt_key tt_op tt_value]. rewrite cond_lt_iff. unfold before. cbn [tt_key tt_op tt_value]. destruct o, o'; reflexivity. Qed.
Lemma sorted_in_order l : StronglySorted (fun a b => cond_ltb b a = false) (map condition l) -> in_order l.
Proof.
  intros S a t b u c ->. rewrite before_iff. rewrite map_app in S. cbn [map] in S. rewrite map_app in S. cbn [map] in S.
  induction (map condition a) as [|x m IH]; cbn [app] in S.
  - apply StronglySorted_inv in S as [_ F]. rewrite Forall_forall in F. rewrite (F (condition u)); [discriminate|]. apply in_or_app. right. now left.
  - apply StronglySorted_inv in S as [S _]. auto.
Qed.
Lemma isort_in_order l : in_order (isort term_ltb l).
Proof. apply sorted_in_order. rewrite isort_map. apply (isort_sorted cond_ltb cond_asym cond_nlt_trans). Qed.

Lemma conditions_reads rx l ts : parse_conditions rx l = Ok ts -> exists us, Forall2 (reads rx) l us /\ Permutation us ts /\ in_order ts.
Proof.
  unfold parse_conditions. destruct (parse_all rx l) as [us|e| |] eqn:E; cbn [bind]; try discriminate. intro H. apply ok_inj in H as <-. exists us. split; [|split; [symmetry; apply isort_term_perm|apply isort_in_order]].
  apply all_iff in E. induction E; constructor; auto. now apply condition_iff.
Qed.
Lemma reads_conditions rx l us : Forall2 (reads rx) l us -> exists ts, parse_conditions rx l = Ok ts /\ Permutation us ts /\ in_order ts.
Proof.
  intro F. assert (E : parse_all rx l = Ok us). { apply all_iff. induction F; constructor; auto. now apply condition_iff. }
  exists (isort term_ltb us). unfold parse_conditions. rewrite E. split; [reflexivity|]. split; [symmetry; apply isort_term_perm|apply isort_in_order].
Qed.
