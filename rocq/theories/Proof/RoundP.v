(** Writing a list of conditions and reading it back. *)
From Coq Require Import Lia ZifyBool ZifyN ZifyNat Permutation Sorting.Sorted.
From Verif Require Import Model.GTags Spec.TagSpec Spec.Symbols Proof.SortP Proof.Utf8P Proof.SymbolsP Proof.SkipP Proof.TagsP Proof.KeyP Proof.TermsP Proof.CondP Proof.TotalP Proof.LangP Proof.SafeP.

(** White space. *)
Definition space_sym (x : str) : bool := is_space_rune (fst (decode_rune x)).
Lemma head_rune s x l : symbols s = x :: l -> decode_rune s = decode_rune x /\ snd (decode_rune s) = length x /\ s = x ++ concat l /\ symbols (concat l) = l.
Proof.
  intro E. assert (NE : s <> []) by (intros ->; discriminate). destruct (symbols_split s [x] l E) as (Es & E1 & E2). cbn [concat] in Es. rewrite app_nil_r in Es.
  assert (L : snd (decode_rune s) = length x).
  { rewrite symbols_cons in E by auto. injection E as Ex _. rewrite <- Ex. rewrite firstn_length. pose proof (decode_size_le s). lia. }
  repeat split; auto. symmetry. rewrite Es in *. apply decode_firstn; auto. intros ->. apply (symbols_nonempty s []); [|auto]. rewrite Es, E. now left.
Qed.
Fixpoint drop_space (l : list str) : list str := match l with x :: r => if space_sym x then drop_space r else l | [] => [] end.
Lemma trim_left_symbols : forall fuel s, (length s <= fuel)%nat -> symbols (trim_space_left fuel s) = drop_space (symbols s).
Proof.
  induction fuel as [|f IH]; intros s L; [destruct s; cbn in *; [reflexivity|lia]|]. cbn [trim_space_left]. destruct s as [|c t] eqn:Es; [reflexivity|]. rewrite <- Es in *.
  destruct (symbols s) as [|x l] eqn:E; [apply symbols_eq_nil in E; congruence|]. destruct (head_rune _ _ _ E) as (D & Ls & Ec & El).
  destruct (decode_rune s) as [r n] eqn:Ed. cbn [snd] in Ls. cbn [drop_space]. unfold space_sym. rewrite <- D. cbn [fst]. destruct (is_space_rune r); auto.
  rewrite Ec. rewrite Ls, skipn_len. rewrite IH, El; auto. assert (x <> []) by (apply (symbols_nonempty s); rewrite E; now left). rewrite Ec, app_length in L. destruct x; [easy|cbn in L; lia].
Qed.
Lemma trim_right_symbols : forall fuel s, (length s <= fuel)%nat -> symbols (trim_space_right fuel s) = rev (drop_space (rev (symbols s))).
Proof.
  induction fuel as [|f IH]; intros s L; [destruct s; cbn in *; [reflexivity|lia]|]. cbn [trim_space_right]. destruct s as [|c t] eqn:Es; [reflexivity|]. rewrite <- Es in *.
  destruct (symbols s) as [|x l _] eqn:E using rev_ind; [apply symbols_eq_nil in E; congruence|]. destruct (decode_last_symbol _ _ _ E) as (D & Ls).
  destruct (symbols_split _ _ _ E) as (Ec & El & _). cbn [concat] in Ec. rewrite app_nil_r in Ec.
  rewrite D. destruct (decode_rune x) as [r n] eqn:Ed. cbn [snd] in Ls. rewrite rev_app_distr. cbn [rev app drop_space]. unfold space_sym. rewrite Ed. cbn [fst]. destruct (is_space_rune r).
  - assert (x <> []) by (apply (symbols_nonempty s); rewrite E; apply in_or_app; right; now left).
    assert (Ef : firstn (length s - n) s = concat l). { rewrite Ec, app_length, Ls. replace (length (concat l) + length x - length x)%nat with (length (concat l)) by lia. apply firstn_len. }
    rewrite Ef, IH, El; auto. rewrite Ec, app_length in L. destruct x; [easy|cbn in L; lia].
  - cbn [rev]. now rewrite rev_involutive, E.
Qed.
Lemma trim_symbols s : symbols (trim_space s) = rev (drop_space (rev (drop_space (symbols s)))).
Proof. unfold trim_space. rewrite trim_right_symbols by auto. now rewrite trim_left_symbols by auto. Qed.
Lemma drop_suffix l : exists a, l = a ++ drop_space l.
Proof. induction l as [|x l IH]; [now exists []|]. cbn. destruct (space_sym x); [|now exists []]. destruct IH as (a & E). exists (x :: a). cbn. now f_equal. Qed.
Lemma drop_idem l : drop_space (drop_space l) = drop_space l.
Proof. induction l as [|x l IH]; auto. cbn. destruct (space_sym x) eqn:E; auto. cbn. now rewrite E. Qed.
Lemma drop_head l : drop_space l = l <-> match l with x :: _ => space_sym x = false | [] => True end.
Proof.
  destruct l as [|x l]; cbn; [easy|]. destruct (space_sym x) eqn:E; split; auto; try discriminate. intro H. destruct (drop_suffix l) as (a & Ea). apply (f_equal (@length _)) in H. rewrite Ea in H at 2. cbn in H. rewrite app_length in H. lia.
Qed.
Lemma drop_rev_drop l : drop_space l = l -> drop_space (rev (drop_space (rev l))) = rev (drop_space (rev l)).
Proof.
  intro H. apply drop_head. destruct (drop_suffix (rev l)) as (a & E). assert (El : l = rev (drop_space (rev l)) ++ rev a). { rewrite <- rev_app_distr, <- E. now rewrite rev_involutive. }
  destruct (rev (drop_space (rev l))) as [|x y]; auto. apply drop_head in H. rewrite El in H. exact H.
Qed.
Lemma trim_idem s : trim_space (trim_space s) = trim_space s.
Proof.
  apply symbols_inj. rewrite (trim_symbols (trim_space s)), trim_symbols. set (l := drop_space (symbols s)). rewrite (drop_rev_drop l (drop_idem _)). now rewrite (rev_involutive (drop_space (rev l))), drop_idem.
Qed.
Lemma trim_left_suffix : forall fuel s, exists a, s = a ++ trim_space_left fuel s.
Proof.
  induction fuel as [|f IH]; intro s; [now exists []|]. cbn. destruct s as [|c t] eqn:Es; [now exists []|]. rewrite <- Es in *. destruct (decode_rune s) as [r n]. destruct (is_space_rune r); [|now exists []].
  destruct (IH (skipn n s)) as (a & E). exists (firstn n s ++ a). rewrite <- app_assoc, <- E. now rewrite firstn_skipn.
Qed.
Lemma trim_right_prefix : forall fuel s, exists b, s = trim_space_right fuel s ++ b.
Proof.
  induction fuel as [|f IH]; intro s; [exists []; cbn; now rewrite app_nil_r|]. cbn. destruct s as [|c t] eqn:Es; [now exists []|]. rewrite <- Es in *. destruct (decode_last_rune s) as [r n]. destruct (is_space_rune r); [|exists []; now rewrite app_nil_r].
  destruct (IH (firstn (length s - n) s)) as (b & E). exists (b ++ skipn (length s - n) s). rewrite app_assoc, <- E. now rewrite firstn_skipn.
Qed.
Lemma trim_in c s : In c (trim_space s) -> In c s.
Proof.
  unfold trim_space. intro I. destruct (trim_left_suffix (length s) s) as (a & Ea). destruct (trim_right_prefix (length (trim_space_left (length s) s)) (trim_space_left (length s) s)) as (b & Eb).
  rewrite Ea. apply in_or_app. right. rewrite Eb. apply in_or_app. now left.
Qed.

(** One condition. *)
Definition op_char (c : ascii) : bool := Ascii.eqb c "=" || Ascii.eqb c "~" || Ascii.eqb c "!".
Definition rebuilds (rx : regexps) (t : tterm) : Prop :=
  tt_key t <> [] /\ trim_space (tt_key t) = tt_key t /\ tt_key t <> B "name" /\ (forall c, In c (tt_key t) -> op_char c = false) /\
  trim_space (tt_value t) = tt_value t /\ (tt_op t = OpEq \/ tt_op t = OpNe -> forall v, tt_value t <> "~"%char :: v) /\
  tt_build rx (tt_key t) (tt_op t) (tt_value t) = Ok t.
Lemma hp_app p v : has_prefix (p ++ v) p = true.
Proof. induction p as [|c p IH]; cbn; [now destruct v|]. now rewrite Ascii.eqb_refl. Qed.
Lemma hp_tilde x v : (forall w, v <> "~"%char :: w) -> has_prefix (x ++ v) (x ++ ["~"%char]) = false.
Proof.
  intro H. induction x as [|c x IH]; cbn [app has_prefix].
  - destruct v as [|c v]; auto. cbn [has_prefix]. destruct (Ascii.eqb_spec "~" c) as [<-|N]; auto. exfalso. now apply (H v).
  - rewrite Ascii.eqb_refl. exact IH.
Qed.
Lemma condition_write rx t : rebuilds rx t -> parse_condition rx (tt_write t) = Ok t.
Proof.
  intros (K & Tk & Nn & Op & Tv & Ti & Bd). unfold parse_condition, tt_write.
  assert (E : find_byte (fun c => Ascii.eqb c "=" || Ascii.eqb c "~" || Ascii.eqb c "!") (tt_key t ++ op_string (tt_op t) ++ tt_value t) = Some (length (tt_key t))).
  { destruct (op_string (tt_op t)) as [|c0 o] eqn:Eo; [now destruct (tt_op t)|]. cbn [app]. apply find_byte_app.
    - apply Forall_forall. exact Op.
    - destruct (tt_op t); cbn in Eo; injection Eo as <- _; reflexivity. }
  rewrite E. destruct (length (tt_key t)) as [|n] eqn:El; [destruct (tt_key t); easy|]. rewrite <- El. clear E El n.
  rewrite firstn_len, skipn_len, Tk. destruct (str_eqb_spec (tt_key t) (B "name")) as [|_]; [easy|].
  destruct (tt_op t) eqn:Eo; cbn [op_string].
  - rewrite (hp_app (B "=") (tt_value t)). cbv iota.
    replace (has_prefix (B "=" ++ tt_value t) (B "=~")) with false; [cbn [skipn app B list_ascii_of_string]; now rewrite Tv|].
    symmetry. apply (hp_tilde (B "=")). auto.
  - replace (has_prefix (B "=~" ++ tt_value t) (B "=")) with true by reflexivity. rewrite (hp_app (B "=~") (tt_value t)). cbv iota. change (skipn 2 (B "=~" ++ tt_value t)) with (tt_value t). now rewrite Tv.
  - change (has_prefix (B "!=" ++ tt_value t) (B "=")) with false. rewrite (hp_app (B "!=") (tt_value t)). cbv iota.
    replace (has_prefix (B "!=" ++ tt_value t) (B "!=~")) with false; [change (skipn 2 (B "!=" ++ tt_value t)) with (tt_value t); now rewrite Tv|].
    symmetry. apply (hp_tilde (B "!=")). auto.
  - change (has_prefix (B "!=~" ++ tt_value t) (B "=")) with false. replace (has_prefix (B "!=~" ++ tt_value t) (B "!=")) with true by reflexivity. rewrite (hp_app (B "!=~") (tt_value t)). cbv iota.
    change (skipn 3 (B "!=~" ++ tt_value t)) with (tt_value t). now rewrite Tv.
Qed.
Lemma build_parts rx k op v t : tt_build rx k op v = Ok t -> tt_key t = k /\ tt_op t = op.
Proof.
  unfold tt_build. destruct op; try (destruct (rx_ok rx v); [|discriminate]; intros [= <-]; auto); destruct (has_wildcard v); try (intros [= <-]; auto); destruct (glob_parse v); cbn; try discriminate; intros [= <-]; auto.
Qed.
Lemma parsed_condition rx s t : parse_condition rx s = Ok t -> 
  trim_space (tt_key t) = tt_key t /\ tt_key t <> B "name" /\ (forall c, In c (tt_key t) -> op_char c = false) /\ exists v, trim_space v = v /\ tt_build rx (tt_key t) (tt_op t) v = Ok t.
Proof.
  unfold parse_condition. destruct (find_byte _ s) as [[|n]|] eqn:E; try discriminate. apply find_byte_inv in E as (a & c & b & Es & La & Pc & F).
  rewrite <- La. rewrite Es. rewrite firstn_len, skipn_len. clear Es La n s.
  set (k := if str_eqb (trim_space a) (B "name") then B "__name__" else trim_space a).
  assert (Hk : trim_space k = k /\ k <> B "name" /\ forall c, In c k -> op_char c = false).
  { unfold k. destruct (str_eqb_spec (trim_space a) (B "name")) as [|N].
    - split; [reflexivity|]. split; [discriminate|]. intros d I. repeat (destruct I as [<-|I]; [reflexivity|]). destruct I.
    - split; [apply trim_idem|]. split; auto. intros d I. apply trim_in in I. rewrite Forall_forall in F. now apply F. }
  assert (G : forall op v, tt_build rx k op (trim_space v) = Ok t -> trim_space (tt_key t) = tt_key t /\ tt_key t <> B "name" /\ (forall c, In c (tt_key t) -> op_char c = false) /\ exists v, trim_space v = v /\ tt_build rx (tt_key t) (tt_op t) v = Ok t).
  { intros op v Bd. destruct (build_parts _ _ _ _ _ Bd) as [E1 E2]. rewrite E1, E2. destruct Hk as (H1 & H2 & H3). split; auto. split; auto. split; auto. exists (trim_space v). split; [apply trim_idem|auto]. }
  cbv zeta. destruct (has_prefix (c :: b) (B "=")).
  - destruct (has_prefix (c :: b) (B "=~")); apply G.
  - destruct (has_prefix (c :: b) (B "!=")); [|discriminate]. destruct (has_prefix (c :: b) (B "!=~")); apply G.
Qed.
Lemma glob_text text g : glob_parse text = Ok g -> g_glob g = text.
Proof.
  assert (F : forall t p s mn mx its, g_glob (finish_glob t p s mn mx its) = t) by (intros; unfold finish_glob; now destruct its).
  unfold glob_parse. destruct (index_wildcard text); [|intros [= <-]; reflexivity]. cbv zeta. destruct (index_last_wildcard _); [|discriminate]. destruct (_ && _ && _); [discriminate|].
  destruct (if (_ <? _)%nat then _ else _) as [sf body]. destruct (str_eqb body _); [intro H; injection H as <-; reflexivity|]. destruct (str_eqb body _); [intro H; injection H as <-; reflexivity|].
  destruct (parse_loop _ _ _) as [[[[p mn] mx] rl]|e| |]; cbn [bind]; try discriminate. destruct (take_suffix sf rl) as [sf' rl']. intro H. apply ok_inj in H as <-. apply F.
Qed.
Lemma parsed_rebuilds rx s t : parse_condition rx s = Ok t -> plain_term t -> rebuilds rx t.
Proof.
  intros P (K & Ak & Av & Tv & Eq). destruct (parsed_condition _ _ _ P) as (Tk & Nn & Op & v & Vt & Bd). split; auto. split; auto. split; auto. split; auto. split; auto.
  split; [intro H; now apply Eq|]. clear P Tk Nn Op Ak Av. unfold tt_build in *. destruct (tt_op t) eqn:Eo.
  - destruct (Eq (or_introl eq_refl)) as [_ G]. clear Eq. destruct (has_wildcard v) eqn:W; [|apply ok_inj in Bd; assert (Ev : tt_value t = v) by (now rewrite <- Bd); rewrite Ev, W; now f_equal].
    destruct (glob_parse v) as [g|e| |] eqn:Eg; cbn in Bd; try discriminate. apply ok_inj in Bd. assert (Ev : tt_value t = g_node g) by now rewrite <- Bd. assert (Egl : tt_glob t = if null (g_items g) then None else Some g) by now rewrite <- Bd. rewrite Egl in G.
    destruct (null (g_items g)) eqn:Nl; rewrite Ev in *.
    + rewrite G. now f_equal.
    + rewrite (glob_text _ _ Eg) in G. subst v. rewrite W, Eg. cbn. rewrite Nl. now f_equal.
  - destruct (rx_ok rx v) eqn:R; [|discriminate]. apply ok_inj in Bd. assert (Ev : tt_value t = v) by now rewrite <- Bd. now rewrite Ev, R, Bd.
  - destruct (Eq (or_intror eq_refl)) as [_ G]. clear Eq. destruct (has_wildcard v) eqn:W; [|apply ok_inj in Bd; assert (Ev : tt_value t = v) by (now rewrite <- Bd); rewrite Ev, W; now f_equal].
    destruct (glob_parse v) as [g|e| |] eqn:Eg; cbn in Bd; try discriminate. apply ok_inj in Bd. assert (Ev : tt_value t = g_node g) by now rewrite <- Bd. assert (Egl : tt_glob t = if null (g_items g) then None else Some g) by now rewrite <- Bd. rewrite Egl in G.
    destruct (null (g_items g)) eqn:Nl; rewrite Ev in *.
    + rewrite G. now f_equal.
    + rewrite (glob_text _ _ Eg) in G. subst v. rewrite W, Eg. cbn. rewrite Nl. now f_equal.
  - destruct (rx_ok rx v) eqn:R; [|discriminate]. apply ok_inj in Bd. assert (Ev : tt_value t = v) by now rewrite <- Bd. now rewrite Ev, R, Bd.
Qed.

(** The arguments. *)
Definition quoted (s : str) : str := apos :: s ++ [apos].
Lemma args_quoted q cap : forall l acc fuel, (forall s, In s l -> s <> [] /\ ~ In apos s) -> (length acc + length l <= cap)%nat ->
  (length (join_with "," (map quoted l)) <= fuel)%nat -> series_args_loop q fuel cap (join_with "," (map quoted l)) acc = Ok (acc ++ l).
Proof.
  assert (One : forall s t fuel acc, s <> [] -> ~ In apos s -> (length acc < cap)%nat -> series_args_loop q (S fuel) cap (quoted s ++ t) acc = series_args_loop q fuel cap t (acc ++ [s])).
  { intros s t fuel acc Ns As L. unfold quoted. cbn [app series_args_loop]. change (Ascii.eqb apos apos || Ascii.eqb apos quot) with true. cbv iota. unfold parse_string. change (Ascii.eqb apos apos || Ascii.eqb apos quot) with true. cbv iota.
    rewrite <- app_assoc. cbn [app]. rewrite index_byte_app by auto. rewrite firstn_len, skipn_len1. cbn [bind]. destruct s as [|c s]; [easy|]. cbn [null]. destruct (Nat.eqb_spec (length acc) cap); [lia|]. reflexivity. }
  induction l as [|s l IH]; intros acc fuel H L F; [cbn; destruct fuel; now rewrite app_nil_r|].
  destruct (H s (or_introl eq_refl)) as [Ns As]. destruct l as [|s2 l].
  - cbn [map join_with] in *. destruct fuel as [|fuel]; [unfold quoted in F; cbn in F; lia|]. rewrite <- (app_nil_r (quoted s)), One; auto; [|cbn in L; lia]. destruct fuel; reflexivity.
  - change (join_with "," (map quoted (s :: s2 :: l))) with (quoted s ++ ","%char :: join_with "," (map quoted (s2 :: l))) in *.
    rewrite app_length in F. cbn [length] in F. destruct fuel as [|[|fuel]]; [unfold quoted in F; cbn in F; lia|unfold quoted in F; cbn in F; lia|].
    rewrite One; auto; [|cbn in L; lia].
    change (series_args_loop q (S fuel) cap (","%char :: join_with "," (map quoted (s2 :: l))) (acc ++ [s])) with (series_args_loop q fuel cap (join_with "," (map quoted (s2 :: l))) (acc ++ [s])).
    rewrite IH; [now rewrite <- app_assoc| | |].
    + intros x I. apply H. now right.
    + rewrite app_length. cbn in *. lia.
    + unfold quoted at 1 in F. cbn [length] in F. lia.
Qed.
Lemma args_count q cap : forall fuel e acc args, series_args_loop q fuel cap e acc = Ok args -> (length acc <= cap)%nat -> (length args <= cap)%nat.
Proof.
  induction fuel as [|f IH]; intros e acc args; destruct e as [|c t]; cbn [series_args_loop]; try discriminate; try (intros [= <-]; auto; fail).
  destruct (Ascii.eqb c apos || Ascii.eqb c quot).
  - destruct (parse_string (c :: t)) as [[a r]|e| |]; cbn [bind]; try discriminate. destruct (null a); [apply IH|]. destruct (Nat.eqb_spec (length acc) cap); [discriminate|]. intros H L. apply (IH r (acc ++ [a]) args H). rewrite app_length. cbn. lia.
  - destruct (Ascii.eqb c " " || Ascii.eqb c ","); [apply IH|discriminate].
Qed.
Lemma series_args_text l : (forall s, In s l -> s <> [] /\ ~ In apos s) -> (length l <= 128)%nat ->
  series_by_tag_args (B "seriesByTag(" ++ join_with "," (map quoted l) ++ B ")") 128 = Ok l.
Proof.
  intros H L. unfold series_by_tag_args. set (body := join_with "," (map quoted l)).
  assert (Er : rev (B "seriesByTag(" ++ body ++ B ")") = ")"%char :: rev (B "seriesByTag(" ++ body)).
  { rewrite app_assoc, rev_app_distr. reflexivity. }
  assert (Et : trim_sp (B "seriesByTag(" ++ body ++ B ")") = B "seriesByTag(" ++ body ++ B ")").
  { unfold trim_sp. assert (E1 : trim_left_sp (B "seriesByTag(" ++ body ++ B ")") = B "seriesByTag(" ++ body ++ B ")") by reflexivity. rewrite E1, Er.
    change (trim_left_sp (")"%char :: rev (B "seriesByTag(" ++ body))) with (")"%char :: rev (B "seriesByTag(" ++ body)). rewrite <- Er. now rewrite rev_involutive. }
  rewrite Et, hp_app, Er. cbv iota. cbn [negb]. change (Ascii.eqb ")" ")") with true. cbn [negb].
  assert (Eb : firstn (length (B "seriesByTag(" ++ body ++ B ")") - 13) (skipn 12 (B "seriesByTag(" ++ body ++ B ")")) = body).
  { change (skipn 12 (B "seriesByTag(" ++ body ++ B ")")) with (body ++ B ")"). rewrite !app_length. change (length (B "seriesByTag(")) with 12%nat. change (length (B ")")) with 1%nat.
    replace (12 + (length body + 1) - 13)%nat with (length body) by lia. apply firstn_len. }
  cbv zeta. rewrite Eb. unfold body. now rewrite args_quoted.
Qed.
Lemma write_nonempty t : tt_write t <> [].
Proof. unfold tt_write. destruct (tt_key t); cbn; [|discriminate]. destruct (tt_op t); discriminate. Qed.
Lemma terms_write_quoted l : terms_write l = B "seriesByTag(" ++ join_with "," (map quoted (map tt_write l)) ++ B ")".
Proof. unfold terms_write. rewrite map_map. reflexivity. Qed.
Lemma round_trip rx ts : (forall t, In t ts -> rebuilds rx t /\ ~ In apos (tt_key t) /\ ~ In apos (tt_value t)) -> isort term_ltb ts = ts -> (length ts <= 128)%nat ->
  parse_series rx (terms_write ts) = Ok ts.
Proof.
  intros H S L. unfold parse_series. rewrite terms_write_quoted, series_args_text.
  - cbn [bind]. unfold parse_conditions. assert (E : parse_all rx (map tt_write ts) = Ok ts).
    { apply all_iff. clear S L. induction ts as [|t ts IH]; cbn; constructor.
      - apply condition_write. apply H. now left.
      - apply IH. intros u I. apply H. now right. }
    rewrite E. cbn. now rewrite S.
  - intros s I. apply in_map_iff in I as (t & <- & I). split; [apply write_nonempty|]. unfold tt_write. intro J. apply in_app_or in J as [J|J]; [now apply (proj1 (proj2 (H t I)))|].
    apply in_app_or in J as [J|J]; [|now apply (proj2 (proj2 (H t I)))]. destruct (tt_op t); repeat (destruct J as [J|J]; [discriminate|]); destruct J.
  - now rewrite map_length.
Qed.
Lemma isort_fixed l : isort term_ltb (isort term_ltb l) = isort term_ltb l.
Proof.
  assert (S : StronglySorted (fun a b => cond_ltb b a = false) (map condition (isort term_ltb l))). { rewrite isort_map. apply (isort_sorted cond_ltb cond_asym cond_nlt_trans). }
  induction (isort term_ltb l) as [|t r IH]; auto. cbn in S; apply StronglySorted_inv in S as [S F]. cbn [isort]. rewrite (IH S). destruct r as [|u r]; auto. cbn [insert_sorted].
  inversion F; subst. rewrite term_cond. now rewrite H1.
Qed.
Lemma series_round_trip rx q ts : parse_series rx q = Ok ts -> (forall t, In t ts -> plain_term t) -> parse_series rx (terms_write ts) = Ok ts.
Proof.
  intros P H. unfold parse_series in P. destruct (series_by_tag_args q 128) as [args|e| |] eqn:A; cbn [bind] in P; try discriminate.
  unfold parse_conditions in P. destruct (parse_all rx args) as [us|e| |] eqn:E; cbn [bind] in P; try discriminate. injection P as <-. apply all_iff in E.
  assert (Pm := isort_term_perm us). apply round_trip.
  - intros t I. destruct (H t I) as (K & Ak & Av & _). split; auto. apply (Permutation_in _ Pm) in I as J.
    assert (X : exists s, parse_condition rx s = Ok t). { clear -E J. induction E; [easy|]. destruct J as [<-|J]; eauto. }
    destruct X as (s & X). apply (parsed_rebuilds rx s t X). now apply H.
  - apply isort_fixed.
  - rewrite (Permutation_length Pm). assert (length args = length us) by (clear -E; induction E; cbn; auto). rewrite <- H0.
    unfold series_by_tag_args in A. destruct (negb (has_prefix _ _)); [discriminate|]. destruct (rev (trim_sp q)) as [|c r]; [discriminate|]. destruct (negb (Ascii.eqb c ")")); [discriminate|]. apply args_count in A; auto. cbn. lia.
Qed.
