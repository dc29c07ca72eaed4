(** Parse and Match agree with the text-level meaning. *)
From Verif Require Import Model.Glob Spec.Symbols Spec.Class Spec.GlobSpec Spec.Lang Spec.Safe.
From Verif Require Import Proof.Utf8P Proof.SymbolsP Proof.SortP Proof.AsciiSetP Proof.SkipP Proof.MergeP Proof.RangesP Proof.ClassSearchP Proof.RangesTop Proof.LangP Proof.ListP Proof.ItemP Proof.DenotesP Proof.MatchP Proof.ParseP Proof.NextP.
From Coq Require Import Sorting.Sorted Lia ZifyBool ZifyN ZifyNat.

(** what items write *)
Definition wok (it : item) : Prop := item_write it <> [] /\ (lit_text it = None -> item_write it = B "*" -> it = IStar 0).
Lemma wok_long (it : item) c x y : item_write it = [c] ++ x ++ [y] -> wok it.
Proof. intro E. split; [rewrite E; discriminate|]. rewrite E. intros _ X. apply (f_equal (@length ascii)) in X. rewrite !app_length in X. cbn in X. lia. Qed.
Lemma wok_single v : v <> [] -> wok (single_item v).
Proof.
  intro N. unfold single_item. destruct (decode_rune v) as [r n]. destruct (Nat.eqb n (length v)); [destruct (r <=? 127)%N|].
  - split; [discriminate|]. discriminate.
  - split; [apply encode_nonempty|]. discriminate.
  - split; [exact N|]. discriminate.
Qed.
Lemma wok_class body oi : class_item body = Ok oi -> match oi with Some i => wok i | None => True end.
Proof.
  unfold class_item. destruct (ranges_expand (bracketed body)) as [rs|]; [|discriminate].
  assert (R : wok (IRanges rs)).
  { apply (wok_long _ "[" (as_write (rr_ascii rs) ++ concat (map (fun r => encode_rune (First r) ++ (if (First r =? Last r)%N then [] else "-"%char :: encode_rune (Last r))) (rr_unicode rs))) "]").
    cbn [item_write]. unfold rr_write. now rewrite <- !app_assoc. }
  destruct (as_count (rr_ascii rs)) as [n c].
  destruct (Nat.eqb n 0 && null (rr_unicode rs)); [intro H; injection H as <-; auto|].
  destruct (null (rr_unicode rs) && Nat.eqb n 1); [intro H; injection H as <-; split; discriminate|].
  destruct (rr_unicode rs) as [|q [|q2 l]]; try (intro H; injection H as <-; auto; fail).
  destruct (Nat.eqb n 0 && (First q =? Last q)%N); intro H; injection H as <-; auto. split; [apply encode_nonempty|discriminate].
Qed.
Lemma wok_group nwi vals oi : new_group nwi vals = Ok oi -> match oi with Some i => wok i | None => True end.
Proof.
  unfold new_group. destruct (group_vals nwi vals) as [[it|l]|e| |] eqn:E; try discriminate; cbn [bind].
  - intro H; injection H as <-. assert (it = IStar 0) as ->.
    { revert it E. induction vals as [|v vals IH]; intros it E; cbn [group_vals] in E; [discriminate|].
      destruct (has_wildcard v).
      - destruct (str_eqb v (B "*")); [congruence|]. destruct (if str_eqb v (B "?") then Ok (IAny 1) else group_val nwi v); try discriminate. cbn [bind] in E.
        destruct (group_vals nwi vals) as [[|]| | |]; try discriminate. cbn [bind] in E. injection E as <-. auto.
      - destruct (group_vals nwi vals) as [[|]| | |]; try discriminate. cbn [bind] in E. injection E as <-. auto. }
    split; [discriminate|auto].
  - destruct l as [|x l].
    + intro H; injection H as <-. exact I.
    + destruct (group_bounds l (item_min x) (item_max x)) as [mn mx]. intro H; injection H as <-.
      apply (wok_long _ "{" (join_with "," (map item_write (x :: l))) "}"). reflexivity.
Qed.
Lemma wok_list nwi vals oi : new_item_list nwi vals = Ok oi -> match oi with Some i => wok i | None => True end.
Proof.
  unfold new_item_list. destruct vals as [|v [|v2 vals]]; [intro H; injection H as <-; auto| |].
  - destruct v; cbn [null]; intro H; injection H as <-; [auto|]. now apply wok_single.
  - destruct (list_scan (v :: v2 :: vals) max_int 0 true as_empty) as [[[[mn mx] st] fi] hs]. destruct hs; [apply wok_group|].
    assert (W : forall l, wok (IList l)) by (intro l; apply (wok_long _ "{" (if sl_optional l then concat (map (fun v => ","%char :: v) (sl_vals l)) else join_with "," (sl_vals l)) "}"); reflexivity).
    destruct (mn =? 0)%Z; [destruct v; [|discriminate]|]; intro H; injection H as <-; destruct st; apply W.
Qed.
Lemma wok_token f s oi a rest : token f s oi a rest -> match oi with Some i => wok i | None => True end.
Proof.
  intros [body r o N H|body r o N H|n r N|r|b c r Na N Mc|b Na N].
  - now apply wok_class in H.
  - destruct H as [[_ ->]|[_ H]]; [exact I|]. now apply wok_list in H.
  - split; [discriminate|auto].
  - split; discriminate.
  - now apply wok_single.
  - split; [exact Na|discriminate].
Qed.
Lemma lit_write it t : lit_text it = Some t -> wok it -> t <> [].
Proof.
  intros E [W _]. destruct it; try discriminate; cbn in *; injection E as <-; auto. apply encode_nonempty.
Qed.
Lemma wok_merge last it m : wok last -> wok it -> merge_last last it = Some m -> wok m.
Proof.
  intros Wl Wi. rewrite merge_last_lit. destruct (lit_text last) as [a|] eqn:Ea; [destruct (lit_text it) as [b|] eqn:Eb|].
  - intro H; injection H as <-. apply lit_write in Ea; auto. split; [|discriminate]. cbn. destruct a; easy.
  - destruct it as [| | |n|n| | | |], last; discriminate.
  - destruct Wl as [Wl _], Wi as [Wi _]. destruct it as [| | |n|n| | | |], last as [| | |k|k| | | |]; try discriminate; intro H; injection H as <-; cbn in *.
    + split; [|]; cbn; destruct k; [easy|discriminate|easy|discriminate].
    + split; [discriminate|]. destruct (k + n) eqn:E; [auto|discriminate].
    + split; [discriminate|]. destruct (n + k) eqn:E; [auto|discriminate].
    + split; [discriminate|]. destruct (k + n) eqn:E; [auto|discriminate].
Qed.
Lemma wok_append rl it : Forall wok rl -> wok it -> Forall wok (append_item_rev rl it).
Proof.
  intros F W. destruct rl as [|last r]; [now constructor|]. cbn [append_item_rev]. inversion F; subst.
  destruct (merge_last last it) as [m|] eqn:E; constructor; auto. now apply (wok_merge last it).
Qed.
Lemma last_append rl it d : rl <> [] -> lit_text (last rl d) = None -> lit_text (last (append_item_rev rl it) d) = None.
Proof.
  destruct rl as [|x r]; [easy|]. intros _ H. cbn [append_item_rev]. destruct (merge_last x it) as [m|] eqn:E; [|exact H].
  destruct r as [|y r]; [|exact H]. cbn in *. rewrite merge_last_lit, H in E. destruct it, x; try discriminate; injection E as <-; reflexivity.
Qed.

Section Parse.
Variable u : bool.
Local Notation tok := (tok u).

Definition ginv (prefix suffix : str) (mn mx : Z) (rl : list item) : Prop :=
  clean prefix /\ clean suffix /\ Forall (wfi u) rl /\ Forall wfm rl /\ Forall wok rl /\
  mn = (zlen prefix + zsum item_min rl + zlen suffix)%Z /\ (-1 <= mx)%Z /\
  (mx <> -1 -> Forall (fun i => item_max i <> -1) rl /\ mx = zlen prefix + zsum item_max rl + zlen suffix)%Z /\
  (rl <> [] -> lit_text (last rl (IStar 0)) = None).
Definition plang (prefix : str) (rl : list item) (w : list str) : Prop :=
  exists w2, w = symbols prefix ++ w2 /\ dens (rev rl) w2.

Lemma wfm_max it : wfi u it -> wfm it -> (-1 <= item_max it)%Z.
Proof. intros W M. destruct it; cbn in *; try (unfold zlen; lia); try tauto. pose proof (rune_len_pos' r W). lia. Qed.
Lemma append_max rl it : Forall (wfi u) rl -> wfi u it -> Forall wfm rl -> wfm it ->
  Forall (fun i => item_max i <> -1)%Z rl -> (item_max it <> -1)%Z ->
  Forall (fun i => item_max i <> -1)%Z (append_item_rev rl it) /\ zsum item_max (append_item_rev rl it) = (zsum item_max rl + item_max it)%Z.
Proof.
  intros W Wi M Mi F Fi. destruct (append_spec u rl it W Wi) as (A1 & _ & _ & _ & A5 & A6).
  assert (NS : forall i, (item_max i <> -1)%Z -> not_star i) by (intros []; cbn; auto).
  assert (F2 : Forall (fun i => item_max i <> -1)%Z (append_item_rev rl it)).
  { destruct rl as [|x r]; [now constructor|]. cbn [append_item_rev]. inversion F; inversion W; inversion M; subst. destruct (merge_last x it) as [m|] eqn:E; constructor; auto.
    destruct (merge_spec u x it m) as (_ & _ & _ & _ & _ & S1 & S2 & _); auto. destruct S1 as (_ & _ & ->); auto.
    pose proof (wfm_max x). pose proof (wfm_max it). intuition lia. }
  split; auto. apply A6. intros k I. rewrite Forall_forall in F2. now apply F2 in I.
Qed.
Lemma parse_step_spec prefix suffix mn mx rl it prefix' mn' mx' rl' :
  ginv prefix suffix mn mx rl -> wfi u it -> wfm it -> wok it -> parse_step (prefix, mn, mx, rl) it = (prefix', mn', mx', rl') ->
  ginv prefix' suffix mn' mx' rl' /\
  (forall w, plang prefix' rl' w <-> exists w1 w2, w = w1 ++ w2 /\ plang prefix rl w1 /\ den it w2).
Proof.
  intros (I1 & I2 & I3 & I4 & I5 & I6 & I7 & I8 & I9) W M O H. pose proof (wfm_max it W M) as Xm.
  assert (MX : (-1 <= add_max_len mx (item_max it))%Z /\ (add_max_len mx (item_max it) <> -1 -> mx <> -1 /\ item_max it <> -1 /\ add_max_len mx (item_max it) = mx + item_max it)%Z).
  { unfold add_max_len. destruct ((-1 <? mx)%Z && (-1 <? item_max it)%Z) eqn:E; lia. }
  destruct MX as [MX1 MX2].
  assert (G : (rl <> [] \/ lit_text it = None) -> (prefix', mn', mx', rl') = (prefix, (mn + item_min it)%Z, add_max_len mx (item_max it), append_item_rev rl it) ->
    ginv prefix' suffix mn' mx' rl' /\ (forall w, plang prefix' rl' w <-> exists w1 w2, w = w1 ++ w2 /\ plang prefix rl w1 /\ den it w2)).
  { intros C E. injection E as -> -> -> ->. destruct (append_spec u rl it I3 W) as (A1 & A2 & A3 & _ & A5 & _). split.
    - split; [auto|]. split; [auto|]. split; [auto|]. split; [auto|]. split; [now apply wok_append|]. split; [lia|]. split; [auto|]. split.
      + intro X. destruct (MX2 X) as (X1 & X2 & X3). destruct (I8 X1) as [F E]. destruct (append_max rl it) as [F' E']; auto. split; auto. lia.
      + intros _. destruct rl as [|x r]; [destruct C as [C|C]; [easy|exact C]|]. apply last_append; [discriminate|]. apply I9. discriminate.
    - intro w. unfold plang. split.
      + intros (w2 & -> & D). apply A2 in D as (w3 & w4 & -> & D3 & D4). exists (symbols prefix ++ w3), w4. rewrite app_assoc. eauto 8.
      + intros (w1 & w2 & -> & (w3 & -> & D) & D2). exists (w3 ++ w2). rewrite app_assoc. split; auto. apply A2. eauto. }
  assert (L : forall t, lit_text it = Some t -> rl = [] -> (prefix', mn', mx', rl') = (prefix ++ t, (mn + item_min it)%Z, add_max_len mx (item_max it), []) ->
    ginv prefix' suffix mn' mx' rl' /\ (forall w, plang prefix' rl' w <-> exists w1 w2, w = w1 ++ w2 /\ plang prefix rl w1 /\ den it w2)).
  { intros t Et -> E. injection E as -> -> -> ->. destruct (lit_text_spec u it t W Et) as (Ct & D & Mi & Ma & _). split.
    - assert (Zl : zlen (prefix ++ t) = (zlen prefix + zlen t)%Z) by (unfold zlen; rewrite app_length; lia).
      cbn [zsum fold_right] in *. split; [now apply clean_app|]. split; [auto|]. split; [auto|]. split; [auto|]. split; [auto|]. split; [cbn [zsum fold_right]; lia|].
      split; [auto|]. split; [|easy]. intro X. destruct (MX2 X) as (X1 & X2 & X3). destruct (I8 X1) as [F E]. split; auto. cbn [zsum fold_right]. lia.
    - intro w. unfold plang. cbn [rev dens]. rewrite symbols_clean_app by auto. split.
      + intros (w2 & -> & ->). exists (symbols prefix), (symbols t). rewrite !app_nil_r. split; auto. split; [exists []; now rewrite app_nil_r|]. now apply D.
      + intros (w1 & w2 & -> & (w3 & -> & ->) & D2). apply D in D2 as ->. exists []. rewrite !app_nil_r. auto. }
  unfold parse_step in H. destruct rl as [|x rl].
  - destruct it; try (apply G; [right; reflexivity|now rewrite <- H]).
    + apply (L s); auto.
    + apply (L (string_of_byte b)); auto.
    + apply (L (encode_rune r)); auto.
  - apply G; [left; discriminate|]. now rewrite <- H.
Qed.

Definition compositional (t : str) : Prop := forall q w, denotes (t ++ q) w <-> exists w1 w2, w = w1 ++ w2 /\ denotes t w1 /\ denotes q w2.
Lemma compositional_nil : compositional [].
Proof.
  intros q w. cbn [app]. split; [intro D; exists [], w; repeat split; auto; constructor|].
  intros (w1 & w2 & -> & D1 & D2). apply denotes_nil in D1 as ->. exact D2.
Qed.
Lemma compositional_app (a t : str) (L : list str -> Prop) : compositional t ->
  (forall q w, denotes (a ++ q) w <-> exists w1 w2, w = w1 ++ w2 /\ L w1 /\ denotes q w2) -> compositional (a ++ t).
Proof.
  intros C A q w. rewrite <- app_assoc, A. split.
  - intros (w1 & w2 & -> & X & D). apply C in D as (w3 & w4 & -> & D3 & D4). exists (w1 ++ w3), w4. rewrite app_assoc. repeat split; auto. apply A. eauto.
  - intros (w1 & w2 & -> & X & D). apply A in X as (w3 & w4 & -> & D3 & D4). exists w3, (w4 ++ w2). rewrite app_assoc. repeat split; auto. apply C. eauto.
Qed.
Lemma parse_loop_spec suffix : forall f t prefix mn mx rl prefix' mn' mx' rl', tok t -> plain_singles t -> ginv prefix suffix mn mx rl ->
  parse_loop f t (prefix, mn, mx, rl) = Ok (prefix', mn', mx', rl') ->
  ginv prefix' suffix mn' mx' rl' /\ compositional t /\
  (forall w, plang prefix' rl' w <-> exists w1 w2, w = w1 ++ w2 /\ plang prefix rl w1 /\ denotes t w2).
Proof.
  assert (Z0 : forall p r w, plang p r w <-> exists w1 w2, w = w1 ++ w2 /\ plang p r w1 /\ denotes [] w2).
  { intros p r w. split; [intro D; exists w, []; rewrite app_nil_r; repeat split; auto; constructor|].
    intros (w1 & w2 & -> & D & D2). apply denotes_nil in D2 as ->. now rewrite app_nil_r. }
  induction f as [|f IH]; intros t prefix mn mx rl prefix' mn' mx' rl' T P G H.
  { destruct t; [|discriminate]. injection H as <- <- <- <-. split; auto. split; [apply compositional_nil|apply Z0]. }
  destruct t as [|c t]; [injection H as <- <- <- <-; split; auto; split; [apply compositional_nil|apply Z0]|].
  cbn [parse_loop] in H. remember (c :: t) as s eqn:Es. assert (NE : s <> []) by (subst; discriminate). clear Es c t.
  destruct (next_wildcard_item s) as [[oi rest]|e| |] eqn:E; try discriminate. unfold next_wildcard_item in E.
  destruct (next_item_spec u _ s oi rest T P NE E) as ((a & Na & Ea & De) & Tr & Oo & _).
  apply next_token in E as (a' & Tk). apply wok_token in Tk.
  assert (Pr : plain_singles rest) by (rewrite Ea in P; now apply plain_suffix in P).
  destruct oi as [it|].
  - destruct Oo as [W M]. destruct (parse_step (prefix, mn, mx, rl) it) as [[[p1 n1] x1] r1] eqn:S1.
    destruct (parse_step_spec _ _ _ _ _ _ _ _ _ _ G W M Tk S1) as [G1 D1].
    apply IH in H; auto. destruct H as (G2 & C2 & D2). split; auto. rewrite Ea.
    assert (A : forall q w, denotes (a ++ q) w <-> exists w1 w2, w = w1 ++ w2 /\ den it w1 /\ denotes q w2).
    { intros q w. rewrite De. split; intros (w1 & w2 & -> & X & Y); exists w1, w2; (split; [auto|]); (split; [|auto]); [now apply (proj1 (dens_one _ _)) in X|now apply (proj2 (dens_one _ _))]. }
    split; [now apply (compositional_app a rest (den it))|]. intro w. rewrite D2. split.
    + intros (w1 & w2 & -> & X & Y). apply D1 in X as (w3 & w4 & -> & X3 & X4). exists w3, (w4 ++ w2). rewrite app_assoc. repeat split; auto. apply A. eauto.
    + intros (w1 & w2 & -> & X & Y). apply A in Y as (w3 & w4 & -> & X3 & X4). exists (w1 ++ w3), w4. rewrite app_assoc. repeat split; auto. apply D1. eauto.
  - apply IH in H; auto. destruct H as (G2 & C2 & D2). split; auto. rewrite Ea.
    assert (A : forall q w, denotes (a ++ q) w <-> denotes q w).
    { intros q w. rewrite De. split; [intros (w1 & w2 & -> & X & Y); apply dens_olist in X as ->; auto|]. intro X. exists [], w. repeat split; auto. }
    unfold compositional in *. split; [intros q w; rewrite <- app_assoc, A, C2; split; intros (w1 & w2 & -> & X & Y); exists w1, w2; (split; [auto|]); (split; [|auto]); now apply A|].
    intro w. rewrite D2. split; intros (w1 & w2 & -> & X & Y); exists w1, w2; (split; [auto|]); (split; [auto|]); now apply A.
Qed.

Lemma take_suffix_spec prefix suffix mn mx rl suffix' rl' : ginv prefix suffix mn mx rl -> take_suffix suffix rl = (suffix', rl') ->
  ginv prefix suffix' mn mx rl' /\
  (forall w, (exists w2, w = symbols prefix ++ w2 ++ symbols suffix' /\ dens (rev rl') w2) <-> (exists w2, w = symbols prefix ++ w2 ++ symbols suffix /\ dens (rev rl) w2)).
Proof.
  intros (I1 & I2 & I3 & I4 & I5 & I6 & I7 & I8 & I9) H.
  assert (G : (suffix', rl') = (suffix, rl) -> ginv prefix suffix' mn mx rl' /\
    (forall w, (exists w2, w = symbols prefix ++ w2 ++ symbols suffix' /\ dens (rev rl') w2) <-> (exists w2, w = symbols prefix ++ w2 ++ symbols suffix /\ dens (rev rl) w2))).
  { intro E. injection E as -> ->. split; [|reflexivity]. unfold ginv. auto 12. }
  assert (L : forall it t y r, rl = it :: y :: r -> lit_text it = Some t -> (suffix', rl') = (t ++ suffix, y :: r) ->
    ginv prefix suffix' mn mx rl' /\
    (forall w, (exists w2, w = symbols prefix ++ w2 ++ symbols suffix' /\ dens (rev rl') w2) <-> (exists w2, w = symbols prefix ++ w2 ++ symbols suffix /\ dens (rev rl) w2))).
  { intros it t y r -> Et E. injection E as -> ->. clear G. inversion I3 as [|? ? W3 F3]; inversion I4; inversion I5; subst.
    destruct (lit_text_spec u it t W3 Et) as (Ct & D & Mi & Ma & _).
    assert (Zl : zlen (t ++ suffix) = (zlen t + zlen suffix)%Z) by (unfold zlen; rewrite app_length; lia).
    split.
    - split; [auto|]. split; [now apply clean_app|]. split; [auto|]. split; [auto|]. split; [auto|]. split.
      { change (zsum item_min (it :: y :: r)) with (item_min it + zsum item_min (y :: r))%Z. lia. }
      split; [auto|]. split.
      { intro X. destruct (I8 X) as [F E]. inversion F; subst. split; auto.
        change (zsum item_max (it :: y :: r)) with (item_max it + zsum item_max (y :: r))%Z in *. lia. }
      intros _. apply I9. discriminate.
    - intro w. rewrite symbols_clean_app by auto. change (rev (it :: y :: r)) with (rev (y :: r) ++ [it]). split.
      + intros (w2 & -> & X). exists (w2 ++ symbols t). rewrite <- !app_assoc. split; auto. apply dens_app. exists w2, (symbols t). repeat split; auto. apply (proj2 (dens_one _ _)). now apply D.
      + intros (w2 & -> & X). apply dens_app in X as (w3 & w4 & -> & X3 & X4). apply (proj1 (dens_one _ _)) in X4. apply D in X4 as ->.
        exists w3. rewrite <- !app_assoc. auto. }
  unfold take_suffix in H. destruct rl as [|x [|y r]]; [now apply G| |].
  - apply G. rewrite <- H. destruct x; reflexivity.
  - destruct x; try (now apply G); eapply L; try reflexivity; now rewrite <- H.
Qed.

Lemma plain_part (a b c : str) : plain_singles (a ++ b ++ c) -> plain_singles b.
Proof. intros P x body y -> N S. apply (P (a ++ x) body (y ++ c)); auto. now rewrite <- !app_assoc. Qed.
Lemma find_last_cut p s i : find_last_byte p s = Some i -> exists a c b, s = a ++ c :: b /\ length a = i /\ p c = true /\ (forall d, In d b -> p d = false).
Proof.
  revert i. induction s as [|x s IH]; intros i H; cbn [find_last_byte] in H; [discriminate|].
  destruct (find_last_byte p s) as [k|] eqn:E.
  - injection H as <-. destruct (IH k eq_refl) as (a & c & b & -> & L & P & N). exists (x :: a), c, b. cbn. rewrite L. auto.
  - destruct (p x) eqn:P; [|discriminate]. injection H as <-. exists [], x, s. repeat split; auto.
    clear IH P. intros d. induction s as [|y s IH]; [easy|]. cbn [find_last_byte] in E. destruct (find_last_byte p s); [discriminate|]. 
    destruct (p y) eqn:Py; [discriminate|]. intros [<-|I]; auto.
Qed.
Lemma parse_facts g gl : tok g -> plain_singles g -> glob_parse g = Ok gl ->
  exists prefix suffix mn mx rl, gl = finish_glob g prefix suffix mn mx (rev rl) /\ ginv prefix suffix mn mx rl /\
  forall w, denotes g w <-> exists w2, w = symbols prefix ++ w2 ++ symbols suffix /\ dens (rev rl) w2.
Proof.
  intros T P H. unfold glob_parse in H. destruct (index_wildcard g) as [pos|] eqn:Ei.
  - apply find_cut in Ei as (prefix & c & b0 & Eg & L & Pc & N).
    assert (F : firstn pos g = prefix /\ skipn pos g = c :: b0).
    { subst pos. rewrite Eg, firstn_app, skipn_app, firstn_all, skipn_all, Nat.sub_diag. cbn. now rewrite app_nil_r. }
    destruct F as [F1 F2]. rewrite F1, F2 in H. clear F1 F2 L pos.
    destruct (index_last_wildcard (c :: b0)) as [e|] eqn:Ee; [|discriminate].
    apply find_last_cut in Ee as (b1 & c' & suffix & Eb & L & Pc' & N'). 
    destruct (Nat.eqb e 0 && negb (Ascii.eqb (nth 0 (c :: b0) zero) "?") && negb (Ascii.eqb (nth 0 (c :: b0) zero) "*")); [discriminate|].
    assert (F : (if (e <? length (c :: b0) - 1)%nat then (skipn (S e) (c :: b0), firstn (S e) (c :: b0)) else ([], c :: b0)) = (suffix, b1 ++ [c'])).
    { rewrite Eb. subst e. destruct (cut_firstn b1 c' suffix) as [-> ->]. rewrite app_length. cbn [length].
      destruct (length b1 <? length b1 + S (length suffix) - 1)%nat eqn:E1; auto. destruct suffix; [reflexivity|cbn [length] in E1; lia]. }
    rewrite F in H. clear F L e. assert (Eg' : g = prefix ++ (b1 ++ [c']) ++ suffix) by (rewrite Eg, Eb, <- app_assoc; reflexivity).
    assert (Tp : tok prefix /\ tok (c :: b0)). { rewrite Eg in T. apply tok_app in T; auto. apply bnd_ascii, metas_ascii, is_wild_iff, Pc. }
    destruct Tp as [Tp Tb]. rewrite Eb in Tb. assert (Ac : (code c' < 128)%N) by apply metas_ascii, is_wild_iff, Pc'.
    assert (Tm : tok (b1 ++ [c']) /\ tok suffix).
    { destruct (tok_mid u c' b1 suffix Ac Tb) as [T1 T2]. split; auto. destruct T1 as (C1 & Z1 & A1). split; [|split].
      - apply clean_app; auto. now apply clean_byte.
      - destruct Tb as (_ & Z & _). intro I. apply Z. apply in_app_or in I. apply in_or_app. destruct I as [I|[->|[]]]; [now left|right; now left].
      - intros U x bd y r r' E. destruct Tb as (_ & _ & A). apply (A U x bd (y ++ suffix)). change (c' :: suffix) with ([c'] ++ suffix). rewrite (app_assoc b1), E, <- !app_assoc. reflexivity. }
    destruct Tm as [Tm Ts]. assert (Pm : plain_singles (b1 ++ [c'])) by (rewrite Eg' in P; now apply plain_part in P).
    assert (Np : forall d, In d prefix -> ~ In d metas) by (intros d I M; apply is_wild_iff in M; apply N in I; congruence).
    assert (Ns : forall d, In d suffix -> ~ In d metas) by (intros d I M; apply is_wild_iff in M; apply N' in I; congruence).
    clear N N' Eg Eb Pc c b0 Pc' Ac Tb. remember (b1 ++ [c']) as body eqn:Ebd. clear Ebd b1 c'.
    assert (Z1 : clean prefix) by apply Tp. assert (Z2 : clean suffix) by apply Ts.
    assert (PL : forall (w : list str), (exists w', w = symbols prefix ++ w' /\ exists w1 w2, w' = w1 ++ w2 /\ denotes body w1 /\ denotes suffix w2) <->
      exists w2, w = symbols prefix ++ w2 ++ symbols suffix /\ denotes body w2).
    { intro w. split.
      - intros (w' & -> & w1 & w2 & -> & D1 & D2). apply denotes_text in D2 as ->; auto. exists w1. auto.
      - intros (w2 & -> & D). exists (w2 ++ symbols suffix). split; auto. exists w2, (symbols suffix). repeat split; auto. apply denotes_text; auto. }
    destruct (str_eqb_spec body (B "*")) as [Eq|Ns1].
    { injection H as <-. exists prefix, suffix, (zlen prefix + zlen suffix)%Z, (-1)%Z, [IStar 0]. split; [reflexivity|]. split.
      - split; [auto|]. split; [auto|]. split; [repeat constructor|]. split; [repeat constructor|]. split; [repeat constructor; easy|]. split; [cbn; lia|]. split; [lia|]. split; [easy|]. reflexivity.
      - intro w. rewrite Eg', denotes_literal by auto. rewrite Eq. change (B "*" ++ suffix) with ("*"%char :: suffix). split.
        + intros (w' & -> & D). apply denotes_star in D as (w1 & w2 & -> & D). apply denotes_text in D as ->; auto. exists w1. split; auto. apply (proj2 (dens_one _ _)). cbn. lia.
        + intros (w2 & -> & D). exists (w2 ++ symbols suffix). split; auto. apply denotes_star. exists w2, (symbols suffix). split; auto. apply denotes_text; auto. }
    destruct (str_eqb_spec body (B "?")) as [Eq|Ns2].
    { injection H as <-. exists prefix, suffix, (zlen prefix + zlen suffix + 1)%Z, (add_max_len (zlen prefix + zlen suffix) 4)%Z, [IAny 1]. split; [reflexivity|].
      pose proof (zlen_nonneg prefix). pose proof (zlen_nonneg suffix). unfold add_max_len. replace ((-1 <? zlen prefix + zlen suffix)%Z && (-1 <? 4)%Z) with true by lia. split.
      - split; [auto|]. split; [auto|]. split; [repeat constructor|]. split; [repeat constructor|]. split; [repeat constructor; easy|]. split; [cbn; lia|]. split; [lia|]. split; [|reflexivity].
        intros _. split; [repeat constructor; cbn; lia|]. cbn. lia.
      - intro w. rewrite Eg', denotes_literal by auto. rewrite Eq. change (B "?" ++ suffix) with ("?"%char :: suffix). split.
        + intros (w' & -> & D). apply denotes_any in D as (x & w2 & -> & D). apply denotes_text in D as ->; auto. exists [x]. split; auto. now apply (proj2 (dens_one _ _)).
        + intros (w2 & -> & D). exists (w2 ++ symbols suffix). split; auto. apply denotes_any. apply (proj1 (dens_one _ _)) in D. cbn in D. destruct w2 as [|x [|y w2]]; try discriminate.
          exists x, (symbols suffix). split; auto. apply denotes_text; auto. }
    destruct (parse_loop (length body) body (prefix, (zlen prefix + zlen suffix)%Z, (zlen prefix + zlen suffix)%Z, [])) as [[[[p1 n1] x1] r1]|e| |] eqn:El; try discriminate.
    cbn [bind] in H. destruct (take_suffix suffix r1) as [s2 r2] eqn:Et. injection H as <-.
    apply (parse_loop_spec suffix) in El; auto.
    2:{ pose proof (zlen_nonneg prefix). pose proof (zlen_nonneg suffix).
        split; [auto|]. split; [auto|]. split; [constructor|]. split; [constructor|]. split; [constructor|]. split; [cbn; lia|]. split; [lia|]. split; [|easy]. intros _. split; [constructor|cbn; lia]. }
    destruct El as (G1 & Cb & D1). destruct (take_suffix_spec _ _ _ _ _ _ _ G1 Et) as [G2 D2].
    exists p1, s2, n1, x1, r2. split; [reflexivity|]. split; auto. intro w. rewrite D2, Eg', denotes_literal by auto. unfold compositional in Cb. split.
    + intros (w' & -> & D). apply Cb in D as (w1 & w2 & -> & Db & Ds). apply denotes_text in Ds as ->; auto.
      assert (X : plang p1 r1 (symbols prefix ++ w1)). { apply D1. exists (symbols prefix), w1. repeat split; auto. exists []. rewrite app_nil_r. cbn. auto. }
      destruct X as (w3 & E3 & X3). exists w3. split; auto. now rewrite !app_assoc, E3.
    + intros (w2 & -> & X). assert (Y : plang p1 r1 (symbols p1 ++ w2)) by (exists w2; auto). apply D1 in Y as (w3 & w4 & E & (w5 & -> & X5) & Y). cbn in X5. subst w5. rewrite app_nil_r in E.
      exists (w4 ++ symbols suffix). split; [now rewrite !app_assoc, E|]. apply Cb. exists w4, (symbols suffix). repeat split; auto. apply denotes_text; auto.
  - injection H as <-. unfold index_wildcard in Ei. rewrite find_byte_none in Ei. pose proof (zlen_nonneg g).
    exists g, [], (zlen g), (zlen g), []. split; [cbn; now rewrite app_nil_r|]. split.
    + split; [apply T|]. split; [apply clean_nil|]. split; [constructor|]. split; [constructor|]. split; [constructor|]. split; [cbn; lia|]. split; [lia|]. split; [|easy]. intros _. split; [constructor|cbn; lia].
    + intro w. rewrite denotes_text; [|apply T|]. 
      * cbn. split; [intros ->; exists []; now rewrite app_nil_r|]. intros (w2 & -> & ->). now rewrite app_nil_r.
      * intros d I M. apply is_wild_iff in M. apply Ei in I. congruence.
Qed.
End Parse.
