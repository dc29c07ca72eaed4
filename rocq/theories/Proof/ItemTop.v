(** The statements of Props/PItems.v. *)
From Verif Require Import Model.Glob Spec.Symbols Spec.Class Spec.GlobSpec Spec.Lang Spec.Safe.
From Verif Require Import Proof.Utf8P Proof.SymbolsP Proof.SortP Proof.AsciiSetP Proof.SkipP Proof.MergeP Proof.RangesP Proof.ClassSearchP Proof.RangesTop Proof.LangP Proof.ListP Proof.ItemP Proof.DenotesP Proof.MatchP Proof.ParseP Proof.NextP Proof.GlobP Proof.GlobMatchP Proof.SafeP Proof.ItemEqP.
From Coq Require Import Sorting.Sorted Lia ZifyBool ZifyN ZifyNat.

(** What the tokenizer returns. *)
Lemma taken u s it rest : tok u s -> plain_singles s -> next_wildcard_item s = Ok (Some it, rest) ->
  wfi u it /\ wfm it /\ exists a, s = a ++ rest /\ forall w, denotes a w <-> den it w.
Proof.
  intros T P H. assert (NE : s <> []) by (intros ->; discriminate). apply (next_item_spec u _ s (Some it) rest T P NE) in H.
  destruct H as ((a & Na & Ea & D) & _ & [O1 O2] & _). split; auto. split; auto. exists a. split; auto.
  intro w. specialize (D [] w). rewrite app_nil_r in D. rewrite D. split.
  - intros (w1 & w2 & -> & D1 & D2). apply denotes_nil in D2. subst. rewrite app_nil_r. now apply (proj1 (dens_one _ _)) in D1.
  - intro X. exists w, []. rewrite app_nil_r. split; auto. split; [now apply dens_one|constructor].
Qed.
Lemma match_one_iff u it t : wfi u it -> one_item it -> snd (item_match it t) = FindDone /\
  forall n, fst (item_match it t) = Some n <-> exists x y, symbols t = x ++ y /\ den it x /\ n = length (concat x).
Proof.
  intros W O. pose proof (item_match_one u it t W O) as M. destruct (item_match it t) as [[off|] fl]; destruct M as [-> M]; (split; [reflexivity|]); cbn [fst]; intro n.
  - destruct M as (x & y & E & D & ->). split; [intro H; injection H as <-; eauto|]. intros (x' & y' & E' & D' & ->). f_equal. f_equal. f_equal.
    apply den_cnt in D; auto. apply den_cnt in D'; auto. rewrite E in E'. apply app_len_inj in E' as [-> _]; auto. congruence.
  - split; [discriminate|]. intros (x & y & E & D & _). now elim (M x y).
Qed.
(** C13: an item taken from a glob text (other than a star or a list) consumes exactly the prefix that the
    text it was taken from denotes; it fails exactly when there is no such prefix. *)
Lemma c13_match_l : forall (s : str) (it : item) (rest : str), clean s -> ~ In zero s -> plain_singles s ->
  next_wildcard_item s = Ok (Some it, rest) -> one_item it ->
  exists a, s = a ++ rest /\ forall t, snd (item_match it t) = FindDone /\
    forall n, fst (item_match it t) = Some n <-> exists x y, symbols t = x ++ y /\ denotes a x /\ n = length (concat x).
Proof.
  intros s it rest C Z P H O. destruct (taken true s it rest) as (W & _ & a & E & D); auto; [split; auto; split; auto; discriminate|].
  exists a. split; auto. intro t. destruct (match_one_iff true it t W O) as [F M]. split; auto. intro n. rewrite M.
  split; intros (x & y & E1 & D1 & E2); exists x, y; rewrite D in *; auto.
Qed.
(*EX
From Verif Require Proof.CheckP.
(** The conditions on glob texts, decided by computation. *)
Lemma fine g : CheckP.clean_b g && CheckP.no_byte_b 0 g && CheckP.plain_singles_b g = true -> clean g /\ ~ In zero g /\ plain_singles g.
Proof. intro H. apply andb_true_iff in H as [H P]. apply andb_true_iff in H as [C N]. split; [now apply CheckP.clean_b_ok|]. split; [exact (CheckP.no_byte_ok 0 g N)|now apply CheckP.plain_singles_ok]. Qed.
Example c13_match_example : (exists it, next_wildcard_item (B "[a-cж]x*") = Ok (Some it, B "x*") /\ one_item it /\ item_match it (B "жz") = (Some 2, FindDone)) /\
  plain_singles (B "[a-cж]x*").
Proof.
  split; [eexists; split; [vm_compute; reflexivity|split; [exact I|vm_compute; reflexivity]]|]. intros a body b E. exfalso. assert (I : In "{"%char (B "[a-cж]x*")); [|repeat (destruct I as [I|I]; [discriminate|]); destruct I].
  rewrite E. apply in_or_app. right. now left.
Qed.
XE*)
(** C13: Find of a literal, a symbol or a class returns the first occurrence and its length (for subjects
    without malformed bytes when a class of the text has several members and one beyond ASCII). *)
Lemma c13_find_l : forall (s : str) (it : item) (rest : str) (t : str), clean s -> ~ In zero s -> plain_singles s ->
  next_wildcard_item s = Ok (Some it, rest) -> literal_item it -> clean t \/ lone_classes s ->
  exists a, s = a ++ rest /\
    (forall off, fst (fst (item_find it t)) = Some off <->
       exists pre x y, symbols t = pre ++ x ++ y /\ denotes a x /\ off = length (concat pre) /\
         forall pre' x' y', symbols t = pre' ++ x' ++ y' -> denotes a x' -> length pre <= length pre') /\
    (forall off n, item_find it t = (Some off, n, FindDone) ->
       exists pre x y, symbols t = pre ++ x ++ y /\ denotes a x /\ off = length (concat pre) /\ n = Some (length (concat x))).
Proof.
  intros s it rest t C Z P H L Ct. 
  assert (U : exists u, tok u s /\ (u = true -> clean t)).
  { destruct Ct as [Ct|A]; [exists true|exists false]; (split; [split; [auto|split; [auto|try discriminate; auto]]|try discriminate; auto]). }
  destruct U as (u & T & Ou). destruct (taken u s it rest) as (W & _ & a & E & D); auto. exists a. split; auto.
  pose proof (item_find_lit u it t W L Ou) as F. destruct (item_find it t) as [[[off|] [n|]] fl]; try easy.
  - destruct F as (-> & pre & x & y & E1 & D1 & -> & -> & M). split.
    + intro off. cbn [fst]. split.
      * intro X. injection X as <-. exists pre, x, y. rewrite D. repeat split; auto. intros pre' x' y' E' D'. rewrite D in D'. eauto.
      * intros (pre' & x' & y' & E' & D' & -> & M'). rewrite D in D'. specialize (M _ _ _ E' D'). specialize (M' _ _ _ E1 (proj2 (D x) D1)).
        f_equal. f_equal. f_equal. assert (length pre = length pre') by lia. rewrite E1 in E'. now apply app_len_inj in E' as [-> _].
    + intros off n X. injection X as <- <-. exists pre, x, y. rewrite D. auto.
  - split; [intro off; cbn [fst]; split; [discriminate|]|discriminate]. intros (pre & x & y & E1 & D1 & _). rewrite D in D1. now elim (F pre x y).
  - split; [intro off; cbn [fst]; split; [discriminate|]|discriminate]. intros (pre & x & y & E1 & D1 & _). rewrite D in D1. now elim (F pre x y).
Qed.
(*EX
Example c13_find_example : (clean (B "ж?") /\ ~ In zero (B "ж?") /\ plain_singles (B "ж?")) /\ literal_item (IRune 1078%N) /\ clean (B "abжcж") /\
  next_wildcard_item (B "ж?") = Ok (Some (IRune 1078%N), B "?") /\ item_find (IRune 1078%N) (B "abжcж") = (Some 2, Some 2, FindDone).
Proof. split; [now apply fine|]. split; [exact Logic.I|]. split; [now apply CheckP.clean_b_ok|]. split; vm_compute; reflexivity. Qed.
XE*)
(** C13: a star with n '?' merged into it skips exactly n symbols and fails on shorter subjects. *)
Lemma c13_star_l : forall (k : nat) (t : str), snd (item_match (IStar k) t) = FindStar /\
  forall n, fst (item_match (IStar k) t) = Some n <-> exists x y, symbols t = x ++ y /\ length x = k /\ n = length (concat x).
Proof.
  intros k t. split; [reflexivity|]. intro n. cbn [item_match fst]. rewrite skip_runes_symbols. destruct (Nat.leb_spec k (length (symbols t))) as [L|L]; split.
  - intro X. injection X as <-. exists (firstn k (symbols t)), (skipn k (symbols t)). rewrite firstn_skipn. repeat split; auto. now apply firstn_length_le.
  - intros (x & y & E & <- & ->). rewrite E, firstn_app, Nat.sub_diag, firstn_all. cbn. now rewrite app_nil_r.
  - discriminate.
  - intros (x & y & E & <- & _). rewrite E, app_length in L. unfold str in *. lia.
Qed.
(*EX
Example c13_star_example : item_match (IStar 2) (B "жab") = (Some 3, FindStar) /\ item_match (IStar 4) (B "жab") = (None, FindStar).
Proof. split; vm_compute; reflexivity. Qed.
XE*)
Lemma decode_single_bad b : (128 <= code b)%N -> fst (decode_rune [b]) = RuneError.
Proof.
  intro H. destruct (decode_rune [b]) as [r n] eqn:E. cbn [fst]. destruct (N.eq_dec r RuneError) as [|NE]; auto. exfalso.
  destruct (encode_decode _ _ _ E) as (V & L & Eq); [discriminate|unfold bad; cbn; tauto|].
  destruct (encode_shape r) as (h & tl & Eh & Ch & Ct). rewrite Eh in Eq. cbn [app] in Eq. injection Eq as <- Et.
  symmetry in Et. apply app_eq_nil in Et as [-> _]. unfold decode_rune in E. replace (code b <? 128)%N with false in E by lia.
  repeat match type of E with context [match ?x with _ => _ end] => destruct x end; injection E as <- <-; congruence.
Qed.

(** C14: MatchLast of a literal text finds it at the end of the subject (byte-wise, any subject). *)
Lemma c14_text_l : forall t s : str, exists r, item_match_last (IStr t) s = Ok (r, FindDone) /\
  forall off, r = Some off <-> exists pre, s = pre ++ t /\ off = length pre.
Proof.
  intros t s. eexists. split; [reflexivity|]. intro off. destruct (has_suffix s t) eqn:S.
  - apply (proj1 (has_suffix_iff _ _)) in S as (r & ->). rewrite app_length. replace (length r + length t - length t) with (length r) by lia. split.
    + intro H. injection H as <-. eauto.
    + intros (pre & E & ->). apply app_inv_tail in E as ->. reflexivity.
  - split; [discriminate|]. intros (pre & -> & _). exfalso. assert (X : has_suffix (pre ++ t) t = true) by (apply has_suffix_iff; eauto). congruence.
Qed.
(*EX
Example c14_text_example : item_match_last (IStr (B "bc")) (B "abc") = Ok (Some 1, FindDone) /\ item_match_last (IStr (B "bc")) (B "abd") = Ok (None, FindDone).
Proof. split; reflexivity. Qed.
XE*)
(** C14: MatchLast of a single multi-byte symbol finds it as the last symbol of the subject. *)
Lemma c14_symbol_l : forall (r : rune) (s : str), scalar r -> exists o, item_match_last (IRune r) s = Ok (o, FindDone) /\
  forall off, o = Some off <-> exists pre, symbols s = pre ++ [encode_rune r] /\ off = length (concat pre).
Proof.
  intros r s [V NR]. eexists. split; [reflexivity|]. intro off.
  destruct (symbols s) as [|x l _] eqn:Es using rev_ind.
  - apply symbols_eq_nil in Es. subst s. cbn. split; [discriminate|]. intros (pre & E & _). destruct pre; discriminate.
  - destruct (decode_last_symbol s l x Es) as [-> D]. destruct (decode_rune x) as [c n] eqn:Dx. cbn [snd] in D. subst n.
    assert (Len : length s - length x = length (concat l)).
    { rewrite <- (concat_symbols s), Es, concat_app, app_length. cbn. rewrite app_nil_r. lia. }
    destruct (N.eqb_spec c RuneError) as [->|NE]; cbn [negb].
    + split; [discriminate|]. intros (pre & E & _). apply app_inj_tail in E as [_ ->]. exfalso.
      pose proof (decode_encode r [] V) as Y. rewrite app_nil_r in Y. rewrite Y in Dx. injection Dx as Z. congruence.
    + destruct (N.eqb_spec c r) as [->|NC].
      * assert (Ix : In x (symbols s)) by (rewrite Es; apply in_or_app; right; now left).
        assert (Ex : x = encode_rune r).
        { destruct (symbol_cases _ _ Ix) as [(r' & V' & ->)|(b & -> & Cb)].
          - pose proof (decode_encode r' [] V') as Y. rewrite app_nil_r in Y. rewrite Y in Dx. injection Dx as ->. reflexivity.
          - exfalso. apply NR. pose proof (decode_single_bad b Cb) as Y. rewrite Dx in Y. exact Y. }
        subst x. rewrite Len. split.
        -- intro H. injection H as <-. eauto.
        -- intros (pre & E & ->). apply app_inj_tail in E as [-> _]. reflexivity.
      * split; [discriminate|]. intros (pre & E & _). apply app_inj_tail in E as [_ ->]. exfalso. apply NC.
        pose proof (decode_encode r [] V) as Y. rewrite app_nil_r in Y. rewrite Y in Dx. now injection Dx.
Qed.
(*EX
Example c14_symbol_example : scalar 1078%N /\ item_match_last (IRune 1078%N) (B "abж") = Ok (Some 2, FindDone).
Proof. split; [split; [reflexivity|discriminate]|vm_compute; reflexivity]. Qed.
XE*)
(** C14 is false for a single ASCII symbol: 0 is returned instead of the offset, and the empty subject panics. *)
Lemma c14_byte_refuted_l : item_match_last (IByte "c") (B "abc") = Ok (Some 0, FindDone) /\ item_match_last (IByte "c") [] = Panic.
Proof. split; reflexivity. Qed.

(** C15: MinLen and MaxLen of an item taken from a glob text bound the length of every subject the text
    denotes; the upper bound for items in which no alternative has text after a star. *)
Lemma c15_bounds_l : forall (s : str) (it : item) (rest : str), clean s -> ~ In zero s -> plain_singles s ->
  next_wildcard_item s = Ok (Some it, rest) ->
  exists a, s = a ++ rest /\ forall t, denotes a (symbols t) ->
    (item_min it <= Z.of_nat (length t))%Z /\
    (sized it -> item_max it <> -1 -> Z.of_nat (length t) <= item_max it)%Z.
Proof.
  intros s it rest C Z P H. destruct (taken true s it rest) as (W & M & a & E & D); auto; [split; auto; split; auto; discriminate|].
  exists a. split; auto. intros t X. rewrite D in X. change (Z.of_nat (length t)) with (zlen t). rewrite <- bytes_symbols. split.
  - apply (den_word_min true it W); auto using word_symbols.
  - intros Sz Mx. apply (den_word_max true it W M Sz Mx); auto using word_symbols.
Qed.
(*EX
Example c15_bounds_example : (clean (B "{aж,b?c}d") /\ ~ In zero (B "{aж,b?c}d") /\ plain_singles (B "{aж,b?c}d")) /\
  exists it, next_wildcard_item (B "{aж,b?c}d") = Ok (Some it, B "d") /\ sized it /\ item_min it = 3%Z /\ item_max it = 6%Z.
Proof.
  split; [now apply fine|]. eexists. split; [vm_compute; reflexivity|]. split; [|split; reflexivity].
  intros its mn mx k [I|[I|[]]] J; try discriminate. injection I as <- <- <-. destruct J as [J|[J|[J|[]]]]; discriminate.
Qed.
XE*)
(** C15 is false in general: an alternative with text after a star gets a finite MaxLen. *)
Lemma c15_star_refuted_l : exists it, next_wildcard_item (B "{*a,b}") = Ok (Some it, []) /\
  item_max it = 1%Z /\ denotes (B "{*a,b}") (symbols (B "xxa")).
Proof.
  eexists. split; [vm_compute; reflexivity|]. split; [reflexivity|].
  change (denotes (braced (B "*a,b") ++ []) ((symbols (B "xxa")) ++ [])).
  apply (d_list (B "*a,b") (B "*a") [] _ []); [intros I; repeat (destruct I as [I|I]; [discriminate|]); destruct I| | |constructor].
  - exists [], (B ",b"). split; [reflexivity|]. split; [intros I; repeat (destruct I as [I|I]; [discriminate|]); destruct I|]. split; [auto|right; exists (B "b"); reflexivity].
  - change (denotes ("*"%char :: B "a") ([B "x"; B "x"] ++ [B "a"])). constructor.
    change (denotes (encode_rune 97%N ++ []) (encode_rune 97%N :: [])). constructor; [split; [reflexivity|discriminate]| |constructor].
    intros c I. repeat (destruct I as [<-|I]; [discriminate|]). destruct I.
Qed.

(** C16: AppendItem: the new list matches exactly the concatenations of what the old list and the new item
    match. *)
Lemma c16_append_l : forall (l : list item) (it : item) (w : list str), Forall (wfi true) l -> wfi true it ->
  (dens (append_item l it) w <-> exists w1 w2, w = w1 ++ w2 /\ dens l w1 /\ den it w2).
Proof.
  intros l it w Wl Wi. destruct (append_spec true (rev l) it) as (_ & D & _); auto; [now apply Forall_rev|].
  unfold append_item. rewrite D, rev_involutive. reflexivity.
Qed.
(*EX
Example c16_append_example : append_item [IStar 0; IStr (B "ab")] (IRune 1078%N) = [IStar 0; IStr (B "abж")] /\
  append_item [IStr (B "ab"); IAny 2] (IStar 1) = [IStr (B "ab"); IStar 3].
Proof. split; vm_compute; reflexivity. Qed.
XE*)
(** C16: the items, prefix and suffix of a parsed glob together mean what the text means. *)
Lemma c16_parse_l : forall (g : str) (gl : glob), clean g -> ~ In zero g -> plain_singles g -> glob_parse g = Ok gl ->
  forall w, denotes g w <->
    if null (g_items gl) then w = symbols (g_node gl)
    else exists w2, w = symbols (g_prefix gl) ++ w2 ++ symbols (g_suffix gl) /\ dens (g_items gl) w2.
Proof.
  intros g gl C Z P H w. destruct (parse_facts true g gl) as (prefix & suffix & mn & mx & rl & -> & I & D); auto; [split; auto; split; auto; discriminate|].
  rewrite D. unfold finish_glob. destruct (rev rl) as [|i r] eqn:R; cbn [null g_items g_node g_prefix g_suffix].
  - destruct I as (Cp & _). rewrite symbols_clean_app by auto. split.
    + intros (w2 & -> & ->). reflexivity.
    + intros ->. exists []. split; reflexivity.
  - reflexivity.
Qed.
(*EX
Example c16_parse_example : (clean (B "a?*?b[c]{d}*e[f]") /\ ~ In zero (B "a?*?b[c]{d}*e[f]") /\ plain_singles (B "a?*?b[c]{d}*e[f]")) /\
  exists gl, glob_parse (B "a?*?b[c]{d}*e[f]") = Ok gl /\ g_items gl = [IStar 2; IStr (B "bcd"); IStar 0] /\ g_prefix gl = B "a" /\ g_suffix gl = B "ef".
Proof. split; [now apply fine|]. eexists. split; [vm_compute; reflexivity|]. repeat split. Qed.
XE*)
(** C16 is false for a Byte item above 0x7f (not produced by Parse): it is merged as a code point. *)
Lemma c16_high_byte_refuted_l : let b := byte_of 195 in append_item [IStr (B "a")] (IByte b) = [IStr (B "a" ++ [byte_of 195; byte_of 131])].
Proof. vm_compute. reflexivity. Qed.

Lemma class_symbol_ext a b x : rr_ascii a = rr_ascii b -> rr_unicode a = rr_unicode b -> class_symbol a x -> class_symbol b x.
Proof.
  intros E1 E2 (r & S & -> & H). exists r. repeat split; try apply S. revert H. unfold rr_contains, contains_unicode. now rewrite E1, E2.
Qed.
(** C17: items that Equal calls equal match the same symbols. *)
Lemma c17_equal_l : forall a b : item, item_equal a b = true -> forall w, den a w <-> den b w.
Proof.
  intro a. induction a as [a IHg IHc] using item_ind2. intros b H w. destruct a, b; try discriminate; cbn [item_equal] in H.
  - apply str_eqb_true in H. now subst.
  - apply Ascii.eqb_eq in H. now subst.
  - apply N.eqb_eq in H. now subst.
  - apply Nat.eqb_eq in H. now subst.
  - apply Nat.eqb_eq in H. now subst.
  - apply rr_equal_eq in H as (E1 & E2 & _). cbn. split; intros (x & -> & C); exists x; split; auto; [eapply (class_symbol_ext rs)|eapply (class_symbol_ext rs0)]; auto.
  - apply sl_equal_eq in H as (E1 & E2 & E3). cbn [den]. now rewrite E1, E3.
  - specialize (IHg _ _ _ eq_refl). rewrite !den_group. clear IHc. revert vals0 H. induction vals as [|v vals IH]; intros [|v0 vals0] H; try discriminate.
    + split; intros (x & [] & _).
    + apply andb_prop in H as [H1 H2]. inversion IHg as [|? ? Hv Hr]; subst. specialize (IH Hr _ H2). split; intros (x & [<-|I] & D).
      * exists v0. split; [now left|]. now apply (Hv v0 H1).
      * destruct (proj1 IH) as (y & Iy & Dy); eauto. exists y. split; auto. now right.
      * exists v. split; [now left|]. now apply (Hv _ H1).
      * destruct (proj2 IH) as (y & Iy & Dy); eauto. exists y. split; auto. now right.
  - specialize (IHc _ _ _ eq_refl). rewrite !den_chain. clear IHg. revert items0 H w. induction items as [|v vals IH]; intros [|v0 vals0] H w; try discriminate; [reflexivity|].
    apply andb_prop in H as [H1 H2]. inversion IHc as [|? ? Hv Hr]; subst. cbn [dens]. split; intros (w1 & w2 & -> & D1 & D2); exists w1, w2; (split; [reflexivity|]); (split; [now apply (Hv _ H1)|now apply (IH Hr _ H2)]).
Qed.
(*EX
Example c17_equal_example : exists a b, next_wildcard_item (B "{a?,b*c,[d-f]x}") = Ok (Some a, []) /\ next_wildcard_item (B "{b*c,[edf]x,a?,a?}") = Ok (Some b, []) /\ item_equal a b = true.
Proof. do 2 eexists. split; [vm_compute; reflexivity|]. split; vm_compute; reflexivity. Qed.
XE*)
(** C17: Equal is an equivalence, and equal items are printed alike. *)
Lemma c17_equivalence_l : (forall a : item, item_equal a a = true) /\ (forall a b : item, item_equal a b = true -> item_equal b a = true) /\
  (forall a b c : item, item_equal a b = true -> item_equal b c = true -> item_equal a c = true) /\
  (forall a b : item, item_equal a b = true -> item_write a = item_write b).
Proof. exact (conj equal_refl (conj equal_sym (conj equal_trans equal_write))). Qed.
(** C17: they also give the same Match and Find answers. *)
Lemma c17_equal_answers_l : forall a b : item, item_equal a b = true ->
  forall s, item_match a s = item_match b s /\ item_find a s = item_find b s.
Proof.
  intros a b H s. destruct a, b; try discriminate; cbn [item_equal] in H.
  - apply str_eqb_true in H. now subst.
  - apply Ascii.eqb_eq in H. now subst.
  - apply N.eqb_eq in H. now subst.
  - apply Nat.eqb_eq in H. now subst.
  - apply Nat.eqb_eq in H. now subst.
  - apply rr_equal_eq in H as (E1 & E2 & _). destruct rs as [A U x y z], rs0 as [A0 U0 x0 y0 z0]. cbn in E1, E2. subst A0 U0.
    assert (CU : forall c, contains_unicode (mkRR A U x y z) c = contains_unicode (mkRR A U x0 y0 z0) c) by reflexivity.
    assert (E : forall f i t, rr_index_u f (mkRR A U x y z) i t = rr_index_u f (mkRR A U x0 y0 z0) i t).
    { induction f as [|f IH]; intros i t; cbn [rr_index_u]; [reflexivity|]. destruct t; [reflexivity|]. cbn [rr_ascii]. rewrite <- !IH. 
      destruct (decode_rune _) as [c n]. rewrite CU. rewrite <- !IH. reflexivity. }
    split.
    + cbn [item_match]. unfold rr_starts_with. destruct s; [reflexivity|]. cbn [rr_ascii]. destruct (decode_rune _) as [c n]. now rewrite CU.
    + cbn [item_find]. unfold rr_index. cbn [rr_ascii rr_unicode]. now rewrite E.
  - split; reflexivity.
  - split; reflexivity.
  - split; reflexivity.
Qed.

Lemma byte_order_iff : forall a b, str_ltb a b = true <-> byte_order a b.
Proof.
  unfold byte_order. induction a as [|x a IH]; intros [|y b]; cbn [str_ltb].
  - split; [discriminate|]. intros [(c & t & E)|(p & c & d & u & v & E & _)]; [discriminate|destruct p; discriminate].
  - split; auto. intros _. left. exists y, b. reflexivity.
  - split; [discriminate|]. intros [(c & t & E)|(p & c & d & u & v & _ & E & _)]; [discriminate|destruct p; discriminate].
  - destruct (N.ltb_spec (code x) (code y)) as [L|L]; [|destruct (N.ltb_spec (code y) (code x)) as [L'|L']].
    + split; auto. intros _. right. exists [], x, y, a, b. auto.
    + split; [discriminate|]. intro H. exfalso. revert H. intros [(c & t & E)|(p & c & d & u & v & E1 & E2 & K)].
      * injection E as -> _. lia.
      * destruct p; cbn in E1, E2; injection E1 as -> _; injection E2 as -> _; lia.
    + assert (x = y) as -> by (apply code_inj; lia). rewrite IH. split.
      * intros [(c & t & ->)|(p & c & d & u & v & -> & -> & K)]; [left; exists c, t; reflexivity|right; exists (y :: p), c, d, u, v; auto].
      * intros [(c & t & E)|(p & c & d & u & v & E1 & E2 & K)].
        -- injection E as ->. left. eauto.
        -- destruct p as [|z p]; cbn in E1, E2; [injection E1 as -> ->; injection E2 as E3 ->; subst; lia|]. injection E1 as _ ->. injection E2 as _ ->. right. exists p, c, d, u, v. auto.
Qed.
(** C18: ListExpand of a list with a body returns the distinct alternatives in strictly increasing order. *)
Lemma c18_list_l : forall body : str, body <> [] -> exists l, list_expand (braced body) = Some l /\
  (forall v, In v l <-> alternative body v) /\
  forall i j, i < j < length l -> byte_order (nth i l []) (nth j l []).
Proof.
  intros body N. exists (norm (split_on "," body)). rewrite list_expand_braced. split; [destruct body; [congruence|reflexivity]|]. split.
  - intro v. rewrite norm_in, alternative_split. reflexivity.
  - intros i j L. apply byte_order_iff. pose proof (norm_sorted (split_on "," body)) as S. revert i j L. induction S as [|x l S IH F]; intros i j L; [cbn in L; lia|].
    destruct j as [|j]; [lia|]. destruct i as [|i]; cbn [nth].
    + rewrite Forall_forall in F. apply F. apply nth_In. cbn in L. unfold str in *. lia.
    + apply IH. cbn in L. unfold str in *. lia.
Qed.
(*EX
Example c18_list_example : list_expand (B "{b,a,bc,a,,b}") = Some [B ""; B "a"; B "b"; B "bc"].
Proof. vm_compute. reflexivity. Qed.
XE*)
(** C18: so order and repetition of the alternatives in the text do not matter. *)
Lemma c18_order_l : forall body body' : str, body <> [] -> body' <> [] ->
  (forall v, alternative body v <-> alternative body' v) -> list_expand (braced body) = list_expand (braced body').
Proof.
  intros b b' N N' H. rewrite !list_expand_braced. destruct b; [congruence|]. destruct b'; [congruence|]. cbn [null]. f_equal. apply norm_ext.
  intro x. rewrite <- !alternative_split. apply H.
Qed.
(** C18: the empty list expands to no values; anything that is not a list is refused. *)
Lemma c18_other_l : list_expand (braced []) = Some [] /\ forall s : str, (forall body, s <> braced body) -> list_expand s = None.
Proof. split; [reflexivity|exact not_braced]. Qed.

(** what the first-symbol filter of a list knows *)
Lemma list_first f s l a rest : token f s (Some (IList l)) a rest -> exists body, s = braced body ++ rest /\ ~ In "}"%char body /\
  (forall v, alternative body v <-> v = [] /\ sl_min l = 0%Z \/ In v (sl_vals l)) /\
  (sl_ascii_started l = true -> forall v c t, In v (sl_vals l) -> v = c :: t -> as_contains (sl_first l) c = true).
Proof.
  intro T. remember (Some (IList l)) as oi. destruct T as [body rest oi NB E|body rest oi NB E| | | |]; try discriminate.
  - exfalso. subst. apply class_kind in E. exact E.
  - exists body. split; auto. split; auto. destruct E as [[-> ->]|[N E]]; [discriminate|]. subst oi.
    remember (norm (split_on "," body)) as vals eqn:V.
    assert (A : forall v, alternative body v <-> In v vals) by (intro v; rewrite alternative_split, V, norm_in; reflexivity).
    assert (SS : StronglySorted str_lt vals) by (rewrite V; apply norm_sorted).
    unfold new_item_list in E. destruct vals as [|v0 [|v1 vs]]; [discriminate|destruct (null v0); [discriminate|]; injection E as E; pose proof (single_kind v0) as K; rewrite E in K; destruct K|].
    remember (v0 :: v1 :: vs) as vals'. destruct (list_scan vals' max_int 0 true as_empty) as [[[[mn mx] st] fi] hs] eqn:LS.
    destruct hs.
    { exfalso. unfold new_group in E. destruct (group_vals (next_item f) vals') as [[it|[|x xs]]| | |] eqn:G; try discriminate; cbn [bind] in E.
      - assert (it = IStar 0). { clear -G. revert it G. induction vals' as [|v t IH]; intros it G; [discriminate|]. cbn [group_vals] in G.
          destruct (has_wildcard v); [destruct (str_eqb v (B "*")); [injection G as <-; auto|]|].
          - destruct (if str_eqb v (B "?") then _ else _); cbn [bind] in G; try discriminate. destruct (group_vals (next_item f) t) as [[x|x]| | |]; cbn [bind] in G; try discriminate. injection G as <-. auto.
          - destruct (group_vals (next_item f) t) as [[x|x]| | |]; cbn [bind] in G; try discriminate. injection G as <-. auto. }
        subst. discriminate.
      - destruct (group_bounds xs _ _). discriminate. }
    destruct (list_scan_spec _ _ _ _ _ _ _ _ _ as_ok_empty LS) as (_ & _ & Fb & Ex & _ & _ & _ & St).
    assert (Fst : forall x, sl_min x = mn -> True) by auto. clear Fst.
    assert (M0 : mn = 0%Z <-> In [] vals').
    { split.
      - intros ->. destruct Ex as [Ex|Ex]; [discriminate|]. apply Exists_exists in Ex as (v & I & L). apply zlen_0 in L. now subst.
      - intro I. rewrite Forall_forall in Fb. specialize (Fb _ I). cbn in Fb. assert (0 <= mn)%Z; [|lia].
        destruct Ex as [->|Ex]; [discriminate|]. apply Exists_exists in Ex as (v & _ & <-). apply zlen_nonneg. }
    cbv zeta in E. subst vals'. destruct (Z.eqb_spec mn 0) as [Z|Z].
    + destruct v0; [|discriminate]. assert (Nv : ~ In [] (v1 :: vs)).
      { inversion SS as [|? ? _ F]; subst. intro I. rewrite Forall_forall in F. apply F in I. revert I. apply str_lt_nil. }
      destruct st; injection E as <-; cbn [sl_min sl_vals sl_ascii_started sl_first].
      * split; [|intros _ v c t I; apply (proj2 (St eq_refl)); now right]. intro v. rewrite A. split; [intros [<-|I]; auto|intros [[-> _]|I]; [now left|now right]].
      * split; [|discriminate]. intro v. rewrite A. split; [intros [<-|I]; auto|intros [[-> _]|I]; [now left|now right]].
    + destruct st; injection E as <-; cbn [sl_min sl_vals sl_ascii_started sl_first].
      * split; [|intros _ v c t I; now apply (proj2 (St eq_refl))]. intro v. rewrite A. split; [auto|intros [[_ ?]|?]; [congruence|auto]].
      * split; [|discriminate]. intro v. rewrite A. split; [auto|intros [[_ ?]|?]; [congruence|auto]].
  - exfalso. injection Heqoi as E. revert E. unfold single_item. destruct (decode_rune _). repeat match goal with |- context [if ?b then _ else _] => destruct b end; discriminate.
Qed.
(** C19: the first-symbol filters of a list never hide an alternative. *)
Lemma c19_first_l : forall (s : str) (l : slist) (rest : str), next_wildcard_item s = Ok (Some (IList l), rest) ->
  exists body, s = braced body ++ rest /\ forall v t, alternative body v -> v <> [] ->
    (sl_match_first l t = (false, true) -> forall y, t <> v ++ y) /\
    (sl_find_first l t = (None, true) -> forall x y, t <> x ++ v ++ y) /\
    (forall i, sl_find_first l t = (Some i, true) -> forall x y, t = x ++ v ++ y -> i <= length x).
Proof.
  intros s l rest H. apply next_token in H as (a & T). destruct (list_first _ _ _ _ _ T) as (body & E & _ & A & F).
  exists body. split; auto. intros v t Av Nv. apply A in Av as [[? _]|I]; [congruence|]. destruct v as [|c v]; [congruence|].
  unfold sl_match_first, sl_find_first. split; [|split].
  - intros M y ->. cbn [app] in M. destruct (sl_ascii_started l) eqn:S; [|discriminate]. rewrite (F eq_refl _ c v I eq_refl) in M. discriminate.
  - destruct (sl_ascii_started l) eqn:S; [|discriminate]. intros M x y ->. apply (f_equal fst) in M. cbn [fst] in M. unfold as_index in M.
    apply (proj1 (find_byte_none _ _)) with (c := c) in M; [|apply in_or_app; right; now left].
    specialize (F eq_refl _ c v I eq_refl). congruence.
  - intros i. destruct (sl_ascii_started l) eqn:S; [|discriminate]. intros M x y ->. apply (f_equal fst) in M. cbn [fst] in M. unfold as_index in M.
    apply (proj1 (find_byte_some _ _ _)) in M as (_ & _ & M). destruct (Nat.le_gt_cases i (length x)) as [|L]; auto.
    specialize (M _ L). rewrite app_nth2, Nat.sub_diag in M by lia. cbn [nth app] in M. specialize (F eq_refl _ c v I eq_refl). congruence.
Qed.
(*EX
Example c19_first_example : exists l, next_wildcard_item (B "{ab,cd,}x") = Ok (Some (IList l), B "x") /\
  sl_match_first l (B "xcd") = (false, true) /\ sl_find_first l (B "xcd") = (Some 1, true) /\ sl_find_first l (B "xd") = (None, true).
Proof. eexists. split; [vm_compute; reflexivity|]. repeat match goal with |- _ /\ _ => split end; vm_compute; reflexivity. Qed.
XE*)
