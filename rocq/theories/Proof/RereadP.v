(** Parsing the normalised text of a parsed glob gives the same glob. *)
From Verif Require Import Model.Glob Spec.Symbols Spec.Lang Spec.Safe Spec.Class Spec.GlobSpec Spec.Same Spec.Neat.
From Verif Require Import Proof.Utf8P Proof.ItemP Proof.AsciiSetP Proof.ClassSearchP Proof.SymbolsP Proof.RangesP Proof.ClassPrintP Proof.RangesTop Proof.LangP Proof.SortP Proof.ListP Proof.DenotesP Proof.MatchP Proof.ParseP Proof.NextP Proof.GlobP Proof.SafeP Proof.TotalP Proof.WellP Proof.PanicP Proof.NodeP Proof.OrderP.
From Coq Require Import Lia ZifyBool ZifyN ZifyNat.

Definition nometa (t : str) : Prop := forall c, In c t -> ~ In c metas.

(** ** Classes *)
Lemma class_bounds body rs : clean body -> ~ In zero body -> ~ In del body -> ranges_expand (bracketed body) = Some rs ->
  ~ in_class body 0%N /\ ~ in_class body 127%N /\ (in_class body 45%N -> in_class body 44%N /\ in_class body 46%N).
Proof.
  intros C NZ ND E. destruct (ranges_expand_ok _ _ C E) as (_ & _ & (l0 & ps0 & F0 & Eb0 & CP0 & G0) & _).
  subst body. 
  pose proof (pairs_scalar _ _ CP0 F0) as PS.
  assert (PE : forall a b, In (a, b) ps0 -> In a l0 /\ In b l0 /\ a <> dash /\ b <> dash /\ good_pair (a, b)).
  { intros a b I. destruct (pairs_ends _ _ _ _ CP0 I) as (I1 & I2 & I3 & I4). rewrite Forall_forall in G0. specialize (G0 _ I). tauto. }
  assert (NP : forall a b, In (a, b) ps0 -> (a <> 0 /\ b <> 0 /\ a <> 127 /\ b <> 127)%N).
  { intros a b I. destruct (PE a b I) as (I1 & I2 & _).
    assert (N0 : ~ In 0%N l0). { intro X. apply NZ. apply in_encode_ascii; auto. now vm_compute. }
    assert (N7 : ~ In 127%N l0). { intro X. apply ND. apply in_encode_ascii; auto. now vm_compute. }
    repeat split; intros ->; auto. }
  assert (GP : forall a b, In (a, b) ps0 -> (a <= b /\ (a < 128 <-> b < 128))%N).
  { intros a b I. destruct (PE a b I) as (I1 & I2 & _ & _ & G1 & G2). cbn [fst snd] in *. split; auto.
    rewrite Forall_forall in PS. destruct (PS _ I) as [Sa Sb]. cbn [fst snd] in Sa, Sb.
    assert (LE : forall r, scalar r -> length (encode_rune r) = 1 <-> (r < 128)%N).
    { intros r Sr. pose proof (encode_len_valid r (proj1 Sr)) as X. unfold rune_len in X. destruct Sr as [V _]. unfold valid_rune in V.
      destruct (r <? 0)%N eqn:?; repeat match type of X with context [if ?c then _ else _] => destruct c eqn:? end; lia. }
    rewrite <- (LE a Sa), <- (LE b Sb). lia. }
  rewrite !(in_class_pairs _ _ _ F0 CP0). repeat split.
  - intros (a & b & I & L). apply NP in I. lia.
  - intros (a & b & I & L). pose proof (NP _ _ I). pose proof (GP _ _ I). lia.
  - destruct H as (a & b & I & L). destruct (PE _ _ I) as (_ & _ & N1 & N2 & _). unfold dash in *. exists a, b. split; auto. lia.
  - destruct H as (a & b & I & L). destruct (PE _ _ I) as (_ & _ & N1 & N2 & _). unfold dash in *. exists a, b. split; auto. lia.
Qed.

Definition neat_body (body : str) : Prop :=
  ~ (in_class body 2047%N /\ in_class body 2048%N) /\ ~ (in_class body 65535%N /\ in_class body 65536%N).
Lemma class_again body rs : clean body -> ~ In zero body -> ~ In del body -> ~ In "]"%char body -> neat_body body ->
  class_item body = Ok (Some (IRanges rs)) ->
  exists b2, rr_write rs = bracketed b2 /\ ~ In "]"%char b2 /\ class_item b2 = Ok (Some (IRanges rs)).
Proof.
  intros C NZ ND NB [N1 N2] H. assert (E : ranges_expand (bracketed body) = Some rs).
  { unfold class_item in H. destruct (ranges_expand (bracketed body)) as [rs0|]; [|discriminate]. destruct (as_count (rr_ascii rs0)) as [n c].
    destruct (Nat.eqb n 0 && null (rr_unicode rs0)); [discriminate|]. destruct (null (rr_unicode rs0) && Nat.eqb n 1); [discriminate|].
    destruct (rr_unicode rs0) as [|q [|q2 l]]; [now injection H as ->| |now injection H as ->]. destruct (Nat.eqb n 0 && (First q =? Last q)%N); [discriminate|]. now injection H as ->. }
  destruct (class_bounds _ _ C NZ ND E) as (B0 & B7 & B45).
  destruct (class_write _ _ C NZ ND E) as (b2 & RW & _ & CB).
  pose proof (c05_class_reread_l _ _ C E B0 B7 B45 N1 N2) as RR.
  exists b2. split; auto. split; [intro I; apply NB; apply CB; auto; [now vm_compute|discriminate]|].
  unfold class_item in *. rewrite E in H. rewrite RW in RR. rewrite RR. exact H.
Qed.

(** ** Items *)
(** An item that is read back from its text. *)
Definition whole (it : item) : Prop :=
  (exists c M d, item_write it = c :: M ++ [d] /\ In c metas /\ c <> "*"%char /\ c <> "?"%char /\ In d metas) /\
  forall p, next_wildcard_item (item_write it ++ p) = Ok (Some it, p).
Definition nice (it : item) : Prop :=
  wfi true it /\
  match it with
  | IStr _ | IByte _ | IRune _ => forall t, lit_text it = Some t -> t <> [] /\ clean t /\ nometa t /\ single_item t = it
  | IAny n => 1 <= n
  | IStar _ => True
  | _ => whole it
  end.

Lemma single_long a b : clean a -> a <> [] -> clean b -> b <> [] -> single_item (a ++ b) = IStr (a ++ b).
Proof.
  intros Ca Na Cb Nb. unfold single_item. destruct (clean_decode a Ca Na) as (r & t & S & Ct & E & D).
  destruct (clean_decode (a ++ b)) as (r' & t' & S' & Ct' & E' & D'); [now apply clean_app|destruct a; [congruence|discriminate]|].
  assert (r' = r). { rewrite E, <- app_assoc in E'. apply encode_app_inj in E' as [-> _]; auto; [apply S|apply S']. }
  subst r'. rewrite D'. destruct (Nat.eqb_spec (length (encode_rune r)) (length (a ++ b))) as [L|L]; auto. exfalso.
  rewrite app_length, E, app_length in L. destruct b; [congruence|]. cbn in L. lia.
Qed.
Lemma nice_lit it t : nice it -> lit_text it = Some t -> t <> [] /\ clean t /\ nometa t /\ single_item t = it.
Proof. intros [W H] E. destruct it; try discriminate; now apply H. Qed.
Lemma nice_single t : clean t -> t <> [] -> nometa t -> nice (single_item t).
Proof.
  intros C N M.
  assert (wfi true (single_item t) /\ lit_text (single_item t) = Some t) as [W L].
  { unfold single_item. destruct (clean_decode t C N) as (r & t' & S & Ct & E & D). rewrite D.
    destruct (Nat.eqb_spec (length (encode_rune r)) (length t)) as [L|L]; [|split; [exact C|reflexivity]].
    assert (t' = []) as -> by (rewrite E, app_length in L; destruct t'; [auto|cbn in L; lia]). rewrite app_nil_r in E.
    destruct (N.leb_spec r 127) as [Lr|Lr].
    - cbn [wfi lit_text]. split; [rewrite code_byte_of by lia; lia|]. rewrite string_of_byte_ascii by (rewrite code_byte_of by lia; lia).
      rewrite E. now rewrite encode_ascii by lia.
    - cbn [wfi lit_text]. split; auto. now rewrite E. }
  split; auto.
  assert (K : forall t0, lit_text (single_item t) = Some t0 -> t0 <> [] /\ clean t0 /\ nometa t0 /\ single_item t0 = single_item t).
  { intros t0 E. rewrite L in E. injection E as <-. auto. }
  destruct (single_item t); auto; discriminate.
Qed.
Lemma nometa_app a b : nometa a -> nometa b -> nometa (a ++ b).
Proof. intros A B c I. apply in_app_or in I as [I|I]; auto. Qed.
Lemma nice_merge x y m : nice x -> nice y -> merge_last x y = Some m -> nice m.
Proof.
  intros Nx Ny E. destruct (merge_spec true x y m (proj1 Nx) (proj1 Ny) E) as (W & _). split; auto.
  rewrite merge_last_lit in E. destruct (lit_text x) as [a|] eqn:Ea; [destruct (lit_text y) as [b|] eqn:Eb|].
  - injection E as <-. destruct (nice_lit _ _ Nx Ea) as (A1 & A2 & A3 & _). destruct (nice_lit _ _ Ny Eb) as (B1 & B2 & B3 & _).
    intros t [= <-]. split; [destruct a; [congruence|discriminate]|]. split; [now apply clean_app|]. split; [now apply nometa_app|]. now apply single_long.
  - destruct x, y; discriminate.
  - destruct Nx as [_ Nx], Ny as [_ Ny]. destruct x, y; try discriminate; injection E as <-; cbn in *; auto; lia.
Qed.
Lemma nice_any n : 1 <= n -> nice (IAny n). Proof. intro L. split; [exact I|exact L]. Qed.
Lemma nice_star n : nice (IStar n). Proof. split; exact I. Qed.

(** ** Lists *)
Lemma merge_text x y m : wfi true x -> wfi true y -> merge_last x y = Some m ->
  (forall n, y <> IStar n) -> item_write m = item_write x ++ item_write y.
Proof.
  intros Wx Wy E N. rewrite merge_last_lit in E. destruct (lit_text x) as [a|] eqn:Ea; [destruct (lit_text y) as [b|] eqn:Eb|].
  - injection E as <-. assert (X : forall i t, wfi true i -> lit_text i = Some t -> item_write i = t).
    { intros i t W Et. destruct i; try discriminate; injection Et as <-; auto. cbn in *. now rewrite string_of_byte_ascii. }
    cbn [item_write]. now rewrite (X x a), (X y b).
  - destruct x, y; discriminate.
  - destruct x, y; try discriminate; injection E as <-; try (now elim (N n0)); cbn [item_write app].
    + apply repeat_app.
    + now rewrite repeat_app.
Qed.
Definition no_sub (t body : str) : Prop := forall x y, body <> x ++ t ++ y.
Definition tame (v : str) : Prop := ~ In "["%char v /\ ~ In "}"%char v /\ no_sub (B "**") v /\ no_sub (B "?*") v.
Lemma tame_rest a v : tame (a ++ v) -> tame v.
Proof.
  intros (A & B & C & D). repeat split.
  - intro I. apply A, in_or_app. now right.
  - intro I. apply B, in_or_app. now right.
  - intros x y ->. apply (C (a ++ x) y). now rewrite <- !app_assoc.
  - intros x y ->. apply (D (a ++ x) y). now rewrite <- !app_assoc.
Qed.
Lemma mark_end x : (exists n, x = IAny (S n)) \/ (exists n, x = IStar n) -> exists p c, item_write x = p ++ [c] /\ (c = "?"%char \/ c = "*"%char).
Proof.
  assert (R : forall n, repeat "?"%char (S n) = repeat "?"%char n ++ ["?"%char]) by (induction n as [|n IH]; [reflexivity|cbn in *; now rewrite <- IH]).
  intros [(n & ->)|(n & ->)]; cbn [item_write].
  - rewrite R. eauto.
  - destruct n as [|n]; [exists [], "*"%char; auto|]. rewrite R. rewrite app_comm_cons. eauto.
Qed.
Definition marks (it : item) : Prop := match it with IAny n => 1 <= n | _ => True end.
Lemma merge_marks x y m : marks x -> marks y -> merge_last x y = Some m -> marks m.
Proof. intros A B E. destruct x, y; try discriminate; injection E as <-; cbn in *; auto; lia. Qed.
Lemma chain_text f : forall fuel v rl0 mn0 mx0 rl mn mx, tok true v -> tame (concat (map item_write (rev rl0)) ++ v) ->
  Forall (wfi true) rl0 -> Forall marks rl0 ->
  group_chain fuel (next_item f) v (rl0, mn0, mx0) = Ok (rl, mn, mx) ->
  concat (map item_write (rev rl)) = concat (map item_write (rev rl0)) ++ v.
Proof.
  induction fuel as [|fu IH]; intros v rl0 mn0 mx0 rl mn mx T Tm W Mk H; cbn [group_chain] in H.
  { destruct v; [|discriminate]. injection H as <- <- <-. now rewrite app_nil_r. }
  destruct v as [|c v]; [injection H as <- <- <-; now rewrite app_nil_r|].
  destruct (next_item f (c :: v)) as [[oi rest]|e| |] eqn:E; try discriminate. destruct f as [|f]; [discriminate|].
  pose proof (tame_rest _ _ Tm) as (T1 & T2 & T3 & T4).
  destruct (next_item_spec true (S f) (c :: v) oi rest) as (_ & Tr & Ok' & _); auto; [now apply plain_no_brace|discriminate|].
  apply next_token in E as (a & E). pose proof (token_text _ _ _ _ _ E) as [Ea Na].
  assert (X : exists it, oi = Some it /\ item_write it = a /\ marks it /\ ((exists n, it = IStar n) -> exists q, a = "*"%char :: q)).
  { remember (c :: v) as s eqn:Es. destruct E as [body rest oi NB E|body rest oi NB E|n rest NS|rest|t d rest Nt Mt Mc|t Nt Mt].
    - exfalso. apply T1. now left.
    - exfalso. apply T2. rewrite braced_app. right. apply in_or_app. right. now left.
    - destruct n as [|n].
      + exists (IStar 0). cbn. eauto.
      + exfalso. apply (T3 [] (repeat "*"%char n ++ rest)). reflexivity.
    - exists (IAny 1). cbn. repeat split; auto. intros (n & ?). discriminate.
    - exists (single_item t). split; auto. split; [apply single_write; auto|].
      { destruct T as (C & _). destruct (clean_app_inv _ _ C) as [Ct _]; auto. apply bnd_ascii, metas_ascii, Mc. }
      unfold single_item. destruct (decode_rune t) as [r k]. split.
      + destruct (Nat.eqb k (length t)); [destruct (r <=? 127)%N|]; exact I.
      + intros (n & X). destruct (Nat.eqb k (length t)); [destruct (r <=? 127)%N|]; discriminate.
    - exists (IStr t). cbn. repeat split; auto. intros (n & ?). discriminate. }
  destruct X as (it & -> & Ew & Mi & St). cbn in Ok'. destruct Ok' as [Wi _]. cbn [chain_append] in H.
  assert (K : concat (map item_write (rev (append_item_rev rl0 it))) = concat (map item_write (rev rl0)) ++ a).
  { unfold append_item_rev. destruct rl0 as [|x r]; [cbn; now rewrite app_nil_r, Ew|]. inversion W as [|? ? Wx Wr]; subst x0 l. inversion Mk as [|? ? Mx Mr]; subst x0 l.
    destruct (merge_last x it) as [m|] eqn:Em.
    - cbn [rev]. rewrite !map_app, !concat_app. cbn [map concat]. rewrite !app_nil_r, <- app_assoc. f_equal. rewrite <- Ew. apply merge_text; auto.
      intros n ->. destruct St as (q & Eq); [eauto|]. rewrite merge_last_lit in Em. destruct (mark_end x) as (p & d & Ex & Dd).
      { destruct x; cbn in Em; try discriminate; [left|right]; eauto. cbn in Mx. destruct n0 as [|n0]; [lia|eauto]. }
      destruct Tm as (_ & _ & C1 & C2). rewrite Ea, Eq in C1, C2. cbn [rev] in C1, C2. rewrite map_app, concat_app in C1, C2. cbn [map concat] in C1, C2. rewrite Ex, app_nil_r in C1, C2.
      destruct Dd as [->| ->].
      + apply (C2 (concat (map item_write (rev r)) ++ p) (q ++ rest)). rewrite <- !app_assoc. reflexivity.
      + apply (C1 (concat (map item_write (rev r)) ++ p) (q ++ rest)). rewrite <- !app_assoc. reflexivity.
    - change (rev (it :: x :: r)) with (rev (x :: r) ++ [it]). rewrite map_app, concat_app. cbn [map concat]. now rewrite app_nil_r, Ew. }
  rewrite Ea, app_assoc, <- K. eapply IH; [exact Tr| | | |exact H].
  - rewrite K, <- app_assoc, <- Ea. exact Tm.
  - now apply (append_spec true).
  - apply append_forall; auto. exact merge_marks.
Qed.

Lemma vals_text f : forall vals l, Forall (fun v => tok true v /\ tame v) vals -> group_vals (next_item f) vals = Ok (inr l) -> map item_write l = vals.
Proof.
  induction vals as [|v vals IH]; intros l F H; cbn [group_vals] in H; [now injection H as <-|]. inversion F as [|? ? [T Tm] F']; subst.
  destruct (has_wildcard v) eqn:W.
  - destruct (str_eqb_spec v (B "*")) as [->|Ns]; [discriminate|].
    destruct (if str_eqb v (B "?") then Ok (IAny 1) else group_val (next_item f) v) as [it|e| |] eqn:E; try discriminate. cbn [bind] in H.
    destruct (group_vals (next_item f) vals) as [[r0|r0]|e| |] eqn:E2; try discriminate. cbn [bind] in H. injection H as <-. cbn [map]. f_equal; auto.
    destruct (str_eqb_spec v (B "?")) as [->|Nq]; [now injection E as <-|].
    unfold group_val in E. destruct (group_chain (length v) (next_item f) v ([], 0%Z, 0%Z)) as [[[rl mn] mx]|e| |] eqn:Eg; try discriminate.
    apply chain_text in Eg; auto. cbn [bind rev map concat app] in E, Eg. destruct rl as [|x [|y rl]]; injection E as <-; cbn [item_write]; auto.
    cbn in Eg. now rewrite app_nil_r in Eg.
  - destruct (group_vals (next_item f) vals) as [[r0|r0]|e| |] eqn:E2; try discriminate. cbn [bind] in H. injection H as <-. cbn [map item_write]. f_equal. auto.
Qed.
Lemma vals_early f : forall vals it, group_vals (next_item f) vals = Ok (inl it) -> it = IStar 0.
Proof.
  induction vals as [|v vals IH]; intros it H; cbn [group_vals] in H; [discriminate|].
  destruct (has_wildcard v); [destruct (str_eqb v (B "*")); [now injection H as <-|]; destruct (if str_eqb v (B "?") then Ok (IAny 1) else group_val (next_item f) v); try discriminate; cbn [bind] in H|];
    destruct (group_vals (next_item f) vals) as [[r|r]|e| |]; try discriminate; cbn [bind] in H; injection H as <-; auto.
Qed.

(** The text of a list item is the list of its sorted values. *)
Lemma list_text f vals it : Forall (fun v => tok true v /\ tame v) vals -> (forall v, vals = [v] -> has_wildcard v = false) ->
  new_item_list (next_item f) vals = Ok (Some it) ->
  nice it /\ (lit_text it <> None \/ it = IStar 0) \/ item_write it = braced (join_with "," vals) /\ ((exists l, it = IList l) \/ exists l a b, it = IGroup l a b).
Proof.
  intros F Si H. unfold new_item_list in H. destruct vals as [|v [|v2 vals]]; [discriminate| |].
  - destruct v as [|c v]; cbn [null] in H; [discriminate|]. injection H as <-. inversion F as [|? ? (K1 & _) _]; subst. left. split.
    + apply nice_single; [apply K1|discriminate|]. intros d I M. apply (no_wild_meta (c :: v) (Si _ eq_refl) d I M).
    + left. unfold single_item. destruct (decode_rune (c :: v)) as [r k]. destruct (Nat.eqb k (length (c :: v))); [destruct (r <=? 127)%N|]; discriminate.
  - remember (v :: v2 :: vals) as vs eqn:Evs.
    destruct (list_scan vs max_int 0 true as_empty) as [[[[mn mx] st] fi] hs] eqn:E. destruct hs.
    + unfold new_group in H. destruct (group_vals (next_item f) vs) as [[it0|l]|e| |] eqn:Eg; try discriminate; cbn [bind] in H.
      * injection H as <-. apply vals_early in Eg as ->. left. split; [apply nice_star|now right].
      * right. apply vals_text in Eg; auto. destruct l as [|x l]; [discriminate|]. destruct (group_bounds l (item_min x) (item_max x)) as [m1 m2].
        injection H as <-. split; [|right; eauto]. change (item_write (IGroup (x :: l) m1 m2)) with (["{"%char] ++ join_with "," (map item_write (x :: l)) ++ ["}"%char]). rewrite Eg. reflexivity.
    + right. split.
      2:{ left. subst vs. destruct (mn =? 0)%Z; [destruct v; [|discriminate]|]; destruct st; injection H as <-; eauto. }
      assert (Sz : forall s0 f0, item_write (IList (mkSList s0 f0 vs mn mx)) = braced (if (mn =? 0)%Z then concat (map (fun v => ","%char :: v) vs) else join_with "," vs)) by reflexivity.
      destruct (mn =? 0)%Z eqn:Emn.
      * subst vs. destruct v; [|discriminate].
        assert (item_write it = braced (concat (map (fun v => ","%char :: v) (v2 :: vals)))) as ->.
        { destruct st; injection H as <-; cbn [item_write]; unfold sl_write, sl_optional; cbn [sl_min sl_vals]; rewrite Emn; reflexivity. }
        now rewrite join_lead.
      * destruct st; subst vs; injection H as <-; apply Sz.
Qed.

Lemma list_again body it : tok true body -> ~ In "}"%char body -> tame body -> body <> [] -> (forall v, norm (split_on "," body) = [v] -> has_wildcard v = false) ->
  list_item body = Ok (Some it) -> wfi true it -> nice it.
Proof.
  intros T NB Tm Ne Si H W. assert (H0 := H). unfold list_item in H.
  assert (F : Forall (fun v => tok true v /\ tame v) (norm (split_on "," body))).
  { apply Forall_forall. intros v I. apply (proj1 (norm_in _ _)) in I. split; [now apply (tok_alt true body)|].
    apply alternative_split in I as (x & y & E & _). rewrite E in Tm. apply tame_rest in Tm. destruct Tm as (A & C & D & G). repeat split.
    - intro I. apply A, in_or_app. now left.
    - intro I. apply C, in_or_app. now left.
    - intros p q ->. apply (D p (q ++ y)). now rewrite <- !app_assoc.
    - intros p q ->. apply (G p (q ++ y)). now rewrite <- !app_assoc. }
  destruct (list_text _ _ _ F Si H) as [[N _]|[Ew K]]; [exact N|].
  set (vs := norm (split_on "," body)) in *.
  assert (Nv : vs <> []) by (intro X; rewrite X in H; discriminate).
  assert (Nc : Forall (fun v => ~ In ","%char v) vs).
  { apply Forall_forall. intros v I. apply (proj1 (norm_in _ _)) in I. apply alternative_split in I as (x & y & _ & Nc & _). exact Nc. }
  assert (Wh : whole it).
  { split.
    - exists "{"%char, (join_with "," vs), "}"%char. split; [exact Ew|]. repeat split; try discriminate; cbn; tauto.
    - intro p. rewrite Ew. rewrite next_list.
      + rewrite (list_item_ext _ body); [rewrite H0; reflexivity|]. intro v. rewrite !alternative_split, split_on_join by auto. unfold vs. apply norm_in.
      + intro I. apply in_join in I as [I|(v & I & J)]; [discriminate|]. rewrite Forall_forall in F. destruct (F _ I) as (_ & _ & X & _). auto. }
  split; auto. destruct K as [(l & ->)|(l & a & b & ->)]; exact Wh.
Qed.

Lemma class_nice body it : tok true body -> ~ In del body -> ~ In "]"%char body -> (forall c, In c metas -> ~ (forall r, in_class body r <-> r = code c)) ->
  neat_body body -> class_item body = Ok (Some it) -> nice it.
Proof.
  intros T ND NB PC NT H0. destruct (class_item_spec true body (Some it) T ltac:(discriminate) H0) as ([W _] & _ & D). assert (H := H0).
  destruct T as (C & NZ & _). unfold class_item in H. destruct (ranges_expand (bracketed body)) as [rs|] eqn:E; [|discriminate].
  destruct (ranges_expand_ok _ _ C E) as ((AO & UO & SO) & _ & _ & D2).
  assert (Fin : rs_fin rs) by (split; auto).
  assert (D' : forall r, in_class body r <-> mem rs r) by (intro r; rewrite <- D2; now apply fin_contains).
  assert (IT : (rr_unicode rs = [] /\ exists c, it = IByte c) \/ (exists q, rr_unicode rs = [q] /\ it = IRune (First q)) \/ it = IRanges rs).
  { destruct (as_count (rr_ascii rs)) as [n c]. destruct (rr_unicode rs) as [|q l]; cbn [null] in H.
    - rewrite !andb_true_r in H. destruct (Nat.eqb n 0); [discriminate|]. cbn [andb] in H. destruct (Nat.eqb n 1); injection H as <-; eauto.
    - rewrite !andb_false_r in H. cbn [andb] in H. destruct l; [|injection H as <-; auto]. destruct (Nat.eqb n 0 && (First q =? Last q)%N); injection H as <-; eauto. }
  clear H. destruct IT as [(U & c & ->)|[(q & U & ->)| ->]].
  - assert (~ In c metas) as Nc.
    { intro M. apply (PC c M). intro r.
      cbn in W. specialize (D [encode_rune r]) as Dr. rewrite dens_olist in Dr. cbn [den] in Dr.
      assert (Sc : scalar (code c)). { split; [unfold valid_rune|unfold RuneError]; lia. }
      split.
      + intro I. assert (r <= 127)%N. { apply D' in I. unfold mem in I. destruct (r <=? 127)%N eqn:Lr; [lia|]. rewrite U in I. destruct I as (? & [] & _). }
        assert (S : scalar r). { split; [unfold valid_rune|unfold RuneError]; lia. }
        assert (X : [encode_rune r] = [[c]]) by (apply Dr; left; eauto). injection X as X. rewrite encode_ascii in X by lia. injection X as X. rewrite <- X. now rewrite code_byte_of by lia.
      + intros ->. rewrite string_byte_ascii in Dr by auto. destruct (proj1 Dr eq_refl) as [(r & S & I & X)|[_ X]]; [|discriminate].
        injection X as X. destruct S as [V _]. rewrite <- (string_byte_ascii c) in X by auto.
        assert (code c = r) as ->; auto. apply (encode_app_inj (code c) r [] []); auto; [apply Sc|]. now rewrite !app_nil_r. }
    cbn in W. assert (Sg : single_item [c] = IByte c).
    { unfold single_item. destruct (clean_decode [c]) as (r & t & S & Ct & Ec & Dc); [now apply clean_byte|discriminate|]. rewrite Dc.
      rewrite <- (string_byte_ascii c) in Ec by auto. rewrite <- (app_nil_r (encode_rune (code c))) in Ec. apply encode_app_inj in Ec as [<- Et]; [|unfold valid_rune; lia|apply S]. subst t.
      rewrite string_byte_ascii by auto. cbn [length Nat.eqb]. replace (code c <=? 127)%N with true by lia. now rewrite byte_of_code. }
    split; [exact W|]. intros t [= <-]. rewrite string_of_byte_ascii by auto. repeat split; auto; [discriminate|now apply clean_byte|]. intros d [<-|[]]. exact Nc.
  - rewrite U in UO. inversion UO as [|? ? [G1 G2] _]; subst. cbn in W.
    assert (Ne : encode_rune (First q) <> []) by (destruct (encode_head (First q) (proj1 W)) as (h & tl & -> & _); discriminate).
    split; [exact W|]. intros t [= <-]. split; auto. split; [now apply clean_encode|]. split.
    + intros d I M. apply encode_high in I; auto; [|lia]. apply metas_ascii in M. lia.
    + unfold single_item. destruct (clean_decode (encode_rune (First q))) as (r & t & S & Ct & Ec & Dc); [now apply clean_encode|auto|]. rewrite Dc.
      assert (Ec' := Ec). rewrite <- (app_nil_r (encode_rune (First q))) in Ec. apply encode_app_inj in Ec as [<- Et]; [|apply W|apply S].
      rewrite Nat.eqb_refl. replace (First q <=? 127)%N with false by lia. reflexivity.
  - split; [exact W|]. destruct (class_again body rs C NZ ND NB NT H0) as (b2 & RW & NB2 & H2). split.
    + exists "["%char, b2, "]"%char. cbn [item_write]. rewrite RW. repeat split; try discriminate; cbn; tauto.
    + intro p. cbn [item_write]. rewrite RW, next_class, H2 by auto. reflexivity.
Qed.

(** ** The first reading *)
Definition xk (g : str) : Prop := gk g /\ neat_classes g /\ neat_lists g.
Lemma neat_classes_part a b c : neat_classes (a ++ b ++ c) -> neat_classes b.
Proof. intros N x body y ->. apply (N (a ++ x) body (y ++ c)). now rewrite <- !app_assoc. Qed.
Lemma neat_lists_part a b c : neat_lists (a ++ b ++ c) -> neat_lists b.
Proof. intros N x body y ->. apply (N (a ++ x) body (y ++ c)). now rewrite <- !app_assoc. Qed.
Lemma xk_rest a rest : xk (a ++ rest) -> tok true rest -> xk rest.
Proof.
  intros (K & A & C) T. split; [now apply gk_rest in K|]. split; [apply (neat_classes_part a rest [])|apply (neat_lists_part a rest [])]; now rewrite app_nil_r.
Qed.
Definition ends (s : str) : Prop := exists q d, s = q ++ [d] /\ In d metas.
Lemma ends_rest a b : ends (a ++ b) -> b = [] \/ ends b.
Proof.
  intros (q & d & E & M). destruct b as [|x b] using rev_ind; [now left|]. right. exists b, x. split; auto. rewrite app_assoc in E. apply app_inj_tail in E as [_ ->]. exact M.
Qed.
Lemma next_nice s it rest : xk s -> ends s -> next_wildcard_item s = Ok (Some it, rest) -> nice it.
Proof.
  intros (K & NC & NL) En H. unfold next_wildcard_item in H. assert (NE : s <> []) by (destruct s; [discriminate H|discriminate]).
  pose proof (next_item_spec true _ s (Some it) rest (proj1 K) (proj1 (proj2 K)) NE H) as (_ & _ & [W _] & _).
  destruct s as [|c0 s0] eqn:Es; [congruence|]. rewrite <- Es in *. clear c0 s0 Es.
  apply next_token in H as (a & T). remember (Some it) as oi eqn:Eo. remember (length s) as f eqn:Ef.
  destruct T as [body rest oi NB E|body rest oi NB E|n rest NS|rest|t c rest Nt Mt Mc|t Nt Mt].
  - subst oi. destruct K as (T & P & Q & D). rewrite bracketed_app in T, D.
    assert (Tb : tok true body). { change ("["%char :: body ++ "]"%char :: rest) with (["["%char] ++ (body ++ "]"%char :: rest)) in T. apply (tok_cons true "["%char) in T; [|now vm_compute]. now apply (tok_mid true "]"%char) in T. }
    assert (Db : ~ In del body). { intro I. apply D. right. apply in_or_app. now left. }
    apply (class_nice body); auto; [intros c Mc; now apply (Q [] body rest c)|]. apply (NC [] body rest); auto.
  - subst oi. destruct E as [[_ E]|[Nb E]]; [discriminate|].
    assert (Tb : tok true body). { destruct K as (T & _). rewrite braced_app in T. apply (tok_cons true "{"%char) in T; [|now vm_compute]. now apply (tok_mid true "}"%char) in T. }
    destruct (NL [] body rest eq_refl NB) as (L1 & L2 & L3).
    apply (list_again body); auto; [repeat split; auto|intros v Ev; apply (plain_single_body body rest v); auto; apply K|].
    rewrite list_item_eq in E; auto. subst f. unfold braced. cbn. rewrite !app_length. cbn. lia.
  - injection Eo as <-. apply nice_star.
  - injection Eo as <-. now apply nice_any.
  - injection Eo as <-. apply nice_single; auto. destruct K as ((C & _) & _). destruct (clean_app_inv _ _ C) as [Ct _]; auto. apply bnd_ascii, metas_ascii, Mc.
  - exfalso. destruct En as (q & d & -> & M). apply (Mt d); auto. apply in_or_app. right. now left.
Qed.

(** the list under construction, newest first: nothing left to merge, the oldest item not a literal *)
Definition fits (rl : list item) (it : item) : Prop := match rl with [] => lit_text it = None | y :: _ => merge_last y it = None end.
Fixpoint settled (rl : list item) : Prop := match rl with [] => True | x :: r => fits r x /\ settled r end.
Lemma merge_kind x y m : merge_last x y = Some m -> (lit_text m = None <-> lit_text x = None) /\ forall z, merge_last z m = None <-> merge_last z x = None.
Proof.
  intro E. destruct x, y; try discriminate; injection E as <-; (split; [cbn; split; congruence|]); intro z; destruct z; cbn; split; congruence.
Qed.
Lemma settled_append rl it : settled rl -> (rl = [] -> lit_text it = None) -> settled (append_item_rev rl it).
Proof.
  intros S L. destruct rl as [|y r]; cbn [append_item_rev]; [split; [now apply L|exact I]|]. destruct (merge_last y it) as [m|] eqn:E.
  - destruct (merge_kind _ _ _ E) as [K1 K2]. destruct S as [F S]. split; auto. destruct r as [|z r]; cbn in *; [now apply K1|now apply K2].
  - split; auto.
Qed.
Lemma settled_tail a b : settled (a ++ b) -> settled b.
Proof. induction a as [|x a IH]; auto. intros [_ S]. auto. Qed.

Fixpoint tmax (z : Z) (rl : list item) : Z := match rl with [] => z | x :: r => add_max_len (tmax z r) (item_max x) end.
Fixpoint tmin (z : Z) (rl : list item) : Z := match rl with [] => z | x :: r => (tmin z r + item_min x)%Z end.
Lemma add_max_swap a b c : add_max_len (add_max_len a b) c = add_max_len (add_max_len a c) b.
Proof.
  unfold add_max_len. destruct (-1 <? a)%Z eqn:Ea, (-1 <? b)%Z eqn:Eb, (-1 <? c)%Z eqn:Ec; cbn [andb]; rewrite ?Ea, ?Eb, ?Ec; try reflexivity;
    change (-1 <? -1)%Z with false; cbn [andb]; repeat match goal with |- context [(-1 <? ?x)%Z] => destruct (-1 <? x)%Z eqn:? end; cbn [andb]; lia.
Qed.
Lemma tmax_add rl : forall z k, (0 <= z)%Z -> (0 <= k)%Z -> tmax (z + k) rl = add_max_len (tmax z rl) k.
Proof.
  induction rl as [|x r IH]; intros z k Hz Hk; cbn [tmax].
  - unfold add_max_len. destruct ((-1 <? z)%Z && (-1 <? k)%Z) eqn:?; lia.
  - rewrite IH by auto. apply add_max_swap.
Qed.
Lemma tmin_add rl : forall z k, tmin (z + k) rl = (tmin z rl + k)%Z.
Proof. induction rl as [|x r IH]; intros z k; cbn [tmin]; [reflexivity|]. rewrite IH. lia. Qed.
Lemma lit_size it t : wfi true it -> lit_text it = Some t -> item_min it = zlen t /\ item_max it = zlen t.
Proof. intros W E. destruct (lit_text_spec true it t W E) as (_ & _ & A & C & _). auto. Qed.
Lemma zlen_nonneg (t : str) : (0 <= zlen t)%Z. Proof. unfold zlen. lia. Qed.
Lemma zlen_app2 (a b : str) : zlen (a ++ b) = (zlen a + zlen b)%Z. Proof. unfold zlen. rewrite app_length. lia. Qed.
Lemma append_size z rl it : Forall (wfi true) rl -> wfi true it ->
  tmin z (append_item_rev rl it) = (tmin z rl + item_min it)%Z /\ tmax z (append_item_rev rl it) = add_max_len (tmax z rl) (item_max it).
Proof.
  intros F W. destruct F as [|y r Wy F]; [split; reflexivity|]. cbn [append_item_rev]. destruct (merge_last y it) as [m|] eqn:E; [|split; reflexivity].
  cbn [tmin tmax]. destruct (merge_spec true y it m Wy W E) as (_ & _ & Mn & _). split; [lia|].
  assert (item_max m = add_max_len (item_max y) (item_max it) /\ (-1 <= item_max y)%Z /\ (-1 <= item_max it)%Z) as (-> & L1 & L2).
  { rewrite merge_last_lit in E. destruct (lit_text y) as [a|] eqn:Ea; [destruct (lit_text it) as [b|] eqn:Eb|].
    - injection E as <-. destruct (lit_size _ _ Wy Ea) as [_ ->]. destruct (lit_size _ _ W Eb) as [_ ->]. cbn [item_max]. rewrite zlen_app2.
      pose proof (zlen_nonneg a). pose proof (zlen_nonneg b). unfold add_max_len. destruct ((-1 <? zlen a)%Z && (-1 <? zlen b)%Z) eqn:?; lia.
    - destruct y, it; discriminate.
    - destruct y, it; try discriminate; injection E as <-; cbn [item_max]; unfold add_max_len; (split; [|lia]);
        repeat match goal with |- context [if ?c then _ else _] => destruct c eqn:? end; lia. }
  generalize (tmax z r) (item_max y) (item_max it). intros a b c. clear.
  unfold add_max_len. destruct (-1 <? a)%Z eqn:Ea, (-1 <? b)%Z eqn:Eb, (-1 <? c)%Z eqn:Ec; cbn [andb]; rewrite ?Ea, ?Eb, ?Ec; try reflexivity;
    change (-1 <? -1)%Z with false; cbn [andb]; repeat match goal with |- context [(-1 <? ?x)%Z] => destruct (-1 <? x)%Z eqn:? end; cbn [andb]; lia.
Qed.

Definition state_ok (zs : Z) (P : str) (mn mx : Z) (rl : list item) : Prop :=
  nometa P /\ Forall nice rl /\ settled rl /\ mn = tmin (zlen P + zs) rl /\ mx = tmax (zlen P + zs) rl.
Lemma nice_wfi rl : Forall nice rl -> Forall (wfi true) rl.
Proof. intro F. eapply Forall_impl; [|exact F]. intros a []. auto. Qed.
Lemma step_ok zs P mn mx rl it : (0 <= zs)%Z -> state_ok zs P mn mx rl -> nice it ->
  let '(P', mn', mx', rl') := parse_step (P, mn, mx, rl) it in state_ok zs P' mn' mx' rl'.
Proof.
  intros Hz (NP & F & S & En & Ex) N.
  assert (AP : (rl = [] -> lit_text it = None) -> state_ok zs P (mn + item_min it) (add_max_len mx (item_max it)) (append_item_rev rl it)).
  { intro L. destruct (append_size (zlen P + zs) rl it (nice_wfi _ F) (proj1 N)) as [Tn Tx]. repeat split; auto; [apply append_forall; auto; exact nice_merge|now apply settled_append|congruence|congruence]. }
  unfold parse_step. destruct rl as [|y r]; [|destruct it; apply AP; discriminate].
  destruct (lit_text it) as [t|] eqn:Et.
  - destruct (nice_lit _ _ N Et) as (_ & _ & Nt & _). destruct (lit_size _ _ (proj1 N) Et) as [Mn Mx].
    assert (state_ok zs (P ++ t) (mn + item_min it) (add_max_len mx (item_max it)) []) as R.
    { cbn [tmin tmax] in En, Ex. repeat split; auto; [now apply nometa_app| |]; cbn [tmin tmax]; rewrite zlen_app2, ?Mn, ?Mx; [lia|].
      pose proof (zlen_nonneg P). pose proof (zlen_nonneg t). unfold add_max_len. destruct ((-1 <? mx)%Z && (-1 <? zlen t)%Z) eqn:?; lia. }
    destruct it; try discriminate; injection Et as <-; exact R.
  - destruct it; try discriminate; apply AP; auto.
Qed.
Lemma loop_ok zs : (0 <= zs)%Z -> forall f t P mn mx rl P' mn' mx' rl', xk t -> t = [] \/ ends t -> state_ok zs P mn mx rl ->
  parse_loop f t (P, mn, mx, rl) = Ok (P', mn', mx', rl') -> state_ok zs P' mn' mx' rl'.
Proof.
  intro Hz. induction f as [|f IH]; intros t P mn mx rl P' mn' mx' rl' K En St H.
  { destruct t; [|discriminate]. now injection H as <- <- <- <-. }
  destruct t as [|c t]; [now injection H as <- <- <- <-|].
  cbn [parse_loop] in H. remember (c :: t) as s eqn:Es. assert (NE : s <> []) by (subst; discriminate). destruct En as [En|En]; [congruence|].
  destruct (next_wildcard_item s) as [[oi rest]|e| |] eqn:E; try discriminate. 
  pose proof (next_item_spec true _ s oi rest (proj1 (proj1 K)) (proj1 (proj2 (proj1 K))) NE E) as ((a & Na & Ea & _) & Tr & _).
  assert (Kr : xk rest) by (rewrite Ea in K; now apply xk_rest in K). assert (Er : rest = [] \/ ends rest) by (rewrite Ea in En; now apply ends_rest in En).
  destruct oi as [it|]; [|exact (IH _ _ _ _ _ _ _ _ _ Kr Er St H)].
  pose proof (step_ok zs P mn mx rl it Hz St (next_nice _ _ _ K En E)) as S1.
  destruct (parse_step (P, mn, mx, rl) it) as [[[p1 n1] x1] r1]. exact (IH _ _ _ _ _ _ _ _ _ Kr Er S1 H).
Qed.

(** the finished pieces *)
Definition pieces_ok (P S : str) (mn mx : Z) (rl : list item) : Prop :=
  nometa S /\ state_ok (zlen S) P mn mx rl /\ match rl with x :: _ => lit_text x = None | [] => True end.
Lemma suffix_ok P S mn mx rl S' rl' : nometa S -> state_ok (zlen S) P mn mx rl -> take_suffix S rl = (S', rl') -> pieces_ok P S' mn mx rl'.
Proof.
  intros NS St H. assert (St0 := St). destruct St as (NP & F & Se & En & Ex). unfold take_suffix in H.
  destruct rl as [|x [|y r]]; [injection H as <- <-; split; auto| |].
  - assert (lit_text x = None) by apply Se. destruct x; try discriminate; injection H as <- <-; split; auto.
  - destruct (lit_text x) as [t|] eqn:Et.
    + inversion F as [|? ? Nx F']; subst x0 l. destruct (nice_lit _ _ Nx Et) as (_ & _ & Nt & _). destruct (lit_size _ _ (proj1 Nx) Et) as [Mn Mx].
      assert (pieces_ok P (t ++ S) mn mx (y :: r)) as R.
      { split; [now apply nometa_app|]. destruct Se as [Fx Se]. split.
        - repeat split; auto; try apply Se; rewrite zlen_app2; (replace (zlen P + (zlen t + zlen S))%Z with (zlen P + zlen S + zlen t)%Z by lia).
          + rewrite tmin_add, En, <- Mn. reflexivity.
          + pose proof (zlen_nonneg P). pose proof (zlen_nonneg t). pose proof (zlen_nonneg S). rewrite tmax_add, Ex, <- Mx by lia. reflexivity.
        - cbn [fits] in Fx. rewrite merge_last_lit, Et in Fx. destruct (lit_text y); [discriminate|reflexivity]. }
      destruct x; try discriminate; injection H as <- <-; injection Et as <-; exact R.
    + destruct x; try discriminate; injection H as <- <-; split; auto.
Qed.

(** ** The second reading *)
Definition follows (it : item) (p : str) : Prop :=
  match lit_text it with
  | Some _ => exists c q, p = c :: q /\ In c metas
  | None => match it with IStar _ => forall q, p <> "*"%char :: q | _ => True end
  end.
Lemma lit_write it t : wfi true it -> lit_text it = Some t -> item_write it = t.
Proof. intros W Et. destruct it; try discriminate; injection Et as <-; auto. cbn in *. now rewrite string_of_byte_ascii. Qed.
Lemma step_new P mn mx rl it : fits rl it -> parse_step (P, mn, mx, rl) it = (P, (mn + item_min it)%Z, add_max_len mx (item_max it), it :: rl).
Proof.
  intro F. unfold parse_step. destruct rl as [|y r]; cbn [fits append_item_rev] in *.
  - destruct it; try discriminate; reflexivity.
  - rewrite F. destruct it; reflexivity.
Qed.
Lemma next_q p : next_wildcard_item ("?"%char :: p) = Ok (Some (IAny 1), p).
Proof. reflexivity. Qed.
Lemma loop_next f s it p st : s <> [] -> next_wildcard_item s = Ok (Some it, p) -> length s <= f -> length p < length s ->
  parse_loop f s st = parse_loop (length p) p (parse_step st it).
Proof.
  intros N E L Lp. destruct f as [|f]; [destruct s; [congruence|cbn in L; lia]|]. rewrite loop_unfold. destruct s as [|c s]; [congruence|]. rewrite E. cbn [bind step_opt].
  apply loop_fuel; cbn in *; lia.
Qed.
Lemma loop_any k : forall f p P mn mx rl n, length (repeat "?"%char k ++ p) <= f ->
  parse_loop f (repeat "?"%char k ++ p) (P, mn, mx, IAny n :: rl) = parse_loop (length p) p (P, (mn + Z.of_nat k)%Z, if Nat.eqb k 0 then mx else add_max_len mx (Z.of_nat k * 4), IAny (n + k) :: rl).
Proof.
  induction k as [|k IH]; intros f p P mn mx rl n L; cbn [repeat app] in *.
  - replace (mn + Z.of_nat 0)%Z with mn by lia. replace (n + 0) with n by lia. apply loop_fuel; auto.
  - rewrite (loop_next _ _ (IAny 1) (repeat "?"%char k ++ p)); auto; [|discriminate]. cbn [parse_step append_item_rev merge_last item_min item_max].
    rewrite IH by lia. f_equal. f_equal; [f_equal; [f_equal; lia|]|f_equal; f_equal; lia].
    clear IH L. change (Nat.eqb (S k) 0) with false. cbv iota. destruct (Nat.eqb_spec k 0) as [->|]; [f_equal; lia|]. unfold add_max_len. change (-1 <? Z.of_nat 1 * 4)%Z with true.
    destruct (-1 <? mx)%Z eqn:?; cbn [andb]; [|change (-1 <? -1)%Z with false; reflexivity].
    replace (-1 <? mx + Z.of_nat 1 * 4)%Z with true by lia. replace (-1 <? Z.of_nat k * 4)%Z with true by lia. replace (-1 <? Z.of_nat (S k) * 4)%Z with true by lia. cbn [andb]. lia.
Qed.
Lemma loop_star k : forall f p P mn rl n, length (repeat "?"%char k ++ p) <= f ->
  parse_loop f (repeat "?"%char k ++ p) (P, mn, (-1)%Z, IStar n :: rl) = parse_loop (length p) p (P, (mn + Z.of_nat k)%Z, (-1)%Z, IStar (n + k) :: rl).
Proof.
  induction k as [|k IH]; intros f p P mn rl n L; cbn [repeat app] in *.
  - replace (mn + Z.of_nat 0)%Z with mn by lia. replace (n + 0) with n by lia. apply loop_fuel; auto.
  - rewrite (loop_next _ _ (IAny 1) (repeat "?"%char k ++ p)); auto; [|discriminate]. cbn [parse_step append_item_rev merge_last item_min item_max].
    change (add_max_len (-1) (Z.of_nat 1 * 4)) with (-1)%Z. rewrite IH by lia. f_equal. f_equal; [f_equal; f_equal; lia|f_equal; f_equal; lia].
Qed.
Lemma add_max_star mx : add_max_len mx (-1) = (-1)%Z.
Proof. unfold add_max_len. now rewrite andb_false_r. Qed.
Lemma loop_item f it p P mn mx rl : nice it -> follows it p -> fits rl it -> length (item_write it ++ p) <= f ->
  parse_loop f (item_write it ++ p) (P, mn, mx, rl) = parse_loop (length p) p (P, (mn + item_min it)%Z, add_max_len mx (item_max it), it :: rl).
Proof.
  intros N Fo Fi L. destruct (lit_text it) as [t|] eqn:Et.
  - destruct (nice_lit _ _ N Et) as (Nt & Ct & Mt & Es). unfold follows in Fo. rewrite Et in Fo. destruct Fo as (c & q & -> & Mc).
    rewrite (lit_write it t) in * by (auto; apply N). rewrite (loop_next _ _ it (c :: q)); auto.
    + now rewrite step_new.
    + destruct t; [congruence|discriminate].
    + rewrite next_text by auto. now rewrite Es.
    + rewrite app_length. destruct t; [congruence|]. cbn. lia.
  - unfold follows in Fo. rewrite Et in Fo. assert (Wh : whole it -> parse_loop f (item_write it ++ p) (P, mn, mx, rl) = parse_loop (length p) p (P, (mn + item_min it)%Z, add_max_len mx (item_max it), it :: rl)).
    { intros [(c & M & d & Ew & _) Nx]. rewrite (loop_next _ _ it p); auto; [now rewrite step_new|rewrite Ew; discriminate|]. rewrite Ew, app_length. cbn. lia. }
    destruct N as [W N]. destruct it; try discriminate; auto.
    + cbn in N. destruct n as [|n]; [lia|]. cbn [item_write repeat app] in *. rewrite (loop_next _ _ (IAny 1) (repeat "?"%char n ++ p)); auto; [|discriminate].
      rewrite step_new by (destruct rl as [|y r]; auto; cbn in *; destruct y; auto; discriminate). rewrite loop_any by lia. cbn [item_min item_max].
      f_equal. f_equal. f_equal; [f_equal; lia|]. destruct (Nat.eqb_spec n 0) as [->|]; [reflexivity|].
      unfold add_max_len. change (-1 <? Z.of_nat 1 * 4)%Z with true. destruct (-1 <? mx)%Z eqn:?; cbn [andb]; [|change (-1 <? -1)%Z with false; reflexivity].
      replace (-1 <? mx + Z.of_nat 1 * 4)%Z with true by lia. replace (-1 <? Z.of_nat n * 4)%Z with true by lia. replace (-1 <? Z.of_nat (S n) * 4)%Z with true by lia. cbn [andb]. lia.
    + cbn [item_write app] in *. rewrite (loop_next _ _ (IStar 0) (repeat "?"%char n ++ p)); auto.
      * rewrite step_new by (destruct rl as [|y r]; auto; cbn in *; destruct y; auto; discriminate). cbn [item_min item_max]. rewrite add_max_star, loop_star by (cbn [length] in L; lia).
        f_equal. f_equal. f_equal. f_equal. lia.
      * discriminate.
      * apply (next_stars 0). destruct n as [|n]; [exact Fo|]. intros q E. discriminate.
Qed.

Lemma item_head it : nice it -> lit_text it = None -> exists c q, item_write it = c :: q /\ In c metas /\ (c = "*"%char -> exists n, it = IStar n).
Proof.
  intros [W N] E. assert (Wh : whole it -> exists c q, item_write it = c :: q /\ In c metas /\ (c = "*"%char -> exists n, it = IStar n)).
  { intros [(c & M & d & Ew & Mc & Nc & _) _]. exists c, (M ++ [d]). repeat split; auto. congruence. }
  destruct it; try discriminate; auto.
  - cbn in N. destruct n as [|n]; [lia|]. exists "?"%char, (repeat "?"%char n). repeat split; [cbn; tauto|discriminate].
  - exists "*"%char, (repeat "?"%char n). repeat split; [cbn; tauto|eauto].
Qed.
Lemma item_tail it : nice it -> lit_text it = None -> exists q d, item_write it = q ++ [d] /\ In d metas.
Proof.
  intros [W N] E. assert (Wh : whole it -> exists q d, item_write it = q ++ [d] /\ In d metas).
  { intros [(c & M & d & Ew & Mc & _ & _ & Md) _]. exists (c :: M), d. auto. }
  destruct it; try discriminate; auto.
  - cbn in N. destruct n as [|n]; [lia|]. destruct (mark_end (IAny (S n))) as (p & c & Ec & K); [eauto|]. exists p, c. split; auto. destruct K as [->| ->]; cbn; tauto.
  - destruct (mark_end (IStar n)) as (p & c & Ec & K); [eauto|]. exists p, c. split; auto. destruct K as [->| ->]; cbn; tauto.
Qed.
Lemma item_follows it j rest : nice it -> nice j -> merge_last it j = None -> follows it (item_write j ++ rest).
Proof.
  intros N Nj M. unfold follows. destruct (lit_text it) as [t|] eqn:Et.
  - destruct (lit_text j) as [t'|] eqn:Ej; [rewrite merge_last_lit, Et, Ej in M; discriminate|].
    destruct (item_head j Nj Ej) as (c & q & -> & Mc & _). exists c, (q ++ rest). auto.
  - destruct it; auto. intros q E. destruct (lit_text j) as [t'|] eqn:Ej.
    + destruct (nice_lit _ _ Nj Ej) as (Nt & _ & Mt & _). rewrite (lit_write j t') in E by (auto; apply Nj). destruct t' as [|c t']; [congruence|]. injection E as -> _.
      apply (Mt "*"%char); [now left|]. cbn. tauto.
    + destruct (item_head j Nj Ej) as (c & q' & Ew & Mc & St). rewrite Ew in E. injection E as -> _. destruct St as (k & ->); auto. discriminate.
Qed.
Lemma loop_items : forall its f P mn mx rl, Forall nice its -> settled (rev its ++ rl) -> (forall a x, its = a ++ [x] -> lit_text x = None) ->
  length (concat (map item_write its)) <= f ->
  parse_loop f (concat (map item_write its)) (P, mn, mx, rl) = Ok (P, tmin mn (rev its), tmax mx (rev its), rev its ++ rl).
Proof.
  assert (TN : forall l z x, tmin z (l ++ [x]) = tmin (z + item_min x) l) by (induction l as [|y l IH]; intros; cbn [app tmin]; [reflexivity|now rewrite IH]).
  assert (TX : forall l z x, tmax z (l ++ [x]) = tmax (add_max_len z (item_max x)) l) by (induction l as [|y l IH]; intros; cbn [app tmax]; [reflexivity|now rewrite IH]).
  induction its as [|it its IH]; intros f P mn mx rl F S La L; [destruct f; reflexivity|].
  inversion F as [|? ? N F']; subst x l. cbn [map concat rev] in *. rewrite <- app_assoc in S. cbn [app] in S.
  assert (Fi : fits rl it) by (apply settled_tail in S; apply S).
  rewrite loop_item; auto.
  - rewrite IH; auto; [|intros a x ->; apply (La (it :: a)); reflexivity]. now rewrite TN, TX, <- app_assoc.
  - destruct its as [|j its]; [|apply item_follows; auto; [now inversion F'|]].
    + cbn. unfold follows. rewrite (La [] it eq_refl). destruct it; auto. intros q E. discriminate.
    + cbn [rev] in S. rewrite <- app_assoc in S. apply settled_tail in S. apply S.
Qed.

Lemma parse_cut1 P S c : nometa P -> nometa S -> c = "*"%char \/ c = "?"%char ->
  glob_parse (P ++ [c] ++ S) = Ok (if Ascii.eqb c "*" then finish_glob (P ++ [c] ++ S) P S (zlen P + zlen S) (-1) [IStar 0]
    else finish_glob (P ++ [c] ++ S) P S (zlen P + zlen S + 1) (add_max_len (zlen P + zlen S) 4) [IAny 1]).
Proof.
  intros NP NS Cc. assert (Mc : In c metas) by (destruct Cc as [->| ->]; cbn; tauto). unfold glob_parse.
  assert (I : index_wildcard (P ++ [c] ++ S) = Some (length P)).
  { apply find_byte_some. rewrite !app_length. cbn [length app]. split; [lia|]. split.
    - rewrite app_nth2, Nat.sub_diag by lia. cbn. now apply is_wild_iff.
    - intros j L. rewrite app_nth1 by lia. apply meta_wild, NP, nth_In, L. }
  rewrite I. rewrite firstn_app, skipn_app, firstn_all, skipn_all, Nat.sub_diag. cbn [firstn skipn]. rewrite app_nil_r. cbn [app].
  assert (L : index_last_wildcard (c :: S) = Some 0).
  { unfold index_last_wildcard. apply (find_last_app is_wild [] S c); [now apply is_wild_iff|]. intros x Ix. now apply meta_wild, NS. }
  rewrite L. cbn [nth]. replace (Nat.eqb 0 0 && negb (Ascii.eqb c "?") && negb (Ascii.eqb c "*")) with false by (destruct Cc as [->| ->]; reflexivity).
  assert (C : (if (0 <? length (c :: S) - 1) then (skipn 1 (c :: S), firstn 1 (c :: S)) else ([], c :: S)) = (S, [c])).
  { cbn [length skipn firstn]. destruct S as [|s S]; [reflexivity|]. reflexivity. }
  match goal with |- context [if ?b then ?x else ?y] => change (if b then x else y) with (if (0 <? length (c :: S) - 1) then (skipn 1 (c :: S), firstn 1 (c :: S)) else ([], c :: S)) end. rewrite C. destruct Cc as [->| ->]; reflexivity.
Qed.

Lemma same_finish g g' P S mn mx its : same_parse (Ok (finish_glob g P S mn mx its)) (Ok (finish_glob g' P S mn mx its)).
Proof. destruct its; cbn; tauto. Qed.
Lemma reread g P S mn mx rl : pieces_ok P S mn mx rl -> same_parse (glob_parse (P ++ concat (map item_write (rev rl)) ++ S)) (Ok (finish_glob g P S mn mx (rev rl))).
Proof.
  intros (NS & (NP & F & Se & En & Ex) & Hd).
  destruct rl as [|x0 rl0] eqn:Er.
  - cbn [rev map concat app]. unfold glob_parse. assert (index_wildcard (P ++ S) = None) as ->.
    { unfold index_wildcard. apply find_byte_none. intros c I. apply meta_wild. apply (nometa_app P S NP NS c I). }
    cbn in En, Ex. subst mn mx. cbn. rewrite zlen_app2. tauto.
  - rewrite <- Er in *. assert (Nr : rl <> []) by (subst; discriminate). assert (Lx : lit_text x0 = None) by exact Hd. clear Hd.
    assert (Fr : Forall nice (rev rl)) by (now apply Forall_rev).
    assert (Ho : exists it its, rev rl = it :: its /\ lit_text it = None).
    { destruct (rev rl) as [|it its] eqn:E; [apply (f_equal (@rev item)) in E; rewrite rev_involutive in E; subst; discriminate|].
      exists it, its. split; auto. assert (rl = rev its ++ [it]) as X by (rewrite <- (rev_involutive rl), E; reflexivity). rewrite X in Se. apply settled_tail in Se. apply Se. }
    destruct Ho as (it & its & Eh & Li). assert (Ni : nice it) by (rewrite Eh in Fr; now inversion Fr). assert (Nx : nice x0) by (rewrite Er in F; now inversion F).
    destruct (item_head _ Ni Li) as (c & q & Ewc & Mc & _). destruct (item_tail _ Nx Lx) as (q' & d & Ewd & Md).
    assert (Eb : concat (map item_write (rev rl)) = c :: q ++ concat (map item_write its)) by (rewrite Eh; cbn [map concat]; now rewrite Ewc).
    assert (Eb' : concat (map item_write (rev rl)) = (concat (map item_write (rev rl0)) ++ q') ++ [d]) by (rewrite Er; cbn [rev]; rewrite map_app, concat_app; cbn [map concat]; rewrite app_nil_r, Ewd; now rewrite app_assoc).
    assert (LI : forall f, length (concat (map item_write (rev rl))) <= f -> parse_loop f (concat (map item_write (rev rl))) (P, (zlen P + zlen S)%Z, (zlen P + zlen S)%Z, []) = Ok (P, mn, mx, rl)).
    { intros f L. rewrite (loop_items (rev rl)); auto.
      - rewrite rev_involutive, app_nil_r. now rewrite En, Ex.
      - rewrite rev_involutive, app_nil_r. exact Se.
      - intros a x E. rewrite Er in E. cbn [rev] in E. apply app_inj_tail in E as [_ <-]. exact Lx. }
    destruct (q ++ concat (map item_write its)) as [|e M] eqn:Eq.
    + (* one byte *)
      assert (Hc : (c = "*"%char /\ it = IStar 0 \/ c = "?"%char /\ it = IAny 1) /\ its = []).
      { apply app_eq_nil in Eq as [-> Eq]. split.
        - assert (Wh : whole it -> False) by (intros [(c1 & M & d1 & Ew & _) _]; rewrite Ew in Ewc; injection Ewc as _ Ewc; destruct M; discriminate).
          destruct Ni as [Wi Ni]. destruct it; try discriminate; try (now elim Wh); cbn [item_write] in Ewc.
          + right. destruct n as [|[|n]]; try discriminate. now injection Ewc as <-.
          + left. destruct n as [|n]; try discriminate. now injection Ewc as <-.
        - destruct its as [|j its]; auto. exfalso. cbn [map concat] in Eq. apply app_eq_nil in Eq as [Eq _]. inversion Fr as [|? ? _ Fr']; [congruence|]. subst.
          rewrite Eh in Fr. inversion Fr as [|? ? _ Fr2]; subst. inversion Fr2 as [|? ? Nj _]; subst. destruct (lit_text j) as [t|] eqn:Ej.
          + destruct (nice_lit _ _ Nj Ej) as (Nt & _). rewrite (lit_write j t) in Eq by (auto; apply Nj). auto.
          + destruct (item_head _ Nj Ej) as (? & ? & Ew & _). rewrite Ew in Eq. discriminate. }
      destruct Hc as [Hc ->]. rewrite Eb. rewrite parse_cut1; auto; [|tauto].
      assert (rl = [it]) as -> by (rewrite <- (rev_involutive rl), Eh; reflexivity). cbn in En, Ex. subst mn mx.
      destruct Hc as [[-> ->]|[-> ->]]; cbn [Ascii.eqb Bool.eqb rev app item_min item_max].
      * replace (zlen P + zlen S + Z.of_nat 0)%Z with (zlen P + zlen S)%Z by lia. rewrite add_max_star. apply same_finish.
      * apply same_finish.
    + assert (exists M0, concat (map item_write (rev rl)) = c :: M0 ++ [d]) as (M0 & EB).
      { destruct (concat (map item_write (rev rl0)) ++ q') as [|y M0]; [rewrite Eb in Eb'; discriminate|]. exists M0. rewrite Eb'. rewrite Eb in Eb'. injection Eb' as <- _. reflexivity. }
      rewrite EB in *. rewrite parse_cut by auto. rewrite LI by auto. cbn [bind].
      assert (take_suffix S rl = (S, rl)) as ->.
      { rewrite Er. destruct x0; try discriminate; destruct rl0; reflexivity. }
      apply same_finish.
Qed.

Lemma first_pieces g gl : xk g -> glob_parse g = Ok gl -> exists P S mn mx rl, gl = finish_glob g P S mn mx (rev rl) /\ pieces_ok P S mn mx rl.
Proof.
  intros K H. pose proof K as ((T & P & Q & ND) & NC & NL).
  unfold glob_parse in H. destruct (index_wildcard g) as [pos|] eqn:Ei.
  - apply find_cut in Ei as (prefix & c & b0 & Eg & L & Pc & N).
    assert (F : firstn pos g = prefix /\ skipn pos g = c :: b0).
    { subst pos. rewrite Eg, firstn_app, skipn_app, firstn_all, skipn_all, Nat.sub_diag. cbn. now rewrite app_nil_r. }
    destruct F as [F1 F2]. rewrite F1, F2 in H. clear F1 F2 L pos.
    destruct (index_last_wildcard (c :: b0)) as [e|] eqn:Ee; [|discriminate].
    apply find_last_cut in Ee as (b1 & c' & suffix & Eb & L & Pc' & N').
    destruct (Nat.eqb e 0 && negb (Ascii.eqb (nth 0 (c :: b0) zero) "?") && negb (Ascii.eqb (nth 0 (c :: b0) zero) "*")); [discriminate|].
    assert (F : (if (e <? length (c :: b0) - 1)%nat then (skipn (S e) (c :: b0), firstn (S e) (c :: b0)) else ([], c :: b0)) = (suffix, b1 ++ [c'])).
    { rewrite Eb. subst e. destruct (cut_firstn b1 c' suffix) as [-> ->]. rewrite app_length. cbn [length].
      destruct (length b1 <? length b1 + S (length suffix) - 1)%nat eqn:E1; auto. destruct suffix; [reflexivity|cbn [length] in E1; lia]. }
    rewrite F in H. clear F L e. assert (Eg' : g = prefix ++ (b1 ++ [c']) ++ suffix) by (rewrite Eg, Eb, <- app_assoc; reflexivity).
    assert (Tp : tok true prefix /\ tok true (c :: b0)). { rewrite Eg in T. apply tok_app in T; auto. apply bnd_ascii, metas_ascii, is_wild_iff, Pc. }
    destruct Tp as [Tp Tb]. rewrite Eb in Tb. assert (Ac : (code c' < 128)%N) by apply metas_ascii, is_wild_iff, Pc'.
    assert (Tm : tok true (b1 ++ [c'])).
    { destruct (tok_mid true c' b1 suffix Ac Tb) as [T1 T2]. destruct T1 as (C1 & Z1 & A1). split; [|split].
      - apply clean_app; auto. now apply clean_byte.
      - destruct Tb as (_ & Z & _). intro I. apply Z. apply in_app_or in I. apply in_or_app. destruct I as [I|[->|[]]]; [now left|right; now left].
      - discriminate. }
    assert (Kb : xk (b1 ++ [c'])).
    { rewrite Eg' in P, Q, ND, NC, NL. split; [|split; [now apply neat_classes_part in NC|now apply neat_lists_part in NL]].
      split; auto. split; [now apply plain_part in P|]. split; [now apply plain_classes_part in Q|]. intro I. apply ND. apply in_or_app. right. apply in_or_app. now left. }
    assert (Dp : nometa prefix) by (intros d I M; apply is_wild_iff in M; apply N in I; congruence).
    assert (Ds : nometa suffix) by (intros d I M; apply is_wild_iff in M; apply N' in I; congruence).
    assert (En : ends (b1 ++ [c'])) by (exists b1, c'; split; auto; now apply is_wild_iff).
    remember (b1 ++ [c']) as body eqn:Ebd. clear Ebd.
    destruct (str_eqb_spec body (B "*")) as [Eq|Ns1].
    { apply ok_inj in H. exists prefix, suffix, (zlen prefix + zlen suffix)%Z, (-1)%Z, [IStar 0]. split; [now symmetry|]. split; auto. split; [|reflexivity].
      repeat split; auto; [repeat constructor; apply nice_star|cbn; lia|]. cbn. now rewrite add_max_star. }
    destruct (str_eqb_spec body (B "?")) as [Eq|Ns2].
    { apply ok_inj in H. exists prefix, suffix, (zlen prefix + zlen suffix + 1)%Z, (add_max_len (zlen prefix + zlen suffix) 4)%Z, [IAny 1]. split; [now symmetry|]. split; auto. split; [|reflexivity].
      repeat split; auto. repeat constructor; now apply nice_any. }
    destruct (parse_loop (length body) body (prefix, (zlen prefix + zlen suffix)%Z, (zlen prefix + zlen suffix)%Z, [])) as [[[[p1 n1] x1] r1]|e| |] eqn:El; try discriminate.
    cbn [bind] in H. destruct (take_suffix suffix r1) as [s2 r2] eqn:Et. apply ok_inj in H.
    apply (loop_ok (zlen suffix)) in El; auto; [|apply zlen_nonneg|repeat split; auto]. 
    apply suffix_ok with (P := p1) (mn := n1) (mx := x1) in Et; auto. exists p1, s2, n1, x1, r2. auto.
  - apply ok_inj in H. exists g, [], (zlen g), (zlen g), []. split; [rewrite <- H; cbn; now rewrite app_nil_r|]. split; [easy|]. split; [|exact I].
    unfold index_wildcard in Ei. rewrite find_byte_none in Ei. repeat split; auto; [|cbn; lia|cbn; lia]. intros d J M. apply is_wild_iff in M. apply Ei in J. congruence.
Qed.

Lemma parse_again g gl : xk g -> glob_parse g = Ok gl -> same_parse (glob_parse (g_node gl)) (Ok gl).
Proof.
  intros K H. destruct (first_pieces g gl K H) as (P & S & mn & mx & rl & -> & Pk). rewrite finish_node. now apply reread.
Qed.
