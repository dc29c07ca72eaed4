(** The canonical text of a parsed glob denotes what the parsed text denotes. *)
From Verif Require Import Model.Glob Spec.Symbols Spec.Lang Spec.Safe Spec.Class Spec.GlobSpec.
From Verif Require Import Proof.Utf8P Proof.ItemP Proof.AsciiSetP Proof.ClassSearchP Proof.Utf8P Proof.SymbolsP Proof.RangesP Proof.ClassPrintP Proof.RangesTop Proof.LangP Proof.SortP Proof.ListP Proof.DenotesP Proof.ParseP Proof.NextP Proof.GlobP Proof.SafeP Proof.PanicP.
From Coq Require Import Lia ZifyBool ZifyN ZifyNat.

Lemma dashes_cut (c : rune) ds : Forall is_dash ds -> forall ds', Forall is_dash ds' -> forall d t d' t', d <> dash -> d' <> dash ->
  ds ++ d :: t = ds' ++ d' :: t' -> ds = ds' /\ d = d' /\ t = t'.
Proof.
  induction 1 as [|x ds X F IH]; intros ds' F' d t d' t' N N' E.
  - destruct F' as [|y ds' Y F']; cbn in E; injection E as -> ->; auto. now elim N.
  - destruct F' as [|y ds' Y F']; cbn in E.
    + injection E as -> E. now elim N'.
    + injection E as -> E. apply IH in E as (-> & -> & ->); auto.
Qed.

Lemma dashes_only ds : Forall is_dash ds -> forall ds' d t, Forall is_dash ds' -> d <> dash -> ds <> ds' ++ d :: t.
Proof. intros F ds' d t F' N ->. apply Forall_app in F as [_ F]. inversion F; subst. now elim N. Qed.

Lemma pairs_dashes ds : Forall is_dash ds -> forall ps, class_pairs ds ps -> ps = [].
Proof.
  induction 1 as [|x ds X F IH]; intros ps P.
  - now inversion P.
  - red in X. subst x. remember (dash :: ds) as l eqn:E. destruct P; try (injection E as <- ?; now elim H); try (injection E as -> ?; now elim H); try discriminate.
    injection E as ->. auto.
Qed.

Lemma class_pairs_fun l ps : class_pairs l ps -> forall ps', class_pairs l ps' -> ps = ps'.
Proof.
  induction 1 as [|t ps CP IH|c t ps D H CP IH|c ds D H|c ds d t ps D NE H D' CP IH]; intros ps' P.
  - now inversion P.
  - remember (dash :: t) as l eqn:E. destruct P; try discriminate; injection E; intros; subst; try congruence. auto.
  - remember (c :: t) as l eqn:E. destruct P as [|t' ps' P|c' t' ps' D2 H2 P|c' ds2 D2 H2|c' ds2 d2 t2 ps' D2 NE2 H2 D2' P]; try discriminate; injection E; intros; subst; try congruence.
    + f_equal. auto.
    + destruct H2 as [|x ds2 X F]; [inversion CP; congruence|]. exfalso. now apply (H x ds2 eq_refl).
    + destruct H2 as [|x ds2 X F]; [congruence|]. exfalso. now apply (H x (ds2 ++ d2 :: t2) eq_refl).
  - remember (c :: ds) as l eqn:E. destruct P as [|t' ps' P|c' t' ps' D2 H2 P|c' ds2 D2 H2|c' ds2 d2 t2 ps' D2 NE2 H2 D2' P]; try discriminate; injection E; intros; subst; try congruence.
    + f_equal. destruct H as [|x ds2 X F]; [now inversion P|]. exfalso. now apply (H2 x ds2 eq_refl).
    + exfalso. now apply (dashes_only _ H ds2 d2 t2).
  - remember (c :: ds ++ d :: t) as l eqn:E. destruct P as [|t' ps' P|c' t' ps' D2 H2 P|c' ds2 D2 H2|c' ds2 d2 t2 ps' D2 NE2 H2 D2' P]; try discriminate; injection E; intros; subst; try congruence.
    + exfalso. destruct H as [|x ds2 X F]; [congruence|]. now apply (H2 x (ds2 ++ d :: t) eq_refl).
    + exfalso. now apply (dashes_only _ H2 ds d t).
    + apply (dashes_cut c) in H0 as (-> & -> & ->); auto. f_equal. auto.
Qed.

Lemma encode_all_inj a : forall b, Forall scalar a -> Forall scalar b -> encode_all a = encode_all b -> a = b.
Proof.
  induction a as [|x a IH]; intros b Fa Fb E.
  - destruct b as [|y b]; auto. exfalso. inversion Fb; subst. rewrite encode_all_cons in E.
    destruct (encode_head y) as (h & tl & Eh & _); [apply H1|]. rewrite Eh in E. discriminate.
  - inversion Fa; subst. destruct b as [|y b].
    + exfalso. rewrite encode_all_cons in E. destruct (encode_head x) as (h & tl & Eh & _); [apply H1|]. rewrite Eh in E. discriminate.
    + inversion Fb; subst. rewrite !encode_all_cons in E. apply encode_app_inj in E as [-> E]; [|apply H1|apply H3]. f_equal. auto.
Qed.

Lemma in_class_pairs l ps r : Forall scalar l -> class_pairs l ps -> (in_class (encode_all l) r <-> in_pairs r ps).
Proof.
  intros F P. split.
  - intros (l' & ps' & F' & E & P' & I). apply encode_all_inj in E; auto. subst l'. now rewrite (class_pairs_fun _ _ P _ P').
  - intro I. now exists l, ps.
Qed.

Lemma pairs_ends l ps a b : class_pairs l ps -> In (a, b) ps -> In a l /\ In b l /\ a <> dash /\ b <> dash.
Proof.
  intro CP. induction CP as [|t ps CP IH|c t ps D H CP IH|c ds D H|c ds d t ps D NE H D' CP IH]; intro I.
  - easy.
  - apply IH in I. cbn. tauto.
  - destruct I as [[= -> ->]|I]; [cbn; tauto|]. apply IH in I. cbn. tauto.
  - destruct I as [[= -> ->]|[]]. cbn. tauto.
  - destruct I as [[= -> ->]|I].
    + repeat split; auto; [now left|]. right. apply in_or_app. right. now left.
    + apply IH in I as (I1 & I2 & I3). repeat split; try apply I3; right; apply in_or_app; right; now right.
Qed.

Lemma in_encode_ascii l c : Forall scalar l -> (code c < 128)%N -> (In c (encode_all l) <-> In (code c) l).
Proof.
  intros F L. unfold encode_all. rewrite in_concat. split.
  - intros (x & I & J). apply in_map_iff in I as (r & <- & I). rewrite Forall_forall in F. specialize (F r I).
    destruct (encode_head r (proj1 F)) as (h & tl & Eh & [(Lr & Ec & ->)|(T & Lh)]).
    + rewrite Eh in J. destruct J as [<-|[]]. now rewrite Ec.
    + exfalso. destruct (encode_shape r) as (h' & tl' & E' & _ & Ct). rewrite E' in Eh. injection Eh as -> ->. rewrite E' in J.
      destruct J as [<-|J]; [lia|]. rewrite forallb_forall in Ct. apply Ct in J. unfold is_cont in J. lia.
  - intro I. exists (encode_rune (code c)). split; [now apply in_map|]. rewrite string_byte_ascii; auto. now left.
Qed.

Lemma in_pr r ps : In r (concat (map pr ps)) -> r = dash \/ exists p, In p ps /\ (r = fst p \/ r = snd p).
Proof.
  intro I. apply in_concat in I as (x & I & J). apply in_map_iff in I as (p & <- & I). unfold pr in J.
  destruct (fst p =? snd p)%N; cbn in J; intuition eauto.
Qed.

Lemma code_inj c d : code c = code d -> c = d.
Proof. intro E. rewrite <- (byte_of_code c), <- (byte_of_code d). now rewrite E. Qed.

(** The printed class has the members of the class that was read, and is written with its characters. *)
Lemma class_write body rs : clean body -> ~ In zero body -> ~ In (byte_of 127) body -> ranges_expand (bracketed body) = Some rs ->
  exists body2, rr_write rs = bracketed body2 /\ (forall r, in_class body2 r <-> in_class body r) /\
    forall c, (code c < 128)%N -> c <> "-"%char -> In c body2 -> In c body.
Proof.
  intros C NZ ND E. destruct (ranges_expand_ok _ _ C E) as (Fin & Sz & (l0 & ps0 & F0 & Eb0 & CP0 & G0) & D).
  pose proof (expand_ends _ _ C E) as EE.
  destruct C as (l & F & ->). apply encode_all_inj in Eb0; auto. subst l0.
  assert (D' : forall r, mem rs r <-> in_pairs r ps0) by (intro r; rewrite <- (in_class_pairs l ps0 r F CP0), <- D; symmetry; now apply fin_contains).
  pose proof (pairs_scalar _ _ CP0 F) as PS. 
  assert (PE : forall a b, In (a, b) ps0 -> In a l /\ In b l /\ a <> dash /\ b <> dash /\ good_pair (a, b)).
  { intros a b I. destruct (pairs_ends _ _ _ _ CP0 I) as (I1 & I2 & I3 & I4). rewrite Forall_forall in G0. specialize (G0 _ I). tauto. }
  assert (NP : forall a b, In (a, b) ps0 -> (a <> 0 /\ b <> 0 /\ a <> 127 /\ b <> 127)%N).
  { intros a b I. destruct (PE a b I) as (I1 & I2 & _).
    assert (N0 : ~ In 0%N l). { intro X. apply NZ. apply in_encode_ascii; auto. now vm_compute. }
    assert (N7 : ~ In 127%N l). { intro X. apply ND. apply in_encode_ascii; auto. now vm_compute. }
    repeat split; intros ->; auto. }
  assert (GP : forall a b, In (a, b) ps0 -> (a <= b /\ (a < 128 <-> b < 128))%N).
  { intros a b I. destruct (PE a b I) as (I1 & I2 & _ & _ & G1 & G2). cbn [fst snd] in *. split; auto.
    rewrite Forall_forall in PS. destruct (PS _ I) as [Sa Sb]. cbn [fst snd] in Sa, Sb.
    assert (LE : forall r, scalar r -> length (encode_rune r) = 1 <-> (r < 128)%N).
    { intros r Sr. pose proof (encode_len_valid r (proj1 Sr)) as X. unfold rune_len in X. destruct Sr as [V _]. unfold valid_rune in V.
      destruct (r <? 0)%N eqn:?; repeat match type of X with context [if ?c then _ else _] => destruct c eqn:? end; lia. }
    rewrite <- (LE a Sa), <- (LE b Sb). lia. }
  destruct Fin as (AO & UO & SO).
  assert (M : forall c, (c < 128)%N -> (as_contains (rr_ascii rs) (byte_of c) = true <-> in_pairs c ps0)).
  { intros c L. rewrite <- D'. unfold mem. replace (c <=? 127)%N with true by lia. reflexivity. }
  assert (PO : print_ok (rr_ascii rs)).
  { split; [|split].
    - destruct (as_contains (rr_ascii rs) zero) eqn:X; auto. exfalso. change zero with (byte_of 0) in X. apply M in X; [|lia].
      destruct X as (a & b & I & L). apply NP in I. lia.
    - destruct (as_contains (rr_ascii rs) (byte_of 127)) eqn:X; auto. exfalso. apply M in X; [|lia].
      destruct X as (a & b & I & L). pose proof (NP _ _ I). pose proof (GP _ _ I). lia.
    - intro X. change "-"%char with (byte_of 45) in X. apply M in X; [|lia]. destruct X as (a & b & I & L).
      destruct (PE _ _ I) as (_ & _ & N1 & N2 & _). unfold dash in *.
      split; [change ","%char with (byte_of 44)|change "."%char with (byte_of 46)]; apply M; try lia; exists a, b; split; auto; lia. }
  destruct (rr_write_pairs rs AO PO) as (rl & RF & RI & RW).
  set (PS2 := rl ++ map upair (rr_unicode rs)) in *. set (L2 := concat (map pr PS2)) in *.
  assert (UE : forall p, In p (map upair (rr_unicode rs)) -> scalar (fst p) /\ scalar (snd p) /\ (127 < fst p <= snd p)%N).
  { intros p I. apply in_map_iff in I as (q & <- & I). rewrite Forall_forall in EE, UO. specialize (EE _ I). specialize (UO _ I). unfold range_ok in UO. cbn. tauto. }
  assert (RE : forall p, In p rl -> In (fst p) l /\ In (snd p) l /\ fst p <> dash /\ snd p <> dash).
  { intros p I. rewrite Forall_forall in RF. destruct (RF _ I) as ((R1 & R2) & R3 & R4 & R5 & R6). 
    assert (R7 := R4 (snd p) ltac:(lia)). assert (R8 := R4 (fst p) ltac:(lia)).
    apply M in R7, R8; try lia. destruct R7 as (a & b & Iab & Lab). destruct R8 as (a' & b' & Iab' & Lab').
    assert (snd p = b). { destruct (N.eq_dec (snd p) b) as [|Nb]; auto. exfalso. apply R6. apply M; [lia|]. exists a, b. split; auto. lia. }
    assert (fst p = a'). { destruct (N.eq_dec (fst p) a') as [|Nb]; auto. exfalso. destruct R5 as [R5|R5]; [pose proof (NP _ _ Iab'); lia|].
      apply R5. apply M; [lia|]. exists a', b'. split; auto. lia. }
    apply PE in Iab, Iab'. subst. intuition congruence. }
  assert (NDs : Forall no_dash PS2).
  { apply Forall_forall. intros p I. apply in_app_or in I as [I|I]; split; try apply (RE p I); apply UE in I; unfold dash; lia. }
  assert (SL : Forall scalar L2).
  { apply Forall_forall. intros r I. apply in_pr in I as [->|(p & I & O)].
    - split; [reflexivity|]. unfold dash, RuneError. lia.
    - rewrite Forall_forall in F. apply in_app_or in I as [I|I]; [apply RE in I|apply UE in I]; destruct O; subst r; try tauto; apply F; tauto. }
  exists (encode_all L2). split; [exact RW|]. split.
  - intro r. rewrite (in_class_pairs L2 PS2 r SL (class_pairs_pr _ NDs)), (in_class_pairs l ps0 r F CP0), <- D'.
    unfold PS2. rewrite in_pairs_app, in_pairs_upair. unfold mem. destruct (r <=? 127)%N eqn:Lr.
    + rewrite RI by lia. split; [intros [X|(q & Iq & X)]; auto|auto]. exfalso. rewrite Forall_forall in UO. specialize (UO _ Iq). unfold range_ok in UO. unfold MergeP.in_range in X. lia.
    + split; [intros [(a & b & I & X)|X]; auto|auto]. exfalso. rewrite Forall_forall in RF. destruct (RF _ I) as ((R1 & R2) & R3 & _). cbn [fst snd] in *. lia.
  - intros c Lc Nc I. apply in_encode_ascii in I; auto. apply in_encode_ascii; auto. apply in_pr in I as [I|(p & I & O)].
    + exfalso. apply Nc. apply code_inj. exact I.
    + apply in_app_or in I as [I|I]; [apply RE in I; destruct O as [-> | ->]; tauto|]. apply UE in I. lia.
Qed.

(** The printed text of an item denotes what the item accepts. *)
Definition dw (it : item) : Prop :=
  forall q w, denotes (item_write it ++ q) w <-> exists w1 w2, w = w1 ++ w2 /\ den it w1 /\ denotes q w2.
Definition dl (t : str) : Prop := clean t /\ forall q w, denotes (t ++ q) w <-> exists w', w = symbols t ++ w' /\ denotes q w'.
Definition pit (it : item) : Prop := wfi true it /\ dw it.

Lemma dl_lit t : clean t -> (forall c, In c t -> ~ In c metas) -> dl t.
Proof. intros C N. split; auto. intros q w. now apply denotes_literal. Qed.
Lemma dl_app a b : dl a -> dl b -> dl (a ++ b).
Proof.
  intros [Ca Da] [Cb Db]. split; [now apply clean_app|]. intros q w. rewrite <- app_assoc, Da, (symbols_app a b) by now apply bnd_clean. split.
  - intros (w' & -> & H). apply Db in H as (w2 & -> & H). exists w2. now rewrite app_assoc.
  - intros (w' & -> & H). exists (symbols b ++ w'). rewrite <- app_assoc. split; auto. apply Db. eauto.
Qed.
Lemma dl_pit t : dl t -> pit (IStr t).
Proof.
  intros [C D]. split; [exact C|]. intros q w. cbn [item_write den]. rewrite D. split.
  - intros (w' & -> & H). exists (symbols t), w'. auto.
  - intros (w1 & w2 & -> & -> & H). eauto.
Qed.
Lemma lit_write_text it t : wfi true it -> lit_text it = Some t -> item_write it = t.
Proof. destruct it; cbn; intros W [= <-]; auto. now rewrite string_of_byte_ascii. Qed.
Lemma pit_lit it t : pit it -> lit_text it = Some t -> dl t.
Proof.
  intros [W D] L. destruct (lit_text_spec true it t W L) as (C & E & _). split; auto.
  intros q w. pose proof (D q w) as X. rewrite (lit_write_text it t W L) in X. rewrite X. split.
  - intros (w1 & w2 & -> & H & K). apply E in H. subst w1. eauto.
  - intros (w' & -> & H). exists (symbols t), w'. repeat split; auto. now apply E.
Qed.
Lemma pit_ascii b : (code b < 128)%N -> ~ In b metas -> pit (IByte b).
Proof.
  intros L N. split; [exact L|]. intros q w. cbn [item_write den]. rewrite <- (string_byte_ascii b L), denotes_symbol.
  - rewrite string_byte_ascii by auto. split.
    + intros (w' & -> & H). exists [[b]], w'. auto.
    + intros (w1 & w2 & -> & -> & H). exists w2. auto.
  - split; [unfold valid_rune|unfold RuneError]; lia.
  - intros c I E. apply code_inj in E. subst. auto.
Qed.
Lemma pit_rune r : scalar r -> (forall c, In c metas -> r <> code c) -> pit (IRune r).
Proof.
  intros S N. split; [exact S|]. intros q w. cbn [item_write den]. rewrite denotes_symbol by auto. split.
  - intros (w' & -> & H). exists [encode_rune r], w'. auto.
  - intros (w1 & w2 & -> & -> & H). exists w2. auto.
Qed.
Lemma denotes_anys n q w : denotes (repeat "?"%char n ++ q) w <-> exists w1 w2, w = w1 ++ w2 /\ length w1 = n /\ denotes q w2.
Proof.
  revert w. induction n as [|n IH]; intro w; cbn [repeat app].
  - split; [intro H; now exists [], w|]. intros (w1 & w2 & -> & L & H). now destruct w1.
  - rewrite denotes_any. split.
    + intros (x & w' & -> & H). apply IH in H as (w1 & w2 & -> & L & H). exists (x :: w1), w2. cbn. auto.
    + intros (w1 & w2 & -> & L & H). destruct w1 as [|x w1]; [discriminate|]. exists x, (w1 ++ w2). split; auto. apply IH. injection L as L. eauto.
Qed.
Lemma pit_any n : pit (IAny n).
Proof. split; [exact I|]. intros q w. cbn [item_write den]. apply denotes_anys. Qed.
Lemma pit_star n : pit (IStar n).
Proof.
  split; [exact I|]. intros q w. cbn [item_write den app]. rewrite denotes_star. split.
  - intros (w1 & w2 & -> & H). apply denotes_anys in H as (w3 & w4 & -> & L & H). exists (w1 ++ w3), w4. rewrite app_assoc, app_length. repeat split; auto. lia.
  - intros (w1 & w2 & -> & L & H). exists (firstn (length w1 - n) w1), (skipn (length w1 - n) w1 ++ w2).
    rewrite app_assoc, firstn_skipn. split; auto. apply denotes_anys. exists (skipn (length w1 - n) w1), w2. rewrite skipn_length. repeat split; auto. lia.
Qed.
Lemma pit_merge x y m : pit x -> pit y -> merge_last x y = Some m -> pit m.
Proof.
  intros Px Py H. rewrite merge_last_lit in H. destruct (lit_text x) as [a|] eqn:Ex, (lit_text y) as [b|] eqn:Ey.
  - injection H as <-. apply dl_pit, dl_app; [apply (pit_lit x)|apply (pit_lit y)]; auto.
  - destruct y; try discriminate; destruct x; discriminate.
  - destruct y; try discriminate; destruct x; discriminate.
  - destruct y; try discriminate; destruct x; try discriminate; injection H as <-; auto using pit_any, pit_star.
Qed.

Lemma dens_write l : Forall pit l -> forall q w, denotes (concat (map item_write l) ++ q) w <-> exists w1 w2, w = w1 ++ w2 /\ dens l w1 /\ denotes q w2.
Proof.
  induction 1 as [|it l [W D] F IH]; intros q w; cbn [map concat app].
  - split; [intro H; now exists [], w|]. intros (w1 & w2 & -> & H & K). cbn in H. now subst.
  - rewrite <- app_assoc, (D _ _). split.
    + intros (w1 & w2 & -> & H & K). apply IH in K as (w3 & w4 & -> & K & J). exists (w1 ++ w3), w4. rewrite app_assoc. repeat split; auto.
      cbn. eauto.
    + intros (w1 & w2 & -> & H & K). cbn in H. destruct H as (w3 & w4 & -> & H & J). exists w3, (w4 ++ w2). rewrite app_assoc. repeat split; auto. apply IH. eauto.
Qed.

Definition del : ascii := byte_of 127.
Definition gk (g : str) : Prop := tok true g /\ plain_singles g /\ plain_classes g /\ ~ In del g.

Lemma plain_classes_part a b c : plain_classes (a ++ b ++ c) -> plain_classes b.
Proof. intros P x body y d -> . apply (P (a ++ x) body (y ++ c)). now rewrite <- !app_assoc. Qed.

Lemma class_pit body it : tok true body -> ~ In del body -> ~ In "]"%char body -> (forall c, In c metas -> ~ (forall r, in_class body r <-> r = code c)) ->
  class_item body = Ok (Some it) -> pit it.
Proof.
  intros T ND NB PC H. destruct (class_item_spec true body (Some it) T ltac:(discriminate) H) as ([W _] & _ & D). split; [exact W|].
  destruct T as (C & NZ & _). unfold class_item in H. destruct (ranges_expand (bracketed body)) as [rs|] eqn:E; [|discriminate].
  destruct (ranges_expand_ok _ _ C E) as ((AO & UO & SO) & _ & _ & D2).
  assert (Fin : rs_fin rs) by (split; auto).
  assert (D' : forall r, in_class body r <-> mem rs r) by (intro r; rewrite <- D2; now apply fin_contains).
  assert (IT : (rr_unicode rs = [] /\ exists c, it = IByte c) \/ (exists q, rr_unicode rs = [q] /\ it = IRune (First q)) \/ it = IRanges rs).
  { destruct (as_count (rr_ascii rs)) as [n c]. destruct (rr_unicode rs) as [|q l]; cbn [null] in H.
    - rewrite !andb_true_r in H. destruct (Nat.eqb n 0); [discriminate|]. cbn [andb] in H. destruct (Nat.eqb n 1); injection H as <-; eauto.
    - rewrite !andb_false_r in H. cbn [andb] in H. destruct l; [|injection H as <-; auto]. destruct (Nat.eqb n 0 && (First q =? Last q)%N); injection H as <-; eauto. }
  clear H. destruct IT as [(U & c & ->)|[(q & U & ->)| ->]].
  - assert (~ In c metas) as Nc; [|now apply pit_ascii]. intro M. apply (PC c M). intro r.
    cbn in W. specialize (D [encode_rune r]) as Dr. rewrite dens_olist in Dr. cbn [den] in Dr.
    assert (Sc : scalar (code c)). { split; [unfold valid_rune|unfold RuneError]; lia. }
    split.
    + intro I. assert (r <= 127)%N. { apply D' in I. unfold mem in I. destruct (r <=? 127)%N eqn:Lr; [lia|]. rewrite U in I. destruct I as (? & [] & _). }
      assert (S : scalar r). { split; [unfold valid_rune|unfold RuneError]; lia. }
      assert (X : [encode_rune r] = [[c]]) by (apply Dr; left; eauto). injection X as X. rewrite encode_ascii in X by lia. injection X as X. rewrite <- X. now rewrite code_byte_of by lia.
    + intros ->. rewrite string_byte_ascii in Dr by auto. destruct (proj1 Dr eq_refl) as [(r & S & I & X)|[_ X]]; [|discriminate].
      injection X as X. destruct S as [V _]. rewrite <- (string_byte_ascii c) in X by auto.
      assert (code c = r) as ->; auto. apply (encode_app_inj (code c) r [] []); auto; [apply Sc|]. now rewrite !app_nil_r.
  - rewrite U in UO. inversion UO as [|? ? [G1 G2] _]; subst. cbn in W. apply pit_rune; auto. intros c M Ec. apply metas_ascii in M. lia.
  - destruct (class_write body rs C NZ ND E) as (b2 & RW & IC & CB). intros q w. cbn [item_write]. rewrite RW.
    assert (NB2 : ~ In "]"%char b2) by (intro I; apply NB; apply CB; auto; [now vm_compute|discriminate]).
    rewrite denotes_class by auto. setoid_rewrite <- (dens_one (IRanges rs)). split.
    + intros [(r & w' & -> & S & I & Q)|(N & Q)].
      * exists [encode_rune r], w'. repeat split; auto. apply D. left. exists r. repeat split; auto; try apply S. now apply IC.
      * exists [], w. repeat split; auto. apply D. right. split; auto. intros r I. now apply (N r), IC.
    + intros (w1 & w2 & -> & X & Q). apply D in X as [(r & S & I & ->)|(N & ->)].
      * left. exists r, w2. repeat split; auto; try apply S. now apply IC.
      * right. split; auto. intros r I. now apply (N r), IC.
Qed.

Lemma single_write v : clean v -> v <> [] -> item_write (single_item v) = v.
Proof.
  intros C NE. unfold single_item. destruct (clean_decode v C NE) as (r & t & S & Ct & E & D). rewrite D.
  destruct (Nat.eqb_spec (length (encode_rune r)) (length v)) as [L|L]; auto.
  assert (t = []) as -> by (rewrite E, app_length in L; destruct t; [auto|cbn in L; lia]). rewrite app_nil_r in E. subst v.
  destruct (N.leb_spec r 127) as [Lr|Lr]; cbn; auto. now rewrite encode_ascii by lia.
Qed.
Lemma single_pit v : tok true v -> v <> [] -> (forall c, In c v -> ~ In c metas) -> pit (single_item v).
Proof.
  intros T NE N. destruct (single_item_spec true v T NE) as (W & _ & _ & D & _). split; auto.
  intros q w. rewrite single_write by (auto; apply T). rewrite denotes_literal by (auto; apply T). split.
  - intros (w' & -> & H). exists (symbols v), w'. repeat split; auto. now apply D.
  - intros (w1 & w2 & -> & H & K). apply D in H. subst w1. eauto.
Qed.

Lemma split_on_join c l : l <> [] -> Forall (fun v => ~ In c v) l -> split_on c (join_with c l) = l.
Proof.
  intros NE F. induction l as [|x l IH]; [easy|]. inversion_clear F. destruct l as [|y l]; [now apply split_on_none|].
  change (join_with c (x :: y :: l)) with (x ++ c :: join_with c (y :: l)). rewrite split_on_app, split_on_none by auto. cbn [app]. f_equal. now apply IH.
Qed.
Lemma in_join c d l : In d (join_with c l) -> d = c \/ exists v, In v l /\ In d v.
Proof.
  induction l as [|x l IH]; [easy|]. destruct l as [|y l]; [cbn; eauto|].
  change (join_with c (x :: y :: l)) with (x ++ c :: join_with c (y :: l)). intro I. apply in_app_or in I as [I|[<-|I]]; [right; exists x; cbn; auto|auto|].
  apply IH in I as [->|(v & I & J)]; auto. right. exists v. split; auto. now right.
Qed.
Lemma join_lead c l : l <> [] -> concat (map (fun v => c :: v) l) = join_with c ([] :: l).
Proof.
  intro NE. destruct l as [|x l]; [easy|]. change (join_with c ([] :: x :: l)) with (c :: join_with c (x :: l)). clear NE.
  revert x. induction l as [|y l IH]; intro x; [cbn; now rewrite app_nil_r|].
  change (join_with c (x :: y :: l)) with (x ++ c :: join_with c (y :: l)). rewrite <- IH. reflexivity.
Qed.

(** The text has no separator of a list. *)
Definition nb (it : item) : Prop := ~ In ","%char (item_write it) /\ ~ In "}"%char (item_write it).
Lemma group_dw vals mn mx : vals <> [] -> Forall dw vals -> Forall nb vals -> dw (IGroup vals mn mx).
Proof.
  intros NE F N q w. cbn [item_write]. change (["{"%char] ++ join_with "," (map item_write vals) ++ ["}"%char]) with (braced (join_with "," (map item_write vals))).
  rewrite denotes_list.
  2:{ intro I. apply in_join in I as [I|(v & I & J)]; [discriminate|]. apply in_map_iff in I as (x & <- & I). rewrite Forall_forall in N. now apply (N x I). }
  rewrite split_on_join.
  2:{ destruct vals; easy. } 2:{ apply Forall_forall. intros v I. apply in_map_iff in I as (x & <- & I). rewrite Forall_forall in N. now apply (N x I). }
  rewrite Forall_forall in F. assert (D : forall x w, In x vals -> (denotes (item_write x) w <-> den x w)).
  { intros x w0 I. pose proof (F x I [] w0) as X. rewrite app_nil_r in X. rewrite X. split.
    - intros (w1 & w2 & -> & H & K). apply denotes_nil in K. subst. now rewrite app_nil_r.
    - intro H. exists w0, []. rewrite app_nil_r. repeat split; auto. constructor. }
  split.
  - intros (v & w1 & w2 & -> & I & H & K). apply in_map_iff in I as (x & <- & I). exists w1, w2. repeat split; auto. apply den_group. exists x. split; auto. now apply D.
  - intros (w1 & w2 & -> & H & K). apply den_group in H as (x & I & H). exists (item_write x), w1, w2. repeat split; auto. { now apply in_map. } now apply D.
Qed.
Lemma list_dw st fi vs mn mx : vs <> [] -> (forall v, In v vs -> clean v /\ ~ In ","%char v /\ forall c, In c v -> ~ In c metas) -> dw (IList (mkSList st fi vs mn mx)).
Proof.
  intros NE F q w. cbn [item_write]. unfold sl_write, sl_optional. cbn [sl_min sl_vals].
  assert (X : (if (mn =? 0)%Z then concat (map (fun v => ","%char :: v) vs) else join_with "," vs) = join_with "," (if (mn =? 0)%Z then [] :: vs else vs)).
  { destruct (mn =? 0)%Z; auto. now apply join_lead. }
  rewrite X. clear X. set (vs' := if (mn =? 0)%Z then [] :: vs else vs).
  assert (F' : forall v, In v vs' -> clean v /\ ~ In ","%char v /\ forall c, In c v -> ~ In c metas).
  { intros v I. unfold vs' in I. destruct (mn =? 0)%Z; auto. destruct I as [<-|I]; auto. split; [apply clean_nil|]. split; [easy|]. intros c []. }
  match goal with |- denotes _ w <-> ?R => change (denotes (braced (join_with "," vs') ++ q) w <-> R) end. rewrite denotes_list.
  2:{ intro I. apply in_join in I as [I|(v & I & J)]; [discriminate|]. apply F' in I as (_ & _ & I). apply I in J. apply J. vm_compute. tauto. }
  rewrite split_on_join; [|unfold vs'; destruct (mn =? 0)%Z; auto; discriminate|apply Forall_forall; intros v I; now apply F' in I].
  assert (D : forall x w, In x vs' -> (denotes x w <-> w = symbols x)). { intros x w0 I. apply F' in I as (I1 & _ & I2). now apply denotes_text. }
  cbn [den sl_min sl_vals]. split.
  - intros (v & w1 & w2 & -> & I & H & K). exists w1, w2. repeat split; auto. apply D in H; auto. unfold vs' in I. destruct (Z.eqb_spec mn 0) as [Z0|Z0]; [|eauto].
    destruct I as [<-|I]; [left; auto|eauto].
  - intros (w1 & w2 & -> & [[Z0 ->]|(v & I & ->)] & K).
    + exists [], [], w2. repeat split; auto; [unfold vs'; rewrite Z0; now left|constructor].
    + assert (In v vs') by (unfold vs'; destruct (mn =? 0)%Z; auto; now right). exists v, (symbols v), w2. repeat split; auto. now apply D.
Qed.

Lemma encode_high r c : (128 <= r)%N -> scalar r -> In c (encode_rune r) -> (128 <= code c)%N.
Proof.
  intros L S I. destruct (encode_head r (proj1 S)) as (h & tl & Eh & [(Lr & _)|(_ & Lh)]); [lia|].
  destruct (encode_shape r) as (h' & tl' & E' & _ & Ct). rewrite E' in Eh. injection Eh as -> ->. rewrite E' in I.
  destruct I as [<-|I]; auto. rewrite forallb_forall in Ct. apply Ct in I. unfold is_cont in I. lia.
Qed.

Lemma class_bytes body it : tok true body -> ~ In del body -> class_item body = Ok (Some it) ->
  forall c, (code c < 128)%N -> ~ In c (B "-[]") -> In c (item_write it) -> In c body.
Proof.
  intros T ND H. destruct (class_item_spec true body (Some it) T ltac:(discriminate) H) as ([W _] & _ & D).
  destruct T as (C & NZ & _). unfold class_item in H. destruct (ranges_expand (bracketed body)) as [rs|] eqn:E; [|discriminate].
  destruct (ranges_expand_ok _ _ C E) as ((AO & UO & SO) & _ & (l & ps & Sl & Eb & CP & G) & D2).
  assert (IT : (exists c, it = IByte c) \/ (exists q, rr_unicode rs = [q] /\ it = IRune (First q)) \/ it = IRanges rs).
  { destruct (as_count (rr_ascii rs)) as [n c]. destruct (rr_unicode rs) as [|q l0]; cbn [null] in H.
    - rewrite !andb_true_r in H. destruct (Nat.eqb n 0); [discriminate|]. cbn [andb] in H. destruct (Nat.eqb n 1); injection H as <-; eauto.
    - rewrite !andb_false_r in H. cbn [andb] in H. destruct l0; [|injection H as <-; auto]. destruct (Nat.eqb n 0 && (First q =? Last q)%N); injection H as <-; eauto. }
  clear H. destruct IT as [(c & ->)|[(q & U & ->)| ->]]; cbn [item_write]; intros d Ld Nd I.
  - destruct I as [->|[]]. pose proof (D [[d]]) as Dd. rewrite dens_olist in Dd. cbn [den] in Dd.
    destruct (proj1 Dd eq_refl) as [(r & S & I & X)|[_ X]]; [|discriminate].
    assert (r = code d). { injection X as X. rewrite <- (string_byte_ascii d) in X by auto. symmetry. apply (encode_app_inj (code d) r [] []); [unfold valid_rune; lia|apply S|]. now rewrite !app_nil_r. }
    subst r. rewrite Eb in I |- *. apply (in_class_pairs l ps) in I; auto. destruct I as (a & b & I & La).
    destruct (pairs_ends _ _ _ _ CP I) as (Ia & Ib & _). apply in_encode_ascii; auto.
    assert (Sa : scalar a) by (rewrite Forall_forall in Sl; auto).
    assert (Xa : in_class body a). { rewrite Eb. apply (in_class_pairs l ps); auto. exists a, b. split; auto. lia. }
    assert (code d = a) as ->; auto. 
    assert (Da : den (IByte d) [encode_rune a]). { apply (proj1 (dens_one _ _)). apply D. left. eauto. }
    cbn in Da. injection Da as Da. rewrite encode_ascii in Da by lia. injection Da as Da. rewrite <- Da. rewrite code_byte_of; lia.
  - exfalso. rewrite U in UO. inversion UO as [|? ? [G1 G2] _]; subst. cbn in W. apply encode_high in I; auto; lia.
  - destruct (class_write body rs C NZ ND E) as (b2 & RW & IC & CB). rewrite RW in I. unfold bracketed in I. destruct I as [<-|I]; [elim Nd; vm_compute; auto|].
    apply in_app_or in I as [I|[<-|[]]]; [|elim Nd; vm_compute; auto]. apply CB; auto. intros ->. elim Nd. vm_compute. auto.
Qed.

Definition next_ok (nwi : str -> res (option item * str)) : Prop :=
  forall s it rest, gk s -> nwi s = Ok (Some it, rest) -> pit it /\ (~ In ","%char s -> ~ In "}"%char s -> nb it).

Lemma nb_merge x y m : pit x -> pit y -> nb x -> nb y -> merge_last x y = Some m -> nb m.
Proof.
  intros [Wx _] [Wy _] [X1 X2] [Y1 Y2] H. rewrite merge_last_lit in H. destruct (lit_text x) as [a|] eqn:Ex, (lit_text y) as [b|] eqn:Ey.
  - injection H as <-. unfold nb. cbn [item_write]. rewrite (lit_write_text _ _ Wx Ex) in *. rewrite (lit_write_text _ _ Wy Ey) in *.
    split; intro I; apply in_app_or in I; tauto.
  - destruct y; try discriminate; destruct x; discriminate.
  - destruct y; try discriminate; destruct x; discriminate.
  - assert (R : forall c n, c <> "?"%char -> ~ In c (repeat "?"%char n)) by (intros c n N I; apply repeat_spec in I; auto).
    destruct y; try discriminate; destruct x; try discriminate; injection H as <-; split; cbn [item_write]; try (apply R; discriminate); intros [I|I]; try discriminate; revert I; apply R; discriminate.
Qed.

Lemma gk_rest (a rest : str) : gk (a ++ rest) -> tok true rest -> gk rest.
Proof.
  intros (T & P & Q & D) Tr. split; auto. split; [now apply plain_suffix in P|]. split.
  - apply (plain_classes_part a rest []). now rewrite app_nil_r.
  - intro I. apply D, in_or_app. now right.
Qed.

Lemma group_chain_pit f : next_ok (next_item f) -> forall fuel v st rl mn mx, gk v -> ~ In ","%char v -> ~ In "}"%char v ->
  Forall (fun i => pit i /\ nb i) (fst (fst st)) ->
  group_chain fuel (next_item f) v st = Ok (rl, mn, mx) -> Forall (fun i => pit i /\ nb i) rl.
Proof.
  intros NO. induction fuel as [|fu IH]; intros v [[rl0 mn0] mx0] rl mn mx K N1 N2 F H; cbn [group_chain] in H.
  - destruct v; [|discriminate]. now injection H as <- <- <-.
  - destruct v as [|c v]; [now injection H as <- <- <-|].
    destruct (next_item f (c :: v)) as [[oi rest]|e| |] eqn:E; try discriminate.
    destruct (next_item_spec true f (c :: v) oi rest) as ((a & Na & Ea & _) & Tr & _); auto; try apply K; [discriminate|].
    rewrite Ea in N1, N2. assert (Kr : gk rest) by (rewrite Ea in K; now apply gk_rest in K).
    assert (N1' : ~ In ","%char rest) by (intro I; apply N1; apply in_or_app; now right).
    assert (N2' : ~ In "}"%char rest) by (intro I; apply N2; apply in_or_app; now right).
    destruct oi as [it|].
    + apply NO in E as [P1 P2]; auto. rewrite <- Ea in N1, N2. specialize (P2 N1 N2).
      unfold chain_append in H. apply IH in H; auto. cbn in *. apply append_forall; auto. intros x y m [A1 A2] [B1 B2] M. split; [now apply (pit_merge x y)|now apply (nb_merge x y)].
    + apply IH in H; auto.
Qed.

Lemma gk_nil : gk [].
Proof. split; [apply tok_nil|]. split; [now apply plain_no_brace|]. split; [|easy]. intros a body b c E. destruct a; discriminate. Qed.

Lemma in_concat_map c (l : list item) : In c (concat (map item_write l)) -> exists i, In i l /\ In c (item_write i).
Proof. intro I. apply in_concat in I as (x & I & J). apply in_map_iff in I as (i & <- & I). eauto. Qed.

Lemma group_vals_pit f : next_ok (next_item f) -> forall vals l, Forall (fun v => gk v /\ ~ In ","%char v /\ ~ In "}"%char v) vals ->
  group_vals (next_item f) vals = Ok (inr l) -> Forall (fun i => dw i /\ nb i) l.
Proof.
  intro NO. induction vals as [|v vals IH]; intros l NB H; cbn [group_vals] in H.
  - injection H as <-. constructor.
  - inversion NB as [|? ? (K1 & N1 & N2) NB']; subst. destruct (has_wildcard v) eqn:W.
    + destruct (str_eqb_spec v (B "*")) as [->|Ns]; [discriminate|].
      destruct (if str_eqb v (B "?") then Ok (IAny 1) else group_val (next_item f) v) as [it|e| |] eqn:E; try discriminate. cbn [bind] in H.
      assert (V : dw it /\ nb it).
      { destruct (str_eqb_spec v (B "?")) as [->|Nq].
        - injection E as <-. split; [apply pit_any|]. split; cbn; intros [I|[]]; discriminate.
        - unfold group_val in E. destruct (group_chain (length v) (next_item f) v ([], 0%Z, 0%Z)) as [[[rl mn] mx]|e| |] eqn:E2; try discriminate.
          cbn [bind] in E. apply group_chain_pit in E2; auto; [|constructor].
          assert (CH : forall its, Forall (fun i => pit i /\ nb i) its -> dw (IChain its mn mx) /\ nb (IChain its mn mx)).
          { intros its F. split.
            - intros q w. cbn [item_write]. rewrite dens_write; [|eapply Forall_impl; [|exact F]; cbn; tauto]. setoid_rewrite den_chain. reflexivity.
            - rewrite Forall_forall in F. split; cbn [item_write]; intro I; apply in_concat_map in I as (i & I & J); apply F in I as (_ & I1 & I2); auto. }
          destruct rl as [|x [|y rl]]; injection E as <-.
          + apply CH. constructor.
          + inversion E2 as [|? ? [[C0 C1] C2] _]; subst. auto.
          + apply CH. exact (Forall_rev E2). }
      destruct (group_vals (next_item f) vals) as [[r0|r0]|e| |] eqn:E2; try discriminate. cbn [bind] in H. injection H as <-.
      specialize (IH r0 NB' eq_refl). constructor; auto.
    + destruct (group_vals (next_item f) vals) as [[r0|r0]|e| |] eqn:E2; try discriminate. cbn [bind] in H. injection H as <-.
      specialize (IH r0 NB' eq_refl). constructor; auto. split.
      * apply dl_pit. apply dl_lit; [apply K1|]. now apply no_wild_meta.
      * split; cbn [item_write]; auto.
Qed.

Lemma list_pit f vals it : next_ok (next_item f) -> Forall (fun v => gk v /\ ~ In ","%char v /\ ~ In "}"%char v) vals ->
  (forall v, vals = [v] -> has_wildcard v = false) ->
  new_item_list (next_item f) vals = Ok (Some it) -> wfi true it -> dw it.
Proof.
  intros NO NB Si H W. unfold new_item_list in H. destruct vals as [|v [|v2 vals]]; [discriminate| |].
  - destruct v; cbn [null] in H; [discriminate|]. injection H as <-. inversion NB as [|? ? (K1 & N1 & N2) NB']; subst.
    apply single_pit; [apply K1|discriminate|]. apply no_wild_meta. now apply Si.
  - remember (v :: v2 :: vals) as vs eqn:Evs.
    destruct (list_scan vs max_int 0 true as_empty) as [[[[mn mx] st] fi] hs] eqn:E. destruct hs.
    + unfold new_group in H. destruct (group_vals (next_item f) vs) as [[it0|l]|e| |] eqn:Eg; try discriminate; cbn [bind] in H.
      * injection H as <-. assert (it0 = IStar 0) as ->; [|apply pit_star]. clear - Eg. revert it0 Eg. induction vs as [|v vs IH]; intros it H; cbn [group_vals] in H; [discriminate|].
        destruct (has_wildcard v); [destruct (str_eqb v (B "*")); [now injection H as <-|]; destruct (if str_eqb v (B "?") then Ok (IAny 1) else group_val (next_item f) v); try discriminate; cbn [bind] in H|];
          destruct (group_vals (next_item f) vs) as [[r|r]|e| |]; try discriminate; cbn [bind] in H; injection H as <-; auto.
      * pose proof (group_vals_pit f NO vs l NB Eg) as K. destruct l as [|x l]; [discriminate|]. destruct (group_bounds l (item_min x) (item_max x)).
        injection H as <-. apply group_dw; [discriminate| |]; (eapply Forall_impl; [|exact K]); cbn; tauto.
    + apply list_scan_spec in E; [|apply as_ok_empty]. destruct E as (_ & _ & _ & _ & B3 & _).
      assert (exists vs0, incl vs0 vs /\ it = (if st then IList (mkSList st fi vs0 mn mx) else IList (mkSList false as_empty vs0 mn mx))) as (vs0 & I0 & ->).
      { subst vs. destruct (mn =? 0)%Z; [destruct v; [|discriminate]|]; injection H as <-; eexists; (split; [|reflexivity]); intros x Ix; auto. now right. }
      assert (vs0 <> []) by (destruct st; cbn in W; apply W).
      assert (forall v, In v vs0 -> clean v /\ ~ In ","%char v /\ forall c, In c v -> ~ In c metas).
      { intros x Ix. apply I0 in Ix. rewrite Forall_forall in NB, B3. destruct (NB _ Ix) as (K1 & N1 & N2). specialize (B3 _ Ix). split; [apply K1|]. split; auto. now apply no_wild_meta. }
      destruct st; apply list_dw; auto.
Qed.

Lemma gk_alt a body b v : gk (a ++ braced body ++ b) -> tok true body -> ~ In "}"%char body -> In v (split_on "," body) -> gk v.
Proof.
  intros (T & P & Q & D) Tb NB I. split; [now apply (tok_alt true body)|].
  pose proof (proj2 (alternative_split body v) I) as (x & y & E & _).
  assert (Eq : a ++ braced body ++ b = (a ++ ["{"%char] ++ x) ++ v ++ (y ++ ["}"%char] ++ b)).
  { rewrite E. unfold braced. cbn [app]. rewrite <- !app_assoc. cbn [app]. rewrite <- ?app_assoc. reflexivity. }
  split; [|split].
  - apply plain_no_brace. intro J. apply NB. rewrite E. apply in_or_app. right. apply in_or_app. now left.
  - rewrite Eq in Q. now apply plain_classes_part in Q.
  - intro J. apply D. rewrite Eq. apply in_or_app. right. apply in_or_app. now left.
Qed.

Lemma next_pit : forall f, next_ok (next_item f).
Proof.
  induction f as [|f IH]; intros s it rest K H; [discriminate|].
  assert (NE : s <> []) by (destruct s; [discriminate H|discriminate]).
  pose proof (next_item_spec true (S f) s (Some it) rest (proj1 K) (proj1 (proj2 K)) NE H) as (_ & _ & [W _] & _).
  destruct (next_token f s (Some it) rest H) as (a & T). clear H. remember (Some it) as oi eqn:Eo.
  destruct T as [body rest oi NB E|body rest oi NB E|n rest NS|rest|t c rest Nt Mt Mc|t Nt Mt].
  - subst oi. destruct K as (T & P & Q & D). rewrite bracketed_app in T, D.
    assert (Tb : tok true body). { change ("["%char :: body ++ "]"%char :: rest) with (["["%char] ++ (body ++ "]"%char :: rest)) in T. apply (tok_cons true "["%char) in T; [|now vm_compute]. now apply (tok_mid true "]"%char) in T. }
    assert (Db : ~ In del body). { intro I. apply D. right. apply in_or_app. now left. }
    split.
    + apply (class_pit body); auto. intros c Mc. apply (Q [] body rest c); auto.
    + rewrite bracketed_app. intros N1 N2. split; intro I; apply (class_bytes body) in I; auto; try (now vm_compute); try (intros [J|[J|[J|[]]]]; discriminate).
      * apply N1. right. apply in_or_app. now left.
      * apply N2. right. apply in_or_app. now left.
  - split; [|rewrite braced_app; intros _ N; exfalso; apply N; right; apply in_or_app; right; now left].
    split; auto. subst oi. destruct E as [[_ E]|[Nb E]]; [discriminate|].
    assert (Tb : tok true body). { destruct K as (T & _). rewrite braced_app in T. apply (tok_cons true "{"%char) in T; [|now vm_compute]. now apply (tok_mid true "}"%char) in T. }
    apply (list_pit f _ it IH) in E; auto.
    + apply Forall_forall. intros v I. apply (proj1 (norm_in _ _)) in I. split; [now apply (gk_alt [] body rest)|].
      apply alternative_split in I as (x & y & Eb & Nc & _). split; auto. intro J. apply NB. rewrite Eb. apply in_or_app. right. apply in_or_app. now left.
    + intros v Ev. apply (plain_single_body body rest v); auto. apply K.
  - injection Eo as <-. split; [apply pit_star|]. intros _ _. split; cbn; intros [I|[]]; discriminate.
  - injection Eo as <-. split; [apply pit_any|]. intros _ _. split; cbn; intros [I|[]]; discriminate.
  - injection Eo as <-. assert (Tt : tok true t). { destruct K as (T & _). now apply (tok_mid true c) in T; [|now apply metas_ascii]. }
    split; [now apply single_pit|]. intros N1 N2. unfold nb. rewrite single_write by (auto; apply Tt). split; intro I; [apply N1|apply N2]; apply in_or_app; now left.
  - injection Eo as <-. destruct K as (T & _). split; [apply dl_pit, dl_lit; auto; apply T|]. intros N1 N2. split; auto.
Qed.

Lemma loop_pit : forall f t prefix mn mx rl prefix' mn' mx' rl', gk t -> dl prefix -> Forall pit rl ->
  parse_loop f t (prefix, mn, mx, rl) = Ok (prefix', mn', mx', rl') -> dl prefix' /\ Forall pit rl'.
Proof.
  induction f as [|f IH]; intros t prefix mn mx rl prefix' mn' mx' rl' K D F H.
  { destruct t; [|discriminate]. now injection H as <- <- <- <-. }
  destruct t as [|c t]; [now injection H as <- <- <- <-|].
  cbn [parse_loop] in H. remember (c :: t) as s eqn:Es. assert (NE : s <> []) by (subst; discriminate).
  destruct (next_wildcard_item s) as [[oi rest]|e| |] eqn:E; try discriminate. unfold next_wildcard_item in E.
  pose proof (next_item_spec true _ s oi rest (proj1 K) (proj1 (proj2 K)) NE E) as ((a & Na & Ea & _) & Tr & _).
  assert (Kr : gk rest) by (rewrite Ea in K; now apply gk_rest in K).
  destruct oi as [it|]; [|exact (IH _ _ _ _ _ _ _ _ _ Kr D F H)].
  apply next_pit in E as [P _]; auto.
  destruct (parse_step (prefix, mn, mx, rl) it) as [[[p1 n1] x1] r1] eqn:S1.
  assert (dl p1 /\ Forall pit r1) as [D1 F1]; [|exact (IH _ _ _ _ _ _ _ _ _ Kr D1 F1 H)].
  clear H. unfold parse_step in S1.
  assert (AP : forall mn mx, (prefix, mn, mx, append_item_rev rl it) = (p1, n1, x1, r1) -> dl p1 /\ Forall pit r1).
  { intros m1 m2 X. injection X as <- _ _ <-. split; auto. apply append_forall; auto. exact pit_merge. }
  destruct rl as [|x rl]; [|now apply AP in S1].
  destruct it; try (now apply AP in S1); injection S1 as <- _ _ <-; split; auto; apply dl_app; auto; eapply pit_lit; [exact P|reflexivity|exact P|reflexivity|exact P|reflexivity].
Qed.

Lemma take_suffix_pit suffix rl s2 r2 : dl suffix -> Forall pit rl -> take_suffix suffix rl = (s2, r2) -> dl s2 /\ Forall pit r2.
Proof.
  intros D F H. unfold take_suffix in H. destruct F as [|x rl P F]; [now injection H as <- <-|].
  destruct F as [|y rl P2 F]; [destruct x; injection H as <- <-; auto|].
  destruct x; injection H as <- <-; split; auto; apply dl_app; auto; (eapply pit_lit; [exact P|reflexivity]).
Qed.

Lemma parse_pieces g gl : gk g -> glob_parse g = Ok gl ->
  exists p s mn mx rl, gl = finish_glob g p s mn mx (rev rl) /\ dl p /\ dl s /\ Forall pit rl.
Proof.
  intros K H. assert (D0 : dl []) by (apply dl_lit; [apply clean_nil|easy]). pose proof K as (T & P & Q & ND).
  unfold glob_parse in H. destruct (index_wildcard g) as [pos|] eqn:Ei.
  - apply find_cut in Ei as (prefix & c & b0 & Eg & L & Pc & N).
    assert (F : firstn pos g = prefix /\ skipn pos g = c :: b0).
    { subst pos. rewrite Eg, firstn_app, skipn_app, firstn_all, skipn_all, Nat.sub_diag. cbn. now rewrite app_nil_r. }
    destruct F as [F1 F2]. rewrite F1, F2 in H. clear F1 F2 L pos.
    destruct (index_last_wildcard (c :: b0)) as [e|] eqn:Ee; [|discriminate].
    apply find_last_cut in Ee as (b1 & c' & suffix & Eb & L & Pc' & N'). 
    destruct (Nat.eqb e 0 && negb (Ascii.eqb (nth 0 (c :: b0) zero) "?") && negb (Ascii.eqb (nth 0 (c :: b0) zero) "*")); [discriminate|].
    assert (F : (if (e <? length (c :: b0) - 1)%nat then (skipn (S e) (c :: b0), firstn (S e) (c :: b0)) else ([], c :: b0)) = (suffix, b1 ++ [c'])).
    { rewrite Eb. subst e. destruct (cut_firstn b1 c' suffix) as [-> ->]. rewrite app_length. cbn [length].
      destruct (length b1 <? length b1 + S (length suffix) - 1)%nat eqn:E1; auto. destruct suffix; [reflexivity|cbn [length] in E1; lia]. }
    rewrite F in H. clear F L e. assert (Eg' : g = prefix ++ (b1 ++ [c']) ++ suffix) by (rewrite Eg, Eb, <- app_assoc; reflexivity).
    assert (Tp : tok true prefix /\ tok true (c :: b0)). { rewrite Eg in T. apply tok_app in T; auto. apply bnd_ascii, metas_ascii, is_wild_iff, Pc. }
    destruct Tp as [Tp Tb]. rewrite Eb in Tb. assert (Ac : (code c' < 128)%N) by apply metas_ascii, is_wild_iff, Pc'.
    assert (Tm : tok true (b1 ++ [c']) /\ tok true suffix).
    { destruct (tok_mid true c' b1 suffix Ac Tb) as [T1 T2]. split; auto. destruct T1 as (C1 & Z1 & A1). split; [|split].
      - apply clean_app; auto. now apply clean_byte.
      - destruct Tb as (_ & Z & _). intro I. apply Z. apply in_app_or in I. apply in_or_app. destruct I as [I|[->|[]]]; [now left|right; now left].
      - discriminate. }
    destruct Tm as [Tm Ts].
    assert (Kb : gk (b1 ++ [c'])). { split; auto. rewrite Eg' in P, Q, ND. split; [now apply plain_part in P|]. split; [now apply plain_classes_part in Q|]. intro I. apply ND. apply in_or_app. right. apply in_or_app. now left. }
    assert (Dp : dl prefix) by (apply dl_lit; [apply Tp|]; intros d I M; apply is_wild_iff in M; apply N in I; congruence).
    assert (Ds : dl suffix) by (apply dl_lit; [apply Ts|]; intros d I M; apply is_wild_iff in M; apply N' in I; congruence).
    remember (b1 ++ [c']) as body eqn:Ebd. clear Ebd.
    destruct (str_eqb_spec body (B "*")) as [Eq|Ns1].
    { apply ok_inj in H. exists prefix, suffix, (zlen prefix + zlen suffix)%Z, (-1)%Z, [IStar 0]. split; [now symmetry|]. repeat split; auto; try apply Dp; try apply Ds. repeat constructor; apply pit_star. }
    destruct (str_eqb_spec body (B "?")) as [Eq|Ns2].
    { apply ok_inj in H. exists prefix, suffix, (zlen prefix + zlen suffix + 1)%Z, (add_max_len (zlen prefix + zlen suffix) 4)%Z, [IAny 1]. split; [now symmetry|]. repeat split; auto; try apply Dp; try apply Ds. repeat constructor; apply pit_any. }
    destruct (parse_loop (length body) body (prefix, (zlen prefix + zlen suffix)%Z, (zlen prefix + zlen suffix)%Z, [])) as [[[[p1 n1] x1] r1]|e| |] eqn:El; try discriminate.
    cbn [bind] in H. destruct (take_suffix suffix r1) as [s2 r2] eqn:Et. apply ok_inj in H.
    apply loop_pit in El as [D1 F1]; auto. apply take_suffix_pit in Et as [D2 F2]; auto.
    exists p1, s2, n1, x1, r2. auto.
  - apply ok_inj in H. exists g, [], (zlen g), (zlen g), []. split; [rewrite <- H; cbn; now rewrite app_nil_r|].
    assert (dl g); [|auto]. apply dl_lit; [apply T|]. unfold index_wildcard in Ei. rewrite find_byte_none in Ei. intros d I M. apply is_wild_iff in M. apply Ei in I. congruence.
Qed.

Lemma finish_node g p s mn mx its : g_node (finish_glob g p s mn mx its) = p ++ concat (map item_write its) ++ s.
Proof. destruct its; reflexivity. Qed.
Lemma finish_items g p s mn mx its : g_items (finish_glob g p s mn mx its) = its.
Proof. destruct its; reflexivity. Qed.

Lemma node_denotes g gl : gk g -> glob_parse g = Ok gl -> forall w, denotes (g_node gl) w <-> denotes g w.
Proof.
  intros K H w. pose proof K as (T & P & _).
  destruct (parse_facts true g gl T P H) as (p' & s' & mn' & mx' & rl' & E' & G & D).
  destruct (parse_pieces g gl K H) as (p & s & mn & mx & rl & E & Dp & Ds & F).
  assert (N : forall w, denotes (g_node gl) w <-> exists w2, w = symbols p ++ w2 ++ symbols s /\ dens (rev rl) w2).
  { intro w0. rewrite E, finish_node, (proj2 Dp). split.
    - intros (w' & -> & X). apply dens_write in X as (w1 & w2 & -> & X & Y); [|now apply Forall_rev]. rewrite <- (app_nil_r s) in Y. apply (proj2 Ds) in Y as (w3 & -> & Y). apply denotes_nil in Y. subst w3. rewrite app_nil_r. eauto.
    - intros (w2 & -> & X). eexists. split; [reflexivity|]. apply dens_write; [now apply Forall_rev|]. exists w2, (symbols s). repeat split; auto. rewrite <- (app_nil_r s) at 1. apply Ds. exists []. rewrite app_nil_r. split; auto. constructor. }
  rewrite N, D. assert (Ri : rev rl = rev rl') by (rewrite <- (finish_items g p s mn mx (rev rl)), <- E, E'; apply finish_items).
  rewrite <- Ri in *. destruct (rev rl) as [|x l] eqn:Er.
  - assert (Np : p ++ s = p' ++ s').
    { transitivity (g_node gl); [rewrite E|rewrite E']; rewrite finish_node; reflexivity. }
    destruct G as (Gp & Gs & _). cbn [dens].
    assert (Sy : symbols p ++ symbols s = symbols p' ++ symbols s') by (rewrite <- !symbols_app by (apply bnd_clean; try apply Ds; auto); now rewrite Np).
    split; intros (w2 & -> & ->); exists []; cbn [app]; (split; [|reflexivity]); congruence.
  - assert (p = p') as -> by (transitivity (g_prefix gl); [rewrite E|rewrite E']; reflexivity).
    assert (s = s') as -> by (transitivity (g_suffix gl); [rewrite E|rewrite E']; reflexivity). reflexivity.
Qed.
