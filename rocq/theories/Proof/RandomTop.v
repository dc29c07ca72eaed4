(** The statements of Props/PRandom.v. *)
From Verif Require Import Model.Random Spec.Symbols Spec.Class Spec.GlobSpec Spec.StarSpec Spec.Lang Spec.Safe.
From Verif Require Import Proof.Utf8P Proof.SymbolsP Proof.SortP Proof.AsciiSetP Proof.MergeP Proof.RangesP Proof.LangP Proof.ListP Proof.ItemP Proof.DenotesP Proof.ParseP Proof.NextP Proof.GlobP Proof.GlobMatchP Proof.SafeP Proof.PanicP Proof.WellP Proof.ItemTop Proof.GlobTop.
From Coq Require Import Sorting.Sorted Lia ZifyBool ZifyN ZifyNat.

Lemma ss_in {A} (R : A -> A -> Prop) l x y : StronglySorted R l -> In x l -> In y l -> x = y \/ R x y \/ R y x.
Proof.
  induction 1 as [|a l S IH F]; [easy|]. rewrite Forall_forall in F. intros [->|I] [->|J]; auto.
Qed.
Lemma contains_ascii a c : as_ok a -> as_contains a c = true -> (code c < 128)%N.
Proof. intros _ H. rewrite contains_bit in H. apply andb_true_iff in H as [H _]. lia. Qed.
Lemma first_scalar body rs q : clean body -> ranges_expand (bracketed body) = Some rs -> In q (rr_unicode rs) ->
  scalar (First q) /\ rr_contains rs (First q) = true.
Proof.
  intros (l & Sl & ->) H I. destruct (class_pairs_total l) as (ps & P). rewrite (ranges_expand_pairs _ _ Sl P) in H.
  destruct (forallb good_pairb ps) eqn:G; [|discriminate]. injection H as <-.
  pose proof (pairs_scalar _ _ P Sl) as Sp. destruct (class_of_pairs_spec ps G Sp) as (Fin & _ & M).
  pose proof Fin as (_ & R & SS). rewrite Forall_forall in R. destruct (R q I) as [R1 R2].
  assert (Mq : mem (class_of_pairs ps) (First q)).
  { unfold mem. destruct (N.leb_spec (First q) 127); [lia|]. exists q. split; auto. unfold in_range. lia. }
  split; [|now apply fin_contains].
  apply M in Mq as (a & b & Ip & L). rewrite Forall_forall in Sp. destruct (Sp _ Ip) as [Sa Sb]. cbn in Sa, Sb.
  assert (Ga : good_pair (a, b)).
  { apply good_pairb_iff; auto. rewrite forallb_forall in G. now apply G. }
  destruct Ga as [_ Ga]. cbn in Ga.
  destruct (N.eq_dec a (First q)) as [->|Ne]; auto. exfalso.
  assert (La : (127 < a)%N).
  { destruct (N.ltb_spec 127 a); auto. exfalso. rewrite (encode_ascii a) in Ga by lia.
    assert (X : (rune_len b = 1)%Z). { rewrite <- encode_len_valid by apply Sb. rewrite <- Ga. reflexivity. }
    unfold rune_len in X. repeat match type of X with context [if ?c then _ else _] => destruct c eqn:? end; lia. }
  assert (Mp : mem (class_of_pairs ps) (First q - 1)%N) by (apply M; exists a, b; split; auto; lia).
  unfold mem in Mp. destruct (N.leb_spec (First q - 1)%N 127); [lia|]. destruct Mp as (q' & I' & L'). unfold in_range in L'.
  destruct (ss_in _ _ q q' SS I I') as [<-|[S|S]]; unfold sep in *; lia.
Qed.

(** A class that gives a member of itself. *)
Definition drawn (rs : rranges) : Prop :=
  as_is_empty (rr_ascii rs) = true /\ rr_unicode rs <> [] /\ forall q, In q (rr_unicode rs) -> scalar (First q) /\ rr_contains rs (First q) = true.
Lemma class_drawn body rs : clean body -> (forall r r', in_class body r -> in_class body r' -> (r < 128)%N -> r' = r) ->
  class_item body = Ok (Some (IRanges rs)) -> drawn rs.
Proof.
  intros C One H. unfold class_item in H. destruct (ranges_expand (bracketed body)) as [rs'|] eqn:E; [|discriminate].
  destruct (ranges_expand_ok _ _ C E) as ((Ok & R & _) & _ & _ & M).
  assert (Em : (forall c, as_contains (rr_ascii rs') c = false) -> rs' = rs -> drawn rs).
  { intros Z ->. split; [now apply is_empty_iff|]. split; [|intros q I; eapply first_scalar; eauto].
    intro U. rewrite U in H. destruct (as_count (rr_ascii rs)) as [n c] eqn:Ec.
    assert (n = 0) as ->. { pose proof (count_spec (rr_ascii rs) [] Ok (NoDup_nil _)) as K. rewrite Ec in K. apply K. intro c'. rewrite Z. split; [easy|intros [? _]; discriminate]. }
    cbn in H. discriminate. }
  destruct (as_is_empty (rr_ascii rs')) eqn:Ee.
  - apply Em; [now apply is_empty_iff|]. destruct (as_count (rr_ascii rs')) as [n c].
    repeat match type of H with context [if ?c then _ else _] => destruct c end; try discriminate;
      try (now injection H); destruct (rr_unicode rs') as [|q [|q2 l]]; try (now injection H); 
      repeat match type of H with context [if ?c then _ else _] => destruct c end; try discriminate; now injection H.
  - exfalso.
    assert (Ex : exists c, as_contains (rr_ascii rs') c = true).
    { assert (X : ~ forall c, as_contains (rr_ascii rs') c = false) by (rewrite <- is_empty_iff by auto; congruence).
      destruct (existsb (as_contains (rr_ascii rs')) (bytes_from 0 128)) eqn:Q.
      - apply existsb_exists in Q as (c & _ & Q). eauto.
      - exfalso. apply X. intro c. destruct (as_contains (rr_ascii rs') c) eqn:Q2; auto.
        rewrite <- not_true_iff_false in Q. elim Q. apply existsb_exists. exists c. split; auto. apply in_bytes_from; [lia|]. pose proof (contains_ascii _ _ Ok Q2). lia. }
    destruct Ex as (c & Hc).
    assert (Lc : (code c < 128)%N) by (eapply contains_ascii; eauto).
    assert (Ic : in_class body (code c)).
    { apply M. unfold rr_contains. destruct (N.leb_spec (code c) 127); [|lia]. now rewrite byte_of_code. }
    assert (U : rr_unicode rs' = []).
    { destruct (rr_unicode rs') as [|q l] eqn:U; auto. exfalso. assert (Iq : In q (rr_unicode rs')) by (rewrite U; now left).
      destruct (first_scalar _ _ _ C E Iq) as [_ K]. apply M in K. pose proof (One _ _ Ic K Lc) as X.
      rewrite Forall_forall in R. destruct (R q) as [_ ?]; [now left|]. lia. }
    assert (Cnt : fst (as_count (rr_ascii rs')) <= 1).
    { destruct (Ascii.eqb_spec c zero) as [->|Nz].
      - rewrite (count_spec (rr_ascii rs') [] Ok (NoDup_nil _)); [cbn; lia|]. intro d. split; [easy|]. intros [Hd Nd]. exfalso. apply Nd.
        apply code_inj. apply (One (code zero) (code d)); auto. apply M. unfold rr_contains. assert (code d < 128)%N by (eapply contains_ascii; eauto).
        destruct (N.leb_spec (code d) 127); [|lia]. now rewrite byte_of_code.
      - rewrite (count_spec (rr_ascii rs') [c] Ok); [cbn; lia|repeat constructor; easy|]. intro d. split.
        + intros [<-|[]]. auto.
        + intros [Hd Nd]. left. symmetry. apply code_inj. apply (One (code c) (code d)); auto. apply M. unfold rr_contains. assert (code d < 128)%N by (eapply contains_ascii; eauto).
          destruct (N.leb_spec (code d) 127); [|lia]. now rewrite byte_of_code. }
    destruct (as_count (rr_ascii rs')) as [n d]. cbn in Cnt. rewrite U in H. cbn [null] in H. rewrite andb_true_r, andb_true_l in H.
    destruct n as [|[|n]]; [discriminate|discriminate|lia].
Qed.

(** The outcomes of an item are texts it matches. *)
Definition draws (it : item) : Prop := item_random it <> [] /\ forall t, In t (item_random it) -> exists s, t = Ok s /\ clean s /\ den it (symbols s).
Definition all_random (l : list item) : list (res str) := fold_right (fun i acc => then_random (item_random i) acc) [Ok []] l.
Lemma then_draws a b t : In t (then_random a b) -> (forall x, In x a -> exists s, x = Ok s) -> exists x y, In (Ok x) a /\ In y b /\ t = bind y (fun z => Ok (x ++ z)).
Proof.
  intros I F. apply in_flat_map in I as (r & Ia & I). destruct (F r Ia) as (s & ->). apply in_map_iff in I as (y & <- & Ib). eauto.
Qed.
Lemma then_some a b : a <> [] -> b <> [] -> then_random a b <> [].
Proof.
  intros Na Nb. destruct a as [|x a]; [easy|]. unfold then_random. cbn [flat_map]. intro E. apply app_eq_nil in E as [E _].
  destruct x; try discriminate. destruct b; [easy|discriminate].
Qed.
Lemma all_draws l : Forall draws l -> all_random l <> [] /\ forall t, In t (all_random l) -> exists s, t = Ok s /\ clean s /\ dens l (symbols s).
Proof.
  induction 1 as [|it l [Ne D] F [IN IH]]; cbn [all_random fold_right].
  - split; [discriminate|]. intros t [<-|[]]. exists []. split; auto. split; [apply clean_nil|reflexivity].
  - fold (all_random l). split; [now apply then_some|]. intros t I. apply then_draws in I.
    + destruct I as (x & y & Ix & Iy & ->). destruct (D _ Ix) as (s & E & Cs & Ds). injection E as <-. destruct (IH _ Iy) as (s2 & -> & C2 & D2).
      cbn [bind]. exists (x ++ s2). split; auto. split; [now apply clean_app|]. cbn [dens]. exists (symbols x), (symbols s2). split; [now apply symbols_clean_app|auto].
    + intros r I2. destruct (D _ I2) as (s & -> & _). eauto.
Qed.
Lemma clean_repeat n : clean (repeat "x"%char n) /\ length (symbols (repeat "x"%char n)) = n.
Proof.
  induction n as [|n [C L]]; [split; [apply clean_nil|reflexivity]|]. change (repeat "x"%char (S n)) with (B "x" ++ repeat "x"%char n).
  assert (Cx : clean (B "x")) by now apply clean_byte. split; [now apply clean_app|]. rewrite symbols_clean_app by auto. rewrite app_length, L. reflexivity.
Qed.
Lemma one_draws (it : item) s : item_random it = [Ok s] -> clean s -> den it (symbols s) -> draws it.
Proof. intros E C D. split; rewrite E; [discriminate|]. intros t [<-|[]]. eauto. Qed.
Lemma calm1_draws it : wfi true it -> calm1 true true drawn it -> draws it.
Proof.
  intros W C. destruct it; cbn in C; try (now destruct C).
  - apply (one_draws _ s); auto. reflexivity.
  - cbn in W. apply (one_draws _ [b]); auto; [now apply clean_byte|]. cbn [den]. change [b] with ([b] ++ []). rewrite symbols_clean_app by now apply clean_byte. now rewrite symbols_ascii.
  - cbn in W. apply (one_draws _ (encode_rune r)); auto; [exists [r]; split; [auto|cbn; now rewrite app_nil_r]|]. cbn [den]. now apply symbols_rune.
  - clear C; destruct (clean_repeat n) as [C L]. apply (one_draws _ (repeat "x"%char n)); auto.
  - clear C; destruct (clean_repeat n) as [C L]. assert (CX : clean (B "XXXXXXXXX")) by (exists (map code (B "XXXXXXXXX")); split; [repeat constructor; discriminate|reflexivity]).
    apply (one_draws _ (repeat "x"%char n ++ B "XXXXXXXXX")); auto; [now apply clean_app|]. cbn [den]. rewrite symbols_clean_app, app_length, L by auto. lia.
  - match goal with X : drawn _ |- _ => destruct X as (E & N & F) end. unfold draws. cbn [item_random]. unfold rr_random. rewrite E.
    destruct (rr_unicode rs) as [|q l]; [easy|]. split; [discriminate|]. intros t I.
    apply then_draws in I; [|intros x [<-|[]]; eauto]. destruct I as (x & y & [Ex|[]] & I & ->). injection Ex as <-.
    apply in_map_iff in I as (z & <- & I). unfold random_of in I. apply in_map_iff in I as (p & <- & I). cbn [bind app].
    destruct (F p I) as [S K]. exists (encode_rune (First p)). split; auto. split; [exists [First p]; split; [auto|cbn; now rewrite app_nil_r]|].
    cbn [den]. exists (encode_rune (First p)). split; [now apply symbols_rune|]. exists (First p). auto.
Qed.
Lemma group_draws (vals : list item) mn mx : vals <> [] -> Forall draws vals -> draws (IGroup vals mn mx).
Proof.
  intros N F. rewrite Forall_forall in F. unfold draws. cbn [item_random]. destruct vals as [|v0 vals]; [easy|]. split.
  - cbn [flat_map]. destruct (F v0) as [N0 _]; [now left|]. intro E. now apply app_eq_nil in E.
  - intros t I. apply in_flat_map in I as (v & Iv & I). destruct (F v Iv) as [_ D]. destruct (D t I) as (s & -> & C & Ds). exists s. split; auto. split; auto.
    apply den_group. eauto.
Qed.
Lemma calm_draws it : wfi true it -> calm true true drawn it -> draws it.
Proof.
  intros W C. destruct it; try (now apply calm1_draws).
  - destruct W as (Cl & _ & _ & N & _). unfold draws. cbn [item_random]. destruct (sl_vals l) as [|v vs] eqn:E; [easy|]. split; [discriminate|].
    intros t I. unfold random_of in I. apply in_map_iff in I as (x & <- & I). exists x. split; auto. rewrite Forall_forall in Cl. split; [now apply Cl|].
    cbn [den]. right. exists x. rewrite E. auto.
  - destruct C as [N C]. apply group_draws; auto. apply wfi_group in W as (_ & _ & W). rewrite Forall_forall in W |- *. intros v I. destruct (W v I) as [_ Wv].
    pose proof (C v I) as Cv. destruct v; try (apply calm1_draws; auto; now inversion Cv).
    apply wfi_chain in Wv as [_ Wv]. cbn [val_items] in Cv. assert (D : Forall draws items).
    { rewrite Forall_forall in Cv, Wv |- *. intros x Ix. apply calm1_draws; auto. }
    apply all_draws in D as [D1 D2]. split; [exact D1|]. intros t It. destruct (D2 t It) as (s & -> & Cs & Ds). exists s. split; [auto|]. split; [auto|]. now apply den_chain.
Qed.
Lemma glob_draws g gl : clean g -> ~ In zero g -> plain_singles g -> ascii_classes_single g -> glob_parse g = Ok gl ->
  glob_random gl <> [] /\ forall t, In t (glob_random gl) -> exists s, t = Ok s /\ clean s /\ denotes g (symbols (g_prefix gl ++ s ++ g_suffix gl)).
Proof.
  intros C Z P A H.
  assert (W : Forall (calm true true drawn) (g_items gl)).
  { apply (parse_calm true true drawn g); auto. split; [auto|]. split; [auto|]. intros a body b rs E N. apply class_drawn; [|intros r r'; now apply (A a body b r r')].
    rewrite E in C. unfold bracketed in C. rewrite <- app_comm_cons, <- app_assoc in C. apply clean_mid in C as [_ C]; [|reflexivity]. now apply clean_mid in C. }
  destruct (parse_facts true g gl) as (prefix & suffix & mn & mx & rl & -> & I & D); auto; [split; auto; split; auto; discriminate|].
  unfold finish_glob in *. destruct I as (Cp & Cs & Wf & _). apply Forall_rev in Wf. unfold glob_random. destruct (rev rl) as [|i r] eqn:R; cbn [g_items g_node g_prefix g_suffix] in *.
  - split; [discriminate|]. intros t [<-|[]]. exists (prefix ++ suffix). split; auto. split; [now apply clean_app|]. cbn [app]. rewrite app_nil_r. apply D. exists []. split; [|reflexivity].
    now apply symbols_clean_app.
  - change (all_random (i :: r) <> [] /\ forall t, In t (all_random (i :: r)) -> exists s, t = Ok s /\ clean s /\ denotes g (symbols (prefix ++ s ++ suffix))).
    assert (F : Forall draws (i :: r)). { rewrite Forall_forall in W, Wf |- *. intros x Ix. apply calm_draws; auto. }
    apply all_draws in F as [N F]. split; auto. intros t It. destruct (F t It) as (s & -> & Cl & Ds). exists s. split; auto. split; auto. apply D. exists (symbols s). split; auto.
    rewrite !symbols_clean_app by auto. reflexivity.
Qed.

(** C74: whatever the random numbers are, WriteRandom of a parsed glob does not panic, and what it writes is, put between
    the prefix and the suffix of the glob, a string the glob denotes; provided that no class has an ASCII member besides
    other members. *)
Lemma c74_random_l : forall (g : str) (gl : glob), clean g -> ~ In zero g -> plain_singles g -> ascii_classes_single g -> glob_parse g = Ok gl ->
  glob_random gl <> [] /\
  forall t, In t (glob_random gl) -> exists s, t = Ok s /\ denotes g (symbols (g_prefix gl ++ s ++ g_suffix gl)).
Proof.
  intros g gl C Z P A H. destruct (glob_draws g gl) as [N D]; auto. split; auto. intros t I. destruct (D t I) as (s & -> & _ & K). eauto.
Qed.
(*EX
Example c74_random_example : exists gl, glob_parse (B "a*{b,c?}[жшя]d") = Ok gl /\ g_prefix gl = B "a" /\ g_suffix gl = B "d" /\
  glob_random gl = [Ok (B "XXXXXXXXXbж"); Ok (B "XXXXXXXXXbш"); Ok (B "XXXXXXXXXbя"); Ok (B "XXXXXXXXXcxж"); Ok (B "XXXXXXXXXcxш"); Ok (B "XXXXXXXXXcxя")].
Proof. eexists. split; [vm_compute; reflexivity|]. repeat match goal with |- _ /\ _ => split end; vm_compute; reflexivity. Qed.
XE*)
(** C74: so Match accepts it, if nothing is cut off the ends of the glob and matching is exact. *)
Lemma c74_matches_l : forall (g : str) (gl : glob) (s : str), clean g -> ~ In zero g -> plain_singles g -> ascii_classes_single g -> exact_lists g -> ~ only_star g ->
  glob_parse g = Ok gl -> g_prefix gl = [] -> g_suffix gl = [] -> In (Ok s) (glob_random gl) -> glob_match gl s = Ok true.
Proof.
  intros g gl s C Z P A R O H E1 E2 I. destruct (glob_draws g gl) as [_ D]; auto. destruct (D _ I) as (s' & E & Cs & K). injection E as <-.
  rewrite E1, E2, app_nil_r in K. cbn [app] in K. destruct (c21_exact_l g gl s) as (b & -> & B); auto. f_equal. now apply B.
Qed.
(*EX
From Verif Require Proof.CheckP Proof.RangesP.
Example c74_matches_example : let g := B "{b,c?}[жшя]?*" in
  (clean g /\ ~ In zero g /\ plain_singles g /\ ascii_classes_single g /\ exact_lists g /\ ~ only_star g) /\
  exists gl, glob_parse g = Ok gl /\ g_prefix gl = [] /\ g_suffix gl = [] /\ In (Ok (B "cxяxXXXXXXXXX")) (glob_random gl) /\ glob_match gl (B "cxяxXXXXXXXXX") = Ok true.
Proof.
  cbv zeta. split.
  - split; [now apply CheckP.clean_b_ok|]. split; [now apply (CheckP.no_byte_ok 0)|]. split; [now apply CheckP.plain_singles_ok|]. split; [|split; [now apply CheckP.exact_lists_ok|now apply CheckP.plain_not_star, CheckP.plain_classes_ok]].
    intros a body b r r' E N I _ L. exfalso. apply CheckP.bracketed_body in E; auto. vm_compute in E. destruct E as [E|[]]. injection E as _ <- _.
    change (in_class (B "жшя") r) in I. destruct (ranges_expand (bracketed (B "жшя"))) as [rs|] eqn:R; [|vm_compute in R; discriminate].
    destruct (RangesP.ranges_expand_ok (B "жшя") rs) as (_ & _ & _ & D); [now apply CheckP.clean_b_ok|exact R|]. apply D in I. vm_compute in R. injection R as <-.
    revert I. match goal with |- rr_contains ?rs _ = true -> _ => assert (A : forallb (fun k => negb (rr_contains rs (N.of_nat k))) (seq 0 128) = true) by (vm_compute; reflexivity) end.
    rewrite forallb_forall in A. specialize (A (N.to_nat r)). rewrite N2Nat.id in A. intro I. rewrite I in A. discriminate A. apply in_seq. lia.
  - eexists. split; [vm_compute; reflexivity|]. split; [reflexivity|]. split; [reflexivity|]. split; [vm_compute; tauto|vm_compute; reflexivity].
Qed.
XE*)
(** C74: the literal text before the first and after the last wildcard is not written, *)
Lemma c74_prefix_refuted_l : exists gl, glob_parse (B "a*") = Ok gl /\ glob_random gl = [Ok (B "XXXXXXXXX")] /\ glob_match gl (B "XXXXXXXXX") = Ok false.
Proof. eexists. split; [vm_compute; reflexivity|]. split; vm_compute; reflexivity. Qed.
(** ... all ASCII members of a class are written, *)
Lemma c74_class_refuted_l : exists gl, glob_parse (B "[abж]") = Ok gl /\ glob_random gl = [Ok (B "abж")] /\ glob_match gl (B "abж") = Ok false.
Proof. eexists. split; [vm_compute; reflexivity|]. split; vm_compute; reflexivity. Qed.
Lemma then_panic a b : (forall t, In t a -> (exists s, t = Ok s) \/ t = Panic) -> (forall t, In t b -> t = Panic) -> forall t, In t (then_random a b) -> t = Panic.
Proof.
  intros Ha Hb t I. apply in_flat_map in I as (r & Ir & I). destruct (Ha r Ir) as [(s & ->)| ->].
  - apply in_map_iff in I as (y & <- & Iy). now rewrite (Hb y Iy).
  - destruct I as [<-|[]]; auto.
Qed.
Lemma then_fine a b : (forall t, In t a -> (exists s, t = Ok s) \/ t = Panic) -> (forall t, In t b -> (exists s, t = Ok s) \/ t = Panic) ->
  forall t, In t (then_random a b) -> (exists s, t = Ok s) \/ t = Panic.
Proof.
  intros Ha Hb t I. apply in_flat_map in I as (r & Ir & I). destruct (Ha r Ir) as [(s & ->)| ->].
  - apply in_map_iff in I as (y & <- & Iy). destruct (Hb y Iy) as [(z & ->)| ->]; cbn; eauto.
  - destruct I as [<-|[]]; auto.
Qed.
Lemma item_fine it : forall t, In t (item_random it) -> (exists s, t = Ok s) \/ t = Panic.
Proof.
  induction it as [it IG IC] using item_ind2. intros t I. destruct it; cbn [item_random] in I; try (destruct I as [<-|[]]; left; eexists; reflexivity).
  - unfold rr_random in I. revert t I. apply then_fine.
    + intros t [<-|[]]; eauto.
    + intros t I. apply in_map_iff in I as (y & <- & Iy). unfold random_of in Iy. destruct (rr_unicode rs) as [|q l]; [destruct Iy as [<-|[]]; auto|].
      apply in_map_iff in Iy as (p & <- & _). cbn. eauto.
  - unfold random_of in I. destruct (sl_vals l); [destruct I as [<-|[]]; auto|]. apply in_map_iff in I as (p & <- & _). eauto.
  - specialize (IG _ _ _ eq_refl). rewrite Forall_forall in IG. destruct vals as [|v vals]; [destruct I as [<-|[]]; auto|].
    apply in_flat_map in I as (x & Ix & I). eapply IG; eauto.
  - specialize (IC _ _ _ eq_refl). clear IG. revert t I. induction IC as [|x l Hx F IH]; cbn [fold_right]; intros t I; [destruct I as [<-|[]]; left; eexists; reflexivity|].
    revert t I. apply then_fine; auto.
Qed.
(** ... and a class with ASCII members only makes it panic, always, wherever it stands. *)
Lemma c74_ascii_class_refuted_l : forall (gl : glob) (rs : rranges), In (IRanges rs) (g_items gl) -> rr_unicode rs = [] ->
  forall t, In t (glob_random gl) -> t = Panic.
Proof.
  intros gl rs I U t H. unfold glob_random in H. destruct (g_items gl) as [|i r] eqn:E; [destruct I|]. rewrite <- E in *. clear E i r.
  change (In t (all_random (g_items gl))) in H. revert t H. induction (g_items gl) as [|it l IH]; [destruct I|]. cbn [all_random fold_right]. fold (all_random l).
  destruct I as [->|I].
  - intros t H. apply in_flat_map in H as (x & Ix & H). cbn [item_random] in Ix. unfold rr_random in Ix. rewrite U in Ix. cbn in Ix. destruct Ix as [<-|[]].
    destruct H as [<-|[]]. reflexivity.
  - apply then_panic; auto. apply item_fine.
Qed.
(*EX
Example c74_ascii_class_example : exists gl rs, glob_parse (B "x?[a-c]*") = Ok gl /\ g_items gl = [IAny 1; IRanges rs; IStar 0] /\ rr_unicode rs = [] /\
  glob_random gl = [Panic].
Proof. do 2 eexists. split; [vm_compute; reflexivity|]. split; [cbn; reflexivity|]. split; vm_compute; reflexivity. Qed.
XE*)
