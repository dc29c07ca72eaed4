(** Expanding a text and matching it as a glob. *)
From Coq Require Import Lia ZifyBool ZifyN ZifyNat.
From Verif Require Import Spec.ExpandSpec Spec.ApartSpec Model.Glob Proof.Utf8P Proof.SymbolsP Proof.RangesP Proof.DenotesP Proof.ExpandP Proof.ExpandReadP Proof.ExpandFacP Spec.GGlobSpec Spec.PathSpec Spec.AgreeSpec Proof.ClassSearchP Proof.ItemP Proof.ExpandTop Proof.GlobTop Proof.NodeP Proof.PathP Proof.GGlobTop Proof.WellP.

Lemma past (c : ascii) x : ~ In c x -> forall y a z, x ++ y = a ++ c :: z -> exists a', a = x ++ a' /\ y = a' ++ c :: z.
Proof.
  induction x as [|d x IH]; intros N y a z E; [exists a; auto|]. destruct a as [|e a].
  - injection E as -> _. exfalso. apply N. now left.
  - injection E as <- E. destruct (IH ltac:(intro I; apply N; now right) y a z E) as (a' & -> & ->). exists a'. auto.
Qed.
Lemma plain_in t c : plain t -> In c metas -> ~ In c t.
Proof. intros P M I. unfold plain in P. rewrite Forall_forall in P. now apply (P c). Qed.
Lemma no_rest p w : plain (p ++ w) -> stops w -> w = [].
Proof.
  intros P [S _]. destruct w as [|c w]; auto. exfalso. apply (plain_in (p ++ c :: w) c P (S c w eq_refl)). apply in_or_app. right. now left.
Qed.
(** The bracket pairs that are read. *)
Lemma byte_good c : (code c < 128)%N -> good_class [c].
Proof.
  intro A. exists [code c], (if N.eqb (code c) dash then [] else [(code c, code c)]). split; [|split; [|split]].
  - constructor; [|constructor]. split; [unfold valid_rune|unfold RuneError]; lia.
  - cbn. now rewrite string_byte_ascii.
  - destruct (N.eqb_spec (code c) dash) as [->|N]; [constructor; constructor|apply cp_last; auto].
  - destruct (N.eqb_spec (code c) dash); repeat constructor; cbn; lia.
Qed.
Lemma bracket_shape u f : bracket u f -> (forall v, In v (values f) -> clean v) -> exists body, plain body /\ (u = braced body \/ u = bracketed body /\ good_class body).
Proof.
  intros [body vs P _ _|body P _| |c N|body vs P _ G _ _ _ _|body P _ G _] C; try (exists body; split; [exact P|now left]); try (exists body; split; [exact P|right; now split]).
  - exists []. split; [constructor|right]. split; auto. exists [], []. repeat split; constructor.
  - exists [c]. split; [now repeat constructor|right]. split; auto. apply byte_good, clean_byte, C. now left.
Qed.
Lemma plain_ends (v : str) : plain v -> well_formed v.
Proof. induction v as [|c v IH]; intro P; [constructor|]. inversion P; subst. apply wf_text; auto. Qed.
Lemma wf_plain_app p s : plain p -> well_formed s -> well_formed (p ++ s).
Proof. induction p as [|c p IH]; intros P W; [auto|]. inversion P; subst. apply wf_text; auto. Qed.
Lemma alternative_in body v c : alternative body v -> In c v -> In c body.
Proof. intros (a & b & -> & _) I. apply in_or_app. right. apply in_or_app. now left. Qed.
Section Read.
  Lemma factors_wf s fs : factors s fs -> (forall t, In (Text t) fs -> plain t) -> (forall f v, In f fs -> In v (values f) -> clean v) ->
    well_formed s /\ ~ In "*"%char s /\ ~ In "?"%char s /\
    (forall a body b, s = a ++ braced body ++ b -> ~ In "}"%char body -> plain body).
  Proof.
    induction 1 as [p w P St|p u f s fs P U Fs IH]; intros TP CV.
    - assert (W : w = []) by (eapply no_rest; eauto; apply TP; now left). subst w. rewrite app_nil_r.
      split; [now apply plain_ends|]. split; [apply plain_in; auto; cbn; tauto|]. split; [apply plain_in; auto; cbn; tauto|].
      intros a body b E _. exfalso. apply (plain_in p "{"%char P); [cbn; tauto|]. rewrite E. apply in_or_app. right. now left.
    - destruct (IH ltac:(intros t I; apply TP; cbn; auto) ltac:(intros f' v I; apply CV; cbn; auto)) as (W & N1 & N2 & L).
      destruct (bracket_shape u f U ltac:(intros v I; apply (CV f); cbn; auto)) as (body & PB & Eu).
      assert (NU : forall c, In c (B "*?") -> ~ In c u).
      { intros c Ic Iu. destruct Eu as [->|[-> _]]; destruct Iu as [<-|Iu]; try (vm_compute in Ic; intuition discriminate); apply in_app_or in Iu as [Iu|[<-|[]]]; try (vm_compute in Ic; intuition discriminate);
          (apply (plain_in body c PB); auto; vm_compute in Ic |- *; tauto). }
      split; [|split; [|split]].
      + apply wf_plain_app; auto. destruct Eu as [->|[-> G]].
        * apply wf_list; auto; [apply plain_in; auto; cbn; tauto|]. intros v A. apply plain_ends. apply Forall_forall. intros c Ic M. apply (plain_in body c PB M). eapply alternative_in; eauto.
        * apply wf_class; auto. apply plain_in; auto. cbn; tauto.
      + intro I. apply in_app_or in I as [I|I]; [now apply (plain_in p "*"%char P) in I; [|cbn; tauto]|]. apply in_app_or in I as [I|I]; auto. now apply (NU "*"%char); [now left|].
      + intro I. apply in_app_or in I as [I|I]; [now apply (plain_in p "?"%char P) in I; [|cbn; tauto]|]. apply in_app_or in I as [I|I]; auto. now apply (NU "?"%char); [right; now left|].
      + intros a bd b E Nb. rewrite braced_app in E. apply past in E as (a' & -> & E); [|apply plain_in; auto; cbn; tauto]. destruct Eu as [->|[-> G]].
        * rewrite braced_app in E. destruct a' as [|c a'].
          -- injection E as E. apply cut_unique in E as [<- _]; auto. apply plain_in; auto; cbn; tauto.
          -- injection E as <- E. change (body ++ "}"%char :: s) with (body ++ ["}"%char] ++ s) in E. rewrite app_assoc in E. apply past in E as (a2 & -> & E).
             ++ apply (L a2 bd b); auto. now rewrite braced_app.
             ++ intro I. apply in_app_or in I as [I|[I|[]]]; [|discriminate]. revert I. apply plain_in; auto; cbn; tauto.
        * apply past in E as (a2 & -> & E); [apply (L a2 bd b); auto; now rewrite braced_app|].
          intros [I|I]; [discriminate|]. apply in_app_or in I as [I|[I|[]]]; [|discriminate]. revert I. apply plain_in; auto; cbn; tauto.
  Qed.
  (** A value of a factor without a star. *)
  Lemma pairs_end rs ps : class_pairs rs ps -> forall a b, In (a, b) ps -> In a rs.
  Proof.
    induction 1 as [|t ps H IH|c t ps N N2 H IH|c ds N F|c ds d t ps N NE F N2 H IH]; intros a b I.
    - destruct I.
    - right. eapply IH; eauto.
    - destruct I as [I|I]; [injection I as -> _; now left|right; eapply IH; eauto].
    - destruct I as [I|[]]. injection I as -> _. now left.
    - destruct I as [I|I]; [injection I as -> _; now left|]. right. apply in_or_app. right. right. eapply IH; eauto.
  Qed.
  Lemma encoded_in rs r c : In r rs -> In c (encode_rune r) -> In c (encode_all rs).
  Proof. unfold encode_all. intros I J. apply in_concat. exists (encode_rune r). split; auto. now apply in_map. Qed.
  Lemma starless_value u f : bracket u f -> exists v, In v (values f) /\ ~ In "*"%char v.
  Proof.
    intros [body vs P _ (N & J & _)|body P _| |c N|body vs P _ G _ _ V N|body P _ G _]; cbn [values]; try (eexists; split; [now left|]; try (now intros []); apply plain_in; auto; cbn; tauto).
    - destruct vs as [|v vs]; [easy|]. exists v. split; [now left|]. intro I. apply (plain_in body "*"%char P); [cbn; tauto|]. rewrite <- J. destruct vs; [exact I|]. cbn [joined]. apply in_or_app. now left.
    - exists [c]. split; [now left|]. intros [->|[]]. apply N. cbn; tauto.
    - destruct V as (rs & _ & M & ->). destruct rs as [|r rs]; [easy|]. destruct (proj1 (M r) (or_introl eq_refl)) as (xs & ps & S & -> & C & a & b & I & L).
      assert (Ia : in_class (encode_all xs) a) by (exists xs, ps; split; [assumption|]; split; [reflexivity|]; split; [assumption|]; exists a, b; split; auto; lia).
      exists (encode_rune a). split; [apply in_map; now apply M|]. intro X. apply (plain_in (encode_all xs) "*"%char P); [cbn; tauto|]. eapply encoded_in; eauto. eapply pairs_end; eauto.
  Qed.
  Lemma starless_product s fs : factors s fs -> (forall t, In (Text t) fs -> plain t) -> exists w, In w (product (map values fs)) /\ ~ In "*"%char w.
  Proof.
    induction 1 as [p w P St|p u f s fs P U Fs IH]; intros TP.
    - exists (p ++ w). split; [left; apply app_nil_r|]. apply plain_in; [apply TP; now left|cbn; tauto].
    - destruct (IH ltac:(intros t I; apply TP; cbn; auto)) as (w & I & N). destruct (starless_value u f U) as (v & Iv & Nv). exists (p ++ v ++ w). split.
      + cbn [map values]. apply in_product_cons. exists p, (v ++ w). split; [now left|]. split; auto. apply in_product_cons. eauto.
      + intro X. apply in_app_or in X as [X|X]; [revert X; apply plain_in; auto; cbn; tauto|]. apply in_app_or in X as [X|X]; auto.
  Qed.
  Lemma joined_clean vs : (forall v, In v vs -> clean v) -> clean (joined vs).
  Proof.
    induction vs as [|v [|u vs] IH]; intro H; [apply clean_nil|apply H; now left|]. change (joined (v :: u :: vs)) with (v ++ (B "," ++ joined (u :: vs))). apply clean_app; [apply H; now left|].
    apply clean_app; [now apply ItemP.clean_byte|]. apply IH. intros x I. apply H. now right.
  Qed.
  Lemma around_clean a body b : (code a < 128)%N -> (code b < 128)%N -> clean body -> clean (a :: body ++ [b]).
  Proof. intros A Bb C. change (a :: body ++ [b]) with ([a] ++ body ++ [b]). apply clean_app; [now apply ItemP.clean_byte|]. apply clean_app; auto. now apply ItemP.clean_byte. Qed.
  Lemma factors_clean s fs : factors s fs -> (forall f v, In f fs -> In v (values f) -> clean v) -> clean s.
  Proof.
    induction 1 as [p w P St|p u f s fs P U Fs IH]; intros CV; [apply (CV (Text (p ++ w))); now left|].
    apply clean_app; [apply (CV (Text p)); now left|]. apply clean_app; [|apply IH; intros f' v I; apply CV; cbn; auto].
    assert (CF : forall v, In v (values f) -> clean v) by (intros v I; apply (CV f); cbn; auto). clear - U CF.
    destruct U as [body vs P _ (N & J & _)|body P _| |c N|body vs P _ (rs & ps & F & -> & _) _ _ V N|body P _ (rs & ps & F & -> & _) _]; (apply around_clean; [reflexivity|reflexivity|]); try (exists rs; now split).
    - rewrite <- J. now apply joined_clean.
    - apply CF. now left.
    - apply clean_nil.
    - apply CF. now left.
  Qed.
End Read.

(** ** Dotted texts *)
Lemma denotes_cat a w1 : denotes a w1 -> forall b w2, denotes b w2 -> denotes (a ++ b) (w1 ++ w2).
Proof.
  induction 1; intros b w' D; cbn [app]; rewrite <- ?app_assoc; auto.
  - cbn [app]. constructor; auto.
  - constructor; auto.
  - constructor; auto.
  - cbn [app]. constructor; auto.
  - apply d_no_class; auto.
  - eapply d_list; eauto.
Qed.
Lemma bc_tail x a : (forall c, In c x -> ~ In c metas) -> brackets_closed (x ++ a) -> brackets_closed a.
Proof.
  induction x as [|c x IH]; intros N H; auto. apply IH; [intros d I; apply N; now right|]. assert (Nc : ~ In c metas) by (apply N; now left). cbn [app] in H.
  inversion H as [|d p M H' E|p H' E|p H' E|body p M G H' E|body p M H' E]; subst; auto; exfalso; apply Nc; cbn; tauto.
Qed.
Lemma symbol_bytes r c t : scalar r -> encode_rune r = c :: t -> ~ In c metas -> forall d, In d (encode_rune r) -> ~ In d metas.
Proof.
  intros S E N d Id M. destruct (N.ltb_spec r 128) as [L|L].
  - rewrite encode_ascii in E, Id by auto. injection E as <- <-. destruct Id as [<-|[]]. auto.
  - pose proof (encode_high r d L S Id). apply metas_ascii in M. lia.
Qed.
Lemma denotes_uncat n : forall a b w, length a <= n -> clean a -> brackets_closed a -> denotes (a ++ b) w -> exists w1 w2, w = w1 ++ w2 /\ denotes a w1 /\ denotes b w2.
Proof.
  induction n as [|n IH]; intros a b w L C H D; [destruct a; [|cbn in L; lia]; exists [], w; repeat split; auto; constructor|].
  inversion H as [E|c p M H' E|p H' E|p H' E|body p M G H' E|body p M H' E]; subst.
  - exists [], w. repeat split; auto. constructor.
  - destruct C as (rs & F & E). destruct rs as [|r rs]; [discriminate|]. rewrite encode_all_cons in E. inversion F as [|? ? S F']; subst.
    assert (Er : exists t, encode_rune r = c :: t) by (pose proof (encode_nonempty r); destruct (encode_rune r); [easy|]; injection E as <- _; eauto). destruct Er as (t & Er).
    assert (PB := symbol_bytes r c t S Er M). rewrite E in *. rewrite <- app_assoc in D.
    assert (NM : forall d, In d metas -> r <> code d).
    { intros d Md ->. rewrite string_byte_ascii in Er by now apply metas_ascii. injection Er as <- _. auto. }
    apply denotes_symbol in D as (w' & -> & D); auto. apply IH in D as (w1 & w2 & -> & D1 & D2).
    + exists (encode_rune r :: w1), w2. repeat split; auto. now apply d_symbol.
    + rewrite app_length in L. pose proof (encode_len_pos r). lia.
    + exists rs. auto.
    + apply (bc_tail (encode_rune r)); auto.
  - cbn [app] in D. apply denotes_any in D as (x & w' & -> & D). apply clean_cons_ascii in C; [|reflexivity]. apply IH in D as (w1 & w2 & -> & D1 & D2); auto; [|cbn in L; lia]. exists (x :: w1), w2. repeat split; auto. now constructor.
  - cbn [app] in D. apply denotes_star in D as (w0 & w' & -> & D). apply clean_cons_ascii in C; [|reflexivity]. apply IH in D as (w1 & w2 & -> & D1 & D2); auto; [|cbn in L; lia]. exists (w0 ++ w1), w2. rewrite app_assoc. repeat split; auto. now constructor.
  - rewrite bracketed_app in C, L. rewrite <- app_assoc in D. apply denotes_class in D; auto. assert (Cp : clean p) by (apply clean_cons_ascii in C; [|reflexivity]; now apply clean_mid in C). assert (Lp : length p <= n) by (cbn in L; rewrite app_length in L; cbn in L; lia).
    destruct D as [(r & w' & -> & S & I & D)|(N & D)]; apply IH in D as (w1 & w2 & -> & D1 & D2); auto.
    + exists (encode_rune r :: w1), w2. repeat split; auto. now apply d_class.
    + exists w1, w2. repeat split; auto. now apply d_no_class.
  - rewrite braced_app in C, L. rewrite <- app_assoc in D. apply denotes_list in D as (v & w0 & w' & -> & I & D0 & D); auto. assert (Cp : clean p) by (apply clean_cons_ascii in C; [|reflexivity]; now apply clean_mid in C). assert (Lp : length p <= n) by (cbn in L; rewrite app_length in L; cbn in L; lia).
    apply IH in D as (w1 & w2 & -> & D1 & D2); auto. exists (w0 ++ w1), w2. rewrite app_assoc. repeat split; auto. apply alternative_split in I. eapply d_list; eauto.
Qed.
Lemma denotes_dot p w : denotes ("."%char :: p) w <-> exists w', w = B "." :: w' /\ denotes p w'.
Proof. change ("."%char :: p) with (encode_rune 46%N ++ p). rewrite denotes_symbol; [reflexivity|split; [vm_compute; reflexivity|discriminate]|]. intros c I. cbn in I. intuition (subst; discriminate). Qed.
(** Without '*', '?' and classes with a dot, a text without dots denotes no dot. *)
Lemma tail_not (c : ascii) x p : ~ In c (x ++ p) -> ~ In c p.
Proof. intros N I. apply N, in_or_app. now right. Qed.
Lemma denotes_undotted g w : denotes g w -> ~ In "."%char g -> ~ In "*"%char g -> ~ In "?"%char g -> dotless_classes g -> ~ In (B ".") w.
Proof.
  induction 1 as [|r p w S M D IH|p x w D IH|p w1 w2 D IH|body p r w N S I D IH|body p w N I D IH|body v p w1 w2 N A D1 IH1 D2 IH2]; intros Nd Ns Nq U.
  - now intros [].
  - intros [E|E].
    + apply Nd. apply in_or_app. left. change (B ".") with (encode_rune 46%N) in E. rewrite E. now left.
    + revert E. apply IH; try (eapply tail_not; eassumption). intros a bd b ->. apply (U (encode_rune r ++ a) bd b). now rewrite <- app_assoc.
  - exfalso. apply Nq. now left.
  - exfalso. apply Ns. now left.
  - intros [E|E].
    + change (B ".") with (encode_rune 46%N) in E. apply encode_inj in E; [|apply S|reflexivity]. subst r. exact (U [] body p eq_refl N I).
    + revert E. apply IH; try (eapply tail_not; eassumption). intros a bd b ->. apply (U (bracketed body ++ a) bd b). now rewrite <- app_assoc.
  - apply IH; try (eapply tail_not; eassumption). intros a bd b ->. apply (U (bracketed body ++ a) bd b). now rewrite <- app_assoc.
  - intro X. apply in_app_or in X as [X|X]; revert X.
    + assert (K : forall c, In c v -> In c (braced body ++ p)) by (intros c I; apply in_or_app; left; right; apply in_or_app; left; eapply alternative_in; eauto). apply IH1; auto.
      intros a bd b ->. destruct A as (a1 & b1 & -> & _). apply (U ("{"%char :: a1 ++ a) bd (b ++ b1 ++ "}"%char :: p)). unfold braced. cbn [app]. now rewrite <- !app_assoc.
    + apply IH2; try (eapply tail_not; eassumption). intros a bd b ->. apply (U (braced body ++ a) bd b). now rewrite <- app_assoc.
Qed.
Lemma once {A} (x : A) a : forall b a' b', ~ In x a -> ~ In x a' -> a ++ x :: b = a' ++ x :: b' -> a = a' /\ b = b'.
Proof.
  induction a as [|y a IH]; intros b [|z a'] b' N N' E; cbn in *.
  - injection E as <-. auto.
  - injection E as <- _. exfalso. auto.
  - injection E as -> _. exfalso. auto.
  - injection E as <- E. apply IH in E as [-> ->]; auto.
Qed.
Lemma symbols_dot p q : symbols (p ++ "."%char :: q) = symbols p ++ B "." :: symbols q.
Proof. rewrite symbols_app by now apply bnd_ascii. now rewrite symbols_ascii. Qed.
Lemma no_dot p : ~ In "."%char p -> ~ In (B ".") (symbols p).
Proof. intros N I. apply N. rewrite <- (concat_symbols p). apply in_concat. exists (B "."). split; auto. now left. Qed.
Lemma dotted_denotes gs ps : Forall2 part_denotes gs ps -> gs <> [] -> denotes (dotted gs) (symbols (dotted ps)).
Proof.
  induction 1 as [|g p gs ps D F IH]; intros N; [easy|]. destruct F as [|g' p' gs ps D' F]; [exact D|].
  rewrite (dotted_cons g), (dotted_cons p) by discriminate. rewrite symbols_dot. apply denotes_cat; auto. apply denotes_dot. eexists. split; [reflexivity|]. now apply IH.
Qed.
Lemma dotted_parts gs : (forall g, In g gs -> clean g /\ brackets_closed g /\ ~ In "."%char g /\ ~ In "*"%char g /\ ~ In "?"%char g /\ dotless_classes g) ->
  forall ps, gs <> [] -> ps <> [] -> dotless ps -> denotes (dotted gs) (symbols (dotted ps)) -> Forall2 part_denotes gs ps.
Proof.
  induction gs as [|g gs IH]; intros H ps Ng Np Dl D; [easy|]. destruct (H g (or_introl eq_refl)) as (C & Bc & N1 & N2 & N3 & U). destruct ps as [|p ps]; [easy|]. destruct gs as [|g' gs].
  - change (dotted [g]) with g in D. destruct ps as [|p' ps]; [repeat constructor; exact D|]. exfalso. apply (denotes_undotted _ _ D N1 N2 N3 U). rewrite (dotted_cons p), symbols_dot by discriminate. apply in_or_app. right. now left.
  - rewrite (dotted_cons g) in D by discriminate. apply (denotes_uncat (length g)) in D as (w1 & w2 & E & D1 & D2); auto. apply denotes_dot in D2 as (w3 & -> & D3). pose proof (denotes_undotted g w1 D1 N1 N2 N3 U) as Nw.
    assert (Nd : ~ In (B ".") (symbols p)) by (apply no_dot, Dl; now left). destruct ps as [|p' ps].
    + exfalso. cbn [dotted] in E. apply Nd. rewrite E. apply in_or_app. right. now left.
    + rewrite (dotted_cons p), symbols_dot in E by discriminate. apply once in E as [<- <-]; auto. constructor; [exact D1|]. apply IH; auto; try discriminate; [intros x I; apply H; now right|intros x I; apply Dl; now right].
Qed.
