(** The statements of Props/PIntersect.v. *)
From Verif Require Import Model.Intersect Spec.Symbols Spec.GlobSpec Spec.IntersectSpec.
From Verif Require Import Proof.Utf8P Proof.SymbolsP Proof.ListP.
From Coq Require Import Lia ZifyBool ZifyN ZifyNat.

Lemma stop_spec c : ig_stop c = false <-> c <> RuneError /\ forall w, In w metas -> c <> code w.
Proof.
  unfold ig_stop. rewrite orb_false_iff, N.eqb_neq. split; intros [H K]; split; auto.
  - intros w I E. assert (X : existsb (fun w => N.eqb c (code w)) (B "[]{}*?") = true) by (apply existsb_exists; exists w; split; [exact I|now apply N.eqb_eq]). congruence.
  - destruct (existsb (fun w => N.eqb c (code w)) (B "[]{}*?")) eqn:X; auto. apply existsb_exists in X as (w & I & E). apply N.eqb_eq in E. elim (K w I E).
Qed.
Lemma stop_symbol s : s <> [] -> (ig_stop (fst (decode_rune s)) = false <-> plain_symbol (firstn (snd (decode_rune s)) s)).
Proof.
  intro N. destruct (decode_rune s) as [c n] eqn:E. cbn [fst snd]. rewrite stop_spec. split.
  - intros [H K]. destruct (encode_decode s c n E N) as (V & L & S); [intros [X _]; now apply H|]. exists c. split; [split; auto|]. split; auto.
    rewrite S, L, firstn_app, Nat.sub_diag, firstn_all, app_nil_r. reflexivity.
  - intros (r & [V R] & K & X). pose proof (f_equal (@length _) X) as L. rewrite firstn_length in L. pose proof (decode_size_le s) as D. rewrite E in D. cbn in D.
    assert (S : s = encode_rune r ++ skipn n s) by (rewrite <- X; symmetry; apply firstn_skipn). rewrite S, decode_encode in E by auto. injection E as <- _. auto.
Qed.
Lemma others_spec g0 c pos others : c = fst (decode_rune (skipn pos g0)) -> ig_stop c = false ->
  (ig_others g0 c pos others = true <-> exists o, In o others /\ length o <= pos).
Proof.
  intros E S. induction others as [|o l IH]; cbn [ig_others]; [split; [discriminate|intros (o & [] & _)]|].
  rewrite <- E, N.eqb_refl, S. cbn [negb]. destruct (Z.ltb_spec (Z.of_nat (length o) - 1) (Z.of_nat pos)) as [L|L].
  - split; auto. intros _. exists o. split; [now left|lia].
  - rewrite IH. split; intros (x & I & Lx); [exists x; split; [now right|auto]|]. destruct I as [<-|I]; [lia|]. exists x. auto.
Qed.
Lemma loop_spec others : forall f g0 pre rest, g0 = concat pre ++ rest -> symbols g0 = pre ++ symbols rest -> length rest < f ->
  Forall plain_symbol pre -> (forall p q, pre = p ++ q -> q <> [] -> forall o, In o others -> length (concat p) < length o) ->
  exists pre2 post, symbols g0 = pre2 ++ post /\ ig_loop f g0 others (length (concat pre)) = Ok (concat pre2) /\ Forall plain_symbol pre2 /\
    (forall p q, pre2 = p ++ q -> q <> [] -> forall o, In o others -> length (concat p) < length o) /\
    (post = [] \/ (exists x l, post = x :: l /\ ~ plain_symbol x) \/ exists o, In o others /\ length o <= length (concat pre2)).
Proof.
  induction f as [|f IH]; intros g0 pre rest Eg Es Lf Fp Lo; [lia|]. cbn [ig_loop].
  assert (Ek : skipn (length (concat pre)) g0 = rest) by (rewrite Eg, skipn_app, skipn_all, Nat.sub_diag; reflexivity).
  assert (Ef : firstn (length (concat pre)) g0 = concat pre) by (rewrite Eg, firstn_app, firstn_all, Nat.sub_diag; cbn; apply app_nil_r).
  rewrite Ek, Ef. destruct rest as [|b rest0]; [|remember (b :: rest0) as rest].
  - cbn. exists pre, []. rewrite symbols_nil in Es. do 4 (split; auto).
  - assert (Nr : rest <> []) by (subst; discriminate). clear b rest0 Heqrest. destruct (decode_rune rest) as [c n] eqn:Ed. 
    pose proof (stop_symbol rest Nr) as St. rewrite Ed in St. cbn [fst snd] in St. pose proof (symbols_cons rest Nr) as Sc. rewrite Ed in Sc. cbn [snd] in Sc.
    destruct (ig_stop c) eqn:S.
    + exists pre, (symbols rest). split; auto. split; auto. split; auto. split; auto. right. left. exists (firstn n rest), (symbols (skipn n rest)). split; auto. intro P. apply St in P. discriminate.
    + pose proof (others_spec g0 c (length (concat pre)) others) as O. rewrite Ek, Ed in O. specialize (O eq_refl S).
      destruct (ig_others g0 c (length (concat pre)) others).
      * exists pre, (symbols rest). split; auto. split; auto. split; auto. split; auto. right. right. now apply O.
      * assert (Ln : 1 <= n) by (pose proof (decode_size_pos rest Nr) as D; rewrite Ed in D; exact D).
        assert (Lr : n <= length rest) by (pose proof (decode_size_le rest) as D; rewrite Ed in D; exact D).
        assert (Ec : length (concat pre) + n = length (concat (pre ++ [firstn n rest]))). { rewrite concat_app, app_length. cbn. rewrite app_nil_r, firstn_length. lia. }
        rewrite Ec. apply (IH g0 (pre ++ [firstn n rest]) (skipn n rest)).
        -- rewrite concat_app. cbn. rewrite app_nil_r, <- app_assoc, firstn_skipn. exact Eg.
        -- rewrite <- app_assoc. cbn. rewrite Es, Sc. reflexivity.
        -- rewrite skipn_length. lia.
        -- apply Forall_app. split; auto. constructor; auto. now apply St.
        -- intros p q Eq Nq o Io. destruct q as [|q0 q] using rev_ind; [easy|]. rewrite app_assoc in Eq. apply app_inj_tail in Eq as [Eq _].
           destruct q as [|q1 q]; [rewrite app_nil_r in Eq; subst p|apply (Lo p (q1 :: q)); auto; discriminate].
           destruct (Nat.lt_ge_cases (length (concat pre)) (length o)) as [L|L]; auto. exfalso. assert (false = true) by (apply O; exists o; auto). discriminate.
Qed.
(** C30: IntersectGlobs returns the beginning of the first glob that ends at its first wildcard character (or malformed symbol), or
    as soon as its length reaches that of another glob, or at its end. *)
Lemma c30_exact_l : forall (g : str) (others : list str), exists pre post,
  symbols g = pre ++ post /\ intersect_globs (g :: others) = Ok (concat pre) /\ Forall plain_symbol pre /\
  (forall p q, pre = p ++ q -> q <> [] -> forall o, In o others -> length (concat p) < length o) /\
  (post = [] \/ (exists x l, post = x :: l /\ ~ plain_symbol x) \/ exists o, In o others /\ length o <= length (concat pre)).
Proof.
  intros g others. apply (loop_spec others (S (length g)) g [] g); auto. intros p q E N. destruct p, q; easy.
Qed.
(*EX
Example c30_exact_example : intersect_globs [B "aж.b*c"; B "aж.b?d"; B "aж.b"] = Ok (B "aж.b") /\ intersect_globs [B "aж.b*c"; B "aж"] = Ok (B "aж") /\ intersect_globs [] = Ok [].
Proof. repeat match goal with |- _ /\ _ => split end; vm_compute; reflexivity. Qed.
XE*)
(** C30: it returns for all globs, a beginning of the first one, without wildcard characters. *)
Lemma c30_first_l : forall (g : str) (others : list str), exists p t, intersect_globs (g :: others) = Ok p /\ g = p ++ t /\ forall c, In c p -> ~ In c metas.
Proof.
  intros g others. destruct (c30_exact_l g others) as (pre & post & Es & E & F & _). exists (concat pre), (concat post). split; auto. split.
  - pose proof (concat_symbols g) as Q. rewrite Es, concat_app in Q. now symmetry.
  - intros c I M. apply in_concat in I as (x & Ix & Ic). rewrite Forall_forall in F. destruct (F x Ix) as (r & [V _] & K & ->).
    destruct (encode_shape r) as (h & tl & Er & Ch & Ct).
    assert (A : (code c < 128)%N) by (cbn in M; repeat (destruct M as [<-|M]; [reflexivity|]); destruct M).
    rewrite Er in Ic. destruct Ic as [<-|Ic].
    + assert (D : decode_rune (encode_rune r ++ []) = (r, length (encode_rune r))) by now apply decode_encode. rewrite app_nil_r, Er in D.
      assert (D2 : fst (decode_rune (h :: tl)) = code h). { cbn [decode_rune]. now replace (code h <? 128)%N with true by lia. }
      rewrite D in D2. cbn in D2. now apply (K h M).
    + rewrite forallb_forall in Ct. apply Ct in Ic. unfold is_cont in Ic. lia.
Qed.
(** C30: of one glob in well-formed UTF-8, everything up to the first wildcard character. *)
Lemma c30_single_l : forall g : str, clean g -> exists p t, intersect_globs [g] = Ok p /\ g = p ++ t /\ (forall c, In c p -> ~ In c metas) /\
  (t = [] \/ exists c t', t = c :: t' /\ In c metas).
Proof.
  intros g C. destruct (c30_exact_l g []) as (pre & post & Es & E & F & _ & D). destruct (c30_first_l g []) as (p & t & E2 & Eg & K). rewrite E in E2. injection E2 as <-.
  exists (concat pre), t. split; auto. split; auto. split; auto.
  assert (t = concat post) as ->. { apply (app_inv_head (concat pre)). rewrite <- Eg. pose proof (concat_symbols g) as Q. rewrite Es, concat_app in Q. now symmetry. }
  destruct D as [->|[(x & l & -> & N)|(o & [] & _)]]; [now left|right]. apply clean_symbols in C. rewrite Es in C. apply Forall_app in C as [_ C]. inversion C as [|? ? (r & S & ->) C2]; subst.
  destruct (in_dec N.eq_dec r (map code metas)) as [I|I].
  - apply in_map_iff in I as (c & <- & I). exists c, (concat l). split; auto. cbn [concat].
    assert (A : (code c < 128)%N) by (cbn in I; repeat (destruct I as [<-|I]; [reflexivity|]); destruct I). 
    pose proof (encode_ascii (code c) A) as X. rewrite byte_of_code in X. now rewrite X.
  - exfalso. apply N. exists r. split; auto. split; auto. intros c Ic E0. apply I. apply in_map_iff. exists c. auto.
Qed.
(*EX
Example c30_single_example : intersect_globs [B "aж.b[cd]e"] = Ok (B "aж.b") /\ intersect_globs [B "plain"] = Ok (B "plain").
Proof. split; vm_compute; reflexivity. Qed.
XE*)
(** C30: with several globs the result need not be common to them: the first glob is compared with itself. *)
Lemma c30_common_refuted_l : intersect_globs [B "abc"; B "xyz"] = Ok (B "abc") /\ ~ common_prefix (B "abc") [B "abc"; B "xyz"].
Proof. split; [vm_compute; reflexivity|]. intro H. destruct (H (B "xyz")) as (t & E); [right; now left|]. discriminate. Qed.
