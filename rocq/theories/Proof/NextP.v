(** NewItemList and NextWildcardItem agree with the text-level meaning. *)
From Verif Require Import Model.Glob Spec.Symbols Spec.Class Spec.GlobSpec Spec.Lang Spec.Safe.
From Verif Require Import Proof.Utf8P Proof.SymbolsP Proof.SortP Proof.AsciiSetP Proof.SkipP Proof.MergeP Proof.RangesP Proof.ClassSearchP Proof.RangesTop Proof.LangP Proof.ListP Proof.ItemP Proof.DenotesP Proof.MatchP Proof.ParseP.
From Coq Require Import Sorting.Sorted Lia ZifyBool ZifyN ZifyNat.

Lemma find_cut p s i : find_byte p s = Some i -> exists a c b, s = a ++ c :: b /\ length a = i /\ p c = true /\ (forall d, In d a -> p d = false).
Proof.
  revert i. induction s as [|x s IH]; intros i H; cbn [find_byte] in H; [discriminate|]. destruct (p x) eqn:E.
  - injection H as <-. exists [], x, s. repeat split; auto; try easy.
  - destruct (find_byte p s) as [k|]; [|discriminate]. injection H as <-. destruct (IH k eq_refl) as (a & c & b & -> & L & P & N).
    exists (x :: a), c, b. cbn. rewrite L. repeat split; auto. intros d [<-|I]; auto.
Qed.
Lemma index_byte_cut s c i : index_byte s c = Some i -> exists a b, s = a ++ c :: b /\ length a = i /\ ~ In c a.
Proof.
  intro H. apply find_cut in H as (a & d & b & -> & L & P & N). apply Ascii.eqb_eq in P. subst d.
  exists a, b. repeat split; auto. intro I. apply N in I. now rewrite Ascii.eqb_refl in I.
Qed.
Lemma index_byte_no s c : index_byte s c = None -> ~ In c s.
Proof. intros H I. unfold index_byte in H. rewrite find_byte_none in H. apply H in I. now rewrite Ascii.eqb_refl in I. Qed.
Lemma index_byte_some s c (a b : str) : ~ In c a -> s = a ++ c :: b -> index_byte s c = Some (length a).
Proof.
  intros N ->. unfold index_byte. induction a as [|x a IH]; cbn [app find_byte].
  - now rewrite Ascii.eqb_refl.
  - destruct (Ascii.eqb_spec c x) as [->|Ne]; [elim N; now left|]. rewrite IH; auto. intro; apply N; now right.
Qed.
Lemma cut_firstn (a : str) c (b : str) : firstn (S (length a)) (a ++ c :: b) = a ++ [c] /\ skipn (S (length a)) (a ++ c :: b) = b.
Proof.
  replace (a ++ c :: b) with ((a ++ [c]) ++ b) by now rewrite <- app_assoc.
  replace (S (length a)) with (length (a ++ [c])) by (rewrite app_length; cbn; lia).
  rewrite firstn_app, firstn_all, skipn_app, skipn_all, Nat.sub_diag. cbn. now rewrite app_nil_r.
Qed.
Lemma str_lt_nil v : ~ str_lt v [].
Proof. unfold str_lt, str_ltb. destruct v; discriminate. Qed.

Section Next.
Variable u : bool.
Local Notation tok := (tok u).
Local Notation tspec := (tspec u).
Local Notation opt_ok := (opt_ok u).

Lemma symbols_text v w : tok v -> has_wildcard v = false -> (denotes v w <-> w = symbols v).
Proof. intros [C _] H. apply denotes_text; auto. now apply no_wild_meta. Qed.

Lemma item_list_spec nwi vals oi : tspec nwi -> Forall tok vals -> Forall (fun v => ~ In "}"%char v) vals ->
  StronglySorted str_lt vals -> vals <> [] -> (forall v, vals = [v] -> has_wildcard v = false) ->
  new_item_list nwi vals = Ok oi -> opt_ok oi /\ forall w, dens (olist oi) w <-> exists v, In v vals /\ denotes v w.
Proof.
  intros T Tv NB So NE Si H. unfold new_item_list in H. destruct vals as [|v vals]; [easy|].
  destruct vals as [|v2 vals].
  - inversion Tv as [|? ? T1 _]; subst. specialize (Si v eq_refl). destruct v as [|c v].
    + cbn in H. injection H as <-. split; [exact I|]. intro w. cbn [olist dens]. split.
      * intros ->. exists []. split; [now left|constructor].
      * intros (v & [<-|[]] & D). now apply denotes_nil in D.
    + cbn [null] in H. injection H as <-. destruct (single_item_spec u (c :: v) T1 ltac:(discriminate)) as (W & M & _ & D & _).
      split; [split; auto|]. intro w. rewrite dens_olist, D, <- (symbols_text (c :: v) w T1 Si). split.
      * intro X. exists (c :: v). split; auto. now left.
      * intros (v' & [<-|[]] & X). exact X.
  - remember (v :: v2 :: vals) as vs eqn:Evs.
    destruct (list_scan vs max_int 0 true as_empty) as [[[[mn mx] st] fi] hs] eqn:E.
    destruct hs; [now apply (new_group_spec u nwi)|].
    apply list_scan_spec in E; [|apply as_ok_empty]. destruct E as (_ & B0 & B1 & B2 & B3 & _).
    assert (exists mk : list str -> item, (forall vs0, mk vs0 = IList (mkSList st (if st then fi else as_empty) vs0 mn mx)) /\
      (if (mn =? 0)%Z then match vs with [] :: t => Ok (Some (mk t)) | _ => Panic end else Ok (Some (mk vs))) = Ok oi) as (mk & MK & H0).
    { exists (fun vs0 => IList (mkSList st (if st then fi else as_empty) vs0 mn mx)). split; [reflexivity|]. rewrite <- H. subst vs.
      destruct (mn =? 0)%Z; destruct v; destruct st; reflexivity. }
    clear H. rename H0 into H.
    assert (P0 : (0 <= mn)%Z). { destruct B2 as [->|B2]; [unfold max_int; lia|]. apply Exists_exists in B2 as (x & _ & <-). unfold zlen. lia. }
    assert (Cl : forall vs0, incl vs0 vs -> vs0 <> [] -> Forall (fun v => v <> []) vs0 -> opt_ok (Some (mk vs0))).
    { intros vs0 I0 N0 F0. rewrite MK. split; [|exact I]. cbn. rewrite Forall_forall in Tv, B1.
      split; [|split; [|split; [|split; auto]]].
      - apply Forall_forall. intros x Ix. now apply Tv, I0.
      - apply Forall_forall. intros x Ix. now apply B1, I0.
      - destruct vs0 as [|x vs0]; [easy|]. specialize (B1 x (I0 x (or_introl eq_refl))). lia.
 }
    destruct (mn =? 0)%Z eqn:E0.
    + subst vs. destruct v as [|c v]; [|discriminate]. injection H as <-. split.
      * apply Cl; [intros x Ix; now right|easy|]. inversion So as [|? ? So2 F]; subst. rewrite Forall_forall in F |- *. intros x Ix ->. apply F in Ix. now apply str_lt_nil in Ix.
      * intro w. rewrite dens_olist, MK. cbn [den sl_min sl_vals]. inversion Tv as [|? ? T1 T2]; subst. inversion B3 as [|? ? W1 W2]; subst. split.
        -- intros [[_ ->]|(x & Ix & ->)]; [exists []; split; [now left|constructor]|].
           exists x. split; [now right|]. rewrite Forall_forall in *. apply symbols_text; auto.
        -- intros (x & [<-|Ix] & D); [apply denotes_nil in D; left; split; [lia|auto]|]. right. exists x. split; auto.
           rewrite Forall_forall in *. apply symbols_text in D; auto.
    + assert (H' : Ok (Some (mk vs)) = Ok oi) by exact H. injection H' as <-.
      assert (N0 : Forall (fun v => v <> []) vs). { rewrite Forall_forall in *. intros x Ix ->. apply B1 in Ix. cbn in Ix. lia. }
      split; [apply Cl; auto; now intros x Ix|]. intro w. rewrite dens_olist, MK. cbn [den sl_min sl_vals]. rewrite Forall_forall in *. split.
      * intros [[X ->]|(x & Ix & ->)]; [lia|]. exists x. split; auto. apply symbols_text; auto.
      * intros (x & Ix & D). right. exists x. split; auto. apply symbols_text in D; auto.
Qed.

Lemma skip_stars_spec s : exists n, s = repeat "*"%char n ++ skip_stars s /\ forall p, skip_stars s <> "*"%char :: p.
Proof.
  induction s as [|c s (n & E & N)]; [exists 0; split; [reflexivity|discriminate]|]. cbn [skip_stars].
  destruct (Ascii.eqb_spec c "*") as [->|Ne].
  - exists (S n). cbn. rewrite <- E. auto.
  - exists 0. split; [reflexivity|]. intros p Ep. injection Ep as Ec _. now apply Ne.
Qed.
Lemma denotes_stars n p w : denotes (repeat "*"%char (S n) ++ p) w <-> denotes ("*"%char :: p) w.
Proof. induction n as [|n IH]; [reflexivity|]. cbn [repeat app] in *. rewrite denotes_star_star. exact IH. Qed.
Lemma tok_stars n p : tok (repeat "*"%char n ++ p) -> tok p.
Proof. induction n as [|n IH]; auto. cbn [repeat app]. intro T. apply tok_cons in T; [auto|reflexivity]. Qed.

Lemma plain_single_body body p v : plain_singles (braced body ++ p) -> ~ In "}"%char body -> norm (split_on "," body) = [v] -> has_wildcard v = false.
Proof.
  intros P N E. assert (A : forall x, In x (split_on "," body) <-> x = v).
  { intro x. rewrite <- norm_in, E. cbn. split; [intros [<-|[]]; auto|intros ->; now left]. }
  assert (Ps : forall c, In c body -> ~ In c metas).
  { apply (P [] body p); auto. intros x y Hx Hy. apply alternative_split, A in Hx. apply alternative_split, A in Hy. congruence. }
  destruct (has_wildcard v) eqn:W; auto. apply existsb_exists in W as (c & Ic & Wc). apply is_wild_iff in Wc.
  exfalso. apply (Ps c); auto. destruct (split_part "," body v (proj2 (A v) eq_refl)) as (a & b & -> & _).
  apply in_or_app. right. apply in_or_app. now left.
Qed.

(** The tokens. *)
Inductive token (f : nat) : str -> option item -> str -> str -> Prop :=
| t_class body rest oi : ~ In "]"%char body -> class_item body = Ok oi -> token f (bracketed body ++ rest) oi (bracketed body) rest
| t_list body rest oi : ~ In "}"%char body ->
    (body = [] /\ oi = None \/ body <> [] /\ new_item_list (next_item f) (norm (split_on "," body)) = Ok oi) ->
    token f (braced body ++ rest) oi (braced body) rest
| t_star n rest : (forall p, rest <> "*"%char :: p) -> token f (repeat "*"%char (S n) ++ rest) (Some (IStar 0)) (repeat "*"%char (S n)) rest
| t_any rest : token f ("?"%char :: rest) (Some (IAny 1)) (B "?") rest
| t_lit a c rest : a <> [] -> (forall d, In d a -> ~ In d metas) -> In c metas -> token f (a ++ c :: rest) (Some (single_item a)) a (c :: rest)
| t_last a : a <> [] -> (forall d, In d a -> ~ In d metas) -> token f a (Some (IStr a)) a [].
Lemma token_text f s oi a rest : token f s oi a rest -> s = a ++ rest /\ a <> [].
Proof. intros []; split; auto; try discriminate. now rewrite app_nil_r. Qed.
Lemma next_token f s oi rest : next_item (S f) s = Ok (oi, rest) -> exists a, token f s oi a rest.
Proof.
  intro H. destruct s as [|c0 s]; [discriminate|]. cbn [next_item] in H.
  destruct (Ascii.eqb_spec c0 "[") as [->|N1].
  { destruct (index_byte ("["%char :: s) "]") as [i|] eqn:Ei.
    - apply index_byte_cut in Ei as (a & b & E & L & N). destruct a as [|x a]; [discriminate|]. injection E as <- ->.
      assert (Nb : ~ In "]"%char a) by (intro; apply N; now right). subst i.
      change ("["%char :: a ++ "]"%char :: b) with (("["%char :: a) ++ "]"%char :: b) in H.
      destruct (cut_firstn ("["%char :: a) "]" b) as [E1 E2]. rewrite E1, E2 in H. clear E1 E2.
      change (("["%char :: a) ++ ["]"%char]) with (bracketed a) in H.
      assert (H' : class_item a = Ok oi /\ rest = b).
      { revert H. unfold class_item. destruct (ranges_expand (bracketed a)) as [rs|]; [|discriminate].
        destruct (as_count (rr_ascii rs)) as [n c]. 
        destruct (Nat.eqb n 0 && null (rr_unicode rs)); [intro H; injection H as <- <-; auto|].
        destruct (null (rr_unicode rs) && Nat.eqb n 1); [intro H; injection H as <- <-; auto|].
        destruct (rr_unicode rs) as [|q [|q2 l]]; try (intro H; injection H as <- <-; auto; fail).
        destruct (Nat.eqb n 0 && (First q =? Last q)%N); intro H; injection H as <- <-; auto. }
      destruct H' as [H' ->]. exists (bracketed a). change ("["%char :: a ++ "]"%char :: b) with ("["%char :: (a ++ "]"%char :: b)).
      rewrite <- bracketed_app. now constructor.
    - exfalso. apply index_byte_no in Ei. rewrite not_bracketed in H; [discriminate|]. intros body E. apply Ei. rewrite E. unfold bracketed. right. apply in_or_app. right. now left. }
  destruct (Ascii.eqb_spec c0 "{") as [->|N2].
  { destruct (index_byte ("{"%char :: s) "}") as [i|] eqn:Ei.
    - apply index_byte_cut in Ei as (a & b & E & L & N). destruct a as [|x a]; [discriminate|]. injection E as <- ->.
      assert (Nb : ~ In "}"%char a) by (intro; apply N; now right). subst i.
      change ("{"%char :: a ++ "}"%char :: b) with (("{"%char :: a) ++ "}"%char :: b) in H.
      destruct (cut_firstn ("{"%char :: a) "}" b) as [E1 E2]. rewrite E1, E2 in H. clear E1 E2.
      change (("{"%char :: a) ++ ["}"%char]) with (braced a) in H. rewrite list_expand_braced in H.
      change ("{"%char :: a ++ "}"%char :: b) with ("{"%char :: (a ++ "}"%char :: b)) in *. rewrite <- braced_app in *.
      exists (braced a). destruct a as [|x a].
      + cbn in H. injection H as <- <-. constructor; auto.
      + cbn [null] in H. destruct (new_item_list (next_item f) (norm (split_on "," (x :: a)))) as [o|e| |] eqn:En; try discriminate.
        cbn [bind] in H. injection H as <- <-. constructor; auto. right. split; [discriminate|auto].
    - exfalso. apply index_byte_no in Ei. rewrite not_braced in H; [discriminate|]. intros body E. apply Ei. rewrite E. unfold braced. right. apply in_or_app. right. now left. }
  destruct (Ascii.eqb_spec c0 "*") as [->|N3].
  { injection H as <- <-. destruct (skip_stars_spec s) as (n & E & N).
    change (if Ascii.eqb "*" "*" then skip_stars s else "*"%char :: s) with (skip_stars s).
    exists (repeat "*"%char (S n)). rewrite E at 1. now constructor. }
  destruct (Ascii.eqb_spec c0 "?") as [->|N4].
  { injection H as <- <-. eexists. constructor. }
  destruct (Ascii.eqb_spec c0 "]") as [->|N5]; [discriminate|].
  destruct (Ascii.eqb_spec c0 "}") as [->|N6]; [discriminate|]. cbn [orb] in H.
  destruct (index_wildcard (c0 :: s)) as [e|] eqn:Ei.
  - apply find_cut in Ei as (a & c & b & E & L & P & N). unfold split_string in H. 
    assert (F : firstn e (c0 :: s) = a /\ skipn e (c0 :: s) = c :: b).
    { subst e. rewrite E, firstn_app, skipn_app, firstn_all, skipn_all, Nat.sub_diag. cbn. now rewrite app_nil_r. }
    destruct F as [F1 F2]. 
    assert (Na : a <> []). { intros ->. cbn in E. injection E as -> ->. unfold is_wild in P. rewrite !orb_true_iff, !Ascii.eqb_eq in P. intuition congruence. }
    rewrite F1, F2 in H. injection H as <- <-. clear F1 F2. rewrite E. exists a. constructor; auto.
    + intros d I Md. apply is_wild_iff in Md. apply N in I. congruence.
    + now apply is_wild_iff.
  - injection H as <- <-. unfold index_wildcard in Ei. rewrite find_byte_none in Ei. exists (c0 :: s). constructor; [discriminate|].
    intros d I Md. apply is_wild_iff in Md. apply Ei in I. congruence.
Qed.

Lemma next_item_spec : forall f, tspec (next_item f).
Proof.
  induction f as [|f IH]; intros s oi rest Ts Ps NE H; [discriminate|].
  apply next_token in H as (a & H). destruct (token_text _ _ _ _ _ H) as [Es Na].
  assert (G : tok rest /\ opt_ok oi /\ (~ In "}"%char s -> match oi with Some i => simple i | None => True end) /\
    forall q w, denotes (a ++ q) w <-> exists w1 w2, w = w1 ++ w2 /\ dens (olist oi) w1 /\ denotes q w2).
  2:{ destruct G as (G1 & G2 & G3 & G4). split; [exists a; auto|auto]. }
  clear Es. destruct H as [body rest oi N H|body rest oi N H|n rest N|rest|a c rest Na' N Mc|a Na' N].
  - assert (T2 : tok body /\ tok rest). { rewrite bracketed_app in Ts. apply tok_cons in Ts; [|reflexivity]. apply tok_mid in Ts; auto. reflexivity. }
    destruct T2 as [Ta Tb]. assert (Lo : u = false -> lone body) by (intros U r r' I1 I2; destruct Ts as (_ & _ & A); exact (A U [] body rest r r' eq_refl N I1 I2)). destruct (class_item_spec u body oi Ta Lo H) as (O & Lit & D).
    split; auto. split; auto. split.
    { intros _. destruct oi as [i|]; auto. left. destruct i; easy. }
    intros q w. rewrite denotes_class by auto. split.
    + intros [(r & w' & -> & S & I & X)|[N0 X]].
      * exists [encode_rune r], w'. repeat split; auto. apply D. left. exists r. auto.
      * exists [], w. repeat split; auto. apply D. right. auto.
    + intros (w1 & w2 & -> & X1 & X2). apply D in X1 as [(r & S & I & ->)|[N0 ->]].
      * left. exists r, w2. auto.
      * right. auto.
  - assert (T2 : tok body /\ tok rest). { rewrite braced_app in Ts. apply tok_cons in Ts; [|reflexivity]. apply tok_mid in Ts; auto. reflexivity. }
    destruct T2 as [Ta Tb].
    assert (G : opt_ok oi /\ forall w, dens (olist oi) w <-> exists v, In v (split_on "," body) /\ denotes v w).
    { destruct H as [[-> ->]|[Nb H]].
      - split; [exact I|]. intro w. cbn. split.
        + intros ->. exists []. split; [now left|constructor].
        + intros (v & [<-|[]] & X). now apply denotes_nil in X.
      - apply item_list_spec in H; auto.
        + destruct H as [O D]. split; auto. intro w. rewrite D. split; intros (v & Iv & X); exists v; split; auto; now apply norm_in.
        + apply Forall_forall. intros v Iv. apply (proj1 (norm_in _ _)) in Iv. now apply (tok_alt u body).
        + apply Forall_forall. intros v Iv J. apply (proj1 (norm_in _ _)) in Iv. apply N. destruct (split_part "," body v Iv) as (p & q & -> & _).
          apply in_or_app. right. apply in_or_app. now left.
        + apply norm_sorted.
        + intro Z0. pose proof (split_on_nonempty "," body) as NE'. destruct (split_on "," body) as [|y l] eqn:Es; [easy|].
          assert (X : In y (norm (y :: l))) by (apply norm_in; now left). rewrite Z0 in X. destruct X.
        + intros v Ev. now apply (plain_single_body body rest). }
    destruct G as (O & D). split; auto. split; auto. split.
    { intros X. exfalso. apply X. rewrite braced_app. right. apply in_or_app. right. now left. }
    intros q w. rewrite denotes_list by auto. split.
    + intros (v & w1 & w2 & -> & Iv & X1 & X2). exists w1, w2. repeat split; auto. apply D. eauto.
    + intros (w1 & w2 & -> & X1 & X2). apply D in X1 as (v & Iv & X1). exists v, w1, w2. auto.
  - split; [now apply (tok_stars (S n))|]. split; [split; exact I|]. split; [intros _; right; eauto|]. intros q w.
    rewrite denotes_stars, denotes_star. split.
    + intros (w1 & w2 & -> & D). exists w1, w2. repeat split; auto. rewrite dens_olist. cbn. lia.
    + intros (w1 & w2 & -> & _ & D). eauto.
  - split; [now apply tok_cons in Ts|]. split; [split; exact I|]. split; [intros _; left; exact I|]. intros q w.
    change (B "?" ++ q) with ("?"%char :: q). rewrite denotes_any. split.
    + intros (x & w' & -> & D). exists [x], w'. repeat split; auto. now rewrite dens_olist.
    + intros (w1 & w2 & -> & D1 & D). apply dens_olist in D1. cbn in D1. destruct w1 as [|x [|y w1]]; try discriminate. exists x, w2. auto.
  - destruct (tok_app u _ _ Ts) as [Ta Tb]; [now apply bnd_ascii, metas_ascii|].
    destruct (single_item_spec u a Ta Na) as (W & M & Lit & D & _).
    split; auto. split; [split; auto|]. split; [intros _; left; destruct (single_item a); easy|].
    intros q w. rewrite (denotes_literal a q); [|apply Ta|exact N]. split.
    + intros (w' & -> & X). exists (symbols a), w'. repeat split; auto. apply dens_olist, D. reflexivity.
    + intros (w1 & w2 & -> & X & X2). apply dens_olist, D in X. subst w1. eauto.
  - split; [apply tok_nil|]. split; [split; [apply Ts|exact I]|]. split; [intros _; left; exact I|].
    intros q w. rewrite (denotes_literal a q w (proj1 Ts) N). split.
    + intros (w' & -> & X). exists (symbols a), w'. repeat split; auto. rewrite dens_olist. reflexivity.
    + intros (w1 & w2 & -> & X & X2). apply dens_olist in X. cbn [den] in X. subst w1. eauto.
Qed.
End Next.
