(** Lemmas about symbols. *)
From Verif Require Import Model.Utils Spec.Symbols Proof.Utf8P.
From Coq Require Import Lia ZifyBool ZifyN ZifyNat.

(** Start of a symbol: the end of the string or a byte that is not a continuation byte. *)
Definition bnd (s : str) : Prop := match s with [] => True | c :: _ => is_cont c = false end.

Lemma symbols_from_eq f s : (length s <= f)%nat -> symbols_from f s = symbols s.
Proof.
  unfold symbols. remember (length s) as n eqn:E. assert (length s <= n)%nat as L by lia. clear E.
  intro LF. revert f s n L LF. induction f as [|f IH]; intros s n L LF.
  - assert (n = 0%nat) by lia. subst. destruct s; cbn in L; [reflexivity|lia].
  - destruct s as [|c s]; [now destruct n|]. destruct n as [|n]; [cbn in L; lia|].
    cbn [symbols_from]. f_equal.
    pose proof (decode_size_pos (c :: s) ltac:(discriminate)).
    assert (length (skipn (snd (decode_rune (c :: s))) (c :: s)) <= length s)%nat.
    { rewrite skipn_length. cbn [length]. lia. }
    cbn [length] in L.
    destruct (Nat.le_gt_cases n f) as [|]; [apply IH; lia|].
    exfalso; lia.
Qed.

Lemma symbols_nil : symbols [] = [].
Proof. reflexivity. Qed.
Lemma symbols_cons s : s <> [] ->
  symbols s = firstn (snd (decode_rune s)) s :: symbols (skipn (snd (decode_rune s)) s).
Proof.
  intro NE. destruct s as [|c s]; [congruence|].
  unfold symbols at 1. cbn [length symbols_from]. f_equal. apply symbols_from_eq.
  pose proof (decode_size_pos (c :: s) NE). rewrite skipn_length. cbn [length]. lia.
Qed.

Lemma str_len_ind (P : str -> Prop) :
  (forall s, (forall t, (length t < length s)%nat -> P t) -> P s) -> forall s, P s.
Proof.
  intros H s. remember (length s) as n. assert (length s <= n)%nat by lia. clear Heqn.
  revert s H0. induction n; intros s L; apply H; intros t Lt; [lia|]. apply IHn. lia.
Qed.

(** Induction along the symbols of a string. *)
Lemma symbols_ind (P : str -> Prop) :
  P [] ->
  (forall s, s <> [] -> P (skipn (snd (decode_rune s)) s) -> P s) -> forall s, P s.
Proof.
  intros H0 HS. apply str_len_ind. intros s IH. destruct s as [|c s]; auto.
  apply HS; [discriminate|]. apply IH. pose proof (decode_size_pos (c :: s) ltac:(discriminate)).
  rewrite skipn_length. cbn [length]. lia.
Qed.

Lemma concat_symbols s : concat (symbols s) = s.
Proof.
  induction s as [|s NE IH] using symbols_ind; [reflexivity|].
  rewrite symbols_cons by auto. cbn [concat]. rewrite IH. apply firstn_skipn.
Qed.
Lemma symbols_nonempty s x : In x (symbols s) -> x <> [].
Proof.
  induction s as [|s NE IH] using symbols_ind; [now intros []|].
  rewrite symbols_cons by auto. intros [<-|I]; auto.
  pose proof (decode_size_pos s NE). destruct s; [congruence|].
  destruct (snd (decode_rune (a :: s))); [lia|discriminate].
Qed.
Lemma symbols_eq_nil s : symbols s = [] <-> s = [].
Proof.
  split; [|now intros ->]. intro H. rewrite <- (concat_symbols s), H. reflexivity.
Qed.
Lemma symbols_inj s t : symbols s = symbols t -> s = t.
Proof. intro H. rewrite <- (concat_symbols s), H. apply concat_symbols. Qed.

Lemma symbols_encode r t : valid_rune r = true -> symbols (encode_rune r ++ t) = encode_rune r :: symbols t.
Proof.
  intro V. rewrite symbols_cons.
  - rewrite decode_encode by auto. cbn [snd].
    rewrite firstn_app, firstn_all, Nat.sub_diag, firstn_O, app_nil_r.
    now rewrite skipn_app, skipn_all, Nat.sub_diag.
  - intro E. apply app_eq_nil in E. now apply (encode_nonempty r).
Qed.
Lemma symbols_encode_all rs : Forall (fun r => valid_rune r = true) rs ->
  symbols (encode_all rs) = map encode_rune rs.
Proof.
  induction 1; [reflexivity|]. unfold encode_all in *. cbn [map concat].
  rewrite symbols_encode by auto. now f_equal.
Qed.
Lemma symbols_ascii c t : (code c < 128)%N -> symbols (c :: t) = [c] :: symbols t.
Proof.
  intro H. change (c :: t) with ([c] ++ t). rewrite <- (string_byte_ascii c H).
  apply symbols_encode. unfold valid_rune. lia.
Qed.

(** The first byte of a symbol at a boundary; the others are continuation bytes. *)
Lemma symbol_conts s x : In x (symbols s) -> forallb is_cont (skipn 1 x) = true.
Proof.
  induction s as [|s NE IH] using symbols_ind; [now intros []|].
  rewrite symbols_cons by auto. intros [<-|I]; auto. apply decode_conts.
Qed.

Lemma firstn_app_le {A} n (a b : list A) : (n <= length a)%nat -> firstn n (a ++ b) = firstn n a.
Proof. intro. rewrite firstn_app. replace (n - length a)%nat with 0%nat by lia. now rewrite firstn_O, app_nil_r. Qed.
Lemma skipn_app_le {A} n (a b : list A) : (n <= length a)%nat -> skipn n (a ++ b) = skipn n a ++ b.
Proof. intro. rewrite skipn_app. replace (n - length a)%nat with 0%nat by lia. reflexivity. Qed.

(** Decoding the first symbol of a ++ b, b at a boundary, does not look into b. *)
Lemma decode_bnd (a b : str) : a <> [] -> bnd b -> decode_rune (a ++ b) = decode_rune a.
Proof.
  intros NE B. destruct (decode_rune (a ++ b)) as [r n] eqn:E.
  assert (Lt : (n <= length a)%nat).
  { destruct (Nat.le_gt_cases n (length a)) as [|G]; auto. exfalso.
    pose proof (decode_conts (a ++ b)) as C. rewrite E in C. cbn [snd] in C.
    pose proof (decode_size_le (a ++ b)) as L. rewrite E in L. cbn [snd] in L. rewrite app_length in L.
    destruct b as [|c b]; [cbn in L; lia|]. cbn in B.
    destruct a as [|x a]; [congruence|]. cbn [app length] in *.
    destruct n; [lia|]. cbn [firstn skipn] in C. rewrite firstn_app in C.
    replace (n - length a)%nat with (S (n - length a - 1)) in C by lia. cbn [firstn] in C.
    rewrite forallb_app in C. cbn [forallb] in C. rewrite B in C. now rewrite andb_false_r in C. }
  destruct (N.eq_dec r RuneError) as [->|NR]; [destruct (Nat.eq_dec n 1) as [->|N1]|].
  - destruct a as [|x a]; [congruence|]. cbn [app] in E.
    assert (Bd : bad (decode_rune (x :: a ++ b))) by (rewrite E; now split).
    apply decode_bad_prefix in Bd. destruct Bd as [B1 B2]. destruct (decode_rune (x :: a)). cbn in *. congruence.
  - destruct (encode_decode _ _ _ E) as (V & L & Eq).
    + destruct a; [congruence|discriminate].
    + unfold bad. cbn. tauto.
    + assert (firstn n a = encode_rune RuneError).
      { rewrite <- (firstn_app_le n a b) by lia. rewrite Eq. rewrite L.
        rewrite firstn_app_le, firstn_all by lia. reflexivity. }
      rewrite <- (firstn_skipn n a), H, decode_encode by auto. now rewrite <- L.
  - destruct (encode_decode _ _ _ E) as (V & L & Eq).
    + destruct a; [congruence|discriminate].
    + unfold bad. cbn. tauto.
    + assert (firstn n a = encode_rune r).
      { rewrite <- (firstn_app_le n a b) by lia. rewrite Eq. rewrite L.
        rewrite firstn_app_le, firstn_all by lia. reflexivity. }
      rewrite <- (firstn_skipn n a), H, decode_encode by auto. now rewrite <- L.
Qed.

Lemma symbols_app (a b : str) : bnd b -> symbols (a ++ b) = symbols a ++ symbols b.
Proof.
  intro B. induction a as [|a NE IH] using symbols_ind; [reflexivity|].
  rewrite (symbols_cons a) by auto. rewrite symbols_cons.
  - rewrite decode_bnd by auto. pose proof (decode_size_le a).
    rewrite firstn_app_le, skipn_app_le by auto. cbn [app]. now f_equal.
  - destruct a; [congruence|discriminate].
Qed.

(** A string starts with a boundary exactly when... its encodings do. *)
Lemma bnd_encode r t : bnd (encode_rune r ++ t).
Proof. destruct (encode_shape r) as (h & tl & -> & H & _). exact H. Qed.
Lemma bnd_encode_all rs : bnd (encode_all rs).
Proof. destruct rs as [|r rs]; [exact I|]. apply bnd_encode. Qed.
Lemma bnd_app a b : a <> [] -> bnd a -> bnd (a ++ b).
Proof. destruct a; [congruence|]. auto. Qed.
Lemma bnd_clean s : clean s -> bnd s.
Proof. intros (rs & _ & ->). apply bnd_encode_all. Qed.
Lemma bnd_ascii c s : (code c < 128)%N -> bnd (c :: s).
Proof. intro H. cbn. unfold is_cont. lia. Qed.

(** Splitting the list of symbols. *)
Lemma symbols_split s l1 l2 : symbols s = l1 ++ l2 ->
  s = concat l1 ++ concat l2 /\ symbols (concat l1) = l1 /\ symbols (concat l2) = l2.
Proof.
  revert s. induction l1 as [|x l1 IH]; intros s E.
  - cbn in *. subst l2. now rewrite concat_symbols.
  - assert (NE : s <> []) by (intros ->; discriminate).
    assert (Ln : (1 <= length s)%nat) by (destruct s; [congruence|cbn; lia]).
    rewrite symbols_cons in E by auto. cbn [app] in E. injection E as Ex E.
    destruct (IH _ E) as (E1 & E2 & E3). cbn [concat].
    assert (Es : s = x ++ concat l1 ++ concat l2).
    { rewrite <- E1. rewrite <- Ex. now rewrite firstn_skipn. }
    assert (NX : x <> []).
    { intro X. assert (length x = 0%nat) by now rewrite X. rewrite <- Ex, firstn_length in H.
      pose proof (decode_size_pos s NE). lia. }
    pose proof (decode_size_le s) as Ls.
    assert (Lx : length x = snd (decode_rune s)) by (rewrite <- Ex; rewrite firstn_length; lia).
    split; [now rewrite <- app_assoc|]. split; auto.
    assert (D : snd (decode_rune (x ++ concat l1)) = length x).
    { rewrite Lx. rewrite Es.
      destruct (decode_rune (x ++ concat l1 ++ concat l2)) as [r n] eqn:D. cbn [snd].
      rewrite <- Es in D. rewrite D in Lx. cbn [snd] in Lx.
      destruct (Nat.eq_dec n 1) as [->|N1].
      - destruct x as [|b [|]]; try discriminate. cbn [app] in *.
        destruct (N.eq_dec r RuneError) as [->|NR].
        + assert (Bd : bad (decode_rune (b :: concat l1 ++ concat l2))) by (rewrite <- Es, D; now split).
          now apply decode_bad_prefix in Bd as [_ ->].
        + destruct (encode_decode _ _ _ D NE) as (V & L & Eq); [unfold bad; cbn; tauto|].
          rewrite Es in Eq. destruct (encode_rune r) as [|h [|]] eqn:Er; try discriminate.
          cbn in Eq. injection Eq as ->. change (h :: concat l1) with ([h] ++ concat l1).
          rewrite <- Er, decode_encode by auto. now rewrite Er.
      - destruct (encode_decode _ _ _ D NE) as (V & L & Eq); [unfold bad; cbn; tauto|].
        assert (Hx : x = encode_rune r).
        { rewrite <- Ex, D. cbn [snd]. rewrite Eq at 1. rewrite firstn_app_le by lia.
          rewrite L. apply firstn_all. }
        rewrite Hx, decode_encode by auto. cbn. lia. }
    rewrite symbols_cons.
    + rewrite D. rewrite firstn_app_le, firstn_all by lia. f_equal.
      now rewrite skipn_app_le, skipn_all by lia.
    + destruct x; [congruence|discriminate].
Qed.

(** Every position whose byte is not a continuation byte is a symbol boundary, hence: *)
Lemma symbols_app_inv s a b : symbols s = symbols a ++ symbols b -> s = a ++ b.
Proof.
  intro E. rewrite <- (concat_symbols s), E, concat_app, !concat_symbols. reflexivity.
Qed.

(** Clean strings. *)
Lemma clean_symbols s : clean s <-> Forall (fun x => exists r, scalar r /\ x = encode_rune r) (symbols s).
Proof.
  split.
  - intros (rs & F & ->). rewrite symbols_encode_all.
    + apply Forall_map. eapply Forall_impl; [|exact F]. intros r S. now exists r.
    + eapply Forall_impl; [|exact F]. now intros r [].
  - intro F. rewrite <- (concat_symbols s).
    induction F as [|x l (r & S & ->) F (rs & Fr & IH)].
    + exists []. now split.
    + exists (r :: rs). split; [now constructor|]. cbn. now rewrite IH.
Qed.
Lemma clean_nil : clean [].
Proof. exists []. now split. Qed.
Lemma clean_app a b : clean a -> clean b -> clean (a ++ b).
Proof.
  intros (r1 & F1 & ->) (r2 & F2 & ->). exists (r1 ++ r2). split; [now apply Forall_app|].
  unfold encode_all. now rewrite map_app, concat_app.
Qed.
Lemma clean_app_inv a b : clean (a ++ b) -> bnd b -> clean a /\ clean b.
Proof.
  rewrite !clean_symbols. intros F B. rewrite symbols_app in F by auto. now apply Forall_app in F.
Qed.
Lemma clean_encode r : scalar r -> clean (encode_rune r).
Proof. intro S. exists [r]. split; [now constructor|]. cbn. now rewrite app_nil_r. Qed.
Lemma clean_decode s : clean s -> s <> [] ->
  exists r t, scalar r /\ clean t /\ s = encode_rune r ++ t /\ decode_rune s = (r, length (encode_rune r)).
Proof.
  intros (rs & F & ->) NE. destruct rs as [|r rs]; [now destruct NE|].
  inversion F; subst. exists r, (encode_all rs). repeat split; auto; try apply H1.
  - now exists rs.
  - unfold encode_all. cbn [map concat]. apply decode_encode. apply H1.
Qed.
