(** Decoding from the end, and skipping symbols. *)
From Verif Require Import Model.Utils Spec.Symbols Proof.Utf8P Proof.SymbolsP.
From Coq Require Import Lia ZifyBool ZifyN ZifyNat.

Lemma last_start_hit s m : forall start k, (m < start)%nat -> (m < k)%nat ->
  (forall i, i < m -> is_cont (nth (start - 1 - i) s zero) = true)%nat ->
  is_cont (nth (start - 1 - m) s zero) = false ->
  last_start s start k = (start - 1 - m)%nat.
Proof.
  induction m as [|m IH]; intros start k L1 L2 C H; destruct k as [|k]; try lia;
    destruct start as [|p]; try lia; cbn [last_start]; unfold rune_start.
  - replace (S p - 1 - 0)%nat with p in * by lia. now rewrite H.
  - pose proof (C 0%nat ltac:(lia)) as C0. replace (S p - 1 - 0)%nat with p in C0 by lia. rewrite C0. cbn [negb].
    rewrite IH; try lia.
    + intros i Li. specialize (C (S i) ltac:(lia)). now replace (S p - 1 - S i)%nat with (p - 1 - i)%nat in C by lia.
    + now replace (S p - 1 - S m)%nat with (p - 1 - m)%nat in H by lia.
Qed.
Lemma last_start_lt s k : forall start, (0 < start)%nat -> (0 < k)%nat -> (last_start s start k < start)%nat.
Proof.
  induction k as [|k IH]; intros start L1 L2; [lia|]. destruct start as [|p]; [lia|]. cbn [last_start].
  destruct (rune_start _); [lia|]. destruct k; [destruct p; cbn [last_start]; lia|].
  destruct p; [cbn [last_start]; lia|]. specialize (IH (S p) ltac:(lia) ltac:(lia)). lia.
Qed.

Lemma symbol_cases s x : In x (symbols s) ->
  (exists r, valid_rune r = true /\ x = encode_rune r) \/ (exists b, x = [b] /\ (128 <= code b)%N).
Proof.
  induction s as [|s NE IH] using symbols_ind; [now intros []|].
  rewrite symbols_cons by auto. intros [<-|I]; auto.
  destruct (decode_rune s) as [r n] eqn:E. cbn [snd].
  destruct (N.eq_dec r RuneError) as [->|NR]; [destruct (Nat.eq_dec n 1) as [->|N1]|].
  - right. destruct s as [|b s]; [congruence|]. exists b. split; [reflexivity|].
    destruct (N.le_gt_cases 128 (code b)); auto. exfalso.
    unfold decode_rune in E. replace (code b <? 128)%N with true in E by lia. inversion E. unfold RuneError in *. lia.
  - left. destruct (encode_decode _ _ _ E NE) as (V & L & Eq); [unfold bad; cbn; tauto|].
    exists RuneError. split; auto. rewrite Eq, L, firstn_app_le, firstn_all; auto.
  - left. destruct (encode_decode _ _ _ E NE) as (V & L & Eq); [unfold bad; cbn; tauto|].
    exists r. split; auto. rewrite Eq, L, firstn_app_le, firstn_all; auto.
Qed.

Lemma nth_app_r {A} (a b : list A) n d : (length a <= n)%nat -> nth n (a ++ b) d = nth (n - length a) b d.
Proof. apply app_nth2. Qed.

Lemma decode_last_symbol s l x : symbols s = l ++ [x] ->
  decode_last_rune s = decode_rune x /\ snd (decode_rune x) = length x.
Proof.
  intro E. destruct (symbols_split _ _ _ E) as (Es & E1 & E2). cbn [concat] in *. rewrite app_nil_r in *.
  assert (Ix : In x (symbols s)) by (rewrite E; apply in_or_app; right; now left).
  assert (NX : x <> []) by now apply symbols_nonempty in Ix.
  assert (D : snd (decode_rune x) = length x).
  { rewrite symbols_cons in E2 by auto. injection E2 as Ex Et. apply symbols_eq_nil in Et.
    assert (length (skipn (snd (decode_rune x)) x) = 0)%nat by now rewrite Et.
    rewrite skipn_length in H. pose proof (decode_size_le x). lia. }
  split; auto. set (p := concat l) in *.
  unfold decode_last_rune.
  destruct (rev s) as [|b rs] eqn:R.
  { exfalso. rewrite <- (rev_involutive s), R in Es. destruct p; [|discriminate]. cbn in Es. congruence. }
  assert (Sb : s = rev rs ++ [b]) by (rewrite <- (rev_involutive s), R; reflexivity).
  assert (Lb : exists x0, x = x0 ++ [b]).
  { destruct (rev x) as [|b' x'] eqn:Rx.
    - exfalso. apply NX. rewrite <- (rev_involutive x), Rx. reflexivity.
    - exists (rev x'). assert (x = rev x' ++ [b']) by (rewrite <- (rev_involutive x), Rx; reflexivity).
      rewrite H, app_assoc in Es. rewrite Sb in Es. apply app_inj_tail in Es as [_ ->]. exact H. }
  destruct Lb as (x0 & Hx). clear R.
  assert (Len : length s = (length p + length x)%nat) by (rewrite Es; apply app_length).
  assert (Lx : length x = S (length x0)) by (rewrite Hx, app_length; cbn; lia).
  destruct (symbol_cases _ _ Ix) as [(r & V & Er)|(b' & Eb & Cb)].
  - assert (Dx : decode_rune x = (r, length x)).
    { rewrite Er. pose proof (decode_encode r [] V). rewrite app_nil_r in H. exact H. }
    rewrite Dx. destruct (encode_shape r) as (h & tl & Eh & Ch & Ct).
    destruct (code b <? 128)%N eqn:Cb.
    + destruct tl as [|h2 tl].
      * assert (x0 = [] /\ h = b) as [-> ->].
        { rewrite Eh in Er. rewrite Hx in Er. destruct x0 as [|y x0]; [inversion Er; auto|]. destruct x0; discriminate. }
        rewrite Hx in Dx. cbn [app] in Dx. rewrite Hx. cbn [app length].
        unfold decode_rune in Dx. rewrite Cb in Dx. exact Dx.
      * exfalso. assert (is_cont b = true).
        { rewrite forallb_forall in Ct. apply Ct. rewrite Eh in Er. rewrite Hx in Er.
          destruct x0 as [|y x0]; [discriminate|]. injection Er as _ <-. apply in_or_app; right; now left. }
        unfold is_cont in H. lia.
    + assert (Lx2 : (length x <= 4)%nat) by (rewrite Er; apply encode_len_le4).
      assert (Hst : last_start s (length s - 1) 3 = length p).
      { destruct x0 as [|y x0].
        - (* one byte *) exfalso. rewrite Hx in Dx. cbn in Dx.
          rewrite Cb in Dx. rewrite Hx in Er. cbn in Er.
          assert (r < 128)%N.
          { destruct (N.lt_ge_cases r 128); auto. exfalso. unfold encode_rune in Er.
            replace (r <? 128)%N with false in Er by lia.
            repeat match type of Er with context [if ?c then _ else _] => destruct c end; discriminate. }
          rewrite encode_ascii in Er by auto. injection Er as ->. rewrite code_byte_of in Cb by lia. lia.
        - cbn [length] in *. rewrite (last_start_hit s (length x0)); try lia.
          + intros i Li. rewrite Es, nth_app_r by (rewrite <- Es; lia).
            rewrite <- Es. rewrite Er, Eh. rewrite Eh in Er. rewrite Hx in Er. cbn [app] in Er. injection Er as <- Etl.
            replace (length s - 1 - 1 - i - length p)%nat with (S (length x0 - 1 - i))%nat by lia. cbn [nth].
            rewrite forallb_forall in Ct. apply Ct. apply nth_In. rewrite <- Etl, app_length. lia.
          + rewrite Es, nth_app_r by (rewrite <- Es; lia). rewrite <- Es.
            replace (length s - 1 - 1 - length x0 - length p)%nat with 0%nat by lia. rewrite Er, Eh. exact Ch. }
      rewrite Hst. rewrite Es at 1. rewrite skipn_app, skipn_all, Nat.sub_diag. cbn [app skipn]. rewrite Dx.
      rewrite Len, Nat.eqb_refl. reflexivity.
  - rewrite Eb in Hx. destruct x0 as [|y [|]]; try discriminate. injection Hx as ->.
    replace (code b <? 128)%N with false by lia. subst x. cbn [length] in *.
    assert (Db : decode_rune [b] = (RuneError, 1%nat)).
    { unfold decode_rune. replace (code b <? 128)%N with false by lia.
      repeat match goal with |- context [if ?c then _ else _] => destruct c end; reflexivity. }
    rewrite Db.
    destruct (decode_rune (skipn (last_start s (length s - 1) 3) s)) as [r n] eqn:Ed.
    destruct (Nat.eqb_spec (last_start s (length s - 1) 3 + n) (length s)) as [En|]; auto.
    destruct (Nat.eq_dec (length p) 0) as [Lp|Lp].
    + assert (p = []) by (destruct p; [auto|discriminate]). rewrite H in Es. cbn in Es. rewrite Es in Ed. cbn in Ed.
      unfold decode_rune in Db. rewrite Db in Ed. congruence.
    + exfalso. pose proof (last_start_lt s 3 (length s - 1) ltac:(lia) ltac:(lia)) as Ls.
      set (st := last_start s (length s - 1) 3) in *.
      destruct (encode_decode _ _ _ Ed) as (V & Ln & Eq).
      { intro Z. assert (length (skipn st s) = 0)%nat by now rewrite Z. rewrite skipn_length in H. lia. }
      { unfold bad. cbn. intros []. lia. }
      assert (Esk : skipn st s = encode_rune r).
      { rewrite <- (firstn_all (skipn st s)). rewrite skipn_length. replace (length s - st)%nat with n by lia.
        rewrite Eq, Ln, firstn_app_le, firstn_all; auto. }
      assert (Sy : symbols s = symbols (firstn st s) ++ [encode_rune r]).
      { rewrite <- (firstn_skipn st s) at 1. rewrite Esk.
        rewrite symbols_app by (rewrite <- (app_nil_r (encode_rune r)); apply bnd_encode).
        f_equal. rewrite <- (app_nil_r (encode_rune r)) at 1. now rewrite symbols_encode. }
      rewrite E in Sy. apply app_inj_tail in Sy as [_ Sy]. rewrite <- Sy in Ln. cbn in Ln. lia.
Qed.

(** StringSkipRunes. *)
Lemma skip_runes_symbols n : forall s,
  skip_runes s n = if (n <=? length (symbols s))%nat then Some (length (concat (firstn n (symbols s)))) else None.
Proof.
  induction n as [|n IH]; intro s; [reflexivity|].
  cbn [skip_runes]. destruct s as [|c s0].
  - reflexivity.
  - set (s := c :: s0). assert (NE : s <> []) by discriminate.
    pose proof (decode_size_pos s NE) as P. pose proof (decode_size_le s) as Le.
    destruct (decode_rune s) as [r k] eqn:E. cbn [snd] in *.
    replace (Nat.eqb k 0) with false by (symmetry; apply Nat.eqb_neq; lia).
    rewrite IH. rewrite (symbols_cons s) by auto. rewrite E. cbn [snd length].
    change (S n <=? S ?x)%nat with (n <=? x)%nat.
    destruct (n <=? _)%nat; [|reflexivity]. cbn [option_map firstn concat].
    rewrite app_length, firstn_length. f_equal. lia.
Qed.

Lemma skip_runes_last_symbols n : forall s,
  skip_runes_last s n = if (n <=? length (symbols s))%nat
                        then Some (length (concat (firstn (length (symbols s) - n) (symbols s)))) else None.
Proof.
  induction n as [|n IH]; intro s.
  - cbn [skip_runes_last Nat.leb]. rewrite Nat.sub_0_r, firstn_all, concat_symbols. reflexivity.
  - cbn [skip_runes_last]. destruct s as [|c s0]; [reflexivity|]. set (s := c :: s0).
    assert (NE : symbols s <> []) by (intro X; now apply symbols_eq_nil in X).
    destruct (exists_last NE) as (l & x & E). pose proof (decode_last_symbol _ _ _ E) as [D Dl].
    destruct (symbols_split _ _ _ E) as (Es & E1 & _). cbn [concat] in Es. rewrite app_nil_r in Es.
    rewrite D. destruct (decode_rune x) as [r k] eqn:Ex. cbn [snd] in Dl. subst k.
    assert (Nx : x <> []) by (apply (symbols_nonempty s); rewrite E; apply in_or_app; right; now left).
    replace (Nat.eqb (length x) 0) with false by (symmetry; apply Nat.eqb_neq; destruct x; [congruence|cbn; lia]).
    assert (F : firstn (length s - length x) s = concat l).
    { rewrite Es, app_length. replace (length (concat l) + length x - length x)%nat with (length (concat l)) by lia.
      rewrite firstn_app_le, firstn_all; auto. }
    rewrite F, IH, E1, E. rewrite app_length. cbn [length].
    replace (length l + 1)%nat with (S (length l)) by lia.
    change (S n <=? S ?x)%nat with (n <=? x)%nat.
    destruct (Nat.leb_spec n (length l)); auto. f_equal. f_equal. f_equal.
    rewrite firstn_app_le by lia. f_equal. 
Qed.
