(** Lemmas about the UTF-8 codec. *)
From Verif Require Import Model.Utf8.
From Coq Require Import Lia ZifyBool ZifyN ZifyNat.
Ltac Zify.zify_post_hook ::= Z.div_mod_to_equations.
Local Open Scope N_scope.

Lemma code_lt c : code c < 256.
Proof. unfold code. apply N_ascii_bounded. Qed.
Lemma code_byte_of n : n < 256 -> code (byte_of n) = n.
Proof. unfold code, byte_of. apply N_ascii_embedding. Qed.
Lemma byte_of_code c : byte_of (code c) = c.
Proof. unfold code, byte_of. apply ascii_N_embedding. Qed.
Lemma code_inj a b : code a = code b -> a = b.
Proof. intro H. rewrite <- (byte_of_code a), <- (byte_of_code b). now rewrite H. Qed.

Lemma decode_nil : decode_rune [] = (RuneError, 0%nat).
Proof. reflexivity. Qed.

(** Case analysis of decode_rune into its leaves. *)
Ltac decode_cases s :=
  unfold decode_rune; destruct s as [|b0 t]; [|
  destruct (code b0 <? 128) eqn:?H0; [|
  destruct ((code b0 <? 194) || (244 <? code b0)) eqn:?H1; [|
  destruct (code b0 <? 224) eqn:?H2;
   [ destruct t as [|b1 t]; [|destruct (is_cont b1) eqn:?C1]
   | destruct (code b0 <? 240) eqn:?H3;
     [ destruct t as [|b1 [|b2 t]];
        [| |match goal with |- context [if ?c then _ else _] => destruct c eqn:?C1 end]
     | destruct t as [|b1 [|b2 [|b3 t]]];
        [| | |match goal with |- context [if ?c then _ else _] => destruct c eqn:?C1 end] ]]]]].

Lemma decode_size_le s : (snd (decode_rune s) <= length s)%nat.
Proof. decode_cases s; cbn; lia. Qed.
Lemma decode_size_le4 s : (snd (decode_rune s) <= 4)%nat.
Proof. decode_cases s; cbn; lia. Qed.
Lemma decode_size_pos s : s <> [] -> (1 <= snd (decode_rune s))%nat.
Proof. decode_cases s; cbn; intros; try lia; congruence. Qed.
Lemma decode_size_0 s : snd (decode_rune s) = 0%nat <-> s = [].
Proof.
  split; intro H; [|now subst].
  destruct s; auto. pose proof (decode_size_pos (a :: s)). rewrite H in *.
  assert (1 <= 0)%nat by (apply H0; congruence). lia.
Qed.

Lemma encode_len r : Z.of_nat (length (encode_rune r)) = if valid_rune r || (r <? 2048) then rune_len r else 3%Z.
Proof.
  unfold encode_rune, rune_len.
  destruct (r <? 128) eqn:E; [replace (r <? 2048) with true by lia; now rewrite orb_true_r|].
  destruct (r <? 2048) eqn:?; [now rewrite orb_true_r|].
  destruct (valid_rune r) eqn:?; cbn; auto. destruct (r <? 65536); reflexivity.
Qed.
Lemma encode_len_valid r : valid_rune r = true -> Z.of_nat (length (encode_rune r)) = rune_len r.
Proof. intro H. rewrite encode_len, H. reflexivity. Qed.
Lemma encode_nonempty r : encode_rune r <> [].
Proof. unfold encode_rune. repeat match goal with |- context [if ?c then _ else _] => destruct c end; discriminate. Qed.
Lemma encode_len_pos r : (1 <= length (encode_rune r))%nat.
Proof. pose proof (encode_nonempty r). destruct (encode_rune r); cbn; [congruence|lia]. Qed.
Lemma encode_len_le4 r : (length (encode_rune r) <= 4)%nat.
Proof. unfold encode_rune. repeat match goal with |- context [if ?c then _ else _] => destruct c end; cbn; lia. Qed.
Lemma encode_ascii r : r < 128 -> encode_rune r = [byte_of r].
Proof. intro H. unfold encode_rune. destruct (r <? 128) eqn:?; [auto|lia]. Qed.
Lemma string_byte_ascii c : code c < 128 -> encode_rune (code c) = [c].
Proof. intro H. rewrite encode_ascii by auto. now rewrite byte_of_code. Qed.

Lemma is_cont_byte n : 128 <= n -> n <= 191 -> is_cont (byte_of n) = true.
Proof. intros. unfold is_cont. rewrite code_byte_of by lia. lia. Qed.

(** Decoding an encoded scalar value, whatever follows. *)
Lemma decode_encode r t : valid_rune r = true ->
  decode_rune (encode_rune r ++ t) = (r, length (encode_rune r)).
Proof.
  intro V. unfold encode_rune. rewrite V. unfold valid_rune in V.
  destruct (r <? 128) eqn:E1; [|destruct (r <? 2048) eqn:E2; [|cbn [negb]; destruct (r <? 65536) eqn:E3]];
    cbn [app length]; unfold decode_rune.
  - rewrite code_byte_of by lia. now rewrite E1.
  - rewrite !code_byte_of by lia.
    destruct (192 + r / 64 <? 128) eqn:?; [lia|].
    destruct ((192 + r / 64 <? 194) || (244 <? 192 + r / 64)) eqn:?; [lia|].
    destruct (192 + r / 64 <? 224) eqn:?; [|lia].
    rewrite is_cont_byte by lia. f_equal. lia.
  - rewrite !code_byte_of by lia.
    destruct (224 + r / 4096 <? 128) eqn:?; [lia|].
    destruct ((224 + r / 4096 <? 194) || (244 <? 224 + r / 4096)) eqn:?; [lia|].
    destruct (224 + r / 4096 <? 224) eqn:?; [lia|].
    destruct (224 + r / 4096 <? 240) eqn:?; [|lia].
    rewrite is_cont_byte by lia. unfold in_range. rewrite !code_byte_of by lia.
    destruct (224 + r / 4096 =? 224) eqn:?; destruct (224 + r / 4096 =? 237) eqn:?;
    match goal with |- context [if ?c then _ else _] => destruct c eqn:? end; try lia; f_equal; lia.
  - rewrite !code_byte_of by lia.
    destruct (240 + r / 262144 <? 128) eqn:?; [lia|].
    destruct ((240 + r / 262144 <? 194) || (244 <? 240 + r / 262144)) eqn:?; [lia|].
    destruct (240 + r / 262144 <? 224) eqn:?; [lia|].
    destruct (240 + r / 262144 <? 240) eqn:?; [lia|].
    rewrite !is_cont_byte by lia. unfold in_range. rewrite !code_byte_of by lia.
    destruct (240 + r / 262144 =? 240) eqn:?; destruct (240 + r / 262144 =? 244) eqn:?;
    match goal with |- context [if ?c then _ else _] => destruct c eqn:? end; try lia; f_equal; lia.
Qed.

Definition bad (d : rune * nat) : Prop := fst d = RuneError /\ snd d = 1%nat.

Lemma encode_decode s r n : decode_rune s = (r, n) -> s <> [] -> ~ bad (r, n) ->
  valid_rune r = true /\ n = length (encode_rune r) /\ s = encode_rune r ++ skipn n s.
Proof.
  unfold bad. cbn [fst snd].
  decode_cases s; intros E NE NB; inversion E; subst; clear E;
    try congruence; try (exfalso; apply NB; now split).
  - unfold valid_rune, encode_rune. rewrite H0. rewrite byte_of_code. cbn.
    split; [lia|]. split; [reflexivity|]. cbn. reflexivity.
  - unfold is_cont in C1. pose proof (code_lt b0). pose proof (code_lt b1).
    unfold valid_rune, encode_rune.
    set (r := (code b0 - 192) * 64 + (code b1 - 128)) in *.
    destruct (r <? 128) eqn:?; [subst r; lia|]. destruct (r <? 2048) eqn:?; [|subst r; lia].
    split; [lia|]. split; [reflexivity|]. cbn [skipn app].
    replace (192 + r / 64) with (code b0) by (subst r; lia).
    replace (128 + r mod 64) with (code b1) by (subst r; lia). now rewrite !byte_of_code.
  - unfold is_cont, in_range in C1. pose proof (code_lt b0). pose proof (code_lt b1). pose proof (code_lt b2).
    set (r := (code b0 - 224) * 4096 + (code b1 - 128) * 64 + (code b2 - 128)) in *.
    assert (V : valid_rune r = true).
    { unfold valid_rune. subst r. destruct (code b0 =? 224) eqn:?; destruct (code b0 =? 237) eqn:?; lia. }
    assert (128 <= code b1 <= 191) by (destruct (code b0 =? 224); destruct (code b0 =? 237); lia).
    assert (128 <= code b2 <= 191) by lia.
    unfold encode_rune. rewrite V.
    destruct (r <? 128) eqn:?; [subst r; destruct (code b0 =? 224) eqn:?; lia|].
    destruct (r <? 2048) eqn:?; [subst r; destruct (code b0 =? 224) eqn:?; lia|].
    cbn [negb]. destruct (r <? 65536) eqn:?; [|subst r; lia].
    split; [auto|]. split; [reflexivity|]. cbn [skipn app].
    replace (224 + r / 4096) with (code b0) by (subst r; lia).
    replace (128 + r / 64 mod 64) with (code b1) by (subst r; lia).
    replace (128 + r mod 64) with (code b2) by (subst r; lia). now rewrite !byte_of_code.
  - unfold is_cont, in_range in C1. pose proof (code_lt b0). pose proof (code_lt b1). pose proof (code_lt b2).
    pose proof (code_lt b3).
    set (r := (code b0 - 240) * 262144 + (code b1 - 128) * 4096 + (code b2 - 128) * 64 + (code b3 - 128)) in *.
    assert (V : valid_rune r = true).
    { unfold valid_rune. subst r. destruct (code b0 =? 240) eqn:?; destruct (code b0 =? 244) eqn:?; lia. }
    assert (128 <= code b1 <= 191) by (destruct (code b0 =? 240); destruct (code b0 =? 244); lia).
    assert (128 <= code b2 <= 191 /\ 128 <= code b3 <= 191) by lia.
    unfold encode_rune. rewrite V.
    destruct (r <? 128) eqn:?; [subst r; destruct (code b0 =? 240) eqn:?; lia|].
    destruct (r <? 2048) eqn:?; [subst r; destruct (code b0 =? 240) eqn:?; lia|].
    cbn [negb]. destruct (r <? 65536) eqn:?; [subst r; destruct (code b0 =? 240) eqn:?; lia|].
    split; [auto|]. split; [reflexivity|]. cbn [skipn app].
    replace (240 + r / 262144) with (code b0) by (subst r; lia).
    replace (128 + r / 4096 mod 64) with (code b1) by (subst r; lia).
    replace (128 + r / 64 mod 64) with (code b2) by (subst r; lia).
    replace (128 + r mod 64) with (code b3) by (subst r; lia). now rewrite !byte_of_code.
Qed.

(** The shape of an encoding: a start byte and continuation bytes. *)
Lemma encode_shape r : exists h tl, encode_rune r = h :: tl /\ is_cont h = false /\ forallb is_cont tl = true.
Proof.
  unfold encode_rune.
  destruct (r <? 128) eqn:E1; [|destruct (r <? 2048) eqn:E2; [|destruct (valid_rune r) eqn:V; cbn [negb]; [destruct (r <? 65536) eqn:E3|]]];
    eexists _, _; (split; [reflexivity|]); cbn [forallb]; rewrite ?is_cont_byte by lia; unfold is_cont;
    try (unfold valid_rune in V); rewrite !code_byte_of by lia; lia.
Qed.

(** A decoded symbol never starts inside the continuation bytes of another one: a width above 1
    means the bytes after the first are continuation bytes. *)
Lemma decode_conts s : forallb is_cont (skipn 1 (firstn (snd (decode_rune s)) s)) = true.
Proof.
  destruct (decode_rune s) as [r n] eqn:E. cbn [snd].
  destruct s as [|b s]; [now rewrite firstn_nil|].
  destruct (Nat.eq_dec n 1) as [->|N1]; [reflexivity|].
  destruct (encode_decode _ _ _ E) as (V & L & Eq); [discriminate|now intros []|].
  rewrite Eq, L, firstn_app, firstn_all, Nat.sub_diag, firstn_O, app_nil_r.
  destruct (encode_shape r) as (h & tl & -> & _ & C). exact C.
Qed.

(** Decoding depends only on the bytes it consumes. *)
Lemma decode_firstn s t : s <> [] -> snd (decode_rune (s ++ t)) = length s -> decode_rune s = decode_rune (s ++ t).
Proof.
  intros NE H. destruct (decode_rune (s ++ t)) as [r n] eqn:E. cbn [snd] in H. subst n.
  destruct (Nat.eq_dec (length s) 1) as [L1|L1].
  - destruct s as [|b [|]]; try discriminate. revert E. cbn [app length].
    unfold decode_rune.
    repeat match goal with |- context [if ?c then _ else _] => destruct c end; intro E; inversion E; auto.
    all: repeat match goal with H : context [match ?c with _ => _ end] |- _ => destruct c; try discriminate end.
    all: try (inversion E; reflexivity).
  - destruct (encode_decode _ _ _ E) as (V & L & Eq).
    + destruct s; [congruence|discriminate].
    + unfold bad; cbn; now intros [].
    + assert (s = encode_rune r).
      { assert (firstn (length s) (s ++ t) = firstn (length s) (encode_rune r ++ skipn (length s) (s ++ t))) by now rewrite <- Eq.
        rewrite firstn_app, firstn_all, Nat.sub_diag, firstn_O, app_nil_r in H.
        rewrite L, firstn_app, firstn_all, Nat.sub_diag, firstn_O, app_nil_r in H. exact H. }
      rewrite H. pose proof (decode_encode r [] V) as D. rewrite app_nil_r in D. exact D.
Qed.

(** Removing bytes after a malformed start leaves it malformed. *)
Lemma decode_bad_prefix b s t : bad (decode_rune (b :: s ++ t)) -> bad (decode_rune (b :: s)).
Proof.
  intros B. destruct (decode_rune (b :: s)) as [r n] eqn:E.
  destruct (N.eq_dec r RuneError) as [->|NR]; [destruct (Nat.eq_dec n 1) as [->|N1]; [now split|]|].
  all: destruct (encode_decode _ _ _ E) as (V & L & Eq); [discriminate|unfold bad; cbn; tauto|].
  all: rewrite app_comm_cons, Eq, <- app_assoc, decode_encode in B by auto; unfold bad in B; cbn [fst snd] in B.
  - rewrite <- L in B. tauto.
  - tauto.
Qed.
