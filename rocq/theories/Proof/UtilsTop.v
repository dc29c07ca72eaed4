(** The statements of Props/PUtils.v. *)
From Verif Require Import Model.Utils Spec.Symbols Spec.SetSpec.
From Verif Require Import Proof.Utf8P Proof.SymbolsP Proof.SkipP Proof.AsciiSetP.
From Coq Require Import Lia ZifyBool ZifyN ZifyNat.

Lemma symbols_sane_l : forall s,
  concat (symbols s) = s /\
  (forall rs, Forall (fun r => valid_rune r = true) rs -> s = encode_all rs -> symbols s = map encode_rune rs) /\
  (forall x, In x (symbols s) -> (exists r, valid_rune r = true /\ x = encode_rune r) \/ exists b, x = [b]).
Proof.
  intro s. split; [apply concat_symbols|]. split.
  - intros rs F ->. now apply symbols_encode_all.
  - intros x I. apply symbol_cases in I as [I|(b & -> & _)]; eauto.
Qed.

Lemma c01_skip_runes_l : forall (s : str) (n : nat),
  (n <= length (symbols s) -> skip_runes s n = Some (length (concat (firstn n (symbols s))))) /\
  (length (symbols s) < n -> skip_runes s n = None).
Proof.
  intros s n. rewrite skip_runes_symbols. destruct (Nat.leb_spec n (length (symbols s))); split; intros; auto; lia.
Qed.

Lemma c01_skip_runes_last_l : forall (s : str) (n : nat),
  (n <= length (symbols s) ->
   exists off, skip_runes_last s n = Some off /\
     skipn off s = concat (skipn (length (symbols s) - n) (symbols s)) /\
     firstn off s = concat (firstn (length (symbols s) - n) (symbols s)) /\ off <= length s) /\
  (length (symbols s) < n -> skip_runes_last s n = None).
Proof.
  intros s n. rewrite skip_runes_last_symbols. destruct (Nat.leb_spec n (length (symbols s))); split; intros; auto; try lia.
  eexists. split; [reflexivity|]. set (k := length (symbols s) - n).
  assert (E : s = concat (firstn k (symbols s)) ++ concat (skipn k (symbols s))).
  { rewrite <- concat_app, firstn_skipn. symmetry. apply concat_symbols. }
  revert E. generalize (firstn k (symbols s)) (skipn k (symbols s)). intros x y ->.
  rewrite skipn_app, skipn_all, Nat.sub_diag, firstn_app, firstn_all, Nat.sub_diag.
  cbn. rewrite app_nil_r. repeat split; auto. rewrite app_length. lia.
Qed.

Lemma set_of_adds_eq cs : set_of_adds cs = adds as_empty cs.
Proof. reflexivity. Qed.
Lemma set_of_adds_ok cs : as_ok (set_of_adds cs).
Proof. apply (as_ok_adds cs as_empty as_ok_empty). Qed.

Lemma c02_contains_l : forall (cs : str) (c : ascii),
  as_contains (set_of_adds cs) c = true <-> In c cs /\ is_ascii c.
Proof.
  intros cs c. rewrite set_of_adds_eq, contains_adds by apply as_ok_empty. rewrite contains_empty, orb_false_r, andb_true_iff.
  rewrite existsb_exists. unfold is_ascii. rewrite N.ltb_lt. split.
  - intros [(x & I & E) L]. apply Ascii.eqb_eq in E as ->. auto.
  - intros [I L]. split; auto. exists c. now rewrite Ascii.eqb_refl.
Qed.

Lemma c02_add_l : forall (cs : str) (c : ascii),
  (snd (as_add (set_of_adds cs) c) = true <-> is_ascii c) /\
  (~ is_ascii c -> as_add (set_of_adds cs) c = (set_of_adds cs, false)).
Proof.
  intros cs c. unfold as_add, is_ascii, RuneSelf. destruct (N.leb_spec 128 (code c)); cbn [snd]; split; try split; intros; auto; try lia; discriminate.
Qed.

Lemma c02_make_l : forall (cs : str),
  (snd (make_ascii_set cs) = true <-> Forall is_ascii cs) /\
  (Forall is_ascii cs -> make_ascii_set_must cs = Ok (fst (make_ascii_set cs))
     /\ forall c, as_contains (fst (make_ascii_set cs)) c = true <-> In c cs) /\
  (~ Forall is_ascii cs -> make_ascii_set_must cs = Panic).
Proof.
  intro cs. unfold make_ascii_set_must, make_ascii_set. destruct (make_from cs as_empty as_ok_empty) as [A C].
  assert (F : forallb (fun c => (code c <? 128)%N) cs = true <-> Forall is_ascii cs).
  { rewrite forallb_forall, Forall_forall. unfold is_ascii. split; intros H x I; apply N.ltb_lt; auto. }
  destruct (make_ascii_set_from as_empty cs) as [a ok]. cbn [fst snd] in *. subst ok. rewrite <- F.
  split; [tauto|]. split.
  - intro E. rewrite E. split; auto. rewrite C by auto. intro c. rewrite <- set_of_adds_eq, c02_contains_l.
    apply F in E. rewrite Forall_forall in E. split; [tauto|]. auto.
  - intro E. destruct (forallb _ cs); auto. now elim E.
Qed.

Lemma c03_index_l : forall (a : ascii_set) (s : str) (i : nat),
  (as_index a s = Some i <->
     i < length s /\ as_contains a (nth i s zero) = true /\
     forall j, j < i -> as_contains a (nth j s zero) = false) /\
  (as_index a s = None <-> forall c, In c s -> as_contains a c = false).
Proof. intros. split; [apply find_byte_some|apply find_byte_none]. Qed.

Lemma c03_last_index_l : forall (a : ascii_set) (s : str) (i : nat),
  (as_last_index a s = Some i <->
     i < length s /\ as_contains a (nth i s zero) = true /\
     forall j, i < j < length s -> as_contains a (nth j s zero) = false) /\
  (as_last_index a s = None <-> forall c, In c s -> as_contains a c = false).
Proof. intros. split; [apply as_last_index_some|apply as_last_index_none]. Qed.

Lemma c04_count_l : forall (cs members : str),
  NoDup members ->
  (forall c, In c members <-> (In c cs /\ is_ascii c /\ c <> zero)) ->
  fst (as_count (set_of_adds cs)) = length members /\
  (members = [] -> snd (as_count (set_of_adds cs)) = zero) /\
  (members <> [] -> In (snd (as_count (set_of_adds cs))) members /\
     forall c, In c members -> (code (snd (as_count (set_of_adds cs))) <= code c)%N).
Proof.
  intros cs ms ND M. pose proof (set_of_adds_ok cs) as O.
  assert (M' : forall c, In c ms <-> as_contains (set_of_adds cs) c = true /\ c <> zero).
  { intro c. rewrite M, c02_contains_l. tauto. }
  destruct (count_first _ O) as [F1 F2]. pose proof (count_spec _ ms O ND M') as F0.
  revert F0 F1 F2 M'. generalize (as_count (set_of_adds cs)) (as_contains (set_of_adds cs)). clear.
  intros [n f] con. cbn [fst snd]. intros F0 F1 F2 M'. split; [|split]; auto.
  - intros ->. apply F2. intros c H. destruct (ascii_dec c zero); auto. exfalso. now apply (M' c).
  - intro NE. destruct ms as [|m ms]; [congruence|].
    destruct (proj1 (M' m) (or_introl eq_refl)) as [H1 H2]. destruct (F1 m H1 H2) as (_ & H3 & H4).
    split; [apply (proj2 (M' _)); auto|]. intros c I. apply M' in I as [I1 I2]. now apply (F1 c).
Qed.

Lemma c04_is_empty_l : forall (cs : str),
  as_is_empty (set_of_adds cs) = true <-> (forall c, In c cs -> ~ is_ascii c).
Proof.
  intro cs. rewrite is_empty_iff by apply set_of_adds_ok. split.
  - intros H c I A. specialize (H c). assert (as_contains (set_of_adds cs) c = true) by now apply c02_contains_l. congruence.
  - intros H c. destruct (as_contains (set_of_adds cs) c) eqn:E; auto. apply c02_contains_l in E as [I A]. now elim (H c I).
Qed.

Lemma c04_count_all_members_refuted_l : exists cs members,
  NoDup members /\ (forall c, In c members <-> In c cs /\ is_ascii c) /\
  fst (as_count (set_of_adds cs)) <> length members.
Proof.
  exists [zero], [zero]. split; [repeat constructor; auto|]. split; [|vm_compute; discriminate].
  intro c. cbn. unfold is_ascii. split; [|tauto]. intros [<-|[]]. split; [auto|reflexivity].
Qed.
