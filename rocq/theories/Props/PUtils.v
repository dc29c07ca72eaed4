(** C01-C04: symbol skipping and ASCII sets. *)
From Verif Require Import Model.Utils Spec.Symbols Spec.SetSpec.
From Verif Require Import Proof.Utf8P Proof.SymbolsP Proof.SkipP Proof.AsciiSetP Proof.UtilsTop.

(** Sanity of the specification of symbols: they cut the string into pieces, the pieces of encoded
    text are the encodings, and every piece is an encoding or one byte. *)
Theorem symbols_sane : forall s,
  concat (symbols s) = s /\
  (forall rs, Forall (fun r => valid_rune r = true) rs -> s = encode_all rs -> symbols s = map encode_rune rs) /\
  (forall x, In x (symbols s) -> (exists r, valid_rune r = true /\ x = encode_rune r) \/ exists b, x = [b]).
Proof. exact symbols_sane_l. Qed.
Print Assumptions symbols_sane.

(** C01 *)
Theorem c01_skip_runes : forall (s : str) (n : nat),
  (n <= length (symbols s) -> skip_runes s n = Some (length (concat (firstn n (symbols s))))) /\
  (length (symbols s) < n -> skip_runes s n = None).
Proof. exact c01_skip_runes_l. Qed.
Print Assumptions c01_skip_runes.

Theorem c01_skip_runes_last : forall (s : str) (n : nat),
  (n <= length (symbols s) ->
   exists off, skip_runes_last s n = Some off /\
     skipn off s = concat (skipn (length (symbols s) - n) (symbols s)) /\
     firstn off s = concat (firstn (length (symbols s) - n) (symbols s)) /\ off <= length s) /\
  (length (symbols s) < n -> skip_runes_last s n = None).
Proof. exact c01_skip_runes_last_l. Qed.
Print Assumptions c01_skip_runes_last.

(** "aé" followed by a stray continuation byte: three symbols of 1, 2 and 1 bytes. *)
Example c01_example : let s := B "aé" ++ [byte_of 128] in
  length (symbols s) = 3 /\ length s = 4 /\ skip_runes s 2 = Some 3 /\ skip_runes_last s 2 = Some 1
  /\ skip_runes s 4 = None.
Proof. vm_compute. auto. Qed.

(** C02 *)
Theorem c02_contains : forall (cs : str) (c : ascii),
  as_contains (set_of_adds cs) c = true <-> In c cs /\ is_ascii c.
Proof. exact c02_contains_l. Qed.
Print Assumptions c02_contains.

Theorem c02_add : forall (cs : str) (c : ascii),
  (snd (as_add (set_of_adds cs) c) = true <-> is_ascii c) /\
  (~ is_ascii c -> as_add (set_of_adds cs) c = (set_of_adds cs, false)).
Proof. exact c02_add_l. Qed.
Print Assumptions c02_add.

Theorem c02_make : forall (cs : str),
  (snd (make_ascii_set cs) = true <-> Forall is_ascii cs) /\
  (Forall is_ascii cs -> make_ascii_set_must cs = Ok (fst (make_ascii_set cs))
     /\ forall c, as_contains (fst (make_ascii_set cs)) c = true <-> In c cs) /\
  (~ Forall is_ascii cs -> make_ascii_set_must cs = Panic).
Proof. exact c02_make_l. Qed.
Print Assumptions c02_make.

Example c02_example : as_contains (set_of_adds (B "x]~")) "]" = true /\ as_contains (set_of_adds (B "x]~")) "[" = false
  /\ is_ascii "]"%char /\ ~ is_ascii (byte_of 200) /\ Forall is_ascii (B "x]~").
Proof. split; [reflexivity|]. split; [reflexivity|]. unfold is_ascii. split; [reflexivity|]. split; [discriminate|]. repeat constructor. Qed.

(** C03 (Index and IndexByte are the same loop over the same bytes; so are LastIndex and
    LastIndexByte). *)
Theorem c03_index : forall (a : ascii_set) (s : str) (i : nat),
  (as_index a s = Some i <->
     i < length s /\ as_contains a (nth i s zero) = true /\
     forall j, j < i -> as_contains a (nth j s zero) = false) /\
  (as_index a s = None <-> forall c, In c s -> as_contains a c = false).
Proof. exact c03_index_l. Qed.
Print Assumptions c03_index.

Theorem c03_last_index : forall (a : ascii_set) (s : str) (i : nat),
  (as_last_index a s = Some i <->
     i < length s /\ as_contains a (nth i s zero) = true /\
     forall j, i < j < length s -> as_contains a (nth j s zero) = false) /\
  (as_last_index a s = None <-> forall c, In c s -> as_contains a c = false).
Proof. exact c03_last_index_l. Qed.
Print Assumptions c03_last_index.

Example c03_example : as_index (set_of_adds (B "bc")) (B "xabacx") = Some 2
  /\ as_last_index (set_of_adds (B "bc")) (B "xabacx") = Some 4.
Proof. now vm_compute. Qed.

(** C04: [members] is any enumeration of the members other than NUL. *)
Theorem c04_count : forall (cs members : str),
  NoDup members ->
  (forall c, In c members <-> (In c cs /\ is_ascii c /\ c <> zero)) ->
  fst (as_count (set_of_adds cs)) = length members /\
  (members = [] -> snd (as_count (set_of_adds cs)) = zero) /\
  (members <> [] -> In (snd (as_count (set_of_adds cs))) members /\
     forall c, In c members -> (code (snd (as_count (set_of_adds cs))) <= code c)%N).
Proof. exact c04_count_l. Qed.
Print Assumptions c04_count.

Theorem c04_is_empty : forall (cs : str),
  as_is_empty (set_of_adds cs) = true <-> (forall c, In c cs -> ~ is_ascii c).
Proof. exact c04_is_empty_l. Qed.
Print Assumptions c04_is_empty.

(** The number Count returns is not the number of members when NUL is one of them. *)
Theorem c04_count_all_members_refuted : exists cs members,
  NoDup members /\ (forall c, In c members <-> In c cs /\ is_ascii c) /\
  fst (as_count (set_of_adds cs)) <> length members.
Proof. exact c04_count_all_members_refuted_l. Qed.
Print Assumptions c04_count_all_members_refuted.

Example c04_example : NoDup (B "ab") /\ as_count (set_of_adds (zero :: B "bab")) = (2, "a"%char).
Proof. split; [|reflexivity]. repeat constructor; cbn; intuition discriminate. Qed.
