(** C05-C12: character classes. *)
From Verif Require Import Model.Ranges Spec.Symbols Spec.Class Spec.SetSpec Spec.ClassOps.
From Verif Require Import Proof.Utf8P Proof.SymbolsP Proof.SkipP Proof.AsciiSetP Proof.SortP Proof.MergeP Proof.MergeNulP Proof.RangesP
  Proof.ClassPrintP Proof.ClassSearchP Proof.UtilsTop.
From Verif Require Import Proof.RangesTop.
Local Open Scope N_scope.

(** C05: the printed form of a set, put in brackets and read as a class, is the same set; the set has no
    NUL and no DEL, and a '-' in it has both its neighbours ',' and '.' (so no printed run starts or ends with '-'). *)
Theorem c05_print_reread : forall cs : str,
  let a := set_of_adds cs in
  as_contains a (byte_of 0) = false -> as_contains a (byte_of 127) = false ->
  (as_contains a "-" = true -> as_contains a "," = true /\ as_contains a "." = true) ->
  exists rs, ranges_expand (bracketed (as_write a)) = Some rs /\ rr_ascii rs = a /\ rr_unicode rs = [].
Proof. exact c05_print_reread_l. Qed.
Print Assumptions c05_print_reread.

Example c05_example : let a := set_of_adds (B "xyza01,-.") in
  as_contains a (byte_of 0) = false /\ as_contains a (byte_of 127) = false /\ as_contains a "-" = true /\
  as_contains a "," = true /\ as_contains a "." = true /\ as_write a = B ",-.0-1ax-z".
Proof. vm_compute. auto 10. Qed.

(** Without the DEL condition the claim is false: the upper end of a run that reaches DEL is lost. *)
Theorem c05_del_refuted : exists cs : str,
  let a := set_of_adds cs in
  as_contains a (byte_of 0) = false /\
  forall rs, ranges_expand (bracketed (as_write a)) = Some rs -> rr_ascii rs <> a.
Proof. exact c05_del_refuted_l. Qed.
Print Assumptions c05_del_refuted.

(** C06: the result is sorted, disjoint and non-adjacent, and covers exactly the same runes. *)
Theorem c06_merge : forall l : list rrange,
  (forall q, In q l -> First q <= Last q /\ 0 < Last q) ->
  (forall q, In q (ranges_merge l) -> First q <= Last q) /\
  (forall i j, (i < j < length (ranges_merge l))%nat ->
     Last (nth i (ranges_merge l) range0) + 1 < First (nth j (ranges_merge l) range0)) /\
  forall r, (exists q, In q (ranges_merge l) /\ First q <= r <= Last q) <-> (exists q, In q l /\ First q <= r <= Last q).
Proof. exact c06_merge_l. Qed.
Print Assumptions c06_merge.

(** C06: The same without excluding ranges that consist of NUL only: NUL itself is kept only together
    with its successor. *)
Theorem c06_nul : forall l : list rrange,
  (forall q, In q l -> First q <= Last q) ->
  (forall q, In q (ranges_merge l) -> First q <= Last q) /\
  (forall i j, (i < j < length (ranges_merge l))%nat ->
     Last (nth i (ranges_merge l) range0) + 1 < First (nth j (ranges_merge l) range0)) /\
  forall r, (exists q, In q (ranges_merge l) /\ First q <= r <= Last q) <->
    (exists q, In q l /\ First q <= r <= Last q) /\ (r = 0 -> exists q, In q l /\ First q <= 1 <= Last q).
Proof. exact c06_nul_l. Qed.
Print Assumptions c06_nul.

Example c06_example : ranges_merge [mkRange 30 40; mkRange 5 9; mkRange 41 50; mkRange 8 12; mkRange 7 7]
  = [mkRange 5 12; mkRange 30 50].
Proof. reflexivity. Qed.

(** C07: lookup in any sorted list of disjoint ranges. *)
Theorem c07_contains_sorted : forall (rs : rranges) (c : rune),
  (forall q, In q (rr_unicode rs) -> First q <= Last q /\ 127 < First q) ->
  (forall i j, (i < j < length (rr_unicode rs))%nat ->
     Last (nth i (rr_unicode rs) range0) < First (nth j (rr_unicode rs) range0)) ->
  (rr_contains rs c = true <->
   (c <= 127 /\ as_contains (rr_ascii rs) (byte_of c) = true) \/ (exists q, In q (rr_unicode rs) /\ First q <= c <= Last q)).
Proof. exact c07_contains_sorted_l. Qed.
Print Assumptions c07_contains_sorted.

(** C07 for every history: a class read from text, then any sequence of Add, Adds and Merge calls, then
    Merge, contains exactly the runes of the text and the added runes. *)
Theorem c07_history : forall (body : str) (rs0 : rranges) (ops : list rr_op) (r : rune),
  clean body -> ranges_expand (bracketed body) = Some rs0 ->
  (rr_contains (rr_merge (fold_left rr_do ops rs0)) r = true <-> In r (flat_map rr_added ops) \/ in_class body r).
Proof. exact c07_history_l. Qed.
Print Assumptions c07_history.

Example c07_example : exists rs, ranges_expand (B "[a-cж-щ]") = Some rs /\
  let rs' := rr_merge (fold_left rr_do [OpAdd 233; OpMerge; OpAdds (B "zя"); OpAdd 1200] rs) in
  map (rr_contains rs') [98; 100; 233; 122; 1103; 1080; 1200; 1201] = [true; false; true; true; true; true; true; false]
  /\ length (rr_unicode rs') = 4%nat.
Proof. eexists. split; [vm_compute; reflexivity|]. vm_compute. auto. Qed.

(** C08: the members are exactly the runes the body denotes. *)
Theorem c08_denotes : forall (body : str) (rs : rranges), clean body -> ranges_expand (bracketed body) = Some rs ->
  forall r, rr_contains rs r = true <-> in_class body r.
Proof. exact c08_denotes_l. Qed.
Print Assumptions c08_denotes.

Example c08_example : exists rs, ranges_expand (bracketed (B "-a-cx--é")) = None /\
  ranges_expand (bracketed (B "-a-cx-zж-")) = Some rs /\
  map (rr_contains rs) [45; 97; 98; 99; 100; 121; 1078] = [false; true; true; true; false; true; true].
Proof. eexists. split; [vm_compute; reflexivity|]. split; vm_compute; reflexivity. Qed.
Example c08_pairs : class_pairs [45; 97; 45; 99; 120] [(97, 99); (120, 120)].
Proof. apply cp_dash. apply (cp_range 97 [45] 99); try discriminate; repeat constructor; discriminate. Qed.

(** C08: failure, exactly on a reversed interval or one whose ends have different encoded lengths ... *)
Theorem c08_fails : forall body : str, clean body -> (ranges_expand (bracketed body) = None <-> ~ good_class body).
Proof. exact c08_fails_l. Qed.
Print Assumptions c08_fails.

(** ... and on text that is not bracketed. *)
Theorem c08_unbracketed : forall s : str, (forall body, s <> bracketed body) -> ranges_expand s = None.
Proof. exact c08_unbracketed_l. Qed.
Print Assumptions c08_unbracketed.

(** U+FFFD itself cannot be listed in a class: the code uses it as a marker. *)
Theorem c08_replacement_refuted : exists rs,
  ranges_expand (bracketed (encode_rune RuneError)) = Some rs /\ rr_contains rs RuneError = false /\
  class_pairs [RuneError] [(RuneError, RuneError)].
Proof. exact c08_replacement_refuted_l. Qed.
Print Assumptions c08_replacement_refuted.

(** C09: the size bounds are exact. *)
Theorem c09_sizes : forall (body : str) (rs : rranges), clean body -> ranges_expand (bracketed body) = Some rs ->
  (forall r, valid_rune r = true -> in_class body r ->
     (rr_min rs <= Z.of_nat (length (encode_rune r)) <= rr_max rs)%Z) /\
  ((rr_min rs = 0%Z /\ rr_max rs = 0%Z /\ forall r, ~ in_class body r) \/
   ((exists r, scalar r /\ in_class body r /\ Z.of_nat (length (encode_rune r)) = rr_min rs) /\
    (exists r, scalar r /\ in_class body r /\ Z.of_nat (length (encode_rune r)) = rr_max rs))).
Proof. exact c09_sizes_l. Qed.
Print Assumptions c09_sizes.

Example c09_example : exists rs, ranges_expand (bracketed (B "aж")) = Some rs /\ rr_min rs = 1%Z /\ rr_max rs = 2%Z.
Proof. eexists. split; [vm_compute; reflexivity|]. split; reflexivity. Qed.

(** C10: Index finds the first member symbol. *)
Theorem c10_index : forall (body : str) (rs : rranges) (s : str), clean body -> ranges_expand (bracketed body) = Some rs ->
  (forall r, in_class body r -> r < 128) \/ clean s ->
  (forall p r n, rr_index rs s = Some (p, r, n) <->
     exists pre post, symbols s = pre ++ encode_rune r :: post /\ p = length (concat pre) /\ n = length (encode_rune r) /\
       scalar r /\ in_class body r /\
       forall r', scalar r' -> in_class body r' -> ~ In (encode_rune r') pre) /\
  (rr_index rs s = None <-> forall r, scalar r -> in_class body r -> ~ In (encode_rune r) (symbols s)).
Proof. exact c10_index_l. Qed.
Print Assumptions c10_index.

(** C10: StartsWith looks at the first symbol (any byte string). *)
Theorem c10_starts_with : forall (body : str) (rs : rranges) (s : str), clean body -> ranges_expand (bracketed body) = Some rs ->
  (forall r n, rr_starts_with rs s = (r, Some n) <->
     scalar r /\ in_class body r /\ n = length (encode_rune r) /\ exists post, symbols s = encode_rune r :: post) /\
  (snd (rr_starts_with rs s) = None <->
     forall r post, scalar r -> in_class body r -> symbols s <> encode_rune r :: post).
Proof. exact c10_starts_with_l. Qed.
Print Assumptions c10_starts_with.

Example c10_example : exists rs, ranges_expand (bracketed (B "xж")) = Some rs /\
  rr_index rs (B "aéжx") = Some (3%nat, 1078, 2%nat) /\ rr_index rs (B "aé") = None /\
  rr_starts_with rs (B "жa") = (1078, Some 2%nat) /\ snd (rr_starts_with rs (B "aж")) = None.
Proof. eexists. split; [vm_compute; reflexivity|]. vm_compute. auto. Qed.

(** A class with non-ASCII members is not found behind a malformed byte. *)
Theorem c10_malformed_refuted : exists body rs s r, clean body /\ ranges_expand (bracketed body) = Some rs /\
  in_class body r /\ scalar r /\ In (encode_rune r) (symbols s) /\ rr_index rs s = None.
Proof. exact c10_malformed_refuted_l. Qed.
Print Assumptions c10_malformed_refuted.

(** C10: Index of a class with a non-ASCII member, on any string: the first member is found exactly when nothing malformed (and no
    U+FFFD) stands before it. *)
Theorem c10_index_any : forall (body : str) (rs : rranges) (s : str), clean body -> ranges_expand (bracketed body) = Some rs ->
  (exists r, in_class body r /\ 128 <= r) ->
  forall p r n, rr_index rs s = Some (p, r, n) <->
    exists pre post, symbols s = pre ++ encode_rune r :: post /\ p = length (concat pre) /\ n = length (encode_rune r) /\
      scalar r /\ in_class body r /\ forall x, In x pre -> exists r', scalar r' /\ x = encode_rune r' /\ ~ in_class body r'.
Proof. exact c10_index_any_l. Qed.
Print Assumptions c10_index_any.

Example c10_any_example : exists rs, ranges_expand (bracketed (B "xж")) = Some rs /\ (exists r, in_class (B "xж") r /\ 128 <= r) /\
  rr_index rs (B "aéж" ++ [byte_of 255] ++ B "x") = Some (3%nat, 1078, 2%nat) /\ rr_index rs (byte_of 255 :: B "x") = None.
Proof.
  eexists. split; [vm_compute; reflexivity|]. split; [|vm_compute; auto]. exists 1078. split; [|lia].
  exists [120; 1078], [(120, 120); (1078, 1078)]. split; [|split; [reflexivity|split]].
  - repeat constructor; discriminate.
  - apply cp_single; [discriminate|intros d t X; injection X as <- _; discriminate|]. apply cp_last; [discriminate|constructor].
  - exists 1078, 1078. split; [cbn; auto|lia].
Qed.

(** C11: EndsWith succeeds exactly when the last symbol is a member and returns it; the number it returns is the offset of a
    non-ASCII symbol, but always 1 for an ASCII symbol. *)
Theorem c11_ends_with : forall (body : str) (rs : rranges) (s : str), clean body -> ranges_expand (bracketed body) = Some rs ->
  (forall r n, rr_ends_with rs s = (r, Some n) <->
     scalar r /\ in_class body r /\ exists pre, symbols s = pre ++ [encode_rune r] /\
       (128 <= r -> n = length (concat pre)) /\ (r < 128 -> n = 1%nat)) /\
  (snd (rr_ends_with rs s) = None <->
     forall r pre, scalar r -> in_class body r -> symbols s <> pre ++ [encode_rune r]).
Proof. exact c11_ends_with_l. Qed.
Print Assumptions c11_ends_with.

Example c11_example : exists rs, ranges_expand (bracketed (B "xж")) = Some rs /\
  rr_ends_with rs (B "aéж") = (1078, Some 3%nat) /\ rr_ends_with rs (B "aéx") = (120, Some 1%nat) /\ snd (rr_ends_with rs (B "xa")) = None.
Proof. eexists. split; [vm_compute; reflexivity|]. vm_compute. auto. Qed.

(** C11 is false for ASCII members: the returned offset is 1 instead of the start of the last symbol. *)
Theorem c11_ascii_refuted : exists body rs s pre, clean body /\ ranges_expand (bracketed body) = Some rs /\
  symbols s = pre ++ [encode_rune 99] /\ in_class body 99 /\
  rr_ends_with rs s = (99, Some 1%nat) /\ length (concat pre) = 2%nat.
Proof. exact c11_ascii_refuted_l. Qed.
Print Assumptions c11_ascii_refuted.

(** C12: IndexByte of a class with ASCII members only is Index. *)
Theorem c12_ascii : forall (body : str) (rs : rranges) (s : str), clean body -> ranges_expand (bracketed body) = Some rs ->
  (forall r, in_class body r -> r < 128) -> forall fuel, rr_index_byte fuel rs s = Ok (rr_index rs s).
Proof. exact c12_ascii_l. Qed.
Print Assumptions c12_ascii.

(** C12: IndexByte of another class hangs, whatever the number of steps, exactly when it meets an ASCII byte that is no member before
    it meets a member or something malformed; otherwise it returns what Index returns. *)
Theorem c12_exact : forall (body : str) (rs : rranges) (s : str), clean body -> ranges_expand (bracketed body) = Some rs ->
  (exists r, in_class body r /\ 128 <= r) ->
  ((exists pre b post, symbols s = pre ++ [b] :: post /\ code b < 128 /\ ~ in_class body (code b) /\
      forall x, In x pre -> exists r, scalar r /\ x = encode_rune r /\ ~ in_class body r) /\
   (forall fuel, rr_index_byte fuel rs s = Fuel)) \/
  (~ (exists pre b post, symbols s = pre ++ [b] :: post /\ code b < 128 /\ ~ in_class body (code b) /\
      forall x, In x pre -> exists r, scalar r /\ x = encode_rune r /\ ~ in_class body r) /\
   forall fuel, (length s < fuel)%nat -> rr_index_byte fuel rs s = Ok (rr_index rs s)).
Proof. exact c12_exact_l. Qed.
Print Assumptions c12_exact.

Example c12_example : exists rs, ranges_expand (bracketed (B "xж")) = Some rs /\ (exists r, in_class (B "xж") r /\ 128 <= r) /\
  rr_index_byte 9 rs (B "éжa") = Ok (Some (2%nat, 1078, 2%nat)) /\ rr_index_byte 9 rs (B "éaж") = Fuel.
Proof.
  eexists. split; [vm_compute; reflexivity|]. split; [|vm_compute; auto]. exists 1078. split; [|lia].
  exists [120; 1078], [(120, 120); (1078, 1078)]. split; [|split; [reflexivity|split]].
  - repeat constructor; discriminate.
  - apply cp_single; [discriminate|intros d t X; injection X as <- _; discriminate|]. apply cp_last; [discriminate|constructor].
  - exists 1078, 1078. split; [cbn; auto|lia].
Qed.

(** C12 is false in general: IndexByte never returns on an ASCII byte that is not a member. *)
Theorem c12_hang_refuted : exists body rs s, clean body /\ ranges_expand (bracketed body) = Some rs /\
  rr_index rs s = Some (1%nat, 233, 2%nat) /\ forall fuel, rr_index_byte fuel rs s = Fuel.
Proof. exact c12_hang_refuted_l. Qed.
Print Assumptions c12_hang_refuted.

(** The same for whole parsed classes: printing and re-reading gives back the identical value.  The two
    extra conditions exclude ranges that were merged across a change of encoded length. *)
Theorem c05_class_reread : forall (body : str) (rs : rranges), clean body -> ranges_expand (bracketed body) = Some rs ->
  ~ in_class body 0 -> ~ in_class body 127 -> (in_class body 45 -> in_class body 44 /\ in_class body 46) ->
  ~ (in_class body 2047 /\ in_class body 2048) -> ~ (in_class body 65535 /\ in_class body 65536) ->
  ranges_expand (rr_write rs) = Some rs.
Proof. exact c05_class_reread_l. Qed.
Print Assumptions c05_class_reread.

Example c05_class_example : exists rs, ranges_expand (B "[z0-9a-yé-ü]") = Some rs /\ rr_write rs = B "[0-9a-zé-ü]" /\
  ranges_expand (rr_write rs) = Some rs.
Proof. eexists. split; [vm_compute; reflexivity|]. split; vm_compute; reflexivity. Qed.

(** Without them it is false: the printed text is rejected. *)
Theorem c05_class_reread_refuted : exists body rs, clean body /\ ranges_expand (bracketed body) = Some rs /\
  ~ in_class body 0 /\ ~ in_class body 127 /\ ~ in_class body 45 /\ ranges_expand (rr_write rs) = None.
Proof. exact c05_class_reread_refuted_l. Qed.
Print Assumptions c05_class_reread_refuted.
