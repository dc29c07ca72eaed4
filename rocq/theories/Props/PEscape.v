(** C51-C56: escaping and unescaping. *)
From Verif Require Import Model.Escape Spec.Url.
From Verif Require Import Proof.EscapeP.
From Verif Require Import Proof.EscapeTop.


(** C51: decoding an escaped query gives the original bytes. *)
Theorem c51_query_round_trip : forall s : str, unescape (query s) = s.
Proof. exact c51_query_round_trip_l. Qed.
Print Assumptions c51_query_round_trip.

Example c51_example : query (B "a b+c%d/é?") = B "a+b%2Bc%25d%2F%C3%A9%3F" /\ unescape (B "a+b%2Bc%25d%2F%C3%A9%3F") = B "a b+c%d/é?".
Proof. vm_compute. auto. Qed.

(** C52: the same for paths that contain no '+'. *)
Theorem c52_path_round_trip : forall s : str, ~ In "+"%char s -> unescape (path s) = s.
Proof. exact c52_path_round_trip_l. Qed.
Print Assumptions c52_path_round_trip.

Example c52_example : ~ In "+"%char (B "a b%d/é?") /\ path (B "a b%d/é?") = B "a%20b%25d/%C3%A9%3F".
Proof. split; [cbn; intuition discriminate|reflexivity]. Qed.

(** ... and only for those: any path with a '+' is changed by the round trip. *)
Theorem c52_plus_refuted : forall s : str, In "+"%char s -> unescape (path s) <> s.
Proof. exact c52_plus_refuted_l. Qed.
Print Assumptions c52_plus_refuted.

(** C53: Query replaces every byte by its escaped form, nothing else. *)
Theorem c53_query_form : forall s : str, exists parts, Forall2 query_byte s parts /\ query s = concat parts.
Proof. exact c53_query_form_l. Qed.
Print Assumptions c53_query_form.

(** C53: the same for Path. *)
Theorem c53_path_form : forall s : str, exists parts, Forall2 path_byte s parts /\ path s = concat parts.
Proof. exact c53_path_form_l. Qed.
Print Assumptions c53_path_form.

(** C53: so the result is safe inside a query: only unreserved bytes, '+' and '%'. *)
Theorem c53_query_safe : forall (s : str) (c : ascii), In c (query s) ->
  (unreserved c \/ c = "+"%char \/ c = "%"%char) /\
  ~ In c [" "; "&"; "="; "?"; ";"; "/"; "#"]%char.
Proof. exact c53_query_safe_l. Qed.
Print Assumptions c53_query_safe.

Example c53_example : query (B "a=1&b c") = B "a%3D1%26b+c".
Proof. reflexivity. Qed.

(** C54: QueryTo/PathTo append the escaped text whenever the last byte is itself escaped or the byte before it is not ... *)
Theorem c54_streaming : forall s sb : str,
  ((forall p c d, s = p ++ [c; d] -> query [d] <> [d] \/ query [c] = [c]) -> query_to s sb = sb ++ query s) /\
  ((forall p c d, s = p ++ [c; d] -> path [d] <> [d] \/ path [c] = [c]) -> path_to s sb = sb ++ path s).
Proof. exact c54_streaming_l. Qed.
Print Assumptions c54_streaming.

Example c54_example : query_to (B "a b=cd") (B "x") = B "x" ++ query (B "a b=cd") /\ query (B "a b=cd") = B "a+b%3Dcd".
Proof. vm_compute. auto. Qed.

(** C54: ... and in the remaining case exactly the last byte is lost, whatever the text before it. *)
Theorem c54_last_byte_refuted : forall (p : str) (c d : ascii) (sb : str),
  (query [d] = [d] -> query [c] <> [c] ->
   query_to (p ++ [c; d]) sb = sb ++ query (p ++ [c]) /\ query (p ++ [c; d]) = query (p ++ [c]) ++ [d]) /\
  (path [d] = [d] -> path [c] <> [c] ->
   path_to (p ++ [c; d]) sb = sb ++ path (p ++ [c]) /\ path (p ++ [c; d]) = path (p ++ [c]) ++ [d]).
Proof. exact c54_last_byte_refuted_l. Qed.
Print Assumptions c54_last_byte_refuted.

Example c54_lost : query [" "]%char <> [" "]%char /\ query ["a"]%char = ["a"]%char /\ query_to (B "x a") [] = B "x+" /\ query (B "x a") = B "x+a".
Proof. split; [discriminate|]. vm_compute. auto. Qed.

(** C55: UnescapeTo returns what Unescape returns, whatever the buffer holds, and only appends to it. *)
Theorem c55_unescape_to : forall s sb : str,
  snd (unescape_to s sb) = unescape s /\
  exists added, fst (unescape_to s sb) = sb ++ added /\ (added = [] \/ added = unescape s).
Proof. exact c55_unescape_to_l. Qed.
Print Assumptions c55_unescape_to.

(** C55: UnescapeNameTo returns the name and the text "__name__=" followed by the name, and appends the latter. *)
Theorem c55_unescape_name_to : forall s sb : str,
  unescape_name_to s sb = (sb ++ B "__name__=" ++ unescape s, unescape s, B "__name__=" ++ unescape s).
Proof. exact c55_unescape_name_to_l. Qed.
Print Assumptions c55_unescape_name_to.

Example c55_example : unescape_to (B "a%20b+") (B "xy") = (B "xya b ", B "a b ") /\
  unescape_name_to (B "a%20b+") (B "xy") = (B "xy__name__=a b ", B "a b ", B "__name__=a b ").
Proof. vm_compute. auto. Qed.

(** C56: Unescape is exactly percent-decoding: its result is the unique decoding of the text. *)
Theorem c56_unescape_decodes : forall s t : str, decoded s t <-> t = unescape s.
Proof. exact c56_unescape_decodes_l. Qed.
Print Assumptions c56_unescape_decodes.

(** C56: plain text is unchanged, and no text gets longer. *)
Theorem c56_unescape_plain : forall s : str,
  (~ In "%"%char s -> ~ In "+"%char s -> unescape s = s) /\ (length (unescape s) <= length s)%nat.
Proof. exact c56_unescape_plain_l. Qed.
Print Assumptions c56_unescape_plain.

Example c56_example : decoded (B "a%4") (B "a%4") /\ unescape (B "%zz%41+%") = B "%zzA %".
Proof. split; [apply c56_unescape_decodes|]; reflexivity. Qed.
