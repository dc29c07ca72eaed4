(** C84, C85: what errors say, paths that are not well formed. *)
From Verif Require Import Model.GTags Model.GGlob Spec.Symbols Spec.Class Spec.GlobSpec Spec.Accept Spec.PathSpec Spec.TagSpec Spec.QuerySpec Spec.ErrSpec.
From Verif Require Import Proof.SortP Proof.TagsP Proof.ErrP Proof.Err2P.
From Verif Require Import Proof.ErrTop.


(** C84: the error of glob.Parse names a piece of the text that starts with a bracket, and on valid texts the first thing that cannot be accepted. *)
Theorem c84_glob : forall (g : str) (e : err), glob_parse g = Err e -> part_error g e.
Proof. exact c84_glob_l. Qed.
Print Assumptions c84_glob.

Example c84_glob_example :
  glob_parse (B "a*[z-b]{c,d}") = Err (ErrNodeMissmatch (B "rune") (B "[z-b]")) /\
  glob_parse (B "a{b,[c}*z") = Err (ErrNodeMissmatch (B "rune") (B "[c")) /\
  glob_parse (B "ab]cd") = Err (ErrNodeUnclosed (B "]cd")) /\
  err_text (ErrNodeMissmatch (B "rune") (B "[z-b]")) = B "node type 'rune' mismatch: [z-b]".
Proof. repeat split; vm_compute; reflexivity. Qed.

(** C84: the error of gglob.Parse is the one of the first part that is not accepted, or names the whole path when an empty part comes first. *)
Theorem c84_gglob : forall (s : str) (e : err), gg_parse s = Err e -> gglob_error s e.
Proof. exact c84_gglob_l. Qed.
Print Assumptions c84_gglob.

Example c84_gglob_example :
  gg_parse (B "a*.b..c[.") = Err (ErrNodeEmpty (B "a*.b..c[")) /\
  gg_parse (B "a*.b.c[..") = Err (ErrNodeUnclosed (B "[")) /\
  gg_parse (B "a.?b[z-a].{") = Err (ErrNodeMissmatch (B "rune") (B "[z-a]")).
Proof. repeat split; vm_compute; reflexivity. Qed.

(** C84: the error of ParseSeriesByTag names the whole query when it is no call or has too many conditions, what is not quoted, or what the first bad condition is about. *)
Theorem c84_query : forall (rx : regexps) (q : str) (e : err), parse_series rx q = Err e -> query_error rx q e.
Proof. exact c84_query_l. Qed.
Print Assumptions c84_query.

(** Regular expressions of which "(" is not valid. *)
Definition rx_open : regexps := mkRx (fun re => negb (str_eqb re (B "("))) (fun re v => str_eqb re v).
Example c84_query_example :
  parse_series rx_open (B "series('a=b')") = Err (ErrQueryInvalid (B "series('a=b')")) /\
  parse_series rx_open (B "seriesByTag('a=b', c=d)") = Err (ErrNodeNotTerminated (B "c=d")) /\
  parse_series rx_open (B "seriesByTag('a=b', 'c=d)") = Err (ErrNodeNotTerminated (B "c=d")) /\
  parse_series rx_open (B "seriesByTag('a=b', 'c~d')") = Err (ErrExprInvalid (B "~d")) /\
  parse_series rx_open (B "seriesByTag('a=b', 'c=~ (', '=')") = Err (ErrExprInvalid (B "(")) /\
  parse_series rx_open (B "seriesByTag('a=b', 'c=x{y')") = Err (ErrNodeUnclosed (B "{y")) /\
  parse_series rx_open (B "seriesByTag(" ++ concat (repeat (B "'a=b'") 129) ++ B ")") = Err (ErrExprOverflow (B "seriesByTag(" ++ concat (repeat (B "'a=b'") 129) ++ B ")")).
Proof. repeat split; vm_compute; reflexivity. Qed.

(** C85: what PathTags and GraphitePathTags return for any path, decodable or not: the name, the tags before the first piece without '=', and the error. *)
Theorem c85_slice : forall (p : str) (tags : list tag) (e : option err),
  (path_tags p = (tags, e) <-> decoding (fun name => B "not found in " ++ name) "?" "&" p tags e) /\
  (graphite_path_tags p = (tags, e) <-> decoding (fun _ => B "not found") ";" ";" p tags e).
Proof. exact c85_slice_l. Qed.
Print Assumptions c85_slice.

Example c85_slice_example :
  path_tags (B "n?a=1&b&c=3") = ([(B "__name__", B "n"); (B "a", B "1"); (B "b&c", B "3")], None) /\
  path_tags (B "n?a=1&b") = ([(B "__name__", B "n"); (B "a", B "1")], Some (ErrPathInvalid [] (B "not delimited with ="))) /\
  path_tags (B "n;a=1") = ([(B "__name__", B "n;a=1")], Some (ErrPathInvalid (B "name") (B "not found in n;a=1"))) /\
  graphite_path_tags (B "n=m;a=1") = ([(B "__name__", B "n=m"); (B "a", B "1")], Some (ErrPathInvalid (B "name") (B "not found"))).
Proof. repeat split; vm_compute; reflexivity. Qed.

(** C85: the map decoders leave the same, later tags replacing earlier ones, whatever the given map held before. *)
Theorem c85_map : forall (p : str) (m : list tag),
  (exists tags r e, decoding (fun _ => B "not found") "?" "&" p tags e /\ path_tags_map p = (r, e) /\ path_tags_map_b p (Some m) = Ok (r, e) /\
     forall k v, value_of r k = Some v <-> last_value tags k v) /\
  (exists tags r e, decoding (fun _ => B "not found") ";" ";" p tags e /\ graphite_path_tags_map p = (r, e) /\ graphite_path_tags_map_b p (Some m) = Ok (r, e) /\
     forall k v, value_of r k = Some v <-> last_value tags k v).
Proof. exact c85_map_l. Qed.
Print Assumptions c85_map.

Example c85_map_example :
  path_tags_map_b (B "n?a=1&a=2&b") (Some [(B "z", B "9"); (B "a", B "0")]) = Ok ([(B "__name__", B "n"); (B "a", B "2")], Some (ErrPathInvalid [] (B "not delimited with ="))) /\
  err_text (ErrPathInvalid (B "name") (B "not found")) = B "invalid path: 'name' not found" /\
  graphite_path_tags_map (B "n") = ([(B "__name__", B "n")], Some (ErrPathInvalid (B "name") (B "not found"))).
Proof. repeat split; vm_compute; reflexivity. Qed.

(** C85 fails for the message: an error about a piece without '=' does not name the piece. *)
Theorem c85_message_refuted : exists p l bad e, p = B "n?" ++ B "a=1&b" /\ raw_upto "&" (B "a=1&b") l bad /\
  snd (path_tags p) = Some e /\ forall a b, err_text e <> a ++ bad ++ b.
Proof. exact c85_message_refuted_l. Qed.
Print Assumptions c85_message_refuted.
