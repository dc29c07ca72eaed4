(** The statements of Props/PErrors.v. *)
From Verif Require Import Model.GTags Model.GGlob Spec.Symbols Spec.Class Spec.GlobSpec Spec.Accept Spec.PathSpec Spec.TagSpec Spec.QuerySpec Spec.ErrSpec.
From Verif Require Import Proof.SortP Proof.TagsP Proof.ErrP Proof.Err2P.
From Coq Require Import Lia ZifyBool ZifyN ZifyNat.

(** C84: the error of glob.Parse names a piece of the text that starts with a bracket, and on valid texts the first thing that cannot be accepted. *)
Lemma c84_glob_l : forall (g : str) (e : err), glob_parse g = Err e -> part_error g e.
Proof. exact glob_part_error. Qed.
(*EX
Example c84_glob_example :
  glob_parse (B "a*[z-b]{c,d}") = Err (ErrNodeMissmatch (B "rune") (B "[z-b]")) /\
  glob_parse (B "a{b,[c}*z") = Err (ErrNodeMissmatch (B "rune") (B "[c")) /\
  glob_parse (B "ab]cd") = Err (ErrNodeUnclosed (B "]cd")) /\
  err_text (ErrNodeMissmatch (B "rune") (B "[z-b]")) = B "node type 'rune' mismatch: [z-b]".
Proof. repeat split; vm_compute; reflexivity. Qed.
XE*)

(** C84: the error of gglob.Parse is the one of the first part that is not accepted, or names the whole path when an empty part comes first. *)
Lemma c84_gglob_l : forall (s : str) (e : err), gg_parse s = Err e -> gglob_error s e.
Proof. exact gg_error. Qed.
(*EX
Example c84_gglob_example :
  gg_parse (B "a*.b..c[.") = Err (ErrNodeEmpty (B "a*.b..c[")) /\
  gg_parse (B "a*.b.c[..") = Err (ErrNodeUnclosed (B "[")) /\
  gg_parse (B "a.?b[z-a].{") = Err (ErrNodeMissmatch (B "rune") (B "[z-a]")).
Proof. repeat split; vm_compute; reflexivity. Qed.
XE*)

(** C84: the error of ParseSeriesByTag names the whole query when it is no call or has too many conditions, what is not quoted, or what the first bad condition is about. *)
Lemma c84_query_l : forall (rx : regexps) (q : str) (e : err), parse_series rx q = Err e -> query_error rx q e.
Proof. exact series_err. Qed.
(*EX
(** Regular expressions of which "(" is not valid. *)
Definition rx_open : regexps := mkRx (fun re => negb (str_eqb re (B "("))) (fun re v => str_eqb re v).
Example c84_query_example :
  parse_series rx_open (B "series('a=b')") = Err (ErrQueryInvalid (B "series('a=b')")) /\
  parse_series rx_open (B "seriesByTag('a=b', c=d)") = Err (ErrNodeNotTerminated (B "c=d")) /\
  parse_series rx_open (B "seriesByTag('a=b', 'c=d)") = Err (ErrNodeNotTerminated (B "c=d")) /\
  parse_series rx_open (B "seriesByTag('a=b', 'c~d')") = Err (ErrExprInvalid (B "~d")) /\
  parse_series rx_open (B "seriesByTag('a=b', 'c=~ (', '=')") = Err (ErrExprInvalid (B "(")) /\
  parse_series rx_open (B "seriesByTag('a=b', 'c=x{y')") = Err (ErrNodeUnclosed (B "{y")) /\
  parse_series rx_open (B "seriesByTag(" ++ concat (repeat (B "'a=b'") 129) ++ B ")") = Err (ErrExprOverflow (B "seriesByTag(" ++ concat (repeat (B "'a=b'") 129) ++ B ")")).
Proof. repeat split; vm_compute; reflexivity. Qed.
XE*)

(** C85: what PathTags and GraphitePathTags return for any path, decodable or not: the name, the tags before the first piece without '=', and the error. *)
Lemma c85_slice_l : forall (p : str) (tags : list tag) (e : option err),
  (path_tags p = (tags, e) <-> decoding (fun name => B "not found in " ++ name) "?" "&" p tags e) /\
  (graphite_path_tags p = (tags, e) <-> decoding (fun _ => B "not found") ";" ";" p tags e).
Proof. intros. split; apply path_gen_iff. Qed.
(*EX
Example c85_slice_example :
  path_tags (B "n?a=1&b&c=3") = ([(B "__name__", B "n"); (B "a", B "1"); (B "b&c", B "3")], None) /\
  path_tags (B "n?a=1&b") = ([(B "__name__", B "n"); (B "a", B "1")], Some (ErrPathInvalid [] (B "not delimited with ="))) /\
  path_tags (B "n;a=1") = ([(B "__name__", B "n;a=1")], Some (ErrPathInvalid (B "name") (B "not found in n;a=1"))) /\
  graphite_path_tags (B "n=m;a=1") = ([(B "__name__", B "n=m"); (B "a", B "1")], Some (ErrPathInvalid (B "name") (B "not found"))).
Proof. repeat split; vm_compute; reflexivity. Qed.
XE*)

(** C85: the map decoders leave the same, later tags replacing earlier ones, whatever the given map held before. *)
Lemma c85_map_l : forall (p : str) (m : list tag),
  (exists tags r e, decoding (fun _ => B "not found") "?" "&" p tags e /\ path_tags_map p = (r, e) /\ path_tags_map_b p (Some m) = Ok (r, e) /\
     forall k v, value_of r k = Some v <-> last_value tags k v) /\
  (exists tags r e, decoding (fun _ => B "not found") ";" ";" p tags e /\ graphite_path_tags_map p = (r, e) /\ graphite_path_tags_map_b p (Some m) = Ok (r, e) /\
     forall k v, value_of r k = Some v <-> last_value tags k v).
Proof.
  intros p m. unfold path_tags_map, path_tags_map_b, graphite_path_tags_map, graphite_path_tags_map_b. rewrite !map_b_eq, !path_map_eq.
  split; match goal with |- context [path_tags_gen ?r ?a ?b ?x] => destruct (path_tags_gen r a b x) as [tags e] eqn:E end;
    exists tags, (tags_map tags), e; (split; [now apply path_gen_iff|]); (split; [reflexivity|]); (split; [reflexivity|]); intros; apply tags_map_value.
Qed.
(*EX
Example c85_map_example :
  path_tags_map_b (B "n?a=1&a=2&b") (Some [(B "z", B "9"); (B "a", B "0")]) = Ok ([(B "__name__", B "n"); (B "a", B "2")], Some (ErrPathInvalid [] (B "not delimited with ="))) /\
  err_text (ErrPathInvalid (B "name") (B "not found")) = B "invalid path: 'name' not found" /\
  graphite_path_tags_map (B "n") = ([(B "__name__", B "n")], Some (ErrPathInvalid (B "name") (B "not found"))).
Proof. repeat split; vm_compute; reflexivity. Qed.
XE*)

(** C85 fails for the message: an error about a piece without '=' does not name the piece. *)
Lemma c85_message_refuted_l : exists p l bad e, p = B "n?" ++ B "a=1&b" /\ raw_upto "&" (B "a=1&b") l bad /\
  snd (path_tags p) = Some e /\ forall a b, err_text e <> a ++ bad ++ b.
Proof.
  eexists. exists [(B "a", B "1")], (B "b"). eexists. split; [reflexivity|]. split.
  - change (B "a=1&b") with (B "a" ++ "="%char :: B "1" ++ "&"%char :: B "b"). constructor.
    + intros [H|[]]; discriminate.
    + intros [H|[]]; discriminate.
    + constructor; [discriminate|]. intros [H|[]]; discriminate.
  - split; [vm_compute; reflexivity|]. intros a b H. assert (I : In "b"%char (err_text (ErrPathInvalid [] (B "not delimited with =")))).
    { cbn [B list_ascii_of_string] in *. rewrite H. apply in_or_app. right. now left. }
    vm_compute in I. repeat destruct I as [I|I]; try discriminate. exact I.
Qed.
