(** Trees of dotted globs in full generality: parts that are normalised alike share one place in the tree, and the glob registered
    first decides what is matched there. *)
From Coq Require Import List.
From Verif Require Import Model.GGlob Spec.RegistrySpec.
Import ListNotations.

(** Two parts have the same canonical text, and both or none of them are plain text. *)
Definition same_part (p p' : glob) : Prop := g_node p = g_node p' /\ (g_items p = [] <-> g_items p' = []).
(** g and g' have equally many parts, and the first k + 1 of them are the same in this sense. *)
Definition begins_like (k : nat) (g g' : gglob) : Prop :=
  length (gg_parts g) = length (gg_parts g') /\ Forall2 same_part (firstn (S k) (gg_parts g)) (firstn (S k) (gg_parts g')).
(** p stands for part k of g: it is part k of the first accepted glob that begins like g up to there. *)
Definition stands_for (E : list entry) (g : gglob) (k : nat) (p : glob) : Prop :=
  exists E1 e E2 g', E = E1 ++ e :: E2 /\ gg_parse (e_text e) = Ok g' /\ begins_like k g g' /\ nth_error (gg_parts g') k = Some p /\
    forall e' g'', In e' E1 -> gg_parse (e_text e') = Ok g'' -> ~ begins_like k g g''.
(** Every part of the path is equal to the plain text, or matched by the part, that stands for the part of g. *)
Definition reached (E : list entry) (g : gglob) (ps : list str) : Prop :=
  length (gg_parts g) = length ps /\
  forall k s, nth_error ps k = Some s -> exists p, stands_for E g k p /\ (g_items p = [] /\ g_node p = s \/ g_items p <> [] /\ glob_match p s = Ok true).
(** Parts of accepted globs that are the same in this sense match the same strings. *)
Definition parts_agree (E : list entry) : Prop := forall e e' g g' p p', In e E -> In e' E -> gg_parse (e_text e) = Ok g -> gg_parse (e_text e') = Ok g' ->
  In p (gg_parts g) -> In p' (gg_parts g') -> same_part p p' -> forall s, glob_match p s = glob_match p' s.
