(** Common beginnings of strings. *)
From Verif Require Import Model.Bytes Spec.Symbols.

Definition begins (p s : str) : Prop := exists t, s = p ++ t.
(** p is the longest well-formed text that all the strings begin with. *)
Definition longest_common (p : str) (l : list str) : Prop :=
  clean p /\ (forall s, In s l -> begins p s) /\ forall q, clean q -> (forall s, In s l -> begins q s) -> begins q p.
