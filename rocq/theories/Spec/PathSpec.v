(** Dotted paths. *)
From Verif Require Import Model.Bytes.

(** The text of a list of parts: the parts with dots in between. *)
Fixpoint dotted (parts : list str) : str :=
  match parts with
  | [] => []
  | [p] => p
  | p :: r => p ++ "."%char :: dotted r
  end.

(** A path without its trailing dot, if it has one. *)
Definition trimmed (path q : str) : Prop :=
  path = q ++ ["."%char] \/ (path = q /\ forall q', path <> q' ++ ["."%char]).

Definition dotless (parts : list str) : Prop := forall p, In p parts -> ~ In "."%char p.

(** [parts_of path parts]: these are the parts of a non-empty path. *)
Definition parts_of (path : str) (parts : list str) : Prop :=
  path <> [] /\ parts <> [] /\ dotless parts /\ trimmed path (dotted parts).
