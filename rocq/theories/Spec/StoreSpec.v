(** Histories of calls on a store. *)
From Verif Require Import Model.Store.

Inductive store_op := SInit | SGrow (n : Z) | SPut (s : str) (index : Z).

(** The (text, index) pairs stored since the last Init, in order. *)
Fixpoint stored_from (acc : list (str * Z)) (ops : list store_op) : list (str * Z) :=
  match ops with
  | [] => acc
  | SInit :: r => stored_from [] r
  | SGrow _ :: r => stored_from acc r
  | SPut s i :: r => stored_from (acc ++ [(s, i)]) r
  end.
Definition stored := stored_from [].

(** The effect of one call on each kind of store (MinStore has no Grow). *)
Definition min_do (m : min_store) (o : store_op) : min_store :=
  match o with SInit => min_init m | SGrow _ => m | SPut s i => min_put m s i end.
Definition index_do (m : index_store) (o : store_op) : index_store :=
  match o with SInit => index_init m | SGrow n => index_grow m n | SPut s i => index_put m s i end.
Definition string_do (m : string_store) (o : store_op) : string_store :=
  match o with SInit => string_init m | SGrow n => string_grow m n | SPut s i => string_put m s i end.
Definition all_do (m : all_store) (o : store_op) : all_store :=
  match o with SInit => all_init m | SGrow n => all_grow m n | SPut s i => all_put m s i end.

(** m is -1 for no index at all, else the least one. *)
Definition least (l : list Z) (m : Z) : Prop :=
  (l = [] /\ m = (-1)%Z) \/ (In m l /\ forall x, In x l -> (m <= x)%Z).
