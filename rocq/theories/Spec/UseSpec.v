(** Using trees and stores together; wildcard characters. *)
From Verif Require Import Model.Store Spec.StoreSpec Spec.RegistrySpec.

(** The characters that make a text a glob, and those of them that open a wildcard. *)
Definition special : str := B "[]{}*?".
Definition opening : str := B "[{*?".

(** The calls a match makes on the store it is given: one Store for each report, in order. *)
Definition reports (l : list (str * Z)) : list store_op := map (fun t => SPut (fst t) (snd t)) l.

(** m is the least index of the accepted entries with P, -1 if there is none. *)
Definition least_index (E : list entry) (P : entry -> Prop) (m : Z) : Prop :=
  (m = (-1)%Z /\ forall e, In e E -> ~ P e) \/
  (exists e, In e E /\ P e /\ e_index e = m) /\ forall e, In e E -> P e -> (m <= e_index e)%Z.

(** An AllStore that holds, for each accepted entry with P and no others, its canonical text and its index at the same place of the two
    lists (perhaps several times), and the least of these indexes. *)
Definition collected (E : list entry) (P : entry -> Prop) (a : all_store) : Prop :=
  least_index E P (as_min a) /\ length (as_str a) = length (as_idx a) /\
  forall q i, In (q, i) (combine (as_str a) (as_idx a)) <-> exists e, In e E /\ e_node e = q /\ e_index e = i /\ P e.
