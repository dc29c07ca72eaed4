(** Specification vocabulary for byte sets: the set obtained from the empty one by a sequence of
    Add calls. *)
From Verif Require Import Model.Utils.

Definition set_of_adds (cs : str) : ascii_set := fold_left (fun a c => fst (as_add a c)) cs as_empty.

(** An ASCII byte. *)
Definition is_ascii (c : ascii) : Prop := (code c < 128)%N.
