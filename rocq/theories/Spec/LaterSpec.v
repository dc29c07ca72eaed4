(** The globs that a tree goes on reporting when more of them are added. *)
From Verif Require Import Model.Tree Spec.RegistrySpec.

(** Only further '*' and '?' come after a '*'. *)
Definition stars_at_end (g : str) : Prop := forall a b, g = a ++ "*"%char :: b -> forall c, In c b -> c = "*"%char \/ c = "?"%char.
(** What was stored with an index of one of the entries, in the order it was stored. *)
Definition stored_for (E : list entry) (l : list term) : list term := filter (fun x => existsb (fun e => (e_index e =? snd x)%Z) E) l.
