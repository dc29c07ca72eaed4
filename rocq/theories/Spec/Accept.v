(** Which glob texts are accepted.  Nothing here refers to the parser. *)
From Verif Require Import Model.Utf8 Spec.Symbols Spec.Class Spec.GlobSpec.

(** The condition on the values of a list: they are all the same text, or every value is well formed,
    except that those after a value "*" in the byte-wise order are not looked at. *)
Definition values_accepted (body : str) : Prop :=
  (forall v v', alternative body v -> alternative body v' -> v = v') \/
  (forall v, alternative body v -> well_formed v \/ alternative body (B "*") /\ byte_order (B "*") v).

(** [accepted g]: every class and list of g is closed, class bodies are acceptable, no closing bracket
    stands alone, and the values of every list are acceptable. *)
Inductive accepted : str -> Prop :=
| ac_end : accepted []
| ac_text c p : ~ In c metas -> accepted p -> accepted (c :: p)
| ac_any p : accepted p -> accepted ("?"%char :: p)
| ac_star p : accepted p -> accepted ("*"%char :: p)
| ac_class body p : ~ In "]"%char body -> good_class body -> accepted p -> accepted (bracketed body ++ p)
| ac_list body p : ~ In "}"%char body -> values_accepted body -> accepted p -> accepted (braced body ++ p).
