(** Helpers of the conformance checks. *)
From Verif Require Export Model.Glob.

(** a byte string from byte values *)
Definition bs (l : list N) : str := map byte_of l.
Arguments bs l%N.
Definition is_ok (b : bool) (r : res bool) : bool :=
  match r with Ok x => Bool.eqb x b | _ => false end.

(** Printable shape of a tree node: text, flag, terminated query, children. *)
Inductive snode := SNode (node : str) (flag : bool) (t : option (str * Z)) (childs : list snode).
Definition term_eqb (a b : option (str * Z)) : bool :=
  match a, b with
  | None, None => true
  | Some (q, i), Some (q', i') => str_eqb q q' && Z.eqb i i'
  | _, _ => false
  end.
Fixpoint snode_eqb (a b : snode) : bool :=
  match a, b with
  | SNode n f t cs, SNode n' f' t' cs' =>
      str_eqb n n' && Bool.eqb f f' && term_eqb t t'
      && (fix go (x y : list snode) : bool :=
            match x, y with
            | [], [] => true
            | a :: x', b :: y' => snode_eqb a b && go x' y'
            | _, _ => false
            end) cs cs'
  end.
(** Equality of maps given as association lists without repeated keys. *)
Definition same_map (a b : list (str * Z)) : bool :=
  Nat.eqb (length a) (length b)
  && forallb (fun '(k, v) => match lookup str_eqb k b with Some w => Z.eqb v w | None => false end) a.
Definition same_index (a b : list (Z * str)) : bool :=
  Nat.eqb (length a) (length b)
  && forallb (fun '(k, v) => match lookup Z.eqb k b with Some w => str_eqb v w | None => false end) a.
