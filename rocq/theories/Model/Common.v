(** pkg/items/stringlist.go: interceptionLeft, which nothing else in the package calls.  Definitions only. *)
From Verif Require Export Model.Utf8.

(** The inner loop of interceptionLeft, pkg/items/stringlist.go:23-31, over the strings after the first: does the symbol c at
    index i of the first one go on in all of them?  [a[n][i:]] panics when the string is shorter than i. *)
Fixpoint goes_on (i : nat) (c : rune) (rest : list str) : res bool :=
  match rest with
  | [] => Ok true
  | s :: r =>
      if Nat.eqb i (length s) then Ok false
      else if (length s <? i)%nat then Panic
      else if (c =? fst (decode_rune (skipn i s)))%N then goes_on i c r
      else Ok false
  end.
(** The outer loop, pkg/items/stringlist.go:22-33 *)
Fixpoint left_loop (a0 : str) (l : list (nat * rune)) (rest : list str) : res str :=
  match l with
  | [] => Ok a0
  | (i, c) :: l' => bind (goes_on i c rest) (fun b => if b then left_loop a0 l' rest else Ok (firstn i a0))
  end.
(** interceptionLeft, pkg/items/stringlist.go:14-35 *)
Definition interception_left (a : list str) : res str :=
  match a with
  | [] => Ok []
  | [s] => Ok s
  | s :: rest => left_loop s (range s) rest
  end.
