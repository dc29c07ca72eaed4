(** pkg/items/utils.go:37-71 (IntersectGlobs).  Definitions only. *)
From Verif Require Export Model.Items.

(** [case utf8.RuneError, '[', ']', '{', '}', '*', '?'], utils.go:50-53 and 63-66.  At the end of the
    string DecodeRuneInString answers RuneError. *)
Definition ig_stop (c : rune) : bool :=
  N.eqb c RuneError || existsb (fun w => N.eqb c (code w)) (B "[]{}*?").

(** The loop over the other globs, utils.go:54-67: true when it returns.  The code decodes globs[0]
    again, not globs[i]. *)
Fixpoint ig_others (g0 : str) (c0 : rune) (pos : nat) (others : list str) : bool :=
  match others with
  | [] => false
  | g :: rest =>
      if (Z.of_nat (length g) - 1 <? Z.of_nat pos)%Z then true
      else
        let c := fst (decode_rune (skipn pos g0)) in
        if negb (N.eqb c0 c) then true
        else if ig_stop c then true
        else ig_others g0 c0 pos rest
  end.

(** The outer loop, utils.go:48-69; the fuel bounds its rounds (every round moves pos on). *)
Fixpoint ig_loop (fuel : nat) (g0 : str) (others : list str) (pos : nat) : res str :=
  match fuel with
  | O => Fuel
  | S f =>
      let '(c0, n) := decode_rune (skipn pos g0) in
      if ig_stop c0 then Ok (firstn pos g0)
      else if ig_others g0 c0 pos others then Ok (firstn pos g0)
      else ig_loop f g0 others (pos + n)
  end.

(** IntersectGlobs, utils.go:37-71.  The second test [len(globs) == 0] is never true. *)
Definition intersect_globs (globs : list str) : res str :=
  match globs with
  | [] => Ok []
  | g0 :: others => ig_loop (S (length g0)) g0 others 0
  end.
