(** The generation of random strings (WriteRandom): pkg/items and glob/glob.go.  Definitions only.
    rand.Intn(n) returns some number below n and panics if n is 0, so WriteRandom is modelled by the list
    of all its outcomes: what is written to the (initially empty) builder, or a panic. *)
From Verif Require Export Model.Glob.

(** One outcome after the other: the second part is written after the first; a panic ends everything
    (as in chain.go:33-37). *)
Definition then_random (a b : list (res str)) : list (res str) :=
  flat_map (fun r => match r with Ok s => map (fun q => bind q (fun t => Ok (s ++ t))) b | _ => [r] end) a.

(** [l[rand.Intn(len(l))]]: any element of l, a panic if there is none; stringlist.go:109-111,
    group.go:30-32 and runesranges.go:30-40 *)
Definition random_of {A} (l : list A) : list (res A) :=
  match l with [] => [Panic] | _ => map Ok l end.

(** RunesRanges.WriteRandom, runesranges.go:30-40: every ASCII member but NUL is written, and then the first
    rune of a random range *)
Definition rr_random (rs : rranges) : list (res str) :=
  then_random [Ok (if as_is_empty (rr_ascii rs) then [] else filter (as_contains (rr_ascii rs)) (bytes_from 1 127))]
    (map (fun r => bind r (fun p => Ok (encode_rune (First p)))) (random_of (rr_unicode rs))).

(** WriteRandom methods: string.go:22, byte.go:17, rune.go:18, any.go:19, star.go:19, runesranges.go:30,
    stringlist.go:109, group.go:30, chain.go:33 *)
Fixpoint item_random (it : item) : list (res str) :=
  match it with
  | IStr s => [Ok s]
  | IByte b => [Ok [b]]
  | IRune r => [Ok (encode_rune r)]
  | IAny n => [Ok (repeat "x"%char n)]
  | IStar n => [Ok (repeat "x"%char n ++ B "XXXXXXXXX")]
  | IRanges rs => rr_random rs
  | IList l => random_of (sl_vals l)
  | IGroup vals _ _ => match vals with [] => [Panic] | _ => flat_map item_random vals end
  | IChain its _ _ => fold_right (fun i acc => then_random (item_random i) acc) [Ok []] its
  end.

(** Glob.WriteRandom, glob/glob.go:24-33 *)
Definition glob_random (g : glob) : list (res str) :=
  match g_items g with
  | [] => [Ok (g_node g)]
  | its => fold_right (fun i acc => then_random (item_random i) acc) [Ok []] its
  end.
