(** The language of items: which sequences of symbols an item, or a list of items, matches. *)
From Verif Require Import Model.Items Spec.Symbols.

(** A symbol that encodes a member of a class; U+FFFD is never a member. *)
Definition class_symbol (rs : rranges) (x : str) : Prop :=
  exists r, scalar r /\ x = encode_rune r /\ rr_contains rs r = true.

(** [den it w]: the item matches exactly the symbols w. *)
Fixpoint den (it : item) (w : list str) {struct it} : Prop :=
  match it with
  | IStr t => w = symbols t
  | IByte b => w = [[b]]
  | IRune r => w = [encode_rune r]
  | IAny n => length w = n
  | IStar n => n <= length w
  | IRanges rs => exists x, w = [x] /\ class_symbol rs x
  | IList l => (sl_min l = 0%Z /\ w = []) \/ exists v, In v (sl_vals l) /\ w = symbols v
  | IGroup vals _ _ =>
      (fix some (vs : list item) : Prop :=
         match vs with [] => False | v :: r => den v w \/ some r end) vals
  | IChain its _ _ =>
      (fix all (l : list item) (w : list str) : Prop :=
         match l with
         | [] => w = []
         | i :: r => exists w1 w2, w = w1 ++ w2 /\ den i w1 /\ all r w2
         end) its w
  end.

(** [dens items w]: the items match w one after the other. *)
Fixpoint dens (l : list item) (w : list str) : Prop :=
  match l with
  | [] => w = []
  | i :: r => exists w1 w2, w = w1 ++ w2 /\ den i w1 /\ dens r w2
  end.

(** Well-formed items: what parsing clean text produces (valid texts and symbols, bounds that fit the
    values).  With [u = false] classes are ASCII-only. *)
Fixpoint wfi (u : bool) (it : item) : Prop :=
  match it with
  | IStr t => clean t
  | IByte b => (code b < 128)%N
  | IRune r => scalar r
  | IAny n => True
  | IStar n => True
  | IRanges rs => (u = false -> rr_unicode rs = []) /\ (1 <= rr_min rs <= rr_max rs)%Z /\
      forall x, class_symbol rs x -> (rr_min rs <= zlen x <= rr_max rs)%Z
  | IList l => Forall clean (sl_vals l) /\ Forall (fun v => sl_min l <= zlen v <= sl_max l)%Z (sl_vals l) /\ (0 <= sl_min l <= sl_max l)%Z /\
      sl_vals l <> [] /\ Forall (fun v => v <> []) (sl_vals l)
  | IGroup vals mn mx =>
      (0 <= mn)%Z /\ (mn = 0%Z -> Exists (fun v => item_min v = 0%Z) vals) /\
      (fix all (vs : list item) : Prop :=
         match vs with [] => True | v :: r => (mn <= item_min v)%Z /\ wfi u v /\ all r end) vals
  | IChain its mn mx =>
      mn = fold_right (fun i a => (item_min i + a)%Z) 0%Z its /\
      (fix all (vs : list item) : Prop :=
         match vs with [] => True | v :: r => wfi u v /\ all r end) its
  end.
