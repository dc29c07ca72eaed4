(** Histories of calls on a RunesRanges value. *)
From Verif Require Import Model.Ranges.

Inductive rr_op := OpAdd (r : rune) | OpAdds (s : str) | OpMerge.
Definition rr_do (rs : rranges) (op : rr_op) : rranges :=
  match op with
  | OpAdd r => rr_add rs r
  | OpAdds s => rr_adds rs s
  | OpMerge => rr_merge rs
  end.
(** The runes the calls add. *)
Definition rr_added (op : rr_op) : list rune :=
  match op with OpAdd r => [r] | OpAdds s => map snd (range s) | OpMerge => [] end.
