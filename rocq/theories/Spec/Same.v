(** Parse results that differ at most in the remembered source text. *)
From Verif Require Import Model.Glob.

Definition same_parse (r r' : res glob) : Prop :=
  match r, r' with
  | Ok x, Ok y => g_node x = g_node y /\ g_min x = g_min y /\ g_max x = g_max y /\ g_prefix x = g_prefix y /\
                  g_suffix x = g_suffix y /\ g_vals x = g_vals y /\ g_items x = g_items y
  | Err e, Err e' => e = e'
  | _, _ => False
  end.
