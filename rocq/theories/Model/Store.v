(** pkg/items/store.go: the stores.  Definitions only. *)
From Verif Require Export Model.Bytes.

(** MinStore, store.go:7-23.  Min is an int, -1 while nothing is stored. *)
Definition min_store := Z.
(** NewMinStore, store.go:11-13 *)
Definition min_new : min_store := (-1)%Z.
(** MinStore.Init, store.go:15-17 *)
Definition min_init (_ : min_store) : min_store := (-1)%Z.
(** MinStore.Store, store.go:19-23 *)
Definition min_put (m : min_store) (_ : str) (index : Z) : min_store :=
  if (m <? 0)%Z || (index <? m)%Z then index else m.

(** IndexStore, store.go:25-27: the contents of N. *)
Definition index_store := list Z.
(** NewIndexStore, store.go:29-31 *)
Definition index_new : index_store := [].
(** IndexStore.Init, store.go:33-37 *)
Definition index_init (n : index_store) : index_store := if (0 <? length n) then firstn 0 n else n.
(** IndexStore.Grow, store.go:39-45: the contents are copied, only the capacity changes. *)
Definition index_grow (n : index_store) (_ : Z) : index_store := firstn (length n) n.
(** IndexStore.Store, store.go:47-49 *)
Definition index_put (n : index_store) (_ : str) (index : Z) : index_store := n ++ [index].

(** StringStore, store.go:51-53: the contents of S. *)
Definition string_store := list str.
(** NewStringStore, store.go:55-57 *)
Definition string_new : string_store := [].
(** StringStore.Init, store.go:59-63 *)
Definition string_init (n : string_store) : string_store := if (0 <? length n) then firstn 0 n else n.
(** StringStore.Grow, store.go:65-71 *)
Definition string_grow (n : string_store) (_ : Z) : string_store := firstn (length n) n.
(** StringStore.Store, store.go:73-75 *)
Definition string_put (n : string_store) (s : str) (_ : Z) : string_store := n ++ [s].

(** AllStore, store.go:77-81 *)
Record all_store := mkAll { as_min : min_store; as_idx : index_store; as_str : string_store }.
(** NewAllStore, store.go:83-85, the zero value: Min.Min is 0. *)
Definition all_new : all_store := mkAll 0%Z [] [].
(** AllStore.Init, store.go:87-91 *)
Definition all_init (a : all_store) : all_store :=
  mkAll (min_init (as_min a)) (index_init (as_idx a)) (string_init (as_str a)).
(** AllStore.Grow, store.go:93-96 *)
Definition all_grow (a : all_store) (n : Z) : all_store :=
  mkAll (as_min a) (index_grow (as_idx a) n) (string_grow (as_str a) n).
(** AllStore.Store, store.go:98-102 *)
Definition all_put (a : all_store) (s : str) (index : Z) : all_store :=
  mkAll (min_put (as_min a) s index) (index_put (as_idx a) s index) (string_put (as_str a) s index).
