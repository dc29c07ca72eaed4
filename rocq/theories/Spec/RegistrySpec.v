(** What the Add calls of a tree of globs or queries should do: an ideal registry.
    An accepted call leaves an entry: the text given, its canonical text and the index. *)
From Verif Require Import Model.Tree.

Record entry := mkEntry { e_text : str; e_node : str; e_index : Z }.

(** The name (as given or canonical) belongs to an entry with index n. *)
Definition known (E : list entry) (name : str) (n : Z) : Prop :=
  exists e, In e E /\ (e_text e = name \/ e_node e = name) /\ e_index e = n.
(** The index belongs to the entry with canonical text q. *)
Definition used (E : list entry) (i : Z) (q : str) : Prop :=
  exists e, In e E /\ e_index e = i /\ e_node e = q.

(** [registers canon E text i new r]: with the entries E, the call Add(text, i) leaves the entry [new] (if
    any) and returns r = (normalised text, index, error).  [canon] gives the canonical text of a
    well-formed text. *)
Inductive registers (canon : str -> res str) (E : list entry) (text : str) (i : Z) : option entry -> add_res -> Prop :=
| reg_empty : text = [] -> registers canon E text i None ([], 0%Z, None)
| reg_negative : text <> [] -> (i < 0)%Z -> registers canon E text i None (text, 0%Z, Some ErrIndexInvalid)
| reg_again n : text <> [] -> (0 <= i)%Z -> known E text n ->
    registers canon E text i None (text, n, Some ErrGlobExist)
| reg_index q : text <> [] -> (0 <= i)%Z -> (forall n, ~ known E text n) -> used E i q ->
    registers canon E text i None (q, 0%Z, Some ErrIndexDup)
| reg_bad e : text <> [] -> (0 <= i)%Z -> (forall n, ~ known E text n) -> (forall q, ~ used E i q) ->
    canon text = Err e -> registers canon E text i None ([], 0%Z, Some e)
| reg_same q n : text <> [] -> (0 <= i)%Z -> (forall n, ~ known E text n) -> (forall q, ~ used E i q) ->
    canon text = Ok q -> known E q n -> registers canon E text i None (q, n, Some ErrGlobExist)
| reg_new q : text <> [] -> (0 <= i)%Z -> (forall n, ~ known E text n) -> (forall q, ~ used E i q) ->
    canon text = Ok q -> (forall n, ~ known E q n) ->
    registers canon E text i (Some (mkEntry text q i)) (q, i, None).

(** A history of calls with their results, and the entries it leaves (oldest first). *)
Inductive history (canon : str -> res str) : list (str * Z) -> list add_res -> list entry -> Prop :=
| h_nil : history canon [] [] []
| h_snoc calls rs E text i new r : history canon calls rs E -> registers canon E text i new r ->
    history canon (calls ++ [(text, i)]) (rs ++ [r]) (match new with Some e => E ++ [e] | None => E end).

(** Entries have different indexes and share no name. *)
Definition distinct (E : list entry) : Prop :=
  NoDup (map e_index E) /\
  forall e e' name, In e E -> In e' E -> (e_text e = name \/ e_node e = name) -> (e_text e' = name \/ e_node e' = name) -> e = e'.

(** Calls one after another; the first panic would end the run. *)
Fixpoint run_adds {T} (add : T -> str -> Z -> res (T * add_res)) (t : T) (calls : list (str * Z)) : res (T * list add_res) :=
  match calls with
  | [] => Ok (t, [])
  | (text, i) :: rest =>
      match add t text i with
      | Ok (t', r) => match run_adds add t' rest with Ok (t'', rs) => Ok (t'', r :: rs) | Err e => Err e | Panic => Panic | Fuel => Fuel end
      | Err e => Err e | Panic => Panic | Fuel => Fuel
      end
  end.
