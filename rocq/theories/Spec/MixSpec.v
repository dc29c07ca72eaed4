(** Trees filled by a mixture of calls: with the text of a glob (Add), and with a glob or a query parsed before (AddGlob, AddTerms). *)
From Coq Require Import List.
From Verif Require Import Model.Tree Spec.RegistrySpec.
Import ListNotations.

Inductive call :=
| Text (text : str) (i : Z)      (* Add(text, i) *)
| Parsed (text : str) (i : Z).   (* g, err := Parse(text); if err == nil, AddGlob(g, i); for queries AddTerms *)
Definition c_text (c : call) : str := match c with Text t _ | Parsed t _ => t end.
Definition c_index (c : call) : Z := match c with Text _ i | Parsed _ i => i end.

(** The calls one after another; the results of each.  A text that cannot be parsed is not added. *)
Fixpoint run_calls {T G} (add : T -> str -> Z -> res (T * add_res)) (parse : str -> res G) (add_glob : T -> G -> Z -> res (T * add_res))
  (t : T) (calls : list call) : res (T * list add_res) :=
  match calls with
  | [] => Ok (t, [])
  | c :: rest =>
      let step := match c with
                  | Text text i => add t text i
                  | Parsed text i => match parse text with
                                     | Ok g => add_glob t g i
                                     | Err e => Ok (t, ([], 0%Z, Some e))
                                     | Panic => Panic
                                     | Fuel => Fuel
                                     end
                  end in
      match step with
      | Ok (t', r) => match run_calls add parse add_glob t' rest with Ok (t'', rs) => Ok (t'', r :: rs) | Err e => Err e | Panic => Panic | Fuel => Fuel end
      | Err e => Err e | Panic => Panic | Fuel => Fuel
      end
  end.

(** What the calls that returned no error leave: text, canonical text, index, oldest first.  An empty text leaves nothing. *)
Fixpoint left_by (canon : str -> res str) (calls : list call) (rs : list add_res) : list entry :=
  match calls, rs with
  | c :: calls, (_, _, e) :: rs =>
      match e, c_text c, canon (c_text c) with
      | None, _ :: _, Ok q => [mkEntry (c_text c) q (c_index c)]
      | _, _, _ => []
      end ++ left_by canon calls rs
  | _, _ => []
  end.
(** Only those left by calls with a text. *)
Fixpoint left_by_text (canon : str -> res str) (calls : list call) (rs : list add_res) : list entry :=
  match calls, rs with
  | Text t i :: calls, r :: rs => left_by canon [Text t i] [r] ++ left_by_text canon calls rs
  | Parsed _ _ :: calls, _ :: rs => left_by_text canon calls rs
  | _, _ => []
  end.
(** The same as calls of Add. *)
Definition as_adds (E : list entry) : list (str * Z) := map (fun e => (e_text e, e_index e)) E.

(** No two of them (in the order of the calls) have a name in common. *)
Definition no_common_name (E : list entry) : Prop :=
  ForallOrdPairs (fun e e' => e_text e <> e_text e' /\ e_text e <> e_node e' /\ e_node e <> e_text e' /\ e_node e <> e_node e') E.
(** Normalising one of the texts a second time changes nothing. *)
Definition settled (canon : str -> res str) (text : str) : Prop := forall q, canon text = Ok q -> canon q = Ok q.
