(** Byte strings, results and the parts of Go's [strings] / [sort] packages the
    repository uses.  Definitions only. *)
From Coq Require Export Ascii String NArith ZArith Arith Lia Bool List.
Export ListNotations.
Global Open Scope list_scope.

(** A Go [string] (or [[]byte]) is a list of bytes. Language level: no file of /repo; every .go file
    modelled uses it. *)
Definition str := list ascii.

(** String literals of the .go files. *)
Definition B (s : string) : str := list_ascii_of_string s.
Arguments B s%string.

(** Numeric value of a byte (language level), as compared in pkg/utils/asciiset.go:99 and elsewhere.
    *)
Definition code (c : ascii) : N := N_of_ascii c.
(** The byte of a numeric value (mod 256), Go [byte(x)], as in pkg/utils/runesranges.go:80. *)
Definition byte_of (n : N) : ascii := ascii_of_N n.

(** The empty-string test [s == ""] / [len(x) == 0] (language level), as in gglob/gglob.go:22. *)
Definition null {A} (l : list A) : bool := match l with [] => true | _ => false end.

(** Go string equality [a == b] (language level), as in pkg/items/string.go:17. *)
Fixpoint str_eqb (a b : str) : bool :=
  match a, b with
  | [], [] => true
  | x :: a', y :: b' => Ascii.eqb x y && str_eqb a' b'
  | _, _ => false
  end.

(** Go string order [a < b]: bytewise lexicographic (language level), as in
    gtags/tagged_term.go:294. *)
Fixpoint str_ltb (a b : str) : bool :=
  match a, b with
  | _, [] => false
  | [], _ :: _ => true
  | x :: a', y :: b' =>
      if N.ltb (code x) (code y) then true
      else if N.ltb (code y) (code x) then false
      else str_ltb a' b'
  end.

(** The error values returned by the code, with their fields: io.EOF, the types of
    pkg/items/errors.go:3-42 and gtags/errors.go:3-42, and the variables of glob/tree.go:9-13.
    ErrNodeNotEnd and ErrGlobNotExpanded (pkg/items/errors.go:12-26) are never returned. *)
Inductive err :=
| ErrEOF
| ErrNodeMissmatch (typ node : str) | ErrNodeUnclosed (segment : str) | ErrNodeEmpty (path : str)
| ErrIndexInvalid | ErrIndexDup | ErrGlobExist
| ErrQueryInvalid (query : str) | ErrExprInvalid (node : str) | ErrExprOverflow (node : str)
| ErrNodeNotTerminated (node : str)
| ErrPathInvalid (node reason : str).

(** The text of an error, [err.Error()]: pkg/items/errors.go:8-42, gtags/errors.go:7-42,
    glob/tree.go:10-12; "EOF" is the text of io.EOF of the Go standard library. *)
Definition err_text (e : err) : str :=
  match e with
  | ErrEOF => B "EOF"
  | ErrNodeMissmatch typ node => B "node type '" ++ typ ++ B "' mismatch: " ++ node
  | ErrNodeUnclosed segment => B "glob contain unclosed node segment: " ++ segment
  | ErrNodeEmpty path => B "empty node in path: " ++ path
  | ErrIndexInvalid => B "index can't be negative"
  | ErrIndexDup => B "duplicate index"
  | ErrGlobExist => B "glob already exist"
  | ErrQueryInvalid query => B "wrong seriesByTag call: " ++ query
  | ErrExprInvalid node => B "wrong seriesByTag expr: " ++ node
  | ErrExprOverflow node => B "overflow seriesByTag expr: " ++ node
  | ErrNodeNotTerminated node => B "seriesByTag node contains no childs or Terminated: []string{" ++ node
  | ErrPathInvalid node reason => B "invalid path: '" ++ node ++ B "' " ++ reason
  end.

(** Results: a value, a Go [error], a Go [panic], or fuel exhausted (the Go code is still running).
    Language level: no file of /repo; each .go function modelled returns it when it can fail. *)
Inductive res (A : Type) :=
| Ok (a : A) | Err (e : err) | Panic | Fuel.
Arguments Ok {A} a.
Arguments Err {A} e.
Arguments Panic {A}.
Arguments Fuel {A}.

(** Sequencing: an error, a panic or exhausted fuel ends the computation ([if err != nil { return
    }], as in gglob/gglob.go:98-100). *)
Definition bind {A C} (m : res A) (f : A -> res C) : res C :=
  match m with Ok a => f a | Err e => Err e | Panic => Panic | Fuel => Fuel end.

(** strings.HasPrefix: Go standard library, not a file of /repo; used in glob/glob.go:58,
    pkg/items/string.go:77, stringlist.go:209 and gtags/tagged_term.go:198. *)
Fixpoint has_prefix (s p : str) : bool :=
  match p, s with
  | [], _ => true
  | _ :: _, [] => false
  | x :: p', y :: s' => Ascii.eqb x y && has_prefix s' p'
  end.

(** strings.HasSuffix: Go standard library, not a file of /repo; used in glob/glob.go:65 and
    pkg/items/string.go:87. *)
Definition has_suffix (s p : str) : bool := has_prefix (rev s) (rev p).

(** strings.Index: first position of [sub] in [s]; [None] is -1. Go standard library, not a file of
    /repo; used in pkg/items/string.go:70, stringlist.go:201 and wildcard.go:19. *)
Fixpoint index_of (s sub : str) : option nat :=
  if has_prefix s sub then Some 0
  else match s with [] => None | _ :: t => option_map S (index_of t sub) end.

(** First position of a byte satisfying [p]. [strings.IndexAny] with a set of ASCII characters is
    this function: an ASCII character is never part of a longer encoding, and a malformed byte
    decodes to RuneError, which is not in the set. Go standard library, not a file of /repo; used in
    pkg/items/utils.go:30 and gtags/tagged_term.go:255. *)
Fixpoint find_byte (p : ascii -> bool) (s : str) : option nat :=
  match s with
  | [] => None
  | c :: t => if p c then Some 0 else option_map S (find_byte p t)
  end.

(** Last position of a byte satisfying [p]: [strings.LastIndexAny] in the same way. Go standard
    library, not a file of /repo; used in pkg/items/utils.go:34. *)
Fixpoint find_last_byte (p : ascii -> bool) (s : str) : option nat :=
  match s with
  | [] => None
  | c :: t => match find_last_byte p t with
              | Some i => Some (S i)
              | None => if p c then Some 0 else None
              end
  end.

(** strings.IndexByte: Go standard library, not a file of /repo; used in pkg/items/byte.go:54. *)
Definition index_byte (s : str) (c : ascii) : option nat := find_byte (Ascii.eqb c) s.

(** strings.Count(s, c) for a one-byte separator: Go standard library, not a file of /repo; used in
    expand/expand.go:131 and gglob/utils.go:13. *)
Fixpoint count_byte (c : ascii) (s : str) : nat :=
  match s with
  | [] => 0
  | x :: t => (if Ascii.eqb c x then 1 else 0) + count_byte c t
  end.
(** strings.Contains(s, c) / strings.ContainsRune(s, c) for an ASCII character: Go standard library,
    not a file of /repo; used in gtags/tagged_term.go:314 and expand/expression.go:133. *)
Definition contains_byte (c : ascii) (s : str) : bool :=
  match index_byte s c with Some _ => true | None => false end.

(** strings.Cut(s, sep) for a one-byte separator: (before, after, found). Go standard library, not a
    file of /repo; used in gglob/gglob.go:39 and gtags/tagged_term.go:383. *)
Definition cut (c : ascii) (s : str) : str * str * bool :=
  match index_byte s c with
  | Some i => (firstn i s, skipn (S i) s, true)
  | None => (s, [], false)
  end.

(** strings.Split(s, sep) for a one-byte separator; never the empty list. Go standard library, not a
    file of /repo; used in pkg/items/stringlist.go:78, expand/expression.go:134 and
    gglob/utils.go:25. *)
Fixpoint split_on (c : ascii) (s : str) : list str :=
  match s with
  | [] => [[]]
  | x :: t =>
      if Ascii.eqb c x then [] :: split_on c t
      else match split_on c t with
           | [] => [[x]]
           | h :: r => (x :: h) :: r
           end
  end.

(** Joining with a one-byte separator, as the builder loops do in pkg/items/group.go:34-45 and
    gglob/gglob.go:109-114. *)
Fixpoint join_with (c : ascii) (l : list str) : str :=
  match l with
  | [] => []
  | [x] => x
  | x :: r => x ++ c :: join_with c r
  end.

(** sort.Strings / sort.Slice: insertion sort with the code's comparator. *)
Section Sort.
  Context {A : Type} (lt : A -> A -> bool).
  (** One step of the sort below; Go standard library, not a file of /repo, see
      pkg/items/stringlist.go:80. *)
  Fixpoint insert_sorted (x : A) (l : list A) : list A :=
    match l with
    | [] => [x]
    | y :: r => if lt y x then y :: insert_sorted x r else x :: l
    end.
  (** sort.Strings / sort.Slice: insertion sort with the comparator of the code
      (pkg/items/stringlist.go:80, pkg/utils/runesranges.go:17, expand/runes.go:17,
      gtags/tagged_term.go:291). DESIGN.md says which properties do not depend on the order of equal
      elements. *)
  Fixpoint isort (l : list A) : list A :=
    match l with [] => [] | x :: r => insert_sorted x (isort r) end.
End Sort.

(** Slice element assignment [l[i] = x] (no effect out of range; the callers' indices are in range),
    as in pkg/utils/runesranges.go:16-55. *)
Fixpoint set_nth {A} (i : nat) (x : A) (l : list A) : list A :=
  match l, i with
  | [], _ => []
  | _ :: r, O => x :: r
  | y :: r, S j => y :: set_nth j x r
  end.

(** Go maps as association lists: lookup, assignment [m[k] = v]. *)
Section Map.
  Context {K V : Type} (eqb : K -> K -> bool).
  (** Map lookup [m[k]], as in gtags/tagged_term.go:126-138. *)
  Fixpoint lookup (k : K) (m : list (K * V)) : option V :=
    match m with
    | [] => None
    | (k', v) :: r => if eqb k k' then Some v else lookup k r
    end.
  (** Map assignment [m[k] = v], as in gtags/tagged_term.go:475-481. *)
  Fixpoint assign (k : K) (v : V) (m : list (K * V)) : list (K * V) :=
    match m with
    | [] => [(k, v)]
    | (k', v') :: r => if eqb k k' then (k, v) :: r else (k', v') :: assign k v r
    end.
End Map.
