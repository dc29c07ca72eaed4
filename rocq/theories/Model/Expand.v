(** expand: expand.go, expression.go, runes.go.  Definitions only. *)
From Verif Require Export Model.Items.

(** asciiSet "[]{}*?", expand/expand.go:14: the same set as items' wildcards. *)
Definition last_wild (s : str) : option nat := index_last_wildcard s.

(** The loop of getPair, expand/expand.go:36-75. [start] is the position found so far and its byte.
    *)
Fixpoint get_pair_loop (l : list (nat * rune)) (start : option (nat * rune)) : option nat * option nat :=
  match l with
  | [] => (option_map fst start, None)
  | (i, c) :: t =>
      let st := Some (match start with None => i | Some (k, _) => k end) in
      if (c =? 42)%N || (c =? 63)%N then (st, None)
      else if (c =? 123)%N || (c =? 91)%N then
        match start with
        | None => get_pair_loop t (Some (i, c))
        | Some (k, _) => (Some k, None)
        end
      else if (c =? 125)%N then
        match start with
        | Some (k, o) => if (o =? 91)%N then (st, None) else (Some k, Some i)
        | None => (st, None)
        end
      else if (c =? 93)%N then
        match start with
        | Some (k, o) => if (o =? 123)%N then (st, None) else (Some k, Some i)
        | None => (st, None)
        end
      else get_pair_loop t start
  end.
(** getPair, expand/expand.go:36-75 *)
Definition get_pair (s : str) : option nat * option nat := get_pair_loop (range s) None.

(** runes, expand/runes.go:10-14; [pos = None] is -1. *)
Record runes := mkRunes { r_start : rune; r_stop : rune; r_pos : option N }.

(** The scan of runesRangeExpand, expand/runes.go:69-104; [None] is false. *)
Fixpoint ex_scan (l : list rune) (start : rune) (isrange : bool) (rs : list rrange) : option (list rrange) :=
  match l with
  | [] => Some (if negb (start =? RuneError)%N then rs ++ [mkRange start start] else rs)
  | c :: t =>
      if (c =? 45)%N then ex_scan t start true rs
      else if isrange then
        if (start =? RuneError)%N then ex_scan t c false rs
        else if (start <=? c)%N then
          if negb (rune_len start =? rune_len c)%Z then None
          else ex_scan t RuneError false (rs ++ [mkRange start c])
        else None
      else ex_scan t c false (if negb (start =? RuneError)%N then rs ++ [mkRange start start] else rs)
  end.

(** runesRangeExpand, expand/runes.go:66-116.  runesRangeMerge (lines 16-55) is the same
    algorithm as utils.RunesRangeMerge on start/stop; reset sets pos to start. *)
Definition ex_runes_expand (s : str) : option (list runes) :=
  if null s then None
  else match ex_scan (map snd (range s)) RuneError false [] with
       | None => None
       | Some rs => Some (map (fun r => mkRunes (First r) (Last r) (Some (First r))) (ranges_merge rs))
       end.
(** runesRangeExpandMust, expand/runes.go:57-63 *)
Definition ex_runes_expand_must (s : str) : res (list runes) :=
  match ex_runes_expand s with Some rs => Ok rs | None => Panic end.

(** runes.count, expand/runes.go:118-120 *)
Definition runes_count (r : runes) : Z := (Z.of_N (r_stop r) - Z.of_N (r_start r) + 1)%Z.
(** runes.reset, expand/runes.go:122-124 *)
Definition runes_reset (r : runes) : runes := mkRunes (r_start r) (r_stop r) (Some (r_start r)).
(** runes.next, expand/runes.go:126-138 *)
Definition runes_next (r : runes) : rune * runes :=
  match r_pos r with
  | None => (RuneError, r)
  | Some c =>
      if (r_stop r <? c)%N then (RuneError, mkRunes (r_start r) (r_stop r) None)
      else (c, mkRunes (r_start r) (r_stop r) (Some (c + 1)%N))
  end.

(** expTyp, expand/expression.go:11-18 *)
Inductive exptyp := expString | expWildcard | expList | expRunes.
(** Expression, expand/expression.go:40-46; [e_pos = None] is -1. *)
Record expr := mkExpr {
  e_typ : exptyp;
  e_body : str;
  e_list : list str;
  e_runes : list runes;
  e_pos : option nat
}.
(** [Expression{body: s}], expand/expression.go:129 *)
Definition estr (s : str) : expr := mkExpr expString s [] [] (Some 0).
(** [Expression{typ: expWildcard, body: s}], expand/expression.go:146 *)
Definition ewild (s : str) : expr := mkExpr expWildcard s [] [] (Some 0).
(** [typ == expString], expand/expand.go:84 and 226 *)
Definition is_estr (e : expr) : bool := match e_typ e with expString => true | _ => false end.
(** [typ == expWildcard], expand/expand.go:91 *)
Definition is_ewild (e : expr) : bool := match e_typ e with expWildcard => true | _ => false end.

(** count, expand/expression.go:48-63 *)
Definition e_count (e : expr) : Z :=
  match e_typ e with
  | expString | expWildcard => 1
  | expList => Z.of_nat (length (e_list e))
  | expRunes => fold_left (fun n r => n + runes_count r)%Z (e_runes e) 0%Z
  end.

(** reset, expand/expression.go:82-87 *)
Definition e_reset (e : expr) : expr :=
  mkExpr (e_typ e) (e_body e) (e_list e) (map runes_reset (e_runes e)) (Some 0).

(** Assignment to the field pos, expand/expression.go:96-102 *)
Definition e_set_pos (e : expr) (p : option nat) : expr :=
  mkExpr (e_typ e) (e_body e) (e_list e) (e_runes e) p.
(** The fields runes and pos after the calls of next, expand/expression.go:105-117 *)
Definition e_set_runes (e : expr) (rs : list runes) (p : option nat) : expr :=
  mkExpr (e_typ e) (e_body e) (e_list e) rs p.

(** The loop of appendNext over runes, expand/expression.go:105-117: from position [p];
    [None] for the rune is io.EOF. *)
Fixpoint next_rune (fuel : nat) (rs : list runes) (p : nat) : res (option rune * list runes * nat) :=
  match fuel with
  | O => Fuel
  | S f =>
      match nth_error rs p with
      | None => Panic
      | Some r =>
          let '(c, r') := runes_next r in
          let rs := set_nth p r' rs in
          if (c =? RuneError)%N then
            if (p <? length rs - 1)%nat then
              match nth_error rs (S p) with
              | None => Panic
              | Some r2 => next_rune f (set_nth (S p) (runes_reset r2) rs) (S p)
              end
            else Ok (None, rs, p)
          else Ok (Some c, rs, p)
      end
  end.

(** appendNext, expand/expression.go:89-122: the expression after the call, the buffer, and
    whether io.EOF was returned. *)
Definition append_next (e : expr) (buf : str) : res (expr * str * bool) :=
  match e_pos e with
  | None => Ok (e, buf, true)
  | Some p =>
      match e_typ e with
      | expString | expWildcard => Ok (e_set_pos e None, buf ++ e_body e, false)
      | expList =>
          match nth_error (e_list e) p with
          | None => Panic
          | Some v => Ok (e_set_pos e (if (p <? length (e_list e) - 1)%nat then Some (S p) else None),
                          buf ++ v, false)
          end
      | expRunes =>
          bind (next_rune (S (length (e_runes e))) (e_runes e) p) (fun '(c, rs, p') =>
            match c with
            | None => Ok (e_set_runes e rs (Some p'), buf, true)
            | Some c => Ok (e_set_runes e rs (Some p'), buf ++ encode_rune c, false)
            end)
      end
  end.

(** The int of a 64-bit machine (language level), for the products of expand/expand.go:88-94 and 119-127 *)
Definition wrap64 (z : Z) : Z := ((z + 2 ^ 63) mod 2 ^ 64 - 2 ^ 63)%Z.

(** The capacity of the result, expand/expand.go:88-94 *)
Fixpoint exps_capacity (exps : list expr) (count : Z) : Z :=
  match exps with
  | [] => count
  | e :: r =>
      let count := wrap64 (count * e_count e) in
      if is_ewild e then count else exps_capacity r count
  end.
(** [make([]string, 0, count)], expand/expand.go:96: it panics when count is negative or when count
    strings of 16 bytes exceed the address space of 2^48 bytes (amd64).  A smaller count may still
    exhaust the memory of the machine, which is not modelled. *)
Definition make_ok (count : Z) : bool := (0 <=? count)%Z && (16 * count <=? 2 ^ 48)%Z.

(** The [for] loop of expand over one expression, expand/expand.go:145-163.  [rec] is expand on
    the following expressions (their state is threaded through). *)
Fixpoint expand_loop (fuel : nat)
  (rec : list expr -> str -> list str -> res (list expr * list str * str))
  (try : bool) (e : expr) (rest : list expr) (cur : nat) (buf : str) (result : list str)
  : res (list expr * list str * str) :=
  match fuel with
  | O => Fuel
  | S f =>
      bind (append_next e buf) (fun '(e', buf', eof) =>
      if eof then Ok (e_reset e' :: rest, result, buf')
      else bind (rec rest buf' result) (fun '(rest', result', buf'') =>
        let buf3 := firstn cur buf'' in
        if try then Ok (e' :: rest', result', buf3)
        else expand_loop f rec try e' rest' cur buf3 result'))
  end.

(** Number of iterations that always suffices for the loop over one expression,
    expand/expand.go:145-163; no counterpart in the code. *)
Definition loop_fuel (e : expr) : nat :=
  2 + length (e_list e) + Z.to_nat (fold_left (fun n r => n + Z.max 0 (runes_count r))%Z (e_runes e) 0%Z).

(** expand, expand/expand.go:109-167; [n] bounds the length of exps. *)
Fixpoint expand_rec (n : nat) (exps : list expr) (count max depth : Z) (try : bool)
  (buf : str) (result : list str) : res (list expr * list str * str) :=
  match exps with
  | [] => Ok ([], result ++ [buf], buf)
  | e :: rest =>
      match n with
      | O => Fuel
      | S n' =>
          let cur := length buf in
          let limited := (0 <? max)%Z in
          let count := if limited then wrap64 ((if count <=? 0 then 1 else count) * e_count e)%Z else count in
          let max := if limited && (max <? count)%Z then 0%Z else max in
          let dotted := (0 <? depth)%Z && (is_estr e || is_ewild e) in
          let depth := if dotted then (depth - Z.of_nat (count_byte "." (e_body e)))%Z else depth in
          let max := if dotted && (depth <=? 1)%Z then 0%Z else max in
          if (max =? 0)%Z then
            bind (expand_rec n' rest count max depth try (buf ++ e_body e) result)
                 (fun '(rest', result', buf') => Ok (e :: rest', result', buf'))
          else
            expand_loop (loop_fuel e)
              (fun rest buf result => expand_rec n' rest count max depth try buf result)
              try e rest cur buf result
      end
  end.

(** Expressions.Expand, expand/expand.go:83-107: the state after the call and the result. *)
Definition exps_expand (exps : list expr) (max depth : Z) (try : bool) : res (list expr * list str) :=
  let run :=
    if make_ok (exps_capacity exps 1) then
      bind (expand_rec (length exps) exps 0 max (if (0 <? depth)%Z then depth + 1 else depth)%Z try [] [])
           (fun '(exps', result, _) => Ok (exps', result))
    else Panic in
  match exps with
  | [e] => if is_estr e then Ok (exps, [e_body e]) else run
  | _ => run
  end.

(** getExpression, expand/expression.go:125-159; the default case is unreachable from
    ParseExpr and is transcribed too. *)
Definition get_expression (orig : str) : expr :=
  let body := firstn (length orig - 2) (skipn 1 orig) in
  if null body then estr body
  else
    let c := nth 0 orig zero in
    if Ascii.eqb c "{" then
      if contains_byte "," body then mkExpr expList orig (split_on "," body) [] (Some 0)
      else estr body
    else if Ascii.eqb c "[" then
      if Nat.eqb (length body) 1 then estr body
      else match ex_runes_expand body with
           | None => ewild body
           | Some [] => estr []
           | Some rs => mkExpr expRunes orig [] rs (Some 0)
           end
    else if has_wildcard orig then ewild orig else estr orig.

(** Appending to e.exps (kept reversed), expand/expand.go:226-234 *)
Definition push_exp (rl : list expr) (e : expr) : list expr :=
  if is_estr e then
    match rl with
    | l :: r => if is_estr l then mkExpr expString (e_body l ++ e_body e) (e_list l) (e_runes l) (e_pos l) :: r
                else if negb (null (e_body e)) then e :: rl else rl
    | [] => if negb (null (e_body e)) then e :: rl else rl
    end
  else e :: rl.

(** The main loop of ParseExpr, expand/expand.go:210-241 (list reversed). *)
Fixpoint parse_expr_loop (fuel : nat) (s : str) (start stop : option nat) (rl : list expr) : res (list expr) :=
  match fuel with
  | O => Fuel
  | S f =>
      match start, stop with
      | None, _ => Ok (estr s :: rl)
      | Some a, None =>
          let rl := if (0 <? a)%nat then estr (firstn a s) :: rl else rl in
          Ok (ewild (skipn a s) :: rl)
      | Some a, Some b =>
          let rl := if (0 <? a)%nat then estr (firstn a s) :: rl else rl in
          let e := get_expression (firstn (S b - a) (skipn a s)) in
          let rl := push_exp rl e in
          let s := skipn (S b) s in
          if null s then Ok rl
          else let '(a', b') := get_pair s in parse_expr_loop f s a' b' rl
      end
  end.

(** [asciiSet.LastIndex(s) + 1], expand/expand.go:178, 191 and 246 *)
Definition after_last_wild (s : str) : nat :=
  match last_wild s with Some i => S i | None => 0 end.

(** The final split of a trailing wildcard, expand/expand.go:243-251; an empty list panics. *)
Definition split_last_wild (rl : list expr) : res (list expr) :=
  match rl with
  | [] => Panic
  | l :: r =>
      if is_ewild l then
        let s := e_body l in
        let pos := after_last_wild s in
        if (pos <? length s)%nat then
          Ok (rev (estr (skipn pos s) :: mkExpr (e_typ l) (firstn pos s) (e_list l) (e_runes l) (e_pos l) :: r))
        else Ok (rev rl)
      else Ok (rev rl)
  end.

(** ParseExpr, expand/expand.go:169-254 *)
Definition parse_expr (s : str) : res (list expr) :=
  match get_pair s with
  | (None, None) => Ok [estr s]
  | (Some 0, None) =>
      let pos := after_last_wild s in
      if (pos <? length s)%nat then Ok [ewild (firstn pos s); estr (skipn pos s)]
      else Ok [ewild s]
  | (Some a, None) =>
      let pos := after_last_wild s in
      if (pos <? length s)%nat
      then Ok [estr (firstn a s); ewild (firstn (pos - a) (skipn a s)); estr (skipn pos s)]
      else Ok [estr (firstn a s); ewild (skipn a s)]
  | (start, stop) => bind (parse_expr_loop (S (length s)) s start stop []) split_last_wild
  end.

(** Expand, expand/expand.go:20-24 *)
Definition expand (s : str) (max depth : Z) : res (list str) :=
  bind (parse_expr s) (fun e => bind (exps_expand e max depth false) (fun '(_, r) => Ok r)).
(** ExpandTry, expand/expand.go:29-33 *)
Definition expand_try (s : str) (max depth : Z) : res (list str) :=
  bind (parse_expr s) (fun e => bind (exps_expand e max depth true) (fun '(_, r) => Ok r)).
