(** pkg/items/items.go (matching) and glob/glob.go.  Definitions only. *)
From Verif Require Export Model.Items.

(** nextItemsTree (pkg/items/items.go:135-138) is the stack of item lists still to match; nil and
    the empty list coincide. IsEmpty, pkg/items/items.go:140-142 *)
Definition next_empty (next : list (list item)) : bool := forallb null next.

(** nextItemsTree.Next, pkg/items/items.go:144-152 (called only when not empty) *)
Definition next_next (next : list (list item)) : list item * list (list item) :=
  match next with
  | [] => ([], [])
  | l :: rest =>
      if negb (null l) then (l, rest)
      else match rest with
           | [] => ([], [])
           | l2 :: rest2 => (l2, rest2)
           end
  end.

(** A group value as an item list: the items of a chain, or the value alone, pkg/items/items.go:267-275 *)
Definition val_items (v : item) : list item :=
  match v with IChain its _ _ => its | _ => [v] end.

(** matchItems (pkg/items/items.go:167-299), matchStarItems (items.go:308-487) and its loops, by mutual
    recursion on fuel.  Results are (matched, abortGready).
    - [matchItems] : the [for] loop with [pos] is recursion on the item list [items[pos:]].
    - [matchStarItems] : lines 308-322, the entry; [starLoop] : the [for] loop, lines 323-486.
    - [optLoop] : the loop over an optional list, lines 356-377; result (matched, returned).
    - [listLoop] : the loop over list values, lines 380-417. *)
Fixpoint matchItems (fuel : nat) (s : str) (items : list item) (next : list (list item))
  {struct fuel} : res (bool * bool) :=
  match fuel with
  | O => Fuel
  | S f =>
    (* continuation after the current item: lines 199-213, 221-235, 245-259 *)
    let cont (s : str) (rest : list item) : res bool :=
      if null rest then
        if next_empty next then Ok (null s)
        else let '(its, nx) := next_next next in
             bind (matchItems f s its nx) (fun '(m, _) => Ok m)
      else bind (matchItems f s rest next) (fun '(m, _) => Ok m) in
    match items with
    | [] =>
        if next_empty next then Ok (null s, false)
        else let '(its, nx) := next_next next in
             bind (matchItems f s its nx) (fun '(m, _) => Ok (m, false))
    | it :: rest =>
        if (zlen s <? item_min it)%Z then Ok (false, false)
        else match item_match it s with
        | (None, _) => Ok (false, false)
        | (Some off, fl) =>
          let s := skipn off s in
          match fl, it with
          | FindDone, _ => matchItems f s rest next
          | FindList, IList l =>
              bind (if sl_optional l then cont s rest else Ok false) (fun m =>
              if m then Ok (true, false)
              else
                (fix go (vs : list str) : res (bool * bool) :=
                   match vs with
                   | [] => Ok (false, false)
                   | v :: vs' =>
                       match match_val s v with
                       | None => go vs'
                       | Some o => bind (cont (skipn o s) rest) (fun m =>
                                   if m then Ok (true, false) else go vs')
                       end
                   end) (sl_vals l))
          | FindGroup, IGroup vals mn _ =>
              bind (if group_optional mn then cont s rest else Ok false) (fun m =>
              if m then Ok (true, false)
              else
                (fix go (vs : list item) : res (bool * bool) :=
                   match vs with
                   | [] => Ok (false, false)
                   | v :: vs' =>
                       bind (matchItems f s (val_items v) (rest :: next)) (fun '(m, _) =>
                       if m then Ok (true, false) else go vs')
                   end) vals)
          | FindStar, _ =>
              if null rest then
                if next_empty next then Ok (true, false)
                else let '(its, nx) := next_next next in matchStarItems f s its nx
              else matchStarItems f s rest next
          | _, _ => Panic
          end
        end
    end
  end
with matchStarItems (fuel : nat) (s : str) (items : list item) (next : list (list item))
  {struct fuel} : res (bool * bool) :=
  match fuel with
  | O => Fuel
  | S f =>
    match items with
    | [] =>
        if next_empty next then Ok (null s, true)
        else let '(its, nx) := next_next next in matchStarItems f s its nx
    | _ => starLoop f s items next
    end
  end
with starLoop (fuel : nat) (s : str) (items : list item) (next : list (list item))
  {struct fuel} : res (bool * bool) :=
  match fuel with
  | O => Fuel
  | S f =>
    (* lines 481-484: skip one symbol and go round the loop *)
    let shift (s : str) (items : list item) : res (bool * bool) :=
      let '(_, n) := decode_rune s in
      if Nat.eqb n 0 then Ok (false, false) else starLoop f (skipn n s) items next in
    match items with
    | [] =>
        if next_empty next then Ok (null s, false)
        else let '(its, nx) := next_next next in
             bind (matchItems f s its nx) (fun '(m, _) => Ok (m, false))
    | it :: rest =>
        if (zlen s <? item_min it)%Z then Ok (false, true)
        else match item_find it s with
        | (None, _, _) => Ok (false, true)
        | (Some off, len, fl) =>
          let s := skipn off s in
          match fl, it with
          | FindDone, _ =>
              match after_found len s with
              | None => Panic
              | Some sub =>
                bind (matchItems f sub rest next) (fun '(m, a) =>
                if m || a then Ok (m, a) else shift s items)
              end
          | FindList, IList l =>
              bind (if sl_optional l then optLoop f s rest next else Ok (false, false)) (fun '(m, ret) =>
              if ret then Ok (true, false)
              else bind (listLoop f s (sl_vals l) rest next) (fun r => Ok (m || r, false)))
          | FindGroup, IGroup vals mn _ =>
              bind (if group_optional mn then
                      if null rest then
                        if next_empty next then Ok (null s)
                        else let '(its, nx) := next_next next in
                             bind (matchStarItems f s its nx) (fun '(m, _) => Ok m)
                      else bind (matchStarItems f s rest next) (fun '(m, _) => Ok m)
                    else Ok false) (fun m =>
              if m then Ok (true, false)
              else
                (fix go (vs : list item) : res (bool * bool) :=
                   match vs with
                   | [] => Ok (false, false)
                   | v :: vs' =>
                       bind (matchStarItems f s (val_items v) (rest :: next)) (fun '(m, _) =>
                       if m then Ok (true, false) else go vs')
                   end) vals)
          | FindStar, _ =>
              if null rest then
                if next_empty next then Ok (true, false)
                else let '(its, nx) := next_next next in
                     bind (matchStarItems f s its nx) (fun '(m, _) =>
                     if m then Ok (true, false) else shift s rest)
              else shift s rest
          | _, _ => Panic
          end
        end
    end
  end
with optLoop (fuel : nat) (s : str) (rest : list item) (next : list (list item))
  {struct fuel} : res (bool * bool) :=
  match fuel with
  | O => Fuel
  | S f =>
    let shift : res (bool * bool) :=
      let '(_, n) := decode_rune s in
      if Nat.eqb n 0 then Ok (false, false) else optLoop f (skipn n s) rest next in
    if null rest then
      if next_empty next then
        if null s then Ok (true, false) else shift
      else
        let '(its, nx) := next_next next in
        bind (matchItems f s its nx) (fun '(m, _) => if m then Ok (true, true) else shift)
    else
      bind (matchStarItems f s rest next) (fun '(m, _) => if m then Ok (true, true) else shift)
  end
with listLoop (fuel : nat) (s : str) (vals : list str) (rest : list item) (next : list (list item))
  {struct fuel} : res bool :=
  match fuel with
  | O => Fuel
  | S f =>
    let cont (s : str) : res bool :=
      if null rest then
        if next_empty next then Ok (null s)
        else let '(its, nx) := next_next next in
             bind (matchItems f s its nx) (fun '(m, _) => Ok m)
      else bind (matchItems f s rest next) (fun '(m, _) => Ok m) in
    (* lines 383-407; [inl tt] is "return matched", [inr offset] the largest index found *)
    bind ((fix go (vs : list str) (offset : option nat) : res (unit + option nat) :=
             match vs with
             | [] => Ok (inr offset)
             | v :: vs' =>
                 match find_val s v with
                 | None => go vs' offset
                 | Some o =>
                     let offset' := match offset with
                                    | None => Some o
                                    | Some p => if p <? o then Some o else Some p
                                    end in
                     bind (cont (skipn (o + length v) s)) (fun m =>
                     if m then Ok (inl tt) else go vs' offset')
                 end
             end) vals None) (fun r =>
    match r with
    | inl _ => Ok true
    | inr None => Ok false
    | inr (Some o) =>
        let s := skipn o s in
        let '(_, n) := decode_rune s in
        if Nat.eqb n 0 then Ok false else listLoop f (skipn n s) vals rest next
    end)
  end.

(** Weight of an item, for the fuel supplied at the entry point; no counterpart in the .go files. *)
Fixpoint item_weight (it : item) : nat :=
  match it with
  | IGroup vals _ _ => S (list_sum (map item_weight vals))
  | IChain its _ _ => S (list_sum (map item_weight its))
  | _ => 1
  end.
(** Weight of a list of items; no counterpart in the .go files. *)
Definition items_weight (l : list item) : nat := list_sum (map item_weight l).

(** Fuel that is always enough (theorem [match_items_terminates]); no counterpart in the .go files.
    *)
Definition match_fuel (s : str) (items : list item) : nat :=
  (4 * items_weight items + 4) * (length s + 3).

(** MatchItems, pkg/items/items.go:155-158 *)
Definition match_items (s : str) (items : list item) : res bool :=
  bind (matchItems (match_fuel s items) s items []) (fun '(m, _) => Ok m).

(** glob.Glob, glob/glob.go:10-22.  Vals: the keys of the map. *)
Record glob := mkGlob {
  g_glob : str;
  g_node : str;
  g_min : Z;
  g_max : Z;
  g_prefix : str;
  g_suffix : str;
  g_vals : list str;
  g_items : list item
}.

(** Glob.Match, glob/glob.go:43-80 *)
Definition glob_match (g : glob) (s : str) : res bool :=
  if str_eqb (g_node g) (B "*") then Ok true
  else if (zlen s <? g_min g)%Z then Ok false
  else if (0 <? g_max g)%Z && (g_max g <? zlen s)%Z then Ok false
  else if null (g_items g) then Ok (str_eqb (g_node g) s)
  else if negb (null (g_prefix g)) && negb (has_prefix s (g_prefix g)) then Ok false
  else
    let s := skipn (length (g_prefix g)) s in
    if negb (null (g_suffix g)) && negb (has_suffix s (g_suffix g)) then Ok false
    else
      let s := firstn (length s - length (g_suffix g)) s in
      if negb (null (g_vals g)) then Ok (existsb (str_eqb s) (g_vals g))
      else match_items s (g_items g).

(** The state of the item loop of Parse, glob/glob.go:124-232: Prefix, MinLen, MaxLen, inners
    (reversed). *)
Definition pstate := (str * Z * Z * list item)%type.

(** One iteration of the loop, glob/glob.go:133-231: lengths, then in-place merging; with no
    inner yet, a literal goes to the prefix. *)
Definition parse_step (st : pstate) (inner : item) : pstate :=
  let '(prefix, mn, mx, rl) := st in
  let mn := (mn + item_min inner)%Z in
  let mx := add_max_len mx (item_max inner) in
  match rl, inner with
  | [], IStr s => (prefix ++ s, mn, mx, [])
  | [], IRune c => (prefix ++ encode_rune c, mn, mx, [])
  | [], IByte c => (prefix ++ string_of_byte c, mn, mx, [])
  | _, _ => (prefix, mn, mx, append_item_rev rl inner)
  end.

(** The loop, glob/glob.go:124-232.  Fuel: the text length (every item consumes a byte). *)
Fixpoint parse_loop (fuel : nat) (text : str) (st : pstate) : res pstate :=
  match text with
  | [] => Ok st
  | _ =>
      match fuel with
      | O => Fuel
      | S f =>
          match next_wildcard_item text with
          | Ok (None, next) => parse_loop f next st
          | Ok (Some it, next) => parse_loop f next (parse_step st it)
          | Err e => Err e
          | Panic => Panic
          | Fuel => Fuel
          end
      end
  end.

(** Moving a trailing literal to the suffix, glob/glob.go:233-250 *)
Definition take_suffix (suffix : str) (rl : list item) : str * list item :=
  match rl with
  | IStr s :: ((_ :: _) as r) => (s ++ suffix, r)
  | IRune c :: ((_ :: _) as r) => (encode_rune c ++ suffix, r)
  | IByte c :: ((_ :: _) as r) => (string_of_byte c ++ suffix, r)
  | _ => (suffix, rl)
  end.

(** Building the result, glob/glob.go:256-285: Node and Vals. *)
Definition finish_glob (text prefix suffix : str) (mn mx : Z) (its : list item) : glob :=
  match its with
  | [] => mkGlob text (prefix ++ suffix) mn mx [] [] [] []
  | _ =>
      let vals := match its with
                  | [IList l] => if (2 <? length (sl_vals l))%nat then sl_map l else []
                  | _ => []
                  end in
      mkGlob text (prefix ++ concat (map item_write its) ++ suffix) mn mx prefix suffix vals its
  end.

(** Parse, glob/glob.go:82-289 *)
Definition glob_parse (text : str) : res glob :=
  match index_wildcard text with
  | None => Ok (mkGlob text text (zlen text) (zlen text) [] [] [] [])
  | Some pos =>
      let prefix := firstn pos text in
      let body := skipn pos text in
      let mn := zlen prefix in
      match index_last_wildcard body with
      | None => Panic (* unreachable: body starts with a wildcard *)
      | Some e =>
          let c0 := nth 0 body zero in
          if Nat.eqb e 0 && negb (Ascii.eqb c0 "?") && negb (Ascii.eqb c0 "*")
          then Err (ErrNodeUnclosed body)
          else
            let '(suffix, body) :=
              if (e <? length body - 1)%nat then (skipn (S e) body, firstn (S e) body)
              else ([], body) in
            let mn := (mn + zlen suffix)%Z in
            if str_eqb body (B "*") then
              Ok (finish_glob text prefix suffix mn (-1) [IStar 0])
            else if str_eqb body (B "?") then
              Ok (finish_glob text prefix suffix (mn + 1) (add_max_len mn 4) [IAny 1])
            else
              bind (parse_loop (length body) body (prefix, mn, mn, [])) (fun '(prefix, mn, mx, rl) =>
              let '(suffix, rl) := take_suffix suffix rl in
              Ok (finish_glob text prefix suffix mn mx (rev rl)))
      end
  end.

(** ParseMust, glob/glob.go:291-297: [panic(err)] when Parse fails. *)
Definition glob_parse_must (text : str) : res glob :=
  match glob_parse text with
  | Err _ => Panic
  | r => r
  end.

(** Parse followed by Match, glob/glob.go:82-289 and 43-80: the one-shot use of the package. *)
Definition parse_match (text s : str) : res bool :=
  bind (glob_parse text) (fun g => glob_match g s).
