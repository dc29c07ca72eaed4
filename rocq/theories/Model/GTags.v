(** gtags: tagged_term.go, items.go, tree.go.  Definitions only. *)
From Verif Require Export Model.Tree Model.Escape.

(** Go's regexp package is outside the model: which patterns compile, and which values a compiled
    pattern matches, are arbitrary. A compiled regexp is represented by its pattern text
    (regexp.Compile is deterministic). Used in tagged_term.go:56-76 (Compile) and 78-100
    (MatchString). *)
Record regexps := mkRx { rx_ok : str -> bool; rx_match : str -> str -> bool }.

(** TaggedTermOp, tagged_term.go:16-23 *)
Inductive tagop := OpEq | OpMatch | OpNe | OpNotMatch.
(** The numbers of the operators, tagged_term.go:18-23 *)
Definition op_num (o : tagop) : nat :=
  match o with OpEq => 1 | OpMatch => 2 | OpNe => 3 | OpNotMatch => 4 end.
(** TaggedTermOp.String, tagged_term.go:25-31 *)
Definition op_string (o : tagop) : str :=
  match o with OpEq => B "=" | OpMatch => B "=~" | OpNe => B "!=" | OpNotMatch => B "!=~" end.
(** Equality of operators, as in tagged_term.go:293 *)
Definition op_eqb (a b : tagop) : bool := Nat.eqb (op_num a) (op_num b).
(** [Op == TaggedTermNe || Op == TaggedTermNotMatch], tagged_term.go:132 and 146 *)
Definition op_negative (o : tagop) : bool := match o with OpNe | OpNotMatch => true | _ => false end.

(** TaggedTerm, tagged_term.go:33-40; HasWildcard is [tt_glob <> None] after build (Re is the
    value itself, see above). *)
Record tterm := mkTerm { tt_key : str; tt_op : tagop; tt_value : str; tt_glob : option glob }.

(** TaggedTerm.WriteString, tagged_term.go:42-46 *)
Definition tt_write (t : tterm) : str := tt_key t ++ op_string (tt_op t) ++ tt_value t.

(** build, tagged_term.go:56-76 *)
Definition tt_build (rx : regexps) (key : str) (op : tagop) (value : str) : res tterm :=
  match op with
  | OpMatch | OpNotMatch =>
      if rx_ok rx value then Ok (mkTerm key op value None) else Err (ErrExprInvalid value)
  | _ =>
      if has_wildcard value then
        bind (glob_parse value) (fun g =>
        Ok (mkTerm key op (g_node g) (if null (g_items g) then None else Some g)))
      else Ok (mkTerm key op value None)
  end.

(** TaggedTerm.Match, tagged_term.go:78-100 *)
Definition tt_match (rx : regexps) (t : tterm) (v : str) : res bool :=
  match tt_op t with
  | OpEq => match tt_glob t with
            | Some g => glob_match g v
            | None => Ok (str_eqb v (tt_value t))
            end
  | OpNe => match tt_glob t with
            | Some g => bind (glob_match g v) (fun b => Ok (negb b))
            | None => Ok (negb (str_eqb v (tt_value t)))
            end
  | OpMatch => Ok (rx_match rx (tt_value t) v)
  | OpNotMatch => Ok (negb (rx_match rx (tt_value t) v))
  end.

(** TaggedTermList.WriteString / String, tagged_term.go:105-123 *)
Definition terms_write (l : list tterm) : str :=
  B "seriesByTag(" ++ join_with "," (map (fun t => apos :: tt_write t ++ [apos]) l) ++ B ")".

(** Tag, tagged_term.go:398-401 *)
Definition tag := (str * str)%type.

(** MatchByTagsMap, tagged_term.go:126-138 *)
Fixpoint terms_match_map (rx : regexps) (terms : list tterm) (tags : list tag) : res bool :=
  match terms with
  | [] => Ok true
  | t :: r =>
      match lookup str_eqb (tt_key t) tags with
      | Some v => bind (tt_match rx t v) (fun b => if b then terms_match_map rx r tags else Ok false)
      | None => if op_negative (tt_op t) then terms_match_map rx r tags else Ok false
      end
  end.

(** The scan for a key, tagged_term.go:152-158: the remaining tags from the first one with
    that key. *)
Fixpoint scan_key (k : str) (tags : list tag) : list tag :=
  match tags with
  | [] => []
  | (k', v) :: r => if str_eqb k' k then tags else scan_key k r
  end.
(** MatchByTags, tagged_term.go:141-172: the index i is the remaining suffix of the tags. *)
Fixpoint terms_match_tags (rx : regexps) (terms : list tterm) (tags : list tag) : res bool :=
  match terms with
  | [] => Ok true
  | t :: r =>
      match tags with
      | [] => if op_negative (tt_op t) then terms_match_tags rx r [] else Ok false
      | _ =>
          match scan_key (tt_key t) tags with
          | [] => if op_negative (tt_op t) then terms_match_tags rx r [] else Ok false
          | ((_, v) :: _) as tags' =>
              bind (tt_match rx t v) (fun b => if b then terms_match_tags rx r tags' else Ok false)
          end
      end
  end.

(** parseString, tagged_term.go:174-193 *)
Definition parse_string (s : str) : res (str * str) :=
  match s with
  | [] => Panic
  | q :: t =>
      if Ascii.eqb q apos || Ascii.eqb q quot then
        match index_byte t q with
        | None => Err (ErrNodeNotTerminated t)
        | Some i => Ok (firstn i t, skipn (S i) t)
        end
      else Err (ErrNodeNotTerminated s)
  end.

(** The loop of seriesByTagArgs, tagged_term.go:208-229; [args] collected so far, [cap] is
    len(args), [query] the whole query. *)
Fixpoint series_args_loop (query : str) (fuel : nat) (cap : nat) (e : str) (args : list str) : res (list str) :=
  match e with
  | [] => Ok args
  | c :: t =>
      match fuel with
      | O => Fuel
      | S f =>
          if Ascii.eqb c apos || Ascii.eqb c quot then
            bind (parse_string e) (fun '(arg, rest) =>
            if null arg then series_args_loop query f cap rest args
            else if Nat.eqb (length args) cap then Err (ErrExprOverflow query)
            else series_args_loop query f cap rest (args ++ [arg]))
          else if Ascii.eqb c " " || Ascii.eqb c "," then series_args_loop query f cap t args
          else Err (ErrNodeNotTerminated e)
      end
  end.

(** The left half of strings.Trim(s, " "): Go standard library, not a file of /repo; used in
    tagged_term.go:197. *)
Fixpoint trim_left_sp (s : str) : str :=
  match s with c :: t => if is_space c then trim_left_sp t else s | [] => [] end.
(** strings.Trim(s, " "): Go standard library, not a file of /repo; used in tagged_term.go:197. *)
Definition trim_sp (s : str) : str := rev (trim_left_sp (rev (trim_left_sp s))).

(** seriesByTagArgs, tagged_term.go:195-231 *)
Definition series_by_tag_args (q : str) (cap : nat) : res (list str) :=
  let e := trim_sp q in
  if negb (has_prefix e (B "seriesByTag(")) then Err (ErrQueryInvalid q)
  else match rev e with
  | [] => Panic
  | c :: _ =>
      if negb (Ascii.eqb c ")") then Err (ErrQueryInvalid q)
      else let e := firstn (length e - 13) (skipn 12 e) in series_args_loop q (length e) cap e []
  end.

(** unicode.IsSpace, as applied by strings.TrimSpace: Go standard library, not a file of /repo; used
    in tagged_term.go:259-275. *)
Definition is_space_rune (r : rune) : bool :=
  ((9 <=? r) && (r <=? 13) || (r =? 32) || (r =? 133) || (r =? 160) || (r =? 5760)
   || (8192 <=? r) && (r <=? 8202) || (r =? 8232) || (r =? 8233) || (r =? 8239) || (r =? 8287)
   || (r =? 12288))%N.
(** The left half of strings.TrimSpace: Go standard library, not a file of /repo; used in
    tagged_term.go:259-275. *)
Fixpoint trim_space_left (fuel : nat) (s : str) : str :=
  match fuel with
  | O => s
  | S f => match s with
           | [] => []
           | _ => let '(r, n) := decode_rune s in
                  if is_space_rune r then trim_space_left f (skipn n s) else s
           end
  end.
(** The right half of strings.TrimSpace: Go standard library, not a file of /repo; used in
    tagged_term.go:259-275. *)
Fixpoint trim_space_right (fuel : nat) (s : str) : str :=
  match fuel with
  | O => s
  | S f => match s with
           | [] => []
           | _ => let '(r, n) := decode_last_rune s in
                  if is_space_rune r then trim_space_right f (firstn (length s - n) s) else s
           end
  end.
(** strings.TrimSpace (each round removes at least one byte: the fuel suffices): Go standard
    library, not a file of /repo; used in tagged_term.go:259-275. *)
Definition trim_space (s : str) : str :=
  let s := trim_space_left (length s) s in trim_space_right (length s) s.

(** One condition, tagged_term.go:253-288 *)
Definition parse_condition (rx : regexps) (s : str) : res tterm :=
  match find_byte (fun c => Ascii.eqb c "=" || Ascii.eqb c "~" || Ascii.eqb c "!") s with
  | None | Some 0 => Err (ErrExprInvalid s)
  | Some pos =>
      let key := trim_space (firstn pos s) in
      let s := skipn pos s in
      let key := if str_eqb key (B "name") then B "__name__" else key in
      if has_prefix s (B "=") then
        if has_prefix s (B "=~") then tt_build rx key OpMatch (trim_space (skipn 2 s))
        else tt_build rx key OpEq (trim_space (skipn 1 s))
      else if has_prefix s (B "!=") then
        if has_prefix s (B "!=~") then tt_build rx key OpNotMatch (trim_space (skipn 3 s))
        else tt_build rx key OpNe (trim_space (skipn 2 s))
      else Err (ErrExprInvalid s)
  end.

(** The loop of ParseTaggedConditions over the conditions, tagged_term.go:252-289 *)
Fixpoint parse_all (rx : regexps) (l : list str) : res (list tterm) :=
  match l with
  | [] => Ok []
  | s :: r => bind (parse_condition rx s) (fun t => bind (parse_all rx r) (fun ts => Ok (t :: ts)))
  end.

(** The literal "__name__", tagged_term.go:283 and items.go:28 *)
Definition name_key : str := B "__name__".

(** The comparator, tagged_term.go:291-306 *)
Definition term_ltb (a b : tterm) : bool :=
  if str_eqb (tt_key a) (tt_key b) then
    if op_eqb (tt_op a) (tt_op b) then str_ltb (tt_value a) (tt_value b)
    else (op_num (tt_op a) <? op_num (tt_op b))%nat
  else if str_eqb (tt_key a) name_key then true
  else if str_eqb (tt_key b) name_key then false
  else str_ltb (tt_key a) (tt_key b).

(** ParseTaggedConditions, tagged_term.go:246-309 *)
Definition parse_conditions (rx : regexps) (l : list str) : res (list tterm) :=
  bind (parse_all rx l) (fun ts => Ok (isort term_ltb ts)).

(** ParseSeriesByTag, tagged_term.go:233-244 *)
Definition parse_series (rx : regexps) (q : str) : res (list tterm) :=
  bind (series_by_tag_args q 128) (parse_conditions rx).

(** NextTag (sep '&') and GraphiteNextTag (sep ';'), tagged_term.go:382-396: (tag, value, next),
    None when '=' is missing. *)
Definition next_tag (sep : ascii) (tags : str) : option (str * str * str) :=
  let '(t, next, found) := cut "=" tags in
  if found then let '(v, next, _) := cut sep next in Some (t, v, next) else None.

(** The loop of PathTags / GraphitePathTags, tagged_term.go:415-422 and 371-378: the decoded
    tags and whether no error stopped it. *)
Fixpoint tags_loop (fuel : nat) (sep : ascii) (args : str) (tags : list tag) : list tag * bool :=
  match fuel with
  | O => (tags, false)
  | S f =>
      match args with
      | [] => (tags, true)
      | _ => match next_tag sep args with
             | Some (k, v, next) => tags_loop f sep next (tags ++ [(unescape k, unescape v)])
             | None => (tags, false)
             end
      end
  end.
(** The same loop filling a map, tagged_term.go:437-445, 462-470, 322-330, 347-355 *)
Fixpoint tags_map_loop (fuel : nat) (sep : ascii) (args : str) (tags : list tag) : list tag * bool :=
  match fuel with
  | O => (tags, false)
  | S f =>
      match args with
      | [] => (tags, true)
      | _ => match next_tag sep args with
             | Some (k, v, next) => tags_map_loop f sep next (assign str_eqb (unescape k) (unescape v) tags)
             | None => (tags, false)
             end
      end
  end.

(** The error of the functions below, tagged_term.go:406-408 and 418-421 (314-316 and 326-329, and so
    on): the one of the loop replaces the one about the name.  The variable [kv] named in the former is never
    assigned.  [reason] is the second field of the latter. *)
Definition path_err (reason : str) (ok1 ok2 : bool) : option err :=
  if ok2 then if ok1 then None else Some (ErrPathInvalid (B "name") reason)
  else Some (ErrPathInvalid [] (B "not delimited with =")).
(** PathTags (nsep '?', sep '&') and GraphitePathTags (';', ';'), tagged_term.go:404-424 and
    360-380: the slice and err; [reason] of the name. *)
Definition path_tags_gen (reason : str -> str) (nsep sep : ascii) (p : str) : list tag * option err :=
  let '(name, args, ok) := cut nsep p in
  let '(tags, ok2) := tags_loop (S (length args)) sep args [(name_key, unescape name)] in
  (tags, path_err (reason name) (ok && negb (contains_byte "=" name)) ok2).
(** PathTagsMap and GraphitePathTagsMap, tagged_term.go:427-447 and 312-332: the map and err. *)
Definition path_tags_map_gen (nsep sep : ascii) (p : str) : list tag * option err :=
  let '(name, args, ok) := cut nsep p in
  let '(tags, ok2) := tags_map_loop (S (length args)) sep args (assign str_eqb name_key (unescape name) []) in
  (tags, path_err (B "not found") (ok && negb (contains_byte "=" name)) ok2).
(** [delete(tags, key)], tagged_term.go:341 and 456 *)
Definition map_delete (k : str) (m : list tag) : list tag := filter (fun p => negb (str_eqb k (fst p))) m.
(** [for key := range tags { delete(tags, key) }], tagged_term.go:340-342 and 455-457 *)
Definition map_clear (m : list tag) : list tag := fold_left (fun m k => map_delete k m) (map fst m) m.
(** PathTagsMapB and GraphitePathTagsMapB, tagged_term.go:450-472 and 335-357; every key of the map
    given is deleted first; assigning to a nil map, None, panics. *)
Definition path_tags_map_b_gen (nsep sep : ascii) (p : str) (m : option (list tag)) : res (list tag * option err) :=
  match m with
  | None => Panic
  | Some m =>
      let '(name, args, ok) := cut nsep p in
      let '(tags, ok2) := tags_map_loop (S (length args)) sep args
                            (assign str_eqb name_key (unescape name) (map_clear m)) in
      Ok (tags, path_err (B "not found") (ok && negb (contains_byte "=" name)) ok2)
  end.

(** PathTags, tagged_term.go:404-424 *)
Definition path_tags := path_tags_gen (fun name => B "not found in " ++ name) "?" "&".
(** PathTagsMap, tagged_term.go:427-447 *)
Definition path_tags_map := path_tags_map_gen "?" "&".
(** PathTagsMapB, tagged_term.go:450-472 *)
Definition path_tags_map_b := path_tags_map_b_gen "?" "&".
(** GraphitePathTags, tagged_term.go:360-380 *)
Definition graphite_path_tags := path_tags_gen (fun _ => B "not found") ";" ";".
(** GraphitePathTagsMap, tagged_term.go:312-332 *)
Definition graphite_path_tags_map := path_tags_map_gen ";" ";".
(** GraphitePathTagsMapB, tagged_term.go:335-357 *)
Definition graphite_path_tags_map_b := path_tags_map_b_gen ";" ";".

(** TagsMap, tagged_term.go:475-481 *)
Definition tags_map (tags : list tag) : list tag :=
  fold_left (fun m '(k, v) => assign str_eqb k v m) tags [].

(** [tags[i].Key], items.go:159-214; a Go int is a Z, [Panic] is an index out of range. *)
Definition key_at (keys : list str) (i : Z) : res str :=
  if (0 <=? i)%Z then match nth_error keys (Z.to_nat i) with Some k => Ok k | None => Panic end
  else Panic.
(** The search loop of find, items.go:191-213 (and 133-155) *)
Fixpoint find_loop (fuel : nat) (keys : list str) (key : str) (search low high : Z) : res (option Z) :=
  match fuel with
  | O => Fuel
  | S f =>
      bind (key_at keys search) (fun k =>
      if str_eqb key k then Ok (Some search)
      else
        let high := if str_ltb key k then (search - 1)%Z else high in
        let low := if str_ltb key k then low else (search + 1)%Z in
        if (high <? low)%Z then Ok None
        else if (low =? high)%Z then
          bind (key_at keys low) (fun k => if str_eqb key k then Ok (Some low) else Ok None)
        else find_loop f keys key (Z.quot (low + high) 2) low high)
  end.
(** find over tags, items.go:159-214 (find over TaggedItems, items.go:98-156, is the same code on
    the keys of the items). Arguments are the keys; -1 is None. *)
Definition find_key (keys : list str) (key : str) (start : Z) : res (option Z) :=
  if null keys || null key then Ok None
  else
    let named := str_eqb (nth 0 keys []) name_key in
    if str_eqb key name_key then Ok (if named then Some 0%Z else None)
    else
      let low := if named then 1%Z else 0%Z in
      let high := (Z.of_nat (length keys) - 1)%Z in
      let go low high :=
        let search := Z.quot (low + high) 2 in
        let search := if (low + 4 <? search)%Z then (low + 4)%Z else search in
        find_loop (S (S (length keys))) keys key search low high in
      if (low <? start)%Z then
        bind (key_at keys start) (fun k =>
        if str_eqb k key then Ok (Some start)
        else if str_ltb key k then go low (start - 1)%Z
        else go start high)
      else go low high.

(** TaggedItem and TaggedItems, items.go:7-25 *)
Inductive titem := TItem (tm : option tterm) (x : option term) (slots : list tslot)
with tslot := TSlot (key : str) (notmatched matched : list titem).
(** The field Term of a TaggedItem, items.go:17-25 *)
Definition ti_term (t : titem) := match t with TItem tm _ _ => tm end.
(** The fields of Terminated of a TaggedItem, items.go:17-25 *)
Definition ti_end (t : titem) := match t with TItem _ x _ => x end.
(** The field Items of a TaggedItem, items.go:17-25 *)
Definition ti_slots (t : titem) := match t with TItem _ _ s => s end.
(** The field Key of a TaggedItems, items.go:7-11 *)
Definition ts_key (s : tslot) := match s with TSlot k _ _ => k end.
(** The zero TaggedItem, as in tree.go:18-24 *)
Definition titem_root : titem := TItem None None [].
(** The zero TaggedItems, items.go:7-11 (default of nth, never reached) *)
Definition slot0 : tslot := TSlot [] [] [].

(** The search loop of findOrAppend, items.go:58-78: [inl i] found at i, [inr high] the insert
    position. *)
Fixpoint foa_loop (fuel : nat) (slots : list tslot) (key : str) (low high : Z) : Z + Z :=
  match fuel with
  | O => inr high
  | S f =>
      if (low <=? high)%Z then
        let mid := Z.quot (low + high) 2 in
        let k := ts_key (nth (Z.to_nat mid) slots slot0) in
        if str_eqb key k then inl mid
        else if str_ltb key k then
          if (low =? mid)%Z then inr low else foa_loop f slots key low (mid - 1)%Z
        else if (low =? high)%Z then inr (mid + 1)%Z
        else foa_loop f slots key (mid + 1)%Z high
      else inr high
  end.

(** findOrAppend, items.go:32-95: the index and the new items. *)
Definition find_or_append (slots : list tslot) (key : str) : nat * list tslot :=
  if null key then (1, slots)
  else if null slots then (0, [TSlot key [] []])
  else
    let named := str_eqb (ts_key (nth 0 slots slot0)) name_key in
    if str_eqb key name_key then
      if named then (0, slots) else (0, TSlot key [] [] :: slots)
    else
      let low := if named then 1%Z else 0%Z in
      match foa_loop (S (length slots)) slots key low (Z.of_nat (length slots) - 1)%Z with
      | inl mid => (Z.to_nat mid, slots)
      | inr high =>
          if (high =? Z.of_nat (length slots))%Z then (Z.to_nat high, slots ++ [TSlot key [] []])
          else if (high <=? 0)%Z then (0, TSlot key [] [] :: slots)
          else (Z.to_nat high,
                firstn (Z.to_nat high) slots ++ [TSlot key [] []] ++ skipn (Z.to_nat high) slots)
      end.

(** The child test of TaggedItem.Parse, items.go:230 *)
Definition same_term (t : tterm) (c : titem) : bool :=
  match ti_term c with
  | Some u => str_eqb (tt_key t) (tt_key u) && op_eqb (tt_op t) (tt_op u) && str_eqb (tt_value t) (tt_value u)
  | None => false
  end.

(** TaggedItem.Parse, items.go:216-253, followed by what the caller does to the last item:
    [Some x] sets Terminate, Query and Index (tree.go:65-68), [None] leaves it (tree.go:108).
    The slot index out of range is a panic. *)
Fixpoint ti_parse (terms : list tterm) (x : option term) (item : titem) {struct terms} : res titem :=
  match item with
  | TItem tm e slots =>
      match terms with
      | [] => Ok (TItem tm (match x with Some _ => x | None => e end) slots)
      | t :: rest =>
          let '(pos, slots) := find_or_append slots (tt_key t) in
          match nth_error slots pos with
          | None => Panic
          | Some (TSlot k nm m) =>
              let neg := op_negative (tt_op t) in
              let fix go (l : list titem) : res (list titem) :=
                match l with
                | [] => bind (ti_parse rest x (TItem (Some t) None [])) (fun c => Ok [c])
                | c :: l' =>
                    if same_term t c then bind (ti_parse rest x c) (fun c' => Ok (c' :: l'))
                    else bind (go l') (fun l'' => Ok (c :: l''))
                end in
              bind (go (if neg then nm else m)) (fun childs =>
              Ok (TItem tm e (set_nth pos (if neg then TSlot k childs m else TSlot k nm childs) slots)))
          end
      end
  end.

(** TaggedItem.MatchByTagsMap, items.go:255-303 *)
Fixpoint ti_match_map (rx : regexps) (item : titem) (tags : list tag) {struct item} : res out :=
  match item with
  | TItem _ _ slots =>
      if null tags then Ok out_none
      else
        (fix over (l : list tslot) : res out :=
           match l with
           | [] => Ok out_none
           | sl :: l' => oseq (slot_match_map rx sl tags) (over l')
           end) slots
  end
with slot_match_map (rx : regexps) (sl : tslot) (tags : list tag) {struct sl} : res out :=
  match sl with
  | TSlot key nm m =>
      match lookup str_eqb key tags with
      | Some v =>
          let fix go (l : list titem) : res out :=
            match l with
            | [] => Ok out_none
            | c :: l' =>
                match ti_term c with
                | None => Panic
                | Some t =>
                    bind (tt_match rx t v) (fun b =>
                    if b then oseq (Ok (emit (ti_end c))) (oseq (ti_match_map rx c tags) (go l')) else go l')
                end
            end in
          oseq (go m) (go nm)
      | None =>
          (fix go (l : list titem) : res out :=
             match l with
             | [] => Ok out_none
             | c :: l' => oseq (Ok (emit (ti_end c))) (oseq (ti_match_map rx c tags) (go l'))
             end) nm
      end
  end.

(** TaggedItem.MatchByTags, items.go:305-356; [slot_match_tags] is one round of the loop and
    also answers the new matchPos. *)
Fixpoint ti_match_tags (rx : regexps) (item : titem) (tags : list tag) {struct item} : res out :=
  match item with
  | TItem _ _ slots =>
      if null tags then Ok out_none
      else
        (fix over (l : list tslot) (matchpos : Z) : res out :=
           match l with
           | [] => Ok out_none
           | sl :: l' => bind (slot_match_tags rx sl tags matchpos) (fun '(o, matchpos') =>
                         oseq (Ok o) (over l' matchpos'))
           end) slots 0%Z
  end
with slot_match_tags (rx : regexps) (sl : tslot) (tags : list tag) (matchpos : Z) {struct sl} : res (out * Z) :=
  match sl with
  | TSlot key nm m =>
      bind (find_key (map fst tags) key matchpos) (fun n =>
      match n with
      | Some i =>
          match nth_error tags (Z.to_nat i) with
          | None => Panic
          | Some (_, v) =>
              let fix go (l : list titem) : res out :=
                match l with
                | [] => Ok out_none
                | c :: l' =>
                    match ti_term c with
                    | None => Panic
                    | Some t =>
                        bind (tt_match rx t v) (fun b =>
                        if b then oseq (Ok (emit (ti_end c))) (oseq (ti_match_tags rx c tags) (go l')) else go l')
                    end
                end in
              bind (oseq (go m) (go nm)) (fun o => Ok (o, i))
          end
      | None =>
          bind ((fix go (l : list titem) : res out :=
                   match l with
                   | [] => Ok out_none
                   | c :: l' => oseq (Ok (emit (ti_end c))) (oseq (ti_match_tags rx c tags) (go l'))
                   end) nm) (fun o => Ok (o, matchpos))
      end)
  end.

(** GTagsTree, tree.go:9-16 *)
Record gtags_tree := mkTT {
  tg_end : option term;
  tg_root : titem;
  tg_queries : list (str * Z);
  tg_index : list (Z * str)
}.
(** NewTree, tree.go:18-24 *)
Definition tg_new : gtags_tree := mkTT None titem_root [] [].

(** GTagsTree.Add, tree.go:26-80 *)
Definition tg_add (rx : regexps) (gt : gtags_tree) (q : str) (index : Z) : res (gtags_tree * add_res) :=
  if null q then Ok (gt, ([], 0%Z, None))
  else if (index <? 0)%Z then Ok (gt, (q, 0%Z, Some ErrIndexInvalid))
  else match lookup str_eqb q (tg_queries gt) with
  | Some n => Ok (gt, (q, n, Some ErrGlobExist))
  | None =>
    match lookup Z.eqb index (tg_index gt) with
    | Some nrm => Ok (gt, (nrm, 0%Z, Some ErrIndexDup))
    | None =>
      match parse_series rx q with
      | Panic => Panic
      | Fuel => Fuel
      | Err e => Ok (gt, ([], 0%Z, Some e))
      | Ok terms =>
        let nrm := terms_write terms in
        match lookup str_eqb nrm (tg_queries gt) with
        | Some n => Ok (gt, (nrm, n, Some ErrGlobExist))
        | None =>
            bind (match terms with
                  | [] => Ok (Some (nrm, index), tg_root gt)
                  | _ => bind (ti_parse terms (Some (nrm, index)) (tg_root gt)) (fun r => Ok (tg_end gt, r))
                  end) (fun '(e, root) =>
            let m := assign str_eqb q index (tg_queries gt) in
            let m := if str_eqb nrm q then m else assign str_eqb nrm index m in
            Ok (mkTT e root m (assign Z.eqb index nrm (tg_index gt)), (nrm, index, None)))
        end
      end
    end
  end.

(** GTagsTree.AddTerms, tree.go:82-117: [normalized] is emptied by the failed lookup of the
    index; the last item is not marked. *)
Definition tg_add_terms (gt : gtags_tree) (terms : list tterm) (index : Z) : res (gtags_tree * add_res) :=
  if null terms then Ok (gt, ([], 0%Z, None))
  else if (index <? 0)%Z then Ok (gt, ([], 0%Z, Some ErrIndexInvalid))
  else
    let nrm := terms_write terms in
    match lookup str_eqb nrm (tg_queries gt) with
    | Some n => Ok (gt, (nrm, n, Some ErrGlobExist))
    | None =>
      match lookup Z.eqb index (tg_index gt) with
      | Some q => Ok (gt, (q, 0%Z, Some ErrIndexDup))
      | None =>
          bind (ti_parse terms None (tg_root gt)) (fun root =>
          Ok (mkTT (tg_end gt) root (assign str_eqb [] index (tg_queries gt))
                   (assign Z.eqb index [] (tg_index gt)), ([], index, None)))
      end
    end.

(** GTagsTree.MatchByTagsMap, tree.go:119-121 *)
Definition tg_match_map (rx : regexps) (gt : gtags_tree) (tags : list tag) : res out :=
  ti_match_map rx (tg_root gt) tags.
(** GTagsTree.MatchByTags, tree.go:123-128: the root query is stored but not counted. *)
Definition tg_match_tags (rx : regexps) (gt : gtags_tree) (tags : list tag) : res out :=
  oseq (Ok (match tg_end gt with Some x => ([x], 0) | None => out_none end))
       (ti_match_tags rx (tg_root gt) tags).
