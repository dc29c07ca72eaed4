(** pkg/items: item kinds, their methods, list/group construction and the wildcard
    tokenizer.  Definitions only. *)
From Verif Require Export Model.Ranges.

(** items.FindFlag, pkg/items/items.go:9-22 *)
Inductive flag := FindNotSupported | FindDone | FindForwarded | FindList | FindStar | FindGroup | FindChain.

(** items.StringList, pkg/items/stringlist.go:90-97 *)
Record slist := mkSList {
  sl_ascii_started : bool;
  sl_first : ascii_set;
  sl_vals : list str;
  sl_min : Z;
  sl_max : Z
}.

(** The implementations of the items.Item interface: String (string.go:7), Byte
    (byte.go:8), Rune (rune.go:9), Any (any.go:10), Star (star.go:10), RunesRanges
    (runesranges.go:11), StringList, Group (group.go:9: Vals, MinSize, MaxSize), Chain
    (chain.go:6: Items, MinSize, MaxSize). *)
Inductive item :=
| IStr (s : str)
| IByte (b : ascii)
| IRune (r : rune)
| IAny (n : nat)
| IStar (n : nat)
| IRanges (rs : rranges)
| IList (l : slist)
| IGroup (vals : list item) (minsize maxsize : Z)
| IChain (items : list item) (minsize maxsize : Z).

(** [len(s)] as a Go int (language level), as in string.go:61-63 *)
Definition zlen (s : str) : Z := Z.of_nat (length s).

(** MinLen methods: string.go:61, byte.go:44, rune.go:45, any.go:38, star.go:40,
    runesranges.go:53, stringlist.go:131, group.go:52, chain.go:52 *)
Definition item_min (it : item) : Z :=
  match it with
  | IStr s => zlen s
  | IByte _ => 1
  | IRune r => rune_len r
  | IAny n => Z.of_nat n
  | IStar n => Z.of_nat n
  | IRanges rs => rr_min rs
  | IList l => sl_min l
  | IGroup _ mn _ => mn
  | IChain _ mn _ => mn
  end.

(** MaxLen methods; -1 is unlimited: string.go:65, byte.go:48, rune.go:49, any.go:42, star.go:44,
    runesranges.go:57, stringlist.go:135, group.go:56, chain.go:56 *)
Definition item_max (it : item) : Z :=
  match it with
  | IStr s => zlen s
  | IByte _ => 1
  | IRune r => rune_len r
  | IAny n => Z.of_nat n * 4
  | IStar _ => -1
  | IRanges rs => rr_max rs
  | IList l => sl_max l
  | IGroup _ _ mx => mx
  | IChain _ _ mx => mx
  end.

(** StringList.IsOptional, stringlist.go:166-168 *)
Definition sl_optional (l : slist) : bool := (sl_min l =? 0)%Z.

(** StringList.WriteString, stringlist.go:113-124 *)
Definition sl_write (l : slist) : str :=
  ["{"%char]
  ++ (if sl_optional l then concat (map (fun v => ","%char :: v) (sl_vals l))
      else join_with "," (sl_vals l))
  ++ ["}"%char].

(** WriteString / String methods: string.go:26, byte.go:21, rune.go:22, any.go:23,
    star.go:24, runesranges.go:42, stringlist.go:113, group.go:34, chain.go:39 *)
Fixpoint item_write (it : item) : str :=
  match it with
  | IStr s => s
  | IByte b => [b]
  | IRune r => encode_rune r
  | IAny n => repeat "?"%char n
  | IStar n => "*"%char :: repeat "?"%char n
  | IRanges rs => rr_write rs
  | IList l => sl_write l
  | IGroup vals _ _ => ["{"%char] ++ join_with "," (map item_write vals) ++ ["}"%char]
  | IChain its _ _ => concat (map item_write its)
  end.

(** StringList.Equal, stringlist.go:99-107 *)
Definition sl_equal (a b : slist) : bool :=
  (sl_min a =? sl_min b)%Z && (sl_max a =? sl_max b)%Z && slice_equal str_eqb (sl_vals a) (sl_vals b).

(** Equal methods: string.go:15, byte.go:10, rune.go:11, any.go:12, star.go:12,
    runesranges.go:23, stringlist.go:99, group.go:15, chain.go:16 / ItemsEqual items.go:71 *)
Fixpoint item_equal (a b : item) : bool :=
  match a, b with
  | IStr x, IStr y => str_eqb x y
  | IByte x, IByte y => Ascii.eqb x y
  | IRune x, IRune y => (x =? y)%N
  | IAny x, IAny y => Nat.eqb x y
  | IStar x, IStar y => Nat.eqb x y
  | IRanges x, IRanges y => rr_equal x y
  | IList x, IList y => sl_equal x y
  | IGroup x _ _, IGroup y _ _ =>
      (fix go (x y : list item) : bool :=
         match x, y with
         | [], [] => true
         | a :: x', b :: y' => item_equal a b && go x' y'
         | _, _ => false
         end) x y
  | IChain x _ _, IChain y _ _ =>
      (fix go (x y : list item) : bool :=
         match x, y with
         | [], [] => true
         | a :: x', b :: y' => item_equal a b && go x' y'
         | _, _ => false
         end) x y
  | _, _ => false
  end.

(** Match methods: (offset or -1, flag); string.go:76, byte.go:60, rune.go:61, any.go:55,
    star.go:54, runesranges.go:66, stringlist.go:155, group.go:65, chain.go:69 *)
Definition item_match (it : item) (s : str) : option nat * flag :=
  match it with
  | IStr t => (if has_prefix s t then Some (length t) else None, FindDone)
  | IByte b => (match s with
                | [] => None
                | c :: _ => if Ascii.eqb b c then Some 1 else None
                end, FindDone)
  | IRune r => (let '(c, n) := decode_rune s in
                if negb (c =? RuneError)%N then (if (c =? r)%N then Some n else None) else None,
                FindDone)
  | IAny n => (skip_runes s n, FindDone)
  | IStar n => (skip_runes s n, FindStar)
  | IRanges rs => (snd (rr_starts_with rs s), FindDone)
  | IList _ => (Some 0, FindList)
  | IGroup _ _ _ => (Some 0, FindGroup)
  | IChain _ _ _ => (Some 0, FindNotSupported)
  end.

(** Find methods: (index or -1, length or -1, flag); string.go:69, byte.go:52, rune.go:53,
    any.go:46, star.go:48, runesranges.go:61, stringlist.go:150, group.go:60.
    Chain.Find (chain.go:60) indexes Items[0] and answers FindChain, which every caller
    turns into a panic; it is given the flag FindChain here. *)
Definition item_find (it : item) (s : str) : option nat * option nat * flag :=
  match it with
  | IStr t => (index_of s t, Some (length t), FindDone)
  | IByte b => (index_byte s b, Some 1, FindDone)
  | IRune r => (index_rune s r, Some (Z.to_nat (rune_len r)), FindDone)
  | IAny n => (match skip_runes s n with None => None | Some _ => Some 0 end, skip_runes s n, FindForwarded)
  | IStar n => (Some 0, skip_runes s n, FindStar)
  | IRanges rs => (match rr_index rs s with Some (i, _, _) => Some i | None => None end,
                   match rr_index rs s with Some (_, _, n) => Some n | None => Some 0 end, FindDone)
  | IList _ => (Some 0, Some 0, FindList)
  | IGroup _ _ _ => (Some 0, Some 0, FindGroup)
  | IChain _ _ _ => (Some 0, Some 0, FindChain)
  end.

(** [s[length:]] with the length answered by Find (language level), items.go:347, tree.go:205 and 504; None when it is out of range,
    which panics: strings.IndexRune finds U+FFFD in a malformed byte too, but its length is 3. *)
Definition after_found (len : option nat) (s : str) : option str :=
  match len with
  | Some n => if (n <=? length s)%nat then Some (skipn n s) else None
  | None => None
  end.

(** MatchLast methods: string.go:86, byte.go:74 (indexes s[len-1], panics on "" and
    answers 0 on a match), rune.go:74, any.go:60, star.go:60, runesranges.go:71,
    stringlist.go:160, group.go:75, chain.go:75 *)
Definition item_match_last (it : item) (s : str) : res (option nat * flag) :=
  match it with
  | IStr t => Ok (if has_suffix s t then Some (length s - length t) else None, FindDone)
  | IByte b => match rev s with
               | [] => Panic
               | c :: _ => Ok (if Ascii.eqb c b then Some 0 else None, FindDone)
               end
  | IRune r => Ok (let '(c, n) := decode_last_rune s in
                   if negb (c =? RuneError)%N
                   then (if (c =? r)%N then Some (length s - n) else None) else None, FindDone)
  | IRanges rs => Ok (snd (rr_ends_with rs s), FindDone)
  | _ => Ok (Some 0, FindNotSupported)
  end.

(** StringList.MatchN, stringlist.go:207-216 *)
Definition match_val (s v : str) : option nat := if has_prefix s v then Some (length v) else None.
(** StringList.FindN, stringlist.go:199-205 *)
Definition find_val (s v : str) : option nat := index_of s v.

(** StringList.FindFirst, stringlist.go:176-182: (index or -1, supported); index is 0 when
    unsupported. *)
Definition sl_find_first (l : slist) (s : str) : option nat * bool :=
  if sl_ascii_started l then (as_index (sl_first l) s, true) else (Some 0, false).

(** StringList.MatchFirst, stringlist.go:185-197: (ok, supported) *)
Definition sl_match_first (l : slist) (s : str) : bool * bool :=
  match s with
  | [] => (false, true)
  | c :: _ => if sl_ascii_started l then (as_contains (sl_first l) c, true) else (true, false)
  end.

(** StringList.Map keys, stringlist.go:139-148 *)
Definition sl_map (l : slist) : list str := (if sl_optional l then [[]] else []) ++ sl_vals l.

(** Group.IsOptional, group.go:81-83 *)
Definition group_optional (mn : Z) : bool := (mn =? 0)%Z.

(** Wildcard characters "[]{}*?", pkg/items/utils.go:25-35 (the same functions are repeated in
    gglob/utils.go:64-84) *)
Definition is_wild (c : ascii) : bool :=
  Ascii.eqb c "[" || Ascii.eqb c "]" || Ascii.eqb c "{" || Ascii.eqb c "}"
  || Ascii.eqb c "*" || Ascii.eqb c "?".
(** HasWildcard, utils.go:25-27 *)
Definition has_wildcard (s : str) : bool := existsb is_wild s.
(** IndexWildcard, utils.go:29-31 *)
Definition index_wildcard (s : str) : option nat := find_byte is_wild s.
(** IndexLastWildcard, utils.go:33-35 *)
Definition index_last_wildcard (s : str) : option nat := find_last_byte is_wild s.

(** WildcardCount, utils.go:15-23 (a capacity hint in Parse; closing brackets not counted) *)
Definition wildcard_count (s : str) : nat :=
  length (filter (fun c => (c =? 91) || (c =? 123) || (c =? 42) || (c =? 63))%N (map snd (range s))).

(** AddMaxLen, utils.go:8-13 *)
Definition add_max_len (a b : Z) : Z := if (-1 <? a)%Z && (-1 <? b)%Z then (a + b)%Z else (-1)%Z.

(** [string(b)] for a byte value: the UTF-8 encoding of code point b (language level), as in
    byte.go:36-38 and string.go:45-51 *)
Definition string_of_byte (b : ascii) : str := encode_rune (code b).

(** The merging cases of AppendItem, items.go:489-559, for the last element of the slice.
    [String.Add] etc. mutate the last element in place; here the element is replaced. *)
Definition merge_last (last it : item) : option item :=
  match it, last with
  | IStr s, IStr t => Some (IStr (t ++ s))
  | IStr s, IRune r => Some (IStr (encode_rune r ++ s))
  | IStr s, IByte b => Some (IStr (string_of_byte b ++ s))
  | IRune c, IStr t => Some (IStr (t ++ encode_rune c))
  | IRune c, IRune r => Some (IStr (encode_rune r ++ encode_rune c))
  | IRune c, IByte b => Some (IStr (string_of_byte b ++ encode_rune c))
  | IByte c, IStr t => Some (IStr (t ++ string_of_byte c))
  | IByte c, IRune r => Some (IStr (encode_rune r ++ string_of_byte c))
  | IByte c, IByte b => Some (IStr (string_of_byte b ++ string_of_byte c))
  | IAny n, IAny m => Some (IAny (m + n))
  | IAny n, IStar m => Some (IStar (m + n))
  | IStar n, IAny m => Some (IStar (n + m))
  | IStar n, IStar m => Some (IStar (m + n))
  | _, _ => None
  end.
(** AppendItem, items.go:489-559, on a slice kept in reverse: its last element is the head. *)
Definition append_item_rev (rl : list item) (it : item) : list item :=
  match rl with
  | [] => [it]
  | last :: r => match merge_last last it with
                 | Some m => m :: r
                 | None => it :: rl
                 end
  end.
(** AppendItem, items.go:489-559 *)
Definition append_item (l : list item) (it : item) : list item := rev (append_item_rev (rev l) it).

(** Chain under construction: items (reversed), MinSize, MaxSize; Chain.Append, chain.go:23-31 *)
Definition chain_append (c : list item * Z * Z) (it : item) : list item * Z * Z :=
  let '(rl, mn, mx) := c in
  (append_item_rev rl it, mn + item_min it,
   if item_max it =? -1 then -1 else mx + item_max it)%Z.

(** removeDuplicated, stringlist.go:36-68. First loop, stringlist.go:40-44: number of leading
    elements equal to their successor. *)
Fixpoint dup_prefix (l : list str) : nat :=
  match l with
  | x :: ((y :: _) as t) => if str_eqb x y then S (dup_prefix t) else 0
  | _ => 0
  end.
(** Third loop of removeDuplicated, stringlist.go:57-65, in place: each element is copied to index j
    unless it equals its successor. *)
Fixpoint dedup_loop (fuel : nat) (a : list str) (i j : nat) : list str * nat :=
  match fuel with
  | O => (a, j)
  | S f =>
      if (i <? length a)%nat then
        if (i <? length a - 1)%nat && str_eqb (nth i a []) (nth (S i) a []) then dedup_loop f a (S i) j
        else dedup_loop f (set_nth j (nth i a []) a) (S i) (S j)
      else (a, j)
  end.
(** Second loop of removeDuplicated, stringlist.go:45-50: j from n-1 down while a[j-1] = a[j] and j
    > i. *)
Fixpoint dup_suffix (k : nat) (a : list str) (i j : nat) : nat :=
  match k with
  | O => j
  | S k' => if (i <? j)%nat then
              if str_eqb (nth (j - 1) a []) (nth j a []) then dup_suffix k' a i (j - 1) else j
            else j
  end.
(** removeDuplicated, stringlist.go:36-68 *)
Definition remove_duplicated (a : list str) : list str :=
  let i := dup_prefix a in
  let j := dup_suffix (length a) a i (length a - 1) in
  let a1 := skipn i (firstn (S j) a) in
  let '(a2, j2) := dedup_loop (S (length a1)) a1 0 0 in
  firstn j2 a2.

(** ListExpand, stringlist.go:70-87; [None] is ok=false. *)
Definition list_expand (s : str) : option (list str) :=
  if (1 <? length s)%nat && Ascii.eqb (nth 0 s zero) "{" && Ascii.eqb (nth (length s - 1) s zero) "}"
  then
    let body := firstn (length s - 2) (skipn 1 s) in
    if null body then Some []
    else Some (remove_duplicated (isort str_ltb (split_on "," body)))
  else None.

(** math.MaxInt (language level), stringlist.go:239 *)
Definition max_int : Z := 9223372036854775807.

(** The scan of NewItemList over the values, stringlist.go:247-264.  State: minLen, maxLen,
    asciiStarted, firstASCII; the last component is hasStar (the loop breaks). *)
Fixpoint list_scan (vals : list str) (mn mx : Z) (started : bool) (first : ascii_set)
  : Z * Z * bool * ascii_set * bool :=
  match vals with
  | [] => (mn, mx, started, first, false)
  | v :: t =>
      let l := zlen v in
      let mx := if (mx <? l)%Z then l else mx in
      let mn := if (l <? mn)%Z then l else mn in
      match v with
      | [] => list_scan t mn mx started first
      | c :: _ =>
          let '(first, ok) := as_add first c in
          let started := if ok then started else false in
          if has_wildcard v then (mn, mx, started, first, true)
          else list_scan t mn mx started first
      end
  end.

(** Group bounds, group.go:120-130 *)
Fixpoint group_bounds (l : list item) (mn mx : Z) : Z * Z :=
  match l with
  | [] => (mn, mx)
  | it :: t =>
      let mn := if (item_min it <? mn)%Z then item_min it else mn in
      let l := item_max it in
      let mx := if negb (mx =? -1)%Z && ((l =? -1)%Z || (mx <? l)%Z) then l else mx in
      group_bounds t mn mx
  end.

(** A single value / segment as an item: the one-symbol optimisations of stringlist.go:230-237
    and wildcard.go:79-86. *)
Definition single_item (v : str) : item :=
  let '(c, n) := decode_rune v in
  if Nat.eqb n (length v) then
    if (c <=? 127)%N then IByte (byte_of c) else IRune c
  else IStr v.

(** Tail of a run of '*' (wildcard.go:58-65): the [range] loop stops at the first rune that
    is not '*'; a malformed byte is not '*' either. *)
Fixpoint skip_stars (s : str) : str :=
  match s with
  | c :: t => if Ascii.eqb c "*" then skip_stars t else s
  | [] => []
  end.

(** Loop of NewGroup over one value, group.go:96-111: repeatedly take the next wildcard item
    ([nwi]) of v and append it to the chain. *)
Fixpoint group_chain (fuel : nat) (nwi : str -> res (option item * str)) (v : str)
  (c : list item * Z * Z) : res (list item * Z * Z) :=
  match v with
  | [] => Ok c
  | _ =>
      match fuel with
      | O => Fuel
      | S f =>
          match nwi v with
          | Ok (Some it, next) => group_chain f nwi next (chain_append c it)
          | Ok (None, next) => group_chain f nwi next c
          | Err e => Err e
          | Panic => Panic
          | Fuel => Fuel
          end
      end
  end.

(** One value of NewGroup with a wildcard other than "*" and "?", group.go:96-111 *)
Definition group_val (nwi : str -> res (option item * str)) (v : str) : res item :=
  bind (group_chain (length v) nwi v ([], 0%Z, 0%Z)) (fun '(rl, mn, mx) =>
    match rl with
    | [it] => Ok it
    | _ => Ok (IChain (rev rl) mn mx)
    end).

(** Values of NewGroup, group.go:87-116.  [inl it]: early return (a "*" value);
    [inr l]: the collected items. *)
Fixpoint group_vals (nwi : str -> res (option item * str)) (vals : list str)
  : res (item + list item) :=
  match vals with
  | [] => Ok (inr [])
  | v :: t =>
      if has_wildcard v then
        if str_eqb v (B "*") then Ok (inl (IStar 0))
        else
          bind (if str_eqb v (B "?") then Ok (IAny 1) else group_val nwi v) (fun it =>
          bind (group_vals nwi t) (fun r =>
            match r with
            | inl x => Ok (inl x)
            | inr l => Ok (inr (it :: l))
            end))
      else
        bind (group_vals nwi t) (fun r =>
          match r with
          | inl x => Ok (inl x)
          | inr l => Ok (inr (IStr v :: l))
          end)
  end.

(** NewGroup, group.go:85-132 *)
Definition new_group (nwi : str -> res (option item * str)) (vals : list str) : res (option item) :=
  bind (group_vals nwi vals) (fun r =>
    match r with
    | inl it => Ok (Some it)
    | inr [] => Ok None
    | inr ((x :: t) as l) =>
        let '(mn, mx) := group_bounds t (item_min x) (item_max x) in
        Ok (Some (IGroup l mn mx))
    end).

(** NewItemList, stringlist.go:219-286 *)
Definition new_item_list (nwi : str -> res (option item * str)) (vals : list str) : res (option item) :=
  match vals with
  | [] => Ok None
  | [v] => if null v then Ok None else Ok (Some (single_item v))
  | _ =>
      let '(mn, mx, started, first, has_star) := list_scan vals max_int 0 true as_empty in
      if has_star then new_group nwi vals
      else
        let mk vs := if started then IList (mkSList started first vs mn mx)
                     else IList (mkSList false as_empty vs mn mx) in
        if (mn =? 0)%Z then
          match vals with
          | [] :: t => Ok (Some (mk t))
          | _ => Panic
          end
        else Ok (Some (mk vals))
  end.

(** NextWildcardItem, wildcard.go:12-88: the item (None for nil) and the rest.  Fuel bounds the
    nesting of lists (NewItemList -> NewGroup -> NextWildcardItem on shorter text). *)
Fixpoint next_item (fuel : nat) (s : str) : res (option item * str) :=
  match fuel with
  | O => Fuel
  | S f =>
      match s with
      | [] => Err ErrEOF
      | c0 :: rest =>
          if Ascii.eqb c0 "[" then
            let '(seg, next) := match index_byte s "]" with
                                | Some i => (firstn (S i) s, skipn (S i) s)
                                | None => (s, [])
                                end in
            match ranges_expand seg with
            | None => Err (ErrNodeMissmatch (B "rune") seg)
            | Some rs =>
                let '(n, c) := as_count (rr_ascii rs) in
                if Nat.eqb n 0 && null (rr_unicode rs) then Ok (None, next)
                else if null (rr_unicode rs) && Nat.eqb n 1 then Ok (Some (IByte c), next)
                else match rr_unicode rs with
                     | [r] => if Nat.eqb n 0 && (First r =? Last r)%N
                              then Ok (Some (IRune (First r)), next)
                              else Ok (Some (IRanges rs), next)
                     | _ => Ok (Some (IRanges rs), next)
                     end
            end
          else if Ascii.eqb c0 "{" then
            let '(seg, next) := match index_byte s "}" with
                                | Some i => (firstn (S i) s, skipn (S i) s)
                                | None => (s, [])
                                end in
            match list_expand seg with
            | None => Err (ErrNodeMissmatch (B "list") seg)
            | Some vals => bind (new_item_list (next_item f) vals) (fun it => Ok (it, next))
            end
          else if Ascii.eqb c0 "*" then Ok (Some (IStar 0), skip_stars s)
          else if Ascii.eqb c0 "?" then Ok (Some (IAny 1), rest)
          else if Ascii.eqb c0 "]" || Ascii.eqb c0 "}" then Err (ErrNodeUnclosed s)
          else
            match index_wildcard s with
            | None => Ok (Some (IStr s), [])
            | Some e => let '(v, next) := split_string s e in Ok (Some (single_item v), next)
            end
      end
  end.

(** NextWildcardItem, wildcard.go:12-88, with enough fuel for any nesting. *)
Definition next_wildcard_item (s : str) : res (option item * str) := next_item (S (length s)) s.
