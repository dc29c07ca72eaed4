(** pkg/utils/runesranges.go.  Definitions only. *)
From Verif Require Export Model.Utils.
Local Open Scope N_scope.

(** utils.RuneRange, pkg/utils/runesranges.go:11-14 *)
Record rrange := mkRange { First : rune; Last : rune }.

(** the comparator of RunesRangeMerge, runesranges.go:17-22 *)
Definition range_ltb (a b : rrange) : bool :=
  if First a =? First b then Last a <? Last b else First a <? First b.

(** The zero RuneRange, runesranges.go:11-14 (default of nth, never reached) *)
Definition range0 := mkRange 0 0.
(** [ranges[i].Last = v], runesranges.go:34, 38 and 47 *)
Definition set_last (i : nat) (v : rune) (l : list rrange) : list rrange :=
  set_nth i (mkRange (First (nth i l range0)) v) l.

(** The inner loop of RunesRangeMerge, runesranges.go:30-42: absorbs the ranges
    following [pos]; [i] is the outer loop variable, [next = i + 1] throughout
    (both are incremented together).  Fuel: the array length. *)
Fixpoint merge_inner (fuel : nat) (l : list rrange) (pos i : nat) : list rrange * nat :=
  match fuel with
  | O => (l, i)
  | S f =>
      let next := S i in
      if (next <? length l)%nat then
        let p := nth pos l range0 in
        let q := nth next l range0 in
        if (First p =? First q) || (First q <=? Last p + 1) then
          let l1 := if Last p <? Last q then set_last pos (Last q) l else l in
          let l2 := set_last next 0 l1 in
          merge_inner f l2 pos next
        else (l, i)
      else (l, i)
  end.

(** The outer loop, runesranges.go:27-52. *)
Fixpoint merge_outer (fuel : nat) (l : list rrange) (i j : nat) : list rrange * nat :=
  match fuel with
  | O => (l, j)
  | S f =>
      if (i <? length l)%nat then
        let pos := i in
        let '(l1, i1) :=
          if (pos <? length l - 1)%nat then merge_inner (length l) l pos i else (l, i) in
        let l2 :=
          if negb (Nat.eqb pos j)
          then set_last pos 0 (set_nth j (nth pos l1 range0) l1)
          else l1 in
        let j2 := if negb (Last (nth j l2 range0) =? 0) then S j else j in
        merge_outer f l2 (S i1) j2
      else (l, j)
  end.

(** RunesRangeMerge, runesranges.go:16-55 *)
Definition ranges_merge (ranges : list rrange) : list rrange :=
  let l := isort range_ltb ranges in
  let '(l', j) := merge_outer (S (length l)) l 0 0 in
  firstn j l'.

(** utils.RunesRanges, runesranges.go:136-142 *)
Record rranges := mkRR {
  rr_ascii : ascii_set;
  rr_unicode : list rrange;
  rr_need_merge : bool;
  rr_min : Z;
  rr_max : Z
}.
(** The zero RunesRanges, runesranges.go:136-142 *)
Definition rr_empty : rranges := mkRR as_empty [] false 0 0.

(** setSizes, runesranges.go:177-184 *)
Definition rr_set_sizes (rs : rranges) (n : Z) : rranges :=
  mkRR (rr_ascii rs) (rr_unicode rs) (rr_need_merge rs)
       (if (n <? rr_min rs)%Z || (rr_min rs =? 0)%Z then n else rr_min rs)
       (if (rr_max rs <? n)%Z then n else rr_max rs).

(** Assignment to the field ASCII, as by runesranges.go:81 *)
Definition rr_with_ascii (rs : rranges) (a : ascii_set) : rranges :=
  mkRR a (rr_unicode rs) (rr_need_merge rs) (rr_min rs) (rr_max rs).
(** Appending to the field UnicodeRanges, runesranges.go:95 and 108 *)
Definition rr_append (rs : rranges) (r : rrange) : rranges :=
  mkRR (rr_ascii rs) (rr_unicode rs ++ [r]) (rr_need_merge rs) (rr_min rs) (rr_max rs).

(** [rs.ASCII.Add(byte(c))], runesranges.go:81, 105 and 189 *)
Definition rr_add_ascii (rs : rranges) (c : ascii) : rranges :=
  rr_with_ascii rs (fst (as_add (rr_ascii rs) c)).

(** [for i := byte(start); i <= byte(c); i++ { rs.ASCII.Add(i) }], runesranges.go:80-82,
    for start <= c <= 127 *)
Definition rr_add_ascii_range (rs : rranges) (a c : rune) : rranges :=
  fold_left rr_add_ascii (bytes_from a (N.to_nat (c + 1 - a))) rs.

(** Adding a pending single symbol, runesranges.go:104-110 and 117-123
    ([math.MaxInt8] is 127). *)
Definition rr_add_single (rs : rranges) (start : rune) : rranges :=
  if start <=? 127 then rr_set_sizes (rr_add_ascii rs (byte_of start)) 1
  else rr_set_sizes (rr_append rs (mkRange start start)) (rune_len start).

(** The scan of RunesRangeExpand over [range s], runesranges.go:65-126.
    [None]: the function returned false.  [s[i] == '-'] holds exactly when the rune
    at [i] is '-'. *)
Fixpoint rr_scan (l : list rune) (start : rune) (isrange : bool) (rs : rranges) : option rranges :=
  match l with
  | [] => Some (if negb (start =? RuneError) then rr_add_single rs start else rs)
  | c :: t =>
      if c =? 45 then rr_scan t start true rs
      else if isrange then
        if start =? RuneError then rr_scan t c false rs
        else if start <=? 127 then
          if 127 <? c then None
          else if start <=? c then
            rr_scan t RuneError false (rr_set_sizes (rr_add_ascii_range rs start c) 1)
          else None
        else if start <=? c then
          if negb (rune_len start =? rune_len c)%Z then None
          else rr_scan t RuneError false
                 (rr_append (rr_set_sizes rs (rune_len start)) (mkRange start c))
        else None
      else
        rr_scan t c false (if negb (start =? RuneError) then rr_add_single rs start else rs)
  end.

(** RunesRangeExpand, runesranges.go:58-133; [None] is ok=false. *)
Definition ranges_expand (s : str) : option rranges :=
  if (1 <? length s)%nat && Ascii.eqb (nth 0 s zero) "[" && Ascii.eqb (nth (length s - 1) s zero) "]"
  then
    let body := firstn (length s - 2) (skipn 1 s) in
    if null body then Some rr_empty
    else match rr_scan (map snd (range body)) RuneError false rr_empty with
         | None => None
         | Some rs => Some (mkRR (rr_ascii rs) (ranges_merge (rr_unicode rs))
                                 (rr_need_merge rs) (rr_min rs) (rr_max rs))
         end
  else None.

(** Equality of RuneRange values, runesranges.go:144-155 *)
Definition range_eqb (a b : rrange) : bool := (First a =? First b) && (Last a =? Last b).

(** RunesRanges.Equal, runesranges.go:144-155 (non-nil argument) *)
Definition rr_equal (a b : rranges) : bool :=
  as_eqb (rr_ascii b) (rr_ascii a) && (rr_min a =? rr_min b)%Z && (rr_max a =? rr_max b)%Z
  && slice_equal range_eqb (rr_unicode a) (rr_unicode b).

(** RunesRanges.WriteString / String, runesranges.go:157-175 *)
Definition rr_write (rs : rranges) : str :=
  ["["%char] ++ as_write (rr_ascii rs)
  ++ concat (map (fun r => encode_rune (First r)
       ++ (if First r =? Last r then [] else "-"%char :: encode_rune (Last r))) (rr_unicode rs))
  ++ ["]"%char].

(** RunesRanges.Add, runesranges.go:187-196 *)
Definition rr_add (rs : rranges) (r : rune) : rranges :=
  if r <=? 127 then rr_set_sizes (rr_add_ascii rs (byte_of r)) 1
  else
    let rs1 := rr_set_sizes rs (rune_len r) in
    mkRR (rr_ascii rs1) (rr_unicode rs1 ++ [mkRange r r]) true (rr_min rs1) (rr_max rs1).

(** RunesRanges.Adds, runesranges.go:199-203 *)
Definition rr_adds (rs : rranges) (s : str) : rranges :=
  fold_left rr_add (map snd (range s)) rs.

(** RunesRanges.Merge, runesranges.go:206-211 *)
Definition rr_merge (rs : rranges) : rranges :=
  if rr_need_merge rs
  then mkRR (rr_ascii rs) (ranges_merge (rr_unicode rs)) false (rr_min rs) (rr_max rs)
  else rs.

(** The binary search loop of ContainsUnicode, runesranges.go:234-245.  [low] and
    [high] are Go ints, [high] may become low-1 (never below 0 here: low >= 1). *)
Fixpoint contains_loop (fuel : nat) (l : list rrange) (c : rune) (low high : nat) : bool :=
  match fuel with
  | O => false
  | S f =>
      if (low <=? high)%nat then
        let mid := ((low + high) / 2)%nat in
        let r := nth mid l range0 in
        if First r <=? c then
          if c <=? Last r then true else contains_loop f l c (S mid) high
        else contains_loop f l c low (mid - 1)
      else false
  end.

(** ContainsUnicode, runesranges.go:213-248 *)
Definition contains_unicode (rs : rranges) (c : rune) : bool :=
  let l := rr_unicode rs in
  match l with
  | [] => false
  | [r] => (First r <=? c) && (c <=? Last r)
  | _ =>
      let high := (length l - 1)%nat in
      if (c <? First (nth 0 l range0)) || (Last (nth high l range0) <? c) then false
      else if c <=? Last (nth 0 l range0) then true
      else if First (nth high l range0) <=? c then true
      else contains_loop (S (length l)) l c 1 (high - 1)
  end.

(** Contains, runesranges.go:250-255 *)
Definition rr_contains (rs : rranges) (c : rune) : bool :=
  if c <=? 127 then as_contains (rr_ascii rs) (byte_of c) else contains_unicode rs c.

(** The loop of Index, runesranges.go:299-317: (pos, symbol, width); [None] is -1. *)
Fixpoint rr_index_u (fuel : nat) (rs : rranges) (i : nat) (s : str) : option (nat * rune * nat) :=
  match fuel with
  | O => None
  | S f =>
      match s with
      | [] => None
      | b :: t =>
          if code b <? RuneSelf then
            if as_contains (rr_ascii rs) b then Some (i, code b, 1%nat)
            else rr_index_u f rs (S i) t
          else
            let '(c, n) := decode_rune s in
            if c =? RuneError then None
            else if contains_unicode rs c then Some (i, c, n)
            else rr_index_u f rs (i + n) (skipn n s)
      end
  end.
(** Index, runesranges.go:290-319 *)
Definition rr_index (rs : rranges) (s : str) : option (nat * rune * nat) :=
  if null (rr_unicode rs) then
    match as_index (rr_ascii rs) s with
    | Some i => Some (i, code (nth i s zero), 1%nat)
    | None => None
    end
  else rr_index_u (length s) rs 0 s.

(** The second loop of IndexByte, runesranges.go:268-285: the index is not advanced after an ASCII
    byte that is not a member, so the fuel may run out. *)
Fixpoint rr_index_byte_u (fuel : nat) (rs : rranges) (i : nat) (s : str)
  : res (option (nat * rune * nat)) :=
  match fuel with
  | O => Fuel
  | S f =>
      match s with
      | [] => Ok None
      | b :: t =>
          if code b <? RuneSelf then
            if as_contains (rr_ascii rs) b then Ok (Some (i, code b, 1%nat))
            else rr_index_byte_u f rs i s
          else
            let '(c, n) := decode_rune s in
            if c =? RuneError then Ok None
            else if contains_unicode rs c then Ok (Some (i, c, n))
            else rr_index_byte_u f rs (i + n) (skipn n s)
      end
  end.
(** IndexByte, runesranges.go:258-287 *)
Definition rr_index_byte (fuel : nat) (rs : rranges) (s : str) : res (option (nat * rune * nat)) :=
  if null (rr_unicode rs) then
    Ok (match as_index (rr_ascii rs) s with
        | Some i => Some (i, code (nth i s zero), 1%nat)
        | None => None
        end)
  else rr_index_byte_u fuel rs 0 s.

(** StartsWith, runesranges.go:322-343: (symbol, width or -1). *)
Definition rr_starts_with (rs : rranges) (s : str) : rune * option nat :=
  match s with
  | [] => (RuneError, None)
  | b :: _ =>
      if code b <? RuneSelf then
        if as_contains (rr_ascii rs) b then (code b, Some 1%nat) else (RuneError, None)
      else
        let '(c, n) := decode_rune s in
        if negb (c =? RuneError) && contains_unicode rs c then (c, Some n) else (RuneError, None)
  end.

(** EndsWith, runesranges.go:346-372: for an ASCII member the second result is the
    literal 1, for others the offset of the symbol. *)
Definition rr_ends_with (rs : rranges) (s : str) : rune * option nat :=
  match s with
  | [] => (RuneError, None)
  | _ =>
      let '(c, n) := decode_last_rune s in
      if c =? RuneError then (RuneError, None)
      else if c <? RuneSelf then
        if as_contains (rr_ascii rs) (byte_of c) then (c, Some 1%nat) else (RuneError, None)
      else if contains_unicode rs c then (c, Some (length s - n)%nat) else (RuneError, None)
  end.
