(** gglob: utils.go, gglob.go, gtree.go.  Definitions only. *)
From Verif Require Export Model.Tree.

(** The separator '.', gglob/utils.go:7-53 *)
Definition dot : ascii := "."%char.
(** [path[len(path)-1] == '.'], gglob/utils.go:12 and 24 *)
Definition last_is_dot (p : str) : bool :=
  match rev p with c :: _ => Ascii.eqb c dot | [] => false end.

(** PathLevel, gglob/utils.go:7-17 *)
Definition path_level (p : str) : str * nat :=
  if null p then (p, 0)
  else if last_is_dot p then (firstn (length p - 1) p, count_byte dot p)
  else (p, count_byte dot p + 1).

(** PathSplit, gglob/utils.go:19-30 *)
Definition path_split (p : str) : list str :=
  if null p then []
  else if last_is_dot p then split_on dot (firstn (length p - 1) p)
  else split_on dot p.

(** The loop of PathSplitB, gglob/utils.go:43-51: (parts, ok) *)
Fixpoint path_split_b_loop (fuel : nat) (p : str) (parts : list str) : res (list str * bool) :=
  match p with
  | [] => Ok (parts, true)
  | _ =>
      match fuel with
      | O => Fuel
      | S f =>
          let '(part, rest, _) := cut dot p in
          if null part then Ok (parts, false) else path_split_b_loop f rest (parts ++ [part])
      end
  end.
(** PathSplitB, gglob/utils.go:32-53 *)
Definition path_split_b (p : str) : res (list str * bool) :=
  if null p then Ok ([], false)
  else path_split_b_loop (length p) (if last_is_dot p then firstn (length p - 1) p else p) [].

(** HasEmptyParts, gglob/utils.go:55-62 *)
Definition has_empty_parts (parts : list str) : bool := existsb null parts.

(** GGlob, gglob/gglob.go:11-19 *)
Record gglob := mkGG {
  gg_glob : str;
  gg_node : str;
  gg_min : Z;
  gg_max : Z;
  gg_parts : list glob
}.

(** The loop of GGlob.Match over the parts, gglob/gglob.go:38-50 *)
Fixpoint gg_match_loop (parts : list glob) (p : str) : res bool :=
  match parts with
  | [] => Ok (null p)
  | g :: r =>
      let '(part, rest, _) := cut dot p in
      if null part then Ok false
      else bind (glob_match g part) (fun b => if b then gg_match_loop r rest else Ok false)
  end.
(** GGlob.Match, gglob/gglob.go:21-51 *)
Definition gg_match (g : gglob) (p : str) : res bool :=
  if null p then Ok false
  else
    let '(p, n) := path_level p in
    if negb (Nat.eqb (length (gg_parts g)) n) then Ok false
    else if (zlen p <? gg_min g)%Z then Ok false
    else if (0 <? gg_max g)%Z && (gg_max g <? zlen p)%Z then Ok false
    else gg_match_loop (gg_parts g) p.

(** The loop of MatchByParts, gglob/gglob.go:69-76 *)
Fixpoint gg_match_parts_loop (gs : list glob) (parts : list str) : res bool :=
  match gs, parts with
  | [], _ => Ok true
  | g :: r, p :: parts' => bind (glob_match g p) (fun b => if b then gg_match_parts_loop r parts' else Ok false)
  | _ :: _, [] => Panic
  end.
(** GGlob.MatchByParts, gglob/gglob.go:53-77 *)
Definition gg_match_by_parts (g : gglob) (parts : list str) (len : Z) : res bool :=
  if null parts then Ok false
  else if negb (Nat.eqb (length (gg_parts g)) (length parts)) then Ok false
  else if (0 <? len)%Z && (len <? gg_min g)%Z then Ok false
  else if (0 <? len)%Z && (0 <? gg_max g)%Z && (gg_max g <? len)%Z then Ok false
  else gg_match_parts_loop (gg_parts g) parts.

(** The loop of Parse, gglob/gglob.go:91-105: parts, MinLen, MaxLen; [path] is s *)
Fixpoint gg_parse_loop (path : str) (fuel : nat) (next : str) (parts : list glob) (mn mx : Z)
  : res (list glob * Z * Z) :=
  match next with
  | [] => Ok (parts, mn, mx)
  | _ =>
      match fuel with
      | O => Fuel
      | S f =>
          let '(part, rest, _) := cut dot next in
          if null part then Err (ErrNodeEmpty path)
          else bind (glob_parse part) (fun g =>
            gg_parse_loop path f rest (parts ++ [g]) (mn + g_min g)%Z (add_max_len mx (g_max g)))
      end
  end.
(** Parse, gglob/gglob.go:79-118 *)
Definition gg_parse (s : str) : res gglob :=
  let '(s, _) := path_level s in
  bind (gg_parse_loop s (length s) s [] 0 0) (fun '(parts, mn, mx) =>
    Ok (mkGG s (join_with dot (map g_node parts)) mn mx parts)).

(** ParseMust, gglob/gglob.go:120-126: [panic(err)] when Parse fails. *)
Definition gg_parse_must (s : str) : res gglob :=
  match gg_parse s with
  | Err _ => Panic
  | r => r
  end.

(** GTreeItem, gglob/gtree.go:10-18; the item is nil only at the roots. *)
Inductive gtree := GNode (it : option glob) (t : option term) (cmap : list (str * gtree)) (childs : list gtree).
(** The field Item of a GTreeItem, gglob/gtree.go:10-18 *)
Definition gt_item (t : gtree) := match t with GNode i _ _ _ => i end.
(** The fields of Terminated of a GTreeItem, gglob/gtree.go:10-18 *)
Definition gt_term (t : gtree) := match t with GNode _ x _ _ => x end.
(** The field ChildsMap of a GTreeItem, gglob/gtree.go:10-18 *)
Definition gt_cmap (t : gtree) := match t with GNode _ _ m _ => m end.
(** The field Childs of a GTreeItem, gglob/gtree.go:10-18 *)
Definition gt_childs (t : gtree) := match t with GNode _ _ _ c => c end.

(** MatchItems, gglob/gtree.go:20-56 *)
Fixpoint gt_match_items (t : gtree) (p : str) {struct t} : res out :=
  match t with
  | GNode _ _ cmap cs =>
      let '(part, rest, _) := cut dot p in
      if null part then Ok out_none
      else
        oseq
          ((fix in_map (l : list (str * gtree)) : res out :=
              match l with
              | [] => Ok out_none
              | (k, c) :: l' =>
                  if str_eqb part k
                  then if null rest then Ok (emit (gt_term c)) else gt_match_items c rest
                  else in_map l'
              end) cmap)
          ((fix in_list (l : list gtree) : res out :=
              match l with
              | [] => Ok out_none
              | c :: l' =>
                  match gt_item c with
                  | None => Panic
                  | Some g =>
                      bind (glob_match g part) (fun b =>
                      oseq (if b
                            then if null rest then Ok (emit (gt_term c)) else gt_match_items c rest
                            else Ok out_none)
                           (in_list l'))
                  end
              end) cs)
  end.

(** MatchItemsByParts, gglob/gtree.go:58-89; parts[0] of an empty slice panics when there is
    anything to compare it with. *)
Fixpoint gt_match_parts (t : gtree) (parts : list str) {struct t} : res out :=
  match t with
  | GNode _ _ cmap cs =>
      match parts with
      | [] => if null cmap && null cs then Ok out_none else Panic
      | part :: rest =>
        oseq
          ((fix in_map (l : list (str * gtree)) : res out :=
              match l with
              | [] => Ok out_none
              | (k, c) :: l' =>
                  if str_eqb part k
                  then if null rest then Ok (emit (gt_term c)) else gt_match_parts c rest
                  else in_map l'
              end) cmap)
          ((fix in_list (l : list gtree) : res out :=
              match l with
              | [] => Ok out_none
              | c :: l' =>
                  match gt_item c with
                  | None => Panic
                  | Some g =>
                      bind (glob_match g part) (fun b =>
                      oseq (if b
                            then if null rest then Ok (emit (gt_term c)) else gt_match_parts c rest
                            else Ok out_none)
                           (in_list l'))
                  end
              end) cs)
      end
  end.

(** LocateChildGTreeItem's test, gglob/gtree.go:91-98 *)
Definition gt_is_child (node : str) (c : gtree) : bool :=
  match gt_item c with Some g => str_eqb (g_node g) node | None => false end.

(** addGGlob below one node, gglob/gtree.go:108-135 *)
Fixpoint gt_insert (parts : list glob) (x : term) (t : gtree) {struct parts} : gtree :=
  match t with
  | GNode i tm cmap cs =>
      match parts with
      | [] => GNode i (Some x) cmap cs
      | g :: rest =>
          let new := GNode (Some g) None [] [] in
          if null (g_items g) then
            GNode i tm
              ((fix go (l : list (str * gtree)) : list (str * gtree) :=
                  match l with
                  | [] => [(g_node g, gt_insert rest x new)]
                  | (k, c) :: l' => if str_eqb k (g_node g) then (k, gt_insert rest x c) :: l'
                                    else (k, c) :: go l'
                  end) cmap) cs
          else
            GNode i tm cmap
              ((fix go (l : list gtree) : list gtree :=
                  match l with
                  | [] => [gt_insert rest x new]
                  | c :: l' => if gt_is_child (g_node g) c then gt_insert rest x c :: l' else c :: go l'
                  end) cs)
      end
  end.

(** A new root for a number of parts, gglob/gtree.go:101-105 *)
Definition gt_empty : gtree := GNode None None [] [].

(** addGGlob, gglob/gtree.go:100-138: Root maps the number of parts to a tree. *)
Definition add_gglob (root : list (nat * gtree)) (g : gglob) (index : Z) : list (nat * gtree) :=
  let n := length (gg_parts g) in
  let t := match lookup Nat.eqb n root with Some t => t | None => gt_empty end in
  assign Nat.eqb n (gt_insert (gg_parts g) (gg_node g, index) t) root.

(** GGlobTree, gglob/gtree.go:141-145 *)
Record gglob_tree := mkGGT {
  ggt_root : list (nat * gtree);
  ggt_globs : list (str * Z);
  ggt_index : list (Z * str)
}.
(** NewTree, gglob/gtree.go:147-153 *)
Definition ggt_new : gglob_tree := mkGGT [] [] [].

(** GGlobTree.Add, gglob/gtree.go:155-202.  On a parse error the returned [normalized] is the
    empty string of the failed lookup. *)
Definition ggt_add (gt : gglob_tree) (text : str) (index : Z) : res (gglob_tree * add_res) :=
  if null text then Ok (gt, ([], 0%Z, None))
  else if (index <? 0)%Z then Ok (gt, (text, 0%Z, Some ErrIndexInvalid))
  else match lookup str_eqb text (ggt_globs gt) with
  | Some n => Ok (gt, (text, n, Some ErrGlobExist))
  | None =>
    match lookup Z.eqb index (ggt_index gt) with
    | Some q => Ok (gt, (q, 0%Z, Some ErrIndexDup))
    | None =>
      match gg_parse text with
      | Panic => Panic
      | Fuel => Fuel
      | Err e => Ok (gt, ([], 0%Z, Some e))
      | Ok g =>
        match lookup str_eqb (gg_node g) (ggt_globs gt) with
        | Some n => Ok (gt, (gg_node g, n, Some ErrGlobExist))
        | None =>
            let m := assign str_eqb text index (ggt_globs gt) in
            let m := if str_eqb (gg_node g) text then m else assign str_eqb (gg_node g) index m in
            let m := assign str_eqb (gg_node g) index m in
            Ok (mkGGT (add_gglob (ggt_root gt) g index) m
                      (assign Z.eqb index (gg_node g) (ggt_index gt)),
                (gg_node g, index, None))
        end
      end
    end
  end.

(** GGlobTree.AddGlob, gglob/gtree.go:204-241 *)
Definition ggt_add_glob (gt : gglob_tree) (g : gglob) (index : Z) : gglob_tree * add_res :=
  if (index <? 0)%Z then (gt, (gg_node g, 0%Z, Some ErrIndexInvalid))
  else match lookup str_eqb (gg_glob g) (ggt_globs gt) with
  | Some n => (gt, (gg_node g, n, Some ErrGlobExist))
  | None =>
    match lookup str_eqb (gg_node g) (ggt_globs gt) with
    | Some n => (gt, (gg_node g, n, Some ErrGlobExist))
    | None =>
      match lookup Z.eqb index (ggt_index gt) with
      | Some q => (gt, (q, 0%Z, Some ErrIndexDup))
      | None =>
          let m := assign str_eqb (gg_node g) index (ggt_globs gt) in
          let m := if str_eqb [] (gg_node g) then m else assign str_eqb [] index m in
          (mkGGT (add_gglob (ggt_root gt) g index) m (assign Z.eqb index [] (ggt_index gt)),
           ([], index, None))
      end
    end
  end.

(** GGlobTree.Match, gglob/gtree.go:243-255 *)
Definition ggt_match (gt : gglob_tree) (p : str) : res out :=
  if null p then Ok out_none
  else
    let '(p, n) := path_level p in
    match lookup Nat.eqb n (ggt_root gt) with
    | Some t => gt_match_items t p
    | None => Ok out_none
    end.

(** GGlobTree.MatchByParts, gglob/gtree.go:257-268 *)
Definition ggt_match_by_parts (gt : gglob_tree) (parts : list str) : res out :=
  if null parts then Ok out_none
  else match lookup Nat.eqb (length parts) (ggt_root gt) with
       | Some t => gt_match_parts t parts
       | None => Ok out_none
       end.
