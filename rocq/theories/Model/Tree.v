(** pkg/items/tree.go, store.go (TreeItem) and glob/tree.go.  Definitions only. *)
From Verif Require Export Model.Glob Model.Store.

(** items.Terminated with Terminate = true: (Query, Index); store.go:104-108 *)
Definition term := (str * Z)%type.

(** items.TreeItem, store.go:110-119.  [None] for the item only at the root (nil). *)
Inductive tree := TNode (it : option item) (reverse : bool) (t : option term) (childs : list tree).
(** The field Item of a TreeItem, store.go:110-119 *)
Definition t_item (t : tree) := match t with TNode i _ _ _ => i end.
(** The field Reverse of a TreeItem, store.go:110-119 *)
Definition t_reverse (t : tree) := match t with TNode _ r _ _ => r end.
(** The fields of Terminated of a TreeItem, store.go:104-108 and 110-119 *)
Definition t_term (t : tree) := match t with TNode _ _ x _ => x end.
(** The field Childs of a TreeItem, store.go:110-119 *)
Definition t_childs (t : tree) := match t with TNode _ _ _ c => c end.

(** new(items.TreeItem), glob/tree.go:70-76 *)
Definition tree_root : tree := TNode None false None [].

(** [child.Reverse == reverse && child.Equal(node)], store.go:121-128.  Calling Equal on a
    nil item would panic; no child has a nil item. *)
Definition is_child (node : item) (reverse : bool) (c : tree) : bool :=
  Bool.eqb (t_reverse c) reverse
  && match t_item c with Some i => item_equal i node | None => false end.

(** addGlob below one node, glob/tree.go:15-61: the path still to insert is a list of
    (item, reverse).  The child is LocateChildTreeItem (first match) or a new last child. *)
Fixpoint tree_insert (path : list (item * bool)) (x : term) (t : tree) {struct path} : tree :=
  match t with
  | TNode i r tm cs =>
      match path with
      | [] => TNode i r (Some x) cs
      | (node, rv) :: rest =>
          TNode i r tm
            ((fix go (l : list tree) : list tree :=
                match l with
                | [] => [tree_insert rest x (TNode (Some node) rv None [])]
                | c :: l' => if is_child node rv c then tree_insert rest x c :: l' else c :: go l'
                end) cs)
      end
  end.

(** The path of a glob, glob/tree.go:18-55: suffix (reversed), prefix, items. *)
Definition glob_path (g : glob) : list (item * bool) :=
  (if null (g_suffix g) then [] else [(IStr (g_suffix g), true)])
  ++ (if null (g_prefix g) then [] else [(IStr (g_prefix g), false)])
  ++ map (fun i => (i, false)) (g_items g).

(** addGlob, glob/tree.go:15-61 *)
Definition add_glob (root : tree) (g : glob) (index : Z) : tree :=
  tree_insert (glob_path g) (g_node g, index) root.

(** What a matching call does: the calls of Store in order, and the returned counter
    (pkg/items/tree.go:19-605). *)
Definition out := (list term * nat)%type.
(** No call of Store and the counter 0: an early [return], as in tree.go:71-77 *)
Definition out_none : out := ([], 0).
(** Calls of Store one after the other and the sum of the counters, [matched += n], as in
    tree.go:86-88 *)
Definition out_app (a b : out) : out := (fst a ++ fst b, snd a + snd b).
(** Sequencing [a; matched += b], as in tree.go:81-89 *)
Definition oseq (a : res out) (b : res out) : res out :=
  bind a (fun x => bind b (fun y => Ok (out_app x y))).
(** [for ... { if n := f(x); n > 0 { matched += n } }], as in tree.go:85-89 *)
Fixpoint oall {A} (f : A -> res out) (l : list A) : res out :=
  match l with
  | [] => Ok out_none
  | x :: r => oseq (f x) (oall f r)
  end.
(** [store.Store(item.Query, item.Index); matched++] when terminated, tree.go:158-163 *)
Definition emit (t : option term) : out :=
  match t with Some x => ([x], 1) | None => out_none end.
(** [if b && item.Terminate { store.Store(item.Query, item.Index); matched++ }], tree.go:81-84 *)
Definition emit_if (b : bool) (t : option term) : res out := Ok (if b then emit t else out_none).

(** The matchers of pkg/items/tree.go, by mutual recursion on fuel.  Their second result
    (abort) is ignored by every caller and is left out.
    - [t_match]: TreeItem.match, tree.go:70-175
    - [t_match_star]: TreeItem.matchStar, tree.go:184-333, [optional] is its local flag
    - [t_match_star_list]: the inner loop over list values, tree.go:234-266, answering also
      the string left when it ends
    - [t_items]: matchItemsInTree, tree.go:355-455 (the loop over [pos] is recursion on the
      list; in the star case with more items the loop goes round with [pos] unchanged)
    - [t_star_items]: matchStarItemsInTree, tree.go:477-605; [t_star_items_list]: its inner
      loop, tree.go:522-551 *)
Fixpoint t_match (fuel : nat) (t : tree) (s : str) {struct fuel} : res out :=
  match fuel with
  | O => Fuel
  | S f =>
    match t with
    | TNode None _ _ _ => Panic
    | TNode (Some it) _ tm cs =>
      if (zlen s <? item_min it)%Z then Ok out_none
      else match item_match it s with
      | (None, _) => Ok out_none
      | (Some off, fl) =>
        let s := skipn off s in
        let here (s : str) : res out := oseq (emit_if (null s) tm) (oall (fun c => t_match f c s) cs) in
        match fl, it with
        | FindDone, _ => here s
        | FindList, IList l =>
            oseq (if sl_optional l then here s else Ok out_none)
                 (oall (fun v => match match_val s v with
                                 | None => Ok out_none
                                 | Some o => here (skipn o s)
                                 end) (sl_vals l))
        | FindGroup, IGroup vals mn _ =>
            oseq (if group_optional mn then here s else Ok out_none)
                 (oall (fun v => t_items f t s (val_items v)) vals)
        | FindStar, _ =>
            if null cs then Ok (emit tm)
            else oall (fun c => t_match_star f c s true) cs
        | _, _ => Panic
        end
      end
    end
  end
with t_match_star (fuel : nat) (t : tree) (s : str) (optional : bool) {struct fuel} : res out :=
  match fuel with
  | O => Fuel
  | S f =>
    match t with
    | TNode None _ _ _ => Panic
    | TNode (Some it) _ tm cs =>
      (* tree.go:327-330 *)
      let shift (s : str) (optional : bool) : res out :=
        let '(_, n) := decode_rune s in
        if Nat.eqb n 0 then Ok out_none else t_match_star f t (skipn n s) optional in
      if (zlen s <? item_min it)%Z then Ok out_none
      else match item_find it s with
      | (None, _, _) => Ok out_none
      | (Some off, len, fl) =>
        let s := skipn off s in
        match fl, it with
        | FindDone, _ =>
            match after_found len s with
            | None => Panic
            | Some sub =>
              oseq (if null sub && null cs && match tm with Some _ => true | None => false end
                    then Ok (emit tm)
                    else oall (fun c => t_match f c sub) cs)
                   (shift s optional)
            end
        | FindList, IList l =>
            let first := sl_optional l && optional in
            oseq (if first
                  then oseq (Ok (emit tm)) (oall (fun c => t_match_star f c s true) cs)
                  else Ok out_none)
              (bind (t_match_star_list f t l s) (fun '(o, s1) =>
               (* tree.go:267-274: one extra symbol is skipped; [break] leaves the switch *)
               let '(_, n) := decode_rune s1 in
               oseq (Ok o) (shift (skipn n s1) (if first then false else optional))))
        | FindGroup, IGroup vals mn _ =>
            oseq (if group_optional mn
                  then oseq (Ok (emit tm)) (oall (fun c => t_match_star f c s true) cs)
                  else Ok out_none)
                 (oall (fun v => t_star_items f t s (val_items v)) vals)
        | FindStar, _ =>
            if null cs && match tm with Some _ => true | None => false end then Ok (emit tm)
            else oall (fun c => t_match_star f c s true) cs
        | _, _ => Panic
        end
      end
    end
  end
with t_match_star_list (fuel : nat) (t : tree) (l : slist) (s : str) {struct fuel}
  : res (out * str) :=
  match fuel with
  | O => Fuel
  | S f =>
    match t with
    | TNode _ _ tm cs =>
      let here (s : str) : res out := oseq (emit_if (null s) tm) (oall (fun c => t_match f c s) cs) in
      bind ((fix go (vs : list str) (offset : option nat) (o : out) : res (out * option nat) :=
               match vs with
               | [] => Ok (o, offset)
               | v :: vs' =>
                   match find_val s v with
                   | None => go vs' offset o
                   | Some k =>
                       let offset' := match offset with
                                      | None => Some k
                                      | Some p => if p <? k then Some k else Some p
                                      end in
                       bind (here (skipn (k + length v) s)) (fun o' => go vs' offset' (out_app o o'))
                   end
               end) (sl_vals l) None out_none) (fun '(o, offset) =>
      match offset with
      | None => Ok (o, s)
      | Some k =>
          let s := skipn k s in
          let '(_, n) := decode_rune s in
          if Nat.eqb n 0 then Ok (o, s)
          else bind (t_match_star_list f t l (skipn n s)) (fun '(o', s') => Ok (out_app o o', s'))
      end)
    end
  end
with t_items (fuel : nat) (t : tree) (s : str) (items : list item) {struct fuel} : res out :=
  match fuel with
  | O => Fuel
  | S f =>
    match t with
    | TNode _ _ tm cs =>
      (* matchNextTreeItem, tree.go:335-346 *)
      let here (s : str) : res out := oseq (emit_if (null s) tm) (oall (fun c => t_match f c s) cs) in
      (* matchStarNextTreeItem, tree.go:457-468 *)
      let star_here (s : str) : res out := oseq (Ok (emit tm)) (oall (fun c => t_match_star f c s true) cs) in
      match items with
      | [] => here s
      | it :: rest =>
        if (zlen s <? item_min it)%Z then Ok out_none
        else match item_match it s with
        | (None, _) => Ok out_none
        | (Some off, fl) =>
          let s := skipn off s in
          match fl, it with
          | FindDone, _ => t_items f t s rest
          | FindList, IList l =>
              if sl_optional l && null rest then here s
              else
              oseq (if sl_optional l then t_items f t s rest else Ok out_none)
                   ((fix go (vs : list str) : res out :=
                       match vs with
                       | [] => Ok out_none
                       | v :: vs' =>
                           match match_val s v with
                           | None => go vs'
                           | Some o =>
                               if null rest then here (skipn o s)
                               else oseq (t_items f t (skipn o s) rest) (go vs')
                           end
                       end) (sl_vals l))
          | FindGroup, IGroup vals mn _ =>
              if group_optional mn && null rest then here s
              else
              oseq (if group_optional mn then t_items f t s rest else Ok out_none)
                   (oall (fun v => t_items f t s (val_items v)) vals)
          | FindStar, _ =>
              if null rest then star_here s
              else oseq (t_star_items f t s rest) (t_items f t s items)
          | _, _ => Panic
          end
        end
      end
    end
  end
with t_star_items (fuel : nat) (t : tree) (s : str) (items : list item) {struct fuel} : res out :=
  match fuel with
  | O => Fuel
  | S f =>
    match t with
    | TNode _ _ tm cs =>
      let here (s : str) : res out := oseq (emit_if (null s) tm) (oall (fun c => t_match f c s) cs) in
      let star_here (s : str) : res out := oseq (Ok (emit tm)) (oall (fun c => t_match_star f c s true) cs) in
      match items with
      | [] => star_here s
      | it :: rest =>
        if (zlen s <? item_min it)%Z then Ok out_none
        else match item_find it s with
        | (None, _, _) => Ok out_none
        | (Some off, len, fl) =>
          let s := skipn off s in
          match fl, it with
          | FindDone, _ =>
              match after_found len s with
              | None => Panic
              | Some sub =>
                oseq (t_items f t sub rest)
                  (let '(_, n) := decode_rune s in
                   if Nat.eqb n 0 then Ok out_none else t_star_items f t (skipn n s) items)
              end
          | FindList, IList l =>
              oseq (if sl_optional l
                    then if null rest then star_here s else t_star_items f t s rest
                    else Ok out_none)
                   (t_star_items_list f t l s rest)
          | FindGroup, IGroup vals mn _ =>
              oseq (if group_optional mn
                    then if null rest then here s else t_star_items f t s rest
                    else Ok out_none)
                   (oall (fun v => t_star_items f t s (val_items v)) vals)
          | FindStar, _ => if null rest then star_here s else t_star_items f t s rest
          | _, _ => Panic
          end
        end
      end
    end
  end
with t_star_items_list (fuel : nat) (t : tree) (l : slist) (s : str) (rest : list item) {struct fuel}
  : res out :=
  match fuel with
  | O => Fuel
  | S f =>
    match t with
    | TNode _ _ tm cs =>
      let here (s : str) : res out := oseq (emit_if (null s) tm) (oall (fun c => t_match f c s) cs) in
      bind ((fix go (vs : list str) (offset : option nat) (o : out) : res (out * option nat) :=
               match vs with
               | [] => Ok (o, offset)
               | v :: vs' =>
                   match find_val s v with
                   | None => go vs' offset o
                   | Some k =>
                       let offset' := match offset with
                                      | None => Some k
                                      | Some p => if p <? k then Some k else Some p
                                      end in
                       bind (if null rest then here (skipn (k + length v) s)
                             else t_items f t (skipn (k + length v) s) rest)
                            (fun o' => go vs' offset' (out_app o o'))
                   end
               end) (sl_vals l) None out_none) (fun '(o, offset) =>
      match offset with
      | None => Ok o
      | Some k =>
          let s := skipn k s in
          let '(_, n) := decode_rune s in
          if Nat.eqb n 0 then Ok o
          else oseq (Ok o) (t_star_items_list f t l (skipn n s) rest)
      end)
    end
  end.

(** TreeItem.Match, tree.go:19-49 *)
Definition tree_match (fuel : nat) (root : tree) (s : str) : res out :=
  oall (fun child =>
    if t_reverse child then
      match t_item child with
      | None => Panic
      | Some it =>
          if (zlen s <? item_min it)%Z then Ok out_none
          else bind (item_match_last it s) (fun '(off, fl) =>
            match fl, off with
            | FindDone, Some o =>
                let s := firstn o s in
                oseq (emit_if (null s) (t_term child))
                     (oall (fun c => t_match fuel c s) (t_childs child))
            | _, _ => Ok out_none
            end)
      end
    else t_match fuel child s) (t_childs root).

(** glob.GlobTree, glob/tree.go:64-68 *)
Record glob_tree := mkGT {
  gt_root : tree;
  gt_globs : list (str * Z);
  gt_index : list (Z * str)
}.
(** NewTree, glob/tree.go:70-76 *)
Definition gt_new : glob_tree := mkGT tree_root [] [].

(** Result of an Add: normalized, n, error (None is nil); glob/tree.go:78 *)
Definition add_res := (str * Z * option err)%type.

(** The common tail of Add and AddGlob, glob/tree.go:112-123 and 151-160 *)
Definition gt_accept (gt : glob_tree) (g : glob) (normalized : str) (index : Z) : glob_tree :=
  let m := assign str_eqb (g_glob g) index (gt_globs gt) in
  let m := if str_eqb normalized (g_glob g) then m else assign str_eqb normalized index m in
  mkGT (add_glob (gt_root gt) g index) m (assign Z.eqb index normalized (gt_index gt)).

(** GlobTree.Add, glob/tree.go:78-124.  Parse's panic/fuel are passed on. *)
Definition gt_add (gt : glob_tree) (text : str) (index : Z) : res (glob_tree * add_res) :=
  if null text then Ok (gt, ([], 0%Z, None))
  else if (index <? 0)%Z then Ok (gt, (text, 0%Z, Some ErrIndexInvalid))
  else match lookup str_eqb text (gt_globs gt) with
  | Some n => Ok (gt, (text, n, Some ErrGlobExist))
  | None =>
    match lookup Z.eqb index (gt_index gt) with
    | Some q => Ok (gt, (q, 0%Z, Some ErrIndexDup))
    | None =>
      match glob_parse text with
      | Panic => Panic
      | Fuel => Fuel
      | Err e => Ok (gt, ([], 0%Z, Some e))
      | Ok g =>
        match lookup str_eqb (g_node g) (gt_globs gt) with
        | Some n => Ok (gt, (g_node g, n, Some ErrGlobExist))
        | None => Ok (gt_accept gt g (g_node g) index, (g_node g, index, None))
        end
      end
    end
  end.

(** GlobTree.AddGlob, glob/tree.go:126-163: [normalized] is overwritten by the failed lookup
    of the index, hence empty on acceptance. *)
Definition gt_add_glob (gt : glob_tree) (g : glob) (index : Z) : glob_tree * add_res :=
  if (index <? 0)%Z then (gt, (g_node g, 0%Z, Some ErrIndexInvalid))
  else match lookup str_eqb (g_glob g) (gt_globs gt) with
  | Some n => (gt, (g_node g, n, Some ErrGlobExist))
  | None =>
    match lookup str_eqb (g_node g) (gt_globs gt) with
    | Some n => (gt, (g_node g, n, Some ErrGlobExist))
    | None =>
      match lookup Z.eqb index (gt_index gt) with
      | Some q => (gt, (q, 0%Z, Some ErrIndexDup))
      | None => (gt_accept gt g [] index, ([], index, None))
      end
    end
  end.

(** GlobTree.Match, glob/tree.go:165-167 *)
Definition gt_match (fuel : nat) (gt : glob_tree) (s : str) : res out := tree_match fuel (gt_root gt) s.
