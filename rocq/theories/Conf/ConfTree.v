(** Conformance with glob/tree_*_test.go: for each table, the globs added in order (a duplicate
    is rejected), the resulting tree and maps, and the globs reported for each string (sorted),
    as in the tests.  Tests of the model, not proofs. *)
From Verif Require Import Model.Tree Conf.Base.

Definition cases : list (list str * option snode * list (str * Z) * list (Z * str) * list (str * list str)) := [
  ([B "a.*.{cd,b}*.e"; B "a.*.{b,cd}*.e"; B "a.*.{cd,b}*.df"; B "a.b.b*.e"; B "a.*.{bc,d}*.e"; B "*.{bc,d}*.e"; B "*{cd,b}*.df"; B "a.b.b*.{c,bc}"; B "a.b.b*{c,bc}"; B "bc.{,cd,b}*.df"; B "bc.{,cd,b}"; B "bc.*{,cd,b}"; B "bc.*{,cd,b}*"],
   None,
   [(B "*.{bc,d}*.e", (5)%Z); (B "*{b,cd}*.df", (6)%Z); (B "*{cd,b}*.df", (6)%Z); (B "a.*.{b,cd}*.df", (2)%Z); (B "a.*.{b,cd}*.e", (0)%Z); (B "a.*.{bc,d}*.e", (4)%Z); (B "a.*.{cd,b}*.df", (2)%Z); (B "a.*.{cd,b}*.e", (0)%Z); (B "a.b.b*.e", (3)%Z); (B "a.b.b*.{bc,c}", (7)%Z); (B "a.b.b*.{c,bc}", (7)%Z); (B "a.b.b*{bc,c}", (8)%Z); (B "a.b.b*{c,bc}", (8)%Z); (B "bc.*{,b,cd}", (11)%Z); (B "bc.*{,b,cd}*", (12)%Z); (B "bc.*{,cd,b}", (11)%Z); (B "bc.*{,cd,b}*", (12)%Z); (B "bc.{,b,cd}", (10)%Z); (B "bc.{,b,cd}*.df", (9)%Z); (B "bc.{,cd,b}", (10)%Z); (B "bc.{,cd,b}*.df", (9)%Z)],
   [((0)%Z, B "a.*.{b,cd}*.e"); ((2)%Z, B "a.*.{b,cd}*.df"); ((3)%Z, B "a.b.b*.e"); ((4)%Z, B "a.*.{bc,d}*.e"); ((5)%Z, B "*.{bc,d}*.e"); ((6)%Z, B "*{b,cd}*.df"); ((7)%Z, B "a.b.b*.{bc,c}"); ((8)%Z, B "a.b.b*{bc,c}"); ((9)%Z, B "bc.{,b,cd}*.df"); ((10)%Z, B "bc.{,b,cd}"); ((11)%Z, B "bc.*{,b,cd}"); ((12)%Z, B "bc.*{,b,cd}*")],
   [(B "a.b.bce.e", [B "a.*.{b,cd}*.e"; B "a.b.b*.e"; B "a.*.{bc,d}*.e"; B "*.{bc,d}*.e"]); (B "a.b.cd.e", [B "a.*.{b,cd}*.e"]); (B "a.D.bce.e", [B "a.*.{b,cd}*.e"; B "a.*.{bc,d}*.e"; B "*.{bc,d}*.e"]); (B "a.D.bcd.df", [B "a.*.{b,cd}*.df"; B "*{b,cd}*.df"; B "*{b,cd}*.df"]); (B "a.b.b.bc", [B "a.b.b*.{bc,c}"; B "a.b.b*{bc,c}"; B "a.b.b*{bc,c}"]); (B "a.b.bed.bc", [B "a.b.b*.{bc,c}"; B "a.b.b*{bc,c}"; B "a.b.b*{bc,c}"]); (B "bc..df", [B "*{b,cd}*.df"; B "bc.{,b,cd}*.df"; B "bc.*{,b,cd}"; B "bc.*{,b,cd}*"]); (B "bc.cd.df", [B "*{b,cd}*.df"; B "*{b,cd}*.df"; B "bc.{,b,cd}*.df"; B "bc.{,b,cd}*.df"; B "bc.*{,b,cd}"; B "bc.*{,b,cd}*"; B "bc.*{,b,cd}*"]); (B "bc.", [B "bc.{,b,cd}"; B "bc.*{,b,cd}"; B "bc.*{,b,cd}*"]); (B "bcd", [])]);
  ([B "{b*,a?cd*,cd[a-z]}bc*c*e"; B "{b*,a?cd*,cd[a-z]}bc*CD*e"],
   Some (SNode (B "") false (None) [SNode (B "e") true (None) [SNode (B "{a?cd*,b*,cd[a-z]}") false (None) [SNode (B "bc") false (None) [SNode (B "*") false (None) [SNode (B "c") false (None) [SNode (B "*") false (Some (B "{a?cd*,b*,cd[a-z]}bc*c*e", (0)%Z)) []]; SNode (B "CD") false (None) [SNode (B "*") false (Some (B "{a?cd*,b*,cd[a-z]}bc*CD*e", (1)%Z)) []]]]]]]),
   [(B "{a?cd*,b*,cd[a-z]}bc*CD*e", (1)%Z); (B "{a?cd*,b*,cd[a-z]}bc*c*e", (0)%Z); (B "{b*,a?cd*,cd[a-z]}bc*CD*e", (1)%Z); (B "{b*,a?cd*,cd[a-z]}bc*c*e", (0)%Z)],
   [((0)%Z, B "{a?cd*,b*,cd[a-z]}bc*c*e"); ((1)%Z, B "{a?cd*,b*,cd[a-z]}bc*CD*e")],
   [(B "aZcdbcce", [B "{a?cd*,b*,cd[a-z]}bc*c*e"]); (bs [97;208;175;99;100;98;99;99;101]%N, [B "{a?cd*,b*,cd[a-z]}bc*c*e"]); (bs [97;208;174;99;100;81;65;98;99;90;87;99;73;101]%N, [B "{a?cd*,b*,cd[a-z]}bc*c*e"]); (B "aZcdQAbcZWcIe", [B "{a?cd*,b*,cd[a-z]}bc*c*e"]); (B "", []); (B "acdqbcZcIe", []); (B "abCDbcZIce", []); (bs [208;153;97;98;67;68;98;99;90;73;99;101]%N, []); (B "aZcdbcc", []); (B "aZcdcce", []); (B "aZcdQAbcZWIe", [])]);
  ([B "*{b*,a?cd*,cd[a-z]}bc*c*e"; B "*{b*,a?cd*,cd[a-z]}bc*CD*e"; B "*{b*,a?cd*,cd[a-z]}bc*cd*e"],
   Some (SNode (B "") false (None) [SNode (B "e") true (None) [SNode (B "*") false (None) [SNode (B "{a?cd*,b*,cd[a-z]}") false (None) [SNode (B "bc") false (None) [SNode (B "*") false (None) [SNode (B "c") false (None) [SNode (B "*") false (Some (B "*{a?cd*,b*,cd[a-z]}bc*c*e", (0)%Z)) []]; SNode (B "CD") false (None) [SNode (B "*") false (Some (B "*{a?cd*,b*,cd[a-z]}bc*CD*e", (1)%Z)) []]; SNode (B "cd") false (None) [SNode (B "*") false (Some (B "*{a?cd*,b*,cd[a-z]}bc*cd*e", (2)%Z)) []]]]]]]]),
   [(B "*{a?cd*,b*,cd[a-z]}bc*CD*e", (1)%Z); (B "*{a?cd*,b*,cd[a-z]}bc*c*e", (0)%Z); (B "*{a?cd*,b*,cd[a-z]}bc*cd*e", (2)%Z); (B "*{b*,a?cd*,cd[a-z]}bc*CD*e", (1)%Z); (B "*{b*,a?cd*,cd[a-z]}bc*c*e", (0)%Z); (B "*{b*,a?cd*,cd[a-z]}bc*cd*e", (2)%Z)],
   [((0)%Z, B "*{a?cd*,b*,cd[a-z]}bc*c*e"); ((1)%Z, B "*{a?cd*,b*,cd[a-z]}bc*CD*e"); ((2)%Z, B "*{a?cd*,b*,cd[a-z]}bc*cd*e")],
   [(B "aZcdbcce", [B "*{a?cd*,b*,cd[a-z]}bc*c*e"]); (bs [97;208;175;99;100;98;99;99;101]%N, [B "*{a?cd*,b*,cd[a-z]}bc*c*e"]); (bs [97;208;174;99;100;81;65;98;99;90;87;99;73;101]%N, [B "*{a?cd*,b*,cd[a-z]}bc*c*e"]); (B "aZcdQAbcZWcIe", [B "*{a?cd*,b*,cd[a-z]}bc*c*e"]); (B "abCDbcZIce", [B "*{a?cd*,b*,cd[a-z]}bc*c*e"]); (bs [208;153;97;98;67;68;98;99;90;73;99;101]%N, [B "*{a?cd*,b*,cd[a-z]}bc*c*e"]); (B "acdqbcZcIe", [B "*{a?cd*,b*,cd[a-z]}bc*c*e"]); (B "acdqbcZCDIe", [B "*{a?cd*,b*,cd[a-z]}bc*CD*e"]); (B "acdqbcZcdIe", [B "*{a?cd*,b*,cd[a-z]}bc*c*e"; B "*{a?cd*,b*,cd[a-z]}bc*cd*e"]); (B "", []); (B "aZcdbcc", []); (B "aZcdcce", []); (B "aZcdQAbcZWIe", [])]);
  ([B "bc.*{,b,cd}*"; B "bc.*{,b,cd}"],
   Some (SNode (B "") false (None) [SNode (B "bc.") false (None) [SNode (B "*") false (None) [SNode (B "{,b,cd}") false (Some (B "bc.*{,b,cd}", (1)%Z)) [SNode (B "*") false (Some (B "bc.*{,b,cd}*", (0)%Z)) []]]]]),
   [(B "bc.*{,b,cd}", (1)%Z); (B "bc.*{,b,cd}*", (0)%Z)],
   [((0)%Z, B "bc.*{,b,cd}*"); ((1)%Z, B "bc.*{,b,cd}")],
   [(B "bc..df", [B "bc.*{,b,cd}"; B "bc.*{,b,cd}*"]); (B "bc.", [B "bc.*{,b,cd}"; B "bc.*{,b,cd}*"])]);
  ([B "a.*.{cd,b}*.e"; B "a.*.{b,cd,b}*.e"],
   Some (SNode (B "") false (None) [SNode (B ".e") true (None) [SNode (B "a.") false (None) [SNode (B "*") false (None) [SNode (B ".") false (None) [SNode (B "{b,cd}") false (None) [SNode (B "*") false (Some (B "a.*.{b,cd}*.e", (0)%Z)) []]]]]]]),
   [(B "a.*.{b,cd}*.e", (0)%Z); (B "a.*.{cd,b}*.e", (0)%Z)],
   [((0)%Z, B "a.*.{b,cd}*.e")],
   [(B "a.b.bce.e", [B "a.*.{b,cd}*.e"]); (B "a.b.cd.e", [B "a.*.{b,cd}*.e"]); (B "a.D.bce.e", [B "a.*.{b,cd}*.e"]); (B "a.D.dbce.e", []); (B "a.D.dcd.e", [])]);
  ([B "*{b,cd}*.df"],
   Some (SNode (B "") false (None) [SNode (B ".df") true (None) [SNode (B "*") false (None) [SNode (B "{b,cd}") false (None) [SNode (B "*") false (Some (B "*{b,cd}*.df", (0)%Z)) []]]]]),
   [(B "*{b,cd}*.df", (0)%Z)],
   [((0)%Z, B "*{b,cd}*.df")],
   [(B "a.D.bcd.df", [B "*{b,cd}*.df"; B "*{b,cd}*.df"]); (B "a.D.b.df", [B "*{b,cd}*.df"])]);
  ([B "a.b*.{bc,c}"],
   Some (SNode (B "") false (None) [SNode (B "a.b") false (None) [SNode (B "*") false (None) [SNode (B ".") false (None) [SNode (B "{bc,c}") false (Some (B "a.b*.{bc,c}", (0)%Z)) []]]]]),
   [(B "a.b*.{bc,c}", (0)%Z)],
   [((0)%Z, B "a.b*.{bc,c}")],
   [(B "a.b.bed.bc", [B "a.b*.{bc,c}"])]);
  ([B "bc.*{,b,cd}"; B "bc.*{,b,cd}*"],
   None,
   [(B "bc.*{,b,cd}", (0)%Z); (B "bc.*{,b,cd}*", (1)%Z)],
   [((0)%Z, B "bc.*{,b,cd}"); ((1)%Z, B "bc.*{,b,cd}*")],
   [(B "bc.cd.df", [B "bc.*{,b,cd}"; B "bc.*{,b,cd}*"; B "bc.*{,b,cd}*"])]);
  ([B "a.b.b*.{bc,c}"],
   None,
   [(B "a.b.b*.{bc,c}", (0)%Z)],
   [((0)%Z, B "a.b.b*.{bc,c}")],
   [(B "a.b.b.bed.bc", [B "a.b.b*.{bc,c}"]); (B "a.b.b.bed.cd", []); (B "a.b.b.bed.bcd", []); (B "a.b.d.bc", [])])
].

Fixpoint snode_of (t : tree) : snode :=
  match t with
  | TNode i r x cs => SNode (match i with Some it => item_write it | None => [] end) r x (map snode_of cs)
  end.
Fixpoint add_all (t : glob_tree) (l : list str) (i : Z) : option glob_tree :=
  match l with
  | [] => Some t
  | g :: r => match gt_add t g i with
              | Ok (t', (_, _, None)) => add_all t' r (i + 1)
              | Ok (t', (_, _, Some ErrGlobExist)) => add_all t' r (i + 1)
              | _ => None
              end
  end.
Definition check_one (t : glob_tree) (c : str * list str) : bool :=
  match gt_match 2000 t (fst c) with
  | Ok (hits, n) => slice_equal str_eqb (isort str_ltb (map fst hits)) (isort str_ltb (snd c))
                    && Nat.eqb n (length (snd c))
  | _ => false
  end.
Definition failures :=
  flat_map (fun '(gs, root, m, mi, l) =>
    match add_all gt_new gs 0 with
    | None => [(gs, false, [])]
    | Some t => let bad := filter (fun c => negb (check_one t c)) l in
                let ok := same_map m (gt_globs t) && same_index mi (gt_index t)
                          && match root with Some r => snode_eqb r (snode_of (gt_root t)) | None => true end in
                if null bad && ok then [] else [(gs, ok, bad)]
    end) cases.
Example conf_tree : failures = [].
Proof. vm_compute. reflexivity. Qed.
