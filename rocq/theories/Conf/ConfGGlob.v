(** Conformance with gglob/gglob_test.go, gtree_test.go and utils_test.go.  Tests of the model,
    not proofs. *)
From Verif Require Import Model.GGlob Conf.Base.

(** text, Node, MinLen, MaxLen, part Nodes, matching paths, missing paths *)
Definition globs : list (str * str * Z * Z * list str * list str * list str) := [
  (B "DB.*.{BalanceCluster,BalanceStaging,CoreCluster,EventsCluster,SalesCluster,UpProduction,UpTesting,WebCluster}.*.DownEndpointCount", B "DB.*.{BalanceCluster,BalanceStaging,CoreCluster,EventsCluster,SalesCluster,UpProduction,UpTesting,WebCluster}.*.DownEndpointCount", (28)%Z, (-1)%Z, [B "DB"; B "*"; B "{BalanceCluster,BalanceStaging,CoreCluster,EventsCluster,SalesCluster,UpProduction,UpTesting,WebCluster}"; B "*"; B "DownEndpointCount"], [B "DB.Sales.BalanceCluster.node1.DownEndpointCount"; B "DB.Back.WebCluster.node2.DownEndpointCount"], [B "B.Sales.BalanceCluster.node1.DownEndpointCount"; B "DBA.Back.WebCluster.node2.DownEndpointCount"; B "DB.Sales.BalanceCluster2.node1.DownEndpointCount"; B "DB.Back.WebCluster.node2.DownEndpointCount2"; B "DB.DC1.Sales.BalanceCluster.node1.DownEndpointCount"])
].

Definition check_glob (c : str * str * Z * Z * list str * list str * list str) : bool :=
  let '(text, node, mn, mx, parts, ma, mi) := c in
  match gg_parse text with
  | Ok g => str_eqb (gg_node g) node && (gg_min g =? mn)%Z && (gg_max g =? mx)%Z
            && slice_equal str_eqb parts (map g_node (gg_parts g))
            && forallb (fun s => is_ok true (gg_match g s)) ma
            && forallb (fun s => is_ok false (gg_match g s)) mi
            && forallb (fun s => is_ok true (gg_match_by_parts g (path_split s) 0)) ma
            && forallb (fun s => is_ok false (gg_match_by_parts g (path_split s) 0)) mi
  | _ => false
  end.
Example conf_gglob : filter (fun c => negb (check_glob c)) globs = [].
Proof. vm_compute. reflexivity. Qed.

Definition cases : list (list str * list (nat * snode) * list (str * Z) * list (Z * str) * list (str * list str)) := [
  ([B "DB.*.{BalanceCluster,BalanceStaging,CoreCluster,EventsCluster,SalesCluster,UpProduction,UpTesting,WebCluster}.*[0-8].DownEndpointCount"; B "DB.*.{BalanceCluster,BalanceStaging,CoreCluster,EventsCluster,SalesCluster,UpProduction,UpTesting,WebCluster}.*[0-8].UpStatus"; B "DB.*.{BalanceCluster,BalanceStaging,CoreCluster,EventsCluster,SalesCluster,UpProduction,UpTesting,WebCluster}.UpStatus"],
   [(5, SNode (B "") false (None) [SNode (B "DB") false (None) [SNode (B "*") false (None) [SNode (B "{BalanceCluster,BalanceStaging,CoreCluster,EventsCluster,SalesCluster,UpProduction,UpTesting,WebCluster}") false (None) [SNode (B "*[0-8]") false (None) [SNode (B "DownEndpointCount") false (Some (B "DB.*.{BalanceCluster,BalanceStaging,CoreCluster,EventsCluster,SalesCluster,UpProduction,UpTesting,WebCluster}.*[0-8].DownEndpointCount", (0)%Z)) []; SNode (B "UpStatus") false (Some (B "DB.*.{BalanceCluster,BalanceStaging,CoreCluster,EventsCluster,SalesCluster,UpProduction,UpTesting,WebCluster}.*[0-8].UpStatus", (1)%Z)) []]]]]]); (4, SNode (B "") false (None) [SNode (B "DB") false (None) [SNode (B "*") false (None) [SNode (B "{BalanceCluster,BalanceStaging,CoreCluster,EventsCluster,SalesCluster,UpProduction,UpTesting,WebCluster}") false (None) [SNode (B "UpStatus") false (Some (B "DB.*.{BalanceCluster,BalanceStaging,CoreCluster,EventsCluster,SalesCluster,UpProduction,UpTesting,WebCluster}.UpStatus", (2)%Z)) []]]]])],
   [(B "DB.*.{BalanceCluster,BalanceStaging,CoreCluster,EventsCluster,SalesCluster,UpProduction,UpTesting,WebCluster}.*[0-8].DownEndpointCount", (0)%Z); (B "DB.*.{BalanceCluster,BalanceStaging,CoreCluster,EventsCluster,SalesCluster,UpProduction,UpTesting,WebCluster}.*[0-8].UpStatus", (1)%Z); (B "DB.*.{BalanceCluster,BalanceStaging,CoreCluster,EventsCluster,SalesCluster,UpProduction,UpTesting,WebCluster}.UpStatus", (2)%Z)],
   [((0)%Z, B "DB.*.{BalanceCluster,BalanceStaging,CoreCluster,EventsCluster,SalesCluster,UpProduction,UpTesting,WebCluster}.*[0-8].DownEndpointCount"); ((1)%Z, B "DB.*.{BalanceCluster,BalanceStaging,CoreCluster,EventsCluster,SalesCluster,UpProduction,UpTesting,WebCluster}.*[0-8].UpStatus"); ((2)%Z, B "DB.*.{BalanceCluster,BalanceStaging,CoreCluster,EventsCluster,SalesCluster,UpProduction,UpTesting,WebCluster}.UpStatus")],
   [(B "DB.Sales.BalanceCluster.node1.DownEndpointCount", [B "DB.*.{BalanceCluster,BalanceStaging,CoreCluster,EventsCluster,SalesCluster,UpProduction,UpTesting,WebCluster}.*[0-8].DownEndpointCount"]); (B "DB.Back.WebCluster.node2.DownEndpointCount", [B "DB.*.{BalanceCluster,BalanceStaging,CoreCluster,EventsCluster,SalesCluster,UpProduction,UpTesting,WebCluster}.*[0-8].DownEndpointCount"]); (B "DB.Sales.BalanceCluster.node8.DownEndpointCount", [B "DB.*.{BalanceCluster,BalanceStaging,CoreCluster,EventsCluster,SalesCluster,UpProduction,UpTesting,WebCluster}.*[0-8].DownEndpointCount"]); (B "DB.Sales.BalanceCluster.node8.UpStatus", [B "DB.*.{BalanceCluster,BalanceStaging,CoreCluster,EventsCluster,SalesCluster,UpProduction,UpTesting,WebCluster}.*[0-8].UpStatus"]); (B "DB.Sales.BalanceCluster.UpStatus", [B "DB.*.{BalanceCluster,BalanceStaging,CoreCluster,EventsCluster,SalesCluster,UpProduction,UpTesting,WebCluster}.UpStatus"]); (B "DB.Sales.BalanceCluster..UpStatus", []); (B "DB.Back.WebCluster.node2.UpEndpointCount", []); (B "DB.Back.DBCluster.node2.DownEndpointCount", []); (B "DB.Sales.BalanceCluster.node1.DownEndpointCount.2", []); (B "DBA.Back.WebCluster.node2.DownEndpointCount", []); (B "DB.Sales.BalanceCluster.node9.DownEndpointCount", [])])
].

Fixpoint snode_of (t : gtree) : snode :=
  match t with
  | GNode i x m cs => SNode (match i with Some g => g_node g | None => [] end) false x
                            (map (fun p => snode_of (snd p)) m ++ map snode_of cs)
  end.
Fixpoint add_all (t : gglob_tree) (l : list str) (i : Z) : option gglob_tree :=
  match l with
  | [] => Some t
  | g :: r => match ggt_add t g i with
              | Ok (t', (_, _, None)) => add_all t' r (i + 1)
              | Ok (t', (_, _, Some ErrGlobExist)) => add_all t' r (i + 1)
              | _ => None
              end
  end.
Definition same_hits (r : res out) (want : list str) : bool :=
  match r with
  | Ok (hits, n) => slice_equal str_eqb (isort str_ltb (map fst hits)) (isort str_ltb want)
                    && Nat.eqb n (length want)
  | _ => false
  end.
Definition failures :=
  flat_map (fun '(gs, roots, m, mi, l) =>
    match add_all ggt_new gs 0 with
    | None => [(gs, false, [])]
    | Some t => let bad := filter (fun c => negb (same_hits (ggt_match t (fst c)) (snd c)
                                    && same_hits (ggt_match_by_parts t (path_split (fst c))) (snd c))) l in
                let ok := same_map m (ggt_globs t) && same_index mi (ggt_index t)
                          && Nat.eqb (length roots) (length (ggt_root t))
                          && forallb (fun '(k, r) => match lookup Nat.eqb k (ggt_root t) with
                                                     | Some u => snode_eqb r (snode_of u)
                                                     | None => false end) roots in
                if null bad && ok then [] else [(gs, ok, bad)]
    end) cases.
Example conf_ggtree : failures = [].
Proof. vm_compute. reflexivity. Qed.
