(** Conformance with the term tables of gtags/tags_*_test.go (the whole TaggedTermList, globs included),
    TestPathTags (gtags/tagged_term_test.go) and Test_parseExpr (expand/expand_test.go).
    Tests of the model, not proofs. *)
From Verif Require Import Model.GTags Model.Expand Conf.Base Conf.ConfParse Conf.ConfGTags.

(** query, expected terms; None when an error is expected *)
Definition term_cases : list (str * option (list tterm)) := [
  (B "", None);
  (B "seriesByTag('a')", None);
  (B "seriesByTag(' ')", None);
  (B "seriesByTag('')", Some []);
  (B "seriesByTag()", Some []);
  (B "seriesByTag('name=a', 'b=c')", Some [mkTerm (B "__name__") OpEq (B "a") None; mkTerm (B "b") OpEq (B "c") None]);
  (B "seriesByTag('name=a', 'b=c','__agg__=v')", Some [mkTerm (B "__name__") OpEq (B "a") None; mkTerm (B "__agg__") OpEq (B "v") None; mkTerm (B "b") OpEq (B "c") None]);
  (B "seriesByTag('d=e','name=a', 'b=c','__agg__=v')", Some [mkTerm (B "__name__") OpEq (B "a") None; mkTerm (B "__agg__") OpEq (B "v") None; mkTerm (B "b") OpEq (B "c") None; mkTerm (B "d") OpEq (B "e") None]);
  (B "seriesByTag('name=cpu.load_avg', 'app=postgresql', 'project=sales', 'subproject=crm')", Some [mkTerm (B "__name__") OpEq (B "cpu.load_avg") None; mkTerm (B "app") OpEq (B "postgresql") None; mkTerm (B "project") OpEq (B "sales") None; mkTerm (B "subproject") OpEq (B "crm") None]);
  (B "seriesByTag('name=a', 'b=c*')", Some [mkTerm (B "__name__") OpEq (B "a") None; mkTerm (B "b") OpEq (B "c*") (Some (mkGlob (B "c*") (B "c*") (1)%Z (-1)%Z (B "c") (B "") [] [IStar 0]))]);
  (B "seriesByTag('name=a.b', 'b=c*.a')", Some [mkTerm (B "__name__") OpEq (B "a.b") None; mkTerm (B "b") OpEq (B "c*.a") (Some (mkGlob (B "c*.a") (B "c*.a") (3)%Z (-1)%Z (B "c") (B ".a") [] [IStar 0]))]);
  (B "seriesByTag('name=a.b', 'b=a{a,bc}Z{qa,q}c.a')", Some [mkTerm (B "__name__") OpEq (B "a.b") None; mkTerm (B "b") OpEq (B "a{a,bc}Z{q,qa}c.a") (Some (mkGlob (B "a{a,bc}Z{qa,q}c.a") (B "a{a,bc}Z{q,qa}c.a") (7)%Z (9)%Z (B "a") (B "c.a") [] [new_list ([B "a"; B "bc"]) (1)%Z (2)%Z (B "ab") true; IByte (byte_of 90); new_list ([B "q"; B "qa"]) (1)%Z (2)%Z (B "q") true]))]);
  (B "seriesByTag('name=a', 'b=c[a]')", Some [mkTerm (B "__name__") OpEq (B "a") None; mkTerm (B "b") OpEq (B "ca") None]);
  (B "seriesByTag('name=a', 'b=a?*??c')", Some [mkTerm (B "__name__") OpEq (B "a") None; mkTerm (B "b") OpEq (B "a*???c") (Some (mkGlob (B "a?*??c") (B "a*???c") (5)%Z (-1)%Z (B "a") (B "c") [] [IStar 3]))]);
  (B "seriesByTag('name=a', 'b!=~c(a|z)\.a')", Some [mkTerm (B "__name__") OpEq (B "a") None; mkTerm (B "b") OpNotMatch (B "c(a|z)\.a") None]);
  (B "seriesByTag('name=a', 'b=~c(a|z)\.a')", Some [mkTerm (B "__name__") OpEq (B "a") None; mkTerm (B "b") OpMatch (B "c(a|z)\.a") None]);
  (B "seriesByTag('name=a', 'b=c', 'c!=vc')", Some [mkTerm (B "__name__") OpEq (B "a") None; mkTerm (B "b") OpEq (B "c") None; mkTerm (B "c") OpNe (B "vc") None]);
  (B "seriesByTag('name=a', 'b!=c*')", Some [mkTerm (B "__name__") OpEq (B "a") None; mkTerm (B "b") OpNe (B "c*") (Some (mkGlob (B "c*") (B "c*") (1)%Z (-1)%Z (B "c") (B "") [] [IStar 0]))]);
  (B "seriesByTag('name=a', 'b!=c[a]')", Some [mkTerm (B "__name__") OpEq (B "a") None; mkTerm (B "b") OpNe (B "ca") None])
].
Definition read_terms (q : str) : option (list tterm) := match parse_series rx q with Ok ts => Some ts | _ => None end.
Example conf_terms : map (fun c => read_terms (fst c)) term_cases = map snd term_cases.
Proof. vm_compute. reflexivity. Qed.

Definition tags_path : str := B "kube_pod_status_phase?app_kubernetes_io_component=metrics&app_kubernetes_io_name=kube-state-metrics&app_kubernetes_io_part_of=kube-state-metrics&app_kubernetes_io_version=2.7.0&helm_sh_chart=kube-state-metrics-4.24.0&instance=192.168.0.85%3A8080&job=kubernetes-service-endpoints".
Definition tags_want : list (str * str) := [(B "__name__", B "kube_pod_status_phase"); (B "app_kubernetes_io_component", B "metrics"); (B "app_kubernetes_io_name", B "kube-state-metrics"); (B "app_kubernetes_io_part_of", B "kube-state-metrics"); (B "app_kubernetes_io_version", B "2.7.0"); (B "helm_sh_chart", B "kube-state-metrics-4.24.0"); (B "instance", B "192.168.0.85:8080"); (B "job", B "kubernetes-service-endpoints")].
Definition semicolons (s : str) : str := map (fun c => if Ascii.eqb c "?" || Ascii.eqb c "&" then ";"%char else c) s.
Example conf_path_tags : path_tags tags_path = (tags_want, None) /\ path_tags_map tags_path = (tags_map tags_want, None) /\
  graphite_path_tags (semicolons tags_path) = (tags_want, None) /\ graphite_path_tags_map (semicolons tags_path) = (tags_map tags_want, None).
Proof. vm_compute. repeat split; reflexivity. Qed.

(** text, expressions *)
Definition class_of (s : str) : list runes := match ex_runes_expand s with Some l => l | None => [] end.
Definition expr_cases : list (str * list expr) := [
  (B "x{12,b}xxxxx", [mkExpr expString (B "x") [] [] (Some 0); mkExpr expList (B "{12,b}") [B "12"; B "b"] [] (Some 0); mkExpr expString (B "xxxxx") [] [] (Some 0)]);
  (B "ab[124-5]xxxxx", [mkExpr expString (B "ab") [] [] (Some 0); mkExpr expRunes (B "[124-5]") [] (class_of (B "124-5")) (Some 0); mkExpr expString (B "xxxxx") [] [] (Some 0)]);
  (B "{x{12,{}}xxxxx", [mkExpr expWildcard (B "{x{12,{}}") [] [] (Some 0); mkExpr expString (B "xxxxx") [] [] (Some 0)]);
  (B "x{12,{}}{{,13}", [mkExpr expString (B "x") [] [] (Some 0); mkExpr expWildcard (B "{12,{}}{{,13}") [] [] (Some 0)]);
  (B "{x{12,{}}{{,13}", [mkExpr expWildcard (B "{x{12,{}}{{,13}") [] [] (Some 0)]);
  (B "{{x{12,{}}{{,13}", [mkExpr expWildcard (B "{{x{12,{}}{{,13}") [] [] (Some 0)]);
  (B "}some{", [mkExpr expWildcard (B "}some{") [] [] (Some 0)]);
  (B "}some", [mkExpr expWildcard (B "}") [] [] (Some 0); mkExpr expString (B "some") [] [] (Some 0)]);
  (B "some{", [mkExpr expString (B "some") [] [] (Some 0); mkExpr expWildcard (B "{") [] [] (Some 0)]);
  (B "]some[", [mkExpr expWildcard (B "]some[") [] [] (Some 0)]);
  (B "]some", [mkExpr expWildcard (B "]") [] [] (Some 0); mkExpr expString (B "some") [] [] (Some 0)]);
  (B "some[", [mkExpr expString (B "some") [] [] (Some 0); mkExpr expWildcard (B "[") [] [] (Some 0)]);
  (B "x[124-5]a*xxxx", [mkExpr expString (B "x") [] [] (Some 0); mkExpr expRunes (B "[124-5]") [] (class_of (B "124-5")) (Some 0); mkExpr expString (B "a") [] [] (Some 0); mkExpr expWildcard (B "*") [] [] (Some 0); mkExpr expString (B "xxxx") [] [] (Some 0)]);
  (B "x*[124-5]xxxxx", [mkExpr expString (B "x") [] [] (Some 0); mkExpr expWildcard (B "*[124-5]") [] [] (Some 0); mkExpr expString (B "xxxxx") [] [] (Some 0)]);
  (B "x?[124-5]xxxxx", [mkExpr expString (B "x") [] [] (Some 0); mkExpr expWildcard (B "?[124-5]") [] [] (Some 0); mkExpr expString (B "xxxxx") [] [] (Some 0)]);
  (B "x[*124-5]xxxxx", [mkExpr expString (B "x") [] [] (Some 0); mkExpr expWildcard (B "[*124-5]") [] [] (Some 0); mkExpr expString (B "xxxxx") [] [] (Some 0)])
].
Example conf_parse_expr : map (fun c => parse_expr (fst c)) expr_cases = map (fun c => Ok (snd c)) expr_cases.
Proof. vm_compute. reflexivity. Qed.
