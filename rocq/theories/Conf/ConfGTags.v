(** Conformance with the gtags tests (tags_*_test.go).  The regexps occurring there are given by
    a table of the (pattern, value) pairs that match.  Tests of the model, not proofs. *)
From Verif Require Import Model.GTags Conf.Base.

Definition bad_patterns : list str := [].
Definition matching : list (str * str) := [
  (B "c(a|z)\.a", B "ca.a");
  (B "c(a|z)\.a", B "cz.a")
].
Definition rx : regexps :=
  mkRx (fun p => negb (existsb (str_eqb p) bad_patterns))
       (fun p v => existsb (fun '(p', v') => str_eqb p p' && str_eqb v v') matching).

(** query, error expected, normalised query, matching paths, missing paths *)
Definition queries : list (str * bool * str * list str * list str) := [
  (B "", true, B "", [], []);
  (B "seriesByTag('a')", true, B "seriesByTag('a')", [], []);
  (B "seriesByTag(' ')", true, B "seriesByTag(' ')", [], []);
  (B "seriesByTag('')", false, B "seriesByTag()", [B "a?a=v1&b=c"; B "a?b=c"; B "a?a=v1&b=c&e=v3"], []);
  (B "seriesByTag()", false, B "seriesByTag()", [B "a?a=v1&b=c"; B "a?b=c"; B "a?a=v1&b=c&e=v3"], []);
  (B "seriesByTag('name=a', 'b=c')", false, B "seriesByTag('__name__=a','b=c')", [B "a?a=v1&b=c"; B "a?b=c"; B "a?a=v1&b=c&e=v3"], [B "a?b=ca"; B "a?b=v1"; B "a?c=v1"; B "b?a=v1"]);
  (B "seriesByTag('name=a', 'b=c','__agg__=v')", false, B "seriesByTag('__name__=a','__agg__=v','b=c')", [B "a?__agg__=v&a=v1&b=c"; B "a?__agg__=v&b=c"; B "a?__agg__=v&a=v1&b=c&e=v3"], [B "a?b=ca"; B "a?b=v1"; B "a?c=v1"; B "b?a=v1"; B "a?a=v1&b=c"; B "a?b=c"; B "a?a=v1&b=c&e=v3"; B "a?__agg__=va&a=v1&b=c"; B "a?__agg__=va&b=c"; B "a?__agg__=va&a=v1&b=c&e=v3"]);
  (B "seriesByTag('d=e','name=a', 'b=c','__agg__=v')", false, B "seriesByTag('__name__=a','__agg__=v','b=c','d=e')", [B "a?__agg__=v&a=v1&b=c&d=e"; B "a?__agg__=v&b=c&d=e"; B "a?__agg__=v&a=v1&b=c&d=e&e=v3"], [B "a?b=ca"; B "a?b=v1"; B "a?c=v1"; B "b?a=v1"; B "a?a=v1&b=c"; B "a?b=c"; B "a?a=v1&b=c&e=v3"; B "a?a=v1&b=c&d=e&e=v3"; B "a?__agg__=va&a=v1&b=c"; B "a?__agg__=va&b=c"; B "a?__agg__=va&a=v1&b=c&e=v3&d=e"]);
  (B "seriesByTag('name=cpu.load_avg', 'app=postgresql', 'project=sales', 'subproject=crm')", false, B "seriesByTag('__name__=cpu.load_avg','app=postgresql','project=sales','subproject=crm')", [B "cpu.load_avg?app=postgresql&dc=dc1&host=node1-db&project=sales&subproject=crm"], [B "cpu.load_avg?app=crm&dc=dc1&host=node1-crm&project=sales&subproject=crm"; B "cpu.load_avg?app=postgresql&dc=dc1&host=node1-db&project=backoffice&subproject=card"]);
  (B "seriesByTag('name=a', 'b=c*')", false, B "seriesByTag('__name__=a','b=c*')", [B "a?a=v1&b=ca"; B "a?b=c"; B "a?a=v1&b=c&e=v3"; B "a?a=v1&b=ca&e=v3"], [B "a?b=da"; B "a?b=v1"; B "a?c=v1"; B "b?a=v1"]);
  (B "seriesByTag('name=a.b', 'b=c*.a')", false, B "seriesByTag('__name__=a.b','b=c*.a')", [B "a.b?a=v1&b=ca.a"; B "a.b?b=c.a"; B "a.b?a=v1&b=c.a&e=v3"; B "a.b?a=v1&b=ca.a&e=v3"; B "a.b?a=v1&b=cb.a&e=v3"], [B "a?b=c.a"; B "a.b?b=da"; B "a.b?b=ca"; B "a.b?b=ca.b"; B "a.b?b=v1"; B "a.b?c=v1"; B "b?a=v1"]);
  (B "seriesByTag('name=a.b', 'b=a{a,bc}Z{qa,q}c.a')", false, B "seriesByTag('__name__=a.b','b=a{a,bc}Z{q,qa}c.a')", [B "a.b?a=v1&b=aaZqc.a"; B "a.b?a=v1&b=abcZqac.a"], [B "a?b=c.a"; B "a.b?b=da"; B "a.b?b=ca"; B "a.b?b=ca.b"; B "a.b?b=v1"; B "a.b?c=v1"; B "b?a=v1"]);
  (B "seriesByTag('name=a', 'b=c[a]')", false, B "seriesByTag('__name__=a','b=ca')", [B "a?a=v1&b=ca"; B "a?b=ca"; B "a?a=v1&b=ca&e=v3"], [B "a?b=c"; B "a?b=v1"; B "a?c=v1"; B "b?a=v1"]);
  (B "seriesByTag('name=a', 'b=a?*??c')", false, B "seriesByTag('__name__=a','b=a*???c')", [B "a?a=v1&b=aBCDc"; B "a?b=aAFCDc"; B "a?a=v1&b=aAFCDc&e=v3"], [B "a?b=c"; B "a?b=v1"; B "a?b=aCDc"; B "a?c=v1"; B "b?a=v1"]);
  (B "seriesByTag('name=a', 'b!=~c(a|z)\.a')", false, B "seriesByTag('__name__=a','b!=~c(a|z)\.a')", [B "a?a=v1&b=ca.b"; B "a?b=ca.b"; B "a?a=v1&b=c.a&e=v3"; B "a?a=v1&b=ca.z&e=v3"], [B "a?a=v1&b=ca.a"; B "b?a=v1"]);
  (B "seriesByTag('name=a', 'b=~c(a|z)\.a')", false, B "seriesByTag('__name__=a','b=~c(a|z)\.a')", [B "a?a=v1&b=ca.a"; B "a?b=ca.a"; B "a?a=v1&b=cz.a&e=v3"; B "a?a=v1&b=ca.a&e=v3"], [B "a?a=v1&b=ca.b"; B "a?b=da"; B "a?b=v1"; B "a?c=v1"; B "b?a=v1"]);
  (B "seriesByTag('name=a', 'b=c', 'c!=vc')", false, B "seriesByTag('__name__=a','b=c','c!=vc')", [B "a?a=v1&b=c"; B "a?b=c"; B "a?a=v1&b=c&e=v3"; B "a?a=v1&b=c&c=v1&e=v3"], [B "a?b=ca"; B "a?b=v1"; B "a?c=v1"; B "b?a=v1"; B "a?a=v1&b=c&c=vc&e=v3"]);
  (B "seriesByTag('name=a', 'b!=c*')", false, B "seriesByTag('__name__=a','b!=c*')", [B "a?a=v1&b=ba"; B "a?c=ca"; B "a?a=v1&b=b&e=v3"; B "a?a=v1&b=ba&e=v3"], [B "a?b=c"; B "a?b=ca"; B "b?a=v1"]);
  (B "seriesByTag('name=a', 'b!=c[a]')", false, B "seriesByTag('__name__=a','b!=ca')", [B "a?b=c"; B "a?a=v1&b=ba"; B "a?b=ba"; B "a?a=v1&b=ba&e=v3"], [B "a?b=ca"; B "b?a=v1"])
].

Definition check_query (c : str * bool * str * list str * list str) : bool :=
  let '(q, err, nrm, ma, mi) := c in
  match parse_series rx q with
  | Ok ts => negb err && str_eqb (terms_write ts) nrm
             && forallb (fun s => is_ok true (terms_match_tags rx ts (fst (path_tags s)))
                                  && is_ok true (terms_match_map rx ts (fst (path_tags_map s)))) ma
             && forallb (fun s => is_ok false (terms_match_tags rx ts (fst (path_tags s)))
                                  && is_ok false (terms_match_map rx ts (fst (path_tags_map s)))) mi
  | Err _ => err
  | _ => false
  end.
Example conf_queries : filter (fun c => negb (check_query c)) queries = [].
Proof. vm_compute. reflexivity. Qed.

Definition cases : list (list str * option snode * list (str * Z) * list (Z * str) * list (str * list str)) := [
  ([],
   Some (SNode (B "") false (None) []),
   [],
   [],
   []);
  ([B ""],
   Some (SNode (B "") false (None) []),
   [],
   [],
   []);
  ([B "seriesByTag( )"],
   Some (SNode (B "") false (None) []),
   [(B "seriesByTag( )", (0)%Z); (B "seriesByTag()", (0)%Z)],
   [((0)%Z, B "seriesByTag()")],
   []);
  ([B "seriesByTag('name=a', 'b=c')"],
   Some (SNode (B "") false (None) [SNode (B "__name__") false None [SNode (B "__name__=a") false (None) [SNode (B "b") false None [SNode (B "b=c") false (Some (B "seriesByTag('__name__=a','b=c')", (0)%Z)) []]; SNode (B "b") true None []]]; SNode (B "__name__") true None []]),
   [(B "seriesByTag('__name__=a','b=c')", (0)%Z); (B "seriesByTag('name=a', 'b=c')", (0)%Z)],
   [((0)%Z, B "seriesByTag('__name__=a','b=c')")],
   [(B "a?a=v1&b=c", [B "seriesByTag('__name__=a','b=c')"]); (B "a?b=c", [B "seriesByTag('__name__=a','b=c')"]); (B "a?a=v1&b=c&e=v3", [B "seriesByTag('__name__=a','b=c')"]); (B "a?b=ca", []); (B "a?b=v1", []); (B "a?c=v1", []); (B "b?a=v1", [])]);
  ([B "seriesByTag('name=cpu.load_avg', 'app=postgresql', 'project=sales', 'subproject=crm')"],
   Some (SNode (B "") false (None) [SNode (B "__name__") false None [SNode (B "__name__=cpu.load_avg") false (None) [SNode (B "app") false None [SNode (B "app=postgresql") false (None) [SNode (B "project") false None [SNode (B "project=sales") false (None) [SNode (B "subproject") false None [SNode (B "subproject=crm") false (Some (B "seriesByTag('__name__=cpu.load_avg','app=postgresql','project=sales','subproject=crm')", (0)%Z)) []]; SNode (B "subproject") true None []]]; SNode (B "project") true None []]]; SNode (B "app") true None []]]; SNode (B "__name__") true None []]),
   [(B "seriesByTag('__name__=cpu.load_avg','app=postgresql','project=sales','subproject=crm')", (0)%Z); (B "seriesByTag('name=cpu.load_avg', 'app=postgresql', 'project=sales', 'subproject=crm')", (0)%Z)],
   [((0)%Z, B "seriesByTag('__name__=cpu.load_avg','app=postgresql','project=sales','subproject=crm')")],
   [(B "cpu.load_avg?app=postgresql&dc=dc1&host=node1-db&project=sales&subproject=crm", [B "seriesByTag('__name__=cpu.load_avg','app=postgresql','project=sales','subproject=crm')"]); (B "cpu.load_avg?app=postgresql&dc=dc1&host=node1-db&project=sales&subproject=crm&z=v", [B "seriesByTag('__name__=cpu.load_avg','app=postgresql','project=sales','subproject=crm')"]); (B "cpu.load_avg?app=postgresql&b=v&dc=dc1&host=node1-db&project=sales&subproject=crm&z=v", [B "seriesByTag('__name__=cpu.load_avg','app=postgresql','project=sales','subproject=crm')"]); (B "cpu.load_avg?app=crm&dc=dc1&host=node1-crm&project=sales&subproject=crm", []); (B "cpu.load_avg?app=postgresql&dc=dc1&host=node1-db&project=backoffice&subproject=card", [])]);
  ([B "seriesByTag('name=a', 'b=c')"; B "seriesByTag('b=c','name=a',)"],
   Some (SNode (B "") false (None) [SNode (B "__name__") false None [SNode (B "__name__=a") false (None) [SNode (B "b") false None [SNode (B "b=c") false (Some (B "seriesByTag('__name__=a','b=c')", (0)%Z)) []]; SNode (B "b") true None []]]; SNode (B "__name__") true None []]),
   [(B "seriesByTag('__name__=a','b=c')", (0)%Z); (B "seriesByTag('name=a', 'b=c')", (0)%Z)],
   [((0)%Z, B "seriesByTag('__name__=a','b=c')")],
   [(B "a?a=v1&b=c", [B "seriesByTag('__name__=a','b=c')"]); (B "a?b=c", [B "seriesByTag('__name__=a','b=c')"]); (B "a?a=v1&b=c&e=v3", [B "seriesByTag('__name__=a','b=c')"]); (B "a?b=ca", []); (B "a?b=v1", []); (B "a?c=v1", []); (B "b?a=v1", [])]);
  ([B "seriesByTag('name=a', 'b=c')"; B "seriesByTag('name=a','a=b', 'b=c')"; B "seriesByTag('__name__=b','a=b')"],
   Some (SNode (B "") false (None) [SNode (B "__name__") false None [SNode (B "__name__=a") false (None) [SNode (B "a") false None [SNode (B "a=b") false (None) [SNode (B "b") false None [SNode (B "b=c") false (Some (B "seriesByTag('__name__=a','a=b','b=c')", (1)%Z)) []]; SNode (B "b") true None []]]; SNode (B "a") true None []; SNode (B "b") false None [SNode (B "b=c") false (Some (B "seriesByTag('__name__=a','b=c')", (0)%Z)) []]; SNode (B "b") true None []]; SNode (B "__name__=b") false (None) [SNode (B "a") false None [SNode (B "a=b") false (Some (B "seriesByTag('__name__=b','a=b')", (2)%Z)) []]; SNode (B "a") true None []]]; SNode (B "__name__") true None []]),
   [(B "seriesByTag('__name__=a','a=b','b=c')", (1)%Z); (B "seriesByTag('__name__=a','b=c')", (0)%Z); (B "seriesByTag('__name__=b','a=b')", (2)%Z); (B "seriesByTag('name=a', 'b=c')", (0)%Z); (B "seriesByTag('name=a','a=b', 'b=c')", (1)%Z)],
   [((0)%Z, B "seriesByTag('__name__=a','b=c')"); ((1)%Z, B "seriesByTag('__name__=a','a=b','b=c')"); ((2)%Z, B "seriesByTag('__name__=b','a=b')")],
   [(B "a?a=v1&b=c", [B "seriesByTag('__name__=a','b=c')"]); (B "a?b=c", [B "seriesByTag('__name__=a','b=c')"]); (B "a?a=v1&b=c&e=v3", [B "seriesByTag('__name__=a','b=c')"]); (B "b?a=b&b=d&e=v3", [B "seriesByTag('__name__=b','a=b')"]); (B "a?a=b&b=d&e=v3", []); (B "a?b=ca", []); (B "a?b=v1", []); (B "a?c=v1", []); (B "b?a=c", []); (B "b?a=v1", [])]);
  ([B "seriesByTag('name=a', 'b=c*')"],
   Some (SNode (B "") false (None) [SNode (B "__name__") false None [SNode (B "__name__=a") false (None) [SNode (B "b") false None [SNode (B "b=c*") false (Some (B "seriesByTag('__name__=a','b=c*')", (0)%Z)) []]; SNode (B "b") true None []]]; SNode (B "__name__") true None []]),
   [(B "seriesByTag('__name__=a','b=c*')", (0)%Z); (B "seriesByTag('name=a', 'b=c*')", (0)%Z)],
   [((0)%Z, B "seriesByTag('__name__=a','b=c*')")],
   [(B "a?a=v1&b=ca", [B "seriesByTag('__name__=a','b=c*')"]); (B "a?b=c", [B "seriesByTag('__name__=a','b=c*')"]); (B "a?a=v1&b=c&e=v3", [B "seriesByTag('__name__=a','b=c*')"]); (B "a?a=v1&b=ca&e=v3", [B "seriesByTag('__name__=a','b=c*')"]); (B "a?b=da", []); (B "a?b=v1", []); (B "a?c=v1", []); (B "b?a=v1", [])]);
  ([B "seriesByTag('name=a.b', 'b=c*.a')"],
   Some (SNode (B "") false (None) [SNode (B "__name__") false None [SNode (B "__name__=a.b") false (None) [SNode (B "b") false None [SNode (B "b=c*.a") false (Some (B "seriesByTag('__name__=a.b','b=c*.a')", (0)%Z)) []]; SNode (B "b") true None []]]; SNode (B "__name__") true None []]),
   [(B "seriesByTag('__name__=a.b','b=c*.a')", (0)%Z); (B "seriesByTag('name=a.b', 'b=c*.a')", (0)%Z)],
   [((0)%Z, B "seriesByTag('__name__=a.b','b=c*.a')")],
   [(B "a.b?a=v1&b=ca.a", [B "seriesByTag('__name__=a.b','b=c*.a')"]); (B "a.b?b=c.a", [B "seriesByTag('__name__=a.b','b=c*.a')"]); (B "a.b?a=v1&b=c.a&e=v3", [B "seriesByTag('__name__=a.b','b=c*.a')"]); (B "a.b?a=v1&b=ca.a&e=v3", [B "seriesByTag('__name__=a.b','b=c*.a')"]); (B "a.b?a=v1&b=cb.a&e=v3", [B "seriesByTag('__name__=a.b','b=c*.a')"]); (B "a?b=c.a", []); (B "a.b?b=da", []); (B "a.b?b=ca", []); (B "a.b?b=ca.b", []); (B "a.b?b=v1", []); (B "a.b?c=v1", []); (B "b?a=v1", [])]);
  ([B "seriesByTag('name=a.b', 'b=a{a,bc}Z{qa,q}c.a')"],
   Some (SNode (B "") false (None) [SNode (B "__name__") false None [SNode (B "__name__=a.b") false (None) [SNode (B "b") false None [SNode (B "b=a{a,bc}Z{q,qa}c.a") false (Some (B "seriesByTag('__name__=a.b','b=a{a,bc}Z{q,qa}c.a')", (0)%Z)) []]; SNode (B "b") true None []]]; SNode (B "__name__") true None []]),
   [(B "seriesByTag('__name__=a.b','b=a{a,bc}Z{q,qa}c.a')", (0)%Z); (B "seriesByTag('name=a.b', 'b=a{a,bc}Z{qa,q}c.a')", (0)%Z)],
   [((0)%Z, B "seriesByTag('__name__=a.b','b=a{a,bc}Z{q,qa}c.a')")],
   [(B "a.b?a=v1&b=aaZqc.a", [B "seriesByTag('__name__=a.b','b=a{a,bc}Z{q,qa}c.a')"]); (B "a.b?a=v1&b=abcZqac.a", [B "seriesByTag('__name__=a.b','b=a{a,bc}Z{q,qa}c.a')"]); (B "a?b=c.a", []); (B "a.b?b=da", []); (B "a.b?b=ca", []); (B "a.b?b=ca.b", []); (B "a.b?b=v1", []); (B "a.b?c=v1", []); (B "b?a=v1", [])]);
  ([B "seriesByTag('name=a', 'b=c[a]')"],
   Some (SNode (B "") false (None) [SNode (B "__name__") false None [SNode (B "__name__=a") false (None) [SNode (B "b") false None [SNode (B "b=ca") false (Some (B "seriesByTag('__name__=a','b=ca')", (0)%Z)) []]; SNode (B "b") true None []]]; SNode (B "__name__") true None []]),
   [(B "seriesByTag('__name__=a','b=ca')", (0)%Z); (B "seriesByTag('name=a', 'b=c[a]')", (0)%Z)],
   [((0)%Z, B "seriesByTag('__name__=a','b=ca')")],
   [(B "a?a=v1&b=ca", [B "seriesByTag('__name__=a','b=ca')"]); (B "a?b=ca", [B "seriesByTag('__name__=a','b=ca')"]); (B "a?a=v1&b=ca&e=v3", [B "seriesByTag('__name__=a','b=ca')"]); (B "a?b=c", []); (B "a?b=v1", []); (B "a?c=v1", []); (B "b?a=v1", [])]);
  ([B "seriesByTag('name=a', 'b=a?*??c')"; B "seriesByTag('name=a', 'b=a*???c')"],
   Some (SNode (B "") false (None) [SNode (B "__name__") false None [SNode (B "__name__=a") false (None) [SNode (B "b") false None [SNode (B "b=a*???c") false (Some (B "seriesByTag('__name__=a','b=a*???c')", (0)%Z)) []]; SNode (B "b") true None []]]; SNode (B "__name__") true None []]),
   [(B "seriesByTag('__name__=a','b=a*???c')", (0)%Z); (B "seriesByTag('name=a', 'b=a?*??c')", (0)%Z)],
   [((0)%Z, B "seriesByTag('__name__=a','b=a*???c')")],
   [(B "a?a=v1&b=aBCDc", [B "seriesByTag('__name__=a','b=a*???c')"]); (B "a?b=aAFCDc", [B "seriesByTag('__name__=a','b=a*???c')"]); (B "a?a=v1&b=aAFCDc&e=v3", [B "seriesByTag('__name__=a','b=a*???c')"]); (B "a?b=c", []); (B "a?b=v1", []); (B "a?b=aCDc", []); (B "a?c=v1", []); (B "b?a=v1", [])]);
  ([B "seriesByTag('name=a', 'b!=~c(a|z)\.a')"; B "seriesByTag('__name__=a','b!=~c(a|z)\.a','d=e')"],
   Some (SNode (B "") false (None) [SNode (B "__name__") false None [SNode (B "__name__=a") false (None) [SNode (B "b") false None []; SNode (B "b") true None [SNode (B "b!=~c(a|z)\.a") false (Some (B "seriesByTag('__name__=a','b!=~c(a|z)\.a')", (0)%Z)) [SNode (B "d") false None [SNode (B "d=e") false (Some (B "seriesByTag('__name__=a','b!=~c(a|z)\.a','d=e')", (1)%Z)) []]; SNode (B "d") true None []]]]]; SNode (B "__name__") true None []]),
   [(B "seriesByTag('__name__=a','b!=~c(a|z)\.a')", (0)%Z); (B "seriesByTag('__name__=a','b!=~c(a|z)\.a','d=e')", (1)%Z); (B "seriesByTag('name=a', 'b!=~c(a|z)\.a')", (0)%Z)],
   [((0)%Z, B "seriesByTag('__name__=a','b!=~c(a|z)\.a')"); ((1)%Z, B "seriesByTag('__name__=a','b!=~c(a|z)\.a','d=e')")],
   [(B "a?a=v1&b=ca.b", [B "seriesByTag('__name__=a','b!=~c(a|z)\.a')"]); (B "a?b=ca.b", [B "seriesByTag('__name__=a','b!=~c(a|z)\.a')"]); (B "a?a=v1&b=c.a&e=v3", [B "seriesByTag('__name__=a','b!=~c(a|z)\.a')"]); (B "a?a=v1&b=ca.z&e=v3", [B "seriesByTag('__name__=a','b!=~c(a|z)\.a')"]); (B "a?a=v1&b=ca.z&d=e&e=v3", [B "seriesByTag('__name__=a','b!=~c(a|z)\.a')"; B "seriesByTag('__name__=a','b!=~c(a|z)\.a','d=e')"]); (B "a?a=v1&d=ca.b", [B "seriesByTag('__name__=a','b!=~c(a|z)\.a')"]); (B "a?a=v1&d=e", [B "seriesByTag('__name__=a','b!=~c(a|z)\.a')"; B "seriesByTag('__name__=a','b!=~c(a|z)\.a','d=e')"]); (B "a?a=v1&d=e&f=g", [B "seriesByTag('__name__=a','b!=~c(a|z)\.a')"; B "seriesByTag('__name__=a','b!=~c(a|z)\.a','d=e')"]); (B "a?d=e", [B "seriesByTag('__name__=a','b!=~c(a|z)\.a')"; B "seriesByTag('__name__=a','b!=~c(a|z)\.a','d=e')"]); (B "a?d=e&f=g", [B "seriesByTag('__name__=a','b!=~c(a|z)\.a')"; B "seriesByTag('__name__=a','b!=~c(a|z)\.a','d=e')"]); (B "a?a=v1&b=ca.a", []); (B "a?a=v1&b=ca.a&d=e", []); (B "b?a=v1", [])]);
  ([B "seriesByTag('name=a', 'b=~c(a|z)\.a')"],
   Some (SNode (B "") false (None) [SNode (B "__name__") false None [SNode (B "__name__=a") false (None) [SNode (B "b") false None [SNode (B "b=~c(a|z)\.a") false (Some (B "seriesByTag('__name__=a','b=~c(a|z)\.a')", (0)%Z)) []]; SNode (B "b") true None []]]; SNode (B "__name__") true None []]),
   [(B "seriesByTag('__name__=a','b=~c(a|z)\.a')", (0)%Z); (B "seriesByTag('name=a', 'b=~c(a|z)\.a')", (0)%Z)],
   [((0)%Z, B "seriesByTag('__name__=a','b=~c(a|z)\.a')")],
   [(B "a?a=v1&b=ca.a", [B "seriesByTag('__name__=a','b=~c(a|z)\.a')"]); (B "a?b=ca.a", [B "seriesByTag('__name__=a','b=~c(a|z)\.a')"]); (B "a?a=v1&b=cz.a&e=v3", [B "seriesByTag('__name__=a','b=~c(a|z)\.a')"]); (B "a?a=v1&b=ca.a&e=v3", [B "seriesByTag('__name__=a','b=~c(a|z)\.a')"]); (B "a?a=v1&b=ca.b", []); (B "a?b=da", []); (B "a?b=v1", []); (B "a?c=v1", []); (B "b?a=v1", [])]);
  ([B "seriesByTag('name=a', 'b=c', 'c!=vc')"],
   Some (SNode (B "") false (None) [SNode (B "__name__") false None [SNode (B "__name__=a") false (None) [SNode (B "b") false None [SNode (B "b=c") false (None) [SNode (B "c") false None []; SNode (B "c") true None [SNode (B "c!=vc") false (Some (B "seriesByTag('__name__=a','b=c','c!=vc')", (0)%Z)) []]]]; SNode (B "b") true None []]]; SNode (B "__name__") true None []]),
   [(B "seriesByTag('__name__=a','b=c','c!=vc')", (0)%Z); (B "seriesByTag('name=a', 'b=c', 'c!=vc')", (0)%Z)],
   [((0)%Z, B "seriesByTag('__name__=a','b=c','c!=vc')")],
   [(B "a?a=v1&b=c", [B "seriesByTag('__name__=a','b=c','c!=vc')"]); (B "a?b=c", [B "seriesByTag('__name__=a','b=c','c!=vc')"]); (B "a?a=v1&b=c&e=v3", [B "seriesByTag('__name__=a','b=c','c!=vc')"]); (B "a?a=v1&b=c&c=v1&e=v3", [B "seriesByTag('__name__=a','b=c','c!=vc')"]); (B "a?b=ca", []); (B "a?b=v1", []); (B "a?c=v1", []); (B "b?a=v1", []); (B "a?a=v1&b=c&c=vc&e=v3", [])]);
  ([B "seriesByTag('name=a', 'b!=c*')"],
   Some (SNode (B "") false (None) [SNode (B "__name__") false None [SNode (B "__name__=a") false (None) [SNode (B "b") false None []; SNode (B "b") true None [SNode (B "b!=c*") false (Some (B "seriesByTag('__name__=a','b!=c*')", (0)%Z)) []]]]; SNode (B "__name__") true None []]),
   [(B "seriesByTag('__name__=a','b!=c*')", (0)%Z); (B "seriesByTag('name=a', 'b!=c*')", (0)%Z)],
   [((0)%Z, B "seriesByTag('__name__=a','b!=c*')")],
   [(B "a?a=v1&b=ba", [B "seriesByTag('__name__=a','b!=c*')"]); (B "a?c=ca", [B "seriesByTag('__name__=a','b!=c*')"]); (B "a?a=v1&b=b&e=v3", [B "seriesByTag('__name__=a','b!=c*')"]); (B "a?a=v1&b=ba&e=v3", [B "seriesByTag('__name__=a','b!=c*')"]); (B "a?b=c", []); (B "a?b=ca", []); (B "b?a=v1", [])]);
  ([B "seriesByTag('name=a', 'b!=c[a]')"],
   Some (SNode (B "") false (None) [SNode (B "__name__") false None [SNode (B "__name__=a") false (None) [SNode (B "b") false None []; SNode (B "b") true None [SNode (B "b!=ca") false (Some (B "seriesByTag('__name__=a','b!=ca')", (0)%Z)) []]]]; SNode (B "__name__") true None []]),
   [(B "seriesByTag('__name__=a','b!=ca')", (0)%Z); (B "seriesByTag('name=a', 'b!=c[a]')", (0)%Z)],
   [((0)%Z, B "seriesByTag('__name__=a','b!=ca')")],
   [(B "a?b=c", [B "seriesByTag('__name__=a','b!=ca')"]); (B "a?a=v1&b=ba", [B "seriesByTag('__name__=a','b!=ca')"]); (B "a?b=ba", [B "seriesByTag('__name__=a','b!=ca')"]); (B "a?a=v1&b=ba&e=v3", [B "seriesByTag('__name__=a','b!=ca')"]); (B "a?b=ca", []); (B "b?a=v1", [])])
].

Fixpoint snode_of (t : titem) : snode :=
  match t with
  | TItem tm x slots =>
      SNode (match tm with Some t => tt_write t | None => [] end) false x
        ((fix go (l : list tslot) : list snode :=
            match l with
            | [] => []
            | TSlot k nm m :: r => SNode k false None (map snode_of m) :: SNode k true None (map snode_of nm) :: go r
            end) slots)
  end.
Fixpoint add_all (t : gtags_tree) (l : list str) (i : Z) : option gtags_tree :=
  match l with
  | [] => Some t
  | g :: r => match tg_add rx t g i with
              | Ok (t', (_, _, None)) => add_all t' r (i + 1)
              | Ok (t', (_, _, Some ErrGlobExist)) => add_all t' r (i + 1)
              | _ => None
              end
  end.
Definition same_hits (r : res out) (want : list str) : bool :=
  match r with
  | Ok (hits, n) => slice_equal str_eqb (isort str_ltb (map fst hits)) (isort str_ltb want)
                    && Nat.eqb n (length want)
  | _ => false
  end.
Definition failures :=
  flat_map (fun '(gs, root, m, mi, l) =>
    match add_all tg_new gs 0 with
    | None => [(gs, false, [])]
    | Some t => let bad := filter (fun c =>
                   negb (same_hits (tg_match_tags rx t (fst (path_tags (fst c)))) (snd c)
                         && same_hits (tg_match_map rx t (fst (path_tags_map (fst c)))) (snd c))) l in
                let ok := same_map m (tg_queries t) && same_index mi (tg_index t)
                          && match root with Some r => snode_eqb r (snode_of (tg_root t)) | None => true end in
                if null bad && ok then [] else [(gs, ok, bad)]
    end) cases.
Example conf_gtags_tree : failures = [].
Proof. vm_compute. reflexivity. Qed.
