(** Conformance of the model with the repository's own glob tests (glob/glob_*_test.go): the
    expected values are copied from the test tables and evaluated on the model.  These are
    tests of the model, not proofs of any property. *)
From Verif Require Import Model.Glob Conf.Base.

(** text, error expected, Node, MinLen, MaxLen, Prefix, Suffix, matching strings, missing strings *)
Definition cases : list (str * bool * str * Z * Z * str * str * list str * list str) := [
  (B "?", false, B "?", (1)%Z, (4)%Z, B "", B "", [B "a"; B "c"], [B ""; B "ab"; B "a.b"]);
  (B "??", false, B "??", (2)%Z, (8)%Z, B "", B "", [B "ab"; B "cc"], [B ""; B "a"; B "a.b"]);
  (B "???", false, B "???", (3)%Z, (12)%Z, B "", B "", [B "abc"; B "ccc"], [B ""; B "ab"; B "abcd"; B "a.bd"]);
  (B "a?", false, B "a?", (2)%Z, (5)%Z, B "a", B "", [B "ac"; B "az"], [B ""; B "a"; B "b"; B "bc"; B "ace"; B "a.c"]);
  (B "a?c", false, B "a?c", (3)%Z, (6)%Z, B "a", B "c", [B "acc"; B "aec"], [B ""; B "ab"; B "ac"; B "ace"; B "a.e"; B "bec"]);
  (B "a?[c]?d", false, B "a?c?d", (5)%Z, (11)%Z, B "a", B "d", [B "aZccd"; B "aZcAd"], [B ""; B "ab"; B "ac"; B "ace"; B "aZDAd"; B "a.c"]);
  (B "a*?c?d", false, B "a*?c?d", (5)%Z, (-1)%Z, B "a", B "d", [B "aZccd"; B "aZcAd"; B "aIZcAd"], [B ""; B "ab"; B "ac"; B "ace"; B "aZDAd"; B "a.c"]);
  (B "*a?", false, B "*a?", (2)%Z, (-1)%Z, B "", B "", [B "aa"; B "ab"; B "ac"; B "bad"], [B ""; B "a"; B "d"]);
  (B "{b*,a?cd*,cd[a-z]}bc*c*e", false, B "{a?cd*,b*,cd[a-z]}bc*c*e", (5)%Z, (-1)%Z, B "", B "e", [B "aZcdbcce"; B "aZcdQAbcZWcIe"; B "cdqbcZcIe"; B "bCDbcZIce"], [B ""; B "aZcdbcc"; B "aZcdcce"; B "aZcdQAbcZWIe"]);
  (B "?*{b*,a?cd*,cd[a-z]}bc*c*e", false, B "*?{a?cd*,b*,cd[a-z]}bc*c*e", (6)%Z, (-1)%Z, B "", B "e", [B "ZaZcdbcce"; bs [208;153;97;208;174;99;100;81;65;98;99;90;87;99;73;101]%N; bs [208;153;97;99;100;113;98;99;90;99;73;101]%N; bs [208;153;97;98;67;68;98;99;90;73;99;101]%N], [B ""; bs [97;208;175;99;100;98;99;99;101]%N; B "aZcdQAbcZWcIe"; B "aZcdbcc"; B "aZcdcce"; B "aZcdQAbcZWIe"]);
  (B "?*{b*,a?cd*,cd[a-z]}bc*c*e", false, B "*?{a?cd*,b*,cd[a-z]}bc*c*e", (6)%Z, (-1)%Z, B "", B "e", [B "ZaZcdbcce"; bs [208;153;97;208;174;99;100;81;65;98;99;90;87;99;73;101]%N; bs [208;153;97;99;100;113;98;99;90;99;73;101]%N; bs [208;153;97;98;67;68;98;99;90;73;99;101]%N], [B ""; bs [97;208;175;99;100;98;99;99;101]%N; B "aZcdQAbcZWcIe"; B "aZcdbcc"; B "aZcdcce"; B "aZcdQAbcZWIe"]);
  (bs [63;208;153;63]%N, false, bs [63;208;153;63]%N, (4)%Z, (10)%Z, B "", B "", [bs [97;208;153;209;129]%N; bs [208;153;208;153;100]%N; bs [208;175;208;153;97]%N], [B ""; B "a"; B "d"; bs [97;208;153]%N; bs [208;153]%N; bs [208;164;105;208;153]%N; bs [97;208;153;99;99]%N]);
  (bs [42;208;153;63]%N, false, bs [42;208;153;63]%N, (3)%Z, (-1)%Z, B "", B "", [bs [208;153;209;129]%N; bs [208;153;208;153;100]%N; bs [97;208;153;97]%N], [B ""; B "a"; B "d"; bs [97;208;153]%N; bs [208;153]%N]);
  (B "[a-c]", false, B "[a-c]", (1)%Z, (1)%Z, B "", B "", [B "a"; B "b"; B "c"], [B ""; B "d"; B "ab"; B "ac"; B "a.b"]);
  (B "[a-c]z", false, B "[a-c]z", (2)%Z, (2)%Z, B "", B "z", [B "az"; B "bz"; B "cz"], [B ""; B "d"; B "ab"; B "ac"; B "abz"; B "az.b"; B "a.bz"]);
  (B "[a-c]*", false, B "[a-c]*", (1)%Z, (-1)%Z, B "", B "", [B "a"; B "b"; B "c"; B "a."; B "ab"; B "az"; B "bz"; B "cz"; B "a.b"; B "abz"; B "cab"; B "czb"; B "az.b"; B "a.bz"], [B ""; B "d"; B "da"]);
  (B "a*[b-e].b", false, B "a*[b-e].b", (4)%Z, (-1)%Z, B "a", B ".b", [B "ab.b"; B "ac.b"; B "ae.b"; B "aSTc.b"; B "acbec.b"; B "abbece.b"], [B ""; B "ab"; B "c"; B "a.b"; B "a.bd"; B "aa.b"; B "af.b"]);
  (B "[ac", true, [], 0%Z, 0%Z, [], [], [], []);
  (B "a]c", true, [], 0%Z, 0%Z, [], [], [], []);
  (B "[]a", false, B "a", (1)%Z, (1)%Z, B "", B "", [B "a"], [B ""; B "b"; B "ab"]);
  (B "*", false, B "*", (0)%Z, (-1)%Z, B "", B "", [B ""; B "ac"; B "abc"; B "abcc"], []);
  (B "**", false, B "*", (0)%Z, (-1)%Z, B "", B "", [B ""; B "ac"; B "abc"; B "abcc"], []);
  (B "a******c", false, B "a*c", (2)%Z, (-1)%Z, B "a", B "c", [B "ac"; B "abc"; B "abcc"], [B ""; B "acb"; B "ac."; B "ac.b"]);
  (B "*", false, B "*", (0)%Z, (-1)%Z, B "", B "", [B ""; B "a"; B "ac"; B "abc"; B "abcc"; B "ac."; B "ac.b"], []);
  (B "a*c", false, B "a*c", (2)%Z, (-1)%Z, B "a", B "c", [B "ac"; B "acc"; B "aec"; B "aebc"; B "aecc"; B "aecec"; B "abecec"; B "a.c"], [B ""; B "ab"; B "c"; B "ace"]);
  (B "a*", false, B "a*", (1)%Z, (-1)%Z, B "a", B "", [B "ac"; B "ab"; B "acc"; B "ace"; B "aec"; B "aebc"; B "aecc"; B "aecec"; B "abecec"; B "a.c"], [B ""; B "c"]);
  (B "a*b?c", false, B "a*b?c", (4)%Z, (-1)%Z, B "a", B "c", [B "abec"; B "abbec"; B "acbbc"; B "aecbec"], [B ""; B "ab"; B "c"; B "ace"; B "a.c"; B "abbece"]);
  (B "a*?_FIND*_st", false, B "a*?_FIND*_st", (10)%Z, (-1)%Z, B "a", B "_st", [B "ab_FIND_st"; B "aLc_FIND_st"; B "aLBc_FIND_st"; B "aLBc_FIND_STAR_st"; B "aLBc_FINDB_st"], [B "a_FIND_st"; B "a_FINDB_st"]);
  (B "a******?c", false, B "a*?c", (3)%Z, (-1)%Z, B "a", B "c", [B "aBc"; B "aBCc"; B "aBCDc"; B "aBCDEc"], [B ""; B "ac"; B "acb"]);
  (B "a?******c", false, B "a*?c", (3)%Z, (-1)%Z, B "a", B "c", [B "aBc"; B "aBCc"; B "aBCDc"; B "aBCDEc"], [B ""; B "ac"; B "acb"]);
  (B "a**?****c", false, B "a*?c", (3)%Z, (-1)%Z, B "a", B "c", [B "aBc"; B "aBCc"; B "aBCDc"; B "aBCDEc"], [B ""; B "ac"; B "acb"]);
  (B "a?******?c", false, B "a*??c", (4)%Z, (-1)%Z, B "a", B "c", [B "aBCc"; B "aBCDc"; B "aBCDEc"; B "a.Cc"; B "aB.Dc"; B "aBC..c"; B "aBCc.aBCc"], [B "abc"; B "aBc"; B "b"; B "cBc"; B "ZBCc"; B "aBCc."; B "aBCc.a"]);
  (B "a**??c", false, B "a*??c", (4)%Z, (-1)%Z, B "a", B "c", [B "aBCc"; B "aBCDc"; B "aBCDEc"; B "a.Cc"; B "aB.Dc"; B "aBC..c"; B "aBCc.aBCc"], [B "abc"; B "aBc"; B "b"; B "cBc"; B "ZBCc"; B "aBCc."; B "aBCc.a"]);
  (B "a*?*?*c", false, B "a*??c", (4)%Z, (-1)%Z, B "a", B "c", [B "aBCc"; B "aBCDc"; B "aBCDEc"; B "a.Cc"; B "aB.Dc"; B "aBC..c"; B "aBCc.aBCc"], [B "abc"; B "aBc"; B "b"; B "cBc"; B "ZBCc"; B "aBCc."; B "aBCc.a"]);
  (B "a?*??c", false, B "a*???c", (5)%Z, (-1)%Z, B "a", B "c", [B "aBCDc"; B "aBCDEc"; B "a..Cc"; B "aB.Dc"; B "aBC..c"; B "aBCc.aBCc"], [B "abc"; B "aBc"; B "aBCc"; B "b"; B "cBc"; B "ZBCc"; B "a.Cc"; B "aBCc."; B "aBCc.a"]);
  (B "a??*?*c", false, B "a*???c", (5)%Z, (-1)%Z, B "a", B "c", [B "aBCDc"; B "aBCDEc"; B "a..Cc"; B "aB.Dc"; B "aBC..c"; B "aBCc.aBCc"], [B "abc"; B "aBc"; B "aBCc"; B "b"; B "cBc"; B "ZBCc"; B "a.Cc"; B "aBCc."; B "aBCc.a"]);
  (B "a???**c", false, B "a*???c", (5)%Z, (-1)%Z, B "a", B "c", [B "aBCDc"; B "aBCDEc"; B "a..Cc"; B "aB.Dc"; B "aBC..c"; B "aBCc.aBCc"], [B "abc"; B "aBc"; B "aBCc"; B "b"; B "cBc"; B "ZBCc"; B "a.Cc"; B "aBCc."; B "aBCc.a"]);
  (B "", false, B "", (0)%Z, (0)%Z, B "", B "", [], []);
  (B "a", false, B "a", (1)%Z, (1)%Z, B "", B "", [B "a"], [B ""; B "b"; B "ab"; B "ba"; B "a."; B "a.b"]);
  (B "a.bc", false, B "a.bc", (4)%Z, (4)%Z, B "", B "", [B "a.bc"], [B ""; B "b"; B "ab"; B "bc"; B "abc"; B "a.b"; B "a.bc."; B "b.bc"; B "a.bce"; B "a.bc.e"]);
  (B "[a-]", false, B "a", (1)%Z, (1)%Z, B "", B "", [B "a"], [B ""; B "b"; B "d"; B "ab"; B "a.b"]);
  (bs [91;208;153;45;93]%N, false, bs [208;153]%N, (2)%Z, (2)%Z, B "", B "", [bs [208;153]%N], [B ""; bs [209;132]%N; B "d"; B "ab"; B "a.b"; bs [208;166]%N; bs [208;153;208;166]%N]);
  (B "{a}", false, B "a", (1)%Z, (1)%Z, B "", B "", [B "a"], [B ""; B "b"; B "d"; B "ab"; B "a.b"]);
  (bs [123;208;153;125]%N, false, bs [208;153]%N, (2)%Z, (2)%Z, B "", B "", [bs [208;153]%N], [B ""; bs [209;132]%N; B "d"; B "ab"; B "a.b"; bs [208;166]%N; bs [208;153;208;166]%N]);
  (B "{str}", false, B "str", (3)%Z, (3)%Z, B "", B "", [B "str"], [B ""; B "st"; B "strt"]);
  (B "a[a-]Z", false, B "aaZ", (3)%Z, (3)%Z, B "", B "", [B "aaZ"], [B ""; B "a"; B "b"; B "d"; B "aa"; B "ab"; B "aaz"; B "aaZ."; B "aaZa"; B "a.b"]);
  (B "a[a-]Z[Q]", false, B "aaZQ", (4)%Z, (4)%Z, B "", B "", [B "aaZQ"], [B ""; B "ab"; B "aaZQa"]);
  (B "a[a-]Z[Q]*", false, B "aaZQ*", (4)%Z, (-1)%Z, B "aaZQ", B "", [B "aaZQ"; B "aaZQa"], [B ""; B "ab"; B "aaZqa"]);
  (B "a[a-]Z[Q]st{LT}*I{NN}*[z-][a]ST{lt}l", false, B "aaZQstLT*INN*zaSTltl", (18)%Z, (-1)%Z, B "aaZQstLT", B "zaSTltl", [B "aaZQstLTINNzaSTltl"; B "aaZQstLTaINNzaSTltl"], [B ""; B "ab"; B "aaZqa"]);
  (bs [97;91;97;45;93;90;91;81;93;115;116;123;76;84;125;42;208;166;123;78;78;125;42;91;122;45;93;91;97;93;83;84;123;108;116;125;108]%N, false, bs [97;97;90;81;115;116;76;84;42;208;166;78;78;42;122;97;83;84;108;116;108]%N, (19)%Z, (-1)%Z, B "aaZQstLT", B "zaSTltl", [bs [97;97;90;81;115;116;76;84;208;166;78;78;122;97;83;84;108;116;108]%N; bs [97;97;90;81;115;116;76;84;97;208;166;78;78;122;97;83;84;108;116;108]%N], [B ""; B "ab"; B "aaZqa"; bs [97;97;90;81;115;116;76;84;97;208;166;97;78;78;122;97;83;84;108;116;108]%N; B "aaZQstLTaaNNzaSTltl"]);
  (bs [97;91;208;155;93;42;208;152;123;208;164;125;42;98;123;208;146;125;42;208;146;123;78;78;125;42;110;110;91;208;178;93;42;208;146;123;78;125;42;123;208;166;125;108]%N, false, bs [97;208;155;42;208;152;208;164;42;98;208;146;42;208;146;78;78;42;110;110;208;178;42;208;146;78;42;208;166;108]%N, (24)%Z, (-1)%Z, bs [97;208;155]%N, bs [208;166;108]%N, [bs [97;208;155;208;152;208;164;98;208;146;208;146;78;78;110;110;208;178;208;146;78;208;166;108]%N; bs [97;208;155;208;166;208;152;208;164;114;98;208;146;95;208;146;78;78;95;110;110;208;178;208;146;78;95;208;166;108]%N], [B ""; B "ab"; B "aaZqa"; bs [97;208;152;208;164;98;208;146;208;146;78;78;110;110;208;178;208;146;78;208;166;108]%N]);
  (B "a[a-]Z[Q]st{LT}*{NN}I*[z-][a]ST{lt}", false, B "aaZQstLT*NNI*zaSTlt", (17)%Z, (-1)%Z, B "aaZQstLT", B "zaSTlt", [B "aaZQstLTNNIzaSTlt"; B "aaZQstLTaNNIzaSTlt"], [B ""; B "ab"; B "aaZqa"; B "aaZQstLTaNNIzaSTltl"]);
  (B "a[a-]Z[Q]*[a]c", false, B "aaZQ*ac", (6)%Z, (-1)%Z, B "aaZQ", B "ac", [B "aaZQac"; B "aaZQaac"; B "aaZQbac"], [B ""; B "ab"; B "aaZqa"]);
  (B "{Z,Q}", false, B "{Q,Z}", (1)%Z, (1)%Z, B "", B "", [B "Z"; B "Q"], [B ""; B "z"; B "q"; B "b"; B "ZQ"; B "QZ"; B "Zq"; B "ab"; B "ba"; B "abc"]);
  (B "{Z,Q,}", false, B "{,Q,Z}", (0)%Z, (1)%Z, B "", B "", [B ""; B "Z"; B "Q"], [B "z"; B "q"; B "b"; B "ZQ"; B "QZ"; B "Zq"; B "ab"; B "ba"; B "abc"]);
  (B "{a,bc}", false, B "{a,bc}", (1)%Z, (2)%Z, B "", B "", [B "a"; B "bc"], [B ""; B "b"; B "ab"; B "ba"; B "abc"; B "bca"]);
  (B "*{a,bc}", false, B "*{a,bc}", (1)%Z, (-1)%Z, B "", B "", [B "a"; B "aa"; B "ba"; B "bc"; B "Ba"; B "abc"; B "bca"; B "Bbc"; B "aBa"], [B ""; B "b"; B "ab"]);
  (B "a{a,bc}{qa,q}c", false, B "a{a,bc}{q,qa}c", (4)%Z, (6)%Z, B "a", B "c", [B "aaqac"; B "abcqac"; B "aaqc"], [B ""; B "b"; B "ab"; B "ba"; B "abc"; B "aabc"; B "aaqbc"]);
  (B "a{a,bc}Z{qa,q}c", false, B "a{a,bc}Z{q,qa}c", (5)%Z, (7)%Z, B "a", B "c", [B "aaZqac"; B "abcZqac"; B "aaZqc"], [B ""; B "b"; B "ab"; B "ba"; B "abc"; B "aabc"; B "aaqbc"]);
  (B "a{,a,bc}Z{qa,q}c", false, B "a{,a,bc}Z{q,qa}c", (4)%Z, (7)%Z, B "a", B "c", [B "aaZqac"; B "abcZqac"; B "aaZqc"; B "aZqc"; B "aZqac"], [B ""; B "b"; B "ab"; B "ba"; B "abc"; B "aabc"; B "aaqbc"]);
  (B "*.{bc,d}*.e", false, B "*.{bc,d}*.e", (4)%Z, (-1)%Z, B "", B ".e", [B "a.b.bce.e"], []);
  (B "b{a,}", false, B "b{,a}", (1)%Z, (2)%Z, B "b", B "", [B "b"; B "ba"], [B ""; B "bb"; B "bd"; B "ab"; B "bab"; B "ba.b"]);
  (B "*{a,}", false, B "*{,a}", (0)%Z, (-1)%Z, B "", B "", [B ""; B "a"; B "b"; B "ba"; B "bb"; B "bd"; B "ab"; B "bab"; B "ba.b"], []);
  (B "*{a,}{b,cd}", false, B "*{,a}{b,cd}", (1)%Z, (-1)%Z, B "", B "", [B "abcd"; B "b"; B "cd"; B "ab"; B "acd"; B "bb"; B "bcd"; B "bab"; B "abcd"; B "bacd"; B "bbb"; B "ba.b"; B "ba.cd"], [B ""; B "bbd"; B "abc"]);
  (B "b*{a,}", false, B "b*{,a}", (1)%Z, (-1)%Z, B "b", B "", [B "b"; B "ba"; B "bb"; B "bba"; B "bbb"; B "bbd"; B "bab"; B "bbab"; B "bba.b"], [B ""; B "a"; B "ab"; B "aba"]);
  (B "b*{a,}*", false, B "b*{,a}*", (1)%Z, (-1)%Z, B "b", B "", [B "bc..df"], []);
  (B "DB.*.Cassandra.{BalanceCluster,BalanceStaging,Billing,UpProduction,UpTesting,WebCluster}.*.DownEndpointCount", false, B "DB.*.Cassandra.{BalanceCluster,BalanceStaging,Billing,UpProduction,UpTesting,WebCluster}.*.DownEndpointCount", (40)%Z, (-1)%Z, B "DB.", B ".DownEndpointCount", [B "DB.Sales.Cassandra.UpProduction.NODE1.DownEndpointCount"; B "DB.Sales.Cassandra.UpProduction.node1.NODE2.DownEndpointCount"; B "DB..Cassandra.UpProduction..DownEndpointCount"; B "DB..Cassandra.UpProduction.node1.DownEndpointCount"], [B "DB.Cassandra..UpProduction.DownEndpointCount"; B "DB.Cassandra.UpProduction.DownEndpointCount"; B "DB.Cassandra.UpProduction.node1.DownEndpointCount"; B "DB.Sales.Cassandra.SalesCluster.node1.DownEndpointCount"]);
  (B "DB.*?.Cassandra.{BalanceCluster,BalanceStaging,Billing,UpProduction,UpTesting,WebCluster}.*?.DownEndpointCount", false, B "DB.*?.Cassandra.{BalanceCluster,BalanceStaging,Billing,UpProduction,UpTesting,WebCluster}.*?.DownEndpointCount", (42)%Z, (-1)%Z, B "DB.", B ".DownEndpointCount", [B "DB.a.Cassandra.UpProduction.node1.DownEndpointCount"; B "DB.a.Cassandra.UpProduction.b.DownEndpointCount"; B "DB.Sales.Cassandra.UpProduction.node1.DownEndpointCount"; B "DB.Sales.Cassandra.UpProduction.node1.NODE2.DownEndpointCount"], [B "Web.App.UpProduction.DownEndpointCount"; B "Web.a.Cassandra.UpProduction.node1.DownEndpointCount"; B "DB.a.Cassandra.UpProduction.node1.DownEndpointCount2"; B "DB.Cassandra.UpProduction.DownEndpointCount"; B "DB.Cassandra.UpProduction.node1.DownEndpointCount"; B "DB..Cassandra.UpProduction.node1.DownEndpointCount"; B "DB..Cassandra.UpProduction..DownEndpointCount"; B "DB.Sales.Cassandra.SalesCluster.node1.DownEndpointCount"]);
  (B "DB.*{BalanceCluster,BalanceStaging,Billing,UpProduction,UpTesting,WebCluster}.*.DownEndpointCount", false, B "DB.*{BalanceCluster,BalanceStaging,Billing,UpProduction,UpTesting,WebCluster}.*.DownEndpointCount", (29)%Z, (-1)%Z, B "DB.", B ".DownEndpointCount", [B "DB.Cassandra.UpProduction.node1.DownEndpointCount"; B "DB..Cassandra.UpProduction.node1.DownEndpointCount"; B "DB..Cassandra.UpProduction..DownEndpointCount"; B "DB.a.Cassandra.UpProduction.node1.DownEndpointCount"; B "DB.a.Cassandra.UpProduction.b.DownEndpointCount"; B "DB.Sales.Cassandra.UpProduction.node1.DownEndpointCount"; B "DB.Sales.Cassandra.UpProduction.node1.NODE2.DownEndpointCount"], [B "Web.App.UpProduction.DownEndpointCount"; B "Web.a.Cassandra.UpProduction.node1.DownEndpointCount"; B "DB.a.Cassandra.UpProduction.node1.DownEndpointCount2"; B "DB.Cassandra.UpProduction.DownEndpointCount"; B "DB.Sales.Cassandra.SalesCluster.node1.DownEndpointCount"]);
  (B "{ac", true, [], 0%Z, 0%Z, [], [], [], []);
  (B "a}c", true, [], 0%Z, 0%Z, [], [], [], []);
  (B "{b*,a?cd*,cda-z]}bc*c*e", true, [], 0%Z, 0%Z, [], [], [], []);
  (B "{}a", false, B "a", (1)%Z, (1)%Z, B "", B "", [B "a"], [B ""; B "b"; B "ab"])
].

Definition check (c : str * bool * str * Z * Z * str * str * list str * list str) : bool :=
  let '(text, err, node, mn, mx, pre, suf, ma, mi) := c in
  match glob_parse text with
  | Ok g => negb err && str_eqb (g_node g) node && (g_min g =? mn)%Z && (g_max g =? mx)%Z
            && str_eqb (g_prefix g) pre && str_eqb (g_suffix g) suf
            && forallb (fun s => is_ok true (glob_match g s)) ma
            && forallb (fun s => is_ok false (glob_match g s)) mi
  | Err _ => err
  | _ => false
  end.

Definition failed := filter (fun c => negb (check c)) cases.
Example conf_glob : failed = [].
Proof. vm_compute. reflexivity. Qed.
