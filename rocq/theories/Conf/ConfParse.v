(** Conformance of Parse with glob/glob_*_test.go: the whole expected Glob, items included, copied
    from the test tables (they compare with reflect.DeepEqual).  Tests of the model, not proofs. *)
From Verif Require Import Model.Glob Conf.Base.

(** items.NewRunesRanges and the StringList literals of the tables (FirstASCII given by its bytes) *)
Definition new_ranges (s : str) : item := match ranges_expand s with Some rs => IRanges rs | None => IStr [] end.
Definition new_list (vals : list str) (mn mx : Z) (first : str) (ascii : bool) : item :=
  IList (mkSList ascii (fst (make_ascii_set first)) vals mn mx).

(** text, expected glob; None when an error is expected *)
Definition cases : list (str * option glob) := [
  (B "?", Some (mkGlob (B "?") (B "?") (1)%Z (4)%Z (B "") (B "") [] [IAny 1]));
  (B "??", Some (mkGlob (B "??") (B "??") (2)%Z (8)%Z (B "") (B "") [] [IAny 2]));
  (B "???", Some (mkGlob (B "???") (B "???") (3)%Z (12)%Z (B "") (B "") [] [IAny 3]));
  (B "a?", Some (mkGlob (B "a?") (B "a?") (2)%Z (5)%Z (B "a") (B "") [] [IAny 1]));
  (B "a?c", Some (mkGlob (B "a?c") (B "a?c") (3)%Z (6)%Z (B "a") (B "c") [] [IAny 1]));
  (B "a?[c]?d", Some (mkGlob (B "a?[c]?d") (B "a?c?d") (5)%Z (11)%Z (B "a") (B "d") [] [IAny 1; IByte (byte_of 99); IAny 1]));
  (B "a*?c?d", Some (mkGlob (B "a*?c?d") (B "a*?c?d") (5)%Z (-1)%Z (B "a") (B "d") [] [IStar 1; IByte (byte_of 99); IAny 1]));
  (B "*a?", Some (mkGlob (B "*a?") (B "*a?") (2)%Z (-1)%Z (B "") (B "") [] [IStar 0; IByte (byte_of 97); IAny 1]));
  (B "{b*,a?cd*,cd[a-z]}bc*c*e", Some (mkGlob (B "{b*,a?cd*,cd[a-z]}bc*c*e") (B "{a?cd*,b*,cd[a-z]}bc*c*e") (5)%Z (-1)%Z (B "") (B "e") [] [IGroup [IChain [IByte (byte_of 97); IAny 1; IStr (B "cd"); IStar 0] (4)%Z (-1)%Z; IChain [IByte (byte_of 98); IStar 0] (1)%Z (-1)%Z; IChain [IStr (B "cd"); new_ranges (B "[a-z]")] (3)%Z (3)%Z] (1)%Z (-1)%Z; IStr (B "bc"); IStar 0; IByte (byte_of 99); IStar 0]));
  (B "?*{b*,a?cd*,cd[a-z]}bc*c*e", Some (mkGlob (B "?*{b*,a?cd*,cd[a-z]}bc*c*e") (B "*?{a?cd*,b*,cd[a-z]}bc*c*e") (6)%Z (-1)%Z (B "") (B "e") [] [IStar 1; IGroup [IChain [IByte (byte_of 97); IAny 1; IStr (B "cd"); IStar 0] (4)%Z (-1)%Z; IChain [IByte (byte_of 98); IStar 0] (1)%Z (-1)%Z; IChain [IStr (B "cd"); new_ranges (B "[a-z]")] (3)%Z (3)%Z] (1)%Z (-1)%Z; IStr (B "bc"); IStar 0; IByte (byte_of 99); IStar 0]));
  (B "?*{b*,a?cd*,cd[a-z]}bc*c*e", Some (mkGlob (B "?*{b*,a?cd*,cd[a-z]}bc*c*e") (B "*?{a?cd*,b*,cd[a-z]}bc*c*e") (6)%Z (-1)%Z (B "") (B "e") [] [IStar 1; IGroup [IChain [IByte (byte_of 97); IAny 1; IStr (B "cd"); IStar 0] (4)%Z (-1)%Z; IChain [IByte (byte_of 98); IStar 0] (1)%Z (-1)%Z; IChain [IStr (B "cd"); new_ranges (B "[a-z]")] (3)%Z (3)%Z] (1)%Z (-1)%Z; IStr (B "bc"); IStar 0; IByte (byte_of 99); IStar 0]));
  (bs [63;208;153;63]%N, Some (mkGlob (bs [63;208;153;63]%N) (bs [63;208;153;63]%N) (4)%Z (10)%Z (B "") (B "") [] [IAny 1; IRune 1049%N; IAny 1]));
  (bs [42;208;153;63]%N, Some (mkGlob (bs [42;208;153;63]%N) (bs [42;208;153;63]%N) (3)%Z (-1)%Z (B "") (B "") [] [IStar 0; IRune 1049%N; IAny 1]));
  (B "[a-c]", Some (mkGlob (B "[a-c]") (B "[a-c]") (1)%Z (1)%Z (B "") (B "") [] [new_ranges (B "[a-c]")]));
  (B "[a-c]z", Some (mkGlob (B "[a-c]z") (B "[a-c]z") (2)%Z (2)%Z (B "") (B "z") [] [new_ranges (B "[a-c]")]));
  (B "[a-c]*", Some (mkGlob (B "[a-c]*") (B "[a-c]*") (1)%Z (-1)%Z (B "") (B "") [] [new_ranges (B "[a-c]"); IStar 0]));
  (B "a*[b-e].b", Some (mkGlob (B "a*[b-e].b") (B "a*[b-e].b") (4)%Z (-1)%Z (B "a") (B ".b") [] [IStar 0; new_ranges (B "[b-e]")]));
  (B "[ac", None);
  (B "a]c", None);
  (B "[]a", Some (mkGlob (B "[]a") (B "a") (1)%Z (1)%Z (B "") (B "") [] []));
  (B "*", Some (mkGlob (B "*") (B "*") (0)%Z (-1)%Z (B "") (B "") [] [IStar 0]));
  (B "**", Some (mkGlob (B "**") (B "*") (0)%Z (-1)%Z (B "") (B "") [] [IStar 0]));
  (B "a******c", Some (mkGlob (B "a******c") (B "a*c") (2)%Z (-1)%Z (B "a") (B "c") [] [IStar 0]));
  (B "*", Some (mkGlob (B "*") (B "*") (0)%Z (-1)%Z (B "") (B "") [] [IStar 0]));
  (B "a*c", Some (mkGlob (B "a*c") (B "a*c") (2)%Z (-1)%Z (B "a") (B "c") [] [IStar 0]));
  (B "a*", Some (mkGlob (B "a*") (B "a*") (1)%Z (-1)%Z (B "a") (B "") [] [IStar 0]));
  (B "a*b?c", Some (mkGlob (B "a*b?c") (B "a*b?c") (4)%Z (-1)%Z (B "a") (B "c") [] [IStar 0; IByte (byte_of 98); IAny 1]));
  (B "a*?_FIND*_st", Some (mkGlob (B "a*?_FIND*_st") (B "a*?_FIND*_st") (10)%Z (-1)%Z (B "a") (B "_st") [] [IStar 1; IStr (B "_FIND"); IStar 0]));
  (B "a******?c", Some (mkGlob (B "a******?c") (B "a*?c") (3)%Z (-1)%Z (B "a") (B "c") [] [IStar 1]));
  (B "a?******c", Some (mkGlob (B "a?******c") (B "a*?c") (3)%Z (-1)%Z (B "a") (B "c") [] [IStar 1]));
  (B "a**?****c", Some (mkGlob (B "a**?****c") (B "a*?c") (3)%Z (-1)%Z (B "a") (B "c") [] [IStar 1]));
  (B "a?******?c", Some (mkGlob (B "a?******?c") (B "a*??c") (4)%Z (-1)%Z (B "a") (B "c") [] [IStar 2]));
  (B "a**??c", Some (mkGlob (B "a**??c") (B "a*??c") (4)%Z (-1)%Z (B "a") (B "c") [] [IStar 2]));
  (B "a*?*?*c", Some (mkGlob (B "a*?*?*c") (B "a*??c") (4)%Z (-1)%Z (B "a") (B "c") [] [IStar 2]));
  (B "a?*??c", Some (mkGlob (B "a?*??c") (B "a*???c") (5)%Z (-1)%Z (B "a") (B "c") [] [IStar 3]));
  (B "a??*?*c", Some (mkGlob (B "a??*?*c") (B "a*???c") (5)%Z (-1)%Z (B "a") (B "c") [] [IStar 3]));
  (B "a???**c", Some (mkGlob (B "a???**c") (B "a*???c") (5)%Z (-1)%Z (B "a") (B "c") [] [IStar 3]));
  (B "", Some (mkGlob (B "") (B "") (0)%Z (0)%Z (B "") (B "") [] []));
  (B "a", Some (mkGlob (B "a") (B "a") (1)%Z (1)%Z (B "") (B "") [] []));
  (B "a.bc", Some (mkGlob (B "a.bc") (B "a.bc") (4)%Z (4)%Z (B "") (B "") [] []));
  (B "[a-]", Some (mkGlob (B "[a-]") (B "a") (1)%Z (1)%Z (B "") (B "") [] []));
  (bs [91;208;153;45;93]%N, Some (mkGlob (bs [91;208;153;45;93]%N) (bs [208;153]%N) (2)%Z (2)%Z (B "") (B "") [] []));
  (B "{a}", Some (mkGlob (B "{a}") (B "a") (1)%Z (1)%Z (B "") (B "") [] []));
  (bs [123;208;153;125]%N, Some (mkGlob (bs [123;208;153;125]%N) (bs [208;153]%N) (2)%Z (2)%Z (B "") (B "") [] []));
  (B "{str}", Some (mkGlob (B "{str}") (B "str") (3)%Z (3)%Z (B "") (B "") [] []));
  (B "a[a-]Z", Some (mkGlob (B "a[a-]Z") (B "aaZ") (3)%Z (3)%Z (B "") (B "") [] []));
  (B "a[a-]Z[Q]", Some (mkGlob (B "a[a-]Z[Q]") (B "aaZQ") (4)%Z (4)%Z (B "") (B "") [] []));
  (B "a[a-]Z[Q]*", Some (mkGlob (B "a[a-]Z[Q]*") (B "aaZQ*") (4)%Z (-1)%Z (B "aaZQ") (B "") [] [IStar 0]));
  (B "a[a-]Z[Q]st{LT}*I{NN}*[z-][a]ST{lt}l", Some (mkGlob (B "a[a-]Z[Q]st{LT}*I{NN}*[z-][a]ST{lt}l") (B "aaZQstLT*INN*zaSTltl") (18)%Z (-1)%Z (B "aaZQstLT") (B "zaSTltl") [] [IStar 0; IStr (B "INN"); IStar 0]));
  (bs [97;91;97;45;93;90;91;81;93;115;116;123;76;84;125;42;208;166;123;78;78;125;42;91;122;45;93;91;97;93;83;84;123;108;116;125;108]%N, Some (mkGlob (bs [97;91;97;45;93;90;91;81;93;115;116;123;76;84;125;42;208;166;123;78;78;125;42;91;122;45;93;91;97;93;83;84;123;108;116;125;108]%N) (bs [97;97;90;81;115;116;76;84;42;208;166;78;78;42;122;97;83;84;108;116;108]%N) (19)%Z (-1)%Z (B "aaZQstLT") (B "zaSTltl") [] [IStar 0; IStr (bs [208;166;78;78]%N); IStar 0]));
  (bs [97;91;208;155;93;42;208;152;123;208;164;125;42;98;123;208;146;125;42;208;146;123;78;78;125;42;110;110;91;208;178;93;42;208;146;123;78;125;42;123;208;166;125;108]%N, Some (mkGlob (bs [97;91;208;155;93;42;208;152;123;208;164;125;42;98;123;208;146;125;42;208;146;123;78;78;125;42;110;110;91;208;178;93;42;208;146;123;78;125;42;123;208;166;125;108]%N) (bs [97;208;155;42;208;152;208;164;42;98;208;146;42;208;146;78;78;42;110;110;208;178;42;208;146;78;42;208;166;108]%N) (24)%Z (-1)%Z (bs [97;208;155]%N) (bs [208;166;108]%N) [] [IStar 0; IStr (bs [208;152;208;164]%N); IStar 0; IStr (bs [98;208;146]%N); IStar 0; IStr (bs [208;146;78;78]%N); IStar 0; IStr (bs [110;110;208;178]%N); IStar 0; IStr (bs [208;146;78]%N); IStar 0]));
  (B "a[a-]Z[Q]st{LT}*{NN}I*[z-][a]ST{lt}", Some (mkGlob (B "a[a-]Z[Q]st{LT}*{NN}I*[z-][a]ST{lt}") (B "aaZQstLT*NNI*zaSTlt") (17)%Z (-1)%Z (B "aaZQstLT") (B "zaSTlt") [] [IStar 0; IStr (B "NNI"); IStar 0]));
  (B "a[a-]Z[Q]*[a]c", Some (mkGlob (B "a[a-]Z[Q]*[a]c") (B "aaZQ*ac") (6)%Z (-1)%Z (B "aaZQ") (B "ac") [] [IStar 0]));
  (B "{Z,Q}", Some (mkGlob (B "{Z,Q}") (B "{Q,Z}") (1)%Z (1)%Z (B "") (B "") [] [new_list ([B "Q"; B "Z"]) (1)%Z (1)%Z (B "ZQ") true]));
  (B "{Z,Q,}", Some (mkGlob (B "{Z,Q,}") (B "{,Q,Z}") (0)%Z (1)%Z (B "") (B "") [] [new_list ([B "Q"; B "Z"]) (0)%Z (1)%Z (B "QZ") true]));
  (B "{a,bc}", Some (mkGlob (B "{a,bc}") (B "{a,bc}") (1)%Z (2)%Z (B "") (B "") [] [new_list ([B "a"; B "bc"]) (1)%Z (2)%Z (B "ab") true]));
  (B "*{a,bc}", Some (mkGlob (B "*{a,bc}") (B "*{a,bc}") (1)%Z (-1)%Z (B "") (B "") [] [IStar 0; new_list ([B "a"; B "bc"]) (1)%Z (2)%Z (B "ab") true]));
  (B "a{a,bc}{qa,q}c", Some (mkGlob (B "a{a,bc}{qa,q}c") (B "a{a,bc}{q,qa}c") (4)%Z (6)%Z (B "a") (B "c") [] [new_list ([B "a"; B "bc"]) (1)%Z (2)%Z (B "ab") true; new_list ([B "q"; B "qa"]) (1)%Z (2)%Z (B "q") true]));
  (B "a{a,bc}Z{qa,q}c", Some (mkGlob (B "a{a,bc}Z{qa,q}c") (B "a{a,bc}Z{q,qa}c") (5)%Z (7)%Z (B "a") (B "c") [] [new_list ([B "a"; B "bc"]) (1)%Z (2)%Z (B "ab") true; IByte (byte_of 90); new_list ([B "q"; B "qa"]) (1)%Z (2)%Z (B "q") true]));
  (B "a{,a,bc}Z{qa,q}c", Some (mkGlob (B "a{,a,bc}Z{qa,q}c") (B "a{,a,bc}Z{q,qa}c") (4)%Z (7)%Z (B "a") (B "c") [] [new_list ([B "a"; B "bc"]) (0)%Z (2)%Z (B "ab") true; IByte (byte_of 90); new_list ([B "q"; B "qa"]) (1)%Z (2)%Z (B "q") true]));
  (B "*.{bc,d}*.e", Some (mkGlob (B "*.{bc,d}*.e") (B "*.{bc,d}*.e") (4)%Z (-1)%Z (B "") (B ".e") [] [IStar 0; IByte (byte_of 46); new_list ([B "bc"; B "d"]) (1)%Z (2)%Z (B "bd") true; IStar 0]));
  (B "b{a,}", Some (mkGlob (B "b{a,}") (B "b{,a}") (1)%Z (2)%Z (B "b") (B "") [] [new_list ([B "a"]) (0)%Z (1)%Z (B "a") true]));
  (B "*{a,}", Some (mkGlob (B "*{a,}") (B "*{,a}") (0)%Z (-1)%Z (B "") (B "") [] [IStar 0; new_list ([B "a"]) (0)%Z (1)%Z (B "a") true]));
  (B "*{a,}{b,cd}", Some (mkGlob (B "*{a,}{b,cd}") (B "*{,a}{b,cd}") (1)%Z (-1)%Z (B "") (B "") [] [IStar 0; new_list ([B "a"]) (0)%Z (1)%Z (B "a") true; new_list ([B "b"; B "cd"]) (1)%Z (2)%Z (B "bc") true]));
  (B "b*{a,}", Some (mkGlob (B "b*{a,}") (B "b*{,a}") (1)%Z (-1)%Z (B "b") (B "") [] [IStar 0; new_list ([B "a"]) (0)%Z (1)%Z (B "a") true]));
  (B "b*{a,}*", Some (mkGlob (B "b*{a,}*") (B "b*{,a}*") (1)%Z (-1)%Z (B "b") (B "") [] [IStar 0; new_list ([B "a"]) (0)%Z (1)%Z (B "a") true; IStar 0]));
  (B "DB.*.Cassandra.{BalanceCluster,BalanceStaging,Billing,UpProduction,UpTesting,WebCluster}.*.DownEndpointCount", Some (mkGlob (B "DB.*.Cassandra.{BalanceCluster,BalanceStaging,Billing,UpProduction,UpTesting,WebCluster}.*.DownEndpointCount") (B "DB.*.Cassandra.{BalanceCluster,BalanceStaging,Billing,UpProduction,UpTesting,WebCluster}.*.DownEndpointCount") (40)%Z (-1)%Z (B "DB.") (B ".DownEndpointCount") [] [IStar 0; IStr (B ".Cassandra."); new_list ([B "BalanceCluster"; B "BalanceStaging"; B "Billing"; B "UpProduction"; B "UpTesting"; B "WebCluster"]) (7)%Z (14)%Z (B "BUW") true; IByte (byte_of 46); IStar 0]));
  (B "DB.*?.Cassandra.{BalanceCluster,BalanceStaging,Billing,UpProduction,UpTesting,WebCluster}.*?.DownEndpointCount", Some (mkGlob (B "DB.*?.Cassandra.{BalanceCluster,BalanceStaging,Billing,UpProduction,UpTesting,WebCluster}.*?.DownEndpointCount") (B "DB.*?.Cassandra.{BalanceCluster,BalanceStaging,Billing,UpProduction,UpTesting,WebCluster}.*?.DownEndpointCount") (42)%Z (-1)%Z (B "DB.") (B ".DownEndpointCount") [] [IStar 1; IStr (B ".Cassandra."); new_list ([B "BalanceCluster"; B "BalanceStaging"; B "Billing"; B "UpProduction"; B "UpTesting"; B "WebCluster"]) (7)%Z (14)%Z (B "BUW") true; IByte (byte_of 46); IStar 1]));
  (B "DB.*{BalanceCluster,BalanceStaging,Billing,UpProduction,UpTesting,WebCluster}.*.DownEndpointCount", Some (mkGlob (B "DB.*{BalanceCluster,BalanceStaging,Billing,UpProduction,UpTesting,WebCluster}.*.DownEndpointCount") (B "DB.*{BalanceCluster,BalanceStaging,Billing,UpProduction,UpTesting,WebCluster}.*.DownEndpointCount") (29)%Z (-1)%Z (B "DB.") (B ".DownEndpointCount") [] [IStar 0; new_list ([B "BalanceCluster"; B "BalanceStaging"; B "Billing"; B "UpProduction"; B "UpTesting"; B "WebCluster"]) (7)%Z (14)%Z (B "BUW") true; IByte (byte_of 46); IStar 0]));
  (B "{ac", None);
  (B "a}c", None);
  (B "{b*,a?cd*,cda-z]}bc*c*e", None);
  (B "{}a", Some (mkGlob (B "{}a") (B "a") (1)%Z (1)%Z (B "") (B "") [] []))
].

Definition parsed (text : str) : option glob := match glob_parse text with Ok g => Some g | _ => None end.
Example conf_parse : map (fun c => parsed (fst c)) cases = map snd cases.
Proof. vm_compute. reflexivity. Qed.
Example conf_parse_err : forallb (fun c => match snd c, glob_parse (fst c) with None, Err _ | Some _, Ok _ => true | _, _ => false end) cases = true.
Proof. vm_compute. reflexivity. Qed.
