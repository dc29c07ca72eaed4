(** Conformance with gtags/items_test.go (TestTaggedItemFindOrAppend, TestFindTaggedItem) and
    gtags/tagged_term_test.go (TestPathTags).  Tests of the model, not proofs. *)
From Verif Require Import Model.GTags Conf.Base.

(** find: the keys of the items, and the position for each key asked for (start 0) *)
Example find_conf :
  map (fun '(keys, asked) => map (fun k => find_key keys k 0) asked)
  [([], [B ""; B "a"]); ([B "b"], [B ""; B "a"; B "b"]); ([B "a"; B "b"], [B ""; B "a"; B "b"; B "c"]);
   ([B "a"; B "b"; B "ba"], [B ""; B "a"; B "b"; B "ba"; B "c"]);
   ([B "__name__"; B "b"; B "ba"], [B ""; B "__name__"; B "a"; B "b"; B "ba"; B "c"]);
   ([B "__name__"; B "__a__"; B "a"; B "aZ"; B "b"; B "ba"; B "c"; B "z"], [B ""; B "__name__"; B "__a__"; B "a"; B "b"; B "ba"; B "c"; B "z"; B "za"; B "Z"])]
  = map (map (fun z => Ok (if (z <? 0)%Z then None else Some z)))
    [[-1; -1]; [-1; -1; 0]; [-1; 0; 1; -1]; [-1; 0; 1; 2; -1]; [-1; 0; -1; 1; 2; -1]; [-1; 0; 1; 2; 4; 5; 6; 7; -1; -1]]%Z.
Proof. vm_compute. reflexivity. Qed.

(** findOrAppend: the keys asked for in turn, the final keys *)
Definition slot (k : str) : tslot := TSlot k [] [].
Example find_or_append_conf :
  map (fun '(keys, asked) => map ts_key (fold_left (fun slots k => snd (find_or_append slots k)) asked (map slot keys)))
  [([], [B "a"]); ([B "b"], [B "b"]);
   ([], [B "aZ"; B "a"; B "a"; B "ba"; B "c"; B "b"; B "z"; B "__name__"; B "__b__"; B "__a__"])]
  = [[B "a"]; [B "b"]; [B "__name__"; B "__a__"; B "__b__"; B "a"; B "aZ"; B "b"; B "ba"; B "c"; B "z"]].
Proof. vm_compute. reflexivity. Qed.
(** the returned position is that of the key *)
Example find_or_append_pos :
  forallb (fun '(keys, k) => let '(p, slots) := find_or_append (map slot keys) k in str_eqb (ts_key (nth p slots slot0)) k)
  [([], B "a"); ([B "b"], B "b"); ([B "aZ"], B "a"); ([B "a"; B "aZ"], B "a"); ([B "a"; B "aZ"], B "ba"); ([B "a"; B "aZ"; B "ba"; B "c"], B "b");
   ([B "a"; B "aZ"; B "b"; B "ba"; B "c"; B "z"], B "__name__"); ([B "__name__"; B "a"; B "aZ"; B "b"; B "ba"; B "c"; B "z"], B "__b__");
   ([B "__name__"; B "__b__"; B "a"; B "aZ"; B "b"; B "ba"; B "c"; B "z"], B "__a__")] = true.
Proof. vm_compute. reflexivity. Qed.

Definition tags : list tag := [
  (B "__name__", B "kube_pod_status_phase"); (B "app_kubernetes_io_component", B "metrics"); (B "app_kubernetes_io_name", B "kube-state-metrics");
  (B "app_kubernetes_io_part_of", B "kube-state-metrics"); (B "app_kubernetes_io_version", B "2.7.0"); (B "helm_sh_chart", B "kube-state-metrics-4.24.0");
  (B "instance", B "192.168.0.85:8080"); (B "job", B "kubernetes-service-endpoints")].
Definition path : str :=
  B "kube_pod_status_phase?app_kubernetes_io_component=metrics&app_kubernetes_io_name=kube-state-metrics&app_kubernetes_io_part_of=kube-state-metrics&app_kubernetes_io_version=2.7.0&helm_sh_chart=kube-state-metrics-4.24.0&instance=192.168.0.85%3A8080&job=kubernetes-service-endpoints".
Definition graphite : str := map (fun c => if Ascii.eqb c "?" || Ascii.eqb c "&" then ";"%char else c) path.
Example path_tags_conf :
  path_tags path = (tags, None) /\ path_tags_map path = (tags_map tags, None) /\ path_tags_map_b path (Some [(B "old", B "1")]) = Ok (tags_map tags, None) /\
  graphite_path_tags graphite = (tags, None) /\ graphite_path_tags_map_b graphite (Some []) = Ok (tags_map tags, None).
Proof. repeat split; vm_compute; reflexivity. Qed.
