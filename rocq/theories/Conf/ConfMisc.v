(** Conformance with expand/expand_test.go, expand/runes_test.go, pkg/escape/unescape_test.go.
    Tests of the model, not proofs. *)
From Verif Require Import Model.Expand Model.Escape Conf.Base.

(** text, max, depth, result *)
Definition expands : list (str * Z * Z * list str) := [
  (B "{b,c}", (-1)%Z, (0)%Z, [B "b"; B "c"]);
  (B "a{b,c}d", (-1)%Z, (0)%Z, [B "abd"; B "acd"]);
  (B "a{,b,c}d", (-1)%Z, (0)%Z, [B "ad"; B "abd"; B "acd"]);
  (B "a{b,,c}d", (-1)%Z, (0)%Z, [B "abd"; B "ad"; B "acd"]);
  (B "a{b,c,}d", (-1)%Z, (0)%Z, [B "abd"; B "acd"; B "ad"]);
  (B "a{b,}d", (-1)%Z, (0)%Z, [B "abd"; B "ad"]);
  (B "a{b}d", (-1)%Z, (0)%Z, [B "abd"]);
  (B "a{b,c,}d", (-1)%Z, (0)%Z, [B "abd"; B "acd"; B "ad"]);
  (B "[2-4]", (-1)%Z, (0)%Z, [B "2"; B "3"; B "4"]);
  (B "[24]", (-1)%Z, (0)%Z, [B "2"; B "4"]);
  (B "[243]", (-1)%Z, (0)%Z, [B "2"; B "3"; B "4"]);
  (B "1[b-e]2[a-c]3", (-1)%Z, (0)%Z, [B "1b2a3"; B "1b2b3"; B "1b2c3"; B "1c2a3"; B "1c2b3"; B "1c2c3"; B "1d2a3"; B "1d2b3"; B "1d2c3"; B "1e2a3"; B "1e2b3"; B "1e2c3"]);
  (B "as{12,32}[a-c]{2}", (-1)%Z, (0)%Z, [B "as12a2"; B "as12b2"; B "as12c2"; B "as32a2"; B "as32b2"; B "as32c2"]);
  (B "as{12,32}[a-c]{2}", (1)%Z, (0)%Z, [B "as{12,32}[a-c]2"]);
  (B "as{12,32}[a-c]{2}", (2)%Z, (0)%Z, [B "as12[a-c]2"; B "as32[a-c]2"]);
  (B "as{12,32}[a-c]{2}", (5)%Z, (0)%Z, [B "as12[a-c]2"; B "as32[a-c]2"]);
  (B "as{12,32}[a-c]{2}", (6)%Z, (0)%Z, [B "as12a2"; B "as12b2"; B "as12c2"; B "as32a2"; B "as32b2"; B "as32c2"]);
  (B "as{12,32}.[a-c].{2}", (-1)%Z, (1)%Z, [B "as12.[a-c].2"; B "as32.[a-c].2"]);
  (B "as{12,32}{2}.[a-c]", (-1)%Z, (1)%Z, [B "as122.[a-c]"; B "as322.[a-c]"]);
  (B "as{12,32}.2[a-c]", (-1)%Z, (1)%Z, [B "as12.2[a-c]"; B "as32.2[a-c]"]);
  (B "as{12,32}[a-c]{2}", (-1)%Z, (2)%Z, [B "as12a2"; B "as12b2"; B "as12c2"; B "as32a2"; B "as32b2"; B "as32c2"]);
  (B "as{12,32}.{2}[a-c]", (-1)%Z, (2)%Z, [B "as12.2a"; B "as12.2b"; B "as12.2c"; B "as32.2a"; B "as32.2b"; B "as32.2c"]);
  (B "as{12,32}.[a-c].{2,a}", (-1)%Z, (2)%Z, [B "as12.a.{2,a}"; B "as12.b.{2,a}"; B "as12.c.{2,a}"; B "as32.a.{2,a}"; B "as32.b.{2,a}"; B "as32.c.{2,a}"]);
  (B "as{12,32}.[a-c].{2,a}", (-1)%Z, (3)%Z, [B "as12.a.2"; B "as12.a.a"; B "as12.b.2"; B "as12.b.a"; B "as12.c.2"; B "as12.c.a"; B "as32.a.2"; B "as32.a.a"; B "as32.b.2"; B "as32.b.a"; B "as32.c.2"; B "as32.c.a"]);
  (B "a{b,c}*d", (-1)%Z, (0)%Z, [B "ab*d"; B "ac*d"]);
  (B "a*{b,c}d", (-1)%Z, (0)%Z, [B "a*{b,c}d"]);
  (B "a?{b,c}d", (-1)%Z, (0)%Z, [B "a?{b,c}d"]);
  (B "a{*b,c}d", (-1)%Z, (0)%Z, [B "a{*b,c}d"])
].

Example conf_expand :
  filter (fun '(t, m, d, want) => match expand t m d with Ok r => negb (slice_equal str_eqb r want) | _ => true end)
         expands = [].
Proof. vm_compute. reflexivity. Qed.

(** class body and its ranges; [None] when it is rejected *)
Definition classes : list (str * option (list (N * N))) := [
  (B "a-c", Some [(97, 99)%N]);
  (B "a-cf", Some [(97, 99)%N; (102, 102)%N]);
  (B "za-c", Some [(97, 99)%N; (122, 122)%N]);
  (B "Za-c", Some [(90, 90)%N; (97, 99)%N]);
  (B "a-czA-C", Some [(65, 67)%N; (97, 99)%N; (122, 122)%N]);
  (B "a-czqj-mA-C", Some [(65, 67)%N; (97, 99)%N; (106, 109)%N; (113, 113)%N; (122, 122)%N]);
  (bs [231;149;140;208;173;45;208;175;87;45;90]%N, Some [(87, 90)%N; (1069, 1071)%N; (30028, 30028)%N]);
  (B "-q", Some [(113, 113)%N]);
  (B "a-", Some [(97, 97)%N]);
  (B "-a-c", Some [(97, 99)%N]);
  (B "a-cb-ld-fa-c", Some [(97, 108)%N]);
  (B "1-32-45-76-78-95789", Some [(49, 57)%N]);
  (bs [208;176;45;208;185;208;178;45;209;131;49;45;57;98;45;100;208;144;45;208;148;208;158;45;208;159;228;189;160;229;165;189;228;184;150]%N, Some [(49, 57)%N; (98, 100)%N; (1040, 1044)%N; (1054, 1055)%N; (1072, 1091)%N; (19990, 19990)%N; (20320, 20320)%N; (22909, 22909)%N]);
  (B "z-a", None)
].

Fixpoint same_ranges (rs : list runes) (l : list (N * N)) : bool :=
  match rs, l with
  | [], [] => true
  | r :: rs', (a, b) :: l' => N.eqb (r_start r) a && N.eqb (r_stop r) b
      && match r_pos r with Some x => N.eqb x a | None => false end && same_ranges rs' l'
  | _, _ => false
  end.
Definition check_class (c : str * option (list (N * N))) : bool :=
  match ex_runes_expand (fst c), snd c with
  | None, None => true
  | Some rs, Some l => same_ranges rs l
  | _, _ => false
  end.
Example conf_classes : filter (fun c => negb (check_class c)) classes = [].
Proof. vm_compute. reflexivity. Qed.

Definition unescapes : list (str * str) := [(B "", B ""); (B "abc", B "abc"); (B "1%41", B "1A"); (B "1%41%42%43", B "1ABC"); (B "%4a", B "J"); (B "%6F", B "o"); (B "%", B "%"); (B "%a", B "%a"); (B "%1", B "%1"); (B "123%45%6", B "123E%6"); (B "%zzzzz", B "%zzzzz"); (B "a+b", B "a b"); (B "a+%3D+b", B "a = b")].
Definition escapes : list (str * str) := [(B "", B ""); (B "abc", B "abc"); (B "%", B "%25"); (B "%a", B "%25a"); (B "a+b", B "a%2Bb"); (B "a b", B "a+b"); (B "a = b", B "a+%3D+b")].
Example conf_unescape :
  filter (fun '(s, w) => negb (str_eqb (unescape s) w && str_eqb (snd (unescape_to s (B "xy"))) w
                               && str_eqb (snd (unescape_name_to s (B "xy"))) (B "__name__=" ++ w))) unescapes = [].
Proof. vm_compute. reflexivity. Qed.
Example conf_escape :
  filter (fun '(s, w) => negb (str_eqb (query s) w && str_eqb (unescape w) s)) escapes = [].
Proof. vm_compute. reflexivity. Qed.
