(** The text of a query seriesByTag('key=value', ...), and what is read from it. *)
From Verif Require Import Model.GTags Spec.Symbols Spec.TagSpec.

(** Quotes around a condition. *)
Definition quote (c : ascii) : Prop := c = "'"%char \/ c = """"%char.
(** Quoted texts with commas and spaces anywhere between them; empty quotes are ignored. *)
Inductive quoted_args : str -> list str -> Prop :=
| qa_end : quoted_args [] []
| qa_sep c t l : c = " "%char \/ c = ","%char -> quoted_args t l -> quoted_args (c :: t) l
| qa_empty q t l : quote q -> quoted_args t l -> quoted_args (q :: q :: t) l
| qa_arg q a t l : quote q -> a <> [] -> ~ In q a -> quoted_args t l -> quoted_args (q :: a ++ q :: t) (a :: l).
Definition spaces (s : str) : Prop := forall c, In c s -> c = " "%char.
(** The query text q with the conditions l. *)
Definition query_text (q : str) (l : list str) : Prop :=
  exists a args b, spaces a /\ spaces b /\ q = a ++ B "seriesByTag(" ++ args ++ B ")" ++ b /\ quoted_args args l.

(** White space: the symbols Go's unicode.IsSpace accepts. *)
Definition white_runes : list rune :=
  [9; 10; 11; 12; 13; 32; 133; 160; 5760; 8192; 8193; 8194; 8195; 8196; 8197; 8198; 8199; 8200; 8201; 8202; 8232; 8233; 8239; 8287; 12288]%N.
Definition white (x : str) : Prop := exists r, In r white_runes /\ x = encode_rune r.
(** t is s without the white space around it. *)
Definition bare (s t : str) : Prop :=
  exists a b, symbols s = a ++ symbols t ++ b /\ Forall white a /\ Forall white b /\
    (forall x l, symbols t = x :: l -> ~ white x) /\ (forall x l, symbols t = l ++ [x] -> ~ white x).

Definition wild_byte (c : ascii) : Prop := In c (B "[]{}*?").
(** What is kept of the value v of a condition: the value, and the glob if there is one. *)
Definition keeps (rx : regexps) (op : tagop) (v : str) (kept : str) (gl : option glob) : Prop :=
  match op with
  | OpMatch | OpNotMatch => rx_ok rx v = true /\ kept = v /\ gl = None
  | OpEq | OpNe =>
      ((forall c, In c v -> ~ wild_byte c) /\ kept = v /\ gl = None) \/
      ((exists c, In c v /\ wild_byte c) /\ exists g, glob_parse v = Ok g /\ kept = g_node g /\
         ((g_items g = [] /\ gl = None) \/ (g_items g <> [] /\ gl = Some g)))
  end.
(** s is the text of the condition t: a key, an operator and a value, white space ignored; the key "name" stands for "__name__". *)
Definition reads (rx : regexps) (s : str) (t : tterm) : Prop :=
  exists key value k v, s = key ++ op_string (tt_op t) ++ value /\ key <> [] /\ (forall c, In c key -> ~ In c (B "=~!")) /\
    (tt_op t = OpEq \/ tt_op t = OpNe -> forall w, value <> "~"%char :: w) /\
    bare key k /\ bare value v /\
    ((k = B "name" /\ tt_key t = B "__name__") \/ (k <> B "name" /\ tt_key t = k)) /\
    keeps rx (tt_op t) v (tt_value t) (tt_glob t).

(** The order of conditions: __name__ first, then by key, operator (=, =~, !=, !=~) and value. *)
Definition op_rank (o : tagop) : nat := match o with OpEq => 1 | OpMatch => 2 | OpNe => 3 | OpNotMatch => 4 end.
Definition before (t u : tterm) : Prop :=
  key_lt (tt_key t) (tt_key u) \/
  (tt_key t = tt_key u /\ (op_rank (tt_op t) < op_rank (tt_op u) \/ (tt_op t = tt_op u /\ str_ltb (tt_value t) (tt_value u) = true))).
Definition in_order (ts : list tterm) : Prop := forall a t b u c, ts = a ++ t :: b ++ u :: c -> ~ before u t.
