(** What the expansion of a text is. *)
From Coq Require Export Sorted ZArith.
From Verif Require Export Model.Expand Spec.Symbols Spec.Class Spec.GlobSpec.

(** Texts without any of the special bytes "[]{}*?". *)
Definition plain (s : str) : Prop := Forall (fun c => ~ In c metas) s.

(** A text is read as a sequence of factors: verbatim text, or a choice (its source text and the
    values it may take, in order). *)
Inductive fac := Text (s : str) | Choice (raw : str) (vs : list str).

(** The values of a list body: the texts between the commas. *)
Fixpoint joined (vs : list str) : str :=
  match vs with [] => [] | [v] => v | v :: r => v ++ ","%char :: joined r end.
Definition list_values (body : str) (vs : list str) : Prop :=
  vs <> [] /\ joined vs = body /\ Forall (fun v => ~ In ","%char v) vs.

(** The values of a class body: its members, in increasing order. *)
Definition class_values (body : str) (vs : list str) : Prop :=
  exists rs, StronglySorted N.lt rs /\ (forall r, In r rs <-> in_class body r) /\ vs = map encode_rune rs.

(** [bracket u f]: the bracket pair with source text u is read as the factor f.  A class must be
    well-formed UTF-8, with increasing intervals, and contain neither NUL nor U+FFFD. *)
Inductive bracket : str -> fac -> Prop :=
| b_list body vs : plain body -> In ","%char body -> list_values body vs ->
    bracket (braced body) (Choice (braced body) vs)
| b_one body : plain body -> ~ In ","%char body -> bracket (braced body) (Text body)
| b_empty : bracket (bracketed []) (Text [])
| b_byte c : ~ In c metas -> bracket (bracketed [c]) (Text [c])
| b_class body vs : plain body -> (2 <= length body)%nat -> good_class body ->
    ~ in_class body 0%N -> ~ in_class body RuneError -> class_values body vs -> vs <> [] ->
    bracket (bracketed body) (Choice (bracketed body) vs)
| b_void body : plain body -> (2 <= length body)%nat -> good_class body -> class_values body [] ->
    bracket (bracketed body) (Text []).

(** A pair of brackets around plain text opens at the head of w. *)
Definition opens (w : str) : Prop :=
  exists body rest, plain body /\ (w = braced body ++ rest \/ w = bracketed body ++ rest).
Definition stops (w : str) : Prop := (forall c t, w = c :: t -> In c metas) /\ ~ opens w.

(** [factors s fs]: s is read as fs.  From the first special byte that does not open such a pair
    ('*', '?', a closing, an unclosed or a nested bracket) on, the text is verbatim. *)
Inductive factors : str -> list fac -> Prop :=
| f_rest p w : plain p -> stops w -> factors (p ++ w) [Text (p ++ w)]
| f_pair p u f s fs : plain p -> bracket u f -> factors s fs -> factors (p ++ u ++ s) (Text p :: f :: fs).

(** The concatenations of one element of each list, the leftmost varying slowest. *)
Fixpoint product (vss : list (list str)) : list str :=
  match vss with
  | [] => [[]]
  | vs :: r => flat_map (fun v => map (app v) (product r)) vs
  end.

(** The number of dots in a text. *)
Definition dots (s : str) : Z := Z.of_nat (length (filter (Ascii.eqb ".") s)).

(** What each factor contributes when at most max results are wanted (no limit if max < 0) and only
    choices in the first depth dot-separated parts are expanded (all if depth <= 0).  [n] is the
    number of results so far and [d] the number of dots passed.  A choice that does not fit, and
    everything after it, is copied. *)
Fixpoint chosen (max depth n d : Z) (go : bool) (fs : list fac) : list (list str) :=
  match fs with
  | [] => []
  | Text t :: r => [t] :: chosen max depth n (d + dots t)%Z go r
  | Choice raw vs :: r =>
      let k := Z.of_nat (length vs) in
      let fits := ((max <? 0)%Z || (n * k <=? max)%Z) && ((depth <=? 0)%Z || (d <? depth)%Z) in
      if go && negb (max =? 0)%Z && fits then vs :: chosen max depth (n * k)%Z d true r
      else [raw] :: chosen max depth n d false r
  end.

(** The expansion of a text read as fs. *)
Definition expansion (max depth : Z) (fs : list fac) : list str :=
  product (chosen max depth 1 0 true fs).

(** All values, and the source text. *)
Definition values (f : fac) : list str := match f with Text t => [t] | Choice _ vs => vs end.
Definition raw (f : fac) : str := match f with Text t => t | Choice r _ => r end.
Definition size (fs : list fac) : Z := fold_right (fun f n => (Z.of_nat (length (values f)) * n)%Z) 1%Z fs.

(** Nothing is left of the text: it is made of empty brackets only. *)
Definition void (s : str) (fs : list fac) : Prop := s <> [] /\ concat (map raw fs) = [].

(** The limit and the numbers of values stay within 64 bits. *)
Definition fits64 (max : Z) (fs : list fac) : Prop :=
  (max < 2 ^ 63)%Z /\ forall r vs, In (Choice r vs) fs -> (max * Z.of_nat (length vs) < 2 ^ 63)%Z.

(** The text is read as fs and its expansion is computed: something is left of the text, and the
    number of all combinations is one for which memory can be reserved. *)
Definition expandable (s : str) (fs : list fac) (max : Z) : Prop :=
  factors s fs /\ ~ void s fs /\ (size fs <= 2 ^ 44)%Z /\ fits64 max fs.

(** The same reading as [factors], for texts where every bracket pair that is read is a choice. *)
Inductive all_choices : str -> list fac -> Prop :=
| ac_rest p w : plain p -> stops w -> all_choices (p ++ w) [Text (p ++ w)]
| ac_pair p u r vs s fs : plain p -> bracket u (Choice r vs) -> all_choices s fs ->
    all_choices (p ++ u ++ s) (Text p :: Choice r vs :: fs).
