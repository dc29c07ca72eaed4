(** Trees of tag queries: the keys at each level, and the condition that stands for another. *)
From Coq Require Import List.
From Verif Require Import Model.GTags Spec.TagSpec Spec.RegistrySpec Spec.TagTreeSpec.
Import ListNotations.

(** The items below a TaggedItems. *)
Definition slot_items (s : tslot) : list titem := match s with TSlot _ nm m => nm ++ m end.
(** j is the item i or an item somewhere below it. *)
Inductive within : titem -> titem -> Prop :=
| in_here i : within i i
| in_below i s c j : In s (ti_slots i) -> In c (slot_items s) -> within c j -> within i j.
(** The keys that an item branches on, in order. *)
Definition level (i : titem) : list str := map ts_key (ti_slots i).

(** A query with a condition on the metric's name. *)
Definition named (ts : list tterm) : Prop := exists t, In t ts /\ tt_key t = B "__name__".
(** A query with at most one condition on the metric's name. *)
Definition once_named (ts : list tterm) : Prop := forall a t b u, ts = a ++ t :: b -> In u b -> ~ (tt_key t = B "__name__" /\ tt_key u = B "__name__").
(** Every accepted query with conditions has one on the name, or the first of them has none. *)
Definition names_late (rx : regexps) (E : list entry) : Prop :=
  (forall e ts, In e E -> parse_series rx (e_text e) = Ok ts -> ts <> [] -> named ts) \/
  (exists E1 e E2 ts, E = E1 ++ e :: E2 /\ parse_series rx (e_text e) = Ok ts /\ ts <> [] /\ ~ named ts /\ forall e', In e' E1 -> parse_series rx (e_text e') = Ok []).

(** The first k + 1 conditions of ts and of ts' are written alike. *)
Definition starts_like (k : nat) (ts ts' : list tterm) : Prop := map condition (firstn (S k) ts) = map condition (firstn (S k) ts').
(** u stands for condition k of ts: it is condition k of the first accepted query that starts like ts up to there. *)
Definition term_stands_for (rx : regexps) (E : list entry) (ts : list tterm) (k : nat) (u : tterm) : Prop :=
  exists E1 e E2 us, E = E1 ++ e :: E2 /\ parse_series rx (e_text e) = Ok us /\ starts_like k ts us /\ nth_error us k = Some u /\
    forall e' vs, In e' E1 -> parse_series rx (e_text e') = Ok vs -> ~ starts_like k ts vs.
(** Every condition of the query is met by the one that stands for it. *)
Definition all_met (rx : regexps) (E : list entry) (ts : list tterm) (tags : list tag) : Prop :=
  forall k t, nth_error ts k = Some t -> exists u, term_stands_for rx E ts k u /\ holds rx u tags.
