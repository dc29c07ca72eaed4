(** What a symbol of a byte string is.  A Go string is read symbol by symbol as [for range] does:
    a well-formed UTF-8 sequence is one symbol, any other byte is a symbol of its own. *)
From Verif Require Import Model.Utf8.

Fixpoint symbols_from (fuel : nat) (s : str) : list str :=
  match fuel with
  | O => []
  | S f =>
      match s with
      | [] => []
      | _ => firstn (snd (decode_rune s)) s :: symbols_from f (skipn (snd (decode_rune s)) s)
      end
  end.
(** The symbols of a string, in order. *)
Definition symbols (s : str) : list str := symbols_from (length s) s.

(** A Unicode scalar value other than the replacement character U+FFFD, which Go also uses to
    report malformed input. *)
Definition scalar (r : rune) : Prop := valid_rune r = true /\ r <> RuneError.

(** Well-formed UTF-8 text without U+FFFD. *)
Definition clean (s : str) : Prop := exists rs, Forall scalar rs /\ s = encode_all rs.
