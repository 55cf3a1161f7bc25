(** include/altruct/io/stream_tokenizer.h: the operators >> of token<P> and of tokens<token<P>, token<D>>.
    The stream is the list of the characters still to be read together with whether it is good; characters are of
    any type, with any predicate for white space.  Not modelled: the skipws flag (104-106), which only changes how
    other types are read, tokens of integers, and unbox_tokens. *)
From Verif Require Import Lib.

Section Tok.
  Variable A : Type.
  Variable space : A -> bool.

  (** 85: is >> std::ws *)
  Fixpoint skip_ws (l : list A) : list A :=
    match l with [] => [] | c :: r => if space c then skip_ws r else l end.
  (** 86-93: the loop; the token, the rest, and whether the stream is still good: get fails at the end *)
  Fixpoint get_while (P : A -> bool) (l : list A) : list A * list A * bool :=
    match l with
    | [] => ([], [], false)
    | c :: r => if P c then let '(s, rest, ok) := get_while P r in (c :: s, rest, ok) else ([], l, true)
    end.
  (** 81-95: is >> t, for a good stream *)
  Definition read_token (P : A -> bool) (l : list A) : list A * list A * bool := get_while P (skip_ws l).
  (** 101-107: the loop, with a bound on the number of rounds; reading d from a stream that is not good does nothing *)
  Fixpoint tokens_loop (fuel : nat) (P D : A -> bool) (l : list A) (v : list (list A)) : option (list (list A)) :=
    match fuel with
    | O => None
    | S fuel =>
      let '(t, rest, ok) := read_token P l in
      let v := v ++ [t] in
      if ok then
        let '(_, rest, ok) := read_token D rest in
        if ok then tokens_loop fuel P D rest v else Some v
      else Some v
    end.
  (** 97-109: is >> ts, for a good stream *)
  Definition read_tokens (fuel : nat) (P D : A -> bool) (l : list A) : option (list (list A)) := tokens_loop fuel P D l [].
End Tok.
