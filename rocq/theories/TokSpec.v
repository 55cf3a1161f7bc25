(** Texts made of words, blanks and separators. *)
From Coq Require Import List.
Import ListNotations.

Section Spec.
  Variable A : Type.
  Variables space delim : A -> bool.
  Definition every (p : A -> bool) (l : list A) : Prop := forall c, In c l -> p c = true.
  (** blanks before a word, and the word, which has no delimiter and does not begin with a blank *)
  Definition field (f : list A * list A) : Prop :=
    every space (fst f) /\ every (fun c => negb (delim c)) (snd f) /\ (forall c r, snd f = c :: r -> space c = false).
  (** a separator and the field after it, which is not empty *)
  Definition sep_field (f : list A * (list A * list A)) : Prop :=
    fst f <> [] /\ every delim (fst f) /\ field (snd f) /\ fst (snd f) ++ snd (snd f) <> [].
  (** the text of a first field, the separated fields after it, and a separator or nothing at the end *)
  Definition text (f0 : list A * list A) (fs : list (list A * (list A * list A))) (tail : list A) : list A :=
    fst f0 ++ snd f0 ++ concat (map (fun f => fst f ++ fst (snd f) ++ snd (snd f)) fs) ++ tail.
  Definition words (f0 : list A * list A) (fs : list (list A * (list A * list A))) : list (list A) := snd f0 :: map (fun f => snd (snd f)) fs.
End Spec.
