(** C166: reading the tokens of a text from a stream. *)
From Coq Require Import List Bool Lia Ascii String.
From Verif Require Import Lib TokModel TokSpec TokProofs.
Import ListNotations.

(** Tokens that are separated by exactly the characters not allowed in them:
    the loop ends on every text, with at least one token, and no token has a delimiter. *)
Theorem C166_total : forall A (space delim : A -> bool) l,
  exists r, read_tokens A space (S (List.length l)) (fun c => negb (delim c)) delim l = Some r /\ r <> [] /\
    forall t c, In t r -> In c t -> delim c = false.
Proof.
  intros A space delim l. destruct (total A space delim (S (List.length l)) l []) as (r & E & N & H); [lia|]. exists r. split; [exact E|]. split; [exact N|]. intros t c Ht Hc. specialize (H t Ht c Hc). now apply negb_true_iff in H.
Qed.
(** When no delimiter is a blank, the tokens are the words of the text, without the
    blanks before each word; several delimiters in a row separate once, a delimiter
    at the beginning gives an empty first word and one at the end gives nothing. *)
Theorem C166_fields : forall A (space delim : A -> bool) f0 fs tail, (forall c, delim c = true -> space c = false) ->
  field A space delim f0 -> (forall f, In f fs -> sep_field A space delim f) -> every A delim tail ->
  forall fuel, List.length fs < fuel ->
  read_tokens A space fuel (fun c => negb (delim c)) delim (text A f0 fs tail) = Some (words A f0 fs).
Proof. intros A space delim f0 fs tail Hs H0 Hf Ht fuel Hl. exact (fields_ok A space delim Hs fs f0 tail fuel [] H0 Hf Ht Hl). Qed.
(** When the delimiters are the blanks, the tokens are the words between them, whatever
    the blanks at both ends. *)
Theorem C166_blanks : forall A (space : A -> bool) b w ws tail,
  every A space b -> w <> [] -> every A (fun c => negb (space c)) w ->
  (forall x, In x ws -> fst x <> [] /\ every A space (fst x) /\ snd x <> [] /\ every A (fun c => negb (space c)) (snd x)) -> every A space tail ->
  forall fuel, List.length ws < fuel ->
  read_tokens A space fuel (fun c => negb (space c)) space (b ++ w ++ concat (map (fun x => fst x ++ snd x) ws) ++ tail) = Some (w :: map snd ws).
Proof. intros A space b w ws tail Hb Nw Hw Hws Ht fuel Hl. exact (blanks_ok A space space (fun c => eq_refl) ws b w tail fuel [] Hb Nw Hw Hws Ht Hl). Qed.
(** For other pairs of token types the loop need not end: a character that is neither
    in a token nor a delimiter is never consumed. *)
Theorem C166_termination_refuted : exists A (space P D : A -> bool) l, forall fuel, read_tokens A space fuel P D l = None.
Proof.
  exists ascii, (fun c => Ascii.eqb c " "), (fun c => Ascii.eqb c "0" || Ascii.eqb c "1"), (fun c => Ascii.eqb c ","), (list_ascii_of_string "2,01"). intros fuel. unfold read_tokens. apply (stuck ascii); reflexivity.
Qed.

Local Open Scope string_scope.
Local Open Scope list_scope.
(** " a b,,c, ,d," separated by commas *)
Example C166_case :
  let space := fun c => Ascii.eqb c " " in let comma := fun c => Ascii.eqb c "," in let s := list_ascii_of_string in
  let f0 := (s " ", s "a b") in let fs := [(s ",,", (s "", s "c")); (s ",", (s " ", s "")); (s ",", (s "", s "d"))] in
  text ascii f0 fs (s ",") = s " a b,,c, ,d," /\ (forall c, comma c = true -> space c = false) /\
  field ascii space comma f0 /\ (forall f, In f fs -> sep_field ascii space comma f) /\ every ascii comma (s ",") /\
  read_tokens ascii space 4 (fun c => negb (comma c)) comma (s " a b,,c, ,d,") = Some [s "a b"; s "c"; s ""; s "d"].
Proof.
  cbv zeta. split; [reflexivity|]. split; [intros c E; apply Ascii.eqb_eq in E; subst; reflexivity|].
  split; [|split; [|split; [|reflexivity]]].
  - split; [|split]; cbn; [intros c [<-|[]]; reflexivity|intros c [<-|[<-|[<-|[]]]]; reflexivity|intros c r E; injection E as <- <-; reflexivity].
  - assert (EV : forall (p : ascii -> bool) l, forallb p l = true -> every ascii p l) by (intros p l E; exact (proj1 (forallb_forall p l) E)).
    intros f [<-|[<-|[<-|[]]]]; (split; [discriminate|]); (split; [apply EV; reflexivity|]); (split; [|discriminate]); (split; [apply EV; reflexivity|]); (split; [apply EV; reflexivity|]); intros c r E; cbn in E; inversion E; reflexivity.
  - cbn. intros c [<-|[]]. reflexivity.
Qed.
Print Assumptions C166_total.
Print Assumptions C166_fields.
Print Assumptions C166_blanks.
Print Assumptions C166_termination_refuted.
