(** Vocabulary for the memoised sums; independent of the model. *)
From Verif Require Import Lib RingSpec PrimesSpec DirSpec LohiModel LohiSpec.
From Coq Require Import Arith Lia.
Open Scope nat_scope.

Section Spec.
  Context {T TBL : Type}.
  (** a table that works as a map on the keys D: [Ok tb m] says that tb holds the map m *)
  Definition map_on (D : nat -> Prop) (find : TBL -> nat -> option (option T)) (put : TBL -> nat -> T -> option TBL) (Ok : TBL -> (nat -> option T) -> Prop) : Prop :=
    forall tb m k, Ok tb m -> D k -> find tb k = Some (m k) /\ forall v, exists tb', put tb k v = Some tb' /\ Ok tb' (fun j => if k =? j then Some v else m j).
  (** keys closed under division *)
  Definition quotient_keys (D : nat -> Prop) : Prop := forall n k, D n -> 1 <= k <= n -> D (n / k).
  (** every value the map has is the one of M *)
  Definition agrees (D : nat -> Prop) (M : nat -> T) (m : nat -> option T) : Prop := forall k v, D k -> m k = Some v -> v = M k.
  (** m' has everything m has *)
  Definition keeps (D : nat -> Prop) (m m' : nat -> option T) : Prop := forall k v, D k -> m k = Some v -> m' k = Some v.
End Spec.
Section Mertens.
  Context {T : Type} (zero one : T) (add : T -> T -> T) (opp : T -> T).
  (** sum of the Moebius function over all, the odd, the even numbers from 1 to n *)
  Definition Mertens (n : nat) : T := summatory zero add (fun k => zring zero one add opp (mobius k)) n.
  Definition MertensOdd (n : nat) : T := summatory zero add (fun k => if Nat.odd k then zring zero one add opp (mobius k) else zero) n.
  Definition MertensEven (n : nat) : T := summatory zero add (fun k => if Nat.even k then zring zero one add opp (mobius k) else zero) n.
  (** sum of Euler's phi from 1 to n *)
  Definition sum_totient (n : nat) : T := summatory zero add (fun k => rnat zero one add (totient k)) n.
End Mertens.

(** the sum of f(k m) over the k from 1 to n that have no common factor with P *)
Definition coprime_total {T} (zero : T) (add : T -> T -> T) (f : nat -> T) (P n m : nat) : T :=
  rsum zero add n (fun k => if Nat.gcd P (S k) =? 1 then f (S k * m) else zero).
(** a sqrt_map that holds the map m: what count and el show of it *)
Definition sqrt_map_holds {T} (ml mk : nat) (s : @sqm T) (m : nat -> option T) : Prop :=
  sml s = ml /\ smk s = mk /\ 0 < ml /\ forall k, sqrt_key ml mk k -> sqm_count s k = Some (size1 (m k)) /\ sqm_el s k <> None /\ forall v, m k = Some v -> sqm_el s k = Some v.
(** a std::map that holds the map m *)
Definition map_holds {T} (s m : nat -> option T) : Prop := forall k, s k = m k.
