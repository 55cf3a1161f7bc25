(** Model of structure/math/prime_holder.h and structure/math/factorial_holder.h. The references to the tables that the accessors
    return are only read: a caller writing through them is not modelled. Integers are unbounded. *)
From Verif Require Import Lib BaseModel PrimesModel DivisorsModel RangesModel HolderSpec.
Open Scope nat_scope.

(** prime_holder.h 13-26. The vector vp is its memory [h_buf] and its size [h_psz]: shrinking a vector of ints changes no memory *)
Record holder := { h_sz : nat; h_m : nat; h_buf : list nat; h_psz : nat; h_q : list bool; h_pf : list nat; h_pi : list nat; h_phi : list nat; h_mu : list Z; h_nu : list nat; h_mer : list Z }.
(** constructor: 32 *)
Definition holder_new (sz : nat) : holder := {| h_sz := sz; h_m := 0; h_buf := []; h_psz := 0; h_q := []; h_pf := []; h_pi := []; h_phi := []; h_mu := []; h_nu := []; h_mer := [] |}.
(** assignments to the members *)
Definition set_pq h m buf psz q := {| h_sz := h_sz h; h_m := m; h_buf := buf; h_psz := psz; h_q := q; h_pf := h_pf h; h_pi := h_pi h; h_phi := h_phi h; h_mu := h_mu h; h_nu := h_nu h; h_mer := h_mer h |}.
Definition set_pf h v := {| h_sz := h_sz h; h_m := h_m h; h_buf := h_buf h; h_psz := h_psz h; h_q := h_q h; h_pf := v; h_pi := h_pi h; h_phi := h_phi h; h_mu := h_mu h; h_nu := h_nu h; h_mer := h_mer h |}.
Definition set_pi h v := {| h_sz := h_sz h; h_m := h_m h; h_buf := h_buf h; h_psz := h_psz h; h_q := h_q h; h_pf := h_pf h; h_pi := v; h_phi := h_phi h; h_mu := h_mu h; h_nu := h_nu h; h_mer := h_mer h |}.
Definition set_phi h v := {| h_sz := h_sz h; h_m := h_m h; h_buf := h_buf h; h_psz := h_psz h; h_q := h_q h; h_pf := h_pf h; h_pi := h_pi h; h_phi := v; h_mu := h_mu h; h_nu := h_nu h; h_mer := h_mer h |}.
Definition set_mu h v := {| h_sz := h_sz h; h_m := h_m h; h_buf := h_buf h; h_psz := h_psz h; h_q := h_q h; h_pf := h_pf h; h_pi := h_pi h; h_phi := h_phi h; h_mu := v; h_nu := h_nu h; h_mer := h_mer h |}.
Definition set_nu h v := {| h_sz := h_sz h; h_m := h_m h; h_buf := h_buf h; h_psz := h_psz h; h_q := h_q h; h_pf := h_pf h; h_pi := h_pi h; h_phi := h_phi h; h_mu := h_mu h; h_nu := v; h_mer := h_mer h |}.
Definition set_mer h v := {| h_sz := h_sz h; h_m := h_m h; h_buf := h_buf h; h_psz := h_psz h; h_q := h_q h; h_pf := h_pf h; h_pi := h_pi h; h_phi := h_phi h; h_mu := h_mu h; h_nu := h_nu h; h_mer := v |}.
Definition is_empty {A} (l : list A) : bool := match l with [] => true | _ => false end.

Section PrimeHolder.
  (** [est] is int(sz / (log(sz) - 1.1)) + 5; the sorts are std::sort *)
  Variable est : nat.
  Variables (sortn : list nat -> list nat) (sortp : list (nat * nat) -> list (nat * nat)).

  (** ensure_pq: 67-76. vp.resize keeps the first elements and appends zeros *)
  Definition ensure_pq (h : holder) : option holder :=
    if is_empty (h_q h) then
      let m := if h_sz h <? 40 then h_sz h / 2 + 2 else est in
      let buf := firstn m (firstn (h_psz h) (h_buf h)) ++ repeat 0 (m - h_psz h) in
      let q := repeat false (h_sz h) in
      let* '(buf, q, m) := primes (Some buf) q (h_sz h) in
      match buf with None => None | Some buf => Some (set_pq h m buf m q) end
    else Some h.
  (** ensure: 78-84, with the accessors pf, pi, phi, mu, nu, mertens: 39-44. The functions get p().data(): the memory of vp *)
  Definition get_pf (h : holder) : option holder :=
    if is_empty (h_pf h) then let* h := ensure_pq h in let* v := factor (repeat 0 (h_sz h)) (h_sz h) (h_buf h) (h_m h) in Some (set_pf h v) else Some h.
  Definition get_pi (h : holder) : option holder :=
    if is_empty (h_pi h) then let* h := ensure_pq h in let* v := prime_pi (repeat 0 (h_sz h)) (h_sz h) (h_buf h) in Some (set_pi h v) else Some h.
  Definition get_phi (h : holder) : option holder :=
    if is_empty (h_phi h) then let* h := ensure_pq h in let* v := euler_phi (repeat 0 (h_sz h)) (h_sz h) (h_buf h) (h_m h) in Some (set_phi h v) else Some h.
  Definition get_mu (h : holder) : option holder :=
    if is_empty (h_mu h) then let* h := ensure_pq h in let* v := moebius_mu (repeat 0%Z (h_sz h)) (h_sz h) in Some (set_mu h v) else Some h.
  Definition get_nu (h : holder) : option holder :=
    if is_empty (h_nu h) then let* h := ensure_pq h in let* v := prime_nu (repeat 0 (h_sz h)) (h_sz h) (h_buf h) (h_m h) in Some (set_nu h v) else Some h.
  Definition get_mertens (h : holder) : option holder :=
    if is_empty (h_mer h) then let* h := get_mu h in Some (set_mer h (accumulate Z.add (h_mu h))) else Some h.
  (** factor_integer(int), factor_integer(vector): 86-98 *)
  Definition holder_factor (h : holder) (n : nat) : option (holder * list (nat * nat)) :=
    let* h := get_pf h in let* vf := factor_integer [] n (h_pf h) in Some (h, sortp vf).
  Definition holder_factor_product (h : holder) (vn : list nat) : option (holder * list (nat * nat)) :=
    let* h := get_pf h in let* vf := factor_integer_of_product [] vn (h_pf h) in Some (h, sortp vf).
  (** primes, p(i), q(i), ...: 35, 46-53 (at(i) throws when the index is out of range: [None]); divisors: 100-113 *)
  Definition ask (h : holder) (q : query) : option (holder * reply) :=
    match q with
    | QCount => let* h := ensure_pq h in Some (h, RInt (Z.of_nat (h_m h)))
    | QPrime i => let* h := ensure_pq h in let* p := nth_error (firstn (h_psz h) (h_buf h)) i in Some (h, RInt (Z.of_nat p))
    | QIsPrime i => let* h := ensure_pq h in let* b := nth_error (h_q h) i in Some (h, RInt (if b : bool then 1 else 0)%Z)
    | QFactor i => let* h := get_pf h in let* v := nth_error (h_pf h) i in Some (h, RInt (Z.of_nat v))
    | QPi i => let* h := get_pi h in let* v := nth_error (h_pi h) i in Some (h, RInt (Z.of_nat v))
    | QPhi i => let* h := get_phi h in let* v := nth_error (h_phi h) i in Some (h, RInt (Z.of_nat v))
    | QMu i => let* h := get_mu h in let* v := nth_error (h_mu h) i in Some (h, RInt v)
    | QNu i => let* h := get_nu h in let* v := nth_error (h_nu h) i in Some (h, RInt (Z.of_nat v))
    | QMertens i => let* h := get_mertens h in let* v := nth_error (h_mer h) i in Some (h, RInt v)
    | QFactorise n => let* '(h, vf) := holder_factor h n in Some (h, RFactors vf)
    | QFactoriseProduct vn => let* '(h, vf) := holder_factor_product h vn in Some (h, RFactors vf)
    | QDivisors n maxd => let* '(h, vf) := holder_factor h n in let* vd := divisors_sorted sortn vf maxd in Some (h, RList vd)
    | QDivisorsOfProduct vn maxd => let* '(h, vf) := holder_factor_product h vn in let* vd := divisors_sorted sortn vf maxd in Some (h, RList vd)
    end.
  (** a sequence of calls on one object *)
  Fixpoint asks (h : holder) (qs : list query) : option (holder * list reply) :=
    match qs with [] => Some (h, []) | q :: qs => let* '(h, r) := ask h q in let* '(h, rs) := asks h qs in Some (h, r :: rs) end.
End PrimeHolder.

Section FactorialHolder.
  Context {T : Type} (zero id : T) (add mul sub div : T -> T -> T) (cast : Z -> T).
  (** factorial_holder.h 14-25; sz = 0 reads _fact[sz - 1] *)
  Record fholder := { f_fact : list T; f_ifact : list T; f_inv : list T }.
  Definition fholder_new (sz : nat) : option fholder :=
    let fact := factorials id add mul sz in
    if sz =? 0 then None else
    let* x := nth_error fact (sz - 1) in
    let ifact := inv_factorials id add mul sub div cast sz x (sz - 1) in
    let* inv := inverses_from_ifact zero id add mul ifact in
    Some {| f_fact := fact; f_ifact := ifact; f_inv := inv |}.
  (** fact(k), ifact(k), inv(k): 33-35 are [nth_error] of the tables; bin: 36-39. The unsigned k < 0 is never true *)
  Definition fholder_bin (h : fholder) (n k : nat) : option T :=
    if n <? k then Some zero else
    let* a := nth_error (f_fact h) n in let* b := nth_error (f_ifact h) (n - k) in let* c := nth_error (f_ifact h) k in Some (mul (mul a b) c).
End FactorialHolder.
