(** Model of the table functions of include/altruct/algorithm/math/divisor_sums.h: Dirichlet convolution, division and inverse, their multiplicative variants, and the sieves of summatory functions.
    Tables are lists, an index outside the list is an error; the functions passed by the caller are pure. A loop "for (i = a*d; i < n; i += d)" is written over the multiplier: i = j*d < n iff j <= (n-1)/d. *)
From Verif Require Import Lib BaseModel.
From Coq Require Import Arith Lia.

Section Dir.
  Context {T : Type} (zero one : T) (add mul sub : T -> T -> T) (tdiv : T -> T -> option T).

  Definition upd (h : list T) (i : nat) (u : T -> T) : option (list T) := let* v := nth_error h i in set_nth h i (u v).
  (** divisor_sums.h 72-83 *)
  Definition dirichlet_convolution (h : list T) (f g : nat -> T) (n : nat) : option (list T) :=
    let* h := for_range 0 n (fun i h => set_nth h i zero) h in
    for_range 1 n (fun d h => for_range 1 (S ((n - 1) / d)) (fun e h => upd h (d * e) (fun v => add v (mul (f d) (g e)))) h) h.
  (** divisor_sums.h 99-113 *)
  Definition dirichlet_division (h : list T) (f g : nat -> T) (n : nat) : option (list T) :=
    let* ig1 := tdiv one (g 1) in
    let* h := for_range 1 n (fun i h => set_nth h i (f i)) h in
    for_range 1 n (fun d h =>
      let* h := upd h d (fun v => mul v ig1) in
      for_range 2 (S ((n - 1) / d)) (fun j h => let* hd := nth_error h d in upd h (d * j) (fun v => sub v (mul (g j) hd))) h) h.
  (** divisor_sums.h 129-134; [unit_fn] is the lambda e *)
  Definition unit_fn (n : nat) : T := if n =? 1 then one else zero.
  Definition dirichlet_inverse (h : list T) (f : nat -> T) (n : nat) : option (list T) := dirichlet_division h unit_fn f n.

  (** divisor_sums.h 149-151: the inner loop for q = p^k *)
  Definition cm_inner (n p q : nat) (h : list T) : option (list T) :=
    for_range 2 (S ((n - 1) / q)) (fun l h => if negb (l mod p =? 0) then let* fq := nth_error h q in upd h (l * q) (fun v => mul v fq) else Some h) h.
  (** divisor_sums.h 148-152: the loop over the powers of p *)
  Fixpoint cm_powers (fuel n p qq : nat) (h : list T) : option (list T) :=
    match fuel with
    | O => None
    | S fuel => if qq <? n then let* h := cm_inner n p qq h in cm_powers fuel n p (qq * p) h else Some h
    end.
  (** divisor_sums.h 145-154; [pa] lists the m primes *)
  Fixpoint calc_multiplicative (h : list T) (n : nat) (pa : list nat) : option (list T) :=
    match pa with
    | [] => Some h
    | p :: pa => if p <? n then let* _ := guard (negb (p =? 0)) in let* h := cm_powers (S n) n p p h in calc_multiplicative h n pa else Some h
    end.
  (** divisor_sums.h 182-187, 224-227: the powers of p below n, from 1 *)
  Fixpoint powers_below (fuel n p qq : nat) (acc : list nat) : option (list nat) :=
    match fuel with
    | O => None
    | S fuel => if qq <? n then powers_below fuel n p (qq * p) (acc ++ [qq]) else Some acc
    end.
  (** divisor_sums.h 180-196: the entries at the powers of one prime; the local arrays hold 32 numbers *)
  Definition dcm_prime (h : list T) (f g : nat -> T) (n p : nat) : option (list T) :=
    let* q := powers_below (S n) n p 1 [] in
    let* _ := guard (length q <=? 32) in
    for_range 0 (length q) (fun k h =>
      let* hq := for_range 0 (S k) (fun j s => let* a := nth_error (map f q) (k - j) in let* b := nth_error (map g q) j in Some (add s (mul a b))) zero in
      let* qk := nth_error q k in
      set_nth h qk hq) h.
  Fixpoint dcm_primes (h : list T) (f g : nat -> T) (n : nat) (pa : list nat) : option (list T) :=
    match pa with [] => Some h | p :: pa => if p <? n then let* h := dcm_prime h f g n p in dcm_primes h f g n pa else Some h end.
  (** divisor_sums.h 172-199 *)
  Definition dirichlet_convolution_multiplicative (h : list T) (f g : nat -> T) (n : nat) (pa : list nat) : option (list T) :=
    let* h := for_range 1 n (fun i h => set_nth h i one) h in
    let* h := dcm_primes h f g n pa in
    calc_multiplicative h n pa.
  (** divisor_sums.h 221-237: one prime *)
  Definition ddm_prime (h : list T) (f g : nat -> T) (n p : nat) : option (list T) :=
    let* q := powers_below (S n) n p 1 [] in
    let* _ := guard (length q <=? 32) in
    let* '(h, hq) := for_range 1 (length q) (fun k '(h, hq) =>
      let* qk := nth_error q k in
      let* x := for_range 0 k (fun j s => let* a := nth_error (map g q) (k - j) in let* b := nth_error hq j in Some (sub s (mul a b))) (f qk) in
      let* h := set_nth h qk x in
      Some (h, hq ++ [x])) (h, [one]) in
    Some h.
  Fixpoint ddm_primes (h : list T) (f g : nat -> T) (n : nat) (pa : list nat) : option (list T) :=
    match pa with [] => Some h | p :: pa => if p <? n then let* h := ddm_prime h f g n p in ddm_primes h f g n pa else Some h end.
  (** divisor_sums.h 214-240 *)
  Definition dirichlet_division_multiplicative (h : list T) (f g : nat -> T) (n : nat) (pa : list nat) : option (list T) :=
    let* h := for_range 1 n (fun i h => set_nth h i one) h in
    let* h := ddm_primes h f g n pa in
    calc_multiplicative h n pa.
  (** divisor_sums.h 255-260 *)
  Definition dirichlet_inverse_multiplicative (h : list T) (f : nat -> T) (n : nat) (pa : list nat) : option (list T) := dirichlet_division_multiplicative h unit_fn f n pa.

  (** divisor_sums.h 271-277 *)
  Definition calc_completely_multiplicative (h : list T) (n : nat) (pf : list nat) : option (list T) :=
    for_range 2 n (fun i h =>
      let* p := nth_error pf i in
      if negb (p =? i) then
        let* _ := guard (negb (p =? 0)) in
        let* a := nth_error h (i / p) in let* b := nth_error h p in set_nth h i (mul a b)
      else Some h) h.
  (** divisor_sums.h 297-309 *)
  Definition dirichlet_convolution_completely_multiplicative (h : list T) (f g : nat -> T) (n : nat) (pf : list nat) : option (list T) :=
    let f1 := f 1 in let g1 := g 1 in
    let* h := for_range 1 n (fun i h => set_nth h i one) h in
    let* h := for_range 2 n (fun p h => let* x := nth_error pf p in if x =? p then set_nth h p (add (mul (f p) g1) (mul (g p) f1)) else Some h) h in
    calc_completely_multiplicative h n pf.
  (** divisor_sums.h 330-340 *)
  Definition dirichlet_division_completely_multiplicative (h : list T) (f g : nat -> T) (n : nat) (pf : list nat) : option (list T) :=
    let* h := for_range 1 n (fun i h => set_nth h i one) h in
    let* h := for_range 2 n (fun p h => let* x := nth_error pf p in if x =? p then set_nth h p (sub (f p) (g p)) else Some h) h in
    calc_completely_multiplicative h n pf.
  (** divisor_sums.h 361-366 *)
  Definition dirichlet_inverse_completely_multiplicative (h : list T) (f : nat -> T) (n : nat) (pf : list nat) : option (list T) := dirichlet_division_completely_multiplicative h unit_fn f n pf.

  (** divisor_sums.h 377-381, 394-398, 411-415 *)
  Definition moebius_transform (h : list T) (f : nat -> T) (n : nat) : option (list T) := dirichlet_division h f (fun _ => one) n.
  Definition moebius_transform_multiplicative (h : list T) (f : nat -> T) (n : nat) (pa : list nat) : option (list T) := dirichlet_division_multiplicative h f (fun _ => one) n pa.
  Definition moebius_transform_completely_multiplicative (h : list T) (f : nat -> T) (n : nat) (pf : list nat) : option (list T) := dirichlet_division_completely_multiplicative h f (fun _ => one) n pf.

  (** divisor_sums.h 441, 493-495, 521-523: differences of t *)
  Definition diff (t : nat -> T) (n : nat) : T := if n =? 1 then t 1 else sub (t n) (t (n - 1)).
  (** divisor_sums.h 439-444; [p_inv] reads a table, see below *)
  Definition sieve_m_multiplicative_inv (M : list T) (t p_inv : nat -> T) (n : nat) (pa : list nat) : option (list T) :=
    let* M := dirichlet_convolution_multiplicative M p_inv (diff t) n pa in
    for_range 1 n (fun i M => let* x := nth_error M (i - 1) in upd M i (fun v => add v x)) M.
  (** divisor_sums.h 445-451; the lambda _p_inv reads the table of inverses *)
  Definition sieve_m_multiplicative (M : list T) (t p : nat -> T) (n : nat) (pa : list nat) : option (list T) :=
    let* pi := dirichlet_inverse_multiplicative M p n pa in
    sieve_m_multiplicative_inv M t (fun i => nth i pi zero) n pa.
  (** divisor_sums.h 488-503 *)
  Definition sieve_m (M : list T) (t p : nat -> T) (n : nat) : option (list T) :=
    let* ip1 := tdiv one (p 1) in
    let* M := set_nth M 1 (t 1) in
    let* M := for_range 2 n (fun i M => set_nth M i (sub (t i) (t (i - 1)))) M in
    for_range 1 n (fun d M =>
      let* M := upd M d (fun v => mul v ip1) in
      let* M := for_range 2 (S ((n - 1) / d)) (fun j M => let* x := nth_error M d in upd M (d * j) (fun v => sub v (mul (p j) x))) M in
      if 1 <? d then let* x := nth_error M (d - 1) in upd M d (fun v => add v x) else Some M) M.
  (** divisor_sums.h 518-531 *)
  Definition sieve_m1 (M : list T) (t : nat -> T) (n : nat) : option (list T) :=
    let* M := set_nth M 1 (t 1) in
    let* M := for_range 2 n (fun i M => set_nth M i (sub (t i) (t (i - 1)))) M in
    for_range 1 n (fun d M =>
      let* M := for_range 2 (S ((n - 1) / d)) (fun j M => let* x := nth_error M d in upd M (d * j) (fun v => sub v x)) M in
      if 1 <? d then let* x := nth_error M (d - 1) in upd M d (fun v => add v x) else Some M) M.
  (** divisor_sums.h 617-635 *)
  Definition sieve_sqfree_count (sqfc : list T) (n : nat) (pa : list nat) : option (list T) :=
    let* s := set_nth sqfc 0 zero in
    let* s := for_range 1 n (fun i s => set_nth s i one) s in
    let* s := fold_left (fun s p => let* s := s in let* _ := guard (negb (p =? 0)) in for_range 1 (S ((n - 1) / (p * p))) (fun e s => set_nth s (p * p * e) zero) s) pa (Some s) in
    for_range 1 n (fun i s => let* x := nth_error s (i - 1) in upd s i (fun v => add v x)) s.

  (** divisor_sums.h 798-815; [cast] is castOf(id, n); a negative k gives powT's value 1 *)
  Definition id_pow (cast : nat -> T) (k : Z) (n : nat) : T :=
    if (k =? 0)%Z then one else if (k =? 1)%Z then cast n else if (k =? 2)%Z then mul (cast n) (cast n) else match powT mul one (cast n) k with Some v => v | None => zero end.
  Definition divisor_sigma (cast : nat -> T) (ds : list T) (k : Z) (n : nat) (pa : list nat) : option (list T) :=
    dirichlet_convolution_multiplicative ds (id_pow cast k) (fun _ => one) n pa.
End Dir.
