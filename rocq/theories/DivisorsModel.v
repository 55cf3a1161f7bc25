(** Model of the functions of algorithm/math/primes.h that work on a factorisation: a list of pairs (prime, exponent), as naturals.
    Results of the arithmetic functions are integers; the machine width is not modelled. *)
From Verif Require Import Lib BaseModel.
Open Scope nat_scope.

(** divisors: primes.h 257-269. The vector index i is the remaining list; maxd = 0 stands for the non-positive bounds. The inner
    fixpoint is the loop over e = 0 .. f.second, with [k] turns left; its break is the early return. A factor 0 divides by zero *)
Fixpoint divisors (vd : list nat) (vf : list (nat * nat)) (maxd d : nat) {struct vf} : option (list nat) :=
  match vf with
  | [] => Some (vd ++ [d])
  | (p, e) :: vf' =>
    (fix loop (k : nat) (vd : list nat) (d : nat) {struct k} : option (list nat) :=
      match k with
      | O => Some vd
      | S k => let* vd := divisors vd vf' maxd d in
        if 0 <? maxd then (if p =? 0 then None else if maxd / p <? d then Some vd else loop k vd (d * p)) else loop k vd (d * p)
      end) (e + 1) vd d
  end.
(** divisors returning a vector: 270-276; [sort] is std::sort *)
Definition divisors_sorted (sort : list nat -> list nat) (vf : list (nat * nat)) (maxd : nat) : option (list nat) :=
  let* vd := divisors [] vf maxd 1 in Some (sort vd).
(** squarefree_signed_divisors: 289-295 *)
Fixpoint squarefree_signed_divisors (vd : list Z) (vf : list (nat * nat)) (d : Z) : list Z :=
  match vf with
  | [] => vd ++ [d]
  | (p, _) :: vf' => squarefree_signed_divisors (squarefree_signed_divisors vd vf' d) vf' (d * - Z.of_nat p)%Z
  end.
(** prime_factors: 302-310; prime_exponents: 317-325 *)
Definition prime_factors (vf : list (nat * nat)) : list nat := map fst vf.
Definition prime_exponents (vf : list (nat * nat)) : list nat := map snd vf.
(** divisor_sigma0: 330-337; euler_phi: 342-349; carmichael_lambda: 354-362 *)
Definition sigma0_of (vf : list (nat * nat)) : Z := fold_left (fun r '(_, e) => r * (Z.of_nat e + 1))%Z vf 1%Z.
Definition phi_of (vf : list (nat * nat)) : option Z :=
  fold_left (fun r '(p, e) => let* r := r in let* w := powT Z.mul 1%Z (Z.of_nat p) (Z.of_nat e - 1) in Some (r * (w * (Z.of_nat p - 1)))%Z) vf (Some 1%Z).
Definition lambda_of (vf : list (nat * nat)) : option Z :=
  fold_left (fun r '(p, e) => let* r := r in
    let e' := if (p =? 2) && (2 <? e) then e - 1 else e in
    let* w := powT Z.mul 1%Z (Z.of_nat p) (Z.of_nat e' - 1) in lcm r (w * (Z.of_nat p - 1))%Z) vf (Some 1%Z).
(** integer_digits: 371-381; the loop needs at most n + 1 turns when b >= 2. [len] may be negative (int) *)
Definition integer_digits (n b : Z) (len : Z) : option (list Z) :=
  let* vd := loopZ (Z.abs n + 2) (fun '(t, vd) => if (0 <? t)%Z then (let* q := cdiv t b in let* r := cmod t b in Some (inl (q, vd ++ [r]))) else Some (inr vd)) (n, []) in
  Some (vd ++ repeat 0%Z (Z.to_nat len - length vd)).
(** from_digits: 389-397 *)
Definition from_digits (vd : list Z) (b : Z) : Z := fold_left (fun n x => n * b + x)%Z (rev vd) 0%Z.
(** integer_string of digits: 403-411, and of a number: 420-423. Characters are their codes; the digit table has 36 entries followed by the terminating 0 *)
Definition digit_table : list Z := [48;49;50;51;52;53;54;55;56;57;97;98;99;100;101;102;103;104;105;106;107;108;109;110;111;112;113;114;115;116;117;118;119;120;121;122;0]%Z.
Definition string_of_digits (vd : list Z) : option (list Z) :=
  fold_left (fun s x => let* s := s in if (x <? 0)%Z then None else let* c := nth_error digit_table (Z.to_nat x) in Some (s ++ [c])) (rev vd) (Some []).
Definition integer_string (n b len : Z) : option (list Z) := let* vd := integer_digits n b len in string_of_digits vd.
