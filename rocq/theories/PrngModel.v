(** Model of algorithm/random/xorshift.h and algorithm/random/mersenne_twister.h. Words are numbers below 2^64 and 2^32. Not modelled: the conversions to double,
    seed() from /dev/urandom or the clock, stream operators. *)
From Verif Require Import Lib.
Open Scope Z_scope.

Definition u64 (x : Z) : Z := x mod 2 ^ 64.
Definition u32 (x : Z) : Z := x mod 2 ^ 32.
(** xorshift_64star::next: xorshift.h 43-49; the result and the new state *)
Definition xs64_next (x : Z) : Z * Z :=
  let x := Z.lxor x (Z.shiftr x 12) in
  let x := Z.lxor x (u64 (Z.shiftl x 25)) in
  let x := Z.lxor x (Z.shiftr x 27) in
  (u64 (x * 2685821657736338717), x).
(** xorshift_1024star: the array s_ and p_; seed(uint64_t): 119-125 *)
Definition xs1024_seed (state64 : Z) : list Z * nat :=
  let '(s, _) := fold_left (fun '(s, x) (_ : nat) => let '(v, x) := xs64_next x in (s ++ [v], x)) (seq 0 16) ([], state64) in (s, O).
(** seed(uint64_t* ): 131-136 *)
Definition xs1024_seed_array (state : list Z) : list Z * nat := (state, O).
(** xorshift_1024star::next: 141-151 *)
Definition xs1024_next (g : list Z * nat) : option (Z * (list Z * nat)) :=
  let '(s, p) := g in
  let* s0 := nth_error s p in
  let p := Nat.modulo (p + 1) 16 in (* & 15 *)
  let* s1 := nth_error s p in
  let s1 := Z.lxor s1 (u64 (Z.shiftl s1 31)) in
  let s1 := Z.lxor s1 (Z.shiftr s1 11) in
  let s0 := Z.lxor s0 (Z.shiftr s0 30) in
  let* s := set_nth s p (Z.lxor s0 s1) in
  Some (u64 (Z.lxor s0 s1 * 1181783497276652981), (s, p)).

(** mersenne_twister.h *)
Record mtrand := MT { mt_state : list Z; mt_next : nat; mt_left : nat }.
(** hiBit, loBit, loBits, mixBits, twist: 129-135 *)
Definition hiBit (u : Z) : Z := Z.land u 0x80000000.
Definition loBit (u : Z) : Z := Z.land u 0x00000001.
Definition loBits (u : Z) : Z := Z.land u 0x7fffffff.
Definition mixBits (u v : Z) : Z := Z.lor (hiBit u) (loBits v).
Definition twist (m s0 s1 : Z) : Z :=
  Z.lxor (Z.lxor m (Z.shiftr (mixBits s0 s1) 1)) (Z.land (u32 (0 - loBit s1)) 0x9908b0df).
(** orDown: 136-143 *)
Definition orDown (u : Z) : Z :=
  let u := Z.lor u (Z.shiftr u 1) in
  let u := Z.lor u (Z.shiftr u 2) in
  let u := Z.lor u (Z.shiftr u 4) in
  let u := Z.lor u (Z.shiftr u 8) in
  Z.lor u (Z.shiftr u 16).
(** the last lines of randInt(): 204-209 *)
Definition temper (s1 : Z) : Z :=
  let s1 := Z.lxor s1 (Z.shiftr s1 11) in
  let s1 := Z.lxor s1 (Z.land (u32 (Z.shiftl s1 7)) 0x9d2c5680) in
  let s1 := Z.lxor s1 (Z.land (u32 (Z.shiftl s1 15)) 0xefc60000) in
  Z.lxor s1 (Z.shiftr s1 18).
Section Size.
  Variables N M : nat. (* 624 and 397: lines 82, 86 *)
  (** *p = twist(p[...], p[0], p[1]) *)
  Definition set_twist (s : list Z) (p im i0 i1 : nat) : option (list Z) :=
    let* m := nth_error s im in let* s0 := nth_error s i0 in let* s1 := nth_error s i1 in set_nth s p (twist m s0 s1).
  (** reload: 297-309; p is an index *)
  Definition reload (g : mtrand) : option mtrand :=
    let* s := for_range 0 (N - M) (fun p s => set_twist s p (p + M) p (p + 1)) (mt_state g) in
    let* s := for_range (N - M) (N - 1) (fun p s => set_twist s p (p + M - N) p (p + 1)) s in
    let* s := set_twist s (N - 1) (N - 1 + M - N) (N - 1) 0 in
    Some (MT s 0 N).
  (** randInt(): 197-210 *)
  Definition randInt (g : mtrand) : option (Z * mtrand) :=
    let* g := if (mt_left g =? 0)%nat then reload g else Some g in
    let* s1 := nth_error (mt_state g) (mt_next g) in
    Some (temper s1, MT (mt_state g) (mt_next g + 1) (mt_left g - 1)).
  (** randInt(n): 212-222; out of fuel stands for not ending *)
  Definition randInt_upto (fuel : Z) (g : mtrand) (n : Z) : option (Z * mtrand) :=
    let used := orDown n in
    loopZ fuel (fun g => let* '(v, g) := randInt g in
      let i := Z.land v used in
      if n <? i then Some (inl g) else Some (inr (i, g))) g.
  (** initialize: 282-295 *)
  Definition initialize (seed : Z) : option (list Z) :=
    for_range 1 N (fun i s => let* r := nth_error s (i - 1) in
      Some (s ++ [u32 (1812433253 * Z.lxor r (Z.shiftr r 30) + Z.of_nat i)])) [u32 seed].
  (** seed(oneSeed): 224-228 *)
  Definition seed_one (seed : Z) : option mtrand :=
    let* s := initialize seed in reload (MT s 0 0).
  (** the end of the rounds of both loops: if (i >= N) { state[0] = state[N - 1]; i = 1; } : 246, 254 *)
  Definition wrap (s : list Z) (i : nat) : option (list Z * nat) :=
    if (N <=? i)%nat then let* x := nth_error s (N - 1) in let* s := set_nth s 0 x in Some (s, 1%nat) else Some (s, i).
  (** seed(bigSeed, seedLength): 230-258 *)
  Definition seed_array (bigSeed : list Z) : option mtrand :=
    let seedLength := length bigSeed in
    let* s := initialize 19650218 in
    let* '(s, i, _) := for_range 0 (if (seedLength <? N)%nat then N else seedLength) (fun _ '(s, i, j) =>
      let* x := nth_error s i in let* y := nth_error s (i - 1) in
      let x := Z.lxor x (u32 (Z.lxor y (Z.shiftr y 30) * 1664525)) in
      let* b := nth_error bigSeed j in
      let x := u32 (x + (u32 b + Z.of_nat j)) in
      let* s := set_nth s i x in
      let* '(s, i) := wrap s (i + 1) in
      let j := (j + 1)%nat in
      Some (s, i, if (seedLength <=? j)%nat then O else j)) (s, 1%nat, O) in
    let* '(s, _) := for_range 1 N (fun _ '(s, i) =>
      let* x := nth_error s i in let* y := nth_error s (i - 1) in
      let x := Z.lxor x (u32 (Z.lxor y (Z.shiftr y 30) * 1566083941)) in
      let x := u32 (x - Z.of_nat i) in
      let* s := set_nth s i x in
      wrap s (i + 1)) (s, i) in
    let* s := set_nth s 0 0x80000000 in
    reload (MT s 0 0).
  (** save and load: 333-348; the array of N + 1 numbers *)
  Definition mt_save (g : mtrand) : list Z := mt_state g ++ [Z.of_nat (mt_left g)].
  Definition mt_load (a : list Z) : option mtrand :=
    let* l := nth_error a N in
    Some (MT (firstn N a) (N - Z.to_nat l) (Z.to_nat l)).
End Size.
(** a caller drawing k numbers in a row; not in the code *)
Fixpoint draw (N M k : nat) (g : mtrand) : option (list Z * mtrand) :=
  match k with
  | O => Some ([], g)
  | S k => let* '(v, g) := randInt N M g in let* '(l, g) := draw N M k g in Some (v :: l, g)
  end.
