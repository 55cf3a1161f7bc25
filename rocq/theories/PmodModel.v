(** Model of algorithm/math/polynom_mod.h, lines 14-48 and 160-188: multiplication of polynomials over modulo<I> by two transforms modulo
    primes of 32 bits and the Chinese remainder theorem. The values of modulo<uint32_t, P> are their representatives, with the operations of
    modulo.h on 32 bits (C13); the inverse is over exact integers (C14). uint64_t arithmetic wraps. The values of modulo<I> with I of 32
    or 64 bits are representatives with exact operations (C13). The transforms of complex numbers (50-155) are floating-point and not
    modelled. *)
From Verif Require Import Lib BaseModel ModuloModel FftModel.
Open Scope Z_scope.

(** uint32_t(x), uint64_t(x) *)
Definition u32 (x : Z) : Z := x mod 2 ^ 32.
Definition u64 (x : Z) : Z := x mod 2 ^ 64.

(** convert_to_mod_P_hilo: 17-23, into vectors of n zeros; p has the l + 1 coefficients *)
Definition convert_hi (p : list Z) (n : nat) : option (list Z) := let* _ := guard (length p <=? n)%nat in Some (map (fun v => Z.shiftr (u32 v) 16) p ++ repeat 0 (n - length p)).
Definition convert_lo (p : list Z) (n : nat) : option (list Z) := let* _ := guard (length p <=? n)%nat in Some (map (fun v => Z.land (u32 v) 65535) p ++ repeat 0 (n - length p)).

Section P.
Variable P : Z.
(** operators + - * of modulo<uint32_t, P> (P is not 0) *)
Definition padd (x y : Z) : Z := mod_add_u 32 x y P.
Definition psub (x y : Z) : Z := mod_sub_u 32 x y P.
Definition pmul (x y : Z) : Z := match mod_mul_u 32 x y P with Some r => r | None => 0 end.
Definition pfft (data : list Z) (n : nat) (root : Z) : option (list Z) := fft padd psub pmul pmul 1 (fun x => x) data n root.
(** polynom_mul_mod_P_hilo: 25-47; result (lo1, hi1, hi2) *)
Definition mul_hilo (p1 p2 : list Z) (n : nat) (g : Z) : option (list Z * list Z * list Z) :=
  let* g := mod_normalize_u g P in
  let* e := cdiv (P - 1) (Z.of_nat n) in
  let* root := powT pmul 1 g e in
  let* iroot := powT pmul 1 root (Z.of_nat n - 1) in
  let* hi1 := convert_hi p1 n in
  let* lo1 := convert_lo p1 n in
  let* hi2 := convert_hi p2 n in
  let* lo2 := convert_lo p2 n in
  let* ni := mod_normalize_s 32 (Z.of_nat n) P in
  let* ni := modulo_inv ni P in
  let* hi1 := pfft hi1 n root in
  let* lo1 := pfft lo1 n root in
  let* hi2 := pfft hi2 n root in
  let* lo2 := pfft lo2 n root in
  let* '(lo1, hi1, hi2) := for_range 0 n (fun i '(lo1, hi1, hi2) =>
    let* h1 := nth_error hi1 i in let* h2 := nth_error hi2 i in
    let* l1 := nth_error lo1 i in let* l2 := nth_error lo2 i in
    let hi := pmul (pmul h1 h2) ni in
    let lo := pmul (pmul l1 l2) ni in
    let mi := pmul (padd (pmul l1 h2) (pmul l2 h1)) ni in
    let* lo1 := set_nth lo1 i lo in
    let* hi1 := set_nth hi1 i mi in
    let* hi2 := set_nth hi2 i hi in
    Some (lo1, hi1, hi2)) (lo1, hi1, hi2) in
  let* hi2 := pfft hi2 n iroot in
  let* hi1 := pfft hi1 n iroot in
  let* lo1 := pfft lo1 n iroot in
  Some (lo1, hi1, hi2).
End P.

Definition P1 : Z := 3221225473.
Definition P2 : Z := 3489660929.
(** the lambda crt: 174-180 *)
Definition crt (M v1 v2 : Z) : option Z :=
  let PP := u64 (P1 * P2) in
  let* P2i := mod_normalize_s 32 (-12) P1 in
  let* P1i := mod_normalize_s 32 13 P2 in
  let r1 := u64 (P2 * pmul P1 P2i v1) in
  let r2 := u64 (P1 * pmul P2 P1i v2) in
  mod_normalize_u (if r1 <? u64 (PP - r2) then u64 (r1 + r2) else u64 (u64 (r1 + r2) - PP)) M.
(** _mul_fft_crt: 164-188; pr has at least lr + 1 elements. The factors are read before the first write, so pr may be one of them. *)
Definition mul_fft_crt (M : Z) (pr : list Z) (lr : nat) (p1 p2 : list Z) : option (list Z) :=
  let* _ := guard (negb (length p1 =? 0) && negb (length p2 =? 0))%nat in
  let m := (length p1 - 1 + (length p2 - 1) + 1)%nat in
  let* n := pow2_above (S m) m 1 in
  let* '(loA, miA, hiA) := mul_hilo P1 p1 p2 n 5 in
  let* '(loB, miB, hiB) := mul_hilo P2 p1 p2 n 3 in
  let* two := mod_normalize_s 32 2 M in
  let* w := powT (fun x y => (x * y) mod M) (1 mod M) two 16 in
  for_range 0 (S lr) (fun i pr =>
    let* a := nth_error loA i in let* b := nth_error loB i in let* lo := crt M a b in
    let* a := nth_error miA i in let* b := nth_error miB i in let* mi := crt M a b in
    let* a := nth_error hiA i in let* b := nth_error hiB i in let* hi := crt M a b in
    set_nth pr i (((((hi * w) mod M + mi) mod M * w) mod M + lo) mod M)) pr.
