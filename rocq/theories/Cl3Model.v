(** Model of structure/math/clifford3.h: the even part (rotor), the odd part (vector) and the
    elements (multivector) of the geometric algebra of space. *)
From Coq Require Import List.
From Verif Require Import Lib.

Section Cl3.
  (** the template parameter T with its operators; [eqb] is ==, division by zero is None *)
  Context {T : Type} (zero one : T) (add mul sub : T -> T -> T) (opp : T -> T) (div : T -> T -> T).
  Variable eqb : T -> T -> bool.
  (** sqrtT *)
  Variable sqrtT : T -> T.
  Local Infix "+" := add. Local Infix "*" := mul. Local Infix "-" := sub. Local Notation "- x" := (opp x).

  (** clifford3.h:21-28 class rotor *)
  Record rotor := R { rs : T; ryz : T; rzx : T; rxy : T }.
  (** clifford3.h:115-124 class vector *)
  Record vector := W { wx : T; wy : T; wz : T; ww : T }.
  (** clifford3.h:250-258 class multivector *)
  Record mvec := M { mr : rotor; mv : vector }.

  (** clifford3.h:50-52 *)
  Definition radd (a b : rotor) := R (rs a + rs b) (ryz a + ryz b) (rzx a + rzx b) (rxy a + rxy b).
  Definition rsub (a b : rotor) := R (rs a - rs b) (ryz a - ryz b) (rzx a - rzx b) (rxy a - rxy b).
  Definition rneg (a : rotor) := R (- rs a) (- ryz a) (- rzx a) (- rxy a).
  (** clifford3.h:53-58 rotor * rotor *)
  Definition rmul (a r : rotor) :=
    R (rs a * rs r - ryz a * ryz r - rzx a * rzx r - rxy a * rxy r)
      (rs a * ryz r + ryz a * rs r - rzx a * rxy r + rxy a * rzx r)
      (rs a * rzx r + ryz a * rxy r + rzx a * rs r - rxy a * ryz r)
      (rs a * rxy r - ryz a * rzx r + rzx a * ryz r + rxy a * rs r).
  (** clifford3.h:61-62 rotor * T and rotor / T *)
  Definition rscale (a : rotor) (t : T) := R (rs a * t) (ryz a * t) (rzx a * t) (rxy a * t).
  Definition rdivs (a : rotor) (t : T) : option rotor :=
    if eqb t zero then None else Some (R (div (rs a) t) (div (ryz a) t) (div (rzx a) t) (div (rxy a) t)).
  (** clifford3.h:66-68 rev, conj, abs2 *)
  Definition rrev (a : rotor) := R (rs a) (- ryz a) (- rzx a) (- rxy a).
  Definition rconj (a : rotor) := R (rs a) (- ryz a) (- rzx a) (- rxy a).
  Definition rabs2 (a : rotor) := rs a * rs a + rxy a * rxy a + ryz a * ryz a + rzx a * rzx a.
  (** clifford3.h:65 inv; clifford3.h:69, 64 abs1 and unit *)
  Definition rinv (a : rotor) : option rotor := rdivs (rrev a) (rabs2 a).
  Definition runit (a : rotor) : option rotor := rdivs a (sqrtT (rabs2 a)).
  (** clifford3.h:59 rotor / rotor *)
  Definition rdiv (a r : rotor) : option rotor := let* i := rinv r in Some (rmul a i).

  (** clifford3.h:147-149 *)
  Definition wadd (a b : vector) := W (wx a + wx b) (wy a + wy b) (wz a + wz b) (ww a + ww b).
  Definition wsub (a b : vector) := W (wx a - wx b) (wy a - wy b) (wz a - wz b) (ww a - ww b).
  Definition wneg (a : vector) := W (- wx a) (- wy a) (- wz a) (- ww a).
  (** clifford3.h:151-156 vector * rotor *)
  Definition wmulr (a : vector) (r : rotor) :=
    W (wx a * rs r - wy a * rxy r + wz a * rzx r - ww a * ryz r)
      (wx a * rxy r + wy a * rs r - wz a * ryz r - ww a * rzx r)
      (- wx a * rzx r + wy a * ryz r + wz a * rs r - ww a * rxy r)
      (wx a * ryz r + wy a * rzx r + wz a * rxy r + ww a * rs r).
  (** clifford3.h:159-164 vector * vector *)
  Definition wmul (a v : vector) :=
    R (wx a * wx v + wy a * wy v + wz a * wz v - ww a * ww v)
      (wx a * ww v + wy a * wz v - wz a * wy v + ww a * wx v)
      (- wx a * wz v + wy a * ww v + wz a * wx v + ww a * wy v)
      (wx a * wy v - wy a * wx v + wz a * ww v + ww a * wz v).
  (** clifford3.h:186-192 rotor * vector *)
  Definition rmulw (r : rotor) (v : vector) :=
    W (rs r * wx v - ryz r * ww v - rzx r * wz v + rxy r * wy v)
      (rs r * wy v + ryz r * wz v - rzx r * ww v - rxy r * wx v)
      (rs r * wz v - ryz r * wy v + rzx r * wx v - rxy r * ww v)
      (rs r * ww v + ryz r * wx v + rzx r * wy v + rxy r * wz v).
  (** clifford3.h:167-168 vector * T and vector / T *)
  Definition wscale (a : vector) (t : T) := W (wx a * t) (wy a * t) (wz a * t) (ww a * t).
  Definition wdivs (a : vector) (t : T) : option vector :=
    if eqb t zero then None else Some (W (div (wx a) t) (div (wy a) t) (div (wz a) t) (div (ww a) t)).
  (** clifford3.h:172-174 rev, conj, abs2 *)
  Definition wrev (a : vector) := W (wx a) (wy a) (wz a) (- ww a).
  Definition wconj (a : vector) := W (- wx a) (- wy a) (- wz a) (ww a).
  Definition wabs2 (a : vector) := wx a * wx a + wy a * wy a + wz a * wz a + ww a * ww a.
  (** clifford3.h:171 inv; clifford3.h:175, 170 abs1 and unit *)
  Definition winv (a : vector) : option vector := wdivs (wrev a) (wabs2 a).
  Definition wunit (a : vector) : option vector := wdivs a (sqrtT (wabs2 a)).
  (** clifford3.h:157, 165, 194 vector / rotor, vector / vector, rotor / vector *)
  Definition wdivr (a : vector) (r : rotor) : option vector := let* i := rinv r in Some (wmulr a i).
  Definition wdiv (a v : vector) : option rotor := let* i := winv v in Some (wmul a i).
  Definition rdivw (r : rotor) (v : vector) : option vector := let* i := winv v in Some (rmulw r i).
  (** clifford3.h:177-178 reflect, rotate *)
  Definition reflect (u v : vector) : vector := rmulw (wmul (wneg v) u) (wrev v).
  Definition rotate (u : vector) (r : rotor) : vector := wmulr (rmulw r u) (rrev r).
  (** clifford3.h:199-203 make_rotor *)
  Definition make_rotor (from to : vector) : option rotor :=
    let* t := wunit to in
    let* f := wunit from in
    runit (radd (wmul t f) (R one zero zero zero)).

  (** clifford3.h:286-294 sums and differences *)
  Definition madd (a b : mvec) := M (radd (mr a) (mr b)) (wadd (mv a) (mv b)).
  Definition msub (a b : mvec) := M (rsub (mr a) (mr b)) (wsub (mv a) (mv b)).
  Definition mneg (a : mvec) := M (rneg (mr a)) (wneg (mv a)).
  Definition maddr (a : mvec) (r : rotor) := M (radd (mr a) r) (mv a).
  Definition msubr (a : mvec) (r : rotor) := M (rsub (mr a) r) (mv a).
  Definition maddw (a : mvec) (v : vector) := M (mr a) (wadd (mv a) v).
  Definition msubw (a : mvec) (v : vector) := M (mr a) (wsub (mv a) v).
  (** clifford3.h:327-343 rotor +- vector, vector +- rotor, rotor +- multivector, vector +- multivector *)
  Definition raddw (r : rotor) (v : vector) := M r v.
  Definition rsubw (r : rotor) (v : vector) := M r (wneg v).
  Definition wsubr (v : vector) (r : rotor) := M (rneg r) v.
  Definition raddm (r : rotor) (m : mvec) := M (radd r (mr m)) (mv m).
  Definition waddm (v : vector) (m : mvec) := M (mr m) (wadd v (mv m)).
  Definition rsubm (r : rotor) (m : mvec) := M (rsub r (mr m)) (wneg (mv m)).
  Definition wsubm (v : vector) (m : mvec) := M (rneg (mr m)) (wsub v (mv m)).
  (** clifford3.h:298 multivector * rotor (a copy, then *= of clifford3.h:274 with an r2 outside the copy) *)
  Definition mmulr (a : mvec) (r : rotor) := M (rmul (mr a) r) (wmulr (mv a) r).
  (** clifford3.h:301 multivector * vector *)
  Definition mmulw (a : mvec) (v : vector) := M (wmul (mv a) v) (rmulw (mr a) v).
  (** clifford3.h:304 multivector * multivector *)
  Definition mmul (a m : mvec) :=
    M (radd (rmul (mr a) (mr m)) (wmul (mv a) (mv m))) (wadd (rmulw (mr a) (mv m)) (wmulr (mv a) (mr m))).
  (** clifford3.h:307 multivector * T *)
  Definition mscale (a : mvec) (t : T) := M (rscale (mr a) t) (wscale (mv a) t).
  (** clifford3.h:350, 354 rotor * multivector, vector * multivector *)
  Definition rmulm (r : rotor) (m : mvec) := M (rmul r (mr m)) (rmulw r (mv m)).
  Definition wmulm (v : vector) (m : mvec) := M (wmul v (mv m)) (wmulr v (mr m)).
  (** clifford3.h:318-325 rev, conj *)
  Definition mrev (a : mvec) := M (rrev (mr a)) (wrev (mv a)).
  Definition mconj (a : mvec) := M (rconj (mr a)) (wconj (mv a)).
  (** clifford3.h:310-317 inv *)
  Definition minv (a : mvec) : option mvec :=
    let r := mr a in
    let v := mv a in
    if (eqb (rs r) zero && eqb (ryz r) zero && eqb (rzx r) zero && eqb (rxy r) zero)%bool
    then let* i := winv v in Some (M (R zero zero zero zero) i)
    else let* i := rinv r in
         let t := wmulr (wneg v) i in
         let* ri := rinv (radd r (wmul t v)) in
         let vi := rmulw ri t in
         Some (M ri vi).
  (** clifford3.h:305 multivector / multivector *)
  Definition mdiv (a m : mvec) : option mvec := let* i := minv m in Some (mmul a i).

  (** clifford3.h:274 *= applied to the multivector's own even part, m *= m.r: r2 is a reference to
      the part that the first assignment changes *)
  Definition mmulr_own (m : mvec) : mvec :=
    let r := rmul (mr m) (mr m) in M r (wmulr (mv m) r).
  (** clifford3.h:47 *= applied to the rotor's own scalar, r *= r.s *)
  Definition rscale_own (a : rotor) : rotor :=
    let s := rs a * rs a in R s (ryz a * s) (rzx a * s) (rxy a * s).
End Cl3.
