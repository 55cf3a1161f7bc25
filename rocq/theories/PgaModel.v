(** Model of include/altruct/structure/math/pga.h and of the parts of
    include/altruct/structure/math/vector3d.h it uses.
    Simplifications: the scalar type T is any type with the operations used by the code, with
    zeroOf(x) = 0, identityOf(x) = 1 and castOf(x, 2) = 1 + 1; vector3d carries no payload.
    A value of any of the C++ classes zero, blade0, ..., multivector is a value of the one type
    [blade], whose constructors are the classes; the overloads of an operator are the cases of one
    function.  The fields of nested classes (blade02E inside blade024 inside multivector) are
    listed flat.  [None] stands for undefined behaviour, or for an operator with no such overload. *)
From Coq Require Import List.
From Verif Require Import Lib.
Import ListNotations.

Section Pga.
  Context {T : Type} (zero one : T) (add mul sub : T -> T -> T) (opp : T -> T) (div : T -> T -> T).
  Local Infix "+" := add. Local Infix "*" := mul. Local Infix "-" := sub. Local Notation "- x" := (opp x).
  Local Infix "/" := div.
  (** castOf(x, 2) *)
  Definition two : T := one + one.

  (** vector3d<T>, vector3d.h:14 *)
  Record vec := V { vx : T; vy : T; vz : T }.
  (** vector3d.h:35-38 unary and binary + and - *)
  Definition vneg (a : vec) := V (- vx a) (- vy a) (- vz a).
  Definition vadd (a b : vec) := V (vx a + vx b) (vy a + vy b) (vz a + vz b).
  Definition vsub (a b : vec) := V (vx a - vx b) (vy a - vy b) (vz a - vz b).
  (** vector3d.h:42-43 v * t and v / t; vector3d.h:60-62 t * v *)
  Definition vmul (a : vec) (t : T) := V (vx a * t) (vy a * t) (vz a * t).
  Definition vdiv (a : vec) (t : T) := V (vx a / t) (vy a / t) (vz a / t).
  Definition lmul (t : T) (a : vec) := V (t * vx a) (t * vy a) (t * vz a).
  (** vector3d.h:47 a & b, vector3d.h:48 a ^ b, vector3d.h:56 abs2 *)
  Definition vdot (a b : vec) := vx a * vx b + vy a * vy b + vz a * vz b.
  Definition vcross (a b : vec) :=
    V (vy a * vz b - vz a * vy b) (vz a * vx b - vx a * vz b) (vx a * vy b - vy a * vx b).
  Definition vabs2 (a : vec) := vx a * vx a + vy a * vy a + vz a * vz a.
  (** pga.h:64 make_zero_vec; also vector3d(0) of vector3d.h:17 *)
  Definition vzero := V zero zero zero.

  (** pga.h:115-322: the classes *)
  Inductive blade :=
  | Zero                                            (* pga.h:116 zero *)
  | B0 (s : T)                                      (* pga.h:119 blade0 *)
  | B1 (e0 : T) (v : vec)                           (* pga.h:134 blade1 *)
  | B2E (E : vec)                                   (* pga.h:149 blade2E: biE *)
  | B2e (e : vec)                                   (* pga.h:164 blade2e: bie *)
  | B3 (e123 : T) (P : vec)                         (* pga.h:179 blade3: e123, triP *)
  | B4 (p : T)                                      (* pga.h:194 blade4: e0123 *)
  | B02E (s : T) (E : vec)                          (* pga.h:211 blade02E *)
  | B02e (s : T) (e : vec)                          (* pga.h:223 blade02e *)
  | B22 (E e : vec)                                 (* pga.h:235 blade22 *)
  | B2E4 (E : vec) (p : T)                          (* pga.h:247 blade2E4 *)
  | B2e4 (e : vec) (p : T)                          (* pga.h:259 blade2e4 *)
  | B024 (s : T) (E e : vec) (p : T)                (* pga.h:271 blade024 *)
  | B13 (e0 : T) (v : vec) (e123 : T) (P : vec)     (* pga.h:293 blade13 *)
  | MV (s : T) (E e : vec) (p : T) (e0 : T) (v : vec) (e123 : T) (P : vec).  (* pga.h:308 multivector *)

  (** the two fields of a composite class, pga.h:106-108 first(), second() *)
  Definition parts (a : blade) : option (blade * blade) :=
    match a with
    | B02E s E => Some (B0 s, B2E E)
    | B02e s e => Some (B0 s, B2e e)
    | B22 E e => Some (B2E E, B2e e)
    | B2E4 E p => Some (B2E E, B4 p)
    | B2e4 e p => Some (B2e e, B4 p)
    | B024 s E e p => Some (B02E s E, B2e4 e p)
    | B13 e0 v t P => Some (B1 e0 v, B3 t P)
    | MV s E e p e0 v t P => Some (B024 s E e p, B13 e0 v t P)
    | _ => None
    end.

  (** pga.h:76-104 closed operators: unary -, and * and / by a T *)
  Definition neg (a : blade) : blade :=
    match a with
    | Zero => Zero
    | B0 s => B0 (- s) | B1 e0 v => B1 (- e0) (vneg v) | B2E E => B2E (vneg E) | B2e e => B2e (vneg e)
    | B3 t P => B3 (- t) (vneg P) | B4 p => B4 (- p)
    | B02E s E => B02E (- s) (vneg E) | B02e s e => B02e (- s) (vneg e) | B22 E e => B22 (vneg E) (vneg e)
    | B2E4 E p => B2E4 (vneg E) (- p) | B2e4 e p => B2e4 (vneg e) (- p)
    | B024 s E e p => B024 (- s) (vneg E) (vneg e) (- p)
    | B13 e0 v t P => B13 (- e0) (vneg v) (- t) (vneg P)
    | MV s E e p e0 v t P => MV (- s) (vneg E) (vneg e) (- p) (- e0) (vneg v) (- t) (vneg P)
    end.
  Definition scale_by (f : T -> T -> T) (g : vec -> T -> vec) (a : blade) (t : T) : blade :=
    match a with
    | Zero => Zero
    | B0 s => B0 (f s t) | B1 e0 v => B1 (f e0 t) (g v t) | B2E E => B2E (g E t) | B2e e => B2e (g e t)
    | B3 w P => B3 (f w t) (g P t) | B4 p => B4 (f p t)
    | B02E s E => B02E (f s t) (g E t) | B02e s e => B02e (f s t) (g e t) | B22 E e => B22 (g E t) (g e t)
    | B2E4 E p => B2E4 (g E t) (f p t) | B2e4 e p => B2e4 (g e t) (f p t)
    | B024 s E e p => B024 (f s t) (g E t) (g e t) (f p t)
    | B13 e0 v w P => B13 (f e0 t) (g v t) (f w t) (g P t)
    | MV s E e p e0 v w P => MV (f s t) (g E t) (g e t) (f p t) (f e0 t) (g v t) (f w t) (g P t)
    end.
  (** pga.h:79,86 and 94,101; pga.h:571 t * b is b * t *)
  Definition smul := scale_by mul vmul.
  (** pga.h:80,87 and 95,102 *)
  Definition sdiv := scale_by div vdiv.

  (** pga.h:126, 141, 156, 171, 186, 201 and 110: rev() *)
  Definition rev (a : blade) : blade :=
    match a with
    | Zero => Zero
    | B0 s => B0 s | B1 e0 v => B1 e0 v | B2E E => B2E (vneg E) | B2e e => B2e (vneg e)
    | B3 t P => B3 (- t) (vneg P) | B4 p => B4 p
    | B02E s E => B02E s (vneg E) | B02e s e => B02e s (vneg e) | B22 E e => B22 (vneg E) (vneg e)
    | B2E4 E p => B2E4 (vneg E) p | B2e4 e p => B2e4 (vneg e) p
    | B024 s E e p => B024 s (vneg E) (vneg e) p
    | B13 e0 v t P => B13 e0 v (- t) (vneg P)
    | MV s E e p e0 v t P => MV s (vneg E) (vneg e) p e0 v (- t) (vneg P)
    end.
  (** pga.h:127, 142, 157, 172, 187, 202 and 111: norm2() *)
  Definition norm2 (a : blade) : T :=
    match a with
    | Zero => zero
    | B0 s => s * s | B1 _ v => vabs2 v | B2E E => vabs2 E | B2e _ => zero | B3 t _ => t * t | B4 _ => zero
    | B02E s E => s * s + vabs2 E | B02e s _ => s * s + zero | B22 E _ => vabs2 E + zero
    | B2E4 E _ => vabs2 E + zero | B2e4 _ _ => zero + zero
    | B024 s E _ _ => (s * s + vabs2 E) + (zero + zero)
    | B13 _ v t _ => vabs2 v + t * t
    | MV s E _ _ _ v t _ => ((s * s + vabs2 E) + (zero + zero)) + (vabs2 v + t * t)
    end.
  (** pga.h:129, 144, 159, 174, 189, 204 and 113: diff2() *)
  Definition diff2 (a : blade) : T :=
    match a with
    | Zero => zero
    | B0 s => s * s | B1 _ v => vabs2 v | B2E E => - vabs2 E | B2e _ => zero | B3 t _ => - (t * t) | B4 _ => zero
    | B02E s E => s * s + - vabs2 E | B02e s _ => s * s + zero | B22 E _ => - vabs2 E + zero
    | B2E4 E _ => - vabs2 E + zero | B2e4 _ _ => zero + zero
    | B024 s E _ _ => (s * s + - vabs2 E) + (zero + zero)
    | B13 _ v t _ => vabs2 v + - (t * t)
    | MV s E _ _ _ v t _ => ((s * s + - vabs2 E) + (zero + zero)) + (vabs2 v + - (t * t))
    end.

  (** pga.h:354-368 dual *)
  Definition dual (a : blade) : blade :=
    match a with
    | Zero => Zero
    | B0 s => B4 s | B1 e0 v => B3 e0 v | B2E E => B2e E | B2e e => B2E e | B3 t P => B1 t P | B4 p => B0 p
    | B02E s E => B2e4 E s | B02e s e => B2E4 e s | B22 E e => B22 e E
    | B2E4 E p => B02e p E | B2e4 e p => B02E p e
    | B024 s E e p => B024 p e E s
    | B13 e0 v t P => B13 t P e0 v
    | MV s E e p e0 v t P => MV p e E s t P e0 v
    end.

  (** pga.h:371-506 get<B>::b0 ... b4; None is a value of class zero *)
  Definition get0 (a : blade) : option T :=
    match a with B0 s | B02E s _ | B02e s _ | B024 s _ _ _ | MV s _ _ _ _ _ _ _ => Some s | _ => None end.
  Definition get2E (a : blade) : option vec :=
    match a with B2E E | B02E _ E | B22 E _ | B2E4 E _ | B024 _ E _ _ | MV _ E _ _ _ _ _ _ => Some E | _ => None end.
  Definition get2e (a : blade) : option vec :=
    match a with B2e e | B02e _ e | B22 _ e | B2e4 e _ | B024 _ _ e _ | MV _ _ e _ _ _ _ _ => Some e | _ => None end.
  Definition get4 (a : blade) : option T :=
    match a with B4 p | B2E4 _ p | B2e4 _ p | B024 _ _ _ p | MV _ _ _ p _ _ _ _ => Some p | _ => None end.
  Definition get1 (a : blade) : option (T * vec) :=
    match a with B1 e0 v | B13 e0 v _ _ | MV _ _ _ _ e0 v _ _ => Some (e0, v) | _ => None end.
  Definition get3 (a : blade) : option (T * vec) :=
    match a with B3 t P | B13 _ _ t P | MV _ _ _ _ _ _ t P => Some (t, P) | _ => None end.

  (** pga.h:509-524 combine024; missing fields are filled in by the constructors pga.h:70-74 *)
  Definition combine024 (s : option T) (E e : option vec) (p : option T) : blade :=
    match s, E, e, p with
    | None, None, None, None => Zero
    | Some s, None, None, None => B0 s
    | None, Some E, None, None => B2E E
    | None, None, Some e, None => B2e e
    | None, None, None, Some p => B4 p
    | Some s, Some E, None, None => B02E s E
    | Some s, None, Some e, None => B02e s e
    | None, Some E, Some e, None => B22 E e
    | None, Some E, None, Some p => B2E4 E p
    | None, None, Some e, Some p => B2e4 e p
    | Some s, None, None, Some p => B024 s vzero vzero p
    | None, Some E, Some e, Some p => B024 zero E e p
    | Some s, None, Some e, Some p => B024 s vzero e p
    | Some s, Some E, None, Some p => B024 s E vzero p
    | Some s, Some E, Some e, None => B024 s E e zero
    | Some s, Some E, Some e, Some p => B024 s E e p
    end.
  (** pga.h:526-529 combine13 *)
  Definition combine13 (a b : option (T * vec)) : blade :=
    match a, b with
    | None, None => Zero
    | Some (e0, v), None => B1 e0 v
    | None, Some (t, P) => B3 t P
    | Some (e0, v), Some (t, P) => B13 e0 v t P
    end.
  (** pga.h:276-283 the constructors of blade024; None: there is no such constructor *)
  Definition to024 (a : blade) : option (T * vec * vec * T) :=
    match a with
    | B0 s => Some (s, vzero, vzero, zero)
    | B2E E => Some (zero, E, vzero, zero)
    | B2e e => Some (zero, vzero, e, zero)
    | B4 p => Some (zero, vzero, vzero, p)
    | B02E s E => Some (s, E, vzero, zero)
    | B02e s e => Some (s, vzero, e, zero)
    | B22 E e => Some (zero, E, e, zero)
    | B2E4 E p => Some (zero, E, vzero, p)
    | B2e4 e p => Some (zero, vzero, e, p)
    | B024 s E e p => Some (s, E, e, p)
    | _ => None
    end.
  (** pga.h:298 the constructors of blade13 *)
  Definition to13 (a : blade) : option (T * vec * T * vec) :=
    match a with
    | B1 e0 v => Some (e0, v, zero, vzero)
    | B3 t P => Some (zero, vzero, t, P)
    | B13 e0 v t P => Some (e0, v, t, P)
    | _ => None
    end.
  (** pga.h:531-534 combine_multivector *)
  Definition combine_mv (l r : blade) : option blade :=
    match l, r with
    | Zero, _ => Some r
    | _, Zero => Some l
    | _, _ => let* '(s, E, e, p) := to024 l in
              let* '(e0, v, t, P) := to13 r in Some (MV s E e p e0 v t P)
    end.

  (** the sum and the difference of two fields, where None is a value of class zero
      (pga.h:537-538, 554-555 and the closed operators) *)
  Definition oadd {A : Type} (f : A -> A -> A) (a b : option A) : option A :=
    match a, b with None, _ => b | _, None => a | Some a, Some b => Some (f a b) end.
  (** zero - b, pga.h:555, returns a reference to the temporary -b: reading it is undefined *)
  Definition osub {A : Type} (f : A -> A -> A) (a b : option A) : option (option A) :=
    match a, b with None, None => Some None | None, Some _ => None | _, None => Some a
    | Some a, Some b => Some (Some (f a b)) end.
  Definition add1 (a b : T * vec) : T * vec := (fst a + fst b, vadd (snd a) (snd b)).
  Definition sub1 (a b : T * vec) : T * vec := (fst a - fst b, vsub (snd a) (snd b)).

  (** pga.h:537-551 a + b; the closed operators of pga.h:84, 99 apply to two values of the same
      class and add their fields, as the general case does *)
  Definition plus (a b : blade) : option blade :=
    match a, b with
    | Zero, _ => Some b
    | _, Zero => Some a
    | _, _ => combine_mv (combine024 (oadd add (get0 a) (get0 b)) (oadd vadd (get2E a) (get2E b))
                            (oadd vadd (get2e a) (get2e b)) (oadd add (get4 a) (get4 b)))
                (combine13 (oadd add1 (get1 a) (get1 b)) (oadd add1 (get3 a) (get3 b)))
    end.
  (** pga.h:554-568 a - b; likewise pga.h:85, 100 *)
  Definition minus (a b : blade) : option blade :=
    match a, b with
    | _, Zero => Some a
    | Zero, _ => None
    | _, _ =>
        let* s := osub sub (get0 a) (get0 b) in
        let* E := osub vsub (get2E a) (get2E b) in
        let* e := osub vsub (get2e a) (get2e b) in
        let* p := osub sub (get4 a) (get4 b) in
        let* x := osub sub1 (get1 a) (get1 b) in
        let* y := osub sub1 (get3 a) (get3 b) in
        combine_mv (combine024 s E e p) (combine13 x y)
    end.

  (** pga.h:133-146, 178-191: blade1(v), blade1(e0), blade3(P), blade3(t) *)
  Definition B1v (v : vec) := B1 zero v.
  Definition B1s (e0 : T) := B1 e0 vzero.
  Definition B3v (P : vec) := B3 zero P.
  Definition B3s (t : T) := B3 t vzero.

  (** x + y + z of the products below *)
  Definition plus3 (a b c : blade) : option blade := let* x := plus a b in plus x c.

  (** pga.h:573-611 geometric product of primitive classes *)
  Definition mul_prim (a b : blade) : option blade :=
    match a, b with
    | Zero, _ => Some Zero
    | _, Zero => Some Zero
    | B0 a, B0 b => Some (B0 (a * b))
    | B0 a, B1 e0 v => Some (B1 (a * e0) (lmul a v))
    | B0 a, B2E E => Some (B2E (lmul a E))
    | B0 a, B2e e => Some (B2e (lmul a e))
    | B0 a, B3 t P => Some (B3 (a * t) (lmul a P))
    | B0 a, B4 p => Some (B4 (a * p))
    | B1 e0 v, B0 s => Some (B1 (e0 * s) (vmul v s))
    | B1 e0 v, B1 f0 w => plus3 (B0 (vdot v w)) (B2E (vcross v w)) (B2e (vsub (lmul e0 w) (vmul v f0)))
    | B1 e0 v, B2E E => plus (B1v (vneg (vcross v E))) (B3 (vdot v E) (lmul (- e0) E))
    | B1 e0 v, B2e e => plus (B1s (- vdot v e)) (B3v (vcross v e))
    | B1 e0 v, B3 t P => plus3 (B2E (vmul v t)) (B2e (vneg (vcross v P))) (B4 (e0 * t + vdot v P))
    | B1 e0 v, B4 p => Some (B3v (vmul v p))
    | B2E E, B0 s => Some (B2E (vmul E s))
    | B2E E, B1 e0 v => plus (B1v (vneg (vcross E v))) (B3 (vdot E v) (vmul E (- e0)))
    | B2E E, B2E F => plus (B0 (- vdot E F)) (B2E (vneg (vcross E F)))
    | B2E E, B2e f => plus (B2e (vneg (vcross E f))) (B4 (vdot E f))
    | B2E E, B3 t P => plus (B1 (vdot E P) (vmul E (- t))) (B3v (vneg (vcross E P)))
    | B2E E, B4 p => Some (B2e (vmul E (- p)))
    | B2e e, B0 s => Some (B2e (vmul e s))
    | B2e e, B1 f0 v => plus (B1s (vdot e v)) (B3v (vneg (vcross e v)))
    | B2e e, B2E F => plus (B2e (vneg (vcross e F))) (B4 (vdot e F))
    | B2e e, B2e f => Some Zero
    | B2e e, B3 t P => Some (B3v (vmul e (- t)))
    | B2e e, B4 p => Some Zero
    | B3 t P, B0 s => Some (B3 (t * s) (vmul P s))
    | B3 t P, B1 e0 v => plus3 (B2E (lmul t v)) (B2e (vcross P v)) (B4 (- t * e0 - vdot P v))
    | B3 t P, B2E F => plus (B1 (vdot P F) (lmul (- t) F)) (B3v (vneg (vcross P F)))
    | B3 t P, B2e f => Some (B3v (lmul t f))
    | B3 t P, B3 u Q => plus (B0 (- t * u)) (B2e (vsub (vmul P u) (lmul t Q)))
    | B3 t P, B4 p => Some (B1s (t * p))
    | B4 p, B0 s => Some (B4 (p * s))
    | B4 p, B1 e0 v => Some (B3v (lmul (- p) v))
    | B4 p, B2E F => Some (B2e (lmul (- p) F))
    | B4 p, B2e f => Some Zero
    | B4 p, B3 t P => Some (B1s (- p * t))
    | B4 p, B4 r => Some Zero
    | _, _ => None
    end.

  (** pga.h:618-656 wedge of primitive classes *)
  Definition wedge_prim (a b : blade) : option blade :=
    match a, b with
    | Zero, _ => Some Zero
    | _, Zero => Some Zero
    | B0 a, B0 b => Some (B0 (a * b))
    | B0 a, B1 e0 v => Some (B1 (a * e0) (lmul a v))
    | B0 a, B2E E => Some (B2E (lmul a E))
    | B0 a, B2e e => Some (B2e (lmul a e))
    | B0 a, B3 t P => Some (B3 (a * t) (lmul a P))
    | B0 a, B4 p => Some (B4 (a * p))
    | B1 e0 v, B0 s => Some (B1 (e0 * s) (vmul v s))
    | B1 e0 v, B1 f0 w => plus (B2E (vcross v w)) (B2e (vsub (lmul e0 w) (vmul v f0)))
    | B1 e0 v, B2E E => Some (B3 (vdot v E) (lmul (- e0) E))
    | B1 e0 v, B2e e => Some (B3v (vcross v e))
    | B1 e0 v, B3 t P => Some (B4 (e0 * t + vdot v P))
    | B1 e0 v, B4 p => Some Zero
    | B2E E, B0 s => Some (B2E (vmul E s))
    | B2E E, B1 e0 v => Some (B3 (vdot E v) (vmul E (- e0)))
    | B2E E, B2E F => Some Zero
    | B2E E, B2e f => Some (B4 (vdot E f))
    | B2E E, B3 t P => Some Zero
    | B2E E, B4 p => Some Zero
    | B2e e, B0 s => Some (B2e (vmul e s))
    | B2e e, B1 f0 v => Some (B3v (vneg (vcross e v)))
    | B2e e, B2E F => Some (B4 (vdot e F))
    | B2e e, B2e f => Some Zero
    | B2e e, B3 t P => Some Zero
    | B2e e, B4 p => Some Zero
    | B3 t P, B0 s => Some (B3 (t * s) (vmul P s))
    | B3 t P, B1 e0 v => Some (B4 (- t * e0 - vdot P v))
    | B3 t P, B2E F => Some Zero
    | B3 t P, B2e f => Some Zero
    | B3 t P, B3 u Q => Some Zero
    | B3 t P, B4 p => Some Zero
    | B4 p, B0 s => Some (B4 (p * s))
    | B4 p, B1 e0 v => Some Zero
    | B4 p, B2E F => Some Zero
    | B4 p, B2e f => Some Zero
    | B4 p, B3 t P => Some Zero
    | B4 p, B4 r => Some Zero
    | _, _ => None
    end.

  (** pga.h:663-701 dot of primitive classes *)
  Definition dot_prim (a b : blade) : option blade :=
    match a, b with
    | Zero, _ => Some Zero
    | _, Zero => Some Zero
    | B0 a, B0 b => Some (B0 (a * b))
    | B0 a, B1 e0 v => Some (B1 (a * e0) (lmul a v))
    | B0 a, B2E E => Some (B2E (lmul a E))
    | B0 a, B2e e => Some (B2e (lmul a e))
    | B0 a, B3 t P => Some (B3 (a * t) (lmul a P))
    | B0 a, B4 p => Some (B4 (a * p))
    | B1 e0 v, B0 s => Some (B1 (e0 * s) (vmul v s))
    | B1 e0 v, B1 f0 w => Some (B0 (vdot v w))
    | B1 e0 v, B2E E => Some (B1v (vneg (vcross v E)))
    | B1 e0 v, B2e e => Some (B1s (- vdot v e))
    | B1 e0 v, B3 t P => plus (B2E (vmul v t)) (B2e (vneg (vcross v P)))
    | B1 e0 v, B4 p => Some (B3v (vmul v p))
    | B2E E, B0 s => Some (B2E (vmul E s))
    | B2E E, B1 e0 v => Some (B1v (vneg (vcross E v)))
    | B2E E, B2E F => Some (B0 (- vdot E F))
    | B2E E, B2e f => Some Zero
    | B2E E, B3 t P => Some (B1 (vdot E P) (vmul E (- t)))
    | B2E E, B4 p => Some (B2e (vmul E (- p)))
    | B2e e, B0 s => Some (B2e (vmul e s))
    | B2e e, B1 f0 v => Some (B1s (vdot e v))
    | B2e e, B2E F => Some Zero
    | B2e e, B2e f => Some Zero
    | B2e e, B3 t P => Some Zero
    | B2e e, B4 p => Some Zero
    | B3 t P, B0 s => Some (B3 (t * s) (vmul P s))
    | B3 t P, B1 e0 v => plus (B2E (lmul t v)) (B2e (vcross P v))
    | B3 t P, B2E F => Some (B1 (vdot P F) (lmul (- t) F))
    | B3 t P, B2e f => Some Zero
    | B3 t P, B3 u Q => Some (B0 (- t * u))
    | B3 t P, B4 p => Some (B1s (t * p))
    | B4 p, B0 s => Some (B4 (p * s))
    | B4 p, B1 e0 v => Some (B3v (lmul (- p) v))
    | B4 p, B2E F => Some (B2e (lmul (- p) F))
    | B4 p, B2e f => Some Zero
    | B4 p, B3 t P => Some (B1s (- p * t))
    | B4 p, B4 r => Some Zero
    | _, _ => None
    end.

  (** pga.h:708-746 join of primitive classes *)
  Definition join_prim (a b : blade) : option blade :=
    match a, b with
    | Zero, _ => Some Zero
    | _, Zero => Some Zero
    | B0 a, B0 b => Some Zero
    | B0 a, B1 e0 v => Some Zero
    | B0 a, B2E E => Some Zero
    | B0 a, B2e e => Some Zero
    | B0 a, B3 t P => Some Zero
    | B0 a, B4 p => Some (B0 (a * p))
    | B1 e0 v, B0 s => Some Zero
    | B1 e0 v, B1 f0 w => Some Zero
    | B1 e0 v, B2E E => Some Zero
    | B1 e0 v, B2e e => Some Zero
    | B1 e0 v, B3 t P => Some (B0 (- e0 * t - vdot v P))
    | B1 e0 v, B4 p => Some (B1 (e0 * p) (vmul v p))
    | B2E E, B0 s => Some Zero
    | B2E E, B1 e0 v => Some Zero
    | B2E E, B2E F => Some Zero
    | B2E E, B2e f => Some (B0 (vdot E f))
    | B2E E, B3 t P => Some (B1v (vneg (vcross E P)))
    | B2E E, B4 p => Some (B2E (vmul E p))
    | B2e e, B0 s => Some Zero
    | B2e e, B1 f0 v => Some Zero
    | B2e e, B2E F => Some (B0 (vdot e F))
    | B2e e, B2e f => Some Zero
    | B2e e, B3 t P => Some (B1 (vdot e P) (vmul e (- t)))
    | B2e e, B4 p => Some (B2e (vmul e p))
    | B3 t P, B0 s => Some Zero
    | B3 t P, B1 e0 v => Some (B0 (t * e0 + vdot P v))
    | B3 t P, B2E F => Some (B1v (vcross P F))
    | B3 t P, B2e f => Some (B1 (vdot P f) (lmul (- t) f))
    | B3 t P, B3 u Q => plus (B2E (vadd (vmul P (- u)) (lmul t Q))) (B2e (vcross P Q))
    | B3 t P, B4 p => Some (B3 (t * p) (vmul P p))
    | B4 p, B0 s => Some (B0 (p * s))
    | B4 p, B1 e0 v => Some (B1 (p * e0) (lmul p v))
    | B4 p, B2E F => Some (B2E (lmul p F))
    | B4 p, B2e f => Some (B2e (lmul p f))
    | B4 p, B3 t P => Some (B3 (p * t) (lmul p P))
    | B4 p, B4 r => Some (B4 (p * r))
    | _, _ => None
    end.

  (** pga.h:612-613 (657-658, 702-703, 747-748, 937-938) composite on the left *)
  Definition lift_l (f : blade -> blade -> option blade) (a b : blade) : option blade :=
    match parts a with
    | Some (x, y) => let* u := f x b in let* v := f y b in plus u v
    | None => f a b
    end.
  (** pga.h:614-615 (659-660, 704-705, 749-750) composite on the right *)
  Definition lift_r (f : blade -> blade -> option blade) (a b : blade) : option blade :=
    match parts b with
    | Some (x, y) => let* u := f a x in let* v := f a y in plus u v
    | None => f a b
    end.
  (** the overloads call one another; classes are nested three deep *)
  Definition product (prim : blade -> blade -> option blade) : blade -> blade -> option blade :=
    lift_r (lift_r (lift_r (lift_l (lift_l (lift_l prim))))).
  Definition gmul := product mul_prim.      (* a * b *)
  Definition wedge := product wedge_prim.   (* a ^ b *)
  Definition dot := product dot_prim.       (* a & b *)
  Definition join := product join_prim.     (* a | b *)

  (** pga.h:130, 145, 160, 175, 190, 205, 219, 231, 243, 255, 267, 286-289, 301-304 inv();
      multivector has none *)
  Definition inv (a : blade) : option blade :=
    match a with
    | Zero | MV _ _ _ _ _ _ _ _ => None
    | B024 s E e p =>
        let n2 := norm2 a in
        let t := (vdot E e - s * p) * two / n2 in
        let e' := vadd (vneg e) (vmul E t) in
        let p' := p + s * t in
        Some (sdiv (B024 s (vneg E) e' p') n2)
    | B13 e0 v w P =>
        let n2 := norm2 a in
        let t := (vdot v P + e0 * w) * two / n2 in
        Some (sdiv (B13 (e0 - w * t) v (- w) (vsub (vmul v t) P)) n2)
    | _ => Some (sdiv (rev a) (norm2 a))
    end.

  (** pga.h:782-934 sandwich a % b for a primitive class on the left *)
  Definition sand_prim (a b : blade) : option blade :=
    match a, b with
    | Zero, _ | _, Zero | _, MV _ _ _ _ _ _ _ _ => None
    | B0 _, (B1 _ _ | B3 _ _ | B13 _ _ _ _) => Some (smul a (- norm2 b))
    | B0 _, _ => Some (smul a (norm2 b))

    | B1 _ _, B0 _ => Some (smul a (norm2 b))
    | B1 _ v, B1 _ w => minus (smul a (norm2 b)) (smul (smul b (vdot v w)) two)
    | B1 e0 v, B2E E => Some (B1 (e0 * norm2 b) (vadd (vmul v (diff2 b)) (vmul E (vdot v E * two))))
    | B1 _ _, B2e _ => Some (B1s zero)
    | B1 e0 v, B3 t P => Some (B1 (e0 * norm2 b + t * vdot v P * two) (vmul v (diff2 b)))
    | B1 _ _, B4 _ => Some (B1s zero)
    | B1 e0 v, B02E s E =>
        Some (B1 (e0 * norm2 b)
                (vadd (vmul v (diff2 b)) (vmul (vadd (vmul E (vdot v E)) (lmul s (vcross v E))) two)))
    | B1 e0 v, B02e s e => Some (B1 (e0 * norm2 b + s * vdot v e * two) (vmul v (diff2 b)))
    | B1 e0 v, B22 E e =>
        Some (B1 (e0 * norm2 b + vdot e (vcross v E) * two)
                (vadd (vmul v (diff2 b)) (vmul E (vdot v E * two))))
    | B1 e0 v, B2E4 E p =>
        let d := vdot v E * two in
        Some (B1 (e0 * norm2 b + p * d) (vadd (vmul v (diff2 b)) (vmul E d)))
    | B1 _ _, B2e4 _ _ => Some (B1s zero)
    | B1 e0 v, B024 s E e p =>
        Some (B1 (e0 * norm2 b + (s * vdot v e + p * vdot v E + vdot e (vcross v E)) * two)
                (vadd (vmul v (diff2 b)) (vmul (vadd (vmul E (vdot v E)) (lmul s (vcross v E))) two)))
    | B1 e0 v, B13 f0 w t P =>
        Some (B1 (e0 * norm2 b + (- f0 * vdot v w + t * vdot v P - vdot P (vcross v w)) * two)
                (vadd (vmul v (diff2 b)) (vmul (vsub (lmul t (vcross v w)) (vmul w (vdot v w))) two)))

    | B2E _, B0 _ => Some (smul a (norm2 b))
    | B2E F, B1 e0 v =>
        plus (B2E (vsub (vmul F (diff2 b)) (vmul v (vdot F v * two)))) (B2e (lmul (e0 * two) (vcross F v)))
    | B2E F, B2E E => Some (B2E (vadd (vmul F (diff2 b)) (vmul E (vdot F E * two))))
    | B2E _, B2e _ => Some (B2E vzero)
    | B2E F, B3 t P => plus (B2E (vmul F (diff2 b))) (B2e (lmul (t * two) (vcross F P)))
    | B2E _, B4 _ => Some (B2E vzero)
    | B2E F, B02E s E =>
        Some (B2E (vadd (vmul F (diff2 b)) (vmul (vadd (vmul E (vdot F E)) (lmul s (vcross F E))) two)))
    | B2E F, B02e s e => plus (B2E (vmul F (diff2 b))) (B2e (lmul (s * two) (vcross F e)))
    | B2E F, B22 E e =>
        let c := vdot F E * two in
        let d := vdot F e * two in
        plus (B2E (vadd (vmul F (diff2 b)) (vmul E c))) (B2e (vadd (vmul E d) (vmul e c)))
    | B2E F, B2E4 E p =>
        plus (B2E (vadd (vmul F (diff2 b)) (vmul E (vdot F E * two)))) (B2e (lmul (- two * p) (vcross F E)))
    | B2E _, B2e4 _ _ => Some (B2E vzero)
    | B2E F, B024 s E e p =>
        plus (B2E (vadd (vmul F (diff2 b)) (vmul (vadd (vmul E (vdot F E)) (lmul s (vcross F E))) two)))
          (B2e (vmul (vsub (vadd (vadd (vadd (vmul F (p * s * - two)) (vmul E (vdot F e))) (lmul s (vcross F e)))
                              (vmul e (vdot F E))) (lmul p (vcross F E))) two))
    | B2E F, B13 f0 w t P =>
        plus (B2E (vadd (vmul F (diff2 b)) (vmul (vsub (lmul t (vcross F w)) (vmul w (vdot F w))) two)))
          (B2e (vmul (vadd (vsub (vadd (vsub (vmul F (f0 * t * - two)) (vmul P (vdot F w))) (lmul f0 (vcross F w)))
                              (vmul w (vdot F P))) (lmul t (vcross F P))) two))

    | B2e _, B0 _ => Some (smul a (norm2 b))
    | B2e f, B1 e0 v => Some (B2e (vadd (vmul f (- diff2 b)) (vmul (vmul v (vdot f v)) two)))
    | B2e f, B2E E => Some (B2e (vadd (vmul f (diff2 b)) (vmul E (vdot f E * two))))
    | B2e _, B2e _ => Some (B2e vzero)
    | B2e _, B3 _ _ => Some (smul a (norm2 b))
    | B2e _, B4 _ => Some (B2e vzero)
    | B2e f, B02E s E =>
        Some (B2e (vadd (vmul f (diff2 b)) (vmul (vadd (lmul s (vcross f E)) (vmul E (vdot f E))) two)))
    | B2e _, B02e _ _ => Some (smul a (norm2 b))
    | B2e f, B22 E _ | B2e f, B2E4 E _ =>
        Some (B2e (vadd (vmul f (diff2 (B2E E))) (vmul E (vdot f E * two))))
    | B2e _, B2e4 _ _ => Some (B2e vzero)
    | B2e f, B024 s E e p =>
        Some (B2e (vadd (vmul f (diff2 b)) (vmul (vadd (lmul s (vcross f E)) (vmul E (vdot f E))) two)))
    | B2e f, B13 f0 w t P =>
        Some (B2e (vadd (vmul f (- diff2 b)) (vmul (vsub (vmul w (vdot f w)) (lmul t (vcross f w))) two)))

    | B3 _ _, B0 _ => Some (smul a (norm2 b))
    | B3 w Q, B1 e0 v =>
        Some (B3 (w * - norm2 b) (vadd (vmul Q (- diff2 b)) (vmul v ((vdot Q v + w * e0) * two))))
    | B3 w Q, B2E E => Some (B3 (w * norm2 b) (vadd (vmul Q (diff2 b)) (vmul E (vdot Q E * two))))
    | B3 _ _, B2e _ => Some (B3s zero)
    | B3 w Q, B3 t P => Some (B3 (w * - norm2 b) (vsub (vmul Q (- diff2 b)) (vmul P (w * t * two))))
    | B3 _ _, B4 _ => Some (B3s zero)
    | B3 w Q, B02E s E =>
        Some (B3 (w * norm2 b)
                (vadd (vmul Q (diff2 b)) (vmul (vadd (vmul E (vdot Q E)) (lmul s (vcross Q E))) two)))
    | B3 w Q, B02e s e => Some (B3 (w * norm2 b) (vsub (vmul Q (diff2 b)) (vmul e (w * s * two))))
    | B3 w Q, B22 E e =>
        Some (B3 (w * norm2 b)
                (vadd (vmul Q (diff2 b)) (vmul (vadd (vmul E (vdot Q E)) (lmul w (vcross E e))) two)))
    | B3 w Q, B2E4 E p =>
        Some (B3 (w * norm2 b) (vadd (vmul Q (diff2 b)) (vmul E ((vdot Q E - w * p) * two))))
    | B3 _ _, B2e4 _ _ => Some (B3s zero)
    | B3 w Q, B024 s E e p =>
        Some (B3 (w * norm2 b)
                (vadd (vmul Q (diff2 b))
                   (vmul (vadd (vadd (vsub (vmul E (vdot Q E - w * p)) (vmul e (w * s))) (lmul s (vcross Q E)))
                            (lmul w (vcross E e))) two)))
    | B3 w Q, B13 f0 v t P =>
        Some (B3 (w * - norm2 b)
                (vadd (vmul Q (- diff2 b))
                   (vmul (vsub (vsub (vsub (vmul v (vdot Q v + w * f0)) (vmul P (w * t))) (lmul t (vcross Q v)))
                            (lmul w (vcross v P))) two)))

    | B4 _, _ => Some (smul a (norm2 b))
    | _, _ => None
    end.
  Definition sandwich : blade -> blade -> option blade := lift_l (lift_l (lift_l sand_prim)).

  (** pga.h:944-963 plane, line, point *)
  Definition plane (n : vec) (d : T) : blade := B1 d n.
  Definition line (l P : vec) : blade := B22 l (vcross l P).
  Definition point (P : vec) (h : T) : blade := B3 h (vneg P).
  (** pga.h:969-973 translator *)
  Definition translator (t : vec) : blade := B02e one (vdiv t two).
  (** pga.h:977-979 rotor, given unit = n.unit() *)
  Definition rotor (unit : vec) (c s : T) : blade := B02E c (vmul unit (- s)).
End Pga.
