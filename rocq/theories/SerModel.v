(** Model of structure/math/series.h.

    A series is its coefficient list; [N()] is the length of the list (all constructors resize the list to N).
    Coefficients are any type T as in PolyModel; [ofint] converts an integer to T (castOf, or T's constructor from int),
    [thr] is the multiplication threshold of polynom.  Simplification: [int] sizes are unbounded. *)
From Verif Require Import Lib BaseModel PolyModel.
Open Scope Z_scope.

Section Ser.
  Context {T : Type}.
  Variables (zero one : T) (tadd tsub tmul : T -> T -> T) (topp : T -> T) (tdiv : T -> T -> option T).
  Variable teqb : T -> T -> bool.
  Variable ofint : Z -> T.
  Variable thr : Z.
  (** the floating point estimate used by isqrtc *)
  Variable est : Z -> Z.
  Local Notation resize := (p_resize zero).
  Local Notation at_ := (p_at zero).

  (** [operator +=]: series.h 100 *)
  Definition s_add (a b : list T) : option (list T) := let* r := op_add zero tadd teqb a b in Some (resize r (length a)).
  (** [operator -=]: series.h 101 *)
  Definition s_sub (a b : list T) : option (list T) := let* r := op_sub zero tsub teqb a b in Some (resize r (length a)).
  (** unary [operator -]: series.h 93 *)
  Definition s_neg (a : list T) : option (list T) := let* r := op_neg zero topp teqb a in Some (resize r (length a)).
  (** [operator *=]: series.h 102 *)
  Definition s_mul (a b : list T) : option (list T) := let* e := p_mul zero tadd tsub tmul teqb thr (env2 a b) 0 0 1 (Z.of_nat (length a) - 1) in Some (e O).
  (** [operator *=] by a scalar: series.h 105 *)
  Definition s_smul (a : list T) (v : T) : option (list T) := let* r := op_smul zero tmul teqb a v in Some (resize r (length a)).
  (** [operator /=] by a scalar: series.h 106 *)
  Definition s_sdiv (a : list T) (v : T) : option (list T) := let* r := op_sdiv zero tdiv teqb a v in Some (resize r (length a)).
  (** [inverse]: series.h 111 *)
  Definition s_inverse (a : list T) : option (list T) :=
    let* r := p_inverse zero one tadd tsub tmul topp tdiv teqb thr a (Z.of_nat (length a)) in Some (resize r (length a)).
  (** [operator /=]: series.h 103 *)
  Definition s_div (a b : list T) : option (list T) := let* i := s_inverse b in s_mul a i.
  (** [derivative]: series.h 112 *)
  Definition s_derivative (a : list T) : option (list T) :=
    let* r := p_derivative zero tmul teqb (fun i => ofint (Z.of_nat i)) a in Some (resize r (length a)).
  (** [integral]: series.h 113-114 *)
  Definition s_integral (a : list T) (c0 : T) : option (list T) :=
    let* r := p_integral zero tdiv teqb (fun i => ofint (Z.of_nat i)) a c0 in Some (resize r (length a)).

  (** [pointwise_mul]: series.h 117-123 *)
  Definition s_pointwise_mul (a b : list T) : option (list T) :=
    for_range 0 (length a) (fun i s => let* x := nth_error s i in set_nth s i (tmul x (at_ b (Z.of_nat i)))) a.
  (** [shift]: series.h 142-152; a shift by more than N places moves an iterator outside the vector *)
  Definition s_shift (a : list T) (l : Z) : option (list T) :=
    let* _ := guard (Z.abs l <=? Z.of_nat (length a)) in
    let k := Z.to_nat (Z.abs l) in
    if l <? 0 then Some (resize (skipn k a ++ repeat zero k) (length a))
    else Some (resize (repeat zero k ++ firstn (length a - k) a) (length a)).
  (** [sub_mul]: series.h 155-163 *)
  Definition s_sub_mul (a : list T) (v : T) : option (list T) :=
    let* '(_, s) := for_range 1 (length a) (fun i '(vn, s) =>
      let vn := tmul vn v in
      let* x := nth_error s i in let* s := set_nth s i (tmul x vn) in Some (vn, s)) (one, a) in
    Some s.
  (** [sub_pow]: series.h 166-174 *)
  Definition s_sub_pow (a : list T) (v : Z) : option (list T) :=
    let s := resize [zero] (length a) in
    if 0 <? v then
      loopZ (Z.of_nat (length a) + 1) (fun '(i, j, s) =>
        if i <? Z.of_nat (length a) then let* s := set_nth s (Z.to_nat i) (at_ a j) in Some (inl (i + v, j + 1, s)) else Some (inr s)) (0, 0, s)
    else Some s.

  (** the inner loop of [composition], series.h 200-202: [qi[k] += pj[k] * ck] for all k *)
  Definition axpy (N : nat) (qi pj : list T) (ck : T) : option (list T) :=
    for_range 0 N (fun k q => let* x := nth_error q k in set_nth q k (tadd x (tmul (at_ pj (Z.of_nat k)) ck))) qi.
  (** [composition]: series.h 177-210 *)
  Definition s_composition (a b : list T) : option (list T) :=
    let N := length a in
    let* Kz := isqrtc est (Z.of_nat N + 1) in
    let K := Z.to_nat Kz in
    let* pm := set_nth (repeat [] (K + 1)) 0 (resize [one] N) in
    let* pm := set_nth pm 1 b in
    let* pm := for_range 2 (K + 1) (fun i pm => let* x := nth_error pm (i - 1) in let* y := nth_error pm 1 in let* z := s_mul x y in set_nth pm i z) pm in
    let* tm := set_nth (repeat [] K) 0 (resize [one] N) in
    let* pK := nth_error pm K in
    let* tm := set_nth tm 1 pK in
    let* tm := for_range 2 K (fun i tm => let* x := nth_error tm (i - 1) in let* y := nth_error tm 1 in let* z := s_mul x y in set_nth tm i z) tm in
    let* qm := for_range 0 K (fun i qm =>
      let* qi := for_range 0 K (fun j qi => let* pj := nth_error pm j in axpy N qi pj (at_ a (Z.of_nat (i * K + j)))) (resize [zero] N) in
      set_nth qm i qi) (repeat [] K) in
    let* s := nth_error qm 0 in
    for_range 1 K (fun i s => let* q := nth_error qm i in let* t := nth_error tm i in let* z := s_mul q t in s_add s z) s.

  (** [reversion]: series.h 282-296 *)
  Definition reversion_step (a : list T) (k : Z) (r : list T) : option (list T) :=
    let m := Z.to_nat (Z.min (Z.of_nat (length a)) (k * 2)) in
    let rk := resize r m in
    let pk := resize (firstn m a) m in
    let* prk := s_composition pk rk in
    let* x := nth_error prk 1 in
    let* prk1 := set_nth prk 1 (tsub x one) in
    let* drk := s_derivative rk in
    let* dprk := s_derivative prk in
    let* u := s_mul prk1 drk in
    let* u := s_div u dprk in
    s_sub rk u.
  Definition s_reversion (a : list T) : option (list T) :=
    let N := length a in
    if negb (teqb (at_ a 0) zero) then Some (resize [zero] N)
    else if teqb (at_ a 1) zero then Some (resize [zero] N)
    else
      let* v := tdiv one (at_ a 1) in
      let* r := loopZ (Z.of_nat N + 1) (fun '(k, r) =>
        if k <? Z.of_nat N then let* r := reversion_step a k r in Some (inl (k * 2, r)) else Some (inr r)) (2, [zero; v]) in
      Some (resize r N).

  (** [ln]: series.h 316-319 *)
  Definition s_ln (a : list T) (c0 : T) : option (list T) := let* d := s_derivative a in let* q := s_div d a in s_integral q c0.
  (** one step of the loop of [exp], series.h 304-310 *)
  Definition exp_step (a : list T) (l : Z) (r : list T) : option (list T) :=
    let m := Z.min (Z.of_nat (length a)) (l * 2) in
    let t := firstn (Z.to_nat m) a in
    let* g := s_ln (resize r (Z.to_nat m)) zero in
    let* t := op_sub zero tsub teqb t g in
    let* t := p_put zero t 0 (tadd (at_ t 0) one) in
    let* e := p_mul zero tadd tsub tmul teqb thr (env2 r t) 0 0 1 (m - 1) in
    Some (e O).
  (** [exp]: series.h 300-312 *)
  Definition s_exp (a : list T) : option (list T) :=
    let* r := loopZ (Z.of_nat (length a) + 1) (fun '(l, r) =>
      if l <? Z.of_nat (length a) then let* r := exp_step a l r in Some (inl (l * 2, r)) else Some (inr r)) (1, [one]) in
    Some (resize r (length a)).

  (** [powT] (base.h 158-167) on series; [None] records an undefined product *)
  Definition smulo (x y : option (list T)) : option (list T) := let* x := x in let* y := y in s_mul x y.
  (** [int(a)] for an int64_t (two's complement) and the [int] product [p.lowest() * int(a)] (series.h 327) *)
  Definition to_int (a : Z) : Z := (a + 2 ^ 31) mod 2 ^ 32 - 2 ^ 31.
  Definition int32 (z : Z) : option Z := if (- 2 ^ 31 <=? z) && (z <? 2 ^ 31) then Some z else None.
  (** [pow]: series.h 322-333; the calls of lines 327 and 331 use the default threshold *)
  Fixpoint s_pow_f (fuel : nat) (a : list T) (y threshold : Z) : option (list T) :=
    match fuel with
    | O => None
    | S fuel' =>
        if y <? threshold then let* r := powT smulo (Some (resize [one] (length a))) (Some a) y in r
        else if teqb (at_ a 0) zero then
          let l := Z.of_nat (p_lowest zero teqb a) in
          let* b := s_shift a (- l) in
          let* r := s_pow_f fuel' b y 200 in
          let* k := int32 (l * to_int y) in
          s_shift r k
        else if teqb (at_ a 0) one then
          let* g := s_ln a zero in let* g := s_smul g (ofint y) in s_exp g
        else
          let* b := s_sdiv a (at_ a 0) in
          let* r := s_pow_f fuel' b y 200 in
          let* c := powT tmul one (at_ a 0) y in
          s_smul r c
    end.
  (** (three nested calls suffice unless the recursion is endless) *)
  Definition s_pow := s_pow_f 3.

  (** [make_exponential]: series.h 347-358 *)
  Definition s_make_exponential (a : list T) : option (list T) :=
    let* fact := for_range 1 (length a) (fun i f => Some (tmul f (ofint (Z.of_nat i)))) one in
    let* ifact := tdiv one fact in
    let* '(_, s) := zdn (Z.of_nat (length a) - 1) 1 (fun i '(f, s) =>
      let* x := nth_error s (Z.to_nat i) in let* s := set_nth s (Z.to_nat i) (tmul x f) in Some (tmul f (ofint i), s)) (ifact, a) in
    Some s.
  (** [make_ordinary]: series.h 363-371 *)
  Definition s_make_ordinary (a : list T) : option (list T) :=
    let* '(_, s) := for_range 1 (length a) (fun i '(f, s) =>
      let f := tmul f (ofint (Z.of_nat i)) in
      let* x := nth_error s i in let* s := set_nth s i (tmul x f) in Some (f, s)) (one, a) in
    Some s.
  (** static [exp]: series.h 336-343 *)
  Definition s_exp_of (v : T) (N : nat) : option (list T) :=
    let* s := for_range 1 N (fun i s => let* x := nth_error s (i - 1) in set_nth s i (tmul x v)) (resize [one] N) in
    s_make_exponential s.
  (** [of]: series.h 380-386 *)
  Definition s_of (f : Z -> T) (N : nat) : option (list T) :=
    for_range 1 N (fun i s => set_nth s i (f (Z.of_nat i))) (resize [f 0] N).
End Ser.
