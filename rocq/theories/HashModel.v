(** Model of algorithm/hash/polynomial_hash.h. I = int32_t, IT = int64_t; signed overflow is undefined ([None]).
    The static tables W and WI are explicit state. Indices are exact naturals. *)
From Verif Require Import Lib.
Local Open Scope Z_scope.

Definition i32 (x : Z) : option Z := if (- 2 ^ 31 <=? x) && (x <? 2 ^ 31) then Some x else None.
Definition i64 (x : Z) : option Z := if (- 2 ^ 63 <=? x) && (x <? 2 ^ 63) then Some x else None.
(** x % m for int64 operands, the result converted to int32 *)
Definition hrem (x m : Z) : option Z := if m =? 0 then None else i32 (Z.rem x m).

(** mul(a, b, m), mul(s, a, b, m): polynomial_hash.h 83-84; the same expressions in 25, 49, 52, 53, 55 *)
Definition hmul (a b m : Z) : option Z := let* p := i64 (a * b) in hrem p m.
Definition hmad (s a b m : Z) : option Z := let* p := i64 (a * b) in let* q := i64 (s + p) in hrem q m.
(** (a + b) % m and (a + m - b) % m in int: 50-51, 155, 163, 171, 179 *)
Definition hadd2 (a b m : Z) : option Z := let* s := i32 (a + b) in hrem s m.
Definition hsub2 (a b m : Z) : option Z := let* s := i32 (a + m) in let* s := i32 (s - b) in hrem s m.
(** mul(h + M - rhs, WI[pos], M): 57, 226, 235 *)
Definition hsubmul (a b w m : Z) : option Z := let* s := i32 (a + m) in let* s := i32 (s - b) in hmul s w m.

(** _ensure: polynomial_hash.h 20-27 and 86-95 *)
Definition ensure1 (w : list Z) (sz : nat) (b m : Z) : option (list Z) :=
  let i0 := length w in
  let w := firstn sz w ++ repeat 0 (sz - i0) in
  let* '(w, i0) := (if (i0 =? 0)%nat then let* w := set_nth w 0 1 in Some (w, 1%nat) else Some (w, i0)) in
  for_range i0 (Nat.max i0 sz) (fun i w => let* x := nth_error w (i - 1) in let* y := hmul x b m in set_nth w i y) w.
(** the new table size: 30-31 and 98-100 *)
Definition grow (curr size : nat) : nat := Nat.max size (curr + curr / 2).

Section One.
  (** polynomial_hash1<M, B, BI> *)
  Variables M B BI : Z.
  Definition tabs := (list Z * list Z)%type.
  (** ensure: 29-34 *)
  Definition ensure_1 (t : tabs) (size : nat) : option tabs :=
    let '(w, wi) := t in
    if (size <=? length w)%nat then Some t else
    let size := grow (length w) size in
    let* w' := ensure1 w size B M in let* wi' := ensure1 wi size BI M in Some (w', wi').
  (** operators: 48-53; shifts 52-53; add 55; sub_shr 57 *)
  Definition mul_1 (h r : Z) := hmul h r M.
  Definition add_1 (h r : Z) := hadd2 h r M.
  Definition sub_1 (h r : Z) := hsub2 h r M.
  Definition shr_1 (t : tabs) (h : Z) (cnt : nat) : option (tabs * Z) := let* t := ensure_1 t (cnt + 1) in let* w := nth_error (snd t) cnt in let* h := hmul h w M in Some (t, h).
  Definition shl_1 (t : tabs) (h : Z) (cnt : nat) : option (tabs * Z) := let* t := ensure_1 t (cnt + 1) in let* w := nth_error (fst t) cnt in let* h := hmul h w M in Some (t, h).
  Definition addp_1 (t : tabs) (h r : Z) (pos : nat) : option (tabs * Z) := let* t := ensure_1 t (pos + 1) in let* w := nth_error (fst t) pos in let* h := hmad h r w M in Some (t, h).
  Definition sub_shr_1 (t : tabs) (h r : Z) (pos : nat) : option (tabs * Z) := let* t := ensure_1 t (pos + 1) in let* w := nth_error (snd t) pos in let* h := hsubmul h r w M in Some (t, h).
End One.

Section Many.
  (** polynomial_hash<K>: [ps] lists (M[k], B[k], BI[k]), K = length ps *)
  Variable ps : list (Z * Z * Z).
  Definition K := length ps.
  (** for (k = 0; k < K; k++) out[k] = f(k); each component reads only index k, so in-place updates are a map *)
  Fixpoint collect {A} (f : nat -> option A) (ks : list nat) : option (list A) :=
    match ks with [] => Some [] | k :: ks => let* x := f k in let* l := collect f ks in Some (x :: l) end.
  Definition each_k {A} (f : nat -> option A) : option (list A) := collect f (seq 0 K).
  (** ensure: 97-105; the size of W[0] decides for all components *)
  Definition ensure_k (t : list tabs) (size : nat) : option (list tabs) :=
    let* t0 := nth_error t 0 in
    let curr := length (fst t0) in
    if (size <=? curr)%nat then Some t else
    let size := grow curr size in
    each_k (fun k => let* p := nth_error ps k in let '(m, b, bi) := p in let* tk := nth_error t k in
      let* w := ensure1 (fst tk) size b m in let* wi := ensure1 (snd tk) size bi m in Some (w, wi)).
  (** mul, +, - by a hash: 144-150, 160-166, 176-182; by a scalar: 136-142, 152-158, 168-174 *)
  Definition op_k (f : Z -> Z -> Z -> option Z) (h r : list Z) : option (list Z) :=
    each_k (fun k => let* p := nth_error ps k in let '(m, _, _) := p in let* x := nth_error h k in let* y := nth_error r k in f x y m).
  Definition mul_k := op_k hmul.
  Definition add_k := op_k hadd2.
  Definition sub_k := op_k hsub2.
  (** shifts: 184-202 *)
  Definition shift_k (sel : tabs -> list Z) (t : list tabs) (h : list Z) (cnt : nat) : option (list tabs * list Z) :=
    let* t := ensure_k t (cnt + 1) in
    let* h := each_k (fun k => let* p := nth_error ps k in let '(m, _, _) := p in let* x := nth_error h k in let* tk := nth_error t k in let* w := nth_error (sel tk) cnt in hmul x w m) in Some (t, h).
  Definition shr_k := shift_k snd.
  Definition shl_k := shift_k fst.
  (** add 206-222, sub_shr 225-240; a scalar argument is the constant list *)
  Definition addp_k (t : list tabs) (h r : list Z) (pos : nat) : option (list tabs * list Z) :=
    let* t := ensure_k t (pos + 1) in
    let* h := each_k (fun k => let* p := nth_error ps k in let '(m, _, _) := p in let* x := nth_error h k in let* y := nth_error r k in let* tk := nth_error t k in let* w := nth_error (fst tk) pos in hmad x y w m) in Some (t, h).
  Definition sub_shr_k (t : list tabs) (h r : list Z) (pos : nat) : option (list tabs * list Z) :=
    let* t := ensure_k t (pos + 1) in
    let* h := each_k (fun k => let* p := nth_error ps k in let '(m, _, _) := p in let* x := nth_error h k in let* y := nth_error r k in let* tk := nth_error t k in let* w := nth_error (snd tk) pos in hsubmul x y w m) in Some (t, h).
  (** operator ==, <: 118-133 *)
  Fixpoint eq_k (h r : list Z) : bool := match h, r with x :: h, y :: r => if x =? y then eq_k h r else false | _, _ => true end.
  Fixpoint lt_k (h r : list Z) : bool := match h, r with x :: h, y :: r => if x =? y then lt_k h r else x <? y | _, _ => false end.
  (** constructors: 110-120 *)
  Definition zero_k : list Z := repeat 0 K.
  Definition of_list_k (l : list Z) : list Z := let sz := Nat.min K (length l) in firstn sz l ++ repeat 0 (K - sz).
End Many.

Section Cumulative.
  (** cumulative_hash<HASH>: 265-318. [S] is HASH's static state *)
  Context {S H : Type}.
  Variables (hzero : H) (ensure : S -> nat -> option S) (addi : S -> H -> Z -> nat -> option (S * H)) (sub_shr : S -> H -> H -> nat -> option (S * H)).
  (** assign: 278-287 *)
  Fixpoint assign_loop (s : S) (h : H) (pos : nat) (vh : list H) (xs : list Z) : option (S * list H) :=
    match xs with
    | [] => Some (s, vh)
    | x :: xs => let* '(s, h) := addi s h x pos in assign_loop s h (pos + 1) (vh ++ [h]) xs
    end.
  Definition assign (s : S) (vh : list H) (xs : list Z) : option (S * list H) :=
    let* s := ensure s (length xs) in assign_loop s hzero 0 vh xs.
  (** push_back 289-294, pop_back 296-298 *)
  Definition cpush (s : S) (vh : list H) (x : Z) : option (S * list H) :=
    let h := last vh hzero in let* '(s, h) := addi s h x (length vh) in Some (s, vh ++ [h]).
  Definition cpop (vh : list H) : option (list H) := match vh with [] => None | _ => Some (removelast vh) end.
  (** get: 300-305 *)
  Definition cget (s : S) (vh : list H) (b e : nat) : option (S * H) :=
    let* r := (if (0 <? e)%nat then nth_error vh (e - 1) else Some hzero) in
    if (0 <? b)%nat then let* q := nth_error vh (b - 1) in sub_shr s r q b else Some (s, r).
End Cumulative.
