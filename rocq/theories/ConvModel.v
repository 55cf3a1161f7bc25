(** Model of algorithm/math/convolutions.h. Arrays are named; two names may denote the same array (r == f etc.).
    Indices are exact naturals: the model assumes 1 << log_n fits the index type, as the code does. *)
From Verif Require Import Lib MatrixModel BitsModel.
Open Scope nat_scope.

Section Conv.
  Context {T : Type}.
  Variables (zero : T) (tadd tsub tmul : T -> T -> T).
  (** [r /= n] for an int n: [None] when undefined *)
  Variable tdivn : T -> nat -> option T.
  Definition aenv := nat -> list T.
  Definition aset (e : aenv) (r : nat) (l : list T) : aenv := fun x => if x =? r then l else e x.

  (** slow_k_convolution: convolutions.h 17-25; the others 27-46 *)
  Definition slow_k_convolution (r f g : list T) (n : nat) (k_func : nat -> nat -> nat) : option (list T) :=
    for_range 0 n (fun i r => for_range 0 n (fun j r =>
      let k := k_func i j in let* x := nth_error f i in let* y := nth_error g j in let* z := nth_error r k in set_nth r k (tadd z (tmul x y))) r) r.
  Definition slow_and_convolution r f g log_n := slow_k_convolution r f g (2 ^ log_n) Nat.land.
  Definition slow_or_convolution r f g log_n := slow_k_convolution r f g (2 ^ log_n) Nat.lor.
  Definition slow_xor_convolution r f g log_n := slow_k_convolution r f g (2 ^ log_n) Nat.lxor.
  Definition slow_max_convolution r f g n := slow_k_convolution r f g n Nat.max.
  Definition slow_cyclic_convolution r f g n := slow_k_convolution r f g n (fun i j => (i + j) mod n).

  (** fast_radix2_dif_transform: convolutions.h 51-63. [l] is log_m - 1, [b] counts the blocks: i = b * m *)
  Definition dif_pair (tr : T -> T -> T * T) (k1 k2 : nat) (f : list T) : option (list T) :=
    let* u := nth_error f k1 in let* v := nth_error f k2 in
    let '(u', v') := tr u v in let* f := set_nth f k1 u' in set_nth f k2 v'.
  Definition dif_transform (tr : T -> T -> T * T) (f : list T) (log_n : nat) : option (list T) :=
    for_down 0 log_n (fun l f =>
      let mh := 2 ^ l in let m := 2 ^ (l + 1) in
      for_range 0 (2 ^ (log_n - (l + 1))) (fun b f => for_range 0 mh (fun j f => dif_pair tr (b * m + j) (b * m + mh + j) f) f) f) f.
  (** fast_walsh_hadamard_transform 68-74, fast_arith_transform_plus 79-85, _minus 90-96 *)
  Definition walsh_hadamard := dif_transform (fun u v => (tadd u v, tsub u v)).
  Definition arith_plus := dif_transform (fun u v => (u, tadd v u)).
  Definition arith_minus := dif_transform (fun u v => (u, tsub v u)).

  (** std::reverse(f, f + n) *)
  Definition areverse (n : nat) (f : list T) : option (list T) := let* _ := guard (n <=? length f) in Some (rev (firstn n f) ++ skipn n f).
  Definition times_loop (e : aenv) (r f g n : nat) : option aenv :=
    for_range 0 n (fun k e => let* x := nth_error (e f) k in let* y := nth_error (e g) k in let* l := set_nth (e r) k (tmul x y) in Some (aset e r l)) e.
  Definition on (e : aenv) (f : nat) (tr : list T -> option (list T)) : option aenv := let* l := tr (e f) in Some (aset e f l).
  (** and_convolution: convolutions.h 107-114 *)
  Definition and_convolution (e : aenv) (r f g log_n : nat) : option aenv :=
    let n := 2 ^ log_n in
    let* e := on e f (areverse n) in let* e := on e f (fun l => arith_plus l log_n) in
    let* e := (if g =? f then Some e else let* e := on e g (areverse n) in on e g (fun l => arith_plus l log_n)) in
    let* e := times_loop e r f g n in
    let* e := on e r (fun l => arith_minus l log_n) in on e r (areverse n).
  (** or_convolution: convolutions.h 125-132 *)
  Definition or_convolution (e : aenv) (r f g log_n : nat) : option aenv :=
    let* e := on e f (fun l => arith_plus l log_n) in
    let* e := (if g =? f then Some e else on e g (fun l => arith_plus l log_n)) in
    let* e := times_loop e r f g (2 ^ log_n) in
    on e r (fun l => arith_minus l log_n).
  (** xor_convolution: convolutions.h 143-151 *)
  Definition xor_convolution (e : aenv) (r f g log_n : nat) : option aenv :=
    let n := 2 ^ log_n in
    let* e := on e f (fun l => walsh_hadamard l log_n) in
    let* e := (if g =? f then Some e else on e g (fun l => walsh_hadamard l log_n)) in
    let* e := times_loop e r f g n in
    let* e := on e r (fun l => walsh_hadamard l log_n) in
    on e r (fun l => for_range 0 n (fun k l => let* x := nth_error l k in let* y := tdivn x n in set_nth l k y) l).
  (** max_convolution: convolutions.h 162-170 *)
  Definition max_convolution (e : aenv) (r f g n : nat) : option aenv :=
    let* '(e, _, _) := for_range 0 n (fun k '(e, sf, sg) =>
      let* x := nth_error (e f) k in let* y := nth_error (e g) k in
      let r_new := tadd (tadd (tmul x y) (tmul sf y)) (tmul sg x) in
      let* l := set_nth (e r) k r_new in
      Some (aset e r l, tadd sf x, tadd sg y)) (e, zero, zero) in Some e.

  (** sum of [h sub] over the submasks of [w]: the inner loop of convolutions.h 184-191 and 264-271 *)
  Definition submask_loop (w : nat) (h : nat -> option T) : option T :=
    loopZ (Z.of_nat w + 1) (fun '(s, sub) =>
      let* x := h sub in let s := tadd s x in
      if sub =? 0 then Some (inr s) else Some (inl (s, Nat.land (sub - 1) w))) (zero, w).
  (** slow_subset_sum: convolutions.h 181-192 (r and f distinct) *)
  Definition slow_subset_sum (r f : list T) (log_n : nat) : option (list T) :=
    for_range 0 (2 ^ log_n) (fun w r => let* s := submask_loop w (fun sub => nth_error f sub) in set_nth r w s) r.
  (** slow_subset_convolution: convolutions.h 261-272 (r distinct from f and g) *)
  Definition slow_subset_convolution (r f g : list T) (log_n : nat) : option (list T) :=
    for_range 0 (2 ^ log_n) (fun w r =>
      let* s := submask_loop w (fun sub => let* x := nth_error f sub in let* y := nth_error g (Nat.lxor w sub) in Some (tmul x y)) in set_nth r w s) r.

  (** fast_subset_sum 203-219 and fast_subset_sum_inverse 230-246, with op = += or -= *)
  Definition subset_stages (op : T -> T -> T) (r : list T) (log_n : nat) : option (list T) :=
    for_range 0 log_n (fun i r => for_range 0 (2 ^ log_n) (fun w r =>
      if Nat.land w (2 ^ i) =? 0 then Some r else
      let* x := nth_error r w in let* y := nth_error r (Nat.lxor w (2 ^ i)) in set_nth r w (op x y)) r) r.
  Definition acopy (e : aenv) (r f n : nat) : option aenv :=
    if r =? f then Some e else for_range 0 n (fun w e => let* x := nth_error (e f) w in let* l := set_nth (e r) w x in Some (aset e r l)) e.
  Definition fast_subset_sum (e : aenv) (r f log_n : nat) : option aenv :=
    let* e := acopy e r f (2 ^ log_n) in on e r (fun l => subset_stages tadd l log_n).
  Definition fast_subset_sum_inverse (e : aenv) (r f log_n : nat) : option aenv :=
    let* e := acopy e r f (2 ^ log_n) in on e r (fun l => subset_stages tsub l log_n).

  (** fast_subset_convolution: convolutions.h 283-311; bit_cnt1 on uint32_t *)
  Definition cnt (w : nat) : option nat := let* c := bit_cnt1 5 (Z.of_nat w) in Some (Z.to_nat c).
  Definition fast_subset_convolution (e : aenv) (r f g log_n : nat) : option aenv :=
    let n := 2 ^ log_n in
    let* _ := nth_error (e f) 0 in
    let z := repeat (repeat zero n) (log_n + 1) in
    let* '(f1, g1) := for_range 0 n (fun w '(f1, g1) =>
      let* c := cnt w in let* x := nth_error (e f) w in let* f1 := mset f1 c w x in
      let* y := nth_error (e g) w in let* g1 := mset g1 c w y in Some (f1, g1)) (z, z) in
    let* '(f1, g1) := for_range 0 (log_n + 1) (fun i '(f1, g1) =>
      let* a := nth_error f1 i in let* a := subset_stages tadd a log_n in let* f1 := set_nth f1 i a in
      let* b := nth_error g1 i in let* b := subset_stages tadd b log_n in let* g1 := set_nth g1 i b in Some (f1, g1)) (f1, g1) in
    let* h1 := for_range 0 (log_n + 1) (fun k h1 => for_range 0 (k + 1) (fun j h1 => for_range 0 n (fun w h1 =>
      let* x := mget f1 j w in let* y := mget g1 (k - j) w in let* s := mget h1 k w in mset h1 k w (tadd s (tmul x y))) h1) h1) z in
    let* h1 := for_range 0 (log_n + 1) (fun i h1 =>
      let* a := nth_error h1 i in let* a := subset_stages tsub a log_n in set_nth h1 i a) h1 in
    for_range 0 n (fun w e => let* c := cnt w in let* x := mget h1 c w in let* l := set_nth (e r) w x in Some (aset e r l)) e.
End Conv.
