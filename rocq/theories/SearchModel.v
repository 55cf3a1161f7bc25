(** Model of include/altruct/algorithm/search/binary_search.h, kmp_search.h,
    include/altruct/algorithm/collections/collections.h and include/altruct/algorithm/math/reduce.h. *)
From Verif Require Import Lib.
Local Open Scope Z_scope.

(** binary_search.h:18-29 binary_search_pred on integer positions.  The predicate is partial: a call
    outside its domain is None. *)
Definition bsp_step (pred : Z -> option bool) (s : Z * Z) : option ((Z * Z) + Z) :=
  let '(lo, hi) := s in
  if lo <? hi then
    let mid := lo + Z.quot (hi - lo) 2 in
    let* b := pred mid in
    if b then Some (inl (lo, mid)) else Some (inl (mid + 1, hi))
  else Some (inr lo).
Definition binary_search_pred (pred : Z -> option bool) (lo hi : Z) : option Z :=
  loopZ (Z.abs (hi - lo) + 1) (bsp_step pred) (lo, hi).

(** binary_search.h:41-55 binary_search_num for an integer X; state (lo, hi, prev_mid) *)
Definition bsn_step (pred : Z -> option bool) (eps : Z) (s : Z * Z * Z) : option ((Z * Z * Z) + Z) :=
  let '(lo, hi, prev_mid) := s in
  if eps <=? hi - lo then
    let mid := lo + Z.quot (hi - lo) 2 in
    if mid =? prev_mid then Some (inr lo)
    else
      let* b := pred mid in
      if b then Some (inl (lo, mid, mid)) else Some (inl (mid + eps, hi, mid))
  else Some (inr lo).
Definition binary_search_num (pred : Z -> option bool) (lo hi eps : Z) : option Z :=
  loopZ (Z.abs (hi - lo) + 1) (bsn_step pred eps) (lo, hi, hi).
(** binary_search.h:63-70 and 78-85 *)
Definition lower_bound_num (f : Z -> option Z) (lo hi eps val : Z) (decreasing : bool) : option Z :=
  binary_search_num (fun mid => let* y := f mid in Some (if decreasing then y <=? val else val <=? y)) lo hi eps.
Definition upper_bound_num (f : Z -> option Z) (lo hi eps val : Z) (decreasing : bool) : option Z :=
  binary_search_num (fun mid => let* y := f mid in Some (if decreasing then y <? val else val <? y)) lo hi eps.

Section Kmp.
  Context {A : Type} (eqb : A -> A -> bool).

  (** kmp_search.h:31 and 39: while (j != -1 && x[i] != p[j]) j = b[j];
      the size_t value -1 is the integer -1 *)
  Definition kmp_back_step (c : A) (p : list A) (b : list Z) (j : Z) : option (Z + Z) :=
    if j =? -1 then Some (inr j)
    else
      let* pj := nth_error p (Z.to_nat j) in
      if eqb c pj then Some (inr j)
      else let* j' := nth_error b (Z.to_nat j) in Some (inl j').
  Definition kmp_back (c : A) (p : list A) (b : list Z) (j : Z) : option Z :=
    loopZ (Z.of_nat (length p) + 2) (kmp_back_step c p b) j.

  (** kmp_search.h:29-34 preprocessing *)
  Definition kmp_table (p : list A) : option (list Z) :=
    let m := length p in
    let* '(_, b) :=
      for_range 0 m (fun i '(j, b) =>
        let* c := nth_error p i in
        let* j := kmp_back c p b j in
        let j := j + 1 in
        let* b := set_nth b (i + 1) j in
        Some (j, b)) (-1, repeat (-1) (m + 1)) in
    Some b.

  (** kmp_search.h:36-46; [cb seen pos] is what the (possibly stateful) callback answers for [pos]
      after the calls [seen].  Returns the reported positions. *)
  Fixpoint kmp_scan (n : nat) (t p : list A) (b : list Z) (cb : list nat -> nat -> bool)
      (i : nat) (j : Z) (seen : list nat) : option (list nat) :=
    match n with
    | O => Some seen
    | S n' =>
        let* c := nth_error t i in
        let* j := kmp_back c p b j in
        let i := S i in let j := j + 1 in
        if j =? Z.of_nat (length p) then
          let r := (i - Z.to_nat j)%nat in
          if negb (cb seen r) then Some (seen ++ [r])
          else
            let* j := nth_error b (Z.to_nat j) in
            kmp_scan n' t p b cb i j (seen ++ [r])
        else kmp_scan n' t p b cb i j seen
    end.
  (** kmp_search.h:25-48; result: (returned value, positions the callback was called with) *)
  Definition kmp_search (t p : list A) (cb : list nat -> nat -> bool) : option (nat * list nat) :=
    let n := length t in let m := length p in
    if (m =? 0)%nat then Some (0%nat, [])
    else if (n <? m)%nat then Some (n, [])
    else
      let* b := kmp_table p in
      let* seen := kmp_scan n t p b cb 0 0 [] in
      Some (last seen n, seen).
End Kmp.

Section Collections.
  Context {A : Type}.
  (** collections.h:17-21, 28-32: [sort] stands for std::sort (trusted to return a sorted permutation) *)
  Definition sorted_ (sort : list A -> list A) (c : list A) : list A := sort c.
  (** collections.h:39-56 *)
  Definition reversed (c : list A) : list A := rev c.
  (** collections.h:61-71 take *)
  Fixpoint take_loop (r c : list A) (n : nat) : list A :=
    match c, n with
    | [], _ => r
    | _, O => r
    | x :: c, S n => take_loop (r ++ [x]) c n
    end.
  Definition take (c : list A) (n : nat) : list A := take_loop [] c n.
  (** collections.h:94-100 filter *)
  Fixpoint filter_loop (p : A -> bool) (r c : list A) : list A :=
    match c with [] => r | x :: c => filter_loop p (if p x then r ++ [x] else r) c end.
  Definition filter_ (c : list A) (p : A -> bool) : list A := filter_loop p [] c.
  (** collections.h:122-128 transform *)
  Fixpoint transform_loop {B} (f : A -> B) (r : list B) (c : list A) : list B :=
    match c with [] => r | x :: c => transform_loop f (r ++ [f x]) c end.
  Definition transform {B} (c : list A) (f : A -> B) : list B := transform_loop f [] c.

  (** collections.h:149-159 run_length *)
  Fixpoint run_length_loop (eqb : A -> A -> bool) (r : list (A * Z)) (c : list A) : list (A * Z) :=
    match c with
    | [] => r
    | x :: c =>
        let r' := match rev r with
                  | (y, k) :: _ => if eqb y x then removelast r ++ [(y, k + 1)] else r ++ [(x, 1)]
                  | [] => r ++ [(x, 1)]
                  end in
        run_length_loop eqb r' c
    end.
  Definition run_length (eqb : A -> A -> bool) (c : list A) : list (A * Z) := run_length_loop eqb [] c.

  (** collections.h:178-188 compare; max_len = None is size_t(-1), which no in-memory sequence reaches *)
  Fixpoint compare (eqb ltb : A -> A -> bool) (c1 c2 : list A) (max_len : option nat) : Z :=
    match max_len with
    | Some O => 0
    | _ =>
        match c1, c2 with
        | x :: c1, y :: c2 =>
            if negb (eqb x y) then if ltb x y then -1 else 1
            else compare eqb ltb c1 c2 (option_map pred max_len)
        | _, _ :: _ => -1
        | _ :: _, _ => 1
        | [], [] => 0
        end
    end.
  (** collections.h:190-197 contains *)
  Fixpoint contains (eqb : A -> A -> bool) (c : list A) (v : A) : bool :=
    match c with [] => false | x :: c => if eqb x v then true else contains eqb c v end.

  (** reduce.h:17-24 reduce *)
  Fixpoint reduce {T} (c : list A) (f : T -> A -> T) (r : T) : T :=
    match c with [] => r | e :: c => reduce c f (f r e) end.
End Collections.
(** reduce.h:32-35, 43-46, 54-57, 65-68, 76-79 on integers *)
Definition reduce_sum (c : list Z) (id : Z) : Z := reduce c (fun r e => r + e) id.
Definition reduce_product (c : list Z) (id : Z) : Z := reduce c (fun r e => r * e) id.
Definition reduce_min (c : list Z) (id : Z) : Z := reduce c (fun r e => if e <? r then e else r) id.
Definition reduce_max (c : list Z) (id : Z) : Z := reduce c (fun r e => if r <? e then e else r) id.
Definition reduce_mex (c : list Z) (id : Z) : Z := reduce c (fun r e => if r <? e then r else r + 1) id.
