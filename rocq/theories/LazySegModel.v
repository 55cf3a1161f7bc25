(** Model of include/altruct/structure/container/lazy_segment_tree.h.
    [up p l r]   = the value f_up leaves in its first argument;
    [down p l r] = the three values f_down leaves in its arguments.
    Out-of-range access or exhausted recursion is None. *)
From Verif Require Import Lib SegTreeModel.

Section LazySeg.
  Context {T : Type} (up : T -> T -> T -> T) (down : T -> T -> T -> T * T * T) (id : T).

  Definition lst_size (v : list T) : nat := length v / 2.

  (** lazy_segment_tree.h:151-153 update_down *)
  Definition lst_down (v : list T) (i : nat) : option (list T) :=
    let* p := nth_error v i in
    let* l := nth_error v (2 * i + 0) in
    let* r := nth_error v (2 * i + 1) in
    let '(p, l, r) := down p l r in
    let* v := set_nth v i p in
    let* v := set_nth v (2 * i + 0) l in
    set_nth v (2 * i + 1) r.

  (** :166-168 update_up *)
  Definition lst_up (v : list T) (i : nat) : option (list T) :=
    let* p := nth_error v i in
    let* l := nth_error v (2 * i + 0) in
    let* r := nth_error v (2 * i + 1) in
    set_nth v i (up p l r).

  (** :170-174 top *)
  Fixpoint top_loop (fuel i : nat) : option nat :=
    match fuel with
    | O => None
    | S k => if Nat.even i then top_loop k (i / 2) else Some i
    end.
  Definition lst_top (n b : nat) : option nat := top_loop (S (n + b)) (n + b).

  (** :176-179 calc_height; the model returns the final h (the code returns h - 1) *)
  Fixpoint height_loop (fuel h sz : nat) : option nat :=
    match fuel with
    | O => None
    | S k => if 2 ^ h <=? sz then height_loop k (S h) sz else Some h
    end.
  Definition calc_height1 (sz : nat) : option nat := height_loop (S (S sz)) 0 sz.

  (** :145-149 update_from_root *)
  Definition lst_from_root (v : list T) (i : nat) : option (list T) :=
    let* h1 := calc_height1 i in
    for_down 1 h1 (fun h v => lst_down v (i / 2 ^ h)) v.

  (** :140-143 propagate_down *)
  Definition lst_prop_down (v : list T) (b e : nat) : option (list T) :=
    let* tb := lst_top (lst_size v) b in
    let* v := lst_from_root v tb in
    let* te := lst_top (lst_size v) e in
    lst_from_root v (te - 1).

  (** :160-164 update_to_root *)
  Fixpoint lst_to_root (fuel : nat) (v : list T) (i : nat) : option (list T) :=
    match fuel with
    | O => None
    | S k =>
        let i := i / 2 in
        if 0 <? i then let* v := lst_up v i in lst_to_root k v i else Some v
    end.

  (** :155-158 propagate_up *)
  Definition lst_prop_up (v : list T) (b e : nat) : option (list T) :=
    let* tb := lst_top (lst_size v) b in
    let* v := lst_to_root (S tb) v tb in
    let* te := lst_top (lst_size v) e in
    lst_to_root (S (te - 1)) v (te - 1).

  (** :115-138 update_segment; [f t] = (node afterwards, returned bool) *)
  Fixpoint lst_update_segment (fuel : nat) (f : T -> T * bool) (v : list T) (i : nat) : option (list T) :=
    match fuel with
    | O => None
    | S k =>
        let* t := nth_error v i in
        let '(t, ok) := f t in
        let* v := set_nth v i t in
        if ok then Some v
        else
          let* v := lst_down v i in
          let* v := lst_update_segment k f v (2 * i + 0) in
          let* v := lst_update_segment k f v (2 * i + 1) in
          lst_up v i
    end.

  (** :69-73 loop of update(begin, end, f) *)
  Fixpoint lst_update_loop (fuel : nat) (f : T -> T * bool) (v : list T) (b e i : nat) : option (list T) :=
    match fuel with
    | O => None
    | S k =>
        if b <? e then
          let* '(v, b) :=
            (if Nat.odd b then let* v := lst_update_segment (S (length v)) f v (i + b) in Some (v, b + 1)
             else Some (v, b)) in
          let* '(v, e) :=
            (if Nat.odd e then let* v := lst_update_segment (S (length v)) f v (i + (e - 1)) in Some (v, e - 1)
             else Some (v, e)) in
          lst_update_loop k f v (b / 2) (e / 2) (i / 2)
        else Some v
    end.
  (** :66-75 update *)
  Definition lst_update (f : T -> T * bool) (v : list T) (b e : nat) : option (list T) :=
    let* v := lst_prop_down v b e in
    let* v := lst_update_loop (S e) f v b e (lst_size v) in
    lst_prop_up v b e.

  (** :54-58 loop of get; f_up(tl, tl, x) and f_up(tr, x, tr) alias parent and child *)
  Fixpoint lst_get_loop (fuel : nat) (v : list T) (tl tr : T) (b e i : nat) : option T :=
    match fuel with
    | O => None
    | S k =>
        if b <? e then
          let* '(tl, b) :=
            (if Nat.odd b then let* x := nth_error v (i + b) in Some (up tl tl x, b + 1)
             else Some (tl, b)) in
          let* '(tr, e) :=
            (if Nat.odd e then let* x := nth_error v (i + (e - 1)) in Some (up tr x tr, e - 1)
             else Some (tr, e)) in
          lst_get_loop k v tl tr (b / 2) (e / 2) (i / 2)
        else Some (up tl tl tr)
    end.
  (** :50-61 get: returns the answer and the (changed) vector *)
  Definition lst_get (v : list T) (b e : nat) : option (T * list T) :=
    let* v := lst_prop_down v b e in
    let* z := nth_error v 0 in
    let* r := lst_get_loop (S e) v z z b e (lst_size v) in
    Some (r, v).

  (** :83-87 rebuild() *)
  Definition lst_rebuild (v : list T) : option (list T) :=
    for_down 1 (lst_size v) (fun i v => lst_up v i) v.

  (** :43-48 constructor from a range *)
  Definition lst_from (xs : list T) : option (list T) :=
    let* w := calc_pow2 (length xs) in
    let v := repeat id (w * 2) in
    let* v := for_range 0 (length xs)
        (fun k v => let* x := nth_error xs k in set_nth v (lst_size v + k) x) v in
    lst_rebuild v.

  (** :100-107 restore; end - 1 underflows when begin = end = 0 and size() = 0 is impossible *)
  Definition lst_restore (v : list T) (b e : nat) : option (list T) :=
    let x := b + lst_size v in
    let y := e - 1 + lst_size v in
    let* h1 := calc_height1 (lst_size v) in
    for_down 1 h1 (fun q v =>
      for_range (x / 2 ^ q) (S (y / 2 ^ q)) (fun i v => lst_down v i) v) v.

  (** :78-81 operator[] (reading) *)
  Definition lst_at (v : list T) (i : nat) : option T := nth_error v (i + lst_size v).
End LazySeg.
