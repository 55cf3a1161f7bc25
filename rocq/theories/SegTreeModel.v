(** Model of include/altruct/structure/container/segment_tree.h.
    The state is the vector [v]; [f] and [id] are the functor and the neutral element
    given to the constructor.  Out-of-range vector access is None. *)
From Verif Require Import Lib.

Section SegTree.
  Context {T : Type} (f : T -> T -> T) (id : T).

  (** segment_tree.h:115-118 calc_pow2; fuel sz+1 is enough *)
  Fixpoint calc_pow2_loop (fuel w sz : nat) : option nat :=
    match fuel with
    | O => None
    | S k => if w <? sz then calc_pow2_loop k (w * 2) sz else Some w
    end.
  Definition calc_pow2 (sz : nat) : option nat := calc_pow2_loop (S sz) 1 sz.

  (** :84-86 size *)
  Definition st_size (v : list T) : nat := length v / 2.

  (** :111-113 update *)
  Definition st_update (v : list T) (i : nat) : option (list T) :=
    let* l := nth_error v (2 * i + 0) in
    let* r := nth_error v (2 * i + 1) in
    set_nth v i (f l r).

  (** :88-92 rebuild(): for (i = size()-1; i > 0; i--) update(i) *)
  Definition st_rebuild (v : list T) : option (list T) :=
    for_down 1 (st_size v) (fun i v => st_update v i) v.

  (** :33-36 constructor from a size *)
  Definition st_make (sz : nat) : option (list T) :=
    let* w := calc_pow2 sz in Some (repeat id (w * 2)).

  (** :39-44 constructor from a range: resize, std::copy at offset size(), rebuild *)
  Definition st_from (xs : list T) : option (list T) :=
    let* w := calc_pow2 (length xs) in
    let v := repeat id (w * 2) in
    let* v := for_range 0 (length xs)
        (fun k v => let* x := nth_error xs k in set_nth v (st_size v + k) x) v in
    st_rebuild v.

  (** :49-51, 96-98 while ((index /= 2) > 0) update(index) *)
  Fixpoint st_up (fuel : nat) (v : list T) (index : nat) : option (list T) :=
    match fuel with
    | O => None
    | S k =>
        let index := index / 2 in
        if 0 <? index then let* v := st_update v index in st_up k v index else Some v
    end.

  (** :46-52 set *)
  Definition st_set (v : list T) (index : nat) (t : T) : option (list T) :=
    let index := index + st_size v in
    let* v := set_nth v index t in
    st_up (S index) v index.

  (** :58-61 operator[]: assignment through the returned reference *)
  Definition st_write (v : list T) (index : nat) (t : T) : option (list T) :=
    set_nth v (index + st_size v) t.

  (** :63-71 operator[] const, get(index) *)
  Definition st_at (v : list T) (index : nat) : option T := nth_error v (index + st_size v).

  (** :73-82 get(begin, end) *)
  Fixpoint st_get_loop (fuel : nat) (v : list T) (tl tr : T) (b e i : nat) : option T :=
    match fuel with
    | O => None
    | S k =>
        if b <? e then
          let* '(tl, b) :=
            (if Nat.odd b then let* x := nth_error v (i + b) in Some (f tl x, b + 1)
             else Some (tl, b)) in
          let* '(tr, e) :=
            (if Nat.odd e then let* x := nth_error v (i + (e - 1)) in Some (f x tr, e - 1)
             else Some (tr, e)) in
          st_get_loop k v tl tr (b / 2) (e / 2) (i / 2)
        else Some (f tl tr)
    end.
  Definition st_get (v : list T) (b e : nat) : option T :=
    let* z := nth_error v 0 in
    st_get_loop (S e) v z z b e (st_size v).

  (** :94-99 rebuild(index) *)
  Definition st_rebuild_at (v : list T) (index : nat) : option (list T) :=
    let index := index + st_size v in st_up (S index) v index.

  (** :101-109 rebuild(begin, end); for begin < end the inner index never underflows *)
  Fixpoint st_rebuild_loop (fuel : nat) (v : list T) (b e : nat) : option (list T) :=
    match fuel with
    | O => None
    | S k =>
        if 1 <? b then
          let b := b / 2 in let e := e / 2 in
          let* v := for_down b (S e) (fun i v => st_update v i) v in
          st_rebuild_loop k v b e
        else Some v
    end.
  Definition st_rebuild_range (v : list T) (b e : nat) : option (list T) :=
    st_rebuild_loop (S (b + st_size v)) v (b + st_size v) (e - 1 + st_size v).
End SegTree.

(** The public operations, run one after another. *)
Inductive st_op (T : Type) :=
| OpSet (i : nat) (x : T) | OpWrite (i : nat) (x : T)
| OpRebuild | OpRebuildAt (i : nat) | OpRebuildRange (b e : nat).
Arguments OpSet {T}. Arguments OpWrite {T}. Arguments OpRebuild {T}.
Arguments OpRebuildAt {T}. Arguments OpRebuildRange {T}.

Definition st_do {T} (f : T -> T -> T) (v : list T) (o : st_op T) : option (list T) :=
  match o with
  | OpSet i x => st_set f v i x
  | OpWrite i x => st_write v i x
  | OpRebuild => st_rebuild f v
  | OpRebuildAt i => st_rebuild_at f v i
  | OpRebuildRange b e => st_rebuild_range f v b e
  end.
Fixpoint st_run {T} (f : T -> T -> T) (v : list T) (os : list (st_op T)) : option (list T) :=
  match os with
  | [] => Some v
  | o :: t => let* v := st_do f v o in st_run f v t
  end.
