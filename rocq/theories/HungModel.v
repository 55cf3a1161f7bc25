(** Model of experimental algorithm/graph/hungarian.h: hungarian.
    The cost matrix is a function: cost(x, y) addresses c[(x << logSZ) + y] with y < n <= 2^logSZ, so the entries do not
    share cells. The other arrays are functions on the indices below n as well (the code gives them 2^logSZ >= n cells).
    An index that is the counter of a loop is below n; one that was read from an array is checked, and a failed check is
    None. The capacity of the queue is left out. Loops that change every entry of an array independently of each other are written pointwise. Costs are unbounded
    integers. *)
From Coq Require Import List PeanoNat ZArith.
From Verif Require Import Lib.
Import ListNotations.
Open Scope Z_scope.

Section Hungarian.
  (** hungarian.h:73 n *)
  Variable n : nat.
  (** hungarian.h:43-45 cost *)
  Variable c : nat -> nat -> Z.

  (** hungarian.h:80 the entries of prev: -1, -2 or a vertex *)
  Inductive link := NoLink | Root | From (x : nat).
  (** hungarian.h:76-80 the working state: S, T, lx, ly, slack, slackx, prev *)
  Record st := St { inS : nat -> bool; inT : nat -> bool; lx : nat -> Z; ly : nat -> Z;
                    slack : nat -> Z; slackx : nat -> nat; prev : nat -> link }.
  (** assignment to one entry of an array *)
  Definition upd {A} (f : nat -> A) (i : nat) (v : A) : nat -> A := fun j => if Nat.eqb i j then v else f j.
  Definition vertices : list nat := seq 0 n.

  (** hungarian.h:94-106 add_to_tree *)
  Definition add_to_tree (s : st) (x prevx : nat) : option st :=
    let* _ := guard (Nat.ltb x n) in
    let better y := lx s x + ly s y - c x y <? slack s y in
    Some (St (upd (inS s) x true) (inT s) (lx s) (ly s)
             (fun y => if better y then lx s x + ly s y - c x y else slack s y)
             (fun y => if better y then x else slackx s y)
             (upd (prev s) x (From prevx))).
  Definition set_T (s : st) (y : nat) : st := St (inS s) (upd (inT s) y true) (lx s) (ly s) (slack s) (slackx s) (prev s).

  (** hungarian.h:83-84 xy, yx: None is -1 *)
  Definition table := nat -> option nat.

  (** hungarian.h:144-151 the edges of one vertex x in the equality graph; the array q with its indices rd and wr is the
      list of the vertices between them *)
  Fixpoint scan (yx : table) (x : nat) (ys : list nat) (q : list nat) (s : st) : option (st * list nat * option nat) :=
    match ys with
    | [] => Some (s, q, None)
    | y :: ys =>
      if negb (inT s y) && (c x y =? lx s x + ly s y) then
        match yx y with
        | None => Some (s, q, Some y)
        | Some x2 => let* s := add_to_tree (set_T s y) x2 x in scan yx x ys (q ++ [x2]) s
        end
      else scan yx x ys q s
    end.
  (** hungarian.h:142-154 building the tree; an exposed y and the vertex x it was reached from *)
  Fixpoint bfs (fuel : nat) (yx : table) (q : list nat) (s : st) : option (st * option (nat * nat)) :=
    match fuel with
    | O => None
    | S fuel =>
      match q with
      | [] => Some (s, None)
      | x :: q =>
        let* _ := guard (Nat.ltb x n) in
        let* '(s, q, r) := scan yx x vertices q s in
        match r with Some y => Some (s, Some (x, y)) | None => bfs fuel yx q s end
      end
    end.
  (** hungarian.h:157-161 delta *)
  Definition delta (s : st) : Z :=
    let d := match find (fun y => negb (inT s y)) vertices with Some y => slack s y | None => 0 end in
    fold_left (fun d y => if inT s y then d else Z.min d (slack s y)) vertices d.
  (** hungarian.h:157-167 improving the labels *)
  Definition relabel (s : st) : st :=
    let d := delta s in
    St (inS s) (inT s)
       (fun x => if inS s x then lx s x - d else lx s x)
       (fun y => if inT s y then ly s y + d else ly s y)
       (fun y => if inT s y then slack s y else slack s y - d)
       (slackx s) (prev s).
  (** hungarian.h:169-188 edges that are new in the equality graph *)
  Fixpoint grow (yx : table) (ys : list nat) (q : list nat) (s : st) : option (st * list nat * option (nat * nat)) :=
    match ys with
    | [] => Some (s, q, None)
    | y :: ys =>
      if negb (inT s y) && (slack s y =? 0) then
        match yx y with
        | None => Some (s, q, Some (slackx s y, y))
        | Some x2 =>
          let s := set_T s y in
          let* _ := guard (Nat.ltb x2 n) in
          if negb (inS s x2) then
            let* s := add_to_tree s x2 (slackx s y) in grow yx ys (q ++ [x2]) s
          else grow yx ys q s
        end
      else grow yx ys q s
    end.
  (** hungarian.h:141-190 the main cycle *)
  Fixpoint search (fuel : nat) (yx : table) (q : list nat) (s : st) : option (st * nat * nat) :=
    match fuel with
    | O => None
    | S fuel =>
      let* '(s, r) := bfs (S (n + length q)) yx q s in
      match r with
      | Some (x, y) => Some (s, x, y)
      | None =>
        let* '(s, q, r) := grow yx vertices [] (relabel s) in
        match r with
        | Some (x, y) => Some (s, x, y)
        | None => search fuel yx q s
        end
      end
    end.
  (** hungarian.h:192-196 inverting the edges along the augmenting path *)
  Fixpoint augment (fuel : nat) (pv : nat -> link) (xy yx : table) (x y : nat) : option (table * table) :=
    match fuel with
    | O => None
    | S fuel =>
      let* _ := guard (Nat.ltb x n) in
      let* _ := guard (Nat.ltb y n) in
      let ty := xy x in
      let yx := upd yx y (Some x) in
      let xy := upd xy x (Some y) in
      match pv x with
      | Root => Some (xy, yx)
      | From x' => let* y := ty in augment fuel pv xy yx x' y
      | NoLink => None
      end
    end.
  (** hungarian.h:121-197 one round; it starts from the first vertex without a match *)
  Definition round (a : table * table * (nat -> Z) * (nat -> Z)) : option (table * table * (nat -> Z) * (nat -> Z)) :=
    let '(xy, yx, lx0, ly0) := a in
    let* r := find (fun x => match xy x with None => true | Some _ => false end) vertices in
    let s := St (upd (fun _ => false) r true) (fun _ => false) lx0 ly0
                (fun y => lx0 r + ly0 y - c r y) (fun _ => r) (upd (fun _ => NoLink) r Root) in
    let* '(s, x, y) := search (S n) yx [r] s in
    let* '(xy, yx) := augment (S n) (prev s) xy yx x y in
    Some (xy, yx, lx s, ly s).
  (** hungarian.h:111-119 initial labels *)
  Definition initial : table * table * (nat -> Z) * (nat -> Z) :=
    (fun _ => None, fun _ => None, fun x => fold_left (fun m y => Z.max m (c x y)) vertices (c x 0%nat), fun _ => 0).
  (** hungarian.h:108-198 calc_max_cost_impl *)
  Definition calc_max_cost_impl : option (table * table) :=
    let* '(xy, yx, _, _) := for_range 0 n (fun _ a => round a) initial in Some (xy, yx).
  (** hungarian.h:54-61 calc_max_cost: the cost, get_matches_for_x and get_matches_for_y *)
  Definition calc_max_cost : option (Z * list nat * list nat) :=
    let* '(xy, yx) := calc_max_cost_impl in
    let* r := for_range 0 n (fun x r => let* y := xy x in let* _ := guard (Nat.ltb y n) in Some (r + c x y)) 0 in
    let get (f : table) i := match f i with Some j => j | None => 0%nat end in
    Some (r, map (get xy) vertices, map (get yx) vertices).
End Hungarian.

(** hungarian.h:47-52, 86-92 calc_min_cost, negate_cost *)
Definition negate (c : nat -> nat -> Z) : nat -> nat -> Z := fun x y => - c x y.
Definition calc_min_cost (n : nat) (c : nat -> nat -> Z) : option (Z * list nat * list nat) :=
  let* '(r, mx, my) := calc_max_cost n (negate c) in Some (- r, mx, my).
