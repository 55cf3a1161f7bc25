(** Specification vocabulary for binary search trees. The abstract state of a tree is the list of its entries in order: an entry is the iterator (pointer)
    of a node, its value and its multiplicity. bst_rep says that the heap holds, at a nil pointer, a binary tree with these entries. *)
From Verif Require Import Lib BstModel.
Open Scope nat_scope.

Section Spec.
Context {V K : Type}.
Variable key : V -> K.
Variable cmp : K -> K -> bool.

(** the mathematical binary tree: every node has its pointer, value, multiplicity and balance *)
Inductive tree := Leaf | Node (l : tree) (p : nat) (v : V) (c b : Z) (r : tree).
Local Notation entry := (nat * V * Z)%type.
Definition eid (e : entry) : nat := fst (fst e).
Definition evl (e : entry) : V := snd (fst e).
Definition ecn (e : entry) : Z := snd e.
Fixpoint entries (t : tree) : list entry := match t with Leaf => [] | Node l p v c _ r => entries l ++ (p, v, c) :: entries r end.
Definition total (es : list entry) : Z := fold_right (fun e s => ecn e + s)%Z 0%Z es.
Definition ids (es : list entry) : list nat := map eid es.

(** what the fields of the node of p have to be *)
Definition rt (nil : nat) (t : tree) : nat := match t with Leaf => nil | Node _ p _ _ _ _ => p end.
Record nrec := NR { nid : nat; npar : nat; nl : nat; nr : nat; ns : Z; nb : Z; nv : V }.
Definition node_ok (h : heap (V := V)) (x : nrec) : Prop :=
  live h (nid x) = true /\ par h (nid x) = npar x /\ lft h (nid x) = nl x /\ rgt h (nid x) = nr x /\ siz h (nid x) = ns x /\ bal h (nid x) = nb x /\ val h (nid x) = Some (nv x).
Fixpoint recs (nil pa : nat) (t : tree) : list nrec :=
  match t with
  | Leaf => []
  | Node l p v c b r => NR p pa (rt nil l) (rt nil r) (total (entries t)) b v :: recs nil p l ++ recs nil p r
  end.
Definition nil_ok (h : heap (V := V)) (nil root : nat) : Prop :=
  live h nil = true /\ par h nil = nil /\ lft h nil = root /\ rgt h nil = root /\ siz h nil = 0%Z /\ bal h nil = 0%Z.
Definition tree_rep (h : heap (V := V)) (nil : nat) (t : tree) : Prop :=
  nil_ok h nil (rt nil t) /\ Forall (node_ok h) (recs nil nil t) /\
  NoDup (nil :: ids (entries t)) /\ Forall (fun p => p < next h) (nil :: ids (entries t)) /\ Forall (fun e => 1 <= ecn e)%Z (entries t).
Definition bst_rep (h : heap (V := V)) (nil : nat) (es : list entry) : Prop := exists t, tree_rep h nil t /\ entries t = es.

(** other trees on the heap are untouched, and the memory in use changes exactly by the tree's own nodes *)
Definition apart (n1 : nat) (e1 : list entry) (n2 : nat) (e2 : list entry) : Prop := forall p, In p (n1 :: ids e1) -> In p (n2 :: ids e2) -> False.
Definition others_kept (h h' : heap (V := V)) (nil : nat) (es es' : list entry) : Prop :=
  forall n2 es2, bst_rep h n2 es2 -> apart nil es n2 es2 -> bst_rep h' n2 es2 /\ apart nil es' n2 es2.
Definition memory_exact (h h' : heap (V := V)) (nil : nat) (es es' : list entry) : Prop :=
  forall p, live h' p = true <-> (live h p = true /\ ~ In p (ids es)) \/ In p (nil :: ids es').
Definition becomes (h h' : heap (V := V)) (nil : nat) (es es' : list entry) : Prop :=
  bst_rep h' nil es' /\ others_kept h h' nil es es' /\ memory_exact h h' nil es es'.

(** the comparison is a strict weak order *)
Definition strict_weak : Prop :=
  (forall x, cmp x x = false) /\ (forall x y z, cmp x y = true -> cmp y z = true -> cmp x z = true) /\
  (forall x y z, cmp x z = true -> cmp x y = true \/ cmp y z = true).
(** entries in order of their keys: equivalent keys allowed only in mode STORE *)
Definition sorted (d : dup) (es : list entry) : Prop :=
  ForallOrdPairs (fun a b => match d with STORE => cmp (key (evl b)) (key (evl a)) = false | _ => cmp (key (evl a)) (key (evl b)) = true end) es.
Definition unit_counts (d : dup) (es : list entry) : Prop := match d with COUNT => True | _ => Forall (fun e => ecn e = 1%Z) es end.
Definition equiv (k : K) (e : entry) : bool := negb (cmp k (key (evl e))) && negb (cmp (key (evl e)) k).
Definition less (k : K) (e : entry) : bool := cmp (key (evl e)) k.
Definition greater (k : K) (e : entry) : bool := cmp k (key (evl e)).

(** the iterator of the first entry (or of the last entry), end() if there is none *)
Definition first_it (nil : nat) (es : list entry) : nat := match es with [] => nil | e :: _ => eid e end.
Definition last_it (nil : nat) (es : list entry) : nat := first_it nil (rev es).
(** the entry at a position, entries counted with multiplicity *)
Fixpoint at_pos (nil : nat) (k : Z) (es : list entry) : nat :=
  match es with [] => nil | e :: es => if (k <? 0)%Z then nil else if (k <? ecn e)%Z then eid e else at_pos nil (k - ecn e)%Z es end.
(** an entry after the removal of cnt copies *)
Definition minus (d : dup) (cnt : Z) (e : entry) : list entry :=
  match d with COUNT => if (cnt <? ecn e)%Z then [(eid e, evl e, (ecn e - cnt)%Z)] else [] | _ => [] end.
(** the entries after insert(v, cnt), where n is the new iterator, and the iterator that insert returns *)
Definition times (d : dup) (cnt : Z) : Z := match d with COUNT => cnt | _ => 1%Z end.
Definition inserted (d : dup) (n : nat) (v : V) (cnt : Z) (es : list entry) : list entry :=
  let new := filter (fun e => negb (greater (key v) e)) es ++ (n, v, times d cnt) :: filter (greater (key v)) es in
  match d with
  | STORE => new
  | IGNORE => if existsb (equiv (key v)) es then es else new
  | COUNT => if existsb (equiv (key v)) es then map (fun e => if equiv (key v) e then (eid e, evl e, (ecn e + cnt)%Z) else e) es else new
  end.
Definition inserted_at (d : dup) (n : nat) (v : V) (es : list entry) : nat :=
  match d with STORE => n | _ => match find (equiv (key v)) es with Some e => eid e | None => n end end.
(** the entries after erase(k, cnt): all equivalent entries in modes IGNORE and STORE, cnt copies in mode COUNT *)
Definition erased (d : dup) (k : K) (cnt : Z) (es : list entry) : list entry := flat_map (fun e => if equiv k e then minus d cnt e else [e]) es.
(** operator == and operator < compare the key sequences lexicographically *)
Fixpoint seq_eq (a b : list entry) : bool :=
  match a, b with
  | [], [] => true
  | x :: a, y :: b => negb (cmp (key (evl x)) (key (evl y))) && negb (cmp (key (evl y)) (key (evl x))) && seq_eq a b
  | _, _ => false
  end.
Fixpoint seq_lt (a b : list entry) : bool :=
  match a, b with
  | [], _ :: _ => true
  | x :: a, y :: b => cmp (key (evl x)) (key (evl y)) || negb (cmp (key (evl y)) (key (evl x))) && seq_lt a b
  | _, [] => false
  end.
(** the entries without their iterators *)
Definition strip (es : list entry) : list entry := map (fun e => (0, evl e, ecn e)) es.
(** a client's history of insertions and erasures by key, and its effect on the entries *)
Inductive bst_op := OpInsert (v : V) (cnt : Z) | OpErase (k : K) (cnt : Z).
Definition op_count (o : bst_op) : Z := match o with OpInsert _ cnt | OpErase _ cnt => cnt end.
Definition op_effect (d : dup) (o : bst_op) (es : list entry) : list entry :=
  match o with OpInsert v cnt => inserted d 0 v cnt es | OpErase k cnt => erased d k cnt es end.
Definition op_run (d : dup) (nil : nat) (o : bst_op) (h : heap (V := V)) : option (heap (V := V)) :=
  match o with
  | OpInsert v cnt => let* '(h, _) := bst_insert key cmp d h nil v cnt in Some h
  | OpErase k cnt => let* '(h, _) := bst_erase key cmp d h nil k cnt in Some h
  end.
Fixpoint ops_run (d : dup) (nil : nat) (ops : list bst_op) (h : heap (V := V)) : option (heap (V := V)) :=
  match ops with [] => Some h | o :: ops => let* h := op_run d nil o h in ops_run d nil ops h end.
End Spec.
Arguments tree : clear implicits.
Arguments nrec : clear implicits.
Arguments bst_op : clear implicits.
