(** Model of structure/math/permutation.h. Elements and indices are naturals; the index type is unbounded. *)
From Verif Require Import Lib BaseModel.
Open Scope nat_scope.

Definition cycle := list nat.
Definition perm := (list cycle * nat)%type.
(** the bit vector u(n) and its accesses *)
Definition fresh (n : nat) : list bool := repeat false n.
(** for (I j = j0; !u[el(j)]; j = nxt(j)) { c.push_back(el(j)); u[el(j)] = true; }: permutation.h 79-82 and 195-198.
    Each turn marks a new element, so more than |u| turns are impossible *)
Definition orbit_loop (el nxt : nat -> option nat) (u : list bool) (j0 : nat) : option (cycle * list bool) :=
  loopZ (Z.of_nat (length u) + 2) (fun '(c, u, j) =>
    let* x := el j in let* b := nth_error u x in
    if (b : bool) then Some (inr (c, u)) else
    let* u := set_nth u x true in let* j := nxt j in Some (inl (c ++ [x], u, j))) ([], u, j0).
(** if (c.size() > 1) vc.emplace_back(c): 83 and 199 *)
Definition keep (vc : list cycle) (c : cycle) : list cycle := if 1 <? length c then vc ++ [c] else vc.

(** swap(line[a], line[b]) *)
Definition swap_at (line : list nat) (a b : nat) : option (list nat) :=
  let* x := nth_error line a in let* y := nth_error line b in let* line := set_nth line a y in set_nth line b x.
(** identity_line: 158-164; expand_line: 166-171 *)
Definition identity_line (n : nat) : list nat := seq 0 n.
Definition expand_line (line : list nat) (n : nat) : list nat := line ++ seq (length line) (n - length line).
(** apply_cycles_to_line: 173-181 *)
Definition apply_cycle (line : list nat) (c : cycle) : option (list nat) :=
  for_range 1 (Nat.max 1 (length c)) (fun i line => let* a := nth_error c (i - 1) in let* b := nth_error c i in swap_at line a b) line.
Fixpoint apply_cycles (line : list nat) (cs : list cycle) : option (list nat) :=
  match cs with [] => Some line | c :: cs => let* line := apply_cycle line c in apply_cycles line cs end.
Definition apply_cycles_to_line (line : list nat) (cs : list cycle) (n : nat) : option (list nat) := apply_cycles (expand_line line n) cs.
(** cycles_to_line: 183-186 *)
Definition cycles_to_line (cs : list cycle) (n : nat) : option (list nat) := apply_cycles_to_line (identity_line n) cs n.
(** line_to_cycles: 188-202 *)
Definition line_to_cycles (line : list nat) : option (list cycle) :=
  let n := length line in
  let* '(vc, _) := for_range 0 n (fun i '(vc, u) =>
    let* b := nth_error u i in
    if (b : bool) then Some (vc, u) else
    let* '(c, u) := orbit_loop Some (fun j => nth_error line j) u i in Some (keep vc c, u)) ([], fresh n) in Some vc.
(** transpositions: 204-209, 211-214, 220-228 *)
Fixpoint apply_transpositions (line : list nat) (ts : list (nat * nat)) : option (list nat) :=
  match ts with [] => Some line | (a, b) :: ts => let* line := swap_at line a b in apply_transpositions line ts end.
Definition transpositions_to_line (ts : list (nat * nat)) (n : nat) : option (list nat) := apply_transpositions (identity_line n) ts.
Fixpoint cycle_transpositions (a : nat) (c : cycle) : list (nat * nat) := match c with [] => [] | b :: c => (a, b) :: cycle_transpositions b c end.
Definition cycles_to_transpositions (cs : list cycle) : list (nat * nat) := flat_map (fun c => match c with [] => [] | a :: c => cycle_transpositions a c end) cs.

(** constructors 33-39 *)
Definition identity_perm (n : nat) : perm := ([], n).
Definition perm_of_line (line : list nat) : option perm := let* cs := line_to_cycles line in Some (cs, length line).
Definition perm_of_transpositions (ts : list (nat * nat)) (n : nat) : option perm := let* l := transpositions_to_line ts n in perm_of_line l.
(** product: 60; apply_to: 68 *)
Definition perm_mul (p1 p2 : perm) : option perm :=
  let* line := cycles_to_line (fst p2) (snd p2) in let* line := apply_cycles_to_line line (fst p1) (snd p1) in perm_of_line line.
(** inv: 90-96. c.begin() + 1 of an empty cycle is undefined *)
Fixpoint inv_cycles (cs : list cycle) : option (list cycle) :=
  match cs with [] => Some [] | [] :: _ => None | (a :: c) :: cs => let* r := inv_cycles cs in Some ((a :: rev c) :: r) end.
Definition perm_inv (p : perm) : option perm := let* cs := inv_cycles (fst p) in Some (cs, snd p).
(** product by inverse: 64 *)
Definition perm_div (p1 p2 : perm) : option perm := let* q := perm_inv p2 in perm_mul p1 q.
(** pow for T >= 0: 71-87; (j + T) is not bounded *)
Fixpoint pow_cycles (T : Z) (cs : list cycle) (vc : list cycle) (u : list bool) : option (list cycle) :=
  match cs with
  | [] => Some vc
  | cy :: cs =>
      let L := length cy in
      let* '(vc, u) := for_range 0 L (fun i '(vc, u) =>
        let* '(c, u) := orbit_loop (fun j => nth_error cy j) (fun j => Some (Z.to_nat (Z.rem (Z.of_nat j + T) (Z.of_nat L)))) u i in Some (keep vc c, u)) (vc, u) in
      pow_cycles T cs vc u
  end.
Definition perm_pow (p : perm) (T : Z) : option perm :=
  if (T <? 0)%Z then let* q := perm_inv p in let* cs := pow_cycles (- T) (fst q) [] (fresh (snd q)) in Some (cs, snd q)
  else let* cs := pow_cycles T (fst p) [] (fresh (snd p)) in Some (cs, snd p).
(** comparison: 52-57 *)
Definition perm_eqb (p q : perm) : bool := (snd p =? snd q) && (if list_eq_dec (list_eq_dec Nat.eq_dec) (fst p) (fst q) then true else false).

(** all_cycles: 144-156 *)
Definition all_cycles (cs : list cycle) (n : nat) : list cycle := cs ++ map (fun i => [i]) (filter (fun i => negb (existsb (Nat.eqb i) (concat cs))) (seq 0 n)).
(** root: 100-140. len_to_cycles[l] is the list of cycles of length l in order. Arithmetic is unbounded. The result
    permutation() is ([], 0) *)
Definition bucket (vc : list cycle) (l : nat) : list cycle := filter (fun c => length c =? l) vc.
Definition root_len (l : nat) (T : Z) : option (Z * Z * Z) :=
  let* gm := gcd_max (Z.of_nat l) T in let L := (Z.of_nat l * gm)%Z in
  let* g := gcd L T in let* G := gcd (L * 2) T in Some (L, g, G).
(** first pass, 104-115: [Some None] is the early return *)
Fixpoint root_scan (vc : list cycle) (T : Z) (ls : list nat) (plen : option nat) (tr : Z) : option (option (option nat * Z)) :=
  match ls with
  | [] => Some (Some (plen, tr))
  | l :: ls =>
      match bucket vc l with
      | [] => root_scan vc T ls plen tr
      | b => let m := Z.of_nat (length b) in
             let* '(L, g, G) := root_len l T in
             let* r := (if (g =? 0)%Z then None else Some (Z.rem m g)) in
             if negb (r =? 0)%Z then Some None else
             root_scan vc T ls (if (G =? g * 2)%Z && (G <=? m)%Z then Some l else plen) (tr + (L - 1) * Z.quot m g)%Z
      end
  end.
(** combine G l-cycles into one: 129-136 *)
Definition combine (b : list cycle) (l : nat) (T : Z) (i : nat) (G : nat) : option cycle :=
  let o := Z.rem (Z.quot T (Z.of_nat G)) (Z.of_nat l) in
  for_range 0 l (fun h c =>
    let k := Z.to_nat (Z.rem (Z.of_nat h * o) (Z.of_nat l) * Z.of_nat G)%Z in
    for_range 0 G (fun j c => let* bc := nth_error b (i + j) in let* x := nth_error bc h in set_nth c (k + j) x) c) (repeat 0 (G * l)).
(** the groups of one length: 125-137 *)
Definition root_groups (b : list cycle) (l : nat) (T : Z) (g : nat) (double : bool) : option (list cycle) :=
  loopZ (Z.of_nat (length b) + 2) (fun '(i, res) =>
    if length b <=? i then Some (inr res) else
    let G := if double && (i =? 0) then g * 2 else g in
    let* c := combine b l T i G in Some (inl (i + G, res ++ [c]))) (0, []).
Fixpoint root_build (vc : list cycle) (T : Z) (ls : list nat) (wrong : option nat) (res : list cycle) : option (list cycle) :=
  match ls with
  | [] => Some res
  | l :: ls =>
      match bucket vc l with
      | [] => root_build vc T ls wrong res
      | b => let* '(L, g, _) := root_len l T in
             let* r := root_groups b l T (Z.to_nat g) (match wrong with Some pl => l =? pl | None => false end) in
             root_build vc T ls wrong (res ++ r)
      end
  end.
Definition perm_root (p : perm) (T parity : Z) : option perm :=
  let n := snd p in let vc := all_cycles (fst p) n in
  let* s := root_scan vc T (seq 0 (n + 1)) None 0%Z in
  match s with
  | None => Some ([], 0)
  | Some (plen, tr) =>
      let wrong := (0 <=? parity)%Z && negb (Z.rem tr 2 =? parity)%Z in
      match wrong, plen with
      | true, None => Some ([], 0)
      | true, Some l => let* cs := root_build vc T (seq 0 (n + 1)) (Some l) [] in Some (cs, n)
      | false, _ => let* cs := root_build vc T (seq 0 (n + 1)) None [] in Some (cs, n)
      end
  end.
