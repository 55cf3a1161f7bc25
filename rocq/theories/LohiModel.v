(** Model of structure/container/lohi_map.h and sqrt_map.h. Keys are naturals (negative keys index before the vectors); values are of any type with a default value.
    Accesses outside a vector are None; an exception is the outcome None inside Some. *)
From Verif Require Import Lib.
Open Scope nat_scope.

Section Maps.
Context {T : Type}.
Variable dflt : T.

(** * lohi_map.h *)
(** max_lo_key, cnt_lo, tbl_lo, tbl_hi: 20-24; the std::unordered_map is a partial function *)
Record lohi := { lmax : nat; lcnt : list nat; ltbl : list T; lhi : nat -> option T }.
(** constructor: 33-36 *)
Definition lohi_new (m : nat) : lohi := {| lmax := m; lcnt := repeat 0 (m + 1); ltbl := repeat dflt (m + 1); lhi := fun _ => None |}.
Definition upd (f : nat -> option T) (k : nat) (v : option T) : nat -> option T := fun j => if k =? j then v else f j.
Definition has (o : option T) : nat := match o with Some _ => 1 | None => 0 end.
(** count: 38-40 *)
Definition lohi_count (s : lohi) (k : nat) : option nat := if k <=? lmax s then nth_error (lcnt s) k else Some (has (lhi s k)).
(** at: 42-48; std::vector::at and std::unordered_map::at throw *)
Definition lohi_at (s : lohi) (k : nat) : option T := if k <=? lmax s then nth_error (ltbl s) k else lhi s k.
(** assignment through at: 46-48; None is the exception *)
Definition lohi_at_set (s : lohi) (k : nat) (v : T) : option lohi :=
  if k <=? lmax s then let* t := set_nth (ltbl s) k v in Some {| lmax := lmax s; lcnt := lcnt s; ltbl := t; lhi := lhi s |}
  else let* _ := lhi s k in Some {| lmax := lmax s; lcnt := lcnt s; ltbl := ltbl s; lhi := upd (lhi s) k (Some v) |}.
(** operator []: 50-52: the value that the reference shows, and the map afterwards *)
Definition lohi_index (s : lohi) (k : nat) : option (T * lohi) :=
  if k <=? lmax s then
    let* c := set_nth (lcnt s) k 1 in let* v := nth_error (ltbl s) k in Some (v, {| lmax := lmax s; lcnt := c; ltbl := ltbl s; lhi := lhi s |})
  else match lhi s k with Some v => Some (v, s) | None => Some (dflt, {| lmax := lmax s; lcnt := lcnt s; ltbl := ltbl s; lhi := upd (lhi s) k (Some dflt) |}) end.
(** an assignment through the reference that operator [] returns *)
Definition lohi_put (s : lohi) (k : nat) (v : T) : option lohi :=
  let* '(_, s) := lohi_index s k in
  if k <=? lmax s then let* t := set_nth (ltbl s) k v in Some {| lmax := lmax s; lcnt := lcnt s; ltbl := t; lhi := lhi s |}
  else Some {| lmax := lmax s; lcnt := lcnt s; ltbl := ltbl s; lhi := upd (lhi s) k (Some v) |}.
(** insert: 54-65; the flag of the result *)
Definition lohi_insert (s : lohi) (k : nat) (v : T) : option (bool * lohi) :=
  if k <=? lmax s then
    let* c := nth_error (lcnt s) k in
    if negb (c =? 0) then Some (false, s) else
    let* t := set_nth (ltbl s) k v in let* c := set_nth (lcnt s) k 1 in Some (true, {| lmax := lmax s; lcnt := c; ltbl := t; lhi := lhi s |})
  else match lhi s k with Some _ => Some (false, s) | None => Some (true, {| lmax := lmax s; lcnt := lcnt s; ltbl := ltbl s; lhi := upd (lhi s) k (Some v) |}) end.
(** erase: 67-69 *)
Definition lohi_erase (s : lohi) (k : nat) : option (nat * lohi) :=
  if k <=? lmax s then let* p := nth_error (lcnt s) k in let* c := set_nth (lcnt s) k 0 in Some (p, {| lmax := lmax s; lcnt := c; ltbl := ltbl s; lhi := lhi s |})
  else Some (has (lhi s k), {| lmax := lmax s; lcnt := lcnt s; ltbl := ltbl s; lhi := upd (lhi s) k None |}).

(** * sqrt_map.h *)
(** max_lo_key, max_key, cnt_lo, tbl_lo, cnt_hi, tbl_hi: 22-27 *)
Record sqm := { sml : nat; smk : nat; scl : list nat; stl : list T; sch : list nat; sth : list T }.
(** std::vector::resize *)
Definition vresize (l : list T) (n : nat) : list T := firstn n l ++ repeat dflt (n - length l).
(** reset_max: 60-64; division by a zero max_lo_key is undefined *)
Definition sqm_reset_max (s : sqm) (mk : nat) : option sqm :=
  if sml s =? 0 then None else
  Some {| sml := sml s; smk := mk; scl := scl s; stl := stl s; sch := repeat 0 (mk / sml s + 1); sth := vresize (sth s) (mk / sml s + 1) |}.
(** constructors: 41-49; max_key is uninitialised before reset_max: any number mk0 *)
Definition sqm_new (ml mk mk0 : nat) : option sqm := sqm_reset_max {| sml := ml; smk := mk0; scl := repeat 0 (ml + 1); stl := repeat dflt (ml + 1); sch := []; sth := [] |} mk.
(** max_key / k *)
Definition hidx (s : sqm) (k : nat) : nat := smk s / k.
(** count: 66-68 *)
Definition sqm_count (s : sqm) (k : nat) : option nat := if k <=? sml s then nth_error (scl s) k else nth_error (sch s) (hidx s k).
(** el, operator (), const operator []: 90-107 *)
Definition sqm_el (s : sqm) (k : nat) : option T := if k <=? sml s then nth_error (stl s) k else nth_error (sth s) (hidx s k).
(** a state with a changed entry *)
Definition put_cl (s : sqm) (c : list nat) : sqm := {| sml := sml s; smk := smk s; scl := c; stl := stl s; sch := sch s; sth := sth s |}.
Definition put_tl (s : sqm) (t : list T) : sqm := {| sml := sml s; smk := smk s; scl := scl s; stl := t; sch := sch s; sth := sth s |}.
Definition put_ch (s : sqm) (c : list nat) : sqm := {| sml := sml s; smk := smk s; scl := scl s; stl := stl s; sch := c; sth := sth s |}.
Definition put_th (s : sqm) (t : list T) : sqm := {| sml := sml s; smk := smk s; scl := scl s; stl := stl s; sch := sch s; sth := t |}.
(** an assignment through the reference el returns: 95-97 *)
Definition sqm_el_set (s : sqm) (k : nat) (v : T) : option sqm :=
  if k <=? sml s then let* t := set_nth (stl s) k v in Some (put_tl s t) else let* t := set_nth (sth s) (hidx s k) v in Some (put_th s t).
(** operator []: 110-119 *)
Definition sqm_index (s : sqm) (k : nat) : option (T * sqm) :=
  if k <=? sml s then let* c := set_nth (scl s) k 1 in let* v := nth_error (stl s) k in Some (v, put_cl s c)
  else let* c := set_nth (sch s) (hidx s k) 1 in let* v := nth_error (sth s) (hidx s k) in Some (v, put_ch s c).
(** m[k] = v *)
Definition sqm_put (s : sqm) (k : nat) (v : T) : option sqm := let* '(_, s) := sqm_index s k in sqm_el_set s k v.
(** at: 122-143; None inside is the exception *)
Definition sqm_at (s : sqm) (k : nat) : option (option T) :=
  if k <=? sml s then match nth_error (scl s) k with None => Some None | Some c => if c =? 0 then Some None else let* v := nth_error (stl s) k in Some (Some v) end
  else match nth_error (sch s) (hidx s k) with None => Some None | Some c => if c =? 0 then Some None else let* v := nth_error (sth s) (hidx s k) in Some (Some v) end.
(** insert: 145-159 *)
Definition sqm_insert (s : sqm) (k : nat) (v : T) : option (bool * sqm) :=
  if k <=? sml s then
    let* c := nth_error (scl s) k in if negb (c =? 0) then Some (false, s) else
    let* t := set_nth (stl s) k v in let* c := set_nth (scl s) k 1 in Some (true, put_cl (put_tl s t) c)
  else
    let* c := nth_error (sch s) (hidx s k) in if negb (c =? 0) then Some (false, s) else
    let* t := set_nth (sth s) (hidx s k) v in let* c := set_nth (sch s) (hidx s k) 1 in Some (true, put_ch (put_th s t) c).
(** erase: 161-163 *)
Definition sqm_erase (s : sqm) (k : nat) : option (nat * sqm) :=
  if k <=? sml s then let* p := nth_error (scl s) k in let* c := set_nth (scl s) k 0 in Some (p, put_cl s c)
  else let* p := nth_error (sch s) (hidx s k) in let* c := set_nth (sch s) (hidx s k) 0 in Some (p, put_ch s c).

(** * Histories of calls and the results a client sees. MRead is m[k] used as a value, MPut is m[k] = v *)
Inductive mop := MInsert (k : nat) (v : T) | MPut (k : nat) (v : T) | MRead (k : nat) | MErase (k : nat).
Inductive mres := RFlag (b : bool) | RVal (v : T) | RNum (n : nat) | RUnit.
Definition lohi_step (s : lohi) (o : mop) : option (lohi * mres) :=
  match o with
  | MInsert k v => let* '(b, s) := lohi_insert s k v in Some (s, RFlag b)
  | MPut k v => let* s := lohi_put s k v in Some (s, RUnit)
  | MRead k => let* '(v, s) := lohi_index s k in Some (s, RVal v)
  | MErase k => let* '(n, s) := lohi_erase s k in Some (s, RNum n)
  end.
Definition sqm_step (s : sqm) (o : mop) : option (sqm * mres) :=
  match o with
  | MInsert k v => let* '(b, s) := sqm_insert s k v in Some (s, RFlag b)
  | MPut k v => let* s := sqm_put s k v in Some (s, RUnit)
  | MRead k => let* '(v, s) := sqm_index s k in Some (s, RVal v)
  | MErase k => let* '(n, s) := sqm_erase s k in Some (s, RNum n)
  end.
Fixpoint run_ops {S} (step : S -> mop -> option (S * mres)) (s : S) (os : list mop) : option (S * list mres) :=
  match os with
  | [] => Some (s, [])
  | o :: os => let* '(s, r) := step s o in let* '(s, rs) := run_ops step s os in Some (s, r :: rs)
  end.
End Maps.
