(** Model of sum_multiplicative_34, traverse_rough_numbers, calc_F_k and sum_multiplicative of include/altruct/algorithm/math/divisor_sums.h.
    [f v p e] is the caller's f(f(p^(e-1)), p, e); [root] and [cbrt] stand for isqrt/sqrtT and icbrt (C05); the table of primes is the list pa, its size m or psz is the length of the list. Integers are unbounded. *)
From Verif Require Import Lib LohiModel FenwickModel SumMModel.
From Coq Require Import Arith Lia.
Open Scope nat_scope.

Section SumMul.
  Context {T : Type} (zero one : T) (add mul sub : T -> T -> T) (opp : T -> T).
  Variables (f : T -> nat -> nat -> T) (root cbrt : nat -> option nat) (mk0 : nat).

  (** divisor_sums.h 863-871: the while loop; [rec] is the recursive call, bv the next value of bpf_t_val *)
  Fixpoint sm34_while (fuel : nat) (rec : nat -> T -> nat -> nat -> option T) (p : nat) (f_tb : T) (be bv e : nat) (f_pe : T) (nn : nat) (ret : T) : option T :=
    match fuel with
    | O => None
    | S fuel =>
      if nn <? bv then Some ret else
      let e := e + 1 in
      let f_pe := f f_pe p e in
      let* r := rec nn (if be =? 0 then f_pe else f_tb) bv (if be =? 0 then e else be) in
      sm34_while fuel rec p f_tb be bv e f_pe (nn / p) (add ret (if be =? 0 then r else mul f_pe r))
    end.
  (** divisor_sums.h 856-872: the for loop over the primes of index i, ..., i + k - 1 *)
  Fixpoint sm34_for (rec : nat -> nat -> T -> nat -> nat -> option T) (pa : list nat) (n : nat) (f_tb : T) (bv be : nat) (k i : nat) (ret : T) : option T :=
    match k with
    | O => Some ret
    | S k =>
      let* p := nth_error pa i in
      let* _ := guard (negb (p =? 0)) in
      let bvn := if be =? 0 then p else bv in
      if n / p <? bvn then Some ret else
      let* ret := sm34_while (S n) (rec i) p f_tb be bvn 0 one (n / p) ret in
      sm34_for rec pa n f_tb bv be k (S i) ret
    end.
  (** divisor_sums.h 845-874: sum_multiplicative_34 with its recursion parameters; m is the number of primes of pa in use *)
  Fixpoint sm34 (fuel : nat) (s1 : @sqm T) (pa : list nat) (m n : nat) (f_tb : T) (bv be : nat) : option T :=
    match fuel with
    | O => None
    | S fuel =>
      let ret := if be =? 0 then one else f f_tb bv (be + 1) in
      let* a := sqm_el s1 n in
      let* ret := if be =? 0 then Some (add ret a) else let* b := sqm_el s1 bv in Some (add ret (mul f_tb (sub a b))) in
      sm34_for (fun i nn => sm34 fuel s1 pa i nn) pa n f_tb bv be m 0 ret
    end.
  Definition sum_multiplicative_34_map (s1 : @sqm T) (n : nat) (pa : list nat) : option T := sm34 (S (length pa)) s1 pa (length pa) n one 1 0.
  (** divisor_sums.h 876-880 *)
  Definition sum_multiplicative_34 (s1 : nat -> T) (n : nat) (pa : list nat) : option T :=
    let* s := make_sqrt_map zero root mk0 s1 n in sum_multiplicative_34_map s n pa.

  (** pa1[k] = pa[k - 1] *)
  Definition pa1 (pa : list nat) (k : nat) : option nat := match k with O => None | S k => nth_error pa k end.

  (** divisor_sums.h 894-913: traverse_rough_numbers; the visitor acts on a state *)
  Section Rough.
    Context {St : Type} (visit : St -> nat -> T -> option St).
    (** 909-911 *)
    Fixpoint trn_for (rec : nat -> nat -> nat -> T -> St -> option St) (pa : list nat) (npe mpe : nat) (f_mpe : T) (c j : nat) (st : St) : option St :=
      match c with
      | O => Some st
      | S c =>
        let* p := pa1 pa j in
        if npe <? p then Some st else
        let* st := rec npe j mpe f_mpe st in
        trn_for rec pa npe mpe f_mpe c (S j) st
      end.
    (** 896-912 *)
    Fixpoint trn_while (fuel : nat) (rec : nat -> nat -> nat -> T -> St -> option St) (pa : list nat) (k p e : nat) (f_pe : T) (npe mpe : nat) (f_m : T) (st : St) : option St :=
      match fuel with
      | O => None
      | S fuel =>
        if npe <? p then Some st else
        let e := e + 1 in
        let f_pe := f f_pe p e in
        let* _ := guard (negb (p =? 0)) in
        let npe := npe / p in
        let mpe := mpe * p in
        let f_mpe := mul f_m f_pe in
        let* st := visit st mpe f_mpe in
        let* st := trn_for rec pa npe mpe f_mpe (length pa - k) (k + 1) st in
        trn_while fuel rec pa k p e f_pe npe mpe f_m st
      end.
    Fixpoint trn (fuel : nat) (pa : list nat) (n k m : nat) (f_m : T) (st : St) : option St :=
      match fuel with
      | O => None
      | S fuel => let* p := pa1 pa k in trn_while (S n) (fun npe j mpe f_mpe st => trn fuel pa npe j mpe f_mpe st) pa k p 0 one n m f_m st
      end.
    Definition traverse_rough_numbers (n k : nat) (pa : list nat) (m : nat) (f_m : T) (st : St) : option St := trn (S (length pa)) pa n k m f_m st.
  End Rough.

  (** divisor_sums.h 921-931: calc_F_k; F_k1 may change the state it reads *)
  Section CalcF.
    Context {St : Type} (F_k1 : St -> nat -> option (T * St)).
    Fixpoint calc_loop (fuel p e : nat) (f_pe : T) (mpe : nat) (s : T) (st : St) : option (T * St) :=
      match fuel with
      | O => None
      | S fuel =>
        let* _ := guard (negb (p =? 0)) in
        let mpe := mpe / p in
        if mpe =? 0 then Some (s, st) else
        let f_pe := f f_pe p e in
        let* '(x, st) := F_k1 st mpe in
        calc_loop fuel p (S e) f_pe mpe (add s (mul f_pe x)) st
      end.
    Definition calc_F_k (p m : nat) (st : St) : option (T * St) :=
      let* '(s, st) := F_k1 st m in calc_loop (S m) p 1 one m s st.
  End CalcF.

  (** * sum_multiplicative *)
  (** divisor_sums.h 978-981 *)
  Definition sml_step1 (s1 : nat -> T) (n q : nat) (Fp : @sqm T) : option (@sqm T) :=
    for_range 1 (q + 1) (fun i Fp => let* Fp := sqm_put Fp i (s1 i) in sqm_put Fp (n / i) (s1 (n / i))) Fp.
  (** 986: the search for k, from k on *)
  Fixpoint sml_find (fuel : nat) (pa : list nat) (c k : nat) : option nat :=
    match fuel with
    | O => None
    | S fuel => if k <? length pa then let* p := pa1 pa k in if p <=? c then sml_find fuel pa c (S k) else Some k else Some k
    end.
  (** 1007-1012: the sum over semiprimes; j runs over k, ..., k + cnt - 1 *)
  Fixpoint sml_semi (pa : list nat) (m cnt j : nat) (s2 : T) (Fp : @sqm T) : option (T * @sqm T) :=
    match cnt with
    | O => Some (s2, Fp)
    | S cnt =>
      let* p := pa1 pa j in
      if m <? p * p then Some (s2, Fp) else
      let* _ := guard (negb (p =? 0)) in
      let f_p := f one p 1 in
      let f_p2 := f f_p p 2 in
      let* '(a, Fp) := sqm_index Fp (m / p) in
      let* '(b, Fp) := sqm_index Fp p in
      sml_semi pa m cnt (S j) (add s2 (add f_p2 (mul f_p (sub a b)))) Fp
    end.
  (** 984-1017; the flag tells that the break of 1002 was taken *)
  Definition sml_step2 (n q c nq : nat) (pa : list nat) (Fp Fk : @sqm T) : option (nat * @sqm T * @sqm T) :=
    let* k := sml_find (S (length pa)) pa c 1 in
    let* pk := pa1 pa k in
    let* Fk := sqm_put Fk 0 zero in
    let* Fk := for_range 1 pk (fun m Fk => sqm_put Fk m one) Fk in
    let* '(x, Fp) := sqm_index Fp (pk - 1) in
    let b := sub one x in
    let* '(Fp, Fk) := for_range pk (q + 1) (fun m '(Fp, Fk) => let* '(y, Fp) := sqm_index Fp m in let* Fk := sqm_put Fk m (add b y) in Some (Fp, Fk)) (Fp, Fk) in
    let* '(_, Fp, Fk) := for_down 1 (nq + 1) (fun i '(stop, Fp, Fk) =>
      if stop : bool then Some (stop, Fp, Fk) else
      let m := n / i in
      if pk * pk <=? m then Some (true, Fp, Fk) else
      let* '(y, Fp) := sqm_index Fp m in let* Fk := sqm_put Fk m (add b y) in Some (false, Fp, Fk)) (false, Fp, Fk) in
    let* '(Fp, Fk) := for_down 1 (c + 1) (fun i '(Fp, Fk) =>
      let m := n / i in
      if m <? pk * pk then Some (Fp, Fk) else
      let* '(s2, Fp) := sml_semi pa m (length pa + 1 - k) k zero Fp in
      let* '(y, Fp) := sqm_index Fp m in let* Fk := sqm_put Fk m (add (add b y) s2) in Some (Fp, Fk)) (Fp, Fk) in
    Some (k, Fp, Fk).
  (** 1022, 1025: the index in the Fenwick tree *)
  Definition sml_idx (n q tsz m : nat) : nat := if m <=? q then m else tsz - n / m.
  (** 1021-1024: get_Ft_k1 *)
  Definition sml_get (n q nd tsz : nat) (Ft : list T) (Fk1 : @sqm T) (m : nat) : option (T * @sqm T) :=
    if nd <=? m then sqm_index Fk1 m else let* x := fw_get_sum add Ft (sml_idx n q tsz m) zero in Some (x, Fk1).
  (** 1032-1042: the main loop of step 3; pa1[0] is before the table *)
  Fixpoint sml_main (n q d nd tsz h : nat) (pa : list nat) (k last : nat) (Ft : list T) (Fk1 Fk : @sqm T) : option (nat * list T * @sqm T * @sqm T) :=
    match k with
    | O => None
    | S k' =>
      let* pk := pa1 pa k in
      if pk <=? h then Some (last, Ft, Fk1, Fk) else
      let '(Fk1, Fk) := (Fk, Fk1) in
      let* '(Fk1, Fk) := for_down 1 (d + 1) (fun i '(Fk1, Fk) =>
        let m := n / i in
        let* '(x, Fk1) := calc_F_k (sml_get n q nd tsz Ft) pk m Fk1 in
        let* Fk := sqm_put Fk m x in Some (Fk1, Fk)) (Fk1, Fk) in
      let* Ft := traverse_rough_numbers (fun Ft m v => fw_add add Ft (sml_idx n q tsz m) v) (nd - 1) k pa 1 one Ft in
      sml_main n q d nd tsz h pa k' k Ft Fk1 Fk
    end.
  (** 1019-1047 *)
  Definition sml_step3 (n q d nd nq tsz h : nat) (pa : list nat) (last : nat) (Ft : list T) (Fk1 Fk : @sqm T) : option (nat * @sqm T * @sqm T) :=
    let* '(Ft, Fk) := for_range 1 (q + 1) (fun m '(Ft, Fk) =>
      let* '(x, Fk) := sqm_index Fk m in let* Ft := fw_add add Ft m x in
      let* '(x, Fk) := sqm_index Fk m in let* Ft := fw_add add Ft (m + 1) (opp x) in Some (Ft, Fk)) (Ft, Fk) in
    let* '(Ft, Fk) := for_down (d + 1) (nq + 1) (fun i '(Ft, Fk) =>
      let* '(x, Fk) := sqm_index Fk (n / i) in let* Ft := fw_add add Ft (tsz - i) x in
      let* '(x, Fk) := sqm_index Fk (n / i) in let* Ft := fw_add add Ft (tsz - i + 1) (opp x) in Some (Ft, Fk)) (Ft, Fk) in
    let* '(last, Ft, Fk1, Fk) := sml_main n q d nd tsz h pa (last - 1) last Ft Fk1 Fk in
    let* '(Fk1, Fk) := for_range 0 (q + 1) (fun m '(Fk1, Fk) => let* '(x, Fk1) := sml_get n q nd tsz Ft Fk1 m in let* Fk := sqm_put Fk m x in Some (Fk1, Fk)) (Fk1, Fk) in
    let* '(Fk1, Fk) := for_down (d + 1) (nq + 1) (fun i '(Fk1, Fk) => let* '(x, Fk1) := sml_get n q nd tsz Ft Fk1 (n / i) in let* Fk := sqm_put Fk (n / i) x in Some (Fk1, Fk)) (Fk1, Fk) in
    Some (last, Fk1, Fk).
  (** 1050-1064: k runs down from last - 1 to 1 *)
  Definition sml_step4 (n q nq : nat) (pa : list nat) (last : nat) (Fk1 Fk : @sqm T) : option (@sqm T * @sqm T) :=
    for_down 1 last (fun k '(Fk1, Fk) =>
      let* pk := pa1 pa k in
      let '(Fk1, Fk) := (Fk, Fk1) in
      let* '(Fk1, Fk) := for_range 1 (q + 1) (fun m '(Fk1, Fk) => let* '(x, Fk1) := calc_F_k sqm_index pk m Fk1 in let* Fk := sqm_put Fk m x in Some (Fk1, Fk)) (Fk1, Fk) in
      for_down 1 (nq + 1) (fun i '(Fk1, Fk) => let m := n / i in let* '(x, Fk1) := calc_F_k sqm_index pk m Fk1 in let* Fk := sqm_put Fk m x in Some (Fk1, Fk)) (Fk1, Fk)) (Fk1, Fk).
  (** 951-1067 *)
  Definition sum_multiplicative (s1 : nat -> T) (n : nat) (pa : list nat) : option (@sqm T) :=
    let* q := root n in
    let* c := cbrt n in
    let d := c in
    let* _ := guard (negb (d =? 0)) in
    let nd := n / d in
    let* pl := pa1 pa (length pa) in
    let* _ := guard (negb (pl =? 0)) in
    let h := nd / pl + 1 in
    let nq := n / (q + 1) in
    let tsz := q + 1 + nq in
    let* Fp := sqm_new zero q n mk0 in
    let* Fk1 := sqm_new zero q n mk0 in
    let* Fk := sqm_new zero q n mk0 in
    let Ft := fw_new (tsz - d + 1) zero in
    if n =? 1 then sqm_put Fk 1 one else
    let* Fp := sml_step1 s1 n q Fp in
    let* '(last, Fp, Fk) := sml_step2 n q c nq pa Fp Fk in
    let* '(last, Fk1, Fk) := sml_step3 n q d nd nq tsz h pa last Ft Fk1 Fk in
    let* '(_, Fk) := sml_step4 n q nq pa last Fk1 Fk in
    Some Fk.
End SumMul.
