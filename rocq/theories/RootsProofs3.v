(** Square roots modulo a factored number. *)
From Verif Require Import Lib BaseModel BaseProofs ModuloModel ModuloProofs ModPowModel ModPowProofs PrimesSpec PrimesProofs NumTheory NumTheory2 NumTheory3 RootsModel RootsSpec RootsProofs RootsProofs2.
Open Scope Z_scope.

Lemma coprime_mul m q a : Z.gcd m q = 1 -> (m | a) -> (q | a) -> (m * q | a).
Proof. intros G A (c & ->). assert (C : (m | c)) by (apply (Z.gauss m q); [now rewrite Z.mul_comm|exact G]). destruct C as (d & ->). exists d. ring. Qed.
Lemma loop_run y : 0 <= y -> forall vf m sr, 0 < m -> NoDup sr -> (forall x, In x sr <-> 0 <= x < m /\ (m | x * x - y)) ->
  NoDup (map fst vf) -> (forall p e, In (p, e) vf -> 0 <= p /\ is_prime (Z.to_nat p) /\ 1 <= e) -> (forall p e, In (p, e) vf -> ~ (p | y) /\ ~ (p | m)) ->
  exists out, sqrt_mod_loop y vf m sr = Some out /\ NoDup out /\ forall x, In x out <-> 0 <= x < m * factored_value vf /\ (m * factored_value vf | x * x - y).
Proof.
  intros Y. induction vf as [|(p & e) vf IH]; intros m sr M N S ND F C; cbn [sqrt_mod_loop factored_value fold_right].
  - exists sr. rewrite Z.mul_1_r. auto.
  - destruct (F p e (or_introl eq_refl)) as (P0 & P & E). destruct (C p e (or_introl eq_refl)) as (CY & CM). rewrite <- (Z2Nat.id p P0) in *. set (p' := Z.to_nat p) in *. clearbody p'. clear P0. rewrite Nat2Z.id in P. pose proof (pz_ge p' P) as P2.
    rewrite (powT_npow Z.mul 1 Z.mul_assoc Z.mul_1_l Z.mul_1_r) by lia. rewrite npow_Z, Z2Nat.id by lia. cbn [obind]. pose proof (coprime_prime p' e m P E M CM) as G.
    destruct (factor_step y p' e m sr Y P E CY M G ltac:(intros r H; now apply S in H)) as (out & EO & NO & O). destruct (pow_min p' P e E) as (QP & _). set (q := Z.of_nat p' ^ e) in *.
    assert (EX : forall k, (let* sr' := (if Z.of_nat p' =? 2 then let* '(a, b) := sqrt_hensel_lift_p2 y e in let* s := add_roots y m sr a q [] in add_roots y m sr b q s else let* x := sqrt_hensel_lift y (Z.of_nat p') e in add_roots y m sr x q []) in k sr') = k out :> option (list Z)) by (intros k; now rewrite EO).
    rewrite EX. clear EX. cbn [map fst] in ND. apply NoDup_cons_iff in ND as (ND1 & ND2).
    destruct (IH (m * q) out) as (out' & EO' & NO' & O'); [nia|exact NO| |exact ND2|intros; apply F; now right| |].
    + intros x. rewrite O. assert (RM : In (x mod m) sr <-> (m | x * x - y)). { rewrite S. split; [intros (_ & D)|intros D; split; [apply Z.mod_pos_bound; exact M|]]; [apply (pm_root m (x mod m)); [exact D|left; apply mod_self; lia]|apply (pm_root m x); [exact D|left; apply mod_self'; lia]]. }
      rewrite RM. split; [intros (B & D1 & D2); split; [exact B|now apply coprime_mul]|]. intros (B & D). split; [exact B|]. split; (eapply Z.divide_trans; [|exact D]); [apply Z.divide_factor_l|apply Z.divide_factor_r].
    + intros r f I. destruct (C r f (or_intror I)) as (C1 & C2). split; [exact C1|]. destruct (F r f (or_intror I)) as (R0 & R & _). intros D. rewrite <- (Z2Nat.id r R0) in D, C2. apply prime_Zeuclid in D as [D|D]; [tauto| |exact R]. apply prime_of_pow in D; [|exact R|exact P|lia]. apply ND1. apply in_map_iff. exists (r, f). split; [cbn [fst]; lia|exact I].
    + exists out'. split; [exact EO'|]. split; [exact NO'|]. intros x. rewrite O'. fold (factored_value vf). now rewrite Z.mul_assoc.
Qed.
Lemma factored_dvd vf p e : In (p, e) vf -> 1 <= e -> (p | factored_value vf).
Proof.
  intros I E. induction vf as [|(q & f) vf IH]; [destruct I|]. cbn [factored_value fold_right]. destruct I as [H|I]; [|apply Z.divide_mul_r; now apply IH]. inversion H; subst. apply Z.divide_mul_l. replace e with (Z.succ (e - 1)) by lia. rewrite Z.pow_succ_r by lia. apply Z.divide_factor_l.
Qed.
Lemma sqrt_mod_run y vf : 0 <= y -> factorization_list vf -> Z.gcd y (factored_value vf) = 1 ->
  exists out, sqrt_mod y vf = Some out /\ NoDup out /\ forall x, In x out <-> 0 <= x < factored_value vf /\ root_of y (factored_value vf) x.
Proof.
  intros Y (ND & F) G. destruct (loop_run y Y vf 1 [0]) as (out & E & N & O); [lia|constructor; [easy|constructor]| |exact ND|exact F| |].
  - intros x. cbn [In]. split; [intros [<-|[]]; split; [lia|apply Z.divide_1_l]|intros (B & _); left; lia].
  - intros p e I. destruct (F p e I) as (P0 & P & E). pose proof (pz_ge _ P) as P2. rewrite Z2Nat.id in P2 by exact P0. split; intros D; [|apply Z.divide_pos_le in D; lia]. assert (D1 : (p | 1)) by (rewrite <- G; apply Z.gcd_greatest; [exact D|now apply (factored_dvd vf p e)]). apply Z.divide_pos_le in D1; lia.
  - exists out. split; [exact E|]. split; [exact N|]. intros x. rewrite O, Z.mul_1_l. reflexivity.
Qed.
