From Coq Require Import Permutation Znumtheory.
From Verif Require Import Lib BaseModel BaseProofs PermModel PermSpec PermProofs PermProofs2.
Open Scope nat_scope.

Lemma gcd_eq a b : (0 <= a)%Z -> (0 <= b)%Z -> gcd a b = Some (Z.gcd a b).
Proof. intros Ha Hb. destruct (gcd_run a b) as (g & E & A & N). rewrite E, <- A. f_equal. rewrite Z.abs_eq; auto. Qed.
(** the parameters of one length *)
Lemma root_len_run l T : 1 <= l -> (1 <= T)%Z -> exists g G, root_len l T = Some (Z.of_nat l * g, g, G)%Z /\ (0 < g)%Z /\ (g | T)%Z /\ Z.gcd (Z.of_nat l) (T / g) = 1%Z /\ kernel_divides g (Z.of_nat l) /\
  (G = (g * 2)%Z -> (G | T)%Z).
Proof.
  intros Hl HT. unfold root_len. destruct (gcd_max_run (Z.of_nat l) T) as (g & E & Pg & Dg & K & C); [lia|lia|]. rewrite E. cbn [obind].
  rewrite gcd_eq by nia. cbn [obind]. rewrite gcd_eq by nia. cbn [obind]. exists g, (Z.gcd (Z.of_nat l * g * 2) T).
  assert (Eg : Z.gcd (Z.of_nat l * g) T = g).
  { destruct Dg as [t ->]. rewrite Z.div_mul in C by lia. rewrite Z.gcd_mul_mono_r_nonneg by lia. rewrite C. lia. }
  rewrite Eg. split; [reflexivity|]. split; [exact Pg|]. split; [exact Dg|]. split; [exact C|]. split; [exact K|]. intros _. apply Z.gcd_divide_r.
Qed.
Lemma coprime_sub l T g G : (0 < g)%Z -> (g | T)%Z -> (G | T)%Z -> (0 < T)%Z -> G = (g * 2)%Z -> Z.gcd l (T / g) = 1%Z -> Z.gcd l (T / G) = 1%Z.
Proof.
  intros Hg Hd HG HT -> C. destruct HG as [t ->]. rewrite Z.div_mul by lia. replace (t * (g * 2))%Z with (t * 2 * g)%Z in C by ring. rewrite Z.div_mul in C by lia.
  apply Zgcd_1_rel_prime in C. apply Zgcd_1_rel_prime. apply rel_prime_sym. apply rel_prime_div with (t * 2)%Z; [now apply rel_prime_sym|]. exists 2%Z. ring.
Qed.
Lemma mulmod_inj l t h h' : Nat.gcd l t = 1 -> h < l -> h' < l -> (h * t) mod l = (h' * t) mod l -> h = h'.
Proof.
  assert (W : forall a b, Nat.gcd l t = 1 -> a <= b -> b < l -> (a * t) mod l = (b * t) mod l -> a = b).
  { intros a b C Hab Hb E. assert (D : Nat.divide l ((b - a) * t)).
    { exists (b * t / l - a * t / l). rewrite Nat.mul_sub_distr_r. pose proof (Nat.div_mod (a * t) l ltac:(lia)). pose proof (Nat.div_mod (b * t) l ltac:(lia)). rewrite Nat.mul_sub_distr_r. nia. }
    rewrite Nat.mul_comm in D. apply Nat.gauss in D; [|exact C]. destruct D as [k Hk]. destruct k; [lia|nia]. }
  intros C H H' E. destruct (le_lt_dec h h'); [now apply W|symmetry; apply W; auto; lia].
Qed.
Lemma block_inj G q q' j j' : j < G -> j' < G -> q * G + j = q' * G + j' -> q = q' /\ j = j'.
Proof. intros H H' E. assert (q = q') as <-; [|lia]. destruct (lt_eq_lt_dec q q') as [[L|L]|L]; [nia|exact L|nia]. Qed.
Lemma gcd_of_nat a b : Z.gcd (Z.of_nat a) (Z.of_nat b) = 1%Z -> Nat.gcd a b = 1.
Proof.
  intros H. assert (D : (Z.of_nat (Nat.gcd a b) | 1)%Z).
  { rewrite <- H. apply Z.gcd_greatest; [destruct (Nat.gcd_divide_l a b) as [k Hk]|destruct (Nat.gcd_divide_r a b) as [k Hk]]; exists (Z.of_nat k); rewrite <- Nat2Z.inj_mul; now f_equal. }
  apply Z.divide_1_r_nonneg in D; lia.
Qed.

(** the combined cycle *)
Definition merged (b : list cycle) (l t G : nat) (c : cycle) : Prop := length c = G * l /\ forall h j, h < l -> j < G -> nth ((h * t) mod l * G + j) c 0 = nth h (nth j b []) 0.
Lemma combine_run b l t i G : 1 <= l -> 1 <= G -> i + G <= length b -> (forall c, In c b -> length c = l) -> Nat.gcd l t = 1 ->
  exists c, combine b l (Z.of_nat (t * G)) i G = Some c /\ merged (skipn i b) l t G c.
Proof.
  intros Hl HG Hi Hb C. unfold combine. set (o := Z.rem (Z.quot (Z.of_nat (t * G)) (Z.of_nat G)) (Z.of_nat l)).
  assert (Eo : o = Z.of_nat (t mod l)). { unfold o. rewrite Z.quot_div_nonneg by lia. rewrite Nat2Z.inj_mul, Z.div_mul by lia. rewrite Z.rem_mod_nonneg by lia. now rewrite Nat2Z.inj_mod. }
  assert (Ek : forall h, Z.to_nat (Z.rem (Z.of_nat h * o) (Z.of_nat l) * Z.of_nat G)%Z = (h * t) mod l * G).
  { intros h. rewrite Eo. rewrite <- Nat2Z.inj_mul, Z.rem_mod_nonneg by lia. rewrite <- Nat2Z.inj_mod, Nat.mul_mod_idemp_r by lia. rewrite <- Nat2Z.inj_mul. apply Nat2Z.id. }
  assert (Hk : forall h, (h * t) mod l < l) by (intros h; apply Nat.mod_upper_bound; lia).
  set (val := fun h j => nth h (nth (i + j) b []) 0).
  match goal with |- context [for_range 0 l ?f ?s] => destruct (for_range_spec (fun h c => length c = G * l /\ forall h' j, h' < h -> j < G -> nth_error c ((h' * t) mod l * G + j) = Some (val h' j)) f 0 l s) as (c & E & L & V) end; [lia| | |].
  - split; [apply repeat_length|lia].
  - intros h c Hh (L & V).
    match goal with |- context [for_range 0 G ?f ?s] => destruct (for_range_spec (fun j' c => length c = G * l /\ forall h' j, (h' < h /\ j < G) \/ (h' = h /\ j < j') -> nth_error c ((h' * t) mod l * G + j) = Some (val h' j)) f 0 G s) as (c' & E & L' & V') end; [lia| | |].
    + split; [exact L|]. intros h' j [[H1 H2]|[H1 H2]]; [now apply V|lia].
    + intros j c1 Hj (L1 & V1). rewrite (nth_error_nth' b []) by lia. cbn [obind]. rewrite (nth_error_nth' _ 0) by (rewrite (Hb (nth (i + j) b [])); [lia|apply nth_In; lia]). cbn [obind]. rewrite Ek.
      destruct (set_nth_some c1 ((h * t) mod l * G + j) (nth h (nth (i + j) b []) 0)) as [c2 E2]; [rewrite L1; specialize (Hk h); nia|]. rewrite E2. exists c2. split; [reflexivity|]. split; [now rewrite (set_nth_length _ _ _ _ E2)|].
      intros h' j' Hc. rewrite (set_nth_get _ _ _ _ _ E2). destruct (Nat.eqb_spec ((h * t) mod l * G + j) ((h' * t) mod l * G + j')) as [Q|Q].
      * apply block_inj in Q as (Q1 & Q2); [|lia|lia]. apply mulmod_inj in Q1; [|exact C|lia|lia]. subst. reflexivity.
      * apply V1. destruct Hc as [Hc|[-> Hc]]; [now left|right]. split; [reflexivity|]. destruct (Nat.eq_dec j' j) as [->|]; [congruence|lia].
    + exists c'. split; [exact E|]. split; [exact L'|]. intros h' j H1 H2. apply V'. destruct (Nat.eq_dec h' h) as [->|]; [right; lia|left; lia].
  - rewrite E. exists c. split; [reflexivity|]. split; [exact L|]. intros h j Hh Hj. apply nth_error_nth. rewrite V by assumption. unfold val. f_equal. f_equal.
    rewrite <- (firstn_skipn i b) at 1. rewrite app_nth2; rewrite firstn_length_le by lia; [f_equal; lia|lia].
Qed.
Lemma nth_firstn_nat {A} (l : list A) n i d : i < n -> nth i (firstn n l) d = nth i l d.
Proof. revert n l. induction i as [|i IH]; intros [|n] [|x l] H; cbn; try lia; auto. apply IH. lia. Qed.
Lemma merged_perm b l t G c : 1 <= l -> 1 <= G -> G <= length b -> (forall c, In c b -> length c = l) -> NoDup (concat (firstn G b)) -> merged b l t G c -> Permutation c (concat (firstn G b)).
Proof.
  unfold merged, cycle in *. intros Hl HG Hb Hlen ND (L & V).
  assert (Lc : length (concat (firstn G b)) = G * l).
  { clear ND V L c. revert b Hb Hlen. clear HG. induction G as [|G IH]; intros b Hb Hlen; [reflexivity|]. destruct b as [|x b]; [cbn in Hb; lia|]. cbn [firstn concat]. rewrite app_length, IH; [|cbn in Hb; lia|intros y Hy; apply Hlen; now right]. rewrite (Hlen x) by now left. lia. }
  assert (I : incl (concat (firstn G b)) c).
  { intros x Hx. apply in_cycle in Hx as (y & h & Hy & Hh & ->). destruct (In_nth _ _ [] Hy) as (j & Hj & Ej). rewrite firstn_length_le in Hj by lia. rewrite nth_firstn_nat in Ej by lia.
    assert (length y = l) by (apply Hlen; rewrite <- Ej; apply nth_In; lia). rewrite <- Ej, <- (V h j) by lia. apply nth_In. rewrite L. pose proof (Nat.mod_upper_bound (h * t) l ltac:(lia)). nia. }
  apply NoDup_Permutation; [apply (NoDup_incl_NoDup (l:=concat (firstn G b))); [exact ND|lia|exact I]|exact ND|].
  intros x. split; [|apply I]. apply NoDup_length_incl; [exact ND|lia|exact I].
Qed.
Lemma merged_step b l t G c r s : 1 <= l -> 1 <= G -> G <= length b -> (forall c, In c b -> length c = l) -> merged b l t G c -> cyc_ok r c -> (forall c, In c b -> cyc_ok s c) ->
  forall x, In x (concat (firstn G b)) -> Nat.iter (t * G) r x = s x.
Proof.
  unfold merged, cycle in *. intros Hl HG Hb Hlen (L & V) Cr Cs x Hx. apply in_cycle in Hx as (y & h & Hy & Hh & ->). destruct (In_nth _ _ [] Hy) as (j & Hj & Ej). rewrite firstn_length_le in Hj by lia. rewrite nth_firstn_nat in Ej by lia.
  assert (Iy : In y b) by (rewrite <- Ej; apply nth_In; lia). assert (Ly : length y = l) by now apply Hlen. rewrite Ly in Hh.
  rewrite (Cs y Iy h) by lia. rewrite Ly. rewrite <- Ej at 1. rewrite <- (V h j) by lia. pose proof (Nat.mod_upper_bound (h * t) l ltac:(lia)) as Hq.
  rewrite iter_cyc; [|exact Cr|rewrite L; nia]. rewrite L. rewrite <- Ej. rewrite <- (V ((h + 1) mod l) j) by (try lia; apply Nat.mod_upper_bound; lia). f_equal.
  replace ((h * t) mod l * G + j + t * G) with (((h * t) mod l + t) * G + j) by ring.
  rewrite (Nat.mul_comm G l). rewrite (Nat.add_comm (_ * G) j).
  set (q := (h * t) mod l + t). replace (((h + 1) mod l * t) mod l) with (q mod l). 2:{ unfold q. rewrite Nat.add_mod_idemp_l by lia. rewrite Nat.mul_mod_idemp_l by lia. f_equal. ring. }
  rewrite (Nat.div_mod q l) at 1 by lia. replace (j + (l * (q / l) + q mod l) * G) with ((q mod l * G + j) + (q / l) * (l * G)) by ring. rewrite Nat.mod_add by nia. apply Nat.mod_small.
  pose proof (Nat.mod_upper_bound q l ltac:(lia)). nia.
Qed.
