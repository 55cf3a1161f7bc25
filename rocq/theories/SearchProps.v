(** C45 binary search, C46 KMP, C47 collection helpers, C68 reduce and mex. *)
From Coq Require Import Sorting.Sorted.
From Verif Require Import Lib SearchModel SearchSpec SearchProofs.
Local Open Scope Z_scope.

(* ---------------- C45 ---------------- *)
(** the predicate needs to be defined on [lo, hi) only *)
Theorem C45_binary_search : forall (pred : Z -> option bool) lo hi, lo <= hi ->
  (forall i, lo <= i < hi -> exists b, pred i = Some b) ->
  (forall i j, lo <= i <= j -> j < hi -> pred i = Some true -> pred j = Some true) ->
  exists r, binary_search_pred pred lo hi = Some r /\ binary_search_num pred lo hi 1 = Some r /\ lo <= r <= hi /\
    (forall i, lo <= i < r -> pred i = Some false) /\ (r < hi -> pred r = Some true).
Proof.
  intros pred lo hi L D M. destruct (bsp_spec pred lo hi L D M) as (r & E & B & F & T).
  destruct (bsn_spec pred lo hi L D M) as (r' & E' & B' & F' & T').
  assert (r' = r).
  { destruct (Z.lt_trichotomy r r') as [H|[H|H]]; [|auto|].
    - specialize (T ltac:(lia)). rewrite F' in T by lia. discriminate.
    - specialize (T' ltac:(lia)). rewrite F in T' by lia. discriminate. }
  subst r'. exists r. auto.
Qed.
Example C45_case :
  let pred := fun i => if (3 <=? i) && (i <? 20) then Some (130 <=? i * i) else None in
  binary_search_pred pred 3 20 = Some 12 /\ binary_search_num pred 3 20 1 = Some 12.
Proof. now vm_compute. Qed.

(** a range whose bounds are already crossed is returned unchanged *)
Theorem C45_empty_range : forall pred lo hi, hi <= lo -> binary_search_pred pred lo hi = Some lo.
Proof.
  intros pred lo hi L. unfold binary_search_pred. 
  destruct (loopZ_spec (bsp_step pred) (fun s => s = (lo, hi)) (fun r => r = lo) (fun _ => 0)) with (fuel := Z.abs (hi - lo) + 1) (s := (lo, hi))
    as (r & E & ->); auto; try lia.
  intros s ->. exists (inr lo). cbn [bsp_step]. destruct (Z.ltb_spec lo hi); [lia|]. auto.
Qed.

(** the derived bounds of a monotone function: least x with f x >= v, > v, or for a decreasing f <= v, < v *)
Theorem C45_bounds : forall (f : Z -> option Z) (g : Z -> Z) lo hi val dec, lo <= hi ->
  (forall i, lo <= i < hi -> f i = Some (g i)) ->
  (forall i j, lo <= i <= j -> j < hi -> if dec : bool then g j <= g i else g i <= g j) ->
  exists l u, lower_bound_num f lo hi 1 val dec = Some l /\ upper_bound_num f lo hi 1 val dec = Some u /\
    lo <= l <= u /\ u <= hi /\
    (forall i, lo <= i < l -> if dec then val < g i else g i < val) /\
    (forall i, l <= i < u -> g i = val) /\
    (forall i, u <= i < hi -> if dec then g i < val else val < g i).
Proof.
  intros f g lo hi val dec L F M. unfold lower_bound_num, upper_bound_num.
  destruct (bsn_spec (fun mid => let* y := f mid in Some (if dec then y <=? val else val <=? y)) lo hi L) as (l & E1 & B1 & F1 & T1).
  { intros i Hi. rewrite F by lia. cbn [obind]. eauto. }
  { intros i j Hij Hj. rewrite !F by lia. cbn [obind]. specialize (M i j Hij Hj). destruct dec; intros E; injection E as E; f_equal; lia. }
  destruct (bsn_spec (fun mid => let* y := f mid in Some (if dec then y <? val else val <? y)) lo hi L) as (u & E2 & B2 & F2 & T2).
  { intros i Hi. rewrite F by lia. cbn [obind]. eauto. }
  { intros i j Hij Hj. rewrite !F by lia. cbn [obind]. specialize (M i j Hij Hj). destruct dec; intros E; injection E as E; f_equal; lia. }
  exists l, u. split; [exact E1|]. split; [exact E2|].
  assert (F1' : forall i, lo <= i < l -> if dec then val < g i else g i < val).
  { intros i Hi. specialize (F1 i Hi). rewrite F in F1 by lia. cbn [obind] in F1. injection F1 as F1. destruct dec; lia. }
  assert (F2' : forall i, lo <= i < u -> if dec then val <= g i else g i <= val).
  { intros i Hi. specialize (F2 i Hi). rewrite F in F2 by lia. cbn [obind] in F2. injection F2 as F2. destruct dec; lia. }
  assert (T1' : l < hi -> if dec then g l <= val else val <= g l).
  { intros H. specialize (T1 H). rewrite F in T1 by lia. cbn [obind] in T1. injection T1 as T1. destruct dec; lia. }
  assert (T2' : u < hi -> if dec then g u < val else val < g u).
  { intros H. specialize (T2 H). rewrite F in T2 by lia. cbn [obind] in T2. injection T2 as T2. destruct dec; lia. }
  assert (LU : l <= u).
  { destruct (Z_le_gt_dec l u) as [H|H]; [exact H|]. specialize (F1' u ltac:(lia)). specialize (T2' ltac:(lia)). destruct dec; lia. }
  split; [lia|]. split; [lia|]. split; [exact F1'|]. split.
  - intros i Hi. specialize (T1' ltac:(lia)). specialize (F2' i ltac:(lia)). specialize (M l i ltac:(lia) ltac:(lia)). destruct dec; lia.
  - intros i Hi. specialize (T2' ltac:(lia)). specialize (M u i ltac:(lia) ltac:(lia)). destruct dec; lia.
Qed.
Example C45_bounds_case : lower_bound_num (fun x => Some (x / 3)) 0 30 1 4 false = Some 12 /\
  upper_bound_num (fun x => Some (x / 3)) 0 30 1 4 false = Some 15.
Proof. now vm_compute. Qed.

(* ---------------- C46 ---------------- *)
Local Open Scope nat_scope.
(** [occs]: the occurrence positions in increasing order; the callback is told exactly these until it refuses *)
Theorem C46_kmp_search : forall (A : Type) (eqb : A -> A -> bool), (forall x y, eqb x y = true <-> x = y) ->
  forall t p cb, p <> [] ->
  exists occs, StronglySorted lt occs /\ (forall r, In r occs <-> occurs_at t p r) /\
    kmp_search eqb t p cb = Some (last (offered cb [] occs) (length t), offered cb [] occs).
Proof.
  intros A eqb eqb_ok t p cb Np. destruct (occurrences eqb eqb_ok p t) as (occs & S & H). exists occs.
  split; [exact S|]. split; [exact H|]. apply kmp_search_spec; auto. destruct p; [contradiction|cbn; lia].
Qed.
Example C46_case : kmp_search Nat.eqb [1; 2; 1; 2; 1; 1; 2; 1] [1; 2; 1] (fun _ _ => true) = Some (5, [0; 2; 5]) /\
  kmp_search Nat.eqb [1; 2; 1; 2; 1; 1; 2; 1] [1; 2; 1] (fun _ r => r <? 2) = Some (2, [0; 2]) /\
  kmp_search Nat.eqb [1; 2; 1] [3] (fun _ _ => true) = Some (3, []).
Proof. now vm_compute. Qed.
(** the empty pattern: 0 without any call *)
Theorem C46_empty_pattern : forall (A : Type) (eqb : A -> A -> bool) t cb, kmp_search eqb t [] cb = Some (0, []).
Proof. reflexivity. Qed.

(* ---------------- C47 ---------------- *)
Theorem C47_run_length : forall (A : Type) (eqb : A -> A -> bool), (forall x y, eqb x y = true <-> x = y) ->
  forall c, let r := run_length eqb c in
  decode r = c /\ maximal_runs r /\ Forall (fun e => 1 <= snd e)%Z r.
Proof. intros A eqb E c. now apply run_length_spec. Qed.
Example C47_case : run_length Nat.eqb [4; 4; 4; 7; 4] = [(4, 3%Z); (7, 1%Z); (4, 1%Z)].
Proof. reflexivity. Qed.

Theorem C47_compare : forall (A : Type) (eqb ltb : A -> A -> bool),
  (forall x y, eqb x y = true <-> x = y) ->
  (forall x y, x <> y -> ltb x y = true \/ ltb y x = true) ->
  (forall x y, ltb x y = true -> ltb y x = false) ->
  forall c1 c2 max_len,
  let cut l := match max_len with None => l | Some n => firstn n l end in
  let lt x y := ltb x y = true in
  let r := compare eqb ltb c1 c2 max_len in
  (r = 0%Z <-> cut c1 = cut c2) /\ (r = (-1)%Z <-> lex lt (cut c1) (cut c2)) /\ (r = 1%Z <-> lex lt (cut c2) (cut c1)).
Proof. intros A eqb ltb E T S c1 c2 ml. now apply compare_spec. Qed.
Example C47_compare_case : compare Nat.eqb Nat.ltb [1; 2; 3] [1; 2] None = 1%Z /\ compare Nat.eqb Nat.ltb [1; 2; 3] [1; 2] (Some 2) = 0%Z
  /\ compare Nat.eqb Nat.ltb [1; 1; 3] [1; 2] None = (-1)%Z.
Proof. now vm_compute. Qed.

Theorem C47_take_filter_transform_contains : forall (A B : Type) (c : list A) n (p : A -> bool) (f : A -> B)
    (eqb : A -> A -> bool) v, (forall x y, eqb x y = true <-> x = y) ->
  take c n = firstn n c /\ filter_ c p = filter p c /\ transform c f = map f c /\ reversed c = rev c /\
  (contains eqb c v = true <-> In v c).
Proof.
  intros A B c n p f eqb v E. split; [apply take_spec|]. split; [apply filter_spec|]. split; [apply transform_spec|].
  split; [reflexivity|]. now apply contains_spec.
Qed.
Example C47_helpers_case : take [5; 6; 7] 2 = [5; 6] /\ filter_ [5; 6; 7; 8] Nat.even = [6; 8] /\ transform [1; 2] S = [2; 3].
Proof. now vm_compute. Qed.

(* ---------------- C68 ---------------- *)
Local Open Scope Z_scope.
Theorem C68_reduce : forall (c : list Z) id,
  reduce_sum c id = id + fold_right Z.add 0 c /\
  reduce_product c id = id * fold_right Z.mul 1 c /\
  (In (reduce_min c id) (id :: c) /\ forall x, In x (id :: c) -> reduce_min c id <= x) /\
  (In (reduce_max c id) (id :: c) /\ forall x, In x (id :: c) -> x <= reduce_max c id).
Proof.
  intros c id. split; [unfold reduce_sum; rewrite reduce_spec; apply fold_sum|].
  split; [unfold reduce_product; rewrite reduce_spec; apply fold_prod|].
  split; [apply reduce_min_spec|apply reduce_max_spec].
Qed.
(** reduce over an arbitrary functor is the left fold *)
Theorem C68_reduce_fold : forall (A T : Type) (c : list A) (f : T -> A -> T) id, reduce c f id = fold_left f c id.
Proof. intros. apply reduce_spec. Qed.
Theorem C68_mex : forall c id, StronglySorted Z.lt c -> Forall (fun x => id <= x) c ->
  let r := reduce_mex c id in id <= r /\ ~ In r c /\ forall x, id <= x < r -> In x c.
Proof. intros c id. apply reduce_mex_spec. Qed.
Example C68_case : reduce_mex [0; 1; 2; 4; 7] 0 = 3 /\ reduce_min [4; 2; 9] 100 = 2 /\ reduce_product [2; 3; 7] 1 = 42.
Proof. now vm_compute. Qed.
(** a sorted container with repeated elements gives a wrong mex *)
Theorem C68_mex_duplicates_refuted : exists c, StronglySorted Z.le c /\
  ~ (forall x, 0 <= x < reduce_mex c 0 -> In x c).
Proof.
  exists [0; 0]. split; [repeat constructor; lia|]. intros H. specialize (H 1). cbn in H. lia.
Qed.

Print Assumptions C45_binary_search.
Print Assumptions C45_empty_range.
Print Assumptions C45_bounds.
Print Assumptions C46_kmp_search.
Print Assumptions C47_run_length.
Print Assumptions C47_compare.
Print Assumptions C47_take_filter_transform_contains.
Print Assumptions C68_reduce.
Print Assumptions C68_mex.
