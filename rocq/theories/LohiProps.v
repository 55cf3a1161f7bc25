(** Property C34: lohi_map and sqrt_map behave as finite maps. *)
From Verif Require Import Lib LohiModel LohiSpec LohiProofs.
Open Scope nat_scope.

(** for every split point and every covered history: same results as the finite map, and afterwards count and at agree with it for every key *)
Theorem C34_lohi_map : forall T (dflt : T) ml os, covered dflt (fun _ => True) (fun k => ml < k) (fun _ => None) [] os ->
  let '(m, rs) := map_run dflt (fun _ => None) os in
  exists s, run_ops (lohi_step dflt) (lohi_new dflt ml) os = Some (s, rs) /\
    forall k, lohi_count s k = Some (size1 (m k)) /\ (forall v, m k = Some v -> lohi_at s k = Some v) /\ (ml < k -> lohi_at s k = m k).
Proof.
  intros T dflt ml os C. destruct (map_run dflt (fun _ => None) os) as (m, rs) eqn:E. destruct (lohi_run_ok dflt os (lohi_new dflt ml) (fun _ => None) [] (linv_new dflt ml) C) as (s & er & R & M & (I1 & I2)). rewrite E in *. cbn [fst snd] in *. exists s. split; [exact R|]. cbn [lmax lohi_new] in M. intros k. unfold lohi_count, lohi_at. destruct (Nat.leb_spec k (lmax s)) as [K|K].
  - destruct (I1 k K) as (A & w & B & D & _). split; [exact A|]. split; [intros v Hv; rewrite B; f_equal; now apply D|lia].
  - rewrite (I2 k K). split; [destruct (m k); reflexivity|]. split; auto.
Qed.
(** the same for sqrt_map, for keys up to the split point and keys floor(mk / j); at throws exactly for the absent keys *)
Theorem C34_sqrt_map : forall T (dflt : T) ml mk mk0 os, 0 < ml -> covered dflt (sqrt_key ml mk) (fun _ => False) (fun _ => None) [] os ->
  let '(m, rs) := map_run dflt (fun _ => None) os in
  exists s0 s, sqm_new dflt ml mk mk0 = Some s0 /\ run_ops sqm_step s0 os = Some (s, rs) /\
    forall k, sqrt_key ml mk k -> sqm_count s k = Some (size1 (m k)) /\ sqm_at s k = Some (m k) /\ (forall v, m k = Some v -> sqm_el s k = Some v).
Proof.
  intros T dflt ml mk mk0 os H C. destruct (map_run dflt (fun _ => None) os) as (m, rs) eqn:E. destruct (sinv_new dflt ml mk mk0 H) as (s0 & E0 & M0 & K0 & I0). rewrite <- M0, <- K0 in C. destruct (sqm_run_ok dflt os s0 (fun _ => None) [] I0 C) as (s & er & R & M & K & (I1 & I2)). rewrite E in *. cbn [fst snd] in *. exists s0, s. split; [exact E0|]. split; [exact R|]. intros k Hk. rewrite <- M0, <- K0, <- M, <- K in Hk. specialize (I2 k Hk). unfold sqm_count, sqm_at, sqm_el. destruct (Nat.leb_spec k (sml s)) as [L|L]; destruct I2 as (A & w & B & D & _); rewrite A; (split; [reflexivity|]); (split; [|intros v Hv; rewrite B; f_equal; now apply D]); (destruct (m k) as [x|]; cbn [size1 Nat.eqb]; [rewrite B; cbn [obind]; do 2 f_equal; now apply D|reflexivity]).
Qed.
(** reset_max empties the part above the split point, keeps the rest, and the map can be used on with the new keys *)
Theorem C34_sqrt_map_reset : forall T (dflt : T) ml mk mk0 os mk' os', 0 < ml -> covered dflt (sqrt_key ml mk) (fun _ => False) (fun _ => None) [] os ->
  let m := fst (map_run dflt (fun _ => None) os) in let m' := fun k => if k <=? ml then m k else None in
  (forall k v, In (MErase k) os' \/ In (MRead k) os' \/ In (MInsert k v) os' \/ In (MPut k v) os' -> sqrt_key ml mk' k) -> (forall k, ~ In (MRead k) os') ->
  exists s0 s s' s'' rs', sqm_new dflt ml mk mk0 = Some s0 /\ run_ops sqm_step s0 os = Some (s, snd (map_run dflt (fun _ => None) os)) /\
    sqm_reset_max dflt s mk' = Some s' /\ run_ops sqm_step s' os' = Some (s'', rs') /\ rs' = snd (map_run dflt m' os') /\
    forall k, sqrt_key ml mk' k -> sqm_count s'' k = Some (size1 (fst (map_run dflt m' os') k)) /\ sqm_at s'' k = Some (fst (map_run dflt m' os') k).
Proof.
  intros T dflt ml mk mk0 os mk' os' H C m m' HA HR. destruct (sinv_new dflt ml mk mk0 H) as (s0 & E0 & M0 & K0 & I0). rewrite <- M0, <- K0 in C. destruct (sqm_run_ok dflt os s0 (fun _ => None) [] I0 C) as (s & er & R & M & K & I). fold m in I. destruct (sinv_reset dflt s m er mk' I) as (s' & E' & M' & K' & I'). assert (Em : sml s = ml) by congruence. rewrite Em in I'. fold m' in I'.
  assert (C' : forall os m er, (forall k v, In (MErase k) os \/ In (MRead k) os \/ In (MInsert k v) os \/ In (MPut k v) os -> sqrt_key ml mk' k) -> (forall k, ~ In (MRead k) os) -> covered dflt (sqrt_key (sml s') (smk s')) (fun _ => False) m er os).
  { rewrite M', K', Em. clear. induction os as [|o os IH]; intros m er HA HR; [exact Logic.I|]. cbn [covered]. split; [|split].
    - destruct o as [k v|k v|k|k]; cbn [key_of]; [apply (HA k v)|apply (HA k v)|apply (HA k dflt)|apply (HA k dflt)]; cbn [In]; auto.
    - destruct o as [k v|k v|k|k]; auto. exfalso. apply (HR k). now left.
    - apply IH; [|intros k Hk; apply (HR k); now right]. intros k v Hk. apply (HA k v). cbn [In]. tauto. }
  destruct (sqm_run_ok dflt os' s' m' _ I' (C' os' m' _ HA HR)) as (s'' & er'' & R'' & M'' & K'' & (J1 & J2)). exists s0, s, s', s''. eexists. split; [exact E0|]. split; [exact R|]. split; [exact E'|]. split; [exact R''|]. split; [reflexivity|]. intros k Hk. replace ml with (sml s'') in Hk by congruence. replace mk' with (smk s'') in Hk by congruence. specialize (J2 k Hk). unfold sqm_count, sqm_at. destruct (Nat.leb_spec k (sml s'')) as [L|L]; destruct J2 as (A & w & B & D & _); rewrite A; (split; [reflexivity|]); (destruct (fst (map_run dflt m' os') k) as [x|]; cbn [size1 Nat.eqb]; [rewrite B; cbn [obind]; do 2 f_equal; now apply D|reflexivity]).
Qed.
(** two allowed keys never share an entry *)
Theorem C34_distinct_entries : forall ml mk k1 k2, ml < k1 -> ml < k2 -> sqrt_key ml mk k1 -> sqrt_key ml mk k2 -> mk / k1 = mk / k2 -> k1 = k2.
Proof. intros ml mk k1 k2 H1 H2. now apply quot_inj. Qed.
(** what is false of the code: at of an absent small key of lohi_map does not throw *)
Theorem C34_lohi_at_refuted : exists s, s = lohi_new 0 3 /\ lohi_count s 2 = Some 0 /\ lohi_at s 2 = Some 0.
Proof. eexists. split; [reflexivity|]. split; vm_compute; reflexivity. Qed.
(** m[k] after erase(k) shows the erased value, where a map shows the default *)
Theorem C34_stale_value_refuted : forall ml k v, k <= ml -> exists s, run_ops (lohi_step 0) (lohi_new 0 ml) [MPut k (S v); MErase k; MRead k] = Some (s, [RUnit; RNum 1; RVal (S v)]) /\
  snd (map_run 0 (fun _ => None) [MPut k (S v); MErase k; MRead k]) = [RUnit; RNum 1; RVal 0].
Proof.
  intros ml k v Hk.
  assert (LI := linv_new 0 ml). destruct (lohi_step_ok 0 (lohi_new 0 ml) (fun _ => None) [] (MPut k (S v)) LI Logic.I) as (s1 & E1 & M1 & I1). destruct (lohi_step_ok 0 s1 _ _ (MErase k) I1 Logic.I) as (s2 & E2 & M2 & I2). cbn [map_step fst snd] in *. unfold put in E2 at 1. rewrite Nat.eqb_refl in E2. cbn [size1] in E2.
  cbn [run_ops]. rewrite E1. cbn [obind]. rewrite E2. cbn [obind]. cbn [lmax lohi_new] in M1. cbn [lohi_step] in *. unfold lohi_index. destruct (Nat.leb_spec k (lmax s2)); [|lia]. destruct I2 as (I2 & _). destruct (cells_lt 0 _ _ _ _ _ (I2 k ltac:(lia))) as (L1 & L2). destruct (get_set (lcnt s2) k 1 L1) as (c & -> & _). cbn [obind].
  assert (Ev : nth_error (ltbl s2) k = Some (S v)). { unfold lohi_erase in E2. destruct (Nat.leb_spec k (lmax s1)); [|lia]. destruct (nth_error (lcnt s1) k); cbn [obind] in E2; [|discriminate]. destruct (set_nth (lcnt s1) k 0); cbn [obind] in E2; [|discriminate]. injection E2 as <- _. cbn [ltbl]. destruct I1 as (I1 & _). destruct (I1 k ltac:(lia)) as (_ & w & B & D & _). rewrite B. f_equal. apply D. unfold put. now rewrite Nat.eqb_refl. }
  rewrite Ev. cbn [obind]. eexists. split; [reflexivity|]. cbn [map_run map_step]. unfold put. rewrite !Nat.eqb_refl. reflexivity.
Qed.
(** the same through reset_max of sqrt_map: counted as absent, but m[k] shows a value of the previous use *)
Theorem C34_reset_stale_refuted : exists s0 s s' s'' v, sqm_new 0 2 9 0 = Some s0 /\ run_ops sqm_step s0 [MPut 9 7] = Some (s, [RUnit]) /\ sqm_reset_max 0 s 12 = Some s' /\ sqm_count s' 12 = Some 0 /\ sqm_index s' 12 = Some (v, s'') /\ v = 7.
Proof. do 5 eexists. split; [vm_compute; reflexivity|]. split; [vm_compute; reflexivity|]. split; [vm_compute; reflexivity|]. split; [vm_compute; reflexivity|]. split; [vm_compute; reflexivity|reflexivity]. Qed.

Example C34_case : covered 0 (sqrt_key 4 20) (fun _ => False) (fun _ => None) [] [MInsert 3 5; MPut 20 6; MInsert 10 7; MErase 20; MInsert 10 9; MRead 6; MPut 5 1] /\
  exists s0 s, sqm_new 0 4 20 99 = Some s0 /\ run_ops sqm_step s0 [MInsert 3 5; MPut 20 6; MInsert 10 7; MErase 20; MInsert 10 9; MRead 6; MPut 5 1] = Some (s, [RFlag true; RUnit; RFlag true; RNum 1; RFlag false; RVal 0; RUnit]) /\
  map (sqm_at s) [3; 20; 10; 6; 5; 4] = [Some (Some 5); Some None; Some (Some 7); Some (Some 0); Some (Some 1); Some None].
Proof.
  split.
  - cbn -[Nat.div]. assert (K : forall j, 1 <= j -> sqrt_key 4 20 (20 / j)) by (intros j Hj; right; exists j; auto). split; [left; lia|]. split; [exact I|]. split; [apply (K 1); lia|]. split; [exact I|]. split; [apply (K 2); lia|]. split; [exact I|]. split; [apply (K 1); lia|]. split; [exact I|]. split; [apply (K 2); lia|]. split; [exact I|]. split; [apply (K 3); lia|]. split; [right; left; cbn; lia|]. split; [apply (K 4); lia|]. split; exact I.
  - do 2 eexists. split; [vm_compute; reflexivity|]. split; [vm_compute; reflexivity|vm_compute; reflexivity].
Qed.
Print Assumptions C34_lohi_map.
Print Assumptions C34_sqrt_map.
Print Assumptions C34_sqrt_map_reset.
Print Assumptions C34_distinct_entries.
Print Assumptions C34_lohi_at_refuted.
Print Assumptions C34_stale_value_refuted.
Print Assumptions C34_reset_stale_refuted.
