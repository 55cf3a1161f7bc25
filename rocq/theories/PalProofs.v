(** Palindromic suffixes and substrings. *)
From Coq Require Import List PeanoNat ZArith Lia Bool.
From Verif Require Import Lib PalModel PalSpec.
Import ListNotations.

Notation weq := (list_eq_dec Nat.eq_dec).
Definition sub (q s : list nat) : Prop := exists u v, s = u ++ q ++ v.

Lemma pal_iff s : palindrome s = true <-> rev s = s.
Proof. unfold palindrome. destruct (weq (rev s) s) as [E|E]; split; congruence. Qed.
Lemma suf_refl s : is_suffix s s.
Proof. exists []. reflexivity. Qed.
Lemma suf_nil s : is_suffix [] s.
Proof. exists s. rewrite app_nil_r. reflexivity. Qed.
Lemma suf_trans p q s : is_suffix p q -> is_suffix q s -> is_suffix p s.
Proof. intros [u ->] [v ->]. exists (v ++ u). rewrite app_assoc. reflexivity. Qed.
Lemma suf_len p s : is_suffix p s -> length p <= length s.
Proof. intros [u ->]. rewrite app_length. lia. Qed.
Lemma suf_le p q s : is_suffix p s -> is_suffix q s -> length p <= length q -> is_suffix p q.
Proof.
  intros [u E] [v F] L. subst s. revert v F. induction u as [|x u IH]; intros v F.
  - cbn in F. exists []. destruct v as [|y v]; [exact (eq_sym F)|]. apply (f_equal (@length nat)) in F. cbn in F. rewrite app_length in F. lia.
  - destruct v as [|y v]; [exists (x :: u); symmetry; exact F|]. injection F as _ F. exact (IH v F).
Qed.
Lemma suf_eq p q : is_suffix p q -> length p = length q -> p = q.
Proof. intros [u ->] L. rewrite app_length in L. destruct u; [reflexivity|cbn in L; lia]. Qed.
Lemma suf_tl p q : is_suffix p q -> p <> q -> is_suffix p (tl q).
Proof. intros [[|x u] ->] N; [contradiction N; reflexivity|]. exists u. reflexivity. Qed.
Lemma tl_suf q : is_suffix (tl q) q.
Proof. destruct q as [|x q]; [apply suf_refl|]. exists [x]. reflexivity. Qed.
Lemma suf_snoc q s c : is_suffix q (s ++ [c]) <-> q = [] \/ exists r, q = r ++ [c] /\ is_suffix r s.
Proof.
  split.
  - intros [u E]. destruct q as [|x r] using rev_ind; [left; reflexivity|]. clear IHr. rewrite app_assoc in E. apply app_inj_tail in E as [-> ->].
    right. exists r. split; [reflexivity|]. exists u. reflexivity.
  - intros [->|(r & -> & [u ->])]; [apply suf_nil|]. exists u. rewrite app_assoc. reflexivity.
Qed.
Lemma sub_snoc q s c : sub q (s ++ [c]) <-> sub q s \/ is_suffix q (s ++ [c]).
Proof.
  split.
  - intros (u & v & E). destruct v as [|x v] using rev_ind; [right; exists u; rewrite app_nil_r in E; exact E|]. clear IHv.
    left. rewrite !app_assoc in E. apply app_inj_tail in E as [-> _]. exists u, v. rewrite app_assoc. reflexivity.
  - intros [(u & v & ->)|[u E]]; [exists u, (v ++ [c]); rewrite <- !app_assoc; reflexivity|exists u, []; rewrite app_nil_r; exact E].
Qed.
Lemma suf_sub p q s : is_suffix p q -> sub q s -> sub p s.
Proof. intros [u ->] (a & b & ->). exists (a ++ u), b. rewrite <- !app_assoc. reflexivity. Qed.
Lemma sub_suf q s : is_suffix q s -> sub q s.
Proof. intros [u ->]. exists u, []. rewrite app_nil_r. reflexivity. Qed.
Lemma sub_mid a b q s : sub (a :: q ++ [b]) s -> sub q s.
Proof. intros (u & v & ->). exists (u ++ [a]), (b :: v). cbn [app]. rewrite <- !app_assoc. cbn [app]. reflexivity. Qed.
Lemma sub_nil q : sub q [] -> q = [].
Proof. intros (u & v & E). symmetry in E. apply app_eq_nil in E as [_ E]. apply app_eq_nil in E as [E _]. exact E. Qed.

(** ** the listings of the specification *)
Lemma in_suffixes q s : In q (suffixes s) <-> q <> [] /\ is_suffix q s.
Proof.
  induction s as [|x s IH]; cbn [suffixes In].
  - split; [tauto|]. intros [N [u E]]. symmetry in E. apply app_eq_nil in E as [_ E]. contradiction.
  - rewrite IH. split.
    + intros [<-|[N H]]; [split; [discriminate|apply suf_refl]|]. split; [exact N|]. apply (suf_trans _ s); [exact H|]. exists [x]. reflexivity.
    + intros [N [[|y u] E]]; [left; exact E|]. right. injection E as -> E. split; [exact N|]. exists u. exact E.
Qed.
Lemma prefixes_snoc s c : prefixes (s ++ [c]) = prefixes s ++ [s ++ [c]].
Proof.
  unfold prefixes. rewrite app_length. cbn [length]. rewrite seq_app, map_app. cbn [seq map]. f_equal.
  - apply map_ext_in. intros n Hn. apply in_seq in Hn. rewrite firstn_app. replace (n - length s) with 0 by lia. cbn [firstn]. apply app_nil_r.
  - f_equal. rewrite firstn_all2; [reflexivity|]. rewrite app_length. cbn. lia.
Qed.
Lemma substrings_snoc s c : substrings (s ++ [c]) = substrings s ++ suffixes (s ++ [c]).
Proof. unfold substrings. rewrite prefixes_snoc, flat_map_app. cbn [flat_map]. rewrite app_nil_r. reflexivity. Qed.
Lemma in_substrings q s : In q (substrings s) <-> q <> [] /\ sub q s.
Proof.
  induction s as [|c s IH] using rev_ind.
  - split; [intros []|]. intros [N H]. apply sub_nil in H. contradiction.
  - rewrite substrings_snoc, in_app_iff, IH, in_suffixes, sub_snoc. tauto.
Qed.
Lemma in_prefixes p s : In p (prefixes s) -> sub p s.
Proof.
  unfold prefixes. rewrite in_map_iff. intros (n & <- & _). exists [], (skipn n s). symmetry. apply firstn_skipn.
Qed.

(** ** the longest palindromic suffix *)
Fixpoint lps (s : list nat) : list nat := match s with [] => [] | _ :: r => if palindrome s then s else lps r end.
Lemma lps_suf s : is_suffix (lps s) s.
Proof.
  induction s as [|x s IH]; cbn [lps]; [apply suf_refl|]. destruct (palindrome (x :: s)); [apply suf_refl|].
  apply (suf_trans _ s); [exact IH|]. exists [x]. reflexivity.
Qed.
Lemma lps_pal s : palindrome (lps s) = true.
Proof. induction s as [|x s IH]; [reflexivity|]. cbn [lps]. destruct (palindrome (x :: s)) eqn:E; assumption. Qed.
Lemma lps_max s q : is_suffix q s -> palindrome q = true -> is_suffix q (lps s).
Proof.
  induction s as [|x s IH]; intros H P; cbn [lps]; [exact H|]. destruct (palindrome (x :: s)) eqn:E; [exact H|].
  apply IH; [|exact P]. apply (suf_tl q (x :: s) H). intros ->. congruence.
Qed.
Lemma lps_unique s p : is_suffix p s -> palindrome p = true ->
  (forall q, is_suffix q s -> palindrome q = true -> length q <= length p) -> p = lps s.
Proof.
  intros H P M. apply suf_eq; [apply lps_max; assumption|]. specialize (M (lps s) (lps_suf s) (lps_pal s)).
  pose proof (suf_len _ _ (lps_max s p H P)). lia.
Qed.
Lemma lps_longest s : longest_pal_suffix s (lps s).
Proof. split; [apply lps_suf|]. split; [apply lps_pal|]. intros q H P. apply suf_len, lps_max; assumption. Qed.
Lemma lps_nonempty s : s <> [] -> lps s <> [].
Proof.
  intros N E. destruct s as [|c s] using rev_ind; [congruence|]. clear IHs.
  assert (H : is_suffix [c] (lps (s ++ [c]))) by (apply lps_max; [exists s; reflexivity|apply pal_iff; reflexivity]).
  rewrite E in H. apply suf_len in H. cbn in H. lia.
Qed.
Lemma lps_tl q : q <> [] -> length (lps (tl q)) < length q.
Proof. intro N. pose proof (suf_len _ _ (lps_suf (tl q))). destruct q; [congruence|]. cbn [tl length] in *. lia. Qed.

Definition chain (s : list nat) : list (list nat) := filter palindrome (suffixes s).
Lemma chain_lps s : chain s = chain (lps s).
Proof.
  induction s as [|x s IH]; [reflexivity|]. cbn [lps]. destruct (palindrome (x :: s)) eqn:E; [reflexivity|].
  unfold chain at 1. cbn [suffixes filter]. rewrite E. exact IH.
Qed.
Lemma chain_pal q : q <> [] -> palindrome q = true -> chain q = q :: chain (lps (tl q)).
Proof.
  intros N P. destruct q as [|x q]; [congruence|]. unfold chain at 1. cbn [suffixes filter tl]. rewrite P. f_equal. exact (chain_lps q).
Qed.

(** ** keys of the nodes: [None] is the imaginary palindrome of length -1 *)
Definition key := option (list nat).
Definition kl (k : key) : nat := match k with None => 0 | Some p => S (length p) end.
Definition ext (k : key) (c : nat) : list nat := match k with None => [c] | Some p => c :: p ++ [c] end.
Definition ksuf (k : key) (s : list nat) : Prop := match k with None => True | Some p => is_suffix p s /\ palindrome p = true end.
Definition kup (k : key) : key := match k with None => None | Some [] => None | Some p => Some (lps (tl p)) end.
Lemma ext_len k c : length (ext k c) = S (kl k).
Proof. destruct k as [p|]; cbn; [rewrite app_length; cbn; lia|reflexivity]. Qed.
Lemma ext_nonempty k c : ext k c <> [].
Proof. destruct k; discriminate. Qed.
Lemma ext_inj k k' c c' : ext k c = ext k' c' -> k = k' /\ c = c'.
Proof.
  intro E. destruct k as [p|], k' as [p'|]; cbn in E.
  - injection E as -> E. apply app_inj_tail in E as [-> _]. auto.
  - injection E as _ E. apply app_eq_nil in E as [_ E]. discriminate.
  - injection E as _ E. symmetry in E. apply app_eq_nil in E as [_ E]. discriminate.
  - injection E as ->. auto.
Qed.
Lemma ext_pal k c s : ksuf k s -> palindrome (ext k c) = true.
Proof.
  intro H. apply pal_iff. destruct k as [p|]; [|reflexivity]. destruct H as [_ P]. apply pal_iff in P. cbn. rewrite rev_app_distr, P. reflexivity.
Qed.
Lemma split_pal q s c : is_suffix q (s ++ [c]) -> palindrome q = true -> q <> [] -> exists k, ksuf k s /\ q = ext k c.
Proof.
  intros H P N. apply suf_snoc in H as [H|(r & -> & H)]; [congruence|]. destruct r as [|a p]; [exists None; split; [exact Logic.I|reflexivity]|].
  apply pal_iff in P. rewrite rev_app_distr in P. cbn [rev app] in P. injection P as -> P. apply app_inj_tail in P as [P _].
  exists (Some p). split; [|reflexivity]. split; [|apply pal_iff; exact P]. apply (suf_trans _ (a :: p)); [exists [a]; reflexivity|exact H].
Qed.
Lemma kup_suf k s : ksuf k s -> ksuf (kup k) s.
Proof.
  destruct k as [[|x p]|]; cbn; auto. intros [H _]. split; [|apply lps_pal].
  apply (suf_trans _ (x :: p)); [|exact H]. apply (suf_trans _ p); [apply lps_suf|exists [x]; reflexivity].
Qed.
Lemma kup_max k k' s : ksuf k s -> ksuf k' s -> kl k' < kl k -> kl k' <= kl (kup k).
Proof.
  intros H H' L. destruct k as [p|]; [|cbn in L; lia]. destruct k' as [p'|]; [|cbn; lia]. destruct H as [H P], H' as [H' P'].
  cbn [kl] in L. assert (X : is_suffix p' p) by (apply (suf_le _ _ s); [exact H'|exact H|lia]).
  destruct p as [|x p]; [cbn in L; lia|]. cbn [kup kl tl]. apply le_n_S, suf_len, lps_max; [|exact P'].
  apply (suf_tl _ _ X). intros ->. lia.
Qed.
Lemma kl_inj k k' s : ksuf k s -> ksuf k' s -> kl k = kl k' -> k = k'.
Proof.
  destruct k as [p|], k' as [p'|]; cbn; try discriminate; [|reflexivity]. intros [H _] [H' _] E. f_equal. apply suf_eq; [|lia]. apply (suf_le _ _ s); [assumption..|lia].
Qed.
Lemma kup_lt k : k <> None -> kl (kup k) < kl k.
Proof.
  destruct k as [[|x p]|]; intro N; [cbn; lia| |congruence]. cbn [kup kl]. apply -> Nat.succ_lt_mono. apply lps_tl. discriminate.
Qed.

(** a proper palindromic suffix of a palindrome at the end has occurred before *)
Lemma occurred p q s c : is_suffix q (s ++ [c]) -> palindrome q = true -> q <> [] -> is_suffix p (tl q) -> palindrome p = true -> sub p s.
Proof.
  intros [u E] Q N [w W] P. destruct q as [|x q]; [congruence|]. cbn [tl] in W. apply pal_iff in Q, P.
  assert (F : x :: q = p ++ rev w ++ [x]).
  { rewrite <- Q at 1. rewrite W. cbn [rev]. rewrite rev_app_distr, P, <- app_assoc. reflexivity. }
  rewrite F, !app_assoc in E. apply app_inj_tail in E as [-> _]. exists u, (rev w). rewrite app_assoc. reflexivity.
Qed.
Lemma lps_ext k s c : ksuf k s -> is_suffix (ext k c) (s ++ [c]) ->
  (forall k', ksuf k' s -> is_suffix (ext k' c) (s ++ [c]) -> kl k' <= kl k) -> ext k c = lps (s ++ [c]).
Proof.
  intros H X M. apply lps_unique; [exact X|apply (ext_pal k c s H)|]. intros q Hq P. destruct (weq q []) as [->|N]; [cbn; lia|].
  destruct (split_pal q s c Hq P N) as (k' & H' & ->). rewrite !ext_len. apply le_n_S. apply M; assumption.
Qed.
Lemma lps_ext2 k k2 s c : ksuf k s -> is_suffix (ext k c) (s ++ [c]) -> k <> None -> ksuf k2 s -> is_suffix (ext k2 c) (s ++ [c]) ->
  kl k2 <= kl (kup k) ->
  (forall k', ksuf k' s -> is_suffix (ext k' c) (s ++ [c]) -> kl k' <= kl (kup k) -> kl k' <= kl k2) ->
  is_suffix (ext k2 c) (tl (ext k c)) /\ ext k2 c = lps (tl (ext k c)).
Proof.
  intros H X NK H2 X2 L M. pose proof (kup_lt k NK) as LT.
  assert (T : is_suffix (ext k2 c) (tl (ext k c))).
  { apply suf_tl; [apply (suf_le _ _ (s ++ [c])); [assumption..|]; rewrite !ext_len; lia|]. intro E. apply ext_inj in E as [-> _]. lia. }
  split; [exact T|]. apply lps_unique; [exact T|apply (ext_pal _ _ s H2)|]. intros q Hq P. destruct (weq q []) as [->|N]; [cbn; lia|].
  assert (Hq' : is_suffix q (s ++ [c])) by (apply (suf_trans _ _ _ Hq), (suf_trans _ (ext k c)); [apply tl_suf|exact X]).
  destruct (split_pal q s c Hq' P N) as (k' & H' & ->). rewrite !ext_len. apply le_n_S. apply M; [exact H'|exact Hq'|].
  apply (kup_max k k' s H H'). apply suf_len in Hq. rewrite ext_len in Hq. pose proof (ext_len k c). destruct (ext k c); [discriminate|]. cbn [tl length] in *. lia.
Qed.

(** the test made by the search for the next suffix *)
Definition klen (k : key) : Z := (Z.of_nat (kl k) - 1)%Z.
Lemma test_ok k s c : ksuf k s ->
  let str := s ++ [c] in let sz := Z.of_nat (length str) in
  (sz <? klen k + 2)%Z = true /\ ~ is_suffix (ext k c) str \/
  (sz <? klen k + 2)%Z = false /\ exists x, nth_error str (Z.to_nat (sz - klen k - 2)) = Some x /\ (x = c <-> is_suffix (ext k c) str).
Proof.
  intros H str sz. unfold klen. destruct k as [p|]; cbn [kl ext].
  - destruct H as [[u ->] P]. subst str sz. rewrite !app_length. cbn [length].
    destruct u as [|a u] using rev_ind; [|clear IHu].
    + left. split; [apply Z.ltb_lt; cbn [length]; lia|]. intro X. apply suf_len in X. cbn [length app] in X. rewrite !app_length in X. cbn in X. lia.
    + right. split; [apply Z.ltb_ge; rewrite app_length; cbn [length]; lia|]. exists a. split.
      * rewrite <- !app_assoc. rewrite nth_error_app2 by (rewrite app_length; cbn [length]; lia).
        match goal with |- nth_error _ ?n = _ => replace n with 0 by (rewrite app_length; cbn [length]; lia) end. reflexivity.
      * split; [intros ->; exists u; rewrite <- !app_assoc; reflexivity|]. intros [v E].
        change (v ++ c :: p ++ [c]) with (v ++ [c] ++ (p ++ [c])) in E. rewrite app_assoc, <- app_assoc in E. apply app_inv_tail in E.
        apply app_inj_tail in E as [_ E]. exact E.
  - right. subst str sz. rewrite app_length. cbn [length]. split; [apply Z.ltb_ge; lia|]. exists c. split.
    + rewrite nth_error_app2 by lia. match goal with |- nth_error _ ?n = _ => replace n with 0 by lia end. reflexivity.
    + split; [intros _; exists s; reflexivity|reflexivity].
Qed.

(** first occurrences *)
Lemma first_snoc p s i c : first_at p s i -> first_at p (s ++ [c]) i.
Proof.
  intros [(u & v & -> & L) M]. split; [exists u, (v ++ [c]); split; [rewrite <- !app_assoc; reflexivity|exact L]|].
  intros u' v' E. destruct v' as [|x v'] using rev_ind; [|clear IHv'].
  - apply (f_equal (@length nat)) in E. rewrite !app_length in E. cbn in E. lia.
  - rewrite !app_assoc in E. apply app_inj_tail in E as [E _]. rewrite <- !app_assoc in E. apply (M u' v' E).
Qed.
Lemma first_new p s c : is_suffix p (s ++ [c]) -> ~ sub p s -> first_at p (s ++ [c]) (length (s ++ [c]) - length p).
Proof.
  intros [u E] N. split.
  - exists u, []. rewrite app_nil_r. split; [exact E|]. rewrite E, app_length. lia.
  - intros u' v' E'. destruct v' as [|x v'] using rev_ind; [|clear IHv'].
    + rewrite E', !app_length. cbn. lia.
    + exfalso. apply N. rewrite !app_assoc in E'. apply app_inj_tail in E' as [-> _]. exists u', v'. rewrite app_assoc. reflexivity.
Qed.
