(** Binary search trees: exchanging a node with the leftmost node of its right subtree. *)
From Verif Require Import Lib BstModel BstSpec BstProofs BstProofs2 BstProofs3 BstProofs4 BstProofs5.
From Coq Require Import Permutation.
Open Scope nat_scope.

Section P.
Context {V K : Type}.
Notation tree := (tree V).
Notation entry := (nat * V * Z)%type.
Notation heap := (heap (V := V)).
Implicit Types (h : heap) (t : tree).

Definition mk h (fp fl fr : nat -> nat) (fs fb : nat -> Z) : heap := {| live := live h; par := fp; lft := fl; rgt := fr; bal := fb; siz := fs; val := val h; next := next h |}.
Lemma mk_id h : h = mk h (par h) (lft h) (rgt h) (siz h) (bal h). Proof. destruct h; reflexivity. Qed.
Section Mk.
Context (h : heap) (A L R : nat -> nat) (S B : nat -> Z).
Let m := mk h A L R S B.
Lemma m_gpar p : live h p = true -> gpar m p = Some (A p). Proof. unfold gpar. cbn. now intros ->. Qed.
Lemma m_glft p : live h p = true -> glft m p = Some (L p). Proof. unfold glft. cbn. now intros ->. Qed.
Lemma m_grgt p : live h p = true -> grgt m p = Some (R p). Proof. unfold grgt. cbn. now intros ->. Qed.
Lemma m_gsiz p : live h p = true -> gsiz m p = Some (S p). Proof. unfold gsiz. cbn. now intros ->. Qed.
Lemma m_gbal p : live h p = true -> gbal m p = Some (B p). Proof. unfold gbal. cbn. now intros ->. Qed.
Lemma m_is_nil p : live h p = true -> is_nil m p = Some (A p =? p). Proof. unfold is_nil, gpar. cbn. now intros ->. Qed.
Lemma m_spar p x : live h p = true -> spar m p x = Some (mk h (upd A p x) L R S B). Proof. unfold spar. cbn. now intros ->. Qed.
Lemma m_slft p x : live h p = true -> slft m p x = Some (mk h A (upd L p x) R S B). Proof. unfold slft. cbn. now intros ->. Qed.
Lemma m_srgt p x : live h p = true -> srgt m p x = Some (mk h A L (upd R p x) S B). Proof. unfold srgt. cbn. now intros ->. Qed.
Lemma m_ssiz p x : live h p = true -> ssiz m p x = Some (mk h A L R (upd S p x) B). Proof. unfold ssiz. cbn. now intros ->. Qed.
Lemma m_sbal p x : live h p = true -> sbal m p x = Some (mk h A L R S (upd B p x)). Proof. unfold sbal. cbn. now intros ->. Qed.
Lemma m_mlo p ch old : live h p = true -> live h ch = true ->
  make_link_old m p ch old = Some (mk h (if A ch =? ch then A else upd A ch p) (if L p =? old then upd L p ch else L) (if R p =? old then upd R p ch else R) S B).
Proof. intros H1 H2. rewrite (mlo_run m p ch old (A ch =? ch)); [reflexivity|exact H1|now apply m_is_nil]. Qed.
End Mk.

Lemma ifupd {A} (b : bool) (f : nat -> A) p x q : q <> p -> (if b then upd f p x else f) q = f q.
Proof. intro H. destruct b; [now apply upd_ne|reflexivity]. Qed.
Ltac vals := repeat first [rewrite upd_eq|rewrite upd_ne by congruence|rewrite ifupd by congruence].
Ltac ifs := rewrite ?Nat.eqb_refl; repeat match goal with |- context [?a =? ?b] => rewrite (eqb_ne a b) by congruence end; cbn [negb].
Ltac step := first [rewrite m_gpar by assumption|rewrite m_glft by assumption|rewrite m_grgt by assumption|rewrite m_gsiz by assumption|rewrite m_gbal by assumption|rewrite m_spar by assumption|rewrite m_slft by assumption
  |rewrite m_srgt by assumption|rewrite m_ssiz by assumption|rewrite m_sbal by assumption|rewrite m_is_nil by assumption|rewrite m_mlo by assumption]; cbn [obind].

Lemma swap_adjacent h nil P D top a r : let n := (par h r =? r) in
  live h P = true -> live h D = true -> live h top = true -> live h a = true -> live h r = true -> live h nil = true ->
  par h P = top -> par h D = P -> lft h P = a -> rgt h P = D -> lft h D = nil -> rgt h D = r -> par h nil = nil -> par h a = P ->
  P <> D -> top <> P -> top <> D -> a <> P -> a <> D -> r <> P -> r <> D -> nil <> P -> nil <> D -> r <> a -> nil <> a -> a <> top ->
  exists h9, swap_with_descendant h P D = (let* dc := node_count h9 D in let* pc := node_count h9 P in propagate_size h9 P D (dc - pc)%Z) /\
    live h9 = live h /\ val h9 = val h /\ next h9 = next h /\ siz h9 = upd (upd (siz h) P (siz h D)) D (siz h P) /\ bal h9 = upd (upd (bal h) P (bal h D)) D (bal h P) /\
    (par h9 P = D /\ par h9 D = top /\ par h9 a = D /\ (n = false -> par h9 r = P) /\ forall x, x <> P -> x <> D -> x <> a -> (x <> r \/ n = true) -> par h9 x = par h x) /\
    (lft h9 P = nil /\ lft h9 D = a /\ forall x, x <> P -> x <> D -> lft h9 x = if lft h top =? P then upd (lft h) top D x else lft h x) /\
    (rgt h9 P = r /\ rgt h9 D = P /\ forall x, x <> P -> x <> D -> rgt h9 x = if rgt h top =? P then upd (rgt h) top D x else rgt h x).
Proof.
  intros n L1 L2 L3 L4 L5 L6 E1 E2 E3 E4 E5 E6 E7 E8 N1 N2 N3 N4 N5 N6 N7 N8 N9 N10 N11 N12.
  assert (X : swap_with_descendant h P D = swap_with_descendant (mk h (par h) (lft h) (rgt h) (siz h) (bal h)) P D) by now rewrite <- mk_id. rewrite X. clear X.
  unfold swap_with_descendant. subst n. destruct (Nat.eqb_spec (par h r) r) as [En|En].
  all: eexists; split; [repeat (step; vals; rewrite ?E1, ?E2, ?E3, ?E4, ?E5, ?E6, ?E7, ?E8, ?En; ifs; cbn [obind]); reflexivity|].
  all: cbn [live val next siz bal par lft rgt mk].
  all: split; [reflexivity|split; [reflexivity|split; [reflexivity|split; [reflexivity|split; [reflexivity|split; [|split]]]]]].
  all: repeat split; try (intros; vals; reflexivity); try (intros; discriminate).
  all: try (intros x X1 X2; vals; destruct (_ =? P); reflexivity).
  all: try (intros x X1 X2 X3 [X4|X4]; [|discriminate]; vals; reflexivity).
Qed.
Lemma swap_far h nil P D top a r DP z : let n := (par h r =? r) in
  live h P = true -> live h D = true -> live h top = true -> live h a = true -> live h r = true -> live h nil = true -> live h DP = true -> live h z = true ->
  par h P = top -> par h D = DP -> lft h P = a -> rgt h P = z -> lft h D = nil -> rgt h D = r -> par h nil = nil -> par h a = P -> par h z = P -> lft h DP = D -> rgt h DP <> D ->
  P <> D -> top <> P -> top <> D -> a <> P -> a <> D -> r <> P -> r <> D -> nil <> P -> nil <> D -> r <> a -> nil <> a -> a <> top -> DP <> P -> DP <> D -> DP <> top -> z <> D -> z <> P -> a <> z -> r <> z -> nil <> z -> nil <> DP ->
  exists h9, swap_with_descendant h P D = (let* dc := node_count h9 D in let* pc := node_count h9 P in propagate_size h9 P D (dc - pc)%Z) /\
    live h9 = live h /\ val h9 = val h /\ next h9 = next h /\ siz h9 = upd (upd (siz h) P (siz h D)) D (siz h P) /\ bal h9 = upd (upd (bal h) P (bal h D)) D (bal h P) /\
    (par h9 P = DP /\ par h9 D = top /\ par h9 a = D /\ par h9 z = D /\ (n = false -> par h9 r = P) /\ forall x, x <> P -> x <> D -> x <> a -> x <> z -> (x <> r \/ n = true) -> par h9 x = par h x) /\
    (lft h9 P = nil /\ lft h9 D = a /\ lft h9 DP = P /\ forall x, x <> P -> x <> D -> x <> DP -> lft h9 x = if lft h top =? P then upd (lft h) top D x else lft h x) /\
    (rgt h9 P = r /\ rgt h9 D = z /\ forall x, x <> P -> x <> D -> rgt h9 x = if rgt h top =? P then upd (rgt h) top D x else rgt h x).
Proof.
  intros n L1 L2 L3 L4 L5 L6 L7 L8 E1 E2 E3 E4 E5 E6 E7 E8 E9 E10 E11 N1 N2 N3 N4 N5 N6 N7 N8 N9 N10 N11 N12 N13 N14 N15 N16 N17 N18 N19 N20 N21.
  assert (X : swap_with_descendant h P D = swap_with_descendant (mk h (par h) (lft h) (rgt h) (siz h) (bal h)) P D) by now rewrite <- mk_id. rewrite X. clear X.
  unfold swap_with_descendant. subst n. destruct (Nat.eqb_spec (par h r) r) as [En|En].
  all: eexists; split; [repeat (step; vals; rewrite ?E1, ?E2, ?E3, ?E4, ?E5, ?E6, ?E7, ?E8, ?E9, ?E10, ?En; ifs; cbn [obind]); reflexivity|].
  all: cbn [live val next siz bal par lft rgt mk].
  all: split; [reflexivity|split; [reflexivity|split; [reflexivity|split; [reflexivity|split; [reflexivity|split; [|split]]]]]].
  all: repeat split; try (intros; vals; reflexivity); try (intros; discriminate).
  all: try (intros x X1 X2 X3; vals; destruct (_ =? P); [unfold upd; destruct (x =? top); [reflexivity|now rewrite (eqb_ne x DP) by auto]|vals; reflexivity]).
  all: try (intros x X1 X2; vals; destruct (_ =? P); vals; reflexivity).
  all: try (intros x X1 X2 X3 X4 [X5|X5]; [|discriminate]; vals; reflexivity).
Qed.
End P.
