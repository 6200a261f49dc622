(** Cycles bound: in a connected map with as many faces as the sphere requires, every set of edges that
    meets each vertex an even number of times separates the faces into two classes.  Proved with the
    matrices of Mathematical Components over the field with two elements; the statement
    [cycles_bound] at the end is about natural numbers and booleans only. *)
From Coq Require Import Lia.
From mathcomp Require Import all_ssreflect all_algebra.
Set Implicit Arguments.
Unset Strict Implicit.
Unset Printing Implicit Defensive.
Import GRing.Theory.
Local Open Scope ring_scope.

Section Matrices.
Context (V E F : nat) (d2 : 'M['F_2]_(F, E)) (d1 : 'M['F_2]_(E, V)).
Lemma const_rank m n (A : 'M['F_2]_(m, n)) :
  (forall u : 'rV_m, u *m A = 0 -> exists c, u = const_mx c) -> (m.-1 <= \rank A)%N.
Proof.
  move=> H. have K: (kermx A <= (const_mx 1 : 'rV['F_2]_m))%MS.
  { apply/row_subP => i. have := H (row i (kermx A)). case.
    - apply/sub_kermxP. apply: row_sub.
    - move=> c ->. have -> : const_mx c = c *: (const_mx 1 : 'rV['F_2]_m).
      { apply/rowP => j. by rewrite !mxE mulr1. }
      exact: scalemx_sub. }
  have L := mxrankS K. rewrite mxrank_ker in L. have L2 := leq_trans L (rank_leq_row _).
  rewrite leq_subLR in L2. rewrite addnC in L2. rewrite -subn1 leq_subLR. exact: L2.
Qed.
Lemma kernel_is_image : d2 *m d1 = 0 -> (forall u : 'rV_F, u *m d2 = 0 -> exists c, u = const_mx c) ->
  (forall u : 'rV_V, u *m d1^T = 0 -> exists c, u = const_mx c) -> (V + F = E + 2)%N ->
  forall z : 'rV_E, z *m d1 = 0 -> exists u : 'rV_F, u *m d2 = z.
Proof.
  move=> D K2 K1 N z Z.
  have R2 := const_rank K2. have R1 := const_rank K1. rewrite mxrank_tr in R1.
  have S : (d2 <= kermx d1)%MS by apply/sub_kermxP.
  have EQ : (d2 == kermx d1)%MS.
  { rewrite -(mxrank_leqif_eq S).2. rewrite eqn_leq (mxrankS S) /=. rewrite mxrank_ker.
    apply: leq_trans R2. rewrite leq_subLR. move: R1 N. clear. move: (\rank d1) => r. rewrite -!plusE.
    move=> /leP R1 N. apply/leP. lia. }
  have : (z <= d2)%MS by rewrite (eqmxP EQ); apply/sub_kermxP.
  by case/submxP => u ->; exists u.
Qed.
End Matrices.

(** sum modulo 2 of [f 0], ..., [f (n-1)] *)
Fixpoint xsum (n : nat) (f : nat -> bool) : bool :=
  match n with O => false | S k => xorb (xsum k f) (f k) end.

Definition bit (b : bool) : 'F_2 := b%:R.
Lemma bit_xor a b : bit (xorb a b) = bit a + bit b.
Proof. by case: a; case: b; rewrite /bit; apply/eqP. Qed.
Lemma bit_and a b : bit (a && b) = bit a * bit b.
Proof. by case: a; case: b; rewrite /bit; apply/eqP. Qed.
Lemma bit_inj a b : bit a = bit b -> a = b.
Proof. by case: a; case: b; rewrite /bit // => /eqP. Qed.
Lemma bit_of (x : 'F_2) : x = bit (x != 0).
Proof. by case: x => [[|[|m]] H] //; apply/eqP. Qed.
Lemma bit_sum n (f : nat -> bool) : \sum_(i < n) bit (f i) = bit (xsum n f).
Proof. elim: n => [|n IH]; first by rewrite big_ord0. by rewrite big_ord_recr /= IH bit_xor. Qed.
Lemma bit_pick n (u : 'rV['F_2]_n.+1) (k : nat) : (k < n.+1)%N ->
  \sum_(i < n.+1) u 0 i * bit (Nat.eqb k i) = u 0 (inord k).
Proof.
  move=> Hk. rewrite (bigD1 (inord k)) //= big1.
  - rewrite inordK // PeanoNat.Nat.eqb_refl /bit mulr1 addr0. done.
  - move=> i Hi. case: (PeanoNat.Nat.eqb_spec k i) => [E|_]; last by rewrite /bit mulr0.
    case/eqP: Hi. apply: val_inj. by rewrite /= inordK.
Qed.

Section Map.
Context (V E F : nat) (src dst lf rt : nat -> nat).
Context (range : forall e, (e < E)%coq_nat -> (src e < V)%coq_nat /\ (dst e < V)%coq_nat /\ (lf e < F)%coq_nat /\ (rt e < F)%coq_nat).
Context (euler : (V + F = E + 2)%coq_nat).
Context (conn : forall x : nat -> bool, (forall e, (e < E)%coq_nat -> x (src e) = x (dst e)) ->
  forall v w, (v < V)%coq_nat -> (w < V)%coq_nat -> x v = x w).
Context (dual : forall y : nat -> bool, (forall e, (e < E)%coq_nat -> y (lf e) = y (rt e)) ->
  forall f g, (f < F)%coq_nat -> (g < F)%coq_nat -> y f = y g).
Definition inc (a b v : nat) : bool := xorb (Nat.eqb a v) (Nat.eqb b v).
Context (closed : forall f v, (f < F)%coq_nat -> (v < V)%coq_nat ->
  xsum E (fun e => inc (lf e) (rt e) f && inc (src e) (dst e) v) = false).

Lemma cycles_bound_pos : (0 < E)%coq_nat -> forall z : nat -> bool,
  (forall v, (v < V)%coq_nat -> xsum E (fun e => z e && inc (src e) (dst e) v) = false) ->
  exists u : nat -> bool, forall e, (e < E)%coq_nat -> z e = xorb (u (lf e)) (u (rt e)).
Proof.
  move=> E0. have [S0 [_ [L0 _]]] := range E0.
  move: V F range euler conn dual closed S0 L0 => [|V'] [|F']; try (move=> *; lia).
  move=> rg eu co du cl _ _ z Z.
  pose D1 : 'M['F_2]_(E, V'.+1) := \matrix_(e, v) bit (inc (src e) (dst e) v).
  pose D2 : 'M['F_2]_(F'.+1, E) := \matrix_(f, e) bit (inc (lf e) (rt e) f).
  have KK : forall n (a b : nat -> nat) (u : 'rV['F_2]_n.+1) e, (a e < n.+1)%N -> (b e < n.+1)%N ->
    \sum_(i < n.+1) u 0 i * bit (inc (a e) (b e) i) = u 0 (inord (a e)) + u 0 (inord (b e)).
  { move=> n a b u e Ha Hb. rewrite -(bit_pick u Ha) -(bit_pick u Hb) -big_split /=. apply: eq_bigr => i _.
    by rewrite /inc bit_xor mulrDr. }
  have CC : forall n (u : 'rV['F_2]_n.+1) , (forall v w, (v < n.+1)%coq_nat -> (w < n.+1)%coq_nat ->
      (u 0 (inord v) != 0) = (u 0 (inord w) != 0)) -> exists c, u = const_mx c.
  { move=> n u H. exists (u 0 (inord 0)). apply/rowP => j. rewrite mxE (bit_of (u 0 j)) (bit_of (u 0 (inord 0))).
    congr bit. rewrite -{1}(inord_val j). apply: H; apply/leP => //. }
  have SM : forall x y : 'F_2, x + y = 0 -> (x != 0) = (y != 0).
  { by move=> [[|[|x]] Hx] [[|[|y]] Hy] // /eqP. }
  have [u U] : exists u : 'rV['F_2]_F'.+1, u *m D2 = \row_e bit (z e).
  { apply: (@kernel_is_image V'.+1 E F'.+1 D2 D1).
    - apply/matrixP => f v. rewrite !mxE.
      transitivity (\sum_(e < E) bit (inc (lf e) (rt e) f && inc (src e) (dst e) v)).
      { apply: eq_bigr => e _. by rewrite !mxE bit_and. }
      rewrite (bit_sum E (fun e => inc (lf e) (rt e) f && inc (src e) (dst e) v)).
      rewrite cl //; apply/leP; exact: ltn_ord.
    - move=> u H. apply: CC. apply: (du (fun f => u 0 (inord f) != 0)). move=> e He.
      have He' : (e < E)%N by apply/leP.
      have [_ [_ [Hl Hr]]] := rg e He.
      move/rowP: H => /(_ (Ordinal He')). rewrite !mxE => H. apply: SM. rewrite -H.
      rewrite -(KK F' lf rt u e); try (apply/leP; assumption). apply: eq_bigr => i _. by rewrite mxE.
    - move=> u H. apply: CC. apply: (co (fun f => u 0 (inord f) != 0)). move=> e He.
      have He' : (e < E)%N by apply/leP.
      have [Hl [Hr _]] := rg e He.
      move/rowP: H => /(_ (Ordinal He')). rewrite !mxE => H. apply: SM. rewrite -H.
      rewrite -(KK V' src dst u e); try (apply/leP; assumption). apply: eq_bigr => i _. by rewrite !mxE.
    - by rewrite -!plusE.
    - apply/rowP => v. rewrite !mxE.
      transitivity (\sum_(e < E) bit (z e && inc (src e) (dst e) v)).
      { apply: eq_bigr => e _. by rewrite !mxE bit_and. }
      rewrite (bit_sum E (fun e => z e && inc (src e) (dst e) v)).
      rewrite Z //. apply/leP. exact: ltn_ord. }
  exists (fun f => u 0 (inord f) != 0). move=> e He. have He' : (e < E)%N by apply/leP.
  have [_ [_ [Hl Hr]]] := rg e He.
  apply: bit_inj. rewrite bit_xor -!bit_of.
  move/rowP: U => /(_ (Ordinal He')). rewrite !mxE /= => <-.
  rewrite -(KK F' lf rt u e); try (apply/leP; assumption). apply: eq_bigr => i _. by rewrite mxE.
Qed.
Lemma cycles_bound : forall z : nat -> bool,
  (forall v, (v < V)%coq_nat -> xsum E (fun e => z e && inc (src e) (dst e) v) = false) ->
  exists u : nat -> bool, forall e, (e < E)%coq_nat -> z e = xorb (u (lf e)) (u (rt e)).
Proof.
  move=> z Z. case: (PeanoNat.Nat.eq_dec E 0) => [E0|E0].
  - exists (fun _ => false). move=> e He. lia.
  - apply: cycles_bound_pos => //. lia.
Qed.
End Map.
Print Assumptions cycles_bound.
