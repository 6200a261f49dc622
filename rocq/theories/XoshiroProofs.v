(** Proofs about the random number generator. *)
From Coq Require Import List NArith ZArith QArith Lia Bool Btauto.
From Verif Require Import Base Xoshiro.
Import ListNotations.
Open Scope N_scope.

Definition fits (s : xstate) : Prop := word (x0 s) /\ word (x1 s) /\ word (x2 s) /\ word (x3 s).

(** ** words as sequences of 64 bits *)
Lemma word_bits : forall x, word x <-> forall i, 64 <= i -> N.testbit x i = false.
Proof.
  intro x. unfold word, wmod. split.
  - intros H i Hi. destruct (N.eq_dec x 0) as [-> | N0]; [apply N.bits_0|].
    apply N.bits_above_log2. apply N.lt_le_trans with 64; auto. apply N.log2_lt_pow2; lia.
  - intro H. destruct (N.eq_dec x 0) as [-> | N0]; [reflexivity|].
    apply N.log2_lt_pow2; [lia|]. destruct (N.lt_ge_cases (N.log2 x) 64) as [L | L]; auto.
    apply H in L. rewrite N.bit_log2 in L by auto. discriminate.
Qed.
Lemma word_xor : forall x y, word x -> word y -> word (N.lxor x y).
Proof. intros x y Hx Hy. rewrite word_bits in *. intros i Hi. rewrite N.lxor_spec, Hx, Hy; auto. Qed.
Lemma word_shr : forall x k, word x -> word (N.shiftr x k).
Proof. intros x k H. rewrite word_bits in *. intros i Hi. rewrite N.shiftr_spec by lia. apply H. lia. Qed.
Lemma shl_bits : forall x k i, N.testbit (shl x k) i = (i <? 64) && (k <=? i) && N.testbit x (i - k).
Proof.
  intros x k i. unfold shl, wmod. destruct (N.ltb_spec i 64) as [L | L].
  - rewrite N.mod_pow2_bits_low by auto. destruct (N.leb_spec k i) as [K | K].
    + rewrite N.shiftl_spec_high' by auto. reflexivity.
    + rewrite N.shiftl_spec_low by auto. reflexivity.
  - rewrite N.mod_pow2_bits_high by auto. reflexivity.
Qed.
Lemma word_shl : forall x k, word (shl x k).
Proof. intros. rewrite word_bits. intros i Hi. rewrite shl_bits. destruct (N.ltb_spec i 64); auto; lia. Qed.
Lemma word_wmul : forall x y, word (wmul x y).
Proof. intros. apply N.mod_lt. discriminate. Qed.
Lemma word_wadd : forall x y, word (wadd x y).
Proof. intros. apply N.mod_lt. discriminate. Qed.
Lemma shl_xor : forall x y k, shl (N.lxor x y) k = N.lxor (shl x k) (shl y k).
Proof.
  intros. apply N.bits_inj. intro i. rewrite N.lxor_spec, !shl_bits, N.lxor_spec.
  destruct ((i <? 64) && (k <=? i)); simpl; auto.
Qed.
Lemma shl_shl : forall x a b, shl (shl x a) b = shl x (a + b).
Proof.
  intros. apply N.bits_inj. intro i. rewrite !shl_bits.
  destruct (N.ltb_spec i 64), (N.leb_spec b i), (N.leb_spec (a + b) i), (N.ltb_spec (i - b) 64), (N.leb_spec a (i - b));
    simpl; auto; try lia. f_equal. lia.
Qed.
Lemma shl_out : forall x k, 64 <= k -> shl x k = 0.
Proof.
  intros. apply N.bits_inj. intro i. rewrite shl_bits, N.bits_0. destruct (N.ltb_spec i 64), (N.leb_spec k i); simpl; auto; lia.
Qed.
Lemma shr_xor : forall x y k, N.shiftr (N.lxor x y) k = N.lxor (N.shiftr x k) (N.shiftr y k).
Proof. intros. apply N.bits_inj. intro i. rewrite N.lxor_spec, !N.shiftr_spec, N.lxor_spec by lia. auto. Qed.
Lemma shr_out : forall x k, word x -> 64 <= k -> N.shiftr x k = 0.
Proof.
  intros x k H K. apply N.bits_inj. intro i. rewrite N.shiftr_spec, N.bits_0 by lia. rewrite word_bits in H. apply H. lia.
Qed.
Lemma xor_cancel : forall x y, N.lxor (N.lxor x y) y = x.
Proof. intros. rewrite N.lxor_assoc, N.lxor_nilpotent, N.lxor_0_r. auto. Qed.
Lemma xor_cancel_l : forall x y, N.lxor x (N.lxor x y) = y.
Proof. intros. rewrite <- N.lxor_assoc, N.lxor_nilpotent, N.lxor_0_l. auto. Qed.

Ltac xors := apply N.bits_inj; intro; rewrite ?N.lxor_spec, ?N.bits_0; btauto.

(** ** rotation *)
Lemma rotl_bits : forall x k i, word x -> 0 < k < 64 ->
  N.testbit (rotl x k) i = (i <? 64) && (if k <=? i then N.testbit x (i - k) else N.testbit x (i + 64 - k)).
Proof.
  intros x k i H K. unfold rotl. rewrite N.lor_spec, shl_bits, N.shiftr_spec by lia. rewrite word_bits in H.
  destruct (N.ltb_spec i 64), (N.leb_spec k i); cbn [andb orb].
  - rewrite (H (i + (64 - k))) by lia. apply orb_false_r.
  - f_equal. lia.
  - apply H. lia.
  - apply H. lia.
Qed.
Lemma word_rotl : forall x k, word x -> 0 < k < 64 -> word (rotl x k).
Proof. intros. rewrite word_bits. intros i Hi. rewrite rotl_bits by auto. destruct (N.ltb_spec i 64); auto; lia. Qed.
Lemma rotl_back : forall x k, word x -> 0 < k < 64 -> rotl (rotl x k) (64 - k) = x.
Proof.
  intros x k H K. apply N.bits_inj. intro i. rewrite rotl_bits by (try lia; apply word_rotl; auto).
  destruct (N.ltb_spec i 64).
  - cbn [andb]. destruct (N.leb_spec (64 - k) i); rewrite rotl_bits by auto.
    + destruct (N.ltb_spec (i - (64 - k)) 64), (N.leb_spec k (i - (64 - k))); try lia. cbn [andb]. f_equal. lia.
    + destruct (N.ltb_spec (i + 64 - (64 - k)) 64), (N.leb_spec k (i + 64 - (64 - k))); try lia. cbn [andb]. f_equal. lia.
  - simpl. symmetry. rewrite word_bits in H. apply H. auto.
Qed.
Lemma rotl_xor : forall x y k, word x -> word y -> 0 < k < 64 -> rotl (N.lxor x y) k = N.lxor (rotl x k) (rotl y k).
Proof.
  intros x y k Hx Hy K. apply N.bits_inj. intro i. rewrite N.lxor_spec, !rotl_bits, !N.lxor_spec; auto using word_xor.
  destruct (i <? 64); auto. destruct (k <=? i); auto.
Qed.

(** ** the state transition *)
Lemma step_fits : forall s, fits s -> fits (step s).
Proof.
  intros s (A & B & C & D). unfold fits, step, next. cbn [x0 x1 x2 x3 snd fst].
  repeat split; auto using word_xor, word_shl. apply word_rotl; [auto using word_xor|lia].
Qed.
(** its inverse *)
Definition unstep (s : xstate) : xstate :=
  let b := rotl (x3 s) 19 in
  let s0 := N.lxor (x0 s) b in
  let u := N.lxor (x1 s) (x2 s) in
  let s1 := N.lxor (N.lxor (N.lxor u (shl u 17)) (shl u 34)) (shl u 51) in
  let a := N.lxor s1 (x1 s) in
  mkX s0 s1 (N.lxor a s0) (N.lxor b s1).
Lemma unshift : forall x, word x -> let u := N.lxor x (shl x 17) in
  N.lxor (N.lxor (N.lxor u (shl u 17)) (shl u 34)) (shl u 51) = x.
Proof.
  intros x H u. unfold u. rewrite !shl_xor, !shl_shl. change (17 + 17) with 34. change (17 + 34) with 51.
  change (17 + 51) with 68. rewrite (shl_out x 68) by lia. rewrite N.lxor_0_r.
  xors.
Qed.
Lemma unstep_step : forall s, fits s -> unstep (step s) = s.
Proof.
  intros s (A & B & C & D). unfold unstep, step, next. cbn [x0 x1 x2 x3 snd fst].
  rewrite (rotl_back _ 45) by (auto using word_xor; lia).
  set (a := N.lxor (x2 s) (x0 s)). set (b := N.lxor (x3 s) (x1 s)).
  replace (N.lxor (N.lxor (x1 s) a) (N.lxor a (shl (x1 s) 17))) with (N.lxor (x1 s) (shl (x1 s) 17))
    by (rewrite N.lxor_assoc, xor_cancel_l; auto).
  rewrite unshift by auto. rewrite xor_cancel, xor_cancel_l. unfold a, b. rewrite xor_cancel.
  rewrite (N.lxor_comm (x3 s)), N.lxor_comm, xor_cancel_l. destruct s; reflexivity.
Qed.
Lemma unstep_fits : forall s, fits s -> fits (unstep s).
Proof.
  intros s (A & B & C & D). unfold fits, unstep. cbn [x0 x1 x2 x3].
  assert (R : word (rotl (x3 s) 19)) by (apply word_rotl; auto; lia).
  repeat split; auto 10 using word_xor, word_shl.
Qed.
Lemma step_unstep : forall s, fits s -> step (unstep s) = s.
Proof.
  intros s (A & B & C & D). unfold unstep, step, next. cbn [x0 x1 x2 x3 snd fst].
  set (b := rotl (x3 s) 19). set (u := N.lxor (x1 s) (x2 s)).
  set (s1 := N.lxor (N.lxor (N.lxor u (shl u 17)) (shl u 34)) (shl u 51)).
  assert (U : N.lxor s1 (shl s1 17) = u).
  { unfold s1. rewrite !shl_xor, !shl_shl. change (17 + 17) with 34. change (34 + 17) with 51.
    change (51 + 17) with 68. rewrite (shl_out u 68) by lia. rewrite N.lxor_0_r.
    xors. }
  replace (N.lxor (N.lxor (N.lxor s1 (x1 s)) (N.lxor (x0 s) b)) (N.lxor (x0 s) b)) with (N.lxor s1 (x1 s)) by (rewrite xor_cancel; auto).
  rewrite xor_cancel_l. replace (N.lxor (N.lxor b s1) s1) with b by (rewrite xor_cancel; auto).
  rewrite xor_cancel. unfold b. replace (rotl (rotl (x3 s) 19) 45) with (x3 s) by (symmetry; apply (rotl_back (x3 s) 19); auto; lia).
  replace (N.lxor (N.lxor s1 (x1 s)) (shl s1 17)) with (x2 s); [destruct s; reflexivity|].
  rewrite (N.lxor_comm s1), N.lxor_assoc, U. unfold u. rewrite xor_cancel_l. auto.
Qed.

(** linearity *)
Lemma step_zero : step zero_state = zero_state.
Proof. reflexivity. Qed.
Lemma lxor_swap : forall a b c d, N.lxor (N.lxor a b) (N.lxor c d) = N.lxor (N.lxor a c) (N.lxor b d).
Proof.
  intros. rewrite !N.lxor_assoc. f_equal. rewrite <- !N.lxor_assoc. f_equal. apply N.lxor_comm.
Qed.
Lemma step_xor : forall a b, fits a -> fits b -> step (xor_state a b) = xor_state (step a) (step b).
Proof.
  intros a b (A0 & A1 & A2 & A3) (B0 & B1 & B2 & B3). unfold step, next, xor_state. cbn [x0 x1 x2 x3 snd fst].
  rewrite shl_xor. f_equal.
  - rewrite (lxor_swap (x3 a)), (lxor_swap (x0 a)). reflexivity.
  - rewrite (lxor_swap (x2 a)), (lxor_swap (x1 a)). reflexivity.
  - rewrite (lxor_swap (x2 a)). apply lxor_swap.
  - rewrite (lxor_swap (x3 a)). apply rotl_xor; auto using word_xor. lia.
Qed.

(** ** the seeds *)
Lemma unshr_gen : forall k n x, word x -> 0 < k -> 64 <= k * 2 ^ N.of_nat n ->
  forall y, word y -> N.lxor x (N.shiftr x k) = N.lxor y (N.shiftr y k) -> x = y.
Proof.
  intros k n. revert k. induction n as [|n IH]; intros k x Hx K H y Hy E.
  - change (2 ^ N.of_nat 0) with 1 in H. rewrite !shr_out, !N.lxor_0_r in E by (auto; lia). auto.
  - apply (IH (k + k)); auto; [lia| |].
    + rewrite Nat2N.inj_succ, N.pow_succ_r' in H. lia.
    + assert (G : forall z, N.lxor (N.lxor z (N.shiftr z k)) (N.shiftr (N.lxor z (N.shiftr z k)) k) = N.lxor z (N.shiftr z (k + k))).
      { intro z. rewrite shr_xor, N.shiftr_shiftr, N.lxor_assoc, xor_cancel_l. auto. }
      rewrite <- !G, E. reflexivity.
Qed.
Lemma wmul_inj : forall c i x y, wmul c i = 1 -> word x -> word y -> wmul x c = wmul y c -> x = y.
Proof.
  intros c i x y I Hx Hy E.
  assert (G : forall z, word z -> wmul (wmul z c) i = z).
  { intros z Hz. unfold wmul in *. rewrite N.mul_mod_idemp_l by discriminate.
    rewrite <- N.mul_assoc, <- N.mul_mod_idemp_r by discriminate. rewrite I, N.mul_1_r. apply N.mod_small. auto. }
  rewrite <- (G x), <- (G y), E; auto.
Qed.
Lemma splitmix_inj : forall x y, word x -> word y -> splitmix x = splitmix y -> x = y.
Proof.
  intros x y Hx Hy E. unfold splitmix in E.
  apply (unshr_gen 31 2) in E; auto using word_wmul; try lia; try (vm_compute; discriminate).
  apply (wmul_inj _ 0x319642b2d24d8ec3) in E; auto using word_wmul, word_xor, word_shr.
  apply (unshr_gen 27 2) in E; auto using word_wmul; try lia; try (vm_compute; discriminate).
  apply (wmul_inj _ 0x96de1b173f119089) in E; auto using word_xor, word_shr.
  apply (unshr_gen 30 2) in E; auto; try lia; vm_compute; discriminate.
Qed.
Lemma word_splitmix : forall z, word (splitmix z).
Proof. intro z. unfold splitmix. auto using word_xor, word_shr, word_wmul. Qed.
Lemma wadd_inj : forall x y c, word x -> word y -> wadd x c = wadd y c -> x = y.
Proof.
  intros x y c Hx Hy E. unfold wadd, word in *.
  assert (W : wmod <> 0) by discriminate.
  assert (G : forall z, z < wmod -> ((z + c) mod wmod + (wmod - c mod wmod)) mod wmod = z).
  { intros z Hz. rewrite N.add_mod_idemp_l by auto. pose proof (N.mod_lt c wmod W). pose proof (N.div_mod c wmod W).
    replace (z + c + (wmod - c mod wmod)) with (z + (c / wmod + 1) * wmod) by lia.
    rewrite N.mod_add by auto. apply N.mod_small; auto. }
  rewrite <- (G x), <- (G y), E by auto. reflexivity.
Qed.
