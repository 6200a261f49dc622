(** The generator is linear over the field with two elements: polynomials in its state transition. *)
From Coq Require Import List NArith ZArith Lia Bool Arith.
From Verif Require Import Base Xoshiro XoshiroProofs XoshiroData.
Import ListNotations.
Open Scope nat_scope.

(** ** states form a group *)
Lemma xs_fits : forall a b, fits a -> fits b -> fits (xor_state a b).
Proof. intros a b (A & B & C & D) (E & F & G & H). repeat split; apply word_xor; auto. Qed.
Lemma zero_fits : fits zero_state.
Proof. repeat split. Qed.
Lemma xs_comm : forall a b, xor_state a b = xor_state b a.
Proof. intros. unfold xor_state. f_equal; apply N.lxor_comm. Qed.
Lemma xs_assoc : forall a b c, xor_state (xor_state a b) c = xor_state a (xor_state b c).
Proof. intros. unfold xor_state. cbn [x0 x1 x2 x3]. f_equal; apply N.lxor_assoc. Qed.
Lemma xs_self : forall a, xor_state a a = zero_state.
Proof. intro. unfold xor_state, zero_state. f_equal; apply N.lxor_nilpotent. Qed.
Lemma xs_0_r : forall a, xor_state a zero_state = a.
Proof. intros [a b c d]. unfold xor_state. cbn. rewrite !N.lxor_0_r. auto. Qed.
Lemma xs_0_l : forall a, xor_state zero_state a = a.
Proof. intro. rewrite xs_comm. apply xs_0_r. Qed.
Lemma xs_swap : forall a b c d, xor_state (xor_state a b) (xor_state c d) = xor_state (xor_state a c) (xor_state b d).
Proof. intros. rewrite !xs_assoc. f_equal. rewrite <- !xs_assoc. f_equal. apply xs_comm. Qed.
Lemma xs_eq : forall a b, xor_state a b = zero_state -> a = b.
Proof. intros a b H. rewrite <- (xs_0_r a), <- (xs_self b), <- xs_assoc, H, xs_0_l. auto. Qed.
Definition scale (b : bool) (s : xstate) : xstate := if b then s else zero_state.
Lemma scale_fits : forall b s, fits s -> fits (scale b s).
Proof. intros [] s H; simpl; auto using zero_fits. Qed.

(** ** polynomials, lowest coefficient first *)
Fixpoint act (p : list bool) (s : xstate) : xstate :=
  match p with [] => zero_state | b :: p' => xor_state (scale b s) (act p' (step s)) end.
Lemma act_fits : forall p s, fits s -> fits (act p s).
Proof. induction p; intros; simpl; auto using zero_fits, xs_fits, scale_fits, step_fits. Qed.
Lemma act_xor : forall p a b, fits a -> fits b -> act p (xor_state a b) = xor_state (act p a) (act p b).
Proof.
  induction p as [|c p IH]; intros a b A B; simpl; [rewrite xs_0_r; auto|].
  rewrite step_xor, IH by auto using step_fits.
  replace (scale c (xor_state a b)) with (xor_state (scale c a) (scale c b)) by (destruct c; simpl; auto using xs_0_r).
  apply xs_swap.
Qed.
Lemma act_zero : forall p, act p zero_state = zero_state.
Proof.
  induction p as [|b p IH]; simpl; auto. rewrite step_zero, IH, xs_0_r. destruct b; auto.
Qed.
Lemma act_step : forall p s, fits s -> act p (step s) = step (act p s).
Proof.
  induction p as [|b p IH]; intros s H; simpl; auto.
  rewrite step_xor, IH by auto using scale_fits, act_fits, step_fits. f_equal. destruct b; auto.
Qed.
Lemma act_scale : forall p b s, act p (scale b s) = scale b (act p s).
Proof. intros p [] s; simpl; auto using act_zero. Qed.
Lemma act_comm : forall p q s, fits s -> act p (act q s) = act q (act p s).
Proof.
  induction p as [|b p IH]; intros q s H; simpl; [rewrite act_zero; auto|].
  rewrite act_xor, act_scale by auto using scale_fits, act_fits, step_fits.
  rewrite <- act_step, IH by auto using step_fits. reflexivity.
Qed.
Lemma act_app : forall p q s, act (p ++ q) s = xor_state (act p s) (act q (iter (length p) step s)).
Proof.
  induction p as [|b p IH]; intros q s.
  - simpl. rewrite xs_0_l. auto.
  - cbn [app act length]. rewrite IH, xs_assoc, <- iter_succ_r. reflexivity.
Qed.
Fixpoint zipx (a b : list bool) : list bool :=
  match a, b with x :: a', y :: b' => xorb x y :: zipx a' b' | _, _ => [] end.
Lemma zipx_length : forall a b, length a = length b -> length (zipx a b) = length a.
Proof. induction a; intros [|y b] H; simpl in *; auto; discriminate. Qed.
Lemma act_zipx : forall a b s, length a = length b -> act (zipx a b) s = xor_state (act a s) (act b s).
Proof.
  induction a as [|x a IH]; intros [|y b] s H; simpl in *; try discriminate; [rewrite xs_0_r; auto|].
  rewrite IH by auto. rewrite xs_swap. f_equal. destruct x, y; simpl; auto using xs_0_l, xs_0_r.
  all: rewrite ?xs_self, ?xs_0_l; auto.
Qed.
Lemma zipx_app : forall a b c d, length a = length b -> zipx (a ++ c) (b ++ d) = zipx a b ++ zipx c d.
Proof. induction a; intros [|y b] c d H; simpl in *; try discriminate; auto. f_equal. auto. Qed.
Lemma zipx_rev : forall a b, length a = length b -> rev (zipx a b) = zipx (rev a) (rev b).
Proof.
  induction a as [|x a IH]; intros [|y b] H; simpl in *; try discriminate; auto.
  rewrite IH by auto. rewrite zipx_app by (rewrite !rev_length; auto). reflexivity.
Qed.
Definition square (p : list bool) : list bool := flat_map (fun b => [b; false]) p.
Lemma act_square : forall p s, fits s -> act (square p) s = act p (act p s).
Proof.
  induction p as [|b p IH]; intros s H; [reflexivity|].
  change (act (square (b :: p)) s) with (xor_state (scale b s) (xor_state zero_state (act (square p) (step (step s))))).
  rewrite xs_0_l, IH by auto using step_fits. cbn [act].
  set (u := act p (step s)).
  assert (U : fits u) by (apply act_fits, step_fits; auto).
  rewrite step_xor by auto using scale_fits. rewrite act_xor by auto using scale_fits, step_fits.
  replace (scale b (xor_state (scale b s) u)) with (xor_state (scale b s) (scale b u)) by (destruct b; simpl; auto using xs_0_r).
  replace (act p (step (scale b s))) with (scale b u) by (destruct b; simpl; auto; rewrite step_zero, act_zero; auto).
  rewrite !xs_assoc. f_equal. rewrite <- xs_assoc, xs_self, xs_0_l. unfold u. rewrite <- act_step by auto using step_fits.
  reflexivity.
Qed.

(** ** the polynomial that annihilates the generator *)
Fixpoint pbits (p : positive) : list bool :=
  match p with xH => [true] | xO p' => false :: pbits p' | xI p' => true :: pbits p' end.
Definition nbits (n : N) : list bool := match n with N0 => [] | Npos p => pbits p end.
Fixpoint krylov (n : nat) (s : xstate) : list xstate :=
  match n with 0 => [] | S n' => s :: krylov n' (step s) end.
Fixpoint comb (p : list bool) (K : list xstate) : xstate :=
  match p, K with b :: p', k :: K' => xor_state (scale b k) (comb p' K') | _, _ => zero_state end.
Lemma comb_act : forall p n s, length p <= n -> comb p (krylov n s) = act p s.
Proof.
  induction p as [|b p IH]; intros n s H; [reflexivity|]. destruct n; simpl in H; [lia|].
  simpl. rewrite IH by lia. reflexivity.
Qed.
Definition unit_state (i : nat) : xstate :=
  let w j := if i / 64 =? j then N.shiftl 1 (N.of_nat (i mod 64)) else 0%N in mkX (w 0) (w 1) (w 2) (w 3).
Definition v0 : xstate := mkX 1 0 0 0.
Definition state_eqb (a b : xstate) : bool :=
  N.eqb (x0 a) (x0 b) && N.eqb (x1 a) (x1 b) && N.eqb (x2 a) (x2 b) && N.eqb (x3 a) (x3 b).
Lemma state_eqb_eq : forall a b, state_eqb a b = true -> a = b.
Proof.
  intros [a0 a1 a2 a3] [b0 b1 b2 b3] H. unfold state_eqb in H. cbn in H. rewrite !andb_true_iff, !N.eqb_eq in H.
  destruct H as [[[-> ->] ->] ->]. auto.
Qed.
Definition certificate (p : list bool) (n : nat) (c : nat -> list bool) : bool :=
  let K := krylov (S n) v0 in
  state_eqb (comb p K) zero_state && (length p =? S n) && nth n p false &&
  forallb (fun i => (length (c i) <=? S n) && state_eqb (comb (c i) K) (unit_state i)) (seq 0 n).
Lemma certificate_spec : forall p n c, certificate p n c = true ->
  act p v0 = zero_state /\ p = firstn n p ++ [true] /\ length (firstn n p) = n /\
  forall i, i < n -> act (c i) v0 = unit_state i.
Proof.
  intros p n c C. unfold certificate in C. rewrite !andb_true_iff in C. destruct C as [[[C L] T] U].
  apply state_eqb_eq in C. apply Nat.eqb_eq in L.
  assert (L1 : length (firstn n p) = n) by (rewrite firstn_length; lia).
  split; [rewrite comb_act in C by lia; auto|]. split; [|split; auto].
  - rewrite <- (firstn_skipn n p) at 1. f_equal.
    rewrite <- (firstn_skipn n p) in T. rewrite app_nth2 in T by lia. rewrite L1, Nat.sub_diag in T.
    assert (L2 : length (skipn n p) = 1) by (rewrite skipn_length; lia).
    destruct (skipn n p) as [|t [|? ?]]; try discriminate. simpl in T. subst t. reflexivity.
  - intros i Hi. rewrite forallb_forall in U. specialize (U i). rewrite andb_true_iff in U.
    destruct U as [Lc Uc]; [apply in_seq; lia|]. apply Nat.leb_le in Lc. apply state_eqb_eq in Uc.
    rewrite comb_act in Uc by auto. auto.
Qed.
Definition charbits : list bool := nbits char_poly.
Definition coeff_bits (i : nat) : list bool := nbits (nth i krylov_coeffs 0%N).
Definition order : nat := 256.
Lemma certificate_checked : certificate charbits order coeff_bits = true.
Proof. vm_compute. reflexivity. Qed.
Definition char_low : list bool := firstn order charbits.
Lemma char_low_length : length char_low = order.
Proof. exact (proj1 (proj2 (proj2 (certificate_spec _ _ _ certificate_checked)))). Qed.
Lemma charbits_eq : charbits = char_low ++ [true].
Proof. exact (proj1 (proj2 (certificate_spec _ _ _ certificate_checked))). Qed.
Lemma kills_v0 : act charbits v0 = zero_state.
Proof. exact (proj1 (certificate_spec _ _ _ certificate_checked)). Qed.
Lemma coeff_unit : forall i, i < order -> act (coeff_bits i) v0 = unit_state i.
Proof. exact (proj2 (proj2 (proj2 (certificate_spec _ _ _ certificate_checked)))). Qed.
Lemma order_eq : order = 4 * 64.
Proof. reflexivity. Qed.
Global Opaque charbits coeff_bits order char_low.

Lemma kills_unit : forall i, i < order -> act charbits (unit_state i) = zero_state.
Proof.
  intros i H. rewrite <- (coeff_unit i H), act_comm by (repeat split; reflexivity). rewrite kills_v0. apply act_zero.
Qed.
Definition place (j : nat) (x : N) : xstate :=
  let w i := if j =? i then x else 0%N in mkX (w 0) (w 1) (w 2) (w 3).
Lemma place_fits : forall j x, word x -> fits (place j x).
Proof. intros j x H. unfold place, fits. cbn. repeat split; destruct (_ =? _); auto; reflexivity. Qed.
Lemma place_xor : forall j x y, place j (N.lxor x y) = xor_state (place j x) (place j y).
Proof. intros. unfold place, xor_state. cbn [x0 x1 x2 x3]. f_equal; destruct (_ =? _); auto. Qed.
Lemma kills_place : forall j, j < 4 -> forall n x, n <= 64 -> (x < 2 ^ N.of_nat n)%N ->
  act charbits (place j x) = zero_state.
Proof.
  intros j Hj. induction n as [|n IH]; intros x Hn Hx.
  - change (2 ^ N.of_nat 0)%N with 1%N in Hx. assert (x = 0%N) by lia. subst x.
    replace (place j 0) with zero_state; [apply act_zero|]. unfold place, zero_state.
    f_equal; destruct (_ =? _); auto.
  - set (lo := (x mod 2 ^ N.of_nat n)%N).
    set (hi := if N.testbit x (N.of_nat n) then N.shiftl 1 (N.of_nat n) else 0%N).
    assert (E : x = N.lxor hi lo).
    { apply N.bits_inj. intro i. rewrite N.lxor_spec. unfold lo, hi.
      destruct (N.lt_trichotomy i (N.of_nat n)) as [L | [-> | L]].
      - rewrite N.mod_pow2_bits_low by auto. rewrite xorb_comm, <- xorb_false_r at 1. f_equal.
        destruct (N.testbit x (N.of_nat n)); [rewrite N.shiftl_spec_low by auto|rewrite N.bits_0]; reflexivity.
      - rewrite N.mod_pow2_bits_high by lia. destruct (N.testbit x (N.of_nat n)); [|rewrite N.bits_0; reflexivity].
        rewrite N.shiftl_spec_high' by lia. rewrite N.sub_diag. reflexivity.
      - rewrite N.mod_pow2_bits_high by lia.
        replace (N.testbit x i) with false.
        + destruct (N.testbit x (N.of_nat n)); [|rewrite N.bits_0; reflexivity].
          rewrite N.shiftl_spec_high' by lia. destruct (i - N.of_nat n)%N eqn:Ei; [lia|]. reflexivity.
        + symmetry. destruct (N.eq_dec x 0) as [-> | X0]; [apply N.bits_0|]. apply N.bits_above_log2.
          apply N.lt_le_trans with (N.of_nat (S n)); [apply N.log2_lt_pow2; lia|lia]. }
    assert (W2 : (2 ^ N.of_nat n <> 0)%N) by (apply N.pow_nonzero; discriminate).
    assert (Hlo : (lo < 2 ^ N.of_nat n)%N) by (apply N.mod_lt; auto).
    assert (Wlo : word lo).
    { unfold word, wmod. apply N.lt_le_trans with (2 ^ N.of_nat n)%N; auto. apply N.pow_le_mono_r; [discriminate|lia]. }
    assert (Whi : word hi).
    { unfold hi. destruct (N.testbit x (N.of_nat n)); [|reflexivity]. unfold word, wmod. rewrite N.shiftl_1_l.
      apply N.pow_lt_mono_r; lia. }
    rewrite E, place_xor, act_xor by auto using place_fits. rewrite (IH lo) by (auto; lia). rewrite xs_0_r.
    unfold hi. destruct (N.testbit x (N.of_nat n)).
    + replace (place j (N.shiftl 1 (N.of_nat n))) with (unit_state (j * 64 + n)).
      * apply kills_unit. rewrite order_eq. lia.
      * unfold unit_state, place. rewrite Nat.div_add_l by lia. rewrite Nat.div_small by lia. rewrite Nat.add_0_r.
        rewrite Nat.add_comm, Nat.mod_add by lia. rewrite Nat.mod_small by lia. reflexivity.
    + replace (place j 0) with zero_state; [apply act_zero|]. unfold place, zero_state.
      f_equal; destruct (_ =? _); auto.
Qed.
Lemma kills_word : forall j x, j < 4 -> word x -> act charbits (place j x) = zero_state.
Proof. intros j x Hj Hx. exact (kills_place j Hj 64 x (le_n _) Hx). Qed.
Lemma kills : forall s, fits s -> act charbits s = zero_state.
Proof.
  intros s (A & B & C & D).
  assert (E : s = xor_state (xor_state (place 0 (x0 s)) (place 1 (x1 s))) (xor_state (place 2 (x2 s)) (place 3 (x3 s)))).
  { destruct s as [a b c d]. unfold place, xor_state. cbn [Nat.eqb x0 x1 x2 x3]. rewrite ?N.lxor_0_l, ?N.lxor_0_r. reflexivity. }
  rewrite E. rewrite !act_xor by auto 10 using place_fits, xs_fits.
  rewrite (kills_word 0), (kills_word 1), (kills_word 2), (kills_word 3) by (assumption || lia).
  rewrite !xs_0_r. reflexivity.
Qed.
Lemma low_power : forall s, fits s -> act char_low s = iter order step s.
Proof.
  intros s H. apply xs_eq. pose proof (kills s H) as K. rewrite charbits_eq, act_app, char_low_length in K.
  cbn [act scale] in K. rewrite xs_0_r in K. exact K.
Qed.

(** ** reduction, highest coefficient first *)
Definition low_be : list bool := rev char_low.
Definition mulx_in (p : list bool) (b : bool) : list bool :=
  match p with
  | [] => []
  | top :: rest => if top then zipx (rest ++ [b]) low_be else rest ++ [b]
  end.
Lemma low_be_length : length low_be = order.
Proof. unfold low_be. rewrite rev_length. apply char_low_length. Qed.
Lemma mulx_length : forall p b, length p = order -> length (mulx_in p b) = order.
Proof.
  intros [|t p] b H; [discriminate|]. simpl in H.
  assert (L : length (p ++ [b]) = order) by (rewrite app_length; simpl; lia).
  unfold mulx_in. destruct t; auto. rewrite zipx_length; auto; rewrite low_be_length; auto.
Qed.
Lemma mulx_act : forall p b s, length p = order -> fits s -> act (rev (mulx_in p b)) s = act (rev (p ++ [b])) s.
Proof.
  intros [|t p] b s H F; [discriminate|]. simpl in H.
  assert (Lb : length (p ++ [b]) = length low_be) by (rewrite app_length, low_be_length; simpl; lia).
  assert (R : act (rev ((t :: p) ++ [b])) s = xor_state (act (rev (p ++ [b])) s) (scale t (iter order step s))).
  { change ((t :: p) ++ [b]) with (t :: (p ++ [b])). cbn [rev]. rewrite act_app. cbn [act]. rewrite xs_0_r.
    rewrite rev_length, app_length. simpl length. replace (length p + 1) with order by lia. reflexivity. }
  rewrite R. unfold mulx_in. destruct t.
  - rewrite zipx_rev, act_zipx by (rewrite ?rev_length; auto). f_equal. unfold low_be. rewrite rev_involutive.
    apply low_power. auto.
  - simpl. rewrite xs_0_r. reflexivity.
Qed.
Lemma fold_act : forall l p s, length p = order -> fits s ->
  length (fold_left mulx_in l p) = order /\ act (rev (fold_left mulx_in l p)) s = act (rev (p ++ l)) s.
Proof.
  induction l as [|b l IH]; intros p s H F.
  - rewrite app_nil_r. auto.
  - cbn [fold_left]. destruct (IH (mulx_in p b) s (mulx_length p b H) F) as [L E]. split; auto. rewrite E.
    replace (p ++ b :: l) with ((p ++ [b]) ++ l) by (rewrite <- app_assoc; reflexivity).
    rewrite !(rev_app_distr _ l), !act_app. f_equal. rewrite mulx_act; auto.
    clear -F. induction (length (rev l)); simpl; auto using step_fits.
Qed.
Definition square_be (p : list bool) : list bool :=
  let q := flat_map (fun b => [false; b]) p in fold_left mulx_in (skipn order q) (firstn order q).
Lemma square_be_rev : forall p, rev (flat_map (fun b => [false; b]) p) = square (rev p).
Proof.
  induction p as [|b p IH]; [reflexivity|]. cbn [flat_map app rev]. rewrite IH. unfold square. rewrite flat_map_app. simpl.
  rewrite <- app_assoc. reflexivity.
Qed.
Lemma square_be_act : forall p s, length p = order -> fits s ->
  length (square_be p) = order /\ act (rev (square_be p)) s = act (rev p) (act (rev p) s).
Proof.
  intros p s H F. unfold square_be.
  assert (L : length (flat_map (fun b => [false; b]) p) = order + order).
  { rewrite <- H. clear. induction p; simpl in *; auto. lia. }
  destruct (fold_act (skipn order (flat_map (fun b => [false; b]) p)) (firstn order (flat_map (fun b => [false; b]) p)) s) as [L2 E]; auto.
  { rewrite firstn_length. lia. }
  split; auto. rewrite E, firstn_skipn, square_be_rev, act_square; auto.
Qed.
(** the polynomial x, squared n times *)
Definition x_be : list bool := repeat false 254 ++ [true; false].
Definition squares (n : nat) : list bool := iter n square_be x_be.
Lemma squares_act : forall n s, fits s -> length (squares n) = order /\
  act (rev (squares n)) s = N.iter (2 ^ N.of_nat n) step s.
Proof.
  induction n as [|n IH]; intros s F.
  - split; [reflexivity|]. unfold squares. cbn [iter]. unfold x_be. rewrite rev_app_distr. cbn [rev app act scale].
    rewrite xs_0_l. replace (act (rev (repeat false 254)) (step (step s))) with zero_state.
    + rewrite xs_0_r. reflexivity.
    + assert (G : forall n s, act (rev (repeat false n)) s = zero_state).
      { clear. intros n. assert (R : rev (repeat false n) = repeat false n).
        { induction n; auto. simpl. rewrite IHn. clear. induction n; auto. simpl. f_equal. auto. }
        rewrite R. clear. induction n; intro s; simpl; auto. rewrite IHn, xs_0_l. auto. }
      rewrite G. auto.
  - unfold squares in *. cbn [iter]. destruct (IH s F) as [L E].
    destruct (square_be_act (iter n square_be x_be) s L F) as [L2 E2]. split; auto. rewrite E2, E.
    assert (F2 : fits (N.iter (2 ^ N.of_nat n) step s)) by (rewrite <- E; apply act_fits; auto).
    destruct (IH _ F2) as [_ E3]. rewrite E3. rewrite <- N.iter_add. f_equal.
    rewrite Nat2N.inj_succ, N.pow_succ_r'. lia.
Qed.

(** ** the loops of the jump function *)
Lemma jump_bits_act : forall w bits acc s, fits s -> fits acc ->
  fst (jump_bits w bits acc s) = xor_state acc (act (map (fun b => N.testbit w (N.of_nat b)) bits) s) /\
  snd (jump_bits w bits acc s) = iter (length bits) step s /\ fits (fst (jump_bits w bits acc s)) /\ fits (snd (jump_bits w bits acc s)).
Proof.
  intros w. induction bits as [|b bits IH]; intros acc s F A.
  - simpl. rewrite xs_0_r. auto.
  - cbn [jump_bits map act length].
    destruct (IH (if N.testbit w (N.of_nat b) then xor_state acc s else acc) (step s)) as [E1 [E2 [E3 E4]]]; auto using step_fits.
    { destruct (N.testbit w (N.of_nat b)); auto using xs_fits. }
    split; [|split; auto].
    + rewrite E1. rewrite <- xs_assoc. f_equal. destruct (N.testbit w (N.of_nat b)); simpl; auto using xs_0_r.
    + rewrite E2, <- iter_succ_r. reflexivity.
Qed.
Definition bits_of (B : list nat) (w : N) : list bool := map (fun b => N.testbit w (N.of_nat b)) B.
Lemma jump_words_act : forall B ws acc s, fits s -> fits acc ->
  fst (jump_words B ws acc s) = xor_state acc (act (flat_map (bits_of B) ws) s).
Proof.
  intros B. induction ws as [|w ws IH]; intros acc s F A; [simpl; rewrite xs_0_r; auto|].
  cbn [jump_words flat_map]. destruct (jump_bits_act w B acc s F A) as [E1 [E2 [F1 F2]]].
  rewrite IH by auto. rewrite E1, E2, act_app, xs_assoc. unfold bits_of. rewrite map_length. reflexivity.
Qed.
Definition jump_poly : list bool := flat_map (bits_of bit_list) JUMP.
Lemma jump_checked : rev (squares 128) = jump_poly.
Proof. vm_compute. reflexivity. Qed.

Lemma jump_is : forall s, fits s -> xoshiro_jump s = N.iter (2 ^ 128) step s.
Proof.
  intros s F. unfold xoshiro_jump. rewrite jump_words_act by (auto; repeat split; reflexivity).
  rewrite xs_0_l. fold jump_poly. rewrite <- jump_checked. exact (proj2 (squares_act 128 s F)).
Qed.
