(** Theorems about the random number generator (C48). *)
From Coq Require Import List NArith ZArith QArith Lia Bool.
From Verif Require Import Base Xoshiro XoshiroProofs.
Import ListNotations.
Open Scope N_scope.

(** states are four 64-bit words *)
Theorem xoshiro_state : forall s, fits s -> fits (snd (next s)) /\ fst (next s) < 2 ^ 64.
Proof. intros s H. split; [apply step_fits; auto|apply word_wadd]. Qed.
Print Assumptions xoshiro_state.
(** C48: the state transition is a bijection on the 2^256 states *)
Theorem xoshiro_bijection :
  (forall s t, fits s -> fits t -> snd (next s) = snd (next t) -> s = t) /\
  (forall t, fits t -> exists s, fits s /\ snd (next s) = t).
Proof.
  split.
  - intros s t Hs Ht E. rewrite <- (unstep_step s), <- (unstep_step t) by auto. unfold step. congruence.
  - intros t H. exists (unstep t). split; [apply unstep_fits; auto|apply step_unstep; auto].
Qed.
Print Assumptions xoshiro_bijection.
(** it fixes the zero state, and no other state ever leads to it *)
Theorem xoshiro_zero : snd (next zero_state) = zero_state /\
  forall s n, fits s -> s <> zero_state -> iter n (fun s => snd (next s)) s <> zero_state.
Proof.
  split; [reflexivity|]. intros s n Hs N.
  assert (G : fits (iter n (fun s => snd (next s)) s) /\ iter n (fun s => snd (next s)) s <> zero_state).
  { induction n; simpl; auto. destruct IHn as [F Z]. split; [apply step_fits; auto|].
    intro E. apply Z. apply (proj1 xoshiro_bijection); [exact F|repeat split; reflexivity|exact E]. }
  tauto.
Qed.
Print Assumptions xoshiro_zero.
(** the numbers returned are in [0,1) *)
Theorem xoshiro_unit : forall s, fits s -> (0 <= fst (xoshiro_uniform s) < 1)%Q /\ fits (snd (xoshiro_uniform s)).
Proof.
  intros s H. split; [|apply step_fits; auto]. unfold xoshiro_uniform. cbn [fst].
  assert (B : N.shiftr (fst (next s)) 12 < 2 ^ 52).
  { rewrite N.shiftr_div_pow2. apply N.div_lt_upper_bound; [discriminate|]. apply xoshiro_state. auto. }
  unfold Qle, Qlt. cbn [Qnum Qden]. change (Z.pos (Z.to_pos (2 ^ 52))) with (2 ^ 52)%Z.
  change (Z.of_N (2 ^ 52)) with (2 ^ 52)%Z in *. apply N2Z.inj_lt in B. change (Z.of_N (2 ^ 52)) with (2 ^ 52)%Z in B.
  change (Qnum 0) with 0%Z. change (Qnum 1) with 1%Z. change (Zpos (Qden 0)) with 1%Z. change (Zpos (Qden 1)) with 1%Z. lia.
Qed.
Print Assumptions xoshiro_unit.
(** and every multiple of 2^-52 in [0,1) is returned in some state *)
Theorem xoshiro_unit_onto : forall m, m < 2 ^ 52 ->
  exists s, fits s /\ fst (xoshiro_uniform s) = (Z.of_N m # Z.to_pos (2 ^ 52))%Q.
Proof.
  intros m H. exists (mkX (N.shiftl m 12) 0 0 0).
  assert (W : word (N.shiftl m 12)).
  { unfold word, wmod. rewrite N.shiftl_mul_pow2. change (2 ^ 64) with (2 ^ 52 * 2 ^ 12). apply N.mul_lt_mono_pos_r; auto. reflexivity. }
  split; [repeat split; auto|]. unfold xoshiro_uniform, next. cbn [fst x0 x3]. unfold wadd. rewrite N.add_0_r, N.mod_small by auto.
  rewrite N.shiftr_shiftl_l by lia. rewrite N.sub_diag, N.shiftl_0_r. reflexivity.
Qed.
Print Assumptions xoshiro_unit_onto.

(** the initial states: different seeds give different states, and none gives the zero state *)
Lemma gamma_apart : forall x, word x -> wadd x gamma <> x.
Proof.
  intros x H E. unfold wadd in E.
  assert (W : wmod <> 0) by discriminate.
  pose proof (N.div_mod (x + gamma) wmod W) as D. rewrite E in D.
  assert (Q : (x + gamma) / wmod < 2) by (apply N.div_lt_upper_bound; auto; unfold word, wmod, gamma in *; lia).
  assert (G : gamma = wmod * ((x + gamma) / wmod)) by lia.
  set (q := (x + gamma) / wmod) in *. clearbody q. assert (q = 0 \/ q = 1) as [-> | ->] by lia; discriminate G.
Qed.
Theorem xoshiro_seeds :
  (forall a b, a < 2 ^ 64 -> b < 2 ^ 64 -> xoshiro_init a = xoshiro_init b -> a = b) /\
  (forall a, a < 2 ^ 64 -> fits (xoshiro_init a) /\ xoshiro_init a <> zero_state).
Proof.
  split.
  - intros a b Ha Hb E. unfold xoshiro_init in E. injection E as E _ _ _.
    apply splitmix_inj in E; try apply word_wadd. apply wadd_inj in E; auto.
  - intros a Ha. split; [repeat split; apply word_splitmix|]. unfold xoshiro_init, zero_state. intro E.
    injection E as E1 E2 _ _. rewrite <- E2 in E1. apply splitmix_inj in E1; try apply word_wadd.
    apply (gamma_apart (wadd a gamma)); auto. apply word_wadd.
Qed.
Print Assumptions xoshiro_seeds.
(** the four words of an initial state are four different words: the generator that fills them advances
    between any two *)
Lemma gamma_steps : forall x k, word x -> (k = 1 \/ k = 2 \/ k = 3) -> (x + k * gamma) mod wmod <> x.
Proof.
  intros x k H K E. assert (W : wmod <> 0) by discriminate.
  pose proof (N.div_mod (x + k * gamma) wmod W) as D. rewrite E in D.
  assert (Q : (x + k * gamma) / wmod < 4) by (apply N.div_lt_upper_bound; auto; unfold word, wmod, gamma in *; lia).
  assert (G : k * gamma = wmod * ((x + k * gamma) / wmod)) by lia.
  set (q := (x + k * gamma) / wmod) in *. clearbody q. unfold wmod, gamma in G. lia.
Qed.
Theorem xoshiro_words_differ : forall a, a < 2 ^ 64 ->
  NoDup [x0 (xoshiro_init a); x1 (xoshiro_init a); x2 (xoshiro_init a); x3 (xoshiro_init a)].
Proof.
  intros a Ha. unfold xoshiro_init. cbn [x0 x1 x2 x3].
  assert (S1 : forall x, wadd x gamma = (x + 1 * gamma) mod wmod) by (intros; unfold wadd; rewrite N.mul_1_l; reflexivity).
  assert (S2 : forall x, wadd (wadd x gamma) gamma = (x + 2 * gamma) mod wmod).
  { intros x. rewrite (S1 x). unfold wadd. rewrite N.add_mod_idemp_l by discriminate. rewrite <- N.add_assoc, <- N.mul_succ_l. reflexivity. }
  assert (S3 : forall x, wadd (wadd (wadd x gamma) gamma) gamma = (x + 3 * gamma) mod wmod).
  { intros x. rewrite (S2 x). unfold wadd. rewrite N.add_mod_idemp_l by discriminate. rewrite <- N.add_assoc, <- N.mul_succ_l. reflexivity. }
  assert (D : forall x, word x -> wadd x gamma <> x /\ wadd (wadd x gamma) gamma <> x /\ wadd (wadd (wadd x gamma) gamma) gamma <> x).
  { intros x Hx. split; [|split]; [rewrite S1|rewrite S2|rewrite S3]; apply gamma_steps; auto. }
  pose proof (D (wadd a gamma) (word_wadd _ _)) as (D1 & D2 & D3).
  pose proof (D (wadd (wadd a gamma) gamma) (word_wadd _ _)) as (D4 & D5 & _).
  pose proof (D (wadd (wadd (wadd a gamma) gamma) gamma) (word_wadd _ _)) as (D6 & _ & _).
  assert (I : forall x y, word x -> word y -> y <> x -> splitmix x <> splitmix y) by (intros x y Hx Hy N E; apply splitmix_inj in E; auto).
  repeat constructor; cbn [In]; intros K; repeat destruct K as [K|K]; auto; symmetry in K; revert K; apply I; auto using word_wadd.
Qed.
Print Assumptions xoshiro_words_differ.
(** so a generator made by plc_xoshiro_init never gets stuck in the zero state *)
Theorem xoshiro_never_zero : forall a n, a < 2 ^ 64 ->
  iter n (fun s => snd (xoshiro_uniform s)) (xoshiro_init a) <> zero_state.
Proof.
  intros a n Ha. destruct xoshiro_seeds as [_ S]. destruct (S a Ha) as [F N].
  destruct xoshiro_zero as [_ Z]. exact (Z _ n F N).
Qed.
Print Assumptions xoshiro_never_zero.
Example xoshiro_example : snd (next (mkX 1 2 3 4)) = mkX 7 0 262146 211106232532992 /\ fst (next (mkX 1 2 3 4)) = 5.
Proof. split; vm_compute; reflexivity. Qed.
