(** Renumbering is symmetric. *)
From Coq Require Import List ZArith Lia Bool Arith Permutation.
From Verif Require Import Base Iterators Pd PdSpec PdProofs Relabel RelabelProofs SlotCount.
Import ListNotations.
Open Scope nat_scope.

(** the inverse of a bijection of 0, ..., n-1 *)
Definition inv_on (n : nat) (f : nat -> nat) (j : nat) : nat :=
  match find (fun i => f i =? j) (seq 0 n) with Some i => i | None => 0 end.
Lemma inv_spec : forall n f j, bij_on n f -> j < n -> inv_on n f j < n /\ f (inv_on n f j) = j.
Proof.
  intros n f j B Hj. destruct (bij_surj n f j B Hj) as (i & Hi & E). unfold inv_on.
  destruct (find _ _) as [k|] eqn:F.
  - apply find_some in F as (I & Q). apply in_seq in I. apply Nat.eqb_eq in Q. split; [lia|auto].
  - exfalso. assert (Q : (f i =? j) = false) by (apply (find_none _ _ F i), in_seq; lia). apply Nat.eqb_neq in Q. auto.
Qed.
Lemma inv_left : forall n f i, bij_on n f -> i < n -> inv_on n f (f i) = i.
Proof.
  intros n f i B Hi. pose proof B as (B1 & B2). destruct (inv_spec n f (f i) B (B1 i Hi)) as (Q1 & Q2). apply B2; auto.
Qed.
Lemma bij_inv : forall n f, bij_on n f -> bij_on n (inv_on n f).
Proof.
  intros n f B. split.
  - intros i Hi. apply inv_spec; auto.
  - intros i j Hi Hj E. destruct (inv_spec n f i B Hi) as (_ & Ei). destruct (inv_spec n f j B Hj) as (_ & Ej). congruence.
Qed.

Lemma unturn : forall p r, p < 4 -> r < 4 -> ((p + 4 - r) mod 4 + 4 - (4 - r) mod 4) mod 4 = p.
Proof.
  intros p r Hp Hr. destruct (small4 p Hp) as [->|[->|[->| ->]]]; destruct (small4 r Hr) as [->|[->|[->| ->]]]; reflexivity.
Qed.

Section Sym.
Context (d d' : pd) (sigma rho pi : nat -> nat) (RL : relabelled d d' sigma rho pi).
Context (R : ends_recorded d) (T : two_ended d).
Definition sigma' := inv_on (ncross d) sigma.
Definition rho' c := (4 - rho (sigma' c)) mod 4.
Definition pi' := inv_on (nedges d) pi.

Lemma moved_back : forall c p, c < ncross d -> p < 4 ->
  moved sigma' rho' (sigma c) (snd (moved sigma rho c p)) = (c, p).
Proof.
  intros c p Hc Hp. unfold moved, rho', sigma'. cbn [snd]. rewrite inv_left by (try apply (rl_sigma _ _ _ _ _ RL); auto).
  f_equal. apply unturn; auto. apply (rl_rho _ _ _ _ _ RL); auto.
Qed.
Lemma cross_back : forall c', c' < ncross d' -> exists c, c < ncross d /\ c' = sigma c.
Proof.
  intros c' H. rewrite (rl_ncross _ _ _ _ _ RL) in H. destruct (bij_surj _ _ _ (rl_sigma _ _ _ _ _ RL) H) as (c & Hc & <-). eauto.
Qed.
Lemma slot_back : forall c' p' e', slot d' c' p' e' ->
  exists c p e, slot d c p e /\ c' = sigma c /\ p' = snd (moved sigma rho c p) /\ e' = pi e.
Proof.
  intros c' p' e' H. pose proof (slot_lt _ _ _ _ H) as (Hc & Hp). apply cross_back in Hc as (c & Hc & ->).
  pose proof (rl_rho _ _ _ _ _ RL c Hc) as Hr.
  assert (P : exists p, p < 4 /\ (p + 4 - rho c) mod 4 = p').
  { destruct (small4 p' Hp) as [->|[->|[->| ->]]]; destruct (small4 (rho c) Hr) as [->|[->|[->| ->]]];
      first [exists 0; split; [lia|reflexivity]|exists 1; split; [lia|reflexivity]
            |exists 2; split; [lia|reflexivity]|exists 3; split; [lia|reflexivity]]. }
  destruct P as (p & Hp0 & Ep). destruct (nth_error (p_cross d) c) as [x|] eqn:X.
  2:{ apply nth_error_None in X. unfold ncross in Hc. lia. }
  assert (S0 : slot d c p (cedge x p)) by (split; eauto).
  exists c, p, (cedge x p). split; auto. split; auto. split; [cbn; auto|].
  pose proof (rl_slot _ _ _ _ _ RL _ _ _ S0) as S1. cbn [moved snd] in S1. rewrite Ep in S1.
  eapply slot_fun; eauto.
Qed.

Lemma rl_sym_at : relabelled d' d sigma' rho' pi'.
Proof.
  pose proof (rl_ncross _ _ _ _ _ RL) as Nc. pose proof (rl_nedges _ _ _ _ _ RL) as Ne.
  pose proof (rl_sigma _ _ _ _ _ RL) as Bs. pose proof (rl_pi _ _ _ _ _ RL) as Bp.
  constructor; auto.
  - rewrite Nc. apply bij_inv; auto.
  - intros c Hc. apply mod4_lt.
  - rewrite Ne. apply bij_inv; auto.
  - intros c' p' e' H. apply slot_back in H as (c & p & e & S & -> & -> & ->).
    pose proof (slot_lt _ _ _ _ S) as (Hc & Hp). pose proof (consistent_bound d c p e R T S) as He.
    rewrite moved_back by auto. cbn [snd]. unfold pi', sigma'. rewrite !inv_left by auto. auto.
  - intros c' s (x' & Hx' & Es). assert (Hc' : c' < ncross d') by (apply nth_error_Some; congruence).
    apply cross_back in Hc' as (c & Hc & ->). unfold sigma'. rewrite inv_left by auto.
    destruct (nth_error (p_cross d) c) as [x|] eqn:X.
    2:{ apply nth_error_None in X. unfold ncross in Hc. lia. }
    destruct (rl_sign _ _ _ _ _ RL c (csign x)) as (y & Hy & Ey); [exists x; auto|].
    rewrite Hx' in Hy. injection Hy as <-. exists x. split; auto. congruence.
  - intros e' E' H. destruct (rl_edge_back _ _ _ _ _ RL e' E' H) as (e & E & -> & HE & H1 & H2).
    pose proof (edge_at_lt _ _ _ HE) as He. exists E. unfold pi'. rewrite inv_left by auto. split; auto.
    destruct R as (_ & R2). destruct (R2 e E HE) as (S1 & S2). apply slot_lt in S1, S2.
    unfold head_slot, tail_slot in *. apply pair_equal_spec in H1 as (H1 & H1'), H2 as (H2 & H2').
    rewrite H1, H1', H2, H2'. split; symmetry; apply moved_back; tauto.
Qed.
End Sym.

Lemma rl_sym : forall d d' s r q, ends_recorded d -> two_ended d -> relabelled d d' s r q ->
  exists s' r' q', relabelled d' d s' r' q'.
Proof. intros. do 3 eexists. eapply rl_sym_at; eauto. Qed.
