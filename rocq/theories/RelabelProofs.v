(** Facts about relabelling. *)
From Coq Require Import List ZArith Lia Bool Arith Permutation.
From Verif Require Import Base Iterators Pd PdSpec PdProofs Relabel.
Import ListNotations.
Open Scope nat_scope.

Lemma bij_perm : forall n f, bij_on n f -> Permutation (map f (seq 0 n)) (seq 0 n).
Proof.
  intros n f (H1 & H2). apply NoDup_Permutation_bis.
  - apply NoDup_map_inj; [|apply seq_NoDup]. intros x y Hx Hy. apply in_seq in Hx, Hy. apply H2; lia.
  - rewrite map_length. lia.
  - intros x Hx. apply in_map_iff in Hx as (y & <- & Hy). apply in_seq in Hy. apply in_seq. specialize (H1 y). lia.
Qed.
Lemma bij_surj : forall n f j, bij_on n f -> j < n -> exists i, i < n /\ f i = j.
Proof.
  intros n f j B Hj. assert (I : In j (map f (seq 0 n))).
  { eapply Permutation_in; [symmetry; apply bij_perm; auto|]. apply in_seq. lia. }
  apply in_map_iff in I as (i & E & Hi). apply in_seq in Hi. exists i. split; auto; lia.
Qed.
Lemma bij_id : forall n, bij_on n (fun i => i).
Proof. split; auto. Qed.

Lemma small4 : forall p, p < 4 -> p = 0 \/ p = 1 \/ p = 2 \/ p = 3.
Proof. lia. Qed.
Lemma mod4_lt : forall p, p mod 4 < 4.
Proof. intros. apply Nat.mod_upper_bound. lia. Qed.

Lemma moved_inj : forall sigma rho p q c, p < 4 -> q < 4 -> rho c < 4 ->
  moved sigma rho c p = moved sigma rho c q -> p = q.
Proof.
  intros sigma rho p q c Hp Hq Hr E. unfold moved in E. apply pair_equal_spec in E as (_ & E).
  destruct (small4 _ Hp) as [-> |[-> |[-> | ->]]]; destruct (small4 _ Hq) as [-> |[-> |[-> | ->]]]; auto;
    destruct (small4 _ Hr) as [K|[K|[K|K]]]; rewrite K in E; cbn in E; lia.
Qed.
Lemma moved_shift : forall r p k, r < 4 -> p < 4 ->
  ((p + k) mod 4 + 4 - r) mod 4 = ((p + 4 - r) mod 4 + k) mod 4.
Proof.
  intros r p k Hr Hp. rewrite (Nat.add_mod_idemp_l (p + 4 - r) k 4) by lia.
  replace ((p + k) mod 4 + 4 - r) with ((p + k) mod 4 + (4 - r)) by lia.
  rewrite Nat.add_mod_idemp_l by lia. f_equal. lia.
Qed.

Section R.
Context (d d' : pd) (sigma rho pi : nat -> nat) (R : relabelled d d' sigma rho pi).

Lemma rl_edge_back : forall e' E', edge_at d' e' E' -> exists e E, e' = pi e /\ edge_at d e E /\
    head_slot E' = moved sigma rho (e_head E) (e_headpos E) /\
    tail_slot E' = moved sigma rho (e_tail E) (e_tailpos E).
Proof.
  intros e' E' H. assert (L : e' < nedges d).
  { rewrite <- (rl_nedges _ _ _ _ _ R). eapply edge_at_lt; eauto. }
  destruct (bij_surj _ _ e' (rl_pi _ _ _ _ _ R) L) as (e & Le & Ee). subst e'.
  destruct (edge_at_ex d e Le) as (E & HE). destruct (rl_edge _ _ _ _ _ R e E HE) as (E2 & H2 & K).
  unfold edge_at in *. assert (E2 = E') by congruence. subst. exists e, E. auto.
Qed.
Lemma rl_ends_recorded : ends_recorded d -> ends_recorded d'.
Proof.
  intros (N & H). split.
  - rewrite (rl_nedges _ _ _ _ _ R), (rl_ncross _ _ _ _ _ R). auto.
  - intros e' E' HE'. destruct (rl_edge_back e' E' HE') as (e & E & -> & HE & K1 & K2).
    destruct (H e E HE) as (S1 & S2). apply (rl_slot _ _ _ _ _ R) in S1, S2.
    unfold head_slot, tail_slot, moved in *. apply pair_equal_spec in K1 as (-> & ->).
    apply pair_equal_spec in K2 as (-> & ->). auto.
Qed.
Lemma rl_two_ended : ends_recorded d -> two_ended d -> two_ended d'.
Proof.
  intros (N & H) T e' E' HE'. destruct (rl_edge_back e' E' HE') as (e & E & -> & HE & K1 & K2).
  rewrite K1, K2. intros Q. destruct (H e E HE) as (S1 & S2). apply (T e E HE). unfold head_slot, tail_slot.
  apply slot_lt in S1 as (C1 & P1). apply slot_lt in S2 as (C2 & P2).
  assert (Q' := Q). unfold moved in Q. apply pair_equal_spec in Q as (Q & _).
  apply (proj2 (rl_sigma _ _ _ _ _ R)) in Q; auto. rewrite Q in *. f_equal.
  apply (moved_inj sigma rho _ _ (e_tail E)); auto. apply (rl_rho _ _ _ _ _ R); auto.
Qed.
Lemma rl_shift_slot : forall c p k, c < ncross d -> p < 4 ->
  moved sigma rho c ((p + k) mod 4) = (sigma c, (snd (moved sigma rho c p) + k) mod 4).
Proof.
  intros c p k Hc Hp. unfold moved. cbn [snd]. f_equal. apply moved_shift; auto. apply (rl_rho _ _ _ _ _ R); auto.
Qed.
Lemma rl_goes_through : ends_recorded d -> goes_through d -> goes_through d'.
Proof.
  intros (N & H) T e' E' HE'. destruct (rl_edge_back e' E' HE') as (e & E & -> & HE & K1 & K2).
  destruct (H e E HE) as (S1 & S2). destruct (T e E HE) as ((a & A & HA & SA & TA) & (b & B & HB & SB & TB)).
  apply slot_lt in S1 as (C1 & P1). apply slot_lt in S2 as (C2 & P2).
  assert (M1 := rl_shift_slot (e_head E) (e_headpos E) 2 C1 P1). assert (M2 := rl_shift_slot (e_tail E) (e_tailpos E) 2 C2 P2).
  unfold head_slot, tail_slot in K1, K2. unfold moved in K1, K2. apply pair_equal_spec in K1 as (F1 & G1).
  apply pair_equal_spec in K2 as (F2 & G2). unfold moved in M1, M2. cbn [snd] in M1, M2.
  rewrite <- G1 in M1. rewrite <- G2 in M2. split.
  - destruct (rl_edge _ _ _ _ _ R a A HA) as (A' & HA' & _ & W). exists (pi a), A'. split; auto. split.
    + apply (rl_slot _ _ _ _ _ R) in SA. unfold moved in SA. cbn [snd] in SA.
      apply pair_equal_spec in M1 as (M1 & M1'). rewrite F1, <- M1'. auto.
    + rewrite W. unfold tail_slot in TA. apply pair_equal_spec in TA as (-> & ->). unfold moved. congruence.
  - destruct (rl_edge _ _ _ _ _ R b B HB) as (B' & HB' & W & _). exists (pi b), B'. split; auto. split.
    + apply (rl_slot _ _ _ _ _ R) in SB. unfold moved in SB. cbn [snd] in SB.
      apply pair_equal_spec in M2 as (M2 & M2'). rewrite F2, <- M2'. auto.
    + rewrite W. unfold head_slot in TB. apply pair_equal_spec in TB as (-> & ->). unfold moved. congruence.
Qed.
Lemma rl_continues : ends_recorded d -> forall a b, continues d a b -> continues d' (pi a) (pi b).
Proof.
  intros (N & H) a b (A & B & HA & HB & T1 & T2).
  destruct (H a A HA) as (S1 & _). apply slot_lt in S1 as (C1 & P1).
  destruct (rl_edge _ _ _ _ _ R a A HA) as (A' & HA' & W & _).
  destruct (rl_edge _ _ _ _ _ R b B HB) as (B' & HB' & _ & V). exists A', B'. split; auto. split; auto.
  rewrite T1, T2, rl_shift_slot in V by auto. unfold head_slot, tail_slot in *.
  apply pair_equal_spec in V as (-> & ->). unfold moved in W. apply pair_equal_spec in W as (-> & W). cbn [snd].
  unfold moved. cbn [snd]. rewrite W. auto.
Qed.
Definition rl_dart (a : dart) : dart := (pi (fst a), snd a).
Lemma rl_is_dart : forall a, is_dart d a -> is_dart d' (rl_dart a).
Proof.
  intros (e, o) (H & K). split; auto. cbn [rl_dart fst snd] in *. rewrite (rl_nedges _ _ _ _ _ R).
  apply (rl_pi _ _ _ _ _ R); auto.
Qed.
Lemma rl_dart_to : forall a c p, dart_to d a (c, p) -> dart_to d' (rl_dart a) (moved sigma rho c p).
Proof.
  intros a c p (E & HE & K). destruct (rl_edge _ _ _ _ _ R _ E HE) as (E' & HE' & K1 & K2).
  exists E'. split; auto. cbn [rl_dart fst snd]. rewrite K1, K2. unfold head_slot, tail_slot in K.
  destruct K as [(K & Q)|(K & Q)]; apply pair_equal_spec in Q as (-> & ->); auto.
Qed.
Lemma rl_dart_from : forall a c p, dart_from d a (c, p) -> dart_from d' (rl_dart a) (moved sigma rho c p).
Proof.
  intros a c p (E & HE & K). destruct (rl_edge _ _ _ _ _ R _ E HE) as (E' & HE' & K1 & K2).
  exists E'. split; auto. cbn [rl_dart fst snd]. rewrite K1, K2. unfold head_slot, tail_slot in K.
  destruct K as [(K & Q)|(K & Q)]; apply pair_equal_spec in Q as (-> & ->); auto.
Qed.
Lemma rl_left_turn : ends_recorded d -> forall a b, left_turn d a b -> left_turn d' (rl_dart a) (rl_dart b).
Proof.
  intros Rec a b (c & p & Hp & H1 & H2).
  assert (Hc : c < ncross d).
  { pose proof (proj1 (dart_to_dto d a (c, p)) H1) as (D & E). pose proof (dto_slot d a Rec D) as S.
    rewrite E in S. apply slot_lt in S. tauto. }
  apply rl_dart_to in H1. apply rl_dart_from in H2. rewrite rl_shift_slot in H2 by auto.
  exists (sigma c), (snd (moved sigma rho c p)). split; [apply mod4_lt|]. split; auto.
Qed.
End R.

Lemma moved_moved : forall p r1 r2, p < 4 -> r1 < 4 -> r2 < 4 ->
  ((p + 4 - r1) mod 4 + 4 - r2) mod 4 = (p + 4 - (r1 + r2) mod 4) mod 4.
Proof.
  intros p r1 r2 H1 H2 H3. 
  do 4 (destruct p as [|p]; [do 4 (destruct r1 as [|r1]; [do 4 (destruct r2 as [|r2]; [reflexivity|]); lia|]); lia|]); lia.
Qed.
Lemma rl_trans : forall d d' d'' s r q s' r' q', ends_recorded d ->
  relabelled d d' s r q -> relabelled d' d'' s' r' q' ->
  relabelled d d'' (fun c => s' (s c)) (fun c => (r c + r' (s c)) mod 4) (fun e => q' (q e)).
Proof.
  intros d d' d'' s r q s' r' q' Rec R1 R2.
  assert (M : forall c p, c < ncross d -> p < 4 ->
    moved s' r' (s c) ((p + 4 - r c) mod 4) = moved (fun c => s' (s c)) (fun c => (r c + r' (s c)) mod 4) c p).
  { intros c p Hc Hp. unfold moved. f_equal. apply moved_moved; auto.
    - apply (rl_rho _ _ _ _ _ R1); auto.
    - apply (rl_rho _ _ _ _ _ R2). rewrite (rl_ncross _ _ _ _ _ R1). apply (rl_sigma _ _ _ _ _ R1); auto. }
  assert (Bij : forall n f g, bij_on n f -> bij_on n g -> bij_on n (fun x => g (f x))).
  { intros n f g (F1 & F2) (G1 & G2). split; auto. }
  split.
  - rewrite (rl_ncross _ _ _ _ _ R2). apply (rl_ncross _ _ _ _ _ R1).
  - rewrite (rl_nedges _ _ _ _ _ R2). apply (rl_nedges _ _ _ _ _ R1).
  - apply Bij; [apply (rl_sigma _ _ _ _ _ R1)|]. rewrite <- (rl_ncross _ _ _ _ _ R1). apply (rl_sigma _ _ _ _ _ R2).
  - intros c _. apply mod4_lt.
  - apply Bij; [apply (rl_pi _ _ _ _ _ R1)|]. rewrite <- (rl_nedges _ _ _ _ _ R1). apply (rl_pi _ _ _ _ _ R2).
  - intros c p e S. pose proof (slot_lt _ _ _ _ S) as (Hc & Hp). rewrite <- (M c p Hc Hp).
    apply (rl_slot _ _ _ _ _ R2 _ _ _ (rl_slot _ _ _ _ _ R1 _ _ _ S)).
  - intros c x S. apply (rl_sign _ _ _ _ _ R2), (rl_sign _ _ _ _ _ R1), S.
  - intros e E HE. destruct (rl_edge _ _ _ _ _ R1 e E HE) as (E1 & HE1 & A1 & A2).
    destruct (rl_edge _ _ _ _ _ R2 _ E1 HE1) as (E2 & HE2 & B1 & B2). exists E2. split; auto.
    destruct Rec as (_ & Rec). destruct (Rec e E HE) as (S1 & S2).
    apply slot_lt in S1 as (C1 & P1). apply slot_lt in S2 as (C2 & P2).
    unfold head_slot in A1 at 1. unfold tail_slot in A2 at 1. unfold moved in A1, A2.
    apply pair_equal_spec in A1 as (U1 & U2). apply pair_equal_spec in A2 as (V1 & V2).
    rewrite B1, B2, U1, U2, V1, V2, !M by auto. auto.
Qed.
