(** Properties C24 (group operations on isomorphisms) and C27 (cyclic comparison of buffers). *)
From Coq Require Import List ZArith Lia Bool Arith Permutation.
From Verif Require Import Base Iterators PermData Perm PermProofs Pd PdExamples PdHash HashSpec HashProofs OverUnder PdIso IsoSpec IsoOpsProofs.
Import ListNotations.
Open Scope nat_scope.

(** * C27 *)

(** two buffers of the same length compare equal exactly when one is a rotation of the other
    (reversed, for the negative orientation) and they are not empty *)
Theorem cyclic_comparison : forall a b o, length a = length b -> sign_like o ->
  (pdint_buffers_cycliceq a b (length a) o = true <->
   a <> [] /\ rotation (match o with Pos => b | _ => rev b end) a).
Proof.
  intros a b o L [->| ->]; unfold pdint_buffers_cycliceq.
  - replace (map _ _) with b by (rewrite L; symmetry; apply seq_copy). apply cycliceq_copy; auto.
  - replace (map _ _) with (rev b) by (rewrite L; symmetry; apply rev_copy). apply cycliceq_copy. rewrite rev_length. auto.
Qed.
Example cyclic_comparison_example :
  pdint_buffers_cycliceq [1;2;3;1;5] [1;5;1;2;3] 5 Pos = true /\
  pdint_buffers_cycliceq [1;2;3;1;5] [5;1;3;2;1] 5 Neg = true /\
  pdint_buffers_cycliceq [1;2;3;1;5] [5;1;3;2;1] 5 Pos = false.
Proof. repeat split. Qed.

(** for positions on a cycle of n edges the order test answers "is b the next one": the successor
    in positive direction, the predecessor in negative direction *)
Theorem cyclic_order : forall a b n o, a < n -> b < n -> (Z.of_nat n <= 2 ^ 32)%Z -> sign_like o ->
  exists r, pdint_in_cyclic_order a b n o = Ok r /\
    (r = true <-> match o with Pos => b = (a + 1) mod n | _ => a = (b + 1) mod n end).
Proof.
  assert (M : forall a b n, a < n -> b < n -> (b = (a + 1) mod n <-> b = a + 1 \/ (b = 0 /\ a = n - 1))).
  { intros a b n Ha Hb. destruct (Nat.eq_dec a (n - 1)) as [->|K].
    - replace (n - 1 + 1) with n by lia. rewrite Nat.mod_same by lia. lia.
    - rewrite Nat.mod_small by lia. lia. }
  intros a b n o Ha Hb Hn [->| ->]; unfold pdint_in_cyclic_order; cbn [pd_or_ok];
    eexists; (split; [reflexivity|]); rewrite M by auto;
    rewrite ?orb_true_iff, ?andb_true_iff, ?orb_true_iff, ?andb_true_iff, ?negb_true_iff, ?Nat.eqb_eq, ?Nat.eqb_neq, ?Z.eqb_eq; lia.
Qed.
Example cyclic_order_example : pdint_in_cyclic_order 4 0 5 Pos = Ok true /\ pdint_in_cyclic_order 0 4 5 Neg = Ok true /\
  pdint_in_cyclic_order 0 4 5 Pos = Ok false.
Proof. repeat split. Qed.

(** * C24: edge maps *)

(** the composition of two edge maps sends every edge through both, and its orientations are products *)
Theorem edgemap_composition : forall n A B, good_edgemap n A -> good_edgemap n B ->
  exists C, pd_compose_edgemaps A B = Ok C /\ good_edgemap n C /\ forall e, e < n ->
    nth e (pmap (em_perm C)) 0 = nth (nth e (pmap (em_perm B)) 0) (pmap (em_perm A)) 0 /\
    nth e (em_or C) Pos = times (nth e (em_or B) Pos) (nth (nth e (pmap (em_perm B)) 0) (em_or A) Pos).
Proof.
  intros n A B GA GB. destruct (compose_edgemaps_ok n A B GA GB) as (H1 & H2).
  eexists. split; [exact H1|]. split; [exact H2|]. intros e He. rewrite emul_perm, emul_or by auto. auto.
Qed.
Theorem edgemap_associative : forall n A B C AB BC, good_edgemap n A -> good_edgemap n B -> good_edgemap n C ->
  pd_compose_edgemaps A B = Ok AB -> pd_compose_edgemaps B C = Ok BC ->
  exists ABC, pd_compose_edgemaps AB C = Ok ABC /\ pd_compose_edgemaps A BC = Ok ABC.
Proof.
  intros n A B C AB BC GA GB GC H K.
  destruct (compose_edgemaps_ok n A B GA GB) as (H1 & H2). rewrite H1 in H. injection H as <-.
  destruct (compose_edgemaps_ok n B C GB GC) as (K1 & K2). rewrite K1 in K. injection K as <-.
  exists (emul n (emul n A B) C). destruct (compose_edgemaps_ok n _ _ H2 GC) as (X & _).
  destruct (compose_edgemaps_ok n _ _ GA K2) as (Y & _). rewrite X, Y, emul_assoc by auto. auto.
Qed.

(** crossing maps and face maps *)
Theorem ormap_composition : forall n A B, 1 <= n -> good_ormap n A -> good_ormap n B ->
  exists C, pd_compose_ormaps A B = Ok C /\ good_ormap n C /\ om_or C = times (om_or A) (om_or B) /\
    forall x, x < n -> nth x (pmap (om_perm C)) 0 = nth (nth x (pmap (om_perm B)) 0) (pmap (om_perm A)) 0.
Proof.
  intros n A B L GA GB. destruct (compose_ormaps_ok n A B L GA GB) as (C & H1 & H2 & _ & _ & H5 & H6). exists C. auto.
Qed.

(** * C24: isomorphisms *)
Section Isos.
Context (nc ne nx nf : nat) (Lc : 1 <= nc) (Le : 1 <= ne) (Lx : 1 <= nx) (Lf : 1 <= nf).

(** an isomorphism moves the things of a diagram to things *)
Theorem isos_move_things : forall A t, good_iso nc ne nx nf A -> thing_of nc ne nx nf t -> thing_of nc ne nx nf (act A t).
Proof. intros. apply act_things; auto. Qed.

(** the composition does what B does, then what A does: to components, directed edges, crossings,
    faces, and both global orientations *)
Theorem iso_composition : forall A B, good_iso nc ne nx nf A -> good_iso nc ne nx nf B ->
  exists C, pd_compose_isos A B = Ok C /\ good_iso nc ne nx nf C /\
    forall t, thing_of nc ne nx nf t -> act C t = act A (act B t).
Proof. intros. apply compose_isos_ok; auto. Qed.
(** the same in place *)
Theorem iso_composition_in_place : forall A B, good_iso nc ne nx nf A -> good_iso nc ne nx nf B ->
  exists C, pd_stareq_iso A B = Ok C /\ good_iso nc ne nx nf C /\
    forall t, thing_of nc ne nx nf t -> act C t = act A (act B t).
Proof. intros. apply stareq_iso_ok; auto. Qed.
(** both ways of composing three give the same isomorphism, to the last field *)
Theorem iso_associative : forall A B C AB BC, good_iso nc ne nx nf A -> good_iso nc ne nx nf B -> good_iso nc ne nx nf C ->
  pd_compose_isos A B = Ok AB -> pd_compose_isos B C = Ok BC ->
  exists ABC, pd_compose_isos AB C = Ok ABC /\ pd_compose_isos A BC = Ok ABC.
Proof.
  intros A B C AB BC GA GB GC H K.
  assert (E := compose_isos_assoc nc ne nx nf Lc Lx Lf A B C AB BC GA GB GC H K).
  destruct (compose_isos_ok nc ne nx nf Lc Lx Lf A B GA GB) as (AB' & H1 & H2 & _). rewrite H1 in H. injection H as ->.
  destruct (compose_isos_ok nc ne nx nf Lc Lx Lf AB C H2 GC) as (R & R1 & _). exists R. rewrite <- E. auto.
Qed.
(** there is an inverse, and composing with it gives the identity *)
Theorem iso_inverse : forall A, good_iso nc ne nx nf A -> exists B AB BA,
  good_iso nc ne nx nf B /\ pd_compose_isos A B = Ok AB /\ pd_compose_isos B A = Ok BA /\
  pd_iso_is_e AB = Ok true /\ pd_iso_is_e BA = Ok true.
Proof.
  intros A GA. destruct (inverse_exists nc ne nx nf Lc Lx Lf Le A GA) as (B & GB & I1 & I2).
  destruct (compose_isos_ok nc ne nx nf Lc Lx Lf A B GA GB) as (AB & H1 & H2 & H3).
  destruct (compose_isos_ok nc ne nx nf Lc Lx Lf B A GB GA) as (BA & K1 & K2 & K3).
  exists B, AB, BA. split; auto. split; auto. split; auto.
  destruct (iso_is_e_ok nc ne nx nf Lc Lx Lf Le AB H2) as (b & -> & Hb).
  destruct (iso_is_e_ok nc ne nx nf Lc Lx Lf Le BA K2) as (b' & -> & Hb').
  split; f_equal; [apply Hb|apply Hb']; intros t Ht.
  - rewrite H3 by auto. auto.
  - rewrite K3 by auto. auto.
Qed.
(** pd_iso_is_e recognizes the identity *)
Theorem iso_identity : forall A, good_iso nc ne nx nf A -> exists b, pd_iso_is_e A = Ok b /\
  (b = true <-> forall t, thing_of nc ne nx nf t -> act A t = t).
Proof. intros. apply iso_is_e_ok; auto. Qed.
(** pd_iso_period returns k exactly if k is the order of A and below 10000 *)
Theorem iso_period : forall A k, good_iso nc ne nx nf A ->
  (pd_iso_period A = Ok k <->
   1 <= k < Z.to_nat 10000 /\ (forall t, thing_of nc ne nx nf t -> iter k (act A) t = t) /\
   forall j, 1 <= j < k -> ~ forall t, thing_of nc ne nx nf t -> iter j (act A) t = t).
Proof.
  intros A k GA. unfold pd_iso_period.
  pose proof (iso_period_spec nc ne nx nf Lc Lx Lf Le A GA (Z.to_nat 9998) A 1 GA (fun t H => eq_refl)) as S.
  assert (B2 : Z.to_nat 10000 = Datatypes.S (1 + Z.to_nat 9998)) by lia.
  destruct (iso_period_loop A (Z.to_nat 9998) A 1) as [r| | |]; try contradiction.
  - destruct S as (S1 & S2 & S3). split.
    + intros E; inversion E; subst. split; [lia|]. split; auto.
    + intros (K1 & K2 & K3). f_equal. destruct (lt_eq_lt_dec r k) as [[H|H]|H]; auto; exfalso.
      * apply (K3 r); auto; lia.
      * apply (S3 k); auto; lia.
  - split; [discriminate|]. intros (K1 & K2 & K3). exfalso. apply (S k); auto. lia.
Qed.
End Isos.

(** two symmetries of the trefoil diagram, as pd_build_isos finds them: a rotation and a reversal *)
Definition turn3 : iso :=
  mkIso (mkPerm [0] 0) (mkEM (mkPerm [2;3;4;5;0;1] 304) [Pos;Pos;Pos;Pos;Pos;Pos])
    (Some (mkOM (mkPerm [2;0;1] 4) Pos)) (mkOM (mkPerm [0;1;4;2;3] 4) Pos).
Definition back3 : iso :=
  mkIso (mkPerm [0] 0) (mkEM (mkPerm [1;0;5;4;3;2] 143) [Neg;Neg;Neg;Neg;Neg;Neg])
    (Some (mkOM (mkPerm [2;1;0] 5) Pos)) (mkOM (mkPerm [1;0;3;2;4] 26) Pos).
Local Ltac permutes := apply is_perm_intro; [repeat constructor; simpl; intuition discriminate|repeat constructor; simpl; lia].
Example isos_example : good_iso 1 6 3 5 turn3 /\ good_iso 1 6 3 5 back3 /\
  pd_iso_period turn3 = Ok 3 /\ pd_iso_period back3 = Ok 2 /\
  act turn3 (TDart 4 Pos) = TDart 0 Pos /\ act back3 (TDart 4 Pos) = TDart 3 Neg.
Proof.
  split; [|split; [|split; [|split; [|split]]]]; try reflexivity.
  - split; cbn; try reflexivity; [permutes| |eexists; split; [reflexivity|]|].
    + split; [permutes|]. repeat split; repeat constructor.
    + split; [permutes|]. repeat split; left; reflexivity.
    + split; [permutes|]. repeat split; left; reflexivity.
  - split; cbn; try reflexivity; [permutes| |eexists; split; [reflexivity|]|].
    + split; [permutes|]. repeat split. repeat (apply Forall_cons; [right; reflexivity|]). apply Forall_nil.
    + split; [permutes|]. repeat split; left; reflexivity.
    + split; [permutes|]. repeat split; left; reflexivity.
Qed.

(** Not so: that composing valid edge maps gives a valid edge map.  The table index of the composite is
    not recomputed, so with at most six edges the composite of valid maps fails the library's own check. *)
Theorem composed_edgemap_valid_refuted : exists A B C,
  good_edgemap 6 A /\ good_edgemap 6 B /\ pd_edgemap_ok A = Ok true /\ pd_edgemap_ok B = Ok true /\
  pd_compose_edgemaps A B = Ok C /\ pd_edgemap_ok C = Ok false.
Proof.
  exists (i_edge turn3), (i_edge back3). eexists.
  destruct isos_example as ([_ _ G _ _] & [_ _ G' _ _] & _).
  split; [exact G|]. split; [exact G'|]. split; [vm_compute; reflexivity|]. split; [vm_compute; reflexivity|].
  split; [cbv; reflexivity|]. vm_compute. reflexivity.
Qed.

(** Not so: that isomorphisms of diagrams without crossings can be composed or tested.  They have
    no crossing map, and the functions read through the null pointer. *)
Theorem crossingless_isos_refuted : exists d A B, pd_build_unknot0 = Ok d /\ pd_build_isos d d = Ok [A; B] /\
  pd_compose_isos A B = UB /\ pd_stareq_iso A B = UB /\ pd_iso_is_e A = UB /\ pd_iso_period A = UB /\
  pd_iso_is_e B = UB /\ pd_iso_period B = UB.
Proof.
  do 3 eexists. split; [vm_compute; reflexivity|]. split; [vm_compute; reflexivity|].
  repeat split.
Qed.

Print Assumptions cyclic_comparison.
Print Assumptions cyclic_order.
Print Assumptions edgemap_composition.
Print Assumptions edgemap_associative.
Print Assumptions ormap_composition.
Print Assumptions isos_move_things.
Print Assumptions iso_composition.
Print Assumptions iso_composition_in_place.
Print Assumptions iso_associative.
Print Assumptions iso_inverse.
Print Assumptions iso_identity.
Print Assumptions iso_period.
Print Assumptions composed_edgemap_valid_refuted.
Print Assumptions crossingless_isos_refuted.
