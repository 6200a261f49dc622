(** Property theorems C03 and C04: cyclic, dihedral and orientation iterators; multi-index. *)
From Coq Require Import List ZArith Lia Bool Arith Permutation Factorial.
From Verif Require Import Base Perm PermProofs Iterators IteratorsProofs.
Import ListNotations.

(** C03, cyclic.  After k increments the map sends i to (i+k) mod n; these are bijections,
    the first n are pairwise different, the n-th is the identity again, all pass the check. *)
Theorem cyclic_iterator : forall n, 1 <= n ->
  exists st : nat -> list nat,
    (forall k, calls pd_increment_cyclic k (pd_new_cyclic n) = Ok (st k)) /\
    (forall k, length (st k) = n) /\
    (forall k i, i < n -> nth i (st k) 0 = (i + k) mod n) /\
    (forall k, Permutation (seq 0 n) (st k)) /\
    (forall j k, j < k < n -> st j <> st k) /\
    st n = pd_new_cyclic n /\ pd_ncyclics (pd_new_cyclic n) = n /\
    (forall k, pd_cyclic_ok (st k) = true).
Proof.
  intros n H. exists (rot n).
  split; [intros; apply cyclic_calls; auto|].
  split; [intros; apply rot_length|].
  split; [intros; unfold rot; rewrite nth_map_seq; auto|].
  split; [intros; apply rot_perm; auto|].
  split; [|split; [|split]].
  - intros j k Hjk E. apply (f_equal (fun l => nth 0 l 0)) in E. rewrite !rot_hd in E by auto.
    rewrite !Nat.mod_small in E by lia. lia.
  - rewrite <- rot_mod by auto. rewrite Nat.mod_same by lia. apply rot_0.
  - unfold pd_ncyclics, pd_new_cyclic. apply seq_length.
  - intros k. unfold pd_cyclic_ok. rewrite rot_length, rot_goes_up by auto.
    destruct (perm_range_distinct n (rot n k) (rot_perm n k H)) as [-> ->]. reflexivity.
Qed.

(** The check also accepts maps that are not rotations, so it does not certify membership. *)
Theorem cyclic_ok_incomplete_refuted :
  exists m, pd_cyclic_ok m = true /\ length m = 4 /\
    forall k, calls pd_increment_cyclic k (pd_new_cyclic 4) <> Ok m.
Proof.
  exists [1; 3; 0; 2]. split; [reflexivity|]. split; [reflexivity|].
  intros k E. rewrite cyclic_calls in E by lia.
  assert (E1 : rot 4 k = [1; 3; 0; 2]) by congruence. clear E.
  rewrite <- (rot_mod 4 k) in E1 by lia.
  assert (k mod 4 < 4) by (apply Nat.mod_upper_bound; lia).
  destruct (k mod 4) as [|[|[|[|r]]]]; vm_compute in E1; try discriminate; lia.
Qed.

(** C03, dihedral.  The first 2n states are the n rotations followed by the n reflections
    i |-> -(i+j) mod n, pairwise different as (map, orientation) pairs; state 2n is the
    initial one; all maps are bijections and pass the check. *)
Theorem dihedral_iterator : forall n, 1 <= n ->
  exists st : nat -> dihedral,
    (forall k, calls pd_increment_dihedral k (pd_new_dihedral n) = Ok (st k)) /\
    (forall k, length (dmap (st k)) = n) /\
    (forall k, k < n -> dor (st k) = Pos /\
       forall i, i < n -> nth i (dmap (st k)) 0 = (i + k) mod n) /\
    (forall k, k < n -> dor (st (n + k)) = Neg /\
       forall i, i < n -> (nth i (dmap (st (n + k))) 0 + i + k) mod n = 0) /\
    (forall k, Permutation (seq 0 n) (dmap (st k))) /\
    (forall j k, j < k < 2 * n -> st j <> st k) /\
    st (2 * n) = pd_new_dihedral n /\ pd_ndihedrals (pd_new_dihedral n) = 2 * n /\
    (forall k, pd_dihedral_ok (st k) = true).
Proof.
  intros n H. exists (dstate n).
  assert (PM : forall k, Permutation (seq 0 n) (dmap (dstate n k))).
  { intros k. unfold dstate. pose proof (Nat.mod_upper_bound k (2 * n) ltac:(lia)).
    destruct (k mod (2 * n) <? n) eqn:E; cbn [dmap].
    - apply rot_perm; auto.
    - apply Nat.ltb_ge in E. apply refl_perm; lia. }
  assert (RV : forall k i, k < n -> i < n -> (nth i (refl n k) 0 + i + k) mod n = 0).
  { intros k i Hk Hi. unfold refl. rewrite nth_map_seq by auto.
    rewrite <- Nat.add_assoc. rewrite Nat.add_mod_idemp_l by lia.
    replace (2 * n - k - i + (i + k)) with (2 * n) by lia. apply Nat.mod_mul; lia. }
  split; [intros; apply dihedral_calls; auto|].
  split; [intros k; specialize (PM k); apply Permutation_length in PM; rewrite seq_length in PM; auto|].
  split; [|split; [|split; [exact PM|split; [|split; [|split]]]]].
  - intros k Hk. unfold dstate. rewrite (Nat.mod_small k) by lia. rewrite (proj2 (Nat.ltb_lt k n)) by auto.
    simpl. split; auto. intros i Hi. unfold rot. rewrite nth_map_seq; auto.
  - intros k Hk. unfold dstate. rewrite (Nat.mod_small (n + k)) by lia.
    destruct (n + k <? n) eqn:E; [apply Nat.ltb_lt in E; lia|]. cbn [dor dmap]. split; auto.
    intros i Hi. replace (n + k - n) with k by lia. apply RV; auto.
  - intros j k Hjk E. unfold dstate in E. rewrite !Nat.mod_small in E by lia.
    destruct (j <? n) eqn:Ej, (k <? n) eqn:Ek; try discriminate;
      rewrite ?Nat.ltb_lt, ?Nat.ltb_ge in *; inversion E as [E1].
    + apply (f_equal (fun l => nth 0 l 0)) in E1. rewrite !rot_hd in E1 by auto.
      rewrite !Nat.mod_small in E1 by lia. lia.
    + apply (f_equal (fun l => nth 0 l 0)) in E1. unfold refl in E1.
      rewrite !nth_map_seq in E1 by auto. rewrite !refl_val in E1 by lia.
      repeat match goal with
      | E : context [if ?b then _ else _] |- _ => destruct b eqn:?
      end; rewrite ?Nat.eqb_eq, ?Nat.eqb_neq, ?Nat.leb_le, ?Nat.leb_gt in *; lia.
  - unfold dstate. rewrite Nat.mod_same by lia. rewrite (proj2 (Nat.ltb_lt 0 n)) by lia.
    rewrite rot_0. reflexivity.
  - unfold pd_ndihedrals, pd_new_dihedral; simpl. rewrite seq_length. reflexivity.
  - intros k. unfold pd_dihedral_ok. destruct (perm_range_distinct _ _ (PM k)) as [-> ->].
    unfold dstate. pose proof (Nat.mod_upper_bound k (2 * n) ltac:(lia)).
    destruct (k mod (2 * n) <? n) eqn:E; cbn [dmap dor].
    + rewrite rot_length, rot_goes_up; auto.
    + apply Nat.ltb_ge in E. rewrite refl_length, refl_goes_down; auto; lia.
Qed.

Theorem dihedral_ok_incomplete_refuted :
  exists d, pd_dihedral_ok d = true /\ length (dmap d) = 4 /\
    forall k, calls pd_increment_dihedral k (pd_new_dihedral 4) <> Ok d.
Proof.
  exists (mkD [2; 0; 3; 1] Neg). split; [reflexivity|]. split; [reflexivity|].
  intros k E. rewrite dihedral_calls in E by lia.
  assert (E1 : dstate 4 k = mkD [2; 0; 3; 1] Neg) by congruence. clear E.
  unfold dstate in E1. change (2 * 4) with 8 in E1.
  assert (k mod 8 < 8) by (apply Nat.mod_upper_bound; lia).
  destruct (k mod 8) as [|[|[|[|[|[|[|[|r]]]]]]]]; try (vm_compute in E1; discriminate); lia.
Qed.

Example cyclic_dihedral_example :
  calls pd_increment_cyclic 3 (pd_new_cyclic 5) = Ok [3; 4; 0; 1; 2] /\
  calls pd_increment_dihedral 7 (pd_new_dihedral 5) = Ok (mkD [3; 2; 1; 0; 4] Neg).
Proof. split; reflexivity. Qed.

(** C04.  [objs] are the objects made by ops.new; suppose each of them, under ops.incr, runs
    through its ops.nvals >= 1 states cyclically.  Then every call of pd_increment_multidx
    returns, the counters always stay in range and describe the objects' states, the
    counter vectors increase strictly in lexicographic order (last component fastest)
    during the first (product of nvals) states, all in-range vectors occur, and the
    product-th call restores the initial state. *)
Definition product (l : list nat) : nat := fold_right Nat.mul 1 l.

Theorem multidx_odometer : forall (obj : Type) (incr : obj -> res obj) (nvals : obj -> nat) objs
    (orbit : obj -> nat -> obj),
  (forall o, In o objs -> 1 <= nvals o /\ orbit o 0 = o /\ orbit o (nvals o) = o /\
     forall i, i < nvals o -> incr (orbit o i) = Ok (orbit o (i + 1))) ->
  let N := product (map nvals objs) in
  let box := Forall2 (fun o d => d < nvals o) objs in
  exists st : nat -> list nat,
    (forall k, calls (pd_increment_multidx incr) k (pd_new_multidx nvals objs) =
       Ok (map (fun p => mkCell (orbit (fst p) (snd p)) (snd p) (nvals (fst p))) (combine objs (st k)))) /\
    (forall k, box (st k)) /\
    (forall j k, j < k < N -> lexless (st j) (st k)) /\
    (forall ds, box ds -> exists k, k < N /\ st k = ds) /\
    st N = map (fun _ => 0) objs /\ st 0 = map (fun _ => 0) objs.
Proof.
  intros obj incr nvals objs orbit H N box.
  pose (sp := map (fun o => (orbit o, nvals o)) objs).
  assert (F : Forall (orbit_ok obj incr) sp).
  { apply Forall_forall. intros p Hp. unfold sp in Hp. apply in_map_iff in Hp.
    destruct Hp as (o & <- & Ho). destruct (H o Ho) as (H1 & H2 & H3 & H4).
    split; simpl; auto. intros i Hi. rewrite H4 by auto.
    destruct (Nat.eq_dec (i + 1) (nvals o)) as [E|E].
    - rewrite E, Nat.mod_same by lia. congruence.
    - rewrite Nat.mod_small by lia. reflexivity. }
  assert (MS : map snd sp = map nvals objs) by (unfold sp; rewrite map_map; reflexivity).
  assert (WN : weight (map snd sp) = N).
  { rewrite MS. unfold N. generalize (map nvals objs). induction l; simpl; auto. }
  assert (BX : forall ds, in_box (map snd sp) ds <-> box ds).
  { rewrite MS. unfold box, in_box. clear. induction objs; intros ds; split; intros X; inversion X; subst;
      constructor; auto; apply IHobjs; auto. }
  assert (WP : 0 < N).
  { unfold N. clear - H. induction objs as [|o l IH]; simpl; [lia|].
    destruct (H o (or_introl eq_refl)) as (H1 & _). assert (0 < product (map nvals l)); [|nia].
    apply IH. intros; apply H; simpl; auto. }
  assert (ST : forall v, exists ds, in_box (map snd sp) ds /\ value (map snd sp) ds = v mod N).
  { intros v. apply value_surj. rewrite WN. apply Nat.mod_upper_bound. lia. }
  (* the digit vector of value v, computed: *)
  assert (exists f : nat -> list nat, forall v, in_box (map snd sp) (f v) /\ value (map snd sp) (f v) = v mod N) as [f Hf].
  { rewrite <- WN in WP |- *. clear - WP. induction (map snd sp) as [|n ns IH].
    - exists (fun _ => []). intros v. split; [constructor|]. reflexivity.
    - simpl in WP. destruct IH as [f Hf]; [nia|].
      assert (W0 : weight ns <> 0) by nia. assert (N0 : n <> 0) by nia.
      exists (fun v => ((v / weight ns) mod n) :: f v). intros v. destruct (Hf v) as [A B]. split.
      + constructor; auto. apply Nat.mod_upper_bound; auto.
      + cbn [value weight]. rewrite B. rewrite (Nat.mul_comm n). rewrite (Nat.mod_mul_r v (weight ns) n) by auto. lia. }
  exists f.
  assert (RUN : forall k, calls (pd_increment_multidx incr) k (pd_new_multidx nvals objs) =
       Ok (map (fun p => mkCell (orbit (fst p) (snd p)) (snd p) (nvals (fst p))) (combine objs (f k)))).
  { intros k. destruct (calls_state obj incr sp k F) as (ds & E & B & V).
    assert (ds = f k). { apply (value_inj (map snd sp)); auto. apply Hf. rewrite V, WN. symmetry. apply Hf. }
    subst ds.
    assert (I : mkstate obj sp (map (fun _ => 0) sp) = pd_new_multidx nvals objs).
    { unfold sp, mkstate, pd_new_multidx. rewrite map_map. clear - H. induction objs as [|o l IH]; simpl; auto.
      f_equal; [f_equal; apply H; simpl; auto|]. apply IH. intros; apply H; simpl; auto. }
    rewrite <- I. etransitivity; [exact E|]. f_equal. unfold mkstate, sp. clear.
    generalize (f k). induction objs as [|o l IH]; intros ds; simpl; auto. destruct ds; simpl; auto.
    f_equal. apply IH. }
  split; [exact RUN|]. split; [intros; apply BX; apply Hf|].
  split; [|split; [|split]].
  - intros j k Hjk. apply (value_lex (map snd sp)); try apply Hf.
    destruct (Hf j) as [_ ->]. destruct (Hf k) as [_ ->]. rewrite !Nat.mod_small by lia. lia.
  - intros ds Hds. apply BX in Hds. exists (value (map snd sp) ds).
    pose proof (value_bound _ _ Hds) as VB. rewrite WN in VB. split; auto.
    apply (value_inj (map snd sp)); auto; try apply Hf.
    destruct (Hf (value (map snd sp) ds)) as [_ ->]. apply Nat.mod_small; auto.
  - apply (value_inj (map snd sp)); try apply Hf.
    + apply BX. unfold box. clear - H. induction objs; simpl; constructor; auto. apply H; simpl; auto.
      apply IHobjs. intros; apply H; simpl; auto.
    + destruct (Hf N) as [_ ->]. rewrite Nat.mod_same by lia. rewrite MS.
      pose proof (value_zero (map nvals objs)) as V0. rewrite map_map in V0. auto.
  - apply (value_inj (map snd sp)); try apply Hf.
    + apply BX. unfold box. clear - H. induction objs; simpl; constructor; auto. apply H; simpl; auto.
      apply IHobjs. intros; apply H; simpl; auto.
    + destruct (Hf 0) as [_ ->]. rewrite Nat.mod_0_l by lia. rewrite MS.
      pose proof (value_zero (map nvals objs)) as V0. rewrite map_map in V0. auto.
Qed.

(** The hypothesis holds for the dihedral groups of any sizes, the objects the isomorphism
    search feeds to the multi-index. *)
Theorem multidx_of_dihedrals : forall sizes, Forall (fun n => 1 <= n) sizes ->
  exists orbit : dihedral -> nat -> dihedral,
    forall o, In o (map pd_new_dihedral sizes) ->
      1 <= pd_ndihedrals o /\ orbit o 0 = o /\ orbit o (pd_ndihedrals o) = o /\
      forall i, i < pd_ndihedrals o -> pd_increment_dihedral (orbit o i) = Ok (orbit o (i + 1)).
Proof.
  intros sizes F. exists (fun o i => dstate (length (dmap o)) i).
  intros o Ho. apply in_map_iff in Ho. destruct Ho as (n & <- & Hn). rewrite Forall_forall in F.
  specialize (F n Hn). unfold pd_ndihedrals. simpl dmap. rewrite seq_length.
  split; [lia|]. split; [|split].
  - unfold dstate. rewrite Nat.mod_0_l by lia. rewrite (proj2 (Nat.ltb_lt 0 n)) by lia. rewrite rot_0. reflexivity.
  - unfold dstate. rewrite Nat.mod_same by lia. rewrite (proj2 (Nat.ltb_lt 0 n)) by lia. rewrite rot_0. reflexivity.
  - intros i Hi. rewrite Nat.add_1_r. apply dihedral_step; auto.
Qed.

(** ... and for permutation groups of at most 12 elements; ops.nvals is the 32-bit pd_nperms. *)
Theorem multidx_of_perms : forall sizes, Forall (fun n => 1 <= n <= 12) sizes ->
  exists orbit : perm -> nat -> perm,
    let nvals o := Z.to_nat (pd_nperms o) in
    forall o, In o (map pd_new_perm sizes) ->
      1 <= nvals o /\ orbit o 0 = o /\ orbit o (nvals o) = o /\
      forall i, i < nvals o -> pd_increment_perm (orbit o i) = Ok (orbit o (i + 1)).
Proof.
  intros sizes F.
  exists (fun o k => mkPerm (nth (k mod fact (pn o)) (all_perms (pn o)) []) (pidx (pn o) k)).
  cbv zeta. intros o Ho. apply in_map_iff in Ho. destruct Ho as (n & <- & Hn). rewrite Forall_forall in F.
  specialize (F n Hn).
  assert (PN : pn (pd_new_perm n) = n) by (unfold pn; simpl; apply seq_length).
  pose proof (fact_neq_0 n) as F0.
  assert (NV : Z.to_nat (pd_nperms (pd_new_perm n)) = fact n).
  { rewrite nperms_spec, PN by lia. rewrite Z.mod_small; [apply Nat2Z.id|]. split; [lia|].
    pose proof (fact_le n 12 ltac:(lia)) as FF. apply inj_le in FF.
    assert (E : Z.of_nat (fact 12) = 479001600%Z).
    { change (fact 12) with (12 * (11 * (10 * (9 * (8 * (7 * (6 * fact 5))))))).
      rewrite !Nat2Z.inj_mul. reflexivity. }
    rewrite E in FF. change (2 ^ 32)%Z with 4294967296%Z. lia. }
  rewrite NV, PN. split; [lia|]. split; [|split].
  - rewrite Nat.mod_0_l by auto. rewrite all_perms_0. unfold pd_new_perm, pidx.
    destruct (n <=? 6); auto. rewrite Nat.mod_0_l; auto.
  - rewrite Nat.mod_same by auto. rewrite all_perms_0. unfold pd_new_perm, pidx.
    destruct (n <=? 6); auto. rewrite Nat.mod_same; auto.
  - intros i Hi. pose proof (run_perm_nth n (S i) ltac:(lia)) as R. cbn [run_perm] in R.
    rewrite run_perm_nth in R by lia. cbn [bind] in R. rewrite Nat.add_1_r. exact R.
Qed.

(** C04, the count: pd_multidx_nvals is the product modulo 2^32. *)
Theorem multidx_nvals_product : forall (obj : Type) (nvals : obj -> nat) objs,
  pd_multidx_nvals (pd_new_multidx nvals objs) = (Z.of_nat (product (map nvals objs)) mod 2 ^ 32)%Z.
Proof.
  intros obj nvals objs. unfold pd_multidx_nvals, pd_new_multidx.
  assert (G : forall l acc, fold_left (fun acc c => (acc * Z.of_nat (cn c)) mod 2 ^ 32)%Z
      (map (fun o => mkCell o 0 (nvals o)) l) (acc mod 2 ^ 32)%Z =
      ((acc * Z.of_nat (product (map nvals l))) mod 2 ^ 32)%Z).
  { induction l as [|o l IH]; intros acc; cbn [map fold_left product fold_right cn].
    - rewrite Z.mul_1_r. reflexivity.
    - rewrite Z.mul_mod_idemp_l by lia. rewrite IH. f_equal.
      change (fold_right Nat.mul 1 (map nvals l)) with (product (map nvals l)). rewrite Nat2Z.inj_mul. ring. }
  specialize (G objs 1%Z). rewrite Z.mul_1_l in G. exact G.
Qed.

Example multidx_example :
  calls (pd_increment_multidx pd_increment_orientation) 3
    (pd_new_multidx (fun _ => pd_norientations) [Pos; Pos; Pos])
  = Ok [mkCell Pos 0 2; mkCell Neg 1 2; mkCell Neg 1 2] /\
  Forall (fun n => 1 <= n) [3; 1; 4].
Proof. split; [reflexivity|repeat constructor]. Qed.

Print Assumptions cyclic_iterator.
Print Assumptions cyclic_ok_incomplete_refuted.
Print Assumptions dihedral_iterator.
Print Assumptions dihedral_ok_incomplete_refuted.
Print Assumptions multidx_odometer.
Print Assumptions multidx_of_dihedrals.
Print Assumptions multidx_of_perms.
Print Assumptions multidx_nvals_product.
