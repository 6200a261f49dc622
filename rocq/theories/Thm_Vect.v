(** Property theorems C41, C42: constraints in VECT files. *)
From Coq Require Import List ZArith Lia Bool.
From Verif Require Import Base PlcConstraints PlcConstraintsProofs PlcConstraintsHist PlcVect PlcVectProofs.
Import ListNotations.
Open Scope Z_scope.

(** C41.  For every curve with a well-formed constraint list (whatever the tolerance
    comparison [veq] and the rounding [g] of printed coordinates): plc_write prints headers
    numbered 1, 2, ..., one per constraint, gives every vertex a number slot, and the number
    beside a vertex is 0 (nothing printed) when it is unconstrained and otherwise the number
    of a header carrying the kind and the printed coordinates of that vertex's constraint. *)
Theorem write_numbers_identify : forall veq g L,
  list_ok L -> Forall (fun n => 0 <= n) (nvs L) ->
  exists f, plc_write_constraints veq g L = Ok f /\
    map fst (headers f) = map Z.of_nat (seq 1 (length (csts L))) /\
    map (fun r => Z.of_nat (length r)) (vertnums f) = nvs L /\
    forall cp vt n, nth (Z.to_nat vt) (nth (Z.to_nat cp) (vertnums f) []) 0 = n ->
      0 <= cp -> 0 <= vt ->
      match constraint_at L cp vt with
      | None => n = 0
      | Some (k, v) => 1 <= n /\ nth_error (headers f) (Z.to_nat (n - 1)) = Some (n, (k, printed g k v))
      end.
Proof.
  intros veq g L LO NN. apply wf_list_ok in LO.
  destruct (plc_write_ok veq g L LO NN) as (f & A1 & A2 & A3 & A4).
  exists f. split; auto. split; [|split; auto].
  - rewrite A2. rewrite <- (map_length (printed_cell g) (csts L)).
    generalize (map (printed_cell g) (csts L)). change 1 with (Z.of_nat 1).
    generalize 1%nat. intros n l. revert n. induction l; intros n; simpl; auto.
    f_equal. replace (Z.of_nat n + 1) with (Z.of_nat (S n)) by lia. apply IHl.
  - intros cp vt n En Hc Hv. specialize (A4 cp vt). unfold num_at in A4.
    rewrite (proj2 (Z.leb_le 0 cp)), (proj2 (Z.leb_le 0 vt)) in A4 by lia. simpl in A4.
    rewrite En in A4. rewrite look_at.
    pose proof (look_num_spec (csts L) 1 cp vt ltac:(lia)) as S.
    destruct (look (csts L) cp vt) as [[k v]|]; [|congruence].
    destruct S as (c & q & B1 & B2 & B3 & B4). split; [lia|].
    rewrite A4, B1, A2. replace (Z.to_nat (1 + Z.of_nat q - 1)) with q by lia.
    inversion B4; subst.
    assert (X : forall l m r e, nth_error l r = Some e ->
      nth_error (number_from m l) r = Some (m + Z.of_nat r, e)).
    { clear. induction l; intros m r e H; destruct r; simpl in *; try discriminate.
      - inversion H; subst. rewrite Z.add_0_r. reflexivity.
      - rewrite IHl with (e := e); auto. do 2 f_equal. lia. }
    apply X. rewrite (map_nth_error _ _ _ B2). reflexivity.
Qed.

(** C41, round trip: with at most 29 constraints, reading the file back restores the kind
    and printed coordinates of the constraint of every vertex, and nothing else. *)
Theorem vect_constraints_round_trip : forall veq g L,
  list_ok L -> Forall (fun n => 0 <= n) (nvs L) -> (length (csts L) <= 29)%nat ->
  exists f L', plc_write_constraints veq g L = Ok f /\ plc_read_constraints f = Ok L' /\
    nvs L' = nvs L /\ list_ok L' /\
    forall cp vt, constraint_at L' cp vt =
      match constraint_at L cp vt with
      | None => None
      | Some (k, v) => Some (k, printed g k v)
      end.
Proof.
  intros veq g L LO NN LE. apply wf_list_ok in LO.
  destruct (plc_write_ok veq g L LO NN) as (f & A1 & A2 & A3 & A4).
  exists f. unfold plc_read_constraints.
  assert (LEN : zlen (map (printed_cell g) (csts L)) <= 29) by (unfold zlen; rewrite map_length; lia).
  destruct (read_headers_ok (map (printed_cell g) (csts L)) table0 0 _ ltac:(lia) ltac:(lia) tinv0)
    as (t & B1 & B2 & B3).
  change (0 + 1) with 1 in B1. rewrite A2, B1. cbn [bind].
  set (es := map (printed_cell g) (csts L)) in *.
  assert (TD : forall n e, 1 <= n -> nth_error es (Z.to_nat (n - 1)) = Some e -> tdef t n = Some e).
  { intros n e Hn He. assert (Z.to_nat (n - 1) < length es)%nat by (apply nth_error_Some; congruence).
    unfold tdef, tget. rewrite (proj2 (Z.leb_le 0 n)) by lia. fold (zlen t). unfold zlen in H, LEN.
    assert (n < zlen t).
    { rewrite B2. destruct (0 + zlen es <? 2) eqn:E; caseb; unfold zlen in *; lia. }
    rewrite (proj2 (Z.ltb_lt n (zlen t))) by lia. cbn [andb].
    rewrite B3 by (unfold zlen in *; lia).
    rewrite (proj2 (Z.ltb_lt 0 n)), (proj2 (Z.leb_le n (0 + zlen es))) by (unfold zlen in *; lia). cbn [andb].
    replace (n - 0 - 1) with (n - 1) by lia. rewrite He. reflexivity. }
  assert (LN : forall cp vt, match look (csts L) cp vt with
     | None => num_at (vertnums f) cp vt = 0
     | Some s => exists c q, num_at (vertnums f) cp vt = 1 + Z.of_nat q /\ nth_error (csts L) q = Some c /\
           covers c cp vt = true /\ setting c = s /\
           tdef t (num_at (vertnums f) cp vt) = Some (printed_cell g c) end).
  { intros cp vt. pose proof (look_num_spec (csts L) 1 cp vt ltac:(lia)) as S. rewrite A4.
    destruct (look (csts L) cp vt); auto.
    destruct S as (c & q & C1 & C2 & C3 & C4). exists c, q. rewrite C1. repeat (split; auto).
    apply TD; [lia|]. replace (Z.to_nat (1 + Z.of_nat q - 1)) with q by lia.
    unfold es. apply map_nth_error; auto. }
  assert (NA : forall i row j n, nth_error (vertnums f) i = Some row -> nth_error row j = Some n ->
     num_at (vertnums f) (Z.of_nat i) (Z.of_nat j) = n).
  { intros i row j n Hi Hj. unfold num_at.
    rewrite !(proj2 (Z.leb_le 0 _)) by lia. cbn [andb]. rewrite !Nat2Z.id.
    rewrite (nth_error_nth _ _ [] Hi). apply nth_error_nth; auto. }
  destruct (read_comps_ok t (vertnums f) (vertnums f) [] (mkCurve (map (fun r => Z.of_nat (length r)) (vertnums f)) []))
    as (L' & R1 & R2 & R3 & R4); auto.
  - apply Forall_forall. intros row Hrow. apply In_nth_error in Hrow. destruct Hrow as [i Hi]. split.
    + intros n Hn N0. apply In_nth_error in Hn. destruct Hn as [j Hj].
      pose proof (NA i row j n Hi Hj) as NAij. specialize (LN (Z.of_nat i) (Z.of_nat j)).
      rewrite NAij in LN. destruct (look (csts L) (Z.of_nat i) (Z.of_nat j)); [|congruence].
      destruct LN as (c & q & C1 & C2 & C3 & C4 & C5). exists (ckind c), (printed g (ckind c) (cvect c)).
      split; auto. destruct LO as [_ LO]. rewrite Forall_forall in LO.
      destruct (LO c (nth_error_In _ _ C2)) as (_&_&_&_&K&_). exact K.
    + intros j n v H1 H2 N0 HF.
      pose proof (NA i row j n Hi H1) as N1. pose proof (NA i row (S j) n Hi H2) as N2.
      pose proof (LN (Z.of_nat i) (Z.of_nat j)) as L1. pose proof (LN (Z.of_nat i) (Z.of_nat (S j))) as L2.
      rewrite N1 in L1. rewrite N2 in L2.
      destruct (look (csts L) (Z.of_nat i) (Z.of_nat j)); [|congruence].
      destruct (look (csts L) (Z.of_nat i) (Z.of_nat (S j))); [|congruence].
      destruct L1 as (c & q & C1 & C2 & C3 & C4 & C5). destruct L2 as (c' & q' & D1 & D2 & D3 & D4 & D5).
      assert (q = q') by lia. subst q'. assert (c' = c) by congruence. subst c'.
      assert (K : ckind c = Fixed) by (unfold printed_cell in C5; congruence).
      destruct LO as [_ LO]. rewrite Forall_forall in LO.
      destruct (LO c (nth_error_In _ _ C2)) as (_&_&_&_&_&K6). specialize (K6 K).
      apply covers_true in C3. apply covers_true in D3. unfold cend in *. lia.
  - split; simpl; auto.
  - simpl. constructor.
  - intros cp vt. unfold zlen; simpl. destruct (cp <? 0) eqn:E; auto. caseb.
    unfold num_at. destruct (0 <=? cp) eqn:E2; caseb; [lia|]. reflexivity.
  - exists L'. split; auto. split; [exact R1|]. cbn [nvs] in R2, R3.
    assert (NV : nvs L' = nvs L) by (rewrite R2, <- A3; reflexivity).
    split; auto. split.
    + apply wf_list_ok. rewrite R2. exact R3.
    + intros cp vt. rewrite R4. rewrite look_at. specialize (LN cp vt).
      destruct (look (csts L) cp vt) as [[k v]|].
      * destruct LN as (c & q & C1 & C2 & C3 & C4 & C5). unfold hmap.
        rewrite (proj2 (Z.eqb_neq _ 0)) by lia. rewrite C5. unfold setting in C4. inversion C4; subst. reflexivity.
      * rewrite LN. reflexivity.
Qed.

Example round_trip_example :
  let L := mkCurve [6; 5] [mkCst Plane (V3 0 0 1, V3 5 0 0) 0 0 2; mkCst Fixed (V3 1 1 1, V3 0 0 0) 0 2 1;
     mkCst Fixed (V3 1 1 1, V3 0 0 0) 0 3 1; mkCst Plane (V3 0 0 1, V3 5 0 0) 1 1 3] in
  list_ok L /\ Forall (fun n => 0 <= n) (nvs L) /\ (length (csts L) <= 29)%nat /\
  bind (plc_write_constraints vects_eqb (fun x => x) L) (fun f => Ok (vertnums f)) =
    Ok [[1; 1; 2; 3; 0; 0]; [0; 4; 4; 4; 0]].
Proof.
  simpl. split; [|split; [repeat constructor; lia|split; [lia|reflexivity]]].
  apply wf_list_ok. split; simpl.
  - repeat constructor; unfold before, cend; simpl; lia.
  - repeat constructor; simpl; unfold cend; simpl; try lia; discriminate.
Qed.

(** C42.  Every file plc_write produces from a curve with 30 or more constraints makes
    plc_read store a constraint outside its table. *)
Theorem read_table_overflow : forall veq g L,
  list_ok L -> Forall (fun n => 0 <= n) (nvs L) -> (30 <= length (csts L))%nat ->
  exists f, plc_write_constraints veq g L = Ok f /\ plc_read_constraints f = UB.
Proof.
  intros veq g L LO NN LE. apply wf_list_ok in LO.
  destruct (plc_write_ok veq g L LO NN) as (f & A1 & A2 & A3 & A4).
  exists f. split; auto. unfold plc_read_constraints. rewrite A2, read_headers_over; auto.
  unfold zlen. rewrite map_length. lia.
Qed.

(** ... and such curves are reachable: thirty legal calls to plc_set_fixed. *)
Theorem read_table_overflow_refuted : exists nv h L f,
  (forall c, In c h -> legal nv c) /\ run (fun _ _ => false) (mkCurve nv []) h = Ok L /\
  plc_write_constraints (fun _ _ => false) (fun x => x) L = Ok f /\ plc_read_constraints f = UB.
Proof.
  exists [40], (map (fun i => CallFixed 0 (Z.of_nat i) (V3 (Z.of_nat i) 0 0)) (seq 0 30)).
  eexists. eexists. split; [|split; [vm_compute; reflexivity|split; [vm_compute; reflexivity|vm_compute; reflexivity]]].
  intros c Hc. apply in_map_iff in Hc. destruct Hc as (i & <- & Hi). apply in_seq in Hi.
  simpl. unfold legal_run. simpl. lia.
Qed.

(** C42, exact boundary for the first header of a file: number k >= 2 is stored inside the
    table exactly when k < 10 * ((k + 1) mod 10); in particular never from 90 on. *)
Theorem read_first_header_bound : forall k e, 2 <= k -> k + 11 <= INT_MAX ->
  ((exists t, read_header table0 (k, e) = Ok t) <-> k < 10 * ((k + 1) mod 10)) /\
  (90 <= k -> read_header table0 (k, e) = UB).
Proof.
  intros k e Hk HM. unfold read_header, grow.
  rewrite (proj2 (Z.ltb_ge k 1)) by lia. rewrite (proj2 (Z.ltb_ge (INT_MAX - 11) k)) by lia.
  change (Z.of_nat (length table0)) with 2. rewrite (proj2 (Z.ltb_lt 2 (k + 1))) by lia.
  replace (k + 11) with (k + 1 + 1 * 10) by lia. rewrite Z.mod_add by lia.
  pose proof (Z.mod_pos_bound (k + 1) 10 ltac:(lia)) as B.
  remember ((k + 1) mod 10) as r. destruct (10 * r =? 0) eqn:E; cbn [bind]; caseb.
  - split; auto. split; [intros [t Ht]; discriminate|lia].
  - rewrite resize_length, Z2Nat.id by lia. destruct (k <? 10 * r) eqn:E2; caseb.
    + split; [|lia]. split; auto. eauto.
    + split; auto. split; [intros [t Ht]; discriminate|lia].
Qed.

(** A consequence of C39: after three legal calls the writer itself marks a vertex slot
    outside the component. *)
Theorem write_after_merge_refuted : exists nv h L,
  (forall x, In x h -> legal nv x) /\ run (fun _ _ => false) (mkCurve nv []) h = Ok L /\
  plc_write_constraints (fun _ _ => false) (fun x => x) L = UB.
Proof.
  exists [4; 9], [CallPlane 0 2 1 (V3 0 0 1) 5; CallPlane 1 4 5 (V3 0 0 1) 5; CallPlane 0 3 1 (V3 0 0 1) 5].
  eexists. split; [|split; vm_compute; reflexivity].
  intros x Hx. simpl in Hx.
  repeat (destruct Hx as [Hx|Hx]; [subst x; simpl; unfold legal_run; simpl; lia|]). contradiction.
Qed.

Print Assumptions write_numbers_identify.
Print Assumptions vect_constraints_round_trip.
Print Assumptions read_table_overflow.
Print Assumptions read_table_overflow_refuted.
Print Assumptions read_first_header_bound.
Print Assumptions write_after_merge_refuted.
