(** Property theorems C38, C39, C40: constraint lists of a plCurve. *)
From Coq Require Import List ZArith Lia Bool.
From Verif Require Import Base PlcConstraints PlcConstraintsProofs PlcConstraintsHist.
Import ListNotations.
Open Scope Z_scope.

(** C38 (partial).  For every curve, every sequence of legal constraint calls on it in
    which no line/plane constraint with identical data is put on two different components:
    all calls return normally, plc_is_constrained afterwards reports at every vertex exactly
    the constraint the abstract map holds, and the public list is ordered and disjoint.
    Missing with respect to the full property: the restriction [separated] (the full
    statement without it is false, see [constraints_cross_component_refuted]). *)
Theorem constraints_implement_map_partial : forall veq nv h,
  separated h -> (forall c, In c h -> legal nv c) ->
  exists L, run veq (mkCurve nv []) h = Ok L /\ nvs L = nv /\ list_ok L /\
    forall cp vt, constraint_at L cp vt = spec_run veq h cp vt.
Proof.
  intros veq nv h Sep Leg.
  destruct (run_ok veq h h (mkCurve nv []) (fun _ _ => None)) as (L & A & B & C & D); auto.
  - split; simpl; auto.
  - simpl; auto.
  - exists L. split; auto. split; auto. split. apply wf_list_ok; auto.
    intros cp vt. unfold constraint_at. specialize (D cp vt). rewrite look_is in D. exact D.
Qed.

(** On a curve with one component the restriction is vacuous: the full property. *)
Theorem constraints_implement_map_one_component : forall veq n h,
  (forall c, In c h -> legal [n] c) ->
  exists L, run veq (mkCurve [n] []) h = Ok L /\ nvs L = [n] /\ list_ok L /\
    forall cp vt, constraint_at L cp vt = spec_run veq h cp vt.
Proof.
  intros veq n h Leg. apply constraints_implement_map_partial; auto.
  intros a b k v c1 c2 Ha Hb Pa Pb.
  assert (X : forall c k v cmp, In c h -> puts c k v cmp -> cmp = 0).
  { intros c k0 v0 cmp Hc Hp. specialize (Leg c Hc).
    destruct c; simpl in *; try contradiction;
      destruct Hp as (_ & _ & ->); destruct Leg as ((? & ?) & _); cbn in *; lia. }
  rewrite (X a k v c1), (X b k v c2); auto.
Qed.

(** A history meeting the hypotheses, with overlaps of every kind. *)
Example history_example :
  let p := V3 1 2 3 in let q := V3 4 5 6 in
  let h := [CallPlane 0 0 8 p 7; CallLine 0 2 3 p q; CallFixed 0 3 q; CallUnconstrain 0 6 1;
            CallLine 1 0 4 q q; CallPlane 0 4 3 p 7] in
  separated h /\ (forall c, In c h -> legal [10; 5] c) /\
  spec_run (fun _ _ => false) h 0 3 = Some (Fixed, (q, V3 0 0 0)) /\
  spec_run (fun _ _ => false) h 0 6 = Some (Plane, (p, V3 7 0 0)).
Proof.
  simpl. split; [|split; [|split; reflexivity]].
  - intros a b k v c1 c2 Ha Hb Pa Pb. simpl in Ha, Hb.
    repeat (destruct Ha as [Ha|Ha]; [subst a; simpl in Pa|]); try contradiction;
    repeat (destruct Hb as [Hb|Hb]; [subst b; simpl in Pb|]); try contradiction;
    decompose [and] Pa; decompose [and] Pb; subst; congruence.
  - intros c Hc. simpl in Hc.
    repeat (destruct Hc as [Hc|Hc]; [subst c; simpl; unfold legal_run; simpl; lia|]). contradiction.
Qed.

(** C39.  Without the restriction the property is false: a curve with two closed
    4-vertex components, three legal calls, the last of which names only vertex 1 of
    component 0; afterwards vertex 2 of component 1 has lost its plane constraint and
    vertex 2 of component 0, never constrained, is constrained. *)
Theorem constraints_cross_component_refuted :
  exists nv h0 c L0 L,
    (forall x, In x (h0 ++ [c]) -> legal nv x) /\
    c = CallPlane 0 1 1 (V3 0 0 1) 5 /\
    run (fun _ _ => false) (mkCurve nv []) h0 = Ok L0 /\
    run (fun _ _ => false) (mkCurve nv []) (h0 ++ [c]) = Ok L /\
    constraint_at L0 1 2 = Some (Plane, (V3 0 0 1, V3 5 0 0)) /\
    constraint_at L 1 2 = None /\
    constraint_at L0 0 2 = None /\
    constraint_at L 0 2 = Some (Plane, (V3 0 0 1, V3 5 0 0)).
Proof.
  exists [4; 4], [CallPlane 0 0 1 (V3 0 0 1) 5; CallPlane 1 2 2 (V3 0 0 1) 5],
    (CallPlane 0 1 1 (V3 0 0 1) 5).
  eexists. eexists. split.
  - intros x Hx. simpl in Hx.
    repeat (destruct Hx as [Hx|Hx]; [subst x; simpl; unfold legal_run; simpl; lia|]). contradiction.
  - split; [reflexivity|]. split; [vm_compute; reflexivity|]. split; [vm_compute; reflexivity|].
    repeat split.
Qed.

(** C39 (second half): the over-extended run can even leave its component, so the public
    list names vertices that do not exist. *)
Theorem constraints_out_of_range_refuted :
  exists nv h L c,
    (forall x, In x h -> legal nv x) /\
    run (fun _ _ => false) (mkCurve nv []) h = Ok L /\
    In c (csts L) /\ cvert c + cnum c > nth (Z.to_nat (ccmp c)) nv 0.
Proof.
  exists [4; 9], [CallPlane 0 2 1 (V3 0 0 1) 5; CallPlane 1 4 5 (V3 0 0 1) 5; CallPlane 0 3 1 (V3 0 0 1) 5].
  eexists. exists (mkCst Plane (V3 0 0 1, V3 5 0 0) 0 2 7). split.
  - intros x Hx. simpl in Hx.
    repeat (destruct Hx as [Hx|Hx]; [subst x; simpl; unfold legal_run; simpl; lia|]). contradiction.
  - split; [vm_compute; reflexivity|]. simpl. split; auto. lia.
Qed.

(** C40.  plc_remove_constraint: exactly the cells with matching kind and vectors go, the
    others stay in order, and the returned number is the number of vertices that carried a
    matching constraint. *)
Theorem remove_constraint_exact : forall veq L k v,
  list_ok L -> k <> Unconstrained ->
  exists L' n, plc_remove_constraint veq L k v = Ok (L', n) /\ nvs L' = nvs L /\ list_ok L' /\
    csts L' = filter (fun c => negb (kind_eqb (ckind c) k && veq (cvect c) v)) (csts L) /\
    (forall cp vt, constraint_at L' cp vt =
       match constraint_at L cp vt with
       | Some (k', v') => if kind_eqb k' k && veq v' v then None else Some (k', v')
       | None => None end) /\
    n = count (fun x => match constraint_at L (fst x) (snd x) with
                        | Some (k', v') => kind_eqb k' k && veq v' v | None => false end)
              (all_verts (nvs L)).
Proof.
  intros veq L k v LO K. unfold plc_remove_constraint.
  replace (negb (kind_eqb k Unconstrained)) with true by (destruct k; auto; congruence).
  apply wf_list_ok in LO.
  pose proof (remove_spec veq k v (csts L)) as R. pose proof (remove_count veq k v (nvs L) (csts L) LO) as N.
  assert (FI : fst (remove_cst_list veq k v (csts L)) =
               filter (fun c => negb (kind_eqb (ckind c) k && veq (cvect c) v)) (csts L)).
  { clear. induction (csts L) as [|c l IH]; simpl; auto.
    destruct (remove_cst_list veq k v l) as [r n]. simpl in IH. subst r.
    destruct (_ && _); reflexivity. }
  destruct (remove_cst_list veq k v (csts L)) as [r n]. simpl in *.
  destruct R as (R1 & R2 & R3). destruct LO as [W1 W2].
  eexists. eexists. split; [reflexivity|]. simpl. split; auto. split.
  { apply wf_list_ok. split; simpl; auto. rewrite Forall_forall in *; auto. }
  split; auto. split.
  - intros cp vt. unfold constraint_at, plc_is_constrained. simpl.
    pose proof (R3 cp vt W1) as R4. rewrite !look_is in R4. exact R4.
  - rewrite N. apply count_ext. intros x. rewrite look_is. reflexivity.
Qed.

Example remove_example :
  let L := mkCurve [6; 5] [mkCst Plane (V3 0 0 1, V3 5 0 0) 0 0 2; mkCst Fixed (V3 1 1 1, V3 0 0 0) 0 3 1;
                           mkCst Plane (V3 0 0 1, V3 5 0 0) 1 1 3] in
  list_ok L /\ Plane <> Unconstrained /\
  plc_remove_constraint vects_eqb L Plane (V3 0 0 1, V3 5 0 0)
    = Ok (mkCurve [6; 5] [mkCst Fixed (V3 1 1 1, V3 0 0 0) 0 3 1], 5).
Proof.
  simpl. split; [|split; [discriminate|reflexivity]].
  apply wf_list_ok. split; simpl.
  - repeat constructor; unfold before, cend; simpl; lia.
  - repeat constructor; simpl; unfold cend; simpl; try lia; discriminate.
Qed.

(** C40, second half: plc_remove_all_constraints leaves every vertex unconstrained. *)
Theorem remove_all_clears : forall L cp vt,
  constraint_at (plc_remove_all_constraints L) cp vt = None.
Proof. reflexivity. Qed.

Print Assumptions constraints_implement_map_partial.
Print Assumptions constraints_implement_map_one_component.
Print Assumptions constraints_cross_component_refuted.
Print Assumptions constraints_out_of_range_refuted.
Print Assumptions remove_constraint_exact.
Print Assumptions remove_all_clears.
