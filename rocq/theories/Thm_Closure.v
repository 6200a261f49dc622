(** C78: an open curve is closed by a random arc to a curve of total length 2. *)
From Coq Require Import Reals List Bool Lra Lia Psatz ZArith.
From Verif Require Import Base Sampler SamplerProofs Hopf HopfProofs Fan FanProofs Rotate RotateProofs Closure ClosureProofs Thm_Hopf Thm_Fan Thm_Rotate.
Import ListNotations.
Open Scope R_scope.
Open Scope res_scope.

(** ** what is asked *)
(** [distance], [path_length] and [perimeter] are those of Thm_Hopf.v. *)
Definition component_length (s : arc) : R := match verts s with [] => 0 | v :: vs => if opened s then path_length v vs else perimeter (v :: vs) end.
Fixpoint total_length (L : list arc) : R := match L with [] => 0 | s :: L' => component_length s + total_length L' end.
(** the distance between the ends of a component *)
Definition gap (s : arc) : R := match verts s with [] => 0 | v :: vs => distance v (last vs v) end.

(** ** proofs *)
Lemma open_path : forall vs v, open_length (v :: vs) = path_length v vs.
Proof. induction vs as [|w vs IH]; intros v; auto. rewrite open_cons, IH. cbn [path_length]. f_equal. exact (eq_trans (dist_sym w v) (eq_sym (distance_dist v w))). Qed.
Lemma path_app : forall vs v w, path_length v (vs ++ [w]) = path_length v vs + distance (last vs v) w.
Proof. induction vs as [|u vs IH]; intros v w; [cbn; ring|]. cbn [app path_length]. rewrite IH, last_cons. ring. Qed.
Lemma component_right : forall s, arc_length s = component_length s.
Proof. intros [o [|v vs]]; auto. unfold arc_length, component_length. cbn [verts opened]. destruct o; rewrite open_path; auto. rewrite path_app. auto. Qed.
(** plc_arclength is the sum of the lengths of all edges, closing edges included. *)
Theorem arclength_right : forall L, arclength L = total_length L.
Proof. induction L as [|s L IH]; auto. cbn [arclength fold_right total_length]. rewrite component_right. fold (arclength L). rewrite IH. auto. Qed.
Print Assumptions arclength_right.

(** The arcs: whatever is drawn (if it is independent), an arc with the right number of edges from the origin to the point at the
    distance asked for on the first axis, of the length asked for (the gap itself if they differ by less than 1e-8). *)
Theorem arc_sampled : forall n len ftc g, (2 <= n)%nat -> 0 <= ftc <= len -> 0 < ftc \/ / 100000000 <= len -> independent (space_A n g) (space_B n g) ->
  exists vs, random_ftc n len ftc g = Ok (Some (origin :: vs)) /\ length vs = n /\ last vs origin = mkV ftc 0 0 /\
    (ftc + / 100000000 <= len -> path_length origin vs = len) /\ (len < ftc + / 100000000 -> len - / 100000000 <= path_length origin vs <= len).
Proof.
  intros n len ftc g N F P IND. destruct (random_ftc_ok n len ftc g) as (vs & len' & E & (mid & EV & LM & OL) & B & X); [lia|auto|lia|auto|]. subst vs. exists (mid ++ [mkV ftc 0 0]). split; [exact E|]. split; [rewrite app_length; cbn; lia|]. split; [apply last_last|]. rewrite <- open_path. change origin with (mkV 0 0 0). rewrite OL. split; [auto|lra].
Qed.
Print Assumptions arc_sampled.
Theorem arc_too_short : forall n len ftc g, len < ftc -> random_ftc n len ftc g = Ok None.
Proof. intros n len ftc g H. unfold random_ftc. destruct (Rlt_dec len ftc); [auto|lra]. Qed.
Print Assumptions arc_too_short.

Lemma arclength_upd : forall L cp s s', nth_error L cp = Some s -> arclength (upd cp s' L) = arclength L - arc_length s + arc_length s'.
Proof. induction L as [|x L IH]; intros cp s s' E; [destruct cp; discriminate|]. destruct cp as [|cp]; cbn [nth_error upd] in *; [injection E as ->; cbn; ring|]. cbn [arclength fold_right]. fold (arclength L) (arclength (upd cp s' L)). rewrite (IH cp s s' E). ring. Qed.
Lemma placed_map : forall first end_ vs (T : Type) (k : list V3 -> res T) h,
  (do dir <- normalize_vect (vect_diff first end_);
   do arm <- match dir with
             | None => Ok vs
             | Some dir =>
                 do r <- normalize_vect (vadd dir (mkV 1 0 0));
                 let r_axis := match r with Some r => r | None => mkV 0 1 0 end in
                 each (fun v => do w <- spin r_axis v PI; Ok (match w with Some w => w | None => v end)) vs
             end; Ok (translate arm end_)) = Ok (map h vs) ->
  (do dir <- normalize_vect (vect_diff first end_);
   do arm <- match dir with
             | None => Ok vs
             | Some dir =>
                 do r <- normalize_vect (vadd dir (mkV 1 0 0));
                 let r_axis := match r with Some r => r | None => mkV 0 1 0 end in
                 each (fun v => do w <- spin r_axis v PI; Ok (match w with Some w => w | None => v end)) vs
             end; k (translate arm end_)) = k (map h vs).
Proof.
  intros first end_ vs T k h H. destruct (normalize_vect (vect_diff first end_)) as [dir| | |]; try discriminate. cbn [bind] in *. match goal with |- bind ?X _ = _ => destruct X as [arm| | |]; try discriminate end. cbn [bind] in *. injection H as ->. auto.
Qed.

(** An open component with at least two vertices of a curve that is shorter than 2 by at least the gap between its ends is closed by
    the missing number of edges to a total length of 2, up to the tolerances of the code; the component keeps its vertices, and the
    other components do not change.  The component must be the first one, or be closed by a single edge; if it is closed by a single edge,
    the missing length must be that of the gap. *)
Theorem loop_closure_closes : forall cp L s n g, Forall wrapped L -> nth_error L cp = Some s -> opened s = true -> (1 <= length (verts s))%nat -> (3 <= n)%nat ->
  gap s <= 2 - total_length L -> (length (verts s) <= n)%nat ->
  ((length (verts s) < n)%nat -> cp = 0%nat /\ independent (space_A (n - length (verts s) + 1) g) (space_B (n - length (verts s) + 1) g) /\ (0 < gap s \/ / 100000000 <= 2 - total_length L)) ->
  (n = length (verts s) -> 2 - total_length L < gap s + / 100000000) ->
  exists s', loop_closure cp L n g = Ok (Some (upd cp s' L)) /\ opened s' = false /\ length (verts s') = n /\ firstn (length (verts s)) (verts s') = verts s /\
    Rabs (total_length (upd cp s' L) - 2) <= / 100000000 + 2 * (/ 10000000000 + 2 * eps) * INR (n - length (verts s) + 1).
Proof.
  intros cp L s n g W E O NV N3 GAP NN MANY ONE. destruct s as [o vs0]. cbn [opened verts] in *. subst o. destruct vs0 as [|first vs0]; [cbn in NV; lia|]. set (end_ := last vs0 first). set (nv := length (first :: vs0)) in *. unfold gap in *. cbn [verts] in *. fold end_ in GAP, MANY, ONE.
  assert (FTC : distance first end_ = vdistance first end_) by (rewrite distance_dist; auto). rewrite FTC in *. rewrite <- arclength_right in *. set (cl := 2 - arclength L) in *. set (ftc := vdistance first end_) in *.
  assert (F0 : 0 <= ftc) by apply norm3_nonneg.
  assert (AL : 0 <= arclength L). { clear. unfold arclength. induction L as [|s L IH]; cbn [fold_right]; [lra|]. assert (K : 0 <= arc_length s); [|lra]. assert (OL : forall vs, 0 <= open_length vs). { induction vs as [|v vs IHv]; [cbn; lra|]. destruct vs as [|w vs]; [cbn; lra|]. rewrite open_cons. pose proof (norm3_nonneg (vect_diff w v)) as Q. change (0 <= vdistance w v) in Q. lra. } destruct s as [o [|v vs]]; unfold arc_length; cbn [verts opened]; [lra|]. destruct o; apply OL. }
  set (m := (n - nv + 1)%nat) in *. assert (M1 : (1 <= m)%nat) by (unfold m; lia).
  destruct (random_ftc_ok m cl ftc g M1 ltac:(lra)) as (arm & len' & ER & (mid & EV & LM & OL) & B & _); [intros K; apply ONE; unfold m in K; lia|intros K; destruct MANY as (_ & X); [unfold m in K; lia|exact X]|].
  destruct (placing first end_ arm ltac:(unfold cl in *; fold ftc; lra)) as (h & M & EP & ISO & NR & M0 & MF). fold ftc in MF.
  set (s' := mkArc false ((first :: vs0) ++ map h mid)). exists s'.
  assert (LS : length (verts s') = n) by (unfold s'; cbn [verts]; rewrite app_length, map_length; fold nv; unfold m in LM; lia).
  assert (RUN : loop_closure cp L n g = Ok (Some (upd cp s' L))).
  { unfold loop_closure. rewrite E. cbn [opened negb verts]. rewrite last_cons. fold end_ cl ftc nv. destruct (Rlt_dec cl 0); [lra|]. destruct (Rlt_dec cl ftc); [lra|]. destruct (Nat.ltb_spec n nv); [lia|]. replace (n - (nv - 1))%nat with m by (unfold m; lia). rewrite ER. cbn [bind].
    refine (eq_trans (placed_map first end_ arm _ (fun arm => let inner := removelast (tl arm) in if negb (match inner with [] => true | _ => false end) && negb (Nat.eqb cp 0) then UB else let newVerts := (first :: vs0) ++ inner in assert (Nat.eqb (length newVerts) n); Ok (Some (map fix_wrap (upd cp (mkArc false newVerts) L)))) h EP) _). cbv beta zeta.
    assert (IN : removelast (tl (map h arm)) = map h mid) by (rewrite EV; cbn [map tl]; rewrite map_app; cbn [map]; apply removelast_last). rewrite IN. fold s'.
    assert (CP : negb (match map h mid with [] => true | _ => false end) && negb (Nat.eqb cp 0) = false). { destruct mid as [|x mid]; auto. cbn [map negb andb]. destruct MANY as (-> & _); [cbn in LM; unfold m in LM; lia|auto]. }
    rewrite CP. change ((first :: vs0) ++ map h mid) with (verts s'). rewrite LS, Nat.eqb_refl. do 2 f_equal. apply map_fixed. apply upd_Forall; auto. intros _. lia. }
  split; [exact RUN|]. split; [auto|]. split; [auto|]. split; [unfold s', nv; cbn [verts]; rewrite firstn_app, Nat.sub_diag, firstn_all; cbn [firstn]; apply app_nil_r|].
  rewrite <- arclength_right, (arclength_upd L cp _ s' E). fold m.
  assert (LEN : arc_length s' = arc_length (mkArc true (first :: vs0)) + open_length (end_ :: map h mid ++ [first])).
  { unfold arc_length, s'. cbn [verts opened app]. assert (SP : exists us, first :: vs0 = us ++ [end_]). { destruct (exists_last (l := first :: vs0)) as (us & z & Z); [discriminate|]. exists us. rewrite Z. f_equal. f_equal. apply (f_equal (fun l => last l first)) in Z. rewrite last_last, last_cons in Z. auto. }
    destruct SP as (us & SP). change (first :: (vs0 ++ map h mid) ++ [first]) with ((first :: vs0 ++ map h mid) ++ [first]). replace (first :: vs0 ++ map h mid) with ((first :: vs0) ++ map h mid) by auto. rewrite SP. rewrite <- !app_assoc. cbn [app]. rewrite open_app. auto. }
  assert (NEAR : Rabs (open_length (end_ :: map h mid ++ [first]) - open_length (map M arm)) <= 2 * slack * INR (length (map M arm) - 1)).
  { apply open_near; [|unfold slack; pose proof eps_pos; lra]. rewrite EV. cbn [map]. rewrite map_app. cbn [map]. constructor; [rewrite M0, dist_same; unfold slack; pose proof eps_pos; lra|]. apply Forall2_app; [clear - NR; induction mid; constructor; auto|constructor; [exact MF|constructor]]. }
  rewrite open_motion, OL in NEAR by auto. replace (length (map M arm) - 1)%nat with m in NEAR by (rewrite EV, map_length; cbn; rewrite app_length; cbn; lia).
  replace (arclength L - arc_length (mkArc true (first :: vs0)) + arc_length s' - 2) with ((open_length (end_ :: map h mid ++ [first]) - len') + (len' - cl)) by (rewrite LEN; unfold cl; ring).
  eapply Rle_trans; [apply Rabs_triang|]. assert (Rabs (len' - cl) <= / 100000000) by (apply Rabs_le; lra). unfold slack in NEAR. unfold eps. lra.
Qed.
Print Assumptions loop_closure_closes.

(** The cases in which NULL is returned. *)
Theorem loop_closure_refused : forall cp L s n g, nth_error L cp = Some s -> (1 <= length (verts s))%nat ->
  opened s = false \/ 2 - total_length L < gap s \/ (n < length (verts s))%nat -> loop_closure cp L n g = Ok None.
Proof.
  intros cp L s n g E NV C. unfold loop_closure. rewrite E. destruct s as [o vs]. cbn [opened verts] in *. destruct o; [|auto]. cbn [negb]. destruct vs as [|first vs]; [cbn in NV; lia|]. rewrite last_cons. unfold gap in C. cbn [verts] in C. rewrite distance_dist, <- arclength_right in C. change (dist first (last vs first)) with (vdistance first (last vs first)) in C.
  destruct (Rlt_dec _ 0); [auto|]. destruct (Rlt_dec _ (vdistance first (last vs first))); [auto|]. destruct (Nat.ltb_spec n (length (first :: vs))); [auto|]. destruct C as [C|[C|C]]; [discriminate|lra|lia].
Qed.
Print Assumptions loop_closure_refused.

Lemma arc_one_edge : forall len ftc g, ftc + / 100000000 <= len -> random_ftc 1 len ftc g = Ok None.
Proof.
  intros len ftc g H. unfold random_ftc. destruct (Rlt_dec len ftc); [auto|]. destruct (Rlt_dec len (ftc + / 100000000)); [lra|]. cbv zeta. cbn [Nat.eqb andb]. rewrite (Rabs_right (len - ftc)) by lra. destruct (Rlt_dec (len - ftc) (/ 10000000000)); [lra|]. destruct (Rlt_dec (/ 10000000000) (len - ftc)); [auto|lra].
Qed.
(** With a single closing edge and length to spare the arc is a null pointer, which is used. *)
Theorem loop_closure_one_edge_refuted : forall cp L s g, nth_error L cp = Some s -> opened s = true -> (1 <= length (verts s))%nat ->
  gap s + / 100000000 <= 2 - total_length L -> loop_closure cp L (length (verts s)) g = UB.
Proof.
  intros cp L s g E O NV G. unfold loop_closure. rewrite E. destruct s as [o vs]. cbn [opened verts] in *. subst o. destruct vs as [|first vs]; [cbn in NV; lia|]. cbn [negb]. rewrite last_cons. unfold gap in G. cbn [verts] in G. rewrite distance_dist, <- arclength_right in G. change (dist first (last vs first)) with (vdistance first (last vs first)) in G.
  assert (F0 : 0 <= vdistance first (last vs first)) by apply norm3_nonneg. destruct (Rlt_dec _ 0); [lra|]. destruct (Rlt_dec _ (vdistance first (last vs first))); [lra|]. destruct (Nat.ltb_spec (length (first :: vs)) (length (first :: vs))); [lia|]. replace (length (first :: vs) - (length (first :: vs) - 1))%nat with 1%nat by (cbn [length]; lia).
  rewrite arc_one_edge by auto. auto.
Qed.
Print Assumptions loop_closure_one_edge_refuted.
(** A component that is not the first cannot be closed by more than one edge: the arc is read as if it had as many components. *)
Theorem loop_closure_component_refuted : forall cp L s n g, (0 < cp)%nat -> nth_error L cp = Some s -> opened s = true -> (1 <= length (verts s))%nat -> (length (verts s) < n)%nat ->
  gap s <= 2 - total_length L -> 0 < gap s \/ / 100000000 <= 2 - total_length L -> independent (space_A (n - length (verts s) + 1) g) (space_B (n - length (verts s) + 1) g) -> loop_closure cp L n g = UB.
Proof.
  intros cp L s n g CP E O NV NN G POS IND. unfold loop_closure. rewrite E. destruct s as [o vs]. cbn [opened verts] in *. subst o. destruct vs as [|first vs]; [cbn in NV; lia|]. cbn [negb]. rewrite last_cons. unfold gap in G, POS. cbn [verts] in G, POS. rewrite distance_dist, <- arclength_right in G. rewrite distance_dist, <- arclength_right in POS. change (dist first (last vs first)) with (vdistance first (last vs first)) in G, POS.
  assert (F0 : 0 <= vdistance first (last vs first)) by apply norm3_nonneg. assert (AL : 0 <= arclength L). { clear. unfold arclength. induction L as [|s L IH]; cbn [fold_right]; [lra|]. assert (K : 0 <= arc_length s); [|lra]. assert (OL : forall vs, 0 <= open_length vs). { induction vs as [|v vs IHv]; [cbn; lra|]. destruct vs as [|w vs]; [cbn; lra|]. rewrite open_cons. pose proof (norm3_nonneg (vect_diff w v)) as Q. change (0 <= vdistance w v) in Q. lra. } destruct s as [o [|v vs]]; unfold arc_length; cbn [verts opened]; [lra|]. destruct o; apply OL. }
  destruct (Rlt_dec _ 0); [lra|]. destruct (Rlt_dec _ (vdistance first (last vs first))); [lra|]. destruct (Nat.ltb_spec n (length (first :: vs))); [lia|]. replace (n - (length (first :: vs) - 1))%nat with (n - length (first :: vs) + 1)%nat by (cbn [length] in *; lia). set (m := (n - length (first :: vs) + 1)%nat) in *.
  destruct (random_ftc_ok m (2 - arclength L) (vdistance first (last vs first)) g) as (arm & len' & ER & (mid & EV & LM & OL) & _); [unfold m; lia|lra|intros K; unfold m in K; lia|auto|]. rewrite ER. cbn [bind].
  destruct (placing first (last vs first) arm ltac:(lra)) as (h & M & EP & _).
  refine (eq_trans (placed_map first (last vs first) arm _ (fun arm => let inner := removelast (tl arm) in if negb (match inner with [] => true | _ => false end) && negb (Nat.eqb cp 0) then UB else let newVerts := (first :: vs) ++ inner in assert (Nat.eqb (length newVerts) n); Ok (Some (map fix_wrap (upd cp (mkArc false newVerts) L)))) h EP) _). cbv beta zeta.
  assert (IN : removelast (tl (map h arm)) = map h mid) by (rewrite EV; cbn [map tl]; rewrite map_app; cbn [map]; apply removelast_last). rewrite IN. destruct mid as [|x mid]; [cbn in LM; unfold m in LM; lia|]. destruct cp; [lia|]. auto.
Qed.
Print Assumptions loop_closure_component_refuted.
(** If there is no length left and no gap, more than one edge is a division by zero. *)
Lemma normalize_cases : forall A, (exists B, normalize A = Ok B) \/ normalize A = UB.
Proof. intros A. unfold normalize, rsqrt, rdiv. destruct (Rlt_dec _ 0); [right; auto|]. cbn [bind]. destruct (Req_EM_T _ 0); [right; auto|]. cbn [bind]. left. eauto. Qed.
Theorem loop_closure_no_length_refuted : forall cp L s n g, nth_error L cp = Some s -> opened s = true -> (1 <= length (verts s))%nat -> (length (verts s) < n)%nat ->
  gap s = 0 -> total_length L = 2 -> loop_closure cp L n g = UB.
Proof.
  intros cp L s n g E O NV NN G T. unfold loop_closure. rewrite E. destruct s as [o vs]. cbn [opened verts] in *. subst o. destruct vs as [|first vs]; [cbn in NV; lia|]. cbn [negb]. rewrite last_cons. unfold gap in G. cbn [verts] in G. rewrite distance_dist in G. rewrite <- arclength_right in T. change (dist first (last vs first)) with (vdistance first (last vs first)) in G. rewrite G, T. replace (2 - 2) with 0 by ring. cbv zeta.
  destruct (Rlt_dec 0 0); [lra|]. destruct (Nat.ltb_spec n (length (first :: vs))); [lia|]. set (m := (n - (length (first :: vs) - 1))%nat). assert (M : Nat.eqb m 1 = false) by (apply Nat.eqb_neq; unfold m; cbn [length] in *; lia).
  assert (Q : random_ftc m 0 0 g = UB); [|rewrite Q; auto]. unfold random_ftc. destruct (Rlt_dec 0 0); [lra|]. cbv zeta. rewrite M. cbn [andb]. destruct (normalize_cases (space_A m g)) as [(A & EA)|EA]; rewrite EA; [|auto]. cbn [bind]. match goal with |- bind (normalize ?X) _ = _ => destruct (normalize_cases X) as [(B & EB)|EB]; rewrite EB end; [|auto]. cbn [bind]. unfold rdiv. match goal with |- bind (if ?b then _ else _) _ = _ => destruct b as [|NE]; [auto|exfalso; apply NE; destruct (Rlt_dec _ _); auto] end.
Qed.
Print Assumptions loop_closure_no_length_refuted.

(** ** example *)
(** A segment of length 1/2 is closed to a triangle. *)
Example segment_closed : exists s', loop_closure 0 [mkArc true [mkV 0 0 0; mkV (/2) 0 0]] 3 (fun k => if Nat.eqb k 0 then 3 else if Nat.eqb k 6 then 5 else 0) = Ok (Some [s']) /\
  opened s' = false /\ length (verts s') = 3%nat /\ firstn 2 (verts s') = [mkV 0 0 0; mkV (/2) 0 0] /\ Rabs (total_length [s'] - 2) <= / 10000000.
Proof.
  assert (D : distance (mkV 0 0 0) (mkV (/2) 0 0) = /2). { unfold distance. cbn. replace (_ + _ + _) with (/2 * /2) by (unfold Rsqr; field). apply sqrt_square. lra. }
  assert (T : total_length [mkArc true [mkV 0 0 0; mkV (/2) 0 0]] = /2) by (cbn [total_length component_length verts opened path_length]; rewrite D; lra).
  assert (G : gap (mkArc true [mkV 0 0 0; mkV (/2) 0 0]) = /2) by exact D.
  destruct (loop_closure_closes 0 [mkArc true [mkV 0 0 0; mkV (/2) 0 0]] (mkArc true [mkV 0 0 0; mkV (/2) 0 0]) 3 (fun k => if Nat.eqb k 0 then 3 else if Nat.eqb k 6 then 5 else 0)) as (s' & E & O & LN & FN & B).
  - constructor; [|constructor]. unfold wrapped. cbn. discriminate.
  - reflexivity.
  - reflexivity.
  - cbn. lia.
  - lia.
  - rewrite G, T. lra.
  - cbn. lia.
  - intros _. split; [auto|]. split; [exact draws_independent|]. left. rewrite G. lra.
  - cbn. lia.
  - exists s'. split; [exact E|]. split; [auto|]. split; [auto|]. split; [auto|]. change (upd 0 s' [mkArc true [mkV 0 0 0; mkV (/2) 0 0]]) with [s'] in B. eapply Rle_trans; [exact B|]. change (INR (3 - length (verts (mkArc true [mkV 0 0 0; mkV (/2) 0 0])) + 1)) with (INR 2). cbn [INR]. assert (EPS : eps <= / 1000000000). { unfold eps, DBL_EPSILON. lra. } lra.
Qed.
