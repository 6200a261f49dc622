(** C62: a closed curve cuts a tangle out of a diagram; the tangle is rebuilt from the edges and faces on the curve. *)
From Coq Require Import List ZArith Lia Bool Arith Permutation Sorted Relations.
From Verif Require Import Base ListAux Iterators Pd PdSpec PdProofs Relabel PdCross PdEdges PdComps PdFaces PdRegen PdExamples Planar RegenSpec Thm_Pd Thm_Faces
  DartMap DeloopSpec Thm_LoopDel OverUnderSpec Tangle TangleSpec TangleWalk TangleInside TangleRegen.
From Verif Require TangleSides Thm_Bigon.
Import ListNotations.
Open Scope nat_scope.

(** On the sphere a closed curve has an inside and an outside: every crossing is on one definite side. *)
Theorem tangle_two_sides : forall d es fs, sphere d -> closed_curve d es fs ->
  exists inside, two_sides_of d es fs inside /\
    forall other, two_sides_of d es fs other -> forall c, c < ncross d -> other c = inside c.
Proof.
  intros d es fs SD CC. destruct (TangleSides.two_sides_exist d SD es fs CC) as (inside & TS).
  exists inside. split; auto. intros other TO c Lc. exact (TangleSides.two_sides_unique d SD es fs CC other inside TO TS c Lc).
Qed.
Print Assumptions tangle_two_sides.

(** A new tangle can be made for the curve: the number of edges on it is even. *)
Theorem tangle_new_for : forall d es fs, sphere d -> closed_curve d es fs ->
  exists t0, pd_tangle_new (length es) = Ok t0 /\ length (t_edge t0) = length es /\ length (t_face t0) = length es /\
    length (t_strand t0) = length es / 2.
Proof.
  intros d es fs SD CC. destruct (TangleSides.two_sides_exist d SD es fs CC) as (inside & TS).
  destruct (halves d SD es fs inside CC TS) as (_ & _ & H2).
  unfold pd_tangle_new. destruct CC as (NE & _).
  assert (Z : length es <> 0) by (destruct es; [congruence|discriminate]). apply Nat.eqb_neq in Z. rewrite Z.
  assert (V : Nat.even (length es) = true) by (rewrite H2; apply Nat.even_spec; exists (length es / 2); reflexivity). rewrite V.
  eexists. split; [reflexivity|]. cbn [t_edge t_face t_strand]. rewrite !repeat_length. auto.
Qed.
Print Assumptions tangle_new_for.

(** Rebuilding succeeds.  The directions of the edges on the boundary, the strands and their components are right, the
    result passes its own checks, and everything listed as interior is inside. *)
Theorem tangle_found : forall d es fs inside t, sphere d -> closed_curve d es fs -> two_sides_of d es fs inside ->
  t_edge t = es -> t_face t = fs -> length (t_strand t) = length es / 2 ->
  exists t', pd_regenerate_tangle d t = Ok t' /\ pd_tangle_ok d t' = Ok true /\ boundary_found d es fs inside t' /\
    lists_only (t_cross t') (inside_cross d inside) /\ lists_only (t_inner t') (inner d inside).
Proof.
  intros d es fs inside t SD CC TS E F L.
  destruct (regenerated d SD es fs inside CC TS t E F L) as (t' & A & B & C & D1 & D2 & _). exists t'. auto.
Qed.
Print Assumptions tangle_found.

(** If no edge inside turns back to its crossing on the right then all crossings and edges inside are listed. *)
Theorem tangle_contents : forall d es fs inside t t', sphere d -> closed_curve d es fs -> two_sides_of d es fs inside ->
  t_edge t = es -> t_face t = fs -> length (t_strand t) = length es / 2 -> pd_regenerate_tangle d t = Ok t' ->
  no_right_curl d inside -> lists_all (t_cross t') (inside_cross d inside) /\ lists_all (t_inner t') (inner d inside).
Proof.
  intros d es fs inside t t' SD CC TS E F L RT NR.
  destruct (regenerated d SD es fs inside CC TS t E F L) as (t1 & A & _ & _ & _ & _ & B).
  rewrite A in RT. injection RT as <-. auto.
Qed.
Print Assumptions tangle_contents.

(** The direction of an edge on the boundary is reported as the curve crosses it; any other edge stops the program. *)
Theorem tangle_bdy_or : forall d es fs inside t e, sphere d -> closed_curve d es fs -> boundary_found d es fs inside t ->
  (pd_tangle_bdy_or t e = Ok Inward <-> In e es /\ crosses_in d inside e) /\
  (pd_tangle_bdy_or t e = Ok Outward <-> In e es /\ crosses_out d inside e) /\
  (pd_tangle_bdy_or t e = Fail <-> ~ In e es).
Proof.
  intros d es fs inside t e SD CC (E & _ & LO & OR & _). destruct CC as (_ & ND & _).
  unfold pd_tangle_bdy_or. rewrite E.
  assert (X : crosses_in d inside e -> crosses_out d inside e -> False).
  { intros (A & HA & A1 & _) (B & HB & B1 & _). unfold edge_at in *. congruence. }
  destruct (in_dec Nat.eq_dec e es) as [I|I].
  - destruct (In_nth_error _ _ I) as (i & Hi).
    assert (P : places_of es e = [i]) by (apply places_one; auto). rewrite P.
    assert (Li : i < length (t_or t)) by (rewrite LO; apply nth_error_Some; congruence).
    destruct (nth_error (t_or t) i) as [o|] eqn:Ho; [|apply nth_error_None in Ho; lia].
    rewrite (proj2 (get_ok _ _ _ _) Ho). specialize (OR i e o Hi Ho).
    destruct o; (split; [split; [intros H|intros (_ & H)]|split; split; [intros H|intros (_ & H)|intros H|intros H]]); auto; try discriminate; try tauto; exfalso; auto.
  - rewrite places_none; auto. split; [split; [discriminate|tauto]|split; [split; [discriminate|tauto]|split; auto]].
Qed.
Print Assumptions tangle_bdy_or.

(** Without any assumption on the diagram: a boundary that is empty or that meets an edge twice is refused. *)
Theorem tangle_refuses : forall d t, t_edge t = [] \/ ~ NoDup (t_edge t) -> pd_regenerate_tangle d t = Fail.
Proof.
  intros d t H. unfold pd_regenerate_tangle. cbv zeta.
  destruct (negb (length (t_edge t) =? 0) && (length (t_edge t) <=? nedges d)) eqn:A; [|reflexivity].
  destruct (edges_unique (t_edge t)) eqn:B; [|reflexivity].
  destruct H as [H|H]; [rewrite H in A; discriminate|]. exfalso. apply H. apply edges_unique_nodup. auto.
Qed.
Print Assumptions tangle_refuses.

(** ** Contents missed *)
(** a clasp between two components, with three curls *)
Definition clasp : pd := mkPd 6 0 [32]
  [mkEdge 0 0 0 1; mkEdge 1 0 0 2; mkEdge 2 0 1 2; mkEdge 3 0 2 2; mkEdge 3 1 3 2; mkEdge 0 3 3 3; mkEdge 4 1 4 0; mkEdge 1 1 4 3; mkEdge 2 3 1 3; mkEdge 4 2 2 1]
  [mkCross 0 0 1 5 Unset; mkCross 1 7 2 8 Pos; mkCross 2 9 3 8 Pos; mkCross 3 4 4 5 Unset; mkCross 6 6 9 7 Unset]
  [mkComp [0; 1; 2; 3; 4; 5] 65%Z; mkComp [6; 7; 8; 9] 66%Z]
  [[(0, Pos); (5, Neg); (4, Pos); (3, Neg); (9, Pos); (6, Neg); (7, Pos); (1, Neg)]; [(1, Pos); (8, Pos); (3, Pos); (5, Pos)]; [(2, Neg); (7, Neg); (9, Neg)];
   [(2, Pos); (8, Neg)]; [(0, Neg)]; [(4, Neg)]; [(6, Pos)]].
Lemma workable_sphere : forall d, workable d -> sphere d.
Proof. intros d []. constructor; auto. Qed.
Example clasp_sphere : sphere clasp.
Proof.
  assert (T : two_ended clasp).
  { intros e E HE. unfold edge_at in HE. do 10 (destruct e as [|e]; [injection HE as <-; discriminate|]). destruct e; discriminate. }
  assert (EO : pd_edges_ok clasp = Ok true) by reflexivity.
  apply workable_sphere, accepted_workable; auto; try (cbn; lia).
  - intros c [<-|[<-|[]]]; discriminate.
  - repeat constructor.
  - destruct (regenerate_faces_correct clasp ltac:(cbn; lia) EO T) as [K|(d' & K & _ & FP & _)]; vm_compute in K; [discriminate|].
    injection K as <-. exact FP.
  - assert (J : forall u v, joined clasp u v -> clos_refl_trans nat (joined clasp) u v /\ clos_refl_trans nat (joined clasp) v u).
    { intros u v (e & p & q & A & B). split; apply rt_step; [exists e, p, q|exists e, q, p]; auto. }
    assert (J10 : joined clasp 1 0) by (exists 1, 0, 2; split; (split; [lia|eexists; split; reflexivity])).
    assert (J12 : joined clasp 1 2) by (exists 2, 2, 0; split; (split; [lia|eexists; split; reflexivity])).
    assert (J03 : joined clasp 0 3) by (exists 5, 3, 3; split; (split; [lia|eexists; split; reflexivity])).
    assert (J14 : joined clasp 1 4) by (exists 7, 1, 3; split; (split; [lia|eexists; split; reflexivity])).
    assert (A : forall v, v < 5 -> clos_refl_trans nat (joined clasp) 1 v /\ clos_refl_trans nat (joined clasp) v 1).
    { intros v Hv. destruct (J _ _ J10), (J _ _ J03). destruct v as [|[|[|[|[|v]]]]]; [auto|split; apply rt_refl|apply J; auto| |apply J; auto|lia].
      split; eapply rt_trans; eauto. }
    intros u v Hu Hv. destruct (A u Hu) as (_ & A1). destruct (A v Hv) as (A2 & _). eapply rt_trans; eauto.
Qed.
Ltac along := eexists; split; [reflexivity|cbn; auto 12].
Ltac distinct := repeat (constructor; [cbn; lia|]); constructor.
Example clasp_curve : closed_curve clasp [7; 9] [0; 2].
Proof.
  split; [discriminate|]. split; [distinct|]. split; [distinct|]. split; [reflexivity|].
  intros [|[|i]] e f g He Hf Hg; cbn in He, Hf, Hg; [| |destruct i; discriminate]; injection He as <-; injection Hf as <-; injection Hg as <-.
  - left. split; along.
  - right. split; along.
Qed.
Definition clasp_inside (c : nat) : bool := c <? 4.
Example clasp_sides : two_sides_of clasp [7; 9] [0; 2] clasp_inside.
Proof.
  split.
  - intros [|[|i]] e f He Hf; cbn in He, Hf; [| |destruct i; discriminate]; injection He as <-; injection Hf as <-.
    + left. split; [along|]. eexists. split; [reflexivity|]. split; reflexivity.
    + right. split; [along|]. eexists. split; [reflexivity|]. split; reflexivity.
  - intros e E HE NI. unfold edge_at in HE. do 10 (destruct e as [|e]; [injection HE as <-; try reflexivity; exfalso; apply NI; cbn; auto|]). destruct e; discriminate.
Qed.

(** The full claim, without [no_right_curl], is false: crossing 0 and the edges 0, 1 and 5 are inside and are not listed, and
    the result is accepted by its own checks. *)
Theorem tangle_contents_refuted : exists d es fs inside t0 t', sphere d /\ closed_curve d es fs /\ two_sides_of d es fs inside /\
  pd_tangle_new (length es) = Ok t0 /\ pd_regenerate_tangle d (mkTangle es fs (t_or t0) (t_strand t0) None None) = Ok t' /\
  pd_tangle_ok d t' = Ok true /\ ~ lists_all (t_cross t') (inside_cross d inside) /\ ~ lists_all (t_inner t') (inner d inside).
Proof.
  exists clasp, [7; 9], [0; 2], clasp_inside. eexists. eexists. split; [exact clasp_sphere|]. split; [exact clasp_curve|]. split; [exact clasp_sides|].
  split; [reflexivity|]. split; [vm_compute; reflexivity|]. split; [vm_compute; reflexivity|]. split; intros (_ & _ & A).
  - assert (B : In 0 [1; 2; 3]) by (apply A; split; [cbn; lia|reflexivity]). cbn in B. lia.
  - assert (B : In 0 [2; 3; 4; 8]) by (apply A; eexists; split; [reflexivity|split; reflexivity]). cbn in B. lia.
Qed.
Print Assumptions tangle_contents_refuted.

(** ** A concrete case: two crossings of the trefoil *)
Notation trefoil3 := (Thm_Bigon.three Pos Pos Pos).
Example three_sphere : sphere trefoil3.
Proof. apply workable_sphere, Thm_Bigon.three_workable. Qed.
Example three_curve : closed_curve trefoil3 [2; 5; 1; 4] [0; 4; 1; 3].
Proof.
  split; [discriminate|]. split; [distinct|]. split; [distinct|]. split; [reflexivity|].
  intros [|[|[|[|i]]]] e f g He Hf Hg; cbn in He, Hf, Hg; [| | | |destruct i; discriminate]; injection He as <-; injection Hf as <-; injection Hg as <-.
  - left. split; along.
  - left. split; along.
  - right. split; along.
  - right. split; along.
Qed.
Definition three_inside (c : nat) : bool := c <? 2.
Example three_sides : two_sides_of trefoil3 [2; 5; 1; 4] [0; 4; 1; 3] three_inside.
Proof.
  split.
  - intros [|[|[|[|i]]]] e f He Hf; cbn in He, Hf; [| | | |destruct i; discriminate]; injection He as <-; injection Hf as <-.
    + left. split; [along|]. eexists. split; [reflexivity|]. split; reflexivity.
    + left. split; [along|]. eexists. split; [reflexivity|]. split; reflexivity.
    + right. split; [along|]. eexists. split; [reflexivity|]. split; reflexivity.
    + right. split; [along|]. eexists. split; [reflexivity|]. split; reflexivity.
  - intros e E HE NI. unfold edge_at in HE. do 6 (destruct e as [|e]; [injection HE as <-; try reflexivity; exfalso; apply NI; cbn; auto|]). destruct e; discriminate.
Qed.
Example three_no_curl : no_right_curl trefoil3 three_inside.
Proof.
  intros e E HE _ (A & _). unfold edge_at in HE. do 6 (destruct e as [|e]; [injection HE as <-; discriminate A|]). destruct e; discriminate.
Qed.
Example three_tangle : pd_regenerate_tangle trefoil3 (mkTangle [2; 5; 1; 4] [0; 4; 1; 3] (repeat Inward 4) (repeat (mkTS 0 0 0 0) 2) None None) =
  Ok (mkTangle [2; 5; 1; 4] [0; 4; 1; 3] [Inward; Inward; Outward; Outward] [mkTS 0 3 3 0; mkTS 1 2 3 0] (Some [0; 1]) (Some [0; 3])).
Proof. vm_compute. reflexivity. Qed.
