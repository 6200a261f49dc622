(** Property theorems C43, C44, C45: vertex numbering, wrap-around vertices, adding and
    dropping components, copying a curve. *)
From Coq Require Import List ZArith Lia Bool Arith.
From Verif Require Import Base PlcConstraints PlcConstraintsProofs PlcConstraintsHist PlcStrands PlcStrandsProofs.
Import ListNotations.
Open Scope Z_scope.

(** C43.  For every curve (components may even be empty): plc_vertex_num of an existing
    vertex is a number below plc_num_verts from which plc_cp_num and plc_vt_num recover the
    component and the vertex; and every number below plc_num_verts arises this way. *)
Theorem vertex_number_bijection : forall V K (L : plcurve V K),
  Forall (fun s => 0 <= s_nv s) (strands L) ->
  (forall cp vt s, 0 <= cp -> nth_error (strands L) (Z.to_nat cp) = Some s -> 0 <= vt < s_nv s ->
     exists w, plc_vertex_num L cp vt = Ok w /\ 0 <= w < plc_num_verts L /\
       plc_cp_num L w = Ok cp /\ plc_vt_num L w = Ok vt) /\
  (forall w, 0 <= w < plc_num_verts L ->
     exists cp vt s, plc_cp_num L w = Ok cp /\ plc_vt_num L w = Ok vt /\
       0 <= cp /\ nth_error (strands L) (Z.to_nat cp) = Some s /\ 0 <= vt < s_nv s /\
       plc_vertex_num L cp vt = Ok w).
Proof.
  intros V K L F.
  assert (A : forall cp vt s, 0 <= cp -> nth_error (strands L) (Z.to_nat cp) = Some s -> 0 <= vt < s_nv s ->
     let w := total (firstn (Z.to_nat cp) (strands L)) + vt in
     plc_vertex_num L cp vt = Ok w /\ 0 <= w < plc_num_verts L /\
       plc_cp_num L w = Ok cp /\ plc_vt_num L w = Ok vt).
  { intros cp vt s Hc Hs Hv w. rewrite (vertex_num_ok L cp vt s) by (auto; lia).
    assert (LD : landed s vt = vt).
    { unfold landed. destruct (s_open s). lia. apply Z.mod_small; lia. }
    rewrite LD. split; auto.
    pose proof (total_nonneg _ (firstn_nonneg _ (Z.to_nat cp) F)) as T1.
    assert (T2 : 0 <= total (skipn (S (Z.to_nat cp)) (strands L))).
    { apply total_nonneg. apply Forall_forall. intros x Hx. rewrite Forall_forall in F. apply F.
      rewrite <- (firstn_skipn (S (Z.to_nat cp)) (strands L)). apply in_or_app; auto. }
    pose proof (total_split _ _ _ Hs) as T3.
    assert (B : 0 <= w < plc_num_verts L) by (rewrite num_verts_total; unfold w; lia).
    split; auto. unfold plc_cp_num, plc_vt_num. rewrite (proj2 (Z.ltb_lt w _)) by lia. unfold w.
    rewrite (cp_loop_ok _ _ _ _ 0 F Hs Hv), (vt_loop_ok _ _ _ _ F Hs Hv). split; auto. f_equal. lia. }
  split.
  - intros cp vt s Hc Hs Hv. eexists. apply (A cp vt s); auto.
  - intros w Hw. rewrite num_verts_total in Hw. destruct (locate _ _ F Hw) as (k & s & v & B1 & B2 & B3).
    destruct (A (Z.of_nat k) v s) as (C1 & C2 & C3 & C4); try lia.
    { rewrite Nat2Z.id; auto. }
    rewrite Nat2Z.id in *. rewrite <- B3 in *.
    exists (Z.of_nat k), v, s. rewrite Nat2Z.id. repeat (split; auto; try lia).
Qed.

(** C43, addressing outside the range: wrap on a closed component, clamp on an open one,
    for every integer vertex number. *)
Theorem vertex_number_wrap_clamp : forall V K (L : plcurve V K) cp s vt,
  0 <= cp -> nth_error (strands L) (Z.to_nat cp) = Some s -> 1 <= s_nv s ->
  plc_vertex_num L cp vt =
  plc_vertex_num L cp (if s_open s then Z.max 0 (Z.min vt (s_nv s - 1)) else vt mod s_nv s).
Proof.
  intros V K L cp s vt Hc Hs Hn. rewrite !(vertex_num_ok L cp _ s) by auto. do 2 f_equal.
  unfold landed. destruct (s_open s). lia. symmetry. apply Z.mod_mod. lia.
Qed.

Example vertex_number_example :
  let L := mkPlc [mkStrand 3 true [0;0;1;2;0] []; mkStrand 4 false [0;5;6;7;8;0] []] ([] : list cst)
           : plcurve Z Z in
  Forall (fun s => 0 <= s_nv s) (strands L) /\
  plc_vertex_num L 1 (-3) = Ok 4 /\ plc_vertex_num L 0 7 = Ok 2 /\ plc_cp_num L 4 = Ok 1 /\
  plc_vt_num L 4 = Ok 1 /\ plc_num_verts L = 7.
Proof. cbn. split; [repeat constructor; cbn; lia|repeat split; reflexivity]. Qed.

(** C44.  On every curve whose components have at least two vertices plc_fix_wrap succeeds;
    afterwards each closed component is wrapped around and each open one mirrored at its
    ends; real vertices, colours, counts and constraints are untouched, components with two
    vertices have become open, and a second call changes nothing. *)
Theorem fix_wrap_correct : forall V K (L : plcurve V K),
  Forall strand_wf (strands L) ->
  exists L', plc_fix_wrap L = Ok L' /\ pcsts L' = pcsts L /\
    length (strands L') = length (strands L) /\
    (forall k s, nth_error (strands L) k = Some s ->
       exists s', nth_error (strands L') k = Some s' /\ s_nv s' = s_nv s /\ s_clr s' = s_clr s /\
         s_open s' = (s_open s || (s_nv s <? 3)) /\
         (forall i, 0 <= i < s_nv s -> vertex s' i = vertex s i) /\
         (if s_open s'
          then vertex s' (-1) = vertex s 1 /\ vertex s' (s_nv s) = vertex s (s_nv s - 2)
          else vertex s' (-1) = vertex s (s_nv s - 1) /\ vertex s' (s_nv s) = vertex s 0)) /\
    plc_fix_wrap L' = Ok L'.
Proof.
  intros V K [l cs] F. cbn [strands pcsts] in *. unfold plc_fix_wrap. cbn [strands pcsts].
  assert (A : exists l', fix_strands l = Ok l' /\ Forall strand_wf l' /\ Forall wrapped l' /\
    length l' = length l /\
    (forall k s, nth_error l k = Some s ->
       exists s', nth_error l' k = Some s' /\ s_nv s' = s_nv s /\ s_clr s' = s_clr s /\
         s_open s' = (s_open s || (s_nv s <? 3)) /\ strand_wf s /\ wrapped s' /\
         (forall i, 0 <= i < s_nv s -> vertex s' i = vertex s i))).
  { induction l as [|s l IH]; cbn [fix_strands].
    - exists []. repeat (split; auto). intros [|k] s; discriminate.
    - inversion F; subst. destruct (fix_strand_ok s H1) as (s' & B1 & B2 & B3 & B4 & B5 & B6 & B7).
      destruct (IH H2) as (l' & C1 & C2 & C3 & C4 & C5). rewrite B1. cbn [bind]. rewrite C1. cbn [bind].
      exists (s' :: l'). repeat (split; auto). cbn; auto.
      intros [|k] t Ht; cbn [nth_error] in *.
      + inversion Ht; subst. exists s'. auto 10.
      + apply C5; auto. }
  destruct A as (l' & A1 & A2 & A3 & A4 & A5). rewrite A1. cbn [bind].
  exists (mkPlc l' cs). cbn [strands pcsts]. split; auto. split; auto. split; auto. split.
  - intros k s Hs. destruct (A5 k s Hs) as (s' & B1 & B2 & B3 & B4 & B5 & B6 & B7).
    exists s'. repeat (split; auto). unfold wrapped in B6. rewrite B2 in B6. destruct B5 as [B5 _].
    destruct (s_open s').
    + destruct B6 as [B8 B9]. split; [rewrite B8|rewrite B9]; apply B7; lia.
    + destruct B6 as (_ & B8 & B9). split; [rewrite B8|rewrite B9]; apply B7; lia.
  - rewrite fix_strands_idem; auto.
Qed.

(** With a single vertex the wrap-around cells keep whatever was in the cell after the
    vertex: the hypothesis of two vertices is needed (plc_new allows one). *)
Theorem fix_wrap_single_vertex_refuted : exists (L L' : plcurve Z Z),
  strands L = [mkStrand 1 true [0; 7; 0] []] /\ plc_fix_wrap L = Ok L' /\
  strands L' = [mkStrand 1 true [0; 7; 0] []].
Proof. eexists (mkPlc _ []). eexists. split; [reflexivity|]. split; reflexivity. Qed.

Example fix_wrap_example :
  let L := mkPlc [mkStrand 3 true [0;1;2;3;0] []; mkStrand 4 false [0;5;6;7;8;0] []] ([] : list cst)
           : plcurve Z Z in
  Forall strand_wf (strands L) /\
  plc_fix_wrap L = Ok (mkPlc [mkStrand 3 true [2;1;2;3;2] []; mkStrand 4 false [8;5;6;7;8;5] []] []).
Proof. cbn. split; [repeat constructor; cbn; lia|reflexivity]. Qed.

(** C45.  Adding a component with at least two vertices to a curve whose wrap-around cells
    are up to date puts it at the given position and keeps all others in order; dropping
    that position gives the original curve back. *)
Theorem add_then_drop : forall V K (z : V) (L : plcurve V K) k op vt clr,
  Forall strand_wf (strands L) -> Forall wrapped (strands L) ->
  0 <= k <= Z.of_nat (length (strands L)) -> (2 <= length vt)%nat ->
  exists L' s, plc_add_component z L k op vt clr = Ok L' /\
    strands L' = firstn (Z.to_nat k) (strands L) ++ s :: skipn (Z.to_nat k) (strands L) /\
    s_nv s = Z.of_nat (length vt) /\ s_clr s = clr /\ s_open s = (op || (Nat.ltb (length vt) 3)) /\
    (forall i, (i < length vt)%nat -> vertex s (Z.of_nat i) = nth_error vt i) /\ wrapped s /\
    plc_drop_component L' k = Ok L.
Proof.
  intros V K z [l cs] k op vt clr F W Hk Hv. cbn [strands] in *. unfold plc_add_component. cbn [strands pcsts].
  rewrite (proj2 (Z.leb_le 1 _)), (proj2 (Z.leb_le 0 k)), (proj2 (Z.leb_le k _)) by lia.
  unfold plc_fix_wrap. cbn [strands pcsts]. rewrite fix_strands_app. cbn [fix_strands].
  assert (F1 : forall n, Forall strand_wf (firstn n l) /\ Forall wrapped (firstn n l) /\
                         Forall strand_wf (skipn n l) /\ Forall wrapped (skipn n l)).
  { intros n. rewrite <- (firstn_skipn n l) in F, W. apply Forall_app in F. apply Forall_app in W. tauto. }
  destruct (F1 (Z.to_nat k)) as (G1 & G2 & G3 & G4).
  rewrite (fix_strands_idem _ G1 G2). cbn [bind].
  set (s0 := mkStrand (Z.of_nat (length vt)) op (z :: vt ++ [z]) clr).
  destruct (fix_strand_ok s0) as (s & B1 & B2 & B3 & B4 & B5 & B6 & B7).
  { unfold strand_wf, s0. cbn [s_nv s_buf length]. rewrite app_length. cbn [length]. lia. }
  rewrite B1. cbn [bind]. rewrite (fix_strands_idem _ G3 G4). cbn [bind].
  eexists. exists s. split; [reflexivity|]. cbn [strands]. split; auto. split; auto. split; auto.
  split.
  { rewrite B6. unfold s0. cbn [s_open s_nv]. f_equal.
    destruct (Nat.ltb_spec (length vt) 3); [apply Z.ltb_lt|apply Z.ltb_ge]; lia. }
  split.
  { intros i Hi. rewrite B7 by (unfold s0; cbn [s_nv]; lia). unfold vertex, s0. cbn [s_buf].
    rewrite (proj2 (Z.ltb_ge _ _)) by lia. replace (Z.to_nat (Z.of_nat i + 1)) with (S i) by lia.
    cbn [nth_error]. apply nth_error_app1. auto. }
  split; auto. unfold plc_drop_component. cbn [strands pcsts].
  assert (LF : length (firstn (Z.to_nat k) l) = Z.to_nat k) by (rewrite firstn_length; lia).
  rewrite app_length, LF. cbn [length].
  rewrite (proj2 (Z.leb_le 0 k)), (proj2 (Z.ltb_lt k _)) by lia. f_equal. f_equal.
  rewrite firstn_app, LF, Nat.sub_diag. cbn [firstn]. rewrite app_nil_r.
  rewrite firstn_all2 by lia. rewrite skipn_app, LF.
  rewrite skipn_all2 by lia. replace (S (Z.to_nat k) - Z.to_nat k)%nat with 1%nat by lia.
  cbn [app skipn]. apply firstn_skipn.
Qed.

Example add_then_drop_example :
  let L := mkPlc [mkStrand 3 true [2;1;2;3;2] []; mkStrand 4 false [8;5;6;7;8;5] []] ([] : list cst)
           : plcurve Z Z in
  Forall strand_wf (strands L) /\ Forall wrapped (strands L) /\
  plc_add_component 0 L 1 false [10;11;12] [] =
    Ok (mkPlc [mkStrand 3 true [2;1;2;3;2] []; mkStrand 3 false [12;10;11;12;10] [];
               mkStrand 4 false [8;5;6;7;8;5] []] []).
Proof.
  cbn. split; [repeat constructor; cbn; lia|split; [|reflexivity]].
  repeat constructor; unfold wrapped; cbn; repeat split; lia.
Qed.

(** C45, constraint part: a component inserted in front of a constrained one receives its
    constraint, and the constrained component loses it; dropping a component leaves a
    constraint that names a component that no longer exists. *)
Theorem add_component_constraints_refuted : exists (L L' : plcurve Z Z) s,
  strands L = [s] /\
  plc_add_component 0 L 0 false [10; 11; 12] [] = Ok L' /\
  nth_error (strands L') 1 = Some s /\
  let nv := map s_nv (strands L) in let nv' := map s_nv (strands L') in
  constraint_at (mkCurve nv (pcsts L)) 0 1 <> None /\
  constraint_at (mkCurve nv' (pcsts L')) 1 1 = None /\
  constraint_at (mkCurve nv' (pcsts L')) 0 1 <> None.
Proof.
  exists (mkPlc [mkStrand 4 false [8;5;6;7;8;5] []] [mkCst Fixed (V3 6 6 6, V3 0 0 0) 0 1 1]).
  eexists. eexists. split; [reflexivity|]. split; [reflexivity|].
  split; [reflexivity|]. cbn. repeat split; discriminate.
Qed.

Theorem drop_component_constraints_refuted : exists (L L' : plcurve Z Z) c,
  list_ok (mkCurve (map s_nv (strands L)) (pcsts L)) /\
  plc_drop_component L 1 = Ok L' /\ In c (pcsts L') /\
  ~ ccmp c < Z.of_nat (length (strands L')).
Proof.
  exists (mkPlc [mkStrand 3 true [2;1;2;3;2] []; mkStrand 4 false [8;5;6;7;8;5] []]
            [mkCst Fixed (V3 6 6 6, V3 0 0 0) 1 1 1]).
  eexists. eexists. split.
  - apply wf_list_ok. split; [cbn; auto|]. constructor; [|constructor]. unfold cell_ok, cend. cbn.
    repeat split; try lia; discriminate.
  - split; [reflexivity|]. split; [left; reflexivity|]. intro H; vm_compute in H; discriminate.
Qed.

(** plc_copy returns an identical curve (all vertices including the wrap-around cells,
    colours, constraints) whenever no component has more colours than vertices. *)
Theorem plc_copy_identical : forall V K (z : V) (zc : K) (L : plcurve V K),
  strands L <> [] ->
  Forall (fun s => 1 <= s_nv s /\ Z.of_nat (length (s_buf s)) = s_nv s + 2 /\
                   Z.of_nat (length (s_clr s)) <= s_nv s) (strands L) ->
  plc_copy z zc L = Ok L.
Proof.
  intros V K z zc [l cs] NE F. cbn [strands] in *. unfold plc_copy. cbn [strands pcsts].
  rewrite (proj2 (Z.leb_le _ _)) by (destruct l; [congruence|cbn [length]; lia]).
  assert (A : copy_strands z zc l = Ok l).
  { clear NE. induction F as [|s l (H1 & H2 & H3) F IH]; cbn [copy_strands]; auto.
    rewrite copy_strand_ok by auto. cbn [bind]. rewrite IH. reflexivity. }
  rewrite A. cbn [bind]. rewrite map_id. reflexivity.
Qed.

Example plc_copy_example :
  let L := mkPlc [mkStrand 4 false [8;5;6;7;8;5] [1;2]] [mkCst Fixed (V3 6 6 6, V3 0 0 0) 0 1 1]
           : plcurve Z Z in
  strands L <> [] /\
  Forall (fun s => 1 <= s_nv s /\ Z.of_nat (length (s_buf s)) = s_nv s + 2 /\
                   Z.of_nat (length (s_clr s)) <= s_nv s) (strands L).
Proof. cbn. split; [discriminate|]. repeat constructor; cbn; lia. Qed.

Print Assumptions vertex_number_bijection.
Print Assumptions vertex_number_wrap_clamp.
Print Assumptions fix_wrap_correct.
Print Assumptions fix_wrap_single_vertex_refuted.
Print Assumptions add_then_drop.
Print Assumptions add_component_constraints_refuted.
Print Assumptions drop_component_constraints_refuted.
Print Assumptions plc_copy_identical.
