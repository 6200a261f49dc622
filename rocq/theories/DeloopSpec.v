(** Specification of the removal of a loop. *)
From Coq Require Import List Arith ZArith.
From Verif Require Import Base Iterators Pd PdSpec Relabel Strands RegenSpec Planar Thm_Faces.
Import ListNotations.
Open Scope nat_scope.

(** The strand runs along e0 into crossing c, out of it along e1, back along e1 to a place of c next to the one
    where it left, and out along e2. *)
Definition loop_here (d : pd) (c e0 e1 e2 : nat) : Prop :=
  exists E0 E1 E2 p q, edge_at d e0 E0 /\ edge_at d e1 E1 /\ edge_at d e2 E2 /\ p < 4 /\ q < 4 /\
    head_slot E0 = (c, (q + 2) mod 4) /\ tail_slot E1 = (c, q) /\ head_slot E1 = (c, p) /\ tail_slot E2 = (c, (p + 2) mod 4) /\
    (p = (q + 1) mod 4 \/ q = (p + 1) mod 4).

(** [d'] is [d] without the loop at [c]: crossing c and edges e1, e2 are gone and e0 ends where e2 ended.
    Crossing v becomes [kc v], starting [rho v] places further on, and edge x becomes [ke x]. *)
Record loop_removed (d d' : pd) (c e0 e1 e2 : nat) (kc rho ke : nat -> nat) : Prop := {
  lr_ncross : ncross d = S (ncross d');
  lr_nedges : nedges d = nedges d' + 2;
  lr_loop : loop_here d c e0 e1 e2;
  lr_diff : e0 <> e2;
  lr_kc : forall v, v < ncross d -> v <> c -> kc v < ncross d';
  lr_kc_inj : forall v w, v < ncross d -> v <> c -> w < ncross d -> w <> c -> kc v = kc w -> v = w;
  lr_ke : forall x, x < nedges d -> x <> e1 -> x <> e2 -> ke x < nedges d';
  lr_ke_inj : forall x y, x < nedges d -> x <> e1 -> x <> e2 -> y < nedges d -> y <> e1 -> y <> e2 -> ke x = ke y -> x = y;
  lr_rho : forall v, v < ncross d -> v <> c -> rho v < 4;
  lr_slot : forall v p x, v <> c -> slot d v p x -> slot d' (kc v) (snd (moved kc rho v p)) (ke (if x =? e2 then e0 else x));
  lr_sign : forall v s, v <> c -> sign_at d v s -> sign_at d' (kc v) s;
  lr_edge : forall x X, x <> e0 -> x <> e1 -> x <> e2 -> edge_at d x X -> exists X', edge_at d' (ke x) X' /\
    head_slot X' = moved kc rho (e_head X) (e_headpos X) /\ tail_slot X' = moved kc rho (e_tail X) (e_tailpos X);
  lr_join : forall E0 E2, edge_at d e0 E0 -> edge_at d e2 E2 -> exists X', edge_at d' (ke e0) X' /\
    head_slot X' = moved kc rho (e_head E2) (e_headpos E2) /\ tail_slot X' = moved kc rho (e_tail E0) (e_tailpos E0) }.

(** what the move needs of a diagram, and what it keeps *)
Definition tags_fine (d : pd) : Prop :=
  NoDup (map cp_tag (p_comp d)) /\
  (forall t t', In t (map cp_tag (p_comp d)) -> In t' (map cp_tag (p_comp d)) -> (t < t')%Z -> (65 <= t')%Z).
Record workable (d : pd) : Prop := {
  wk_some : 0 < ncross d;
  wk_room : ncross d <= p_maxv d;
  wk_recorded : ends_recorded d;
  wk_through : goes_through d;
  wk_ends : two_ended d;
  wk_comps : numbered_along d;
  wk_ncomps : ncomps d <= MAXCOMPONENTS d;
  wk_tags : tags_fine d;
  wk_faces : face_partition d (p_face d);
  wk_nfaces : nfaces d = ncross d + 2;
  wk_connected : connected d }.

(** The components of [d'] are those of [d], with their tags, without the removed edges, renamed and possibly in
    another order. *)
Definition kept_edges (e1 e2 : nat) (l : list nat) : list nat := filter (fun x => negb ((x =? e1) || (x =? e2))) l.
