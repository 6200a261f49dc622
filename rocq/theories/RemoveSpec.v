(** Specification of the removal of crossings from a diagram. *)
From Coq Require Import List Arith ZArith.
From Verif Require Import Base Iterators Pd PdSpec Relabel.
Import ListNotations.
Open Scope nat_scope.

(** From edge [x] the strand leads to edge [y] through crossings of [gone] only. *)
Inductive leads (d : pd) (gone : list nat) (x : nat) : nat -> Prop :=
| leads_here : leads d gone x x
| leads_on : forall y z Y, leads d gone x y -> edge_at d y Y -> In (e_head Y) gone -> continues d y z -> leads d gone x z.

(** [d'] is [d] without the crossings in [gone]: the strands run on where they were.  Crossing v becomes [kc v],
    starting [rho v] places further on.  The edge x that leaves a crossing that stays becomes the edge [ke x],
    which ends where the strand arrives at the next crossing that stays. *)
Record crossings_removed (d d' : pd) (gone : list nat) (kc rho ke : nat -> nat) : Prop := {
  cr_nodup : NoDup gone;
  cr_gone : forall v, In v gone -> v < ncross d;
  cr_ncross : ncross d = ncross d' + length gone;
  cr_recorded : ends_recorded d';
  cr_kc : forall v, v < ncross d -> ~ In v gone -> kc v < ncross d';
  cr_kc_inj : forall v w, v < ncross d -> ~ In v gone -> w < ncross d -> ~ In w gone -> kc v = kc w -> v = w;
  cr_rho : forall v, v < ncross d -> ~ In v gone -> rho v < 4;
  cr_ke_inj : forall x X y Y, edge_at d x X -> ~ In (e_tail X) gone -> edge_at d y Y -> ~ In (e_tail Y) gone -> ke x = ke y -> x = y;
  cr_sign : forall v s, ~ In v gone -> sign_at d v s -> sign_at d' (kc v) s;
  cr_ends : forall x X, edge_at d x X -> ~ In (e_tail X) gone -> exists y Y, leads d gone x y /\ edge_at d y Y /\ ~ In (e_head Y) gone;
  cr_edge : forall x X y Y, edge_at d x X -> ~ In (e_tail X) gone -> leads d gone x y -> edge_at d y Y -> ~ In (e_head Y) gone ->
    exists X', edge_at d' (ke x) X' /\ tail_slot X' = moved kc rho (e_tail X) (e_tailpos X) /\ head_slot X' = moved kc rho (e_head Y) (e_headpos Y) }.
