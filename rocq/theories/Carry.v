(** Specification: diagrams that differ by renumbering, by reversing some edges and by changing some
    signs. *)
From Coq Require Import List ZArith Bool Arith.
From Verif Require Import Base Iterators Perm Pd PdSpec Relabel PdFaces PdHash PdIso RegenSpec.
Import ListNotations.
Open Scope nat_scope.

Definition opp (o : orient) : orient := match o with Pos => Neg | Neg => Pos | Unset => Unset end.

(** [d'] is [d] with crossing [c] renamed to [sigma c] and turned by [rho c] places, edge [e] renamed to
    [pi e] and reversed if [F e], and the sign of crossing [c] changed if [G c] *)
Record carried (d d' : pd) (sigma rho pi : nat -> nat) (F G : nat -> bool) : Prop := {
  ca_ncross : ncross d' = ncross d;
  ca_nedges : nedges d' = nedges d;
  ca_sigma : bij_on (ncross d) sigma;
  ca_rho : forall c, c < ncross d -> rho c < 4;
  ca_pi : bij_on (nedges d) pi;
  ca_slot : forall c p e, slot d c p e -> slot d' (sigma c) (snd (moved sigma rho c p)) (pi e);
  ca_sign : forall c s, sign_at d c s -> sign_at d' (sigma c) (if G c then opp s else s);
  ca_edge : forall e E, edge_at d e E -> exists E', edge_at d' (pi e) E' /\
    head_slot E' = (if F e then moved sigma rho (e_tail E) (e_tailpos E) else moved sigma rho (e_head E) (e_headpos E)) /\
    tail_slot E' = (if F e then moved sigma rho (e_head E) (e_headpos E) else moved sigma rho (e_tail E) (e_tailpos E)) }.

(** diagrams as pd_regenerate leaves them *)
Record tidy (d : pd) : Prop := {
  td_some : 0 < ncross d;
  td_room : ncross d <= p_maxv d;
  td_regular : regular d;
  td_faces : pd_regenerate_faces d = Ok d;
  td_hash : pd_regenerate_hash d = Ok d }.

(** no two crossings have the same edges in the same cyclic order, and no crossing has the same edge at
    opposite places *)
Definition crossings_differ (d : pd) : Prop :=
  (forall c c' k, c < ncross d -> c' < ncross d -> c <> c' ->
     ~ forall p e, slot d c p e -> slot d c' ((p + k) mod 4) e) /\
  forall c p e, slot d c p e -> ~ slot d c ((p + 2) mod 4) e.

(** where an edge map takes the edges from: edge [e] of the result is edge [source m e], reversed if
    [turns m e] *)
Definition source (m : edgemap) (e : nat) : nat := nth e (pmap (em_perm m)) 0.
Definition turns (m : edgemap) (e : nat) : bool := orient_eqb (nth e (em_or m) Pos) Neg.
(** consecutive edges come from consecutive edges, in the same order or, if reversed, in the opposite
    order *)
Definition follows_strands (d : pd) (m : edgemap) : Prop :=
  forall a b, continues d a b -> turns m a = turns m b /\
    if turns m a then continues d (source m b) (source m a) else continues d (source m a) (source m b).
