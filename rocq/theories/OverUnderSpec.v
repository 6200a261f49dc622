(** Specification: how strands pass over and under each other at crossings. *)
From Coq Require Import List ZArith Bool Arith.
From Verif Require Import Base Iterators Pd PdSpec Relabel.
Import ListNotations.
Open Scope nat_scope.

(** edge [e] ends, or starts, at place [p] of crossing [c] *)
Definition arrives (d : pd) (c p e : nat) : Prop := exists E, edge_at d e E /\ head_slot E = (c, p).
Definition departs (d : pd) (c p e : nat) : Prop := exists E, edge_at d e E /\ tail_slot E = (c, p).

(** At crossing [c], read with sign [s], the upper strand runs straight from place [oi] to place
    [oo] and the lower one from [ui] to [uo].  Places are numbered counterclockwise.  The sign is
    negative when the lower strand crosses the upper one from left to right, so that its exit is
    the next place clockwise; otherwise it is the next place counterclockwise. *)
Definition over_under (d : pd) (c : nat) (s : orient) (oi oo ui uo : nat) : Prop :=
  (exists e, arrives d c oi e) /\ (exists e, departs d c oo e) /\
  (exists e, arrives d c ui e) /\ (exists e, departs d c uo e) /\
  oo = (oi + 2) mod 4 /\ uo = (ui + 2) mod 4 /\
  uo = (oo + match s with Neg => 3 | _ => 1 end) mod 4.

(** the place belongs to the upper (lower) strand of its crossing *)
Definition over_at (d : pd) (c p : nat) : Prop :=
  exists s oi oo ui uo, sign_at d c s /\ over_under d c s oi oo ui uo /\ (p = oi \/ p = oo).
Definition under_at (d : pd) (c p : nat) : Prop :=
  exists s oi oo ui uo, sign_at d c s /\ over_under d c s oi oo ui uo /\ (p = ui \/ p = uo).

Definition all_signed (d : pd) : Prop := forall c s, sign_at d c s -> s <> Unset.

(** along every component the passages at consecutive crossings are alternately over and under *)
Definition passes_over (d : pd) (e : nat) : Prop := exists E, edge_at d e E /\ over_at d (e_head E) (e_headpos E).
Definition passes_under (d : pd) (e : nat) : Prop := exists E, edge_at d e E /\ under_at d (e_head E) (e_headpos E).
Definition alternates (d : pd) : Prop :=
  forall C, In C (p_comp d) ->
    cyclically (fun a b => passes_over d a /\ passes_under d b \/ passes_under d a /\ passes_over d b) (cp_edge C).

(** the strands that meet at a crossing belong to components [i] and [j] *)
Definition on_comp (d : pd) (e i : nat) : Prop := exists C, nth_error (p_comp d) i = Some C /\ In e (cp_edge C).
Definition meets (d : pd) (i j cr : nat) : Prop :=
  exists e p f q, arrives d cr p e /\ arrives d cr q f /\ p <> q /\ on_comp d e i /\ on_comp d f j.

(** sums of the signs of crossings, counted as +1 and -1 *)
Definition sign_of (d : pd) (c : nat) : Z :=
  match nth_error (p_cross d) c with
  | Some x => match csign x with Pos => 1 | Neg => -1 | Unset => 0 end
  | None => 0
  end.
Definition sum_signs (d : pd) (l : list nat) : Z := fold_right (fun c t => sign_of d c + t)%Z 0%Z l.
