(** Specification for isomorphisms as transformations: what an isomorphism does to each part of a
    diagram. *)
From Coq Require Import List Bool Arith.
From Verif Require Import Base Iterators Perm PermProofs PdIso.
Import ListNotations.
Open Scope nat_scope.

(** product of two orientation changes *)
Definition times (a b : orient) : orient := if orient_eqb a b then Pos else Neg.
Definition sign_like (o : orient) : Prop := o = Pos \/ o = Neg.

(** the things an isomorphism moves: components, edges with a direction of travel, crossings,
    faces, and the two ways round as seen at the crossings and at the faces *)
Inductive thing :=
| TComp (c : nat) | TDart (e : nat) (o : orient) | TCross (x : nat) | TFace (f : nat)
| TSpin (o : orient) | TRound (o : orient).

Definition act (A : iso) (t : thing) : thing :=
  match t with
  | TComp c => TComp (nth c (pmap (i_comp A)) 0)
  | TDart e o => TDart (nth e (pmap (em_perm (i_edge A))) 0) (times (nth e (em_or (i_edge A)) Pos) o)
  | TCross x => match i_cross A with Some m => TCross (nth x (pmap (om_perm m)) 0) | None => TCross x end
  | TFace f => TFace (nth f (pmap (om_perm (i_face A))) 0)
  | TSpin o => match i_cross A with Some m => TSpin (times (om_or m) o) | None => TSpin o end
  | TRound o => TRound (times (om_or (i_face A)) o)
  end.

(** the things of a diagram with these numbers of components, edges, crossings and faces *)
Definition thing_of (nc ne nx nf : nat) (t : thing) : Prop :=
  match t with
  | TComp c => c < nc
  | TDart e o => e < ne /\ sign_like o
  | TCross x => x < nx
  | TFace f => f < nf
  | TSpin o | TRound o => sign_like o
  end.

(** an isomorphism between diagrams with these numbers of parts *)
Definition good_edgemap (n : nat) (m : edgemap) : Prop :=
  is_perm (em_perm m) /\ pn (em_perm m) = n /\ length (em_or m) = n /\ Forall sign_like (em_or m).
Definition good_ormap (n : nat) (m : ormap) : Prop :=
  is_perm (om_perm m) /\ pn (om_perm m) = n /\ sign_like (om_or m).
Record good_iso (nc ne nx nf : nat) (A : iso) : Prop := {
  gi_comp : is_perm (i_comp A); gi_ncomp : pn (i_comp A) = nc;
  gi_edge : good_edgemap ne (i_edge A);
  gi_cross : exists m, i_cross A = Some m /\ good_ormap nx m;
  gi_face : good_ormap nf (i_face A) }.
