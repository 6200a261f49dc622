(** Specification: the action of the Whitten group on curves. *)
From Coq Require Import List ZArith Bool Arith.
From Verif Require Import Base PlcConstraints PlcStrands PlcStrandsProofs.
Import ListNotations.
Open Scope nat_scope.

(** the array [arr] of twice as many entries as there are components writes the permutation [p]: the first occurrence of a
    number is followed by its image, and numbers that do not occur are fixed *)
Definition writes_perm (nc : nat) (arr : list Z) (p : nat -> nat) : Prop :=
  length arr = 2 * nc /\
  forall i, i < nc ->
    (~ In (Z.of_nat i) arr /\ p i = i) \/
    exists k, nth_error arr k = Some (Z.of_nat i) /\ nth_error arr (k + 1) = Some (Z.of_nat (p i)) /\
      forall j, j < k -> nth_error arr j <> Some (Z.of_nat i).
Definition permutes (nc : nat) (p : nat -> nat) : Prop :=
  (forall i, i < nc -> p i < nc) /\ (forall i j, i < nc -> j < nc -> p i = p j -> i = j).
Definition plus_minus (e : Z) : Prop := e = 1%Z \/ e = (-1)%Z.
(** component [s'] is [s], mirrored if [m] is -1 and run through backwards if [e] is -1 *)
Definition carried {V K} (flip : V -> V) (m e : Z) (s s' : strand V K) : Prop :=
  s_nv s' = s_nv s /\ s_open s' = s_open s /\
  (forall i, (0 <= i < s_nv s)%Z ->
     vertex s' i = option_map (if Z.eqb m (-1) then flip else fun v => v) (vertex s (if Z.eqb e (-1) then s_nv s - 1 - i else i)%Z)) /\
  s_clr s' = (if Z.eqb e (-1) && Z.eqb (Z.of_nat (length (s_clr s))) (s_nv s) then rev (s_clr s) else s_clr s).
(** [L'] is e_0 (e_1 K_p(1), ..., e_n K_p(n)), where K_1, ..., K_n are the components of [L] *)
Definition whitten_image {V K} (flip : V -> V) (m : Z) (eps : list Z) (p : nat -> nat) (L L' : plcurve V K) : Prop :=
  length (strands L') = length (strands L) /\
  forall i s e, i < length (strands L) -> nth_error (strands L) (p i) = Some s -> nth_error eps i = Some e ->
    exists s', nth_error (strands L') i = Some s' /\ carried flip m e s s'.
(** components with two or more vertices and correct wrap-around vertices *)
Definition curve_ok {V K} (L : plcurve V K) : Prop := Forall strand_wf (strands L) /\ Forall wrapped (strands L).
