(** Model of the test for self-avoiding polygons (src/plcRandomSap.c lines 143-213). *)
From Coq Require Import List NArith ZArith QArith Bool Arith.
From Verif Require Import Base Nearest.
Import ListNotations.
Open Scope nat_scope.

(** 1.0 - 1e-10 *)
Definition sap_bound : Q := (1 - (1 # 10000000000))%Q.
(** the loops on lines 157-183: a vertex against the ones before it; [false] is returned only within if (verbose) *)
Fixpoint close_before (verbose : bool) (v : vec) (before : list vec) : bool :=
  match before with
  | [] => false
  | u :: before' => (Qltb (sq_dist v u) sap_bound && verbose) || close_before verbose v before'
  end.
Fixpoint same_component (verbose : bool) (before : list vec) (vs : list vec) : bool :=
  match vs with
  | [] => true
  | v :: vs' => if close_before verbose v before then false else same_component verbose (before ++ [v]) vs'
  end.
(** the loops on lines 185-203: no distance is tested *)
Definition two_components (verbose : bool) (a b : list vec) : bool :=
  match a, b with _ :: _, _ :: _ => negb verbose | _, _ => true end.
(** plc_is_sap_internal: the component against the ones before it and itself *)
Fixpoint sap_components (verbose : bool) (before : list (list vec)) (L : list (list vec)) : bool :=
  match L with
  | [] => true
  | c :: L' => forallb (fun b => two_components verbose c b) before && same_component verbose [] c && sap_components verbose (before ++ [c]) L'
  end.
Definition plc_is_sap_internal (L : list (list vec)) (verbose : bool) : bool := sap_components verbose [] L.
(** plc_is_sap, lines 209-213 *)
Definition plc_is_sap (L : list (list vec)) : bool := plc_is_sap_internal L false.
