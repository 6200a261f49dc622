(** Model of pd_regenerate (src/pdcode.c lines 2069-2128). *)
From Coq Require Import List ZArith Bool Arith.
From Verif Require Import Base Iterators Pd PdCross PdEdges PdComps PdFaces PdHash.
Import ListNotations.
Open Scope nat_scope.
Open Scope res_scope.

(** the loop on lines 2092-2100 *)
Definition all_signs_unset (d : pd) : bool := forallb (fun c => orient_eqb (csign c) Unset) (p_cross d).

(** pd->cross[i].sign = PD_UNSET_ORIENTATION for all i, lines 2110-2114 *)
Definition drop_sign (c : crossing) : crossing := mkCross (ce0 c) (ce1 c) (ce2 c) (ce3 c) Unset.
Definition drop_signs (d : pd) : pd := with_cross d (map drop_sign (p_cross d)).

(** lines 2102-2122 *)
Definition regenerate_edges_if_needed (d : pd) : res pd :=
  if all_signs_unset d then pd_regenerate_edges d
  else do b <- pd_edges_ok d; if b : bool then Ok d else pd_regenerate_edges (drop_signs d).

(** pd_regenerate, src/pdcode.c lines 2069-2128 *)
Definition pd_regenerate (d : pd) : res pd :=
  do d1 <- pd_regenerate_crossings d;
  do d2 <- regenerate_edges_if_needed d1;
  do d3 <- pd_regenerate_comps d2;
  do d4 <- pd_regenerate_faces d3;
  pd_regenerate_hash d4.
