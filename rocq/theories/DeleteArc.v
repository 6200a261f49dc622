(** Model of plc_delete_arc (src/plCurve.c lines 2896-3006), on the strands and buffers of PlcStrands.v.  No overflow of int is assumed. *)
From Coq Require Import List ZArith Bool.
From Verif Require Import Base PlcConstraints PlcStrands.
Import ListNotations.
Open Scope Z_scope.
Open Scope res_scope.

Section DeleteArc.
Context {V K : Type}.

(** the loops [for(vt = 0; vt < n; vt++) newL->cp[cp].vt[vt] = L->cp[cp].vt[src(vt)]], lines 2933-2937, 2976-2980 and 2992-2996 *)
Fixpoint move_loop (n : nat) (vt : Z) (src : Z -> Z) (old new : list V) : res (list V) :=
  match n with O => Ok new | S n' => do v <- vget old (src vt); do b <- vset new vt v; move_loop n' (vt + 1) src old b end.

(** plc_remove_all_constraints, lines 739-751 (the quantifiers are not modelled) *)
Definition remove_all_constraints (L : plcurve V K) : plcurve V K := mkPlc (strands L) [].

(** plc_delete_arc.  The component keeps its buffer and its colors when nv is changed; memory left over is not modelled.
    [z] and [zc] are what calloc leaves in new vertices and colors. *)
Definition delete_arc (z : V) (zc : K) (L : plcurve V K) (cp vt1 vt2 : Z) : res (plcurve V K) :=
  do newL <- plc_copy z zc L;
  let newL := remove_all_constraints newL in
  if cp <? 0 then UB else
  match nth_error (strands L) (Z.to_nat cp), nth_error (strands newL) (Z.to_nat cp) with
  | Some s, Some n =>
      let nv := s_nv s in
      let put nL s' := mkPlc (upd (Z.to_nat cp) s' (strands nL)) (pcsts nL) in
      if s_open s then
        if vt2 <? vt1 then Ok newL
        else if vt1 <=? 0 then
          if nv - 1 <=? vt2 then do newL <- plc_drop_component newL cp; plc_fix_wrap newL
          else
            do b <- move_loop (Z.to_nat (nv - vt2)) 0 (fun vt => vt + vt2 + 1) (s_buf s) (s_buf n);
            plc_fix_wrap (put newL (mkStrand (nv - (vt2 + 1)) (s_open n) b (s_clr n)))
        else if nv - 1 <=? vt2 then plc_fix_wrap (put newL (mkStrand vt1 (s_open n) (s_buf n) (s_clr n)))
        else
          do newL <- plc_add_component z newL (cp + 1) true (firstn (Z.to_nat (nv - (vt2 + 1))) (skipn (Z.to_nat (vt2 + 2)) (s_buf s))) [];
          match nth_error (strands newL) (Z.to_nat cp) with
          | None => UB
          | Some n => plc_fix_wrap (put newL (mkStrand vt1 (s_open n) (s_buf n) (s_clr n)))
          end
      else
        if (vt1 =? vt2 + 1) || ((vt1 <=? 0) && (nv - 1 <=? vt2)) then do newL <- plc_drop_component newL cp; plc_fix_wrap newL
        else
          let nv' := if vt1 <=? vt2 then s_nv n - ((vt2 - vt1) + 1) else vt1 - vt2 - 1 in
          do b <- move_loop (Z.to_nat nv') 0 (fun vt => Z.rem (vt + vt2 + 1) nv) (s_buf s) (s_buf n);
          plc_fix_wrap (put newL (mkStrand nv' true b (s_clr n)))
  | _, _ => UB
  end.
End DeleteArc.
