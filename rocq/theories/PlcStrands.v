(** Model of strands, wrap-around vertices, vertex numbering and adding/dropping
    components (src/plCurve.c). *)
From Coq Require Import List ZArith Lia Bool.
From Verif Require Import Base PlcConstraints.
Import ListNotations.
Open Scope Z_scope.
Open Scope res_scope.

(** plc_strand, src/plCurve.h lines 102-108.  [buf] is the allocated vertex buffer of nv+2
    cells; the field [vt] points at its second cell, so [vt[i]] is cell [i+1].
    [V] is the type of a vertex (plc_vector), [K] of a color. *)
Record strand (V K : Type) := mkStrand {
  s_nv : Z; s_open : bool; s_buf : list V; s_clr : list K }.
Arguments mkStrand {V K}.
Arguments s_nv {V K}. Arguments s_open {V K}. Arguments s_buf {V K}. Arguments s_clr {V K}.

(** plCurve, src/plCurve.h: strands and constraint list (quantifiers and the symmetry
    group are not modelled). *)
Record plcurve (V K : Type) := mkPlc { strands : list (strand V K); pcsts : list cst }.
Arguments mkPlc {V K}. Arguments strands {V K}. Arguments pcsts {V K}.

Section Strands.
Context {V K : Type}.
Notation strand := (strand V K).
Notation plcurve := (plcurve V K).

(** [cp.vt[i]] as an rvalue and as an lvalue. *)
Definition vget (b : list V) (i : Z) : res V :=
  if 0 <=? i + 1 then
    match nth_error b (Z.to_nat (i + 1)) with Some v => Ok v | None => UB end
  else UB.

Definition vset (b : list V) (i : Z) (v : V) : res (list V) :=
  if (0 <=? i + 1) && (i + 1 <? Z.of_nat (length b)) then Ok (upd (Z.to_nat (i + 1)) v b) else UB.

(** Body of the loop of plc_fix_wrap, src/plCurve.c lines 1140-1153. *)
Definition fix_strand (s : strand) : res strand :=
  let nv := s_nv s in
  let open := if nv <? 3 then true else s_open s in
  if open then
    do a <- vget (s_buf s) 1;
    do b1 <- vset (s_buf s) (-1) a;
    do c <- vget b1 (nv - 2);
    do b2 <- vset b1 nv c;
    Ok (mkStrand nv open b2 (s_clr s))
  else
    do a <- vget (s_buf s) (nv - 1);
    do b1 <- vset (s_buf s) (-1) a;
    do c <- vget b1 0;
    do b2 <- vset b1 nv c;
    Ok (mkStrand nv open b2 (s_clr s)).

Fixpoint fix_strands (l : list strand) : res (list strand) :=
  match l with
  | [] => Ok []
  | s :: l' => do s' <- fix_strand s; do r <- fix_strands l'; Ok (s' :: r)
  end.

(** plc_fix_wrap, src/plCurve.c lines 1137-1155. *)
Definition plc_fix_wrap (L : plcurve) : res plcurve :=
  do l <- fix_strands (strands L); Ok (mkPlc l (pcsts L)).

(** plc_add_component, src/plCurve.c lines 2028-2073.  [z] is the zero vector calloc
    leaves in the two wrap-around cells. *)
Definition plc_add_component (z : V) (L : plcurve) (add_as : Z) (open : bool) (vt : list V)
  (clr : list K) : res plcurve :=
  let nv := Z.of_nat (length vt) in
  assert (1 <=? nv);
  assert (0 <=? add_as);
  assert (add_as <=? Z.of_nat (length (strands L)));
  let k := Z.to_nat add_as in
  let s := mkStrand nv open (z :: vt ++ [z]) clr in
  plc_fix_wrap (mkPlc (firstn k (strands L) ++ s :: skipn k (strands L)) (pcsts L)).

(** plc_drop_component, src/plCurve.c lines 2076-2095: the constraint list is not
    touched. *)
Definition plc_drop_component (L : plcurve) (cmp : Z) : res plcurve :=
  assert (0 <=? cmp);
  assert (cmp <? Z.of_nat (length (strands L)));
  let k := Z.to_nat cmp in
  Ok (mkPlc (firstn k (strands L) ++ skipn (S k) (strands L)) (pcsts L)).

(** plc_num_verts, src/plCurve.c lines 1514-1522 (no overflow of int assumed). *)
Definition plc_num_verts (L : plcurve) : Z :=
  fold_left (fun a s => a + s_nv s) (strands L) 0.

(** macro strand_edges and plc_num_edges, src/plCurve.c lines 1478-1490. *)
Definition strand_edges (s : strand) : Z := if s_open s then s_nv s - 1 else s_nv s.
Definition plc_num_edges (L : plcurve) : Z :=
  fold_left (fun a s => a + strand_edges s) (strands L) 0.

(** [for(wrapVt = vt; wrapVt < 0; wrapVt += nv);] of plc_vertex_num, line 1539. *)
Fixpoint wrap_up (fuel : nat) (v nv : Z) : res Z :=
  match fuel with
  | O => Fuel
  | S f => if v <? 0 then wrap_up f (v + nv) nv else Ok v
  end.

(** plc_vertex_num, src/plCurve.c lines 1527-1547.  [Z.rem] is C's remainder. *)
Definition plc_vertex_num (L : plcurve) (cp vt : Z) : res Z :=
  if cp <? 0 then UB else
  match nth_error (strands L) (Z.to_nat cp) with
  | None => UB
  | Some s =>
      do w <- (if s_open s then
                 Ok (if vt <? 0 then 0 else if s_nv s - 1 <? vt then s_nv s - 1 else vt)
               else
                 do w0 <- wrap_up (S (Z.to_nat (- vt))) vt (s_nv s);
                 if s_nv s =? 0 then UB else Ok (Z.rem w0 (s_nv s)));
      Ok (fold_left (fun a s' => a + s_nv s') (firstn (Z.to_nat cp) (strands L)) w)
  end.

(** Loops of plc_cp_num (lines 1549-1566) and plc_vt_num (lines 1568-1584); running off
    the end is exit(1). *)
Fixpoint cp_loop (l : list strand) (i w : Z) : res Z :=
  match l with
  | [] => Fail
  | s :: l' => let w' := w - s_nv s in if w' <? 0 then Ok i else cp_loop l' (i + 1) w'
  end.
Definition plc_cp_num (L : plcurve) (w : Z) : res Z :=
  assert (w <? plc_num_verts L);
  cp_loop (strands L) 0 w.

Fixpoint vt_loop (l : list strand) (w : Z) : res Z :=
  match l with
  | [] => Fail
  | s :: l' => if w <? s_nv s then Ok w else vt_loop l' (w - s_nv s)
  end.
Definition plc_vt_num (L : plcurve) (w : Z) : res Z :=
  assert (w <? plc_num_verts L);
  vt_loop (strands L) w.

(** plc_new, src/plCurve.c lines 66-120, for one strand: calloc'd vertices and colors. *)
Definition new_strand (z : V) (zc : K) (nv : Z) (open : bool) (cc : Z) : strand :=
  mkStrand nv open (repeat z (Z.to_nat (nv + 2))) (repeat zc (Z.to_nat cc)).

(** Copy loop [for (cnt2 = -1; cnt2 <= nv; cnt2++) new.vt[cnt2] = old.vt[cnt2]],
    src/plCurve.c lines 1850-1852. *)
Fixpoint copy_loop (n : nat) (i : Z) (old new : list V) : res (list V) :=
  match n with
  | O => Ok new
  | S n' => do v <- vget old i; do b <- vset new i v; copy_loop n' (i + 1) old b
  end.

(** [for (cnt2 = 0; cnt2 < cc; cnt2++) new.clr[cnt2] = old.clr[cnt2]], lines 1853-1855;
    both buffers have cc cells, so this is a copy. *)
Definition copy_strand (z : V) (zc : K) (s : strand) : res strand :=
  assert (Z.of_nat (length (s_clr s)) <=? s_nv s);
  assert (1 <=? s_nv s);
  let n := new_strand z zc (s_nv s) (s_open s) (Z.of_nat (length (s_clr s))) in
  do b <- copy_loop (Z.to_nat (s_nv s + 2)) (-1) (s_buf s) (s_buf n);
  Ok (mkStrand (s_nv n) (s_open n) b (s_clr s)).

Fixpoint copy_strands (z : V) (zc : K) (l : list strand) : res (list strand) :=
  match l with
  | [] => Ok []
  | s :: l' => do s' <- copy_strand z zc s; do r <- copy_strands z zc l'; Ok (s' :: r)
  end.

(** plc_copy, src/plCurve.c lines 1804-1881 (the symmetry group is not modelled; the
    constraint list is copied cell by cell). *)
Definition plc_copy (z : V) (zc : K) (L : plcurve) : res plcurve :=
  assert (1 <=? Z.of_nat (length (strands L)));
  do l <- copy_strands z zc (strands L);
  Ok (mkPlc l (map (fun c => c) (pcsts L))).

End Strands.
