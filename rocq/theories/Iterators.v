(** Model of the cyclic, dihedral and orientation iterators (src/pd_cyclic.c,
    src/pd_dihedral.c, src/pd_orientation.c) and of the multi-index (src/pd_multidx.c). *)
From Coq Require Import List ZArith Lia Bool Arith.
From Verif Require Import Base.
Import ListNotations.
Open Scope res_scope.

(** pd_or_t, src/plcTopology.h: PD_POS_ORIENTATION = 1, PD_NEG_ORIENTATION = 0,
    PD_UNSET_ORIENTATION = 2 (other byte values are not represented). *)
Inductive orient := Pos | Neg | Unset.

Definition orient_eqb (a b : orient) : bool :=
  match a, b with Pos, Pos | Neg, Neg | Unset, Unset => true | _, _ => false end.

(** The loop "for(swap = map[0],i=0;i<n-1;i++) map[i] = map[i+1]; map[n-1] = swap;" of
    pd_increment_cyclic (src/pd_cyclic.c lines 162-164) and pd_increment_dihedral
    (src/pd_dihedral.c lines 219-221). *)
Definition shift_loop (m : list nat) : list nat :=
  let n := length m in
  let m' := fold_left (fun b i => upd i (nth (i + 1) b 0) b) (seq 0 (n - 1)) m in
  upd (n - 1) (nth 0 m 0) m'.

(** pd_new_cyclic, src/pd_cyclic.c lines 44-60 *)
Definition pd_new_cyclic (n : nat) : list nat := seq 0 n.

(** pd_increment_cyclic, src/pd_cyclic.c lines 143-168.  For n = 0 the loop bound n-1 wraps
    and map[0] does not exist: undefined. *)
Definition pd_increment_cyclic (m : list nat) : res (list nat) :=
  if length m =? 0 then UB
  else if length m =? 1 then Ok m
  else Ok (shift_loop m).

(** pd_ncyclics, src/pd_cyclic.c lines 171-178 *)
Definition pd_ncyclics (m : list nat) : nat := length m.

Definition in_range (m : list nat) : bool := forallb (fun x => x <? length m) m.
Fixpoint distinct (l : list nat) : bool :=
  match l with
  | [] => true
  | x :: l' => negb (existsb (Nat.eqb x) l') && distinct l'
  end.
(** adjacent entries go up, or are (n-1, 0): src/pd_cyclic.c lines 216-224 *)
Fixpoint goes_up (n : nat) (m : list nat) : bool :=
  match m with
  | x :: ((y :: _) as m') =>
      negb ((y <=? x) && negb ((x =? n - 1) && (y =? 0))) && goes_up n m'
  | _ => true
  end.
(** adjacent entries go down, or are (0, n-1): src/pd_dihedral.c lines 276-284 *)
Fixpoint goes_down (n : nat) (m : list nat) : bool :=
  match m with
  | x :: ((y :: _) as m') =>
      negb ((x <=? y) && negb ((x =? 0) && (y =? n - 1))) && goes_down n m'
  | _ => true
  end.

(** pd_cyclic_ok, src/pd_cyclic.c lines 181-228 (n >= 1) *)
Definition pd_cyclic_ok (m : list nat) : bool :=
  in_range m && distinct m && goes_up (length m) m.

(** struct pd_dihedral_struct, src/pd_dihedral.h *)
Record dihedral := mkD { dmap : list nat; dor : orient }.

(** pd_new_dihedral, src/pd_dihedral.c lines 46-65 *)
Definition pd_new_dihedral (n : nat) : dihedral := mkD (seq 0 n) Pos.

(** pd_increment_dihedral, src/pd_dihedral.c lines 170-225 *)
Definition pd_increment_dihedral (d : dihedral) : res dihedral :=
  let n := length (dmap d) in
  if n =? 0 then UB
  else if n =? 1 then
    match dor d with
    | Pos => Ok (mkD (dmap d) Neg)
    | Neg => Ok (mkD (dmap d) Pos)
    | Unset => Fail
    end
  else if orient_eqb (dor d) Pos && (nth 0 (dmap d) 0 =? n - 1) then
    Ok (mkD (0 :: map (fun i => n - i) (seq 1 (n - 1))) Neg)
  else if orient_eqb (dor d) Neg && (nth 0 (dmap d) 0 =? 1) then
    Ok (mkD (seq 0 n) Pos)
  else Ok (mkD (shift_loop (dmap d)) (dor d)).

(** pd_ndihedrals, src/pd_dihedral.c lines 228-235 *)
Definition pd_ndihedrals (d : dihedral) : nat := 2 * length (dmap d).

(** pd_dihedral_ok, src/pd_dihedral.c lines 238-305 (n >= 1) *)
Definition pd_dihedral_ok (d : dihedral) : bool :=
  in_range (dmap d) && distinct (dmap d) &&
  match dor d with
  | Unset => false
  | Neg => goes_down (length (dmap d)) (dmap d)
  | Pos => goes_up (length (dmap d)) (dmap d)
  end.

(** pd_increment_orientation, src/pd_orientation.c lines 95-116 (on an invalid value it
    prints an error and returns). *)
Definition pd_increment_orientation (o : orient) : res orient :=
  match o with Pos => Ok Neg | Neg => Ok Pos | Unset => Ok Unset end.
Definition pd_new_orientation : orient := Pos.
Definition pd_norientations : nat := 2.

(** * Multi-index *)
Section Multidx.
(** the object type and its incr operation (pd_iterops_t, src/pd_multidx.h lines 67-80) *)
Variable obj : Type.
Variable incr : obj -> res obj.
Variable nvals : obj -> nat.

(** one entry of the parallel arrays obj[], i[], nvals[] of pd_multidx_t *)
Record cell := mkCell { cobj : obj; ci : nat; cn : nat }.

(** pd_new_multidx, src/pd_multidx.c lines 52-83: the argument is the list of objects
    made by ops.new from initialdata *)
Definition pd_new_multidx (objs : list obj) : list cell :=
  map (fun o => mkCell o 0 (nvals o)) objs.

(** first loop of pd_increment_multidx, src/pd_multidx.c lines 129-133: number of cells, from
    the right, ready to roll over (argument: cells from right to left); nvals-1 is unsigned,
    so nvals = 0 is never "ready" *)
Fixpoint ready (l : list cell) : nat :=
  match l with
  | [] => 0
  | c :: l' => if negb (cn c =? 0) && (ci c =? cn c - 1) then S (ready l') else 0
  end.

(** body of the second loop, src/pd_multidx.c lines 146-147 *)
Definition bump (c : cell) : res cell :=
  if cn c =? 0 then UB else
  do o <- incr (cobj c); Ok (mkCell o ((ci c + 1) mod cn c) (cn c)).

Fixpoint bump_all (l : list cell) : res (list cell) :=
  match l with
  | [] => Ok []
  | c :: l' => do c' <- bump c; do r <- bump_all l'; Ok (c' :: r)
  end.

(** pd_increment_multidx, src/pd_multidx.c lines 117-151 *)
Definition pd_increment_multidx (l : list cell) : res (list cell) :=
  let rr := ready (rev l) in
  let rr := if rr <? length l then rr + 1 else rr in
  do t <- bump_all (skipn (length l - rr) l);
  Ok (firstn (length l - rr) l ++ t).

(** pd_multidx_nvals, src/pd_multidx.c lines 153-168, with 32-bit wrap-around *)
Definition pd_multidx_nvals (l : list cell) : Z :=
  fold_left (fun acc c => (acc * Z.of_nat (cn c)) mod 2 ^ 32)%Z l 1%Z.
End Multidx.
Arguments mkCell {obj}. Arguments cobj {obj}. Arguments ci {obj}. Arguments cn {obj}.
Arguments pd_new_multidx {obj}. Arguments pd_increment_multidx {obj}. Arguments pd_multidx_nvals {obj}.
Arguments ready {obj}. Arguments bump {obj}. Arguments bump_all {obj}.
