(** Model of the linear systems of src/matrix.c (lines 37-52, 54-192 and 194-260).  Doubles are real numbers; NaN and infinity are UB, as in
    Sampler.v.  An array is a function from its indices; all indices of the code are in range, except those read from [index] in
    solve_linear, which are checked. *)
From Coq Require Import Reals List Bool Arith.
From Verif Require Import Base Sampler Hopf Fan.
Import ListNotations.
Open Scope R_scope.
Open Scope res_scope.

Definition matrix := nat -> nat -> R.
Definition set1 {A} (f : nat -> A) (i : nat) (x : A) : nat -> A := fun a => if Nat.eqb a i then x else f a.
Definition set2 (m : matrix) (i j : nat) (x : R) : matrix := fun a b => if Nat.eqb a i && Nat.eqb b j then x else m a b.
(** for(k=i;k<j;k++) *)
Definition loop {S} (i j : nat) (f : nat -> S -> S) (s : S) : S := fold_left (fun s k => f k s) (seq i (j - i)) s.

(** plc_build_matrix, lines 37-52 *)
Definition coord (v : V3) (i : nat) : R := match i with O => c0 v | S O => c1 v | _ => c2 v end.
Definition build_matrix (row0 row1 row2 : V3) : matrix := fun i => coord (match i with O => row0 | S O => row1 | _ => row2 end).

Record lu := mkLU { cvt : matrix; vv : nat -> R; index : nat -> nat; sgn : R }.
Definition TINY : R := / 100000000000000000000.

(** the scaling of row [i], lines 93-111: None if the row is zero *)
Definition row_big (c : matrix) (i : nat) : R := loop 0 3 (fun j big => if Rlt_dec big (Rabs (c i j)) then Rabs (c i j) else big) 0.
Fixpoint scalings (rows : list nat) (c : matrix) (vv : nat -> R) : res (option (nat -> R)) :=
  match rows with
  | [] => Ok (Some vv)
  | i :: rows => if Req_EM_T (row_big c i) 0 then Ok None else do v <- rdiv 1 (row_big c i); scalings rows c (set1 vv i v)
  end.

(** a column, lines 115-184 *)
Definition less_dot (c : matrix) (i j n : nat) : R := loop 0 n (fun k sum => sum - c i k * c k j) (c i j).
Definition upper (j : nat) (c : matrix) : matrix := loop 0 j (fun i c => set2 c i j (less_dot c i j i)) c.
Definition search (j : nat) (vv : nat -> R) (c : matrix) (imax : nat) : matrix * R * nat :=
  loop j 3 (fun i cbi => let '(c, big, imax) := cbi in
    let c := set2 c i j (less_dot c i j j) in
    let dum := vv i * Rabs (c i j) in
    if Rle_dec big dum then (c, dum, i) else (c, big, imax)) (c, 0, imax).
Definition swap_rows (c : matrix) (a b : nat) : matrix :=
  loop 0 3 (fun k c => let dum := c a k in let c := set2 c a k (c b k) in set2 c b k dum) c.
Definition column (j : nat) (imax : nat) (s : lu) : res (lu * nat) :=
  let c := upper j (cvt s) in
  let '(c, _, imax) := search j (vv s) c imax in
  let s := if negb (Nat.eqb j imax)
           then mkLU (swap_rows c imax j) (set1 (set1 (vv s) imax (vv s j)) j (vv s imax))
                     (set1 (set1 (index s) j (index s imax)) imax (index s j)) (- sgn s)
           else mkLU c (vv s) (index s) (sgn s) in
  let c := if Req_EM_T (cvt s j j) 0 then set2 (cvt s) j j TINY else cvt s in
  if Nat.eqb j 2 then Ok (mkLU c (vv s) (index s) (sgn s), imax) else
  do dum <- rdiv 1 (c j j);
  Ok (mkLU (loop (j + 1) 3 (fun i c => set2 c i j (c i j * dum)) c) (vv s) (index s) (sgn s), imax).

(** lu_decmp, lines 54-192: the matrix (None is NULL), index and d; what is written to ok (None is nothing).
    imax is -1 before the first column, but always set there; it is 0 here. *)
Definition lu_decmp (A : matrix) : res (option (matrix * (nat -> nat) * R) * option bool) :=
  do v <- scalings [0; 1; 2]%nat A (fun _ => 0);
  match v with
  | None => Ok (None, Some false)
  | Some v =>
      do s <- column 0 0 (mkLU A v (fun i => i) 1);
      do s <- column 1 (snd s) (fst s);
      do s <- column 2 (snd s) (fst s);
      Ok (Some (cvt (fst s), index (fst s), sgn (fst s)), None)
  end.

(** solve_linear, lines 194-260 *)
Fixpoint back (n : nat) (LU : matrix) (B : nat -> R) : res (nat -> R) :=
  match n with
  | O => Ok B
  | S i => let sum := loop (i + 1) 3 (fun j sum => sum - LU i j * B j) (B i) in do q <- rdiv sum (LU i i); back i LU (set1 B i q)
  end.
Definition solve_linear (LU : matrix) (index : nat -> nat) (b : V3) : res V3 :=
  if negb (forallb (fun i => Nat.ltb (index i) 3) [0; 1; 2]%nat) then UB else
  let B := fun i => coord b (index i) in
  let B := loop 0 3 (fun i B => set1 B i (loop 0 i (fun j sum => sum - LU i j * B j) (B i))) B in
  do B <- back 3 LU B;
  Ok (mkV (B 0%nat) (B 1%nat) (B 2%nat)).

(** plc_matrix_vector_multiply, lines 262-277 *)
Definition matrix_vector_multiply (A : matrix) (x : V3) : V3 :=
  let Ax := loop 0 3 (fun i Ax => loop 0 3 (fun j Ax => set1 Ax i (Ax i + A i j * coord x j)) Ax) (fun _ => 0) in
  mkV (Ax 0%nat) (Ax 1%nat) (Ax 2%nat).
