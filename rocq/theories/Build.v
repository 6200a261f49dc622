(** Model of the functions that build families of diagrams (src/pdcode_testcodes.c lines 35-460) and of pd_code_new and
    pd_build_cross (src/pdcode.c lines 45-79 and 231-241).  Numbers are not bounded: the sums and products of indices are
    computed in the program modulo 2^32. *)
From Coq Require Import List ZArith Bool Arith.
From Verif Require Import Base Iterators Pd PdEdges PdComps PdFaces PdHash PdRegen PdOps OverUnder Moves.
Import ListNotations.
Open Scope nat_scope.
Open Scope res_scope.

(** pd_code_new, src/pdcode.c lines 45-79 *)
Definition pd_code_new (mv : nat) : res pd :=
  assert (negb (mv =? 0));
  Ok (mkPd (if mv =? 1 then 2 else mv) 0 [32] [] [] [] []).

(** pd_build_cross, src/pdcode.c lines 231-241: the sign is set to 0, which is PD_NEG_ORIENTATION *)
Definition pd_build_cross (e0 e1 e2 e3 : nat) : crossing := mkCross e0 e1 e2 e3 Neg.

(** a sequence of assignments pd->cross[i] = x *)
Fixpoint put_all (ws : list (nat * crossing)) (cs : list crossing) : res (list crossing) :=
  match ws with
  | [] => Ok cs
  | (i, x) :: ws' => if i <? length cs then put_all ws' (upd i x cs) else UB
  end.
(** pd = pd_code_new(n); pd->ncross = n; and the assignments.  The array comes from calloc. *)
Definition with_crossings (n : nat) (ws : list (nat * crossing)) : res pd :=
  do d <- pd_code_new n;
  do cs <- put_all ws (repeat (mkCross 0 0 0 0 Neg) (p_maxv d));
  Ok (with_cross d (firstn n cs)).
(** pd->cross[k].sign = PD_POS_ORIENTATION for all k *)
Definition all_positive (d : pd) : pd := with_cross d (map (fun x => set_sign x Pos) (p_cross d)).
(** the common end of all these functions: lines 80-93, 171-187, 288-304 and 437-454 *)
Definition make_positive (d : pd) : res pd :=
  do d <- pd_regenerate d;
  let d := all_positive d in
  do b <- pd_ok d;
  assert b;
  Ok d.

(** pd_build_twist_knot, lines 35-96 *)
Definition twist_writes (n : nat) : list (nat * crossing) :=
  let N := n + 2 in
  if N =? 3 then [(0, pd_build_cross 0 5 3 1); (1, pd_build_cross 0 1 2 4); (2, pd_build_cross 2 3 5 4)]
  else [(0, pd_build_cross 0 1 2 (2 * N - 2)); (1, pd_build_cross 0 (2 * N - 1) 3 1)] ++
       map (fun i => (i + 1, pd_build_cross (2 * i) (2 * i + 1) (2 * i + 3) (2 * i + 2))) (seq 1 n).
Definition pd_build_twist_knot (n : nat) : res pd :=
  assert (negb (n <? 1));
  do d <- with_crossings (n + 2) (twist_writes n);
  make_positive d.

(** pd_build_torus_knot, lines 98-190 *)
Definition torus_writes (q : nat) : list (nat * crossing) :=
  (0, if negb (q mod 2 =? 0) then pd_build_cross 0 (q - 1) (2 * q - 1) q else pd_build_cross 0 (2 * q - 1) (q - 1) q) ::
  map (fun i =>
    if i mod 2 =? 0 then
      let k := i / 2 in
      (2 * k, pd_build_cross (2 * k) ((2 * k + q - 1) mod (2 * q)) ((2 * k - 1) mod (2 * q)) ((2 * k + q) mod (2 * q)))
    else
      let k := (i - 1) / 2 in
      (2 * k + 1, pd_build_cross ((2 * k + q + 1) mod (2 * q)) (2 * k) ((2 * k + q) mod (2 * q)) ((2 * k + 1) mod (2 * q))))
    (seq 1 (q - 1)).
Definition pd_build_torus_knot (p q : nat) : res pd :=
  assert (p =? 2);
  assert (negb (q <? 2));
  do d <- with_crossings (q * (p - 1)) (torus_writes q);
  make_positive d.

(** pd_build_unknot, lines 309-460; pd_build_unknot0 is in OverUnder.v and pd_build_unknot1 in Moves.v *)
Definition unknot_writes (n : nat) : list (nat * crossing) :=
  [(0, pd_build_cross 0 0 3 2); (n - 1, pd_build_cross 1 1 (2 * n - 2) (2 * n - 1))] ++
  map (fun i => (i, pd_build_cross (2 * i) (2 * i + 1) (2 * i + 3) (2 * i + 2))) (seq 1 (n - 2)).
Definition pd_build_unknot (n : nat) : res pd :=
  if n =? 0 then pd_build_unknot0
  else if n =? 1 then pd_build_unknot1
  else
    do d <- with_crossings n (unknot_writes n);
    make_positive d.

(** pd_build_simple_chain, lines 193-307 *)
Definition chain_of_two : pd :=
  mkPd 2 0 [32] [mkEdge 1 0 0 0; mkEdge 0 2 1 2; mkEdge 0 1 1 3; mkEdge 1 1 0 3] [mkCross 0 2 1 3 Pos; mkCross 0 3 1 2 Pos] [] [].
Definition chain_writes (n : nat) : list (nat * crossing) :=
  if n =? 3 then
    [(0, pd_build_cross 0 2 1 5); (1, pd_build_cross 0 5 1 4); (2, pd_build_cross 2 6 3 7); (3, pd_build_cross 3 6 4 7)]
  else
    [(0, pd_build_cross 0 1 5 4); (1, pd_build_cross 0 6 5 1)] ++
    flat_map (fun i => [(2 * i, pd_build_cross (4 * i) (4 * i + 3) (4 * i + 5) (4 * i + 4));
                        (2 * i + 1, pd_build_cross (4 * i + 2) (4 * i + 6) (4 * i + 5) (4 * i + 3))]) (seq 1 (n - 2)) ++
    [(2 * n - 4, pd_build_cross 2 3 (4 * n - 8) (4 * n - 5)); (2 * n - 3, pd_build_cross 2 (4 * n - 5) (4 * n - 6) 3)].
Definition pd_build_simple_chain (n : nat) : res pd :=
  assert (negb (n =? 0));
  if n =? 1 then pd_build_unknot 0
  else if n =? 2 then
    do d <- pd_regenerate_comps chain_of_two;
    do d <- pd_regenerate_faces d;
    do d <- pd_regenerate_hash d;
    do b <- pd_ok d;
    assert b;
    Ok d
  else
    do d <- with_crossings (2 * (n - 1)) (chain_writes n);
    make_positive d.
