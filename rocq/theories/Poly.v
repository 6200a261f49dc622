(** Model of the HOMFLY polynomial arithmetic of src/polynomials.c.
    Simplification: coefficients and exponents are unbounded integers; in C they are ints (a result outside
    their range is undefined there), and monomial_cmp subtracts them. *)
From Coq Require Import List Bool ZArith.
From Verif Require Import Base Sorting.
Import ListNotations.
Open Scope Z_scope.

(** monomial_t (src/polynomials.h 33-39): coeff * a^l * z^m *)
Record mono := mkM { coeff : Z; lexp : Z; mexp : Z }.
Definition poly := list mono.

(** monomial_cmp, lines 34-54 *)
Definition monomial_cmp (a b : mono) : Z :=
  if negb (lexp a =? lexp b) then lexp a - lexp b
  else if negb (mexp a =? mexp b) then mexp a - mexp b
  else coeff a - coeff b.
Definition mono_le (a b : mono) : bool := monomial_cmp a b <=? 0.

(** product_polynomial, lines 332-395: all products of terms ... *)
Definition mono_mul (a b : mono) : mono := mkM (coeff a * coeff b) (lexp a + lexp b) (mexp a + mexp b).
Definition raw_product (A B : poly) : poly := flat_map (fun a => map (mono_mul a) B) A.
(** ... and the loop that adds up the sorted terms with equal exponents ([cur] is mono[nFin]) *)
Fixpoint collect (cur : mono) (rest : poly) : poly :=
  match rest with
  | [] => [cur]
  | x :: rest' =>
      if (mexp x =? mexp cur) && (lexp x =? lexp cur)
      then collect (mkM (coeff cur + coeff x) (lexp cur) (mexp cur)) rest'
      else cur :: collect x rest'
  end.
(** without any products, rawProduct[0] and mono[0] are outside their empty buffers *)
Definition product (A B : poly) : res poly :=
  match isort mono_le (raw_product A B) with
  | [] => UB
  | x :: rest => Ok (collect x rest)
  end.

(** polynomials_eq, lines 692-715 (it also leaves its arguments sorted) *)
Fixpoint all_zero (A B : poly) : bool :=
  match A, B with
  | a :: A', b :: B' => (monomial_cmp a b =? 0) && all_zero A' B'
  | _, _ => true
  end.
Definition polynomials_eq (A B : poly) : bool :=
  if negb (length A =? length B)%nat then false
  else all_zero (isort mono_le A) (isort mono_le B).
