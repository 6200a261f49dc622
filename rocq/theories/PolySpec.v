(** Laurent polynomials in two variables, as functions from exponents to coefficients. *)
From Coq Require Import List Bool ZArith.
From Verif Require Import Poly.
Import ListNotations.
Open Scope Z_scope.

(** the coefficient of a^l z^m in the polynomial written as a list of terms *)
Definition coef (p : poly) (l m : Z) : Z :=
  fold_right (fun t s => (if (lexp t =? l) && (mexp t =? m) then coeff t else 0) + s) 0 p.
(** the coefficient of a^l z^m in the product of p and a polynomial with coefficients g *)
Definition convolve (p : poly) (g : Z -> Z -> Z) (l m : Z) : Z :=
  fold_right (fun t s => coeff t * g (l - lexp t) (m - mexp t) + s) 0 p.
Definition same_key (a b : mono) : Prop := lexp a = lexp b /\ mexp a = mexp b.
Definition key_lt (a b : mono) : Prop := lexp a < lexp b \/ (lexp a = lexp b /\ mexp a < mexp b).
