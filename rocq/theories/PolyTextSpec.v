(** Specification: tables of coefficients in the notation of lmpoly, and polynomials in LaTeX. *)
From Coq Require Import List NArith ZArith Bool Arith String Sorted.
From Verif Require Import Base TextIO Poly PolySpec.
Import ListNotations.
Open Scope string_scope.
Open Scope list_scope.
Open Scope nat_scope.

(** An integer in decimal notation. *)
Definition decimal (z : Z) : text := match z with Zneg p => 45 :: show (Npos p) | _ => show (Z.to_N z) end.

(** The coefficients of one power of the second variable: those of the negative powers of the first in increasing order,
    that of the power 0, and those of the positive powers. *)
Record row := mkRow { r_neg : list Z; r_mid : Z; r_pos : list Z }.
(** A table: the rows in increasing order and the number of rows before that of the power 0. *)
Record table := mkTable { t_rows : list row; t_before : nat }.
Definition row_entry (r : row) (l : Z) : Z :=
  if Z.ltb l 0 then (if Z.ltb (Z.of_nat (List.length (r_neg r)) + l) 0 then 0%Z else nth (Z.to_nat (Z.of_nat (List.length (r_neg r)) + l)) (r_neg r) 0%Z)
  else if Z.eqb l 0 then r_mid r else nth (Z.to_nat (l - 1)) (r_pos r) 0%Z.
Definition entry (T : table) (l m : Z) : Z :=
  if Z.ltb (m + Z.of_nat (t_before T)) 0 then 0%Z
  else match nth_error (t_rows T) (Z.to_nat (m + Z.of_nat (t_before T))) with Some r => row_entry r l | None => 0%Z end.
(** The notation of lmpoly: coefficients are separated by spaces, the one of power 0 is in brackets, the row of power 0 is in
    brackets again, and every row is followed by the letter N.  For example [-1 0 -2 0 [0]]N[0]N1 0 [0]N *)
Definition row_text (r : row) : text :=
  flat_map (fun z => decimal z ++ txt " ") (r_neg r) ++ txt "[" ++ decimal (r_mid r) ++ txt "]" ++ flat_map (fun z => txt " " ++ decimal z) (r_pos r).
Fixpoint rows_text (j : nat) (before : nat) (rs : list row) : text :=
  match rs with
  | [] => []
  | r :: rs' => (if j =? before then txt "[" ++ row_text r ++ txt "]" else row_text r) ++ txt "N" ++ rows_text (j + 1) before rs'
  end.
Definition table_text (T : table) : text := rows_text 0 (t_before T) (t_rows T) ++ txt " ".
Definition row_entries (r : row) : list Z := r_neg r ++ r_mid r :: r_pos r.
Definition entries (T : table) : list Z := flat_map row_entries (t_rows T).
Definition small (z : Z) : Prop := (-2147483648 <= z <= 2147483647)%Z.
Definition nonzeros (T : table) : nat := List.length (filter (fun z => negb (Z.eqb z 0)) (entries T)).
Definition spaces (t : text) : nat := count_occ Nat.eq_dec t 32.

(** A list of terms in normal form: no coefficient is 0 and the exponents increase. *)
Definition normal (p : poly) : Prop := Forall (fun t => coeff t <> 0%Z) p /\ StronglySorted key_lt p.

(** LaTeX: a term without its sign *)
Definition power_text (x : text) (e : Z) : text := if Z.eqb e 0 then [] else x ++ txt "^{" ++ decimal e ++ txt "}".
Definition term_text (t : mono) : text :=
  (if Z.eqb (Z.abs (coeff t)) 1 && negb (Z.eqb (lexp t) 0 && Z.eqb (mexp t) 0) then [] else decimal (Z.abs (coeff t))) ++
  power_text (txt "a") (lexp t) ++ power_text (txt "z") (mexp t).
Definition latex_text (p : poly) : text :=
  match p with
  | [] => []
  | t :: p' => (if Z.ltb (coeff t) 0 then txt "-" else []) ++ term_text t ++
               flat_map (fun t => (if Z.ltb (coeff t) 0 then txt " - " else txt " + ") ++ term_text t) p'
  end.
(** Mathematica: every coefficient and exponent in parentheses *)
Definition math_power (x : text) (e : Z) : text := if Z.eqb e 0 then [] else txt "*" ++ x ++ txt "^(" ++ decimal e ++ txt ")".
Definition math_term_text (t : mono) : text := txt "(" ++ decimal (coeff t) ++ txt ")" ++ math_power (txt "a") (lexp t) ++ math_power (txt "z") (mexp t).
Definition math_text (p : poly) : text :=
  match p with
  | [] => []
  | t :: p' => math_term_text t ++ flat_map (fun t => txt " + " ++ math_term_text t) p'
  end.
(** A table the exponents of which are in the range of int, and so are the coefficients and their absolute values. *)
Definition fits (T : table) : Prop :=
  (Z.of_nat (List.length (t_rows T)) <= 2147483647)%Z /\
  Forall (fun r => (Z.of_nat (List.length (r_neg r)) <= 2147483647)%Z /\ (Z.of_nat (List.length (r_pos r)) <= 2147483647)%Z) (t_rows T) /\
  Forall (fun z => (Z.abs z <= 2147483647)%Z) (entries T).
