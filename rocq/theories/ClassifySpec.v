(** Specification: what bsearch promises, and knot types with their prime factors. *)
From Coq Require Import List ZArith Bool Arith Ascii String Sorted.
From Verif Require Import Base TextIO Poly PolySpec KtTable Classify.
Import List ListNotations.
Open Scope nat_scope.

(** The C standard asks for a table in the order of the comparison, and promises to find a row that compares equal. *)
Definition in_order (rows : list knottype) : Prop := StronglySorted (fun a b => (homcmp a b <= 0)%Z) rows.
Definition searches (bsearch : text -> list knottype -> option nat) : Prop :=
  forall k rows, in_order rows ->
    match bsearch k rows with
    | Some i => exists r, nth_error rows i = Some r /\ k_homfly r = k
    | None => forall r, In r rows -> k_homfly r <> k
    end.
(** The rows of the table with a given text, in the order of the table. *)
Definition rows_with (h : text) : list knottype := filter (fun r => if list_eq_dec Nat.eq_dec (k_homfly r) h then true else false) ktdb.

(** A prime factor: the name in the tables of knots (crossing number and index) and the symmetry tag. *)
Record factor := mkF { f_cr : nat; f_ind : nat; f_sym : string }.
Fixpoint factors_of (cr ind : list nat) (sym : list string) : list factor :=
  match cr, ind, sym with
  | c :: cr', i :: ind', s :: sym' => mkF c i s :: factors_of cr' ind' sym'
  | _, _, _ => []
  end.
Definition factors (r : knottype) : list factor := factors_of (k_cr r) (k_ind r) (k_sym r).
Definition crossings (fs : list factor) : nat := list_sum (map f_cr fs).
(** a factor that is a row of the table itself *)
Definition prime_row (r : knottype) (f : factor) : Prop := In r ktdb /\ factors r = [f].
(** whether a tag contains a reflection: (-1,1,e) or (-1,-1,e) *)
Definition reflected (f : factor) : bool := match f_sym f with String _ (String c _) => Ascii.eqb c "-"%char | _ => false end.

(** The coefficients of the product of several polynomials. *)
Fixpoint product_coef (ps : list poly) : Z -> Z -> Z :=
  match ps with
  | [] => fun l m => if (Z.eqb l 0 && Z.eqb m 0)%bool then 1%Z else 0%Z
  | p :: ps' => convolve p (product_coef ps')
  end.
