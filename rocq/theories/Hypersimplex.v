(** Model of src/hypersimplex_sampling.c.  Simplification: doubles are modelled by rational numbers, so there is
    no rounding.  The random numbers are inputs, as in KAscent.v. *)
From Coq Require Import List ZArith QArith Bool Arith.
From Verif Require Import Base Pd KAscent.
Import ListNotations.
Open Scope nat_scope.
Open Scope res_scope.

(** psi_inverse, src/hypersimplex_sampling.c lines 48-73 *)
Fixpoint psi_rest (prev : Q) (y : list Q) : list Q :=
  match y with
  | [] => []
  | a :: y' => (if negb (Qle_bool a prev) then a - prev else a - prev + 1)%Q :: psi_rest a y'
  end.
Definition psi_inverse (y : list Q) : res (list Q) :=
  match y with
  | [] => UB
  | a :: y' => Ok (a :: psi_rest a y')
  end.

(** the partial sums of lines 131-137 *)
Fixpoint partial_sums (acc : Q) (theta : list Q) : list Q :=
  match theta with
  | [] => []
  | t :: theta' => (acc + t)%Q :: partial_sums (acc + t)%Q theta'
  end.
(** the loop of lines 147-154: the numbers sorted_x[perm[i]-1] *)
Fixpoint reads (sx : list Q) (l : list nat) : res (list Q) :=
  match l with
  | [] => Ok []
  | p :: l' => if p =? 0 then UB else do v <- get sx (p - 1); do vs <- reads sx l'; Ok (v :: vs)
  end.
(** hypersimplex_sample, lines 75-169, called with n = length theta; [theta] is what gsl_ran_dirichlet
    returns: positive numbers with sum 1 *)
Definition hypersimplex_sample (k : nat) (theta : list Q) (ds : list bool) (ps : list nat)
  : res (list Q * (list bool * list nat)) :=
  let n := length theta in
  let sorted_x := partial_sums 0%Q (firstn (n - 1) theta) in
  do r <- random_k_descent (n - 1) (k - 1) ds ps;
  do x <- reads sorted_x (fst r);
  do y <- psi_inverse x;
  Ok (y, snd r).

(** hypercube_slice_sample, lines 171-215: [tries] are the attempts, each n-1 numbers drawn from [0,1) *)
Fixpoint qsum (l : list Q) : Q := match l with [] => 0 | a :: l' => a + qsum l' end%Q.
Fixpoint cube_slice (left : nat) (tries : list (list Q)) {struct tries} : res (list Q) :=
  match tries with
  | [] => Fuel
  | us :: tries' =>
      let buffer := map (fun u => 2 * u - 1)%Q us in
      let sum := qsum buffer in
      let rejected := negb (Qle_bool (- (1)) sum) || negb (Qle_bool sum 1) in
      match left with
      | 0 => Fail (* assert(tries <= 1000000) *)
      | S left' => if rejected then cube_slice left' tries' else Ok (buffer ++ [(- sum)%Q])
      end
  end.

(** hypercube_slice_sample_old, lines 218-320: the linear map applied to a sample *)
Definition slice_of (y : list Q) : list Q :=
  let z := map (fun v => 2 * v - 1)%Q y in z ++ [(- qsum z)%Q].
Definition hypercube_slice_old_even (theta : list Q) (ds : list bool) (ps : list nat) : res (list Q) :=
  do r <- hypersimplex_sample (length theta / 2) theta ds ps; Ok (slice_of (fst r)).
(** one turn of the loop for odd n: [None] if it has to be repeated *)
Definition hypercube_slice_old_odd (up : bool) (theta : list Q) (ds : list bool) (ps : list nat) : res (option (list Q)) :=
  let n := length theta in
  do r <- hypersimplex_sample (if up then n / 2 + 1 else n / 2) theta ds ps;
  let z := slice_of (fst r) in
  let zn := last z 0%Q in
  Ok (if negb (Qle_bool (- (1)) zn) || negb (Qle_bool zn 1) then None else Some z).
