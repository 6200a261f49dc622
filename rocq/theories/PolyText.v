(** Model of the conversion of HOMFLY polynomials from the output of lmpoly and to LaTeX (src/polynomials.c lines 57-328). *)
From Coq Require Import List NArith ZArith Lia Bool Arith String.
From Verif Require Import Base Pd PdCross Sorting TextIO Poly.
Import ListNotations.
Open Scope string_scope.
Open Scope list_scope.
Open Scope nat_scope.
Open Scope res_scope.

(** the characters [ ] N and space *)
Definition ch_open := 91. Definition ch_close := 93. Definition ch_N := 78. Definition ch_sp := 32.
Definition int_range (z : Z) : bool := Z.leb (- 2147483648) z && Z.leb z 2147483647.
(** sscanf with %d at a character that is not white space; a number outside of the range of int is undefined *)
Definition scan_int (s : text) : option Z :=
  let '(neg, s) := match s with
                   | c :: s' => if c =? 43 then (false, s') else if c =? 45 then (true, s') else (false, s)
                   | [] => (false, [])
                   end in
  match s with
  | c :: _ => if isdigit c then let v := Z.of_N (fst (read_digits 0 s)) in Some (if neg : bool then - v else v)%Z else None
  | [] => None
  end.

(** initiallpower, lines 57-77: each round skips white space and a block of other characters *)
Fixpoint skip_block (s : text) : text :=
  match s with
  | c :: s' => if isspace c then s else skip_block s'
  | [] => []
  end.
Fixpoint initial_loop (fuel : nat) (s : text) (pwr : Z) : res Z :=
  match fuel with
  | 0 => Fuel
  | S f =>
      match s with
      | [] => Ok pwr
      | c :: _ =>
          if c =? ch_open then Ok pwr
          else
            match skip s with
            | [] => Ok pwr
            | c' :: s' => if c' =? ch_open then Ok pwr else initial_loop f (skip_block (c' :: s')) (pwr - 1)
            end
      end
  end.
Definition initiallpower (s : text) : res Z := initial_loop (List.length s + 1) s 0.

(** lines 124-158: start, end, itflag and initialmpower *)
Fixpoint find_mid (s : text) (i : nat) (depth : Z) (start fin : nat) (it : bool) (mp : Z) : nat * nat * bool * Z :=
  match s with
  | [] => (start, fin, it, mp)
  | c :: s' =>
      if c =? ch_open then
        if Z.eqb depth 0 then find_mid s' (i + 1) 1 i fin it mp else find_mid s' (i + 1) depth start fin true mp
      else if c =? ch_close then
        if it && Z.eqb (depth - 1) 0 then (start, i + 1, it, mp) else find_mid s' (i + 1) (depth - 1) start fin it mp
      else find_mid s' (i + 1) depth start fin it (if c =? ch_N then mp - 1 else mp)
  end.
(** a string ends at its first zero *)
Fixpoint cstr (s : text) : text := match s with [] => [] | c :: s' => if c =? 0 then [] else c :: cstr s' end.
(** lines 159-162, in the copy with ten more zeros (lines 111-113) *)
Definition without_brackets (s : text) (start fin : nat) (it : bool) : text :=
  let buf := s ++ repeat 0 10 in cstr (if it : bool then upd fin ch_sp (upd start ch_sp buf) else buf).

(** line 206: the block ends at white space, [, ] or N; the end of the string is not looked for *)
Fixpoint skip_number (s : text) : option text :=
  match s with
  | [] => None
  | c :: s' => if isspace c || (c =? ch_open) || (c =? ch_close) || (c =? ch_N) then Some s else skip_number s'
  end.
(** the loop on lines 184-228; [cap] is the number of monomials there is room for *)
Fixpoint read_monos (fuel : nat) (s : text) (mp lp : Z) (cap : nat) (acc : poly) : res poly :=
  match fuel with
  | 0 => Fuel
  | S f =>
      match s with
      | [] => Ok acc
      | c :: s' =>
          if c =? ch_N then do l <- initiallpower s'; read_monos f s' (mp + 1) l cap acc
          else if isspace c || (c =? ch_close) || (c =? ch_open) then read_monos f s' mp lp cap acc
          else
            match scan_int s with
            | None => Fail
            | Some v =>
                if negb (int_range v) || (cap <=? List.length acc) then UB
                else match skip_number s with
                     | None => UB
                     | Some s'' => read_monos f s'' mp (lp + 1) cap (if Z.eqb v 0 then acc else acc ++ [mkM v lp mp])
                     end
            end
      end
  end.
(** lmpoly_to_polynomial, lines 79-238 *)
Definition lmpoly_to_polynomial (s : text) : res poly :=
  let '(start, fin, it, mp) := find_mid s 0 0 0 0 false 0 in
  let t := without_brackets s start fin it in
  let cap := count_occ Nat.eq_dec t ch_sp in
  do l <- initiallpower t;
  do ms <- read_monos (List.length t + 1) t mp l cap [];
  Ok (isort mono_le ms).

(** printf with %d *)
Definition show_int (z : Z) : text := (if Z.ltb z 0 then [45] else []) ++ show (Z.abs_N z).
(** strcat to the output, which holds 128 characters for each monomial and a final zero *)
Definition cat (n : nat) (out t : text) : res text := if List.length out + List.length t <=? 128 * n then Ok (out ++ t) else UB.
(** poly_to_latex, lines 267-305: one term.  abs of the least int is undefined. *)
Definition latex_term (n : nat) (first : bool) (out : text) (t : mono) : res text :=
  if Z.eqb (coeff t) (- 2147483648) then UB else
  do out <- (if first then (if Z.ltb (coeff t) 0 then cat n out (txt "-") else Ok out)
             else cat n out (if Z.ltb 0 (coeff t) then txt " + " else txt " - "));
  do out <- (if negb (Z.eqb (Z.abs (coeff t)) 1) || (Z.eqb (lexp t) 0 && Z.eqb (mexp t) 0) then cat n out (show_int (Z.abs (coeff t))) else Ok out);
  do out <- (if Z.eqb (lexp t) 0 then Ok out else cat n out (txt "a^{" ++ show_int (lexp t) ++ txt "}"));
  if Z.eqb (mexp t) 0 then Ok out else cat n out (txt "z^{" ++ show_int (mexp t) ++ txt "}").
Fixpoint latex_terms (n : nat) (first : bool) (out : text) (p : poly) : res text :=
  match p with
  | [] => Ok out
  | t :: p' => do out <- latex_term n first out t; latex_terms n false out p'
  end.
Definition poly_to_latex (p : poly) : res text := latex_terms (List.length p) true [] p.
(** lmpoly_to_latex, lines 318-328: what pd_homfly makes of the output of lmpoly *)
Definition lmpoly_to_latex (s : text) : res text := do p <- lmpoly_to_polynomial s; poly_to_latex p.
(** poly_to_mathematica, lines 240-265: one term *)
Definition math_term (n : nat) (first : bool) (out : text) (t : mono) : res text :=
  do out <- (if first then Ok out else cat n out (txt " + "));
  do out <- cat n out (txt "(" ++ show_int (coeff t) ++ txt ")");
  do out <- (if Z.eqb (lexp t) 0 then Ok out else cat n out (txt "*a^(" ++ show_int (lexp t) ++ txt ")"));
  if Z.eqb (mexp t) 0 then Ok out else cat n out (txt "*z^(" ++ show_int (mexp t) ++ txt ")").
Fixpoint math_terms (n : nat) (first : bool) (out : text) (p : poly) : res text :=
  match p with
  | [] => Ok out
  | t :: p' => do out <- math_term n first out t; math_terms n false out p'
  end.
Definition poly_to_mathematica (p : poly) : res text := math_terms (List.length p) true [] p.
(** lmpoly_to_mathematica, lines 307-316 *)
Definition lmpoly_to_mathematica (s : text) : res text := do p <- lmpoly_to_polynomial s; poly_to_mathematica p.
