(** Model of the classification of knots by their HOMFLY polynomials (src/plcTopology.c lines 1521-1712). *)
From Coq Require Import List NArith ZArith Bool Arith String.
From Verif Require Import Base Pd CCode TextIO KtTable.
Import List ListNotations.
Open Scope string_scope.
Open Scope list_scope.
Open Scope nat_scope.
Open Scope res_scope.

(** strcmp: the sign of the difference of the first two characters that differ *)
Fixpoint strcmp (a b : text) : Z :=
  match a, b with
  | [], [] => 0%Z
  | [], _ :: _ => (-1)%Z
  | _ :: _, [] => 1%Z
  | x :: a', y :: b' => if x =? y then strcmp a' b' else if x <? y then (-1)%Z else 1%Z
  end.
(** homcmp, lines 1521-1529 *)
Definition homcmp (a b : knottype) : Z := strcmp (k_homfly a) (k_homfly b).
Definition KTDBSIZE := 1088.
Definition ktarray : list knottype := ktdb ++ [last_row].
Definition unknot : knottype := mkKt 1 [0] [1] ["(1,1,e)"] "[[1]]N ".
Definition hit (k : text) (r : knottype) : bool := Z.eqb (strcmp k (k_homfly r)) 0.

Section Classify.
(** bsearch of the C library, with the comparison homcmp: the number of a row, or none *)
Variable bsearch : text -> list knottype -> option nat.
(** plc_lmpoly: the polynomial of a crossing code, or none (also after 60 seconds) *)
Variable lmpoly : text -> option text.

(** line 1694: down to the first row or to one that does not match *)
Fixpoint scan_down (k : text) (i : nat) : res nat :=
  do r <- get ktarray i;
  match i with
  | 0 => Ok 0
  | S j => if hit k r then scan_down k j else Ok i
  end.
(** line 1698: up to the end of the table or to a row that does not match; the row after the table is read *)
Fixpoint scan_up (fuel : nat) (k : text) (i : nat) : res nat :=
  match fuel with
  | 0 => Fuel
  | S f => do r <- get ktarray i; if hit k r && (i <? KTDBSIZE) then scan_up f k (i + 1) else Ok i
  end.
(** lines 1681-1710: the matching rows *)
Definition lookup (k : text) : res (list knottype) :=
  match bsearch k ktdb with
  | None => Ok []
  | Some m =>
      do lo <- scan_down k m;
      do r <- get ktarray lo;
      let lo := if hit k r then lo else lo + 1 in
      do r <- get ktarray lo;
      assert hit k r;
      do hi <- scan_up (List.length ktarray + 1) k m;
      do r <- get ktarray hi;
      let hi := if hit k r then hi else hi - 1 in
      do r <- get ktarray hi;
      assert hit k r;
      Ok (firstn (hi - lo + 1) (skipn lo ktarray))
  end.
(** lines 1563-1614 and 1657-1710: from the crossing code on.  A polynomial of 1024 or more characters leaves the copy without
    its final zero. *)
Definition classify_code (ccode : text) : res (list knottype) :=
  let n := count_occ Nat.eq_dec ccode 10 in
  if (n =? 3) || (n =? 4) then Ok [unknot]
  else
    let h := match lmpoly ccode with Some h => h | None => txt "ccode unable to create crossing code for L" end in
    if List.length h <? 1024 then lookup h else UB.
(** pd_classify, lines 1618-1712; the second result says whether the argument has been freed *)
Definition pd_classify (d : pd) : res (list knottype * bool) :=
  if (ncross d =? 0) || (ncross d =? 1) || ((ncomps d =? 1) && (ncross d =? 2)) then Ok ([unknot], false)
  else do t <- pdcode_to_ccode d; do rs <- classify_code t; Ok (rs, true).
(** plc_classify, lines 1534-1616, after the conversion of the curve to a diagram (Project.v): none for a singular polygon *)
Definition plc_classify (converted : option pd) : res (list knottype) :=
  match converted with
  | None => Ok []
  | Some d => do t <- pdcode_to_ccode d; classify_code t
  end.
End Classify.
