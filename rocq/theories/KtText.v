(** Model of the writing and reading of knot types (src/plcTopology.c lines 1713-1775). *)
From Coq Require Import List NArith ZArith Bool Arith Ascii String.
From Verif Require Import Base Pd TextIO PolyText KtTable.
Import List ListNotations.
Open Scope string_scope.
Open Scope list_scope.
Open Scope nat_scope.
Open Scope res_scope.

(** plc_write_knottype, lines 1713-1722.  The arrays are filled up with zeros to ten entries. *)
Definition MAXPRIMEFACTORS := 10.
Definition entry10 (l : list nat) (i : nat) : res nat := if i <? MAXPRIMEFACTORS then Ok (nth i l 0) else UB.
Fixpoint write_factors (r : knottype) (is : list nat) : res text :=
  match is with
  | [] => Ok []
  | i :: is' => do c <- entry10 (k_cr r) i; do x <- entry10 (k_ind r) i; do t <- write_factors r is'; Ok (txt "#" ++ show_nat c ++ txt "_" ++ show_nat x ++ t)
  end.
Definition plc_write_knottype (r : knottype) : res text :=
  do c <- entry10 (k_cr r) 0; do x <- entry10 (k_ind r) 0;
  do t <- write_factors r (seq 1 (k_nf r - 1));
  Ok (show_nat c ++ txt "_" ++ show_nat x ++ t ++ txt " (" ++ k_homfly r ++ txt ") " ++ [10]).

(** plc_read_knottype, lines 1724-1775.  The working copy is a pointer into the allocated copy; [pos] is its distance from the
    beginning and [s] the text from there on. *)
(** free of the working copy: only the beginning of the copy may be freed *)
Definition free_copy {A} (pos : nat) (k : res A) : res A := if pos =? 0 then k else UB.
(** strtok_r with the delimiter #, as in the GNU library: the token, the number of characters passed, and the rest *)
Fixpoint skip_hash (s : text) : nat * text := match s with c :: s' => if c =? 35 then let '(n, r) := skip_hash s' in (S n, r) else (0, s) | [] => (0, []) end.
Fixpoint take_token (s : text) : text * nat * text :=
  match s with
  | [] => ([], 0, [])
  | c :: s' => if c =? 35 then ([], 1, s') else let '(t, n, r) := take_token s' in (c :: t, S n, r)
  end.
Definition strtok (s : text) : option text * nat * text :=
  let '(n, s1) := skip_hash s in
  match s1 with [] => (None, n, []) | _ => let '(t, m, r) := take_token s1 in (Some t, n + m, r) end.
(** sscanf with "%d_%d" *)
Definition scan_name (t : text) : option (Z * Z) :=
  match scan_int (skip t) with
  | None => None
  | Some c =>
      let s := match skip t with x :: s' => if (x =? 43) || (x =? 45) then s' else x :: s' | [] => [] end in
      match snd (read_digits 0 s) with
      | 95 :: s' => match scan_int (skip s') with Some i => Some (c, i) | None => None end
      | _ => None
      end
  end.
(** line 1732 *)
Definition maxind : list Z := [0; 0; 1; 1; 2; 3; 7; 21; 49; 165; 552; 2176; 9988; 46972; 253293; 1388705; 8053393; 48266466; 294130458]%Z.
Fixpoint read_factors (fuel : nat) (pos : nat) (s : text) (acc : list (Z * Z)) : res (option (list (Z * Z))) :=
  match fuel with
  | 0 => Fuel
  | S f =>
      let '(tok, n, s') := strtok s in
      match tok with
      | None => free_copy (pos + n) (Ok (Some acc))
      | Some t =>
          match scan_name t with
          | None => free_copy (pos + n) (Ok None)
          | Some (c, i) =>
              if Z.ltb c 0 || Z.ltb 19 c then free_copy (pos + n) (Ok None)
              else
                do m <- get maxind (Z.to_nat c);
                if Z.ltb i 0 || Z.ltb m i then free_copy (pos + n) (Ok None)
                else if List.length acc + 1 =? MAXPRIMEFACTORS then free_copy (pos + n) UB
                else read_factors f (pos + n) s' (acc ++ [(c, i)])
          end
      end
  end.
(** the field nf of the result is never set, so it is 0 *)
Definition plc_read_knottype (s : text) : res (option (list (Z * Z) * nat)) :=
  do o <- read_factors (List.length s + 1) 0 s [];
  Ok (match o with Some fs => Some (fs, 0) | None => None end).
