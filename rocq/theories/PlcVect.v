(** Model of the constraint part of VECT output and input
    (src/plCurve.c: plc_write lines 850-900, plc_read lines 1269-1452).
    Simplification: the characters of the file are abstracted to the sequence of
    constraint headers (number, kind, printed coordinates) and, per component, the
    sequence of constraint numbers beside the vertices, 0 for "no Cst: comment". *)
From Coq Require Import List ZArith Lia Bool.
From Verif Require Import Base PlcConstraints.
Import ListNotations.
Open Scope Z_scope.
Open Scope res_scope.

(** One "# Constraint n Kind x y z ..." line. *)
Definition header := (Z * (kind * vects))%type.

Record vectfile := mkFile { headers : list header; vertnums : list (list Z) }.

Section Write.
(** plc_M_vecteq on both vectors (src/plCurve.h lines 310-316), arbitrary. *)
Variable veq : vects -> vects -> bool.
(** What a coordinate becomes when printed with %g and read back with %lf, arbitrary. *)
Variable g : Z -> Z.

Definition g3 (v : vec3) : vec3 := V3 (g (vx v)) (g (vy v)) (g (vz v)).

(** The coordinates present on a header line, src/plCurve.c lines 871-880: a Fixed line
    carries three numbers, a Line line six, a Plane line four; the reader supplies 0.0 for
    the missing ones (lines 1335, 1379-1380). *)
Definition printed (k : kind) (v : vects) : vects :=
  match k with
  | Fixed => (g3 (fst v), zero3)
  | Line => (g3 (fst v), g3 (snd v))
  | Plane => (g3 (fst v), V3 (g (vx (snd v))) 0 0)
  | Unconstrained => v
  end.

(** The duplicate search, src/plCurve.c lines 852-865: returns [found] and [cst_num]. *)
Fixpoint find_dup (c : cst) (n : Z) (l : list cst) : bool * Z :=
  match l with
  | [] => (false, n)
  | d :: l' =>
      if kind_eqb (ckind c) (ckind d) && (ccmp c =? ccmp d) && veq (cvect c) (cvect d)
         && (cvert c =? cvert d) && (cnum c =? cnum d)
      then (true, n + 1)
      else find_dup c (n + 1) l'
  end.

(** [for (i = vert; i < vert+num; i++) cst_nums[cmp][i] = cst_num], lines 883-885. *)
Fixpoint mark_run (fuel : nat) (i hi n : Z) (row : list Z) : res (list Z) :=
  match fuel with
  | O => Fuel
  | S f =>
      if i <? hi then
        if (0 <=? i) && (i <? Z.of_nat (length row))
        then mark_run f (i + 1) hi n (upd (Z.to_nat i) n row)
        else UB
      else Ok row
  end.

Definition mark (c : cst) (n : Z) (nums : list (list Z)) : res (list (list Z)) :=
  if (0 <=? ccmp c) && (ccmp c <? Z.of_nat (length nums)) then
    let i := Z.to_nat (ccmp c) in
    do row <- mark_run (S (Z.to_nat (cnum c))) (cvert c) (cend c) n (nth i nums []);
    Ok (upd i row nums)
  else UB.

(** The loop over the constraints, lines 850-886.  [seen] is the local [cst_list], built
    by pushing at the front (new_constraint, lines 446-465). *)
Fixpoint write_csts (seen l : list cst) (nums : list (list Z)) : res vectfile :=
  match l with
  | [] => Ok (mkFile [] nums)
  | c :: l' =>
      assert (negb (kind_eqb (ckind c) Unconstrained));
      let (found, n) := find_dup c 0 seen in
      if found then
        do nums' <- mark c n nums;
        write_csts seen l' nums'
      else
        do nums' <- mark c (n + 1) nums;
        do f <- write_csts (c :: seen) l' nums';
        Ok (mkFile ((n + 1, (ckind c, printed (ckind c) (cvect c))) :: headers f) (vertnums f))
  end.

(** plc_write, src/plCurve.c lines 798-906 (constraint content only). *)
Definition plc_write_constraints (L : curve) : res vectfile :=
  write_csts [] (csts L) (map (fun nv => repeat 0 (Z.to_nat nv)) (nvs L)).

End Write.

(** The reader's table: [None] is memory never written. *)
Definition table := list (option (kind * vects)).

Definition INT_MAX : Z := 2147483647.

(** [cst_list_len = 10*((cst_num+11) % 10)] and realloc, lines 1310-1315: shrinking keeps a
    prefix, growing adds unset memory. *)
Definition resize (t : table) (len : Z) : table :=
  let n := Z.to_nat len in firstn n t ++ repeat None (n - length t).

Definition grow (t : table) (k : Z) : res table :=
  if INT_MAX - 11 <? k then UB                       (* signed overflow *)
  else if Z.of_nat (length t) <? k + 1 then
    let len := 10 * ((k + 11) mod 10) in
    if len =? 0 then UB                              (* realloc of size 0 *)
    else Ok (resize t len)
  else Ok t.

(** One header line, lines 1281-1403: bad numbers are an error return ([Fail]). *)
Definition read_header (t : table) (h : header) : res table :=
  let (k, e) := h in
  if k <? 1 then Fail else
  do t' <- grow t k;
  if k <? Z.of_nat (length t') then Ok (upd (Z.to_nat k) (Some e) t') else UB.

Fixpoint read_headers (t : table) (hs : list header) : res table :=
  match hs with
  | [] => Ok t
  | h :: hs' => do t' <- read_header t h; read_headers t' hs'
  end.

(** [calloc(2, sizeof(plc_constraint))], lines 1180, 1269-1271. *)
Definition table0 : table :=
  [Some (Unconstrained, (zero3, zero3)); Some (Unconstrained, (zero3, zero3))].

(** Read of [cst_list[n]]. *)
Definition tget (t : table) (n : Z) : res (kind * vects) :=
  if (0 <=? n) && (n <? Z.of_nat (length t)) then
    match nth (Z.to_nat n) t None with
    | Some e => Ok e
    | None => UB
    end
  else UB.

(** The vertex loop of one component, lines 1408-1450: [j] vertices have been read, [pn],
    [pv] are prev_cst_num and prev_cst_vert, [cn] is cst_num. *)
Fixpoint read_verts (t : table) (i : Z) (nums : list Z) (j pn pv cn : Z) (L : curve)
  : res curve :=
  match nums with
  | [] =>
      if pn =? 0 then Ok L
      else do e <- tget t cn; plc_set_constraint L i pv (j - pv) (fst e) (snd e)
  | n :: nums' =>
      if n =? pn then read_verts t i nums' (j + 1) pn pv n L
      else
        do L' <- (if pn =? 0 then Ok L
                  else do e <- tget t pn; plc_set_constraint L i pv (j - pv) (fst e) (snd e));
        read_verts t i nums' (j + 1) n j n L'
  end.

Fixpoint read_comps (t : table) (i : Z) (rows : list (list Z)) (L : curve) : res curve :=
  match rows with
  | [] => Ok L
  | r :: rows' => do L' <- read_verts t i r 0 0 0 0 L; read_comps t (i + 1) rows' L'
  end.

(** plc_read, lines 1164-1476, constraint content only; the component sizes are those of
    the vertex lists. *)
Definition plc_read_constraints (f : vectfile) : res curve :=
  do t <- read_headers table0 (headers f);
  read_comps t 0 (vertnums f)
    (mkCurve (map (fun r => Z.of_nat (length r)) (vertnums f)) []).
