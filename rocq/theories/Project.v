(** Model of the conversion of polygons to diagrams (src/plcTopology.c lines 355-1326 and 1332-1510).
    Coordinates are rationals and arithmetic is exact. *)
From Coq Require Import List NArith ZArith QArith Qabs Lia Bool Arith.
From Verif Require Import Base Iterators Pd PdEdges PdComps PdFaces PdHash PdRegen PdOps Build Nearest.
Import ListNotations.
Open Scope nat_scope.
Open Scope res_scope.

(** ** polygons *)
(** plc_strand: vertices and whether it is open; the entry vt[nv] of a closed component is a copy of vt[0], which
    plc_fix_wrap maintains *)
Record strand := mkStrand { st_open : bool; st_vt : list vec }.
Definition polygon := list strand.
Definition seg := (vec * vec)%type.
(** the two entries of vt that start at index [i] *)
Definition seg_at (s : strand) (i : nat) : res seg :=
  do a <- get (st_vt s) i;
  do b <- (if (i + 1 =? length (st_vt s)) then get (st_vt s) 0 else get (st_vt s) (i + 1));
  Ok (a, b).

(** ** the crossings of the projection *)
(** third entry of plc_cross_prod, src/plCurve.h lines 274-279, of projected vectors *)
Definition wedge (a b : vec) : Q := (vx a * vy b - vy a * vx b)%Q.
Definition vsub (a b : vec) : vec := mkVec (vx a - vx b) (vy a - vy b) (vz a - vz b).
(** plc_project along (0,0,1) sets the third coordinate to 0; distances of projected points *)
Definition flat_sq_dist (a b : vec) : Q := (sqr (vx a - vx b) + sqr (vy a - vy b))%Q.
Definition tenth (k : positive) : Q := (1 # (10 ^ k))%Q.

(** segment_side, lines 509-521 *)
Definition segment_side (A : seg) (b : vec) : Z :=
  let c := wedge (vsub (snd A) (fst A)) (vsub b (fst A)) in
  if Qltb (tenth 10) c then 1%Z
  else if Qltb c (- tenth 10) then (-1)%Z
  else 0%Z.
(** locate_crossing, lines 523-595.  The law of sines is used to find where the segments meet; in exact arithmetic this
    gives the solution of the linear equations, which is what is modelled.  Whether the angles and sides are large enough
    is left to the parameter [solv]. *)
Definition locate_crossing (solv : seg -> seg -> bool) (A B : seg) : option (Q * Q) :=
  let dA := vsub (snd A) (fst A) in
  let dB := vsub (snd B) (fst B) in
  let w := vsub (fst B) (fst A) in
  if solv A B then Some (wedge w dB / wedge dA dB, wedge w dA / wedge dA dB)%Q else None.
(** ssAB0*ssAB1 and ssBA0*ssBA1 *)
Definition sides (A B : seg) : Z := (segment_side A (fst B) * segment_side A (snd B))%Z.
(** tag_as_trouble, lines 597-635; distances are compared by their squares *)
Definition tag_as_trouble (solv : seg -> seg -> bool) (A B : seg) : bool :=
  let close a b := Qltb (flat_sq_dist a b) (tenth 16) in
  if close (fst A) (snd A) || close (fst B) (snd B) then true
  else if close (fst A) (fst B) || close (fst A) (snd B) || close (snd A) (fst B) || close (snd A) (snd B) then true
  else if Z.eqb (sides A B) (-1) && Z.eqb (sides B A) (-1) then
    match locate_crossing solv A B with Some _ => false | None => true end
  else (Z.eqb (sides A B) 0 && negb (Z.eqb (sides B A) 1)) || (negb (Z.eqb (sides A B) 1) && Z.eqb (sides B A) 0).

(** the indices (cmpA, vtA), (cmpB, vtB) that the loops on lines 682-711 and 785-811 run through, in order *)
Definition b_range (same : bool) (vA nvB : nat) : list nat :=
  let first := if same then vA + 2 else 0 in
  let last := if same then (if vA =? 0 then nvB - 1 else nvB) else nvB in
  seq first (last - first).
Definition num_verts (L : polygon) (c : nat) : nat := length (st_vt (nth c L (mkStrand false []))).
Definition edge_pairs (L : polygon) : list ((nat * nat) * (nat * nat)) :=
  flat_map (fun cA =>
    flat_map (fun cB =>
      flat_map (fun vA =>
        map (fun vB => ((cA, vA), (cB, vB))) (b_range (cA =? cB) vA (num_verts L cB)))
        (seq 0 (num_verts L cA)))
      (seq cA (length L - cA)))
    (seq 0 (length L)).
Definition seg_of (L : polygon) (i : nat * nat) : res seg := do s <- get L (fst i); seg_at s (snd i).

(** the check of all pairs on lines 680-735: no pair is trouble *)
Fixpoint no_trouble (solv : seg -> seg -> bool) (L : polygon) (ps : list ((nat * nat) * (nat * nat))) : res bool :=
  match ps with
  | [] => Ok true
  | (i, j) :: ps' =>
      do A <- seg_of L i;
      do B <- seg_of L j;
      do b <- no_trouble solv L ps';
      Ok (negb (tag_as_trouble solv A B) && b)
  end.
Definition projection_clean (solv : seg -> seg -> bool) (L : polygon) : res bool := no_trouble solv L (edge_pairs L).
(** make_zprojection_generic, lines 643-757.  [nudge n L] is what the random perturbations of pass [n] make of [L];
    [thin] is the test for a curve that is numerically singular. *)
Fixpoint generic_loop (solv : seg -> seg -> bool) (thin : polygon -> bool) (nudge : nat -> polygon -> polygon) (tries n : nat) (L : polygon)
    : res (option polygon) :=
  match tries with
  | 0 => Ok None
  | S t =>
      if thin L then Ok None
      else
        do b <- projection_clean solv L;
        if b : bool then Ok (Some L) else generic_loop solv thin nudge t (n + 1) (nudge n L)
  end.
Definition make_zprojection_generic (solv : seg -> seg -> bool) (thin : polygon -> bool) (nudge : nat -> polygon -> polygon) (L : polygon) : res (option polygon) :=
  generic_loop solv thin nudge 5 0 L.

(** crossing, lines 357-368 *)
Record xrec := mkX { lower_cmp : nat; upper_cmp : nat; lower_s : Q; upper_s : Q; x_sign : Z }.
Definition Qnat (n : nat) : Q := inject_Z (Z.of_nat n).
Definition height (A : seg) (s : Q) : Q := ((1 - s) * vz (fst A) + s * vz (snd A))%Q.
(** the body of the loop in findcrossings, lines 813-877: [None] is an error, [Some None] no crossing *)
Definition crossing_of (solv : seg -> seg -> bool) (i j : nat * nat) (A B : seg) : option (option xrec) :=
  if Z.eqb (sides A B) (-1) && Z.eqb (sides B A) (-1) then
    match locate_crossing solv A B with
    | None => None
    | Some (sA, sB) =>
        let dA := vsub (snd A) (fst A) in
        let dB := vsub (snd B) (fst B) in
        if Qltb (height B sB) (height A sA) then
          Some (Some (mkX (fst j) (fst i) (Qnat (snd j) + sB) (Qnat (snd i) + sA) (if Qltb 0 (wedge dA dB) then 1 else -1)%Z))
        else
          Some (Some (mkX (fst i) (fst j) (Qnat (snd i) + sA) (Qnat (snd j) + sB) (if Qltb 0 (wedge dB dA) then 1 else -1)%Z))
    end
  else Some None.
Fixpoint find_loop (solv : seg -> seg -> bool) (L : polygon) (ps : list ((nat * nat) * (nat * nat))) (cc : list xrec) : res (option (list xrec)) :=
  match ps with
  | [] => Ok (Some cc)
  | (i, j) :: ps' =>
      do A <- seg_of L i;
      do B <- seg_of L j;
      match crossing_of solv i j A B with
      | None => Ok None
      | Some None => find_loop solv L ps' cc
      | Some (Some x) => find_loop solv L ps' (cc ++ [x])
      end
  end.

(** qsort *)
Definition sorter := forall A : Type, (A -> A -> Z) -> list A -> list A.
(** crossing_compare, lines 404-445 *)
Definition x_key (x : xrec) : nat * Q := if lower_cmp x <? upper_cmp x then (lower_cmp x, lower_s x) else (upper_cmp x, upper_s x).
Definition crossing_compare (a b : xrec) : Z :=
  if negb (fst (x_key a) =? fst (x_key b)) then (Z.of_nat (fst (x_key a)) - Z.of_nat (fst (x_key b)))%Z
  else if Qltb (snd (x_key a)) (snd (x_key b)) then (-1)%Z else 1%Z.
(** findcrossings, lines 761-893.  The assertion in crossing_compare is checked for all crossings. *)
Definition findcrossings (solv : seg -> seg -> bool) (srt : sorter) (L : polygon) : res (option (list xrec)) :=
  assert (forallb (fun s => negb (st_open s)) L);
  do cc <- find_loop solv L (edge_pairs L) [];
  match cc with
  | None => Ok None
  | Some cc =>
      assert (forallb (fun x => Qltb 0 (snd (x_key x))) cc);
      Ok (Some (srt xrec crossing_compare cc))
  end.

(** ** the crossings along each component *)
(** crossing_reference_compare, lines 448-456, on pairs of a crossing number and a parameter *)
Definition reference_compare (a b : nat * Q) : Z := if Qltb (snd a) (snd b) then (-1)%Z else 1%Z.
Fixpoint numbered {A} (i : nat) (l : list A) : list (nat * A) :=
  match l with [] => [] | x :: l' => (i, x) :: numbered (i + 1) l' end.
(** the number of references to component [c], lines 900-904 *)
Definition refs_size (cc : list xrec) (c : nat) : nat :=
  length (filter (fun x => lower_cmp x =? c) cc) + length (filter (fun x => upper_cmp x =? c) cc).
(** lines 940-954: the references in the order in which they are entered *)
Definition refs_of (cc : list xrec) (c : nat) : list (nat * Q) :=
  flat_map (fun ix => (if lower_cmp (snd ix) =? c then [(fst ix, lower_s (snd ix))] else []) ++ (if upper_cmp (snd ix) =? c then [(fst ix, upper_s (snd ix))] else [])) (numbered 0 cc).
(** the crossing that is added for an unknotted component, lines 917-926 *)
Definition virtual_crossing : xrec := mkX 0 0 (33 # 100) (66 # 100) 1.
(** divide_crossings_by_component, lines 895-978 *)
Definition divide_crossings_by_component (srt : sorter) (nc : nat) (cc : list xrec) : res (list xrec * list (list (nat * Q))) :=
  if forallb (fun x => (lower_cmp x <? nc) && (upper_cmp x <? nc)) cc then
    let sizes := map (refs_size cc) (seq 0 nc) in
    do cs <- (if existsb (Nat.eqb 0) sizes then (if nc =? 1 then Ok (cc ++ [virtual_crossing], [2]) else Fail) else Ok (cc, sizes));
    let crc := map (refs_of (fst cs)) (seq 0 nc) in
    assert (forallb (fun p => fst p =? snd p) (combine (map (@length _) crc) (snd cs)));
    Ok (fst cs, map (srt (nat * Q)%type reference_compare) crc)
  else UB.

(** ** from crossings to diagrams *)
(** crossing_strand_t, lines 982-989 *)
Record xstrand := mkXs { xs_num : nat; xs_cmp : nat; xs_s : Q; xs_upper : bool }.
(** crossing_strand_cmp, lines 991-1006 *)
Definition strand_compare (a b : xstrand) : Z :=
  if negb (xs_cmp a =? xs_cmp b) then (Z.of_nat (xs_cmp b) - Z.of_nat (xs_cmp a))%Z
  else if Qltb (Qabs (xs_s a - xs_s b)) (tenth 8) then 0%Z
  else if Qltb (xs_s a) (xs_s b) then (-1)%Z else 1%Z.
(** lines 1050-1065 *)
Definition strands_of (cc : list xrec) : list xstrand :=
  flat_map (fun ix => [mkXs (fst ix) (lower_cmp (snd ix)) (lower_s (snd ix)) false; mkXs (fst ix) (upper_cmp (snd ix)) (upper_s (snd ix)) true]) (numbered 0 cc).
(** lines 1074-1087 *)
Fixpoint double_crossing (l : list xstrand) : bool :=
  match l with
  | a :: ((b :: _) as l') => Z.eqb (strand_compare b a) 0 || double_crossing l'
  | _ => false
  end.
(** bsearch *)
Fixpoint bsearch {A} (fuel : nat) (cmp : A -> Z) (l : list A) (lo hi : nat) : res (option A) :=
  match fuel with
  | 0 => Fuel
  | S f =>
      if lo <? hi then
        let mid := (lo + hi) / 2 in
        do x <- get l mid;
        let c := cmp x in
        if Z.ltb c 0 then bsearch f cmp l lo mid
        else if Z.ltb 0 c then bsearch f cmp l (mid + 1) hi
        else Ok (Some x)
      else Ok None
  end.
Definition find_strand (cs : list xstrand) (cmp : nat) (s : Q) : res xstrand :=
  do o <- bsearch (length cs + 1) (strand_compare (mkXs 0 cmp s false)) cs 0 (length cs);
  match o with Some x => Ok x | None => Fail end.
(** pd_temp_edge_t: the strands at the head and the tail *)
Definition temp_edge := (xstrand * xstrand)%type.
(** lines 1120-1175: the edges of component [c], whose references are [refs] and the one before them is [prev] *)
Fixpoint temp_edges (cs : list xstrand) (c : nat) (prev : Q) (refs : list (nat * Q)) : res (list temp_edge) :=
  match refs with
  | [] => Ok []
  | (_, s) :: refs' =>
      do h <- find_strand cs c s;
      do t <- find_strand cs c prev;
      do r <- temp_edges cs c s refs';
      Ok ((h, t) :: r)
  end.
Fixpoint all_temp_edges (cs : list xstrand) (c : nat) (crc : list (list (nat * Q))) : res (list temp_edge) :=
  match crc with
  | [] => Ok []
  | refs :: crc' =>
      do a <- temp_edges cs c (snd (last refs (0, 0%Q))) refs;
      do b <- all_temp_edges cs (c + 1) crc';
      Ok (a ++ b)
  end.
(** pd->cross[c].edge[p] = e *)
Definition set_place (x : crossing) (p e : nat) : crossing :=
  match p with
  | 0 => mkCross e (ce1 x) (ce2 x) (ce3 x) (csign x)
  | 1 => mkCross (ce0 x) e (ce2 x) (ce3 x) (csign x)
  | 2 => mkCross (ce0 x) (ce1 x) e (ce3 x) (csign x)
  | _ => mkCross (ce0 x) (ce1 x) (ce2 x) e (csign x)
  end.
(** the loop on lines 1219-1299 *)
Definition head_place (upper : bool) (s : orient) : nat := if upper then match s with Pos => 3 | _ => 1 end else 0.
Definition tail_place (upper : bool) (s : orient) : nat := if upper then match s with Pos => 1 | _ => 3 end else 2.
Fixpoint place_edges (i : nat) (ts : list temp_edge) (xs : list crossing) : res (list edge * list crossing) :=
  match ts with
  | [] => Ok ([], xs)
  | (h, t) :: ts' =>
      do x <- get xs (xs_num h);
      let hp := head_place (xs_upper h) (csign x) in
      let xs := upd (xs_num h) (set_place x hp i) xs in
      do x <- get xs (xs_num t);
      let tp := tail_place (xs_upper t) (csign x) in
      let xs := upd (xs_num t) (set_place x tp i) xs in
      do r <- place_edges (i + 1) ts' xs;
      Ok (mkEdge (xs_num h) hp (xs_num t) tp :: fst r, snd r)
  end.
(** assemble_pdcode, lines 1008-1313: [None] is NULL *)
Definition assemble_pdcode (srt : sorter) (nc : nat) (crc : list (list (nat * Q))) (cc : list xrec) : res (option pd) :=
  let cs := srt xstrand strand_compare (strands_of cc) in
  if double_crossing cs then Ok None
  else
    do ts <- all_temp_edges cs 0 crc;
    let n := length cc in
    do d <- pd_code_new (if 1 <? n then n else 2);
    assert (2 * n =? length ts);
    let xs := map (fun x => mkCross 0 0 0 0 (if Z.ltb 0 (x_sign x) then Pos else Neg)) cc in
    do r <- place_edges 0 ts xs;
    do d <- pd_regenerate (with_cross (with_edges d (fst r)) (snd r));
    assert (ncomps d =? nc);
    do b <- pd_ok d;
    assert b;
    Ok (Some d).
(** steps 4 and 5 of pd_code_from_plCurve *)
Definition build_diagram (srt : sorter) (nc : nat) (cs : list xrec) : res (option pd) :=
  do q <- divide_crossings_by_component srt nc cs;
  assemble_pdcode srt nc (snd q) (fst q).
(** steps 3 to 5 of pd_code_from_plCurve *)
Definition diagram_of_generic (solv : seg -> seg -> bool) (srt : sorter) (L : polygon) : res (option pd) :=
  do cc <- findcrossings solv srt L;
  match cc with
  | None => Ok None
  | Some cc => build_diagram srt (length L) cc
  end.
(** pd_code_from_plCurve, lines 1332-1510.  The rotated copy of the curve is not used: every attempt starts from [L] again.
    [nudge a] are the perturbations of attempt [a]. *)
Fixpoint attempts (solv : seg -> seg -> bool) (srt : sorter) (thin : polygon -> bool) (nudge : nat -> nat -> polygon -> polygon) (L : polygon) (tries a : nat) : res (option pd) :=
  match tries with
  | 0 => Ok None
  | S t =>
      do g <- make_zprojection_generic solv thin (nudge a) L;
      do o <- match g with None => Ok None | Some G => diagram_of_generic solv srt G end;
      match o with
      | Some d => Ok (Some d)
      | None => attempts solv srt thin nudge L t (a + 1)
      end
  end.
Definition pd_code_from_plCurve (solv : seg -> seg -> bool) (srt : sorter) (thin : polygon -> bool) (nudge : nat -> nat -> polygon -> polygon) (L : polygon) : res (option pd) :=
  attempts solv srt thin nudge L 9 0.
