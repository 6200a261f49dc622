(** Model of pd_write_KnotTheory and pd_read_KnotTheory (src/pdcode.c lines 2811-2873 and 3640-4273). *)
From Coq Require Import List NArith ZArith Lia Bool Arith String.
From Verif Require Import Base Iterators Perm Pd PdCross PdEdges PdComps PdFaces PdHash PdRegen OverUnder PdOps TextIO Build.
Import ListNotations.
Open Scope nat_scope.
Open Scope res_scope.

(** * Writing *)

(** one crossing, lines 2855-2864: the edges counterclockwise from the one where the lower strand comes in, counted from 1 *)
Definition kt_cross (d : pd) (c : nat) : res text :=
  do u <- pd_understrand_pos d c;
  do x <- get (p_cross d) c;
  Ok (txt "X[" ++ show_nat (cedge x ((fst u + 0) mod 4) + 1) ++ txt "," ++ show_nat (cedge x ((fst u + 1) mod 4) + 1) ++ txt "," ++
      show_nat (cedge x ((fst u + 2) mod 4) + 1) ++ txt "," ++ show_nat (cedge x ((fst u + 3) mod 4) + 1) ++ txt "]").
(** the loop on lines 2855-2869 from crossing [c] on, with [k] crossings left *)
Fixpoint kt_crosses (d : pd) (c k : nat) : res text :=
  match k with
  | 0 => Ok []
  | S k' =>
      do t <- kt_cross d c;
      do r <- kt_crosses d (S c) k';
      Ok (t ++ (if c + 1 <? ncross d then txt "," else []) ++ r)
  end.
(** pd_write_KnotTheory, lines 2811-2873 *)
Definition pd_write_KnotTheory (d : pd) : res text :=
  do t <- kt_crosses d 0 (ncross d);
  Ok (txt "PD[" ++ t ++ txt "]" ++ [10]).

(** * Reading *)

(** the two formats, lines 3676 and 3690.  Simplification: %d is read like %lu; the two agree in the 32 bits that are
    stored except for numbers that do not fit into a long, where C leaves the result of %d undefined. *)
Definition kt_first : list dir := fmt " PD [ X[ %lu, %lu, %lu, %lu ]".
Definition kt_next : list dir := fmt " X[ %lu, %lu, %lu, %lu ]".
Definition four := (N * N * N * N)%type.
(** the loop on lines 3688-3711: [used] is crbuf_used.  NULL is [None]. *)
Fixpoint kt_more (fuel used : nat) (s : text) : res (option (list four * text)) :=
  match fuel with
  | 0 => Fuel
  | S f =>
      match s with
      | [] => Ok (Some ([], []))
      | x :: s =>
          if x =? 44 then
            match num4 kt_next s with
            | None => Ok None
            | Some (a, b, c, e, s) =>
                if (N.of_nat used =? 9990)%N then Ok None
                else try r <- kt_more f (S used) s; Ok (Some ((a, b, c, e) :: fst r, snd r))
            end
          else Ok (Some ([], s))
      end
  end.
Definition kt_scan (s : text) : res (option (list four * text)) :=
  match num4 kt_first s with
  | None => Ok None
  | Some (a, b, c, e, s) => try r <- kt_more (S (List.length s)) 1 s; Ok (Some ((a, b, c, e) :: fst r, snd r))
  end.

(** an index of pd->edge, which has MAXEDGES entries: the number minus 1 in 32 bits *)
Definition kt_idx (maxe : nat) (v : N) : res nat :=
  let w := ((v + 4294967295) mod 4294967296)%N in
  if (w <? N.of_nat maxe)%N then Ok (N.to_nat w) else UB.
Definition set_head (es : list edge) (e c p : nat) : res (list edge) :=
  do E <- get es e; Ok (upd e (mkEdge c p (e_tail E) (e_tailpos E)) es).
Definition set_tail (es : list edge) (e c p : nat) : res (list edge) :=
  do E <- get es e; Ok (upd e (mkEdge (e_head E) (e_headpos E) c p) es).
(** the tests on lines 3801, 3811, 3821 for 1 -> 3; the differences are taken modulo 2^32 of numbers below MAXEDGES *)
Definition from1to3 (e1 e3 : nat) : bool :=
  if e3 =? e1 + 1 then true
  else if e1 =? e3 + 1 then false
  else e3 <? e1.
(** one turn of the loop on lines 3722-3844.  The edge array of [maxe] entries comes from calloc. *)
Definition kt_place (maxe cr : nat) (v : four) (st : list edge * list crossing) : res (list edge * list crossing) :=
  let '(a, b, c, e) := v in
  do a <- kt_idx maxe a;
  do b <- kt_idx maxe b;
  do c <- kt_idx maxe c;
  do e <- kt_idx maxe e;
  do es <- set_head (fst st) a cr 0;
  do es <- set_tail es c cr 2;
  if from1to3 b e then
    do es <- set_head es b cr 1;
    do es <- set_tail es e cr 3;
    Ok (es, snd st ++ [mkCross a b c e Neg])
  else
    do es <- set_head es e cr 3;
    do es <- set_tail es b cr 1;
    Ok (es, snd st ++ [mkCross a b c e Pos]).
Fixpoint kt_sweep (maxe cr : nat) (vs : list four) (st : list edge * list crossing) : res (list edge * list crossing) :=
  match vs with
  | [] => Ok st
  | v :: vs' => do st <- kt_place maxe cr v st; kt_sweep maxe (S cr) vs' st
  end.

(** the search for components of two edges, lines 3861-4240: for each of the twelve pictures the three pairs of places
    of crB and crA that must hold the same edge, the signs of crB and crA, the places of e1 and e2 at crB, and whether
    e1 (e2) must have its head at crB *)
Record picture := mkPicture { pc_same : list (nat * nat); pc_signB : orient; pc_signA : orient; pc_e1 : nat; pc_e2 : nat; pc_head1B : bool; pc_head2B : bool }.
Definition pictures : list picture := [
  mkPicture [(2, 0); (0, 2); (3, 3)] Pos Neg 0 2 true false;
  mkPicture [(2, 0); (0, 2); (1, 1)] Neg Pos 2 0 false true;
  mkPicture [(3, 1); (1, 3); (0, 2)] Pos Neg 1 3 false true;
  mkPicture [(3, 1); (1, 3); (2, 0)] Neg Pos 3 1 false true;
  mkPicture [(2, 3); (0, 1); (3, 2)] Pos Pos 0 2 true false;
  mkPicture [(2, 1); (0, 3); (3, 0)] Neg Neg 0 2 true false;
  mkPicture [(0, 1); (3, 2); (1, 0)] Pos Pos 2 0 false true;
  mkPicture [(0, 3); (2, 1); (1, 2)] Neg Neg 2 0 false true;
  mkPicture [(3, 0); (1, 2); (0, 3)] Neg Neg 1 3 true false;
  mkPicture [(1, 0); (3, 2); (2, 3)] Pos Pos 3 1 true false;
  mkPicture [(1, 0); (3, 2); (2, 3)] Neg Neg 3 1 false true;
  mkPicture [(3, 0); (1, 2); (0, 3)] Pos Pos 1 3 false true ].
Definition turn_to (n : nat) (es : list edge) (e cr : nat) : res (list edge) :=
  do E <- get es e;
  if e_head E =? cr then Ok es else assert (e <? 2 * n); pd_reorient_edge es e Neg.
Definition kt_picture (n cA cB : nat) (st : list edge * list crossing) (p : picture) : res (list edge * list crossing) :=
  do xA <- get (snd st) cA;
  do xB <- get (snd st) cB;
  if forallb (fun q => cedge xB (fst q) =? cedge xA (snd q)) (pc_same p) then
    let cs := upd cA (set_sign xA (pc_signA p)) (upd cB (set_sign xB (pc_signB p)) (snd st)) in
    do es <- turn_to n (fst st) (cedge xB (pc_e1 p)) (if pc_head1B p then cB else cA);
    do es <- turn_to n es (cedge xB (pc_e2 p)) (if pc_head2B p then cB else cA);
    Ok (es, cs)
  else Ok st.
Fixpoint kt_all {A B} (f : B -> A -> res B) (l : list A) (st : B) : res B :=
  match l with
  | [] => Ok st
  | a :: l' => do st <- f st a; kt_all f l' st
  end.
Definition pairs_below (n : nat) : list (nat * nat) :=
  flat_map (fun a => map (fun b => (a, b)) (seq (a + 1) (n - (a + 1)))) (seq 0 (n - 1)).
Definition kt_two_edges (n : nat) (st : list edge * list crossing) : res (list edge * list crossing) :=
  kt_all (fun st q => kt_all (kt_picture n (fst q) (snd q)) pictures st) (pairs_below n) st.

(** pd_read_KnotTheory, lines 3640-4273: lines 3713-3718 and from 3846 on.  The edge array has MAXEDGES entries,
    of which nedges = 2 ncross are in use from line 3847 on; pd_reorient_edge asserts that the edge is one of them. *)
Definition kt_build (vs : list four) : res (option pd) :=
  let n := List.length vs in
  do d <- pd_code_new (n + 2);
  do st <- kt_sweep (MAXEDGES d) 0 vs (repeat (mkEdge 0 0 0 0) (MAXEDGES d), []);
  do st <- kt_two_edges n st;
  do d <- pd_regenerate (with_faces (with_cross (with_edges d (firstn (2 * n) (fst st))) (snd st)) (repeat [] (n + 2)));
  assert (forallb (fun c => negb (orient_eqb (csign c) Unset)) (p_cross d));
  do b <- pd_ok d;
  Ok (if b : bool then Some d else None).
Definition pd_read_KnotTheory (s : text) : res (option pd * text) :=
  do o <- kt_scan s;
  match o with
  | None => Ok (None, [])
  | Some (vs, rest) => do r <- kt_build vs; Ok (r, rest)
  end.
