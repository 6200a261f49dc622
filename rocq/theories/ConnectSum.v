(** Model of the connected sum of two diagrams (src/pd_crossingmoves.c lines 2265-2600). *)
From Coq Require Import List ZArith Lia Bool Arith.
From Verif Require Import Base Iterators Sorting Pd PdCross PdComps PdRegen PdIso OverUnder Moves.
Import ListNotations.
Open Scope nat_scope.
Open Scope res_scope.

(** The translation tables edgeAtt and edgeBtt: PD_UNSET_IDX is [None].  table[es[0]] = n, table[es[1]] = n+1, ... *)
Definition number (es : list nat) (n : nat) (table : list (option nat)) : res (list (option nat)) :=
  fold_ok (fun t p => if fst p <? length t then Ok (upd (fst p) (Some (snd p)) t) else UB) (combine es (seq n (length es))) table.

(** the components other than number [j], in order: the loops with "if (comp == join) continue" *)
Definition other_comps (d : pd) (j : nat) : list nat := concat (map cp_edge (firstn j (p_comp d) ++ skipn (S j) (p_comp d))).

(** edgeAtt, lines 2349-2375: the edges of the joined component up to and including edgeA, a gap for the joined
    component of B, the rest of the joined component, the other components *)
Definition table_A (A : pd) (joinA posA : nat) (cA : list nat) (nB : nat) : res (list (option nat)) :=
  do t <- number (firstn (S posA) cA) 0 (repeat None (nedges A));
  do t <- number (skipn (S posA) cA) (S posA + nB) t;
  number (other_comps A joinA) (length cA + nB) t.
(** edgeBtt, lines 2379-2420: the joined component from the edge after edgeB around to edgeB, the other components *)
Definition table_B (A B : pd) (joinB posA posB : nat) (cB : list nat) : res (list (option nat)) :=
  do es <- map_ok (fun k => get cB (k mod length cB)) (seq (1 + posB) (length cB));
  do t <- number es (1 + posA) (repeat None (nedges B));
  number (other_comps B joinB) (nedges A + length cB) t.

(** the assertions on lines 2426-2436: no entry is unset *)
Definition all_set (t : list (option nat)) : res (list nat) :=
  map_ok (fun k => match k with Some k => Ok k | None => Fail end) t.

(** copying crossings, lines 2468-2506; the crossings of B come after those of A *)
Definition summed_cross (tA tB : list nat) (A B : pd) : res (list crossing) :=
  do xs <- map_ok (rename_cross tA) (p_cross A);
  do ys <- map_ok (rename_cross tB) (p_cross B);
  Ok (xs ++ ys).
(** copying edge records, lines 2512-2543: crossAtt has ncross(A) entries and crossAtt[c] = c, crossBtt has
    ncross(B) entries and crossBtt[c] = c + ncross(A) *)
Definition put_edge (ctt : list nat) (es : list edge) (p : nat * edge) : res (list edge) :=
  do h <- get ctt (e_head (snd p));
  do t <- get ctt (e_tail (snd p));
  if fst p <? length es then Ok (upd (fst p) (mkEdge h (e_headpos (snd p)) t (e_tailpos (snd p))) es) else UB.
Definition summed_edges (tA tB : list nat) (A B : pd) : res (list edge) :=
  do es <- fold_ok (put_edge (seq 0 (ncross A))) (combine tA (p_edge A)) (repeat (mkEdge 0 4 0 4) (nedges A + nedges B));
  fold_ok (put_edge (seq (ncross A) (ncross B))) (combine tB (p_edge B)) es.

(** pd_connect_sum.  Array bounds of the new diagram: it is allocated for ncross(A) + ncross(B) crossings and twice as
    many edges, which are all the entries written. *)
Definition pd_connect_sum (A : pd) (edgeA : nat) (B : pd) (edgeB : nat) : res pd :=
  do b <- pd_ok A;
  assert b;
  do b <- pd_ok B;
  assert b;
  assert (negb (ncross A + ncross B =? 0));
  do qa <- pd_component_and_pos A edgeA;
  do qb <- pd_component_and_pos B edgeB;
  do cA <- get (p_comp A) (fst qa);
  do cB <- get (p_comp B) (fst qb);
  do tA <- table_A A (fst qa) (snd qa) (cp_edge cA) (length (cp_edge cB));
  do tB <- table_B A B (fst qb) (snd qa) (snd qb) (cp_edge cB);
  do tA <- all_set tA;
  do tB <- all_set tB;
  assert (if list_eq_dec Nat.eq_dec (isort Nat.leb (tA ++ tB)) (seq 0 (nedges A + nedges B)) then true else false);
  do cs <- summed_cross tA tB A B;
  do es <- summed_edges tA tB A B;
  do a <- get tA edgeA;
  do b <- get tB edgeB;
  do EA <- get es a;
  do EB <- get es b;
  let EB' := mkEdge (e_head EA) (e_headpos EA) (e_tail EB) (e_tailpos EB) in
  let EA' := mkEdge (e_head EB) (e_headpos EB) (e_tail EA) (e_tailpos EA) in
  let es := upd a EA' (upd b EB' es) in
  do cs <- put_cross cs (e_head EA') (e_headpos EA') a;
  do cs <- put_cross cs (e_head EB') (e_headpos EB') b;
  do d <- pd_regenerate (mkPd (maxverts_of (ncross A + ncross B)) 0 [32] es cs [] []);
  do b <- pd_ok d;
  assert b;
  Ok d.
