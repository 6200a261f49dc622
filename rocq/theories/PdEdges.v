(** Model of pd_regenerate_edges and the functions it calls (src/pdcode.c lines 702-727,
    801-1017). *)
From Coq Require Import List ZArith Lia Bool Arith.
From Verif Require Import Base Iterators Pd PdCross.
Import ListNotations.
Open Scope nat_scope.
Open Scope res_scope.

(** the places around the crossings in the order in which loops visit them *)
Definition place_list (n : nat) : list (nat * nat) := list_prod (seq 0 n) (seq 0 4).

(** pdint_next_comp_edge, src/pdcode.c lines 702-727 *)
Definition next_comp_edge (d : pd) (e : nat) : res (nat * orient) :=
  assert (e <? nedges d);
  do E <- get (p_edge d) e;
  let nxtpos := (e_headpos E + 2) mod 4 in
  do c <- get (p_cross d) (e_head E);
  let nxt := cedge c nxtpos in
  do N <- get (p_edge d) nxt;
  if (e_head E =? e_tail N) && (nxtpos =? e_tailpos N) then Ok (nxt, Pos)
  else if (e_head E =? e_head N) && (nxtpos =? e_headpos N) then Ok (nxt, Neg)
  else Fail.

(** pdint_find_edge_in_crossings, src/pdcode.c lines 858-901: the first two places that hold
    the edge *)
Definition find_edge_in_crossings (cs : list crossing) (e : nat) : res ((nat * nat) * (nat * nat)) :=
  match filter (fun s => edge_in cs s =? e) (place_list (length cs)) with
  | a :: b :: _ => Ok (a, b)
  | _ => Fail
  end.

(** pd_crossmark_t, src/pdcode.c lines 801-829: which places are used, and how often a place
    was marked *)
Record crossmark := mkMark { m_used : list bool; m_num : nat }.
Definition crossmark_new (n : nat) : list crossmark := repeat (mkMark [false; false; false; false] 0) n.

(** cm[c].pos_used[p] = true; cm[c].num_used++ (lines 961-964, 983-986) *)
Definition mark_place (cm : list crossmark) (s : nat * nat) : res (list crossmark) :=
  do m <- get cm (fst s);
  if 4 <=? snd s then UB
  else Ok (upd (fst s) (mkMark (upd (snd s) true (m_used m)) (S (m_num m))) cm).
Definition mark_edge (cm : list crossmark) (E : edge) : res (list crossmark) :=
  do cm1 <- mark_place cm (e_head E, e_headpos E);
  mark_place cm1 (e_tail E, e_tailpos E).

(** pdint_find_unused_cross, src/pdcode.c lines 831-856 *)
Definition find_unused_cross (cm : list crossmark) : option (nat * nat) :=
  find (fun s => match nth_error cm (fst s) with
                 | Some m => negb (m_num m =? 4) && negb (nth (snd s) (m_used m) true)
                 | None => false
                 end) (place_list (length cm)).

(** the loop along one component, lines 966-996; [nxt] is next_edge_idx, next_or *)
Fixpoint orient_loop (fuel : nat) (d : pd) (start : nat) (nxt : nat * orient) (compsafe : nat)
    (cm : list crossmark) : res (pd * list crossmark) :=
  match fuel with
  | 0 => Fuel
  | S f =>
      if fst nxt =? start then Ok (d, cm)
      else
        do E <- get (p_edge d) (fst nxt);
        do E' <- pd_oriented_edge E (snd nxt);
        let d' := with_edges d (upd (fst nxt) E' (p_edge d)) in
        do cm' <- mark_edge cm E';
        if nedges d <=? compsafe then Fail
        else
          do nx <- next_comp_edge d' (fst nxt);
          orient_loop f d' start nx (S compsafe) cm'
  end.

(** the loop over components, lines 951-1007 *)
Fixpoint orient_comps (fuel : nat) (d : pd) (failsafe : nat) (cm : list crossmark) : res pd :=
  match fuel with
  | 0 => Fuel
  | S f =>
      match find_unused_cross cm with
      | None => Ok d
      | Some (i, j) =>
          do c <- get (p_cross d) i;
          let start := cedge c j in
          do E <- get (p_edge d) start;
          do cm1 <- mark_edge cm E;
          do nx <- next_comp_edge d start;
          do r <- orient_loop (nedges d + 2) d start nx 0 cm1;
          if ncross d <? S failsafe then Fail
          else orient_comps f (fst r) (S failsafe) (snd r)
      end
  end.

(** lines 938-946 *)
Definition first_edge (cs : list crossing) (e : nat) : res edge :=
  do p <- find_edge_in_crossings cs e;
  Ok (mkEdge (fst (fst p)) (snd (fst p)) (fst (snd p)) (snd (snd p))).

(** pd_regenerate_edges, src/pdcode.c lines 903-1017.  The unused records
    flushed on lines 924-931 are not part of the model. *)
Definition pd_regenerate_edges (d : pd) : res pd :=
  do es <- map_ok (first_edge (p_cross d)) (seq 0 (2 * ncross d));
  do d' <- orient_comps (ncross d + 2) (with_edges d es) 0 (crossmark_new (ncross d));
  do b <- pd_edges_ok d';
  assert b;
  Ok d'.
