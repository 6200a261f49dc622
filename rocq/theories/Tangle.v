(** Model of tangles: src/pd_tangles.c lines 80-1038 and 3565-3585. *)
From Coq Require Import List ZArith Lia Bool Arith.
From Verif Require Import Base Iterators Sorting Containers Pd PdCross PdIso OverUnder Bigon.
Import ListNotations.
Open Scope nat_scope.
Open Scope res_scope.

(** pd_boundary_or_t, src/plcTopology.h line 846.  Nothing sets [unset]. *)
Inductive bdy := Inward | Outward.
Definition is_out (b : bdy) : bool := match b with Outward => true | Inward => false end.

(** pd_tangle_strand_t, src/plcTopology.h lines 848-858 *)
Record tstrand := mkTS { start_edge : nat; end_edge : nat; ts_nedges : nat; ts_comp : nat }.
(** pd_tangle_t, src/plcTopology.h lines 860-879.  The counters are the lengths of the lists; a NULL buffer is [None]. *)
Record tangle := mkTangle {
  t_edge : list nat; t_face : list nat; t_or : list bdy; t_strand : list tstrand;
  t_cross : option (list nat); t_inner : option (list nat) }.

(** pd_tangle_new, lines 80-125: zeros from calloc; 0 is the orientation in *)
Definition pd_tangle_new (n : nat) : res tangle :=
  assert (negb (n =? 0));
  assert (Nat.even n);
  Ok (mkTangle (repeat 0 n) (repeat 0 n) (repeat Inward n) (repeat (mkTS 0 0 0 0) (n / 2)) None None).

(** the entries of the sorted copy, neighbours compared: lines 243-262 and 631-654 *)
Fixpoint no_repeats (l : list nat) : bool :=
  match l with
  | x :: l' => match l' with y :: _ => negb (x =? y) && no_repeats l' | [] => true end
  | [] => true
  end.
Definition edges_unique (es : list nat) : bool := no_repeats (isort Nat.leb es).

Definition occurs (buf : option (list nat)) (c : nat) : res bool := pd_sortedbuf_contains (match buf with Some l => l | None => [] end) c.

(** lines 776-799 and 945-985: the place of an edge on the boundary; an edge found twice stops the program *)
Definition places_of (es : list nat) (e : nat) : list nat := filter (fun i => nth i es 0 =? e) (seq 0 (length es)).
Definition tangle_pos (es : list nat) (e : nat) : res (option nat) :=
  match places_of es e with [] => Ok None | [i] => Ok (Some i) | _ => Fail end.

(** * pd_tangle_ok, lines 187-583.  Only what returns false or stops is modelled; other checks print a message. *)
Definition on_one_side (q : nat * nat) (f : nat) : bool := xorb (fst q =? f) (snd q =? f).
Definition faces_fit (d : pd) (t : tangle) : res bool :=
  let n := length (t_edge t) in
  do qs <- map_ok (pd_face_and_pos d) (t_edge t);
  all_ok (fun i =>
    do q <- get qs i;
    do f <- get (t_face t) i;
    do g <- get (t_face t) ((i + 1) mod n);
    Ok (on_one_side q f && on_one_side q g)) (seq 0 n).
(** lines 305-343 *)
Definition counts_fit (t : tangle) : bool :=
  (length (filter is_out (t_or t)) <=? length (t_strand t)) &&
  (length (filter (fun o => negb (is_out o)) (t_or t)) <=? length (t_strand t)).
(** lines 345-388 *)
Definition strand_fits (d : pd) (t : tangle) (s : tstrand) : res bool :=
  assert (start_edge s <? length (t_edge t));
  assert (end_edge s <? length (t_edge t));
  do c <- get (p_comp d) (ts_comp s);
  Ok (ts_nedges s <=? length (cp_edge c)).
(** lines 390-428: walking along a strand; [left] is the number of steps that j can still make *)
Fixpoint rewalk (left : nat) (d : pd) (edge target : nat) : res bool :=
  if edge =? target then Ok (left =? 0)
  else match left with
       | 0 => Ok false
       | S left' => do e <- pd_next_edge d edge; rewalk left' d e target
       end.
(** A strand with no edges at all would be walked until j wraps around; this is [UB] here. *)
Definition strand_walks (d : pd) (t : tangle) (s : tstrand) : res bool :=
  do a <- get (t_edge t) (start_edge s);
  do b <- get (t_edge t) (end_edge s);
  match ts_nedges s with 0 => if a =? b then Ok false else UB | S n => rewalk n d a b end.
(** lines 430-459 *)
Definition strand_on_comp (d : pd) (t : tangle) (s : tstrand) : res bool :=
  do a <- get (t_edge t) (start_edge s);
  do b <- get (t_edge t) (end_edge s);
  do p <- pd_component_and_pos d a;
  do q <- pd_component_and_pos d b;
  Ok ((fst p =? ts_comp s) && (fst q =? ts_comp s)).
Definition buf_len (b : option (list nat)) : nat := match b with Some l => length l | None => 0 end.
Definition pd_tangle_ok (d : pd) (t : tangle) : res bool :=
  if negb (length (t_strand t) =? length (t_edge t) / 2) then Ok false
  else if negb (edges_unique (t_edge t)) then Ok false
  else
    and_ok (faces_fit d t)
    (if negb (counts_fit t) then Ok false
     else
       and_ok (all_ok (strand_fits d t) (t_strand t))
       (and_ok (all_ok (strand_walks d t) (t_strand t))
       (and_ok (all_ok (strand_on_comp d t) (t_strand t))
       (Ok ((buf_len (t_cross t) <=? ncross d) && (buf_len (t_inner t) <=? nedges d)))))).

(** * pd_regenerate_tangle, lines 591-912, with err = NULL: an error stops the program *)

(** lines 656-682 *)
Definition edge_on_face (d : pd) (e f : nat) : res bool :=
  do F <- get (p_face d) f;
  Ok (existsb (fun a => fst a =? e) F).
(** lines 726-748 *)
Definition boundary_or (d : pd) (e f : nat) : res bdy :=
  do q <- pd_face_and_pos d e;
  if fst q =? f then Ok Inward else if snd q =? f then Ok Outward else Fail.
Fixpoint map2_ok {A B C} (f : A -> B -> res C) (l : list A) (m : list B) : res (list C) :=
  match l, m with
  | [], _ => Ok []
  | _ :: _, [] => UB
  | a :: l', b :: m' => do c <- f a b; do r <- map2_ok f l' m'; Ok (c :: r)
  end.

(** lines 771-815: the walk along a strand.  [k] is what is left until the failsafe ends the loop; [n] edges have been
    counted.  The step to the next edge is made after the last edge as well. *)
Fixpoint strand_walk (k : nat) (d : pd) (es : list nat) (os : list bdy) (j n : nat) : res (nat * nat) :=
  match k with
  | 0 => Fail (* lines 817-833 *)
  | S k' =>
      do p <- tangle_pos es j;
      do o <- (match p with Some i => get os i | None => Ok Inward end);
      do j' <- pd_next_edge d j;
      match p, o with
      | Some i, Outward => Ok (i, S n)
      | _, _ => strand_walk k' d es os j' (S n)
      end
  end.
Definition make_strand (d : pd) (es : list nat) (os : list bdy) (i : nat) : res tstrand :=
  do e <- get es i;
  do q <- pd_component_and_pos d e;
  do c <- get (p_comp d) (fst q);
  do r <- strand_walk (length (cp_edge c) + 4) d es os e 0;
  Ok (mkTS i (fst r) (snd r) (fst q)).
(** lines 750-841: [s] is the next entry of the array of strands to be written *)
Fixpoint make_strands (d : pd) (es : list nat) (os : list bdy) (is : list nat) (s : nat) (ss : list tstrand) : res (list tstrand) :=
  match is with
  | [] => Ok ss
  | i :: is' =>
      do o <- get os i;
      match o with
      | Outward => make_strands d es os is' s ss
      | Inward =>
          do x <- make_strand d es os i;
          if s <? length ss then make_strands d es os is' (S s) (upd s x ss) else UB
      end
  end.

(** tangle_contents_worker, lines 914-1037.  [k] is nedges + 1 - depth, so that [k = 0] means depth > nedges.  The
    state is interior_cross and interior_edge. *)
Definition contents : Type := option (list nat) * option (list nat).
Fixpoint contents_worker (k : nat) (d : pd) (es : list nat) (os : list bdy) (edge : nat) (st : contents) : res contents :=
  match k with
  | 0 => Fail
  | S k' =>
      do p <- tangle_pos es edge;
      do o <- (match p with Some i => get os i | None => Ok Inward end);
      if is_out o then Ok st
      else
        do inner <- (match p with Some _ => Ok (snd st) | None => pd_sortedbuf_insert (snd st) edge end);
        do E <- get (p_edge d) edge;
        let cr := e_head E in
        do b <- occurs (fst st) cr;
        if b then Ok (fst st, inner)
        else
          do cs <- pd_sortedbuf_insert (fst st) cr;
          do n <- pd_next_edge d edge;
          do st <- contents_worker k' d es os n (cs, inner);
          do x <- get (p_cross d) cr;
          let u := cedge x ((e_headpos E + 1) mod 4) in
          let v := cedge x ((e_headpos E + 3) mod 4) in
          do U <- get (p_edge d) u;
          if e_tail U =? cr then contents_worker k' d es os u st
          else
            do V <- get (p_edge d) v;
            if e_tail V =? cr then contents_worker k' d es os v st else Fail
  end.
(** lines 878-902: the edges of a strand *)
Fixpoint seed_strand (n : nat) (d : pd) (es : list nat) (os : list bdy) (edge : nat) (st : contents) : res contents :=
  match n with
  | 0 => Ok st
  | S n' =>
      do st <- contents_worker (S (nedges d)) d es os edge st;
      do e <- pd_next_edge d edge;
      seed_strand n' d es os e st
  end.
Definition seed (d : pd) (es : list nat) (os : list bdy) (st : contents) (s : tstrand) : res contents :=
  do e <- get es (start_edge s);
  seed_strand (ts_nedges s - (if start_edge s =? end_edge s then 1 else 0)) d es os e st.

Definition pd_regenerate_tangle (d : pd) (t : tangle) : res tangle :=
  let es := t_edge t in
  let n := length es in
  assert (negb (n =? 0) && (n <=? nedges d));
  assert (edges_unique es);
  do bs <- map2_ok (edge_on_face d) es (t_face t);
  assert (forallb (fun b => b) bs);
  do os <- map2_ok (boundary_or d) es (t_face t);
  do ss <- make_strands d es os (seq 0 n) 0 (t_strand t);
  do st <- fold_ok (seed d es os) ss (None, None);
  let t' := mkTangle es (t_face t) os ss (fst st) (snd st) in
  do b <- pd_tangle_ok d t';
  assert b;
  Ok t'.

(** pd_tangle_bdy_or, lines 3565-3585 *)
Definition pd_tangle_bdy_or (t : tangle) (e : nat) : res bdy :=
  match places_of (t_edge t) e with
  | [] => Fail
  | i :: _ => get (t_or t) i
  end.
