(** Model of the chord systems of src/plcToricSymplecticTriangulation.c: triangulations of the n-gon with
    vertices 0 .. n-1, given by lists of chords. *)
From Coq Require Import List Bool Arith.
From Verif Require Import Base Sorting Pd KAscent.
Import ListNotations.
Open Scope nat_scope.
Open Scope res_scope.

(** tsmcmc_chord_t, src/tsmcmc.h lines 34-38 *)
Definition chord := (nat * nat)%type.

(** tsmcmc_chords_cross, lines 1129-1171; an endpoint is a vertex and the chord (true for A) it belongs to *)
Definition same_chord (a b : chord) : bool :=
  ((fst a =? fst b) && (snd a =? snd b)) || ((fst a =? snd b) && (snd a =? fst b)).
Definition share_vertex (a b : chord) : bool :=
  (fst a =? fst b) || (fst a =? snd b) || (snd a =? fst b) || (snd a =? snd b).
Definition endpoint_le (p q : nat * bool) : bool := fst p <=? fst q.
Definition chords_cross (a b : chord) : bool :=
  if same_chord a b then true
  else if share_vertex a b then false
  else match map snd (isort endpoint_le [(fst a, true); (snd a, true); (fst b, false); (snd b, false)]) with
       | [true; false; true; false] | [false; true; false; true] => true
       | _ => false
       end.
(** tsmcmc_chord_system_ok, lines 1174-1192: every chord against the earlier ones *)
Fixpoint no_cross_earlier (earlier : list chord) (cs : list chord) : bool :=
  match cs with
  | [] => true
  | c :: cs' => forallb (fun e => negb (chords_cross c e)) earlier && no_cross_earlier (earlier ++ [c]) cs'
  end.
Definition chord_system_ok (cs : list chord) : bool := no_cross_earlier [] cs.

(** the chords of tsmcmc_fan_triangulation, lines 22-26 *)
Definition fan_chords (n : nat) : list chord := map (fun i => (0, i + 2)) (seq 0 (n - 3)).

(** the chords of tsmcmc_teeth_triangulation, lines 165-186.  chordsys[0] is written even if n = 3, when
    the buffer is empty. *)
Fixpoint teeth_from (count : nat) (used : nat) (last : chord) : list chord :=
  match count with
  | 0 => []
  | S count' =>
      let c := if negb (used mod 2 =? 0) then (fst last, snd last + 1) else (fst last - 1, snd last) in
      c :: teeth_from count' (used + 1) c
  end.
Definition teeth_chords (n : nat) : res (list chord) :=
  if n <=? 3 then UB else Ok ((n - 1, 1) :: teeth_from (n - 4) 1 (n - 1, 1)).

(** tsmcmc_random_triangulation_worker, lines 84-130.  [draws] are the results of gsl_rng_uniform_int,
    [sys] the chords stored so far; the buffer has room for [cap] chords. *)
Definition store_chord (cap : nat) (sys : list chord) (c : chord) : res (list chord) :=
  if length sys <? cap then Ok (sys ++ [c]) else UB.
Fixpoint gets (l : list nat) (is : list nat) : res (list nat) :=
  match is with
  | [] => Ok []
  | i :: is' => do x <- get l i; do xs <- gets l is'; Ok (x :: xs)
  end.
Fixpoint random_worker (fuel cap : nat) (sys : list chord) (polygon : list nat) (draws : list nat)
  : res (list chord * list nat) :=
  match fuel with
  | 0 => Fuel
  | S fuel' =>
      let polsize := length polygon in
      if polsize =? 3 then Ok (sys, draws)
      else
        do p <- uniform_int (polsize - 2) draws;
        let chord0 := fst p in
        do q <- uniform_int (polsize - chord0 - (if chord0 =? 0 then 3 else 2)) (snd p);
        let chord1 := chord0 + 2 + fst q in
        do v0 <- get polygon chord0;
        do v1 <- get polygon chord1;
        do sys <- store_chord cap sys (v0, v1);
        let lenB := polsize - (chord1 - chord0 - 1) in
        let lenA := polsize + 2 - lenB in
        do dA <- gets polygon (map (fun i => chord0 + i) (seq 0 lenA));
        do dB <- gets polygon (map (fun i => (chord1 + i) mod polsize) (seq 0 lenB));
        do r <- random_worker fuel' cap sys dA (snd q);
        random_worker fuel' cap (fst r) dB (snd r)
  end.
(** the chords of tsmcmc_random_triangulation, lines 139-149 *)
Definition random_chords (n : nat) (draws : list nat) : res (list chord * list nat) :=
  random_worker n (n - 3) [] (seq 0 n) draws.

(** the chords of tsmcmc_spiral_triangulation, lines 38-71; chordsys[0].vt[0] is set even if n = 3, when
    the buffer is empty *)
Fixpoint scan (fuel n : nat) (active : list bool) (i : nat) : res nat :=
  match fuel with
  | 0 => Fuel
  | S fuel' => do b <- get active i; if b then Ok i else scan fuel' n active ((i + 1) mod n)
  end.
Fixpoint spiral_loop (count n : nat) (active : list bool) (i : nat) : res (list chord) :=
  match count with
  | 0 => Ok []
  | S count' =>
      do j <- scan n n active ((i + 1) mod n);
      let active' := upd j false active in
      do k <- scan n n active' ((j + 1) mod n);
      do cs <- spiral_loop count' n active' k;
      Ok ((i, k) :: cs)
  end.
Definition spiral_chords (n : nat) : res (list chord) :=
  if n <=? 3 then UB else spiral_loop (n - 3) n (repeat true n) 0.
