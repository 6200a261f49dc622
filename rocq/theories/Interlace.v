(** Model of the interlacement counts (src/pd_invariants.c).  ints are unbounded integers. *)
From Coq Require Import List ZArith Lia Bool Arith.
From Verif Require Import Base Iterators Sorting Pd PdCross PdIso OverUnder.
Import ListNotations.
Open Scope nat_scope.
Open Scope res_scope.

(** pdint_polyak_sign, src/pd_invariants.c lines 48-100.  The sign of the crossing is set for the two
    calls and restored afterwards. *)
Definition signed_pos (x : crossing) : crossing := mkCross (ce0 x) (ce1 x) (ce2 x) (ce3 x) Pos.
Definition with_pos (d : pd) (cr : nat) (x : crossing) : pd :=
  mkPd (p_maxv d) (p_uid d) (p_hash d) (p_edge d) (upd cr (signed_pos x) (p_cross d)) (p_comp d) (p_face d).
Definition pdint_polyak_sign (d : pd) (cr : nat) : res Z :=
  do x <- get (p_cross d) cr;
  do o <- pd_overstrand_pos (with_pos d cr x) cr;
  do u <- pd_understrand_pos (with_pos d cr x) cr;
  let oop := snd o in
  let oup := snd u in
  assert (negb (oup =? oop));
  let oop := if (oop =? 0) && (oup =? 3) then 4 else oop in
  let oup := if (oup =? 0) && (oop =? 3) then 4 else oup in
  let '(e1p, e2p) := if oup <? oop then (oup mod 4, oop mod 4) else (oop mod 4, oup mod 4) in
  assert (negb (e1p =? e2p));
  Ok (if cedge x e1p <? cedge x e2p then 1%Z else (-1)%Z).

(** phase 1, lines 229-237: the numbers of the crossings along a component, from 1 *)
Definition gauss_code (d : pd) (es : list nat) : res (list Z) :=
  map_ok (fun e => do E <- get (p_edge d) e; Ok (Z.of_nat (e_head E + 1))) es.

(** phase 2, lines 245-257: the first occurrence of a crossing becomes negative *)
Fixpoint tag_first (nseen : list nat) (code : list Z) : res (list Z) :=
  match code with
  | [] => Ok []
  | x :: r =>
      do k <- get nseen (Z.to_nat x);
      do r' <- tag_first (upd (Z.to_nat x) (k + 1) nseen) r;
      Ok ((if k + 1 =? 1 then (- x)%Z else x) :: r')
  end.

(** lines 302-309: the new labels *)
Fixpoint new_labels (i : nat) (present : list Z) (arr : list nat) : res (list nat) :=
  match present with
  | [] => Ok arr
  | x :: r => if Z.to_nat x <? length arr then new_labels (i + 1) r (upd (Z.to_nat x) (i + 1) arr) else UB
  end.

(** lines 319-330: the code of the crossings that occur twice *)
Fixpoint augmented (label : list nat) (code : list Z) : res (list Z) :=
  match code with
  | [] => Ok []
  | x :: r =>
      do k <- get label (Z.to_nat (Z.abs x));
      do r' <- augmented label r;
      Ok (if 0 <? k then ((if (0 <? x)%Z then 1 else -1) * Z.of_nat k)%Z :: r' else r')
  end.

(** phase 3, lines 338-373: nswaps[larger][smaller]++, one pass of the bubble sort, and the passes.
    The counters are natural numbers. *)
Definition bump (ns : list (list nat)) (a b : nat) : res (list (list nat)) :=
  do row <- get ns a;
  do v <- get row b;
  Ok (upd a (upd b (v + 1) row) ns).
Fixpoint bubble (x : Z) (l : list Z) (ns : list (list nat)) : res (list Z * list (list nat) * bool) :=
  match l with
  | [] => Ok ([x], ns, false)
  | y :: l' =>
      if (Z.abs y <? Z.abs x)%Z then
        do ns' <- bump ns (Z.to_nat (Z.abs x)) (Z.to_nat (Z.abs y));
        do r <- bubble x l' ns';
        let '(l'', ns'', _) := r in Ok (y :: l'', ns'', true)
      else
        do r <- bubble y l' ns;
        let '(l'', ns'', b) := r in Ok (x :: l'', ns'', b)
  end.
Definition bubble_pass (l : list Z) (ns : list (list nat)) : res (list Z * list (list nat) * bool) :=
  match l with
  | [] => Ok ([], ns, false)
  | x :: l' => bubble x l' ns
  end.
(** [k] is the number of passes that the assertion on safety_count still allows *)
Fixpoint bubble_sort (k : nat) (l : list Z) (ns : list (list nat)) : res (list (list nat)) :=
  do r <- bubble_pass l ns;
  let '(l', ns', swapped) := r in
  match k with
  | 0 => Fail
  | S k' => if swapped then bubble_sort k' l' ns' else Ok ns'
  end.

(** phase 4, lines 378-406: the pairs (i,j) with 2 <= i <= cpsize and 1 <= j < i *)
Definition label_pairs (cpsize : nat) : list (nat * nat) :=
  flat_map (fun i => map (pair i) (seq 1 (i - 1))) (seq 2 (cpsize - 1)).
Definition interlacements (d : pd) (signs : bool) (old : list Z) (ns : list (list nat)) (cpsize : nat) : res Z :=
  fold_ok (fun t ij =>
    do row <- get ns (fst ij);
    do v <- get row (snd ij);
    if v mod 2 =? 0 then Ok t
    else if signs then
      do a <- get old (fst ij);
      do b <- get old (snd ij);
      do s <- pdint_polyak_sign d (Z.to_nat a);
      do s' <- pdint_polyak_sign d (Z.to_nat b);
      Ok (t + s * s')%Z
    else Ok (t + 1)%Z) (label_pairs cpsize) 0%Z.

(** pdint_interlaced_comp, lines 103-420.  qsort orders ints, so that the result does not depend on the
    method. *)
Definition pdint_interlaced_comp (d : pd) (comp : nat) (signs : bool) : res Z :=
  do C <- get (p_comp d) comp;
  do code <- gauss_code d (cp_edge C);
  do code <- tag_first (repeat 0 (ncross d + 1)) code;
  let present := filter (fun x => 0 <? x)%Z code in
  let cpsize := length present in
  if ncross d <? cpsize then UB
  else if cpsize =? 0 then Ok 0%Z
  else
    let present := isort Z.leb present in
    do label <- new_labels 0 present (repeat 0 (ncross d + 1));
    let old := 0%Z :: map (fun x => x - 1)%Z present in
    do aug <- augmented label code;
    if 2 * cpsize <? length aug then UB
    else
      assert (length aug =? 2 * cpsize);
      let ns := map (fun i => if i <? 2 then [] else repeat 0 i) (seq 0 (cpsize + 1)) in
      do ns <- bubble_sort (2 * cpsize + 1) aug ns;
      interlacements d signs old ns cpsize.

(** pd_interlaced_crossings, lines 423-439, and pd_interlaced_crossings_unsigned, lines 441-456 *)
Definition pd_interlaced_crossings (d : pd) : res (list Z) :=
  map_ok (fun i => pdint_interlaced_comp d i true) (seq 0 (ncomps d)).
Definition pd_interlaced_crossings_unsigned (d : pd) : res (list Z) :=
  map_ok (fun i => pdint_interlaced_comp d i false) (seq 0 (ncomps d)).
