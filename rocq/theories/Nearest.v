(** Model of the nearest point searches (src/nearest_neighbor.c). *)
From Coq Require Import List NArith ZArith QArith Qround Lia Bool Arith.
From Verif Require Import Base Iterators Pd.
Import ListNotations.
Open Scope nat_scope.
Open Scope res_scope.

(** plc_vector; coordinates are rationals, so that arithmetic is exact *)
Record vec := mkVec { vx : Q; vy : Q; vz : Q }.
Definition coord (j : nat) (v : vec) : Q := match j with 0 => vx v | 1 => vy v | _ => vz v end.
(** plc_M_sq_dist, src/plCurve.h lines 300-304 *)
Definition sqr (a : Q) : Q := (a * a)%Q.
Definition sq_dist (a b : vec) : Q := (sqr (vx a - vx b) + sqr (vy a - vy b) + sqr (vz a - vz b))%Q.
Definition Qltb (a b : Q) : bool := negb (Qle_bool b a).

(** exhaustive_nearest_neighbor with stride 1, lines 24-44.  [best] is bestyet; DBL_MAX is [None], that is, distances are
    taken to be smaller. *)
Fixpoint exhaustive_from (q : vec) (l : list vec) (pos : nat) (best : option Q) (bestpos : nat) : nat :=
  match l with
  | [] => bestpos
  | v :: l' =>
      let this := sq_dist q v in
      if match best with None => true | Some b => Qltb this b end then exhaustive_from q l' (pos + 1) (Some this) pos
      else exhaustive_from q l' (pos + 1) best bestpos
  end.
Definition exhaustive_nearest_neighbor (q : vec) (l : list vec) : nat := exhaustive_from q l 0 None 0.

(** max_dimension, lines 46-79: the extents of the bounding box are cut off to integers.  Simplification: extents beyond
    the range of int are not modelled. *)
Definition low_of (j : nat) (l : list vec) (a : vec) : Q := fold_left (fun m v => if Qltb m (coord j v) then m else coord j v) l (coord j a).
Definition high_of (j : nat) (l : list vec) (a : vec) : Q := fold_left (fun m v => if Qltb (coord j v) m then m else coord j v) l (coord j a).
Definition max_dimension (l : list vec) : res nat :=
  match l with
  | [] => UB
  | a :: _ =>
      let ext j := Qfloor (high_of j l a - low_of j l a) in
      Ok (if Z.ltb (ext 1) (ext 0) then (if Z.ltb (ext 2) (ext 0) then 0 else 2) else (if Z.ltb (ext 2) (ext 1) then 1 else 2))
  end.

(** the memory: the points found at an address *)
Definition memory := nat -> list vec.
Definition points (mem : memory) (p n : nat) : res (list vec) := if n <=? length (mem p) then Ok (firstn n (mem p)) else UB.
(** struct plc_nearest_neighbor_pc_data, src/plCurve.h lines 577-583; [None] is a null pointer *)
Record pcdata := mkPc { pc_check : nat; pc_dim : nat; pc_sorted : option (list nat) }.

(** the loop on lines 225-237 *)
Fixpoint bisect (fuel : nat) (x : Q) (key : nat -> res Q) (so : list nat) (low high : nat) : res nat :=
  match fuel with
  | 0 => Fuel
  | S f =>
      if 1 <? high - low then
        let mid := (high + low) / 2 in
        do i <- get so mid;
        do k <- key i;
        if Qltb k x then bisect f x key so mid high else bisect f x key so low mid
      else Ok low
  end.
(** [a < sqrt D]: plc_distance is the square root of the squared distance *)
Definition below_dist (a D : Q) : bool := Qltb a 0 || Qltb (sqr a) D.
(** the loops on lines 256-267 and 269-280 over the entries [l] of the sorted buffer; [off] is the difference of
    coordinates; the best distance is kept as its square *)
Fixpoint scan_sorted (q : vec) (buf : list vec) (off : Q -> Q) (dim : nat) (l : list nat) (best : Q * nat) : res (Q * nat) :=
  match l with
  | [] => Ok best
  | i :: l' =>
      do v <- get buf i;
      if below_dist (off (coord dim v)) (fst best) then
        scan_sorted q buf off dim l' (if Qltb (sq_dist q v) (fst best) then (sq_dist q v, i) else best)
      else Ok best
  end.

(** buffer[i].c[search_dimension] *)
Definition key_at (buf : list vec) (dim i : nat) : res Q := do v <- get buf i; Ok (coord dim v).
(** the search, lines 200-280, in the sorted buffer [so] *)
Definition nn_search (mem : memory) (q : vec) (n p : nat) (dim : nat) (so : list nat) : res nat :=
  let buf := mem p in
  let x := coord dim q in
  let key := key_at buf dim in
  do i0 <- get so 0;
  do k0 <- key i0;
  do start <-
    (if Qltb x k0 then Ok 0
     else
       do i1 <- get so (n - 1);
       do k1 <- key i1;
       if Qltb k1 x then Ok (n - 1) else bisect (n + 1) x key so 0 (n - 1));
  do s <- get so start;
  do v <- get buf s;
  do b <- scan_sorted q buf (fun c => c - x)%Q dim (skipn start (firstn n so)) (sq_dist q v, s);
  do b <- scan_sorted q buf (fun c => x - c)%Q dim (rev (firstn (start + 1) so)) b;
  Ok (snd b).

(** plc_nearest_neighbor, lines 90-295: [pc] is [None] if pc_data is NULL and holds *pc_data otherwise.  The result is the
    index, what is in *pc_data afterwards and whether the error was set.  [srt] is qsort.
    Simplification: freed memory is not modelled. *)
Definition plc_nearest_neighbor (srt : (nat -> Q) -> list nat -> list nat) (mem : memory) (q : vec) (n p : nat)
    (pc : option (option pcdata)) : res (nat * option (option pcdata) * bool) :=
  let stale := match pc with Some (Some t) => negb (pc_check t =? p) | _ => false end in
  let loc := match pc with Some (Some t) => if pc_check t =? p then Some t else None | _ => None end in
  let pc := if stale then Some None else pc in
  if (N.of_nat n <? 5000)%N then
    do pts <- points mem p n;
    Ok (exhaustive_nearest_neighbor q pts, match pc with Some None => Some (Some (mkPc p 0 None)) | _ => pc end, stale)
  else
    do loc <- match loc with
              | Some t => Ok t
              | None =>
                  do pts <- points mem p n;
                  do dim <- max_dimension pts;
                  Ok (mkPc p dim (Some (srt (fun i => coord dim (nth i pts (mkVec 0 0 0))) (seq 0 n))))
              end;
    match pc_sorted loc with
    | None => UB
    | Some so =>
        do r <- nn_search mem q n p (pc_dim loc) so;
        Ok (r, match pc with Some None => Some (Some loc) | _ => pc end, stale)
    end.

(** struct plc_nearest_vertex_pc_data, src/plCurve.h lines 585-590 *)
Record vpcdata := mkVpc { vp_check : nat; vp_comp : list (option pcdata) }.
(** a curve: its address and, for each component, the address of the vertices and their number *)
Record curve := mkCurve { cv_addr : nat; cv_comps : list (nat * nat) }.

(** the loop on lines 409-414 *)
Fixpoint nv_loop (srt : (nat -> Q) -> list nat -> list nat) (mem : memory) (q : vec) (cs : list (nat * nat)) (data : list (option pcdata))
    : res (list (nat * vec) * list (option pcdata) * bool) :=
  match cs with
  | [] => Ok ([], data, false)
  | (p, nv) :: cs' =>
      match data with
      | [] => UB
      | t :: data' =>
          do r <- plc_nearest_neighbor srt mem q nv p (Some t);
          let '(i, t, e) := r in
          do v <- get (mem p) i;
          do rest <- nv_loop srt mem q cs' data';
          let '(bs, ds, e') := rest in
          Ok ((i, v) :: bs, (match t with Some t => t | None => None end) :: ds, e || e')
      end
  end.
(** plc_nearest_vertex, lines 365-453 *)
Definition plc_nearest_vertex (srt : (nat -> Q) -> list nat -> list nat) (mem : memory) (q : vec) (L : curve) (pc : option (option vpcdata))
    : res ((nat * nat * vec) * option (option vpcdata) * bool) :=
  let stale := match pc with Some (Some t) => negb (vp_check t =? cv_addr L) | _ => false end in
  let cp := match pc with
            | Some (Some t) => if vp_check t =? cv_addr L then t else mkVpc (cv_addr L) (repeat None (length (cv_comps L)))
            | _ => mkVpc (cv_addr L) (repeat None (length (cv_comps L)))
            end in
  do r <- nv_loop srt mem q (cv_comps L) (vp_comp cp);
  let '(bs, ds, e) := r in
  let best := exhaustive_nearest_neighbor q (map snd bs) in
  do b <- get bs best;
  let cp := mkVpc (vp_check cp) ds in
  Ok ((best, fst b, snd b), match pc with None => None | _ => Some (Some cp) end, stale || e).
