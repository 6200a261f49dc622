(** Model of pd_regenerate_hash (src/pdcode.c lines 1289-1713). *)
From Coq Require Import List ZArith Lia Bool Arith.
From Verif Require Import Base Base64 Iterators Sorting Pd.
From Verif Require PdStore.
Import ListNotations.
Open Scope nat_scope.
Open Scope res_scope.

(** pd_buf_cmp, src/pdcode.c lines 1291-1303, on buffers of the same length: a < b *)
Fixpoint buf_lt (a b : list nat) : bool :=
  match a, b with
  | x :: a', y :: b' => if x <? y then true else if y <? x then false else buf_lt a' b'
  | _, _ => false
  end.

(** pd_canonicalorder, src/pdcode.c lines 1305-1361 *)
Definition rot (i : nat) (buf : list nat) : list nat :=
  map (fun j => nth ((i + j) mod length buf) buf 0) (seq 0 (length buf)).
Definition pd_canonicalorder (buf : list nat) : list nat :=
  let better best cur := if buf_lt cur best then cur else best in
  let best := fold_left (fun best i => better best (rot i buf)) (seq 0 (length buf)) buf in
  fold_left (fun best i => better best (rev (rot i buf))) (seq 0 (length buf)) best.

(** the faces incident to each edge, src/pdcode.c lines 1452-1503: the entries of iface[te].f that
    are set *)
Definition note_face (face te : nat) (ifs : list (list nat)) : res (list (list nat)) :=
  do l <- get ifs te;
  match l with
  | [] => Ok (upd te [face] ifs)
  | [a] => Ok (upd te [a; face] ifs)
  | _ => Fail
  end.
Fixpoint note_edges (face : nat) (es : list nat) (ifs : list (list nat)) : res (list (list nat)) :=
  match es with
  | [] => Ok ifs
  | te :: es' => do ifs' <- note_face face te ifs; note_edges face es' ifs'
  end.
Fixpoint note_faces (face : nat) (fs : list (list nat)) (ifs : list (list nat)) : res (list (list nat)) :=
  match fs with
  | [] => Ok ifs
  | f :: fs' => do ifs' <- note_edges face f ifs; note_faces (S face) fs' ifs'
  end.
Definition incident_faces (nedges : nat) (fs : list (list nat)) : res (list (list nat)) :=
  do ifs <- note_faces 0 fs (repeat [] nedges);
  assert (forallb (fun l => length l =? 2) ifs);
  Ok ifs.

(** adjfaces, src/pdcode.c lines 1536-1541 *)
Definition adjacent_face (ifs : list (list nat)) (face te : nat) : nat :=
  match nth te ifs [] with
  | [a; b] => if a =? face then b else a
  | _ => 0
  end.
Definition adjfaces (ifs : list (list nat)) (face : nat) (f : list nat) : list nat :=
  map (adjacent_face ifs face) f.

(** equal neighbours in the sorted list of adjacent faces, lines 1555-1561.  For a face without
    edges the loop bound wraps around and the loop reads outside adjfaces. *)
Fixpoint equal_neighbours (l : list nat) : nat :=
  match l with
  | x :: ((y :: _) as l') => (if x =? y then 1 else 0) + equal_neighbours l'
  | _ => 0
  end.

(** the number of edges that join a face with [s] edges to one with [k] edges, [k] < 7: lines
    1565-1598 *)
Definition joins (fs : list (list nat)) (adj : list (list nat)) (s k : nat) : nat :=
  list_sum (map (fun p => if length (fst p) =? s
    then length (filter (fun g => length (nth g fs []) =? k) (snd p)) else 0) (combine fs adj)).

(** the compressed vector, lines 1663-1689.  Simplification: the zeros of a run are counted one
    by one in the outer loop; [inrun] says that the previous entry was zero. *)
Fixpoint compress (v : list nat) (inrun : bool) (k : nat) (out : list nat) : list nat :=
  match v with
  | [] => out
  | 0 :: v' => compress v' true k (upd k ((if inrun then nth k out 0 else 255) - 1) out)
  | x :: v' => compress v' false (S k) (upd k x out)
  end.

Definition uchar (n : nat) : Z := (Z.of_nat n mod 256)%Z.

(** the array data, lines 1424-1447 and 1602-1697.  Every write is guarded by i < 24, so that the
    array holds the first 24 entries of the whole sequence. *)
Definition hash_data (d : pd) : res (list Z) :=
  let fs := map (map fst) (p_face d) in
  do ifs <- incident_faces (nedges d) fs;
  match fs with
  | [] => UB (* pd->face[0] is not set: line 1526 *)
  | f0 :: rest =>
      if existsb (fun f => length f =? 0) fs then UB
      else
        let adj := map (fun p => adjfaces ifs (fst p) (snd p)) (combine (seq 0 (length fs)) fs) in
        let dual := list_sum (map (fun a => equal_neighbours (isort Nat.leb a)) adj) in
        let V := map (fun g => length (nth g fs [])) (nth 0 adj []) in
        let largest := forallb (fun f => length f <? length f0) rest in
        let combined := map (joins fs adj 1) [3; 4; 5; 6] ++ map (joins fs adj 2) [3; 4; 5; 6] ++
                        map (joins fs adj 3) [3; 4; 5; 6] ++ repeat 0 9 in
        let all := [ncross d; nedges d; nfaces d] ++ map (@length nat) fs ++
                   [ncomps d] ++ map (fun c => length (cp_edge c)) (p_comp d) ++ [dual] ++
                   (if largest then pd_canonicalorder V else []) ++
                   compress combined false 0 (repeat 0 21) in
        Ok (firstn 24 (map uchar all ++ repeat 0%Z 24))
  end.

(** pd_regenerate_hash, src/pdcode.c lines 1364-1713: the 32 characters are cut to 31 on line 1711 *)
Definition pd_regenerate_hash (d : pd) : res pd :=
  do data <- hash_data d;
  Ok (with_hash d (firstn 31 (base64encode data))).
