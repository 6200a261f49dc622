(** Specification: diagrams with the same faces up to renumbering, and the base-64 alphabet. *)
From Coq Require Import List ZArith Bool Arith Permutation Sorted.
From Verif Require Import Base Iterators Pd PdSpec Relabel.
Import ListNotations.
Open Scope nat_scope.

(** [b] is [a] read cyclically from another place *)
Definition rotation {A} (a b : list A) : Prop := exists x y, a = x ++ y /\ b = y ++ x.
(** the same cyclic list, read in either direction *)
Definition around {A} (a b : list A) : Prop := rotation a b \/ rotation (rev a) b.

Definition face_edges (d : pd) : list (list nat) := map (map fst) (p_face d).

(** there are faces, none is empty, and their boundaries use every edge twice *)
Definition faced (d : pd) : Prop :=
  p_face d <> [] /\ ~ In [] (face_edges d) /\
  forall e, count_occ Nat.eq_dec (concat (face_edges d)) e = if e <? nedges d then 2 else 0.

(** renaming edge [e] to [pi e] and face [f] to [phi f] takes the faces of [d] to those of [d'];
    all of them may be traversed in either direction *)
Record same_faces (d d' : pd) (pi phi : nat -> nat) : Prop := {
  sf_nedges : nedges d' = nedges d;
  sf_pi : bij_on (nedges d) pi;
  sf_nfaces : nfaces d' = nfaces d;
  sf_phi : bij_on (nfaces d) phi;
  sf_face : forall i f, nth_error (face_edges d) i = Some f ->
    exists f', nth_error (face_edges d') (phi i) = Some f' /\ around (map pi f) f' }.

(** as many components of each length *)
Definition same_lengths (d d' : pd) : Prop :=
  Permutation (map (fun c => length (cp_edge c)) (p_comp d)) (map (fun c => length (cp_edge c)) (p_comp d')).

(** A-Z, a-z, 0-9, +, / *)
Definition base64_char (c : nat) : Prop :=
  65 <= c <= 90 \/ 97 <= c <= 122 \/ 48 <= c <= 57 \/ c = 43 \/ c = 47.
(** the number a base-64 character stands for (RFC 4648) *)
Definition base64_value (c : nat) : Z :=
  let z := Z.of_nat c in
  (if (65 <=? z) && (z <=? 90) then z - 65
   else if (97 <=? z) && (z <=? 122) then z - 71
   else if (48 <=? z) && (z <=? 57) then z + 4
   else if z =? 43 then 62 else 63)%Z.
(** every four characters stand for three bytes *)
Inductive base64_text : list Z -> list nat -> Prop :=
| b64_nil : base64_text [] []
| b64_block : forall a b c data w x y z text,
    (a * 65536 + b * 256 + c =
     base64_value w * 262144 + base64_value x * 4096 + base64_value y * 64 + base64_value z)%Z ->
    base64_char w -> base64_char x -> base64_char y -> base64_char z ->
    base64_text data text -> base64_text (a :: b :: c :: data) (w :: x :: y :: z :: text).
Definition byte (x : Z) : Prop := (0 <= x < 256)%Z.
