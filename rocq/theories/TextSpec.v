(** What a diagram has to satisfy for its text to be read back. *)
From Coq Require Import List NArith ZArith Arith.
From Verif Require Import Base Iterators Pd Relabel PdHash.
Import ListNotations.
Open Scope nat_scope.

(** the characters a-z, A-Z, 0-9, + and / *)
Definition letter_code (c : nat) : Prop :=
  97 <= c <= 122 \/ 65 <= c <= 90 \/ 48 <= c <= 57 \/ c = 43 \/ c = 47.
(** space, tab, newline, vertical tab, form feed, carriage return *)
Definition white (t : Z) : Prop := t = 32%Z \/ (9 <= t <= 13)%Z.

(** A valid diagram with a set hash, uid and tags that fit their types, no tag that is white space, crossings in
    canonical form, and not more components and faces than a diagram with this number of crossings can hold. *)
Record storable (d : pd) : Prop := {
  so_some : 0 < ncross d;
  so_room : ncross d <= p_maxv d;
  so_valid : pd_ok d = Ok true;
  so_cross : crossings_canonical d;
  so_hash_some : p_hash d <> [];
  so_hash_short : length (p_hash d) < 32;
  so_hash_letters : forall c, In c (p_hash d) -> letter_code c;
  so_hash_known : (exists a b, p_hash d = a ++ [117; 110; 115; 101; 116] ++ b) (* "unset" *) -> pd_regenerate_hash d = Ok d;
  so_uid : (N.of_nat (p_uid d) < 2 ^ 64)%N;
  so_tags : forall c, In c (p_comp d) -> (-128 <= cp_tag c < 128)%Z /\ ~ white (cp_tag c);
  so_ncomps : ncomps d <= maxverts_of (ncross d) / 2 + 2;
  so_nfaces : nfaces d <= maxverts_of (ncross d) + 2;
  so_faces : forall f, In f (p_face d) -> length f <= 2 * maxverts_of (ncross d) + 1;
  so_small : (2 * N.of_nat (ncross d) + 5 < 2 ^ 32)%N }.
