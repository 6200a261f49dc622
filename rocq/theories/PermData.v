(** The precomputed permutation tables of src/pd_permdata.h lines 18-915, transcribed
    mechanically from that header (one row per line of the table). *)
From Coq Require Import List.
Import ListNotations.

(** pdint_pcperm_p1, src/pd_permdata.h lines 20-23 *)
Definition pcperm1 : list (list nat) := [
  [0]].

(** pdint_pcperm_p2, src/pd_permdata.h lines 25-29 *)
Definition pcperm2 : list (list nat) := [
  [0; 1];
  [1; 0]].

(** pdint_pcperm_p3, src/pd_permdata.h lines 31-39 *)
Definition pcperm3 : list (list nat) := [
  [0; 1; 2];
  [0; 2; 1];
  [1; 0; 2];
  [1; 2; 0];
  [2; 0; 1];
  [2; 1; 0]].

(** pdint_pcperm_p4, src/pd_permdata.h lines 41-67 *)
Definition pcperm4 : list (list nat) := [
  [0; 1; 2; 3];
  [0; 1; 3; 2];
  [0; 2; 1; 3];
  [0; 2; 3; 1];
  [0; 3; 1; 2];
  [0; 3; 2; 1];
  [1; 0; 2; 3];
  [1; 0; 3; 2];
  [1; 2; 0; 3];
  [1; 2; 3; 0];
  [1; 3; 0; 2];
  [1; 3; 2; 0];
  [2; 0; 1; 3];
  [2; 0; 3; 1];
  [2; 1; 0; 3];
  [2; 1; 3; 0];
  [2; 3; 0; 1];
  [2; 3; 1; 0];
  [3; 0; 1; 2];
  [3; 0; 2; 1];
  [3; 1; 0; 2];
  [3; 1; 2; 0];
  [3; 2; 0; 1];
  [3; 2; 1; 0]].

(** pdint_pcperm_p5, src/pd_permdata.h lines 69-191 *)
Definition pcperm5 : list (list nat) := [
  [0; 1; 2; 3; 4];
  [0; 1; 2; 4; 3];
  [0; 1; 3; 2; 4];
  [0; 1; 3; 4; 2];
  [0; 1; 4; 2; 3];
  [0; 1; 4; 3; 2];
  [0; 2; 1; 3; 4];
  [0; 2; 1; 4; 3];
  [0; 2; 3; 1; 4];
  [0; 2; 3; 4; 1];
  [0; 2; 4; 1; 3];
  [0; 2; 4; 3; 1];
  [0; 3; 1; 2; 4];
  [0; 3; 1; 4; 2];
  [0; 3; 2; 1; 4];
  [0; 3; 2; 4; 1];
  [0; 3; 4; 1; 2];
  [0; 3; 4; 2; 1];
  [0; 4; 1; 2; 3];
  [0; 4; 1; 3; 2];
  [0; 4; 2; 1; 3];
  [0; 4; 2; 3; 1];
  [0; 4; 3; 1; 2];
  [0; 4; 3; 2; 1];
  [1; 0; 2; 3; 4];
  [1; 0; 2; 4; 3];
  [1; 0; 3; 2; 4];
  [1; 0; 3; 4; 2];
  [1; 0; 4; 2; 3];
  [1; 0; 4; 3; 2];
  [1; 2; 0; 3; 4];
  [1; 2; 0; 4; 3];
  [1; 2; 3; 0; 4];
  [1; 2; 3; 4; 0];
  [1; 2; 4; 0; 3];
  [1; 2; 4; 3; 0];
  [1; 3; 0; 2; 4];
  [1; 3; 0; 4; 2];
  [1; 3; 2; 0; 4];
  [1; 3; 2; 4; 0];
  [1; 3; 4; 0; 2];
  [1; 3; 4; 2; 0];
  [1; 4; 0; 2; 3];
  [1; 4; 0; 3; 2];
  [1; 4; 2; 0; 3];
  [1; 4; 2; 3; 0];
  [1; 4; 3; 0; 2];
  [1; 4; 3; 2; 0];
  [2; 0; 1; 3; 4];
  [2; 0; 1; 4; 3];
  [2; 0; 3; 1; 4];
  [2; 0; 3; 4; 1];
  [2; 0; 4; 1; 3];
  [2; 0; 4; 3; 1];
  [2; 1; 0; 3; 4];
  [2; 1; 0; 4; 3];
  [2; 1; 3; 0; 4];
  [2; 1; 3; 4; 0];
  [2; 1; 4; 0; 3];
  [2; 1; 4; 3; 0];
  [2; 3; 0; 1; 4];
  [2; 3; 0; 4; 1];
  [2; 3; 1; 0; 4];
  [2; 3; 1; 4; 0];
  [2; 3; 4; 0; 1];
  [2; 3; 4; 1; 0];
  [2; 4; 0; 1; 3];
  [2; 4; 0; 3; 1];
  [2; 4; 1; 0; 3];
  [2; 4; 1; 3; 0];
  [2; 4; 3; 0; 1];
  [2; 4; 3; 1; 0];
  [3; 0; 1; 2; 4];
  [3; 0; 1; 4; 2];
  [3; 0; 2; 1; 4];
  [3; 0; 2; 4; 1];
  [3; 0; 4; 1; 2];
  [3; 0; 4; 2; 1];
  [3; 1; 0; 2; 4];
  [3; 1; 0; 4; 2];
  [3; 1; 2; 0; 4];
  [3; 1; 2; 4; 0];
  [3; 1; 4; 0; 2];
  [3; 1; 4; 2; 0];
  [3; 2; 0; 1; 4];
  [3; 2; 0; 4; 1];
  [3; 2; 1; 0; 4];
  [3; 2; 1; 4; 0];
  [3; 2; 4; 0; 1];
  [3; 2; 4; 1; 0];
  [3; 4; 0; 1; 2];
  [3; 4; 0; 2; 1];
  [3; 4; 1; 0; 2];
  [3; 4; 1; 2; 0];
  [3; 4; 2; 0; 1];
  [3; 4; 2; 1; 0];
  [4; 0; 1; 2; 3];
  [4; 0; 1; 3; 2];
  [4; 0; 2; 1; 3];
  [4; 0; 2; 3; 1];
  [4; 0; 3; 1; 2];
  [4; 0; 3; 2; 1];
  [4; 1; 0; 2; 3];
  [4; 1; 0; 3; 2];
  [4; 1; 2; 0; 3];
  [4; 1; 2; 3; 0];
  [4; 1; 3; 0; 2];
  [4; 1; 3; 2; 0];
  [4; 2; 0; 1; 3];
  [4; 2; 0; 3; 1];
  [4; 2; 1; 0; 3];
  [4; 2; 1; 3; 0];
  [4; 2; 3; 0; 1];
  [4; 2; 3; 1; 0];
  [4; 3; 0; 1; 2];
  [4; 3; 0; 2; 1];
  [4; 3; 1; 0; 2];
  [4; 3; 1; 2; 0];
  [4; 3; 2; 0; 1];
  [4; 3; 2; 1; 0]].

(** pdint_pcperm_p6, src/pd_permdata.h lines 193-915 *)
Definition pcperm6 : list (list nat) := [
  [0; 1; 2; 3; 4; 5];
  [0; 1; 2; 3; 5; 4];
  [0; 1; 2; 4; 3; 5];
  [0; 1; 2; 4; 5; 3];
  [0; 1; 2; 5; 3; 4];
  [0; 1; 2; 5; 4; 3];
  [0; 1; 3; 2; 4; 5];
  [0; 1; 3; 2; 5; 4];
  [0; 1; 3; 4; 2; 5];
  [0; 1; 3; 4; 5; 2];
  [0; 1; 3; 5; 2; 4];
  [0; 1; 3; 5; 4; 2];
  [0; 1; 4; 2; 3; 5];
  [0; 1; 4; 2; 5; 3];
  [0; 1; 4; 3; 2; 5];
  [0; 1; 4; 3; 5; 2];
  [0; 1; 4; 5; 2; 3];
  [0; 1; 4; 5; 3; 2];
  [0; 1; 5; 2; 3; 4];
  [0; 1; 5; 2; 4; 3];
  [0; 1; 5; 3; 2; 4];
  [0; 1; 5; 3; 4; 2];
  [0; 1; 5; 4; 2; 3];
  [0; 1; 5; 4; 3; 2];
  [0; 2; 1; 3; 4; 5];
  [0; 2; 1; 3; 5; 4];
  [0; 2; 1; 4; 3; 5];
  [0; 2; 1; 4; 5; 3];
  [0; 2; 1; 5; 3; 4];
  [0; 2; 1; 5; 4; 3];
  [0; 2; 3; 1; 4; 5];
  [0; 2; 3; 1; 5; 4];
  [0; 2; 3; 4; 1; 5];
  [0; 2; 3; 4; 5; 1];
  [0; 2; 3; 5; 1; 4];
  [0; 2; 3; 5; 4; 1];
  [0; 2; 4; 1; 3; 5];
  [0; 2; 4; 1; 5; 3];
  [0; 2; 4; 3; 1; 5];
  [0; 2; 4; 3; 5; 1];
  [0; 2; 4; 5; 1; 3];
  [0; 2; 4; 5; 3; 1];
  [0; 2; 5; 1; 3; 4];
  [0; 2; 5; 1; 4; 3];
  [0; 2; 5; 3; 1; 4];
  [0; 2; 5; 3; 4; 1];
  [0; 2; 5; 4; 1; 3];
  [0; 2; 5; 4; 3; 1];
  [0; 3; 1; 2; 4; 5];
  [0; 3; 1; 2; 5; 4];
  [0; 3; 1; 4; 2; 5];
  [0; 3; 1; 4; 5; 2];
  [0; 3; 1; 5; 2; 4];
  [0; 3; 1; 5; 4; 2];
  [0; 3; 2; 1; 4; 5];
  [0; 3; 2; 1; 5; 4];
  [0; 3; 2; 4; 1; 5];
  [0; 3; 2; 4; 5; 1];
  [0; 3; 2; 5; 1; 4];
  [0; 3; 2; 5; 4; 1];
  [0; 3; 4; 1; 2; 5];
  [0; 3; 4; 1; 5; 2];
  [0; 3; 4; 2; 1; 5];
  [0; 3; 4; 2; 5; 1];
  [0; 3; 4; 5; 1; 2];
  [0; 3; 4; 5; 2; 1];
  [0; 3; 5; 1; 2; 4];
  [0; 3; 5; 1; 4; 2];
  [0; 3; 5; 2; 1; 4];
  [0; 3; 5; 2; 4; 1];
  [0; 3; 5; 4; 1; 2];
  [0; 3; 5; 4; 2; 1];
  [0; 4; 1; 2; 3; 5];
  [0; 4; 1; 2; 5; 3];
  [0; 4; 1; 3; 2; 5];
  [0; 4; 1; 3; 5; 2];
  [0; 4; 1; 5; 2; 3];
  [0; 4; 1; 5; 3; 2];
  [0; 4; 2; 1; 3; 5];
  [0; 4; 2; 1; 5; 3];
  [0; 4; 2; 3; 1; 5];
  [0; 4; 2; 3; 5; 1];
  [0; 4; 2; 5; 1; 3];
  [0; 4; 2; 5; 3; 1];
  [0; 4; 3; 1; 2; 5];
  [0; 4; 3; 1; 5; 2];
  [0; 4; 3; 2; 1; 5];
  [0; 4; 3; 2; 5; 1];
  [0; 4; 3; 5; 1; 2];
  [0; 4; 3; 5; 2; 1];
  [0; 4; 5; 1; 2; 3];
  [0; 4; 5; 1; 3; 2];
  [0; 4; 5; 2; 1; 3];
  [0; 4; 5; 2; 3; 1];
  [0; 4; 5; 3; 1; 2];
  [0; 4; 5; 3; 2; 1];
  [0; 5; 1; 2; 3; 4];
  [0; 5; 1; 2; 4; 3];
  [0; 5; 1; 3; 2; 4];
  [0; 5; 1; 3; 4; 2];
  [0; 5; 1; 4; 2; 3];
  [0; 5; 1; 4; 3; 2];
  [0; 5; 2; 1; 3; 4];
  [0; 5; 2; 1; 4; 3];
  [0; 5; 2; 3; 1; 4];
  [0; 5; 2; 3; 4; 1];
  [0; 5; 2; 4; 1; 3];
  [0; 5; 2; 4; 3; 1];
  [0; 5; 3; 1; 2; 4];
  [0; 5; 3; 1; 4; 2];
  [0; 5; 3; 2; 1; 4];
  [0; 5; 3; 2; 4; 1];
  [0; 5; 3; 4; 1; 2];
  [0; 5; 3; 4; 2; 1];
  [0; 5; 4; 1; 2; 3];
  [0; 5; 4; 1; 3; 2];
  [0; 5; 4; 2; 1; 3];
  [0; 5; 4; 2; 3; 1];
  [0; 5; 4; 3; 1; 2];
  [0; 5; 4; 3; 2; 1];
  [1; 0; 2; 3; 4; 5];
  [1; 0; 2; 3; 5; 4];
  [1; 0; 2; 4; 3; 5];
  [1; 0; 2; 4; 5; 3];
  [1; 0; 2; 5; 3; 4];
  [1; 0; 2; 5; 4; 3];
  [1; 0; 3; 2; 4; 5];
  [1; 0; 3; 2; 5; 4];
  [1; 0; 3; 4; 2; 5];
  [1; 0; 3; 4; 5; 2];
  [1; 0; 3; 5; 2; 4];
  [1; 0; 3; 5; 4; 2];
  [1; 0; 4; 2; 3; 5];
  [1; 0; 4; 2; 5; 3];
  [1; 0; 4; 3; 2; 5];
  [1; 0; 4; 3; 5; 2];
  [1; 0; 4; 5; 2; 3];
  [1; 0; 4; 5; 3; 2];
  [1; 0; 5; 2; 3; 4];
  [1; 0; 5; 2; 4; 3];
  [1; 0; 5; 3; 2; 4];
  [1; 0; 5; 3; 4; 2];
  [1; 0; 5; 4; 2; 3];
  [1; 0; 5; 4; 3; 2];
  [1; 2; 0; 3; 4; 5];
  [1; 2; 0; 3; 5; 4];
  [1; 2; 0; 4; 3; 5];
  [1; 2; 0; 4; 5; 3];
  [1; 2; 0; 5; 3; 4];
  [1; 2; 0; 5; 4; 3];
  [1; 2; 3; 0; 4; 5];
  [1; 2; 3; 0; 5; 4];
  [1; 2; 3; 4; 0; 5];
  [1; 2; 3; 4; 5; 0];
  [1; 2; 3; 5; 0; 4];
  [1; 2; 3; 5; 4; 0];
  [1; 2; 4; 0; 3; 5];
  [1; 2; 4; 0; 5; 3];
  [1; 2; 4; 3; 0; 5];
  [1; 2; 4; 3; 5; 0];
  [1; 2; 4; 5; 0; 3];
  [1; 2; 4; 5; 3; 0];
  [1; 2; 5; 0; 3; 4];
  [1; 2; 5; 0; 4; 3];
  [1; 2; 5; 3; 0; 4];
  [1; 2; 5; 3; 4; 0];
  [1; 2; 5; 4; 0; 3];
  [1; 2; 5; 4; 3; 0];
  [1; 3; 0; 2; 4; 5];
  [1; 3; 0; 2; 5; 4];
  [1; 3; 0; 4; 2; 5];
  [1; 3; 0; 4; 5; 2];
  [1; 3; 0; 5; 2; 4];
  [1; 3; 0; 5; 4; 2];
  [1; 3; 2; 0; 4; 5];
  [1; 3; 2; 0; 5; 4];
  [1; 3; 2; 4; 0; 5];
  [1; 3; 2; 4; 5; 0];
  [1; 3; 2; 5; 0; 4];
  [1; 3; 2; 5; 4; 0];
  [1; 3; 4; 0; 2; 5];
  [1; 3; 4; 0; 5; 2];
  [1; 3; 4; 2; 0; 5];
  [1; 3; 4; 2; 5; 0];
  [1; 3; 4; 5; 0; 2];
  [1; 3; 4; 5; 2; 0];
  [1; 3; 5; 0; 2; 4];
  [1; 3; 5; 0; 4; 2];
  [1; 3; 5; 2; 0; 4];
  [1; 3; 5; 2; 4; 0];
  [1; 3; 5; 4; 0; 2];
  [1; 3; 5; 4; 2; 0];
  [1; 4; 0; 2; 3; 5];
  [1; 4; 0; 2; 5; 3];
  [1; 4; 0; 3; 2; 5];
  [1; 4; 0; 3; 5; 2];
  [1; 4; 0; 5; 2; 3];
  [1; 4; 0; 5; 3; 2];
  [1; 4; 2; 0; 3; 5];
  [1; 4; 2; 0; 5; 3];
  [1; 4; 2; 3; 0; 5];
  [1; 4; 2; 3; 5; 0];
  [1; 4; 2; 5; 0; 3];
  [1; 4; 2; 5; 3; 0];
  [1; 4; 3; 0; 2; 5];
  [1; 4; 3; 0; 5; 2];
  [1; 4; 3; 2; 0; 5];
  [1; 4; 3; 2; 5; 0];
  [1; 4; 3; 5; 0; 2];
  [1; 4; 3; 5; 2; 0];
  [1; 4; 5; 0; 2; 3];
  [1; 4; 5; 0; 3; 2];
  [1; 4; 5; 2; 0; 3];
  [1; 4; 5; 2; 3; 0];
  [1; 4; 5; 3; 0; 2];
  [1; 4; 5; 3; 2; 0];
  [1; 5; 0; 2; 3; 4];
  [1; 5; 0; 2; 4; 3];
  [1; 5; 0; 3; 2; 4];
  [1; 5; 0; 3; 4; 2];
  [1; 5; 0; 4; 2; 3];
  [1; 5; 0; 4; 3; 2];
  [1; 5; 2; 0; 3; 4];
  [1; 5; 2; 0; 4; 3];
  [1; 5; 2; 3; 0; 4];
  [1; 5; 2; 3; 4; 0];
  [1; 5; 2; 4; 0; 3];
  [1; 5; 2; 4; 3; 0];
  [1; 5; 3; 0; 2; 4];
  [1; 5; 3; 0; 4; 2];
  [1; 5; 3; 2; 0; 4];
  [1; 5; 3; 2; 4; 0];
  [1; 5; 3; 4; 0; 2];
  [1; 5; 3; 4; 2; 0];
  [1; 5; 4; 0; 2; 3];
  [1; 5; 4; 0; 3; 2];
  [1; 5; 4; 2; 0; 3];
  [1; 5; 4; 2; 3; 0];
  [1; 5; 4; 3; 0; 2];
  [1; 5; 4; 3; 2; 0];
  [2; 0; 1; 3; 4; 5];
  [2; 0; 1; 3; 5; 4];
  [2; 0; 1; 4; 3; 5];
  [2; 0; 1; 4; 5; 3];
  [2; 0; 1; 5; 3; 4];
  [2; 0; 1; 5; 4; 3];
  [2; 0; 3; 1; 4; 5];
  [2; 0; 3; 1; 5; 4];
  [2; 0; 3; 4; 1; 5];
  [2; 0; 3; 4; 5; 1];
  [2; 0; 3; 5; 1; 4];
  [2; 0; 3; 5; 4; 1];
  [2; 0; 4; 1; 3; 5];
  [2; 0; 4; 1; 5; 3];
  [2; 0; 4; 3; 1; 5];
  [2; 0; 4; 3; 5; 1];
  [2; 0; 4; 5; 1; 3];
  [2; 0; 4; 5; 3; 1];
  [2; 0; 5; 1; 3; 4];
  [2; 0; 5; 1; 4; 3];
  [2; 0; 5; 3; 1; 4];
  [2; 0; 5; 3; 4; 1];
  [2; 0; 5; 4; 1; 3];
  [2; 0; 5; 4; 3; 1];
  [2; 1; 0; 3; 4; 5];
  [2; 1; 0; 3; 5; 4];
  [2; 1; 0; 4; 3; 5];
  [2; 1; 0; 4; 5; 3];
  [2; 1; 0; 5; 3; 4];
  [2; 1; 0; 5; 4; 3];
  [2; 1; 3; 0; 4; 5];
  [2; 1; 3; 0; 5; 4];
  [2; 1; 3; 4; 0; 5];
  [2; 1; 3; 4; 5; 0];
  [2; 1; 3; 5; 0; 4];
  [2; 1; 3; 5; 4; 0];
  [2; 1; 4; 0; 3; 5];
  [2; 1; 4; 0; 5; 3];
  [2; 1; 4; 3; 0; 5];
  [2; 1; 4; 3; 5; 0];
  [2; 1; 4; 5; 0; 3];
  [2; 1; 4; 5; 3; 0];
  [2; 1; 5; 0; 3; 4];
  [2; 1; 5; 0; 4; 3];
  [2; 1; 5; 3; 0; 4];
  [2; 1; 5; 3; 4; 0];
  [2; 1; 5; 4; 0; 3];
  [2; 1; 5; 4; 3; 0];
  [2; 3; 0; 1; 4; 5];
  [2; 3; 0; 1; 5; 4];
  [2; 3; 0; 4; 1; 5];
  [2; 3; 0; 4; 5; 1];
  [2; 3; 0; 5; 1; 4];
  [2; 3; 0; 5; 4; 1];
  [2; 3; 1; 0; 4; 5];
  [2; 3; 1; 0; 5; 4];
  [2; 3; 1; 4; 0; 5];
  [2; 3; 1; 4; 5; 0];
  [2; 3; 1; 5; 0; 4];
  [2; 3; 1; 5; 4; 0];
  [2; 3; 4; 0; 1; 5];
  [2; 3; 4; 0; 5; 1];
  [2; 3; 4; 1; 0; 5];
  [2; 3; 4; 1; 5; 0];
  [2; 3; 4; 5; 0; 1];
  [2; 3; 4; 5; 1; 0];
  [2; 3; 5; 0; 1; 4];
  [2; 3; 5; 0; 4; 1];
  [2; 3; 5; 1; 0; 4];
  [2; 3; 5; 1; 4; 0];
  [2; 3; 5; 4; 0; 1];
  [2; 3; 5; 4; 1; 0];
  [2; 4; 0; 1; 3; 5];
  [2; 4; 0; 1; 5; 3];
  [2; 4; 0; 3; 1; 5];
  [2; 4; 0; 3; 5; 1];
  [2; 4; 0; 5; 1; 3];
  [2; 4; 0; 5; 3; 1];
  [2; 4; 1; 0; 3; 5];
  [2; 4; 1; 0; 5; 3];
  [2; 4; 1; 3; 0; 5];
  [2; 4; 1; 3; 5; 0];
  [2; 4; 1; 5; 0; 3];
  [2; 4; 1; 5; 3; 0];
  [2; 4; 3; 0; 1; 5];
  [2; 4; 3; 0; 5; 1];
  [2; 4; 3; 1; 0; 5];
  [2; 4; 3; 1; 5; 0];
  [2; 4; 3; 5; 0; 1];
  [2; 4; 3; 5; 1; 0];
  [2; 4; 5; 0; 1; 3];
  [2; 4; 5; 0; 3; 1];
  [2; 4; 5; 1; 0; 3];
  [2; 4; 5; 1; 3; 0];
  [2; 4; 5; 3; 0; 1];
  [2; 4; 5; 3; 1; 0];
  [2; 5; 0; 1; 3; 4];
  [2; 5; 0; 1; 4; 3];
  [2; 5; 0; 3; 1; 4];
  [2; 5; 0; 3; 4; 1];
  [2; 5; 0; 4; 1; 3];
  [2; 5; 0; 4; 3; 1];
  [2; 5; 1; 0; 3; 4];
  [2; 5; 1; 0; 4; 3];
  [2; 5; 1; 3; 0; 4];
  [2; 5; 1; 3; 4; 0];
  [2; 5; 1; 4; 0; 3];
  [2; 5; 1; 4; 3; 0];
  [2; 5; 3; 0; 1; 4];
  [2; 5; 3; 0; 4; 1];
  [2; 5; 3; 1; 0; 4];
  [2; 5; 3; 1; 4; 0];
  [2; 5; 3; 4; 0; 1];
  [2; 5; 3; 4; 1; 0];
  [2; 5; 4; 0; 1; 3];
  [2; 5; 4; 0; 3; 1];
  [2; 5; 4; 1; 0; 3];
  [2; 5; 4; 1; 3; 0];
  [2; 5; 4; 3; 0; 1];
  [2; 5; 4; 3; 1; 0];
  [3; 0; 1; 2; 4; 5];
  [3; 0; 1; 2; 5; 4];
  [3; 0; 1; 4; 2; 5];
  [3; 0; 1; 4; 5; 2];
  [3; 0; 1; 5; 2; 4];
  [3; 0; 1; 5; 4; 2];
  [3; 0; 2; 1; 4; 5];
  [3; 0; 2; 1; 5; 4];
  [3; 0; 2; 4; 1; 5];
  [3; 0; 2; 4; 5; 1];
  [3; 0; 2; 5; 1; 4];
  [3; 0; 2; 5; 4; 1];
  [3; 0; 4; 1; 2; 5];
  [3; 0; 4; 1; 5; 2];
  [3; 0; 4; 2; 1; 5];
  [3; 0; 4; 2; 5; 1];
  [3; 0; 4; 5; 1; 2];
  [3; 0; 4; 5; 2; 1];
  [3; 0; 5; 1; 2; 4];
  [3; 0; 5; 1; 4; 2];
  [3; 0; 5; 2; 1; 4];
  [3; 0; 5; 2; 4; 1];
  [3; 0; 5; 4; 1; 2];
  [3; 0; 5; 4; 2; 1];
  [3; 1; 0; 2; 4; 5];
  [3; 1; 0; 2; 5; 4];
  [3; 1; 0; 4; 2; 5];
  [3; 1; 0; 4; 5; 2];
  [3; 1; 0; 5; 2; 4];
  [3; 1; 0; 5; 4; 2];
  [3; 1; 2; 0; 4; 5];
  [3; 1; 2; 0; 5; 4];
  [3; 1; 2; 4; 0; 5];
  [3; 1; 2; 4; 5; 0];
  [3; 1; 2; 5; 0; 4];
  [3; 1; 2; 5; 4; 0];
  [3; 1; 4; 0; 2; 5];
  [3; 1; 4; 0; 5; 2];
  [3; 1; 4; 2; 0; 5];
  [3; 1; 4; 2; 5; 0];
  [3; 1; 4; 5; 0; 2];
  [3; 1; 4; 5; 2; 0];
  [3; 1; 5; 0; 2; 4];
  [3; 1; 5; 0; 4; 2];
  [3; 1; 5; 2; 0; 4];
  [3; 1; 5; 2; 4; 0];
  [3; 1; 5; 4; 0; 2];
  [3; 1; 5; 4; 2; 0];
  [3; 2; 0; 1; 4; 5];
  [3; 2; 0; 1; 5; 4];
  [3; 2; 0; 4; 1; 5];
  [3; 2; 0; 4; 5; 1];
  [3; 2; 0; 5; 1; 4];
  [3; 2; 0; 5; 4; 1];
  [3; 2; 1; 0; 4; 5];
  [3; 2; 1; 0; 5; 4];
  [3; 2; 1; 4; 0; 5];
  [3; 2; 1; 4; 5; 0];
  [3; 2; 1; 5; 0; 4];
  [3; 2; 1; 5; 4; 0];
  [3; 2; 4; 0; 1; 5];
  [3; 2; 4; 0; 5; 1];
  [3; 2; 4; 1; 0; 5];
  [3; 2; 4; 1; 5; 0];
  [3; 2; 4; 5; 0; 1];
  [3; 2; 4; 5; 1; 0];
  [3; 2; 5; 0; 1; 4];
  [3; 2; 5; 0; 4; 1];
  [3; 2; 5; 1; 0; 4];
  [3; 2; 5; 1; 4; 0];
  [3; 2; 5; 4; 0; 1];
  [3; 2; 5; 4; 1; 0];
  [3; 4; 0; 1; 2; 5];
  [3; 4; 0; 1; 5; 2];
  [3; 4; 0; 2; 1; 5];
  [3; 4; 0; 2; 5; 1];
  [3; 4; 0; 5; 1; 2];
  [3; 4; 0; 5; 2; 1];
  [3; 4; 1; 0; 2; 5];
  [3; 4; 1; 0; 5; 2];
  [3; 4; 1; 2; 0; 5];
  [3; 4; 1; 2; 5; 0];
  [3; 4; 1; 5; 0; 2];
  [3; 4; 1; 5; 2; 0];
  [3; 4; 2; 0; 1; 5];
  [3; 4; 2; 0; 5; 1];
  [3; 4; 2; 1; 0; 5];
  [3; 4; 2; 1; 5; 0];
  [3; 4; 2; 5; 0; 1];
  [3; 4; 2; 5; 1; 0];
  [3; 4; 5; 0; 1; 2];
  [3; 4; 5; 0; 2; 1];
  [3; 4; 5; 1; 0; 2];
  [3; 4; 5; 1; 2; 0];
  [3; 4; 5; 2; 0; 1];
  [3; 4; 5; 2; 1; 0];
  [3; 5; 0; 1; 2; 4];
  [3; 5; 0; 1; 4; 2];
  [3; 5; 0; 2; 1; 4];
  [3; 5; 0; 2; 4; 1];
  [3; 5; 0; 4; 1; 2];
  [3; 5; 0; 4; 2; 1];
  [3; 5; 1; 0; 2; 4];
  [3; 5; 1; 0; 4; 2];
  [3; 5; 1; 2; 0; 4];
  [3; 5; 1; 2; 4; 0];
  [3; 5; 1; 4; 0; 2];
  [3; 5; 1; 4; 2; 0];
  [3; 5; 2; 0; 1; 4];
  [3; 5; 2; 0; 4; 1];
  [3; 5; 2; 1; 0; 4];
  [3; 5; 2; 1; 4; 0];
  [3; 5; 2; 4; 0; 1];
  [3; 5; 2; 4; 1; 0];
  [3; 5; 4; 0; 1; 2];
  [3; 5; 4; 0; 2; 1];
  [3; 5; 4; 1; 0; 2];
  [3; 5; 4; 1; 2; 0];
  [3; 5; 4; 2; 0; 1];
  [3; 5; 4; 2; 1; 0];
  [4; 0; 1; 2; 3; 5];
  [4; 0; 1; 2; 5; 3];
  [4; 0; 1; 3; 2; 5];
  [4; 0; 1; 3; 5; 2];
  [4; 0; 1; 5; 2; 3];
  [4; 0; 1; 5; 3; 2];
  [4; 0; 2; 1; 3; 5];
  [4; 0; 2; 1; 5; 3];
  [4; 0; 2; 3; 1; 5];
  [4; 0; 2; 3; 5; 1];
  [4; 0; 2; 5; 1; 3];
  [4; 0; 2; 5; 3; 1];
  [4; 0; 3; 1; 2; 5];
  [4; 0; 3; 1; 5; 2];
  [4; 0; 3; 2; 1; 5];
  [4; 0; 3; 2; 5; 1];
  [4; 0; 3; 5; 1; 2];
  [4; 0; 3; 5; 2; 1];
  [4; 0; 5; 1; 2; 3];
  [4; 0; 5; 1; 3; 2];
  [4; 0; 5; 2; 1; 3];
  [4; 0; 5; 2; 3; 1];
  [4; 0; 5; 3; 1; 2];
  [4; 0; 5; 3; 2; 1];
  [4; 1; 0; 2; 3; 5];
  [4; 1; 0; 2; 5; 3];
  [4; 1; 0; 3; 2; 5];
  [4; 1; 0; 3; 5; 2];
  [4; 1; 0; 5; 2; 3];
  [4; 1; 0; 5; 3; 2];
  [4; 1; 2; 0; 3; 5];
  [4; 1; 2; 0; 5; 3];
  [4; 1; 2; 3; 0; 5];
  [4; 1; 2; 3; 5; 0];
  [4; 1; 2; 5; 0; 3];
  [4; 1; 2; 5; 3; 0];
  [4; 1; 3; 0; 2; 5];
  [4; 1; 3; 0; 5; 2];
  [4; 1; 3; 2; 0; 5];
  [4; 1; 3; 2; 5; 0];
  [4; 1; 3; 5; 0; 2];
  [4; 1; 3; 5; 2; 0];
  [4; 1; 5; 0; 2; 3];
  [4; 1; 5; 0; 3; 2];
  [4; 1; 5; 2; 0; 3];
  [4; 1; 5; 2; 3; 0];
  [4; 1; 5; 3; 0; 2];
  [4; 1; 5; 3; 2; 0];
  [4; 2; 0; 1; 3; 5];
  [4; 2; 0; 1; 5; 3];
  [4; 2; 0; 3; 1; 5];
  [4; 2; 0; 3; 5; 1];
  [4; 2; 0; 5; 1; 3];
  [4; 2; 0; 5; 3; 1];
  [4; 2; 1; 0; 3; 5];
  [4; 2; 1; 0; 5; 3];
  [4; 2; 1; 3; 0; 5];
  [4; 2; 1; 3; 5; 0];
  [4; 2; 1; 5; 0; 3];
  [4; 2; 1; 5; 3; 0];
  [4; 2; 3; 0; 1; 5];
  [4; 2; 3; 0; 5; 1];
  [4; 2; 3; 1; 0; 5];
  [4; 2; 3; 1; 5; 0];
  [4; 2; 3; 5; 0; 1];
  [4; 2; 3; 5; 1; 0];
  [4; 2; 5; 0; 1; 3];
  [4; 2; 5; 0; 3; 1];
  [4; 2; 5; 1; 0; 3];
  [4; 2; 5; 1; 3; 0];
  [4; 2; 5; 3; 0; 1];
  [4; 2; 5; 3; 1; 0];
  [4; 3; 0; 1; 2; 5];
  [4; 3; 0; 1; 5; 2];
  [4; 3; 0; 2; 1; 5];
  [4; 3; 0; 2; 5; 1];
  [4; 3; 0; 5; 1; 2];
  [4; 3; 0; 5; 2; 1];
  [4; 3; 1; 0; 2; 5];
  [4; 3; 1; 0; 5; 2];
  [4; 3; 1; 2; 0; 5];
  [4; 3; 1; 2; 5; 0];
  [4; 3; 1; 5; 0; 2];
  [4; 3; 1; 5; 2; 0];
  [4; 3; 2; 0; 1; 5];
  [4; 3; 2; 0; 5; 1];
  [4; 3; 2; 1; 0; 5];
  [4; 3; 2; 1; 5; 0];
  [4; 3; 2; 5; 0; 1];
  [4; 3; 2; 5; 1; 0];
  [4; 3; 5; 0; 1; 2];
  [4; 3; 5; 0; 2; 1];
  [4; 3; 5; 1; 0; 2];
  [4; 3; 5; 1; 2; 0];
  [4; 3; 5; 2; 0; 1];
  [4; 3; 5; 2; 1; 0];
  [4; 5; 0; 1; 2; 3];
  [4; 5; 0; 1; 3; 2];
  [4; 5; 0; 2; 1; 3];
  [4; 5; 0; 2; 3; 1];
  [4; 5; 0; 3; 1; 2];
  [4; 5; 0; 3; 2; 1];
  [4; 5; 1; 0; 2; 3];
  [4; 5; 1; 0; 3; 2];
  [4; 5; 1; 2; 0; 3];
  [4; 5; 1; 2; 3; 0];
  [4; 5; 1; 3; 0; 2];
  [4; 5; 1; 3; 2; 0];
  [4; 5; 2; 0; 1; 3];
  [4; 5; 2; 0; 3; 1];
  [4; 5; 2; 1; 0; 3];
  [4; 5; 2; 1; 3; 0];
  [4; 5; 2; 3; 0; 1];
  [4; 5; 2; 3; 1; 0];
  [4; 5; 3; 0; 1; 2];
  [4; 5; 3; 0; 2; 1];
  [4; 5; 3; 1; 0; 2];
  [4; 5; 3; 1; 2; 0];
  [4; 5; 3; 2; 0; 1];
  [4; 5; 3; 2; 1; 0];
  [5; 0; 1; 2; 3; 4];
  [5; 0; 1; 2; 4; 3];
  [5; 0; 1; 3; 2; 4];
  [5; 0; 1; 3; 4; 2];
  [5; 0; 1; 4; 2; 3];
  [5; 0; 1; 4; 3; 2];
  [5; 0; 2; 1; 3; 4];
  [5; 0; 2; 1; 4; 3];
  [5; 0; 2; 3; 1; 4];
  [5; 0; 2; 3; 4; 1];
  [5; 0; 2; 4; 1; 3];
  [5; 0; 2; 4; 3; 1];
  [5; 0; 3; 1; 2; 4];
  [5; 0; 3; 1; 4; 2];
  [5; 0; 3; 2; 1; 4];
  [5; 0; 3; 2; 4; 1];
  [5; 0; 3; 4; 1; 2];
  [5; 0; 3; 4; 2; 1];
  [5; 0; 4; 1; 2; 3];
  [5; 0; 4; 1; 3; 2];
  [5; 0; 4; 2; 1; 3];
  [5; 0; 4; 2; 3; 1];
  [5; 0; 4; 3; 1; 2];
  [5; 0; 4; 3; 2; 1];
  [5; 1; 0; 2; 3; 4];
  [5; 1; 0; 2; 4; 3];
  [5; 1; 0; 3; 2; 4];
  [5; 1; 0; 3; 4; 2];
  [5; 1; 0; 4; 2; 3];
  [5; 1; 0; 4; 3; 2];
  [5; 1; 2; 0; 3; 4];
  [5; 1; 2; 0; 4; 3];
  [5; 1; 2; 3; 0; 4];
  [5; 1; 2; 3; 4; 0];
  [5; 1; 2; 4; 0; 3];
  [5; 1; 2; 4; 3; 0];
  [5; 1; 3; 0; 2; 4];
  [5; 1; 3; 0; 4; 2];
  [5; 1; 3; 2; 0; 4];
  [5; 1; 3; 2; 4; 0];
  [5; 1; 3; 4; 0; 2];
  [5; 1; 3; 4; 2; 0];
  [5; 1; 4; 0; 2; 3];
  [5; 1; 4; 0; 3; 2];
  [5; 1; 4; 2; 0; 3];
  [5; 1; 4; 2; 3; 0];
  [5; 1; 4; 3; 0; 2];
  [5; 1; 4; 3; 2; 0];
  [5; 2; 0; 1; 3; 4];
  [5; 2; 0; 1; 4; 3];
  [5; 2; 0; 3; 1; 4];
  [5; 2; 0; 3; 4; 1];
  [5; 2; 0; 4; 1; 3];
  [5; 2; 0; 4; 3; 1];
  [5; 2; 1; 0; 3; 4];
  [5; 2; 1; 0; 4; 3];
  [5; 2; 1; 3; 0; 4];
  [5; 2; 1; 3; 4; 0];
  [5; 2; 1; 4; 0; 3];
  [5; 2; 1; 4; 3; 0];
  [5; 2; 3; 0; 1; 4];
  [5; 2; 3; 0; 4; 1];
  [5; 2; 3; 1; 0; 4];
  [5; 2; 3; 1; 4; 0];
  [5; 2; 3; 4; 0; 1];
  [5; 2; 3; 4; 1; 0];
  [5; 2; 4; 0; 1; 3];
  [5; 2; 4; 0; 3; 1];
  [5; 2; 4; 1; 0; 3];
  [5; 2; 4; 1; 3; 0];
  [5; 2; 4; 3; 0; 1];
  [5; 2; 4; 3; 1; 0];
  [5; 3; 0; 1; 2; 4];
  [5; 3; 0; 1; 4; 2];
  [5; 3; 0; 2; 1; 4];
  [5; 3; 0; 2; 4; 1];
  [5; 3; 0; 4; 1; 2];
  [5; 3; 0; 4; 2; 1];
  [5; 3; 1; 0; 2; 4];
  [5; 3; 1; 0; 4; 2];
  [5; 3; 1; 2; 0; 4];
  [5; 3; 1; 2; 4; 0];
  [5; 3; 1; 4; 0; 2];
  [5; 3; 1; 4; 2; 0];
  [5; 3; 2; 0; 1; 4];
  [5; 3; 2; 0; 4; 1];
  [5; 3; 2; 1; 0; 4];
  [5; 3; 2; 1; 4; 0];
  [5; 3; 2; 4; 0; 1];
  [5; 3; 2; 4; 1; 0];
  [5; 3; 4; 0; 1; 2];
  [5; 3; 4; 0; 2; 1];
  [5; 3; 4; 1; 0; 2];
  [5; 3; 4; 1; 2; 0];
  [5; 3; 4; 2; 0; 1];
  [5; 3; 4; 2; 1; 0];
  [5; 4; 0; 1; 2; 3];
  [5; 4; 0; 1; 3; 2];
  [5; 4; 0; 2; 1; 3];
  [5; 4; 0; 2; 3; 1];
  [5; 4; 0; 3; 1; 2];
  [5; 4; 0; 3; 2; 1];
  [5; 4; 1; 0; 2; 3];
  [5; 4; 1; 0; 3; 2];
  [5; 4; 1; 2; 0; 3];
  [5; 4; 1; 2; 3; 0];
  [5; 4; 1; 3; 0; 2];
  [5; 4; 1; 3; 2; 0];
  [5; 4; 2; 0; 1; 3];
  [5; 4; 2; 0; 3; 1];
  [5; 4; 2; 1; 0; 3];
  [5; 4; 2; 1; 3; 0];
  [5; 4; 2; 3; 0; 1];
  [5; 4; 2; 3; 1; 0];
  [5; 4; 3; 0; 1; 2];
  [5; 4; 3; 0; 2; 1];
  [5; 4; 3; 1; 0; 2];
  [5; 4; 3; 1; 2; 0];
  [5; 4; 3; 2; 0; 1];
  [5; 4; 3; 2; 1; 0]].

(** pd_pc_perm, src/pd_permdata.h line 917 (entry 0 is NULL; entries above 6 do not exist) *)
Definition pc_perm (n : nat) : list (list nat) :=
  match n with
  | 1 => pcperm1 | 2 => pcperm2 | 3 => pcperm3 | 4 => pcperm4 | 5 => pcperm5 | 6 => pcperm6
  | _ => []
  end.

(** PD_MAX_PC_PERM, src/pd_permdata.h line 10 *)
Definition max_pc_perm : nat := 6.
(** pd_n_pc_perms, src/pd_permdata.h line 18 *)
Definition n_pc_perms (n : nat) : nat := nth n [0; 1; 2; 6; 24; 120; 720] 0.
