(** Specification of crossing codes: which diagram a code describes, and how a code is written down. *)
From Coq Require Import List ZArith Bool Arith.
From Verif Require Import Base Iterators Pd PdSpec Relabel OverUnderSpec TextIO.
Import ListNotations.
Open Scope nat_scope.

(** The four branches of a crossing are called a, b, c, d, clockwise, and the upper strand runs from c to a.  (Places in a
    diagram are numbered counterclockwise.) *)
Inductive letter := La | Lb | Lc | Ld.
Definition at_letter (d : pd) (c : nat) (l : letter) (p : nat) : Prop :=
  exists s oi oo ui uo, sign_at d c s /\ over_under d c s oi oo ui uo /\
    p = match l with La => oo | Lb => (oo + 3) mod 4 | Lc => (oo + 2) mod 4 | Ld => (oo + 1) mod 4 end.

(** branch [l] of crossing [c] and branch [l'] of crossing [c'] are the two ends of one edge *)
Definition wired (d : pd) (c : nat) (l : letter) (c' : nat) (l' : letter) : Prop :=
  exists e p p', at_letter d c l p /\ at_letter d c' l' p' /\
    (departs d c p e /\ arrives d c' p' e \/ arrives d c p e /\ departs d c' p' e).

(** A code lists for each crossing its sign and, for each branch, the crossing and the branch at the other end. *)
Record mcross := mkM { m_positive : bool; m_a : nat * letter; m_b : nat * letter; m_c : nat * letter; m_d : nat * letter }.
Definition m_to (m : mcross) (l : letter) : nat * letter :=
  match l with La => m_a m | Lb => m_b m | Lc => m_c m | Ld => m_d m end.
Definition describes (d : pd) (code : list mcross) : Prop :=
  length code = ncross d /\
  forall c m, nth_error code c = Some m -> sign_at d c (if m_positive m then Pos else Neg) /\
    forall l, wired d c l (fst (m_to m l)) (snd (m_to m l)).

(** A code as a text: a line for each crossing, with numbers from 1 on, and two empty lines.  For instance 17+2b10c11c31a *)
Definition letter_char (l : letter) : nat := match l with La => 97 | Lb => 98 | Lc => 99 | Ld => 100 end.
Definition end_text (x : nat * letter) : text := show_nat (fst x + 1) ++ [letter_char (snd x)].
Definition line_text (c : nat) (m : mcross) : text :=
  show_nat (c + 1) ++ [if m_positive m then 43 else 45] ++ end_text (m_a m) ++ end_text (m_b m) ++ end_text (m_c m) ++ end_text (m_d m) ++ [10].
Fixpoint lines_text (c : nat) (code : list mcross) : text :=
  match code with
  | [] => []
  | m :: code' => line_text c m ++ lines_text (c + 1) code'
  end.
Definition code_text (code : list mcross) : text := lines_text 0 code ++ [10; 10].
