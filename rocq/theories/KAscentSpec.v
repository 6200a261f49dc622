(** What is meant by permutations with a given number of ascents, and by uniform choice among them. *)
From Coq Require Import List Arith ZArith QArith Permutation.
Import ListNotations.
Open Scope nat_scope.

(** the places [i] with l[i] < l[i+1], and with l[i] > l[i+1] *)
Definition ascents (l : list nat) : nat :=
  length (filter (fun i => nth i l 0 <? nth (i + 1) l 0) (seq 0 (length l - 1))).
Definition descents (l : list nat) : nat :=
  length (filter (fun i => nth (i + 1) l 0 <? nth i l 0) (seq 0 (length l - 1))).
(** the permutations of 1..n with k ascents *)
Definition k_ascent (n k : nat) (l : list nat) : Prop := Permutation (seq 1 n) l /\ ascents l = k.

(** the Eulerian numbers <n,k>: the number of permutations of 1..n with k ascents *)
Fixpoint eulerian (n k : nat) : nat :=
  match n with
  | 0 => 0
  | S m => match m with
           | 0 => if k =? 0 then 1 else 0
           | S _ => match k with
                    | 0 => 1
                    | S k' => (n - k) * eulerian m k' + (k + 1) * eulerian m k
                    end
           end
  end.

Open Scope Q_scope.
Definition qn (n : nat) : Q := inject_Z (Z.of_nat n).
(** the probability the documentation of new_ascent_probability gives (src/kascentpermutation.c
    lines 49-67): (n-k) <n-1,k-1> / <n,k> *)
Definition new_ascent_probability (n k : nat) : Q := qn (n - k) * qn (eulerian (n - 1) (k - 1)) / qn (eulerian n k).

(** the probability of one sequence of draws in which the sizes and ascents of the permutations are [cv]: at
    each step the draw that decides whether there is a new ascent, and a number from 0..m-1 drawn uniformly,
    where there are m = n'-k' places that give a new ascent and m = k'+1 that do not *)
Fixpoint chance (cv : list (nat * nat)) : Q :=
  match cv with
  | [] => 1
  | (n, k) :: cv' =>
      match cv' with
      | [] => 1
      | (n', k') :: _ =>
          (if (k' =? k)%nat then (1 - new_ascent_probability n k) / qn (k' + 1)
           else new_ascent_probability n k / qn (n' - k')) * chance cv'
      end
  end.
