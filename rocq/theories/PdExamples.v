(** Concrete diagrams used to show that hypotheses can be met. *)
From Coq Require Import List ZArith.
From Verif Require Import Base Iterators Pd.
Import ListNotations.

(** the trefoil, the Hopf link and the one-crossing unknot *)
Definition trefoil : pd := mkPd 3 0 []
  [mkEdge 1 0 0 0; mkEdge 2 0 1 2; mkEdge 0 1 2 2; mkEdge 1 1 0 3; mkEdge 2 3 1 3; mkEdge 0 2 2 1]
  [mkCross 0 2 5 3 Pos; mkCross 0 3 1 4 Pos; mkCross 1 5 2 4 Pos]
  [mkComp [0; 1; 2; 3; 4; 5] 65%Z]
  [[(0, Pos); (4, Pos); (2, Pos)];
   [(1, Neg); (3, Neg); (5, Neg)];
   [(0, Neg); (3, Pos)];
   [(1, Pos); (4, Neg)];
   [(2, Neg); (5, Pos)]].
Definition hopf : pd := mkPd 2 0 []
  [mkEdge 0 0 1 0; mkEdge 1 2 0 2; mkEdge 0 1 1 3; mkEdge 1 1 0 3]
  [mkCross 0 2 1 3 Pos; mkCross 0 3 1 2 Pos]
  [mkComp [0; 1] 65%Z; mkComp [2; 3] 66%Z]
  [[(0, Neg); (2, Pos)];
   [(0, Pos); (3, Pos)];
   [(1, Neg); (2, Neg)];
   [(1, Pos); (3, Neg)]].
Definition curl : pd := mkPd 2 0 []
  [mkEdge 0 0 0 1; mkEdge 0 3 0 2]
  [mkCross 0 0 1 1 Pos]
  [mkComp [0; 1] 65%Z]
  [[(0, Pos); (1, Neg)];
   [(0, Neg)];
   [(1, Pos)]].

Example trefoil_ok : pd_ok trefoil = Ok true. Proof. reflexivity. Qed.
Example hopf_ok : pd_ok hopf = Ok true. Proof. reflexivity. Qed.
Example curl_ok : pd_ok curl = Ok true. Proof. reflexivity. Qed.
