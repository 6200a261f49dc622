(** Model of pd_simplify (src/pd_simplify.c lines 31-66). *)
From Coq Require Import List ZArith Lia Bool Arith.
From Verif Require Import Base Iterators Pd OverUnder Deloop.
Import ListNotations.
Open Scope nat_scope.
Open Scope res_scope.

(** lines 45-62: the do-while loop, each pass of which looks for the first face with one edge *)
Fixpoint simplify_loop (fuel : nat) (w : pd) : res pd :=
  match fuel with
  | 0 => Fuel
  | S fuel' =>
      match find (fun f => length f =? 1) (p_face w) with
      | None => Ok w
      | Some f =>
          do a <- get f 0;
          do E <- get (p_edge w) (fst a);
          do w' <- pd_R1_loopdeletion w (e_head E);
          if 0 <? ncross w' then simplify_loop fuel' w' else Ok w'
      end
  end.

(** pd_simplify, with [fuel] a bound on the number of passes *)
Definition pd_simplify (fuel : nat) (d : pd) : res pd :=
  do w <- pd_copy d;
  if ncross d =? 0 then Ok w else simplify_loop fuel w.
