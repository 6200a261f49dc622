(** Specification for containers (C05, C06) and how the model's calls are driven. *)
From Coq Require Import List ZArith Lia Bool Arith Sorted.
From Verif Require Import Base Containers.
Import ListNotations.
Open Scope Z_scope.

(** * Specification of a container: an ideal stack *)

Inductive cop (A : Type) := Push (x : A) | Pop | Elt (i : Z) | Nelts.
Arguments Push {A}. Arguments Pop {A}. Arguments Elt {A}. Arguments Nelts {A}.

(** what a call returns to the user *)
Inductive cout (A : Type) := OUnit | OElt (x : A) | ONum (n : Z).
Arguments OUnit {A}. Arguments OElt {A}. Arguments ONum {A}.

Section Spec.
Context {A : Type}.

(** The ideal stack; the most recently pushed element is last. *)
Definition ideal_step (s : list A) (o : cop A) : res (list A * cout A) :=
  match o with
  | Push x => Ok (s ++ [x], OUnit)
  | Pop => match rev s with [] => UB | x :: r => Ok (rev r, OElt x) end
  | Elt i => if (0 <=? i) && (i <? Z.of_nat (length s)) then
               match nth_error s (Z.to_nat i) with Some x => Ok (s, OElt x) | None => UB end
             else Fail
  | Nelts => Ok (s, ONum (Z.of_nat (length s)))
  end.

Fixpoint ideal_run (s : list A) (h : list (cop A)) : res (list (cout A)) :=
  match h with
  | [] => Ok []
  | o :: h' => bind (ideal_step s o) (fun r => bind (ideal_run (fst r) h') (fun l => Ok (snd r :: l)))
  end.

Variable null : A.

Definition cont_step (c : container) (o : cop A) : res (container * cout A) :=
  match o with
  | Push x => bind (pd_addto_container null c x) (fun c' => Ok (c', OUnit))
  | Pop => bind (pd_pop_container null c) (fun r => Ok (snd r, OElt (fst r)))
  | Elt i => bind (pd_container_elt null c i) (fun x => Ok (c, OElt x))
  | Nelts => Ok (c, ONum (pd_container_nelts c))
  end.

Fixpoint cont_run (c : container) (h : list (cop A)) : res (list (cout A)) :=
  match h with
  | [] => Ok []
  | o :: h' => bind (cont_step c o) (fun r => bind (cont_run (fst r) h') (fun l => Ok (snd r :: l)))
  end.

End Spec.
