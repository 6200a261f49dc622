(** Model of the sampler of permutations with a given number of ascents
    (src/kascentpermutation.c) and of its use by the hypersimplex sampler. *)
From Coq Require Import List ZArith Lia Bool Arith.
From Verif Require Import Base Pd.
Import ListNotations.
Open Scope nat_scope.
Open Scope res_scope.

(** The random numbers are inputs.  A list of truth values says, for each call of gsl_rng_uniform, whether
    the number drawn was below the probability looked up; a list of numbers gives the results of
    gsl_rng_uniform_int.  Draws that cannot happen, or too few draws, give the outcome [Fuel]. *)

(** the entries of naptable (new_ascent_probability, src/kascentpermutation.c lines 49-67): the file
    naptable.h is not part of the sources; as its comment says there is a row of n-1 entries for each
    n <= 1000, and the last entry, for k = n-1, is 1.  Simplification: with k outside this range the
    function reads an entry of another row or memory outside the table; the model counts both as
    undefined. *)
Definition in_table (n k : nat) : bool := (1 <=? k) && (k <? n) && (Z.of_nat n <=? 1000)%Z.
Definition certain (n k : nat) : bool := k =? n - 1.

(** the loop of build_choice_vector, lines 74-114: [room] is the number of elements of the vector that
    have not been written *)
Fixpoint choice_loop (room n k : nat) (ds : list bool) : res (list (nat * nat) * list bool) :=
  match room with
  | 0 => UB
  | S room' =>
      if negb (in_table n k) then UB
      else match ds with
           | [] => Fuel
           | b :: ds' =>
               if certain n k && negb b then Fuel
               else
                 let k' := if b then k - 1 else k in
                 let n' := n - 1 in
                 if negb (k' =? n' - 1) && negb (k' =? 0) then
                   do r <- choice_loop room' n' k' ds';
                   Ok ((n, k) :: fst r, snd r)
                 else match room' with
                      | 0 => UB
                      | S _ => Ok ([(n, k); (n', k')], ds')
                      end
           end
  end.
Definition build_choice_vector (N K : nat) (ds : list bool) : res (list (nat * nat) * list bool) :=
  choice_loop N N K ds.

(** working_perm_t, lines 124-139: the nodes (their number is the field max) with the index of the next node,
    [None] for -1 *)
Record wperm := mkW { w_node : list (nat * option nat); w_start : nat; w_used : nat }.
(** wperm_new, lines 141-151 *)
Definition wperm_new (n : nat) : wperm := mkW (repeat (0, Some 0) n) 0 0.

(** make_descending_wperm and make_ascending_wperm, lines 153-185 *)
Definition make_wperm (f : nat -> nat) (w : wperm) (n : nat) : res wperm :=
  assert (n <? length (w_node w));
  if n =? 0 then UB (* node[-1] *)
  else Ok (mkW (map (fun i => (f i, if i + 1 =? n then None else Some (i + 1))) (seq 0 n) ++ skipn n (w_node w)) 0 n).
Definition make_descending_wperm (w : wperm) (n : nat) : res wperm := make_wperm (fun i => n - i) w n.
Definition make_ascending_wperm (w : wperm) (n : nat) : res wperm := make_wperm (fun i => i + 1) w n.

(** a new node with value [x] after node [loc] whose value is [s]; lines 242-251 and 293-302 *)
Definition insert_after (w : wperm) (loc s : nat) (next : option nat) (x : nat) : res wperm :=
  if w_used w <? length (w_node w) then
    Ok (mkW (upd loc (s, Some (w_used w)) (upd (w_used w) (x, next) (w_node w))) (w_start w) (w_used w + 1))
  else UB.
(** the walk of wperm_insert_at_ascent, lines 222-271, and wperm_insert_at_descent, lines 273-321; [count] of
    the places sought have been passed *)
Fixpoint insert_walk (fuel : nat) (cmp : nat -> nat -> bool) (w : wperm) (loc count target x : nat) : res wperm :=
  match fuel with
  | 0 => Fuel
  | S f =>
      do nd <- get (w_node w) loc;
      match snd nd with
      | None => Fail
      | Some nx =>
          do nd2 <- get (w_node w) nx;
          if cmp (fst nd) (fst nd2) then
            if count =? target then insert_after w loc (fst nd) (Some nx) x
            else insert_walk f cmp w nx (count + 1) target x
          else insert_walk f cmp w nx count target x
      end
  end.
Definition wperm_insert_at_ascent (w : wperm) (x ascent : nat) : res wperm :=
  insert_walk (S (length (w_node w))) (fun a b => a <? b) w (w_start w) 0 ascent x.
Definition wperm_insert_at_descent (w : wperm) (x descent : nat) : res wperm :=
  insert_walk (S (length (w_node w))) (fun a b => b <? a) w (w_start w) 0 descent x.
(** wperm_insert_at_start, lines 323-331 *)
Definition wperm_insert_at_start (w : wperm) (x : nat) : res wperm :=
  if w_used w <? length (w_node w) then
    Ok (mkW (upd (w_used w) (x, Some (w_start w)) (w_node w)) (w_used w) (w_used w + 1))
  else UB.
(** wperm_insert_at_end, lines 333-363 *)
Fixpoint find_last (node : list (nat * option nat)) (is : list nat) : option nat :=
  match is with
  | [] => None
  | i :: is' => match nth_error node i with
                | Some (_, None) => Some i
                | _ => find_last node is'
                end
  end.
Definition wperm_insert_at_end (w : wperm) (x : nat) : res wperm :=
  match find_last (w_node w) (seq 0 (w_used w)) with
  | None => Fail
  | Some i => do nd <- get (w_node w) i; insert_after w i (fst nd) None x
  end.
(** convert_wperm_to_buffer, lines 187-203, with a buffer of [room] numbers *)
Fixpoint convert (room : nat) (node : list (nat * option nat)) (loc : option nat) : res (list nat) :=
  match loc with
  | None => Ok []
  | Some i =>
      match room with
      | 0 => UB
      | S r => do nd <- get node i; do l <- convert r node (snd nd); Ok (fst nd :: l)
      end
  end.

(** gsl_rng_uniform_int: calls the error handler, which stops the program, if [m] is 0 *)
Definition uniform_int (m : nat) (ps : list nat) : res (nat * list nat) :=
  match m, ps with
  | 0, _ => Fail
  | _, [] => Fuel
  | _, p :: ps' => if p <? m then Ok (p, ps') else Fuel
  end.

(** the loop of random_k_ascent_permutation, lines 426-486: one insertion, from [n'], [k'] to [n], [k] *)
Definition insert_step (w : wperm) (n k n' k' : nat) (ps : list nat) : res (wperm * list nat) :=
  if negb (k =? k') then
    do p <- uniform_int (n' - k') ps;
    do w' <- (if fst p =? n' - k' - 1 then wperm_insert_at_end w n else wperm_insert_at_descent w n (fst p));
    Ok (w', snd p)
  else
    do p <- uniform_int (k' + 1) ps;
    do w' <- (if fst p =? k' then wperm_insert_at_start w n else wperm_insert_at_ascent w n (fst p));
    Ok (w', snd p).
Fixpoint run_choices (w0 : wperm) (cv : list (nat * nat)) (ps : list nat) : res (wperm * list nat) :=
  match cv with
  | [] => UB
  | (n, k) :: cv' =>
      match cv' with
      | [] => do w <- (if k =? 0 then make_descending_wperm w0 n else make_ascending_wperm w0 n); Ok (w, ps)
      | (n', k') :: _ => do r <- run_choices w0 cv' ps; insert_step (fst r) n k n' k' (snd r)
      end
  end.
(** random_k_ascent_permutation, lines 383-496: the permutation and the draws that were not used *)
Definition random_k_ascent (n k : nat) (ds : list bool) (ps : list nat) : res (list nat * (list bool * list nat)) :=
  do cv <- build_choice_vector n k ds;
  do r <- run_choices (wperm_new n) (fst cv) ps;
  do l <- convert n (w_node (fst r)) (Some (w_start (fst r)));
  Ok (l, (snd cv, snd r)).
(** random_k_descent_permutation, lines 499-505, called with k <= n-1 *)
Definition random_k_descent (n k : nat) (ds : list bool) (ps : list nat) := random_k_ascent n (n - 1 - k) ds ps.
