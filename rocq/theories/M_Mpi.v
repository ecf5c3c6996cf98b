(* MPI collectives.  An SPMD program is described by the list of what each rank does up to its
   next collective call.  Uncaught exceptions end a rank; the other ranks then wait for ever
   in the collective (outcome Deadlock). *)
From Verif Require Import M_Prelude.

Definition is_ok {A} (x : res A) : bool := match x with Ok _ => true | Err _ => false end.
Definition oks {A} (l : list (res A)) : list A :=
  flat_map (fun x => match x with Ok a => [a] | Err _ => [] end) l.

(* "for r in range(ranks): x_r = comm.bcast(x, root=r)" (e.g. finite.py:1563-1564): every rank
   obtains the values of all ranks, in rank order. *)
Definition bcast_all {A} (locals : list (res A)) : list (res (list A)) :=
  if forallb is_ok locals then map (fun _ => Ok (oks locals)) locals
  else map (fun x => match x with Ok _ => Err Deadlock | Err e => Err e end) locals.
