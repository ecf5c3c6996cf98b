(* Model of impurityModel/ed/mpi_comm.py.  One list element per MPI rank. *)
From Verif Require Import M_Prelude.
Local Open Scope Z_scope.

Section Comm.
Context {K V : Type} `{EqB K}.

(* math.ceil(len(data) / chunk_maxsize)   (mpi_comm.py:37).  The float division is taken as exact. *)
Definition ceil_div (len c : Z) : res Z := if c =? 0 then Err ZeroDivisionError else Ok (- ((- len) / c)).

(* "{k: data[k] for k in islice(it, chunk_maxsize)}" (mpi_comm.py:43), done n times; it = iter(data) *)
Fixpoint chunks (data : dict K V) (it : list K) (c : Z) (n : nat) : res (list (dict K V)) :=
  match n with
  | O => Ok []
  | S n' =>
      if c <? 0 then Err ValueError else
      do chunk <- fold_res (fun d k => do v <- dgetitem data k; Ok (dset d k v)) (firstn (Z.to_nat c) it) [];
      do rest <- chunks data (skipn (Z.to_nat c) it) c n';
      Ok (chunk :: rest)
  end.

(* mpi_comm.py:18-45: what each rank yields.  If the root raises before the broadcast, the
   others wait for ever. *)
Definition dict_chunks_from_one_MPI_rank (datas : list (dict K V)) (c : Z) (root : nat) : list (res (list (option (dict K V)))) :=
  let data := nth root datas [] in
  match ceil_div (Z.of_nat (length data)) c with
  | Err e => map (fun r => Err (if Nat.eqb r root then e else Deadlock)) (seq 0 (length datas))
  | Ok n_chunks =>
      map (fun r => if Nat.eqb r root
                    then rmap (map Some) (chunks data (dkeys data) c (Z.to_nat n_chunks))
                    else Ok (repeat None (Z.to_nat n_chunks))) (seq 0 (length datas))
  end.

(* mpi_comm.py:90-93 for root r: every rank iterates over its own generator and in each iteration
   receives the chunk of the root.  A rank that has stopped stays stopped.  total.update(None) is a TypeError. *)
Definition update_chunk (total : dict K V) (chunk : option (dict K V)) : res (dict K V) :=
  match chunk with Some d => Ok (dupdate total d) | None => Err TypeError end.
Definition allgather_round (datas : list (dict K V)) (c : Z) (totals : list (res (dict K V))) (root : nat) : list (res (dict K V)) :=
  let ys := dict_chunks_from_one_MPI_rank datas c root in
  match nth root ys (Err Deadlock) with
  | Err _ => map (fun yt => do t <- snd yt; match fst yt with Err e => Err e | Ok _ => Err Deadlock end) (combine ys totals)
  | Ok cs =>
      map (fun yt => do t <- snd yt; do mine <- fst yt;
             if Nat.eqb (length mine) (length cs) then fold_res update_chunk cs t else Err Deadlock) (combine ys totals)
  end.

(* mpi_comm.py:48-95.  np_int: whether numpy has the attribute np.int (line 73); it was removed in
   numpy 1.24, requirements.in pins numpy 2.0.0. *)
Definition allgather_dict (np_int : bool) (datas : list (dict K V)) (totals : list (dict K V)) (c : Z) : list (res (dict K V)) :=
  if np_int then
    let n_ps_new := map (fun d : dict K V => Z.of_nat (length d)) datas in
    if fold_right Z.max 0 n_ps_new <=? c then map (fun t => Ok (fold_left dupdate datas t)) totals
    else fold_left (allgather_round datas c) (seq 0 (length datas)) (map Ok totals)
  else map (fun _ => Err AttributeError) totals.
End Comm.
