(* Properties C31 and C32: communication of dictionaries. *)
From Verif Require Import M_Prelude M_Comm.
From Verif Require Import L_Dict L_Comm L_Comm2.
Local Open Scope Z_scope.

(* ---- C32 ---- *)
Theorem C32_chunks : forall K V `(EqB K) (datas : list (dict K V)) c root data,
  1 <= c -> nth_error datas root = Some data -> NoDup (dkeys data) ->
  exists cs, concat cs = data /\ Forall (fun x => (1 <= length x)%nat /\ Z.of_nat (length x) <= c) cs /\
    Z.of_nat (length cs) = (Z.of_nat (length data) + c - 1) / c /\
    length (dict_chunks_from_one_MPI_rank datas c root) = length datas /\
    forall r y, nth_error (dict_chunks_from_one_MPI_rank datas c root) r = Some y ->
      y = Ok (if Nat.eqb r root then map Some cs else repeat None (length cs)).
Proof. exact (fun K V E => @gen_P K V E). Qed.
Print Assumptions C32_chunks.
Definition ex_datas : list (dict Z Z) := [[(1, 10); (2, 20); (3, 30); (4, 40); (5, 50)]; []; [(7, 70)]].
Example C32_ex : dict_chunks_from_one_MPI_rank ex_datas 2 0 =
  [Ok [Some [(1, 10); (2, 20)]; Some [(3, 30); (4, 40)]; Some [(5, 50)]]; Ok [None; None; None]; Ok [None; None; None]].
Proof. reflexivity. Qed.
(* a chunk size of 0 stops the root and leaves the other ranks waiting *)
Example C32_zero_chunk : dict_chunks_from_one_MPI_rank ex_datas 0 2 = [Err Deadlock; Err Deadlock; Err ZeroDivisionError].
Proof. reflexivity. Qed.

(* All other chunk sizes: 0 stops the root and leaves the other ranks waiting; with a negative size nothing is sent at all. *)
Theorem C32_zero : forall K V `(EqB K) (datas : list (dict K V)) root r, (r < length datas)%nat ->
  nth_error (dict_chunks_from_one_MPI_rank datas 0 root) r = Some (Err (if Nat.eqb r root then ZeroDivisionError else Deadlock)).
Proof. exact (fun K V E => @chunks_zero K V E). Qed.
Theorem C32_negative : forall K V `(EqB K) (datas : list (dict K V)) c root, c < 0 ->
  dict_chunks_from_one_MPI_rank datas c root = map (fun _ => Ok []) datas.
Proof. exact (fun K V E => @chunks_neg K V E). Qed.
Print Assumptions C32_zero. Print Assumptions C32_negative.
Example C32_negative_ex : dict_chunks_from_one_MPI_rank ex_datas (-2) 0 = [Ok []; Ok []; Ok []].
Proof. reflexivity. Qed.

(* ---- C31 ---- *)
(* If numpy still has np.int: every rank ends with its old total followed by the data of all ranks. *)
Theorem C31_allgather_partial : forall K V `(EqB K) (datas totals : list (dict K V)) c,
  1 <= c -> Forall (fun d => NoDup (dkeys d)) datas -> length totals = length datas ->
  Forall (fun t => NoDup (dkeys t ++ flat_map dkeys datas)) totals ->
  allgather_dict true datas totals c = map (fun t => Ok (t ++ concat datas)) totals.
Proof. exact (fun K V E => @allgather_P K V E). Qed.
(* When keys are not unique, the highest rank wins, on every rank. *)
Theorem C31_allgather_shared_keys_partial : forall K V `(EqB K) (datas totals : list (dict K V)) c,
  1 <= c -> Forall (fun d => NoDup (dkeys d)) datas -> length totals = length datas ->
  exists totals' : list (dict K V), allgather_dict true datas totals c = map (fun t => Ok t) totals' /\
    Forall2 (fun t t' => forall k,
      dget t' k = fold_left (fun o d => match dget d k with Some v => Some v | None => o end) datas (dget t k)) totals totals'.
Proof. exact (fun K V E => @allgather_general_P K V E). Qed.
(* With the pinned numpy 2.0.0 the function cannot work at all: it always raises, on every rank. *)
Theorem C31_allgather_pinned_numpy_refuted : exists (datas totals : list (dict Z Z)) c,
  1 <= c /\ Forall (fun d => NoDup (dkeys d)) datas /\ length totals = length datas /\
  Forall (fun t => NoDup (dkeys t ++ flat_map dkeys datas)) totals /\
  allgather_dict false datas totals c = [Err AttributeError; Err AttributeError; Err AttributeError].
Proof.
  exists ex_datas, [[]; []; []], 10. split; [lia|]. split; [|split; [reflexivity|split; [|reflexivity]]].
  - unfold ex_datas, dkeys; simpl. repeat constructor; simpl; intuition discriminate.
  - unfold ex_datas, dkeys; simpl. repeat constructor; simpl; intuition discriminate.
Qed.
(* Chunk sizes below 1: with 0 rank 0 stops and the others wait for ever, if there is anything to send; with a negative size
   all data are lost without an error. *)
Theorem C31_zero_partial : forall K V `(EqB K) (datas totals : list (dict K V)), length totals = length datas -> Exists (fun d => d <> []) datas ->
  allgather_dict true datas totals 0 = Err ZeroDivisionError :: map (fun _ => Err Deadlock) (tl totals).
Proof. exact (fun K V E => @allgather_zero K V E). Qed.
Theorem C31_negative_partial : forall K V `(EqB K) (datas totals : list (dict K V)) c, c < 0 -> length totals = length datas ->
  allgather_dict true datas totals c = map Ok totals.
Proof. exact (fun K V E => @allgather_neg K V E). Qed.
Example C31_sizes_ex : allgather_dict true ex_datas [[(0, 0)]; []; [(9, 9)]] 0 = [Err ZeroDivisionError; Err Deadlock; Err Deadlock] /\
  allgather_dict true ex_datas [[(0, 0)]; []; [(9, 9)]] (-1) = [Ok [(0, 0)]; Ok []; Ok [(9, 9)]].
Proof. split; reflexivity. Qed.
Print Assumptions C31_zero_partial. Print Assumptions C31_negative_partial. Print Assumptions C31_allgather_partial. Print Assumptions C31_allgather_shared_keys_partial.
Print Assumptions C31_allgather_pinned_numpy_refuted.
Example C31_ex : allgather_dict true ex_datas [[(0, 0)]; []; [(9, 9)]] 2 =
  [Ok [(0, 0); (1, 10); (2, 20); (3, 30); (4, 40); (5, 50); (7, 70)];
   Ok [(1, 10); (2, 20); (3, 30); (4, 40); (5, 50); (7, 70)];
   Ok [(9, 9); (1, 10); (2, 20); (3, 30); (4, 40); (5, 50); (7, 70)]].
Proof. reflexivity. Qed.
