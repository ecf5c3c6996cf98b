(* Model of getSpectra (impurityModel/ed/spectra.py:684-806). *)
From Verif Require Import M_Prelude M_Scalar M_PSR M_Ladder M_State M_Mpi M_Hamiltonian M_Lanczos.
Local Open Scope Z_scope.

(* A step that all ranks take together: either the new state or, for every rank, how it stopped. *)
Inductive run (A : Type) := Run (a : A) | Stop (l : list exc).
Arguments Run {A}. Arguments Stop {A}.
Definition rbind {A B} (x : run A) (f : A -> run B) : run B :=
  match x with Run a => f a | Stop l => Stop l end.
Fixpoint fold_run {A S} (f : S -> A -> run S) (l : list A) (s : S) : run S :=
  match l with [] => Run s | a :: l' => rbind (f s a) (fold_run f l') end.
(* every rank computes the same value *)
Definition all_ranks {A} (ranks : nat) (x : res A) : run A :=
  match x with Ok a => Run a | Err e => Stop (repeat e ranks) end.
(* the outcomes of a step with collectives: if some rank raises, the ranks that did not wait for it *)
Definition together {A} (l : list (res A)) : run (list A) :=
  if forallb is_ok l then Run (oks l)
  else Stop (map (fun x => match x with Ok _ => Deadlock | Err e => e end) l).

Section Spectra.
Context {F : ofield}.
Variable fsqrt : F -> F.

(* spectra.py:753-755, 784-786: normalization = sqrt(norm2(psiR)); psiR[state] /= normalization.
   Division by zero: python complex numbers raise; numpy scalars give nan with a warning
   (simplified: the exception in both cases).  An empty psiR is not divided. *)
Definition normalise (psi : psi_t F) : res (psi_t F * F) :=
  let normalization := fsqrt (norm2 psi) in
  match psi with
  | [] => Ok ([], normalization)
  | _ => if feqb normalization 0%F then Err ZeroDivisionError
         else Ok (map (fun sa => (fst sa, snd sa / creal normalization)%C) psi, normalization)
  end.

(* The array gs of shape (n, len(tOps), len(w)): a function of the first two indices.
   Simplified: the shape is kept outside. *)
Definition garr := nat -> nat -> vec F.
Definition gzeros (nw : nat) : garr := fun _ _ => repeat c0 nw.
(* gs[i, :, :] = rows;  gs[i, t, :] = v *)
Definition gset_rows (gs : garr) (i : nat) (rows : list (vec F)) : garr :=
  fun i' t' => if Nat.eqb i' i then nth t' rows [] else gs i' t'.
Definition gset (gs : garr) (i t : nat) (v : vec F) : garr :=
  fun i' t' => if Nat.eqb i' i && Nat.eqb t' t then v else gs i' t'.

Section Args.
Variable fuel : nat.
Variables (n : Z) (hOp : op_t F) (w : list F) (delta : F) (rs : option restrictions_t) (krylovSize : Z) (swm : F).

(* ---- mode "eigen_states" (spectra.py:742-775) ---- *)
(* spectra.py:752-768: one operator, one state, with the h of this rank.  No collectives. *)
Definition es_entry (ord : nat -> set_order) (psi : psi_t F) (e : F) (h : hdict_t F) (tOp : op_t F)
  : res (hdict_t F * vec F) :=
  do psiR <- snd (applyOp n tOp psi swm rs None);
  do (psiR, normalization) <- normalise psiR;
  match getGreen fsqrt fuel ord n e psiR hOp w delta krylovSize swm rs [h] GSparse Serial with
  | [(h', r)] => do g <- r; Ok (h', vmul (normalization * normalization)%F g)
  | _ => Err GenericException
  end.
(* spectra.py:745-768: g[i], the rows for all operators *)
Definition es_rows (ord : nat -> set_order) (psis : list (psi_t F)) (es : list F) (tOps : list (op_t F))
  (i : nat) (h : hdict_t F) : res (hdict_t F * list (vec F)) :=
  do psi <- nth_res psis i;
  do e <- nth_res es i;
  fold_res (fun st tOp => do (h', v) <- es_entry ord psi e (fst st) tOp; Ok (h', snd st ++ [v])) tOps (h, []).
(* spectra.py:742-768: the dictionary g of one rank *)
Definition es_rank (ord : nat -> set_order) (psis : list (psi_t F)) (es : list F) (tOps : list (op_t F))
  (rank ranks : nat) : res (dict nat (list (vec F))) :=
  do jobs <- get_job_tasks rank ranks (seq 0 (length es));
  rmap snd (fold_res (fun st i => do (h', rows) <- es_rows ord psis es tOps i (fst st);
                                  Ok (h', dset (snd st) i rows)) jobs ([], [])).
(* spectra.py:770-774 *)
Definition es_collect (nw : nat) (gl : list (dict nat (list (vec F)))) : garr :=
  fold_left (fun gs gTmp => fold_left (fun gs iv => gset_rows gs (fst iv) (snd iv)) gTmp gs) gl (gzeros nw).

(* ---- mode "H_build" (spectra.py:775-803) ---- *)
(* State of the loops on all ranks.  t_big is computed on every rank from the same arguments
   without communication: it is the same on all ranks and kept once. *)
Record hb_state := mkHB { hb_tbig : cache_t F; hb_hs : list (hdict_t F); hb_gs : list garr }.
(* spectra.py:781-803: operator number t, eigenstate i; ord gives the set orders in this call *)
Definition hb_entry (ord : nat -> set_order) (psis : list (psi_t F)) (es : list F) (t : nat) (tOp : op_t F)
  (st : hb_state) (i : nat) : run hb_state :=
  let ranks := length (hb_hs st) in
  rbind (all_ranks ranks (
    do psi <- nth_res psis i;
    do e <- nth_res es i;
    let (tb, r) := applyOp n tOp psi swm rs (Some (hb_tbig st)) in
    do psiR <- r;
    do (psiR, normalization) <- normalise psiR;
    Ok (match tb with Some c => c | None => [] end, e, psiR, normalization)))
  (fun x => let '(tb, e, psiR, normalization) := x in
    let out := getGreen fsqrt fuel ord n e psiR hOp w delta krylovSize swm rs (hb_hs st) GSparse HBuild in
    rbind (together (map snd out)) (fun gl =>
      Run (mkHB tb (map fst out)
             (map (fun gg => gset (fst gg) i t (vmul (normalization * normalization)%F (snd gg)))
                (combine (hb_gs st) gl))))).
(* spectra.py:777-803 *)
Definition hb_run (ord : nat -> nat -> nat -> set_order) (psis : list (psi_t F)) (es : list F)
  (tOps : list (op_t F)) (ranks : nat) : run hb_state :=
  fold_run (fun st ttOp =>
      fold_run (fun st i => hb_entry (ord (fst ttOp) i) psis es (fst ttOp) (snd ttOp) st i)
        (seq 0 (length es)) (mkHB [] (hb_hs st) (hb_gs st)))
    (enumerate tOps) (mkHB [] (repeat [] ranks) (repeat (gzeros (length w)) ranks)).

Inductive smode := EigenStates | SHBuild | SOther.

(* spectra.py:684-806 on all ranks *)
Definition getSpectra (ord : nat -> nat -> nat -> set_order) (ranks : nat) (tOps : list (op_t F)) (psis : list (psi_t F))
  (es : list F) (pm : smode) : list (res garr) :=
  match pm with
  | EigenStates =>
      map (rmap (es_collect (length w)))
        (bcast_all (map (fun r => es_rank (ord 0%nat 0%nat) psis es tOps r ranks) (seq 0 ranks)))
  | SHBuild =>
      match hb_run ord psis es tOps ranks with
      | Run st => map Ok (hb_gs st)
      | Stop l => map Err l
      end
  | SOther => repeat (Err GenericException) ranks
  end.
End Args.
End Spectra.
Arguments garr : clear implicits.
