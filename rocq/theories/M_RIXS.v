(* Model of getRIXSmap (impurityModel/ed/spectra.py:809-1130). *)
From Verif Require Import M_Prelude M_Scalar M_PSR M_Ladder M_State M_Mpi M_Hamiltonian M_Lanczos M_Spectra.
Local Open Scope Z_scope.

Section RIXS.
Context {F : ofield}.
Variable fsqrt : F -> F.
(* scipy.sparse.linalg.bicgstab(a, y)[0]: not modelled, a function of the rows of a and of y.
   info is only printed (spectra.py:968-976, 1072-1076). *)
Variable bicgstab : list (vec F) -> vec F -> vec F.

(* The array gs of shape (nE, len(tOpsIn), len(tOpsOut), len(wIns), len(wLoss)): a function of the
   first four indices.  Simplified: the shape is kept outside. *)
Definition garr4 := nat -> nat -> nat -> nat -> vec F.
Definition g4zeros (nw : nat) : garr4 := fun _ _ _ _ => repeat c0 nw.
(* gs[iE, tIn, tOut, iwIn, :] = v;  gs[iE, tIn, :, iwIn, :] = rows *)
Definition g4set (gs : garr4) (iE tIn tOut iw : nat) (v : vec F) : garr4 := fun a b c d =>
  if Nat.eqb a iE && Nat.eqb b tIn && Nat.eqb c tOut && Nat.eqb d iw then v else gs a b c d.
Definition g4set_rows (gs : garr4) (iE tIn iw : nat) (rows : list (vec F)) : garr4 := fun a b c d =>
  if Nat.eqb a iE && Nat.eqb b tIn && Nat.eqb d iw then nth c rows [] else gs a b c d.

(* spectra.py:910: tOut_big = [{}] * len(tOpsOut).  The list holds len(tOpsOut) references to one
   dictionary: heap is the list of dictionaries, refs the list of references into it. *)
Definition tOut_heap : list (cache_t F) := [[]].
Definition tOut_refs (nOut : nat) : list nat := repeat 0%nat nOut.

(* spectra.py:954-958, 1060-1064: the rows of a = (wIn + 1j*delta1 + e) 1 - h *)
Definition a_rows (n : nat) (z : cx F) (h : mat F) : list (vec F) :=
  map (fun i => map (fun j => ((if Nat.eqb i j then z else c0) - h i j)%C) (seq 0 n)) (seq 0 n).
(* spectra.py:945, 1051: basis_state = {index: ps} *)
Definition basis_state (idx : dict pybytes nat) : dict nat pybytes :=
  fold_left (fun d ki => dset d (snd ki) (fst ki)) idx [].
(* spectra.py:978-981, 1078-1081 *)
Definition psi2_of (idx : dict pybytes nat) (x : vec F) : res (psi_t F) :=
  fold_res (fun psi2 ia => if ceqb (snd ia) c0 then Ok psi2
                           else do ps <- dgetitem (basis_state idx) (fst ia); Ok (dset psi2 ps (snd ia)))
    (enumerate x) [].
(* the linear system of one eigenstate and incoming operator: h, basis_index, y *)
Definition system := (mat F * dict pybytes nat * vec F)%type.
(* spectra.py:953-981, 1055-1081 *)
Definition psi2_at (sys : system) (wIn delta1 e : F) : res (psi_t F) :=
  let '(h, idx, y) := sys in
  psi2_of idx (bicgstab (a_rows (length idx) (mkC (wIn + e)%F delta1) h) y).

Section Args.
Variable fuel : nat.
Variables (n : Z) (hOp : op_t F) (wIns wLoss : list F) (delta1 delta2 : F) (rs : option restrictions_t)
  (krylovSize : Z) (swm : F).
Variables (tOpsIn tOpsOut : list (op_t F)) (psis : list (psi_t F)) (es : list F).

(* spectra.py:918-923, 1013-1018: the core-hole state and the updated tIn_big *)
Definition core_hole (tOpIn : op_t F) (tIn_big : cache_t F) (iE : nat) : res (cache_t F * F * psi_t F) :=
  do psi <- nth_res psis iE;
  do e <- nth_res es iE;
  let (tb, r) := applyOp n tOpIn psi swm rs (Some tIn_big) in
  do psi1 <- r;
  Ok (match tb with Some c => c | None => [] end, e, psi1).

(* spectra.py:1000-1002, 1100-1102 *)
Definition drop_small (psi : psi_t F) : psi_t F := filter (fun sa => negb (cabs2 (snd sa) <? swm)%F) psi.
(* spectra.py:987-1002, 1087-1102: psi3 handed to getGreen and the normalization; refs as above *)
Definition out_state (heap : list (cache_t F)) (tOut : nat) (tOpOut : op_t F) (psi2 : psi_t F)
  : res (list (cache_t F) * psi_t F * F) :=
  do cell <- nth_res (tOut_refs (length tOpsOut)) tOut;
  do cache <- nth_res heap cell;
  let (c, r) := applyOp n tOpOut psi2 swm rs (Some cache) in
  do psi3 <- r;
  do (psi3, normalization) <- normalise fsqrt psi3;
  Ok (set_nth heap cell (match c with Some c2 => c2 | None => [] end), drop_small psi3, normalization).

(* ---- modes "wIn" and "H_build_wIn" (spectra.py:1006-1129) ---- *)
(* spectra.py:1083-1122: one outgoing operator with the tOut_big and h_dict_ground of this rank *)
Definition win_out (ord : nat -> set_order) (e : F) (psi2 : psi_t F)
  (st : list (cache_t F) * hdict_t F * list (vec F)) (to : nat * op_t F) : res (list (cache_t F) * hdict_t F * list (vec F)) :=
  let '(heap, hg, rows) := st in
  do (heap', psi3, normalization) <- out_state heap (fst to) (snd to) psi2;
  match getGreen fsqrt fuel ord n e psi3 hOp wLoss delta2 krylovSize swm rs [hg] GSparse Serial with
  | [(hg', r)] => do g <- r; Ok (heap', hg', rows ++ [vmul (normalization * normalization)%F g])
  | _ => Err GenericException
  end.
(* spectra.py:1055-1122: one incoming energy *)
Definition win_energy (ord : nat -> set_order) (e : F) (sys : system)
  (st : list (cache_t F) * hdict_t F * dict nat (list (vec F))) (iw : nat) : res (list (cache_t F) * hdict_t F * dict nat (list (vec F))) :=
  let '(heap, hg, g) := st in
  do wIn <- nth_res wIns iw;
  do psi2 <- psi2_at sys wIn delta1 e;
  do (heap', hg', rows) <- fold_res (win_out ord e psi2) (enumerate tOpsOut) (heap, hg, []);
  Ok (heap', hg', dset g iw rows).
(* state of all ranks: tIn_big is the same on every rank (no communication) and kept once *)
Record win_state := mkWin { wi_tbig : cache_t F; wi_ex : list (hdict_t F);
  wi_rk : list (list (cache_t F) * hdict_t F); wi_gs : list garr4 }.
(* spectra.py:1055: the energies of one rank *)
Definition win_rank (ord : nat -> set_order) (e : F) (sys : system) (rank ranks : nat)
  (rk : list (cache_t F) * hdict_t F) : res (list (cache_t F) * hdict_t F * dict nat (list (vec F))) :=
  do jobs <- get_job_tasks rank ranks (seq 0 (length wIns));
  fold_res (win_energy ord e sys) jobs (fst rk, snd rk, []).
(* spectra.py:1124-1129 *)
Definition win_collect (iE tIn : nat) (gl : list (dict nat (list (vec F)))) (gs : garr4) : garr4 :=
  fold_left (fun gs gTmp => fold_left (fun gs iv => g4set_rows gs iE tIn (fst iv) (snd iv)) gTmp gs) gl gs.
(* spectra.py:1013-1129: incoming operator tIn, eigenstate iE; a rank that raises leaves the others
   waiting in comm.bcast *)
Definition win_step (pm : pmode) (ord : nat -> set_order) (tIn : nat) (tOpIn : op_t F) (st : win_state) (iE : nat) : run win_state :=
  let ranks := length (wi_ex st) in
  rbind (all_ranks ranks (core_hole tOpIn (wi_tbig st) iE)) (fun x =>
    let '(tb, e, psi1) := x in
    let ebh := expand_basis_and_hamiltonian fuel n hOp rs ord pm false (dkeys psi1) (wi_ex st) in
    let outs := map (fun xr =>
        do (h, idx) <- snd (fst (snd xr));
        do y <- psi_vec idx psi1;
        win_rank ord e (h, idx, y) (fst xr) ranks (snd (snd xr)))
      (enumerate (combine ebh (wi_rk st))) in
    rbind (together outs) (fun l =>
      Run (mkWin tb (map fst ebh) (map fst l) (map (win_collect iE tIn (map snd l)) (wi_gs st))))).
(* spectra.py:1007-1129 *)
Definition win_run (pm : pmode) (ord : nat -> nat -> nat -> set_order) (h_ground : list (hdict_t F)) : run win_state :=
  fold_run (fun st ttOp =>
      fold_run (fun st iE => win_step pm (ord (fst ttOp) iE) (fst ttOp) (snd ttOp) st iE) (seq 0 (length es))
        (mkWin [] (wi_ex st) (wi_rk st) (wi_gs st)))
    (enumerate tOpsIn)
    (mkWin [] (map (fun _ => []) h_ground) (map (fun hg => (tOut_heap, hg)) h_ground) (map (fun _ => g4zeros (length wLoss)) h_ground)).

(* ---- modes "serial" and "H_build" (spectra.py:911-1005) ---- *)
(* The ranks hold the same h and basis_index (get_hamiltonian_matrix_from_h_dict with
   return_h_local=False), so that psi2, tIn_big and tOut_big are the same on all ranks: kept once. *)
Record hb4_state := mkHB4 { h4_tbig : cache_t F; h4_ex : list (hdict_t F); h4_heap : list (cache_t F);
  h4_gr : list (hdict_t F); h4_gs : list garr4 }.
(* spectra.py:983-1021 of the loop over outgoing operators *)
Definition hb4_out (pm : pmode) (ord : nat -> set_order) (e : F) (psi2 : psi_t F) (iE tIn iw : nat)
  (st : hb4_state) (to : nat * op_t F) : run hb4_state :=
  rbind (all_ranks (length (h4_gr st)) (out_state (h4_heap st) (fst to) (snd to) psi2)) (fun x =>
    let '(heap', psi3, normalization) := x in
    let out := getGreen fsqrt fuel ord n e psi3 hOp wLoss delta2 krylovSize swm rs (h4_gr st) GSparse pm in
    rbind (together (map snd out)) (fun gl =>
      Run (mkHB4 (h4_tbig st) (h4_ex st) heap' (map fst out)
             (map (fun gg => g4set (fst gg) iE tIn (fst to) iw (vmul (normalization * normalization)%F (snd gg)))
                (combine (h4_gs st) gl))))).
(* spectra.py:948-1021: one incoming energy *)
Definition hb4_energy (pm : pmode) (ord : nat -> set_order) (e : F) (sys : system) (iE tIn : nat)
  (st : hb4_state) (iw : nat) : run hb4_state :=
  rbind (all_ranks (length (h4_gr st)) (do wIn <- nth_res wIns iw; psi2_at sys wIn delta1 e)) (fun psi2 =>
    fold_run (hb4_out pm ord e psi2 iE tIn iw) (enumerate tOpsOut) st).
(* spectra.py:916-1021 *)
Definition hb4_step (pm : pmode) (ord : nat -> set_order) (tIn : nat) (tOpIn : op_t F) (st : hb4_state) (iE : nat) : run hb4_state :=
  rbind (all_ranks (length (h4_gr st)) (core_hole tOpIn (h4_tbig st) iE)) (fun x =>
    let '(tb, e, psi1) := x in
    let ebh := expand_basis_and_hamiltonian fuel n hOp rs ord pm false (dkeys psi1) (h4_ex st) in
    rbind (together (map (fun o => do (h, idx) <- snd o; do y <- psi_vec idx psi1; Ok (h, idx, y)) ebh)) (fun l =>
      match l with
      | sys :: _ =>
          fold_run (hb4_energy pm ord e sys iE tIn) (seq 0 (length wIns))
            (mkHB4 tb (map fst ebh) (h4_heap st) (h4_gr st) (h4_gs st))
      | [] => Stop []
      end)).
Definition hb4_run (pm : pmode) (ord : nat -> nat -> nat -> set_order) (h_ground : list (hdict_t F)) : run hb4_state :=
  fold_run (fun st ttOp =>
      fold_run (fun st iE => hb4_step pm (ord (fst ttOp) iE) (fst ttOp) (snd ttOp) st iE) (seq 0 (length es))
        (mkHB4 [] (h4_ex st) (h4_heap st) (h4_gr st) (h4_gs st)))
    (enumerate tOpsIn)
    (mkHB4 [] (map (fun _ => []) h_ground) tOut_heap h_ground (map (fun _ => g4zeros (length wLoss)) h_ground)).

Inductive rmode := RSerial | RHBuild | RwIn | RHBuildwIn | ROther.

(* spectra.py:809-1130 on all ranks; one h_dict_ground per rank (None is {}).  In mode "serial" the
   ranks do not communicate.  Any other mode returns the zeros. *)
Definition getRIXSmap (ord : nat -> nat -> nat -> set_order) (h_ground : list (hdict_t F)) (pm : rmode) : list (res garr4) :=
  let hb pm ord hg := match hb4_run pm ord hg with Run st => map Ok (h4_gs st) | Stop l => map Err l end in
  let win pm := match win_run pm ord h_ground with Run st => map Ok (wi_gs st) | Stop l => map Err l end in
  match pm with
  | RSerial => map (fun rh => hd (Err GenericException) (hb Serial (fun t i _ => ord t i (fst rh)) [snd rh])) (enumerate h_ground)
  | RHBuild => hb HBuild ord h_ground
  | RwIn => win Serial
  | RHBuildwIn => win HBuild
  | ROther => map (fun _ => Ok (g4zeros (length wLoss))) h_ground
  end.
End Args.
End RIXS.
Arguments garr4 : clear implicits.
