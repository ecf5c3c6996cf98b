(* Properties of getRIXSmap: C34, C38, C39, C40, C59, C60. *)
From Coq Require Import QArith Qcanon Reals Permutation.
From Verif Require Import M_Prelude M_Scalar M_PSR M_Ladder M_State M_Mpi M_Hamiltonian M_Lanczos M_Spectra M_RIXS.
From Verif Require Import S_Fock S_Ops S_Ham S_Green S_Spectra S_RIXS.
From Verif Require Import L_Scalar L_Sum L_Fock L_State L_Ops L_FockP L_Green L_Green3 L_Green4 L_RIXS L_RIXS4 X_Util X_Reals X_Gauss P_Fock P_Green P_Spectra.
Local Open Scope Z_scope.

(* ---- C34: sign ---- *)
(* every value of the map, in every mode, on every rank, for every solver and all arguments *)
Theorem C34_getRIXSmap : forall (F : ofield) (fsqrt : F -> F) bicgstab fuel n op wIns wLoss delta1 delta2 rs ks swm tOpsIn psis es, delta2 <> 0%F ->
  forall tOpsOut ord hg pm gs,
  In (Ok gs) (getRIXSmap fsqrt bicgstab fuel n op wIns wLoss delta1 delta2 rs ks swm tOpsIn tOpsOut psis es ord hg pm) ->
  forall iE tIn tOut iw, Forall (fun x => (delta2 * im x <= 0)%F) (gs iE tIn tOut iw).
Proof. exact (@getRIXSmap_signed). Qed.
Print Assumptions C34_getRIXSmap.

(* ---- C60: the Kramers-Heisenberg expression ---- *)
(* An exact square root, an exact linear solver, krylovSize at least the dimension of the Fock space, no
   cut-off.  With outgoing operators op0 :: ops every entry is the expression for op0: the others are
   never used, see C39. *)
Theorem C60_kramers_heisenberg : forall (F : ofield) (fsqrt : F -> F) bicgstab n op rs h fuel wIns wLoss delta1 delta2 ks swm tOpsIn psis es op0,
  sqrt_laws fsqrt -> exact_solver bicgstab -> spectra_input n op rs (op0 :: tOpsIn) psis -> assert_hermitian op = Ok tt -> restricted_op n op rs h ->
  (2 ^ n < fuel)%nat -> delta1 <> 0%F -> delta2 <> 0%F -> Z.of_nat (2 ^ n) <= ks -> (swm <= 0)%F ->
  forall ops (ord : nat -> nat -> nat -> set_order) hg pm r gs, (forall t i q l, Permutation (ord t i q l) l) ->
  Forall (hdict_exact n op rs) hg -> hg <> [] ->
  pm <> ROther -> (pm = RHBuild -> r = 0%nat /\ NoDup (flat_map dkeys hg)) ->
  nth_error (getRIXSmap fsqrt bicgstab fuel (Z.of_nat n) op wIns wLoss delta1 delta2 rs ks swm tOpsIn (op0 :: ops) psis es ord hg pm) r = Some (Ok gs) ->
  forall tIn iE tOpIn psi e iw wIn tOut, nth_error tOpsIn tIn = Some tOpIn -> nth_error psis iE = Some psi -> nth_error es iE = Some e -> nth_error wIns iw = Some wIn ->
    (tOut < S (length ops))%nat -> length (gs iE tIn tOut iw) = length wLoss /\
    forall k, (k < length wLoss)%nat ->
      kramers_heisenberg n rs h tOpIn op0 psi (mkC (wIn + e)%F delta1) (mkC (nth k wLoss 0 + e)%F delta2) (nth k (gs iE tIn tOut iw) c0).
Proof. exact (@rixs_exact). Qed.
Print Assumptions C60_kramers_heisenberg.
(* the expression has at most one value *)
Theorem C60_unique : forall (F : ofield) n (op : op_t F) rs h tIn tOut psi z1 z2 g g', wf_op n op -> assert_hermitian op = Ok tt -> restricted_op n op rs h -> im z1 <> 0%F ->
  kramers_heisenberg n rs h tIn tOut psi z1 z2 g -> kramers_heisenberg n rs h tIn tOut psi z1 z2 g' -> g = g'.
Proof. exact (@kh_unique). Qed.
Print Assumptions C60_unique.

(* an exact solver exists *)
Example C60_solver : forall F : ofield, exact_solver (@gauss F).
Proof. exact (@gauss_exact). Qed.
Example C60_hypotheses : sqrt_laws (sqrt : RF -> RF) /\ exact_solver (@gauss RF) /\ spectra_input 2 (@hop_op RF) None [t_out; t_in] [sp_psi; hop_psi] /\
  assert_hermitian (@hop_op RF) = Ok tt /\ (exists h, restricted_op 2 (@hop_op RF) None h) /\ Forall (hdict_exact 2 (@hop_op RF) None) [[]; []].
Proof.
  destruct (@C36_spectra_input RF) as (H & Hh & _). split; [exact sqrt_laws_R|]. split; [apply gauss_exact|]. split.
  - destruct H as (A & B & C & D). split; [auto|]. split; [auto|]. split; [|auto]. inversion C as [|? ? C1 C2]. inversion C2. apply Forall_cons; [auto|]. apply Forall_cons; auto.
  - split; [auto|]. split; [apply C36_restricted_operator|]. repeat (apply Forall_cons; [intros k col E; discriminate E|]). apply Forall_nil.
Qed.
(* One level with energy 1 and one with energy 0.  The core-hole state |10> at wIn = 4, delta1 = 4 has the amplitude
   1/(3 + 4i); outgoing operator a_0: |00>, weight 1/25, at wLoss + i delta2 = 1 + i *)
Definition rx_op {F : ofield} : op_t F := [([(0, C_); (0, A_)], c1)].
Definition t_0 {F : ofield} : op_t F := [([(0, C_)], c1)].
Definition t_1 {F : ofield} : op_t F := [([(1, A_)], c1)].
Definition ent4 (r : res (garr4 QcF)) (a b c d : nat) : vec QcF := match r with Ok g => g a b c d | Err _ => [] end.
Definition rx_run (pm : rmode) : list (res (garr4 QcF)) :=
  getRIXSmap qsqrt gauss 5 2 rx_op [q 4 1; q 1 1] [q 1 1] (q 4 1) (q 1 1) None 4 (q 0 1) [t_0] [t_out; t_1] [sp_psi] [q 0 1] (fun _ _ _ l => l) [[]; []] pm.
Example C60_example : forallb (fun pm => forallb (fun r => vec_eqb (ent4 r 0 0 0 0) [qi 1 50 (-1) 50] && vec_eqb (ent4 r 0 0 0 1) [qi 1 32 (-1) 32]) (rx_run pm) && Nat.eqb (length (rx_run pm)) 2)
  [RSerial; RHBuild; RwIn; RHBuildwIn] = true.
Proof. vm_compute. reflexivity. Qed.

(* ---- C39: the outgoing operators ---- *)
(* tOut_big = [{}] * len(tOpsOut) is one dictionary: for all arguments and all modes, the map is the same
   if the outgoing operators after the first are replaced by any others *)
Theorem C39_only_first_operator_used : forall (F : ofield) (fsqrt : F -> F) bicgstab fuel n op wIns wLoss delta1 delta2 rs ks swm tOpsIn psis es op0 ops ops',
  length ops = length ops' -> forall ord hg pm,
  getRIXSmap fsqrt bicgstab fuel n op wIns wLoss delta1 delta2 rs ks swm tOpsIn (op0 :: ops) psis es ord hg pm =
  getRIXSmap fsqrt bicgstab fuel n op wIns wLoss delta1 delta2 rs ks swm tOpsIn (op0 :: ops') psis es ord hg pm.
Proof. exact (@getRIXSmap_same). Qed.
Print Assumptions C39_only_first_operator_used.
(* The full statement: every entry tOut is the expression for tOpsOut[tOut].  It holds for one outgoing operator: *)
Theorem C39_requested_operator_partial : forall (F : ofield) (fsqrt : F -> F) bicgstab n op rs h fuel wIns wLoss delta1 delta2 ks swm tOpsIn psis es op0,
  sqrt_laws fsqrt -> exact_solver bicgstab -> spectra_input n op rs (op0 :: tOpsIn) psis -> assert_hermitian op = Ok tt -> restricted_op n op rs h ->
  (2 ^ n < fuel)%nat -> delta1 <> 0%F -> delta2 <> 0%F -> Z.of_nat (2 ^ n) <= ks -> (swm <= 0)%F ->
  forall (ord : nat -> nat -> nat -> set_order) hg pm r gs, (forall t i q l, Permutation (ord t i q l) l) ->
  Forall (hdict_exact n op rs) hg -> hg <> [] ->
  pm <> ROther -> (pm = RHBuild -> r = 0%nat /\ NoDup (flat_map dkeys hg)) ->
  nth_error (getRIXSmap fsqrt bicgstab fuel (Z.of_nat n) op wIns wLoss delta1 delta2 rs ks swm tOpsIn [op0] psis es ord hg pm) r = Some (Ok gs) ->
  forall tIn iE tOpIn psi e iw wIn tOut tOpOut, nth_error tOpsIn tIn = Some tOpIn -> nth_error psis iE = Some psi -> nth_error es iE = Some e -> nth_error wIns iw = Some wIn ->
    nth_error [op0] tOut = Some tOpOut -> forall k, (k < length wLoss)%nat ->
      kramers_heisenberg n rs h tOpIn tOpOut psi (mkC (wIn + e)%F delta1) (mkC (nth k wLoss 0 + e)%F delta2) (nth k (gs iE tIn tOut iw) c0).
Proof.
  intros F fsqrt bicgstab n op rs h fuel wIns wLoss delta1 delta2 ks swm tOpsIn psis es op0 HS HB Hin Hh Hop Hf Hd1 Hd2 Hks Hswm ord hg pm r gs Ho Hhg Hne Hm Hb E tIn iE tOpIn psi e iw wIn tOut tOpOut E1 E2 E3 E4 E5.
  destruct tOut as [|[|]]; try discriminate. injection E5 as <-.
  exact (proj2 (rixs_exact fsqrt bicgstab n op rs h fuel wIns wLoss delta1 delta2 ks swm tOpsIn psis es op0 HS HB Hin Hh Hop Hf Hd1 Hd2 Hks Hswm [] ord hg pm r gs Ho Hhg Hne Hm Hb E tIn iE tOpIn psi e iw wIn 0%nat E1 E2 E3 E4 (Nat.lt_0_succ _))).
Qed.
Print Assumptions C39_requested_operator_partial.

(* Counterexample, all modes and ranks: the second outgoing operator a_1 gives zero on |10>, but the map holds the value of a_0. *)
Definition rx_h (t s : config) : cx QcF := opelem rx_op t s.
Lemma all_pairs (P : config -> config -> bool) n : forallb (fun t => forallb (P t) (allcfg n)) (allcfg n) = true -> forall t s, length t = n -> length s = n -> P t s = true.
Proof. intros H t s Ht Hs. rewrite forallb_forall in H. specialize (H t (proj2 (allcfg_In _ _) Ht)). rewrite forallb_forall in H. apply H. apply allcfg_In. auto. Qed.
Lemma all_cfgs (P : config -> bool) n : forallb P (allcfg n) = true -> forall t, length t = n -> P t = true.
Proof. intros H t Ht. rewrite forallb_forall in H. apply H. apply allcfg_In. auto. Qed.
Lemma rx_restricted : restricted_op 2 (@rx_op QcF) None rx_h.
Proof.
  intros t s Ht Hs. split; [reflexivity|]. intros Hn. unfold rx_h.
  assert (E : (fun t s => ceqb (opelem (@rx_op QcF) t s) c0 || negb (@fltb QcF (cabs2 (opelem (@rx_op QcF) t s)) eps12)) t s = true).
  { apply (all_pairs (fun t s => ceqb (opelem (@rx_op QcF) t s) c0 || negb (@fltb QcF (cabs2 (opelem (@rx_op QcF) t s)) eps12)) 2); [vm_compute; reflexivity|auto|auto]. }
  cbv beta in E.
  apply orb_prop in E as [E|E]; [destruct (ceqb_spec (opelem (@rx_op QcF) t s) c0); [auto|discriminate]|]. exfalso. apply Hn. split; [auto|]. split; [exact I|]. apply negb_true_iff. auto.
Qed.
Lemma ceqb_true (x y : cx QcF) : ceqb x y = true -> x = y.
Proof. destruct (ceqb_spec x y); [auto|discriminate]. Qed.
Lemma rx_wf : wf_op 2 (@rx_op QcF).
Proof. wf_op_ex. Qed.
Lemma rx_herm : assert_hermitian (@rx_op QcF) = Ok tt.
Proof. vm_compute. reflexivity. Qed.
Lemma rx_im : im (mkC (q 4 1 + q 0 1)%F (q 4 1)) <> 0%F.
Proof. intros E. assert (H : feqb (im (mkC (q 4 1 + q 0 1)%F (q 4 1))) 0%F = false) by (vm_compute; reflexivity). rewrite E in H. vm_compute in H. discriminate. Qed.
Lemma rx_im2 : im (mkC (q 1 1 + q 0 1)%F (q 1 1)) <> 0%F.
Proof. intros E. assert (H : feqb (im (mkC (q 1 1 + q 0 1)%F (q 1 1))) 0%F = false) by (vm_compute; reflexivity). rewrite E in H. vm_compute in H. discriminate. Qed.
Definition rx_psi1 : psi_t QcF := [(key [true; false], c1)].
Definition rx_psi2 : psi_t QcF := [(key [true; false], qi 3 25 (-4) 25)].
Lemma rx_second : kramers_heisenberg 2 None rx_h t_0 t_1 sp_psi (mkC (q 4 1 + q 0 1)%F (q 4 1)) (mkC (q 1 1 + q 0 1)%F (q 1 1)) c0.
Proof.
  exists rx_psi1, rx_psi2, []. split; [|split; [|split]].
  - intros t Ht. split; [|intros H; exfalso; apply H; exact I]. intros _. apply ceqb_true. revert t Ht. apply all_cfgs. vm_compute. reflexivity.
  - intros t Ht. apply ceqb_true. revert t Ht. apply all_cfgs. vm_compute. reflexivity.
  - intros t Ht. split; [|intros H; exfalso; apply H; exact I]. intros _. apply ceqb_true. revert t Ht. apply all_cfgs. vm_compute. reflexivity.
  - exists (fun _ => c0). split; [|split].
    + intros t Ht. apply ceqb_true. revert t Ht. apply all_cfgs. vm_compute. reflexivity.
    + apply ceqb_true. vm_compute. reflexivity.
    + intros x' Hx t Ht. refine (fock_unique 2 rx_op None rx_wf rx_herm [] (fun c _ (H : In (key c) []) => match H with end) rx_h rx_restricted (mkC (q 1 1 + q 0 1)%F (q 1 1)) rx_im2 x' (fun _ => c0) Hx _ t Ht).
      intros s Hs. apply ceqb_true. revert s Hs. apply all_cfgs. vm_compute. reflexivity.
Qed.
Theorem C39_requested_operator_refuted : forall pm r, pm <> ROther -> (r < 2)%nat -> exists gs,
  nth_error (rx_run pm) r = Some (Ok gs) /\
  kramers_heisenberg 2 None rx_h t_0 t_1 sp_psi (mkC (q 4 1 + q 0 1)%F (q 4 1)) (mkC (q 1 1 + q 0 1)%F (q 1 1)) c0 /\
  ~ kramers_heisenberg 2 None rx_h t_0 t_1 sp_psi (mkC (q 4 1 + q 0 1)%F (q 4 1)) (mkC (q 1 1 + q 0 1)%F (q 1 1)) (nth 0 (gs 0%nat 0%nat 1%nat 0%nat) c0).
Proof.
  intros pm r Hpm Hr.
  assert (G : forall x : res (garr4 QcF), is_ok x = true -> ceqb (nth 0 (ent4 x 0 0 1 0) c0) c0 = false -> exists gs, x = Ok gs /\
    ~ kramers_heisenberg 2 None rx_h t_0 t_1 sp_psi (mkC (q 4 1 + q 0 1)%F (q 4 1)) (mkC (q 1 1 + q 0 1)%F (q 1 1)) (nth 0 (gs 0%nat 0%nat 1%nat 0%nat) c0)).
  { intros [gs|]; [|discriminate]. intros _ E. exists gs. split; [reflexivity|]. intros K. cbn [ent4] in E.
    pose proof (kh_unique 2 rx_op None rx_h t_0 t_1 sp_psi _ _ _ _ rx_wf rx_herm rx_restricted rx_im K rx_second) as E2.
    destruct (ceqb_spec (nth 0 (gs 0%nat 0%nat 1%nat 0%nat) c0) c0) as [|H]; [discriminate|]. exact (H E2). }
  assert (E : (Nat.ltb r (length (rx_run pm)) && is_ok (nth r (rx_run pm) (Err OutOfFuel)) && negb (ceqb (nth 0 (ent4 (nth r (rx_run pm) (Err OutOfFuel)) 0 0 1 0) c0) c0)) = true).
  { destruct r as [|[|r]]; [| |lia]; destruct pm; try contradiction; vm_compute; reflexivity. }
  apply andb_prop in E as [E E3]. apply andb_prop in E as [E1 E2]. apply Nat.ltb_lt in E1. apply negb_true_iff in E3.
  destruct (G _ E2 E3) as (gs & Eg & Hn). exists gs. split; [|split; [exact rx_second|exact Hn]].
  rewrite (nth_error_nth' _ (Err OutOfFuel) E1). f_equal. exact Eg.
Qed.
Print Assumptions C39_requested_operator_refuted.

(* ---- C40: ranks ---- *)
(* modes wIn and H_build_wIn, all arguments: the ranks end with the same array, or all of them fail *)
Theorem C40_same_on_all_ranks : forall (F : ofield) (fsqrt : F -> F) bicgstab fuel n op wIns wLoss delta1 delta2 rs ks swm tOpsIn tOpsOut psis es ord hg pm,
  pm = RwIn \/ pm = RHBuildwIn ->
  let out := getRIXSmap fsqrt bicgstab fuel n op wIns wLoss delta1 delta2 rs ks swm tOpsIn tOpsOut psis es ord hg pm in
  (exists gs, out = repeat (Ok gs) (length hg)) \/ Forall (fun x => is_ok x = false) out.
Proof. exact (@win_same). Qed.
Print Assumptions C40_same_on_all_ranks.
(* every incoming energy is computed by exactly one rank *)
Theorem C40_each_block_once : forall (F : ofield) (fsqrt : F -> F) bicgstab fuel n op wIns wLoss delta1 delta2 rs ks swm tOpsOut ord e sys rks outs, rks <> [] ->
  map (fun rr => win_rank fsqrt bicgstab fuel n op wIns wLoss delta1 delta2 rs ks swm tOpsOut ord e sys (fst rr) (length rks) (snd rr)) (enumerate rks) = map Ok outs ->
  Permutation (flat_map (fun o => dkeys (snd o)) outs) (seq 0 (length wIns)).
Proof. exact (@win_blocks). Qed.
Print Assumptions C40_each_block_once.
(* the map does not depend on the number of ranks, the mode, the order of sets or the stored Hamiltonian *)
Theorem C40_independent_of_ranks : forall (F : ofield) (fsqrt : F -> F) bicgstab n op rs h fuel wIns wLoss delta1 delta2 ks swm tOpsIn psis es op0,
  sqrt_laws fsqrt -> exact_solver bicgstab -> spectra_input n op rs (op0 :: tOpsIn) psis -> assert_hermitian op = Ok tt -> restricted_op n op rs h ->
  (2 ^ n < fuel)%nat -> delta1 <> 0%F -> delta2 <> 0%F -> Z.of_nat (2 ^ n) <= ks -> (swm <= 0)%F ->
  forall ops ops' (ord ord' : nat -> nat -> nat -> set_order) hg hg' pm pm' r r' gs gs',
  (forall t i q l, Permutation (ord t i q l) l) -> (forall t i q l, Permutation (ord' t i q l) l) ->
  Forall (hdict_exact n op rs) hg -> hg <> [] -> Forall (hdict_exact n op rs) hg' -> hg' <> [] ->
  pm <> ROther -> (pm = RHBuild -> r = 0%nat /\ NoDup (flat_map dkeys hg)) ->
  pm' <> ROther -> (pm' = RHBuild -> r' = 0%nat /\ NoDup (flat_map dkeys hg')) ->
  nth_error (getRIXSmap fsqrt bicgstab fuel (Z.of_nat n) op wIns wLoss delta1 delta2 rs ks swm tOpsIn (op0 :: ops) psis es ord hg pm) r = Some (Ok gs) ->
  nth_error (getRIXSmap fsqrt bicgstab fuel (Z.of_nat n) op wIns wLoss delta1 delta2 rs ks swm tOpsIn (op0 :: ops') psis es ord' hg' pm') r' = Some (Ok gs') ->
  length psis = length es ->
  forall iE tIn tOut iw, (iE < length psis)%nat -> (tIn < length tOpsIn)%nat -> (tOut < S (length ops))%nat -> (tOut < S (length ops'))%nat -> (iw < length wIns)%nat ->
    gs iE tIn tOut iw = gs' iE tIn tOut iw.
Proof. exact (@rixs_independent). Qed.
Print Assumptions C40_independent_of_ranks.
(* three energies on one, two and five ranks *)
Definition rx_ranks (R : nat) (pm : rmode) : list (res (garr4 QcF)) :=
  getRIXSmap qsqrt gauss 5 2 rx_op [q 4 1; q 1 1; q (-2) 1] [q 1 1] (q 4 1) (q 1 1) None 4 (q 0 1) [t_0] [t_out] [sp_psi] [q 0 1] (fun _ _ _ l => l) (repeat [] R) pm.
Example C40_example : forallb (fun Rp => forallb (fun r => vec_eqb (ent4 r 0 0 0 0) [qi 1 50 (-1) 50] && vec_eqb (ent4 r 0 0 0 1) [qi 1 32 (-1) 32] && vec_eqb (ent4 r 0 0 0 2) [qi 1 50 (-1) 50])
    (rx_ranks (fst Rp) (snd Rp)) && Nat.eqb (length (rx_ranks (fst Rp) (snd Rp))) (fst Rp))
  [(1%nat, RwIn); (2%nat, RwIn); (5%nat, RHBuildwIn)] = true.
Proof. vm_compute. reflexivity. Qed.

(* ---- C38 for getRIXSmap ---- *)
(* mode H_build: rank 0 holds the expression, the other ranks do not (see C38 for getGreen).  The operator n_0 on
   the core-hole state 1/(i - H) |10>, H the hopping *)
Definition t_n0 {F : ofield} : op_t F := [([(0, C_); (0, A_)], c1)].
Theorem C38_rixs_same_on_all_ranks_refuted : exists out : list (res (garr4 QcF)),
  out = getRIXSmap qsqrt gauss 5 2 hop_op [q 0 1] [q 1 1] (q 1 1) (q 1 1) None 4 (q 0 1) [t_0] [t_n0] [sp_psi] [q 0 1] (fun _ _ _ l => l) [[]; []] RHBuild /\
  forallb is_ok out = true /\ length out = 2%nat /\
  vec_eqb (ent4 (nth 0 out (Err OutOfFuel)) 0 0 0 0) (ent4 (nth 1 out (Err OutOfFuel)) 0 0 0 0) = false.
Proof. eexists. split; [reflexivity|]. vm_compute. auto. Qed.
Print Assumptions C38_rixs_same_on_all_ranks_refuted.

(* ---- C59: the norm of the state handed to getGreen ---- *)
(* psi3' is the result of applyOp.  The small amplitudes are dropped after the normalisation. *)
Theorem C59_norm_bounds_partial : forall (F : ofield) (fsqrt : F -> F) n rs swm tOpsOut heap tOut tOpOut psi2 cache c psi3' heap' psi3 nrm, sqrt_laws fsqrt ->
  hd_error heap = Some cache -> applyOp n tOpOut psi2 swm rs (Some cache) = (c, Ok psi3') -> psi3' <> [] ->
  out_state fsqrt n rs swm tOpsOut heap tOut tOpOut psi2 = Ok (heap', psi3, nrm) ->
  (norm2 psi3 <= 1)%F /\ ((0 <= swm)%F -> (1 <= norm2 psi3 + fofZ (Z.of_nat (length psi3')) * swm)%F) /\ ((swm <= 0)%F -> norm2 psi3 = 1%F).
Proof. exact (@out_norm). Qed.
Print Assumptions C59_norm_bounds_partial.
(* 3 |10> + 4 |01> with the cut-off 1/2: 9/25 is dropped, 16/25 remains *)
Definition t_345 : op_t QcF := [([(0, C_); (0, A_)], qr 3 1); ([(1, C_); (0, A_)], qr 4 1)].
Definition out_345 (swm : QcF) := out_state qsqrt 2 None swm [t_345] [[]] 0 t_345 (@hop_psi QcF).
Definition out_psi (r : res (list (cache_t QcF) * psi_t QcF * QcF)) : psi_t QcF := match r with Ok (_, p, _) => p | Err _ => [] end.
Theorem C59_normalised_refuted : exists heap' psi3 nrm, out_345 (q 1 2) = Ok (heap', psi3, nrm) /\ feqb nrm (q 5 1) = true /\ feqb (norm2 psi3) (q 16 25) = true.
Proof.
  assert (G : forall r : res (list (cache_t QcF) * psi_t QcF * QcF), match r with Ok (_, p, m) => feqb m (q 5 1) && feqb (norm2 p) (q 16 25) | Err _ => false end = true ->
    exists heap' psi3 nrm, r = Ok (heap', psi3, nrm) /\ feqb nrm (q 5 1) = true /\ feqb (norm2 psi3) (q 16 25) = true).
  { intros [[[hp p] m]|] E; [|discriminate]. apply andb_prop in E. exists hp, p, m. split; [reflexivity|exact E]. }
  apply G. vm_compute. reflexivity.
Qed.
Print Assumptions C59_normalised_refuted.
(* without cut-off the state is normalised *)
Example C59_example : psi_eqb (out_psi (out_345 (q 0 1))) [(key [true; false], qr 3 5); (key [false; true], qr 4 5)] = true.
Proof. vm_compute. reflexivity. Qed.
(* The consequence in the map: level 1 has energy 1, the state 4 |01> would give 16/(z - 1); the map
   holds 25/(z - 16/25), here at z = 1 + i *)
Definition ry_op : op_t QcF := [([(1, C_); (1, A_)], c1)].
Example C59_map : (fun l => vec_eqb (ent4 (nth 0 l (Err OutOfFuel)) 0 0 0 0) [qi 5625 706 (-15625) 706])
  (getRIXSmap qsqrt gauss 5 2 ry_op [q 0 1] [q 1 1] (q 1 1) (q 1 1) None 4 (q 1 2) [t_0] [t_345] [sp_psi] [q 0 1] (fun _ _ _ l => l) [[]] RwIn) = true.
Proof. vm_compute. reflexivity. Qed.
