(* The RIXS map for two choices of the states of the same levels. *)
From Coq Require Import Permutation Ring Field.
From Verif Require Import M_Prelude M_Scalar M_PSR M_State M_Mpi M_Hamiltonian M_Lanczos M_Average M_Spectra M_Simulate M_RIXS M_Program S_Fock S_Ops S_Ham S_Green S_Spectra S_Symmetry S_TimeReversal S_Dichroism S_Thermal S_Spectrum S_Spectrum3 S_RIXS S_Levels.
From Verif Require Import L_Scalar L_Sum L_Dict L_Fock L_State L_Ops L_ApplyOp L_FockP L_Lanczos2 L_Green3 L_Green4 L_Spectra6 L_Green L_RIXS2 L_Symmetry L_Dichroism L_Isotropic L_Program L_Program7 L_Program9 L_Levels L_Levels2.
From Verif Require P_RIXS.

Section RIXS.
Context {F : ofield}.
Add Field Ff : (f_field F).
Add Ring Cring : (@c_ring F).
Local Open Scope cx_scope.
Lemma image_lin n K (op : op_t F) rs (c : nat -> cx F) (ps qs : nat -> psi_t F) p q : (forall t, length t = n -> amp p t = lin K c (fun i => amp (ps i)) t) ->
  (forall i, (i < K)%nat -> op_image n op rs (ps i) (qs i)) -> op_image n op rs p q -> forall t, length t = n -> amp q t = lin K c (fun i => amp (qs i)) t.
Proof.
  intros Hp H H' t Ht. destruct (allowed_opt_dec rs t) as [D|D].
  - rewrite (proj1 (H' t Ht) D). rewrite (csum_ext _ (fun s => opelem op t s * lin K c (fun i => amp (ps i)) s)) by (intros s Hs; apply allcfg_In in Hs; rewrite Hp; auto).
    rewrite (lin_map n K (opelem op)). unfold lin. apply csum_ext. intros i Hi. apply in_seq in Hi. rewrite <- (proj1 (H i ltac:(lia) t Ht) D). auto.
  - rewrite (proj2 (H' t Ht) D). symmetry. apply csum_zero. intros i Hi. apply in_seq in Hi. rewrite (proj2 (H i ltac:(lia) t Ht) D). ring.
Qed.
Lemma levels_kh n (op : op_t F) rs h tIn tOut (z1 z2 p : F -> cx F) es psis psis' g g' : wf_op n op -> assert_hermitian op = Ok tt -> restricted_op n op rs h ->
  (forall e, im (z1 e) <> 0%F) -> same_levels n es psis psis' ->
  (forall i, (i < length es)%nat -> kramers_heisenberg n rs h tIn tOut (nth i psis []) (z1 (nth i es 0%F)) (z2 (nth i es 0%F)) (g i)) ->
  (forall i, (i < length es)%nat -> kramers_heisenberg n rs h tIn tOut (nth i psis' []) (z1 (nth i es 0%F)) (z2 (nth i es 0%F)) (g' i)) ->
  csum (fun i => p (nth i es 0%F) * g' i) (seq 0 (length es)) = csum (fun i => p (nth i es 0%F) * g i) (seq 0 (length es)).
Proof.
  intros Hw HH HR Hz HL H H'. destruct (levels_matrix n es psis psis' HL) as (a & R & L & E). set (K := length es) in *.
  apply (choose _ []) in H as [p1 H]. apply (choose _ []) in H as [p2 H]. apply (choose _ []) in H as [p3 H].
  apply (choose _ []) in H' as [q1 H']. apply (choose _ []) in H' as [q2 H']. apply (choose _ []) in H' as [q3 H'].
  assert (E1 : forall j, (j < K)%nat -> forall t, length t = n -> amp (q1 j) t = lin K (a j) (fun i => amp (p1 i)) t).
  { intros j Hj. apply (image_lin n K tIn rs (a j) (fun i => nth i psis []) p1 (nth j psis' [])); [apply E; auto| |apply H'; auto]. intros i Hi. apply H; auto. }
  assert (E2 : forall j, (j < K)%nat -> forall t, length t = n -> amp (q2 j) t = lin K (a j) (fun i => amp (p2 i)) t).
  { intros j Hj. set (v := lin K (a j) (fun i => amp (p2 i))).
    assert (Hsol : vsol n (z1 (nth j es 0%F)) h v (lin K (a j) (fun i => amp (p1 i)))) by (apply (vsol_lin n K (fun i => nth i es 0%F) a L z1 h); auto; intros i Hi; apply H; auto).
    assert (HD : fock_solves n (z1 (nth j es 0%F)) h (fun t => amp (q2 j) t - v t) []).
    { intros t Lt. change (amp [] t) with (@c0 F). rewrite (csum_ext _ (fun s => h t s * amp (q2 j) s - h t s * v s)) by (intros; ring). rewrite csum_sub.
      pose proof (proj1 (proj2 (H' j Hj)) t Lt) as X1. rewrite E1 in X1 by auto. pose proof (Hsol t Lt) as X2.
      transitivity ((z1 (nth j es 0%F) * amp (q2 j) t - csum (fun s => h t s * amp (q2 j) s) (allcfg n)) - (z1 (nth j es 0%F) * v t - csum (fun s => h t s * v s) (allcfg n))); [ring|].
      rewrite X1, X2. ring. }
    assert (HZ : fock_solves n (z1 (nth j es 0%F)) h (fun _ => c0) []).
    { intros t Lt. rewrite csum_zero by (intros; ring). change (amp [] t) with (@c0 F). ring. }
    intros t Lt. pose proof (fock_unique n op rs Hw HH [] (fun c _ (X : In (key c) []) => match X with end) h HR (z1 (nth j es 0%F)) (Hz _) _ _ HD HZ t Lt) as X. cbv beta in X.
    transitivity ((amp (q2 j) t - v t) + v t); [ring|]. rewrite X. ring. }
  apply (trace_green n K (fun i => nth i es 0%F) a R L z2 p h (fun i => amp (p3 i)) (fun i => amp (q3 i))).
  - intros j Hj. apply (image_lin n K tOut rs (a j) p2 p3 (q2 j)); [apply E2; auto| |apply H'; auto]. intros i Hi. apply H; auto.
  - intros i Hi. exact (proj2 (proj2 (proj2 (H i Hi)))).
  - intros i Hi. exact (proj2 (proj2 (proj2 (H' i Hi)))).
Qed.
Lemma mean_map_same (fexp f32 : F -> F) kT wIn wLoss es nIn nOut I I' data data' :
  (forall a b w j, (a < nIn)%nat -> (b < nOut)%nat -> (w < length wIn)%nat -> (j < length wLoss)%nat -> boltzmann_mean fexp kT es (fun i => I' i a b w j) = boltzmann_mean fexp kT es (fun i => I i a b w j)) ->
  mean_map fexp f32 kT wIn wLoss es nIn nOut I data -> mean_map fexp f32 kT wIn wLoss es nIn nOut I' data' -> data' = data.
Proof.
  intros H (r & L & -> & P) (r' & L' & -> & P'). assert (E : r' = r); [|now rewrite E].
  apply (nth_ext _ _ [] []); [congruence|]. intros j Hj. rewrite L' in Hj. destruct (P j Hj) as [A B], (P' j Hj) as [A' B'].
  apply (nth_ext _ _ 0%F 0%F); [congruence|]. intros w Hw. rewrite A' in Hw. rewrite B, B' by auto. f_equal. f_equal. apply map_ext_in. intros a Ha. apply in_seq in Ha. f_equal.
  apply map_ext_in. intros b Hb. apply in_seq in Hb. apply H; auto; lia.
Qed.
Lemma levels_RIXS (fsqrt fexp f32 : F -> F) bicgstab k_B T n op rs fuel delta1 delta2 ks swm tOpsIn op0 ops psis psis' es (ms : @meshes F) (ord ord' : nat -> nat -> nat -> set_order) hg hg' pm pm' r r' gs gs' outs outs' f f' data data' :
  sqrt_laws fsqrt -> exp_laws fexp -> (k_B * T)%F <> 0%F -> exact_solver bicgstab -> spectra_input n op rs (op0 :: tOpsIn) psis -> Forall (valid_psi n) psis' -> assert_hermitian op = Ok tt ->
  same_levels n es psis psis' -> (2 ^ n < fuel)%nat -> delta1 <> 0%F -> delta2 <> 0%F -> (Z.of_nat (2 ^ n) <= ks)%Z -> (swm <= 0)%F ->
  (forall t i q l, Permutation (ord t i q l) l) -> (forall t i q l, Permutation (ord' t i q l) l) ->
  Forall (hdict_exact n op rs) hg -> hg <> [] -> Forall (hdict_exact n op rs) hg' -> hg' <> [] ->
  (pm = RwIn \/ pm = RHBuildwIn) -> (pm' = RwIn \/ pm' = RHBuildwIn) ->
  nth_error (getRIXSmap fsqrt bicgstab fuel (Z.of_nat n) op (m_wIn ms) (m_wLoss ms) delta1 delta2 rs ks swm tOpsIn (op0 :: ops) psis es ord hg pm) r = Some (Ok gs) ->
  nth_error (getRIXSmap fsqrt bicgstab fuel (Z.of_nat n) op (m_wIn ms) (m_wLoss ms) delta1 delta2 rs ks swm tOpsIn (op0 :: ops) psis' es ord' hg' pm') r' = Some (Ok gs') ->
  report_RIXS fexp f32 k_B es T ms (length tOpsIn) (S (length ops)) gs = Ok outs -> report_RIXS fexp f32 k_B es T ms (length tOpsIn) (S (length ops)) gs' = Ok outs' ->
  In (Bin f data) outs -> In (Bin f' data') outs' -> f' = f /\ data' = data.
Proof.
  intros HS HE HkT HX HI Hv' HA HL Hf Hd1 Hd2 Hks Hs Ho Ho' Hg Hn Hg' Hn' Pm Pm' G G' C C' B B'.
  assert (Hpm : pm <> ROther) by (destruct Pm; subst; discriminate). assert (Hpm' : pm' <> ROther) by (destruct Pm'; subst; discriminate).
  assert (Hb : pm = RHBuild -> r = 0%nat /\ NoDup (flat_map dkeys hg)) by (destruct Pm; subst; discriminate).
  assert (Hb' : pm' = RHBuild -> r' = 0%nat /\ NoDup (flat_map dkeys hg')) by (destruct Pm'; subst; discriminate).
  assert (Lg : forall a b c d, (c < length (op0 :: ops))%nat -> length (gs a b c d) = length (m_wLoss ms)) by (eapply win_shape; [exact Hd2|exact Pm|exact (nth_error_In _ _ G)]).
  assert (Lg' : forall a b c d, (c < length (op0 :: ops))%nat -> length (gs' a b c d) = length (m_wLoss ms)) by (eapply win_shape; [exact Hd2|exact Pm'|exact (nth_error_In _ _ G')]).
  destruct (report_bin fexp f32 HE k_B es T ms (length tOpsIn) (S (length ops)) gs outs f data HkT Lg C B) as [-> M].
  destruct (report_bin fexp f32 HE k_B es T ms (length tOpsIn) (S (length ops)) gs' outs' f' data' HkT Lg' C' B') as [-> M']. split; [auto|].
  refine (mean_map_same fexp f32 (k_B * T)%F (m_wIn ms) (m_wLoss ms) es (length tOpsIn) (S (length ops)) _ _ data data' _ M M').
  intros a b w j Ha Hbb Hw Hj. cbv beta. rewrite !mean_im. f_equal. f_equal. destruct (restricted_op_exists n op rs) as [h Hh]. pose proof HL as (L1 & L2 & _).
  assert (HI' : spectra_input n op rs (op0 :: tOpsIn) psis') by (destruct HI as (X1 & X2 & X3 & _); split; [auto|]; split; [auto|]; split; auto).
  apply (levels_kh n op rs h (nth a tOpsIn []) op0 (fun e => mkC (nth w (m_wIn ms) 0 + e)%F delta1) (fun e => mkC (nth j (m_wLoss ms) 0 + e)%F delta2)
    (fun e => creal (probability fexp (k_B * T) es e)) es psis psis' (fun i => nth j (gs i a b w) c0) (fun i => nth j (gs' i a b w) c0)); auto; [apply HI| |].
  - intros i Hi. exact (proj2 (P_RIXS.C60_kramers_heisenberg F fsqrt bicgstab n op rs h fuel (m_wIn ms) (m_wLoss ms) delta1 delta2 ks swm tOpsIn psis es op0 HS HX HI HA Hh Hf Hd1 Hd2 Hks Hs
      ops ord hg pm r gs Ho Hg Hn Hpm Hb G a i (nth a tOpsIn []) (nth i psis []) (nth i es 0%F) w (nth w (m_wIn ms) 0%F) b
      (nth_error_nth' _ _ Ha) (nth_error_nth' _ _ (eq_ind_r (fun m => (i < m)%nat) Hi L1)) (nth_error_nth' _ _ Hi) (nth_error_nth' _ _ Hw) Hbb) j Hj).
  - intros i Hi. exact (proj2 (P_RIXS.C60_kramers_heisenberg F fsqrt bicgstab n op rs h fuel (m_wIn ms) (m_wLoss ms) delta1 delta2 ks swm tOpsIn psis' es op0 HS HX HI' HA Hh Hf Hd1 Hd2 Hks Hs
      ops ord' hg' pm' r' gs' Ho' Hg' Hn' Hpm' Hb' G' a i (nth a tOpsIn []) (nth i psis' []) (nth i es 0%F) w (nth w (m_wIn ms) 0%F) b
      (nth_error_nth' _ _ Ha) (nth_error_nth' _ _ (eq_ind_r (fun m => (i < m)%nat) Hi L2)) (nth_error_nth' _ _ Hi) (nth_error_nth' _ _ Hw) Hbb) j Hj).
Qed.
End RIXS.
