(* The shift of the levels of the program. *)
From Coq Require Import Permutation Ring Field.
From Verif Require Import M_Prelude M_Scalar M_PSR M_State M_Mpi M_Hamiltonian M_Basis M_Expect M_Operators M_Lanczos M_Average M_Spectra M_Simulate M_RIXS M_Program S_Fock S_Ops S_Ham S_Green S_Spectra S_Basis S_Expect S_Operators S_Thermal S_Spectrum S_Spectrum3 S_RIXS S_Sector S_Shift.
From Verif Require Import L_Scalar L_Ops L_Operators4 L_Operators5 L_Sector2 L_Sector4 L_Ham L_Shift L_Shift2 L_Shift3.
From Verif Require S_Dict.
Local Open Scope Z_scope.

Section S.
Context {F : ofield}.
Add Field Ff : (f_field F).
Variables (fsqrt fexp : F -> F).
Hypothesis HS : sqrt_laws fsqrt.
Hypothesis HE : exp_laws fexp.
Lemma spectra_shift n w c (op op' : op_t F) rs fuel ks swm a es es' psis ord ord' R R' d dq tOps wl g rest g' rest' :
  shifted_hamiltonians n w c op op' -> wf_restr rs -> (2 ^ n < fuel)%nat -> Z.of_nat (2 ^ n) <= ks -> (swm <= 0)%F -> shifted_states n w c a es es' psis ->
  (forall t i q l, Permutation (ord t i q l) l) -> (forall t i q l, Permutation (ord' t i q l) l) -> (1 <= R)%nat -> (1 <= R')%nat ->
  d <> 0%F -> Forall (wf_op n) tOps -> Forall (shifts w dq) tOps ->
  getSpectra fsqrt fuel (Z.of_nat n) op wl d rs ks swm ord R tOps psis es SHBuild = Ok g :: rest ->
  getSpectra fsqrt fuel (Z.of_nat n) op' (moved_mesh c dq wl) d rs ks swm ord' R' tOps psis es' SHBuild = Ok g' :: rest' ->
  forall i t, (i < length es)%nat -> (t < length tOps)%nat -> g' i t = g i t.
Proof.
  intros (H1 & H2 & H3 & H4 & H5 & H6 & H7 & H8) Hr Hf Hk Hs (V & L & L' & P) Ho Ho' HR HR' Hd Ht Hsh E E'.
  eapply (shift_spec n w c op op' rs H8 H1 H2 H3 H4 H5 H6 H7 Hr fsqrt HS fuel ks swm Hf Hk Hs es es' psis a V L L') with (ord := ord) (ord' := ord') (R := R) (R' := R'); eauto; try (intros j Hj; apply (P j Hj)).
Qed.
Section C.
Variables (n : nat) (w : Z -> Z) (c : F) (op op' : op_t F) (rs : option restrictions_t) (fuel : nat) (ks : Z) (swm k_B T : F) (a0 : Z) (es es' : list F) (psis : list (psi_t F)).
Variables (ord ord' : nat -> nat -> nat -> set_order) (R R' : nat).
Hypothesis HH : shifted_hamiltonians n w c op op'.
Hypothesis Hr : wf_restr rs.
Hypothesis Hf : (2 ^ n < fuel)%nat.
Hypothesis Hk : Z.of_nat (2 ^ n) <= ks.
Hypothesis Hs : (swm <= 0)%F.
Hypothesis HkT : (k_B * T)%F <> 0%F.
Hypothesis HP : shifted_states n w c (fun _ => a0) es es' psis.
Hypothesis Ho : forall t i q l, Permutation (ord t i q l) l.
Hypothesis Ho' : forall t i q l, Permutation (ord' t i q l) l.
Hypothesis HR : (1 <= R)%nat.
Hypothesis HR' : (1 <= R')%nat.
Lemma absorption_shift d dq tOps wl cols rest cols' rest' : d <> 0%F -> Forall (wf_op n) tOps -> Forall (shifts w dq) tOps ->
  absorption fsqrt fexp k_B fuel (Z.of_nat n) op rs ks swm ord R psis es T wl d tOps = Ok cols :: rest ->
  absorption fsqrt fexp k_B fuel (Z.of_nat n) op' rs ks swm ord' R' psis es' T (moved_mesh c dq wl) d tOps = Ok cols' :: rest' ->
  exists data, cols = wl :: data /\ cols' = moved_mesh c dq wl :: data.
Proof.
  intros Hd Ht Hsh E E'. destruct HH as (H1 & H2 & H3 & H4 & H5 & H6 & H7 & H8), HP as (V & L & L' & P).
  eapply (shift_absorption n w c op op' rs H8 H1 H2 H3 H4 H5 H6 H7 Hr fsqrt fexp HS HE k_B T fuel ks swm Hf Hk Hs HkT es es' psis (fun _ => a0) V L L') with (ord := ord) (ord' := ord') (R := R) (R' := R'); eauto; try (intros j Hj; apply (P j Hj)).
Qed.
Lemma emission_shift d dq tOps wl cols rest cols' rest' : d <> 0%F -> Forall (wf_op n) tOps -> Forall (shifts w dq) tOps ->
  emission fsqrt fexp k_B fuel (Z.of_nat n) op rs ks swm ord R psis es T wl d tOps = Ok cols :: rest ->
  emission fsqrt fexp k_B fuel (Z.of_nat n) op' rs ks swm ord' R' psis es' T (moved_mesh c (- dq) wl) d tOps = Ok cols' :: rest' ->
  exists data, cols = wl :: data /\ cols' = moved_mesh c (- dq) wl :: data.
Proof.
  intros Hd Ht Hsh E E'. destruct HH as (H1 & H2 & H3 & H4 & H5 & H6 & H7 & H8), HP as (V & L & L' & P).
  eapply (shift_emission n w c op op' rs H8 H1 H2 H3 H4 H5 H6 H7 Hr fsqrt fexp HS HE k_B T fuel ks swm Hf Hk Hs HkT es es' psis (fun _ => a0) V L L') with (ord := ord) (ord' := ord') (R := R) (R' := R'); eauto; try (intros j Hj; apply (P j Hj)).
Qed.
Lemma photoemission_shift d dq ps ips wl cols rest cols' rest' : d <> 0%F -> Forall (wf_op n) ps -> Forall (wf_op n) ips -> Forall (shifts w (- dq)) ps -> Forall (shifts w dq) ips ->
  photoemission fsqrt fexp k_B fuel (Z.of_nat n) op rs ks swm ord R psis es T wl d ps ips = Ok cols :: rest ->
  photoemission fsqrt fexp k_B fuel (Z.of_nat n) op' rs ks swm ord' R' psis es' T (moved_mesh c dq wl) d ps ips = Ok cols' :: rest' ->
  exists data, cols = wl :: data /\ cols' = moved_mesh c dq wl :: data.
Proof.
  intros Hd Hp Hi Sp Si E E'. destruct HH as (H1 & H2 & H3 & H4 & H5 & H6 & H7 & H8), HP as (V & L & L' & P).
  eapply (shift_photoemission n w c op op' rs H8 H1 H2 H3 H4 H5 H6 H7 Hr fsqrt fexp HS HE k_B T fuel ks swm Hf Hk Hs HkT es es' psis (fun _ => a0) V L L') with (ord := ord) (ord' := ord') (R := R) (R' := R') (ps := ps) (ips := ips); eauto; try (intros j Hj; apply (P j Hj)).
Qed.
End C.
Lemma RIXS_shift n w c (op op' : op_t F) rs fuel ks swm a es es' psis bicgstab d1 d2 delta1 delta2 tOpsIn op0 ops wIn wLoss (od od' : nat -> nat -> nat -> set_order) hg hg' pm pm' r r' gs gs' :
  shifted_hamiltonians n w c op op' -> wf_restr rs -> (2 ^ n < fuel)%nat -> Z.of_nat (2 ^ n) <= ks -> (swm <= 0)%F -> shifted_states n w c a es es' psis ->
  exact_solver bicgstab -> Forall (wf_op n) (op0 :: tOpsIn) -> Forall (shifts w d1) tOpsIn -> shifts w d2 op0 -> delta1 <> 0%F -> delta2 <> 0%F ->
  (forall t i q l, Permutation (od t i q l) l) -> (forall t i q l, Permutation (od' t i q l) l) ->
  Forall (hdict_exact n op rs) hg -> hg <> [] -> Forall (hdict_exact n op' rs) hg' -> hg' <> [] -> pm <> ROther -> pm' <> ROther ->
  (pm = RHBuild -> r = 0%nat /\ NoDup (flat_map dkeys hg)) -> (pm' = RHBuild -> r' = 0%nat /\ NoDup (flat_map dkeys hg')) ->
  nth_error (getRIXSmap fsqrt bicgstab fuel (Z.of_nat n) op wIn wLoss delta1 delta2 rs ks swm tOpsIn (op0 :: ops) psis es od hg pm) r = Some (Ok gs) ->
  nth_error (getRIXSmap fsqrt bicgstab fuel (Z.of_nat n) op' (moved_mesh c d1 wIn) (moved_mesh c (d1 + d2) wLoss) delta1 delta2 rs ks swm tOpsIn (op0 :: ops) psis es' od' hg' pm') r' = Some (Ok gs') ->
  forall i t o k, (i < length es)%nat -> (t < length tOpsIn)%nat -> (o < S (length ops))%nat -> (k < length wIn)%nat -> gs' i t o k = gs i t o k.
Proof.
  intros (H1 & H2 & H3 & H4 & H5 & H6 & H7 & H8) Hr Hf Hk Hs (V & L & L' & P). intros.
  eapply (shift_RIXS n w c op op' rs H8 H1 H2 H3 H4 H5 H6 H7 Hr fsqrt HS fuel ks swm Hf Hk Hs es es' psis a V L L') with (od := od) (od' := od') (pm := pm) (pm' := pm') (hg := hg) (hg' := hg') (r := r) (r' := r') (delta1 := delta1) (delta2 := delta2) (d1 := d1) (d2 := d2) (op0 := op0) (tOpsIn := tOpsIn); eauto; try (intros j Hj; apply (P j Hj)).
Qed.
(* the Hamiltonian of the program: the shift of all levels or of the 2p levels *)
Lemma program_shift pi gaunt fint nb hp n3d (h0 : sop_t F) q (c : F) hOp hOp' : wf_nbaths nb -> NoDup (angs nb) ->
  (forall l1 l2 l3 m1 m2 m3, gaunt l1 l2 l3 m1 m2 m3 = gaunt l3 l2 l1 m3 m2 m1) ->
  (forall l1 l2 l3 m1 m2 m3, gaunt l1 l2 l3 (- m1) (- m2) (- m3) = gaunt l1 l2 l3 m1 m2 m3) ->
  (forall z, fint (fofZ z) = z) -> dget (hp_n0imps hp) 2 = Some n3d -> dget (hp_n0imps hp) 1 = Some 6 ->
  (5 <= length (hp_Fdd hp))%nat -> (1 <= length (hp_Fpd hp))%nat -> (4 <= length (hp_Gpd hp))%nat -> In 1 (angs nb) -> In 2 (angs nb) ->
  NoDup (dkeys h0) -> assert_hermitian h0 = Ok tt -> op_in nb h0 -> conserves q_N h0 -> conserves (q_shell 1) h0 -> q = q_N \/ q = q_shell 1 ->
  get_hamiltonian_operator fsqrt pi gaunt fint nb hp h0 = Ok hOp -> get_hamiltonian_operator fsqrt pi gaunt fint nb hp (addOps [h0; site_levels nb q c]) = Ok hOp' ->
  S_Dict.no_small (n_orb nb) hOp -> S_Dict.no_small (n_orb nb) hOp' -> shifted_hamiltonians (n_orb nb) (at_index nb q) c hOp hOp'.
Proof.
  intros W HA G1 G2 FI H2 H1 L1 L2 L3 I1 I2 Hn Hh Hi CN CS Hq E E' S S'.
  destruct (ham_levels nb W HA fsqrt pi gaunt fint hp n3d h0 q c G1 G2 FI H2 H1 L1 L2 L3 I1 I2 Hn Hh Hi) as (x & y & Ex & Ey & HL). rewrite E in Ex. injection Ex as <-. rewrite E' in Ey. injection Ey as <-.
  unfold get_hamiltonian_operator in E, E'.
  destruct (total_ok fint FI fsqrt pi gaunt G1 G2 nb W I1 I2 hp n3d H2 H1 L1 L2 L3 h0 Hn Hh Hi) as (X1 & X2 & X3). rewrite E in X1. injection X1 as ->.
  destruct (total_ok fint FI fsqrt pi gaunt G1 G2 nb W I1 I2 hp n3d H2 H1 L1 L2 L3 (addOps [h0; site_levels nb q c])) as (Y1 & Y2 & Y3).
  - apply addOps_NoDup.
  - apply addOps_hermitian. constructor; [auto|]. constructor; [|constructor]. split; [apply site_NoDup|apply site_hermitian]; auto.
  - apply add_op_in; auto; [apply site_NoDup|apply site_op_in]; auto.
  - rewrite E' in Y1. injection Y1 as ->. repeat (split; [assumption|]). split; [|exact HL].
    destruct (total_sector nb W fsqrt pi gaunt fint hp (Ok h0) _ (fun h Eh => ltac:(injection Eh as <-; auto)) E) as (_ & A & B). destruct Hq as [-> | ->]; assumption.
Qed.
Lemma moved_sub (c : F) wl : moved_mesh c (-1) wl = map (fun x => (x - c)%F) wl.
Proof. unfold moved_mesh. apply map_ext. intros x. change (-1) with (- (1))%Z. rewrite fofZ_opp. change (@fofZ F 1) with (1%F : F). ring. Qed.
Lemma moved_0 (c : F) wl : moved_mesh c 0 wl = wl.
Proof. unfold moved_mesh. rewrite <- (map_id wl) at 2. apply map_ext. intros x. change (@fofZ F 0) with (0%F : F). ring. Qed.
Lemma dip_transitions pi gaunt nb eps tOps : wf_nbaths nb -> dkeys nb = [KInt 1; KInt 2] -> getDipoleOperators fsqrt pi gaunt nb eps = Ok tOps ->
  Forall (wf_op (n_orb nb)) tOps /\ Forall (shifts (at_index nb q_N) 0) tOps /\ Forall (shifts (at_index nb (q_shell 1)) (-1)) tOps.
Proof.
  intros W Hk E. pose proof (transitions nb W fsqrt (fun x => x) (fun x => x) pi gaunt (fun _ x => x) (fun _ _ _ _ => c0) tOps 0 (-1) Hk (T_XAS _ _ _ _ _ _ _ _ _ _ E)) as H.
  repeat split; (eapply Forall_impl; [|exact H]); intros op (A & B & C); assumption.
Qed.
Lemma core_XAS pi gaunt nb c (op op' : op_t F) rs fuel ks swm k_B T Nc es es' psis ord ord' R R' :
  wf_nbaths nb -> dkeys nb = [KInt 1; KInt 2] -> let n := n_orb nb in let w := at_index nb (q_shell 1) in
  shifted_hamiltonians n w c op op' -> wf_restr rs -> (2 ^ n < fuel)%nat -> Z.of_nat (2 ^ n) <= ks -> (swm <= 0)%F -> (k_B * T)%F <> 0%F -> shifted_states n w c (fun _ => Nc) es es' psis ->
  (forall t i q l, Permutation (ord t i q l) l) -> (forall t i q l, Permutation (ord' t i q l) l) -> (1 <= R)%nat -> (1 <= R')%nat ->
  forall d epsilons tOps wl cols rest cols' rest', d <> 0%F -> getDipoleOperators fsqrt pi gaunt nb epsilons = Ok tOps ->
  absorption fsqrt fexp k_B fuel (Z.of_nat n) op rs ks swm ord R psis es T wl d tOps = Ok cols :: rest ->
  absorption fsqrt fexp k_B fuel (Z.of_nat n) op' rs ks swm ord' R' psis es' T (map (fun x => (x - c)%F) wl) d tOps = Ok cols' :: rest' ->
  exists data, cols = wl :: data /\ cols' = map (fun x => (x - c)%F) wl :: data.
Proof.
  intros W Hk n w HH Hr Hf Hks Hs HkT HP Ho Ho' HR HR' d eps tOps wl cols rest cols' rest' Hd ED E E'. destruct (dip_transitions pi gaunt nb eps tOps W Hk ED) as (Wt & _ & St).
  rewrite <- moved_sub in E' |- *. exact (absorption_shift n w c op op' rs fuel ks swm k_B T Nc es es' psis ord ord' R R' HH Hr Hf Hks Hs HkT HP Ho Ho' HR HR' d (-1) tOps wl cols rest cols' rest' Hd Wt St E E').
Qed.
Lemma all_XAS pi gaunt nb c (op op' : op_t F) rs fuel ks swm k_B T N es es' psis ord ord' R R' :
  wf_nbaths nb -> dkeys nb = [KInt 1; KInt 2] -> let n := n_orb nb in let w := at_index nb q_N in
  shifted_hamiltonians n w c op op' -> wf_restr rs -> (2 ^ n < fuel)%nat -> Z.of_nat (2 ^ n) <= ks -> (swm <= 0)%F -> (k_B * T)%F <> 0%F -> shifted_states n w c (fun _ => N) es es' psis ->
  (forall t i q l, Permutation (ord t i q l) l) -> (forall t i q l, Permutation (ord' t i q l) l) -> (1 <= R)%nat -> (1 <= R')%nat ->
  forall d epsilons tOps wl cols rest cols' rest', d <> 0%F -> getDipoleOperators fsqrt pi gaunt nb epsilons = Ok tOps ->
  absorption fsqrt fexp k_B fuel (Z.of_nat n) op rs ks swm ord R psis es T wl d tOps = Ok cols :: rest ->
  absorption fsqrt fexp k_B fuel (Z.of_nat n) op' rs ks swm ord' R' psis es' T wl d tOps = Ok cols' :: rest' -> cols' = cols.
Proof.
  intros W Hk n w HH Hr Hf Hks Hs HkT HP Ho Ho' HR HR' d eps tOps wl cols rest cols' rest' Hd ED E E'. destruct (dip_transitions pi gaunt nb eps tOps W Hk ED) as (Wt & St & _).
  rewrite <- (moved_0 c wl) in E'. destruct (absorption_shift n w c op op' rs fuel ks swm k_B T N es es' psis ord ord' R R' HH Hr Hf Hks Hs HkT HP Ho Ho' HR HR' d 0 tOps wl cols rest cols' rest' Hd Wt St E E') as (data & -> & ->).
  rewrite moved_0. reflexivity.
Qed.
(* operators with integer elements have no small elements *)
Lemma int_elem (op : op_t F) t s : Forall (fun kv => exists z, snd kv = cofZ z) op -> exists z, opelem op t s = cofZ z.
Proof.
  intros H. unfold opelem. induction op as [|[p v] op IH]; [exists 0; reflexivity|]. inversion H as [|? ? (z & Hz) H']. destruct (IH H') as (y & Hy). cbn [csum fst snd] in *. exists (z * pelem p t s + y). rewrite Hz, Hy, cofZ_add, cofZ_mul. reflexivity.
Qed.
Lemma int_no_small n (op : op_t F) : (forall t s, exists z, opelem op t s = cofZ z) -> S_Dict.no_small n op.
Proof.
  intros H t s _ _. destruct (H t s) as (z & ->). destruct (Z.eqb_spec z 0) as [->|N]; [left; reflexivity|right]. unfold cabs2, cofZ, creal. cbn [re im].
  assert (B : (0 < @fofZ F 1000000000000)%F) by (apply fofZ_pos; lia).
  assert (P : (0 <= @fofZ F (z * z * 1000000000000 - 1))%F) by (apply flt_le, fofZ_pos; nia).
  apply fsub_nonneg_inv. unfold eps12. pose proof (fdiv_nonneg _ _ P B) as X. assert (NB : @fofZ F 1000000000000 <> 0%F) by (intros C; apply flt_not_eq in B; congruence).
  unfold Z.sub in X. rewrite fofZ_add, fofZ_opp, !fofZ_mul in X. change (@fofZ F 1) with (1%F : F) in X. clear P. revert B NB X. generalize (@fofZ F 1000000000000). intros b B NB X.
  replace (fofZ z * fofZ z + 0 * 0 - 1 / b)%F with ((fofZ z * fofZ z * b + - (1)) / b)%F by (field; auto). exact X.
Qed.
End S.
