(* Levels that are shifted together: the spectra. *)
From Coq Require Import Permutation Ring Field.
From Verif Require Import M_Prelude M_Scalar M_PSR M_State M_Mpi M_Hamiltonian M_Basis M_Expect M_Operators M_Lanczos M_Average M_Spectra M_Simulate M_RIXS M_Program S_Fock S_Ops S_Ham S_Green S_Spectra S_Operators S_Symmetry S_TimeReversal S_Thermal S_Spectrum S_Spectrum3 S_RIXS S_Sector S_Shift.
From Verif Require Import L_Scalar L_Sum L_Dict L_Fock L_State L_Ops L_ApplyOp L_FockP L_Lanczos2 L_Green L_Green3 L_Green4 L_Average L_Spectra6 L_Program L_RIXS2 L_Symmetry L_Program7 L_Program9 L_Sector L_Levels2 L_Shift.
From Verif Require S_Dict P_RIXS.
Local Open Scope Z_scope.

Section S.
Context {F : ofield}.
Add Field Ff : (f_field F).
Add Field Cf : (@c_field F).
Local Open Scope cx_scope.
Lemma opv_sector n w d q (op : op_t F) v : wf_op n op -> shifts w d op -> in_sector n w q v -> in_sector n w (q + d)%Z (opv n op v).
Proof.
  intros Hw Hs Hq t Ht Hne. unfold opv in Hne. apply csum_ne in Hne as (s & Hi & Hne). apply allcfg_In in Hi. apply mul_ne in Hne as [N1 N2].
  rewrite (opelem_shift n w d op t s Hw Hs N1), (Hq s Hi N2). lia.
Qed.
Lemma image_props n w d q (op : op_t F) rs psi psi' : wf_op n op -> shifts w d op -> in_sector n w q (amp psi) -> op_image n op rs psi psi' ->
  in_sector n w (q + d)%Z (amp psi') /\ forall t, length t = n -> ~ allowed_opt rs t -> amp psi' t = c0.
Proof.
  intros Hw Hs Hq HI. split; [|intros t Ht; apply HI; auto]. intros t Ht Hne. destruct (allowed_opt_dec rs t) as [Ha|Ha].
  - apply (opv_sector n w d q op (amp psi) Hw Hs Hq t Ht). unfold opv. rewrite <- (proj1 (HI t Ht) Ha). exact Hne.
  - elim Hne. apply (HI t Ht). exact Ha.
Qed.
Lemma applied_image n (op : op_t F) rs swm psi psi' : wf_op n op -> wf_restr rs -> valid_psi n psi -> (swm <= 0)%F ->
  applyOp (Z.of_nat n) op psi swm rs None = (None, Ok psi') -> op_image n op rs psi psi'.
Proof.
  intros Hw Hr Hp Hs E t Ht. destruct (applyOp_amp n op psi swm rs Hw Hp) as (q & Eq & _ & _ & HA). rewrite E in Eq. injection Eq as <-.
  pose proof (HA t Ht) as X. rewrite cut_nonpos in X by auto. rewrite X. pose proof (okr_allowed rs t Hr) as O. destruct (okr rs t) eqn:Eo.
  - split; [reflexivity|]. intros N. elim N. apply O. reflexivity.
  - split; [|reflexivity]. intros Ha. apply O in Ha. discriminate.
Qed.
Lemma sol_unique n (op : op_t F) rs h z x y psi : wf_op n op -> assert_hermitian op = Ok tt -> restricted_op n op rs h -> im z <> 0%F ->
  fock_solves n z h x psi -> fock_solves n z h y psi -> forall t, length t = n -> x t = y t.
Proof.
  intros Hw HH HR Hz Hx Hy t Lt.
  assert (HD : fock_solves n z h (fun t => x t - y t) []).
  { intros u Lu. change (amp [] u) with (@c0 F). rewrite (csum_ext _ (fun s => h u s * x s - h u s * y s)) by (intros; ring). rewrite csum_sub.
    pose proof (Hx u Lu) as X1. pose proof (Hy u Lu) as X2.
    transitivity ((z * x u - csum (fun s => h u s * x s) (allcfg n)) - (z * y u - csum (fun s => h u s * y s) (allcfg n))); [ring|]. rewrite X1, X2. ring. }
  assert (HZ : fock_solves n z h (fun _ => c0) []).
  { intros u Lu. rewrite csum_zero by (intros; ring). change (amp [] u) with (@c0 F). ring. }
  pose proof (fock_unique n op rs Hw HH [] (fun c _ (X : In (key c) []) => match X with end) h HR z Hz _ _ HD HZ t Lt) as X. cbv beta in X.
  transitivity ((x t - y t) + y t); [ring|]. rewrite X. ring.
Qed.
Lemma solves_ext n z h (x : config -> cx F) psi psi' : (forall t, length t = n -> amp psi' t = amp psi t) -> fock_solves n z h x psi -> fock_solves n z h x psi'.
Proof. intros E H t Ht. rewrite (E t Ht). apply H. auto. Qed.
Lemma green_ext n z h (psi psi' : psi_t F) g : (forall t, length t = n -> amp psi' t = amp psi t) -> fock_green n z h psi g -> fock_green n z h psi' g.
Proof.
  intros E (x & Hx & Hg & Hu). exists x. split; [apply (solves_ext n z h x psi); auto|]. split.
  - rewrite <- Hg. apply csum_ext. intros t Ht. apply allcfg_In in Ht. rewrite E; auto.
  - intros y Hy. apply Hu. apply (solves_ext n z h y psi'); auto. intros t Ht. symmetry. auto.
Qed.

Variables (n : nat) (w : Z -> Z) (c : F) (op op' : op_t F) (rs : option restrictions_t).
Hypothesis HL : levels_added n w c op op'.
Hypothesis Hop : wf_op n op.
Hypothesis Hop' : wf_op n op'.
Hypothesis HA : assert_hermitian op = Ok tt.
Hypothesis HA' : assert_hermitian op' = Ok tt.
Hypothesis HN : S_Dict.no_small n op.
Hypothesis HN' : S_Dict.no_small n op'.
Hypothesis Hc : conserves w op.
Hypothesis Hr : wf_restr rs.
Section KH.
Variables h h' : config -> config -> cx F.
Hypothesis HR : restricted_op n op rs h.
Hypothesis HR' : restricted_op n op' rs h'.
Lemma image_ext (tOp : op_t F) psi psi' p p' : (forall t, length t = n -> amp psi' t = amp psi t) -> op_image n tOp rs psi p -> op_image n tOp rs psi' p' ->
  forall t, length t = n -> amp p' t = amp p t.
Proof.
  intros E H H' t Ht. destruct (allowed_opt_dec rs t) as [Ha|Ha].
  - rewrite (proj1 (H t Ht) Ha), (proj1 (H' t Ht) Ha). apply csum_ext. intros s Hs. apply allcfg_In in Hs. rewrite E; auto.
  - rewrite (proj2 (H t Ht) Ha), (proj2 (H' t Ht) Ha). auto.
Qed.
Lemma kh_shift tIn tOut d1 d2 a psi (z1 z2 : cx F) g g' : wf_op n tIn -> wf_op n tOut -> shifts w d1 tIn -> shifts w d2 tOut -> in_sector n w a (amp psi) -> im z1 <> 0%F -> z2 <> c0 ->
  kramers_heisenberg n rs h tIn tOut psi z1 z2 g ->
  kramers_heisenberg n rs h' tIn tOut psi (z1 + creal (c * fofZ (a + d1))%F) (z2 + creal (c * fofZ (a + d1 + d2))%F) g' -> g' = g.
Proof.
  intros W1 W2 S1 S2 Ha Hz1 Hz2 (p1 & p2 & p3 & I1 & X & I3 & G) (q1 & q2 & q3 & J1 & Y & J3 & G').
  assert (Nz1 : z1 <> c0) by (intros E; apply Hz1; rewrite E; reflexivity).
  destruct (image_props n w d1 a tIn rs psi p1 W1 S1 Ha I1) as [A1 B1].
  assert (A2 : in_sector n w (a + d1) (amp p2)).
  { intros t Ht Hne. pose proof (green_sector n w (a + d1) op rs h p1 z1 (amp p2) Hop Hc HR A1 X) as P.
    rewrite (sol_unique n op rs h z1 (amp p2) (L_Sector.proj w (a + d1) (amp p2)) p1 Hop HA HR Hz1 X P t Ht) in Hne. unfold L_Sector.proj in Hne.
    destruct (Z.eqb_spec (charge w t) (a + d1)); auto. }
  assert (B2 : forall t, length t = n -> ~ allowed_opt rs t -> amp p2 t = c0) by (intros t Ht; apply (sol_allowed n op rs h HN HR z1 (amp p2) p1 t); auto).
  pose proof (shift_solves n w c op op' rs h h' HL HN HN' HR HR' z1 (amp p2) p1 (a + d1)%Z A2 B2 X) as X'.
  assert (E1 : forall t, length t = n -> amp q1 t = amp p1 t) by (apply (image_ext tIn psi psi p1 q1); auto).
  assert (E2 : forall t, length t = n -> amp q2 t = amp p2 t).
  { apply (sol_unique n op' rs h' (z1 + creal (c * fofZ (a + d1))%F) (amp q2) (amp p2) q1); auto.
    - cbn [cadd im creal]. intros E. apply Hz1. rewrite <- E. ring.
    - apply (solves_ext n _ h' (amp p2) p1 q1); auto. }
  assert (E3 : forall t, length t = n -> amp q3 t = amp p3 t) by (apply (image_ext tOut p2 q2 p3 q3); auto).
  destruct (image_props n w d2 (a + d1) tOut rs p2 p3 W2 S2 A2 I3) as [A3 B3].
  apply (shift_green n w c op op' rs h h' HL HN HN' HR HR' Hop Hc z2 p3 (a + d1 + d2)%Z g g'); auto.
  apply (green_ext n _ h' q3 p3); auto. intros t Ht. symmetry. auto.
Qed.
End KH.

Variables (fsqrt fexp : F -> F).
Hypothesis HS : sqrt_laws fsqrt.
Hypothesis HE : exp_laws fexp.
Variables (k_B T : F) (fuel : nat) (ks : Z) (swm : F).
Hypothesis Hf : (2 ^ n < fuel)%nat.
Hypothesis Hks : (Z.of_nat (2 ^ n) <= ks)%Z.
Hypothesis Hs : (swm <= 0)%F.
Hypothesis HkT : (k_B * T)%F <> 0%F.
Variables (es es' : list F) (psis : list (psi_t F)).
Variable a : nat -> Z.
Hypothesis Hv : Forall (valid_psi n) psis.
Hypothesis Hl : length psis = length es.
Hypothesis Hl' : length es' = length es.
Hypothesis Ha : forall i, (i < length es)%nat -> in_sector n w (a i) (amp (nth i psis [])).
Hypothesis Hes : forall i, (i < length es)%nat -> nth i es' 0%F = (nth i es 0 + c * fofZ (a i))%F.
Variables ord ord' : nat -> nat -> nat -> set_order.
Hypothesis Ho : forall t i q l, Permutation (ord t i q l) l.
Hypothesis Ho' : forall t i q l, Permutation (ord' t i q l) l.
Variables R R' : nat.
Hypothesis HR : (1 <= R)%nat.
Hypothesis HR' : (1 <= R')%nat.
Lemma moved_nth d l k : (k < length l)%nat -> nth k (moved_mesh c d l) 0%F = (nth k l 0 + c * fofZ d)%F.
Proof. intros H. unfold moved_mesh. rewrite (nth_indep _ 0%F ((fun x => (x + c * fofZ d)%F) 0%F)) by (rewrite map_length; auto). rewrite (map_nth (fun x => (x + c * fofZ d)%F)). reflexivity. Qed.
Lemma mkC_nz (x y : F) : y <> 0%F -> mkC x y <> c0.
Proof. intros H E. apply H. exact (f_equal im E). Qed.
Lemma shift_spec d dq tOps wl g rest g' rest' : d <> 0%F -> Forall (wf_op n) tOps -> Forall (shifts w dq) tOps ->
  getSpectra fsqrt fuel (Z.of_nat n) op wl d rs ks swm ord R tOps psis es SHBuild = Ok g :: rest ->
  getSpectra fsqrt fuel (Z.of_nat n) op' (moved_mesh c dq wl) d rs ks swm ord' R' tOps psis es' SHBuild = Ok g' :: rest' ->
  forall i t, (i < length es)%nat -> (t < length tOps)%nat -> g' i t = g i t.
Proof.
  intros Hd Ht Hsh E E' i t Hi Htt. 
  assert (L1 : length (g i t) = length wl) by (eapply (spec_len fsqrt n fuel op rs ks swm es); eauto).
  assert (L2 : length (g' i t) = length wl) by (transitivity (length (moved_mesh c dq wl)); [eapply (spec_len fsqrt n fuel op' rs ks swm es'); eauto|apply map_length]).
  apply (nth_ext _ _ c0 c0); [congruence|]. intros k Hk. rewrite L2 in Hk.
  destruct (restricted_op_exists n op rs) as [h Hh]. destruct (restricted_op_exists n op' rs) as [h' Hh'].
  destruct (spec_green fsqrt HS n fuel op rs ks swm Hop HA Hr Hf Hks Hs es R R HR HR wl d tOps ord R psis g rest h Ho HR Hd Ht Hv Hl Hh E t k Htt Hk i Hi) as (p & Ep & G).
  destruct (spec_green fsqrt HS n fuel op' rs ks swm Hop' HA' Hr Hf Hks Hs es' R' R' HR' HR' (moved_mesh c dq wl) d tOps ord' R' psis g' rest' h' Ho' HR' Hd Ht Hv ltac:(congruence) Hh' E' t k Htt
    ltac:(unfold moved_mesh; rewrite map_length; auto) i ltac:(congruence)) as (p' & Ep' & G').
  rewrite Ep in Ep'. injection Ep' as <-. rewrite moved_nth, Hes in G' by auto.
  assert (Wt : wf_op n (nth t tOps [])) by (rewrite Forall_forall in Ht; apply Ht, nth_In; auto).
  assert (St : shifts w dq (nth t tOps [])) by (rewrite Forall_forall in Hsh; apply Hsh, nth_In; auto).
  assert (Vi : valid_psi n (nth i psis [])) by (rewrite Forall_forall in Hv; apply Hv, nth_In; lia).
  destruct (image_props n w dq (a i) (nth t tOps []) rs (nth i psis []) p Wt St (Ha i Hi)) as [A B]; [apply (applied_image n _ rs swm); auto|].
  apply (shift_green n w c op op' rs h h' HL HN HN' Hh Hh' Hop Hc (mkC (nth k wl 0 + nth i es 0)%F d) p (a i + dq)%Z); auto; [apply mkC_nz; auto|].
  replace (mkC (nth k wl 0 + nth i es 0)%F d + creal (c * fofZ (a i + dq))%F) with (mkC (nth k wl 0 + c * fofZ dq + (nth i es 0 + c * fofZ (a i)))%F d); auto.
  rewrite fofZ_add. unfold cadd, creal. cbn [re im]. f_equal; ring.
Qed.
Lemma shift_RIXS bicgstab d1 d2 delta1 delta2 tOpsIn op0 ops wIn wLoss (od od' : nat -> nat -> nat -> set_order) hg hg' pm pm' r r' gs gs' :
  exact_solver bicgstab -> Forall (wf_op n) (op0 :: tOpsIn) -> Forall (shifts w d1) tOpsIn -> shifts w d2 op0 -> delta1 <> 0%F -> delta2 <> 0%F ->
  (forall t i q l, Permutation (od t i q l) l) -> (forall t i q l, Permutation (od' t i q l) l) ->
  Forall (hdict_exact n op rs) hg -> hg <> [] -> Forall (hdict_exact n op' rs) hg' -> hg' <> [] -> pm <> ROther -> pm' <> ROther ->
  (pm = RHBuild -> r = 0%nat /\ NoDup (flat_map dkeys hg)) -> (pm' = RHBuild -> r' = 0%nat /\ NoDup (flat_map dkeys hg')) ->
  nth_error (getRIXSmap fsqrt bicgstab fuel (Z.of_nat n) op wIn wLoss delta1 delta2 rs ks swm tOpsIn (op0 :: ops) psis es od hg pm) r = Some (Ok gs) ->
  nth_error (getRIXSmap fsqrt bicgstab fuel (Z.of_nat n) op' (moved_mesh c d1 wIn) (moved_mesh c (d1 + d2) wLoss) delta1 delta2 rs ks swm tOpsIn (op0 :: ops) psis es' od' hg' pm') r' = Some (Ok gs') ->
  forall i t o k, (i < length es)%nat -> (t < length tOpsIn)%nat -> (o < S (length ops))%nat -> (k < length wIn)%nat -> gs' i t o k = gs i t o k.
Proof.
  intros HX Hw Hs1 Hs2 Hd1 Hd2 P P' Hg Hn Hg' Hn' Pm Pm' Hb Hb' G G' i t o k Hi Ht Hoo Hk.
  destruct (restricted_op_exists n op rs) as [h Hh]. destruct (restricted_op_exists n op' rs) as [h' Hh'].
  assert (Hip : (i < length psis)%nat) by lia. assert (Hie : (i < length es')%nat) by lia.
  assert (Hk' : (k < length (moved_mesh c d1 wIn))%nat) by (unfold moved_mesh; rewrite map_length; auto).
  destruct (P_RIXS.C60_kramers_heisenberg F fsqrt bicgstab n op rs h fuel wIn wLoss delta1 delta2 ks swm tOpsIn psis es op0 HS HX (conj Hop (conj Hr (conj Hw Hv))) HA Hh Hf Hd1 Hd2 Hks Hs
      ops od hg pm r gs P Hg Hn Pm Hb G t i (nth t tOpsIn []) (nth i psis []) (nth i es 0%F) k (nth k wIn 0%F) o
      (nth_error_nth' _ _ Ht) (nth_error_nth' _ _ Hip) (nth_error_nth' _ _ Hi) (nth_error_nth' _ _ Hk) Hoo) as [L1 K1].
  destruct (P_RIXS.C60_kramers_heisenberg F fsqrt bicgstab n op' rs h' fuel (moved_mesh c d1 wIn) (moved_mesh c (d1 + d2) wLoss) delta1 delta2 ks swm tOpsIn psis es' op0 HS HX (conj Hop' (conj Hr (conj Hw Hv))) HA' Hh' Hf Hd1 Hd2 Hks Hs
      ops od' hg' pm' r' gs' P' Hg' Hn' Pm' Hb' G' t i (nth t tOpsIn []) (nth i psis []) (nth i es' 0%F) k (nth k (moved_mesh c d1 wIn) 0%F) o
      (nth_error_nth' _ _ Ht) (nth_error_nth' _ _ Hip) (nth_error_nth' _ _ Hie) (nth_error_nth' _ _ Hk') Hoo) as [L2 K2].
  unfold moved_mesh at 1 in L2. rewrite map_length in L2. apply (nth_ext _ _ c0 c0); [congruence|]. intros j Hj. rewrite L2 in Hj.
  specialize (K1 j Hj). specialize (K2 j ltac:(unfold moved_mesh; rewrite map_length; auto)). rewrite !moved_nth, Hes in K2 by auto.
  inversion Hw as [|x0 l0 W0 W1]; subst x0 l0. rewrite Forall_forall in W1, Hs1.
  apply (kh_shift h h' Hh Hh' (nth t tOpsIn []) op0 d1 d2 (a i) (nth i psis []) (mkC (nth k wIn 0 + nth i es 0)%F delta1) (mkC (nth j wLoss 0 + nth i es 0)%F delta2)); auto.
  - apply W1, nth_In. auto.
  - apply Hs1, nth_In. auto.
  - apply mkC_nz. auto.
  - replace (mkC (nth k wIn 0 + nth i es 0)%F delta1 + creal (c * fofZ (a i + d1))%F) with (mkC (nth k wIn 0 + c * fofZ d1 + (nth i es 0 + c * fofZ (a i)))%F delta1) by (rewrite fofZ_add; unfold cadd, creal; cbn [re im]; f_equal; ring).
    replace (mkC (nth j wLoss 0 + nth i es 0)%F delta2 + creal (c * fofZ (a i + d1 + d2))%F) with (mkC (nth j wLoss 0 + c * fofZ (d1 + d2) + (nth i es 0 + c * fofZ (a i)))%F delta2) by (rewrite !fofZ_add; unfold cadd, creal; cbn [re im]; f_equal; ring).
    exact K2.
Qed.

(* all states have the same charge *)
Variable a0 : Z.
Hypothesis Ha0 : forall i, (i < length es)%nat -> a i = a0.
Lemma es_moved : es' = moved_mesh c a0 es.
Proof.
  apply (nth_ext _ _ 0%F 0%F); [unfold moved_mesh; rewrite map_length; auto|]. intros i Hi. rewrite Hl' in Hi. rewrite moved_nth, Hes, Ha0 by auto. reflexivity.
Qed.
Lemma mean_moved f : boltzmann_mean fexp (k_B * T)%F es' f = boltzmann_mean fexp (k_B * T)%F es f.
Proof.
  unfold boltzmann_mean. rewrite Hl'. f_equal. apply map_ext_in. intros i Hi. apply in_seq in Hi. f_equal. rewrite es_moved, moved_nth by lia.
  apply (prob_shift fexp HE); auto. intros E. rewrite E in Hi. simpl in Hi. lia.
Qed.
Lemma mean_file_moved mesh mesh' nT I I' cols cols' : length mesh' = length mesh ->
  (forall i t k, (i < length es)%nat -> (t < nT)%nat -> (k < length mesh)%nat -> I' i t k = I i t k) ->
  mean_file fexp (k_B * T)%F mesh es nT I cols -> mean_file fexp (k_B * T)%F mesh' es' nT I' cols' -> exists data, cols = mesh :: data /\ cols' = mesh' :: data.
Proof.
  intros Hm H (to & pa & -> & L1 & L2 & P & Q) (to' & pa' & -> & L1' & L2' & P' & Q').
  assert (E : pa' = pa).
  { apply (nth_ext _ _ [] []); [congruence|]. intros t Ht. rewrite L1' in Ht. destruct (P t Ht) as [A B], (P' t Ht) as [A' B'].
    apply (nth_ext _ _ 0%F 0%F); [congruence|]. intros k Hk. rewrite A', Hm in Hk. rewrite B, B' by congruence. rewrite mean_moved.
    unfold boltzmann_mean. f_equal. apply map_ext_in. intros i Hi. apply in_seq in Hi. rewrite H by (auto; lia). reflexivity. }
  subst pa'. exists (to :: pa). split; [auto|]. do 2 f_equal. apply (nth_ext _ _ 0%F 0%F); [congruence|]. intros k _. rewrite Q, Q'. auto.
Qed.
Notation spec o wl d tOps r ord es := (getSpectra fsqrt fuel (Z.of_nat n) o wl d rs ks swm ord r tOps psis es SHBuild).
Lemma shift_absorption d dq tOps wl cols rest cols' rest' : d <> 0%F -> Forall (wf_op n) tOps -> Forall (shifts w dq) tOps ->
  absorption fsqrt fexp k_B fuel (Z.of_nat n) op rs ks swm ord R psis es T wl d tOps = Ok cols :: rest ->
  absorption fsqrt fexp k_B fuel (Z.of_nat n) op' rs ks swm ord' R' psis es' T (moved_mesh c dq wl) d tOps = Ok cols' :: rest' ->
  exists data, cols = wl :: data /\ cols' = moved_mesh c dq wl :: data.
Proof.
  intros Hd Ht Hsh E E'. unfold absorption in E, E'. apply head_bind in E as (g & l & E & C). apply head_bind in E' as (g' & l' & E' & C').
  apply (columns_mean fexp HE) in C; [|auto|eapply (spec_len fsqrt n fuel op); eauto]. apply (columns_mean fexp HE) in C'; [|auto|eapply (spec_len fsqrt n fuel op'); eauto].
  refine (mean_file_moved wl (moved_mesh c dq wl) (length tOps) _ _ _ _ (map_length _ _) _ C C'). intros i t k Hi Htt Hk. cbv beta.
  rewrite (shift_spec d dq tOps wl g l g' l' Hd Ht Hsh E E' i t Hi Htt). reflexivity.
Qed.
Lemma opp_moved dq wl : map fopp (moved_mesh c (- dq) wl) = moved_mesh c dq (map fopp wl).
Proof.
  unfold moved_mesh. rewrite !map_map. apply map_ext. intros x. assert (X : @fofZ F (- dq) = (- fofZ dq)%F).
  { assert (Y : (@fofZ F (- dq) + fofZ dq)%F = 0%F) by (rewrite <- fofZ_add; replace (- dq + dq)%Z with 0%Z by lia; reflexivity).
    transitivity (@fofZ F (- dq) + fofZ dq - fofZ dq)%F; [ring|]. rewrite Y. ring. }
  rewrite X. ring.
Qed.
Lemma shift_emission d dq tOps wl cols rest cols' rest' : d <> 0%F -> Forall (wf_op n) tOps -> Forall (shifts w dq) tOps ->
  emission fsqrt fexp k_B fuel (Z.of_nat n) op rs ks swm ord R psis es T wl d tOps = Ok cols :: rest ->
  emission fsqrt fexp k_B fuel (Z.of_nat n) op' rs ks swm ord' R' psis es' T (moved_mesh c (- dq) wl) d tOps = Ok cols' :: rest' ->
  exists data, cols = wl :: data /\ cols' = moved_mesh c (- dq) wl :: data.
Proof.
  intros Hd Ht Hsh E E'. unfold emission in E, E'. apply head_bind in E as (g & l & E & C). apply head_bind in E' as (g' & l' & E' & C'). rewrite opp_moved in E'. pose proof (fopp_neq0 d Hd) as Hd'.
  assert (L1 : forall i t, length (gneg g i t) = length wl).
  { intros i t. unfold gneg. rewrite map_length. transitivity (length (map fopp wl)); [|apply map_length]. eapply (spec_len fsqrt n fuel op); eauto. }
  assert (L2 : forall i t, length (gneg g' i t) = length (moved_mesh c (- dq) wl)).
  { intros i t. unfold gneg. rewrite map_length. transitivity (length (moved_mesh c dq (map fopp wl))); [|unfold moved_mesh; rewrite !map_length; auto]. eapply (spec_len fsqrt n fuel op'); eauto. }
  apply (columns_mean fexp HE) in C; [|auto|auto]. apply (columns_mean fexp HE) in C'; [|auto|auto].
  refine (mean_file_moved wl (moved_mesh c (- dq) wl) (length tOps) _ _ _ _ (map_length _ _) _ C C'). intros i t k Hi Htt Hk. cbv beta. unfold gneg.
  rewrite (shift_spec (- d)%F dq tOps (map fopp wl) g l g' l' Hd' Ht Hsh E E' i t Hi Htt). reflexivity.
Qed.
Lemma shift_photoemission d dq ps ips wl cols rest cols' rest' : d <> 0%F -> Forall (wf_op n) ps -> Forall (wf_op n) ips -> Forall (shifts w (- dq)) ps -> Forall (shifts w dq) ips ->
  photoemission fsqrt fexp k_B fuel (Z.of_nat n) op rs ks swm ord R psis es T wl d ps ips = Ok cols :: rest ->
  photoemission fsqrt fexp k_B fuel (Z.of_nat n) op' rs ks swm ord' R' psis es' T (moved_mesh c dq wl) d ps ips = Ok cols' :: rest' ->
  exists data, cols = wl :: data /\ cols' = moved_mesh c dq wl :: data.
Proof.
  intros Hd Hp Hi Sp Si E E'. pose proof (fopp_neq0 d Hd) as Hd'.
  assert (K : forall o ee wm (od : nat -> nat -> nat -> set_order) r cols rest, photoemission fsqrt fexp k_B fuel (Z.of_nat n) o rs ks swm od r psis ee T wm d ps ips = Ok cols :: rest ->
    exists gI l gP l', spec o wm d ips r od ee = Ok gI :: l /\ spec o (map fopp wm) (- d)%F ps r od ee = Ok gP :: l' /\ length ps = length ips /\
      mean_file fexp (k_B * T)%F wm ee (length ps) (fun i t k => - im (nth k (gI i t) c0 - nth k (gP i t) c0)%C)%F cols).
  { intros o ee wm od r c0' l0 E0. unfold photoemission in E0. destruct (spec o wm d ips r od ee) as [|x1 r1] eqn:C1; [discriminate|]. destruct (spec o (map fopp wm) (- d)%F ps r od ee) as [|x2 r2] eqn:C2; [discriminate|].
    cbn [combine map fst snd] in E0. injection E0 as E0 _. destruct x1 as [gI|]; [|discriminate]. destruct x2 as [gP|]; [|discriminate]. cbn [bind] in E0.
    destruct (Nat.eqb_spec (length ps) (length ips)) as [Le|]; [|discriminate]. exists gI, r1, gP, r2. split; [auto|]. split; [auto|]. split; [auto|].
    assert (L1 : forall i t, length (gI i t) = length wm) by exact (spec_len fsqrt n fuel o rs ks swm ee wm d ips od r psis gI r1 Hd C1).
    assert (L2 : forall i t, length (gP i t) = length wm) by (intros i t; transitivity (length (map fopp wm)); [|apply map_length]; exact (spec_len fsqrt n fuel o rs ks swm ee (map fopp wm) (- d)%F ps od r psis gP r2 Hd' C2 i t)).
    apply (columns_mean fexp HE) in E0; [|auto|].
    - eapply mean_file_ext; [|exact E0]. intros i t k _ _ Hk. cbv beta. unfold gplus, gneg. rewrite (nth_gplus n fuel Hf R R' HR HR') by (rewrite map_length, L1, L2; auto). rewrite nth_opp. f_equal. f_equal. ring.
    - intros i t. unfold gplus, gneg. rewrite map_length, combine_length, map_length, L1, L2. lia. }
  apply K in E as (gI & l1 & gP & l2 & A1 & A2 & Le & M). apply K in E' as (gI' & l1' & gP' & l2' & B1 & B2 & _ & M').
  replace (moved_mesh c dq wl) with (moved_mesh c (- - dq) wl) in B2 by (rewrite Z.opp_involutive; reflexivity). rewrite opp_moved in B2.
  refine (mean_file_moved wl (moved_mesh c dq wl) (length ps) _ _ _ _ (map_length _ _) _ M M'). intros i t k Hii Htt Hk. cbv beta.
  rewrite (shift_spec d dq ips wl gI l1 gI' l1' Hd Hi Si A1 B1 i t Hii ltac:(lia)), (shift_spec (- d)%F (- dq) ps (map fopp wl) gP l2 gP' l2' Hd' Hp Sp A2 B2 i t Hii Htt). reflexivity.
Qed.
End S.
