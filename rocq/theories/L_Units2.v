(* Another unit of energy: Green's functions and spectra. *)
From Coq Require Import Permutation Ring Field.
From Verif Require Import M_Prelude M_Scalar M_PSR M_State M_Mpi M_Hamiltonian M_Basis M_Expect M_Operators M_Lanczos M_Average M_Spectra M_Simulate M_RIXS M_Program S_Fock S_Ops S_Ham S_Green S_Spectra S_Operators S_Symmetry S_TimeReversal S_Thermal S_Spectrum S_Spectrum3 S_RIXS S_Sector S_Units.
From Verif Require Import L_Scalar L_Sum L_Dict L_Fock L_State L_Ops L_ApplyOp L_FockP L_Lanczos2 L_Green L_Green3 L_Green4 L_Average L_Spectra6 L_Program L_RIXS2 L_Symmetry L_Program7 L_Program9 L_Sector L_Levels2 L_Ham L_Shift L_Shift3 L_Units.
From Verif Require S_Dict P_RIXS.
Local Open Scope Z_scope.

Section S.
Context {F : ofield}.
Add Field Ff : (f_field F).
Add Field Cf : (@c_field F).
Local Open Scope cx_scope.
Variables (n : nat) (x : F) (op op' : op_t F) (rs : option restrictions_t).
Hypothesis Hx : x <> 0%F.
Hypothesis HL : forall t s, length t = n -> length s = n -> opelem op' t s = creal x * opelem op t s.
Lemma eig_unit e v : eigenvector n op e v -> eigenvector n op' (x * e)%F v.
Proof.
  intros HE t Ht. unfold opv. rewrite (csum_ext _ (fun s => creal x * (opelem op t s * v s))).
  - rewrite csum_mul_l. pose proof (HE t Ht) as X. unfold opv in X. rewrite X, creal_mul. ring.
  - intros s Hs. apply allcfg_In in Hs. rewrite HL by auto. ring.
Qed.
Hypothesis Hop : wf_op n op.
Hypothesis Hop' : wf_op n op'.
Hypothesis HA : assert_hermitian op = Ok tt.
Hypothesis HA' : assert_hermitian op' = Ok tt.
Hypothesis HN : S_Dict.no_small n op.
Hypothesis HN' : S_Dict.no_small n op'.
Hypothesis Hr : wf_restr rs.
Section KH.
Variables h h' : config -> config -> cx F.
Hypothesis HR : restricted_op n op rs h.
Hypothesis HR' : restricted_op n op' rs h'.
Lemma h_unit t s : length t = n -> length s = n -> h' t s = creal x * h t s.
Proof.
  intros Ht Hs. destruct (restr_val n op rs h t s HN HR Ht Hs) as [A B], (restr_val n op' rs h' t s HN' HR' Ht Hs) as [A' B'].
  destruct (allowed_opt_dec rs t) as [Ha|Ha]; [rewrite A, A' by auto; apply HL; auto|rewrite B, B' by auto; ring].
Qed.
(* the source may be multiplied by a number k *)
Lemma solves_unit k z v psi psi' : (forall t, length t = n -> amp psi' t = k * amp psi t) -> fock_solves n z h v psi -> fock_solves n (creal x * z) h' (fun t => k * v t / creal x) psi'.
Proof.
  intros Hk HS t Ht. rewrite (Hk t Ht), <- (HS t Ht). pose proof (xnz x Hx) as Nx.
  rewrite (csum_ext _ (fun s => k * (h t s * v s))).
  - rewrite csum_mul_l. field. auto.
  - intros s Hs. apply allcfg_In in Hs. rewrite h_unit by auto. field. auto.
Qed.
Lemma green_unit k z psi psi' g g' : (forall t, length t = n -> amp psi' t = k * amp psi t) -> fock_green n z h psi g -> fock_green n (creal x * z) h' psi' g' -> g' = cconj k * k * g / creal x.
Proof.
  intros Hk (v & Hv & <- & _) (v' & _ & <- & Hu). pose proof (xnz x Hx) as Nx.
  rewrite (csum_ext _ (fun t => cconj k * k / creal x * (cconj (amp psi t) * v t))).
  - rewrite csum_mul_l. field. auto.
  - intros t Ht. apply allcfg_In in Ht. rewrite (Hk t Ht). rewrite <- (Hu _ (solves_unit k z v psi psi' Hk Hv) t Ht), cconj_mul. field. auto.
Qed.
Lemma image_scaled (tOp : op_t F) k psi psi' p p' : (forall t, length t = n -> amp psi' t = k * amp psi t) -> op_image n tOp rs psi p -> op_image n tOp rs psi' p' ->
  forall t, length t = n -> amp p' t = k * amp p t.
Proof.
  intros E H H' t Ht. destruct (allowed_opt_dec rs t) as [Ha|Ha].
  - rewrite (proj1 (H t Ht) Ha), (proj1 (H' t Ht) Ha), <- csum_mul_l. apply csum_ext. intros s Hs. apply allcfg_In in Hs. rewrite E by auto. ring.
  - rewrite (proj2 (H t Ht) Ha), (proj2 (H' t Ht) Ha). ring.
Qed.
Lemma kh_unit tIn tOut psi (z1 z2 : cx F) g g' : im z1 <> 0%F ->
  kramers_heisenberg n rs h tIn tOut psi z1 z2 g -> kramers_heisenberg n rs h' tIn tOut psi (creal x * z1) (creal x * z2) g' -> g' = g / (creal x * creal x * creal x).
Proof.
  intros Hz1 (p1 & p2 & p3 & I1 & X & I3 & G) (q1 & q2 & q3 & J1 & Y & J3 & G'). pose proof (xnz x Hx) as Nx.
  assert (E1 : forall t, length t = n -> amp q1 t = c1 * amp p1 t) by (apply (image_scaled tIn c1 psi psi p1 q1); auto; intros; ring).
  assert (E2 : forall t, length t = n -> amp q2 t = (c1 / creal x) * amp p2 t).
  { intros t Ht. rewrite (sol_unique n op' rs h' (creal x * z1) (amp q2) (fun t => c1 * amp p2 t / creal x) q1 Hop' HA' HR'); auto.
    - field. auto.
    - cbn [cmul im creal re]. intros E. apply Hz1. transitivity ((x * im z1 + 0 * re z1) / x)%F; [field; auto|]. rewrite E. field. auto.
    - apply (solves_unit c1 z1 (amp p2) p1 q1); auto. }
  assert (E3 : forall t, length t = n -> amp q3 t = (c1 / creal x) * amp p3 t) by (apply (image_scaled tOut (c1 / creal x) p2 q2 p3 q3); auto).
  rewrite (green_unit (c1 / creal x) z2 p3 q3 g g' E3 G G'). 
  assert (C : cconj (c1 / creal x) = c1 / creal x).
  { assert (E : c1 / creal x = creal (1 / x)%F). { transitivity (creal x * creal (1 / x)%F / creal x); [|field; auto]. rewrite <- creal_mul. replace (x * (1 / x))%F with (1%F : F) by (field; auto). reflexivity. }
    rewrite E. unfold cconj, creal. cbn [re im]. f_equal. ring. }
  rewrite C. field. auto.
Qed.
End KH.

Variables (fsqrt fexp : F -> F).
Hypothesis HS : sqrt_laws fsqrt.
Hypothesis HE : exp_laws fexp.
Variables (k_B T k_B' T' : F) (fuel : nat) (ks : Z) (swm : F).
Hypothesis Hf : (2 ^ n < fuel)%nat.
Hypothesis Hks : (Z.of_nat (2 ^ n) <= ks)%Z.
Hypothesis Hs : (swm <= 0)%F.
Variables (es : list F) (psis : list (psi_t F)).
Hypothesis Hv : Forall (valid_psi n) psis.
Hypothesis Hl : length psis = length es.
Variables ord ord' : nat -> nat -> nat -> set_order.
Hypothesis Ho : forall t i q l, Permutation (ord t i q l) l.
Hypothesis Ho' : forall t i q l, Permutation (ord' t i q l) l.
Variables R R' : nat.
Hypothesis HR : (1 <= R)%nat.
Hypothesis HR' : (1 <= R')%nat.
Notation E_ l := (energies_in x l).
Lemma en_len l : length (E_ l) = length l.
Proof. apply map_length. Qed.
Lemma en_nth l k : nth k (E_ l) 0%F = (x * nth k l 0)%F.
Proof. unfold energies_in. transitivity (nth k (map (fun e => x * e)%F l) ((fun e => x * e)%F 0%F)); [f_equal; ring|apply (map_nth (fun e => x * e)%F)]. Qed.
Lemma x_neq d : d <> 0%F -> (x * d)%F <> 0%F.
Proof. intros H E. apply H. transitivity ((x * d) / x)%F; [field; auto|]. rewrite E. field. auto. Qed.
Lemma z_unit (a b d : F) : mkC (x * a + x * b)%F (x * d)%F = creal x * mkC (a + b)%F d.
Proof. unfold creal, cmul. cbn [re im]. f_equal; ring. Qed.
Lemma spec_unit d tOps wl g rest g' rest' : d <> 0%F -> Forall (wf_op n) tOps ->
  getSpectra fsqrt fuel (Z.of_nat n) op wl d rs ks swm ord R tOps psis es SHBuild = Ok g :: rest ->
  getSpectra fsqrt fuel (Z.of_nat n) op' (E_ wl) (x * d)%F rs ks swm ord' R' tOps psis (E_ es) SHBuild = Ok g' :: rest' ->
  forall i t, (i < length es)%nat -> (t < length tOps)%nat -> g' i t = map (fun v => v / creal x) (g i t).
Proof.
  intros Hd Ht E E' i t Hi Htt. pose proof (x_neq d Hd) as Hd'.
  assert (L1 : length (g i t) = length wl) by exact (spec_len fsqrt n fuel op rs ks swm es wl d tOps ord R psis g rest Hd E i t).
  assert (L2 : length (g' i t) = length wl) by (transitivity (length (E_ wl)); [exact (spec_len fsqrt n fuel op' rs ks swm (E_ es) (E_ wl) (x * d)%F tOps ord' R' psis g' rest' Hd' E' i t)|apply map_length]).
  apply (nth_ext _ _ c0 (c0 / creal x)); [rewrite map_length; congruence|]. intros k Hk. rewrite L2 in Hk. rewrite (map_nth (fun v => v / creal x)).
  destruct (restricted_op_exists n op rs) as [h Hh]. destruct (restricted_op_exists n op' rs) as [h' Hh'].
  destruct (spec_green fsqrt HS n fuel op rs ks swm Hop HA Hr Hf Hks Hs es R R HR HR wl d tOps ord R psis g rest h Ho HR Hd Ht Hv Hl Hh E t k Htt Hk i Hi) as (p & Ep & G).
  destruct (spec_green fsqrt HS n fuel op' rs ks swm Hop' HA' Hr Hf Hks Hs (E_ es) R' R' HR' HR' (E_ wl) (x * d)%F tOps ord' R' psis g' rest' h' Ho' HR' Hd' Ht Hv ltac:(rewrite en_len; auto) Hh' E' t k Htt
    ltac:(rewrite en_len; auto) i ltac:(rewrite en_len; auto)) as (p' & Ep' & G').
  rewrite Ep in Ep'. injection Ep' as <-. rewrite !en_nth, z_unit in G'.
  rewrite (green_unit h h' Hh Hh' c1 (mkC (nth k wl 0 + nth i es 0)%F d) p p _ _ ltac:(intros; ring) G G'). pose proof (xnz x Hx) as Nx.
  assert (C : cconj (@c1 F) = c1) by (unfold cconj, c1, creal; cbn [re im]; f_equal; ring). rewrite C. field. auto.
Qed.
Lemma RIXS_unit bicgstab delta1 delta2 tOpsIn op0 ops wIn wLoss (od od' : nat -> nat -> nat -> set_order) hg hg' pm pm' r r' gs gs' :
  exact_solver bicgstab -> Forall (wf_op n) (op0 :: tOpsIn) -> delta1 <> 0%F -> delta2 <> 0%F ->
  (forall t i q l, Permutation (od t i q l) l) -> (forall t i q l, Permutation (od' t i q l) l) ->
  Forall (hdict_exact n op rs) hg -> hg <> [] -> Forall (hdict_exact n op' rs) hg' -> hg' <> [] -> pm <> ROther -> pm' <> ROther ->
  (pm = RHBuild -> r = 0%nat /\ NoDup (flat_map dkeys hg)) -> (pm' = RHBuild -> r' = 0%nat /\ NoDup (flat_map dkeys hg')) ->
  nth_error (getRIXSmap fsqrt bicgstab fuel (Z.of_nat n) op wIn wLoss delta1 delta2 rs ks swm tOpsIn (op0 :: ops) psis es od hg pm) r = Some (Ok gs) ->
  nth_error (getRIXSmap fsqrt bicgstab fuel (Z.of_nat n) op' (E_ wIn) (E_ wLoss) (x * delta1)%F (x * delta2)%F rs ks swm tOpsIn (op0 :: ops) psis (E_ es) od' hg' pm') r' = Some (Ok gs') ->
  forall i t o k, (i < length es)%nat -> (t < length tOpsIn)%nat -> (o < S (length ops))%nat -> (k < length wIn)%nat -> gs' i t o k = map (fun v => v / (creal x * creal x * creal x)) (gs i t o k).
Proof.
  intros HX Hw Hd1 Hd2 P P' Hg Hn Hg' Hn' Pm Pm' Hb Hb' G G' i t o k Hi Ht Hoo Hk.
  destruct (restricted_op_exists n op rs) as [h Hh]. destruct (restricted_op_exists n op' rs) as [h' Hh'].
  assert (Hip : (i < length psis)%nat) by lia. assert (Hie : (i < length (E_ es))%nat) by (rewrite en_len; lia).
  assert (Hk' : (k < length (E_ wIn))%nat) by (rewrite en_len; auto).
  destruct (P_RIXS.C60_kramers_heisenberg F fsqrt bicgstab n op rs h fuel wIn wLoss delta1 delta2 ks swm tOpsIn psis es op0 HS HX (conj Hop (conj Hr (conj Hw Hv))) HA Hh Hf Hd1 Hd2 Hks Hs
      ops od hg pm r gs P Hg Hn Pm Hb G t i (nth t tOpsIn []) (nth i psis []) (nth i es 0%F) k (nth k wIn 0%F) o
      (nth_error_nth' _ _ Ht) (nth_error_nth' _ _ Hip) (nth_error_nth' _ _ Hi) (nth_error_nth' _ _ Hk) Hoo) as [L1 K1].
  destruct (P_RIXS.C60_kramers_heisenberg F fsqrt bicgstab n op' rs h' fuel (E_ wIn) (E_ wLoss) (x * delta1)%F (x * delta2)%F ks swm tOpsIn psis (E_ es) op0 HS HX (conj Hop' (conj Hr (conj Hw Hv))) HA' Hh' Hf (x_neq _ Hd1) (x_neq _ Hd2) Hks Hs
      ops od' hg' pm' r' gs' P' Hg' Hn' Pm' Hb' G' t i (nth t tOpsIn []) (nth i psis []) (nth i (E_ es) 0%F) k (nth k (E_ wIn) 0%F) o
      (nth_error_nth' _ _ Ht) (nth_error_nth' _ _ Hip) (nth_error_nth' _ _ Hie) (nth_error_nth' _ _ Hk') Hoo) as [L2 K2].
  rewrite en_len in L2. apply (nth_ext _ _ c0 (c0 / (creal x * creal x * creal x))); [rewrite map_length; congruence|]. intros j Hj. rewrite L2 in Hj. rewrite (map_nth (fun v => v / (creal x * creal x * creal x))).
  specialize (K1 j Hj). specialize (K2 j ltac:(rewrite en_len; auto)). rewrite !en_nth, !z_unit in K2.
  exact (kh_unit h h' Hh Hh' _ _ _ (mkC (nth k wIn 0 + nth i es 0)%F delta1) _ _ _ Hd1 K1 K2).
Qed.

Hypothesis HkT : (k_B * T)%F <> 0%F.
Hypothesis HkT' : (k_B' * T')%F = (x * (k_B * T))%F.
Lemma prob_unit e : probability fexp (k_B' * T')%F (E_ es) (x * e)%F = probability fexp (k_B * T)%F es e.
Proof.
  assert (B : forall e, boltzmann fexp (k_B' * T')%F (x * e)%F = boltzmann fexp (k_B * T)%F e) by (intros y; unfold boltzmann; rewrite HkT'; f_equal; revert HkT; generalize (k_B * T)%F; intros q Hq; field; auto).
  unfold probability. rewrite B. f_equal. unfold partition_function, energies_in. rewrite map_map. f_equal. apply map_ext. exact B.
Qed.
Lemma mean_unit f : boltzmann_mean fexp (k_B' * T')%F (E_ es) f = boltzmann_mean fexp (k_B * T)%F es f.
Proof. unfold boltzmann_mean. rewrite en_len. f_equal. apply map_ext. intros i. rewrite en_nth, prob_unit. reflexivity. Qed.
Lemma mean_scal kT l f : boltzmann_mean fexp kT l (fun i => f i / x)%F = (boltzmann_mean fexp kT l f * (1 / x))%F.
Proof.
  unfold boltzmann_mean. generalize (seq 0 (length l)). intros s. induction s as [|a s IH]; cbn [map ftotal]; [ring|]. rewrite IH. field. auto.
Qed.
Notation S_ data := (map (map (fun v => v / x)%F) data).
Lemma nth_S k l : nth k (map (fun v => v / x)%F l) 0%F = (nth k l 0 / x)%F.
Proof. transitivity (nth k (map (fun v => v / x)%F l) ((fun v => v / x)%F 0%F)); [f_equal; field; auto|apply (map_nth (fun v => v / x)%F)]. Qed.
Lemma total_S k (pa : list (list F)) : ftotal (map (fun c => nth k c 0%F) (S_ pa)) = (ftotal (map (fun c => nth k c 0%F) pa) / x)%F.
Proof. induction pa as [|a l IH]; cbn [map ftotal]; [field; auto|]. rewrite IH, nth_S. field. auto. Qed.
Lemma mean_file_unit mesh nT I I' cols cols' :
  (forall i t k, (i < length es)%nat -> (t < nT)%nat -> (k < length mesh)%nat -> I' i t k = (I i t k / x)%F) ->
  mean_file fexp (k_B * T)%F mesh es nT I cols -> mean_file fexp (k_B' * T')%F (E_ mesh) (E_ es) nT I' cols' -> exists data, cols = mesh :: data /\ cols' = E_ mesh :: S_ data.
Proof.
  intros H (to & pa & -> & L1 & L2 & P & Q) (to' & pa' & -> & L1' & L2' & P' & Q'). rewrite en_len in L2'.
  assert (E : pa' = S_ pa).
  { apply (nth_ext _ _ [] []); [rewrite map_length; congruence|]. intros t Ht. rewrite L1' in Ht. destruct (P t Ht) as [A B], (P' t Ht) as [A' B']. rewrite en_len in A', B'.
    change (@nil F) with (map (fun v => v / x)%F []) at 2. rewrite map_nth.
    apply (nth_ext _ _ 0%F 0%F); [rewrite map_length; congruence|]. intros k Hk. rewrite A' in Hk. rewrite nth_S, B, B' by congruence. rewrite mean_unit.
    transitivity (boltzmann_mean fexp (k_B * T)%F es (fun i => I i t k / x)%F); [|rewrite mean_scal; field; auto].
    unfold boltzmann_mean. f_equal. apply map_ext_in. intros i Hi. apply in_seq in Hi. rewrite H by (auto; lia). reflexivity. }
  subst pa'. exists (to :: pa). split; [auto|]. cbn [map]. do 2 f_equal. apply (nth_ext _ _ 0%F 0%F); [rewrite map_length; congruence|]. intros k _. rewrite nth_S, Q, Q'. apply total_S.
Qed.
Lemma im_div v : im (v / creal x) = (im v / x)%F.
Proof. 
  assert (E : v / creal x = v * creal (1 / x)%F). { pose proof (xnz x Hx) as Nx. transitivity (v * (creal x * creal (1 / x)%F) / creal x); [|field; auto]. rewrite <- creal_mul. replace (x * (1 / x))%F with (1%F : F) by (field; auto). change (@creal F 1%F) with (@c1 F). field. auto. }
  rewrite E. unfold cmul, creal. cbn [re im]. field. auto.
Qed.
Notation spec o wl d tOps r ord es := (getSpectra fsqrt fuel (Z.of_nat n) o wl d rs ks swm ord r tOps psis es SHBuild).
Lemma nth_div k (l : list (cx F)) : nth k (map (fun v => v / creal x) l) c0 = nth k l c0 / creal x.
Proof. pose proof (xnz x Hx) as Nx. transitivity (nth k (map (fun v => v / creal x) l) ((fun v => v / creal x) c0)); [f_equal; field; auto|apply (map_nth (fun v => v / creal x))]. Qed.
Lemma kT_neq : (k_B' * T')%F <> 0%F.
Proof. rewrite HkT'. apply x_neq. auto. Qed.
Lemma absorption_unit d tOps wl cols rest cols' rest' : d <> 0%F -> Forall (wf_op n) tOps ->
  absorption fsqrt fexp k_B fuel (Z.of_nat n) op rs ks swm ord R psis es T wl d tOps = Ok cols :: rest ->
  absorption fsqrt fexp k_B' fuel (Z.of_nat n) op' rs ks swm ord' R' psis (E_ es) T' (E_ wl) (x * d)%F tOps = Ok cols' :: rest' ->
  exists data, cols = wl :: data /\ cols' = E_ wl :: S_ data.
Proof.
  intros Hd Ht E E'. pose proof (x_neq d Hd) as Hd'. pose proof kT_neq as HkT2. unfold absorption in E, E'. apply head_bind in E as (g & l & E & C). apply head_bind in E' as (g' & l' & E' & C').
  apply (columns_mean fexp HE) in C; [|auto|exact (spec_len fsqrt n fuel op rs ks swm es wl d tOps ord R psis g l Hd E)]. apply (columns_mean fexp HE) in C'; [|auto|exact (spec_len fsqrt n fuel op' rs ks swm (E_ es) (E_ wl) (x * d)%F tOps ord' R' psis g' l' Hd' E')].
  refine (mean_file_unit wl (length tOps) _ _ _ _ _ C C'). intros i t k Hi Htt Hk. cbv beta.
  rewrite (spec_unit d tOps wl g l g' l' Hd Ht E E' i t Hi Htt), nth_div, im_div. field. auto.
Qed.
Lemma opp_unit wl : map fopp (E_ wl) = E_ (map fopp wl).
Proof. unfold energies_in. rewrite !map_map. apply map_ext. intros a. ring. Qed.
Lemma opp_d d : (- (x * d))%F = (x * - d)%F.
Proof. ring. Qed.
Lemma emission_unit d tOps wl cols rest cols' rest' : d <> 0%F -> Forall (wf_op n) tOps ->
  emission fsqrt fexp k_B fuel (Z.of_nat n) op rs ks swm ord R psis es T wl d tOps = Ok cols :: rest ->
  emission fsqrt fexp k_B' fuel (Z.of_nat n) op' rs ks swm ord' R' psis (E_ es) T' (E_ wl) (x * d)%F tOps = Ok cols' :: rest' ->
  exists data, cols = wl :: data /\ cols' = E_ wl :: S_ data.
Proof.
  intros Hd Ht E E'. pose proof kT_neq as HkT2. unfold emission in E, E'. apply head_bind in E as (g & l & E & C). apply head_bind in E' as (g' & l' & E' & C'). rewrite opp_unit, opp_d in E'.
  pose proof (fopp_neq0 d Hd) as Hd'. pose proof (x_neq _ Hd') as Hd2.
  assert (L1 : forall i t, length (gneg g i t) = length wl).
  { intros i t. unfold gneg. rewrite map_length. transitivity (length (map fopp wl)); [|apply map_length]. exact (spec_len fsqrt n fuel op rs ks swm es (map fopp wl) (- d)%F tOps ord R psis g l Hd' E i t). }
  assert (L2 : forall i t, length (gneg g' i t) = length (E_ wl)).
  { intros i t. unfold gneg. rewrite map_length. transitivity (length (E_ (map fopp wl))); [|rewrite !en_len, map_length; auto]. exact (spec_len fsqrt n fuel op' rs ks swm (E_ es) (E_ (map fopp wl)) (x * - d)%F tOps ord' R' psis g' l' Hd2 E' i t). }
  apply (columns_mean fexp HE) in C; [|auto|auto]. apply (columns_mean fexp HE) in C'; [|auto|auto].
  refine (mean_file_unit wl (length tOps) _ _ _ _ _ C C'). intros i t k Hi Htt Hk. cbv beta. unfold gneg. rewrite !nth_opp.
  rewrite (spec_unit (- d)%F tOps (map fopp wl) g l g' l' Hd' Ht E E' i t Hi Htt), nth_div. cbn [copp im]. rewrite im_div. field. auto.
Qed.
Lemma photoemission_unit d ps ips wl cols rest cols' rest' : d <> 0%F -> Forall (wf_op n) ps -> Forall (wf_op n) ips ->
  photoemission fsqrt fexp k_B fuel (Z.of_nat n) op rs ks swm ord R psis es T wl d ps ips = Ok cols :: rest ->
  photoemission fsqrt fexp k_B' fuel (Z.of_nat n) op' rs ks swm ord' R' psis (E_ es) T' (E_ wl) (x * d)%F ps ips = Ok cols' :: rest' ->
  exists data, cols = wl :: data /\ cols' = E_ wl :: S_ data.
Proof.
  intros Hd Hp Hi E E'. pose proof (fopp_neq0 d Hd) as Hd'. pose proof kT_neq as HkT2. pose proof (x_neq d Hd) as Hd2.
  assert (K : forall o ee wm (od : nat -> nat -> nat -> set_order) r kb TT d cols rest, d <> 0%F -> (kb * TT)%F <> 0%F -> photoemission fsqrt fexp kb fuel (Z.of_nat n) o rs ks swm od r psis ee TT wm d ps ips = Ok cols :: rest ->
    exists gI l gP l', spec o wm d ips r od ee = Ok gI :: l /\ spec o (map fopp wm) (- d)%F ps r od ee = Ok gP :: l' /\ length ps = length ips /\
      mean_file fexp (kb * TT)%F wm ee (length ps) (fun i t k => - im (nth k (gI i t) c0 - nth k (gP i t) c0)%C)%F cols).
  { intros o ee wm od r kb TT d1 c0' l0 Hd1 Hkb E0. pose proof (fopp_neq0 d1 Hd1) as Hd1'. unfold photoemission in E0. destruct (spec o wm d1 ips r od ee) as [|x1 r1] eqn:C1; [discriminate|]. destruct (spec o (map fopp wm) (- d1)%F ps r od ee) as [|x2 r2] eqn:C2; [discriminate|].
    cbn [combine map fst snd] in E0. injection E0 as E0 _. destruct x1 as [gI|]; [|discriminate]. destruct x2 as [gP|]; [|discriminate]. cbn [bind] in E0.
    destruct (Nat.eqb_spec (length ps) (length ips)) as [Le|]; [|discriminate]. exists gI, r1, gP, r2. split; [auto|]. split; [auto|]. split; [auto|].
    assert (L1 : forall i t, length (gI i t) = length wm) by exact (spec_len fsqrt n fuel o rs ks swm ee wm d1 ips od r psis gI r1 Hd1 C1).
    assert (L2 : forall i t, length (gP i t) = length wm) by (intros i t; transitivity (length (map fopp wm)); [|apply map_length]; exact (spec_len fsqrt n fuel o rs ks swm ee (map fopp wm) (- d1)%F ps od r psis gP r2 Hd1' C2 i t)).
    apply (columns_mean fexp HE) in E0; [|auto|].
    - eapply mean_file_ext; [|exact E0]. intros i t k _ _ Hk. cbv beta. unfold gplus, gneg. rewrite (nth_gplus n fuel Hf R R' HR HR') by (rewrite map_length, L1, L2; auto). rewrite nth_opp. f_equal. f_equal. ring.
    - intros i t. unfold gplus, gneg. rewrite map_length, combine_length, map_length, L1, L2. lia. }
  apply K in E as (gI & l1 & gP & l2 & A1 & A2 & Le & M); auto. apply K in E' as (gI' & l1' & gP' & l2' & B1 & B2 & _ & M'); auto. rewrite opp_unit, opp_d in B2.
  refine (mean_file_unit wl (length ps) _ _ _ _ _ M M'). intros i t k Hii Htt Hk. cbv beta.
  rewrite (spec_unit d ips wl gI l1 gI' l1' Hd Hi A1 B1 i t Hii ltac:(lia)), (spec_unit (- d)%F ps (map fopp wl) gP l2 gP' l2' Hd' Hp A2 B2 i t Hii Htt), !nth_div. cbn [csub im]. rewrite !im_div. field. auto.
Qed.
End S.
