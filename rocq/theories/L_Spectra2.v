(* normalisation of transition states and single entries of the spectra *)
From Coq Require Import Lia List Bool Permutation Field Ring.
From Verif Require Import M_Prelude M_Scalar M_PSR M_Ladder M_State M_Mpi M_Hamiltonian M_Lanczos M_Spectra S_Fock S_Ham S_Ops S_Green
  L_PSR L_Ladder L_Scalar L_Dict L_Sum L_Fock L_State L_ApplyOp L_Ops L_FockP L_Ham L_Expand L_Green L_Green2 L_Green3 L_Green4 L_Spectra.
Import ListNotations.
Local Open Scope cx_scope.

Section LSpectra2.
Context {F : ofield}.
Add Field Ff : (f_field F).
Add Ring Cring : (@c_ring F).
Add Field Cf : (@c_field F).
Variable fsqrt : F -> F.

(* ---- normalise ---- *)
Definition scale_psi (b : F) (psi : psi_t F) : psi_t F := map (fun sa => (fst sa, snd sa / creal b)) psi.
Lemma normalise_cases psi psiN nrm : normalise fsqrt psi = Ok (psiN, nrm) ->
  nrm = fsqrt (norm2 psi) /\ psiN = scale_psi nrm psi /\ (psi = [] \/ nrm <> 0%F).
Proof.
  unfold normalise. destruct psi as [|p psi'].
  - intros E. injection E as <- <-. auto.
  - destruct (feqb_spec (fsqrt (norm2 (p :: psi'))) 0%F) as [|H]; [discriminate|]. intros E. injection E as <- <-. auto.
Qed.
Lemma normalise_err psi x : normalise fsqrt psi = Err x -> x = ZeroDivisionError /\ psi <> [] /\ fsqrt (norm2 psi) = 0%F.
Proof.
  unfold normalise. destruct psi as [|p psi']; [discriminate|].
  destruct (feqb_spec (fsqrt (norm2 (p :: psi'))) 0%F) as [E|H]; [|discriminate]. intros E'. injection E' as <-. split; auto. split; [discriminate|auto].
Qed.
Lemma scale_keys b psi : dkeys (scale_psi b psi) = dkeys psi.
Proof. unfold scale_psi, dkeys. rewrite map_map. reflexivity. Qed.
Lemma scale_valid n b psi : valid_psi n psi -> valid_psi n (scale_psi b psi).
Proof. intros H. unfold valid_psi in *. rewrite scale_keys. auto. Qed.
Lemma scale_dget b psi k : dget (scale_psi b psi) k = match dget psi k with Some a => Some (a / creal b) | None => None end.
Proof.
  induction psi as [|[k' a] psi IH]; [reflexivity|]. unfold scale_psi. cbn [map fst snd]. rewrite !dget_cons.
  destruct (eqb k k'); auto.
Qed.
Lemma creal_neq0 (b : F) : b <> 0%F -> creal b <> c0.
Proof. intros H E. apply H. injection E as E. auto. Qed.
Lemma scale_amp b psi t : b <> 0%F -> amp psi t = creal b * amp (scale_psi b psi) t.
Proof.
  intros Hb. unfold amp. rewrite scale_dget. destruct (dget psi (key t)); [|ring]. field. apply creal_neq0; auto.
Qed.
Lemma cabs2_div_real (a : cx F) (b : F) : b <> 0%F -> (cabs2 (a / creal b) * (b * b))%F = cabs2 a.
Proof.
  intros Hb. assert (E : a = creal b * (a / creal b)) by (field; apply creal_neq0; auto).
  rewrite E at 2. unfold cabs2. simpl. ring.
Qed.
Lemma scale_norm2 b psi : b <> 0%F -> (norm2 (scale_psi b psi) * (b * b))%F = norm2 psi.
Proof.
  intros Hb. rewrite !norm2_fsum. unfold scale_psi. rewrite fsum_map.
  transitivity (fsum (fun sa => ((b * b) * cabs2 (snd sa / creal b))%F) psi); [rewrite fsum_mul_l; cbn [snd]; ring|].
  apply fsum_ext. intros [k a] _. cbn [snd]. rewrite <- (cabs2_div_real a b) by auto. ring.
Qed.
Hypothesis HS : sqrt_laws fsqrt.
Lemma norm2_nonneg psi : (0 <= @norm2 F psi)%F.
Proof. rewrite norm2_fsum. apply fsum_nonneg. intros a _. apply cabs2_nonneg. Qed.
Lemma sqrt_norm psi : (fsqrt (norm2 psi) * fsqrt (norm2 psi))%F = norm2 psi.
Proof. apply HS, norm2_nonneg. Qed.
Lemma scale_unit psi : fsqrt (norm2 psi) <> 0%F -> norm2 (scale_psi (fsqrt (norm2 psi)) psi) = 1%F.
Proof.
  intros H. pose proof (scale_norm2 _ psi H) as E. rewrite sqrt_norm in E.
  assert (Hn : norm2 psi <> 0%F).
  { intros E0. apply H. pose proof (sqrt_norm psi) as E1. rewrite E0 in E1. rewrite E0.
    destruct (fsum_sq_zero (fsqrt 0%F) 0%F) as [H1 _]; auto. rewrite E1. ring. }
  transitivity ((norm2 (scale_psi (fsqrt (norm2 psi)) psi) * norm2 psi) / norm2 psi)%F; [field; auto|rewrite E; field; auto].
Qed.

(* ---- scaling the Green's function ---- *)
Variable n : nat.
Lemma fock_green_scale z h (psi psi' : psi_t F) (b : F) g : b <> 0%F -> (forall t, length t = n -> amp psi t = creal b * amp psi' t) ->
  fock_green n z h psi' g -> fock_green n z h psi (creal (b * b)%F * g).
Proof.
  intros Hb Ha (x & Hx & Hg & Hu). pose proof (creal_neq0 b Hb) as Hc. exists (fun t => creal b * x t). split; [|split].
  - intros t Lt. rewrite Ha, <- (Hx t Lt) by auto.
    rewrite (csum_ext _ (fun s => creal b * (h t s * x s))) by (intros; ring). rewrite csum_mul_l. ring.
  - rewrite (csum_ext _ (fun t => (creal b * creal b) * (cconj (amp psi' t) * x t))).
    + rewrite csum_mul_l, Hg. f_equal. apply cx_ext; simpl; ring.
    + intros t Ht. apply allcfg_In in Ht. rewrite Ha by auto. rewrite cconj_mul. replace (cconj (creal b)) with (creal b) by (apply cx_ext; simpl; ring). ring.
  - intros x' Hx' t Lt. rewrite <- (Hu (fun s => x' s / creal b)); auto; [field; auto|].
    intros s Ls. specialize (Hx' s Ls). rewrite Ha in Hx' by auto.
    assert (E : csum (fun s0 => h s s0 * (x' s0 / creal b)) (allcfg n) = csum (fun s0 => h s s0 * x' s0) (allcfg n) / creal b).
    { transitivity (csum (fun s0 => (h s s0 * x' s0) * (c1 / creal b)) (allcfg n)); [apply csum_ext; intros; field; auto|]. rewrite csum_mul_r. field; auto. }
    rewrite E. transitivity ((z * x' s - csum (fun s0 => h s s0 * x' s0) (allcfg n)) / creal b); [field; auto|]. rewrite Hx'. field; auto.
Qed.
Lemma fock_green_ext z h (psi psi' : psi_t F) g : (forall t, length t = n -> amp psi t = amp psi' t) ->
  fock_green n z h psi' g -> fock_green n z h psi g.
Proof.
  intros Ha (x & Hx & Hg & Hu). exists x. split; [|split].
  - intros t Lt. rewrite Ha by auto. apply Hx; auto.
  - rewrite <- Hg. apply csum_ext. intros t Ht. apply allcfg_In in Ht. rewrite Ha by auto. auto.
  - intros x' Hx' t Lt. apply Hu; auto. intros s Ls. rewrite <- Ha by auto. apply Hx'; auto.
Qed.

Variable op : op_t F.
Variable rs : option restrictions_t.
Hypothesis Hw : wf_op n op.
Hypothesis Hr : wf_restr rs.
Hypothesis Hherm : assert_hermitian op = Ok tt.
Variable hop : config -> config -> cx F.
Hypothesis Hop : restricted_op n op rs hop.
Lemma fock_green_nil z : im z <> 0%F -> fock_green n z hop [] c0.
Proof.
  intros Hz. assert (H0 : fock_solves n z hop (fun _ => c0) []).
  { intros t Lt. rewrite csum_zero by (intros; ring). unfold amp. cbn [dget]. ring. }
  exists (fun _ => c0). split; [exact H0|]. split; [apply csum_zero; intros; ring|].
  intros x' Hx' t Lt. apply (fock_unique n op rs Hw Hherm [] (fun c _ (H : In (key c) []) => match H with end) hop Hop z Hz x' (fun _ => c0)); auto.
Qed.

Variable fuel : nat.
Hypothesis Hf : (2 ^ n < fuel)%nat.
Variable omega : list F.
Variable delta : F.
Hypothesis Hd : delta <> 0%F.
Variable ks : Z.
Hypothesis Hks : (Z.of_nat (2 ^ n) <= ks)%Z.
Variable swm : F.
Let gv := gval fsqrt n op rs fuel omega delta ks swm.

Lemma vmul_nth a (v : vec F) k : nth k (vmul a v) c0 = creal a * nth k v c0.
Proof.
  unfold vmul. replace c0 with (creal a * c0) at 1 by ring. exact (map_nth (fun z => creal a * z) v c0 k).
Qed.
Lemma repeat_nth0 k m : nth k (repeat (@c0 F) m) c0 = c0.
Proof. revert k. induction m; intros [|k]; simpl; auto. Qed.
(* the value of one entry: normalise, Green's function, scale back *)
Lemma entry_exact e psiR psiN nrm g : valid_psi n psiR -> (forall c, length c = n -> In (key c) (dkeys psiR) -> allowed_opt rs c) ->
  normalise fsqrt psiR = Ok (psiN, nrm) -> gv e psiN = Ok g ->
  length g = length omega /\
  forall k, (k < length omega)%nat -> fock_green n (mkC (nth k omega 0 + e)%F delta) hop psiR (nth k (vmul (nrm * nrm)%F g) c0).
Proof.
  intros Hv Hall En Eg. apply normalise_cases in En as (Enrm & -> & Hc).
  assert (HvN := scale_valid n nrm psiR Hv).
  destruct (GG_serial fsqrt n op rs Hw Hr fuel Hf omega delta ks swm (fun _ l => l) e (scale_psi nrm psiR) [] HvN (exact_nil n op rs)) as (h' & EG & _).
  unfold gv in Eg. rewrite Eg in EG.
  assert (Hlen : length g = length omega).
  { apply (green_bounds_ok fsqrt fuel (fun _ l => l) (Z.of_nat n) e (scale_psi nrm psiR) op omega delta ks swm rs [[]] GSparse Serial h' g); auto.
    exact (eq_ind_r (fun l => In (h', Ok g) l) (in_eq (h', Ok g) []) EG). }
  split; [auto|]. intros k Hk. rewrite vmul_nth. destruct psiR as [|p0 psi0] eqn:Epsi.
  - cbn [scale_psi map] in EG. unfold GG, getGreen in EG. cbn [map] in EG. injection EG as _ <-. rewrite repeat_nth0.
    replace (creal (nrm * nrm)%F * c0) with (@c0 F) by ring. apply fock_green_nil. auto.
  - rewrite <- Epsi in *. destruct Hc as [Hc|Hc]; [congruence|].
    apply (fock_green_scale _ _ psiR (scale_psi nrm psiR)); auto; [intros; apply scale_amp; auto|].
    assert (HI : green_input n op rs (scale_psi nrm psiR)).
    { split; [auto|]. split; [auto|]. split; [auto|]. split; [auto|]. split.
      - rewrite Enrm. apply scale_unit. rewrite <- Enrm. auto.
      - intros c Lc. rewrite scale_keys. auto. }
    destruct (serial_exact fsqrt HS n op rs (scale_psi nrm psiR) HI fuel (fun _ l => l) e omega delta ks swm [[]] GSparse hop) as (basis & HC & H); auto; [right; auto|repeat constructor; apply exact_nil|discriminate|].
    apply (H ltac:(pose proof (basis_bound n basis (proj1 (proj2 HC)) ltac:(intros b Hb; pose proof (closure_valid _ _ _ _ _ HC) as HV; rewrite Forall_forall in HV; auto)); lia) h' g); auto.
    exact (eq_ind_r (fun l => In (h', Ok g) l) (in_eq (h', Ok g) []) EG).
Qed.
End LSpectra2.
