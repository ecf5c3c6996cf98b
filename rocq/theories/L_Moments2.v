(* The moments kept by getGreen and getSpectra. *)
From Coq Require Import Lia List Bool Permutation Field Ring.
From Verif Require Import M_Prelude M_Scalar M_PSR M_Ladder M_State M_Mpi M_Hamiltonian M_Lanczos M_Average M_Spectra S_Fock S_Ham S_Ops S_Green S_Moments S_Spectra
  L_PSR L_Ladder L_Scalar L_Dict L_Sum L_Fock L_State L_ApplyOp L_Ops L_FockP L_Ham L_Expand L_ExpandP L_FromH L_HamP L_Vec L_CFrac L_Lanczos L_Lanczos2 L_Lanczos3 L_Green L_Green2 L_Green3 L_Green4
  L_Spectra L_Spectra2 L_Spectra3 L_Spectra4 L_Spectra5 L_Spectra6 L_Moments.
Import ListNotations.
Local Open Scope cx_scope.

Section A.
Context {F : ofield}.
Add Field Ff : (f_field F).
Add Ring Cring : (@c_ring F).
Add Field Cf : (@c_field F).
Variable fsqrt : F -> F.
Hypothesis HS : sqrt_laws fsqrt.
Variable n : nat.
Variable op : op_t F.
Variable rs : option restrictions_t.

Lemma mesh_z_nth omega e (delta : F) k : (k < length omega)%nat -> nth k (mesh_z omega e delta) c0 = mkC (nth k omega 0%F + e)%F delta.
Proof.
  intros Hk. unfold mesh_z. rewrite (nth_indep _ _ (mkC (0 + e)%F delta)) by (rewrite map_length; auto).
  apply (map_nth (fun w => mkC (w + e)%F delta)).
Qed.

Lemma fpow_scale h (psi psi' : psi_t F) (b : cx F) : (forall t, length t = n -> amp psi t = b * amp psi' t) ->
  forall p t, length t = n -> fpow n h p psi t = b * fpow n h p psi' t.
Proof.
  intros Ha p. induction p as [|p IH]; intros t Lt; cbn [fpow]; [auto|]. rewrite <- csum_mul_l. apply csum_ext. intros s Hs. apply allcfg_In in Hs. rewrite IH by auto. ring.
Qed.
Lemma fock_moment_scale h (psi psi' : psi_t F) (b : F) p : (forall t, length t = n -> amp psi t = creal b * amp psi' t) ->
  fock_moment n h psi p = creal (b * b)%F * fock_moment n h psi' p.
Proof.
  intros Ha. unfold fock_moment. rewrite <- csum_mul_l. apply csum_ext. intros t Ht. apply allcfg_In in Ht. rewrite (fpow_scale h psi psi' (creal b) Ha) by auto.
  rewrite Ha by auto. rewrite cconj_mul. replace (cconj (creal b)) with (creal b) by (apply cx_ext; simpl; ring).
  replace (creal (b * b)%F) with (creal b * creal b) by (apply cx_ext; simpl; ring). ring.
Qed.
Lemma lanczos_green_scale h (psi psi' : psi_t F) (b : F) k zs gs : (forall t, length t = n -> amp psi t = creal b * amp psi' t) ->
  lanczos_green n h psi' k zs gs -> lanczos_green n h psi k zs (vmul (b * b)%F gs).
Proof.
  intros Ha (HL & al & be & Hk & H1 & H2). split; [unfold vmul; rewrite map_length; auto|]. exists al, be. split; [auto|]. split.
  - intros i Hi. destruct (H1 i Hi) as (r & Hr & E). exists r. split; [auto|]. rewrite vmul_nth, E, (fock_moment_scale h psi psi' b 0 Ha). ring.
  - intros p Hp. rewrite (fock_moment_scale h psi psi' b 0 Ha), (fock_moment_scale h psi psi' b p Ha), <- (H2 p Hp). ring.
Qed.

(* the truncated Green's function of one start vector *)
Section Core.
Variable psi : psi_t F.
Hypothesis HI : green_input n op rs psi.
Variable basis : list pybytes.
Variable m : nat -> nat -> cx F.
Variable v : vec F.
Hypothesis HC : is_closure n op rs (dkeys psi) basis.
Hypothesis HRm : restricted_matrix n op rs basis m.
Hypothesis Lv : length v = length basis.
Hypothesis Hv : forall i, vf v i = amp_at basis psi i.
Lemma core_lanczos hop omega e delta ks al be : restricted_op n op rs hop -> delta <> 0%F ->
  krylov fsqrt (mdot (length basis) m) v ks = Ok (al, be) ->
  lanczos_green n hop psi (Z.to_nat (Z.min ks (Z.of_nat (length basis)))) (mesh_z omega e delta) (green_mesh omega delta e (al, be)).
Proof.
  intros Hop Hd Ek. pose proof (core_herm n op rs psi HI basis m HC HRm) as HM. pose proof (core_norm n op rs psi HI basis v HC Hv) as H1.
  destruct (krylov_moments fsqrt HS (length basis) m HM (mdot (length basis) m) (fun v _ => mdot_len _ m v) (fun v i _ Hi => mdot_nth _ m v i Hi) v Lv H1 ks al be Ek) as (Hk & HL & Hmom).
  assert (E0 : fock_moment n hop psi 0 = c1).
  { rewrite (fock_moment_eq n op rs psi hop Hop basis HC m HRm 0). unfold moment. cbn [mpow]. rewrite <- H1. apply ip_ext; intros; symmetry; apply Hv. }
  split; [unfold mesh_z; rewrite mesh_len, map_length; auto|]. exists al, be. rewrite E0. split; [lia|]. rewrite <- Hk, Nat2Z.id. split.
  - intros i Hi. unfold mesh_z in Hi. rewrite map_length in Hi. exists (cont_frac (mkC (nth i omega 0%F + e)%F delta) al be). rewrite mesh_z_nth, mesh_nth by auto. cbn [fst snd].
    split; [apply cf_resolvent; auto; intros ->; discriminate|ring].
  - intros p Hp. rewrite Hmom by auto. rewrite (fock_moment_eq n op rs psi hop Hop basis HC m HRm p).
    rewrite (moment_ext _ m p (vf v) (amp_at basis psi)) by (intros; apply Hv). ring.
Qed.
End Core.

Lemma serial_lanczos psi (HI : green_input n op rs psi) fuel ord e omega delta ks swm (hs : list (hdict_t F)) mode hop : matrix_mode mode ->
  Forall (hdict_exact n op rs) hs -> (2 ^ n < fuel)%nat -> hs <> [] -> delta <> 0%F -> restricted_op n op rs hop ->
  exists basis, is_closure n op rs (dkeys psi) basis /\ forall h' g,
    In (h', Ok g) (getGreen fsqrt fuel ord (Z.of_nat n) e psi op omega delta ks swm rs hs mode Serial) ->
    lanczos_green n hop psi (Z.to_nat (Z.min ks (Z.of_nat (length basis)))) (mesh_z omega e delta) g /\
    (Z.le (Z.of_nat (length basis)) ks -> exact_on n psi hop omega delta e g).
Proof.
  intros Hm HF Hf Hh Hd Hop. pose proof HI as (Hw & Hr & Hherm & Hpsi & Hn1 & Hall).
  destruct (green_serial fsqrt n op rs Hw Hr psi Hpsi (psi_nonempty n op rs psi HI) fuel ord e omega delta ks swm hs mode Hm HF Hf Hh) as (basis & m & v & HC & HE & HRm & Lv & Hv & HF2).
  exists basis. split; auto. intros h' g Hin.
  apply (Forall2_in_r _ _ _ _ HF2) in Hin as (h & _ & _ & _ & E). cbn [snd] in E. symmetry in E. apply rmap_ok in E as ([al be] & Ek & ->). split.
  - eapply core_lanczos; eauto.
  - intros Hks. split; [apply mesh_len|]. intros k Hk. rewrite mesh_nth by auto. cbn [fst snd]. eapply core_exact; eauto.
Qed.
Lemma hbuild_lanczos psi (HI : green_input n op rs psi) fuel (ord : nat -> set_order) e omega delta ks swm (hs : list (hdict_t F)) mode hop : matrix_mode mode ->
  (forall r l, Permutation (ord r l) l) -> Forall (hdict_exact n op rs) hs -> NoDup (flat_map dkeys hs) ->
  (2 ^ n < fuel)%nat -> hs <> [] -> delta <> 0%F -> restricted_op n op rs hop ->
  exists basis, is_closure n op rs (dkeys psi) basis /\ forall h' g rest,
    getGreen fsqrt fuel ord (Z.of_nat n) e psi op omega delta ks swm rs hs mode HBuild = (h', Ok g) :: rest ->
    lanczos_green n hop psi (Z.to_nat (Z.min ks (Z.of_nat (length basis)))) (mesh_z omega e delta) g.
Proof.
  intros Hm Hord HF Hnd Hf Hh Hd Hop. pose proof HI as (Hw & Hr & Hherm & Hpsi & Hn1 & Hall).
  destruct (green_hbuild fsqrt n op rs Hw Hr psi Hpsi (psi_nonempty n op rs psi HI) fuel ord e omega delta ks swm hs mode Hm Hord HF Hnd Hf Hh) as (basis & m & v & hs' & HC & HE & HRm & Lv & Hv & _ & _ & _ & E).
  exists basis. split; auto. intros h' g rest Eg. cbv zeta in E. rewrite Eg in E. destruct hs' as [|h0 hs']; simpl in E; [discriminate|].
  injection E as _ E _. symmetry in E. apply rmap_ok in E as ([al be] & Ek & ->). eapply core_lanczos; eauto.
Qed.

(* ---- one entry of getSpectra ---- *)
Hypothesis Hw : wf_op n op.
Hypothesis Hr : wf_restr rs.
Hypothesis Hherm : assert_hermitian op = Ok tt.
Variable hop : config -> config -> cx F.
Hypothesis Hop : restricted_op n op rs hop.
Variable fuel : nat.
Hypothesis Hf : (2 ^ n < fuel)%nat.
Variable omega : list F.
Variable delta : F.
Hypothesis Hd : delta <> 0%F.
Variable ks : Z.
Variable swm : F.
(* the value of one entry: moments for every number of Lanczos vectors, exact if there are enough of them *)
Notation entry_spec := (truncated_green n op rs hop omega delta ks).
Lemma closure_nil : is_closure n op rs [] [].
Proof.
  split; [exists []; reflexivity|]. split; [constructor|]. intros k. split; [intros []|]. intros (c & _ & H). exfalso. induction H; auto.
Qed.
Lemma lanczos_green_nil zs : lanczos_green n hop [] 0 zs (repeat c0 (length zs)).
Proof.
  split; [apply repeat_length|]. exists [], []. split; [auto|]. split; [|intros; lia]. intros i Hi. exists c0. split.
  - exists (fun _ => c0). split; [intros j Hj; lia|]. split; [reflexivity|intros; lia].
  - rewrite repeat_nth0. ring.
Qed.
Lemma entry_lanczos e psiR psiN nrm g : valid_psi n psiR -> (forall c, length c = n -> In (key c) (dkeys psiR) -> allowed_opt rs c) ->
  normalise fsqrt psiR = Ok (psiN, nrm) -> gval fsqrt n op rs fuel omega delta ks swm e psiN = Ok g -> entry_spec e psiR (vmul (nrm * nrm)%F g).
Proof.
  intros Hv Hall En Eg. apply normalise_cases in En as (Enrm & -> & Hc).
  assert (HvN := scale_valid n nrm psiR Hv).
  destruct (GG_serial fsqrt n op rs Hw Hr fuel Hf omega delta ks swm (fun _ l => l) e (scale_psi nrm psiR) [] HvN (exact_nil n op rs)) as (h' & EG & _).
  rewrite Eg in EG. destruct psiR as [|p0 psi0] eqn:Epsi.
  - exists []. split; [apply closure_nil|].
    cbn [scale_psi map] in EG. unfold GG, getGreen in EG. cbn [map] in EG. injection EG as _ <-.
    assert (E0 : vmul (nrm * nrm)%F (repeat (@c0 F) (length omega)) = repeat c0 (length (mesh_z omega e delta))).
    { unfold vmul, mesh_z. rewrite map_length. induction omega as [|x l IH]; simpl; [auto|]. f_equal; [ring|auto]. }
    split; [rewrite E0; replace (Z.to_nat (Z.min ks (Z.of_nat (length (@nil pybytes))))) with 0%nat by (simpl length; lia); apply lanczos_green_nil|].
    intros _ k Hk. rewrite E0, repeat_nth0, mesh_z_nth by auto. apply (fock_green_nil n op rs Hw Hherm hop Hop). auto.
  - rewrite <- Epsi in *. destruct Hc as [Hc|Hc]; [congruence|].
    assert (HI : green_input n op rs (scale_psi nrm psiR)).
    { split; [auto|]. split; [auto|]. split; [auto|]. split; [auto|]. split.
      - rewrite Enrm. apply (scale_unit fsqrt HS). rewrite <- Enrm. auto.
      - intros c Lc. rewrite scale_keys. auto. }
    destruct (serial_lanczos (scale_psi nrm psiR) HI fuel (fun _ l => l) e omega delta ks swm [[]] GSparse hop) as (basis & HC & H); auto; [right; auto|repeat constructor; apply exact_nil|discriminate|].
    rewrite scale_keys in HC. exists basis. split; [auto|]. destruct (H h' g) as [H1 H2]; [exact (eq_ind_r (fun l => In (h', Ok g) l) (in_eq (h', Ok g) []) EG)|]. split.
    + apply (lanczos_green_scale hop psiR (scale_psi nrm psiR)); auto. intros; apply scale_amp; auto.
    + intros Hks k Hk. rewrite vmul_nth, mesh_z_nth by auto. apply (fock_green_scale _ _ _ psiR (scale_psi nrm psiR)); auto; [intros; apply scale_amp; auto|]. apply H2; auto.
Qed.

Lemma entry_exact_of e psiR g : valid_psi n psiR -> entry_spec e psiR g -> (Z.of_nat (2 ^ n) <= ks)%Z ->
  length g = length omega /\ forall k, (k < length omega)%nat -> fock_green n (mkC (nth k omega 0 + e)%F delta) hop psiR (nth k g c0).
Proof.
  clear Hf. intros Hv (basis & HC & [HL _] & H) Hks. split; [rewrite HL; apply map_length|]. intros k Hk. rewrite <- mesh_z_nth by auto. apply H; auto.
  pose proof (basis_bound n basis (proj1 (proj2 HC)) ltac:(intros b Hb; pose proof (closure_valid _ _ _ _ _ HC) as HV; rewrite Forall_forall in HV; auto)). lia.
Qed.

Variable tOps : list (op_t F).
Hypothesis HT : Forall (wf_op n) tOps.
Variable psis : list (psi_t F).
Hypothesis HP : Forall (valid_psi n) psis.
Variable es : list F.
Notation GS ord R pm := (getSpectra fsqrt fuel (Z.of_nat n) op omega delta rs ks swm ord R tOps psis es pm).
Lemma es_lanczos ord R gs i t psi e tOp : (1 <= R)%nat -> In (Ok gs) (GS ord R EigenStates) ->
  nth_error psis i = Some psi -> nth_error es i = Some e -> nth_error tOps t = Some tOp ->
  exists psiR, applyOp (Z.of_nat n) tOp psi swm rs None = (None, Ok psiR) /\ entry_spec e psiR (gs i t).
Proof.
  intros HR Hin Ep Ee Et. destruct (es_cases fsqrt n op rs Hw Hr fuel Hf omega delta ks swm tOps HT psis HP es ord R HR) as [[(gs' & E & Hgs) _]|(HF & _ & _)].
  - rewrite E in Hin. apply repeat_spec in Hin. injection Hin as <-.
    destruct (Hgs i t psi e tOp Ep Ee Et) as (psiR & psiN & nrm & g & EA & Hv & Hal & En & Eg & ->).
    exists psiR. split; [auto|]. eapply entry_lanczos; eauto.
  - rewrite Forall_forall in HF. specialize (HF _ Hin). discriminate.
Qed.
Lemma hb_lanczos (ord : nat -> nat -> nat -> set_order) (Hord : forall t i q l, Permutation (ord t i q l) l) R i t e tOp g0 rest : (1 <= R)%nat -> GS ord R SHBuild = map Ok (g0 :: rest) ->
  nth_error es i = Some e -> nth_error tOps t = Some tOp ->
  exists psi cache psiR, nth_error psis i = Some psi /\ cache_ok n tOp swm rs cache /\
    snd (applyOp (Z.of_nat n) tOp psi swm rs (Some cache)) = Ok psiR /\ entry_spec e psiR (g0 i t) /\
    forall gr, In gr rest -> gr i t = map (fun x => creal (norm2 psiR) / mkC (x + e)%F delta) omega.
Proof.
  intros HR E Ee Et. unfold getSpectra in E. destruct (hb_run fsqrt fuel (Z.of_nat n) op omega delta rs ks swm ord psis es tOps R) as [st|l] eqn:Er; [|destruct l; discriminate].
  assert (Eg : hb_gs st = g0 :: rest). { revert E. generalize (hb_gs st) as a, (g0 :: rest) as b. induction a as [|x a IH]; intros [|y b] E; try discriminate; auto. simpl in E. injection E as -> E. f_equal; auto. }
  destruct (hb_run_done fsqrt n op rs Hw Hr fuel Hf omega delta Hd ks swm tOps HT psis HP es ord Hord R HR st Er) as [_ Hdone].
  destruct (Hdone t i) as (tOp' & e' & psiR & psiN & nrm & g & E1 & (E2 & En & HvR & HvN & Hal & psi & cache & Ep & Hv & Hc & EA) & Eg' & Ev).
  { apply nth_error_Some. congruence. } { apply nth_error_Some. congruence. }
  rewrite Et in E1. injection E1 as <-. rewrite Ee in E2. injection E2 as <-.
  unfold vals_at in Ev. rewrite Eg in Ev. cbn [map] in Ev. injection Ev as Ev0 Evr.
  exists psi, cache, psiR. split; [auto|]. split; [apply cache_ok_iff; auto|]. split; [auto|]. split; [rewrite Ev0; eapply entry_lanczos; eauto|].
  intros gr Hgr. assert (Hg : gr i t = vmul (nrm * nrm)%F (free_green omega delta e psiN)).
  { apply (in_map (fun gs : garr F => gs i t)) in Hgr. cbv beta in Hgr. rewrite Evr in Hgr. apply repeat_spec in Hgr. auto. }
  rewrite Hg. destruct (normalise_cases fsqrt psiR psiN nrm En) as (Enrm & EN & Hcase).
  assert (Hn2 : (nrm * nrm)%F = norm2 psiR) by (rewrite Enrm; apply (sqrt_norm fsqrt HS)). rewrite Hn2.
  destruct psiR as [|p0 psi0].
  - subst psiN. cbn [scale_psi map free_green]. unfold vmul. clear. induction omega as [|x l IH]; simpl; [auto|]. f_equal; auto.
    change (norm2 []) with (0%F : F). unfold cdiv. rewrite !creal_0. ring.
  - subst psiN. cbn [scale_psi map free_green]. unfold vmul. rewrite map_map. apply map_ext. intros x. unfold cdiv. ring.
Qed.
(* the tridiagonal matrices of the two Lanczos routines *)
Lemma serial_moments (h : mat F) psi0 nk al be : hermitian (length psi0) h -> ip (length psi0) (vf psi0) (vf psi0) = c1 ->
  get_tridiagonal_krylov_vectors fsqrt h psi0 nk = Ok (al, be) ->
  Z.of_nat (length al) = Z.min nk (Z.of_nat (length psi0)) /\
  forall p, (p < 2 * length al)%nat -> moment (length al) (tridiag al be) unit0 p = moment (length psi0) h (vf psi0) p.
Proof.
  intros HM H1 E.
  destruct (krylov_moments fsqrt HS (length psi0) h HM (mdot (length psi0) h) (fun v _ => mdot_len _ h v) (fun v i _ Hi => mdot_nth _ h v i Hi) psi0 eq_refl H1 nk al be E) as (A & _ & B). auto.
Qed.
Lemma local_moments (hs : list (mat F)) (M : mat F) psi0 nk al be rest : (forall i j, M i j = csum (fun mr : mat F => mr i j) hs) ->
  hermitian (length psi0) M -> ip (length psi0) (vf psi0) (vf psi0) = c1 ->
  get_tridiagonal_krylov_vectors_local fsqrt hs psi0 nk = Ok (al, be) :: rest ->
  Z.of_nat (length al) = Z.min nk (Z.of_nat (length psi0)) /\
  forall p, (p < 2 * length al)%nat -> moment (length al) (tridiag al be) unit0 p = moment (length psi0) M (vf psi0) p.
Proof. intros HM HH H1 E. apply serial_moments; auto. apply (local_rank0 fsqrt hs M psi0 nk _ rest); auto. Qed.
End A.
