(* Spectra of rotationally symmetric systems: C89. *)
From Coq Require Import Reals Lra Permutation.
From Verif Require Import M_Prelude M_Scalar M_PSR M_State M_Mpi M_Basis M_Expect M_Operators M_Hamiltonian M_Spectra M_Simulate M_Program.
From Verif Require Import S_Fock S_Ops S_Ham S_Basis S_Expect S_Green S_Operators S_Symmetry S_TimeReversal S_Dichroism S_Isotropic S_Thermal S_Sector S_SumRule S_Levels S_Rotation.
From Verif Require Import L_Scalar L_Sum L_Fock L_Ops L_Rotation3 L_Rotation4 L_Rotation5 P_Symmetry P_SumRule X_Util X_Reals X_Ops X_Symmetry X_SumRule X_Rotation.
From Verif Require S_Dict L_Dict L_Isotropic L_Operators7 L_Rotation L_Dichroism.
Local Open Scope Z_scope.

(* ---- C89: no dichroism with rotational symmetry; the generators are J = L + S or L, Hermitian, see rotation ---- *)
(* Which restrictions a generator respects: those on sets of orbitals that it does not connect with other orbitals. *)
Theorem C89_restrictions : forall (F : ofield) nb, wf_nbaths nb -> forall O, Forall (coord_ok nb) O -> forall (M : spinorb -> spinorb -> cx F) rs, wf_restr (Some rs) ->
  (forall x y, In x O -> In y O -> M x y <> c0 -> forall S, In S (map fst rs) -> In (coord_index nb x) S <-> In (coord_index nb y) S) ->
  keeps (n_orb nb) (Some rs) (generator nb O M).
Proof. exact (@keeps_sets). Qed.
(* Then the restricted Hamiltonian has the symmetries of the Hamiltonian. *)
Theorem C89_restricted : forall (F : ofield) n (op G : op_t F) rs h, S_Dict.no_small n op -> wf_restr rs -> keeps n rs G -> commute n op G -> restricted_op n op rs h -> commutes n h G.
Proof. exact (@keeps_commutes). Qed.
(* Complete levels consist of multiplets. *)
Theorem C89_whole : forall (F : ofield) n (A B : op_t F) es psis, whole_levels n A es psis -> commute n A B -> multiplets n es psis B.
Proof. exact (@whole_multiplets). Qed.
(* The mean over the states of multiplets, with weights that depend on the energy, is the same for all linear polarisations, *)
Theorem C89_linear : forall (F : ofield) (fsqrt : F -> F) pi gaunt, sqrt_laws fsqrt -> tensor_law fsqrt (gauntC fsqrt pi gaunt) 1 2 1 ->
  forall nb, wf_nbaths nb -> dkeys nb = [KInt 1; KInt 2] -> forall O M, rotation fsqrt nb O M ->
  forall es psis, length psis = length es -> orthonormal_states (n_orb nb) psis -> (forall c, multiplets (n_orb nb) es psis (generator nb O (M c))) ->
  forall (A D D' : op_t F) e e' (z p : F -> cx F) g g', (forall c, commute (n_orb nb) A (generator nb O (M c))) -> length e = 3%nat -> length e' = 3%nat -> length2 e = length2 e' ->
  getDipoleOperator fsqrt pi gaunt nb e = Ok D -> getDipoleOperator fsqrt pi gaunt nb e' = Ok D' ->
  (forall i, (i < length es)%nat -> response (n_orb nb) A (z (nth i es 0%F)) (transition (n_orb nb) D) (amp (nth i psis [])) (g i)) ->
  (forall i, (i < length es)%nat -> response (n_orb nb) A (z (nth i es 0%F)) (transition (n_orb nb) D') (amp (nth i psis [])) (g' i)) ->
  (csum (fun i => p (nth i es 0%F) * g i) (seq 0 (length es)) = csum (fun i => p (nth i es 0%F) * g' i) (seq 0 (length es)))%C.
Proof. intros F fsqrt pi gaunt HS HT nb Hw Hk O M HR es psis Hl Hon HM. exact (rot_response fsqrt pi gaunt HS HT nb Hw Hk O M HR es psis Hl Hon HM). Qed.
(* and for both circular polarisations. *)
Theorem C89_circular : forall (F : ofield) (fsqrt : F -> F) pi gaunt, sqrt_laws fsqrt -> tensor_law fsqrt (gauntC fsqrt pi gaunt) 1 2 1 ->
  forall nb, wf_nbaths nb -> dkeys nb = [KInt 1; KInt 2] -> forall O M, rotation fsqrt nb O M ->
  forall es psis, length psis = length es -> orthonormal_states (n_orb nb) psis -> (forall c, multiplets (n_orb nb) es psis (generator nb O (M c))) ->
  forall (A Dx Dy : op_t F) (z p : F -> cx F) g g', (forall c, commute (n_orb nb) A (generator nb O (M c))) ->
  getDipoleOperator fsqrt pi gaunt nb [1; 0; 0]%F = Ok Dx -> getDipoleOperator fsqrt pi gaunt nb [0; 1; 0]%F = Ok Dy ->
  (forall i, (i < length es)%nat -> response (n_orb nb) A (z (nth i es 0%F)) (two_transitions (n_orb nb) Dx Dy cI) (amp (nth i psis [])) (g i)) ->
  (forall i, (i < length es)%nat -> response (n_orb nb) A (z (nth i es 0%F)) (two_transitions (n_orb nb) Dx Dy (- cI)%C) (amp (nth i psis [])) (g' i)) ->
  (csum (fun i => p (nth i es 0%F) * g i) (seq 0 (length es)) = csum (fun i => p (nth i es 0%F) * g' i) (seq 0 (length es)))%C.
Proof. intros F fsqrt pi gaunt HS HT nb Hw Hk O M HR es psis Hl Hon HM. exact (rot_circular fsqrt pi gaunt HS HT nb Hw Hk O M HR es psis Hl Hon HM). Qed.
(* The Hamiltonian of the program without field: with complete levels no linear dichroism. *)
Theorem C89_hamiltonian : forall (F : ofield) (fsqrt : F -> F) pi gaunt fint, sqrt_laws fsqrt -> tensor_law fsqrt (gauntC fsqrt pi gaunt) 1 2 1 ->
  forall nb hp h0, wf_nbaths nb -> dkeys nb = [KInt 1; KInt 2] -> ham_ok fint nb hp h0 -> multipole_laws fsqrt (gauntC fsqrt pi gaunt) hp ->
  forall O M, rotation fsqrt nb O M -> (forall c l, In l [1; 2] -> acts_in O (M c) l (total_ang fsqrt l c)) ->
  hp_hx hp = 0%F -> hp_hy hp = 0%F -> hp_hz hp = 0%F -> (forall c, commute (n_orb nb) (indexed nb h0) (generator nb O (M c))) ->
  forall hOp, get_hamiltonian_operator fsqrt pi gaunt fint nb hp h0 = Ok hOp -> forall es psis, whole_levels (n_orb nb) hOp es psis ->
  forall (D D' : op_t F) e e' (z p : F -> cx F) g g', length e = 3%nat -> length e' = 3%nat -> length2 e = length2 e' ->
  getDipoleOperator fsqrt pi gaunt nb e = Ok D -> getDipoleOperator fsqrt pi gaunt nb e' = Ok D' ->
  (forall i, (i < length es)%nat -> response (n_orb nb) hOp (z (nth i es 0%F)) (transition (n_orb nb) D) (amp (nth i psis [])) (g i)) ->
  (forall i, (i < length es)%nat -> response (n_orb nb) hOp (z (nth i es 0%F)) (transition (n_orb nb) D') (amp (nth i psis [])) (g' i)) ->
  (csum (fun i => p (nth i es 0%F) * g i) (seq 0 (length es)) = csum (fun i => p (nth i es 0%F) * g' i) (seq 0 (length es)))%C.
Proof.
  intros F fsqrt pi gaunt fint HS HT nb hp h0 Hw Hk Hh Hm O M HR HJ X Y Z H0 hOp E es psis HW D D' e e' z p g g'. pose proof HR as (HO & HOk & _).
  assert (HC : forall c, commute (n_orb nb) hOp (generator nb O (M c))) by (intros c; exact (C75_hamiltonian_J F fsqrt pi gaunt fint nb hp h0 Hw Hh HS Hm O (M c) c HO HOk (HJ c) X Y Z (H0 c) hOp E)).
  exact (C89_linear F fsqrt pi gaunt HS HT nb Hw Hk O M HR es psis (proj1 HW) (proj1 (proj2 HW)) (fun c => C89_whole F (n_orb nb) hOp _ es psis HW (HC c)) hOp D D' e e' z p g g' HC).
Qed.
(* The written columns: polarisations of the same length give the same spectrum. *)
Theorem C89_absorption : forall (F : ofield) (fsqrt fexp : F -> F) pi gaunt, sqrt_laws fsqrt -> exp_laws fexp ->
  forall nb O (M : component -> spinorb -> spinorb -> cx F) (k_B T : F) fuel (op : op_t F) rs ks swm (es : list F) psis ord R w d epsilons tOps cols rest,
  tensor_law fsqrt (gauntC fsqrt pi gaunt) 1 2 1 -> wf_nbaths nb -> dkeys nb = [KInt 1; KInt 2] -> rotation fsqrt nb O M ->
  wf_op (n_orb nb) op -> assert_hermitian op = Ok tt -> S_Dict.no_small (n_orb nb) op -> (forall c, commute (n_orb nb) op (generator nb O (M c))) ->
  wf_restr rs -> (forall c, keeps (n_orb nb) rs (generator nb O (M c))) -> (2 ^ n_orb nb < fuel)%nat -> Z.of_nat (2 ^ n_orb nb) <= ks -> (swm <= 0)%F -> (k_B * T)%F <> 0%F ->
  Forall (valid_psi (n_orb nb)) psis -> length psis = length es -> orthonormal_states (n_orb nb) psis -> (forall c, multiplets (n_orb nb) es psis (generator nb O (M c))) ->
  (forall t i q l, Permutation (ord t i q l) l) -> (1 <= R)%nat -> d <> 0%F -> Forall (fun e => length e = 3%nat) epsilons -> getDipoleOperators fsqrt pi gaunt nb epsilons = Ok tOps ->
  absorption fsqrt fexp k_B fuel (Z.of_nat (n_orb nb)) op rs ks swm ord R psis es T w d tOps = Ok cols :: rest ->
  forall a b, (a < length epsilons)%nat -> (b < length epsilons)%nat -> length2 (nth a epsilons []) = length2 (nth b epsilons []) -> nth (S (S a)) cols [] = nth (S (S b)) cols [].
Proof.
  intros F fsqrt fexp pi gaunt HS HE nb O M k_B T fuel op rs ks swm es psis ord R w d epsilons tOps cols rest H1 H2 H3 H4 H5 H6 H7 H8 H9 H10 H11 H12 H13 H14 H15 H16 H17 H18 H19.
  exact (rot_absorption fsqrt fexp pi gaunt HS HE nb O M k_B T fuel op rs ks swm es psis ord R w d epsilons tOps cols rest H1 H2 H3 H4 H5 H6 H9 H11 H12 H13 H14 H10
    (fun h c Hh => C89_restricted F (n_orb nb) op _ rs h H7 H9 (H10 c) (H8 c) Hh) H15 H16 H17 H18 H19).
Qed.
Print Assumptions C89_restrictions. Print Assumptions C89_restricted. Print Assumptions C89_whole. Print Assumptions C89_linear. Print Assumptions C89_circular. Print Assumptions C89_hamiltonian. Print Assumptions C89_absorption.

(* p6 d1: ten states of one energy, L + S, the number of 3d electrons as Hamiltonian, at most six electrons in 2p and at most two in 3d *)
Definition ex_restr : restrictions_t := [(zrange 6, (0, 6)); (map (fun i => 6 + i) (zrange 10), (0, 2))].
Lemma J_keeps c : keeps (n_orb (pd_baths 0)) (Some ex_restr) (generator (pd_baths 0) pd_orbs (@J_pd RF sqrt c)).
Proof.
  apply C89_restrictions; [apply pd_wf; lia|apply pd_orbs_ok| |].
  - cbn [wf_restr]. apply Forall_cons; [|apply Forall_cons; [|constructor]]; apply (nodupb_ok (A := Z)); vm_compute; reflexivity.
  - intros x y Hx Hy N S HS. destruct (@J_block RF sqrt c x y N) as (l & s & m & s' & m' & -> & ->).
    assert (B : forallb (fun S => forallb (fun x => forallb (fun y => match x, y with SImp l _ _, SImp l' _ _ => if l =? l' then Bool.eqb (existsb (Z.eqb (coord_index (pd_baths 0) x)) S) (existsb (Z.eqb (coord_index (pd_baths 0) y)) S) else true | _, _ => true end) pd_orbs) pd_orbs) (map fst ex_restr) = true) by (vm_compute; reflexivity).
    rewrite forallb_forall in B. specialize (B S HS). cbv beta in B. rewrite forallb_forall in B. specialize (B _ Hx). cbv beta in B. rewrite forallb_forall in B. specialize (B _ Hy). cbv beta iota in B. rewrite Z.eqb_refl in B. apply Bool.eqb_prop in B.
    assert (EE : forall i, existsb (Z.eqb i) S = true <-> In i S).
    { intros i. rewrite existsb_exists. split; [intros (z & Hz & Ez); apply Z.eqb_eq in Ez; congruence|intros Hi; exists i; split; [auto|apply Z.eqb_refl]]. }
    rewrite <- !EE, B. tauto.
Qed.
Example C89_hypotheses : let nb := pd_baths 0 in let n := n_orb nb in let G c := generator nb pd_orbs (@J_pd RF sqrt c) in
  @sqrt_laws RF sqrt /\ @exp_laws RF exp /\ @tensor_law RF sqrt (@gauntC RF sqrt PI gaunt_pd) 1 2 1 /\ wf_nbaths nb /\ dkeys nb = [KInt 1; KInt 2] /\ @rotation RF sqrt nb pd_orbs (@J_pd RF sqrt) /\
  wf_op n (@Nd_op RF nb) /\ assert_hermitian (@Nd_op RF nb) = Ok tt /\ @S_Dict.no_small RF n (Nd_op nb) /\ (forall c, commute n (Nd_op nb) (G c)) /\
  wf_restr (Some ex_restr) /\ (forall c, keeps n (Some ex_restr) (G c)) /\
  Forall (valid_psi n) (@prods RF p6d1) /\ length (@prods RF p6d1) = 10%nat /\ @orthonormal_states RF n (prods p6d1) /\ (forall c, multiplets n (repeat (@f1 RF) 10) (prods p6d1) (G c)) /\
  @J_pd RF sqrt Cplus (SImp 2 0 2) (SImp 2 0 1) <> (c0 : cx RF).
Proof.
  cbv zeta. assert (W : wf_op (n_orb (pd_baths 0)) (@Nd_op RF (pd_baths 0))) by wf_op_ex.
  assert (LP : Forall (fun s => length s = n_orb (pd_baths 0)) p6d1) by (apply Forall_forall; intros s Hs; assert (B : forallb (fun s => Nat.eqb (length s) 16) p6d1 = true) by (vm_compute; reflexivity); rewrite forallb_forall in B; apply Nat.eqb_eq, B, Hs).
  assert (ND : NoDup p6d1) by (apply nodupb_ok; vm_compute; reflexivity).
  split; [apply sqrt_laws_R|]. split; [apply exp_laws_R|]. split; [apply tensor_pd|]. split; [apply pd_wf; lia|]. split; [reflexivity|]. split; [apply J_rotation, pd_orbs_ok|]. split; [exact W|].
  split; [apply (proj2 (assert_hermitian_iff _ (proj1 W))); split; [|apply Nd_dget]|].
  { destruct W as [_ W]. eapply Forall_impl; [|exact W]. intros ph Hp. eapply Forall_impl; [|exact Hp]. intros l [_ Hl]. exact Hl. }
  split; [apply Nd_small|]. split; [intros c; apply Nd_commute; [apply pd_wf; lia|apply pd_orbs_ok]|].
  split. { cbn [wf_restr]. apply Forall_cons; [|apply Forall_cons; [|constructor]]; apply (nodupb_ok (A := Z)); vm_compute; reflexivity. }
  split; [apply J_keeps|]. split.
  { apply Forall_forall. intros p Hp. unfold prods in Hp. apply in_map_iff in Hp as (s & <- & Hs). rewrite Forall_forall in LP. split; [constructor; [intros []|constructor]|]. intros k [<-|[]]. exists s. split; [apply LP, Hs|reflexivity]. }
  split; [reflexivity|]. split; [apply prods_orthonormal; auto|]. split.
  { intros c. apply (prods_multiplets (n_orb (pd_baths 0)) _ _ p6d1); auto. intros t s Hs _. apply (@hops_closed RF sqrt (pd_baths 0) c p6d1 p6d1_hops t s Hs). }
  unfold J_pd, in_shells, total_ang, on_m, on_spin, ang, half_spin. cbn [fst snd Z.eqb Pos.eqb Z.add andb]. intros C. apply (f_equal re) in C. change (sqrt (@fofZ RF (2 * 3 - 1 * 2)) + 0 = 0)%R in C. rewrite RofZ in C.
  assert (0 < sqrt (IZR (2 * 3 - 1 * 2)))%R by (apply sqrt_lt_R0, IZR_lt; reflexivity). lra.
Qed.

(* The multiplets have to be complete: one of the ten states of p6 d9 alone absorbs the two circular polarisations differently. *)
Add Field CfieldR : (@c_field RF).
Lemma d9_mean : @mean RF (pd_baths 0) (Lz_terms 2) (amp d9_psi) = cofZ (-2).
Proof.
  unfold mean, vdot. assert (L9 : length d9 = n_orb (pd_baths 0)) by reflexivity. assert (A9 : amp d9_psi d9 = (c1 : cx RF)) by apply C87_hypotheses.
  rewrite (csum_single _ (allcfg (n_orb (pd_baths 0))) d9 (allcfg_NoDup _) (proj2 (allcfg_In _ _) L9)).
  - rewrite A9, cconj_1. unfold d9_psi. rewrite (opv_prod (n_orb (pd_baths 0))) by exact L9. unfold opelem, one_body, Lz_terms. rewrite !csum_map. cbn [fst snd].
    transitivity (csum (fun sm => cofZ (snd sm * pelem (hop (pd_baths 0) (orb 2 sm) (orb 2 sm)) d9 d9)) (sites 2) : cx RF).
    + match goal with |- (c1 * ?r)%C = _ => transitivity r; [ring|] end. apply csum_ext. intros sm _. rewrite cofZ_mul. reflexivity.
    + transitivity (cofZ (zsum (map (fun sm => snd sm * pelem (hop (pd_baths 0) (orb 2 sm) (orb 2 sm)) d9 d9) (sites 2))) : cx RF).
      * generalize (sites 2). intros l. induction l as [|sm l IH]; [reflexivity|]. cbn [csum map]. unfold zsum in *. cbn [fold_right]. rewrite cofZ_add, IH. reflexivity.
      * apply (f_equal (@cofZ RF)). vm_compute. reflexivity.
  - intros t Ht N. apply allcfg_In in Ht. unfold d9_psi. rewrite (amp_prod (n_orb (pd_baths 0)) d9 t) by auto. destruct (list_eq_dec Bool.bool_dec t d9); [congruence|]. rewrite cconj_0. ring.
Qed.
Lemma zero_response n (z : cx RF) T v : z <> c0 -> response n [] z T v (weight n T v / z)%C.
Proof.
  intros Hz. assert (E : forall x t, opv n ([] : op_t RF) x t = c0) by (intros; unfold opv; apply csum_zero; intros; unfold opelem; cbn; ring).
  exists (fun t => T v t / z)%C. split; [|split].
  - intros t _. rewrite E. field. auto.
  - unfold weight, vdot. transitivity (csum (fun t => cinv z * (cconj (T v t) * T v t))%C (allcfg n)).
    + apply csum_ext. intros t _. field. auto.
    + rewrite csum_mul_l. field. auto.
  - intros x H t Ht. specialize (H t Ht). rewrite E in H. rewrite <- H. field. auto.
Qed.
Theorem C89_incomplete_refuted : exists nb O M (es : list RF) (psis : list (psi_t RF)) (Dx Dy : op_t RF) (z : cx RF) (g g' : nat -> cx RF),
  wf_nbaths nb /\ dkeys nb = [KInt 1; KInt 2] /\ @rotation RF sqrt nb O M /\ length psis = length es /\ orthonormal_states (n_orb nb) psis /\ (forall c, commute (n_orb nb) ([] : op_t RF) (generator nb O (M c))) /\
  @getDipoleOperator RF sqrt PI gaunt_pd nb [1; 0; 0]%F = Ok Dx /\ @getDipoleOperator RF sqrt PI gaunt_pd nb [0; 1; 0]%F = Ok Dy /\
  (forall i, (i < length es)%nat -> eigenvector (n_orb nb) [] (nth i es 0%F) (amp (nth i psis []))) /\
  (forall i, (i < length es)%nat -> response (n_orb nb) [] z (two_transitions (n_orb nb) Dx Dy cI) (amp (nth i psis [])) (g i)) /\
  (forall i, (i < length es)%nat -> response (n_orb nb) [] z (two_transitions (n_orb nb) Dx Dy (- cI)%C) (amp (nth i psis [])) (g' i)) /\
  csum g (seq 0 (length es)) <> csum g' (seq 0 (length es)).
Proof.
  destruct C87_hypotheses as (HS & HT & HA & Hw & Hk & Hv & _ & _ & HF & _).
  pose proof (@L_Isotropic.sqrt2_nz RF sqrt HS) as H2.
  destruct (@L_Operators7.dip_ok RF sqrt PI gaunt_pd (pd_baths 0) Hw 1 2 Hk 1%F 0%F 0%F [] H2) as (Dx & Ex & _).
  destruct (@L_Operators7.dip_ok RF sqrt PI gaunt_pd (pd_baths 0) Hw 1 2 Hk 0%F 1%F 0%F [] H2) as (Dy & Ey & _).
  set (n := n_orb (pd_baths 0)). set (v := amp d9_psi). assert (NI : cI <> (c0 : cx RF)) by (intros C; apply (f_equal im) in C; cbn in C; lra).
  exists (pd_baths 0), pd_orbs, (@J_pd RF sqrt), [0%F], [d9_psi], Dx, Dy, cI, (fun _ => weight n (two_transitions n Dx Dy cI) v / cI)%C, (fun _ => weight n (two_transitions n Dx Dy (- cI)%C) v / cI)%C.
  assert (E : forall x t, opv n ([] : op_t RF) x t = c0) by (intros; unfold opv; apply csum_zero; intros; unfold opelem; cbn; ring).
  assert (I0 : forall i, (i < length [0%F : RF])%nat -> i = 0%nat) by (cbn; intros; lia).
  split; [auto|]. split; [auto|]. split; [apply J_rotation, pd_orbs_ok|]. split; [reflexivity|]. split; [|split; [|split; [exact Ex|split; [exact Ey|split; [|split; [|split]]]]]].
  - apply (prods_orthonormal (F := RF) n [d9]); [constructor; [intros []|constructor]|repeat constructor].
  - intros c x t _. fold n. rewrite E. unfold opv. symmetry. apply csum_zero. intros s _. fold n. change (csum (fun s0 => opelem [] s s0 * x s0)%C (allcfg n)) with (opv n ([] : op_t RF) x s). rewrite E. ring.
  - intros i Hi. rewrite (I0 i Hi). intros t _. fold n. rewrite E. cbn [nth]. change (creal (0%F : RF)) with (@c0 RF). ring.
  - intros i Hi. rewrite (I0 i Hi). cbn [nth]. apply zero_response. exact NI.
  - intros i Hi. rewrite (I0 i Hi). cbn [nth]. apply zero_response. exact NI.
  - cbn [length seq csum]. pose proof (C87_dichroism RF sqrt PI gaunt_pd HS HT (pd_baths 0) Hw Hk v HF Dx Dy Ex Ey) as R. cbv zeta in R. unfold v in R at 3. rewrite d9_mean in R. fold n in R.
    set (a := weight n (two_transitions n Dx Dy cI) v) in *. set (b := weight n (two_transitions n Dx Dy (- cI)%C) v) in *. intros C.
    assert (Eab : a = b). { transitivity ((a / cI + c0) * cI)%C; [field; exact NI|]. rewrite C. field. exact NI. }
    rewrite Eab in R. apply (f_equal re) in R. match type of R with _ = re (- (creal ?aa * _))%C => change aa with (@gauntC RF sqrt PI gaunt_pd 1 2 2 1 1 * @gauntC RF sqrt PI gaunt_pd 1 2 2 1 1)%R in R end. rewrite HA in R. cbn in R. lra.
Qed.
Print Assumptions C89_incomplete_refuted.
