(* Electrons without interaction: the core level, and the crystal-field variant. *)
From Coq Require Import Permutation Ring Field.
From Verif Require Import M_Prelude M_Scalar M_PSR M_State M_Mpi M_Hamiltonian M_Basis M_Expect M_Operators M_Lanczos M_Average M_Spectra M_Simulate M_RIXS M_Program S_Fock S_Ops S_Ham S_Green S_Spectra S_Basis S_Expect S_Operators S_Symmetry S_TimeReversal S_Thermal S_Moments S_Spectrum S_Spectrum3 S_RIXS S_Sector S_Unitary S_Unitary2 S_Free.
From Verif Require Import L_Scalar L_Sum L_Dict L_Fock L_State L_Ops L_ApplyOp L_FockP L_Lanczos2 L_Green L_Green3 L_Green4 L_Average L_Spectra2 L_Spectra6 L_Program L_RIXS2 L_Index L_Expect L_Symmetry L_Program7 L_Program9 L_Sector L_Levels2 L_Ham L_Operators L_Operators2 L_Operators7 L_Operators8 L_Operators9 L_Operators10 L_Shift L_Shift3 L_Unitary L_Unitary2 L_Unitary3 L_Unitary4 L_Free L_Free2 L_Free3.
From Verif Require S_Dict.
Local Open Scope Z_scope.

Section S.
Context {F : ofield}.
Add Field Ff : (f_field F).
Add Field Cf : (@c_field F).
Local Open Scope cx_scope.
Lemma occupied_up n orbs (v : config -> cx F) i t : occupied n orbs v -> In i orbs -> (i < n)%nat -> length t = n -> C_ i v t = c0.
Proof.
  intros HO Hi Hn Ht. unfold C_, vpull, flip. destruct (nth_error t i) as [b|] eqn:En; [|reflexivity]. destruct b; [|reflexivity]. cbn [Bool.eqb].
  destruct (ceqb_spec (v (upd t i false)) c0) as [E|E]; [rewrite E; ring|]. exfalso.
  assert (L : length (upd t i false) = n) by (rewrite upd_length; lia). specialize (HO i _ Hi L E). rewrite nth_upd, Nat.eqb_refl in HO by lia. discriminate.
Qed.
Section H.
Variables fsqrt fexp : F -> F.
Hypothesis HS : sqrt_laws fsqrt.
Hypothesis HE : exp_laws fexp.
Variable k_B T : F.
Variables (n fuel : nat) (op : op_t F) (rs : option restrictions_t) (ks : Z) (swm : F) (h : nat -> nat -> cx F).
Hypothesis HF : free_hamiltonian n h op.
Hypothesis Hop : wf_op n op.
Hypothesis HA : assert_hermitian op = Ok tt.
Hypothesis HN : S_Dict.no_small n op.
Hypothesis Hr : wf_restr rs.
Hypothesis Hf : (Nat.pow 2 n < fuel)%nat.
Hypothesis Hks : (Z.of_nat (Nat.pow 2 n) <= ks)%Z.
Hypothesis Hs : (swm <= 0)%F.
Hypothesis HkT : (k_B * T)%F <> 0%F.
Variables (es : list F) (psis : list (psi_t F)).
Hypothesis Hne : es <> [].
Hypothesis HV : eigenstates n op es psis.
Hypothesis HM : forall i, (i < length es)%nat -> room_for_one n rs (amp (nth i psis [])).
Variable ord : nat -> nat -> nat -> set_order.
Hypothesis Ho : forall t i q l, Permutation (ord t i q l) l.
Variable R : nat.
Hypothesis HR : (1 <= R)%nat.
Notation spec w d tOps := (getSpectra fsqrt fuel (Z.of_nat n) op w d rs ks swm ord R tOps psis es SHBuild).
Variables (wl : list F) (d : F) (G : nat -> nat -> nat -> cx F) (orbs : list nat).
Hypothesis Hd : d <> 0%F.
Hypothesis HG : forall k, (k < length wl)%nat -> one_particle_green n h (mkC (nth k wl 0%F) d) (G k).
Hypothesis Hb : Forall (fun i => (i < n)%nat) orbs.
Hypothesis HO : forall i, (i < length es)%nat -> occupied n orbs (amp (nth i psis [])).
Lemma core_point gP l' : spec (map fopp wl) (- d)%F (map (orbital_op lab_a) orbs) = Ok gP :: l' ->
  forall i t k, (i < length es)%nat -> (t < length orbs)%nat -> (k < length wl)%nat -> - nth k (gP i t) c0 = G k (nth t orbs O) (nth t orbs O).
Proof.
  intros E' i t k Hi Ht Hk. destruct (L_Green4.restricted_op_exists n op rs) as [hm Hm]. pose proof (fopp_neq0 d Hd) as Hd'.
  destruct (spec_green fsqrt HS n fuel op rs ks swm Hop HA Hr Hf Hks Hs es R R HR HR (map fopp wl) (- d)%F (map (orbital_op lab_a) orbs) ord R psis gP l' hm Ho HR Hd' (orbs_wf n orbs Hb lab_a (or_intror eq_refl)) (vpsis n op es psis HV) (proj1 HV) Hm E' t k) with (i := i) as (p' & Ep' & Gp'); [rewrite map_length; auto|rewrite map_length; auto|auto|].
  rewrite orbs_nth in Ep' by auto. destruct (proj2 HV i Hi) as (V1 & V2 & V3). pose proof (orb_lt n orbs Hb t Ht) as Hl.
  pose proof (applied_image n _ rs swm _ p' (orbital_wf n lab_a _ Hl (or_intror eq_refl)) Hr V1 Hs Ep') as A2.
  assert (A1 : op_image n (orbital_op lab_c (nth t orbs O)) rs (nth i psis []) []).
  { intros s Hss. split; [|reflexivity]. intros _. transitivity (opv n (orbital_op lab_c (nth t orbs O)) (amp (nth i psis [])) s); [|reflexivity].
    rewrite orbital_vec by auto. change (Ascii.eqb lab_c lab_c) with true. symmetry. apply (occupied_up n orbs); auto. apply nth_In. auto. }
  pose proof (free_pair n h op rs HF Hop HA HN (nth i es 0%F) (nth i psis []) V3 (HM i Hi) _ (G k) (HG k Hk) (nth t orbs O) [] p' c0 (nth k (gP i t) c0) hm Hl Hm A1 A2) as X.
  rewrite V2 in X. transitivity (c0 - nth k (gP i t) c0); [ring|]. rewrite X; [ring| |].
  - apply (fock_green_nil n op rs Hop HA hm Hm). cbn [im cadd creal]. intros E. apply Hd. rewrite <- E. ring.
  - assert (Ez : - mkC (nth k wl 0%F) d + creal (nth i es 0%F) = mkC (nth k (map fopp wl) 0 + nth i es 0)%F (- d)%F).
    { rewrite (nth_indep (map fopp wl) 0%F (fopp 0%F)) by (rewrite map_length; auto). rewrite map_nth. unfold cadd, copp, creal. cbn [re im]. f_equal; ring. }
    rewrite Ez. exact Gp'.
Qed.
Lemma emission_free cols rest :
  emission fsqrt fexp k_B fuel (Z.of_nat n) op rs ks swm ord R psis es T wl d (map (orbital_op lab_a) orbs) = Ok cols :: rest -> free_file wl orbs G cols.
Proof.
  intros E0. set (ps := map (orbital_op lab_a) orbs) in *. pose proof (fopp_neq0 d Hd) as Hd'. unfold emission in E0. apply head_bind in E0 as (gP & r2 & C2 & E0).
  assert (L2 : forall i t, length (gP i t) = length wl) by (intros i t; transitivity (length (map fopp wl)); [|apply map_length]; exact (spec_len fsqrt n fuel op rs ks swm es (map fopp wl) (- d)%F ps ord R psis gP r2 Hd' C2 i t)).
  apply (columns_mean fexp HE) in E0; [|auto|].
  2: { intros i t. unfold gneg. rewrite map_length, L2. auto. }
  destruct E0 as (total & parts & -> & Lp & Lt & Hp & Ht). assert (Lo : length ps = length orbs) by apply map_length. rewrite Lo in Lp.
  exists total, parts. split; [auto|]. split; [auto|]. split; [auto|]. split; [|exact Ht]. intros t Htt. rewrite <- Lo in Htt. destruct (Hp t Htt) as [P1 P2]. split; [exact P1|]. intros k Hk. rewrite (P2 k Hk). rewrite Lo in Htt.
  apply mean_const; auto. intros i Hi. cbv beta. unfold gneg. rewrite nth_opp. rewrite (core_point gP r2 C2 i t k Hi Htt Hk). reflexivity.
Qed.
End H.
Definition shell_orbs nb l := map (fun x => Z.to_nat (coord_index nb x)) (S_Operators.shell_list l).
Lemma pes_orbitals_l nb lab l ops : wf_nbaths nb -> (0 <= l)%Z -> In l (angs nb) -> getPESOperators lab nb l = Ok ops ->
  ops = map (@orbital_op F lab) (shell_orbs nb l) /\ Forall (fun i => (i < n_orb nb)%nat) (shell_orbs nb l).
Proof.
  intros W Hl Hd E. rewrite (pes_ok nb W lab l Hd) in E. apply ok_inj in E. subst ops.
  assert (C : forall x, In x (S_Operators.shell_list l) -> exists i, coord_index nb x = Z.of_nat i /\ (i < n_orb nb)%nat).
  { intros x Hx. apply (coord_lt nb W). unfold S_Operators.shell_list in Hx. apply in_flat_map in Hx as (s & Hs & Hx). apply in_map_iff in Hx as (m & <- & Hm). unfold mrange in Hm. apply zrange2_In in Hm. destruct Hs as [<-|[<-|[]]]; apply imp_ok; auto; lia. }
  unfold shell_orbs. split.
  - rewrite map_map. apply map_ext_in. intros x Hx. destruct (C x Hx) as (i & Ei & _). unfold orbital_op. rewrite Ei, Nat2Z.id. reflexivity.
  - apply Forall_forall. intros i Hi. apply in_map_iff in Hi as (x & <- & Hx). destruct (C x Hx) as (j & -> & Hj). rewrite Nat2Z.id. exact Hj.
Qed.
Lemma core_program (fint : F -> Z) (fsqrt fexp : F -> F) pi gaunt : sqrt_laws fsqrt -> exp_laws fexp -> (forall z, fint (fofZ z) = z) ->
  (forall l1 l2 l3 m1 m2 m3, gaunt l1 l2 l3 m1 m2 m3 = gaunt l3 l2 l1 m3 m2 m1) -> (forall l1 l2 l3 m1 m2 m3, gaunt l1 l2 l3 (- m1) (- m2) (- m3) = gaunt l1 l2 l3 m1 m2 m3)%Z ->
  forall nb hp n3d (h0 : sop_t F) hOp, wf_nbaths nb -> In 1%Z (angs nb) -> In 2%Z (angs nb) -> dget (hp_n0imps hp) 2%Z = Some n3d -> dget (hp_n0imps hp) 1%Z = Some 6%Z ->
  (5 <= length (hp_Fdd hp))%nat -> (1 <= length (hp_Fpd hp))%nat -> (4 <= length (hp_Gpd hp))%nat -> no_interaction hp ->
  NoDup (dkeys h0) -> assert_hermitian h0 = Ok tt -> op_in nb h0 -> only_hops h0 -> get_hamiltonian_operator fsqrt pi gaunt fint nb hp h0 = Ok hOp -> S_Dict.no_small (n_orb nb) hOp ->
  forall fuel rs ks swm es psis k_B T ord R, wf_restr rs -> (2 ^ n_orb nb < fuel)%nat -> (Z.of_nat (2 ^ n_orb nb) <= ks)%Z -> (swm <= 0)%F -> (k_B * T)%F <> 0%F -> es <> [] ->
  eigenstates (n_orb nb) hOp es psis -> (forall i, (i < length es)%nat -> room_for_one (n_orb nb) rs (amp (nth i psis []))) ->
  (forall i, (i < length es)%nat -> occupied (n_orb nb) (map (fun x => Z.to_nat (coord_index nb x)) (S_Operators.shell_list 1)) (amp (nth i psis []))) -> (forall t i q l, Permutation (ord t i q l) l) -> (1 <= R)%nat ->
  forall wl d ops cols rest G, d <> 0%F -> getPhotoEmissionOperators nb 1 = Ok ops ->
  (forall k, (k < length wl)%nat -> one_particle_green (n_orb nb) (hop_elements hOp) (mkC (nth k wl 0%F) d) (G k)) ->
  emission fsqrt fexp k_B fuel (Z.of_nat (n_orb nb)) hOp rs ks swm ord R psis es T wl d ops = Ok cols :: rest ->
  free_file wl (map (fun x => Z.to_nat (coord_index nb x)) (S_Operators.shell_list 1)) G cols.
Proof.
  intros HS HE HI Hg1 Hg2 nb hp n3d h0 hOp W H1 H2 N3 N2 L1 L2 L3 HZ Hn Hh Hi Ho EH HN fuel rs ks swm es psis k_B T ord R Hr Hf Hk Hs HT Hne HV HM HO Hor HR wl d ops cols rest G Hd Ep HG E.
  destruct (free_total fint HI fsqrt pi gaunt Hg1 Hg2 nb W H1 H2 hp n3d N3 N2 L1 L2 L3 HZ h0 Hn Hh Hi Ho) as (hOp' & EH' & Wf & HA & HF). rewrite EH in EH'. apply ok_inj in EH'. subst hOp'.
  unfold getPhotoEmissionOperators in Ep. destruct (pes_orbitals_l nb lab_a 1 ops W ltac:(lia) H1 Ep) as [-> Hb].
  exact (emission_free fsqrt fexp HS HE k_B T (n_orb nb) fuel hOp rs ks swm (hop_elements hOp) HF Wf HA HN Hr Hf Hk Hs HT es psis Hne HV HM ord Hor R HR wl d G _ Hd HG Hb HO cols rest E).
Qed.
(* the Hamiltonian of the crystal-field variant *)
Lemma free_CF (fint : F -> Z) (fsqrt : F -> F) pi gaunt nb hp : sqrt_laws fsqrt -> wf_nbaths nb -> forall nv params b nB, b <> OtherBasis -> dget nb (KInt 2) = Some nB -> dget nv (KInt 2) = Some 10%Z -> nB = 10%Z \/ nB = 20%Z ->
  exists h0, get_CF_hamiltonian fsqrt nb nv (read_h0_CF_file params) b = Ok h0 /\ NoDup (dkeys h0) /\ assert_hermitian h0 = Ok tt /\ op_in nb h0 /\ only_hops h0 /\
    get_hamiltonian_operator_using_CF fsqrt pi gaunt fint nb nv hp params b = get_hamiltonian_operator fsqrt pi gaunt fint nb hp h0.
Proof.
  intros SL W nv params b nB Hb HB HV HnB. destruct (total_CF fint fsqrt pi gaunt nb hp W nv params b nB 10%Z Hb HB HV eq_refl HnB) as (A & EA & NA & HA & IA & _ & TA).
  destruct (CF_spec fsqrt SL nb nv (read_h0_CF_file params) b nB 10 Hb HB HV) as (A' & u & EA' & _ & _ & _ & _ & _ & _ & _ & SA). rewrite EA in EA'. apply ok_inj in EA'. subst A'.
  exists A. repeat (split; [assumption|]). split; [|exact TA]. intros p Hp. destruct (cf_hops _ _ _ _ _ _ _ _ _ _ _ _ _ _ SA p Hp) as (x & y & -> & _). eauto.
Qed.
End S.
