(* Electrons without interaction: the columns of PS.dat. *)
From Coq Require Import Permutation Ring Field.
From Verif Require Import M_Prelude M_Scalar M_PSR M_State M_Mpi M_Hamiltonian M_Basis M_Expect M_Operators M_Lanczos M_Average M_Spectra M_Simulate M_RIXS M_Program S_Fock S_Ops S_Ham S_Green S_Spectra S_Basis S_Expect S_Operators S_Symmetry S_TimeReversal S_Thermal S_Moments S_Spectrum S_Spectrum3 S_RIXS S_Sector S_Unitary S_Free.
From Verif Require Import L_Scalar L_Sum L_Dict L_Fock L_State L_Ops L_ApplyOp L_FockP L_Lanczos2 L_Green L_Green3 L_Green4 L_Average L_Spectra6 L_Program L_RIXS2 L_Expect L_Symmetry L_Program7 L_Program9 L_Sector L_Levels2 L_Ham L_Shift L_Shift3 L_Unitary L_Unitary2 L_Unitary3 L_Free X_Gauss.
From Verif Require S_Dict.
Local Open Scope Z_scope.

Section S.
Context {F : ofield}.
Add Field Ff : (f_field F).
Add Field Cf : (@c_field F).
Local Open Scope cx_scope.
Lemma orbital_vec n lab i (v : config -> cx F) t : lab = lab_c \/ lab = lab_a -> length t = n -> opv n (orbital_op lab i) v t = if Ascii.eqb lab lab_c then C_ i v t else A_ i v t.
Proof.
  intros Hl Ht. rewrite opv_pvec; [| |auto].
  - unfold orbital_op. cbn [csum fst snd pvec]. rewrite Nat2Z.id. destruct Hl as [-> | ->]; cbn [Ascii.eqb]; unfold C_, A_; [change (Ascii.eqb lab_c lab_c) with true|change (Ascii.eqb lab_a lab_c) with false]; cbn [negb]; ring.
  - unfold orbital_op. constructor; [|constructor]. cbn [fst]. constructor; [|constructor]. destruct Hl as [-> | ->]; [right|left]; reflexivity.
Qed.
Lemma orbital_wf n lab i : (i < n)%nat -> lab = lab_c \/ lab = lab_a -> wf_op n (orbital_op lab i : op_t F).
Proof.
  intros Hi Hl. split; [constructor; [intros []|constructor]|]. constructor; [|constructor]. constructor; [|constructor]. split; [cbn [fst]; lia|]. destruct Hl as [-> | ->]; [right|left]; reflexivity.
Qed.
Lemma mean_const fexp kT es (f : nat -> F) c : exp_laws fexp -> kT <> 0%F -> es <> [] -> (forall i, (i < length es)%nat -> f i = c) -> boltzmann_mean fexp kT es f = c.
Proof.
  intros HE Hk Hne Hf. unfold boltzmann_mean. rewrite (map_ext_in _ (fun i => c * probability fexp kT es (nth i es 0%F))%F).
  - rewrite <- (map_map (fun i => nth i es 0%F) (fun e => c * probability fexp kT es e)%F). 
    assert (E : map (fun i => nth i es 0%F) (seq 0 (length es)) = es) by (clear; induction es as [|a l IH]; [reflexivity|]; cbn [length seq map nth]; f_equal; rewrite <- seq_shift, map_map; exact IH).
    rewrite E, ftotal_scale, prob_sum by auto. ring.
  - intros i Hi. apply in_seq in Hi. rewrite Hf by lia. ring.
Qed.
Lemma free_pair n (h : nat -> nat -> cx F) (op : op_t F) rs : free_hamiltonian n h op -> wf_op n op -> assert_hermitian op = Ok tt -> S_Dict.no_small n op ->
  forall e (psi : psi_t F), eigenvector n op e (amp psi) -> room_for_one n rs (amp psi) -> forall z G, one_particle_green n h z G ->
  forall i p p' g g' hm, (i < n)%nat -> restricted_op n op rs hm -> op_image n (orbital_op lab_c i) rs psi p -> op_image n (orbital_op lab_a i) rs psi p' ->
  fock_green n (z + creal e) hm p g -> fock_green n (- z + creal e) hm p' g' -> g - g' = G i i * vdot n (amp psi) (amp psi).
Proof.
  intros HF Hop HA HN e psi V3 HM z G HG i p p' g g' hm Hi Hm I1 I2 Gp Gp'.
  assert (Z : forall lab j t, lab = lab_c \/ lab = lab_a -> (j < n)%nat -> length t = n -> ~ allowed_opt rs t -> opv n (orbital_op lab j) (amp psi) t = c0).
  { intros lab j t Hl Hj Ht Na. unfold opv. apply csum_zero. intros s Hs'. apply allcfg_In in Hs'.
    destruct (ceqb_spec (amp psi s) c0) as [E|E]; [rewrite E; ring|]. destruct (ceqb_spec (opelem (@orbital_op F lab j) t s) c0) as [E'|E']; [rewrite E'; ring|].
    elim Na. exact (HM lab j s t Hl Hj Hs' Ht E E'). }
  assert (I : forall lab q, lab = lab_c \/ lab = lab_a -> op_image n (orbital_op lab i) rs psi q -> forall t, length t = n -> amp q t = opv n (orbital_op lab i) (amp psi) t).
  { intros lab q Hl Iq t Ht. destruct (allowed_opt_dec rs t) as [Ha|Ha]; [exact (proj1 (Iq t Ht) Ha)|]. rewrite (proj2 (Iq t Ht) Ha). symmetry. apply Z; auto. }
  pose proof (I lab_c p (or_introl eq_refl) I1) as A1. pose proof (I lab_a p' (or_intror eq_refl) I2) as A2.
  rewrite vdot_vip. apply (free_diff n h op HF Hop HA e (amp psi) V3 z G HG i p p' g g' hm Hi); [| | |exact Gp|exact Gp'].
  - intros u Hu. destruct (allowed_opt_dec rs u) as [Ha|Ha]; [left|right].
    + intros s Hs'. apply (restr_val n op rs hm u s HN Hm Hu Hs'). auto.
    + split; [intros s Hs'; apply (restr_val n op rs hm u s HN Hm Hu Hs'); auto|]. intros j Hj.
      pose proof (Z lab_c j u (or_introl eq_refl) Hj Hu Ha) as Z1. pose proof (Z lab_a j u (or_intror eq_refl) Hj Hu Ha) as Z2. rewrite orbital_vec in Z1, Z2 by auto. split; [exact Z1|exact Z2].
  - intros t Ht. rewrite (A1 t Ht). rewrite orbital_vec by auto. reflexivity.
  - intros t Ht. rewrite (A2 t Ht). rewrite orbital_vec by auto. reflexivity.
Qed.
Section H.
Variables fsqrt fexp : F -> F.
Hypothesis HS : sqrt_laws fsqrt.
Hypothesis HE : exp_laws fexp.
Variable k_B T : F.
Variables (n fuel : nat) (op : op_t F) (rs : option restrictions_t) (ks : Z) (swm : F) (h : nat -> nat -> cx F).
Hypothesis HF : free_hamiltonian n h op.
Hypothesis Hop : wf_op n op.
Hypothesis HA : assert_hermitian op = Ok tt.
Hypothesis HN : S_Dict.no_small n op.
Hypothesis Hr : wf_restr rs.
Hypothesis Hf : (Nat.pow 2 n < fuel)%nat.
Hypothesis Hks : (Z.of_nat (Nat.pow 2 n) <= ks)%Z.
Hypothesis Hs : (swm <= 0)%F.
Hypothesis HkT : (k_B * T)%F <> 0%F.
Variables (es : list F) (psis : list (psi_t F)).
Hypothesis Hne : es <> [].
Hypothesis HV : eigenstates n op es psis.
Hypothesis HM : forall i, (i < length es)%nat -> room_for_one n rs (amp (nth i psis [])).
Variable ord : nat -> nat -> nat -> set_order.
Hypothesis Ho : forall t i q l, Permutation (ord t i q l) l.
Variable R : nat.
Hypothesis HR : (1 <= R)%nat.
Notation spec w d tOps := (getSpectra fsqrt fuel (Z.of_nat n) op w d rs ks swm ord R tOps psis es SHBuild).
Variables (wl : list F) (d : F) (G : nat -> nat -> nat -> cx F) (orbs : list nat).
Hypothesis Hd : d <> 0%F.
Hypothesis HG : forall k, (k < length wl)%nat -> one_particle_green n h (mkC (nth k wl 0%F) d) (G k).
Hypothesis Hb : Forall (fun i => (i < n)%nat) orbs.
Lemma vpsis : Forall (valid_psi n) psis.
Proof. apply Forall_forall. intros p Hp. apply (In_nth _ _ []) in Hp as (i & Hi & <-). apply (proj2 HV). rewrite <- (proj1 HV). auto. Qed.
Lemma orb_lt t : (t < length orbs)%nat -> (nth t orbs O < n)%nat.
Proof. intros Ht. rewrite Forall_forall in Hb. apply Hb, nth_In. auto. Qed.
Lemma orbs_nth lab t : (t < length orbs)%nat -> nth t (map (orbital_op lab) orbs) [] = orbital_op lab (nth t orbs O) :> op_t F.
Proof. intros Ht. etransitivity; [apply (nth_indep (map (@orbital_op F lab) orbs) [] (orbital_op lab O)); rewrite map_length; auto|]. apply map_nth. Qed.
Lemma orbs_wf lab : lab = lab_c \/ lab = lab_a -> Forall (wf_op n) (map (orbital_op lab) orbs : list (op_t F)).
Proof. intros Hl. apply Forall_forall. intros o Hin. apply in_map_iff in Hin as (i & <- & Hi). rewrite Forall_forall in Hb. apply orbital_wf; auto. Qed.
Lemma free_point gI l gP l' : spec wl d (map (orbital_op lab_c) orbs) = Ok gI :: l -> spec (map fopp wl) (- d)%F (map (orbital_op lab_a) orbs) = Ok gP :: l' ->
  forall i t k, (i < length es)%nat -> (t < length orbs)%nat -> (k < length wl)%nat -> nth k (gI i t) c0 - nth k (gP i t) c0 = G k (nth t orbs O) (nth t orbs O).
Proof.
  intros E E' i t k Hi Ht Hk. destruct (L_Green4.restricted_op_exists n op rs) as [hm Hm]. pose proof (fopp_neq0 d Hd) as Hd'.
  destruct (spec_green fsqrt HS n fuel op rs ks swm Hop HA Hr Hf Hks Hs es R R HR HR wl d (map (orbital_op lab_c) orbs) ord R psis gI l hm Ho HR Hd (orbs_wf lab_c (or_introl eq_refl)) vpsis (proj1 HV) Hm E t k) with (i := i) as (p & Ep & Gp); [rewrite map_length; auto|auto|auto|].
  destruct (spec_green fsqrt HS n fuel op rs ks swm Hop HA Hr Hf Hks Hs es R R HR HR (map fopp wl) (- d)%F (map (orbital_op lab_a) orbs) ord R psis gP l' hm Ho HR Hd' (orbs_wf lab_a (or_intror eq_refl)) vpsis (proj1 HV) Hm E' t k) with (i := i) as (p' & Ep' & Gp'); [rewrite map_length; auto|rewrite map_length; auto|auto|].
  rewrite orbs_nth in Ep, Ep' by auto. destruct (proj2 HV i Hi) as (V1 & V2 & V3).
  pose proof (applied_image n _ rs swm _ p (orbital_wf n lab_c _ (orb_lt t Ht) (or_introl eq_refl)) Hr V1 Hs Ep) as A1. pose proof (applied_image n _ rs swm _ p' (orbital_wf n lab_a _ (orb_lt t Ht) (or_intror eq_refl)) Hr V1 Hs Ep') as A2.
  rewrite (free_pair n h op rs HF Hop HA HN (nth i es 0%F) (nth i psis []) V3 (HM i Hi) _ (G k) (HG k Hk) (nth t orbs O) p p' (nth k (gI i t) c0) (nth k (gP i t) c0) hm (orb_lt t Ht) Hm A1 A2); [rewrite V2; ring| |].
  - assert (Ez : mkC (nth k wl 0%F) d + creal (nth i es 0%F) = mkC (nth k wl 0 + nth i es 0)%F d) by (unfold cadd, creal; cbn [re im]; f_equal; ring). rewrite Ez. exact Gp.
  - assert (Ez : - mkC (nth k wl 0%F) d + creal (nth i es 0%F) = mkC (nth k (map fopp wl) 0 + nth i es 0)%F (- d)%F).
    { rewrite (nth_indep (map fopp wl) 0%F (fopp 0%F)) by (rewrite map_length; auto). rewrite map_nth. unfold cadd, copp, creal. cbn [re im]. f_equal; ring. }
    rewrite Ez. exact Gp'.
Qed.
Lemma photoemission_free cols rest :
  photoemission fsqrt fexp k_B fuel (Z.of_nat n) op rs ks swm ord R psis es T wl d (map (orbital_op lab_a) orbs) (map (orbital_op lab_c) orbs) = Ok cols :: rest -> free_file wl orbs G cols.
Proof.
  intros E0. set (ps := map (orbital_op lab_a) orbs) in *. set (ips := map (orbital_op lab_c) orbs) in *. pose proof (fopp_neq0 d Hd) as Hd'. unfold photoemission in E0.
  destruct (spec wl d ips) as [|x1 r1] eqn:C1; [discriminate|]. destruct (spec (map fopp wl) (- d)%F ps) as [|x2 r2] eqn:C2; [discriminate|].
  cbn [combine map fst snd] in E0. injection E0 as E0 _. destruct x1 as [gI|]; [|discriminate]. destruct x2 as [gP|]; [|discriminate]. cbn [bind] in E0.
  destruct (Nat.eqb_spec (length ps) (length ips)) as [Le|]; [|discriminate].
  assert (L1 : forall i t, length (gI i t) = length wl) by exact (spec_len fsqrt n fuel op rs ks swm es wl d ips ord R psis gI r1 Hd C1).
  assert (L2 : forall i t, length (gP i t) = length wl) by (intros i t; transitivity (length (map fopp wl)); [|apply map_length]; exact (spec_len fsqrt n fuel op rs ks swm es (map fopp wl) (- d)%F ps ord R psis gP r2 Hd' C2 i t)).
  apply (columns_mean fexp HE) in E0; [|auto|].
  2: { intros i t. unfold gplus, gneg. rewrite map_length, combine_length, map_length, L1, L2. lia. }
  destruct E0 as (total & parts & -> & Lp & Lt & Hp & Ht). assert (Lo : length ps = length orbs) by apply map_length. rewrite Lo in Lp.
  exists total, parts. split; [auto|]. split; [auto|]. split; [auto|]. split; [|exact Ht]. intros t Htt. rewrite <- Lo in Htt. destruct (Hp t Htt) as [P1 P2]. split; [exact P1|]. intros k Hk. rewrite (P2 k Hk). rewrite Lo in Htt.
  apply mean_const; auto. intros i Hi. cbv beta. unfold gplus, gneg. rewrite (nth_gplus n fuel Hf R R HR HR) by (rewrite map_length, L1, L2; auto). rewrite nth_opp.
  rewrite <- (free_point gI r1 gP r2 C1 C2 i t k Hi Htt Hk). f_equal. f_equal. ring.
Qed.
End H.
End S.
