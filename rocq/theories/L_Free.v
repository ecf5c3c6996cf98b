(* Electrons without interaction: photoemission and inverse photoemission together give the one-particle Green's function. *)
From Coq Require Import Permutation Ring Field.
From Verif Require Import M_Prelude M_Scalar M_PSR M_State M_Mpi M_Hamiltonian M_Basis M_Expect M_Operators M_Lanczos M_Average M_Spectra M_Simulate M_RIXS M_Program S_Fock S_Ops S_Ham S_Green S_Spectra S_Basis S_Expect S_Operators S_Symmetry S_TimeReversal S_Thermal S_Spectrum S_Spectrum3 S_RIXS S_Sector S_Unitary S_Free.
From Verif Require Import L_Scalar L_Sum L_Dict L_Fock L_State L_Ops L_ApplyOp L_FockP L_Lanczos2 L_Green L_Green3 L_Green4 L_Average L_Spectra6 L_Program L_RIXS2 L_Expect L_Symmetry L_Program7 L_Program9 L_Sector L_Levels2 L_Ham L_Shift L_Shift3 L_Unitary L_Unitary2 L_Unitary3.
From Verif Require S_Dict.
Local Open Scope Z_scope.

Section S.
Context {F : ofield}.
Add Field Ff : (f_field F).
Add Field Cf : (@c_field F).
Local Open Scope cx_scope.
Variables (n : nat) (h : nat -> nat -> cx F) (op : op_t F).
Hypothesis HF : free_hamiltonian n h op.
Notation S_ f := (csum f (seq 0 n)).
Lemma in_n i : In i (seq 0 n) -> (i < n)%nat. Proof. intros H. apply in_seq in H. lia. Qed.
Lemma free_vec (v : config -> cx F) t : length t = n -> opv n op v t = S_ (fun i => S_ (fun j => h i j * C_ i (A_ j v) t)).
Proof.
  intros Ht. rewrite <- (hops_vec n h v t Ht). unfold opv. apply csum_ext. intros s Hs. apply allcfg_In in Hs. rewrite HF by auto. reflexivity.
Qed.
(* H c_i^+ = c_i^+ H + sum_k h_ki c_k^+ *)
Lemma AC j i (v : config -> cx F) t : (i < n)%nat -> (j < n)%nat -> length t = n -> A_ j (C_ i v) t = (if Nat.eqb i j then v t else c0) - C_ i (A_ j v) t.
Proof. intros Hi Hj Ht. rewrite <- (car_CA n i j v t Hi Hj Ht). ring. Qed.
Lemma up_vec i (v : config -> cx F) t : (i < n)%nat -> length t = n -> opv n op (C_ i v) t = C_ i (opv n op v) t + S_ (fun k => h k i * C_ k v t).
Proof.
  intros Hi Ht. rewrite free_vec by auto.
  assert (E : C_ i (opv n op v) t = S_ (fun k => S_ (fun j => h k j * C_ i (C_ k (A_ j v)) t))).
  { rewrite (C_ext n i _ (fun s => S_ (fun k => c1 * S_ (fun j => h k j * C_ k (A_ j v) s))) ); auto.
    - rewrite C_lin. apply csum_ext. intros k _. rewrite (C_lin i (fun j => h k j) (fun j => C_ k (A_ j v))). ring.
    - intros s Hs. rewrite free_vec by auto. apply csum_ext. intros k _. ring. }
  rewrite E, <- csum_add. apply csum_ext. intros k Hk. apply in_n in Hk.
  transitivity (S_ (fun j => h k j * C_ i (C_ k (A_ j v)) t + h k j * (if Nat.eqb j i then C_ k v t else c0))).
  - apply csum_ext. intros j Hj. apply in_n in Hj.
    assert (X : C_ k (A_ j (C_ i v)) t = (if Nat.eqb j i then C_ k v t else c0) - C_ k (C_ i (A_ j v)) t).
    { rewrite (C_ext n k _ (fun s => (if Nat.eqb j i then c1 else c0) * v s + (- c1) * C_ i (A_ j v) s)); auto.
      - unfold C_ at 1. rewrite vpull_add, !vpull_scale. fold (C_ k v t). fold (C_ k (C_ i (A_ j v)) t). destruct (Nat.eqb j i); ring.
      - intros s Hs. rewrite (AC j i v s Hi Hj Hs), (Nat.eqb_sym i j). destruct (Nat.eqb j i); ring. }
    rewrite X, (car_CC n i k _ t Hi Hk Ht). ring.
  - rewrite csum_add. f_equal. rewrite (csum_single (fun j => h k j * (if Nat.eqb j i then C_ k v t else c0)) (seq 0 n) i (seq_NoDup n 0)); [rewrite Nat.eqb_refl; reflexivity|apply in_seq; lia|].
    intros j _ N. destruct (Nat.eqb_spec j i); [congruence|ring].
Qed.
(* H c_i = c_i H - sum_k h_ik c_k *)
Lemma down_vec i (v : config -> cx F) t : (i < n)%nat -> length t = n -> opv n op (A_ i v) t = A_ i (opv n op v) t - S_ (fun k => h i k * A_ k v t).
Proof.
  intros Hi Ht. rewrite free_vec by auto.
  assert (E : A_ i (opv n op v) t = S_ (fun k => S_ (fun j => h k j * A_ i (C_ k (A_ j v)) t))).
  { rewrite (A_ext n i _ (fun s => S_ (fun k => c1 * S_ (fun j => h k j * C_ k (A_ j v) s))) ); auto.
    - rewrite A_lin. apply csum_ext. intros k _. rewrite (A_lin i (fun j => h k j) (fun j => C_ k (A_ j v))). ring.
    - intros s Hs. rewrite free_vec by auto. apply csum_ext. intros k _. ring. }
  rewrite E.
  assert (D : S_ (fun k => h i k * A_ k v t) = S_ (fun k => S_ (fun j => h k j * (if Nat.eqb k i then A_ j v t else c0)))).
  { symmetry. rewrite (csum_single (fun k => S_ (fun j => h k j * (if Nat.eqb k i then A_ j v t else c0))) (seq 0 n) i (seq_NoDup n 0)); [rewrite Nat.eqb_refl; reflexivity|apply in_seq; lia|].
    intros k _ N. apply csum_zero. intros j _. destruct (Nat.eqb_spec k i); [congruence|ring]. }
  rewrite D. assert (M : forall a b : cx F, a - b = a + (- c1) * b) by (intros; ring). rewrite M, <- csum_mul_l, <- csum_add. apply csum_ext. intros k Hk. apply in_n in Hk. rewrite <- csum_mul_l, <- csum_add. apply csum_ext. intros j Hj. apply in_n in Hj.
  rewrite (AC i k (A_ j v) t Hk Hi Ht).
  assert (X : C_ k (A_ j (A_ i v)) t = - C_ k (A_ i (A_ j v)) t).
  { rewrite (C_ext n k _ (fun s => (- c1) * A_ i (A_ j v) s)); auto.
    - unfold C_ at 1. rewrite vpull_scale. fold (C_ k (A_ i (A_ j v)) t). ring.
    - intros s Hs. rewrite (car_AA n j i v s Hj Hi Hs). ring. }
  rewrite X. destruct (Nat.eqb k i); ring.
Qed.
Hypothesis Hop : wf_op n op.
Hypothesis HA : assert_hermitian op = Ok tt.
Section E.
Variables (e : F) (psi : config -> cx F).
Hypothesis HE : eigenvector n op e psi.
Lemma up_eig i t : (i < n)%nat -> length t = n -> opv n op (C_ i psi) t = creal e * C_ i psi t + S_ (fun k => h k i * C_ k psi t).
Proof.
  intros Hi Ht. rewrite up_vec by auto. f_equal. rewrite (C_ext n i _ (fun s => creal e * psi s)); auto. unfold C_. rewrite vpull_scale. reflexivity.
Qed.
Lemma down_eig i t : (i < n)%nat -> length t = n -> opv n op (A_ i psi) t = creal e * A_ i psi t - S_ (fun k => h i k * A_ k psi t).
Proof.
  intros Hi Ht. rewrite down_vec by auto. f_equal. rewrite (A_ext n i _ (fun s => creal e * psi s)); auto. unfold A_. rewrite vpull_scale. reflexivity.
Qed.
Lemma opv_lin {X} (c : X -> cx F) (f : X -> config -> cx F) l t : opv n op (fun s => csum (fun x => c x * f x s) l) t = csum (fun x => c x * opv n op (f x) t) l.
Proof.
  unfold opv. transitivity (csum (fun s => csum (fun x => c x * (opelem op t s * f x s)) l) (allcfg n)).
  - apply csum_ext. intros s _. rewrite <- csum_mul_l. apply csum_ext. intros x _. ring.
  - rewrite csum_swap. apply csum_ext. intros x _. rewrite csum_mul_l. reflexivity.
Qed.
Section G.
Variables (z : cx F) (G : nat -> nat -> cx F).
Hypothesis HG : one_particle_green n h z G.
Lemma delta_sum (f : nat -> cx F) i : (i < n)%nat -> S_ (fun k => kdelta i k * f k) = f i.
Proof. intros Hi. rewrite <- (csum_delta2 f n i Hi). apply csum_ext. intros k _. unfold kdelta. rewrite Nat.eqb_sym. reflexivity. Qed.
Lemma delta_sum_r (f : nat -> cx F) i : (i < n)%nat -> S_ (fun k => f k * kdelta k i) = f i.
Proof. intros Hi. rewrite <- (csum_delta2 f n i Hi). apply csum_ext. intros k _. unfold kdelta. ring. Qed.
(* (z + e - H) sum_j G_ji c_j^+ psi = c_i^+ psi *)
Lemma up_solved i t : (i < n)%nat -> length t = n ->
  (z + creal e) * S_ (fun j => G j i * C_ j psi t) - opv n op (fun s => S_ (fun j => G j i * C_ j psi s)) t = C_ i psi t.
Proof.
  intros Hi Ht. rewrite opv_lin.
  transitivity (S_ (fun k => S_ (fun j => (z * kdelta k j - h k j) * G j i) * C_ k psi t)).
  - transitivity (S_ (fun j => S_ (fun k => (z * kdelta k j - h k j) * G j i * C_ k psi t))).
    + rewrite <- csum_mul_l. assert (M : forall a b : cx F, a - b = a + (- c1) * b) by (intros; ring). rewrite M, <- csum_mul_l, <- csum_add. apply csum_ext. intros j Hj. apply in_n in Hj. rewrite up_eig by auto.
      transitivity (G j i * z * C_ j psi t - G j i * S_ (fun k => h k j * C_ k psi t)); [ring|]. rewrite <- (delta_sum_r (fun k => C_ k psi t) j Hj) at 1. rewrite M, <- !csum_mul_l, <- csum_add. apply csum_ext. intros k _. ring.
    + rewrite csum_swap. apply csum_ext. intros k _. apply csum_mul_r.
  - rewrite (csum_ext _ (fun k => kdelta i k * C_ k psi t)); [apply delta_sum; auto|]. intros k Hk. apply in_n in Hk. rewrite (proj1 (HG k i Hk Hi)). unfold kdelta. rewrite Nat.eqb_sym. reflexivity.
Qed.
(* (- z + e - H) (- sum_j G_ij c_j psi) = c_i psi *)
Lemma down_solved i t : (i < n)%nat -> length t = n ->
  (- z + creal e) * S_ (fun j => (- G i j) * A_ j psi t) - opv n op (fun s => S_ (fun j => (- G i j) * A_ j psi s)) t = A_ i psi t.
Proof.
  intros Hi Ht. rewrite opv_lin.
  transitivity (S_ (fun k => S_ (fun j => G i j * (z * kdelta j k - h j k)) * A_ k psi t)).
  - transitivity (S_ (fun j => S_ (fun k => G i j * (z * kdelta j k - h j k) * A_ k psi t))).
    + rewrite <- csum_mul_l. assert (M : forall a b : cx F, a - b = a + (- c1) * b) by (intros; ring). rewrite M, <- csum_mul_l, <- csum_add. apply csum_ext. intros j Hj. apply in_n in Hj. rewrite down_eig by auto.
      transitivity (G i j * z * A_ j psi t - G i j * S_ (fun k => h j k * A_ k psi t)); [ring|]. rewrite <- (delta_sum (fun k => A_ k psi t) j Hj) at 1. rewrite M, <- !csum_mul_l, <- csum_add. apply csum_ext. intros k _. ring.
    + rewrite csum_swap. apply csum_ext. intros k _. apply csum_mul_r.
  - rewrite (csum_ext _ (fun k => kdelta i k * A_ k psi t)); [apply delta_sum; auto|]. intros k Hk. apply in_n in Hk. rewrite (proj2 (HG i k Hi Hk)). reflexivity.
Qed.
Definition dm i j := vip n (A_ i psi) (A_ j psi).
Lemma op_adj u w : vip n (opv n op u) w = vip n u (opv n op w).
Proof.
  unfold vip, opv. transitivity (csum (fun t => csum (fun s => cconj (opelem op t s) * cconj (u s) * w t) (allcfg n)) (allcfg n)).
  - apply csum_ext. intros t _. rewrite <- csum_conj, <- csum_mul_r. apply csum_ext. intros s _. rewrite cconj_mul. reflexivity.
  - rewrite csum_swap. apply csum_ext. intros s _. rewrite <- csum_mul_l. apply csum_ext. intros t _. rewrite (herm_opelem op s t (proj1 Hop) HA). ring.
Qed.
(* the density matrix of an eigenstate commutes with h *)
Lemma dm_comm i j : (i < n)%nat -> (j < n)%nat -> S_ (fun k => h j k * dm i k) = S_ (fun k => h k i * dm k j).
Proof.
  intros Hi Hj. set (y := C_ i (A_ j psi)).
  assert (Y : forall t, length t = n -> opv n op y t = creal e * y t - S_ (fun k => h j k * C_ i (A_ k psi) t) + S_ (fun k => h k i * C_ k (A_ j psi) t)).
  { intros t Ht. unfold y. rewrite up_vec by auto. f_equal. rewrite (C_ext n i _ (fun s => creal e * A_ j psi s + (- c1) * S_ (fun k => h j k * A_ k psi s))); auto.
    - unfold C_ at 1. rewrite vpull_add, !vpull_scale. fold (C_ i (A_ j psi) t). fold (C_ i (fun s => S_ (fun k => h j k * A_ k psi s)) t). rewrite (C_lin i (fun k => h j k) (fun k => A_ k psi)). ring.
    - intros s Hs. rewrite down_eig by auto. ring. }
  assert (L : vip n psi (opv n op y) = creal e * vip n psi y).
  { rewrite <- op_adj. rewrite (vip_ext n _ (fun t => creal e * psi t) y y); [|exact HE|apply veq_refl]. unfold vip. rewrite <- csum_mul_l. apply csum_ext. intros t _. rewrite cconj_mul.
    assert (C : cconj (creal e) = creal e) by (unfold cconj, creal; cbn [re im]; f_equal; ring). rewrite C. ring. }
  rewrite (vip_ext n psi psi _ (fun t => creal e * y t + ((- c1) * S_ (fun k => h j k * C_ i (A_ k psi) t) + S_ (fun k => h k i * C_ k (A_ j psi) t)))) in L; [|apply veq_refl|].
  2: { intros t Ht. rewrite Y by auto. ring. }
  assert (A : vip n psi (fun t => creal e * y t + ((- c1) * S_ (fun k => h j k * C_ i (A_ k psi) t) + S_ (fun k => h k i * C_ k (A_ j psi) t))) =
    creal e * vip n psi y + ((- c1) * vip n psi (fun t => S_ (fun k => h j k * C_ i (A_ k psi) t)) + vip n psi (fun t => S_ (fun k => h k i * C_ k (A_ j psi) t)))).
  { unfold vip. rewrite <- !csum_mul_l, <- !csum_add. apply csum_ext. intros t _. ring. }
  rewrite A, (vip_csum_r n psi (fun k => C_ i (A_ k psi)) (fun k => h j k)), (vip_csum_r n psi (fun k => C_ k (A_ j psi)) (fun k => h k i)) in L.
  assert (E1 : S_ (fun k => h j k * vip n psi (C_ i (A_ k psi))) = S_ (fun k => h j k * dm i k)) by (apply csum_ext; intros k _; rewrite vip_C; reflexivity).
  assert (E2 : S_ (fun k => h k i * vip n psi (C_ k (A_ j psi))) = S_ (fun k => h k i * dm k j)) by (apply csum_ext; intros k _; rewrite vip_C; reflexivity).
  rewrite E1, E2 in L. revert L. generalize (S_ (fun k => h j k * dm i k)) (S_ (fun k => h k i * dm k j)) (creal e * vip n psi y). intros a b c L.
  transitivity (a + ((c + ((- c1) * a + b)) - c)); [rewrite L; ring|ring].
Qed.
Lemma comm_z i j : (i < n)%nat -> (j < n)%nat -> S_ (fun k => (z * kdelta j k - h j k) * dm i k) = S_ (fun k => (z * kdelta k i - h k i) * dm k j).
Proof.
  intros Hi Hj. assert (M : forall a b : cx F, a - b = a + (- c1) * b) by (intros; ring).
  transitivity (z * S_ (fun k => kdelta j k * dm i k) - S_ (fun k => h j k * dm i k)); [rewrite M, <- !csum_mul_l, <- csum_add; apply csum_ext; intros; ring|].
  rewrite (delta_sum (fun k => dm i k) j Hj), (dm_comm i j Hi Hj). rewrite <- (delta_sum_r (fun k => dm k j) i Hi). rewrite M, <- !csum_mul_l, <- csum_add. apply csum_ext. intros. ring.
Qed.
(* G and the density matrix commute; only a diagonal element is needed *)
Lemma green_comm i : (i < n)%nat -> S_ (fun j => G i j * dm i j) = S_ (fun j => G j i * dm j i).
Proof.
  intros Hi.
  (* dm i j = sum_lk (z - h)_jk dm l k G_li *)
  assert (P : forall j, (j < n)%nat -> dm i j = S_ (fun l => S_ (fun k => (z * kdelta k l - h k l) * dm k j) * G l i)).
  { intros j Hj. transitivity (S_ (fun k => kdelta k i * dm k j)); [symmetry; transitivity (S_ (fun k => dm k j * kdelta k i)); [apply csum_ext; intros; ring|apply (delta_sum_r (fun k => dm k j)); auto]|].
    transitivity (S_ (fun k => S_ (fun l => (z * kdelta k l - h k l) * G l i) * dm k j)); [apply csum_ext; intros k Hk; apply in_n in Hk; rewrite (proj1 (HG k i Hk Hi)); reflexivity|].
    transitivity (S_ (fun k => S_ (fun l => (z * kdelta k l - h k l) * G l i * dm k j))); [apply csum_ext; intros; symmetry; apply csum_mul_r|]. rewrite csum_swap. apply csum_ext. intros l _. rewrite <- csum_mul_r. apply csum_ext. intros. ring. }
  transitivity (S_ (fun j => S_ (fun l => S_ (fun k => G i j * (z * kdelta j k - h j k) * dm l k * G l i)))).
  - apply csum_ext. intros j Hj. apply in_n in Hj. rewrite (P j Hj), <- csum_mul_l. apply csum_ext. intros l Hl. apply in_n in Hl. rewrite <- (comm_z l j Hl Hj), <- csum_mul_r, <- csum_mul_l. apply csum_ext. intros. ring.
  - rewrite csum_swap. apply csum_ext. intros l Hl. apply in_n in Hl. rewrite csum_swap. transitivity (S_ (fun k => kdelta i k * (dm l k * G l i))).
    + apply csum_ext. intros k Hk. apply in_n in Hk. rewrite <- (proj2 (HG i k Hi Hk)), <- csum_mul_r. apply csum_ext. intros. ring.
    + rewrite (delta_sum (fun k => dm l k * G l i) i Hi). ring.
Qed.
Lemma free_diff i p p' g g' (hm : config -> config -> cx F) : (i < n)%nat -> (forall t, length t = n -> (forall s, length s = n -> hm t s = opelem op t s) \/ ((forall s, length s = n -> hm t s = c0) /\ forall j, (j < n)%nat -> C_ j psi t = c0 /\ A_ j psi t = c0)) ->
  (forall t, length t = n -> amp p t = C_ i psi t) -> (forall t, length t = n -> amp p' t = A_ i psi t) ->
  fock_green n (z + creal e) hm p g -> fock_green n (- z + creal e) hm p' g' -> g - g' = G i i * vip n psi psi.
Proof.
  intros Hi Hm Hp Hp' (x & _ & <- & U) (x' & _ & <- & U').
  assert (X : forall t, length t = n -> x t = S_ (fun j => G j i * C_ j psi t)).
  { intros t Ht. symmetry. apply (U (fun t => S_ (fun j => G j i * C_ j psi t))); auto. intros t' Ht'. rewrite (Hp t' Ht'). destruct (Hm t' Ht') as [Hm1|[Hm0 Hz]].
    - rewrite <- (up_solved i t' Hi Ht'). f_equal. apply csum_ext. intros s Hs. apply allcfg_In in Hs. rewrite Hm1 by auto. reflexivity.
    - rewrite (proj1 (Hz i Hi)), (csum_zero (fun s => hm t' s * _)) by (intros s Hs; apply allcfg_In in Hs; rewrite Hm0 by auto; ring). rewrite csum_zero by (intros j Hj; apply in_n in Hj; rewrite (proj1 (Hz j Hj)); ring). ring. }
  assert (X' : forall t, length t = n -> x' t = S_ (fun j => (- G i j) * A_ j psi t)).
  { intros t Ht. symmetry. apply (U' (fun t => S_ (fun j => (- G i j) * A_ j psi t))); auto. intros t' Ht'. rewrite (Hp' t' Ht'). destruct (Hm t' Ht') as [Hm1|[Hm0 Hz]].
    - rewrite <- (down_solved i t' Hi Ht'). f_equal. apply csum_ext. intros s Hs. apply allcfg_In in Hs. rewrite Hm1 by auto. reflexivity.
    - rewrite (proj2 (Hz i Hi)), (csum_zero (fun s => hm t' s * _)) by (intros s Hs; apply allcfg_In in Hs; rewrite Hm0 by auto; ring). rewrite csum_zero by (intros j Hj; apply in_n in Hj; rewrite (proj2 (Hz j Hj)); ring). ring. }
  assert (Q : csum (fun t => cconj (amp p t) * x t) (allcfg n) = S_ (fun j => G j i * vip n (C_ i psi) (C_ j psi))).
  { rewrite <- (vip_csum_r n (C_ i psi) (fun j => C_ j psi) (fun j => G j i)). apply csum_ext. intros t Ht. apply allcfg_In in Ht. rewrite Hp, X by auto. reflexivity. }
  assert (Q' : csum (fun t => cconj (amp p' t) * x' t) (allcfg n) = S_ (fun j => (- G i j) * dm i j)).
  { unfold dm. rewrite <- (vip_csum_r n (A_ i psi) (fun j => A_ j psi) (fun j => - G i j)). apply csum_ext. intros t Ht. apply allcfg_In in Ht. rewrite Hp', X' by auto. reflexivity. }
  rewrite Q, Q'.
  assert (R : S_ (fun j => G j i * vip n (C_ i psi) (C_ j psi)) = G i i * vip n psi psi - S_ (fun j => G j i * dm j i)).
  { assert (M : forall a b : cx F, a - b = a + (- c1) * b) by (intros; ring). rewrite <- (delta_sum_r (fun j => G j i * vip n psi psi) i Hi), M, <- csum_mul_l, <- csum_add. apply csum_ext. intros j Hj. apply in_n in Hj.
    rewrite <- vip_A. rewrite (vip_ext n psi psi _ (fun t => kdelta j i * psi t + (- c1) * C_ j (A_ i psi) t)); [|apply veq_refl|].
    - assert (V : vip n psi (fun t => kdelta j i * psi t + (- c1) * C_ j (A_ i psi) t) = kdelta j i * vip n psi psi + (- c1) * vip n psi (C_ j (A_ i psi))) by (unfold vip; rewrite <- !csum_mul_l, <- csum_add; apply csum_ext; intros; ring).
      rewrite V, vip_C. unfold dm. ring.
    - intros t Ht. rewrite (AC i j psi t Hj Hi Ht). unfold kdelta. destruct (Nat.eqb j i); ring. }
  rewrite R, <- (green_comm i Hi).
  assert (N : S_ (fun j => (- G i j) * dm i j) = (- c1) * S_ (fun j => G i j * dm i j)) by (rewrite <- csum_mul_l; apply csum_ext; intros; ring).
  rewrite N. ring.
Qed.
End G.
End E.
End S.
