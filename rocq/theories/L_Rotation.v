(* Means over closed multiplets are invariant under rotations. *)
From Coq Require Import Permutation Ring Field.
From Verif Require Import M_Prelude M_Scalar M_PSR M_State M_Mpi M_Hamiltonian M_Lanczos M_Spectra S_Fock S_Ops S_Ham S_Green S_Spectra S_Symmetry S_TimeReversal S_Dichroism S_Thermal S_Spectrum S_RIXS S_Levels S_Rotation.
From Verif Require Import L_Scalar L_Sum L_Dict L_Fock L_State L_Ops L_ApplyOp L_FockP L_Lanczos2 L_Green3 L_RIXS2 L_Symmetry L_Dichroism L_Isotropic L_Levels.
From Verif Require X_Gauss L_Vec.

Section Core.
Context {F : ofield}.
Add Field Ff : (f_field F).
Add Ring Cring : (@c_ring F).
Local Open Scope cx_scope.
Variable n : nat.
(* injective: solvable *)
Lemma solvable (z : cx F) h : (forall u, vsol n z h u (fun _ => c0) -> forall t, length t = n -> u t = c0) -> forall y, exists x, vsol n z h x y.
Proof.
  intros Hi y. set (C := allcfg n).
  set (elem := fun t s => (if list_eq_dec Bool.bool_dec t s then z else c0) - h t s).
  set (rows := map (fun t => map (elem t) C) C).
  assert (LC : length rows = length C) by (unfold rows; apply map_length).
  assert (ND : NoDup C) by apply allcfg_NoDup.
  assert (Sx : forall (x : list (cx F)) i, length x = length C -> (i < length C)%nat ->
     csum (fun j => vf (nth i rows []) j * vf x j) (seq 0 (length rows)) =
     csum (fun j => elem (nth i C []) (nth j C []) * vf x j) (seq 0 (length C))).
  { intros x i Lx Hi'. rewrite LC. apply csum_ext. intros j Hj. apply in_seq in Hj. f_equal. unfold rows, vf.
    rewrite (nth_indep _ [] (map (elem []) C)) by (rewrite map_length; auto). rewrite (map_nth (fun t => map (elem t) C)). cbv beta.
    etransitivity; [apply (nth_indep _ c0 (elem (nth i C []) [])); rewrite map_length; apply Hj|apply map_nth]. }
  (* a list as a vector *)
  set (look := fun (x : list (cx F)) (t : config) => csum (fun j => if list_eq_dec Bool.bool_dec (nth j C []) t then vf x j else c0) (seq 0 (length C))).
  assert (Lk : forall x i, (i < length C)%nat -> look x (nth i C []) = vf x i).
  { intros x i Hi'. unfold look. rewrite (csum_single _ _ i).
    - destruct (list_eq_dec _ _ _); congruence.
    - apply seq_NoDup.
    - apply in_seq. lia.
    - intros j Hj Hne. apply in_seq in Hj. destruct (list_eq_dec _ _ _) as [E|]; auto. exfalso. apply Hne. apply (NoDup_nth C []); auto. lia. }
  assert (Cv : forall f : config -> cx F, csum f C = csum (fun j => f (nth j C [])) (seq 0 (length C))).
  { intros f. clear. induction C as [|c C' IH]; [reflexivity|]. cbn [length]. rewrite L_Vec.csum_seq_S. cbn [csum nth]. now rewrite IH. }
  assert (V : forall x i, length x = length C -> (i < length C)%nat ->
     z * look x (nth i C []) - csum (fun s => h (nth i C []) s * look x s) C = csum (fun j => vf (nth i rows []) j * vf x j) (seq 0 (length rows))).
  { intros x i Lx Hi'. rewrite Sx by auto. rewrite Cv. unfold elem.
    rewrite (csum_ext (fun j => ((if list_eq_dec Bool.bool_dec (nth i C []) (nth j C []) then z else c0) - h (nth i C []) (nth j C [])) * vf x j)
      (fun j => (if Nat.eqb j i then z * vf x i else c0) - h (nth i C []) (nth j C []) * look x (nth j C []))).
    - rewrite csum_sub. f_equal. rewrite Lk by auto. rewrite (csum_single _ _ i); [now rewrite Nat.eqb_refl|apply seq_NoDup|apply in_seq; lia|].
      intros j _ Hne. now destruct (Nat.eqb_spec j i).
    - intros j Hj. apply in_seq in Hj. rewrite Lk by lia. destruct (list_eq_dec Bool.bool_dec (nth i C []) (nth j C [])) as [E|N].
      + assert (i = j) by (apply (NoDup_nth C []); auto; lia). subst j. rewrite Nat.eqb_refl. ring.
      + destruct (Nat.eqb_spec j i) as [->|]; [congruence|]. ring. }
  assert (At : forall t, length t = n -> exists i, (i < length C)%nat /\ nth i C [] = t).
  { intros t Ht. apply allcfg_In in Ht. destruct (In_nth C t [] Ht) as (i & A & B). eauto. }
  destruct (X_Gauss.gauss_exact rows (map y C)) as [L E].
  - intros r Hr. unfold rows in Hr. apply in_map_iff in Hr as (t & <- & _). rewrite map_length. auto.
  - rewrite map_length. auto.
  - intros x [Lx Hx]. rewrite LC in *. apply (nth_ext _ _ c0 c0); [rewrite repeat_length; auto|]. intros i Hi'. rewrite nth_repeat.
    rewrite Lx in Hi'. change (nth i x c0) with (vf x i). rewrite <- Lk by auto. apply Hi.
    + intros t Ht. destruct (At t Ht) as (k & Hk & <-). change (allcfg n) with C. rewrite V by auto. rewrite Hx by auto. unfold vf. apply nth_repeat.
    + apply allcfg_In. apply nth_In. auto.
  - rewrite LC in *. exists (look (X_Gauss.gauss rows (map y C))). intros t Ht. destruct (At t Ht) as (k & Hk & <-). change (allcfg n) with C.
    rewrite V by auto. rewrite E by auto. unfold vf. rewrite (nth_indep _ c0 (y [])) by (rewrite map_length; auto). apply map_nth.
Qed.
Lemma gv_inj (z : cx F) h y g : gv n z h y g -> forall u, vsol n z h u (fun _ => c0) -> forall t, length t = n -> u t = c0.
Proof.
  intros (x & Hx & _ & U) u Hu t Ht. assert (E : x t + u t = x t).
  { apply (U (fun t => x t + u t)); auto. intros s Hs. rewrite <- (Hx s Hs).
    rewrite (csum_ext _ (fun w => h s w * x w + h s w * u w)) by (intros; ring). rewrite csum_add. specialize (Hu s Hs). cbv beta in Hu.
    transitivity (z * x s - csum (fun w => h s w * x w) (allcfg n) + (z * u s - csum (fun w => h s w * u w) (allcfg n))); [ring|]. rewrite Hu. ring. }
  transitivity (x t + u t - x t); [ring|]. rewrite E. ring.
Qed.

Variable K : nat.
Variable lev : nat -> F.
Notation lin := (lin K).
Lemma vdot_lin_l c (V : nat -> config -> cx F) w : vdot n (lin c V) w = csum (fun i => cconj (c i) * vdot n (V i) w) (seq 0 K).
Proof. rewrite vdot_swap, vdot_sum_r, <- csum_conj. apply csum_ext. intros i _. rewrite cconj_mul, <- vdot_swap. auto. Qed.
Lemma vdot_add_l (u v w : config -> cx F) : vdot n (fun t => u t + v t) w = vdot n u w + vdot n v w.
Proof. unfold vdot. rewrite <- csum_add. apply csum_ext. intros t _. rewrite cconj_add. ring. Qed.
Lemma vdot_add_r (u v w : config -> cx F) : vdot n u (fun t => v t + w t) = vdot n u v + vdot n u w.
Proof. unfold vdot. rewrite <- csum_add. apply csum_ext. intros t _. ring. Qed.
(* the sum over the multiplets of <[J',D1]| (z-h)^-1 |D2> and <D1| (z-h)^-1 |[J,D2]> *)
Lemma trace_rotation (z p : F -> cx F) h (J J' : op_t F) (m : nat -> nat -> cx F) (D1 E1 D2 E2 X2 XE : nat -> config -> cx F) :
  (forall u w, vdot n (opv n J' u) w = vdot n u (opv n J w)) ->
  commutes n h J ->
  (forall j i, (j < K)%nat -> (i < K)%nat -> lev i <> lev j -> m j i = c0) ->
  (forall j t, (j < K)%nat -> length t = n -> opv n J (D2 j) t = E2 j t + lin (m j) D2 t) ->
  (forall j t, (j < K)%nat -> length t = n -> opv n J' (D1 j) t = E1 j t + lin (fun i => cconj (m i j)) D1 t) ->
  (forall j, (j < K)%nat -> forall u, vsol n (z (lev j)) h u (fun _ => c0) -> forall t, length t = n -> u t = c0) ->
  (forall j, (j < K)%nat -> vsol n (z (lev j)) h (X2 j) (D2 j)) -> (forall j, (j < K)%nat -> vsol n (z (lev j)) h (XE j) (E2 j)) ->
  csum (fun j => p (lev j) * vdot n (E1 j) (X2 j)) (seq 0 K) = csum (fun j => p (lev j) * vdot n (D1 j) (XE j)) (seq 0 K).
Proof.
  intros Ad Cm Lv H2 H1 Inj S2 SE.
  (* J X2 = XE + sum m X2 *)
  assert (JX : forall j t, (j < K)%nat -> length t = n -> opv n J (X2 j) t = XE j t + lin (m j) X2 t).
  { intros j t Hj Ht. set (u := fun t => opv n J (X2 j) t - (XE j t + lin (m j) X2 t)).
    assert (U : u t = c0); [|transitivity (u t + (XE j t + lin (m j) X2 t)); [unfold u; ring|rewrite U; ring]].
    apply (Inj j Hj); auto. intros s Hs. unfold u.
    rewrite (csum_ext _ (fun w => h s w * opv n J (X2 j) w - (h s w * XE j w + h s w * lin (m j) X2 w))) by (intros; ring).
    rewrite csum_sub, csum_add.
    assert (A : z (lev j) * opv n J (X2 j) s - csum (fun w => h s w * opv n J (X2 j) w) (allcfg n) = opv n J (D2 j) s).
    { unfold opv at 2. rewrite (csum_ext _ (fun w => csum (fun r => h s w * opelem J w r * X2 j r) (allcfg n))).
      - rewrite csum_swap. rewrite (csum_ext _ (fun r => csum (fun w => opelem J s w * h w r) (allcfg n) * X2 j r)).
        + rewrite (csum_ext _ (fun r => csum (fun w => opelem J s w * (h w r * X2 j r)) (allcfg n))) by (intros r _; rewrite <- csum_mul_r; apply csum_ext; intros; ring).
          rewrite csum_swap. unfold opv. rewrite <- csum_mul_l, <- csum_sub. apply csum_ext. intros w Hw. apply allcfg_In in Hw.
          rewrite <- (S2 j Hj w Hw), csum_mul_l. ring.
        + intros r Hr. apply allcfg_In in Hr. rewrite <- (Cm s r) by auto. rewrite <- csum_mul_r. auto.
      - intros w _. rewrite <- csum_mul_l. apply csum_ext. intros; ring. }
    pose proof (SE j Hj s Hs) as B. pose proof (vsol_lin n K lev m Lv z h X2 D2 j Hj S2 s Hs) as C.
    transitivity (z (lev j) * opv n J (X2 j) s - csum (fun w => h s w * opv n J (X2 j) w) (allcfg n)
      - ((z (lev j) * XE j s - csum (fun w => h s w * XE j w) (allcfg n)) + (z (lev j) * lin (m j) X2 s - csum (fun w => h s w * lin (m j) X2 w) (allcfg n)))); [ring|].
    rewrite A, B, C, H2 by auto. ring. }
  (* both sides with the matrix of J *)
  set (B := fun i k => vdot n (D1 i) (X2 k)).
  assert (L : forall j, (j < K)%nat -> vdot n (E1 j) (X2 j) = vdot n (D1 j) (XE j) + csum (fun k => m j k * B j k) (seq 0 K) - csum (fun k => m k j * B k j) (seq 0 K)).
  { intros j Hj.
    assert (R1 : vdot n (opv n J' (D1 j)) (X2 j) = vdot n (E1 j) (X2 j) + csum (fun k => m k j * B k j) (seq 0 K)).
    { rewrite (vdot_ext n _ (fun t => E1 j t + lin (fun i => cconj (m i j)) D1 t) _ (X2 j)); [|auto|auto].
      rewrite vdot_add_l, vdot_lin_l. f_equal. apply csum_ext. intros k _. rewrite cconj_conj. reflexivity. }
    assert (R2 : vdot n (D1 j) (opv n J (X2 j)) = vdot n (D1 j) (XE j) + csum (fun k => m j k * B j k) (seq 0 K)).
    { rewrite (vdot_ext n _ (D1 j) _ (fun t => XE j t + lin (m j) X2 t)); [|auto|auto]. rewrite vdot_add_r, vdot_sum_r. reflexivity. }
    transitivity (vdot n (opv n J' (D1 j)) (X2 j) - csum (fun k => m k j * B k j) (seq 0 K)); [rewrite R1; ring|]. rewrite Ad, R2. reflexivity. }
  rewrite (csum_ext _ (fun j => p (lev j) * vdot n (D1 j) (XE j) + (csum (fun k => p (lev j) * (m j k * B j k)) (seq 0 K) - csum (fun k => p (lev j) * (m k j * B k j)) (seq 0 K)))).
  2:{ intros j Hj. apply in_seq in Hj. rewrite L, !csum_mul_l by lia. ring. }
  rewrite csum_add, csum_sub, (csum_swap (fun j k => p (lev j) * (m k j * B k j))).
  assert (Z0 : csum (fun j => csum (fun k => p (lev j) * (m j k * B j k)) (seq 0 K)) (seq 0 K) = csum (fun b => csum (fun a => p (lev a) * (m b a * B b a)) (seq 0 K)) (seq 0 K)).
  { apply csum_ext. intros j Hj. apply csum_ext. intros k Hk. apply in_seq in Hj, Hk.
    transitivity (p (lev j) * m j k * B j k); [ring|]. rewrite (at_level K lev m Lv p (fun x => x) j k) by lia. ring. }
  rewrite Z0. ring.
Qed.
End Core.
