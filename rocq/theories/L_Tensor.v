(* Lemmas: absorption is a quadratic form of the polarisation. *)
From Coq Require Import Permutation Ring Field.
From Verif Require Import M_Prelude M_Scalar M_PSR M_State M_Mpi M_Hamiltonian M_Lanczos M_Spectra M_Basis M_Expect M_Operators S_Fock S_Ops S_Basis S_Expect S_Ham S_Green S_Spectra S_Operators S_Symmetry S_TimeReversal S_Dichroism S_Isotropic S_Tensor.
From Verif Require Import L_Scalar L_Sum L_Dict L_Fock L_State L_Ops L_Index L_Expect L_ApplyOp L_FockP L_Operators L_Operators2 L_Operators3 L_Operators4 L_Operators5 L_Operators7 L_Symmetry L_Symmetry3 L_TimeReversal L_Dichroism L_Isotropic.
From Verif Require P_Spectra.

Lemma ok_eq {A} (x y : A) : Ok x = Ok y -> x = y.
Proof. congruence. Qed.

Section Q.
Context {F : ofield}.
Add Field Ff : (f_field F).
Add Ring Cring : (@c_ring F).
Local Open Scope cx_scope.
Lemma cquad_ring e (s : nat -> cx F) : cquad e s = let x := creal (nth 0 e 0%F) in let y := creal (nth 1 e 0%F) in let z := creal (nth 2 e 0%F) in
  x * x * s 0%nat + y * y * s 1%nat + z * z * s 2%nat + x * y * (s 3%nat - s 0%nat - s 1%nat) + x * z * (s 4%nat - s 0%nat - s 2%nat) + y * z * (s 5%nat - s 1%nat - s 2%nat).
Proof. unfold cquad, quad. cbv zeta. apply cx_ext; cbn; ring. Qed.
Variable n : nat.
Variable z : cx F.
Variable h : config -> config -> cx F.
Variables Y1 Y2 Y3 : config -> cx F.
Let pol (e : list F) (y : config -> cx F) : Prop := forall t, length t = n -> y t = comb (nth 0 e 0%F) (nth 1 e 0%F) (nth 2 e 0%F) Y1 Y2 Y3 t.
Lemma quad_core e y g ys s : pol e y -> gv n z h y g -> (forall j, (j < 6)%nat -> pol (nth j six_pols []) (ys j) /\ gv n z h (ys j) (s j)) -> g = cquad e s.
Proof.
  intros P G H.
  assert (X : exists X1 X2 X3, vsol n z h X1 Y1 /\ vsol n z h X2 Y2 /\ vsol n z h X3 Y3).
  { destruct (H 0%nat ltac:(lia)) as [P0 (x0 & E0 & _)]. destruct (H 1%nat ltac:(lia)) as [P1 (x1 & E1 & _)]. destruct (H 2%nat ltac:(lia)) as [P2 (x2 & E2 & _)]. exists x0, x1, x2.
    split; [|split]; (eapply vsol_ext; [|eassumption]); intros t Ht; [rewrite (P0 t Ht)|rewrite (P1 t Ht)|rewrite (P2 t Ht)]; unfold comb; cbn [nth six_pols]; change (creal (1%F : F)) with (@c1 F); change (creal (0%F : F)) with (@c0 F); ring. }
  destruct X as (X1 & X2 & X3 & S1 & S2 & S3).
  assert (K : forall e y g, pol e y -> gv n z h y g -> g = _) by (intros e' y' g' P' G'; exact (gv_axes n z h Y1 Y2 Y3 X1 X2 X3 S1 S2 S3 _ _ _ _ _ P' G')).
  rewrite cquad_ring. cbv zeta. rewrite (K _ _ _ P G).
  rewrite (K _ _ _ (proj1 (H 0%nat ltac:(lia))) (proj2 (H 0%nat ltac:(lia)))), (K _ _ _ (proj1 (H 1%nat ltac:(lia))) (proj2 (H 1%nat ltac:(lia)))), (K _ _ _ (proj1 (H 2%nat ltac:(lia))) (proj2 (H 2%nat ltac:(lia)))).
  rewrite (K _ _ _ (proj1 (H 3%nat ltac:(lia))) (proj2 (H 3%nat ltac:(lia)))), (K _ _ _ (proj1 (H 4%nat ltac:(lia))) (proj2 (H 4%nat ltac:(lia)))), (K _ _ _ (proj1 (H 5%nat ltac:(lia))) (proj2 (H 5%nat ltac:(lia)))).
  rewrite !vdot_comb. cbn [nth six_pols]. rewrite !creal_mul. change (creal (1%F : F)) with (@c1 F). change (creal (0%F : F)) with (@c0 F). ring.
Qed.
End Q.

Section Dip.
Context {F : ofield}.
Local Open Scope Z_scope.
Variable fsqrt : F -> F.
Variable pi : F.
Variable gaunt : Z -> Z -> Z -> Z -> Z -> Z -> F.
Variable nb : nbaths_t.
Hypothesis Hw : wf_nbaths nb.
Hypothesis H2 : fsqrt (fofZ 2) <> 0%F.
Notation n := (n_orb nb).
Notation ck := (gauntC fsqrt pi gaunt).
Lemma pol_ops (l : list (list F)) D : Forall (fun v => length v = 3%nat) l -> getDipoleOperators fsqrt pi gaunt nb l = Ok D -> length D = length l /\ Forall (wf_op n) D /\
  forall i, (i < length l)%nat -> length (nth i l []) = 3%nat /\ getDipoleOperator fsqrt pi gaunt nb (nth i l []) = Ok (nth i D []).
Proof.
  unfold getDipoleOperators. revert D. induction l as [|e l IH]; intros D A E; cbn [map_res] in E.
  - apply ok_eq in E. subst D. split; [reflexivity|]. split; [constructor|]. cbn. lia.
  - inversion_clear A as [|? ? A1 A2]. destruct (getDipoleOperator fsqrt pi gaunt nb e) as [De|] eqn:Ee; [|discriminate E]. cbn [bind] in E.
    destruct (map_res (getDipoleOperator fsqrt pi gaunt nb) l) as [D'|] eqn:E'; [|discriminate E]. cbn [bind] in E. apply ok_eq in E. subst D.
    destruct (IH D' A2 eq_refl) as (L & W & K). split; [cbn; lia|]. split; [constructor; [eapply dip_wf; eauto|exact W]|]. intros [|i] Hi; cbn [nth length] in *; [auto|apply K; lia].
Qed.
Lemma six_len : Forall (fun v => length v = 3%nat) (@six_pols F).
Proof. repeat constructor. Qed.
Lemma quad_response f D6 Df : Forall (fun v => length v = 3%nat) f -> getDipoleOperators fsqrt pi gaunt nb six_pols = Ok D6 -> getDipoleOperators fsqrt pi gaunt nb f = Ok Df ->
  forall A z v s g t, (t < length f)%nat -> (forall j, (j < 6)%nat -> response n A z (transition n (nth j D6 [])) v (s j)) -> response n A z (transition n (nth t Df [])) v g -> g = cquad (nth t f []) s.
Proof.
  intros Lf E6 Ef A z v s g t Ht H G. destruct (pol_ops _ _ six_len E6) as (_ & _ & T6). destruct (pol_ops _ _ Lf Ef) as (_ & _ & Tf).
  destruct (T6 0%nat) as [L0 E0]; [cbn; lia|]. destruct (dip_keys_of fsqrt pi gaunt nb _ _ L0 E0) as (l1 & l2 & Hk).
  apply (quad_core n z (opelem A) (moved nb l1 l2 (r_x fsqrt ck) v) (moved nb l1 l2 (r_y fsqrt ck) v) (moved nb l1 l2 (r_z ck) v) (nth t f []) (opv n (nth t Df []) v) g (fun j => opv n (nth j D6 []) v) s); auto.
  - intros c Hc. apply dip_linear; auto; apply Tf; auto.
  - intros j Hj. split; [|exact (H j Hj)]. intros c Hc. apply dip_linear; auto; apply T6; auto.
Qed.
Lemma quad_green swm rs psi f D6 Df h z s g t : (swm <= 0)%F -> valid_psi n psi -> Forall (fun v => length v = 3%nat) f -> (t < length f)%nat ->
  getDipoleOperators fsqrt pi gaunt nb six_pols = Ok D6 -> getDipoleOperators fsqrt pi gaunt nb f = Ok Df ->
  (forall j, (j < 6)%nat -> exists psiR, applyOp (Z.of_nat n) (nth j D6 []) psi swm rs None = (None, Ok psiR) /\ fock_green n z h psiR (s j)) ->
  (exists psiR, applyOp (Z.of_nat n) (nth t Df []) psi swm rs None = (None, Ok psiR) /\ fock_green n z h psiR g) -> g = cquad (nth t f []) s.
Proof.
  intros Hs Hv Lf Ht E6 Ef H (pf & Epf & G). destruct (pol_ops _ _ six_len E6) as (_ & _ & T6). destruct (pol_ops _ _ Lf Ef) as (_ & _ & Tf).
  destruct (T6 0%nat) as [L0 E0]; [cbn; lia|]. destruct (dip_keys_of fsqrt pi gaunt nb _ _ L0 E0) as (l1 & l2 & Hk).
  set (Y := fun r c => if okr rs c then moved nb l1 l2 r (amp psi) c else c0).
  assert (K : exists ps, forall j, (j < 6)%nat -> applyOp (Z.of_nat n) (nth j D6 []) psi swm rs None = (None, Ok (ps j)) /\ fock_green n z h (ps j) (s j)).
  { destruct (H 0%nat ltac:(lia)) as [p0 K0]. destruct (H 1%nat ltac:(lia)) as [p1 K1]. destruct (H 2%nat ltac:(lia)) as [p2 K2]. destruct (H 3%nat ltac:(lia)) as [p3 K3]. destruct (H 4%nat ltac:(lia)) as [p4 K4]. destruct (H 5%nat ltac:(lia)) as [p5 K5].
    exists (fun i => nth i [p0; p1; p2; p3; p4; p5] []). intros j Hj. destruct j as [|[|[|[|[|[|]]]]]]; auto; lia. }
  destruct K as [ps Hp].
  apply (quad_core n z h (Y (r_x fsqrt ck)) (Y (r_y fsqrt ck)) (Y (r_z ck)) (nth t f []) (amp pf) g (fun j => amp (ps j)) s); auto.
  - intros c Hc. eapply iso_psiR; eauto; apply Tf; auto.
  - intros j Hj. destruct (Hp j Hj) as [E G']. split; [|exact G']. intros c Hc. eapply iso_psiR; eauto; apply T6; auto.
Qed.
End Dip.

Lemma quad_H_build {F : ofield} (fsqrt : F -> F) pi gaunt nb f D6 Df op rs psis w delta ks swm es (ord ord' : nat -> nat -> nat -> set_order) R R' fuel gs gs' rest rest' :
  wf_nbaths nb -> sqrt_laws fsqrt -> wf_op (n_orb nb) op -> assert_hermitian op = Ok tt -> wf_restr rs -> Forall (valid_psi (n_orb nb)) psis ->
  (2 ^ n_orb nb < fuel)%nat -> delta <> 0%F -> (Z.of_nat (2 ^ n_orb nb) <= ks)%Z -> (swm <= 0)%F -> (1 <= R)%nat -> (1 <= R')%nat -> Forall (fun v => length v = 3%nat) f ->
  (forall t i q l, Permutation (ord t i q l) l) -> (forall t i q l, Permutation (ord' t i q l) l) ->
  getDipoleOperators fsqrt pi gaunt nb six_pols = Ok D6 -> getDipoleOperators fsqrt pi gaunt nb f = Ok Df ->
  getSpectra fsqrt fuel (Z.of_nat (n_orb nb)) op w delta rs ks swm ord R D6 psis es SHBuild = map Ok (gs :: rest) ->
  getSpectra fsqrt fuel (Z.of_nat (n_orb nb)) op w delta rs ks swm ord' R' Df psis es SHBuild = map Ok (gs' :: rest') ->
  forall i t k, (i < length psis)%nat -> (i < length es)%nat -> (t < length f)%nat -> (k < length w)%nat -> nth k (gs' i t) c0 = cquad (nth t f []) (fun j => nth k (gs i j) c0).
Proof.
  intros Hw Hq Hop HA Hr Hv Hf Hd Hks Hs HR HR' Lf Ho Ho' E6 Ef G G' i t k Hi Hi' Ht Hk. pose proof (sqrt2_nz fsqrt Hq) as H2.
  destruct (pol_ops fsqrt pi gaunt nb Hw H2 _ _ six_len E6) as (L6 & W6 & _). destruct (pol_ops fsqrt pi gaunt nb Hw H2 _ _ Lf Ef) as (LD & Wf & _).
  destruct (L_Green4.restricted_op_exists (n_orb nb) op rs) as [h Hh].
  assert (NS : forall tOp : op_t F, no_small (n_orb nb) tOp swm rs) by (intros tOp s' t' _ _ _; right; eapply fle_trans; [exact Hs|apply cabs2_nonneg]).
  destruct (nth_error psis i) as [psi|] eqn:Ep; [|apply nth_error_None in Ep; lia]. destruct (nth_error es i) as [en|] eqn:En; [|apply nth_error_None in En; lia].
  assert (Hpsi : valid_psi (n_orb nb) psi) by (rewrite Forall_forall in Hv; apply Hv; eapply nth_error_In; eauto).
  apply (quad_green fsqrt pi gaunt nb Hw H2 swm rs psi f D6 Df h (mkC (nth k w 0 + en)%F delta)); auto.
  - intros j Hj. assert (Lj : (j < length D6)%nat) by (rewrite L6; exact Hj).
    destruct (P_Spectra.C36_H_build_spectra F fsqrt (n_orb nb) op rs D6 psis (conj Hop (conj Hr (conj W6 Hv))) Hq HA fuel w delta ks swm es h Hf Hd Hh Hks ord Ho R i j psi en (nth j D6 []) gs rest HR G Ep En (nth_error_nth' D6 [] Lj) (NS _)) as (psiR & A & _ & B). eauto.
  - assert (Lt : (t < length Df)%nat) by (rewrite LD; exact Ht).
    destruct (P_Spectra.C36_H_build_spectra F fsqrt (n_orb nb) op rs Df psis (conj Hop (conj Hr (conj Wf Hv))) Hq HA fuel w delta ks swm es h Hf Hd Hh Hks ord' Ho' R' i t psi en (nth t Df []) gs' rest' HR' G' Ep En (nth_error_nth' Df [] Lt) (NS _)) as (psiR & A & _ & B). eauto.
Qed.
