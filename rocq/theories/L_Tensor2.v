(* Lemmas: the columns of XAS.dat are a quadratic form of the polarisation. *)
From Coq Require Import Permutation Ring Field.
From Verif Require Import M_Prelude M_Scalar M_PSR M_State M_Mpi M_Hamiltonian M_Lanczos M_Average M_Spectra M_Simulate M_Basis M_Expect M_Operators S_Fock S_Ops S_Basis S_Expect S_Ham S_Green S_Spectra S_Operators S_Thermal S_Spectrum S_Tensor.
From Verif Require Import L_Scalar L_Program7 L_Program L_Levels2 L_Isotropic L_Tensor.

Section X.
Context {F : ofield}.
Add Field Ff : (f_field F).
Lemma mean_quad fexp kT es e (I : nat -> nat -> F) (J : nat -> F) : (forall i, (i < length es)%nat -> J i = quad e (I i)) ->
  boltzmann_mean fexp kT es J = quad e (fun j => boltzmann_mean fexp kT es (fun i => I i j)).
Proof.
  intros H. unfold boltzmann_mean. transitivity (ftotal (map (fun i => probability fexp kT es (nth i es 0) * quad e (I i))%F (seq 0 (length es)))).
  - f_equal. apply map_ext_in. intros i Hi. apply in_seq in Hi. rewrite H by lia. reflexivity.
  - clear H. induction (seq 0 (length es)) as [|a l IH]; cbn [map ftotal].
    + unfold quad. ring.
    + rewrite IH. unfold quad. cbv zeta. ring.
Qed.
Lemma quad_opp e (s : nat -> F) : (- quad e s = quad e (fun j => - s j))%F.
Proof. unfold quad. cbv zeta. ring. Qed.
Lemma quad_ext e (s s' : nat -> F) : (forall j, (j < 6)%nat -> s j = s' j) -> quad e s = quad e s'.
Proof. intros H. unfold quad. rewrite !H by lia. reflexivity. Qed.
Lemma xas_quad (fsqrt fexp : F -> F) k_B T pi gaunt nb f D6 Df op rs psis w delta ks swm es (ord ord' : nat -> nat -> nat -> set_order) R R' fuel cols cols' rest rest' :
  wf_nbaths nb -> sqrt_laws fsqrt -> exp_laws fexp -> (k_B * T)%F <> 0%F -> wf_op (n_orb nb) op -> assert_hermitian op = Ok tt -> wf_restr rs -> Forall (valid_psi (n_orb nb)) psis -> length psis = length es ->
  (2 ^ n_orb nb < fuel)%nat -> delta <> 0%F -> (Z.of_nat (2 ^ n_orb nb) <= ks)%Z -> (swm <= 0)%F -> (1 <= R)%nat -> (1 <= R')%nat -> Forall (fun v => length v = 3%nat) f ->
  (forall t i q l, Permutation (ord t i q l) l) -> (forall t i q l, Permutation (ord' t i q l) l) ->
  getDipoleOperators fsqrt pi gaunt nb six_pols = Ok D6 -> getDipoleOperators fsqrt pi gaunt nb f = Ok Df ->
  absorption fsqrt fexp k_B fuel (Z.of_nat (n_orb nb)) op rs ks swm ord R psis es T w delta D6 = Ok cols :: rest ->
  absorption fsqrt fexp k_B fuel (Z.of_nat (n_orb nb)) op rs ks swm ord' R' psis es T w delta Df = Ok cols' :: rest' ->
  forall t k, (t < length f)%nat -> (k < length w)%nat -> nth k (nth (2 + t) cols' []) 0%F = quad (nth t f []) (fun j => nth k (nth (2 + j) cols []) 0%F).
Proof.
  intros Hw Hq HE HkT Hop HA Hr Hv HL Hf Hd Hks Hs HR HR' Lf Ho Ho' E6 Ef E E' t k Ht Hk. pose proof (sqrt2_nz fsqrt Hq) as H2.
  destruct (pol_ops fsqrt pi gaunt nb Hw H2 _ _ six_len E6) as (L6 & _). destruct (pol_ops fsqrt pi gaunt nb Hw H2 _ _ Lf Ef) as (LD & _). change (length (@six_pols F)) with 6%nat in L6.
  unfold absorption in E, E'. apply head_bind in E as (g & l & E & C). apply head_bind in E' as (g' & l' & E' & C').
  assert (Lg : forall i t, length (g i t) = length w) by (intros i u; eapply hb_shape; [exact Hd|]; rewrite E; left; reflexivity). assert (Lg' : forall i t, length (g' i t) = length w) by (intros i u; eapply hb_shape; [exact Hd|]; rewrite E'; left; reflexivity).
  destruct (hb_head _ _ _ _ _ _ _ _ _ _ _ _ _ _ _ _ E) as [gs E1]. destruct (hb_head _ _ _ _ _ _ _ _ _ _ _ _ _ _ _ _ E') as [gs' E1'].
  pose proof (quad_H_build fsqrt pi gaunt nb f D6 Df op rs psis w delta ks swm es ord ord' R R' fuel g g' gs gs' Hw Hq Hop HA Hr Hv Hf Hd Hks Hs HR HR' Lf Ho Ho' E6 Ef E1 E1') as Q.
  apply (columns_mean fexp HE) in C; [|exact HkT|exact Lg]. apply (columns_mean fexp HE) in C'; [|exact HkT|exact Lg'].
  destruct C as (total & parts & -> & Lp & _ & Hp & _). destruct C' as (total' & parts' & -> & Lp' & _ & Hp' & _). cbn [nth plus].
  rewrite (proj2 (Hp' t ltac:(lia)) k Hk). rewrite (mean_quad fexp _ es (nth t f []) (fun i j => - im (nth k (g i j) c0))%F).
  - apply quad_ext. intros j Hj. symmetry. apply (proj2 (Hp j ltac:(lia)) k Hk).
  - intros i Hi. rewrite (Q i t k) by lia. cbn [im cquad]. apply quad_opp.
Qed.
End X.
