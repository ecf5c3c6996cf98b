(* The written spectra for two choices of the states of the same levels. *)
From Coq Require Import Permutation Ring Field.
From Verif Require Import M_Prelude M_Scalar M_PSR M_State M_Mpi M_Hamiltonian M_Lanczos M_Average M_Spectra M_Simulate M_RIXS M_Program S_Fock S_Ops S_Ham S_Green S_Spectra S_Symmetry S_TimeReversal S_Dichroism S_Thermal S_Spectrum S_Spectrum3 S_RIXS S_Levels.
From Verif Require Import L_Scalar L_Sum L_Dict L_Fock L_State L_Ops L_ApplyOp L_FockP L_Lanczos2 L_Green3 L_Spectra6 L_Program L_RIXS2 L_Symmetry L_Dichroism L_Isotropic L_Program7 L_Program9 L_Levels.
From Verif Require P_Spectra P_RIXS.

Section Mean.
Context {F : ofield}.
Add Field Ff : (f_field F).
Add Ring Cring : (@c_ring F).
Local Open Scope cx_scope.
Variable fexp : F -> F.
Lemma mean_im kT es (g : nat -> cx F) :
  boltzmann_mean fexp kT es (fun i => - im (g i))%F = (- im (csum (fun i => creal (probability fexp kT es (nth i es 0%F)) * g i)%C (seq 0 (length es))))%F.
Proof.
  unfold boltzmann_mean. generalize (seq 0 (length es)). induction l as [|i l IH]; cbn [map ftotal csum]; [simpl; ring|]. rewrite IH. simpl. ring.
Qed.
Lemma mean_same n es psis psis' kT (g g' : nat -> cx F) :
  csum (fun j => creal (probability fexp kT es (nth j es 0%F)) * g' j) (seq 0 (length es)) = csum (fun j => creal (probability fexp kT es (nth j es 0%F)) * g j) (seq 0 (length es)) ->
  @same_levels F n es psis psis' -> boltzmann_mean fexp kT es (fun i => - im (g' i))%F = boltzmann_mean fexp kT es (fun i => - im (g i))%F.
Proof. intros H _. rewrite !mean_im, H. auto. Qed.
(* two files with the same means are the same *)
Lemma mean_file_same kT mesh es nT I I' cols cols' : (forall t k, (t < nT)%nat -> (k < length mesh)%nat -> boltzmann_mean fexp kT es (fun i => I' i t k) = boltzmann_mean fexp kT es (fun i => I i t k)) ->
  mean_file fexp kT mesh es nT I cols -> mean_file fexp kT mesh es nT I' cols' -> cols' = cols.
Proof.
  intros H (to & pa & -> & L1 & L2 & P & Q) (to' & pa' & -> & L1' & L2' & P' & Q').
  assert (E : pa' = pa).
  { apply (nth_ext _ _ [] []); [congruence|]. intros t Ht. rewrite L1' in Ht. destruct (P t Ht) as [A B], (P' t Ht) as [A' B'].
    apply (nth_ext _ _ 0%F 0%F); [congruence|]. intros k Hk. rewrite A' in Hk. rewrite B, B' by auto. apply H; auto. }
  subst pa'. do 2 f_equal. apply (nth_ext _ _ 0%F 0%F); [congruence|]. intros k _. rewrite Q, Q'. auto.
Qed.
End Mean.

Section Spectra.
Context {F : ofield}.
Add Field Ff2 : (f_field F).
Add Ring Cring2 : (@c_ring F).
Local Open Scope cx_scope.
Lemma levels_response n (A D : op_t F) es psis psis' (z p : F -> cx F) g g' : same_levels n es psis psis' ->
  (forall i, (i < length es)%nat -> response n A (z (nth i es 0%F)) (transition n D) (amp (nth i psis [])) (g i)) ->
  (forall i, (i < length es)%nat -> response n A (z (nth i es 0%F)) (transition n D) (amp (nth i psis' [])) (g' i)) ->
  csum (fun i => p (nth i es 0%F) * g' i) (seq 0 (length es)) = csum (fun i => p (nth i es 0%F) * g i) (seq 0 (length es)).
Proof.
  intros HL H H'. destruct (levels_matrix n es psis psis' HL) as (a & R & L & E).
  apply (trace_green n (length es) (fun i => nth i es 0%F) a R L z p (opelem A) (fun i => opv n D (amp (nth i psis []))) (fun i => opv n D (amp (nth i psis' [])))); auto.
  intros j Hj t Ht. unfold opv at 1. rewrite (csum_ext _ (fun s => opelem D t s * lin (length es) (a j) (fun i => amp (nth i psis [])) s)).
  - apply (lin_map n (length es) (opelem D)).
  - intros s Hs. apply allcfg_In in Hs. rewrite E; auto.
Qed.
Lemma levels_form n (A : op_t F) es psis psis' (p : F -> cx F) : same_levels n es psis psis' ->
  csum (fun i => p (nth i es 0%F) * vdot n (amp (nth i psis' [])) (opv n A (amp (nth i psis' [])))) (seq 0 (length es)) =
  csum (fun i => p (nth i es 0%F) * vdot n (amp (nth i psis [])) (opv n A (amp (nth i psis [])))) (seq 0 (length es)).
Proof.
  intros HL. destruct (levels_matrix n es psis psis' HL) as (a & R & L & E).
  apply (trace_form n (length es) (fun i => nth i es 0%F) a R L p A (fun i => amp (nth i psis [])) (fun i => amp (nth i psis' []))). auto.
Qed.
Lemma levels_green n rs swm (tOp : op_t F) h (z p : F -> cx F) es psis psis' g g' : (swm <= 0)%F -> wf_op n tOp -> Forall (valid_psi n) psis -> Forall (valid_psi n) psis' -> same_levels n es psis psis' ->
  (forall i, (i < length es)%nat -> exists psiR, applyOp (Z.of_nat n) tOp (nth i psis []) swm rs None = (None, Ok psiR) /\ fock_green n (z (nth i es 0%F)) h psiR (g i)) ->
  (forall i, (i < length es)%nat -> exists psiR, applyOp (Z.of_nat n) tOp (nth i psis' []) swm rs None = (None, Ok psiR) /\ fock_green n (z (nth i es 0%F)) h psiR (g' i)) ->
  csum (fun i => p (nth i es 0%F) * g' i) (seq 0 (length es)) = csum (fun i => p (nth i es 0%F) * g i) (seq 0 (length es)).
Proof.
  intros Hs Hw Hv Hv' HL H H'. destruct (levels_matrix n es psis psis' HL) as (a & R & L & E). destruct HL as (L1 & L2 & _).
  apply (choose _ []) in H as [Y HY]. apply (choose _ []) in H' as [Y' HY'].
  assert (K : forall ps Z, Forall (valid_psi n) ps -> length ps = length es ->
    (forall i, (i < length es)%nat -> applyOp (Z.of_nat n) tOp (nth i ps []) swm rs None = (None, Ok (Z i))) -> forall i, (i < length es)%nat -> forall t, length t = n ->
    amp (Z i) t = if okr rs t then opv n tOp (amp (nth i ps [])) t else c0).
  { intros ps Z V Lp HZ i Hi t Ht. assert (Hp : valid_psi n (nth i ps [])) by (rewrite Forall_forall in V; apply V, nth_In; lia).
    destruct (applyOp_amp n tOp (nth i ps []) swm rs Hw Hp) as (q & Eq & _ & _ & HA). rewrite (HZ i Hi) in Eq. injection Eq as <-. rewrite HA, cut_nonpos by auto. reflexivity. }
  pose proof (K psis Y Hv L1 (fun i Hi => proj1 (HY i Hi))) as KY. pose proof (K psis' Y' Hv' L2 (fun i Hi => proj1 (HY' i Hi))) as KY'.
  apply (trace_green n (length es) (fun i => nth i es 0%F) a R L z p h (fun i => amp (Y i)) (fun i => amp (Y' i))).
  - intros j Hj t Ht. rewrite KY' by auto. rewrite (lin_ext (length es) (a j) _ (fun i t => if okr rs t then opv n tOp (amp (nth i psis [])) t else c0)) by (intros i Hi; apply KY; auto).
    unfold lin at 1. cbv beta. destruct (okr rs t).
    + unfold opv at 1. rewrite (csum_ext _ (fun s => opelem tOp t s * lin (length es) (a j) (fun i => amp (nth i psis [])) s)).
      * exact (lin_map n (length es) (opelem tOp) (a j) (fun i => amp (nth i psis [])) t).
      * intros s Hx. apply allcfg_In in Hx. rewrite E; auto.
    + symmetry. apply csum_zero. intros; ring.
  - intros i Hi. exact (proj2 (HY i Hi)).
  - intros i Hi. exact (proj2 (HY' i Hi)).
Qed.

Variables fsqrt fexp : F -> F.
Hypothesis HS : sqrt_laws fsqrt.
Hypothesis HE : exp_laws fexp.
Variables (k_B T : F) (n fuel : nat) (op : op_t F) (rs : option restrictions_t) (ks : Z) (swm : F).
Hypothesis Hop : wf_op n op.
Hypothesis HA : assert_hermitian op = Ok tt.
Hypothesis Hr : wf_restr rs.
Hypothesis Hf : (2 ^ n < fuel)%nat.
Hypothesis Hks : (Z.of_nat (2 ^ n) <= ks)%Z.
Hypothesis Hs : (swm <= 0)%F.
Hypothesis HkT : (k_B * T)%F <> 0%F.
Variables (es : list F) (psis psis' : list (psi_t F)).
Hypothesis Hv : Forall (valid_psi n) psis.
Hypothesis Hv' : Forall (valid_psi n) psis'.
Hypothesis HL : same_levels n es psis psis'.
Variables ord ord' : nat -> nat -> nat -> set_order.
Hypothesis Ho : forall t i q l, Permutation (ord t i q l) l.
Hypothesis Ho' : forall t i q l, Permutation (ord' t i q l) l.
Variables R R' : nat.
Hypothesis HR : (1 <= R)%nat.
Hypothesis HR' : (1 <= R')%nat.
Notation spec w d tOps o r ps := (getSpectra fsqrt fuel (Z.of_nat n) op w d rs ks swm o r tOps ps es SHBuild).
Lemma hb_head w d tOps (o : nat -> nat -> nat -> set_order) r ps g rest : spec w d tOps o r ps = Ok g :: rest -> exists gs, spec w d tOps o r ps = map Ok (g :: gs).
Proof.
  intros E. unfold getSpectra in E |- *. destruct (hb_run _ _ _ _ _ _ _ _ _ _ _ _ _ _) as [st|l]; [|destruct l; discriminate].
  destruct (hb_gs st) as [|g' gs]; [discriminate|]. cbn [map] in E. injection E as -> _. exists gs. reflexivity.
Qed.
Lemma spec_green w d tOps (o : nat -> nat -> nat -> set_order) r ps g rest h : (forall t i q l, Permutation (o t i q l) l) -> (1 <= r)%nat -> d <> 0%F -> Forall (wf_op n) tOps -> Forall (valid_psi n) ps ->
  length ps = length es -> restricted_op n op rs h -> spec w d tOps o r ps = Ok g :: rest ->
  forall t k, (t < length tOps)%nat -> (k < length w)%nat -> forall i, (i < length es)%nat ->
  exists psiR, applyOp (Z.of_nat n) (nth t tOps []) (nth i ps []) swm rs None = (None, Ok psiR) /\ fock_green n (mkC (nth k w 0 + nth i es 0)%F d) h psiR (nth k (g i t) c0).
Proof.
  intros Hor Hrr Hd Ht Hp Lp Hh E t k Htt Hk i Hi. destruct (hb_head _ _ _ _ _ _ _ _ E) as [gs E2].
  assert (NS : forall tOp : op_t F, no_small n tOp swm rs) by (intros tOp s u _ _ _; right; eapply fle_trans; [exact Hs|apply cabs2_nonneg]).
  destruct (P_Spectra.C36_H_build_spectra F fsqrt n op rs tOps ps (conj Hop (conj Hr (conj Ht Hp))) HS HA fuel w d ks swm es h Hf Hd Hh Hks o Hor r i t (nth i ps []) (nth i es 0%F) (nth t tOps []) g gs Hrr E2)
    as (psiR & Ea & _ & G); auto; try (apply nth_error_nth'; lia). exists psiR. auto.
Qed.
(* the mean of every value of getSpectra *)
Lemma levels_mean w d tOps g rest g' rest' : d <> 0%F -> Forall (wf_op n) tOps -> spec w d tOps ord R psis = Ok g :: rest -> spec w d tOps ord' R' psis' = Ok g' :: rest' ->
  forall t k, (t < length tOps)%nat -> (k < length w)%nat -> forall p : F -> cx F,
  csum (fun i => p (nth i es 0%F) * nth k (g' i t) c0) (seq 0 (length es)) = csum (fun i => p (nth i es 0%F) * nth k (g i t) c0) (seq 0 (length es)).
Proof.
  intros Hd Ht E E' t k Htt Hk p. destruct (L_Green4.restricted_op_exists n op rs) as [h Hh]. destruct HL as (L1 & L2 & _).
  apply (levels_green n rs swm (nth t tOps []) h (fun e => mkC (nth k w 0 + e)%F d) p es psis psis'); auto.
  - rewrite Forall_forall in Ht. apply Ht, nth_In. auto.
  - exact (spec_green w d tOps ord R psis g rest h Ho HR Hd Ht Hv L1 Hh E t k Htt Hk).
  - exact (spec_green w d tOps ord' R' psis' g' rest' h Ho' HR' Hd Ht Hv' L2 Hh E' t k Htt Hk).
Qed.
Lemma spec_len w d tOps (o : nat -> nat -> nat -> set_order) r ps g rest : d <> 0%F -> spec w d tOps o r ps = Ok g :: rest -> forall i t, length (g i t) = length w.
Proof. intros Hd E. eapply hb_shape; [exact Hd|]. rewrite E. left. reflexivity. Qed.
Lemma head_bind {A B} (f : A -> res B) (l : list (res A)) b rest : map (fun r => do x <- r; f x) l = Ok b :: rest -> exists a l', l = Ok a :: l' /\ f a = Ok b.
Proof. destruct l as [|[a|] l]; intros E; try discriminate. cbn [map bind] in E. injection E as E _. eauto. Qed.
(* XAS.dat and NIXS.dat *)
Lemma levels_absorption w d tOps cols rest cols' rest' : d <> 0%F -> Forall (wf_op n) tOps ->
  absorption fsqrt fexp k_B fuel (Z.of_nat n) op rs ks swm ord R psis es T w d tOps = Ok cols :: rest ->
  absorption fsqrt fexp k_B fuel (Z.of_nat n) op rs ks swm ord' R' psis' es T w d tOps = Ok cols' :: rest' -> cols' = cols.
Proof.
  intros Hd Ht E E'. unfold absorption in E, E'. apply head_bind in E as (g & l & E & C). apply head_bind in E' as (g' & l' & E' & C').
  apply (columns_mean fexp HE) in C; [|auto|eapply spec_len; eauto]. apply (columns_mean fexp HE) in C'; [|auto|eapply spec_len; eauto].
  refine (mean_file_same fexp (k_B * T)%F w es (length tOps) _ _ _ _ _ C C'). intros t k Htt Hk. cbv beta. rewrite !mean_im.
  rewrite (levels_mean w d tOps g l g' l' Hd Ht E E' t k Htt Hk (fun e => creal (probability fexp (k_B * T) es e))). auto.
Qed.
Lemma fopp_neq0 (d : F) : d <> 0%F -> (- d)%F <> 0%F.
Proof. intros H X. apply H. transitivity (- - d)%F; [ring|]. rewrite X. ring. Qed.
Lemma nth_opp (l : list (cx F)) k : nth k (map copp l) c0 = copp (nth k l c0).
Proof. destruct (Nat.lt_ge_cases k (length l)); [rewrite (nth_indep _ c0 (copp c0)) by (rewrite map_length; auto); apply map_nth|]. rewrite !nth_overflow by (rewrite ?map_length; auto). ring. Qed.
(* XPS.dat *)
Lemma levels_emission w d tOps cols rest cols' rest' : d <> 0%F -> Forall (wf_op n) tOps ->
  emission fsqrt fexp k_B fuel (Z.of_nat n) op rs ks swm ord R psis es T w d tOps = Ok cols :: rest ->
  emission fsqrt fexp k_B fuel (Z.of_nat n) op rs ks swm ord' R' psis' es T w d tOps = Ok cols' :: rest' -> cols' = cols.
Proof.
  intros Hd Ht E E'. unfold emission in E, E'. apply head_bind in E as (g & l & E & C). apply head_bind in E' as (g' & l' & E' & C'). pose proof (fopp_neq0 d Hd) as Hd'.
  assert (Ln : forall (o : nat -> nat -> nat -> set_order) r ps g l, spec (map fopp w) (- d)%F tOps o r ps = Ok g :: l -> forall i t, length (gneg g i t) = length w).
  { intros o r ps g0 l0 E0 i t. unfold gneg. rewrite map_length, (spec_len _ _ _ _ _ _ _ _ Hd' E0), map_length. auto. }
  apply (columns_mean fexp HE) in C; [|auto|eapply Ln; eauto]. apply (columns_mean fexp HE) in C'; [|auto|eapply Ln; eauto].
  refine (mean_file_same fexp (k_B * T)%F w es (length tOps) _ _ _ _ _ C C'). intros t k Htt Hk. cbv beta. rewrite !mean_im. unfold gneg.
  pose proof (levels_mean (map fopp w) (- d)%F tOps g l g' l' Hd' Ht E E' t k Htt ltac:(rewrite map_length; auto) (fun e => creal (probability fexp (k_B * T) es e))) as M.
  do 2 f_equal. assert (X : forall u : nat -> nat -> list (cx F), csum (fun i => creal (probability fexp (k_B * T) es (nth i es 0%F)) * nth k (map copp (u i t)) c0) (seq 0 (length es)) =
    copp (csum (fun i => creal (probability fexp (k_B * T) es (nth i es 0%F)) * nth k (u i t) c0) (seq 0 (length es)))).
  { intros u. rewrite <- csum_opp. apply csum_ext. intros i _. rewrite nth_opp. ring. }
  rewrite !X. f_equal. exact M.
Qed.
(* PS.dat *)
Lemma nth_gplus (a b : list (cx F)) k : length a = length b -> nth k (map (fun p => cadd (fst p) (snd p)) (combine a b)) c0 = nth k a c0 + nth k b c0.
Proof.
  intros L. destruct (Nat.lt_ge_cases k (length a)) as [H|H].
  - rewrite (nth_indep _ c0 ((fun p : cx F * cx F => cadd (fst p) (snd p)) (c0, c0))) by (rewrite map_length, combine_length; lia).
    rewrite (map_nth (fun p : cx F * cx F => cadd (fst p) (snd p))), combine_nth by auto. auto.
  - rewrite !nth_overflow by (rewrite ?map_length, ?combine_length; lia). ring.
Qed.
Lemma levels_photoemission w d ps ips cols rest cols' rest' : d <> 0%F -> Forall (wf_op n) ps -> Forall (wf_op n) ips ->
  photoemission fsqrt fexp k_B fuel (Z.of_nat n) op rs ks swm ord R psis es T w d ps ips = Ok cols :: rest ->
  photoemission fsqrt fexp k_B fuel (Z.of_nat n) op rs ks swm ord' R' psis' es T w d ps ips = Ok cols' :: rest' -> cols' = cols.
Proof.
  intros Hd Hp Hi E E'. pose proof (fopp_neq0 d Hd) as Hd'.
  assert (K : forall (o : nat -> nat -> nat -> set_order) r st cols rest, photoemission fsqrt fexp k_B fuel (Z.of_nat n) op rs ks swm o r st es T w d ps ips = Ok cols :: rest ->
    exists gI l gP l', spec w d ips o r st = Ok gI :: l /\ spec (map fopp w) (- d)%F ps o r st = Ok gP :: l' /\ length ps = length ips /\
      mean_file fexp (k_B * T)%F w es (length ps) (fun i t k => - im (nth k (gI i t) c0 - nth k (gP i t) c0)%C)%F cols).
  { intros o r st c0' l0 E0. unfold photoemission in E0. destruct (spec w d ips o r st) as [|x1 r1] eqn:C1; [discriminate|]. destruct (spec (map fopp w) (- d)%F ps o r st) as [|x2 r2] eqn:C2; [discriminate|].
    cbn [combine map fst snd] in E0. injection E0 as E0 _. destruct x1 as [gI|]; [|discriminate]. destruct x2 as [gP|]; [|discriminate]. cbn [bind] in E0.
    destruct (Nat.eqb_spec (length ps) (length ips)) as [Le|]; [|discriminate]. exists gI, r1, gP, r2. split; [auto|]. split; [auto|]. split; [auto|].
    pose proof (spec_len _ _ _ _ _ _ _ _ Hd C1) as L1. pose proof (spec_len _ _ _ _ _ _ _ _ Hd' C2) as L2. rewrite map_length in L2.
    apply (columns_mean fexp HE) in E0; [|auto|].
    - eapply mean_file_ext; [|exact E0]. intros i t k _ _ Hk. cbv beta. unfold gplus, gneg. rewrite nth_gplus by (rewrite map_length, L1, L2; auto). rewrite nth_opp. f_equal. f_equal. ring.
    - intros i t. unfold gplus, gneg. rewrite map_length, combine_length, map_length, L1, L2. lia. }
  apply K in E as (gI & l1 & gP & l2 & A1 & A2 & Le & M). apply K in E' as (gI' & l1' & gP' & l2' & B1 & B2 & _ & M').
  refine (mean_file_same fexp (k_B * T)%F w es (length ps) _ _ _ _ _ M M'). intros t k Htt Hk. cbv beta. rewrite !mean_im. do 2 f_equal.
  pose proof (levels_mean w d ips gI l1 gI' l1' Hd Hi A1 B1 t k ltac:(lia) Hk (fun e => creal (probability fexp (k_B * T) es e))) as M1.
  pose proof (levels_mean (map fopp w) (- d)%F ps gP l2 gP' l2' Hd' Hp A2 B2 t k ltac:(lia) ltac:(rewrite map_length; auto) (fun e => creal (probability fexp (k_B * T) es e))) as M2. cbv beta in M1, M2.
  rewrite (csum_ext _ (fun i => creal (probability fexp (k_B * T) es (nth i es 0%F)) * nth k (gI' i t) c0 - creal (probability fexp (k_B * T) es (nth i es 0%F)) * nth k (gP' i t) c0)) by (intros; ring).
  rewrite csum_sub, M1, M2, <- csum_sub. apply csum_ext. intros; ring.
Qed.
End Spectra.
