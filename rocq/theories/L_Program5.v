(* The program: its output does not depend on the number of ranks *)
From Coq Require Import Lia List Bool Permutation Field Ring String.
From Verif Require Import M_Prelude M_Scalar M_PSR M_Ladder M_State M_Mpi M_Hamiltonian M_Lanczos M_Basis M_Average M_Expect M_Operators M_Spectra M_Simulate M_RIXS M_Main M_Program
  S_Fock S_Basis S_Ham S_Ops S_Expect S_Green S_Spectra S_RIXS S_Thermal S_Main S_Program
  L_PSR L_Ladder L_Scalar L_Dict L_Sum L_Fock L_State L_Ops L_Ham L_Index L_Basis2 L_Basis4 L_Average L_Spectra L_Spectra2 L_Spectra3 L_Spectra6 L_RIXS L_RIXS2 L_RIXS3 L_RIXS5 L_RIXS6 L_RIXS7 L_Main L_Main2 L_Main3 L_Length L_Program L_Program2 L_Program3 L_Program4.
Import ListNotations.

(* ---- results of two runs with different numbers of ranks ---- *)
Definition psim {A} (Q : A -> A -> Prop) (P P' : list (res A)) : Prop :=
  (exists f o f' o', P = map Ok (f :: o) /\ P' = map Ok (f' :: o') /\ Q f f') \/ (exists e o e' o', P = Err e :: o /\ P' = Err e' :: o').
Notation oc_sim := same_run.
Lemma psim_bind {A B} (Q : A -> A -> Prop) (S : A -> Prop) (f : A -> res B) P P' :
  psim Q P P' -> (forall x, In (Ok x) P -> S x) -> (forall x, In (Ok x) P' -> S x) ->
  ((forall x, S x -> is_ok (f x) = true) \/ (forall x, S x -> is_ok (f x) = false)) ->
  (forall x x', Q x x' -> f x = f x') ->
  psim eq (map (fun r => do x <- r; f x) P) (map (fun r => do x <- r; f x) P').
Proof.
  intros H HS HS' Hd HQ. destruct H as [(a & o & a' & o' & -> & -> & H)|(e & o & e' & o' & -> & ->)]; [|right; simpl; eauto 6].
  destruct Hd as [Hd|Hd].
  - left. assert (G : forall l, (forall x, In (Ok x) (map Ok l) -> S x) -> exists r, map (fun r => do x <- r; f x) (map Ok l) = map Ok r).
    { induction l as [|x l IH]; intros Hl; [exists []; reflexivity|]. destruct IH as [r Er]; [intros; apply Hl; right; auto|].
      specialize (Hd x (Hl x (or_introl eq_refl))). cbn [map bind]. rewrite Er. destruct (f x) as [y|]; [|discriminate]. exists (y :: r). reflexivity. }
    destruct (G (a :: o) HS) as [r Er], (G (a' :: o') HS') as [r' Er']. rewrite Er, Er'.
    cbn [map bind] in Er, Er'. destruct r as [|y r]; [discriminate|]. destruct r' as [|y' r']; [discriminate|]. cbn [map] in Er, Er'. injection Er as Ey _. injection Er' as Ey' _.
    exists y, r, y', r'. split; [auto|]. split; [auto|]. rewrite (HQ _ _ H) in Ey. congruence.
  - right. pose proof (Hd a (HS a (or_introl eq_refl))) as K. pose proof (Hd a' (HS' a' (or_introl eq_refl))) as K'. cbn [map bind].
    destruct (f a); [discriminate|]. destruct (f a'); [discriminate|]. eauto 6.
Qed.
Lemma psim_combine {A B} (P P' : list (res A)) (K K' : list (res B)) : psim eq P P' -> psim eq K K' ->
  psim eq (map (fun rr => do x <- fst rr; do y <- snd rr; Ok (x, y)) (combine P K)) (map (fun rr => do x <- fst rr; do y <- snd rr; Ok (x, y)) (combine P' K')).
Proof.
  assert (G : forall (l : list A) (m : list B), map (fun rr => do x <- fst rr; do y <- snd rr; Ok (x, y)) (combine (map Ok l) (map Ok m)) = map Ok (combine l m)).
  { induction l as [|a l IH]; intros [|b m]; simpl; auto. now rewrite IH. }
  intros [(a & o & a' & o' & -> & -> & <-)|(e & o & e' & o' & -> & ->)] [(b & m & b' & m' & -> & -> & <-)|(e2 & m & e2' & m' & -> & ->)].
  - left. rewrite !G. exists (a, b), (combine o m), (a, b), (combine o' m'). auto.
  - right. simpl. eauto 6.
  - right. simpl. eauto 6.
  - right. simpl. eauto 6.
Qed.
Section Sim.
Context {F : ofield}.
Lemma stage_sim (outs outs' : list (res (list (output F)))) next next' : psim eq outs outs' -> oc_sim next next' -> oc_sim (stage outs next) (stage outs' next').
Proof.
  assert (G : forall l : list (list (output F)), forallb is_ok (map Ok l) = true) by (induction l; simpl; auto).
  intros [(f & o & f' & o' & -> & -> & <-)|(e & o & e' & o' & -> & ->)] [H1 H2].
  - unfold stage. rewrite !G. cbn [map]. split; cbn [fst snd]; [now rewrite H1|exact H2].
  - unfold stage. cbn [forallb is_ok andb]. split; cbn [fst snd stopped map hd_error]; [auto|]. split; [split|]; discriminate.
Qed.
Lemma last_sim (outs outs' : list (res (list (output F)))) : psim eq outs outs' -> oc_sim (last_stage outs) (last_stage outs').
Proof.
  intros [(f & o & f' & o' & -> & -> & <-)|(e & o & e' & o' & -> & ->)]; unfold last_stage; split; cbn [fst snd map bind hd_error]; auto; [|split; [split|]; discriminate].
  split; [tauto|]. intros _. split; constructor; auto; apply Forall_forall; intros x Hx; apply in_map_iff in Hx as (y & <- & Hy); apply in_map_iff in Hy as (z & <- & _); reflexivity.
Qed.
Lemma with_ops_sim {A} R R' (ops : res A) (f f' : A -> list (res (list (output F)))) : (1 <= R)%nat -> (1 <= R')%nat ->
  (forall o, ops = Ok o -> psim eq (f o) (f' o)) -> psim eq (with_ops R ops f) (with_ops R' ops f').
Proof. intros H1 H2 H. destruct ops as [o|e]; simpl; auto. right. destruct R; [lia|]. destruct R'; [lia|]. simpl. eauto 6. Qed.
End Sim.

Section Spectra.
Context {F : ofield}.
Add Field Ff : (f_field F).
Local Open Scope of_scope.
Variables fsqrt fexp arccos fsin f32 : F -> F.
Variables k_B pi : F.
Variable gaunt : Z -> Z -> Z -> Z -> Z -> Z -> F.
Variable spherical_jn : Z -> F -> F.
Variable sph_harm : Z -> Z -> F -> F -> cx F.
Variable bicgstab : list (vec F) -> vec F -> vec F.
Variable fuel : nat.
Variables ord ord' : nat -> nat -> nat -> nat -> set_order.
Variables R R' : nat.
Hypothesis HR : (1 <= R)%nat.
Hypothesis HR' : (1 <= R')%nat.
Hypothesis Hord : forall c t i q l, Permutation (ord c t i q l) l.
Hypothesis Hord' : forall c t i q l, Permutation (ord' c t i q l) l.

(* averages are defined for any non-empty list of energies *)
Lemma avg_dec (es : list F) T : (forall obs m, length obs = length es -> (forall o, In o obs -> length o = m) -> is_ok (thermal_average fexp k_B es obs T) = true) \/
  (forall obs, is_ok (thermal_average fexp k_B es obs T) = false).
Proof.
  destruct es as [|e es].
  - right. intros obs. unfold thermal_average. destruct (np_shape0 obs) as [m|]; [|reflexivity]. cbn [bind]. destruct (negb _); reflexivity.
  - left. intros obs m L H. unfold thermal_average. rewrite (shape_ok obs m H). cbn [bind]. rewrite L, Nat.eqb_refl. reflexivity.
Qed.
Lemma report_dec es T name mesh nT : 
  (forall gs : garr F, (forall i t, length (gs i t) = length mesh) -> is_ok (report fexp k_B es T name mesh nT gs) = true) \/
  (forall gs : garr F, (forall i t, length (gs i t) = length mesh) -> is_ok (report fexp k_B es T name mesh nT gs) = false).
Proof.
  unfold report, columns. destruct (avg_dec es T) as [H|H]; [left|right]; intros gs Hs.
  - specialize (H (neg_imag (length es) nT gs) (nT * length mesh)%nat). destruct (thermal_average _ _ _ _ _) as [a|]; [reflexivity|]. cbn [is_ok] in H. cbn [bind is_ok].
    apply H; [unfold neg_imag; now rewrite map_length, seq_length|]. apply neg_imag_len. auto.
  - specialize (H (neg_imag (length es) nT gs)). destruct (thermal_average _ _ _ _ _) as [a|]; [discriminate|reflexivity].
Qed.
Lemma sum01_len nT nw nL (a : list (cx F)) : length a = (nT * nw * nL)%nat ->
  length (sum_axis01 nT nw nL a) = nw /\ Forall (fun r => length r = nL) (sum_axis01 nT nw nL a).
Proof.
  intros La. unfold sum_axis01. split; [now rewrite map_length, seq_length|]. apply Forall_forall. intros r Hr. apply in_map_iff in Hr as (iw & <- & Hiw). apply in_seq in Hiw.
  unfold sum_axis0. assert (G : forall rows (acc : list F), length acc = nL -> Forall (fun x => length x = nL) rows -> length (fold_left radd rows acc) = nL).
  { induction rows as [|x rows IH]; intros acc Ha Hx; cbn [fold_left]; auto. inversion Hx; subst. apply IH; auto. rewrite radd_len; congruence. }
  apply G; [apply repeat_length|]. apply Forall_forall. intros x Hx. apply in_map_iff in Hx as (k & <- & Hk). apply in_seq in Hk. apply arow_len with (k := (nT * nw)%nat); [lia|nia].
Qed.
Lemma report_RIXS_dec es T ms nIn nOut :
  (forall gs : garr4 F, (forall a b c d, (c < nOut)%nat -> length (gs a b c d) = length (m_wLoss ms)) -> is_ok (report_RIXS fexp f32 k_B es T ms nIn nOut gs) = true) \/
  (forall gs : garr4 F, (forall a b c d, (c < nOut)%nat -> length (gs a b c d) = length (m_wLoss ms)) -> is_ok (report_RIXS fexp f32 k_B es T ms nIn nOut gs) = false).
Proof.
  unfold report_RIXS. destruct (avg_dec es T) as [H|H]; [left|right]; intros gs Hs.
  - set (obs := neg_imag4 (length es) nIn nOut (length (m_wIn ms)) gs). pose proof (neg4_len (length es) nIn nOut (length (m_wIn ms)) _ gs Hs) as Hl. fold obs in Hl.
    specialize (H obs _ (ltac:(unfold obs, neg_imag4; now rewrite map_length, seq_length)) Hl). destruct (thermal_average _ _ _ obs _) as [a|] eqn:Ea; [|discriminate]. cbn [bind].
    assert (La : length a = (nIn * nOut * length (m_wIn ms) * length (m_wLoss ms))%nat) by (eapply avg_len; [|exact Ea]; exact Hl).
    destruct (sum01_len _ _ _ a La) as [L1 L2]. rewrite (write_eq f32 _ _ _ L1 L2). reflexivity.
  - specialize (H (neg_imag4 (length es) nIn nOut (length (m_wIn ms)) gs)). cbv zeta. destruct (thermal_average _ _ _ _ _) as [a|]; [discriminate|reflexivity].
Qed.
Lemma report_RIXS_ext es T ms nIn nOut (gs gs' : garr4 F) :
  (forall a b c d, (a < length es)%nat -> (b < nIn)%nat -> (c < nOut)%nat -> (d < length (m_wIn ms))%nat -> gs a b c d = gs' a b c d) ->
  report_RIXS fexp f32 k_B es T ms nIn nOut gs = report_RIXS fexp f32 k_B es T ms nIn nOut gs'.
Proof.
  intros H. unfold report_RIXS. replace (neg_imag4 (length es) nIn nOut (length (m_wIn ms)) gs') with (neg_imag4 (length es) nIn nOut (length (m_wIn ms)) gs); [reflexivity|].
  assert (FE : forall {A B} (f g : A -> list B) l, (forall x, In x l -> f x = g x) -> flat_map f l = flat_map g l).
  { intros A B f g l Hl. induction l as [|x l IH]; simpl; auto. rewrite Hl by (left; auto). rewrite IH; auto. intros; apply Hl; right; auto. }
  unfold neg_imag4. apply map_ext_in. intros a Ha. apply FE. intros b Hb. apply FE. intros c Hc. apply FE. intros d Hd. apply in_seq in Ha, Hb, Hc, Hd. rewrite H by lia. reflexivity.
Qed.

Variables (nBaths : zdict) (rs : restrictions_t) (hOp : op_t F).
Variables (es : list F) (psis : list (psi_t F)) (T delta deltaNIXS deltaRIXS : F) (ms : @meshes F).
Variables (li lj : Z) (radial : list (F * (cx F * cx F))).
Hypothesis Hsh : wf_shells nBaths.
Let nb := nbaths_of nBaths.
Let n := n_orb nb.
Hypothesis Hrs : wf_restr (Some rs).
Hypothesis Hw : wf_op n hOp.
Hypothesis Hpsis : Forall (valid_psi n) psis.
Hypothesis Hf : (2 ^ n < fuel)%nat.
Hypothesis Hd : delta <> 0.
Hypothesis HdN : deltaNIXS <> 0.
Hypothesis HdR : deltaRIXS <> 0.
Hypothesis Hno : forall op0 ops, getDaggeredDipoleOperators fsqrt pi gaunt nb (m_epsilonsRIXSout ms) = Ok (op0 :: ops) -> no_small n op0 slaterWeightMin (Some rs).
Lemma Hnb : wf_nbaths nb.
Proof. apply wf_nb; auto. Qed.
Lemma n_eq : n_spin_orbitals nBaths = Z.of_nat n.
Proof. unfold n, n_orb. rewrite Z2Nat.id; [apply n_spin_orbitals_eq; auto|]. apply n_total_nonneg; auto. Qed.
Notation call c tOps w d := (getSpectra_call fsqrt fuel ord R nBaths rs hOp es psis c tOps w d).
Notation call' c tOps w d := (getSpectra_call fsqrt fuel ord' R' nBaths rs hOp es psis c tOps w d).
Lemma call_sim c tOps w d : d <> 0 -> Forall (wf_op n) tOps -> psim eq (call c tOps w d) (call' c tOps w d).
Proof.
  intros H0 Ht. unfold getSpectra_call. rewrite n_eq.
  destruct (hb_ranks fsqrt n hOp (Some rs) Hw Hrs fuel Hf w d H0 krylovSize slaterWeightMin tOps Ht psis Hpsis es (ord c) (ord' c) (Hord c) (Hord' c) R R' HR HR') as (r & o & o' & E & E').
  unfold getSpectra in *. 
  assert (G : forall x : run (@hb_state F), (match x with Run st => map Ok (hb_gs st) | Stop l => map Err l end) = r :: o \/ True) by (intros; right; exact I).
  destruct (hb_run _ _ _ _ _ _ _ _ _ (ord c) _ _ _ _) as [st|l]; destruct (hb_run _ _ _ _ _ _ _ _ _ (ord' c) _ _ _ _) as [st'|l'].
  - left. destruct (hb_gs st) as [|a m]; [discriminate|]. destruct (hb_gs st') as [|a' m']; [discriminate|]. exists a, m, a', m'. split; [auto|]. split; [auto|].
    cbn [map] in E, E'. congruence.
  - exfalso. destruct (hb_gs st); [discriminate|]. destruct l'; [discriminate|]. cbn [map] in E, E'. congruence.
  - exfalso. destruct (hb_gs st'); [discriminate|]. destruct l; [discriminate|]. cbn [map] in E, E'. congruence.
  - right. destruct l; [discriminate|]. destruct l'; [discriminate|]. cbn [map]. eauto 6.
Qed.
Lemma fopp_neq (x : F) : x <> 0 -> - x <> 0.
Proof. intros H C. apply H. replace x with (- - x) by ring. rewrite C. ring. Qed.
Lemma PS_sim : psim eq (part_PS fsqrt fexp k_B fuel ord R nBaths rs hOp es psis T delta ms) (part_PS fsqrt fexp k_B fuel ord' R' nBaths rs hOp es psis T delta ms).
Proof.
  unfold part_PS. apply with_ops_sim; auto. intros [ips ps] Eo. cbn [fst snd].
  destruct (getInversePhotoEmissionOperators _ _) as [i0|] eqn:Ei; [|discriminate]. cbn [bind] in Eo. destruct (getPhotoEmissionOperators _ _) as [p0|] eqn:Ep; [|discriminate]. cbn [bind] in Eo. injection Eo as -> ->.
  pose proof (pes_wf nb Hnb lab_c 2 ips (or_intror eq_refl) Ei) as Wi. pose proof (pes_wf nb Hnb lab_a 2 ps (or_introl eq_refl) Ep) as Wp.
  pose proof (psim_combine _ _ _ _ (call_sim 0 ips (m_w ms) delta Hd Wi) (call_sim 1 ps (map fopp (m_w ms)) (- delta) (fopp_neq _ Hd) Wp)) as H.
  apply (psim_bind eq (fun gg => (forall i t, length (fst gg i t) = length (m_w ms)) /\ forall i t, length (snd gg i t) = length (m_w ms))
    (fun gg => report fexp k_B es T "PS" (m_w ms) (length ps) (gplus (gneg (snd gg)) (fst gg)))) in H.
  - rewrite !map_map in H. match type of H with psim eq ?a ?b => match goal with |- psim eq ?c ?d => replace c with a; [replace d with b; [exact H|]|] end end; apply map_ext; intros [[x|] [y|]]; reflexivity.
  - intros [a b] Hi. apply in_map_iff in Hi as ([ra rb] & E & Hi). cbn [fst snd] in *. destruct ra as [a0|]; [|discriminate]. destruct rb as [b0|]; [|discriminate]. cbn [bind] in E. injection E as -> ->.
    split; [eapply hb_shape; [exact Hd|apply (in_combine_l _ _ _ _ Hi)]|]. intros i t. rewrite <- (map_length fopp (m_w ms)). eapply hb_shape; [apply (fopp_neq _ Hd)|apply (in_combine_r _ _ _ _ Hi)].
  - intros [a b] Hi. apply in_map_iff in Hi as ([ra rb] & E & Hi). cbn [fst snd] in *. destruct ra as [a0|]; [|discriminate]. destruct rb as [b0|]; [|discriminate]. cbn [bind] in E. injection E as -> ->.
    split; [eapply hb_shape; [exact Hd|apply (in_combine_l _ _ _ _ Hi)]|]. intros i t. rewrite <- (map_length fopp (m_w ms)). eapply hb_shape; [apply (fopp_neq _ Hd)|apply (in_combine_r _ _ _ _ Hi)].
  - destruct (report_dec es T "PS" (m_w ms) (length ps)) as [K|K]; [left|right]; intros [a b] [H1 H2]; cbn [fst snd] in *; apply K; intros i t; unfold gplus, gneg; rewrite map_length, combine_length, map_length, H1, H2; apply Nat.min_id.
  - intros x x' ->. reflexivity.
Qed.
Lemma abs_sim c name tOps w d (g : garr F -> garr F) w' : d <> 0 -> Forall (wf_op n) tOps -> length w = length w' -> (forall gs i t, length (g gs i t) = length (gs i t)) ->
  psim eq (map (fun r => do gs <- r; report fexp k_B es T name w' (length tOps) (g gs)) (call c tOps w d)) (map (fun r => do gs <- r; report fexp k_B es T name w' (length tOps) (g gs)) (call' c tOps w d)).
Proof.
  intros H0 Ht Lw Hg. apply (psim_bind eq (fun gs => forall i t, length (gs i t) = length w')).
  - apply call_sim; auto.
  - intros x Hx i t. rewrite <- Lw. eapply hb_shape; [exact H0|exact Hx].
  - intros x Hx i t. rewrite <- Lw. eapply hb_shape; [exact H0|exact Hx].
  - destruct (report_dec es T name w' (length tOps)) as [K|K]; [left|right]; intros gs H1; apply K; intros; rewrite Hg; auto.
  - intros x x' ->. reflexivity.
Qed.
Lemma gneg_len (gs : garr F) i t : length (gneg gs i t) = length (gs i t).
Proof. unfold gneg. apply map_length. Qed.
Lemma XPS_sim : psim eq (part_XPS fsqrt fexp k_B fuel ord R nBaths rs hOp es psis T delta ms) (part_XPS fsqrt fexp k_B fuel ord' R' nBaths rs hOp es psis T delta ms).
Proof.
  unfold part_XPS. apply with_ops_sim; auto. intros ps Ep. apply (abs_sim 2 "XPS" ps (map fopp (m_w ms)) (- delta) gneg (m_w ms)).
  - apply fopp_neq; auto.
  - apply (pes_wf nb Hnb lab_a 1 ps (or_introl eq_refl) Ep).
  - apply map_length.
  - apply gneg_len.
Qed.
Lemma NIXS_sim : psim eq (part_NIXS fsqrt fexp arccos fsin k_B pi gaunt spherical_jn sph_harm fuel ord R nBaths rs hOp es psis T deltaNIXS ms li lj radial)
  (part_NIXS fsqrt fexp arccos fsin k_B pi gaunt spherical_jn sph_harm fuel ord' R' nBaths rs hOp es psis T deltaNIXS ms li lj radial).
Proof.
  unfold part_NIXS. apply with_ops_sim; auto. intros ps Ep. apply (abs_sim 3 "NIXS" ps (m_wLoss ms) deltaNIXS (fun gs => gs) (m_wLoss ms)); auto.
  eapply nixs_wf; [apply Hnb|exact Ep].
Qed.
Lemma XAS_sim : psim eq (part_XAS fsqrt fexp k_B pi gaunt fuel ord R nBaths rs hOp es psis T delta ms)
  (part_XAS fsqrt fexp k_B pi gaunt fuel ord' R' nBaths rs hOp es psis T delta ms).
Proof.
  unfold part_XAS. apply with_ops_sim; auto. intros ps Ep. apply (abs_sim 4 "XAS" ps (m_w ms) delta (fun gs => gs) (m_w ms)); auto.
  eapply dips_wf; [apply Hnb|exact Ep].
Qed.
Notation rmap4 o R tIn tOut := (getRIXSmap fsqrt bicgstab fuel (n_spin_orbitals nBaths) hOp (m_wIn ms) (m_wLoss ms) delta deltaRIXS (Some rs) krylovSize slaterWeightMin
         tIn tOut psis es o (repeat [] R) RHBuildwIn).
Lemma rixs_sim0 tIn op0 ops M : Forall (wf_op n) tIn -> wf_op n op0 -> no_small n op0 slaterWeightMin (Some rs) -> ops = repeat op0 M ->
  psim (fun gs gs' => forall a b c d, (a < length es)%nat -> (b < length tIn)%nat -> (c < M)%nat -> (d < length (m_wIn ms))%nat -> gs a b c d = gs' a b c d)
    (rmap4 (ord 5%nat) R tIn ops) (rmap4 (ord' 5%nat) R' tIn ops).
Proof.
  intros Ht H0 Hn ->. unfold getRIXSmap. rewrite n_eq.
  assert (Hg : forall R, Forall (hdict_exact n hOp (Some rs)) (repeat [] R)) by (intros; apply Forall_forall; intros x Hx; apply repeat_spec in Hx; subst x; apply exact_nil).
  assert (HRn : forall R, (1 <= R)%nat -> repeat ([] : hdict_t F) R <> []) by (intros [|?] ?; [lia|discriminate]).
  assert (O1 : forall t i, ord_ok HBuild (ord 5%nat t i)) by (intros t i _ q l; apply Hord). assert (O2 : forall t i, ord_ok HBuild (ord' 5%nat t i)) by (intros t i _ q l; apply Hord').
  pose proof (win_run7 fsqrt bicgstab n hOp (Some rs) Hw Hrs fuel Hf (m_wIn ms) (m_wLoss ms) delta deltaRIXS krylovSize slaterWeightMin tIn psis es Ht Hpsis op0 H0 Hn M HBuild (or_intror eq_refl)) as H7.
  pose proof (win_run6 fsqrt bicgstab n hOp (Some rs) Hw Hrs fuel Hf (m_wIn ms) (m_wLoss ms) delta deltaRIXS krylovSize slaterWeightMin tIn psis es Ht Hpsis op0 H0 Hn M HBuild (or_intror eq_refl)) as H6.
  pose proof (iff_trans (H7 (ord 5%nat) (repeat [] R) O1 (HRn R HR) (Hg R)) (iff_sym (H7 (ord' 5%nat) (repeat [] R') O2 (HRn R' HR') (Hg R')))) as HI. clear H7.
  pose proof (fun st => H6 (ord 5%nat) (repeat [] R) st O1 (HRn R HR) (Hg R)) as HA. pose proof (fun st => H6 (ord' 5%nat) (repeat [] R') st O2 (HRn R' HR') (Hg R')) as HB. clear H6.
  match type of HI with (exists s1, ?X = _) <-> (exists s2, ?Y = _) => set (X0 := X) in *; set (Y0 := Y) in * end.
  destruct X0 as [st|l] eqn:EX, Y0 as [st'|l'] eqn:EY.
  - left. destruct (HA st eq_refl) as (gs & E & G). destruct (HB st' eq_refl) as (gs' & E' & G'). rewrite E, E'. rewrite !repeat_length. destruct R as [|r]; [lia|]. destruct R' as [|r']; [lia|]. cbn [repeat].
    exists gs, (repeat gs r), gs', (repeat gs' r'). split; [auto|]. split; [auto|]. intros a b c d L1 L2 L3 L4.
    destruct (nth_error tIn b) as [tOp|] eqn:E3; [|apply nth_error_None in E3; lia]. destruct (nth_error (m_wIn ms) d) as [wi|] eqn:E4; [|apply nth_error_None in E4; lia].
    eapply krow6_fun; [..|exact (G b a tOp d wi c I E3 L1 E4 L3)|exact (G' b a tOp d wi c I E3 L1 E4 L3)]; eauto.
  - exfalso. destruct (proj1 HI (ex_intro _ st eq_refl)) as [x Cx]. discriminate.
  - exfalso. destruct (proj2 HI (ex_intro _ st' eq_refl)) as [x Cx]. discriminate.
  - right. assert (Hl : forall o R l, (1 <= R)%nat -> win_run fsqrt bicgstab fuel (Z.of_nat n) hOp (m_wIn ms) (m_wLoss ms) delta deltaRIXS (Some rs) krylovSize slaterWeightMin tIn (repeat op0 M) psis es HBuild o (repeat [] R) = Stop l -> l <> []).
    { intros o R0 l0 HR0 E0 ->. pose proof (win_len fsqrt bicgstab fuel (Z.of_nat n) hOp (m_wIn ms) (m_wLoss ms) delta deltaRIXS (Some rs) krylovSize slaterWeightMin tIn (repeat op0 M) psis es o (repeat [] R0) RHBuildwIn (or_intror eq_refl)) as WL.
      unfold getRIXSmap in WL. rewrite E0, repeat_length in WL. simpl in WL. lia. }
    pose proof (Hl _ _ _ HR EX). pose proof (Hl _ _ _ HR' EY). destruct l; [congruence|]. destruct l'; [congruence|]. cbn [map]. eauto 6.
Qed.
Lemma RIXS_sim : psim eq (part_RIXS fsqrt fexp f32 k_B pi gaunt bicgstab fuel ord R nBaths rs hOp es psis T delta deltaRIXS ms)
  (part_RIXS fsqrt fexp f32 k_B pi gaunt bicgstab fuel ord' R' nBaths rs hOp es psis T delta deltaRIXS ms).
Proof.
  unfold part_RIXS. apply with_ops_sim; auto. intros [tIn tOut] Eo. cbn [fst snd].
  destruct (getDipoleOperators _ _ _ _ _) as [i0|] eqn:Ei; [|discriminate]. cbn [bind] in Eo. destruct (getDaggeredDipoleOperators _ _ _ _ _) as [p0|] eqn:Ep; [|discriminate]. cbn [bind] in Eo. injection Eo as -> ->.
  pose proof (dips_wf nb Hnb fsqrt pi gaunt _ _ Ei) as Wi. pose proof (ddips_wf nb Hnb fsqrt pi gaunt _ _ Ep) as Wo.
  apply (psim_bind (fun gs gs' => forall a b c d, (a < length es)%nat -> (b < length tIn)%nat -> (c < length tOut)%nat -> (d < length (m_wIn ms))%nat -> gs a b c d = gs' a b c d)
    (fun gs => forall a b c d, (c < length tOut)%nat -> length (gs a b c d) = length (m_wLoss ms))).
  - destruct tOut as [|op0 ops].
    + apply (rixs_sim0 tIn [] [] 0); auto; [apply wf_nil|]. intros s t _ _ _. left. reflexivity.
    + rewrite !(getRIXSmap_same fsqrt bicgstab fuel (n_spin_orbitals nBaths) hOp (m_wIn ms) (m_wLoss ms) delta deltaRIXS (Some rs) krylovSize slaterWeightMin tIn psis es op0 ops (repeat op0 (length ops))) by (rewrite repeat_length; auto).
      apply (rixs_sim0 tIn op0 _ (S (length ops))); auto; [inversion Wo; auto|]. eapply Hno. reflexivity.
  - intros gs Hi. eapply win_shape; [exact HdR|right; reflexivity|exact Hi].
  - intros gs Hi. eapply win_shape; [exact HdR|right; reflexivity|exact Hi].
  - apply report_RIXS_dec.
  - intros gs gs' H. apply report_RIXS_ext. exact H.
Qed.
Lemma spectra_sim : oc_sim (simulate_spectra fsqrt fexp arccos fsin f32 k_B pi gaunt spherical_jn sph_harm bicgstab fuel ord R nBaths rs hOp es psis T delta deltaNIXS deltaRIXS ms li lj radial)
  (simulate_spectra fsqrt fexp arccos fsin f32 k_B pi gaunt spherical_jn sph_harm bicgstab fuel ord' R' nBaths rs hOp es psis T delta deltaNIXS deltaRIXS ms li lj radial).
Proof.
  unfold simulate_spectra. apply stage_sim; [apply PS_sim|]. apply stage_sim; [apply XPS_sim|]. apply stage_sim; [apply NIXS_sim|]. apply stage_sim; [apply XAS_sim|]. apply last_sim. apply RIXS_sim.
Qed.
End Spectra.

(* ---- the eigenstates ---- *)
Section Eigen.
Context {F : ofield}.
Variable eigh : nat -> M_Hamiltonian.mat F -> res (list F * list (list (cx F))).
Variable eigsh : nat -> M_Hamiltonian.mat F -> Z -> res (list F * list (list (cx F))).
Variable argsort : list F -> list nat.
Hypothesis Hext : forall N h h' k, (forall i j, h i j = h' i j) -> eigsh N h k = eigsh N h' k.
Lemma eigen_ranks n (op : op_t F) basis nPsiMax swm R R' : wf_op n op -> Forall (valid_key n) basis -> basis <> [] -> (1 <= R)%nat -> (1 <= R')%nat ->
  exists X, eigensystem eigh eigsh argsort R (Z.of_nat n) op basis nPsiMax LanczosDiag swm = repeat X R /\ eigensystem eigh eigsh argsort R' (Z.of_nat n) op basis nPsiMax LanczosDiag swm = repeat X R'.
Proof.
  intros Hw Hv Hb HR HR'. destruct (ham_modes_agree n op basis R R' SparseMPI SparseMPI Hw Hv HR HR' ltac:(discriminate) ltac:(discriminate)) as (m & m' & E & E' & Hm).
  unfold eigensystem. rewrite E, E', !enumerate_repeat, !map_map. cbn [fst snd bind].
  assert (L : forall r h, eigen_local eigh eigsh argsort r h basis nPsiMax LanczosDiag swm = eigen_local eigh eigsh argsort 1 h basis nPsiMax LanczosDiag swm).
  { intros r h. unfold eigen_local. destruct basis; [congruence|]. cbn [length Nat.eqb]. rewrite !andb_false_r. reflexivity. }
  assert (Hmm : eigen_local eigh eigsh argsort 1 m' basis nPsiMax LanczosDiag swm = eigen_local eigh eigsh argsort 1 m basis nPsiMax LanczosDiag swm).
  { unfold eigen_local, diagonalize. rewrite (Hext (length basis) m' m) by (intros; symmetry; apply Hm). reflexivity. }
  exists (eigen_local eigh eigsh argsort 1 m basis nPsiMax LanczosDiag swm). split.
  - erewrite map_const_repeat; [now rewrite seq_length|]. intros r _. apply L.
  - erewrite map_const_repeat; [now rewrite seq_length|]. intros r _. rewrite L. exact Hmm.
Qed.
Lemma state_valid n basis swm col (psi : psi_t F) : Forall (valid_key n) basis -> state_of_column basis swm col = Ok psi -> valid_psi n psi.
Proof.
  intros Hv. unfold state_of_column. apply (fold_res_inv' _ (valid_psi n)); [|split; [constructor|intros k []]].
  intros s i s' [H1 H2] Hi. destruct (nth_res col i) as [v|]; [|discriminate]. cbn [bind]. destruct (_ <? _)%F; [intros E; injection E as <-; split; auto|].
  unfold nth_res. destruct (nth_error basis i) as [b|] eqn:Eb; [|discriminate]. cbn [bind]. intros E. injection E as <-. split; [apply NoDup_dset; auto|].
  intros k Hk. apply in_dkeys_dset in Hk as [->|Hk]; auto. rewrite Forall_forall in Hv. apply Hv. eapply nth_error_In; eauto.
Qed.
Lemma eigen_valid n (op : op_t F) basis nPsiMax mode swm R es psis : Forall (valid_key n) basis ->
  In (Ok (es, psis)) (eigensystem eigh eigsh argsort R (Z.of_nat n) op basis nPsiMax mode swm) -> Forall (valid_psi n) psis.
Proof.
  intros Hv Hi. unfold eigensystem in Hi. apply in_map_iff in Hi as ([r h] & E & _). cbn [fst snd] in E. destruct h as [h|]; [|discriminate]. cbn [bind] in E.
  unfold eigen_local in E. destruct (_ && _); [discriminate|]. destruct (diagonalize _ _ _ _ _ _ _) as [[es0 vecs]|]; [|discriminate]. cbn [bind] in E.
  destruct (map_res _ _) as [ps|] eqn:Em; [|discriminate]. cbn [bind] in E. injection E as -> ->. eapply map_res_all; [|exact Em]. intros vi psi _ Es. cbn beta in Es.
  destruct (nth_res vecs vi) as [col|]; [|discriminate]. cbn [bind] in Es. eapply state_valid; eauto.
Qed.
Lemma low_valid n (es : list F) psis cut es' psis' : Forall (valid_psi n) psis -> low_energy es psis cut = Ok (es', psis') -> Forall (valid_psi n) psis'.
Proof.
  intros Hv. unfold low_energy. match goal with |- context [bind ?X _] => destruct X as [e2|] end; [|discriminate]. cbn [bind].
  destruct (map_res _ _) as [ps|] eqn:Em; [|discriminate]. cbn [bind]. intros E. injection E as -> ->. eapply map_res_all; [|exact Em].
  intros i psi _ Ei. unfold nth_res in Ei. destruct (nth_error psis i) eqn:En; [|discriminate]. injection Ei as <-. rewrite Forall_forall in Hv. apply Hv. eapply nth_error_In; eauto.
Qed.
End Eigen.

(* ---- main ---- *)
Section Main.
Context {F : ofield}.
Local Open Scope of_scope.
Variables fsqrt fexp arccos fsin f32 : F -> F.
Variables k_B pi : F.
Variable gaunt : Z -> Z -> Z -> Z -> Z -> Z -> F.
Variable spherical_jn : Z -> F -> F.
Variable sph_harm : Z -> Z -> F -> F -> cx F.
Variable bicgstab : list (vec F) -> vec F -> vec F.
Variable eigh : nat -> M_Hamiltonian.mat F -> res (list F * list (list (cx F))).
Variable eigsh : nat -> M_Hamiltonian.mat F -> Z -> res (list F * list (list (cx F))).
Variable argsort : list F -> list nat.
Variable fuel : nat.
Hypothesis Hext : forall N h h' k, (forall i j, h i j = h' i j) -> eigsh N h k = eigsh N h' k.
Lemma setup_inv hamiltonian (a : @args F) su : main_setup hamiltonian a = Ok su -> main_setup (fun _ _ _ => Ok (su_hOp su)) a = Ok su.
Proof.
  unfold main_setup. cbv zeta. destruct (excited_restrictions _ _ _ _ _ _) as [rs|]; [|discriminate]. cbn [bind]. destruct (hField3 _) as [[[hx hy] hz]|]; [|discriminate]. cbn [bind].
  destruct (hamiltonian _ _ _) as [h|]; [|discriminate]. cbn [bind]. destruct (get_basis _ _ _ _ _ _) as [b|]; [|discriminate]. cbn [bind]. intros E. injection E as <-. reflexivity.
Qed.
Lemma setup_facts hamiltonian (a : @args F) su : sound_args a -> main_setup hamiltonian a = Ok su ->
  wf_shells (su_nBaths su) /\ wf_restr (Some (su_rs su)) /\ Forall (valid_key (n_orb (nbaths_of (su_nBaths su)))) (su_basis su).
Proof.
  intros HS E. apply setup_inv in E. destruct (setup_ok a HS (fun _ _ _ => Ok (su_hOp su))) as (su' & E' & _ & E1 & _ & E2 & E3); [reflexivity|].
  assert (su' = su) by congruence. subst su'. rewrite E1 in *. split; [apply d_shells; auto|]. split.
  - destruct HS as (Hn & H2 & Hh & Hl & Hs). assert (HS : sound_args a) by (repeat (split; auto)).
    rewrite <- (d_keys a HS) in H2. apply dget_Some_key in H2 as [nB H2]. apply dget_In in H2.
    destruct (at_shell a HS 2 nB H2) as (nV & o & t & dv & dc & (_ & HV & _) & P1 & P2 & P3 & P4 & P5).
    assert (Hp : shell_params (ordered (a_ls a) (a_nValBaths a)) (ordered (a_ls a) (a_dnValBaths a)) (ordered (a_ls a) (a_dnConBaths a)) (ordered (a_ls a) (a_dnTols a)) (ordered (a_ls a) (a_n0imps a)) 2 (mk_par nV dv dc t o)) by (repeat split; auto).
    rewrite (restrictions_eq _ _ _ _ _ _ (d_shells a HS) nB H2 _ Hp HV) in E3. injection E3 as <-. cbn [wf_restr].
    destruct (fs_eqb _ _); repeat constructor; apply zrange2_NoDup.
  - apply Forall_forall. intros k Hk. apply E2 in Hk as (c & L & -> & _). exists c. auto.
Qed.
Lemma prints_thermal a ms radial nb es psis printed : rank0_prints fsqrt fexp k_B argsort a ms radial nb es psis = (printed, Ok tt) -> thermal_occupations fsqrt fexp k_B nb es psis (fofZ 300) (fofZ 10) = Ok tt.
Proof.
  unfold rank0_prints. destruct (printThermalExpValues _ _ _ _ _ _ _ _) as [p|] eqn:Ep; [|cbn [rmap outputs]; discriminate]. intros _. revert Ep.
  unfold printThermalExpValues, thermal_occupations. destruct (nth_res es 0) as [e0|]; [|discriminate]. cbn [bind]. destruct (negb _); [discriminate|].
  destruct (map_res _ _) as [oc|]; [|discriminate]. cbn [bind]. destruct (thermal_average _ _ _ oc _) as [av|]; [|discriminate]. reflexivity.
Qed.
Lemma main_sim ord ord' R R' hamiltonian ms (a : @args F) radial : (1 <= R)%nat -> (1 <= R')%nat ->
  (forall c t i q l, Permutation (ord c t i q l) l) -> (forall c t i q l, Permutation (ord' c t i q l) l) ->
  sound_args a -> a_delta a <> 0 -> a_deltaNIXS a <> 0 -> a_deltaRIXS a <> 0 ->
  (forall su, main_setup hamiltonian a = Ok su -> let nb := nbaths_of (su_nBaths su) in
     wf_op (n_orb nb) (su_hOp su) /\ (2 ^ n_orb nb < fuel)%nat /\
     forall op0 ops, getDaggeredDipoleOperators fsqrt pi gaunt nb (m_epsilonsRIXSout ms) = Ok (op0 :: ops) -> no_small (n_orb nb) op0 slaterWeightMin (Some (su_rs su))) ->
  oc_sim (main fsqrt fexp arccos fsin f32 k_B pi gaunt spherical_jn sph_harm bicgstab eigh eigsh argsort fuel ord R hamiltonian ms a radial)
    (main fsqrt fexp arccos fsin f32 k_B pi gaunt spherical_jn sph_harm bicgstab eigh eigsh argsort fuel ord' R' hamiltonian ms a radial).
Proof.
  intros HR HR' Ho Ho' HS D1 D2 D3 Hsu. unfold main. destruct (main_setup hamiltonian a) as [su|e] eqn:Es.
  2:{ split; cbn [fst snd]; auto. destruct R; [lia|]. destruct R'; [lia|]. cbn [repeat hd_error]. split; [split|]; discriminate. }
  specialize (Hsu su eq_refl). cbv zeta in Hsu. destruct Hsu as (Hw & Hf & Hno). destruct (setup_facts _ _ _ HS Es) as (Hsh & Hrs & Hv).
  assert (Hn : n_spin_orbitals (su_nBaths su) = Z.of_nat (n_orb (nbaths_of (su_nBaths su)))).
  { apply (n_eq (su_nBaths su) Hsh). }
  rewrite !Hn. destruct (su_basis su) as [|b0 bs] eqn:Eb.
  { pose proof (eigensystem_empty eigh eigsh argsort _ (su_hOp su) R (a_nPsiMax a) LanczosDiag slaterWeightMin Hw HR) as K.
    pose proof (eigensystem_empty eigh eigsh argsort _ (su_hOp su) R' (a_nPsiMax a) LanczosDiag slaterWeightMin Hw HR') as K'.
    destruct (eigensystem _ _ _ R _ _ _ _ _ _) as [|x l]; [discriminate|]. injection K as ->.
    destruct (eigensystem _ _ _ R' _ _ _ _ _ _) as [|x' l']; [discriminate|]. injection K' as ->. split; cbn [fst snd stopped map hd_error]; auto. split; [split|]; discriminate. }
  rewrite <- Eb in *. destruct (eigen_ranks eigh eigsh argsort Hext _ (su_hOp su) (su_basis su) (a_nPsiMax a) slaterWeightMin R R' Hw Hv (ltac:(congruence)) HR HR') as (X & E1 & E2).
  pose proof (fun es psis => eigen_valid eigh eigsh argsort _ (su_hOp su) (su_basis su) (a_nPsiMax a) LanczosDiag slaterWeightMin R es psis Hv) as Hval. rewrite E1 in Hval. rewrite E1, E2.
  destruct R as [|r]; [lia|]. destruct R' as [|r']; [lia|]. cbn [repeat] in *. destruct X as [[es psis]|e].
  2:{ split; cbn [fst snd stopped map hd_error]; auto. split; [split|]; discriminate. }
  assert (Hp : Forall (valid_psi (n_orb (nbaths_of (su_nBaths su)))) psis) by (apply (Hval es); left; auto).
  assert (G : forall k, forallb is_ok (repeat (Ok (es, psis)) k) = true) by (induction k; simpl; auto). rewrite !G.
  destruct (rank0_prints _ _ _ _ _ _ _ _ _ _) as [printed r0] eqn:Er. destruct r0 as [[]|e].
  2:{ cbn [forallb is_ok andb]. split; cbn [fst snd stopped map hd_error]; auto. split; [split|]; discriminate. }
  pose proof (prints_thermal _ _ _ _ _ _ _ Er) as Et. rewrite Et.
  assert (G2 : forall k, forallb is_ok (Ok tt :: map (fun _ : res (list F * list (psi_t F)) => Ok tt) (repeat (Ok (es, psis)) k)) = true) by (induction k; simpl; auto). rewrite !G2.
  destruct (low_energy _ _ _) as [[es' psis']|e] eqn:El.
  2:{ split; cbn [fst snd hd_error]; auto. split; [split|]; discriminate. }
  pose proof (low_valid _ _ _ _ _ _ Hp El) as Hp'.
  pose proof (spectra_sim fsqrt fexp arccos fsin f32 k_B pi gaunt spherical_jn sph_harm bicgstab fuel ord ord' (S r) (S r') HR HR' Ho Ho' (su_nBaths su) (su_rs su) (su_hOp su) es' psis' (a_T a) (a_delta a) (a_deltaNIXS a) (a_deltaRIXS a) ms
    2 2 (map (fun rR => (fst rR, (creal (snd rR), creal (snd rR)))) radial) Hsh Hrs Hw Hp' Hf D1 D2 D3 Hno) as [S1 S2].
  destruct (simulate_spectra _ _ _ _ _ _ _ _ _ _ _ _ _ (S r) _ _ _ _ _ _ _ _ _ _ _ _ _) as [f1 e1]. destruct (simulate_spectra _ _ _ _ _ _ _ _ _ _ _ _ _ (S r') _ _ _ _ _ _ _ _ _ _ _ _ _) as [f2 e2].
  cbn [fst snd] in *. split; cbn [fst snd]; [now rewrite S1|exact S2].
Qed.
End Main.
