(* Unitary changes of the orbitals do not change the spectra. *)
From Coq Require Import Permutation Ring Field.
From Verif Require Import M_Prelude M_Scalar M_PSR M_State M_Mpi M_Hamiltonian M_Basis M_Expect M_Operators M_Lanczos M_Average M_Spectra M_Simulate M_RIXS M_Program S_Fock S_Ops S_Ham S_Green S_Spectra S_Operators S_Symmetry S_TimeReversal S_Thermal S_Spectrum S_Spectrum3 S_RIXS S_Levels S_Unitary.
From Verif Require Import L_Scalar L_Sum L_Dict L_Fock L_State L_Ops L_ApplyOp L_FockP L_Lanczos2 L_Green L_Green3 L_Green4 L_Average L_Spectra6 L_Program L_RIXS2 L_Expect L_Symmetry L_Program7 L_Program9 L_Sector L_Levels L_Levels2 L_Levels3 L_Shift L_Shift3 L_Unitary L_Unitary2.
From Verif Require S_Dict P_RIXS.
Local Open Scope Z_scope.

Section S.
Context {F : ofield}.
Add Field Ff : (f_field F).
Add Field Cf : (@c_field F).
Local Open Scope cx_scope.
(* a dictionary with given amplitudes *)
Definition mkpsi (n : nat) (v : config -> cx F) : psi_t F := map (fun c => (key c, v c)) (allcfg n).
Lemma mkpsi_keys n v : dkeys (mkpsi n v) = map key (allcfg n).
Proof. unfold dkeys, mkpsi. rewrite map_map. reflexivity. Qed.
Lemma mkpsi_valid n v : valid_psi n (mkpsi n v).
Proof.
  split; rewrite mkpsi_keys.
  - apply allkeys_NoDup.
  - intros k Hk. apply in_map_iff in Hk as (c & <- & Hc). apply allcfg_In in Hc. exists c. auto.
Qed.
Lemma mkpsi_amp n v t : length t = n -> amp (mkpsi n v) t = v t.
Proof.
  intros Ht. unfold amp. rewrite (In_dget _ (key t) (v t)); [reflexivity|apply mkpsi_valid|]. unfold mkpsi. apply in_map_iff. exists t. split; [reflexivity|]. apply allcfg_In. auto.
Qed.

Variables (n : nat) (u : nat -> nat -> cx F) (op op' : op_t F) (rs : option restrictions_t).
Hypothesis HH : turned_hamiltonians n u rs op op'.
Notation T := (turned n u).
Let HU : unitary_orbitals n u := proj1 HH.
Let Hop : wf_op n op := proj1 (proj2 HH).
Let Hop' : wf_op n op' := proj1 (proj2 (proj2 HH)).
Let HA : assert_hermitian op = Ok tt := proj1 (proj2 (proj2 (proj2 HH))).
Let HA' : assert_hermitian op' = Ok tt := proj1 (proj2 (proj2 (proj2 (proj2 HH)))).
Let HN : S_Dict.no_small n op := proj1 (proj2 (proj2 (proj2 (proj2 (proj2 HH))))).
Let HN' : S_Dict.no_small n op' := proj1 (proj2 (proj2 (proj2 (proj2 (proj2 (proj2 HH)))))).
Let HT : turns n u op op' := proj1 (proj2 (proj2 (proj2 (proj2 (proj2 (proj2 (proj2 HH))))))).
Let Hr : wf_restr rs := proj1 (proj2 (proj2 (proj2 (proj2 (proj2 (proj2 (proj2 (proj2 HH)))))))).
Let Hm : unmixed n u rs := proj2 (proj2 (proj2 (proj2 (proj2 (proj2 (proj2 (proj2 (proj2 HH)))))))).
Definition forbids (v : config -> cx F) : Prop := forall t, length t = n -> ~ allowed_opt rs t -> v t = c0.
Lemma T_forbids v : forbids v -> forbids (T v).
Proof.
  intros H t Ht Ha. apply csum_zero. intros s Hs. apply allcfg_In in Hs. destruct (ceqb_spec (turned_product n u 0 s t) c0) as [E|E]; [rewrite E; ring|].
  rewrite H; [ring|auto|]. intros X. apply Ha. apply (prod_allowed n u rs s t); auto.
Qed.
(* values on the allowed configurations matter only *)
Lemma T_allowed v w t : length t = n -> allowed_opt rs t -> (forall s, length s = n -> allowed_opt rs s -> v s = w s) -> T v t = T w t.
Proof.
  intros Ht Ha H. apply csum_ext. intros s Hs. apply allcfg_In in Hs. destruct (ceqb_spec (turned_product n u 0 s t) c0) as [E|E]; [rewrite E; ring|].
  rewrite H; auto. apply (prod_allowed n u rs s t); auto.
Qed.
Lemma image_turned (tOp : op_t F) psi psi' p p' : turns n u tOp tOp -> (forall t, length t = n -> amp psi' t = T (amp psi) t) -> op_image n tOp rs psi p ->
  (op_image n tOp rs psi' p' <-> forall t, length t = n -> amp p' t = T (amp p) t).
Proof.
  intros Ht E H.
  assert (K1 : forall t, length t = n -> allowed_opt rs t -> T (amp p) t = csum (fun s => opelem tOp t s * amp psi' s) (allcfg n)).
  { intros t Lt Ha. transitivity (opv n tOp (T (amp psi)) t).
    - rewrite <- (Ht (amp psi) t Lt). apply T_allowed; auto. intros s Ls As. rewrite (proj1 (H s Ls) As). reflexivity.
    - apply opv_ext. intros s Hs. symmetry. auto. }
  assert (K2 : forall t, length t = n -> ~ allowed_opt rs t -> T (amp p) t = c0) by (apply T_forbids; intros t Lt Ha; apply (H t Lt); auto).
  split.
  - intros H' t Lt. destruct (allowed_opt_dec rs t) as [Ha|Ha]; [rewrite (proj1 (H' t Lt) Ha), K1 by auto; reflexivity|rewrite (proj2 (H' t Lt) Ha), K2 by auto; reflexivity].
  - intros H' t Lt. rewrite (H' t Lt). split; auto.
Qed.
Section KH.
Variables h h' : config -> config -> cx F.
Hypothesis HR : restricted_op n op rs h.
Hypothesis HR' : restricted_op n op' rs h'.
Lemma turned_solves z x psi psi' : z <> c0 -> fock_solves n z h x psi -> forbids (amp psi) -> (forall t, length t = n -> amp psi' t = T (amp psi) t) -> fock_solves n z h' (T x) psi'.
Proof.
  intros Hz HS Hp E t Ht. assert (Hx : forbids x) by (intros s Ls As; apply (sol_allowed n op rs h HN HR z x psi s); auto). rewrite (E t Ht). destruct (allowed_opt_dec rs t) as [Ha|Ha].
  - rewrite (csum_ext _ (fun s => opelem op' t s * T x s)) by (intros s Hs; apply allcfg_In in Hs; rewrite (proj1 (restr_val n op' rs h' t s HN' HR' Ht Hs) Ha); reflexivity).
    change (z * T x t - opv n op' (T x) t = T (amp psi) t). rewrite <- (HT x t Ht). rewrite <- (T_scale n u z x t). unfold turned at 1 2. rewrite <- csum_sub.
    transitivity (T (fun s => z * x s - opv n op x s) t); [unfold turned; apply csum_ext; intros; ring|]. apply T_allowed; auto. intros s Ls As. rewrite <- (HS s Ls). f_equal. apply csum_ext. intros r Hr0. apply allcfg_In in Hr0.
    rewrite (proj1 (restr_val n op rs h s r HN HR Ls Hr0) As). reflexivity.
  - rewrite (T_forbids x Hx t Ht Ha), (T_forbids (amp psi) Hp t Ht Ha). rewrite csum_zero; [ring|]. intros s Hs. apply allcfg_In in Hs. rewrite (proj2 (restr_val n op' rs h' t s HN' HR' Ht Hs) Ha). ring.
Qed.
Lemma im_nz (z : cx F) : im z <> 0%F -> z <> c0. Proof. intros H E. apply H. rewrite E. reflexivity. Qed.
Lemma green_turned z psi psi' g : im z <> 0%F -> forbids (amp psi) -> (forall t, length t = n -> amp psi' t = T (amp psi) t) -> fock_green n z h psi g -> fock_green n z h' psi' g.
Proof.
  intros Hz Hp E (x & Hx & Hg & _). pose proof (turned_solves z x psi psi' (im_nz z Hz) Hx Hp E) as Hx'. exists (T x). split; [auto|]. split.
  - rewrite <- Hg. rewrite (csum_ext _ (fun t => cconj (T (amp psi) t) * T x t)) by (intros t Ht; apply allcfg_In in Ht; rewrite E; auto). exact (T_iso n u HU (amp psi) x).
  - intros y Hy t Ht. exact (sol_unique n op' rs h' z y (T x) psi' Hop' HA' HR' Hz Hy Hx' t Ht).
Qed.
Lemma kh_turned tIn tOut psi psi' (z1 z2 : cx F) g : turns n u tIn tIn -> turns n u tOut tOut -> im z1 <> 0%F -> im z2 <> 0%F -> (forall t, length t = n -> amp psi' t = T (amp psi) t) ->
  kramers_heisenberg n rs h tIn tOut psi z1 z2 g -> kramers_heisenberg n rs h' tIn tOut psi' z1 z2 g.
Proof.
  intros W1 W2 Hz1 Hz2 E (p1 & p2 & p3 & I1 & X & I3 & G). exists (mkpsi n (T (amp p1))), (mkpsi n (T (amp p2))), (mkpsi n (T (amp p3))).
  assert (M : forall v t, length t = n -> amp (mkpsi n v) t = v t) by (intros; apply mkpsi_amp; auto).
  assert (B1 : forbids (amp p1)) by (intros t Ht Ha; apply (I1 t Ht); auto).
  assert (B2 : forbids (amp p2)) by (intros t Ht Ha; apply (sol_allowed n op rs h HN HR z1 (amp p2) p1 t (im_nz z1 Hz1)); auto).
  assert (B3 : forbids (amp p3)) by (intros t Ht Ha; apply (I3 t Ht); auto).
  split; [apply (image_turned tIn psi psi' p1); auto|]. split; [|split].
  - intros t Ht. pose proof (turned_solves z1 (amp p2) p1 (mkpsi n (T (amp p1))) (im_nz z1 Hz1) X B1 (fun t Ht => M _ t Ht) t Ht) as Y. rewrite (M (T (amp p2)) t Ht). rewrite <- Y. f_equal. apply csum_ext. intros s Hs. apply allcfg_In in Hs. rewrite M; auto.
  - apply (image_turned tOut p2 (mkpsi n (T (amp p2))) p3); auto.
  - apply (green_turned z2 p3); auto.
Qed.
End KH.

Variables (fsqrt fexp : F -> F).
Hypothesis HS : sqrt_laws fsqrt.
Hypothesis HE : exp_laws fexp.
Variables (k_B Tm : F) (fuel : nat) (ks : Z) (swm : F).
Hypothesis Hf : (2 ^ n < fuel)%nat.
Hypothesis Hks : (Z.of_nat (2 ^ n) <= ks)%Z.
Hypothesis Hs : (swm <= 0)%F.
Hypothesis HkT : (k_B * Tm)%F <> 0%F.
Variables (es : list F) (psis psis' : list (psi_t F)).
Hypothesis HL : turned_levels n u es psis psis'.
Variables ord ord' : nat -> nat -> nat -> set_order.
Hypothesis Ho : forall t i q l, Permutation (ord t i q l) l.
Hypothesis Ho' : forall t i q l, Permutation (ord' t i q l) l.
Variables R R' : nat.
Hypothesis HR : (1 <= R)%nat.
Hypothesis HR' : (1 <= R')%nat.
Notation spec o wl d tOps r od ps := (getSpectra fsqrt fuel (Z.of_nat n) o wl d rs ks swm od r tOps ps es SHBuild).
Lemma turned_mean w d tOps g rest g' rest' : d <> 0%F -> Forall (wf_op n) tOps -> Forall (fun o => turns n u o o) tOps -> spec op w d tOps R ord psis = Ok g :: rest -> spec op' w d tOps R' ord' psis' = Ok g' :: rest' ->
  forall t k, (t < length tOps)%nat -> (k < length w)%nat -> forall p : F -> cx F,
  csum (fun i => p (nth i es 0%F) * nth k (g' i t) c0) (seq 0 (length es)) = csum (fun i => p (nth i es 0%F) * nth k (g i t) c0) (seq 0 (length es)).
Proof.
  intros Hd Ht Htt E E' t k Hlt Hk p. destruct (restricted_op_exists n op rs) as [h Hh]. destruct (restricted_op_exists n op' rs) as [h' Hh']. destruct HL as (V & V' & L & psis1 & V1 & SL & A1). pose proof SL as (L1 & L2 & _).
  assert (Wt : wf_op n (nth t tOps [])) by (rewrite Forall_forall in Ht; apply Ht, nth_In; auto).
  assert (Tt : turns n u (nth t tOps []) (nth t tOps [])) by (rewrite Forall_forall in Htt; apply (Htt (nth t tOps [])), nth_In; auto).
  apply (levels_green n rs swm (nth t tOps []) h' (fun e => mkC (nth k w 0 + e)%F d) p es psis1 psis'); auto.
  - intros i Hi. destruct (spec_green fsqrt HS n fuel op rs ks swm Hop HA Hr Hf Hks Hs es R R HR HR w d tOps ord R psis g rest h Ho HR Hd Ht V L Hh E t k Hlt Hk i Hi) as (q & Eq & G).
    assert (Vi : valid_psi n (nth i psis [])) by (rewrite Forall_forall in V; apply V, nth_In; lia). assert (V1i : valid_psi n (nth i psis1 [])) by (rewrite Forall_forall in V1; apply V1, nth_In; lia).
    destruct (applyOp_amp n (nth t tOps []) (nth i psis1 []) swm rs Wt V1i) as (q1 & Eq1 & _). exists q1. split; [auto|].
    pose proof (applied_image n (nth t tOps []) rs swm (nth i psis []) q Wt Hr Vi Hs Eq) as I. pose proof (applied_image n (nth t tOps []) rs swm (nth i psis1 []) q1 Wt Hr V1i Hs Eq1) as I1.
    apply (green_turned h h' Hh Hh' (mkC (nth k w 0 + nth i es 0)%F d) q q1); auto.
    + intros s Ls As. apply (I s Ls); auto.
    + apply (image_turned (nth t tOps []) (nth i psis []) (nth i psis1 []) q q1); auto.
  - exact (spec_green fsqrt HS n fuel op' rs ks swm Hop' HA' Hr Hf Hks Hs es R' R' HR' HR' w d tOps ord' R' psis' g' rest' h' Ho' HR' Hd Ht V' L2 Hh' E' t k Hlt Hk).
Qed.
Lemma turned_absorption w d tOps cols rest cols' rest' : d <> 0%F -> Forall (wf_op n) tOps -> Forall (fun o => turns n u o o) tOps ->
  absorption fsqrt fexp k_B fuel (Z.of_nat n) op rs ks swm ord R psis es Tm w d tOps = Ok cols :: rest ->
  absorption fsqrt fexp k_B fuel (Z.of_nat n) op' rs ks swm ord' R' psis' es Tm w d tOps = Ok cols' :: rest' -> cols' = cols.
Proof.
  intros Hd Ht Htt E E'. unfold absorption in E, E'. apply head_bind in E as (g & l & E & C). apply head_bind in E' as (g' & l' & E' & C').
  apply (columns_mean fexp HE) in C; [|auto|eapply (spec_len fsqrt n fuel op); eauto]. apply (columns_mean fexp HE) in C'; [|auto|eapply (spec_len fsqrt n fuel op'); eauto].
  refine (mean_file_same fexp (k_B * Tm)%F w es (length tOps) _ _ _ _ _ C C'). intros t k Hlt Hk. cbv beta. rewrite !mean_im. do 2 f_equal.
  exact (turned_mean w d tOps g l g' l' Hd Ht Htt E E' t k Hlt Hk (fun e => creal (probability fexp (k_B * Tm) es e))).
Qed.
Lemma turned_emission w d tOps cols rest cols' rest' : d <> 0%F -> Forall (wf_op n) tOps -> Forall (fun o => turns n u o o) tOps ->
  emission fsqrt fexp k_B fuel (Z.of_nat n) op rs ks swm ord R psis es Tm w d tOps = Ok cols :: rest ->
  emission fsqrt fexp k_B fuel (Z.of_nat n) op' rs ks swm ord' R' psis' es Tm w d tOps = Ok cols' :: rest' -> cols' = cols.
Proof.
  intros Hd Ht Htt E E'. unfold emission in E, E'. apply head_bind in E as (g & l & E & C). apply head_bind in E' as (g' & l' & E' & C'). pose proof (fopp_neq0 d Hd) as Hd'.
  assert (Ln : forall o (od : nat -> nat -> nat -> set_order) r ps g l, spec o (map fopp w) (- d)%F tOps r od ps = Ok g :: l -> forall i t, length (gneg g i t) = length w).
  { intros o od r ps g0 l0 E0 i t. unfold gneg. rewrite map_length. transitivity (length (map fopp w)); [|apply map_length]. eapply (spec_len fsqrt n fuel o); eauto. }
  apply (columns_mean fexp HE) in C; [|auto|eapply Ln; eauto]. apply (columns_mean fexp HE) in C'; [|auto|eapply Ln; eauto].
  refine (mean_file_same fexp (k_B * Tm)%F w es (length tOps) _ _ _ _ _ C C'). intros t k Hlt Hk. cbv beta. rewrite !mean_im. unfold gneg.
  pose proof (turned_mean (map fopp w) (- d)%F tOps g l g' l' Hd' Ht Htt E E' t k Hlt ltac:(rewrite map_length; auto) (fun e => creal (probability fexp (k_B * Tm) es e))) as M.
  do 2 f_equal. assert (X : forall x : nat -> nat -> list (cx F), csum (fun i => creal (probability fexp (k_B * Tm) es (nth i es 0%F)) * nth k (map copp (x i t)) c0) (seq 0 (length es)) =
    copp (csum (fun i => creal (probability fexp (k_B * Tm) es (nth i es 0%F)) * nth k (x i t) c0) (seq 0 (length es)))).
  { intros x. rewrite <- csum_opp. apply csum_ext. intros i _. rewrite nth_opp. ring. }
  rewrite !X. f_equal. exact M.
Qed.
Lemma turned_photoemission w d ps ips cols rest cols' rest' : d <> 0%F -> Forall (wf_op n) ps -> Forall (wf_op n) ips -> Forall (fun o => turns n u o o) ps -> Forall (fun o => turns n u o o) ips ->
  photoemission fsqrt fexp k_B fuel (Z.of_nat n) op rs ks swm ord R psis es Tm w d ps ips = Ok cols :: rest ->
  photoemission fsqrt fexp k_B fuel (Z.of_nat n) op' rs ks swm ord' R' psis' es Tm w d ps ips = Ok cols' :: rest' -> cols' = cols.
Proof.
  intros Hd Hp Hi Tp Ti E E'. pose proof (fopp_neq0 d Hd) as Hd'.
  assert (K : forall o (od : nat -> nat -> nat -> set_order) r st cols rest, photoemission fsqrt fexp k_B fuel (Z.of_nat n) o rs ks swm od r st es Tm w d ps ips = Ok cols :: rest ->
    exists gI l gP l', spec o w d ips r od st = Ok gI :: l /\ spec o (map fopp w) (- d)%F ps r od st = Ok gP :: l' /\ length ps = length ips /\
      mean_file fexp (k_B * Tm)%F w es (length ps) (fun i t k => - im (nth k (gI i t) c0 - nth k (gP i t) c0)%C)%F cols).
  { intros o od r st c0' l0 E0. unfold photoemission in E0. destruct (spec o w d ips r od st) as [|x1 r1] eqn:C1; [discriminate|]. destruct (spec o (map fopp w) (- d)%F ps r od st) as [|x2 r2] eqn:C2; [discriminate|].
    cbn [combine map fst snd] in E0. injection E0 as E0 _. destruct x1 as [gI|]; [|discriminate]. destruct x2 as [gP|]; [|discriminate]. cbn [bind] in E0.
    destruct (Nat.eqb_spec (length ps) (length ips)) as [Le|]; [|discriminate]. exists gI, r1, gP, r2. split; [auto|]. split; [auto|]. split; [auto|].
    assert (L1 : forall i t, length (gI i t) = length w) by exact (spec_len fsqrt n fuel o rs ks swm es w d ips od r st gI r1 Hd C1).
    assert (L2 : forall i t, length (gP i t) = length w) by (intros i t; transitivity (length (map fopp w)); [|apply map_length]; exact (spec_len fsqrt n fuel o rs ks swm es (map fopp w) (- d)%F ps od r st gP r2 Hd' C2 i t)).
    apply (columns_mean fexp HE) in E0; [|auto|].
    - eapply mean_file_ext; [|exact E0]. intros i t k _ _ Hk. cbv beta. unfold gplus, gneg. rewrite (nth_gplus n fuel Hf R R' HR HR') by (rewrite map_length, L1, L2; auto). rewrite nth_opp. f_equal. f_equal. ring.
    - intros i t. unfold gplus, gneg. rewrite map_length, combine_length, map_length, L1, L2. lia. }
  apply K in E as (gI & l1 & gP & l2 & A1 & A2 & Le & M). apply K in E' as (gI' & l1' & gP' & l2' & B1 & B2 & _ & M').
  refine (mean_file_same fexp (k_B * Tm)%F w es (length ps) _ _ _ _ _ M M'). intros t k Hlt Hk. cbv beta. rewrite !mean_im. do 2 f_equal.
  pose proof (turned_mean w d ips gI l1 gI' l1' Hd Hi Ti A1 B1 t k ltac:(lia) Hk (fun e => creal (probability fexp (k_B * Tm) es e))) as M1.
  pose proof (turned_mean (map fopp w) (- d)%F ps gP l2 gP' l2' Hd' Hp Tp A2 B2 t k ltac:(lia) ltac:(rewrite map_length; auto) (fun e => creal (probability fexp (k_B * Tm) es e))) as M2. cbv beta in M1, M2.
  rewrite (csum_ext _ (fun i => creal (probability fexp (k_B * Tm) es (nth i es 0%F)) * nth k (gI' i t) c0 - creal (probability fexp (k_B * Tm) es (nth i es 0%F)) * nth k (gP' i t) c0)) by (intros; ring).
  rewrite csum_sub, M1, M2, <- csum_sub. apply csum_ext. intros; ring.
Qed.
Lemma turned_RIXS (f32 : F -> F) bicgstab delta1 delta2 tOpsIn op0 ops (ms : @meshes F) hg hg' pm pm' r r' gs gs' outs outs' f f' data data' :
  exact_solver bicgstab -> Forall (wf_op n) (op0 :: tOpsIn) -> Forall (fun o => turns n u o o) (op0 :: tOpsIn) -> delta1 <> 0%F -> delta2 <> 0%F ->
  Forall (hdict_exact n op rs) hg -> hg <> [] -> Forall (hdict_exact n op' rs) hg' -> hg' <> [] ->
  (pm = RwIn \/ pm = RHBuildwIn) -> (pm' = RwIn \/ pm' = RHBuildwIn) ->
  nth_error (getRIXSmap fsqrt bicgstab fuel (Z.of_nat n) op (m_wIn ms) (m_wLoss ms) delta1 delta2 rs ks swm tOpsIn (op0 :: ops) psis es ord hg pm) r = Some (Ok gs) ->
  nth_error (getRIXSmap fsqrt bicgstab fuel (Z.of_nat n) op' (m_wIn ms) (m_wLoss ms) delta1 delta2 rs ks swm tOpsIn (op0 :: ops) psis' es ord' hg' pm') r' = Some (Ok gs') ->
  report_RIXS fexp f32 k_B es Tm ms (length tOpsIn) (S (length ops)) gs = Ok outs -> report_RIXS fexp f32 k_B es Tm ms (length tOpsIn) (S (length ops)) gs' = Ok outs' ->
  In (Bin f data) outs -> In (Bin f' data') outs' -> f' = f /\ data' = data.
Proof.
  intros HX Hw Ht Hd1 Hd2 Hg Hn Hg' Hn' Pm Pm' G G' C C' B B'. destruct HL as (V & V' & L & psis1 & V1 & SL & A1). pose proof SL as (L1 & L2 & _).
  assert (Hpm : pm <> ROther) by (destruct Pm; subst; discriminate). assert (Hpm' : pm' <> ROther) by (destruct Pm'; subst; discriminate).
  assert (Hb : pm = RHBuild -> r = 0%nat /\ NoDup (flat_map dkeys hg)) by (destruct Pm; subst; discriminate).
  assert (Hb' : pm' = RHBuild -> r' = 0%nat /\ NoDup (flat_map dkeys hg')) by (destruct Pm'; subst; discriminate).
  assert (Lg : forall a b c d, (c < length (op0 :: ops))%nat -> length (gs a b c d) = length (m_wLoss ms)) by (eapply win_shape; [exact Hd2|exact Pm|exact (nth_error_In _ _ G)]).
  assert (Lg' : forall a b c d, (c < length (op0 :: ops))%nat -> length (gs' a b c d) = length (m_wLoss ms)) by (eapply win_shape; [exact Hd2|exact Pm'|exact (nth_error_In _ _ G')]).
  destruct (report_bin fexp f32 HE k_B es Tm ms (length tOpsIn) (S (length ops)) gs outs f data HkT Lg C B) as [-> M].
  destruct (report_bin fexp f32 HE k_B es Tm ms (length tOpsIn) (S (length ops)) gs' outs' f' data' HkT Lg' C' B') as [-> M']. split; [auto|].
  refine (mean_map_same fexp f32 (k_B * Tm)%F (m_wIn ms) (m_wLoss ms) es (length tOpsIn) (S (length ops)) _ _ data data' _ M M').
  intros a b w j Ha Hbb Hlw Hj. cbv beta. rewrite !mean_im. f_equal. f_equal. destruct (restricted_op_exists n op rs) as [h Hh]. destruct (restricted_op_exists n op' rs) as [h' Hh'].
  apply Forall_cons_iff in Ht as [T0 Ht]. rewrite Forall_forall in Ht.
  apply (levels_kh n op' rs h' (nth a tOpsIn []) op0 (fun e => mkC (nth w (m_wIn ms) 0 + e)%F delta1) (fun e => mkC (nth j (m_wLoss ms) 0 + e)%F delta2)
    (fun e => creal (probability fexp (k_B * Tm) es e)) es psis1 psis' (fun i => nth j (gs i a b w) c0) (fun i => nth j (gs' i a b w) c0)); auto.
  - intros i Hi. apply (kh_turned h h' Hh Hh' (nth a tOpsIn []) op0 (nth i psis []) (nth i psis1 [])); auto; [apply (Ht (nth a tOpsIn [])), nth_In; auto|].
    exact (proj2 (P_RIXS.C60_kramers_heisenberg F fsqrt bicgstab n op rs h fuel (m_wIn ms) (m_wLoss ms) delta1 delta2 ks swm tOpsIn psis es op0 HS HX (conj Hop (conj Hr (conj Hw V))) HA Hh Hf Hd1 Hd2 Hks Hs
      ops ord hg pm r gs Ho Hg Hn Hpm Hb G a i (nth a tOpsIn []) (nth i psis []) (nth i es 0%F) w (nth w (m_wIn ms) 0%F) b
      (nth_error_nth' _ _ Ha) (nth_error_nth' _ _ (eq_ind_r (fun m => (i < m)%nat) Hi L)) (nth_error_nth' _ _ Hi) (nth_error_nth' _ _ Hlw) Hbb) j Hj).
  - intros i Hi. exact (proj2 (P_RIXS.C60_kramers_heisenberg F fsqrt bicgstab n op' rs h' fuel (m_wIn ms) (m_wLoss ms) delta1 delta2 ks swm tOpsIn psis' es op0 HS HX (conj Hop' (conj Hr (conj Hw V'))) HA' Hh' Hf Hd1 Hd2 Hks Hs
      ops ord' hg' pm' r' gs' Ho' Hg' Hn' Hpm' Hb' G' a i (nth a tOpsIn []) (nth i psis' []) (nth i es 0%F) w (nth w (m_wIn ms) 0%F) b
      (nth_error_nth' _ _ Ha) (nth_error_nth' _ _ (eq_ind_r (fun m => (i < m)%nat) Hi L2)) (nth_error_nth' _ _ Hi) (nth_error_nth' _ _ Hlw) Hbb) j Hj).
Qed.
End S.

Section L.
Context {F : ofield}.
Add Field Ff2 : (f_field F).
Add Field Cf2 : (@c_field F).
Local Open Scope cx_scope.
Lemma eig_turned n u (A B : op_t F) e v : turns n u A B -> eigenvector n A e v -> eigenvector n B e (turned n u v).
Proof. intros H He t Ht. rewrite <- (H v t Ht). rewrite <- (T_scale n u (creal e) v t). apply T_ext. intros s Hs. apply He. auto. Qed.
Lemma eig_ext n (A : op_t F) e v w : veq n v w -> eigenvector n A e v -> eigenvector n A e w.
Proof. intros E H t Ht. rewrite <- (E t Ht), <- (H t Ht). apply opv_ext. intros s Hs. symmetry. auto. Qed.
Lemma vdot_vip n (v w : config -> cx F) : vdot n v w = vip n v w. Proof. reflexivity. Qed.
(* complete sets of eigenstates of the two Hamiltonians *)
Lemma whole_turned n u (A B : op_t F) es psis psis' : unitary_orbitals n u -> turns n u A B -> Forall (valid_psi n) psis -> Forall (valid_psi n) psis' -> whole_levels n A es psis -> whole_levels n B es psis' -> turned_levels n u es psis psis'.
Proof.
  intros HU HT V V' W W'. split; [auto|]. split; [auto|]. split; [apply W|]. destruct W as (L & O & E & S).
  set (psis1 := map (fun p => mkpsi n (turned n u (amp p))) psis). assert (L1 : length psis1 = length psis) by apply map_length.
  assert (A1 : forall i t, (i < length psis)%nat -> length t = n -> amp (nth i psis1 []) t = turned n u (amp (nth i psis [])) t).
  { intros i t Hi Ht. unfold psis1. rewrite (nth_indep _ [] ((fun p => mkpsi n (turned n u (amp p))) [])) by (rewrite map_length; auto). rewrite (map_nth (fun p => mkpsi n (turned n u (amp p)))). apply mkpsi_amp. auto. }
  exists psis1. split; [apply Forall_map, Forall_forall; intros; apply mkpsi_valid|]. split; [|intros i t Hi; apply A1; lia].
  apply (whole_same n B); [|auto]. split; [congruence|]. split.
  { intros i j Hi Hj. rewrite L1 in Hi, Hj. rewrite <- (O i j Hi Hj). rewrite !vdot_vip. rewrite (vip_ext n _ (turned n u (amp (nth i psis []))) _ (turned n u (amp (nth j psis [])))) by (intros t Ht; apply A1; auto). apply T_iso. auto. }
  split.
  - intros i Hi. apply (eig_ext n B _ (turned n u (amp (nth i psis [])))); [intros t Ht; symmetry; apply A1; auto; lia|]. apply (eig_turned n u A); auto.
  - intros i v Hi Hv. destruct (S i (turned n (adj u) v) Hi) as (a & H1 & H2).
    + apply (eig_turned n (adj u) B); auto. apply turns_back; auto.
    + exists a. rewrite L1. split; [auto|]. intros t Ht. rewrite <- (T_inv n u HU v t Ht). rewrite (T_ext n u _ _ t H2). rewrite (T_lin n u a (fun i => amp (nth i psis []))). apply csum_ext. intros j Hj. apply in_seq in Hj. rewrite A1 by (auto; lia). reflexivity.
Qed.
End L.
