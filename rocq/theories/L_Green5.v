(* getGreen in mode dict: the Lanczos recursion on dictionaries is the recursion on vectors. *)
From Coq Require Import Lia List Bool Permutation Field Ring.
From Verif Require Import M_Prelude M_Scalar M_PSR M_Ladder M_State M_Mpi M_Hamiltonian M_Lanczos S_Fock S_Ham S_Ops S_Green
  L_PSR L_Ladder L_Scalar L_Dict L_Sum L_Fock L_State L_ApplyOp L_Ops L_FockP L_Vec L_CFrac L_Lanczos L_Lanczos2 L_Lanczos3 L_Green L_Green3.
Import ListNotations.
Local Open Scope cx_scope.

Section LGreen5.
Context {F : ofield}.
Add Field Ff : (f_field F).
Add Ring Cring : (@c_ring F).
Add Field Cf : (@c_field F).
Variable fsqrt : F -> F.

Lemma amp_scale (psi : psi_t F) x t : amp (map (fun sa => (fst sa, x * snd sa)) psi) t = x * amp psi t.
Proof.
  unfold amp. induction psi as [|[k a] psi IH]; cbn [map fst snd]; [simpl; ring|].
  rewrite !dget_cons. destruct (eqb (key t) k); auto.
Qed.
Lemma valid_scale n (psi : psi_t F) x : valid_psi n psi -> valid_psi n (map (fun sa => (fst sa, x * snd sa)) psi).
Proof.
  assert (E : dkeys (map (fun sa => (fst sa, x * snd sa)) psi) = dkeys psi) by (unfold dkeys; rewrite map_map; reflexivity).
  unfold valid_psi. rewrite E. auto.
Qed.
Lemma amp_add n (p q : psi_t F) x t : valid_psi n q -> amp (add p q x) t = amp p t + x * amp q t.
Proof. intros [Hn _]. rewrite add_addToFirst. apply addToFirst_amp. auto. Qed.
Lemma valid_add n (p q : psi_t F) x : valid_psi n p -> valid_psi n q -> valid_psi n (add p q x).
Proof. intros. rewrite add_addToFirst. apply valid_addToFirst; auto. Qed.

Section N.
Variable n : nat.
Variable op : op_t F.
Variable rs : option restrictions_t.
Hypothesis Hw : wf_op n op.
Hypothesis Hr : wf_restr rs.
Variable swm : F.
Hypothesis Hswm : (swm <= 0)%F.
(* configurations closed under the restricted operator *)
Variable cs : list config.
Hypothesis Hcs : forall c, In c cs -> length c = n /\ allowed_opt rs c.
Hypothesis Hnd : NoDup cs.
Hypothesis Hcl : forall s t, In s cs -> length t = n -> allowed_opt rs t -> opelem op t s <> c0 -> In t cs.

Definition cfg (i : nat) : config := nth i cs [].
Definition cmat (i j : nat) : cx F := opelem op (cfg i) (cfg j).
Definition cvec (psi : psi_t F) : vec F := map (amp psi) cs.
(* a state within these configurations *)
Definition inside (psi : psi_t F) : Prop := valid_psi n psi /\ forall t, length t = n -> ~ In t cs -> amp psi t = c0.

Lemma cut_swm (x : cx F) : cut swm x = x.
Proof.
  unfold cut. destruct (cabs2 x <? swm)%F eqn:E; auto. exfalso.
  pose proof (cabs2_nonneg x) as H. assert (H2 : (swm <= cabs2 x)%F) by (eapply fle_trans; eauto). congruence.
Qed.
Lemma csum_cs (f : config -> cx F) : (forall t, length t = n -> ~ In t cs -> f t = c0) -> csum f (allcfg n) = csum f cs.
Proof.
  intros H. apply (csum_support_dec cfg_dec); auto; [apply allcfg_NoDup|intros a Ha; apply allcfg_In, Hcs; auto|].
  intros a Ha Hn. apply H; auto. apply allcfg_In; auto.
Qed.
Lemma cvec_len psi : length (cvec psi) = length cs.
Proof. apply map_length. Qed.
Lemma cvec_nth psi i : (i < length cs)%nat -> vf (cvec psi) i = amp psi (cfg i).
Proof.
  intros Hi. unfold vf, cvec, cfg. rewrite (nth_indep _ c0 (amp psi [])) by (rewrite map_length; auto). apply map_nth.
Qed.
Lemma csum_cfg (f : config -> cx F) : csum (fun i => f (cfg i)) (seq 0 (length cs)) = csum f cs.
Proof. apply csum_seq_nth. Qed.
Lemma cvec_dot phi psi : inside phi -> inside psi -> inner phi psi = vdotc (cvec phi) (cvec psi).
Proof.
  intros [Hv Hi] [Hv' Hi']. rewrite (inner_vinner n) by auto. unfold vinner. rewrite csum_cs.
  - rewrite (vdotc_ip (length cs)) by apply cvec_len. unfold ip.
    rewrite <- (csum_cfg (fun s => cconj (amp phi s) * amp psi s)). apply csum_ext. intros i Hin. apply in_seq in Hin. rewrite !cvec_nth by lia. auto.
  - intros t Lt Ht. rewrite Hi' by auto. ring.
Qed.
Lemma cvec_norm psi : inside psi -> norm2 psi = vnorm2 (cvec psi).
Proof.
  intros H. assert (E : creal (norm2 psi) = creal (vnorm2 (cvec psi))).
  { rewrite norm2_inner by apply H. rewrite (vnorm2_ip (length cs)) by apply cvec_len. rewrite (cvec_dot psi psi H H).
    apply vdotc_ip; apply cvec_len. }
  apply (f_equal re) in E. exact E.
Qed.
Lemma cvec_op psi t : inside psi -> length t = n -> csum (fun s => opelem op t s * amp psi s) (allcfg n) = csum (fun s => opelem op t s * amp psi s) cs.
Proof. intros [_ H] Lt. apply csum_cs. intros s Ls Hs. rewrite H by auto. ring. Qed.
Lemma apply_inside psi h : inside psi -> coherent n op swm rs h ->
  exists h' wp, apply_h (Z.of_nat n) op swm rs psi h = (h', Ok wp) /\ coherent n op swm rs h' /\ inside wp /\
    cvec wp = mdot (length cs) cmat (cvec psi).
Proof.
  intros Hi Hco. destruct (applyOp_cached n op psi swm rs h Hw (proj1 Hi) Hco) as (h' & wp & E & Hco' & _ & _ & Hv & _ & Ha).
  exists h', wp. split; [exact (f_equal (fun x => match x with (Some h', r) => (h', r) | (None, r) => (h, r) end) E)|]. split; [auto|].
  assert (Ha' : forall t, length t = n -> amp wp t = if okr rs t then csum (fun s => opelem op t s * amp psi s) cs else c0).
  { intros t Lt. rewrite Ha by auto. destruct (okr rs t); auto. rewrite cut_swm.
    rewrite <- (cvec_op psi t Hi Lt). apply csum_ext. intros s _. unfold elem_cached. destruct (dmem h (key s)); rewrite ?cut_swm; auto. }
  split.
  - split; [auto|]. intros t Lt Ht. rewrite Ha' by auto. destruct (okr rs t) eqn:Eo; auto. apply csum_zero. intros s Hs.
    destruct (c_dec (opelem op t s) c0) as [->|Hne]; [ring|]. exfalso. apply Ht. apply (Hcl s t); auto. apply okr_allowed; auto.
  - apply list_vf_ext; rewrite ?mdot_len, cvec_len; auto. intros i Hii. rewrite cvec_nth, mdot_nth by auto.
    assert (Hin : In (cfg i) cs) by (apply nth_In; auto). destruct (Hcs _ Hin) as [Lc Ac].
    rewrite Ha' by auto. apply okr_allowed in Ac; auto. rewrite Ac. unfold mv, cmat.
    rewrite <- (csum_cfg (fun s => opelem op (cfg i) s * amp psi s)). apply csum_ext. intros j Hj. apply in_seq in Hj.
    rewrite cvec_nth by lia. auto.
Qed.
Lemma inside_add p q x : inside p -> inside q -> inside (add p q x).
Proof.
  intros [Hv Hi] [Hv' Hi']. split; [apply valid_add; auto|]. intros t Lt Ht. rewrite (amp_add n) by auto. rewrite Hi, Hi' by auto. ring.
Qed.
Lemma cvec_add p q x : inside p -> inside q -> cvec (add p q (creal (- x)%F)) = vsub (cvec p) (vmul x (cvec q)).
Proof.
  intros Hp Hq. apply list_vf_ext; rewrite ?vsub_len; rewrite ?vmul_len, ?cvec_len; auto.
  intros i Hi. rewrite vsub_nth by (rewrite vmul_len, !cvec_len; auto). rewrite vmul_nth, !cvec_nth by auto.
  rewrite (amp_add n) by apply Hq. apply cx_ext; simpl; ring.
Qed.
Lemma inside_scale p x : inside p -> inside (map (fun sa => (fst sa, x * snd sa)) p).
Proof. intros [Hv Hi]. split; [apply valid_scale; auto|]. intros t Lt Ht. rewrite amp_scale, Hi by auto. ring. Qed.
Lemma cvec_scale p b : b <> 0%F -> cvec (map (fun sa => (fst sa, creal (1 / b)%F * snd sa)) p) = vdiv (cvec p) b.
Proof.
  intros Hb. apply list_vf_ext; rewrite ?vdiv_len, ?cvec_len; auto. intros i Hi. rewrite vdiv_nth by auto. rewrite !cvec_nth by auto. rewrite amp_scale.
  assert (Hb' : creal b <> c0) by (intros E; apply Hb; apply (f_equal re) in E; exact E).
  assert (E : creal (1 / b)%F = c1 / creal b).
  { assert (E1 : creal (1 / b)%F * creal b = c1) by (apply cx_ext; simpl; field; auto).
    transitivity (creal (1 / b)%F * creal b / creal b); [field; auto|rewrite E1; auto]. }
  rewrite E. field. auto.
Qed.

(* only the class of the exception differs *)
Definition attr_err {A} (r : res A) : res A := match r with Ok x => Ok x | Err _ => Err AttributeError end.
Lemma dict_loop_vec k : forall v0 w h, inside v0 -> inside w -> coherent n op swm rs h ->
  exists h', dict_loop fsqrt k (Z.of_nat n) op swm rs v0 w h =
    (h', attr_err (krylov_loop fsqrt k (mdot (length cs) cmat) (cvec v0) (cvec w))) /\ coherent n op swm rs h'.
Proof.
  induction k as [|k IH]; intros v0 w h H0 Hwi Hco; [exists h; auto|]. cbn [dict_loop krylov_loop]. cbv zeta.
  rewrite (cvec_norm w) by auto. set (b := fsqrt (vnorm2 (cvec w))). destruct (feqb_spec b 0%F) as [Eb|Eb]; [exists h; auto|].
  set (v1 := map (fun sa => (fst sa, creal (1 / b)%F * snd sa)) w).
  assert (Hv1 : inside v1) by (apply inside_scale; auto).
  assert (Ev1 : cvec v1 = vdiv (cvec w) b) by (apply cvec_scale; auto).
  destruct (apply_inside v1 h Hv1 Hco) as (h1 & wp & E & Hco1 & Hwp & Ewp). fold v1. rewrite E.
  rewrite (cvec_dot wp v1) by auto. rewrite Ewp, Ev1. set (wpv := mdot (length cs) cmat (vdiv (cvec w) b)).
  set (a := re (vdotc wpv (vdiv (cvec w) b))).
  assert (Hw' : inside (add (add wp v1 (creal (- a)%F)) v0 (creal (- b)%F))) by (repeat apply inside_add; auto).
  destruct (IH v1 (add (add wp v1 (creal (- a)%F)) v0 (creal (- b)%F)) h1 Hv1 Hw' Hco1) as (h2 & E2 & Hco2).
  rewrite E2. exists h2. split; [|auto]. f_equal.
  rewrite cvec_add by (auto; apply inside_add; auto). rewrite cvec_add by auto. rewrite Ewp, Ev1. fold wpv.
  match goal with |- _ = attr_err (bind ?X _) => destruct X as [[al be]|]; reflexivity end.
Qed.
Lemma dict_krylov_vec psi ks h : inside psi -> coherent n op swm rs h -> Z.le 1 ks ->
  exists h', dict_krylov fsqrt (Z.of_nat n) op swm rs psi ks h = (h', attr_err (
      let psi0 := cvec psi in let wp := mdot (length cs) cmat psi0 in let a := re (vdotc wp psi0) in
      do r <- krylov_loop fsqrt (Z.to_nat (ks - 1)) (mdot (length cs) cmat) psi0 (vsub wp (vmul a psi0)); Ok (a :: fst r, snd r))) /\
    coherent n op swm rs h'.
Proof.
  intros Hi Hco Hk. unfold dict_krylov. destruct (Z.ltb_spec ks 0); [lia|]. destruct (Z.eqb_spec ks 0); [lia|].
  destruct (apply_inside psi h Hi Hco) as (h1 & wp & E & Hco1 & Hwp & Ewp). rewrite E. cbv zeta.
  rewrite (cvec_dot wp psi) by auto. rewrite Ewp. set (a := re (vdotc _ _)).
  destruct (dict_loop_vec (Z.to_nat (ks - 1)) psi (add wp psi (creal (- a)%F)) h1 Hi) as (h2 & E2 & Hco2); auto; [apply inside_add; auto|].
  rewrite E2. exists h2. split; auto. f_equal. rewrite cvec_add, Ewp by auto.
  match goal with |- _ = attr_err (bind ?X _) => destruct X as [[al be]|]; reflexivity end.
Qed.
Lemma dict_krylov_small psi ks h : inside psi -> coherent n op swm rs h -> Z.le 1 ks -> Z.le ks (Z.of_nat (length cs)) ->
  exists h', dict_krylov fsqrt (Z.of_nat n) op swm rs psi ks h = (h', attr_err (krylov fsqrt (mdot (length cs) cmat) (cvec psi) ks)) /\
    coherent n op swm rs h'.
Proof.
  intros Hi Hco H1 Hk. destruct (dict_krylov_vec psi ks h Hi Hco H1) as (h' & E & Hco'). exists h'. split; auto. rewrite E.
  unfold krylov. rewrite cvec_len. rewrite Z.min_l by lia. destruct (Z.ltb_spec ks 1); [lia|]. reflexivity.
Qed.

Hypothesis HS : sqrt_laws fsqrt.
Hypothesis Hh : assert_hermitian op = Ok tt.
Lemma cmat_herm : hermitian (length cs) cmat.
Proof. intros i j _ _. apply herm_opelem; auto. apply Hw. Qed.
Lemma cvec_ip psi : inside psi -> norm2 psi = 1%F -> ip (length cs) (vf (cvec psi)) (vf (cvec psi)) = c1.
Proof.
  intros Hi H1. rewrite <- (vnorm2_ip (length cs)) by apply cvec_len. rewrite <- cvec_norm by auto. rewrite H1. reflexivity.
Qed.
(* more vectors than dimensions: the recursion breaks down *)
Lemma dict_krylov_large psi ks h : inside psi -> norm2 psi = 1%F -> coherent n op swm rs h -> Z.lt (Z.of_nat (length cs)) ks ->
  exists h', dict_krylov fsqrt (Z.of_nat n) op swm rs psi ks h = (h', Err AttributeError) /\ coherent n op swm rs h'.
Proof.
  intros Hi H1 Hco Hk. destruct (dict_krylov_vec psi ks h Hi Hco) as (h' & E & Hco'); [lia|]. exists h'. split; auto. rewrite E. f_equal.
  cbv zeta. pose proof (cvec_ip psi Hi H1) as Hn1. set (N := length cs) in *. set (psi0 := cvec psi) in *.
  assert (Hl : length psi0 = N) by apply cvec_len.
  assert (Hdl : forall v : vec F, length v = N -> length (mdot N cmat v) = N) by (intros; apply mdot_len).
  assert (Hd : forall (v : vec F) i, length v = N -> (i < N)%nat -> vf (mdot N cmat v) i = mv N cmat (vf v) i) by (intros; apply mdot_nth; auto).
  pose proof (init_inv N cmat cmat_herm (mdot N cmat) Hdl Hd psi0 Hl Hn1) as HI. cbv zeta in HI.
  pose proof (krylov_loop_ok fsqrt HS N cmat cmat_herm (mdot N cmat) Hdl Hd (Z.to_nat (ks - 1)) 0 _ _ _ _ psi0 HI Hl (fun m _ => eq_refl)) as HK.
  destruct (krylov_loop fsqrt _ _ _ _) as [[al be]|]; [|reflexivity].
  destruct HK as (_ & _ & V & A & B & w' & HI' & _). exfalso.
  pose proof (orthonormal_le N _ V (li_on _ _ _ _ _ _ _ HI')). lia.
Qed.
End N.
End LGreen5.
