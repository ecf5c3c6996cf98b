(* Combined statements about the operators. *)
From Coq Require Import Permutation Ring Field.
From Verif Require Import M_Prelude M_Scalar M_PSR M_Ladder M_State M_Basis M_Expect M_Operators.
From Verif Require Import S_Fock S_Ops S_Basis S_Green S_Expect S_Operators.
From Verif Require Import L_Scalar L_PSR L_Sum L_Dict L_Fock L_State L_ApplyOp L_Ops L_Index L_Expect L_Cubic L_Expect2 L_Expect3 L_Expect5 L_Expect6 L_Operators L_Operators2 L_Operators3 L_Operators4 L_Operators5 L_Operators6 L_Operators7 L_Operators8.
Local Open Scope Z_scope.

Section A.
Context {F : ofield}.
Add Field Ff : (f_field F).
Add Ring Cring : (@c_ring F).
Variable fsqrt : F -> F.

(* ---- Coulomb ---- *)
Lemma u_no_double pi gaunt l1 l2 l3 l4 R p : In p (dkeys (getUop fsqrt pi gaunt l1 l2 l3 l4 R)) ->
  exists x y z t, p = hop4 x y z t /\ x <> y /\ z <> t /\ in_shell l1 x /\ in_shell l2 y /\ in_shell l3 z /\ in_shell l4 t.
Proof.
  intros H. apply dget_Some_key in H as [v H]. apply u_elements in H as (m1 & m2 & m3 & m4 & s & sp & H). cbv zeta in H.
  destruct H as (? & ? & ? & ? & ? & ? & _ & E & _). do 4 eexists. split; [exact E|]. auto 8.
Qed.
Definition six_spec (U : Z -> Z -> Z -> Z -> list F -> sop_t F) (Fdd Fpp Fpd Gpd : list F) (p : list (spinorb * ascii)) : cx F :=
  (val (U 2 2 2 2 Fdd) p + val (U 1 1 1 1 Fpp) p + (val (U 1 2 2 1 Fpd) p + val (U 2 1 1 2 Fpd) p) +
   (val (U 1 2 1 2 Gpd) p + val (U 2 1 2 1 Gpd) p))%C.
Lemma pd_sum pi gaunt Fdd Fpp Fpd Gpd p :
  val (get2p3dSlaterCondonUop fsqrt pi gaunt Fdd Fpp Fpd Gpd) p = six_spec (getUop fsqrt pi gaunt) Fdd Fpp Fpd Gpd p.
Proof. rewrite pd_val. unfold six, six_spec. cbn [csum]. ring. Qed.

(* ---- crystal field ---- *)
Lemma CF_NoDup p b nB nV : NoDup (dkeys (CFop fsqrt p b nB nV)).
Proof. apply addOps_NoDup. Qed.
Lemma In_offs0 nB nV : In 0 (offs_of nB nV).
Proof. unfold offs_of. destruct (_ =? _); cbn; auto. Qed.
Lemma CF_spec (L : sqrt_laws fsqrt) nb nv p b nB nV : b <> OtherBasis -> dget nb (KInt 2) = Some nB -> dget nv (KInt 2) = Some nV ->
  exists op u, get_CF_hamiltonian fsqrt nb nv p b = Ok op /\ NoDup (dkeys op) /\ assert_hermitian op = Ok tt /\
    conserves q_N op /\ conserves q_2Sz_bath op /\
    get_spherical_2_cubic_matrix fsqrt false 2 = Ok u /\ unitary 5 u /\ real_harmonics 2 u /\
    cf_spec u (match b with Spherical => u | _ => ident 5 end) (nB - nV =? 10)
      (e_imp p + fofZ 3 / fofZ 5 * e_deltaO_imp p) (e_imp p - fofZ 2 / fofZ 5 * e_deltaO_imp p)
      (v_val_eg p) (v_val_t2g p) (e_val_eg p) (e_val_t2g p) (v_con_eg p) (v_con_t2g p) (e_con_eg p) (e_con_t2g p) op.
Proof.
  intros Hb HB HV. exists (CFop fsqrt p b nB nV), (u5 fsqrt). split; [apply CF_eq; auto|].
  split; [apply CF_NoDup|]. split; [apply CF_hermitian|]. split; [apply A_conserves|]. split; [apply A_conserves|].
  split; [apply sph2cub_2|]. split; [apply u5_unitary; auto|]. split; [apply u5_real; auto|].
  assert (Eu : ub fsqrt b = match b with Spherical => u5 fsqrt | _ => ident 5 end) by (destruct b; reflexivity).
  rewrite <- Eu.
  assert (H10 : (nB - nV =? 10) = true -> In 10 (offs_of nB nV)) by (unfold offs_of; intros ->; cbn; auto).
  pose proof (In_offs0 nB nV) as H0.
  constructor.
  - intros. rewrite CF_imp by auto. reflexivity.
  - intros. rewrite CF_hop by auto. reflexivity.
  - intros. rewrite CF_bath by auto. reflexivity.
  - intros C **. rewrite CF_hop by auto. reflexivity.
  - intros C **. rewrite CF_bath by auto. reflexivity.
  - intros C **. rewrite CF_bath by auto. reflexivity.
  - intros q Hq. apply A_hop in Hq as (x & y & -> & Hx & Hy & _). exists x, y. split; auto.
    assert (K : forall z, cf_orb nB nV z -> (exists s i, z = d_orb s i /\ (s = 0 \/ s = 1) /\ (i < 5)%nat) \/
      (exists o s i, z = bath_orb o s i /\ (o = 0 \/ ((nB - nV =? 10) = true /\ o = 10)) /\ (s = 0 \/ s = 1) /\ (i < 5)%nat)).
    { intros z [Hz|(o & s & i & -> & Ho & Hs & Hi)]; auto. right. exists o, s, i. split; auto. split; auto. apply offs_ok in Ho. destruct Ho as [->|[-> E]]; auto. right. split; auto. apply Z.eqb_eq. auto. }
    intros z [-> | ->]; auto.
Qed.
Lemma CF_in_system nb nv p b op nB nV : b <> OtherBasis -> wf_nbaths nb -> dget nb (KInt 2) = Some nB -> dget nv (KInt 2) = Some nV ->
  nV = 10 -> nB = 10 \/ nB = 20 -> get_CF_hamiltonian fsqrt nb nv p b = Ok op -> op_in nb op /\
  forall q xa k bi, In q (dkeys op) -> In xa q -> fst xa = SBath k bi -> k = KInt 2 /\ 0 <= bi < nB.
Proof.
  intros Hb W HB HV -> HnB E. rewrite (CF_eq fsqrt p nb nv b nB 10 Hb HB HV) in E. injection E as <-.
  assert (H2 : In 2 (angs nb)). { unfold angs. apply in_flat_map. exists (KInt 2). split; [|cbn; auto]. apply dget_Some_key. eauto. }
  assert (Hin : op_in nb (CFop fsqrt p b nB 10)). { apply A_in; auto; [apply dget_In; auto|lia|lia]. }
  split; [exact Hin|]. intros q xa k bi Hq Hxa Ek. 
  change (In q (dkeys (CFop fsqrt p b nB 10))) in Hq.
  
  apply A_hop in Hq as (x & y & -> & Hx & Hy & _).
  assert (K : forall z, cf_orb nB 10 z -> z = SBath k bi -> k = KInt 2 /\ 0 <= bi < nB).
  { intros z [(s & i & -> & _)|(o & s & i & -> & Ho & Hs & Hi)] E; [discriminate|]. unfold bath_orb in E. assert (E1 : k = KInt 2) by congruence. assert (E2 : bi = o + 5 * s + Z.of_nat i) by congruence. split; auto. apply offs_ok in Ho. lia. }
  destruct Hxa as [<-|[<-|[]]]; cbn [fst] in Ek; [apply (K x)|apply (K y)]; auto.
Qed.

(* ---- transition operators ---- *)
Variable pi : F.
Variable gaunt : Z -> Z -> Z -> Z -> Z -> Z -> F.
Let ck := gauntC fsqrt pi gaunt.
Variable nb : nbaths_t.
Hypothesis W : wf_nbaths nb.
Lemma one_body_val0 (op : op_t F) l l' h p : is_one_body nb op l l' h -> (forall x y, in_shell l x -> in_shell l' y -> p <> pidx nb (hop2 x y)) -> val op p = c0.
Proof.
  intros (_ & Hk & _) H. unfold val, op_t, process, ladder in *. destruct (dget op p) eqn:E; auto. exfalso.
  assert (Hi : In p (dkeys op)) by (apply dget_Some_key; eauto). destruct (Hk p Hi) as (x & y & -> & Hx & Hy). apply (H x y); auto.
Qed.
Lemma one_body_combine (o1 o2 o3 : op_t F) l l' h1 h2 h3 (a b : cx F) : In l (angs nb) -> In l' (angs nb) ->
  is_one_body nb o1 l l' h1 -> is_one_body nb o2 l l' h2 -> is_one_body nb o3 l l' h3 ->
  (forall x y, h3 x y = (a * h1 x y + b * h2 x y)%C) -> forall p, val o3 p = (a * val o1 p + b * val o2 p)%C.
Proof.
  intros Hl Hl' H1 H2 H3 Hh p.
  assert (D : (exists x y, in_shell l x /\ in_shell l' y /\ p = pidx nb (hop2 x y)) \/ forall x y, in_shell l x -> in_shell l' y -> p <> pidx nb (hop2 x y)).
  { destruct (inb p (map (fun xy => pidx nb (hop2 (fst xy) (snd xy))) (list_prod (shell_list l) (shell_list l')))) eqn:E.
    - left. apply inb_In, in_map_iff in E as ([x y] & <- & Hi). apply in_prod_iff in Hi as [Hx Hy]. exists x, y. rewrite <- !shell_list_In. auto.
    - right. intros x y Hx Hy C. assert (inb p (map (fun xy => pidx nb (hop2 (fst xy) (snd xy))) (list_prod (shell_list l) (shell_list l'))) = true); [|congruence].
      apply inb_In, in_map_iff. exists (x, y). split; auto. apply in_prod_iff. rewrite !shell_list_In. auto. }
  destruct D as [(x & y & Hx & Hy & ->)|D].
  - destruct H1 as (_ & _ & V1), H2 as (_ & _ & V2), H3 as (_ & _ & V3). rewrite V1, V2, V3 by auto. apply Hh.
  - rewrite (one_body_val0 o1 l l' h1), (one_body_val0 o2 l l' h2), (one_body_val0 o3 l l' h3) by auto. ring.
Qed.
Lemma creal_add (x y : F) : creal (x + y)%F = (creal x + creal y)%C.
Proof. unfold creal, cadd. cbn [re im]. f_equal. ring. Qed.
Lemma creal_mul (x y : F) : creal (x * y)%F = (creal x * creal y)%C.
Proof. unfold creal, cmul. cbn [re im]. f_equal; ring. Qed.
Lemma n_dot_r_linear a b x0 x1 x2 y0 y1 y2 u v :
  n_dot_r fsqrt ck (a * x0 + b * y0)%F (a * x1 + b * y1)%F (a * x2 + b * y2)%F u v =
  (creal a * n_dot_r fsqrt ck x0 x1 x2 u v + creal b * n_dot_r fsqrt ck y0 y1 y2 u v)%C.
Proof. unfold n_dot_r. rewrite !creal_add, !creal_mul. ring. Qed.

Variables l1 l2 : Z.
Hypothesis Hnb : dkeys nb = [KInt l1; KInt l2].
Hypothesis Hs2 : fsqrt (fofZ 2) <> 0%F.
Lemma dip_linear a b x0 x1 x2 y0 y1 y2 : exists ox oy oz,
  getDipoleOperator fsqrt pi gaunt nb [x0; x1; x2] = Ok ox /\ getDipoleOperator fsqrt pi gaunt nb [y0; y1; y2] = Ok oy /\
  getDipoleOperator fsqrt pi gaunt nb [a * x0 + b * y0; a * x1 + b * y1; a * x2 + b * y2]%F = Ok oz /\
  forall p, val oz p = (creal a * val ox p + creal b * val oy p)%C.
Proof.
  destruct (dip_ok fsqrt pi gaunt nb W l1 l2 Hnb x0 x1 x2 [] Hs2) as (ox & Ex & Hx).
  destruct (dip_ok fsqrt pi gaunt nb W l1 l2 Hnb y0 y1 y2 [] Hs2) as (oy & Ey & Hy).
  destruct (dip_ok fsqrt pi gaunt nb W l1 l2 Hnb (a * x0 + b * y0)%F (a * x1 + b * y1)%F (a * x2 + b * y2)%F [] Hs2) as (oz & Ez & Hz).
  exists ox, oy, oz. split; auto. split; auto. split; auto.
  destruct (dip_angs nb l1 l2 Hnb) as [H1 H2].
  eapply (one_body_combine ox oy oz l2 l1); eauto. intros x y. apply n_dot_r_linear.
Qed.
Lemma pidx_dag p : pidx nb (dag p) = dag (pidx nb p).
Proof. exact (idx_dag nb p). Qed.
Lemma hop2_dag x y : dag (hop2 x y) = hop2 y x.
Proof. reflexivity. Qed.
Lemma one_body_dag (op : op_t F) l l' h : is_one_body nb op l l' h ->
  exists d, daggerOp op = Ok d /\ is_one_body nb d l' l (fun y x => cconj (h x y)).
Proof.
  intros (Hn & Hk & Hv).
  assert (G : good_labels op).
  { unfold good_labels. apply Forall_forall. intros [p v] Hi. apply (in_map fst) in Hi. cbn [fst] in *.
    destruct (Hk p Hi) as (x & y & -> & _). unfold pidx, hop2. cbn [map]. repeat (apply Forall_cons || apply Forall_nil); [right|left]; reflexivity. }
  exists (dagl op). split; [apply daggerOp_ok; auto|]. split; [apply NoDup_dagl; auto|]. split.
  - intros p Hp. unfold dkeys, dagl in Hp. rewrite map_map in Hp. apply in_map_iff in Hp as ([q v] & <- & Hi). cbn [fst]. apply (in_map fst) in Hi. cbn [fst] in Hi.
    destruct (Hk q Hi) as (x & y & -> & Hx & Hy). exists y, x. rewrite <- pidx_dag, hop2_dag. auto.
  - intros y x Hy Hx. rewrite <- Hv by auto. unfold val. rewrite <- (hop2_dag x y), pidx_dag.
    assert (Gp : Forall good_label (pidx nb (hop2 x y))) by (unfold pidx, hop2; cbn [map]; repeat (apply Forall_cons || apply Forall_nil); [right|left]; reflexivity).
    pose proof (dget_dagl op _ G Hn Gp) as E. unfold op_t, process, ladder in *. rewrite E. match goal with |- context[option_map cconj ?d] => destruct d end; cbn [option_map]; auto. rewrite cconj_0. auto.
Qed.
Definition ndr (n : F * F * F) := let '(n0, n1, n2) := n in n_dot_r fsqrt ck n0 n1 n2.
Lemma dip_all ns : exists ops, getDipoleOperators fsqrt pi gaunt nb (map vec3 ns) = Ok ops /\
  Forall2 (fun n op => is_one_body nb op l2 l1 (ndr n)) ns ops.
Proof.
  induction ns as [|[[n0 n1] n2] ns IH].
  - exists []. split; [reflexivity|constructor].
  - destruct IH as (ops & E & H). destruct (dip_ok fsqrt pi gaunt nb W l1 l2 Hnb n0 n1 n2 [] Hs2) as (o & Eo & Ho).
    exists (o :: ops). unfold getDipoleOperators in *. cbn [map map_res]. cbn [vec3]. rewrite Eo. cbn [bind]. rewrite E. cbn [bind]. split; auto.
Qed.
Lemma dip_dag_all ns : exists ds, getDaggeredDipoleOperators fsqrt pi gaunt nb (map vec3 ns) = Ok ds /\
  Forall2 (fun n d => is_one_body nb d l1 l2 (fun y x => cconj (ndr n x y)) /\
    exists op, getDipoleOperator fsqrt pi gaunt nb (vec3 n) = Ok op /\ daggerOp op = Ok d) ns ds.
Proof.
  induction ns as [|[[n0 n1] n2] ns IH].
  - exists []. split; [reflexivity|constructor].
  - destruct IH as (ops & E & H). destruct (dip_ok fsqrt pi gaunt nb W l1 l2 Hnb n0 n1 n2 [] Hs2) as (o & Eo & Ho).
    destruct (one_body_dag o l2 l1 _ Ho) as (d & Ed & Hd).
    exists (d :: ops). unfold getDaggeredDipoleOperators in *. cbn [map map_res]. cbn [vec3]. rewrite Eo. cbn [bind]. rewrite Ed. cbn [bind]. rewrite E. cbn [bind]. split; auto.
    constructor; auto. split; auto. exists o. auto.
Qed.
End A.
