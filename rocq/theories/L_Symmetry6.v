(* Rotations commute with the parts of the Hamiltonian and with the whole. *)
From Coq Require Import Ring Field.
From Verif Require Import M_Prelude M_Scalar M_PSR M_State M_Basis M_Expect M_Operators S_Fock S_Ops S_Basis S_Expect S_Green S_Operators S_Symmetry.
From Verif Require Import L_Scalar L_Sum L_Dict L_Fock L_State L_Ops L_Index L_Expect L_Expect2 L_Expect3 L_Expect4 L_Expect5 L_ApplyOp L_Lanczos L_Operators L_Operators2 L_Operators3 L_Operators4 L_Operators5 L_Symmetry L_Symmetry2 L_Symmetry3 L_Symmetry4 L_Symmetry5.
Local Open Scope Z_scope.

Section A.
Context {F : ofield}.
Add Field Ff : (f_field F).
Add Ring Cring : (@c_ring F).
Add Field Cf : (@c_field F).
Lemma opv_ext n (op : op_t F) v w t : (forall s, length s = n -> v s = w s) -> opv n op v t = opv n op w t.
Proof. intros H. unfold opv. apply csum_ext. intros s Hs. apply allcfg_In in Hs. rewrite H; auto. Qed.
(* b acts on m, a on the spin *)
Definition both (b a : Z -> Z -> cx F) (x y : Z * Z) : cx F := (on_m b x y + on_spin a x y)%C.
Definition zero2 (_ _ : Z) : cx F := c0.
Variable nb : nbaths_t.
Hypothesis Hwf : wf_nbaths nb.
Variable O : list spinorb.
Hypothesis HO : NoDup O.
Hypothesis HOk : Forall (coord_ok nb) O.
Variable M : spinorb -> spinorb -> cx F.
Let n := n_orb nb.
Notation X := (L_Symmetry.X nb O M).
Notation closed := (closed O M).
Lemma acts_closed l f : acts_in O M l f -> closed (shell l).
Proof.
  intros [H1 H2]. split; [apply shell_NoDup|]. split.
  - intros x Hx. apply shell_In in Hx. auto.
  - intros x w Hx Hw N. apply shell_In in Hx. assert (Hk : coord_ok nb w) by (rewrite Forall_forall in HOk; auto).
    assert (D : forall g : cx F, match w with SImp l2 s' m' => if (l2 =? l) then g else c0 | _ => c0 end = c0).
    { intros g. destruct w as [l2 s m|]; auto. destruct (Z.eqb_spec l2 l) as [->|]; auto. exfalso. apply N. apply shell_In. destruct Hk as (_ & Hs & Hm). exists s, m. auto. }
    split; rewrite H2; auto.
    + destruct w as [l2 s m|]; auto. destruct Hx as (s' & m' & -> & _). specialize (D (f (s, m) (s', m'))). rewrite Z.eqb_refl, Bool.andb_true_r. exact D.
    + destruct Hx as (s' & m' & -> & _). destruct w as [l2 s m|]; auto. specialize (D (f (s', m') (s, m))). rewrite Z.eqb_refl. cbn [andb]. exact D.
Qed.
Lemma acts_val l f x y : acts_in O M l f -> In x (sites l) -> In y (sites l) -> M (orb l x) (orb l y) = f x y.
Proof.
  intros [H1 H2] Hx Hy. assert (Gx : in_shell l (orb l x)) by (apply shell_In, in_map; auto). assert (Gy : in_shell l (orb l y)) by (apply shell_In, in_map; auto).
  rewrite H2; auto. destruct x as [s m], y as [s' m']. unfold orb. rewrite Z.eqb_refl. reflexivity.
Qed.
Lemma acts_ext l f g : (forall x y, f x y = g x y) -> acts_in O M l f -> acts_in O M l g.
Proof. intros E [H1 H2]. split; auto. intros x y Hx Hy H. rewrite H2; auto. destruct x, y; auto. rewrite E. reflexivity. Qed.

Definition comm (op : sop_t F) : Prop := forall v s, length s = n -> X (sv nb op v) s = sv nb op (X v) s.
Lemma X_ext v w t : (forall s, v s = w s) -> length t = n -> X v t = X w t.
Proof. intros H Ht. rewrite <- !(generator_vec n) by auto. apply opv_ext. auto. Qed.
Lemma comm_addOps ops : Forall comm ops -> comm (addOps ops).
Proof.
  intros H v s Hs. rewrite (X_ext _ (fun s => csum (fun op => sv nb op v s) ops)) by (auto; intros; apply sv_addOps).
  rewrite (X_csum nb O M (fun op s => sv nb op v s)), sv_addOps. apply csum_ext. intros op Hop. rewrite Forall_forall in H. apply H; auto.
Qed.
Lemma comm_commute op : good_labels op -> comm op -> commute n (indexed nb op) (generator nb O M).
Proof.
  intros Hg H v t Ht. rewrite (opv_ext n (indexed nb op) _ (X v)) by (intros; apply generator_vec; auto).
  rewrite (opv_ext n (generator nb O M) _ (sv nb op v)) by (intros; apply indexed_vec; auto).
  unfold n in *. rewrite indexed_vec, generator_vec by auto. symmetry. apply H; auto.
Qed.
Lemma commute_comm op : good_labels op -> commute n (indexed nb op) (generator nb O M) -> comm op.
Proof.
  intros Hg H v t Ht. specialize (H v t Ht). rewrite (opv_ext n (indexed nb op) _ (X v)) in H by (intros; apply generator_vec; auto).
  rewrite (opv_ext n (generator nb O M) _ (sv nb op v)) in H by (intros; apply indexed_vec; auto).
  unfold n in *. rewrite indexed_vec, generator_vec in H by auto. auto.
Qed.
Lemma comm_one l (op : sop_t F) h f : NoDup (dkeys op) -> one_body_op l op h -> acts_in O M l f ->
  (forall x y, In x (sites l) -> In y (sites l) -> csum (fun w => f x w * h (orb l w) (orb l y))%C (sites l) = csum (fun w => h (orb l x) (orb l w) * f w y)%C (sites l)) ->
  comm op.
Proof.
  intros Hn Hop Hf HC v s Hs. rewrite (X_ext _ (B2 nb (shell l) (shell l) h v)) by (auto; intros; apply one_body_vec; auto).
  rewrite (one_body_vec nb l op h) by auto. pose proof (acts_closed _ _ Hf) as Hc. apply (B2_comm n nb Hwf eq_refl O HO HOk M); auto.
  intros x y Hx Hy. apply in_map_iff in Hx as (x' & <- & Hx). apply in_map_iff in Hy as (y' & <- & Hy). unfold shell. rewrite !csum_map.
  rewrite (csum_ext _ (fun w => f x' w * h (orb l w) (orb l y'))%C) by (intros w Hw; rewrite (acts_val l f) by auto; reflexivity).
  rewrite HC by auto. apply csum_ext. intros w Hw. rewrite (acts_val l f) by auto. reflexivity.
Qed.
Lemma diag_vec l (c : cx F) v s : csum (fun x => c * T2 nb x x v s)%C (shell l) = B2 nb (shell l) (shell l) (fun x y => if eqb x y then c else c0) v s.
Proof.
  unfold B2. apply csum_ext. intros x Hx. rewrite (csum_single _ (shell l) x); auto; [|apply shell_NoDup|].
  - rewrite eqb_refl. reflexivity.
  - intros y _ Hne. destruct (eqb_spec x y); [congruence|]. ring.
Qed.
Lemma shell_comm l (c : cx F) v s : closed (shell l) -> length s = n ->
  X (fun s => csum (fun x => c * T2 nb x x v s)%C (shell l)) s = csum (fun x => c * T2 nb x x (X v) s)%C (shell l).
Proof.
  intros Hc Hs. rewrite (X_ext _ (B2 nb (shell l) (shell l) (fun x y => if eqb x y then c else c0) v)) by (auto; intros; apply diag_vec).
  rewrite diag_vec. apply (B2_comm n nb Hwf eq_refl O HO HOk M); auto. intros x y Hx Hy.
  rewrite (csum_single _ (shell l) y); auto; [|apply shell_NoDup|intros w _ Hne; destruct (eqb_spec w y); [congruence|ring]].
  rewrite (csum_single _ (shell l) x); auto; [|apply shell_NoDup|intros w _ Hne; destruct (eqb_spec x w); [congruence|ring]].
  rewrite !eqb_refl. ring.
Qed.
Lemma comm_eDC d p : closed (shell 1) -> closed (shell 2) -> comm (eDC d p).
Proof.
  intros C1 C2 v s Hs.
  assert (E : forall v s, sv nb (eDC d p) v s = (csum (fun x => creal (- d)%F * T2 nb x x v s) (shell 2) + csum (fun x => creal (- p)%F * T2 nb x x v s) (shell 1))%C).
  { intros v0 s0. unfold sv. rewrite (dict_sum_over (fun q => pvec (pidx nb q) v0 s0) _ (map (fun x => hop2 x x) (shell 2 ++ shell 1))).
    - rewrite csum_map, csum_app.
      rewrite (csum_ext (fun a => val (eDC d p) (hop2 a a) * pvec (pidx nb (hop2 a a)) v0 s0)%C (fun x => creal (- d)%F * T2 nb x x v0 s0)%C (shell 2)).
      rewrite (csum_ext (fun a => val (eDC d p) (hop2 a a) * pvec (pidx nb (hop2 a a)) v0 s0)%C (fun x => creal (- p)%F * T2 nb x x v0 s0)%C (shell 1)); [reflexivity|].
      all: intros x Hx; apply shell_In in Hx.
      + unfold val. replace (dget (eDC d p) (hop2 x x)) with (Some (creal (- p)%F)); [reflexivity|]. symmetry. apply eDC_dget, eDC_In. exists x. auto.
      + unfold val. replace (dget (eDC d p) (hop2 x x)) with (Some (creal (- d)%F)); [reflexivity|]. symmetry. apply eDC_dget, eDC_In. exists x. auto.
    - apply eDC_NoDup.
    - apply NoDup_map_on.
      + intros x y _ _ E. apply hop2_inj in E. tauto.
      + apply NoDup_app_intro; try apply shell_NoDup. intros x H1 H2. apply shell_In in H1, H2. destruct H1 as (? & ? & -> & _), H2 as (? & ? & E & _). discriminate.
    - intros q Hq. apply dget_Some_key in Hq as [w Hq]. apply eDC_dget, eDC_In in Hq as (x & -> & H). apply in_map_iff. exists x. split; auto.
      apply in_or_app. destruct H as [[H _]|[H _]]; apply shell_In in H; auto. }
  rewrite (X_ext _ _ s (E v) Hs), X_add, E. rewrite !shell_comm by auto. reflexivity.
Qed.
Lemma both_spin l (b a h : Z -> Z -> cx F) x y : spin_commute a h -> In x (sites l) -> In y (sites l) ->
  csum (fun w => both b a x w * on_spin h w y)%C (sites l) = csum (fun w => on_spin h x w * both b a w y)%C (sites l).
Proof.
  intros Hc Hx Hy. destruct x as [s m], y as [s' m']. apply sites_In in Hx, Hy. destruct Hx as [Hs Hm], Hy as [Hs' Hm'].
  unfold both. rewrite sum_row, sum_col by auto. unfold on_spin. cbn [fst snd].
  rewrite (csum_ext (fun m0 => b m m0 * _)%C (fun w => if w =? m' then b m w * h s s' else c0)%C) by (intros w _; cbn beta; destruct (w =? m'); ring).
  rewrite (csum_ext (fun m0 => _ * b m0 m')%C (fun w => if m =? w then h s s' * b w m' else c0)%C) by (intros w _; cbn beta; destruct (m =? w); ring).
  rewrite (csum_at l m' (fun w => b m w * h s s')%C (fun w => w =? m')); auto; [|intros w; rewrite Z.eqb_eq; split; auto].
  rewrite (csum_at l m (fun w => h s s' * b w m')%C (fun w => m =? w)); auto; [|intros w; rewrite Z.eqb_eq; split; auto].
  specialize (Hc s s' Hs Hs'). unfold spin_mul in Hc. destruct (m =? m'); [|ring]. rewrite Hc. ring.
Qed.
Lemma hS_spin (hx hy hz : F) l x y : hS hx hy hz (orb l x) (orb l y) = on_spin (field_spin hx hy hz) x y.
Proof.
  destruct x as [s m], y as [s' m']. unfold hS, on_spin, field_spin. cbn. unfold when. cbn [half_spin].
  destruct (m =? m'); rewrite ?Bool.andb_true_r, ?Bool.andb_false_r.
  - reflexivity.
  - rewrite !(Fdiv_def (@c_field F)). ring.
Qed.
Lemma comm_field (hx hy hz : F) l b a : acts_in O M l (both b a) -> spin_commute a (field_spin hx hy hz) -> comm (gethHfieldop hx hy hz l).
Proof.
  intros Hf Hc. apply (comm_one l _ (hS hx hy hz) (both b a)); auto; [apply fld_NoDup|apply fld_matrix|]. intros x y Hx Hy.
  rewrite (csum_ext _ (fun w => both b a x w * on_spin (field_spin hx hy hz) w y)%C) by (intros; rewrite hS_spin; reflexivity).
  rewrite both_spin by auto. apply csum_ext. intros. rewrite hS_spin. reflexivity.
Qed.
Variable fsqrt : F -> F.
Variable pi : F.
Variable gaunt : Z -> Z -> Z -> Z -> Z -> Z -> F.
Let ck := gauntC fsqrt pi gaunt.
Lemma comm_SOC0 l f : acts_in O M l f -> comm (getSOCop fsqrt 0%F l).
Proof.
  intros Hf. apply (comm_one l _ (fun x y => creal 0%F * LS fsqrt l x y)%C f); auto; [apply soc_NoDup|apply soc_matrix|]. intros x y _ _.
  rewrite !csum_zero; auto; intros; change (creal 0%F) with (c0 : cx F); ring.
Qed.
Lemma comm_SOC xi l c : sqrt_laws fsqrt -> acts_in O M l (total_ang fsqrt l c) -> comm (getSOCop fsqrt xi l).
Proof.
  intros Hsq Hf. apply (comm_one l _ (fun x y => creal xi * LS fsqrt l x y)%C (total_ang fsqrt l c)); auto; [apply soc_NoDup|apply soc_matrix|]. intros x y Hx Hy.
  rewrite (csum_ext _ (fun w => creal xi * (total_ang fsqrt l c x w * LSt fsqrt l w y))%C) by (intros; rewrite LS_LSt by auto; ring).
  rewrite csum_mul_l, LS_J, <- csum_mul_l by auto. apply csum_ext. intros. rewrite LS_LSt by auto. ring.
Qed.
Lemma comm_U (b : Z -> Z -> Z -> cx F) a R l1 l2 l3 l4 :
  acts_in O M l1 (both (b l1) a) -> acts_in O M l2 (both (b l2) a) -> acts_in O M l3 (both (b l3) a) -> acts_in O M l4 (both (b l4) a) ->
  orbital_inv (Us ck R l1 l2 l3 l4) l1 l2 l3 l4 (b l1) (b l2) (b l3) (b l4) -> comm (getUop fsqrt pi gaunt l1 l2 l3 l4 R).
Proof.
  intros H1 H2 H3 H4 HI v s Hs. rewrite (X_ext _ (B4 nb (shell l1) (shell l2) (shell l3) (shell l4) (Wc ck R) v)) by (auto; intros; apply u_vec).
  rewrite u_vec. apply (B4_comm n nb Hwf eq_refl O HO HOk M); eauto using acts_closed.
  intros x y z t Hx Hy Hz Ht. apply in_map_iff in Hx as (x' & <- & Hx). apply in_map_iff in Hy as (y' & <- & Hy).
  apply in_map_iff in Hz as (z' & <- & Hz). apply in_map_iff in Ht as (t' & <- & Ht). unfold shell. rewrite !csum_map.
  assert (EW : forall x y z t, Wc ck R (orb l1 x) (orb l2 y) (orb l3 z) (orb l4 t) = UW (Us ck R l1 l2 l3 l4) x y z t).
  { intros [? ?] [? ?] [? ?] [? ?]. reflexivity. }
  rewrite (csum_ext (fun a0 => M (orb l1 x') _ * _)%C (fun w => both (b l1) a x' w * UW (Us ck R l1 l2 l3 l4) w y' z' t')%C)
    by (intros w Hw; rewrite EW, (acts_val l1 _ x' w H1) by auto; reflexivity).
  rewrite (csum_ext (fun a0 => M (orb l2 y') _ * _)%C (fun w => both (b l2) a y' w * UW (Us ck R l1 l2 l3 l4) x' w z' t')%C)
    by (intros w Hw; rewrite EW, (acts_val l2 _ y' w H2) by auto; reflexivity).
  rewrite (csum_ext (fun a0 => _ * M _ (orb l3 z'))%C (fun w => UW (Us ck R l1 l2 l3 l4) x' y' w t' * both (b l3) a w z')%C)
    by (intros w Hw; rewrite EW, (acts_val l3 _ w z' H3) by auto; reflexivity).
  rewrite (csum_ext (fun a0 => _ * M _ (orb l4 t'))%C (fun w => UW (Us ck R l1 l2 l3 l4) x' y' z' w * both (b l4) a w t')%C)
    by (intros w Hw; rewrite EW, (acts_val l4 _ w t' H4) by auto; reflexivity).
  apply spin_inv; auto.
Qed.
Lemma comm_pd (b : Z -> Z -> Z -> cx F) a Fdd Fpp Fpd Gpd : acts_in O M 1 (both (b 1) a) -> acts_in O M 2 (both (b 2) a) ->
  (forall l1 l2 l3 l4 R, In (l1, l2, l3, l4, R) [(2, 2, 2, 2, Fdd); (1, 1, 1, 1, Fpp); (1, 2, 2, 1, Fpd); (2, 1, 1, 2, Fpd); (1, 2, 1, 2, Gpd); (2, 1, 2, 1, Gpd)] ->
     orbital_inv (Us ck R l1 l2 l3 l4) l1 l2 l3 l4 (b l1) (b l2) (b l3) (b l4)) ->
  comm (get2p3dSlaterCondonUop fsqrt pi gaunt Fdd Fpp Fpd Gpd).
Proof.
  intros H1 H2 H. unfold get2p3dSlaterCondonUop.
  apply comm_addOps. constructor; [|constructor; [|constructor; [|constructor; [|constructor]]]].
  3,4: apply comm_addOps; constructor; [|constructor; [|constructor]].
  all: apply (comm_U b a); [assumption|assumption|assumption|assumption|]; apply H; cbn [In]; tauto.
Qed.
(* the whole Hamiltonian *)
Variable fint : F -> Z.
Hypothesis fint_law : forall z, fint (fofZ z) = z.
Variable hp : @ham_params F.
Variable n3d : Z.
Hypothesis Hn3d : dget (hp_n0imps hp) 2 = Some n3d.
Hypothesis Hn2p : dget (hp_n0imps hp) 1 = Some 6.
Hypothesis HFdd : (5 <= length (hp_Fdd hp))%nat.
Hypothesis HFpd : (1 <= length (hp_Fpd hp))%nat.
Hypothesis HGpd : (4 <= length (hp_Gpd hp))%nat.
Hypothesis Hp1 : In 1 (angs nb).
Hypothesis Hd2 : In 2 (angs nb).
Lemma good_keys (op : sop_t F) : (forall p, In p (dkeys op) -> Forall good_label p) -> good_labels op.
Proof. intros H. unfold good_labels. apply Forall_forall. intros [p v] Hi. cbn [fst]. apply H. apply (in_map fst) in Hi. exact Hi. Qed.
Lemma good_in (op : sop_t F) p : good_labels op -> In p (dkeys op) -> Forall good_label p.
Proof. intros H Hi. apply in_map_iff in Hi as ([q v] & <- & Hi). unfold good_labels in H. rewrite Forall_forall in H. apply (H _ Hi). Qed.
Lemma good_one l (op : sop_t F) h : one_body_op l op h -> good_labels op.
Proof. intros [H _]. apply good_keys. intros p Hp. destruct (H p Hp) as (x & y & -> & _). apply good_hop2. Qed.
Lemma good_addOps (ops : list (sop_t F)) : Forall (fun op => NoDup (dkeys op)) ops -> Forall good_labels ops -> good_labels (addOps ops).
Proof.
  intros Hn Hg. apply good_keys. intros p Hp. apply addOps_keys in Hp; auto. destruct Hp as (op & Ho & Hv).
  rewrite Forall_forall in Hg. apply (good_in op); auto. apply dget_Some_key. unfold val in Hv. destruct (dget op p) eqn:E; eauto. congruence.
Qed.
Lemma good_U l1 l2 l3 l4 R : good_labels (getUop fsqrt pi gaunt l1 l2 l3 l4 R).
Proof. apply good_keys. intros p Hp. apply dget_Some_key in Hp as [v Hp]. apply u_elements in Hp as (m1 & m2 & m3 & m4 & s & sp & _ & _ & _ & _ & _ & _ & _ & -> & _). apply good_hop4. Qed.
Lemma good_pd Fdd Fpp Fpd Gpd : good_labels (get2p3dSlaterCondonUop fsqrt pi gaunt Fdd Fpp Fpd Gpd).
Proof. apply good_keys. intros p Hp. apply pd_keys in Hp as (x & y & z & t & -> & _). apply good_hop4. Qed.
Lemma good_parts : Forall good_labels (h_parts fsqrt pi gaunt hp n3d).
Proof.
  unfold h_parts. constructor; [|constructor; [|constructor; [|constructor; [|constructor; [|constructor]]]]].
  - apply good_pd.
  - exact (good_one _ _ _ (fld_matrix _ _ _ _)).
  - exact (good_one _ _ _ (soc_matrix _ _ _)).
  - exact (good_one _ _ _ (soc_matrix _ _ _)).
  - apply good_keys. intros p Hp. apply dget_Some_key in Hp as [v Hp]. apply eDC_dget, eDC_In in Hp as (x & -> & _). apply good_hop2.
Qed.
Lemma comm_total h0 hOp : NoDup (dkeys h0) -> good_labels h0 -> op_in nb h0 -> commute n (indexed nb h0) (generator nb O M) ->
  Forall comm (h_parts fsqrt pi gaunt hp n3d) ->
  get_hamiltonian_operator fsqrt pi gaunt fint nb hp h0 = Ok hOp -> commute n hOp (generator nb O M).
Proof.
  intros Hn Hg Hi Hc Hp E. unfold get_hamiltonian_operator in E. rewrite (total_eq fint fint_law fsqrt pi gaunt nb hp n3d) in E by auto.
  rewrite to_index_ok in E; auto; [|apply sum_in; auto|apply addOps_NoDup]. cbn [bind] in E.
  destruct (assert_hermitian _) as [[]|e]; cbn [bind] in E; [|discriminate]. injection E as <-.
  change (commute n (indexed nb (addOps (h_parts fsqrt pi gaunt hp n3d ++ [h0]))) (generator nb O M)). apply comm_commute.
  - apply good_addOps; apply Forall_app; split.
    + apply parts_NoDup.
    + constructor; [exact Hn|constructor].
    + apply good_parts.
    + constructor; [exact Hg|constructor].
  - apply comm_addOps. apply Forall_app. split; auto. constructor; auto. apply commute_comm; auto.
Qed.
End A.
