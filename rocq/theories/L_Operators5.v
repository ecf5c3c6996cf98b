(* Double counting and the total Hamiltonian. *)
From Coq Require Import Permutation Ring Field.
From Verif Require Import M_Prelude M_Scalar M_PSR M_Ladder M_State M_Basis M_Expect M_Operators.
From Verif Require Import S_Fock S_Ops S_Basis S_Expect S_Operators.
From Verif Require Import L_Scalar L_Sum L_Dict L_Fock L_State L_ApplyOp L_Ops L_Index L_Expect L_Expect2 L_Expect3 L_Expect5 L_Expect6 L_Operators L_Operators2 L_Operators3 L_Operators4.
Local Open Scope Z_scope.

Section A.
Context {F : ofield}.
Add Field Ff : (f_field F).
Add Ring Cring : (@c_ring F).
Variable fint : F -> Z.

(* ---- dc_MLFT ---- *)
Lemma is_int_ok x : is_int fint x = true -> x = fofZ (fint x).
Proof. unfold is_int. intros H. symmetry. apply feqb_true; auto. Qed.
Lemma dc_not_integer (n3d c : F) Fdd n2p Fpd Gpd : (forall z, n3d <> fofZ z) -> dc_MLFT fint n3d c Fdd n2p Fpd Gpd = Err ValueError.
Proof.
  intros H. unfold dc_MLFT. destruct (is_int fint n3d) eqn:E; auto. apply is_int_ok in E. elim (H _ E).
Qed.
Lemma py_nth_ok {X} (l : list X) k d : (k < length l)%nat -> py_nth l (Z.of_nat k) = Ok (nth k l d).
Proof. intros H. unfold py_nth. unfold py_index. destruct (Z.leb_spec 0 (Z.of_nat k)); [|lia]. destruct (Z.ltb_spec (Z.of_nat k) (Z.of_nat (length l))); [|lia]. cbn [andb]. rewrite Nat2Z.id, (nth_error_nth' l d) by auto. reflexivity. Qed.
Lemma dc_2p_incomplete (n3d c : F) Fdd n2p Fpd Gpd : (5 <= length Fdd)%nat ->
  ~ (n2p = None /\ Fpd = None /\ Gpd = None) ->
  (n2p <> Some (fofZ 6) \/ Fpd = None \/ Gpd = None) -> dc_MLFT fint n3d c Fdd n2p Fpd Gpd = Err ValueError.
Proof.
  intros HL H1 H2. unfold dc_MLFT. destruct (is_int fint n3d); auto. cbn [negb].
  destruct (match n2p with Some n => negb (is_int fint n) | None => false end); auto.
  change 0 with (Z.of_nat 0). change 2 with (Z.of_nat 2). change 4 with (Z.of_nat 4).
  rewrite !(py_nth_ok Fdd _ 0%F) by lia. cbn [bind].
  destruct n2p as [n|], Fpd as [fp|], Gpd as [gp|]; try reflexivity.
  - destruct (feqb_spec n (fofZ 6)) as [->|]; auto. destruct H2 as [H2|[H2|H2]]; congruence.
  - elim H1. auto.
Qed.
Hypothesis fint_law : forall z, fint (fofZ z) = z.
Lemma is_int_fofZ z : is_int fint (fofZ z) = true.
Proof. unfold is_int. rewrite fint_law. apply feqb_true. auto. Qed.
Lemma fofZ_neq0 z : z <> 0 -> (@fofZ F z) <> 0%F.
Proof. intros H C. apply H. rewrite <- (fint_law z), C. change 0%F with (@fofZ F 0). apply fint_law. Qed.
Lemma dc_3d z (c : F) Fdd : (5 <= length Fdd)%nat ->
  dc_MLFT fint (fofZ z) c Fdd None None None = Ok (DC1 (U_dd Fdd * fofZ z - c)%F).
Proof.
  intros HL. unfold dc_MLFT. rewrite is_int_fofZ. cbn [negb].
  change 0 with (Z.of_nat 0). change 2 with (Z.of_nat 2). change 4 with (Z.of_nat 4).
  rewrite !(py_nth_ok Fdd _ 0%F) by lia. cbn [bind]. do 2 f_equal. unfold U_dd.
  replace (@fofZ F 14) with (fofZ 7 * fofZ 2 : F)%F by (rewrite <- fofZ_mul; reflexivity).
  replace (@fofZ F 441) with (fofZ 7 * fofZ 63 : F)%F by (rewrite <- fofZ_mul; reflexivity).
  change (Z.of_nat 2) with 2. field. split; apply fofZ_neq0; lia.
Qed.
Lemma dc_2p3d z (c : F) Fdd Fpd Gpd : (5 <= length Fdd)%nat -> (1 <= length Fpd)%nat -> (4 <= length Gpd)%nat ->
  dc_MLFT fint (fofZ z) c Fdd (Some (fofZ 6)) (Some Fpd) (Some Gpd) =
  Ok (DC2 (U_dd Fdd * fofZ z + U_pd Fpd Gpd * fofZ 6 - c)%F (U_pd Fpd Gpd * fofZ (z + 1) - c)%F).
Proof.
  intros HL HP HG. unfold dc_MLFT. rewrite !is_int_fofZ. cbn [negb].
  change (py_nth Fdd 0) with (py_nth Fdd (Z.of_nat 0)). change (py_nth Fdd 2) with (py_nth Fdd (Z.of_nat 2)). change (py_nth Fdd 4) with (py_nth Fdd (Z.of_nat 4)).
  rewrite !(py_nth_ok Fdd _ 0%F) by lia. cbn [bind].
  destruct (feqb_spec (@fofZ F 6) (fofZ 6)) as [_|C]; [|congruence].
  change (py_nth Fpd 0) with (py_nth Fpd (Z.of_nat 0)). change (py_nth Gpd 1) with (py_nth Gpd (Z.of_nat 1)). change (py_nth Gpd 3) with (py_nth Gpd (Z.of_nat 3)).
  rewrite !(py_nth_ok Fpd _ 0%F), !(py_nth_ok Gpd _ 0%F) by lia. cbn [bind]. 
  assert (E1 : (nth 0 Fdd 0 - fofZ 14 / fofZ 441 * (nth 2 Fdd 0 + nth 4 Fdd 0))%F = U_dd Fdd).
  { unfold U_dd.
    replace (@fofZ F 14) with (fofZ 7 * fofZ 2 : F)%F by (rewrite <- fofZ_mul; reflexivity).
    replace (@fofZ F 441) with (fofZ 7 * fofZ 63 : F)%F by (rewrite <- fofZ_mul; reflexivity).
    field. split; apply fofZ_neq0; lia. }
  assert (E2 : (nth 0 Fpd 0 - 1 / fofZ 15 * nth 1 Gpd 0 - fofZ 3 / fofZ 70 * nth 3 Gpd 0)%F = U_pd Fpd Gpd).
  { unfold U_pd. field. split; apply fofZ_neq0; lia. }
  rewrite E1, E2. rewrite fofZ_add. change (@fofZ F 1) with (1%F : F). reflexivity.
Qed.

(* ---- double counting operator ---- *)
Definition eDC_list (d p : F) : list (sprocess * cx F) :=
  map (fun x => (hop2 x x, creal (- d)%F)) (shell_list 2) ++ map (fun x => (hop2 x x, creal (- p)%F)) (shell_list 1).
Definition eDC (d p : F) : sop_t F := wr (eDC_list d p) [].
Lemma eDC_eq (d p : F) : eDCop [d; p] = Ok (eDC d p).
Proof. reflexivity. Qed.
Lemma shell_list_In l x : In x (shell_list l) <-> in_shell l x.
Proof.
  unfold shell_list, mrange. rewrite in_flat_map. split.
  - intros (s & Hs & H). apply in_map_iff in H as (m & <- & H). apply zrange2_In in H. exists s, m. split; auto. split; [destruct Hs as [<-|[<-|[]]]; auto|lia].
  - intros (s & m & -> & Hs & Hm). exists s. split; [destruct Hs as [-> | ->]; cbn; auto|]. apply in_map. apply zrange2_In. lia.
Qed.
Lemma eDC_In d p q v : In (q, v) (eDC_list d p) <->
  exists x, q = hop2 x x /\ ((in_shell 2 x /\ v = creal (- d)%F) \/ (in_shell 1 x /\ v = creal (- p)%F)).
Proof.
  unfold eDC_list. rewrite in_app_iff, !in_map_iff. split.
  - intros [(x & E & H)|(x & E & H)]; injection E as <- <-; apply shell_list_In in H; exists x; auto.
  - intros (x & -> & [[H ->]|[H ->]]); apply shell_list_In in H; [left|right]; exists x; auto.
Qed.
Lemma eDC_consistent d p : consistent (eDC_list d p).
Proof.
  intros q v v' H H'. apply eDC_In in H as (x & -> & H). apply eDC_In in H' as (y & E & H'). unfold hop2 in E. injection E as -> _.
  destruct H as [[(s & m & -> & _) ->]|[(s & m & -> & _) ->]], H' as [[(s' & m' & E & _) ->]|[(s' & m' & E & _) ->]]; auto; discriminate.
Qed.
Lemma eDC_dget d p q v : dget (eDC d p) q = Some v <-> In (q, v) (eDC_list d p).
Proof. apply dget_wr, eDC_consistent. Qed.
Lemma eDC_NoDup d p : NoDup (dkeys (eDC d p)).
Proof. apply NoDup_wr. constructor. Qed.
Lemma eDC_hermitian d p : assert_hermitian (eDC d p) = Ok tt.
Proof.
  apply herm_intro; [|apply eDC_NoDup|].
  - intros q v H. apply eDC_dget, eDC_In in H as (x & -> & _). apply good_hop2.
  - intros q v H. apply eDC_dget. apply eDC_dget in H. apply eDC_In in H as (x & -> & H). apply eDC_In. exists x. rewrite dag_hop2. split; auto.
    destruct H as [[H ->]|[H ->]]; rewrite cconj_real; auto.
Qed.
Lemma eDC_val d p q : Forall (fun xa => match fst xa with SImp l s m => (s = 0 \/ s = 1) /\ - l <= m <= l | SBath _ _ => True end) q ->
  val (eDC d p) q = level_shift (- p)%F (- d)%F q.
Proof.
  intros Hq. unfold val. destruct (dget (eDC d p) q) as [v|] eqn:E.
  - apply eDC_dget, eDC_In in E as (x & -> & [[(s & m & -> & Hx) ->]|[(s & m & -> & Hx) ->]]); unfold level_shift, hop2; rewrite eqb_refl; reflexivity.
  - unfold level_shift. destruct q as [|[[l s m|k b] a] [|[y b'] [|]]]; auto.
    apply Forall_inv in Hq. cbn [fst] in Hq. destruct Hq as [Hs Hm].
    destruct (Z.eqb_spec l 1) as [->|]; cbn [andb].
    + destruct (eqb_spec [(SImp 1 s m, a); (y, b')] (hop2 (SImp 1 s m) (SImp 1 s m))) as [C|]; auto. exfalso. rewrite C in E.
      assert (X : dget (eDC d p) (hop2 (SImp 1 s m) (SImp 1 s m)) = Some (creal (- p)%F)).
      { apply eDC_dget, eDC_In. exists (SImp 1 s m). split; auto. right. split; auto. exists s, m. auto. }
      congruence.
    + destruct (Z.eqb_spec l 2) as [->|]; cbn [andb]; auto.
      destruct (eqb_spec [(SImp 2 s m, a); (y, b')] (hop2 (SImp 2 s m) (SImp 2 s m))) as [C|]; auto. exfalso. rewrite C in E.
      assert (X : dget (eDC d p) (hop2 (SImp 2 s m) (SImp 2 s m)) = Some (creal (- d)%F)).
      { apply eDC_dget, eDC_In. exists (SImp 2 s m). split; auto. left. split; auto. exists s, m. auto. }
      congruence.
Qed.

(* ---- total Hamiltonian ---- *)
Variable fsqrt : F -> F.
Variable pi : F.
Variable gaunt : Z -> Z -> Z -> Z -> Z -> Z -> F.
Hypothesis gaunt_swap : forall l1 l2 l3 m1 m2 m3, gaunt l1 l2 l3 m1 m2 m3 = gaunt l3 l2 l1 m3 m2 m1.
Hypothesis gaunt_neg : forall l1 l2 l3 m1 m2 m3, gaunt l1 l2 l3 (- m1) (- m2) (- m3) = gaunt l1 l2 l3 m1 m2 m3.
Variable nb : nbaths_t.
Hypothesis W : wf_nbaths nb.
Hypothesis Hp1 : In 1 (angs nb).
Hypothesis Hd2 : In 2 (angs nb).
Variable hp : @ham_params F.
Variable n3d : Z.
Hypothesis Hn3d : dget (hp_n0imps hp) 2 = Some n3d.
Hypothesis Hn2p : dget (hp_n0imps hp) 1 = Some 6.
Hypothesis HFdd : (5 <= length (hp_Fdd hp))%nat.
Hypothesis HFpd : (1 <= length (hp_Fpd hp))%nat.
Hypothesis HGpd : (4 <= length (hp_Gpd hp))%nat.
Let dcd := (U_dd (hp_Fdd hp) * fofZ n3d + U_pd (hp_Fpd hp) (hp_Gpd hp) * fofZ 6 - hp_ctc hp)%F.
Let dcp := (U_pd (hp_Fpd hp) (hp_Gpd hp) * fofZ (n3d + 1) - hp_ctc hp)%F.
Definition h_parts : list (sop_t F) :=
  [get2p3dSlaterCondonUop fsqrt pi gaunt (hp_Fdd hp) (hp_Fpp hp) (hp_Fpd hp) (hp_Gpd hp);
   gethHfieldop (hp_hx hp) (hp_hy hp) (hp_hz hp) 2;
   getSOCop fsqrt (hp_xi_2p hp) 1; getSOCop fsqrt (hp_xi_3d hp) 2; eDC dcd dcp].
Lemma total_eq h0 : total_hamiltonian fsqrt pi gaunt fint nb hp (Ok h0) =
  (do hOp <- to_index nb (addOps (h_parts ++ [h0])); do _ <- assert_hermitian hOp; Ok hOp).
Proof.
  unfold total_hamiltonian, dgetitem. rewrite Hn3d, Hn2p. cbn [bind]. rewrite dc_2p3d by auto. cbn [bind].
  fold dcd dcp. rewrite eDC_eq. cbv zeta. unfold h_parts. cbn [app bind]. match goal with |- ?a = ?b => constr_eq a b end. reflexivity.
Qed.
Lemma total_err e : total_hamiltonian fsqrt pi gaunt fint nb hp (Err e) = Err e.
Proof.
  unfold total_hamiltonian, dgetitem. rewrite Hn3d, Hn2p. cbn [bind]. rewrite dc_2p3d by auto. cbn [bind].
  fold dcd dcp. rewrite eDC_eq. cbv zeta. unfold h_parts. cbn [app bind]. match goal with |- ?a = ?b => constr_eq a b end. reflexivity.
Qed.
Lemma parts_NoDup : Forall (fun op => NoDup (dkeys op)) h_parts.
Proof.
  repeat (apply Forall_cons || apply Forall_nil); [apply addOps_NoDup|apply fld_NoDup|apply soc_NoDup|apply soc_NoDup|apply eDC_NoDup].
Qed.
Lemma parts_hermitian : Forall (fun op => NoDup (dkeys op) /\ assert_hermitian op = Ok tt) h_parts.
Proof.
  repeat (apply Forall_cons || apply Forall_nil); split;
    [apply addOps_NoDup|apply pd_hermitian; auto|apply fld_NoDup|apply fld_hermitian|apply soc_NoDup|apply soc_hermitian|
     apply soc_NoDup|apply soc_hermitian|apply eDC_NoDup|apply eDC_hermitian].
Qed.
Lemma shell_coord_ok l x : In l (angs nb) -> in_shell l x -> coord_ok nb x.
Proof. intros Hl (s & m & -> & Hs & Hm). cbn. auto. Qed.
Lemma one_body_in l (op : sop_t F) h : In l (angs nb) -> one_body_op l op h -> forall p, In p (dkeys op) -> Forall (fun xa => coord_ok nb (fst xa)) p.
Proof.
  intros Hl [H _] p Hp. destruct (H p Hp) as (x & y & -> & Hx & Hy). unfold hop2.
  repeat (apply Forall_cons || apply Forall_nil); cbn [fst]; apply (shell_coord_ok l); auto.
Qed.
Lemma parts_in op p : In op h_parts -> In p (dkeys op) -> Forall (fun xa => coord_ok nb (fst xa)) p.
Proof.
  intros [<-|[<-|[<-|[<-|[<-|[]]]]]] Hp.
  - apply pd_keys in Hp as (x & y & z & t & -> & _ & _ & H). 
    assert (G : Forall (fun a => coord_ok nb a) [x; y; z; t]).
    { eapply Forall_impl; [|exact H]. intros a [Ha|Ha]; [apply (shell_coord_ok 1)|apply (shell_coord_ok 2)]; auto. }
    inversion_clear G as [|? ? g1 G1]. inversion_clear G1 as [|? ? g2 G2]. inversion_clear G2 as [|? ? g3 G3]. inversion_clear G3 as [|? ? g4 G4].
    unfold hop4. repeat (apply Forall_cons || apply Forall_nil); auto.
  - eapply (one_body_in 2); [auto|apply fld_matrix|exact Hp].
  - eapply (one_body_in 1); [auto|apply soc_matrix|exact Hp].
  - eapply (one_body_in 2); [auto|apply soc_matrix|exact Hp].
  - apply dget_Some_key in Hp as [v Hp]. apply eDC_dget, eDC_In in Hp as (x & -> & H). unfold hop2.
    assert (coord_ok nb x) by (destruct H as [[H _]|[H _]]; [apply (shell_coord_ok 2)|apply (shell_coord_ok 1)]; auto).
    repeat (apply Forall_cons || apply Forall_nil); auto.
Qed.
Lemma sum_in (h0 : sop_t F) : NoDup (dkeys h0) -> op_in nb h0 -> op_in nb (addOps (h_parts ++ [h0])).
Proof.
  intros Hn Hin. unfold op_in. apply Forall_forall. intros [p v] Hi. cbn [fst]. apply (in_map fst) in Hi. cbn [fst] in Hi.
  apply (addOps_keys (h_parts ++ [h0])) in Hi.
  - destruct Hi as (op & Ho & Hv). assert (Hk : In p (dkeys op)).
    { apply dget_Some_key. unfold val in Hv. destruct (dget op p) eqn:E; eauto. congruence. }
    apply in_app_or in Ho as [Ho|[<-|[]]]; [eapply parts_in; eauto|eapply op_in_keys; eauto].
  - apply Forall_app. split; [apply parts_NoDup|auto].
Qed.
Lemma total_ok (h0 : sop_t F) : NoDup (dkeys h0) -> assert_hermitian h0 = Ok tt -> op_in nb h0 ->
  total_hamiltonian fsqrt pi gaunt fint nb hp (Ok h0) = Ok (idx_op nb (addOps (h_parts ++ [h0]))) /\
  assert_hermitian (idx_op nb (addOps (h_parts ++ [h0]))) = Ok tt /\
  wf_op (n_orb nb) (idx_op nb (addOps (h_parts ++ [h0]))).
Proof.
  intros Hn Hh Hin. rewrite total_eq.
  assert (HA : assert_hermitian (addOps (h_parts ++ [h0])) = Ok tt).
  { apply addOps_hermitian. apply Forall_app. split; [apply parts_hermitian|auto]. }
  rewrite to_index_ok; auto; [|apply sum_in; auto|apply addOps_NoDup]. cbn [bind].
  assert (HI : assert_hermitian (idx_op nb (addOps (h_parts ++ [h0]))) = Ok tt).
  { apply idx_hermitian; auto; [apply sum_in; auto|apply addOps_NoDup]. }
  split; [|split; auto].
  - rewrite HI. reflexivity.
  - apply idx_wf; auto; [apply sum_in; auto|apply addOps_NoDup|]. apply assert_hermitian_iff in HA; [apply HA|apply addOps_NoDup].
Qed.
Lemma coord_range p : Forall (fun xa : spinorb * ascii => coord_ok nb (fst xa)) p ->
  Forall (fun xa => match fst xa with SImp l s m => (s = 0 \/ s = 1) /\ - l <= m <= l | SBath _ _ => True end) p.
Proof. intros H. eapply Forall_impl; [|exact H]. intros [[l s m|k b] a]; cbn; tauto. Qed.
Lemma total_spec (h0 : sop_t F) : NoDup (dkeys h0) -> assert_hermitian h0 = Ok tt -> op_in nb h0 ->
  exists hOp, get_hamiltonian_operator fsqrt pi gaunt fint nb hp h0 = Ok hOp /\ wf_op (n_orb nb) hOp /\ assert_hermitian hOp = Ok tt /\
    (forall q, In q (dkeys hOp) -> exists p, q = pidx nb p /\ Forall (fun xa => coord_ok nb (fst xa)) p) /\
    forall p, Forall (fun xa => coord_ok nb (fst xa)) p ->
      val hOp (pidx nb p) = (val (get2p3dSlaterCondonUop fsqrt pi gaunt (hp_Fdd hp) (hp_Fpp hp) (hp_Fpd hp) (hp_Gpd hp)) p +
        val (gethHfieldop (hp_hx hp) (hp_hy hp) (hp_hz hp) 2) p +
        (val (getSOCop fsqrt (hp_xi_2p hp) 1) p + val (getSOCop fsqrt (hp_xi_3d hp) 2) p) +
        level_shift (- (U_pd (hp_Fpd hp) (hp_Gpd hp) * fofZ (n3d + 1) - hp_ctc hp))
          (- (U_dd (hp_Fdd hp) * fofZ n3d + U_pd (hp_Fpd hp) (hp_Gpd hp) * fofZ 6 - hp_ctc hp)) p +
        val h0 p)%C.
Proof.
  intros Hn Hh Hin. destruct (total_ok h0 Hn Hh Hin) as (E & HI & Hw). pose proof (sum_in h0 Hn Hin) as Hs.
  eexists. split; [exact E|]. split; [exact Hw|]. split; [exact HI|]. split.
  - intros q Hq. change (In q (dkeys (idx_op nb (addOps (h_parts ++ [h0]))))) in Hq. rewrite idx_keys in Hq.
    apply in_map_iff in Hq as (p & <- & Hp). exists p. split; auto. eapply op_in_keys; eauto.
  - intros p Hp. etransitivity; [apply (idx_val nb (addOps (h_parts ++ [h0])) p W Hs (addOps_NoDup _) Hp)|].
    rewrite addOps_val by (apply Forall_app; split; [apply parts_NoDup|auto]).
    unfold h_parts. cbn [app csum]. rewrite eDC_val by (apply coord_range; auto). fold dcd dcp. ring.
Qed.
(* an h0 that is not Hermitian is noticed *)
Lemma total_nonhermitian (h0 : sop_t F) p : NoDup (dkeys h0) -> good_labels h0 -> op_in nb h0 -> Forall good_label p -> Forall (fun xa => coord_ok nb (fst xa)) p ->
  val h0 (dag p) <> cconj (val h0 p) -> get_hamiltonian_operator fsqrt pi gaunt fint nb hp h0 = Err AssertionError.
Proof.
  intros Hn Hg0 Hin Hg Hp Hne. unfold get_hamiltonian_operator. rewrite total_eq. pose proof (sum_in h0 Hn Hin) as Hs.
  rewrite to_index_ok; auto; [|apply addOps_NoDup]. cbn [bind].
  destruct (assert_hermitian (idx_op nb (addOps (h_parts ++ [h0])))) as [[]|e] eqn:E.
  - exfalso. apply assert_hermitian_iff in E as [HG HE]; [|apply idx_NoDup; auto; apply addOps_NoDup].
    assert (V : forall q, Forall good_label q -> Forall (fun xa => coord_ok nb (fst xa)) q -> forall op, In op (h_parts) -> val op (dag q) = cconj (val op q)).
    { intros q Hq _ op Ho. pose proof parts_hermitian as PH. rewrite Forall_forall in PH. destruct (PH op Ho) as [Hnd Hh].
      apply assert_hermitian_iff in Hh as [Hgg Hh]; auto. apply (adj_val op op); auto.
      - intros r v Er. split; auto. apply dget_In in Er. unfold good_labels in Hgg. rewrite Forall_forall in Hgg. apply (Hgg _ Er).
      - intros r v Er. split; auto. apply dget_In in Er. unfold good_labels in Hgg. rewrite Forall_forall in Hgg. apply (Hgg _ Er). }
    assert (T : val (addOps (h_parts ++ [h0])) (dag p) = cconj (val (addOps (h_parts ++ [h0])) p)).
    { rewrite <- !(idx_val nb (addOps (h_parts ++ [h0]))); auto; try apply addOps_NoDup.
      - rewrite idx_dag. apply (herm_val (idx_op nb (addOps (h_parts ++ [h0])))); [split; auto|apply idx_good; auto].
      - unfold dag. apply Forall_map. apply Forall_rev. auto. }
    rewrite !addOps_val in T by (apply Forall_app; split; [apply parts_NoDup|auto]). rewrite !csum_app in T. cbn [csum] in T.
    rewrite (csum_ext _ (fun op => cconj (val op p)) h_parts) in T by (intros op Ho; apply V; auto).
    rewrite csum_conj, !cconj_add, cconj_0 in T. apply Hne.
    set (a := cconj (csum (fun op => val op p) h_parts)) in *. transitivity (a + (val h0 (dag p) + c0) - a)%C; [ring|]. rewrite T. ring.
  - rewrite assert_hermitian_cases in E by (apply idx_NoDup; auto; apply addOps_NoDup).
    destruct (good_labels_dec _) as [G|G].
    + destruct (dict_eqb _ _); [discriminate|]. injection E as <-. reflexivity.
    + exfalso. apply G. unfold good_labels, idx_op. apply Forall_map. apply Forall_forall. intros [q v] Hi. cbn [fst]. apply idx_good.
      apply (in_map fst) in Hi. cbn [fst] in Hi. apply (addOps_keys (h_parts ++ [h0])) in Hi; [|apply Forall_app; split; [apply parts_NoDup|auto]].
      destruct Hi as (op & Ho & Hv). unfold val in Hv. destruct (dget op q) as [w|] eqn:Eq; [|congruence]. apply dget_In in Eq.
      apply in_app_or in Ho as [Ho|[<-|[]]].
      * pose proof parts_hermitian as PH. rewrite Forall_forall in PH. destruct (PH op Ho) as [Hnd Hh].
        apply assert_hermitian_iff in Hh as [Hgg _]; auto. unfold good_labels in Hgg. rewrite Forall_forall in Hgg. apply (Hgg _ Eq).
      * unfold good_labels in Hg0. rewrite Forall_forall in Hg0. apply (Hg0 _ Eq).
Qed.
End A.
