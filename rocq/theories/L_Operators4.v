(* Sums of operators, the 2p-3d Coulomb operator, translation to indices, conserved charges. *)
From Coq Require Import Permutation Ring Field.
From Verif Require Import M_Prelude M_Scalar M_PSR M_Ladder M_State M_Basis M_Expect M_Operators.
From Verif Require Import S_Fock S_Ops S_Basis S_Expect S_Operators.
From Verif Require Import L_Scalar L_Sum L_Dict L_Fock L_State L_ApplyOp L_Ops L_Index L_Expect L_Expect2 L_Expect3 L_Expect5 L_Expect6 L_Operators L_Operators2 L_Operators3.
Local Open Scope Z_scope.

Section A.
Context {F : ofield}.
Add Field Ff : (f_field F).
Add Ring Cring : (@c_ring F).

(* A and B are adjoint to each other *)
Definition adj (A B : sop_t F) : Prop := forall p v, dget A p = Some v -> Forall good_label p /\ dget B (dag p) = Some (cconj v).
Lemma adj_val A B p : adj A B -> adj B A -> Forall good_label p -> val B (dag p) = cconj (val A p).
Proof.
  intros H H' Hp. unfold val. destruct (dget A p) as [v|] eqn:E.
  - apply H in E as [_ E]. rewrite E. auto.
  - rewrite cconj_0. destruct (dget B (dag p)) as [g|] eqn:E'; auto.
    apply H' in E' as [_ E']. rewrite dag_inv in E' by auto. congruence.
Qed.
Lemma herm_val {A} {EA : EqB A} (op : gop A F) p : herm_op op -> Forall good_label p -> val op (dag p) = cconj (val op p).
Proof.
  intros [Hg H] Hp. unfold val. destruct (dget op p) as [v|] eqn:E.
  - rewrite (H _ _ E). auto.
  - rewrite cconj_0. destruct (dget op (dag p)) as [g|] eqn:E'; auto.
    apply H in E'. rewrite dag_inv in E' by auto. congruence.
Qed.
Lemma addOps_pair_hermitian A B : NoDup (dkeys A) -> NoDup (dkeys B) -> adj A B -> adj B A ->
  assert_hermitian (addOps [A; B]) = Ok tt.
Proof.
  intros NA NB H H'. assert (Hn : Forall (fun op : sop_t F => NoDup (dkeys op)) [A; B]) by auto.
  assert (G : forall (X Y : sop_t F) p, adj X Y -> val X p <> c0 -> Forall good_label p).
  { intros X Y p HX. unfold val. destruct (dget X p) eqn:E; [|congruence]. intros _. apply (HX _ _ E). }
  assert (Hgood : forall p, In p (dkeys (addOps [A; B])) -> Forall good_label p).
  { intros p Hi. apply addOps_keys in Hi as (op & [<-|[<-|[]]] & Hv); auto; [apply (G A B)|apply (G B A)]; auto. }
  apply herm_intro; [|apply addOps_NoDup|].
  - intros p v E. apply Hgood. apply dget_Some_key. eauto.
  - intros p h E. assert (Hi : In p (dkeys (addOps [A; B]))) by (apply dget_Some_key; eauto).
    pose proof (Hgood p Hi) as Hp.
    assert (Hi' : In (dag p) (dkeys (addOps [A; B]))).
    { apply addOps_keys; auto. apply addOps_keys in Hi as (op & [<-|[<-|[]]] & Hv); auto.
      - exists B. split; [cbn; auto|]. rewrite (adj_val A B) by auto. intros C. apply Hv. apply cconj_inj. rewrite C, cconj_0. auto.
      - exists A. split; [cbn; auto|]. rewrite (adj_val B A) by auto. intros C. apply Hv. apply cconj_inj. rewrite C, cconj_0. auto. }
    apply dget_Some_key in Hi' as [g Eg].
    assert (V : val (addOps [A; B]) (dag p) = cconj (val (addOps [A; B]) p)).
    { rewrite !addOps_val by auto. cbn [csum]. rewrite (adj_val A B), (adj_val B A) by auto.
      rewrite !cconj_add, cconj_0. ring. }
    unfold val in V. rewrite Eg, E in V. rewrite Eg, V. auto.
Qed.
Lemma addOps_conserves {A} {EA : EqB A} (w : A -> Z) (ops : list (gop A F)) : Forall (fun op => NoDup (dkeys op)) ops ->
  Forall (conserves w) ops -> conserves w (addOps ops).
Proof.
  intros Hn H p Hp. apply addOps_keys in Hp as (op & Ho & Hv); auto. rewrite Forall_forall in H.
  apply (H op Ho). apply dget_Some_key. unfold val in Hv. destruct (dget op p) eqn:E; eauto. congruence.
Qed.

Section Coulomb.
Variable fsqrt : F -> F.
Variable pi : F.
Variable gaunt : Z -> Z -> Z -> Z -> Z -> Z -> F.
Let ck := gauntC fsqrt pi gaunt.
Definition six (Fdd Fpp Fpd Gpd : list F) : list (sop_t F) :=
  [getUop fsqrt pi gaunt 2 2 2 2 Fdd; getUop fsqrt pi gaunt 1 1 1 1 Fpp;
   getUop fsqrt pi gaunt 1 2 2 1 Fpd; getUop fsqrt pi gaunt 2 1 1 2 Fpd;
   getUop fsqrt pi gaunt 1 2 1 2 Gpd; getUop fsqrt pi gaunt 2 1 2 1 Gpd].
Lemma six_NoDup Fdd Fpp Fpd Gpd : Forall (fun op => NoDup (dkeys op)) (six Fdd Fpp Fpd Gpd).
Proof. repeat constructor; apply u_NoDup. Qed.
Lemma pd_val Fdd Fpp Fpd Gpd p :
  val (get2p3dSlaterCondonUop fsqrt pi gaunt Fdd Fpp Fpd Gpd) p = csum (fun op => val op p) (six Fdd Fpp Fpd Gpd).
Proof.
  unfold get2p3dSlaterCondonUop. rewrite addOps_val.
  - cbn [csum]. rewrite !addOps_val by (repeat constructor; apply u_NoDup). unfold six. cbn [csum]. ring.
  - repeat constructor; first [apply u_NoDup|apply addOps_NoDup].
Qed.
Lemma pd_conserves Fdd Fpp Fpd Gpd : let op := get2p3dSlaterCondonUop fsqrt pi gaunt Fdd Fpp Fpd Gpd in
  conserves q_N op /\ conserves q_Lz op /\ conserves q_2Sz op.
Proof.
  cbv zeta. unfold get2p3dSlaterCondonUop.
  assert (G : forall w : spinorb -> Z, (forall l1 l2 l3 l4 R, conserves w (getUop fsqrt pi gaunt l1 l2 l3 l4 R)) ->
    conserves w (get2p3dSlaterCondonUop fsqrt pi gaunt Fdd Fpp Fpd Gpd)).
  { intros w H. unfold get2p3dSlaterCondonUop.
    assert (P : forall l1 l2 l3 l4 l5 l6 l7 l8 R R', conserves w (addOps [getUop fsqrt pi gaunt l1 l2 l3 l4 R; getUop fsqrt pi gaunt l5 l6 l7 l8 R'])).
    { intros. apply addOps_conserves; repeat constructor; try apply u_NoDup; apply H. }
    apply addOps_conserves; repeat (apply Forall_cons || apply Forall_nil); first [apply u_NoDup|apply addOps_NoDup|apply H|apply P]. }
  split; [|split]; apply G; intros; apply u_conserves.
Qed.
Lemma pd_keys Fdd Fpp Fpd Gpd p : In p (dkeys (get2p3dSlaterCondonUop fsqrt pi gaunt Fdd Fpp Fpd Gpd)) ->
  exists x y z t, p = hop4 x y z t /\ x <> y /\ z <> t /\ Forall (fun a => in_shell 1 a \/ in_shell 2 a) [x; y; z; t].
Proof.
  unfold get2p3dSlaterCondonUop. intros H.
  assert (ST : forall ops : list (sop_t F), Forall (fun op => NoDup (dkeys op)) ops -> In p (dkeys (addOps ops)) -> exists op, In op ops /\ In p (dkeys op)).
  { intros ops Hn Hi. apply addOps_keys in Hi as (op & Ho & Hv); auto. exists op. split; auto. apply dget_Some_key.
    unfold val in Hv. destruct (dget op p) eqn:E; eauto. congruence. }
  assert (K : forall l1 l2 l3 l4 R, Forall (fun l => l = 1 \/ l = 2) [l1; l2; l3; l4] -> In p (dkeys (getUop fsqrt pi gaunt l1 l2 l3 l4 R)) ->
    exists x y z t, p = hop4 x y z t /\ x <> y /\ z <> t /\ Forall (fun a => in_shell 1 a \/ in_shell 2 a) [x; y; z; t]).
  { intros l1 l2 l3 l4 R Hl Hi. apply dget_Some_key in Hi as [v E].
    apply u_elements in E as (m1 & m2 & m3 & m4 & s & sp & E'). cbv zeta in E'. destruct E' as (A & B & C & D & H1 & H2 & _ & -> & _).
    exists (SImp l1 s m1), (SImp l2 sp m2), (SImp l3 sp m3), (SImp l4 s m4). split; auto. do 2 (split; [solve [auto]|]).
    assert (X : forall l x, l = 1 \/ l = 2 -> in_shell l x -> in_shell 1 x \/ in_shell 2 x) by (intros l x [-> | ->]; auto).
    inversion_clear Hl as [|? ? h1 Hl1]. inversion_clear Hl1 as [|? ? h2 Hl2]. inversion_clear Hl2 as [|? ? h3 Hl3]. inversion_clear Hl3 as [|? ? h4 Hl4].
    repeat (apply Forall_cons || apply Forall_nil); [apply (X l1)|apply (X l2)|apply (X l3)|apply (X l4)]; assumption. }
  assert (L : forall a b c d : Z, (a = 1 \/ a = 2) -> (b = 1 \/ b = 2) -> (c = 1 \/ c = 2) -> (d = 1 \/ d = 2) -> Forall (fun l => l = 1 \/ l = 2) [a; b; c; d]) by auto.
  apply ST in H; [|repeat (apply Forall_cons || apply Forall_nil); first [apply u_NoDup|apply addOps_NoDup]].
  destruct H as (op & Ho & H). destruct Ho as [<-|[<-|[<-|[<-|[]]]]].
  - eapply K; [|exact H]; auto.
  - eapply K; [|exact H]; auto.
  - apply ST in H; [|repeat (apply Forall_cons || apply Forall_nil); apply u_NoDup]. destruct H as (op & [<-|[<-|[]]] & H); (eapply K; [|exact H]; auto).
  - apply ST in H; [|repeat (apply Forall_cons || apply Forall_nil); apply u_NoDup]. destruct H as (op & [<-|[<-|[]]] & H); (eapply K; [|exact H]; auto).
Qed.
Hypothesis gaunt_swap : forall l1 l2 l3 m1 m2 m3, gaunt l1 l2 l3 m1 m2 m3 = gaunt l3 l2 l1 m3 m2 m1.
Hypothesis gaunt_neg : forall l1 l2 l3 m1 m2 m3, gaunt l1 l2 l3 (- m1) (- m2) (- m3) = gaunt l1 l2 l3 m1 m2 m3.
Lemma u_adj l1 l2 l3 l4 R : adj (getUop fsqrt pi gaunt l1 l2 l3 l4 R) (getUop fsqrt pi gaunt l4 l3 l2 l1 R).
Proof. intros p v H. split; [eapply u_good; eauto|]. apply u_dag; auto. Qed.
Lemma pd_hermitian Fdd Fpp Fpd Gpd : assert_hermitian (get2p3dSlaterCondonUop fsqrt pi gaunt Fdd Fpp Fpd Gpd) = Ok tt.
Proof.
  unfold get2p3dSlaterCondonUop. apply addOps_hermitian.
  repeat (apply Forall_cons || apply Forall_nil); (split; [first [apply u_NoDup|apply addOps_NoDup]|]).
  - apply u_hermitian; auto.
  - apply u_hermitian; auto.
  - apply addOps_hermitian. repeat (apply Forall_cons || apply Forall_nil); (split; [apply u_NoDup|apply u_hermitian; auto]).
  - apply addOps_pair_hermitian; try apply u_NoDup; apply u_adj.
Qed.
End Coulomb.

(* ---- single index notation ---- *)
Definition idx_op (nb : nbaths_t) (op : sop_t F) : op_t F := map (fun pv => (pidx nb (fst pv), snd pv)) op.
Lemma pidx_inj nb p q : wf_nbaths nb -> Forall (fun xa => coord_ok nb (fst xa)) p -> Forall (fun xa => coord_ok nb (fst xa)) q ->
  pidx nb p = pidx nb q -> p = q.
Proof.
  intros W Hp. revert q. induction Hp as [|[x a] p Hx Hp IH]; intros q Hq E; destruct q as [|[y b] q]; try discriminate; auto.
  cbn in E. injection E as E1 E2 E3. inversion_clear Hq as [|? ? Hy Hq']. subst b. f_equal.
  - f_equal. apply (coord_index_inj nb); auto.
  - apply IH; auto.
Qed.
Lemma pidx_ok nb p : wf_nbaths nb -> Forall (fun xa => coord_ok nb (fst xa)) p ->
  map_res (fun sa : sladder => do i <- c2i nb (fst sa); Ok (i, snd sa)) p = Ok (pidx nb p).
Proof.
  intros W H. unfold pidx. apply map_res_ok. intros [x a] Hi. rewrite Forall_forall in H. cbn [fst snd].
  rewrite c2i_ok; auto. apply (H _ Hi).
Qed.
Lemma idx_keys nb op : dkeys (idx_op nb op) = map (pidx nb) (dkeys op).
Proof. unfold idx_op, dkeys. rewrite !map_map. reflexivity. Qed.
Lemma NoDup_map_on {X Y} (f : X -> Y) l : (forall a b, In a l -> In b l -> f a = f b -> a = b) -> NoDup l -> NoDup (map f l).
Proof.
  intros Hf H. induction H as [|a l Ha H IH]; cbn; constructor.
  - intros C. apply in_map_iff in C as (b & E & Hb). apply Hf in E; [|right|left]; auto. subst. auto.
  - apply IH. intros; apply Hf; auto; right; auto.
Qed.
Lemma op_in_keys nb (op : sop_t F) p : op_in nb op -> In p (dkeys op) -> Forall (fun xa => coord_ok nb (fst xa)) p.
Proof. intros H Hi. apply in_map_iff in Hi as ([q v] & <- & Hi). unfold op_in in H. rewrite Forall_forall in H. apply (H _ Hi). Qed.
Lemma idx_NoDup nb (op : sop_t F) : wf_nbaths nb -> op_in nb op -> NoDup (dkeys op) -> NoDup (dkeys (idx_op nb op)).
Proof.
  intros W Hin H. rewrite idx_keys. apply NoDup_map_on; auto. intros p q Hp Hq E.
  apply (pidx_inj nb); auto; eapply op_in_keys; eauto.
Qed.
Lemma to_index_gen nb : wf_nbaths nb -> forall (op : sop_t F) acc, op_in nb op -> NoDup (dkeys acc ++ dkeys (idx_op nb op)) ->
  fold_res (fun hOp pv => do p <- map_res (fun sa : sladder => do i <- c2i nb (fst sa); Ok (i, snd sa)) (fst pv);
    Ok (dset hOp p (snd pv))) op acc = Ok (acc ++ idx_op nb op).
Proof.
  intros W. induction op as [|[p v] op IH]; intros acc Hin Hn.
  - cbn. rewrite app_nil_r. auto.
  - inversion_clear Hin as [|? ? Hp Ho]. cbn [fst snd] in Hp. cbn [fold_res fst snd]. rewrite pidx_ok by auto. cbn [bind].
    assert (Hp' : ~ In (pidx nb p) (dkeys acc)).
    { intros C. cbn [idx_op map dkeys fst] in Hn. apply NoDup_remove_2 in Hn. apply Hn. apply in_or_app. auto. }
    rewrite dset_notin by auto. rewrite IH; auto.
    + rewrite <- app_assoc. reflexivity.
    + unfold dkeys in *. rewrite map_app, <- app_assoc. exact Hn.
Qed.
Lemma to_index_ok nb (op : sop_t F) : wf_nbaths nb -> op_in nb op -> NoDup (dkeys op) -> to_index nb op = Ok (idx_op nb op).
Proof. intros W Hin H. unfold to_index. rewrite to_index_gen; auto. apply idx_NoDup; auto. Qed.
Lemma coord_ok_dec nb x : {coord_ok nb x} + {~ coord_ok nb x}.
Proof.
  destruct (in_dec_key x (imp_coords (angs nb) ++ bath_coords nb)) as [H|H].
  - left. apply in_app_or in H as [H|H].
    + apply imp_coords_In in H as (l & s & m & -> & H). exact H.
    + apply bath_coords_In in H as (k & b & n & -> & H). exists n. exact H.
  - right. intros C. apply H. apply in_or_app. destruct x as [l s m|k b].
    + left. apply imp_coords_In. exists l, s, m. split; auto.
    + right. destruct C as [n C]. apply bath_coords_In. exists k, b, n. auto.
Qed.
Lemma to_index_err nb (op : sop_t F) : wf_nbaths nb -> ~ op_in nb op -> to_index nb op = Err GenericException.
Proof.
  intros W. unfold to_index. generalize (@nil (list (Z * ascii) * cx F)). induction op as [|[p v] op IH]; intros acc H.
  - exfalso. apply H. constructor.
  - cbn [fold_res fst snd]. destruct (Forall_dec (fun xa : sladder => coord_ok nb (fst xa)) (fun xa => coord_ok_dec nb (fst xa)) p) as [Hp|Hp].
    + rewrite pidx_ok by auto. cbn [bind]. apply IH. intros Ho. apply H. constructor; auto.
    + rewrite (map_res_err _ GenericException).
      * reflexivity.
      * intros [x a] _. cbn [fst snd]. destruct (coord_ok_dec nb x) as [Hx|Hx].
        -- right. rewrite c2i_ok by auto. cbn. eauto.
        -- left. rewrite c2i_err by auto. reflexivity.
      * apply neg_Forall_Exists_neg in Hp; [|intros xa; apply (coord_ok_dec nb (fst xa))].
        apply Exists_exists in Hp as ([x a] & Hi & Hx). exists (x, a). split; auto. cbn [fst snd] in *. rewrite c2i_err by auto. reflexivity.
Qed.
Lemma idx_dag nb p : pidx nb (dag p) = dag (pidx nb p).
Proof. unfold pidx, dag. rewrite <- map_rev, !map_map. reflexivity. Qed.
Lemma idx_dget nb (op : sop_t F) p v : wf_nbaths nb -> op_in nb op -> NoDup (dkeys op) -> dget op p = Some v -> dget (idx_op nb op) (pidx nb p) = Some v.
Proof.
  intros W Hin Hn H. apply In_dget; [apply idx_NoDup; auto|]. apply dget_In in H.
  unfold idx_op. apply in_map_iff. exists (p, v). auto.
Qed.
Lemma idx_dget_inv nb op q v : NoDup (dkeys op) -> dget (idx_op nb op) q = Some v -> exists p, q = pidx nb p /\ dget op p = Some v.
Proof.
  intros Hn H. apply dget_In in H. apply in_map_iff in H as ([p v'] & E & H). cbn in E. injection E as <- <-.
  exists p. split; auto. apply In_dget; auto.
Qed.
Lemma idx_good nb p : Forall good_label p -> Forall good_label (pidx nb p).
Proof. intros H. unfold pidx. apply Forall_map. eapply Forall_impl; [|exact H]. intros [x a] Hx. exact Hx. Qed.
Lemma idx_hermitian nb (op : sop_t F) : wf_nbaths nb -> op_in nb op -> NoDup (dkeys op) -> assert_hermitian op = Ok tt ->
  assert_hermitian (idx_op nb op) = Ok tt.
Proof.
  intros W Hin Hn H. apply assert_hermitian_iff in H as [Hg H]; auto. apply assert_hermitian_iff; [apply idx_NoDup; auto|]. split.
  - unfold good_labels, idx_op. apply Forall_map. eapply Forall_impl; [|exact Hg]. intros [p v] Hp. cbn [fst]. apply idx_good. exact Hp.
  - intros q h E. apply idx_dget_inv in E as (p & -> & E); auto. apply H in E. rewrite <- idx_dag. apply idx_dget; auto.
Qed.
Lemma idx_wf nb (op : sop_t F) : wf_nbaths nb -> op_in nb op -> NoDup (dkeys op) -> good_labels op -> wf_op (n_orb nb) (idx_op nb op).
Proof.
  intros W Hin Hn Hg. split; [apply idx_NoDup; auto|]. unfold idx_op. apply Forall_map. apply Forall_forall. intros [p v] Hi. cbn [fst].
  unfold op_in, good_labels in *. rewrite Forall_forall in Hin, Hg. specialize (Hin _ Hi). specialize (Hg _ Hi). cbn [fst] in Hin, Hg.
  unfold pidx. apply Forall_map. apply Forall_forall. intros [x a] Hx. rewrite Forall_forall in Hin, Hg. split.
  - cbn [fst]. pose proof (coord_index_range nb x W (Hin _ Hx)) as H.
    pose proof (n_imp_nonneg nb W). assert (n_imp nb <= n_total nb).
    { unfold n_total. pose proof (zsum_snd_nonneg nb (proj2 (proj2 W))). lia. }
    unfold n_orb. rewrite Z2Nat.id by lia. destruct x; lia.
  - destruct (Hg _ Hx); auto.
Qed.
Lemma idx_val nb (op : sop_t F) p : wf_nbaths nb -> op_in nb op -> NoDup (dkeys op) -> Forall (fun xa => coord_ok nb (fst xa)) p ->
  val (idx_op nb op) (pidx nb p) = val op p.
Proof.
  intros W Hin Hn Hp. unfold val. destruct (dget op p) as [v|] eqn:E.
  - exact (f_equal (fun o => match o with Some w => w | None => c0 end) (idx_dget nb op p v W Hin Hn E)).
  - destruct (dget (idx_op nb op) (pidx nb p)) as [v|] eqn:E';
      [|exact (f_equal (fun o => match o with Some w => w | None => c0 end) E')]. apply idx_dget_inv in E' as (p' & Ep & E'); auto.
    assert (Hp' : Forall (fun xa => coord_ok nb (fst xa)) p') by (apply (op_in_keys nb op); auto; apply dget_Some_key; eauto).
    rewrite (pidx_inj nb p p') in E; auto. congruence.
Qed.

(* ---- conserved quantum numbers ---- *)
Lemma charge_from_upd w c : forall i k b, (i < length c)%nat -> nth_error c i = Some (negb b) ->
  charge_from w k (upd c i b) = charge_from w k c + (if b then w (k + Z.of_nat i) else - w (k + Z.of_nat i)).
Proof.
  induction c as [|x c IH]; intros i k b Hi E; [cbn in Hi; lia|]. destruct i as [|i].
  - cbn in E. injection E as ->. unfold upd. cbn. rewrite Z.add_0_r. destruct b; cbn; lia.
  - cbn in E, Hi. change (upd (x :: c) (S i) b) with (x :: upd c i b). cbn [charge_from]. rewrite (IH i) by (auto; lia).
    replace (k + 1 + Z.of_nat i) with (k + Z.of_nat (S i)) by lia. lia.
Qed.
Lemma lad_charge w l c d s : 0 <= fst l -> lad l c = Some (d, s) ->
  charge w d = charge w c + (if Ascii.eqb (snd l) "c"%char then w (fst l) else - w (fst l)).
Proof.
  intros H0. unfold lad, cre, ann, charge. change lab_c with "c"%char. destruct (Ascii.eqb (snd l) "c"%char).
  - destruct (nth_error c (Z.to_nat (fst l))) as [[|]|] eqn:E; try discriminate. intros H. injection H as <- _.
    rewrite charge_from_upd; auto. + cbn. rewrite Z2Nat.id by lia. auto. + apply nth_error_Some. congruence.
  - destruct (nth_error c (Z.to_nat (fst l))) as [[|]|] eqn:E; try discriminate. intros H. injection H as <- _.
    rewrite charge_from_upd; auto. + cbn. rewrite Z2Nat.id by lia. auto. + apply nth_error_Some. congruence.
Qed.
Lemma proc_charge w p : Forall (fun l : ladder => 0 <= fst l) p -> forall c d s, proc_act p c = Some (d, s) ->
  charge w d = charge w c + pcharge w p.
Proof.
  induction p as [|l p IH]; intros Hp c d s H.
  - cbn in H. injection H as <- <-. unfold pcharge. cbn. lia.
  - inversion_clear Hp as [|? ? Hl Hp']. cbn [proc_act] in H. destruct (proc_act p c) as [[c' s']|] eqn:E; [|discriminate].
    destruct (lad l c') as [[d' s'']|] eqn:E'; [|discriminate]. injection H as -> <-.
    apply (lad_charge w) in E'; auto. apply IH in E; auto. rewrite E', E. unfold pcharge. cbn [map zsum fold_right]. unfold zsum. lia.
Qed.
Lemma opelem_charge n (w : Z -> Z) (op : op_t F) t s : wf_op n op -> conserves w op -> opelem op t s <> c0 -> charge w t = charge w s.
Proof.
  intros [Hn Hw] Hc H.
  assert (G : Exists (fun ph => pelem (fst ph) t s <> 0) op).
  { clear Hn Hw Hc. unfold opelem in H. induction op as [|[p v] op IH].
    - elim H. reflexivity.
    - destruct (Z.eq_dec (pelem p t s) 0) as [E|E].
      + right. apply IH. intros C. apply H. cbn [csum fst snd]. rewrite C, E. change (@cofZ F 0) with (@c0 F). ring.
      + left. exact E. }
  apply Exists_exists in G as ([p v] & Hi & Hp). cbn [fst] in Hp. unfold pelem in Hp.
  destruct (proc_act p s) as [[t' sg]|] eqn:E; [|congruence]. destruct (list_eqb t t') eqn:Et; [|congruence].
  destruct (list_eqb_spec t t') as [<-|]; [|discriminate].
  apply (proc_charge w) in E.
  - rewrite (Hc p) in E; [lia|]. apply (in_map fst) in Hi. exact Hi.
  - rewrite Forall_forall in Hw. specialize (Hw _ Hi). cbn [fst] in Hw. eapply Forall_impl; [|exact Hw]. intros l [Hl _]. lia.
Qed.
Lemma pcharge_idx nb w p : wf_nbaths nb -> Forall (fun xa => coord_ok nb (fst xa)) p -> pcharge (at_index nb w) (pidx nb p) = pcharge w p.
Proof.
  intros W H. unfold pcharge, pidx. rewrite map_map. f_equal. apply map_ext_in. intros [x a] Hi. cbn [fst snd].
  rewrite Forall_forall in H. unfold at_index. rewrite i2c_index; auto. apply (H _ Hi).
Qed.
Lemma idx_conserves nb w op : wf_nbaths nb -> op_in nb op -> conserves w op -> conserves (at_index nb w) (idx_op nb op).
Proof.
  intros W Hin Hc q Hq. rewrite idx_keys in Hq. apply in_map_iff in Hq as (p & <- & Hp).
  rewrite pcharge_idx; auto. eapply op_in_keys; eauto.
Qed.
Lemma applyOp_charge n (w : Z -> Z) (op : op_t F) psi psi' : wf_op n op -> conserves w op -> valid_psi n psi ->
  is_op n op psi psi' -> forall q, (forall s, length s = n -> amp psi s <> c0 -> charge w s = q) ->
  forall t, length t = n -> amp psi' t <> c0 -> charge w t = q.
Proof.
  intros Hw Hc Hv [_ Ha] q Hq t Ht Hne. rewrite Ha in Hne by auto. unfold op_vec in Hne.
  assert (G : Exists (fun s => (opelem op t s * amp psi s)%C <> c0) (allcfg n)).
  { revert Hne. generalize (allcfg n). intros L. induction L as [|s L IH]; intros H.
    - elim H. reflexivity.
    - destruct (ceqb_spec (opelem op t s * amp psi s)%C c0) as [E|E].
      + right. apply IH. intros C. apply H. cbn [csum]. rewrite C, E. ring.
      + left. exact E. }
  apply Exists_exists in G as (s & Hs & H). apply allcfg_In in Hs.
  rewrite (opelem_charge n w op t s); auto.
  - apply Hq; auto. intros C. apply H. rewrite C. ring.
  - intros C. apply H. rewrite C. ring.
Qed.
End A.
