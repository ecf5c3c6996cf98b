(* The plot scripts on the files of a complete run *)
From Coq Require Import Lia List Bool Permutation Field Ring String.
From Verif Require Import M_Prelude M_Scalar M_PSR M_Ladder M_State M_Mpi M_Hamiltonian M_Lanczos M_Basis M_Average M_Expect M_Operators M_Spectra M_Simulate M_RIXS M_Main M_Program M_Plot
  S_Fock S_Ham S_Ops S_Green S_Thermal S_Program S_Plot
  L_PSR L_Ladder L_Scalar L_Dict L_Sum L_Fock L_State L_Ham L_Average L_Green L_Green2 L_Green3 L_Green4 L_Spectra L_Spectra2 L_Spectra3 L_Spectra6 L_RIXS L_Main2 L_Length L_Program L_Program2 L_Program7 L_Program9.
Import ListNotations.
Local Open Scope string_scope.

Section Data.
Context {F : ofield}.
Add Field Ffp : (f_field F).
Local Open Scope of_scope.

(* ---- sums ---- *)
Lemma total_at_ftotal idx (f : nat -> F) : total_at idx f = ftotal (map f idx).
Proof.
  unfold total_at. assert (G : forall s, fold_left (fun s i => s + f i) idx s = s + ftotal (map f idx)).
  { induction idx as [|i idx IH]; intros s; simpl; [ring|]. rewrite IH. ring. }
  rewrite G. ring.
Qed.
Lemma total_ftotal n (f : nat -> F) : total n f = ftotal (map f (seq 0 n)).
Proof. apply total_at_ftotal. Qed.
Lemma ftotal_ext {A} (f g : A -> F) l : (forall x, In x l -> f x = g x) -> ftotal (map f l) = ftotal (map g l).
Proof. intros H. f_equal. apply map_ext_in. exact H. Qed.
Lemma ftotal_plus {A} (f g : A -> F) l : ftotal (map (fun x => f x + g x) l) = ftotal (map f l) + ftotal (map g l).
Proof. induction l as [|x l IH]; simpl; [ring|]. rewrite IH. ring. Qed.
Lemma ftotal_zero {A} (l : list A) : ftotal (map (fun _ => (0 : F)) l) = 0.
Proof. induction l as [|x l IH]; simpl; [ring|]. rewrite IH. ring. Qed.
Lemma ftotal_swap {A B} (f : A -> B -> F) l l' : ftotal (map (fun a => ftotal (map (f a) l')) l) = ftotal (map (fun b => ftotal (map (fun a => f a b) l)) l').
Proof. induction l as [|a l IH]; simpl; [now rewrite ftotal_zero|]. rewrite IH, ftotal_plus. reflexivity. Qed.
Lemma list_eq_nth (l : list F) n f : length l = n -> (forall k, (k < n)%nat -> nth k l 0 = f k) -> l = map f (seq 0 n).
Proof.
  intros Hl H. apply (nth_ext _ _ 0 (f 0%nat)); [now rewrite map_length, seq_length|]. rewrite Hl. intros k Hk. rewrite H by auto. rewrite map_nth, seq_nth by auto. reflexivity.
Qed.

(* ---- the files of one kind of spectrum ---- *)
Variable fexp f32 : F -> F.
Variable k_B : F.
Lemma report_data es T name mesh nT (gs : garr F) outs : (forall i t, length (gs i t) = length mesh) -> report fexp k_B es T name mesh nT gs = Ok outs ->
  exists shape obs data, outs = [H5 name shape obs; H5 (name ++ "thermal") [nT; length mesh] data;
     Text (name ++ ".dat") (mesh :: map (fun j => total nT (fun i => el2 (length mesh) data i j)) (seq 0 (length mesh)) :: map (fun i => map (el2 (length mesh) data i) (seq 0 (length mesh))) (seq 0 nT))].
Proof.
  intros Hl. unfold report. cbv zeta. destruct (thermal_average _ _ _ _ _) as [a|] eqn:Ea; [|discriminate]. cbn [bind]. unfold columns. rewrite Ea. cbn [bind]. intros E. injection E as <-.
  assert (La : length a = (nT * length mesh)%nat) by (eapply avg_len; [|exact Ea]; apply neg_imag_len; auto).
  eexists _, _, _. do 2 f_equal. f_equal.
  assert (Hr : forall t, (t < nT)%nat -> arow (length mesh) a t = map (el2 (length mesh) (map re a) t) (seq 0 (length mesh))).
  { intros t Ht. apply list_eq_nth; [apply (arow_len _ _ _ nT); auto|]. intros k Hk. rewrite (arow_nth _ _ _ _ nT) by auto. unfold el2. change (0 : F) with (re (@c0 F)). now rewrite map_nth. }
  assert (HR : map (arow (length mesh) a) (seq 0 nT) = map (fun i => map (el2 (length mesh) (map re a) i) (seq 0 (length mesh))) (seq 0 nT)).
  { apply map_ext_in. intros t Ht. apply in_seq in Ht. apply Hr. lia. }
  rewrite HR. f_equal. f_equal. f_equal.
  set (rows := map _ (seq 0 nT)). destruct (sum0_nth (length mesh) rows) as [A B].
  { apply Forall_forall. intros r Hr'. apply in_map_iff in Hr' as (t & <- & _). now rewrite map_length, seq_length. }
  apply list_eq_nth; [exact A|]. intros k Hk. rewrite B, total_ftotal. unfold rows. rewrite map_map. apply ftotal_ext. intros t _.
  rewrite (nth_indep _ 0 (el2 (length mesh) (map re a) t 0)) by (rewrite map_length, seq_length; auto). rewrite map_nth, seq_nth by auto. reflexivity.
Qed.
Lemma enum_table (f : nat -> list F) wLoss : map (fun jw => f32 (snd jw) :: f (fst jw)) (enumerate wLoss) = map (fun l => f32 (nth l wLoss 0) :: f l) (seq 0 (length wLoss)).
Proof.
  unfold enumerate. assert (G : forall s (l : list F) pre, wLoss = (pre ++ l)%list -> length pre = s -> map (fun jw => f32 (snd jw) :: f (fst jw)) (combine (seq s (length l)) l) = map (fun k => f32 (nth k wLoss 0) :: f k) (seq s (length l))).
  { intros s l. revert s. induction l as [|x l IH]; intros s pre E Hs; [reflexivity|]. cbn [length seq combine map fst snd]. f_equal.
    - f_equal. f_equal. rewrite E, app_nth2 by lia. now rewrite <- Hs, Nat.sub_diag.
    - apply (IH (S s) (pre ++ [x])%list); [rewrite <- app_assoc; exact E|]. rewrite app_length. simpl. lia. }
  exact (G 0%nat wLoss [] eq_refl eq_refl).
Qed.
Lemma report_rixs_data es T ms nIn nOut (gs : garr4 F) outs : (forall a b c d, (c < nOut)%nat -> length (gs a b c d) = length (m_wLoss ms)) ->
  report_RIXS fexp f32 k_B es T ms nIn nOut gs = Ok outs ->
  exists shape obs data, let c := length (m_wIn ms) in let n := length (m_wLoss ms) in
    outs = [H5 "RIXS" shape obs; H5 "RIXSthermal" [nIn; nOut; c; n] data;
            Bin "RIXS.bin" (rixs_table f32 (m_wIn ms) (m_wLoss ms) (fun l k => total nIn (fun i => total nOut (fun j => el4 nOut c n data i j k l))))].
Proof.
  intros Hl. unfold report_RIXS. cbv zeta. destruct (thermal_average _ _ _ _ _) as [a|] eqn:Ea; [|discriminate]. cbn [bind].
  set (nw := length (m_wIn ms)) in *. set (m := length (m_wLoss ms)) in *.
  assert (La : length a = (nIn * nOut * nw * m)%nat) by (eapply avg_len; [|exact Ea]; apply neg4_len; auto).
  destruct (write_rixs _ _ _ _) as [d|] eqn:Ew; [|discriminate]. cbn [bind]. intros E. injection E as <-. eexists _, _, (map re a). do 2 f_equal. f_equal. f_equal.
  set (aSum := sum_axis01 (nIn * nOut) nw m a) in *. set (I := fun l k => total nIn (fun i => total nOut (fun j => el4 nOut nw m (map re a) i j k l))).
  assert (HS : aSum = map (fun k => map (fun l => I l k) (seq 0 m)) (seq 0 nw)).
  { unfold aSum, sum_axis01. apply map_ext_in. intros k Hk. apply in_seq in Hk. set (rows := map _ _).
    assert (HN : forall t, (t < nIn * nOut)%nat -> (t * nw + k < nIn * nOut * nw)%nat) by (generalize (nIn * nOut)%nat; intros; nia).
    destruct (sum0_nth m rows) as [A B].
    { apply Forall_forall. intros r Hr. apply in_map_iff in Hr as (t & <- & Ht). apply in_seq in Ht. apply (arow_len _ _ _ (nIn * nOut * nw)%nat); auto. apply HN. lia. }
    apply list_eq_nth; [exact A|]. intros l Hlt. rewrite B. unfold rows. rewrite map_map, ftotal_grid. unfold I. rewrite total_ftotal. apply ftotal_ext. intros i Hi. apply in_seq in Hi.
    rewrite total_ftotal. apply ftotal_ext. intros j Hj. apply in_seq in Hj. rewrite (arow_nth _ _ _ _ (nIn * nOut * nw)%nat); auto; [|apply HN; nia].
    unfold el4. change (0 : F) with (re (@c0 F)). now rewrite map_nth. }
  rewrite write_eq in Ew.
  2:{ rewrite HS. now rewrite map_length, seq_length. }
  2:{ rewrite HS. apply Forall_forall. intros r Hr. apply in_map_iff in Hr as (k & <- & _). now rewrite map_length, seq_length. }
  injection Ew as <-. unfold rixs_table. fold nw m. rewrite (enum_table (fun j => map f32 (column aSum j))). fold m. cbn [concat app]. f_equal. f_equal. f_equal.
  apply map_ext_in. intros l Hlt. apply in_seq in Hlt. f_equal. rewrite HS. unfold column. rewrite !map_map. apply map_ext. intros k.
  f_equal. rewrite (nth_indep _ 0 (I 0%nat k)) by (rewrite map_length, seq_length; lia). rewrite (map_nth (fun l => I l k)), seq_nth by lia. reflexivity.
Qed.
End Data.

(* ---- a complete run ---- *)
Section Run.
Context {F : ofield}.
Local Open Scope of_scope.
Lemma stage_complete (outs : list (res (list (output F)))) next : outs <> [] -> nth_error (snd (stage outs next)) 0 = Some (Ok tt) ->
  exists f rest, outs = Ok f :: rest /\ fst (stage outs next) = (f ++ fst next)%list /\ nth_error (snd next) 0 = Some (Ok tt).
Proof.
  intros Hne. unfold stage. destruct outs as [|[f|e] rest]; [congruence| |discriminate].
  destruct (forallb is_ok (Ok f :: rest)) eqn:E; cbn [fst snd]; [|discriminate]. intros H. exists f, rest. auto.
Qed.
Lemma last_complete (outs : list (res (list (output F)))) : nth_error (snd (last_stage outs)) 0 = Some (Ok tt) -> exists f rest, outs = Ok f :: rest /\ fst (last_stage outs) = f.
Proof. unfold last_stage. destruct outs as [|[f|e] rest]; cbn; [discriminate| |discriminate]. intros _. exists f, rest. auto. Qed.

Variables fsqrt fexp arccos fsin f32 : F -> F.
Variables k_B pi : F.
Variable gaunt : Z -> Z -> Z -> Z -> Z -> Z -> F.
Variable spherical_jn : Z -> F -> F.
Variable sph_harm : Z -> Z -> F -> F -> cx F.
Variable bicgstab : list (vec F) -> vec F -> vec F.
Variable eigh : nat -> M_Hamiltonian.mat F -> res (list F * list (list (cx F))).
Variable eigsh : nat -> M_Hamiltonian.mat F -> Z -> res (list F * list (list (cx F))).
Variable argsort : list F -> list nat.
Variable fuel : nat.
Variable ord : nat -> nat -> nat -> nat -> set_order.
Variable ranks : nat.
Hypothesis Hranks : (1 <= ranks)%nat.
Variable ms : @meshes F.
Let c := length (m_wIn ms).
Let n := length (m_wLoss ms).
Let nw := length (m_w ms).
Let nIn := length (m_epsilonsRIXSin ms).
Let nOut := length (m_epsilonsRIXSout ms).
Definition spectrum_out (name : string) (mesh : list F) (nT : nat) (os : list (output F)) (data : list F) : Prop :=
  exists shape obs, os = [H5 name shape obs; H5 (name ++ "thermal") [nT; length mesh] data;
     Text (name ++ ".dat") (mesh :: map (fun j => total nT (fun i => el2 (length mesh) data i j)) (seq 0 (length mesh)) :: map (fun i => map (el2 (length mesh) data i) (seq 0 (length mesh))) (seq 0 nT))].
Definition rixs_out (os : list (output F)) (data : list F) : Prop :=
  exists shape obs, os = [H5 "RIXS" shape obs; H5 "RIXSthermal" [nIn; nOut; c; n] data;
            Bin "RIXS.bin" (rixs_table f32 (m_wIn ms) (m_wLoss ms) (fun l k => total nIn (fun i => total nOut (fun j => el4 nOut c n data i j k l))))].
Section Spectra.
Variables (nBaths : zdict) (rs : restrictions_t) (hOp : op_t F).
Variables (es : list F) (psis : list (psi_t F)) (T delta deltaNIXS deltaRIXS : F).
Variables (li lj : Z) (radial : list (F * (cx F * cx F))).
Hypothesis Hd : 0 < delta.
Hypothesis HdN : 0 < deltaNIXS.
Hypothesis HdR : 0 < deltaRIXS.
Lemma nz x : 0 < x -> x <> 0 :> F.
Proof. apply fpos_neq. Qed.
Notation call k tOps w d := (getSpectra_call fsqrt fuel ord ranks nBaths rs hOp es psis k tOps w d).
Lemma call_shape k tOps w d gs : 0 < d -> In (Ok gs) (call k tOps w d) -> forall i t, length (gs i t) = length w.
Proof. intros H0 Hin. unfold getSpectra_call in Hin. eapply hb_shape; [|exact Hin]. apply fpos_neq; auto. Qed.
Lemma call_shape_neg k tOps w d gs : 0 < d -> In (Ok gs) (call k tOps (map fopp w) (- d)) -> forall i t, length (gneg gs i t) = length w.
Proof. intros H0 Hin i t. unfold getSpectra_call in Hin. unfold gneg. rewrite map_length. rewrite <- (map_length fopp w). eapply hb_shape; [|exact Hin]. apply fpos_opp; auto. Qed.

Lemma with_ops_Ok {A} (ops : res A) (f : A -> list (res (list (output F)))) o rest : with_ops ranks ops f = Ok o :: rest -> exists x, ops = Ok x /\ f x = Ok o :: rest.
Proof. unfold with_ops. destruct ops as [x|e]; [intros H; exists x; auto|]. destruct ranks; cbn; discriminate. Qed.
Lemma in_first {A} (l : list A) x rest : l = x :: rest -> In x l. Proof. intros ->. left. auto. Qed.
Lemma map_first {A B} (f : A -> B) l y rest : map f l = y :: rest -> exists x, In x l /\ f x = y.
Proof. destruct l as [|x l]; [discriminate|]. intros H. injection H as H _. exists x. split; [left; auto|auto]. Qed.

Lemma PS_first f rest : part_PS fsqrt fexp k_B fuel ord ranks nBaths rs hOp es psis T delta ms = Ok f :: rest -> exists data, spectrum_out "PS" (m_w ms) 10 f data.
Proof.
  unfold part_PS. intros H. apply with_ops_Ok in H as ([ips ps] & Eo & H). apply map_first in H as ([rI rP] & Hin & H). cbn [fst snd] in *.
  destruct rI as [gI|]; [|discriminate]. cbn [bind] in H. destruct rP as [gP|]; [|discriminate]. cbn [bind] in H.
  pose proof (call_shape _ _ _ _ _ Hd (in_combine_l _ _ _ _ Hin)) as A1. pose proof (call_shape_neg _ _ _ _ _ Hd (in_combine_r _ _ _ _ Hin)) as B1.
  assert (Lp : length ps = 10%nat).
  { destruct (getInversePhotoEmissionOperators _ _) as [i0|]; [|discriminate]. cbn [bind] in Eo. destruct (getPhotoEmissionOperators _ _) as [p0|] eqn:Ep; [|discriminate].
    cbn [bind] in Eo. injection Eo as <- <-. apply map_res_len in Ep. rewrite Ep. reflexivity. }
  rewrite Lp in H. apply report_data in H as (shape & obs & data & ->); [exists data, shape, obs; reflexivity|].
  intros i t. unfold gplus. rewrite map_length, combine_length, A1, B1. apply Nat.min_id.
Qed.
Lemma XPS_first f rest : part_XPS fsqrt fexp k_B fuel ord ranks nBaths rs hOp es psis T delta ms = Ok f :: rest -> exists data, spectrum_out "XPS" (m_w ms) 6 f data.
Proof.
  unfold part_XPS. intros H. apply with_ops_Ok in H as (ps & Ep & H). apply map_first in H as ([g|] & Hin & H); [|discriminate]. cbn [bind] in H.
  apply map_res_len in Ep. rewrite Ep in H. apply report_data in H as (shape & obs & data & ->); [exists data, shape, obs; reflexivity|].
  exact (call_shape_neg _ _ _ _ _ Hd Hin).
Qed.
Lemma NIXS_first f rest : part_NIXS fsqrt fexp arccos fsin k_B pi gaunt spherical_jn sph_harm fuel ord ranks nBaths rs hOp es psis T deltaNIXS ms li lj radial = Ok f :: rest ->
  exists data, spectrum_out "NIXS" (m_wLoss ms) (length (m_qsNIXS ms)) f data.
Proof.
  unfold part_NIXS. intros H. apply with_ops_Ok in H as (ps & Ep & H). apply map_first in H as ([g|] & Hin & H); [|discriminate]. cbn [bind] in H.
  apply map_res_len in Ep. rewrite Ep in H. apply report_data in H as (shape & obs & data & ->); [exists data, shape, obs; reflexivity|].
  exact (call_shape _ _ _ _ _ HdN Hin).
Qed.
Lemma XAS_first f rest : part_XAS fsqrt fexp k_B pi gaunt fuel ord ranks nBaths rs hOp es psis T delta ms = Ok f :: rest -> exists data, spectrum_out "XAS" (m_w ms) (length (m_epsilons ms)) f data.
Proof.
  unfold part_XAS. intros H. apply with_ops_Ok in H as (ps & Ep & H). apply map_first in H as ([g|] & Hin & H); [|discriminate]. cbn [bind] in H.
  apply map_res_len in Ep. rewrite Ep in H. apply report_data in H as (shape & obs & data & ->); [exists data, shape, obs; reflexivity|].
  exact (call_shape _ _ _ _ _ Hd Hin).
Qed.
Lemma RIXS_first f rest : part_RIXS fsqrt fexp f32 k_B pi gaunt bicgstab fuel ord ranks nBaths rs hOp es psis T delta deltaRIXS ms = Ok f :: rest -> exists data, rixs_out f data.
Proof.
  unfold part_RIXS. intros H. apply with_ops_Ok in H as ([tI tO] & Ep & H). apply map_first in H as ([g|] & Hin & H); [|discriminate]. cbn [bind fst snd] in *.
  assert (LI : length tI = nIn /\ length tO = nOut).
  { unfold getDaggeredDipoleOperators in Ep. destruct (getDipoleOperators _ _ _ _ (m_epsilonsRIXSin ms)) as [x|] eqn:E1; [|discriminate]. cbn [bind] in Ep.
    destruct (map_res _ _) as [y|] eqn:E2; [|discriminate]. cbn [bind] in Ep. injection Ep as <- <-. apply map_res_len in E1, E2. auto. }
  destruct LI as [LI LO]. apply report_rixs_data in H as (shape & obs & data & ->).
  - exists data, shape, obs. rewrite LI, LO. reflexivity.
  - eapply win_shape; [|right; reflexivity|exact Hin]. apply fpos_neq; auto.
Qed.
Lemma simulate_complete oc : oc = simulate_spectra fsqrt fexp arccos fsin f32 k_B pi gaunt spherical_jn sph_harm bicgstab fuel ord ranks nBaths rs hOp es psis T delta deltaNIXS deltaRIXS ms li lj radial ->
  nth_error (snd oc) 0 = Some (Ok tt) -> exists f1 f2 f3 f4 f5 d1 d2 d3 d4 d5, fst oc = (f1 ++ f2 ++ f3 ++ f4 ++ f5)%list /\
    spectrum_out "PS" (m_w ms) 10 f1 d1 /\ spectrum_out "XPS" (m_w ms) 6 f2 d2 /\ spectrum_out "NIXS" (m_wLoss ms) (length (m_qsNIXS ms)) f3 d3 /\
    spectrum_out "XAS" (m_w ms) (length (m_epsilons ms)) f4 d4 /\ rixs_out f5 d5.
Proof.
  intros -> H. unfold simulate_spectra in *.
  assert (L1 : part_PS fsqrt fexp k_B fuel ord ranks nBaths rs hOp es psis T delta ms <> []).
  { apply (nonempty ranks Hranks). unfold part_PS. apply with_ops_len. intros [ips ps]. rewrite map_length, combine_length, !call_len. apply Nat.min_id. }
  assert (L2 : part_XPS fsqrt fexp k_B fuel ord ranks nBaths rs hOp es psis T delta ms <> []).
  { apply (nonempty ranks Hranks). unfold part_XPS. apply with_ops_len. intros ps. rewrite map_length. apply call_len. }
  assert (L3 : part_NIXS fsqrt fexp arccos fsin k_B pi gaunt spherical_jn sph_harm fuel ord ranks nBaths rs hOp es psis T deltaNIXS ms li lj radial <> []).
  { apply (nonempty ranks Hranks). unfold part_NIXS. apply with_ops_len. intros ps. rewrite map_length. apply call_len. }
  assert (L4 : part_XAS fsqrt fexp k_B pi gaunt fuel ord ranks nBaths rs hOp es psis T delta ms <> []).
  { apply (nonempty ranks Hranks). unfold part_XAS. apply with_ops_len. intros ps. rewrite map_length. apply call_len. }
  apply stage_complete in H as (f1 & r1 & E1 & -> & H); [|exact L1]. apply stage_complete in H as (f2 & r2 & E2 & -> & H); [|exact L2].
  apply stage_complete in H as (f3 & r3 & E3 & -> & H); [|exact L3]. apply stage_complete in H as (f4 & r4 & E4 & -> & H); [|exact L4].
  apply last_complete in H as (f5 & r5 & E5 & ->).
  apply PS_first in E1 as (d1 & E1). apply XPS_first in E2 as (d2 & E2). apply NIXS_first in E3 as (d3 & E3). apply XAS_first in E4 as (d4 & E4). apply RIXS_first in E5 as (d5 & E5).
  exists f1, f2, f3, f4, f5, d1, d2, d3, d4, d5. repeat (split; [auto|]). auto.
Qed.
End Spectra.
Lemma outputs_complete (l : list (res (output F))) os : outputs l = (os, Ok tt) -> l = map Ok os.
Proof.
  revert os. induction l as [|[o|e] l IH]; intros os; cbn [outputs]; [intros E; injection E as <-; reflexivity| |discriminate].
  destruct (outputs l) as [os' r]. intros E. injection E as <- ->. cbn [map]. f_equal. now apply IH.
Qed.
Lemma ok_tt (r : res unit) : is_ok r = true -> r = Ok tt.
Proof. destruct r as [[]|]; [auto|discriminate]. Qed.
(* the outputs of a complete run *)
Lemma main_complete hamiltonian (a : @args F) radial oc : oc = main fsqrt fexp arccos fsin f32 k_B pi gaunt spherical_jn sph_harm bicgstab eigh eigsh argsort fuel ord ranks hamiltonian ms a radial ->
  0 < a_delta a -> 0 < a_deltaNIXS a -> 0 < a_deltaRIXS a -> nth_error (snd oc) 0 = Some (Ok tt) ->
  exists l1 l2 l3 l4 es f1 f2 f3 f4 f5 d1 d2 d3 d4 d5,
    fst oc = ([ PThermal l1; PExpValues l2; PWeights l3; PDensity l4; H5 "E" [length es] es; H5 "w" [nw] (m_w ms); H5 "wIn" [c] (m_wIn ms); H5 "wLoss" [n] (m_wLoss ms);
               H5 "qsNIXS" [length (m_qsNIXS ms); 3%nat] (flat_map (fun q => let '(q0, q1, q2) := q in [q0; q1; q2]) (m_qsNIXS ms));
               H5 "r" [length (map fst radial)] (map fst radial); H5 "RiNIXS" [length (map snd radial)] (map snd radial); H5 "RjNIXS" [length (map snd radial)] (map snd radial) ]
              ++ f1 ++ f2 ++ f3 ++ f4 ++ f5)%list /\
    spectrum_out "PS" (m_w ms) 10 f1 d1 /\ spectrum_out "XPS" (m_w ms) 6 f2 d2 /\ spectrum_out "NIXS" (m_wLoss ms) (length (m_qsNIXS ms)) f3 d3 /\
    spectrum_out "XAS" (m_w ms) (length (m_epsilons ms)) f4 d4 /\ rixs_out f5 d5.
Proof.
  intros -> Hd HdN HdR. unfold main. destruct (main_setup hamiltonian a) as [su|e]; [|cbn [snd]; destruct ranks; discriminate]. cbv zeta.
  destruct (eigensystem _ _ _ _ _ _ _ _ _ _) as [|[[es psis]|e] others]; [discriminate| |discriminate].
  destruct (forallb is_ok others); [|discriminate].
  destruct (rank0_prints _ _ _ _ _ _ _ _ _ _) as [printed r0] eqn:Er.
  destruct (forallb is_ok (r0 :: _)) eqn:E0; [|destruct r0; discriminate]. cbn [forallb] in E0. apply andb_prop in E0 as [E0 _]. apply ok_tt in E0. subst r0.
  destruct (low_energy _ _ _) as [[es' psis']|e]; [|cbn [snd]; destruct ranks; discriminate].
  destruct (simulate_spectra _ _ _ _ _ _ _ _ _ _ _ _ _ _ _ _ _ _ _ _ _ _ _ _ _ _ _) as [files ends] eqn:Es. cbn [fst snd]. intros H.
  destruct (simulate_complete _ _ _ _ _ _ _ _ _ _ _ _ Hd HdN HdR _ (eq_sym Es) H) as (f1 & f2 & f3 & f4 & f5 & d1 & d2 & d3 & d4 & d5 & Ef & HF). cbn [fst] in Ef.
  unfold rank0_prints in Er. apply outputs_complete in Er.
  destruct printed as [|o1 [|o2 [|o3 [|o4 rest]]]]; try discriminate. cbn [map] in Er. injection Er as E1 E2 E3 E4 Er.
  destruct (printThermalExpValues _ _ _ _ _ _ _ _) as [l1|]; [|discriminate]. destruct (printExpValues _ _ _ _) as [l2|]; [|discriminate].
  destruct (print_weights _ _ _) as [l3|]; [|discriminate]. destruct (print_density _ _ _ _) as [l4|]; [|discriminate]. cbn [rmap bind] in E1, E2, E3, E4.
  injection E1 as <-. injection E2 as <-. injection E3 as <-. injection E4 as <-.
  do 8 (destruct rest as [|?o rest]; [discriminate|]). destruct rest; [|discriminate]. unfold H5_1d in Er. cbn [map] in Er. injection Er as <- <- <- <- <- <- <- <-.
  exists l1, l2, l3, l4, es, f1, f2, f3, f4, f5, d1, d2, d3, d4, d5. split; [rewrite Ef; reflexivity|exact HF].
Qed.
End Run.
