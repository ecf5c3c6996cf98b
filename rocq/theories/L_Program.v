(* The program: shapes of the arrays of Green's functions, format of the written spectra *)
From Coq Require Import Lia List Bool Permutation Field Ring String.
From Verif Require Import M_Prelude M_Scalar M_PSR M_Ladder M_State M_Mpi M_Hamiltonian M_Lanczos M_Basis M_Average M_Expect M_Operators M_Spectra M_Simulate M_RIXS M_Main M_Program
  S_Fock S_Ham S_Ops S_Green S_Thermal S_Program
  L_PSR L_Ladder L_Scalar L_Dict L_Sum L_Fock L_State L_Average L_Green L_Green2 L_Green3 L_Green4 L_Spectra L_Spectra2 L_Spectra3 L_Spectra6 L_RIXS L_Main2.
Import ListNotations.

Section Shape.
Context {F : ofield}.
Add Field Ff : (f_field F).
Variable fsqrt : F -> F.
Variables (fuel : nat) (n : Z) (op : op_t F) (w : list F) (delta : F) (rs : option restrictions_t) (ks : Z) (swm : F).
Hypothesis Hd : delta <> 0%F.
Definition row_ok (m : nat) (v : vec F) : Prop := length v = m.
Lemma vmul_len c (v : vec F) : length (vmul c v) = length v.
Proof. unfold vmul. apply map_length. Qed.
Lemma hb_shape ord psis es tOps R gs : In (Ok gs) (getSpectra fsqrt fuel n op w delta rs ks swm ord R tOps psis es SHBuild) ->
  forall i t, length (gs i t) = length w.
Proof.
  unfold getSpectra. destruct (hb_run _ _ _ _ _ _ _ _ _ _ _ _ _ _) as [st|l] eqn:E.
  2:{ intros Hi. apply in_map_iff in Hi as (x & Ex & _). discriminate. }
  intros Hi. apply in_map_iff in Hi as (g & Eg & Hi). injection Eg as ->.
  set (I := fun st : @hb_state F => Forall (fun gs => forall i t, length (gs i t) = length w) (hb_gs st)).
  assert (H : I st).
  { unfold hb_run in E. apply (fold_run_inv2 _ I) in E; auto.
    - intros s [t tOp] s' Hs _ Es. apply (fold_run_inv2 _ I) in Es; auto. intros s1 i s2 H1 _ E1.
      unfold hb_entry in E1. cbv zeta in E1. destruct (all_ranks _ _) as [[[[tb e] psiN] nrm]|]; [|discriminate]. cbn [rbind] in E1.
      set (out := getGreen _ _ _ _ _ _ _ _ _ _ _ _ _ _ _) in E1. destruct (together (map snd out)) as [gl|] eqn:Et; [|discriminate]. cbn [rbind] in E1. injection E1 as <-.
      unfold I. cbn [hb_gs]. apply Forall_forall. intros gs' Hgs. apply in_map_iff in Hgs as ([g0 v] & <- & Hv). cbn [fst snd]. intros i' t'. unfold gset. destruct (_ && _).
      + rewrite vmul_len. apply in_combine_r in Hv. apply together_run in Et. apply (in_map Ok) in Hv. rewrite <- Et in Hv. apply in_map_iff in Hv as ([h' r] & Er & Hv). cbn [snd] in Er. subst r.
        eapply (green_bounds_ok fsqrt); [exact Hd|]. unfold out in Hv. exact Hv.
      + apply in_combine_l in Hv. unfold I in H1. rewrite Forall_forall in H1. apply H1; auto.
    - unfold I. cbn [hb_gs]. apply Forall_forall. intros g Hg. apply repeat_spec in Hg. subst g. intros i t. apply repeat_length. }
  unfold I in H. rewrite Forall_forall in H. auto.
Qed.

Variable bicgstab : list (vec F) -> vec F -> vec F.
Variables (wIns : list F) (delta1 : F) (tOpsIn tOpsOut : list (op_t F)) (psis : list (psi_t F)) (es : list F).
Let nOut := length tOpsOut.
Definition shape4 (gs : garr4 F) : Prop := forall a b c d, (c < nOut)%nat -> length (gs a b c d) = length w.
Lemma win_outs_len ord e psi2 l (st st' : list (cache_t F) * hdict_t F * list (vec F)) : Forall (fun v => length v = length w) (snd st) ->
  fold_res (win_out fsqrt fuel n op w delta rs ks swm tOpsOut ord e psi2) l st = Ok st' ->
  length (snd st') = (length (snd st) + length l)%nat /\ Forall (fun v => length v = length w) (snd st').
Proof.
  revert st. induction l as [|to l IH]; intros [[heap hg] rows] H E; cbn [fold_res] in E; [injection E as <-; cbn [snd]; split; [cbn [length]; lia|exact H]|].
  destruct (win_out _ _ _ _ _ _ _ _ _ _ _ _ _ _ _) as [st1|] eqn:E1; [|discriminate]. cbn [bind] in E. unfold win_out in E1.
  destruct (out_state _ _ _ _ _ _ _ _ _) as [[[h1 p3] m]|] eqn:Eo; [|discriminate]. cbn [bind] in E1.
  destruct (getGreen _ _ _ _ _ _ _ _ _ _ _ _ _ _ _) as [|[h2 r] [|]] eqn:Eg; try discriminate. destruct r as [g|]; [|discriminate]. cbn [bind] in E1. injection E1 as <-.
  apply IH in E as [E1 E2].
  - cbn [snd] in *. rewrite app_length in E1. split; [simpl in *; lia|auto].
  - cbn [snd] in *. apply Forall_app. split; [auto|]. constructor; [|constructor]. rewrite vmul_len.
    eapply (green_bounds_ok fsqrt); [exact Hd|]. rewrite Eg. left. reflexivity.
Qed.
Definition rows_ok (iv : nat * list (vec F)) : Prop := length (snd iv) = nOut /\ Forall (fun v => length v = length w) (snd iv).
Lemma enum_len {A} (l : list A) : length (enumerate l) = length l.
Proof. unfold enumerate. rewrite combine_length, seq_length. lia. Qed.
Lemma win_shape pm ord hg gs : (pm = RwIn \/ pm = RHBuildwIn) ->
  In (Ok gs) (getRIXSmap fsqrt bicgstab fuel n op wIns w delta1 delta rs ks swm tOpsIn tOpsOut psis es ord hg pm) -> shape4 gs.
Proof.
  intros Hpm Hin.
  assert (Gw : forall pm, In (Ok gs) (match win_run fsqrt bicgstab fuel n op wIns w delta1 delta rs ks swm tOpsIn tOpsOut psis es pm ord hg with Run st => map Ok (wi_gs st) | Stop l => map Err l end) -> shape4 gs).
  { intros pm' Hi. destruct (win_run _ _ _ _ _ _ _ _ _ _ _ _ _ _ _ _ pm' ord hg) as [st|l] eqn:E.
    2:{ apply in_map_iff in Hi as (x & Ex & _). discriminate. }
    apply in_map_iff in Hi as (g & Eg & Hi). injection Eg as ->.
    set (I := fun st : @win_state F => Forall shape4 (wi_gs st)). assert (H : I st); [|unfold I in H; rewrite Forall_forall in H; auto].
    clear gs Hin Hi. unfold win_run in E. apply (fold_run_inv2 _ I) in E; auto.
    2:{ unfold I. cbn [wi_gs]. apply Forall_forall. intros x Hx. apply in_map_iff in Hx as (h & <- & _). intros a b c d _. apply repeat_length. }
    intros s [t tOp] s' Hs _ Es. apply (fold_run_inv2 _ I) in Es; auto. intros s1 iE s2 H1 _ E1. cbn [fst snd] in E1. unfold win_step in E1. cbv zeta in E1.
    destruct (all_ranks _ _) as [[[tb e] psi1]|]; [|discriminate]. cbn [rbind] in E1.
    set (ebh := expand_basis_and_hamiltonian _ _ _ _ _ _ _ _ _) in E1. set (l0 := map _ (enumerate _)) in E1.
    destruct (together l0) as [l|] eqn:Et; [|discriminate]. cbn [rbind] in E1. injection E1 as <-. unfold I. cbn [wi_gs].
    apply together_run in Et.
    assert (Hl : Forall rows_ok (concat (map snd l))).
    { apply Forall_forall. intros iv Hiv. apply in_concat in Hiv as (g & Hg & Hiv). apply in_map_iff in Hg as (o & <- & Ho).
      apply (in_map Ok) in Ho. rewrite <- Et in Ho. apply in_map_iff in Ho as ([r [ob rk0]] & Eo & Hi). cbn [fst snd] in Eo.
      destruct (snd ob) as [[h idx]|]; [|discriminate]. cbn [bind] in Eo. destruct (psi_vec idx psi1); [|discriminate]. cbn [bind] in Eo.
      unfold win_rank in Eo. destruct (get_job_tasks _ _ _) as [jobs|]; [|discriminate]. cbn [bind] in Eo.
      apply (fold_res_inv _ (fun st : list (cache_t F) * hdict_t F * dict nat (list (vec F)) => Forall rows_ok (snd st))) in Eo.
      - rewrite Forall_forall in Eo. auto.
      - intros [[hp hg1] g] iw s3 Hs3 Ee. unfold win_energy in Ee. destruct (nth_res wIns iw); [|discriminate]. cbn [bind] in Ee.
        destruct (psi2_at _ _ _ _ _) as [psi2|]; [|discriminate]. cbn [bind] in Ee.
        match type of Ee with context [fold_res ?f ?l ?s] => destruct (fold_res f l s) as [[[h1 hg2] r1]|] eqn:Ef; [|discriminate] end. cbn [bind] in Ee. injection Ee as <-. cbn [snd] in *.
        apply win_outs_len in Ef as [Ef1 Ef2]; [|constructor]. cbn [snd] in Ef1, Ef2. rewrite enum_len in Ef1. simpl in Ef1.
        assert (Hr : rows_ok (iw, r1)) by (split; auto). clear -Hs3 Hr. induction Hs3 as [|[k x] d Hx Hd0 IH]; simpl; [repeat constructor; auto; apply Hr|].
        destruct (Nat.eqb iw k) eqn:Ek; constructor; auto; split; apply Hr.
      - constructor. }
    apply Forall_forall. intros gs' Hgs. apply in_map_iff in Hgs as (gs & <- & Hgs). unfold I in H1. rewrite Forall_forall in H1. specialize (H1 gs Hgs).
    unfold win_collect. rewrite (fold_left_concat (fun gs iv => g4set_rows gs iE t (fst iv) (snd iv))). clear Hgs. revert gs H1. clear -Hl.
    induction Hl as [|[k rows] ll Hx Hll IH]; intros gs H; simpl; auto. apply IH; auto.
    intros a b c d Hc. unfold g4set_rows. destruct (_ && _); [|apply H; auto]. destruct Hx as [Hx1 Hx2]. cbn [snd] in *. rewrite Forall_forall in Hx2. apply Hx2. apply nth_In. lia. }
  unfold getRIXSmap in Hin. destruct Hpm as [->| ->]; eapply Gw; eauto.
Qed.
End Shape.

(* ---- thermal averages of non-negative real arrays ---- *)
Section Avg.
Context {F : ofield}.
Add Field Ff2 : (f_field F).
Variable fexp : F -> F.
Hypothesis HE : exp_laws fexp.
Variable k_B : F.
Local Open Scope of_scope.
Definition real_pos (x : cx F) : Prop := im x = 0 /\ intensity (re x).
Lemma avg_len energies obs T r m : (forall o, In o obs -> length o = m) -> thermal_average fexp k_B energies obs T = Ok r -> length r = m.
Proof.
  intros Hm. unfold thermal_average. rewrite (shape_ok obs m Hm). cbn [bind]. destruct (negb _) eqn:En; [discriminate|].
  destruct (np_min energies) as [sh|] eqn:Em; [|discriminate]. cbn [bind]. intros E. injection E as <-. rewrite map_length.
  apply Bool.negb_false_iff, Nat.eqb_eq in En. destruct energies as [|e0 en]; [discriminate|]. destruct obs as [|o0 ob]; [discriminate|].
  destruct (avg_fold (fun e => fexp (- (e - sh) / (k_B * T))) m (combine (e0 :: en) (o0 :: ob))) with (z := 0 : F) (acc := repeat (@c0 F) (length (hd [] (o0 :: ob)))) as (v & Ev & Hv & _).
  - intros [e o] Hi. apply in_combine_r in Hi. auto.
  - rewrite repeat_length. apply Hm. left. reflexivity.
  - rewrite Ev. auto.
Qed.
Lemma avg_im energies obs T r : Forall (Forall (fun x => im x = 0)) obs -> thermal_average fexp k_B energies obs T = Ok r -> Forall (fun x => im x = 0) r.
Proof.
  intros Ho. unfold thermal_average. destruct (np_shape0 obs) as [m|]; [|discriminate]. cbn [bind]. destruct (negb _); [discriminate|].
  destruct (np_min energies) as [sh|]; [|discriminate]. cbn [bind]. intros E. injection E as <-.
  set (wt := fun eo : F * list (cx F) => fexp (- (fst eo - sh) / (k_B * T))).
  assert (G : forall l z acc, (forall eo, In eo l -> Forall (fun x => im x = 0) (snd eo)) -> Forall (fun x => im x = 0) acc ->
    Forall (fun x => im x = 0) (snd (fold_left (fun st (eo : F * list (cx F)) => (fst st + wt eo, vadd (snd st) (vscale (wt eo) (snd eo)))) l (z, acc)))).
  { induction l as [|eo l IH]; intros z acc Hl Ha; cbn [fold_left]; auto. cbn [fst snd]. apply IH; [intros; apply Hl; right; auto|].
    specialize (Hl eo (or_introl eq_refl)). clear -Ha Hl. unfold vadd, vscale. revert Hl. generalize (snd eo) as y.
    induction Ha as [|a acc Ha0 Ha IH]; intros [|b y] Hy; simpl; constructor; inversion Hy; subst; auto. simpl. rewrite Ha0, H1. ring. }
  apply Forall_forall. intros x Hx. apply in_map_iff in Hx as (y & <- & Hy).
  assert (G1 : Forall (fun x => im x = 0) (snd (fold_left (fun st (eo : F * list (cx F)) => (fst st + wt eo, vadd (snd st) (vscale (wt eo) (snd eo)))) (combine energies obs) (0, repeat c0 (length (hd [] obs)))))).
  { apply G.
    - intros [e o] Hi. apply in_combine_r in Hi. rewrite Forall_forall in Ho. auto.
    - apply Forall_forall. intros z Hz. apply repeat_spec in Hz. subst z. reflexivity. }
  rewrite Forall_forall in G1. assert (Hy0 : im y = 0) by (apply G1; exact Hy).
  unfold cdiv, cinv, creal, cmul. cbn [re im]. rewrite Hy0, !(Fdiv_def (f_field F)). ring.
Qed.
Lemma avg_real_pos energies obs T r : Forall (Forall real_pos) obs -> thermal_average fexp k_B energies obs T = Ok r -> Forall real_pos r.
Proof.
  intros Ho E. assert (H1 : Forall (fun x => im x = 0) r) by (eapply avg_im; [|exact E]; eapply Forall_impl; [|exact Ho]; intros o; apply Forall_impl; intros x [Hx _]; exact Hx).
  assert (H2 : Forall (fun x => 0 <= re x) r) by (eapply (avg_nonneg fexp HE); [|exact E]; eapply Forall_impl; [|exact Ho]; intros o; apply Forall_impl; intros x [_ Hx]; exact Hx).
  rewrite Forall_forall in *. intros x Hx. split; [apply H1|apply H2]; auto.
Qed.
Definition downward (v : vec F) : Prop := Forall (fun x => im x <= 0) v.
Lemma flat_len {A B} (f : A -> list B) m l : (forall a, In a l -> length (f a) = m) -> length (flat_map f l) = (length l * m)%nat.
Proof. induction l as [|a l IH]; intros H; simpl; auto. rewrite app_length, (H a (or_introl eq_refl)), IH; auto. intros; apply H; right; auto. Qed.
Lemma neg_imag_pos nE nT (gs : garr F) : (forall i t, downward (gs i t)) -> Forall (Forall real_pos) (neg_imag nE nT gs).
Proof.
  intros Hs. unfold neg_imag. apply Forall_forall. intros v Hv. apply in_map_iff in Hv as (i & <- & _). apply Forall_forall. intros x Hx.
  apply in_flat_map in Hx as (t & _ & Hx). apply in_map_iff in Hx as (y & <- & Hy). split; [reflexivity|]. simpl. apply fopp_nonneg.
  specialize (Hs i t). unfold downward in Hs. rewrite Forall_forall in Hs. auto.
Qed.
Lemma neg_imag_len nE nT m (gs : garr F) : (forall i t, length (gs i t) = m) -> forall o, In o (neg_imag nE nT gs) -> length o = (nT * m)%nat.
Proof.
  intros Hs o Ho. apply in_map_iff in Ho as (i & <- & _). rewrite (flat_len _ m); [now rewrite seq_length|]. intros t _. now rewrite map_length.
Qed.
Lemma arow_len nw (a : list (cx F)) t k : length a = (k * nw)%nat -> (t < k)%nat -> length (arow nw a t) = nw.
Proof. intros La Ht. unfold arow. rewrite map_length, firstn_length, skipn_length, La. nia. Qed.
Lemma arow_pos nw (a : list (cx F)) t : Forall real_pos a -> Forall intensity (arow nw a t).
Proof.
  intros Ha. unfold arow. apply Forall_forall. intros x Hx. apply in_map_iff in Hx as (y & <- & Hy).
  apply (skipn_Forall _ (t * nw)) in Ha. apply (firstn_Forall _ nw) in Ha. rewrite Forall_forall in Ha. apply Ha. auto.
Qed.
Lemma radd_nth (x y : list F) k : length x = length y -> nth k (radd x y) 0 = nth k x 0 + nth k y 0.
Proof. revert y k. induction x as [|a x IH]; intros [|b y] [|k] E; simpl in *; try discriminate; try ring. apply IH. lia. Qed.
Lemma radd_len (x y : list F) : length x = length y -> length (radd x y) = length x.
Proof. intros E. unfold radd. rewrite map_length, combine_length. lia. Qed.
Lemma sum0_spec nw (rows : list (list F)) : Forall (fun r => length r = nw /\ Forall intensity r) rows ->
  let s := sum_axis0 nw rows in length s = nw /\ Forall intensity s /\ forall k, nth k s 0 = ftotal (map (fun c => nth k c 0) rows).
Proof.
  intros H. cbv zeta. unfold sum_axis0.
  assert (G : forall acc : list F, length acc = nw -> Forall intensity acc -> let s := fold_left radd rows acc in
    length s = nw /\ Forall intensity s /\ forall k, nth k s 0 = nth k acc 0 + ftotal (map (fun c => nth k c 0) rows)).
  { induction H as [|r rows [Hr1 Hr2] Hrs IH]; intros acc Ha Hp; cbv zeta; cbn [fold_left map ftotal]; [split; [auto|]; split; [auto|]; intros; ring|].
    destruct (IH (radd acc r)) as (A & B & C); [rewrite radd_len; lia| |].
    - clear -Hp Hr2. unfold radd. revert r Hr2. induction Hp as [|x acc Hx Ha IH]; intros [|y row] H1; simpl; constructor; inversion H1; subst; auto.
      simpl. apply fadd_nonneg; auto.
    - split; [auto|]. split; [auto|]. intros k. rewrite C, radd_nth by lia. ring. }
  destruct (G (repeat 0 nw)) as (A & B & C); [apply repeat_length| |].
  - apply Forall_forall. intros x Hx. apply repeat_spec in Hx. subst x. apply fle_refl.
  - split; [auto|]. split; [auto|]. intros k. rewrite C. rewrite nth_repeat. ring.
Qed.
Lemma columns_file mesh es T nT (gs : garr F) cols : (forall i t, length (gs i t) = length mesh) -> (forall i t, downward (gs i t)) ->
  columns fexp k_B mesh es T nT gs = Ok cols -> spectrum_file mesh nT cols.
Proof.
  intros Hl Hs. unfold columns. destruct (thermal_average _ _ _ _ _) as [a|] eqn:Ea; [|discriminate]. cbn [bind]. intros E. injection E as <-.
  assert (La : length a = (nT * length mesh)%nat) by (eapply avg_len; [|exact Ea]; apply neg_imag_len; auto).
  apply avg_real_pos in Ea; [|apply neg_imag_pos; auto].
  set (rows := map (arow (length mesh) a) (seq 0 nT)).
  assert (Hrows : Forall (fun r => length r = length mesh /\ Forall intensity r) rows).
  { apply Forall_forall. intros r Hr. apply in_map_iff in Hr as (t & <- & Ht). apply in_seq in Ht. split; [apply (arow_len _ _ _ nT); auto; lia|apply arow_pos; auto]. }
  destruct (sum0_spec (length mesh) rows Hrows) as (A & B & C). exists (sum_axis0 (length mesh) rows), rows.
  split; [reflexivity|]. split; [unfold rows; now rewrite map_length, seq_length|]. split; [constructor; auto|auto].
Qed.
(* an array of intensities *)
Definition array_of (shape : list nat) (data : list F) : Prop := length data = fold_right Nat.mul 1%nat shape /\ Forall intensity data.
Lemma re_pos (l : list (cx F)) : Forall real_pos l -> Forall intensity (map re l).
Proof. intros H. rewrite Forall_map. eapply Forall_impl; [|exact H]. intros x [_ Hx]. exact Hx. Qed.
Lemma obs_array (obs : list (list (cx F))) k shape : (forall o, In o obs -> length o = fold_right Nat.mul 1%nat shape) -> length obs = k -> Forall (Forall real_pos) obs ->
  array_of (k :: shape) (map re (concat obs)).
Proof.
  intros Hl Hk Hp. split.
  - rewrite map_length. cbn [fold_right]. rewrite <- Hk. clear Hk Hp. induction obs as [|o obs IH]; [reflexivity|]. cbn [concat length]. rewrite app_length, (Hl o) by (left; auto).
    rewrite IH by (intros o' Ho'; apply Hl; right; auto). reflexivity.
  - apply re_pos. clear Hl Hk. induction Hp; [constructor|]. cbn [concat]. apply Forall_app; auto.
Qed.
Lemma avg_array a shape : length a = fold_right Nat.mul 1%nat shape -> Forall real_pos a -> array_of shape (map re a).
Proof. intros H1 H2. split; [now rewrite map_length|now apply re_pos]. Qed.
Lemma report_ok es T name mesh nT (gs : garr F) outs : (forall i t, length (gs i t) = length mesh) -> (forall i t, downward (gs i t)) ->
  report fexp k_B es T name mesh nT gs = Ok outs -> exists obs a cols,
    outs = [H5 name [length es; nT; length mesh] obs; H5 (name ++ "thermal")%string [nT; length mesh] a; Text (name ++ ".dat")%string cols] /\
    array_of [length es; nT; length mesh] obs /\ array_of [nT; length mesh] a /\ spectrum_file mesh nT cols.
Proof.
  intros Hl Hs. unfold report. cbv zeta. destruct (thermal_average _ _ _ _ _) as [a|] eqn:Ea; [|discriminate]. cbn [bind].
  destruct (columns _ _ _ _ _ _ _) as [cols|] eqn:Ec; [|discriminate]. cbn [bind]. intros E. injection E as <-.
  assert (HL : forall o, In o (neg_imag (length es) nT gs) -> length o = fold_right Nat.mul 1%nat [nT; length mesh]).
  { intros o Ho. rewrite (neg_imag_len (length es) nT (length mesh) gs Hl o Ho). cbn [fold_right]. lia. }
  eexists _, _, _. split; [reflexivity|]. split; [apply obs_array; [exact HL|unfold neg_imag; now rewrite map_length, seq_length|apply neg_imag_pos; auto]|]. split; [|eapply columns_file; eauto].
  apply avg_array; [eapply avg_len; [exact HL|exact Ea]|]. eapply avg_real_pos; [|exact Ea]. apply neg_imag_pos; auto.
Qed.

(* ---- RIXS.bin ---- *)
Variable f32 : F -> F.
Hypothesis Hf32 : forall x, 0 <= x -> 0 <= f32 x.
Lemma neg4_pos nE nIn nOut nw (gs : garr4 F) : (forall a b c d, downward (gs a b c d)) -> Forall (Forall real_pos) (neg_imag4 nE nIn nOut nw gs).
Proof.
  intros Hs. unfold neg_imag4. apply Forall_forall. intros v Hv. apply in_map_iff in Hv as (i & <- & _). apply Forall_forall. intros x Hx.
  apply in_flat_map in Hx as (tI & _ & Hx). apply in_flat_map in Hx as (tO & _ & Hx). apply in_flat_map in Hx as (iw & _ & Hx).
  apply in_map_iff in Hx as (y & <- & Hy). split; [reflexivity|]. simpl. apply fopp_nonneg.
  specialize (Hs i tI tO iw). unfold downward in Hs. rewrite Forall_forall in Hs. auto.
Qed.
Lemma neg4_len nE nIn nOut nw m (gs : garr4 F) : (forall a b c d, (c < nOut)%nat -> length (gs a b c d) = m) ->
  forall o, In o (neg_imag4 nE nIn nOut nw gs) -> length o = (nIn * nOut * nw * m)%nat.
Proof.
  intros Hs o Ho. apply in_map_iff in Ho as (i & <- & _). rewrite (flat_len _ (nOut * nw * m)); [rewrite seq_length; lia|].
  intros tI _. rewrite (flat_len _ (nw * m)); [rewrite seq_length; lia|]. intros tO HtO. apply in_seq in HtO. rewrite (flat_len _ m); [now rewrite seq_length|].
  intros iw _. rewrite map_length. apply Hs. lia.
Qed.
Lemma sum01_ok nT nw nL (a : list (cx F)) : length a = (nT * nw * nL)%nat -> Forall real_pos a ->
  length (sum_axis01 nT nw nL a) = nw /\ Forall (fun r => length r = nL /\ Forall intensity r) (sum_axis01 nT nw nL a).
Proof.
  intros La Ha. unfold sum_axis01. split; [now rewrite map_length, seq_length|]. apply Forall_forall. intros r Hr. apply in_map_iff in Hr as (iw & <- & Hiw). apply in_seq in Hiw.
  edestruct (sum0_spec nL) as (A & B & _); [|split; [exact A|exact B]]. apply Forall_forall. intros x Hx. apply in_map_iff in Hx as (k & <- & Hk). apply in_seq in Hk.
  split; [|apply arow_pos; auto]. apply (arow_len _ _ _ (nT * nw)%nat); auto. nia.
Qed.
Lemma combine_map_r {A B C} (f : A -> C) (g : nat -> B) (l : list A) s : map (fun jw => (f (snd jw), g (fst jw))) (combine (seq s (length l)) l) = map (fun xr => (f (fst xr), snd xr)) (combine l (map g (seq s (length l)))).
Proof. revert s. induction l as [|a l IH]; intros s; simpl; auto. now rewrite IH. Qed.
Lemma write_file wIn wLoss aSum data : length aSum = length wIn -> Forall (fun r => length r = length wLoss /\ Forall intensity r) aSum ->
  write_rixs f32 wIn wLoss aSum = Ok data -> rixs_file f32 wIn wLoss data.
Proof.
  intros La Hr E. assert (Hl : Forall (fun r => length r = length wLoss) aSum) by (eapply Forall_impl; [|exact Hr]; intros r [H _]; exact H).
  rewrite (write_eq f32 wIn wLoss aSum La Hl) in E. injection E as <-.
  exists (map (fun j => map f32 (column aSum j)) (seq 0 (length wLoss))). split; [now rewrite map_length, seq_length|]. split.
  - apply Forall_forall. intros r Hi. apply in_map_iff in Hi as (j & <- & Hj). split; [unfold column; now rewrite !map_length|].
    apply Forall_forall. intros x Hx. apply in_map_iff in Hx as (y & <- & Hy). apply Hf32. unfold column in Hy. apply in_map_iff in Hy as (row & <- & Hrow).
    rewrite Forall_forall in Hr. destruct (Hr row Hrow) as [L P]. apply in_seq in Hj. rewrite Forall_forall in P. apply P. apply nth_In. lia.
  - apply (f_equal (fun l => concat ((f32 (fofZ (Z.of_nat (length wIn))) :: map f32 wIn) :: l))). unfold enumerate. generalize 0%nat as s. clear. induction wLoss as [|x l IH]; intros s; simpl; auto. now rewrite IH.
Qed.
Lemma report_rixs_ok ms es T nIn nOut (gs : garr4 F) outs : (forall a b c d, (c < nOut)%nat -> length (gs a b c d) = length (m_wLoss ms)) -> (forall a b c d, downward (gs a b c d)) ->
  report_RIXS fexp f32 k_B es T ms nIn nOut gs = Ok outs -> exists obs a data,
    outs = [H5 "RIXS" [length es; nIn; nOut; length (m_wIn ms); length (m_wLoss ms)] obs; H5 "RIXSthermal" [nIn; nOut; length (m_wIn ms); length (m_wLoss ms)] a; Bin "RIXS.bin" data] /\
    array_of [length es; nIn; nOut; length (m_wIn ms); length (m_wLoss ms)] obs /\ array_of [nIn; nOut; length (m_wIn ms); length (m_wLoss ms)] a /\ rixs_file f32 (m_wIn ms) (m_wLoss ms) data.
Proof.
  intros Hl Hs. unfold report_RIXS. cbv zeta. destruct (thermal_average _ _ _ _ _) as [a|] eqn:Ea; [|discriminate]. cbn [bind].
  destruct (write_rixs _ _ _ _) as [data|] eqn:Ew; [|discriminate]. cbn [bind]. intros E. injection E as <-.
  assert (La : length a = (nIn * nOut * length (m_wIn ms) * length (m_wLoss ms))%nat) by (eapply avg_len; [|exact Ea]; apply neg4_len; auto).
  apply avg_real_pos in Ea; [|apply neg4_pos; auto].
  eexists _, _, _. split; [reflexivity|]. split; [|split].
  { apply obs_array; [|unfold neg_imag4; now rewrite map_length, seq_length|apply neg4_pos; auto]. intros o Ho. rewrite (neg4_len _ _ _ _ (length (m_wLoss ms)) gs Hl o Ho). cbn [fold_right]. lia. }
  { apply avg_array; [|exact Ea]. rewrite La. cbn [fold_right]. lia. }
  destruct (sum01_ok _ _ _ a La Ea) as [A B]. eapply write_file; eauto.
Qed.
End Avg.
