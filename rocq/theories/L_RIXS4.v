(* getRIXSmap: the theorems on the map *)
From Coq Require Import Lia List Bool Permutation Field Ring.
From Verif Require Import M_Prelude M_Scalar M_PSR M_Ladder M_State M_Mpi M_Hamiltonian M_Lanczos M_Spectra M_RIXS S_Fock S_Ham S_Ops S_Green S_Moments S_Spectra S_RIXS S_Spectrum S_RIXS2
  L_PSR L_Ladder L_Scalar L_Dict L_Sum L_Fock L_State L_ApplyOp L_Ops L_FockP L_Ham L_Expand L_ExpandP L_FromH L_HamP L_Vec L_Lanczos2 L_Green L_Green2 L_Green3 L_Green4 L_Spectra L_Spectra2 L_Spectra3 L_Moments2 L_RIXS L_RIXS2 L_RIXS3.
Import ListNotations.
Local Open Scope cx_scope.

Section LRIXS4.
Context {F : ofield}.
Add Field Ff : (f_field F).
Add Ring Cring : (@c_ring F).
Add Field Cf : (@c_field F).

(* ---- uniqueness of the Kramers-Heisenberg value ---- *)
Lemma kh_unique n op rs (h : config -> config -> cx F) tIn tOut psi z1 z2 g g' : wf_op n op -> assert_hermitian op = Ok tt -> restricted_op n op rs h -> im z1 <> 0%F ->
  kramers_heisenberg n rs h tIn tOut psi z1 z2 g -> kramers_heisenberg n rs h tIn tOut psi z1 z2 g' -> g = g'.
Proof.
  intros Hw HH HR Hz (p1 & p2 & p3 & A1 & A2 & A3 & A4) (q1 & q2 & q3 & B1 & B2 & B3 & B4).
  assert (E1 : forall t, length t = n -> amp p1 t = amp q1 t) by (apply (op_image_ext n tIn rs psi psi); auto).
  assert (E2 : forall t, length t = n -> amp p2 t = amp q2 t).
  { assert (HD : fock_solves n z1 h (fun t => amp p2 t - amp q2 t) []).
    { intros t Lt. change (amp [] t) with (@c0 F).
      rewrite (csum_ext _ (fun s => h t s * amp p2 s - h t s * amp q2 s)) by (intros; ring). rewrite csum_sub.
      pose proof (A2 t Lt) as X1. pose proof (B2 t Lt) as X2. rewrite E1 in X1 by auto.
      transitivity ((z1 * amp p2 t - csum (fun s => h t s * amp p2 s) (allcfg n)) - (z1 * amp q2 t - csum (fun s => h t s * amp q2 s) (allcfg n))); [ring|].
      rewrite X1, X2. ring. }
    assert (HZ : fock_solves n z1 h (fun _ => c0) []).
    { intros t Lt. rewrite csum_zero by (intros; ring). change (amp [] t) with (@c0 F). ring. }
    intros t Lt. pose proof (fock_unique n op rs Hw HH [] (fun c _ (H : In (key c) []) => match H with end) h HR z1 Hz _ _ HD HZ t Lt) as E. cbv beta in E.
    transitivity ((amp p2 t - amp q2 t) + amp q2 t); [ring|]. rewrite E. ring. }
  assert (E3 : forall t, length t = n -> amp p3 t = amp q3 t) by (apply (op_image_ext n tOut rs p2 q2); auto).
  destruct A4 as (x & Hx & <- & Hu), B4 as (y & Hy & <- & _).
  apply csum_ext. intros t Ht. apply allcfg_In in Ht. rewrite <- E3 by auto. rewrite (Hu y); auto. intros s Ls. rewrite E3 by auto. apply Hy; auto.
Qed.

Variable fsqrt : F -> F.
Variable bicgstab : list (vec F) -> vec F -> vec F.

(* ---- the ranks in modes wIn and H_build_wIn ---- *)
Section Same.
Variable fuel : nat.
Variables (n : Z) (hOp : op_t F) (wIns wLoss : list F) (delta1 delta2 : F) (rs : option restrictions_t) (ks : Z) (swm : F).
Variables (tOpsIn tOpsOut : list (op_t F)) (psis : list (psi_t F)) (es : list F).
Lemma map_repeat {A B} (f : A -> B) a k : map f (repeat a k) = repeat (f a) k.
Proof. induction k; simpl; congruence. Qed.
Lemma map_const {A B} (b : B) (l : list A) : map (fun _ => b) l = repeat b (length l).
Proof. induction l; simpl; congruence. Qed.
Lemma win_gs_same R pm ord hg st : length hg = R ->
  win_run fsqrt bicgstab fuel n hOp wIns wLoss delta1 delta2 rs ks swm tOpsIn tOpsOut psis es pm ord hg = Run st ->
  exists gs, wi_gs st = repeat gs R.
Proof.
  intros HR. unfold win_run. apply (fold_run_inv2 _ (fun st => exists gs, wi_gs st = repeat gs R)).
  - intros s [t tOp] s' Hs _. cbn [fst snd]. apply (fold_run_inv2 _ (fun st => exists gs, wi_gs st = repeat gs R)); [|exact Hs].
    intros s1 iE s2 (gs & Hgs) _ E. unfold win_step in E. cbv zeta in E. destruct (all_ranks _ _) as [[[tb e] psi1]|]; [|discriminate]. cbn [rbind] in E.
    destruct (together _) as [l|]; [|discriminate]. cbn [rbind] in E. injection E as <-. cbn [wi_gs]. rewrite Hgs, map_repeat. eauto.
  - cbn [wi_gs]. rewrite map_const, HR. eauto.
Qed.
Lemma win_same ord hg pm : pm = RwIn \/ pm = RHBuildwIn ->
  let out := getRIXSmap fsqrt bicgstab fuel n hOp wIns wLoss delta1 delta2 rs ks swm tOpsIn tOpsOut psis es ord hg pm in
  (exists gs, out = repeat (Ok gs) (length hg)) \/ Forall (fun x => is_ok x = false) out.
Proof.
  intros Hpm out. unfold out, getRIXSmap. clear out.
  assert (G : forall p, let o := match win_run fsqrt bicgstab fuel n hOp wIns wLoss delta1 delta2 rs ks swm tOpsIn tOpsOut psis es p ord hg with Run st => map Ok (wi_gs st) | Stop l => map Err l end in
     (exists gs, o = repeat (Ok gs) (length hg)) \/ Forall (fun x => is_ok x = false) o).
  { intros p. cbv zeta. destruct (win_run _ _ _ _ _ _ _ _ _ _ _ _ _ _ _ _ p ord hg) as [st|l] eqn:E.
    - left. apply win_gs_same with (R := length hg) in E as (gs & ->); auto. exists gs. apply map_repeat.
    - right. apply Forall_forall. intros x Hx. apply in_map_iff in Hx as (y & <- & _). reflexivity. }
  destruct Hpm as [->| ->]; apply G.
Qed.
(* the incoming energies of the ranks *)
Lemma win_rank_keys ord e sys r R rk out : (r < R)%nat ->
  win_rank fsqrt bicgstab fuel n hOp wIns wLoss delta1 delta2 rs ks swm tOpsOut ord e sys r R rk = Ok out -> dkeys (snd out) = jobs_of (length wIns) R r.
Proof.
  intros HR E. unfold win_rank in E. rewrite get_job_tasks_eq in E by auto. cbn [bind] in E. fold (jobs_of (length wIns) R r) in E.
  assert (Hnd : NoDup (jobs_of (length wIns) R r)).
  { pose proof (jobs_nodup (repeat tt (length wIns)) r R) as H. rewrite repeat_length in H. apply H. auto. }
  assert (G : forall l st, NoDup (dkeys (snd st) ++ l) ->
    fold_res (win_energy fsqrt bicgstab fuel n hOp wIns wLoss delta1 delta2 rs ks swm tOpsOut ord e sys) l st = Ok out ->
    dkeys (snd out) = dkeys (snd st) ++ l).
  { clear E Hnd. induction l as [|iw l IH]; intros [[hp hg] g] Hn E; cbn [fold_res] in E; [injection E as <-; rewrite app_nil_r; auto|].
    unfold win_energy in E at 1. destruct (nth_res wIns iw); [|discriminate]. cbn [bind] in E. destruct (psi2_at _ _ _ _ _); [|discriminate]. cbn [bind] in E.
    destruct (fold_res _ (enumerate tOpsOut) _) as [[[hp' hg'] rows]|]; [|discriminate]. cbn [bind] in E. cbn [snd] in *.
    assert (Hni : ~ In iw (dkeys g)) by (apply NoDup_remove_2 in Hn; rewrite in_app_iff in Hn; tauto).
    apply IH in E; cbn [snd] in *; rewrite dkeys_dset_notin in * by auto; rewrite <- app_assoc in *; auto. }
  apply G in E; auto.
Qed.
Lemma win_blocks ord e sys rks outs : rks <> [] ->
  map (fun rr => win_rank fsqrt bicgstab fuel n hOp wIns wLoss delta1 delta2 rs ks swm tOpsOut ord e sys (fst rr) (length rks) (snd rr)) (enumerate rks) = map Ok outs ->
  Permutation (flat_map (fun o => dkeys (snd o)) outs) (seq 0 (length wIns)).
Proof.
  intros Hne E. set (R := length rks) in *. assert (HR : (1 <= R)%nat) by (unfold R; destruct rks; [congruence|simpl; lia]).
  assert (G : forall l s outs, (s + length l <= R)%nat -> map (fun rr => win_rank fsqrt bicgstab fuel n hOp wIns wLoss delta1 delta2 rs ks swm tOpsOut ord e sys (fst rr) R (snd rr)) (combine (seq s (length l)) l) = map Ok outs ->
     flat_map (fun o => dkeys (snd o)) outs = flat_map (jobs_of (length wIns) R) (seq s (length l))).
  { clear E Hne outs. induction l as [|rk l IH]; intros s outs Hs E; destruct outs as [|o outs]; try discriminate; auto.
    cbn [length seq combine map fst snd flat_map] in *. injection E as E1 E2. apply win_rank_keys in E1; [|lia]. rewrite E1. f_equal. apply IH; auto. lia. }
  rewrite (G rks 0%nat outs) by (auto; fold R; lia). fold R. apply (job_tasks_partition (seq 0 (length wIns)) R HR).
Qed.
End Same.

(* ---- exactness ---- *)
Section Top.
Variable n : nat.
Variable hOp : op_t F.
Variable rs : option restrictions_t.
Variable h : config -> config -> cx F.
Variable fuel : nat.
Variables (wIns wLoss : list F) (delta1 delta2 : F).
Variable ks : Z.
Variable swm : F.
Variables (tOpsIn : list (op_t F)) (psis : list (psi_t F)) (es : list F).
Variable op0 : op_t F.
Hypothesis HS : sqrt_laws fsqrt.
Hypothesis HB : exact_solver bicgstab.
Hypothesis Hin : spectra_input n hOp rs (op0 :: tOpsIn) psis.
Hypothesis Hherm : assert_hermitian hOp = Ok tt.
Hypothesis Hop : restricted_op n hOp rs h.
Hypothesis Hf : (2 ^ n < fuel)%nat.
Hypothesis Hd1 : delta1 <> 0%F.
Hypothesis Hd2 : delta2 <> 0%F.
Lemma rixs_cut ops (ord : nat -> nat -> nat -> set_order) hg pm r gs : (forall t i q l, Permutation (ord t i q l) l) ->
  Forall (hdict_exact n hOp rs) hg -> hg <> [] ->
  pm <> ROther -> (pm = RHBuild -> r = 0%nat /\ NoDup (flat_map dkeys hg)) ->
  nth_error (getRIXSmap fsqrt bicgstab fuel (Z.of_nat n) hOp wIns wLoss delta1 delta2 rs ks swm tOpsIn (op0 :: ops) psis es ord hg pm) r = Some (Ok gs) ->
  forall tIn iE tOpIn psi e iw wIn tOut, nth_error tOpsIn tIn = Some tOpIn -> nth_error psis iE = Some psi -> nth_error es iE = Some e -> nth_error wIns iw = Some wIn ->
    (tOut < S (length ops))%nat -> rixs_row n hOp rs h wLoss delta1 delta2 ks swm tOpIn op0 psi e wIn (gs iE tIn tOut iw).
Proof.
  intros Ho Hhg Hne Hother Hr0 E. destruct Hin as (Hw & Hr & Hts & Hps). pose proof (Forall_inv Hts) as Hop0. pose proof (Forall_inv_tail Hts) as HtIn.
  rewrite (getRIXSmap_same fsqrt bicgstab fuel (Z.of_nat n) hOp wIns wLoss delta1 delta2 rs ks swm tOpsIn psis es op0 ops (repeat op0 (length ops))) in E by (rewrite repeat_length; auto).
  change (op0 :: repeat op0 (length ops)) with (repeat op0 (S (length ops))) in E. set (M := S (length ops)) in *.
  assert (G : gs_ok n hOp rs h wIns wLoss delta1 delta2 ks swm tOpsIn psis es op0 M (fun _ _ => True) gs).
  { unfold getRIXSmap in E. destruct pm; try congruence.
    - rewrite nth_error_map in E. match type of E with option_map _ ?y = _ => destruct y as [[i x]|] eqn:Ei end; cbn [option_map] in E; [|discriminate E]. cbn [option_map fst snd] in E.
      assert (Hx : In x hg) by (apply nth_error_In in Ei; apply in_combine_r in Ei; auto).
      match type of E with Some (hd _ (match ?y with _ => _ end)) = _ => destruct y as [st|l] eqn:Er end; [|destruct l; discriminate].
      apply (hb4_run_ok fsqrt bicgstab HS HB n hOp rs Hw Hr Hherm h Hop fuel Hf wIns wLoss delta1 delta2 Hd1 Hd2 ks swm tOpsIn psis es HtIn Hps op0 Hop0 M Serial) in Er;
        [|left; auto|intros t q Hc; discriminate Hc|intros Hc; discriminate Hc|split; [apply Forall_cons; [|apply Forall_nil]; rewrite Forall_forall in Hhg; apply Hhg; exact Hx|intros Hc; discriminate Hc]].
      destruct Er as (g0 & rest & E1 & G). rewrite E1 in E. cbn [map hd] in E. injection E as <-. exact G.
    - destruct (Hr0 eq_refl) as [-> Hnd]. match type of E with nth_error (match ?y with _ => _ end) _ = _ => destruct y as [st|l] eqn:Er end; [|destruct l; discriminate].
      apply (hb4_run_ok fsqrt bicgstab HS HB n hOp rs Hw Hr Hherm h Hop fuel Hf wIns wLoss delta1 delta2 Hd1 Hd2 ks swm tOpsIn psis es HtIn Hps op0 Hop0 M HBuild) in Er;
        [|right; auto|intros t q Hc; apply Ho|exact Hne|split; auto].
      destruct Er as (g0 & rest & E1 & G). rewrite E1 in E. cbn [map nth_error] in E. injection E as <-. exact G.
    - match type of E with nth_error (match ?y with _ => _ end) _ = _ => destruct y as [st|l] eqn:Er end; [|rewrite nth_error_map in E; destruct (nth_error l r); discriminate].
      apply (win_run_ok fsqrt bicgstab HS HB n hOp rs Hw Hr Hherm h Hop fuel Hf wIns wLoss delta1 delta2 Hd1 Hd2 ks swm tOpsIn psis es HtIn Hps op0 Hop0 M Serial) in Er;
        [|left; auto|intros t q Hc; discriminate Hc|exact Hne|exact Hhg].
      destruct Er as (g0 & E1 & G). rewrite E1, map_repeat in E. apply nth_error_In in E. apply repeat_spec in E. injection E as <-. exact G.
    - match type of E with nth_error (match ?y with _ => _ end) _ = _ => destruct y as [st|l] eqn:Er end; [|rewrite nth_error_map in E; destruct (nth_error l r); discriminate].
      apply (win_run_ok fsqrt bicgstab HS HB n hOp rs Hw Hr Hherm h Hop fuel Hf wIns wLoss delta1 delta2 Hd1 Hd2 ks swm tOpsIn psis es HtIn Hps op0 Hop0 M HBuild) in Er;
        [|right; auto|intros t q Hc; apply Ho|exact Hne|exact Hhg].
      destruct Er as (g0 & E1 & G). rewrite E1, map_repeat in E. apply nth_error_In in E. apply repeat_spec in E. injection E as <-. exact G. }
  intros tIn iE tOpIn psi e iw wIn tOut E1 E2 E3 E4 Ht. apply (G tIn iE tOpIn psi e iw wIn tOut I E1 E2 E3 E4 Ht).
Qed.
(* without the removal of small amplitudes *)
Definition krow (tOpIn : op_t F) (psi : psi_t F) (e wIn : F) (v : vec F) : Prop := exists psi1 psi2 psi3,
  op_image n tOpIn rs psi psi1 /\ fock_solves n (mkC (wIn + e)%F delta1) h (amp psi2) psi1 /\ op_image n op0 rs psi2 psi3 /\ valid_psi n psi3 /\
  truncated_green n hOp rs h wLoss delta2 ks e psi3 v.
Hypothesis Hks : (Z.of_nat (2 ^ n) <= ks)%Z.
Hypothesis Hswm : (swm <= 0)%F.
Lemma no_tiny_le0 psi : no_tiny n swm psi.
Proof.
  intros t Lt. right. eapply fle_trans; [|apply cabs2_nonneg]. rewrite ftotal_fsum. set (u := fsum _ _).
  assert (Hu : (0 <= u)%F) by (apply fsum_nonneg; intros; apply cabs2_nonneg).
  replace (swm * u)%F with (u * swm)%F by ring. replace (0%F : F) with (u * 0)%F by ring. apply fmul_le_l; auto.
Qed.
Lemma krow_of_cut tOpIn psi e wIn v : rixs_row n hOp rs h wLoss delta1 delta2 ks swm tOpIn op0 psi e wIn v -> krow tOpIn psi e wIn v.
Proof.
  intros (psi1 & psi2 & psi3 & H1 & H2 & H3 & H4 & H5). exists psi1, psi2, psi3. split; [eapply cut_image_le0; eauto|]. split; [auto|].
  split; [eapply cut_image_le0; eauto|]. split; [auto|]. apply H5, no_tiny_le0.
Qed.
Lemma krow_exact tOpIn psi e wIn v : (Z.of_nat (2 ^ n) <= ks)%Z -> krow tOpIn psi e wIn v -> length v = length wLoss /\
  forall k, (k < length wLoss)%nat -> kramers_heisenberg n rs h tOpIn op0 psi (mkC (wIn + e)%F delta1) (mkC (nth k wLoss 0 + e)%F delta2) (nth k v c0).
Proof.
  intros Hk (psi1 & psi2 & psi3 & H1 & H2 & H3 & Hv & H). destruct (entry_exact_of n hOp rs h wLoss delta2 ks e psi3 v Hv H Hk) as [HL HE].
  split; [auto|]. intros k Hk'. exists psi1, psi2, psi3. auto.
Qed.
Lemma rixs_rows ops (ord : nat -> nat -> nat -> set_order) hg pm r gs : (forall t i q l, Permutation (ord t i q l) l) ->
  Forall (hdict_exact n hOp rs) hg -> hg <> [] ->
  pm <> ROther -> (pm = RHBuild -> r = 0%nat /\ NoDup (flat_map dkeys hg)) ->
  nth_error (getRIXSmap fsqrt bicgstab fuel (Z.of_nat n) hOp wIns wLoss delta1 delta2 rs ks swm tOpsIn (op0 :: ops) psis es ord hg pm) r = Some (Ok gs) ->
  forall tIn iE tOpIn psi e iw wIn tOut, nth_error tOpsIn tIn = Some tOpIn -> nth_error psis iE = Some psi -> nth_error es iE = Some e -> nth_error wIns iw = Some wIn ->
    (tOut < S (length ops))%nat -> krow tOpIn psi e wIn (gs iE tIn tOut iw).
Proof. intros Ho Hhg Hne Hm Hb E tIn iE tOpIn psi e iw wIn tOut E1 E2 E3 E4 Ht. apply krow_of_cut. eapply rixs_cut; eauto. Qed.
Lemma rixs_exact ops (ord : nat -> nat -> nat -> set_order) hg pm r gs : (forall t i q l, Permutation (ord t i q l) l) ->
  Forall (hdict_exact n hOp rs) hg -> hg <> [] ->
  pm <> ROther -> (pm = RHBuild -> r = 0%nat /\ NoDup (flat_map dkeys hg)) ->
  nth_error (getRIXSmap fsqrt bicgstab fuel (Z.of_nat n) hOp wIns wLoss delta1 delta2 rs ks swm tOpsIn (op0 :: ops) psis es ord hg pm) r = Some (Ok gs) ->
  forall tIn iE tOpIn psi e iw wIn tOut, nth_error tOpsIn tIn = Some tOpIn -> nth_error psis iE = Some psi -> nth_error es iE = Some e -> nth_error wIns iw = Some wIn ->
    (tOut < S (length ops))%nat -> length (gs iE tIn tOut iw) = length wLoss /\
    forall k, (k < length wLoss)%nat -> kramers_heisenberg n rs h tOpIn op0 psi (mkC (wIn + e)%F delta1) (mkC (nth k wLoss 0 + e)%F delta2) (nth k (gs iE tIn tOut iw) c0).
Proof.
  intros Ho Hhg Hne Hother Hr0 E tIn iE tOpIn psi e iw wIn tOut E1 E2 E3 E4 Ht. apply krow_exact; [exact Hks|].
  eapply rixs_rows; eauto.
Qed.
(* any two runs with the same first outgoing operator *)
Lemma rixs_independent ops ops' (ord ord' : nat -> nat -> nat -> set_order) hg hg' pm pm' r r' gs gs' :
  (forall t i q l, Permutation (ord t i q l) l) -> (forall t i q l, Permutation (ord' t i q l) l) ->
  Forall (hdict_exact n hOp rs) hg -> hg <> [] -> Forall (hdict_exact n hOp rs) hg' -> hg' <> [] ->
  pm <> ROther -> (pm = RHBuild -> r = 0%nat /\ NoDup (flat_map dkeys hg)) ->
  pm' <> ROther -> (pm' = RHBuild -> r' = 0%nat /\ NoDup (flat_map dkeys hg')) ->
  nth_error (getRIXSmap fsqrt bicgstab fuel (Z.of_nat n) hOp wIns wLoss delta1 delta2 rs ks swm tOpsIn (op0 :: ops) psis es ord hg pm) r = Some (Ok gs) ->
  nth_error (getRIXSmap fsqrt bicgstab fuel (Z.of_nat n) hOp wIns wLoss delta1 delta2 rs ks swm tOpsIn (op0 :: ops') psis es ord' hg' pm') r' = Some (Ok gs') ->
  length psis = length es ->
  forall iE tIn tOut iw, (iE < length psis)%nat -> (tIn < length tOpsIn)%nat -> (tOut < S (length ops))%nat -> (tOut < S (length ops'))%nat -> (iw < length wIns)%nat ->
    gs iE tIn tOut iw = gs' iE tIn tOut iw.
Proof.
  intros Ho Ho' Hhg Hne Hhg' Hne' Hm Hb Hm' Hb' E E' HL iE tIn tOut iw L1 L2 L3 L3' L4.
  destruct (nth_error psis iE) as [psi|] eqn:E1; [|apply nth_error_None in E1; lia]. destruct (nth_error es iE) as [e|] eqn:E2; [|apply nth_error_None in E2; lia].
  destruct (nth_error tOpsIn tIn) as [tOpIn|] eqn:E3; [|apply nth_error_None in E3; lia]. destruct (nth_error wIns iw) as [wIn|] eqn:E4; [|apply nth_error_None in E4; lia].
  destruct (rixs_exact ops ord hg pm r gs Ho Hhg Hne Hm Hb E tIn iE tOpIn psi e iw wIn tOut E3 E1 E2 E4 L3) as [La Ka].
  destruct (rixs_exact ops' ord' hg' pm' r' gs' Ho' Hhg' Hne' Hm' Hb' E' tIn iE tOpIn psi e iw wIn tOut E3 E1 E2 E4 L3') as [Lb Kb].
  apply (nth_ext _ _ c0 c0); [congruence|]. intros k Hk. rewrite La in Hk.
  apply (kh_unique n hOp rs h tOpIn op0 psi (mkC (wIn + e)%F delta1) (mkC (nth k wLoss 0 + e)%F delta2) _ _ (proj1 Hin) Hherm Hop Hd1 (Ka k Hk) (Kb k Hk)).
Qed.
End Top.

(* ---- the state handed to getGreen ---- *)
Lemma norm2_normalised psi psiN nrm : sqrt_laws fsqrt -> psi <> [] -> normalise fsqrt psi = Ok (psiN, nrm) -> norm2 psiN = 1%F /\ length psiN = length psi.
Proof.
  intros HS Hne E. apply normalise_cases in E as (En & -> & [H|H]); [contradiction|]. split; [|apply map_length].
  rewrite En in *. apply scale_unit; auto.
Qed.
Lemma drop_norm swm (psi : psi_t F) : (norm2 (drop_small swm psi) <= norm2 psi)%F /\
  ((0 <= swm)%F -> (norm2 psi <= norm2 (drop_small swm psi) + fofZ (Z.of_nat (length psi)) * swm)%F).
Proof.
  rewrite !norm2_fsum. induction psi as [|[k a] psi [IH1 IH2]]; [split; [apply fle_refl|]; intros; cbn; replace (0 + 0 * swm)%F with (0 : F)%F by ring; apply fle_refl|].
  unfold drop_small in *. cbn [filter length snd]. rewrite Nat2Z.inj_succ. unfold Z.succ. rewrite fofZ_add.
  assert (E1 : (@fofZ F 1 = 1)%F) by reflexivity. rewrite E1.
  destruct (cabs2 a <? swm)%F eqn:Ec; cbn [negb fsum snd]; split.
  - rewrite <- (Radd_0_l (F_R (f_field F)) (fsum _ (filter _ psi))). apply fadd_le; [apply cabs2_nonneg|exact IH1].
  - intros H. specialize (IH2 H). eapply fle_trans; [apply fadd_le; [apply flt_le; exact Ec|exact IH2]|]. set (u := fsum _ _). set (v := fofZ _).
    replace (swm + (u + v * swm))%F with (u + (v + 1) * swm)%F by ring. apply fle_refl.
  - apply fadd_le_l; auto.
  - intros H. specialize (IH2 H). set (u := fsum _ (filter _ _)) in *. set (v := fofZ _) in *.
    replace (cabs2 a + u + (v + 1) * swm)%F with ((cabs2 a + (u + v * swm)) + swm)%F by ring.
    rewrite <- (Radd_0_l (F_R (f_field F)) (cabs2 a + fsum _ psi)%F). rewrite (Radd_comm (F_R (f_field F)) 0%F). apply fadd_le; [|exact H]. apply fadd_le_l; auto.
Qed.
Lemma drop_none swm (psi : psi_t F) : (swm <= 0)%F -> drop_small swm psi = psi.
Proof.
  intros H. unfold drop_small. induction psi as [|[k a] psi IH]; simpl; auto.
  destruct (cabs2 a <? swm)%F eqn:E; simpl; [|f_equal; auto]. exfalso.
  pose proof (cabs2_nonneg a) as H0. pose proof (flt_le_trans _ _ _ E H) as H1. congruence.
Qed.
Lemma out_norm n rs swm tOpsOut heap tOut tOpOut psi2 cache c psi3' heap' psi3 nrm : sqrt_laws fsqrt ->
  hd_error heap = Some cache -> applyOp n tOpOut psi2 swm rs (Some cache) = (c, Ok psi3') -> psi3' <> [] ->
  out_state fsqrt n rs swm tOpsOut heap tOut tOpOut psi2 = Ok (heap', psi3, nrm) ->
  (norm2 psi3 <= 1)%F /\ ((0 <= swm)%F -> (1 <= norm2 psi3 + fofZ (Z.of_nat (length psi3')) * swm)%F) /\ ((swm <= 0)%F -> norm2 psi3 = 1%F).
Proof.
  intros HS Hh EA Hne E. unfold out_state in E. destruct (nth_res (tOut_refs (length tOpsOut)) tOut) as [cell|] eqn:Ec; [|discriminate]. cbn [bind] in E.
  apply refs_nth in Ec. subst cell. destruct heap as [|c0' heap]; [discriminate|]. injection Hh as ->. change (nth_res (cache :: heap) 0) with (Ok cache) in E. cbn [bind] in E.
  rewrite EA in E. cbn [bind] in E. destruct (normalise fsqrt psi3') as [[p m]|] eqn:En; [|discriminate]. cbn [bind] in E. injection E as _ <- _.
  destruct (norm2_normalised _ _ _ HS Hne En) as [N1 L1]. destruct (drop_norm swm p) as [D1 D2]. rewrite N1 in *. rewrite L1 in D2.
  split; [auto|]. split; [auto|]. intros H. rewrite drop_none by auto. auto.
Qed.
End LRIXS4.
