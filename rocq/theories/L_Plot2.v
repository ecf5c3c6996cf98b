(* The figures of the plot scripts *)
From Coq Require Import Lia List Bool Permutation Field Ring String.
From Verif Require Import M_Prelude M_Scalar M_PSR M_Ladder M_State M_Mpi M_Hamiltonian M_Lanczos M_Basis M_Average M_Expect M_Operators M_Spectra M_Simulate M_RIXS M_Main M_Program M_Plot
  S_Fock S_Ham S_Ops S_Thermal S_Main S_Program S_Output S_Plot L_Scalar L_Ham L_Main2 L_Program L_Program2 L_Print L_Plot.
Import ListNotations.
Local Open Scope string_scope.

Section Argmin.
Context {F : ofield}.
Add Field Ffq : (f_field F).
Local Open Scope of_scope.
Lemma fdist_nonneg (x e : F) : 0 <= fdist x e.
Proof.
  unfold fdist. destruct (x <? e) eqn:E.
  - apply flt_le. replace (0 : F) with (x - x : F) by ring. replace (x - x) with (- x + x) by ring. replace (e - x) with (- x + e) by ring. apply fadd_lt_l. exact E.
  - replace (0 : F) with (- e + e : F) by ring. replace (x - e) with (- e + x) by ring. apply fadd_le_l. exact E.
Qed.
Lemma fdist_sq (x e : F) : fdist x e * fdist x e = (x - e) * (x - e).
Proof. unfold fdist. destruct (x <? e); ring. Qed.
Lemma sq_lt (a b : F) : 0 <= a -> a < b -> a * a < b * b.
Proof.
  intros Ha H. assert (Hb : 0 < b) by (eapply fle_lt_trans; eauto). apply (fle_lt_trans _ (a * b)); [apply fmul_le_l; auto; apply flt_le; auto|].
  replace (a * b) with (b * a) by ring. apply fmul_lt_l; auto.
Qed.
Lemma sq_le (a b : F) : 0 <= b -> a <= b -> 0 <= a -> a * a <= b * b.
Proof.
  intros Hb H Ha. apply (fle_trans _ (a * b)); [apply fmul_le_l; auto|]. replace (a * b) with (b * a) by ring. apply fmul_le_l; auto.
Qed.
Lemma argmin_from_spec (l : list F) : forall pre best value, (best < length pre)%nat -> nth best pre 0 = value ->
  (forall j, (j < length pre)%nat -> value <= nth j pre 0) -> (forall j, (j < best)%nat -> value < nth j pre 0) ->
  let i := argmin_from best value (length pre) l in let all := (pre ++ l)%list in
  (i < length all)%nat /\ (forall j, (j < length all)%nat -> nth i all 0 <= nth j all 0) /\ (forall j, (j < i)%nat -> nth i all 0 < nth j all 0).
Proof.
  induction l as [|x l IH]; intros pre best value H1 H2 H3 H4; cbn [argmin_from]; cbv zeta.
  - rewrite app_nil_r. subst value. auto.
  - assert (EA : (pre ++ x :: l)%list = ((pre ++ [x]) ++ l)%list) by (rewrite <- app_assoc; reflexivity). rewrite EA.
    assert (EL : length (pre ++ [x]) = S (length pre)) by (rewrite app_length; simpl; lia). rewrite <- EL.
    assert (N1 : forall j, (j < length pre)%nat -> nth j (pre ++ [x]) 0 = nth j pre 0) by (intros j Hj; now rewrite app_nth1).
    assert (N2 : nth (length pre) (pre ++ [x]) 0 = x) by (rewrite app_nth2, Nat.sub_diag by lia; reflexivity).
    destruct (x <? value) eqn:E.
    + apply IH; [lia|exact N2| |].
      * intros j Hj. destruct (Nat.eq_dec j (length pre)) as [->|]; [rewrite N2; apply fle_refl|]. rewrite N1 by lia. apply flt_le. eapply flt_le_trans; [exact E|apply H3; lia].
      * intros j Hj. rewrite N1 by lia. eapply flt_le_trans; [exact E|apply H3; lia].
    + apply IH; [lia|rewrite N1 by lia; exact H2| |].
      * intros j Hj. destruct (Nat.eq_dec j (length pre)) as [->|]; [rewrite N2; exact E|]. rewrite N1 by lia. apply H3. lia.
      * intros j Hj. rewrite N1 by lia. apply H4. lia.
Qed.
Lemma argmin_nearest (mesh : list F) e : mesh <> [] -> exists i, argmin (map (fun x => fdist x e) mesh) = Ok i /\ nearest mesh e i.
Proof.
  intros Hm. destruct mesh as [|x l]; [congruence|]. cbn [map argmin]. eexists. split; [reflexivity|].
  destruct (argmin_from_spec (map (fun x => fdist x e) l) [fdist x e] 0%nat (fdist x e)) as (A & B & C); [simpl; lia|reflexivity| |intros j Hj; lia|].
  - intros j Hj. destruct j; [apply fle_refl|simpl in Hj; lia].
  - cbv zeta in *. cbn [length] in A, B, C. set (i := argmin_from _ _ _ _) in *.
    assert (EM : ([fdist x e] ++ map (fun x => fdist x e) l)%list = map (fun x => fdist x e) (x :: l)) by reflexivity. rewrite EM in A, B, C.
    assert (N : forall j, (j < length (x :: l))%nat -> nth j (map (fun x => fdist x e) (x :: l)) 0 = fdist (nth j (x :: l) 0) e).
    { intros j Hj. rewrite (nth_indep _ 0 (fdist 0 e)) by (rewrite map_length; auto). apply (map_nth (fun x => fdist x e)). }
    rewrite map_length in A, B. split; [exact A|]. cbv zeta. split.
    + intros j Hj. specialize (B j Hj). rewrite !N in B by auto. rewrite <- !fdist_sq. apply sq_le; [apply fdist_nonneg|exact B|apply fdist_nonneg].
    + intros j Hj. specialize (C j Hj). rewrite !N in C by (auto; lia). rewrite <- !fdist_sq. apply sq_lt; [apply fdist_nonneg|exact C].
Qed.
End Argmin.

Section Figures.
Context {F : ofield}.
Add Field Ffr : (f_field F).
Local Open Scope of_scope.
Variable fsqrt f32 : F -> F.
Variable pi : F.
Lemma plot_ok lab (x y : list F) : length x = length y -> plot lab x y = Ok (mkCurve lab x y).
Proof. intros H. unfold plot. now rewrite H, Nat.eqb_refl. Qed.
Lemma seq_map_len {A} (f : nat -> A) n : length (map f (seq 0 n)) = n. Proof. now rewrite map_length, seq_length. Qed.
Lemma step_two (mesh : list F) : (2 <= length mesh)%nat -> exists x0 x1 rest, mesh = x0 :: x1 :: rest /\ step mesh = Ok (x1 - x0).
Proof. destruct mesh as [|x0 [|x1 rest]]; simpl; try lia. intros _. exists x0, x1, rest. auto. Qed.
Lemma last_nth (mesh : list F) : mesh <> [] -> nth_error mesh (length mesh - 1) = Some (last mesh 0).
Proof.
  intros H. destruct (exists_last H) as (l & x & ->). rewrite last_last, app_length. cbn [length]. rewrite nth_error_app2 by lia. replace (length l + 1 - 1 - length l)%nat with 0%nat by lia. reflexivity.
Qed.
Lemma extent_works (xs ys : list F) : (2 <= length xs)%nat -> (2 <= length ys)%nat -> exists ext, extent_of xs ys = Ok ext /\ extent_ok xs ys ext.
Proof.
  intros Hx Hy. destruct (step_two xs Hx) as (x0 & x1 & rx & Ex & Esx). destruct (step_two ys Hy) as (y0 & y1 & ry & Ey & Esy).
  unfold extent_of. rewrite Esx, Esy. cbn [bind]. unfold nth_res at 2 4. rewrite !last_nth by (subst; discriminate).
  exists (x0 - (x1 - x0) / fofZ 2, last xs 0 + (x1 - x0) / fofZ 2, y0 - (y1 - y0) / fofZ 2, last ys 0 + (y1 - y0) / fofZ 2).
  split; [rewrite Ex, Ey; reflexivity|]. split; [exists x0, x1, rx|exists y0, y1, ry]; auto.
Qed.

Variable f : dict string (@dataset F).
Variables w wIn wLoss : list F.
Variables sw sIn sL : list nat.
Hypothesis Fw : dget f "w" = Some (sw, w).
Hypothesis FIn : dget f "wIn" = Some (sIn, wIn).
Hypothesis FL : dget f "wLoss" = Some (sL, wLoss).
Let c := length wIn.
Let n := length wLoss.
Lemma plot_sum_ok name lab nT data : dget f name = Some ([nT; length w], data) ->
  plot_sum f name lab = Ok [Lines [[mkCurve (Name lab) w (map (fun j => total nT (fun i => el2 (length w) data i j)) (seq 0 (length w)))]]].
Proof. intros H. unfold plot_sum. rewrite H. cbn [dims2 fst snd bind]. rewrite Fw. cbn [var bind snd]. rewrite plot_ok by (now rewrite seq_map_len). reflexivity. Qed.

Variables nIn nOut : nat.
Variable data : list F.
Hypothesis FR : dget f "RIXSthermal" = Some ([nIn; nOut; c; n], data).
Let I l k := total nIn (fun i => total nOut (fun j => el4 nOut c n data i j k l)).
Lemma sum_order idx k : total nIn (fun i => total nOut (fun j => total_at idx (fun l => el4 nOut c n data i j k l))) = ftotal (map (fun l => I l k) idx).
Proof.
  rewrite total_ftotal.
  transitivity (ftotal (map (fun i => ftotal (map (fun l => total nOut (fun j => el4 nOut c n data i j k l)) idx)) (seq 0 nIn))).
  - apply ftotal_ext. intros i _. rewrite total_ftotal.
    transitivity (ftotal (map (fun j => ftotal (map (fun l => el4 nOut c n data i j k l) idx)) (seq 0 nOut))); [apply ftotal_ext; intros j _; apply total_at_ftotal|].
    rewrite ftotal_swap. apply ftotal_ext. intros l _. now rewrite total_ftotal.
  - rewrite ftotal_swap. apply ftotal_ext. intros l _. unfold I. now rewrite total_ftotal.
Qed.
Lemma FY_ok : (1 <= nIn)%nat -> (2 <= n)%nat -> exists fy qe, plot_FY pi f = Ok [mkCurve (Name "FY") wIn fy; mkCurve (Name "quasi-elastic FY") wIn qe] /\
  yield pi wIn wLoss nIn I (seq 0 n) fy /\ yield pi wIn wLoss nIn I (filter (fun l => nth l wLoss 0 <? 1 / fofZ 5) (seq 0 n)) qe.
Proof.
  intros HnI Hn. destruct (step_two wLoss Hn) as (x0 & x1 & rest & Ew & Es).
  unfold plot_FY. rewrite FR. cbn [dims4 fst snd bind]. destruct (Nat.eqb_spec nIn 0); [lia|]. rewrite FIn, FL. cbn [var bind snd]. rewrite Es. cbn [bind].
  rewrite plot_ok by (now rewrite seq_map_len). cbn [bind]. fold n. rewrite Nat.eqb_refl. cbn [negb]. rewrite plot_ok by (now rewrite seq_map_len). cbn [bind].
  eexists _, _. split; [reflexivity|]. split; exists x0, x1, rest; (split; [exact Ew|]); apply map_ext; intros k.
  - rewrite <- sum_order. reflexivity.
  - rewrite <- sum_order. reflexivity.
Qed.
Lemma XAS_ok nT dx : (1 <= nIn)%nat -> (2 <= n)%nat -> dget f "XASthermal" = Some ([nT; length w], dx) -> exists fy qe,
  plot_XAS pi f = Ok [Lines [[mkCurve (Name "XAS") w (map (fun j => total nT (fun i => el2 (length w) dx i j)) (seq 0 (length w))); mkCurve (Name "FY") wIn fy; mkCurve (Name "quasi-elastic FY") wIn qe]]] /\
  yield pi wIn wLoss nIn I (seq 0 n) fy /\ yield pi wIn wLoss nIn I (filter (fun l => nth l wLoss 0 <? 1 / fofZ 5) (seq 0 n)) qe.
Proof.
  intros H1 H2 HX. destruct (FY_ok H1 H2) as (fy & qe & E & Y1 & Y2). exists fy, qe. split; [|auto].
  unfold plot_XAS. rewrite HX. cbn [dims2 fst snd bind]. rewrite Fw. cbn [var bind snd]. rewrite plot_ok by (now rewrite seq_map_len). cbn [bind]. rewrite E. reflexivity.
Qed.
Lemma map_res_Forall2 {A B} (g : A -> res B) (P : A -> B -> Prop) l : (forall x, In x l -> exists y, g x = Ok y /\ P x y) -> exists ys, map_res g l = Ok ys /\ Forall2 P l ys.
Proof.
  induction l as [|x l IH]; intros H; [exists []; split; [reflexivity|constructor]|].
  destruct (H x (or_introl eq_refl)) as (y & Ey & Hy). destruct IH as (ys & Eys & Hys); [intros z Hz; apply H; right; auto|].
  exists (y :: ys). cbn [map_res]. rewrite Ey. cbn [bind]. rewrite Eys. split; [reflexivity|constructor; auto].
Qed.
Lemma Forall2_combine_snd {A B C} (P : B -> C -> Prop) : forall (a : list A) (b : list B) (cs : list C), length a = length b -> Forall2 (fun x y => P (snd x) y) (combine a b) cs -> Forall2 P b cs.
Proof.
  intros a b. revert a. induction b as [|y b IH]; intros [|x a] cs Hl H; try discriminate; simpl in H; inversion H; subst; constructor; auto. eapply (IH a); auto.
Qed.
Lemma loss_ok es first off : (1 <= c)%nat -> (forall k e, In (k, e) (combine (seq 0 (length es)) (rev es)) -> (e - first = Z.of_nat (length es) - 1 - Z.of_nat k)%Z) ->
  exists cs, loss_curves wIn wLoss es off (fun k l => I l k) c n = Ok cs /\ loss_panel wIn wLoss I first off (rev es) cs.
Proof.
  intros Hc Hr. unfold loss_curves, loss_panel.
  edestruct (map_res_Forall2 (fun ne : nat * Z => do i <- argmin (map (fun x => fdist x (fofZ (snd ne))) wIn);
                     if negb (Nat.ltb i c) then Err IndexError else
                     plot (Energy (snd ne)) wLoss (map (fun l => off * fofZ (Z.of_nat (length es) - 1 - Z.of_nat (fst ne)) + I l i) (seq 0 n)))
     (fun ne cu => exists i, nearest wIn (fofZ (snd ne)) i /\ cu = mkCurve (Energy (snd ne)) wLoss (map (fun l => off * fofZ (snd ne - first) + I l i) (seq 0 n)))
     (combine (seq 0 (length es)) (rev es))) as (cs & E & H).
  - intros [k e] Hin. cbn [fst snd]. destruct (argmin_nearest wIn (fofZ e)) as (i & Ei & Hi); [intros E0; unfold c in Hc; rewrite E0 in Hc; simpl in Hc; lia|].
    rewrite Ei. cbn [bind]. destruct (Nat.ltb_spec i c); [|destruct Hi as [Hi _]; unfold c in *; lia]. cbn [negb]. rewrite plot_ok by (now rewrite seq_map_len).
    eexists. split; [reflexivity|]. exists i. split; [exact Hi|]. now rewrite (Hr k e Hin).
  - exists cs. split; [exact E|]. eapply Forall2_combine_snd; [|exact H]. now rewrite seq_length, rev_length.
Qed.
Lemma plot_loss_ok : (1 <= c)%nat -> exists p3 p2, plot_loss f = Ok [Lines [p3; p2]] /\
  loss_panel wIn wLoss I (-7) (fofZ 3 / fofZ 2) [1; 0; -1; -2; -3; -4; -5; -6; -7]%Z p3 /\ loss_panel wIn wLoss I 11 1 [15; 14; 13; 12; 11]%Z p2.
Proof.
  intros Hc. destruct (loss_ok (arange (-7) 2) (-7) (fofZ 3 / fofZ 2) Hc) as (p3 & E3 & H3).
  { change (combine _ _) with (combine [0; 1; 2; 3; 4; 5; 6; 7; 8]%nat [1; 0; -1; -2; -3; -4; -5; -6; -7]%Z). change (length _) with 9%nat. intros k e Hin.
    cbn [combine In] in Hin. repeat (destruct Hin as [Hin|Hin]; [injection Hin as <- <-; reflexivity|]). contradiction. }
  destruct (loss_ok (arange 11 16) 11 1 Hc) as (p2 & E2 & H2).
  { change (combine _ _) with (combine [0; 1; 2; 3; 4]%nat [15; 14; 13; 12; 11]%Z). change (length _) with 5%nat. intros k e Hin.
    cbn [combine In] in Hin. repeat (destruct Hin as [Hin|Hin]; [injection Hin as <- <-; reflexivity|]). contradiction. }
  exists p3, p2. split; [|split; [exact H3|exact H2]].
  unfold plot_loss. rewrite FR. cbn [dims4 fst snd bind]. rewrite FIn, FL. cbn [var bind snd].
  change (fun k l => total nIn (fun i => total nOut (fun j => el4 nOut c n data i j k l))) with (fun k l => I l k).
  rewrite E3. cbn [bind]. rewrite E2. reflexivity.
Qed.
Lemma plot_map_ok : (2 <= c)%nat -> (2 <= n)%nat -> exists ext, extent_ok wIn wLoss ext /\
  plot_map f = (do pol <- plot_polarisations nIn nOut c n data ext; Ok (Image (map (fun l => map (fun k => drawn (I l k)) (seq 0 c)) (seq 0 n)) ext :: pol)).
Proof.
  intros Hc Hn. destruct (extent_works wIn wLoss Hc Hn) as (ext & E & H). exists ext. split; [exact H|].
  unfold plot_map. rewrite FR. cbn [dims4 fst snd bind]. rewrite FIn, FL. cbn [var bind snd]. rewrite E. reflexivity.
Qed.
Lemma polarisations_ok ext : (nIn = 1 /\ nOut = 1 \/ 3 <= nIn /\ 2 <= nOut)%nat ->
  plot_polarisations nIn nOut c n data ext = Ok (if Nat.eqb nIn 1 && Nat.eqb nOut 1 then [] else
            [Images (map (fun i => map (fun j => map (fun l => map (fun k => drawn (el4 nOut c n data i j k l)) (seq 0 c)) (seq 0 n)) (seq 0 nOut)) (seq 0 nIn)) ext]).
Proof.
  intros H. unfold plot_polarisations. destruct (Nat.eqb_spec nIn 1), (Nat.eqb_spec nOut 1), (Nat.eqb_spec nIn 0), (Nat.eqb_spec nOut 0), (Nat.ltb_spec nIn 3); cbn [andb orb]; try lia; reflexivity.
Qed.
Lemma polarisations_fail ext : ~ (nIn = 1 /\ nOut = 1 \/ 3 <= nIn /\ 2 <= nOut)%nat -> (1 <= nIn)%nat -> (1 <= nOut)%nat -> plot_polarisations nIn nOut c n data ext = Err IndexError.
Proof.
  intros H H1 H2. unfold plot_polarisations. destruct (Nat.eqb_spec nIn 1), (Nat.eqb_spec nOut 1), (Nat.eqb_spec nIn 0), (Nat.eqb_spec nOut 0), (Nat.ltb_spec nIn 3); cbn [andb orb]; try lia; reflexivity.
Qed.
(* the labels are the lengths of the momentum transfers *)
Lemma plot_NIXS_ok (qs : list (F * F * F)) dn : dget f "NIXSthermal" = Some ([length qs; n], dn) ->
  dget f "qsNIXS" = Some ([length qs; 3%nat], flat_map (fun q => let '(q0, q1, q2) := q in [q0; q1; q2]) qs) ->
  plot_NIXS fsqrt f = Ok [Lines [map (fun qc => let '((x, y, z), cu) := qc in mkCurve (Norm (fsqrt (x * x + y * y + z * z))) wLoss cu) (combine qs (map (fun i => map (el2 n dn i) (seq 0 n)) (seq 0 (length qs))))]].
Proof.
  intros HN HQ. unfold plot_NIXS. rewrite HN, HQ. cbn [dims2 fst snd bind].
  set (flat := flat_map _ qs).
  assert (Hel : forall i x y z, nth_error qs i = Some (x, y, z) -> el2 3 flat i 0 = x /\ el2 3 flat i 1 = y /\ el2 3 flat i 2 = z).
  { subst flat. clear. unfold el2. induction qs as [|[[a b] d] qs IH]; intros [|i] x y z H; try discriminate.
    - injection H as -> -> ->. cbn. auto.
    - cbn [nth_error] in H. apply IH in H. replace (S i * 3)%nat with (S (S (S (i * 3))))%nat by lia. cbn [flat_map app Nat.add nth]. exact H. }
  set (labels := map _ (seq 0 (length qs))).
  set (g := fun i => do wl <- var (dget f "wLoss"); do lab <- nth_res labels i; plot lab (snd wl) (map (fun j => el2 n dn i j) (seq 0 n))).
  assert (Hg : forall i x y z, nth_error qs i = Some (x, y, z) -> g i = Ok (mkCurve (Norm (fsqrt (x * x + y * y + z * z))) wLoss (map (el2 n dn i) (seq 0 n)))).
  { intros i x y z Hi. unfold g. rewrite FL. cbn [var bind snd].
    assert (Hl : (i < length qs)%nat) by (apply nth_error_Some; congruence).
    unfold nth_res, labels. rewrite nth_error_map, (nth_error_nth' _ 0%nat) by (now rewrite seq_length). rewrite seq_nth by auto. cbn [option_map bind Nat.add].
    assert (ET : total 3 (fun j => el2 3 flat i j * el2 3 flat i j) = x * x + y * y + z * z).
    { destruct (Hel i x y z Hi) as (A & B & D). unfold total, total_at. cbn [seq fold_left]. rewrite A, B, D. ring. }
    rewrite ET, plot_ok by (now rewrite seq_map_len). reflexivity. }
  assert (Hm : forall k post, (skipn k qs = post) -> map_res g (seq k (length post)) = Ok (map (fun qc => let '((x, y, z), cu) := qc in mkCurve (Norm (fsqrt (x * x + y * y + z * z))) wLoss cu) (combine post (map (fun i => map (el2 n dn i) (seq 0 n)) (seq k (length post)))))).
  { intros k post. revert k. induction post as [|[[x y] z] post IH]; intros k Hk; [reflexivity|]. cbn [length seq map_res map combine].
    assert (Hn : nth_error qs k = Some (x, y, z)).
    { clear -Hk. revert k Hk. induction qs as [|a l IHl]; intros [|k] Hk; cbn in *; try discriminate; [now injection Hk as -> _|auto]. }
    rewrite (Hg k x y z Hn). cbn [bind]. rewrite (IH (S k)); [reflexivity|].
    clear -Hk. revert k Hk. induction qs as [|a l IHl]; intros [|k] Hk; cbn in *; try discriminate; [now injection Hk as _ ->|auto]. }
  rewrite (Hm 0%nat qs eq_refl). reflexivity.
Qed.
End Figures.
