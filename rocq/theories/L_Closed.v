(* Spectra whose operators have no final states. *)
From Coq Require Import Ring Field.
From Verif Require Import M_Prelude M_Scalar M_PSR M_State M_Mpi M_Hamiltonian M_Basis M_Expect M_Operators M_Lanczos M_Average M_Spectra M_Simulate M_Program S_Fock S_Ops S_Ham S_Basis S_Expect S_Operators S_Thermal S_Spectrum S_Closed.
From Verif Require Import L_Scalar L_Sum L_Dict L_Fock L_State L_Ops L_ApplyOp L_ExpandP L_Length L_Index L_Expect L_Average L_Spectra3 L_Program L_Program4 L_Program7 L_Levels2 L_Operators L_Operators7 L_Operators8 L_Shift2 L_Free2 L_Free3 L_Unitary4.
Local Open Scope Z_scope.

Section S.
Context {F : ofield}.
Add Field Ff : (f_field F).
Add Field Cf : (@c_field F).
(* every stored column is empty *)
Definition blank (c : cache_t F) : Prop := forall k col, dget c k = Some col -> col = [].
Lemma col_blocked n (op : list (process * cx F)) bits : wfl n op -> length bits = n -> (forall p, In p (map fst op) -> proc_act p bits = None) ->
  forall rs a (P : psi_t F) col sign, exists sign', match rs with Some rs' => col_loop_restr op bits a rs' P col sign | None => col_loop_plain op bits a P col sign end = COk (P, col, sign').
Proof.
  intros Hw Hb. revert Hw. induction op as [|[p h] op IH]; intros Hw Hp rs a P col sign.
  - exists sign. destruct rs; reflexivity.
  - apply Forall_cons_iff in Hw as [H1 Hw]. cbn [fst] in H1. destruct (proc_loop_wf n p bits sign H1 Hb) as [sg E]. rewrite (Hp p) in E by (left; reflexivity).
    destruct (IH Hw (fun p' Hp' => Hp p' (or_intror Hp')) rs a P col sg) as [sg' E']. exists sg'.
    destruct rs as [rs'|]; cbn [col_loop_restr col_loop_plain]; rewrite E; exact E'.
Qed.
Lemma blank_dset c k : blank c -> blank (dset c k []).
Proof. intros H k' col. rewrite dget_dset. destruct (M_Prelude.eqb_spec k' k); [intros E; injection E as <-; reflexivity|apply H]. Qed.
Lemma cached_blocked n (op : op_t F) swm rs : wf_op n op -> forall psi, (forall k, In k (dkeys psi) -> valid_key n k) -> blocked n op psi -> forall cache sign, blank cache ->
  exists cache', cached_loop (Z.of_nat n) op swm rs psi [] cache sign = COk ([], cache') /\ blank cache'.
Proof.
  intros [_ Hw]. induction psi as [|[k a] psi IH]; intros Hv Hbl cache sign HB; [exists cache; auto|].
  assert (Hv' : forall k', In k' (dkeys psi) -> valid_key n k') by (intros k' Hk'; apply Hv; right; exact Hk').
  assert (Hbl' : blocked n op psi) by (intros c p Hc Hk; apply Hbl; auto; right; exact Hk).
  cbn [cached_loop]. destruct (dget cache k) as [col|] eqn:Ed.
  - rewrite (HB k col Ed). cbn [addToFirst fold_left]. apply IH; auto.
  - destruct (Hv k (or_introl eq_refl)) as (c & Hc & ->). rewrite <- Hc, key_bits.
    destruct (col_blocked n op c Hw Hc (fun p Hp => Hbl c p Hc (or_introl eq_refl) Hp) rs a [] [] sign) as [sg E]. rewrite E. rewrite Hc.
    change (cutoff swm []) with (@nil (pybytes * cx F)). apply IH; auto. apply blank_dset. exact HB.
Qed.
Lemma apply_blocked n (op : op_t F) swm rs psi cache : wf_op n op -> (forall k, In k (dkeys psi) -> valid_key n k) -> blocked n op psi -> blank cache ->
  exists cache', applyOp (Z.of_nat n) op psi swm rs (Some cache) = (Some cache', Ok []) /\ blank cache'.
Proof.
  intros Hw Hv Hb HB. destruct (cached_blocked n op swm rs Hw psi Hv Hb cache None HB) as (c' & E & HB'). exists c'. split; [|exact HB']. unfold applyOp. rewrite E. reflexivity.
Qed.
Lemma vmul_zeros a m : vmul a (repeat (@c0 F) m) = repeat c0 m.
Proof. unfold vmul. induction m as [|m IH]; [reflexivity|]. cbn [repeat map]. rewrite IH. f_equal. ring. Qed.
Lemma together_same {A} (x : A) m : together (repeat (Ok x) m) = Run (repeat x m).
Proof.
  unfold together. replace (forallb is_ok (repeat (Ok x) m)) with true by (symmetry; apply forallb_forall; intros y Hy; apply repeat_spec in Hy; subst; reflexivity).
  f_equal. unfold oks. induction m as [|m IH]; [reflexivity|]. cbn [repeat flat_map]. now rewrite IH.
Qed.
Lemma nth_repeat_eq {A} (x : A) m k : nth k (repeat x m) x = x.
Proof. revert k. induction m as [|m IH]; intros [|k]; cbn; auto. Qed.
Section H.
Variable fsqrt : F -> F.
Variables (n fuel : nat) (hOp : op_t F) (w : list F) (delta : F) (rs : option restrictions_t) (ks : Z) (swm : F) (psis : list (psi_t F)) (es : list F).
Hypothesis HL : length psis = length es.
Hypothesis HV : forall psi, In psi psis -> forall k, In k (dkeys psi) -> valid_key n k.
Definition zstate (R : nat) (st : hb_state) : Prop := blank (hb_tbig st) /\ length (hb_hs st) = R /\ length (hb_gs st) = R /\ forall g, In g (hb_gs st) -> forall i t, g i t = repeat c0 (length w).
Lemma entry_zero ord R t op st i : wf_op n op -> (forall psi, In psi psis -> blocked n op psi) -> (i < length es)%nat -> zstate R st ->
  exists st', hb_entry fsqrt fuel (Z.of_nat n) hOp w delta rs ks swm ord psis es t op st i = Run st' /\ zstate R st'.
Proof.
  intros Hw Hb Hi (HB & H1 & H2 & H3). unfold hb_entry.
  destruct (nth_error psis i) as [psi|] eqn:Ep; [|apply nth_error_None in Ep; lia]. destruct (nth_error es i) as [e|] eqn:Ee; [|apply nth_error_None in Ee; lia].
  assert (Hin : In psi psis) by (eapply nth_error_In; eauto).
  destruct (apply_blocked n op swm rs psi (hb_tbig st) Hw (HV psi Hin) (Hb psi Hin) HB) as (c' & Ea & HB').
  unfold nth_res. rewrite Ep, Ee. cbn [bind]. rewrite Ea. cbn [bind normalise all_ranks rbind getGreen].
  rewrite map_map. cbn [snd]. rewrite (map_ext (fun _ : hdict_t F => Ok (repeat (@c0 F) (length w))) (fun _ => Ok (repeat c0 (length w)))) by reflexivity.
  assert (Er : map (fun _ : hdict_t F => Ok (repeat (@c0 F) (length w))) (hb_hs st) = repeat (Ok (repeat c0 (length w))) R) by (rewrite <- H1; clear; induction (hb_hs st) as [|x l IH]; [reflexivity|]; cbn [map length repeat]; now rewrite IH).
  rewrite Er, together_same. cbn [rbind]. eexists. split; [reflexivity|]. split; [exact HB'|]. cbn [hb_hs hb_gs]. split; [rewrite !map_length; exact H1|]. split; [rewrite map_length, combine_length, repeat_length; lia|].
  intros g Hg. apply in_map_iff in Hg as ([g0 v] & <- & Hc). intros i' t'. cbn [fst snd]. pose proof (in_combine_r _ _ _ _ Hc) as Hr. apply repeat_spec in Hr. subst v. unfold gset. destruct (_ && _); [apply vmul_zeros|]. apply H3. eapply in_combine_l; eauto.
Qed.
Lemma fold_run_total {A S} (f : S -> A -> run S) (I : S -> Prop) l : (forall s a, In a l -> I s -> exists s', f s a = Run s' /\ I s') -> forall s, I s -> exists s', fold_run f l s = Run s' /\ I s'.
Proof.
  induction l as [|a l IH]; intros H s Hs; [exists s; auto|]. destruct (H s a (or_introl eq_refl) Hs) as (s1 & E & H1). cbn [fold_run]. rewrite E. cbn [rbind]. apply IH; auto. intros s0 b Hb. apply H. right. exact Hb.
Qed.
Lemma spectra_zero ord R tOps : (forall op, In op tOps -> wf_op n op) -> (forall op psi, In op tOps -> In psi psis -> blocked n op psi) ->
  exists gl, getSpectra fsqrt fuel (Z.of_nat n) hOp w delta rs ks swm ord R tOps psis es SHBuild = map Ok gl /\ length gl = R /\ forall g, In g gl -> forall i t, g i t = repeat c0 (length w).
Proof.
  intros Hw Hb. unfold getSpectra, hb_run.
  destruct (fold_run_total (fun st ttOp => fold_run (fun st i => hb_entry fsqrt fuel (Z.of_nat n) hOp w delta rs ks swm (ord (fst ttOp) i) psis es (fst ttOp) (snd ttOp) st i) (seq 0 (length es)) (mkHB [] (hb_hs st) (hb_gs st))) (zstate R) (enumerate tOps)) with (s := @mkHB F [] (repeat [] R) (repeat (gzeros (length w)) R)) as (st & E & (_ & _ & H2 & H3)).
  - intros s [t op] Ho (S1 & S2 & S3 & S4). cbn [fst snd]. apply fold_run_total.
    + intros s' i Hi Hs'. apply in_seq in Hi. assert (Hop : In op tOps) by (apply enumerate_in in Ho; exact (nth_error_In _ _ Ho)). apply entry_zero; auto. lia.
    + split; [intros k col; discriminate|]. auto.
  - split; [intros k col; discriminate|]. cbn [hb_hs hb_gs]. rewrite !repeat_length. split; [reflexivity|]. split; [reflexivity|]. intros g Hg. apply repeat_spec in Hg. subst g. reflexivity.
  - rewrite E. exists (hb_gs st). auto.
Qed.
Variables fexp : F -> F.
Hypothesis HE : exp_laws fexp.
Variables k_B T : F.
Hypothesis HkT : (k_B * T)%F <> 0%F.
Hypothesis Hne : es <> [].
Lemma columns_zero mesh nT (gs : garr F) : (forall i t, gs i t = repeat c0 (length mesh)) -> columns fexp k_B mesh es T nT gs = Ok (zero_file mesh nT).
Proof.
  intros Hg. assert (Hl : forall i t, length (gs i t) = length mesh) by (intros; rewrite Hg; apply repeat_length).
  assert (EX : exists cols, columns fexp k_B mesh es T nT gs = Ok cols).
  { unfold columns. destruct (avg_ok fexp HE k_B T (k_B * T)%F eq_refl HkT es (neg_imag (length es) nT gs) (nT * length mesh) Hne) as (r & Er & _); [unfold neg_imag; now rewrite map_length, seq_length|exact (neg_imag_len _ _ _ gs Hl)|]. rewrite Er. cbn [bind]. eauto. }
  destruct EX as [cols E]. rewrite E. f_equal. apply (columns_mean fexp HE) in E as (total & parts & -> & Lp & Lt & Hp & Ht); [|exact HkT|exact Hl].
  assert (P : parts = repeat (repeat 0%F (length mesh)) nT).
  { apply (nth_ext _ _ [] []); [now rewrite repeat_length|]. intros t Htt. rewrite Lp in Htt. destruct (Hp t Htt) as [P1 P2]. replace (nth t (repeat (repeat (0%F : F) (length mesh)) nT) []) with (repeat (0%F : F) (length mesh)) by (rewrite (nth_indep _ [] (repeat (0%F : F) (length mesh))) by (rewrite repeat_length; exact Htt); now rewrite nth_repeat_eq).
    apply (nth_ext _ _ 0%F 0%F); [now rewrite repeat_length|]. intros k Hk. rewrite P1 in Hk. rewrite (P2 k Hk), nth_repeat_eq. apply mean_const; auto. intros i _. rewrite Hg, nth_repeat_eq. cbn [im c0]. ring. }
  unfold zero_file. f_equal. f_equal; [|exact P]. apply (nth_ext _ _ 0%F 0%F); [now rewrite repeat_length|]. intros k _. rewrite Ht, nth_repeat_eq, P. clear. induction nT as [|m IH]; [reflexivity|]. cbn [repeat map ftotal]. rewrite IH, nth_repeat_eq. ring.
Qed.
Lemma absorption_zero ord R tOps : (forall op, In op tOps -> wf_op n op) -> (forall op psi, In op tOps -> In psi psis -> blocked n op psi) ->
  absorption fsqrt fexp k_B fuel (Z.of_nat n) hOp rs ks swm ord R psis es T w delta tOps = repeat (Ok (zero_file w (length tOps))) R.
Proof.
  intros Hw Hb. unfold absorption. destruct (spectra_zero ord R tOps Hw Hb) as (gl & -> & <- & Hg). rewrite map_map. revert Hg. clear - HE HkT Hne. induction gl as [|g gl IH]; intros Hg; [reflexivity|]. cbn [map repeat length bind]. f_equal.
  - apply columns_zero. apply Hg. left. reflexivity.
  - apply IH. intros g' Hg'. apply Hg. right. exact Hg'.
Qed.
End H.
Lemma columns_ext (fexp : F -> F) k_B mesh es T nT (gs gs' : garr F) : (forall i t, gs i t = gs' i t) -> columns fexp k_B mesh es T nT gs = columns fexp k_B mesh es T nT gs'.
Proof.
  intros H. unfold columns. replace (neg_imag (length es) nT gs) with (neg_imag (length es) nT gs'); [reflexivity|]. unfold neg_imag. apply map_ext. intros i. induction (seq 0 nT) as [|t l IH]; [reflexivity|]. cbn [flat_map]. rewrite IH, H. reflexivity.
Qed.
Lemma gplus_zero_r m (v : vec F) : length v = m -> map (fun p => cadd (fst p) (snd p)) (combine (map copp v) (repeat c0 m)) = map copp v.
Proof. revert m. induction v as [|x v IH]; intros [|m] H; try discriminate; [reflexivity|]. cbn [map repeat combine fst snd]. f_equal; [ring|]. apply IH. now injection H. Qed.
Lemma gplus_zero_l m (v : vec F) : length v = m -> map (fun p => cadd (fst p) (snd p)) (combine (map copp (repeat c0 m)) v) = v.
Proof. revert m. induction v as [|x v IH]; intros [|m] H; try discriminate; [reflexivity|]. cbn [map repeat combine fst snd]. f_equal; [ring|]. apply IH. now injection H. Qed.
Lemma photo_closed (fsqrt fexp : F -> F) k_B n fuel hOp rs ks swm psis es T : length psis = length es -> (forall psi, In psi psis -> forall k, In k (dkeys psi) -> valid_key n k) ->
  forall ord R w d ps ips, d <> 0%F -> length ps = length ips -> (forall op, In op ips -> wf_op n op) -> (forall op psi, In op ips -> In psi psis -> blocked n op psi) ->
  photoemission fsqrt fexp k_B fuel (Z.of_nat n) hOp rs ks swm ord R psis es T w d ps ips = emission fsqrt fexp k_B fuel (Z.of_nat n) hOp rs ks swm ord R psis es T w d ps.
Proof.
  intros HL HV ord R w d ps ips Hd HP Hw Hb. unfold photoemission, emission. rewrite HP, Nat.eqb_refl. destruct (spectra_zero fsqrt n fuel hOp w d rs ks swm psis es HL HV ord R ips Hw Hb) as (gl & -> & Lg & Hg).
  assert (LP : length (getSpectra fsqrt fuel (Z.of_nat n) hOp (map fopp w) (- d)%F rs ks swm ord R ps psis es SHBuild) = R) by apply hb_len.
  assert (SH : forall gs, In (Ok gs) (getSpectra fsqrt fuel (Z.of_nat n) hOp (map fopp w) (- d)%F rs ks swm ord R ps psis es SHBuild) -> forall i t, length (gs i t) = length w).
  { intros gs Hgs i t. rewrite <- (map_length fopp w). eapply hb_shape; [|exact Hgs]. apply fopp_neq0. exact Hd. }
  revert LP SH. generalize (getSpectra fsqrt fuel (Z.of_nat n) hOp (map fopp w) (- d)%F rs ks swm ord R ps psis es SHBuild). intros l LP SH. rewrite <- Lg in LP. clear Lg. revert l LP SH.
  induction gl as [|g gl IH]; intros [|r l] LP SH; try discriminate; [reflexivity|]. cbn [map combine fst snd bind]. f_equal.
  - destruct r as [gs|]; [|reflexivity]. cbn [bind]. apply columns_ext. intros i t. unfold gplus, gneg. rewrite (Hg g (or_introl eq_refl)). apply gplus_zero_r. apply SH. left. reflexivity.
  - apply IH; [intros g' H'; apply Hg; right; exact H'|now injection LP|intros gs Hgs; apply SH; right; exact Hgs].
Qed.
Lemma photo_empty (fsqrt fexp : F -> F) k_B n fuel hOp rs ks swm psis es T : length psis = length es -> (forall psi, In psi psis -> forall k, In k (dkeys psi) -> valid_key n k) ->
  forall ord R w d ps ips, d <> 0%F -> length ps = length ips -> (forall op, In op ps -> wf_op n op) -> (forall op psi, In op ps -> In psi psis -> blocked n op psi) ->
  photoemission fsqrt fexp k_B fuel (Z.of_nat n) hOp rs ks swm ord R psis es T w d ps ips = absorption fsqrt fexp k_B fuel (Z.of_nat n) hOp rs ks swm ord R psis es T w d ips.
Proof.
  intros HL HV ord R w d ps ips Hd HP Hw Hb. unfold photoemission, absorption. rewrite HP, Nat.eqb_refl. destruct (spectra_zero fsqrt n fuel hOp (map fopp w) (- d)%F rs ks swm psis es HL HV ord R ps Hw Hb) as (gl & -> & Lg & Hg).
  assert (LP : length (getSpectra fsqrt fuel (Z.of_nat n) hOp w d rs ks swm ord R ips psis es SHBuild) = R) by apply hb_len.
  assert (SH : forall gs, In (Ok gs) (getSpectra fsqrt fuel (Z.of_nat n) hOp w d rs ks swm ord R ips psis es SHBuild) -> forall i t, length (gs i t) = length w).
  { intros gs Hgs i t. eapply hb_shape; [|exact Hgs]. exact Hd. }
  revert LP SH. generalize (getSpectra fsqrt fuel (Z.of_nat n) hOp w d rs ks swm ord R ips psis es SHBuild). intros l LP SH. rewrite <- Lg in LP. clear Lg. revert l LP SH.
  induction gl as [|g gl IH]; intros [|r l] LP SH; try discriminate; [reflexivity|]. cbn [map combine fst snd bind]. f_equal.
  - destruct r as [gs|]; [|reflexivity]. cbn [bind]. apply columns_ext. intros i t. unfold gplus, gneg. rewrite (Hg g (or_introl eq_refl)), map_length. apply gplus_zero_l. apply SH. left. reflexivity.
  - apply IH; [intros g' H'; apply Hg; right; exact H'|now injection LP|intros gs Hgs; apply SH; right; exact Hgs].
Qed.
(* the operators of the program *)
Section O.
Variable nb : nbaths_t.
Hypothesis W : wf_nbaths nb.
Notation n := (n_orb nb).
Lemma hop_closed (c : config) x y l : length c = n -> (forall z, in_shell l z -> nth (Z.to_nat (coord_index nb z)) c false = true) -> in_shell l x -> coord_index nb x <> coord_index nb y -> coord_ok nb x -> coord_ok nb y -> proc_act (pidx nb (hop2 x y)) c = None.
Proof.
  intros Hc HF Hx Hne Cx Cy. destruct (coord_lt nb W x Cx) as (i & Ei & Li). destruct (coord_lt nb W y Cy) as (j & Ej & Lj). specialize (HF x Hx). unfold pidx, hop2. cbn [map fst snd proc_act]. rewrite Ei in *. rewrite Ej in *. rewrite Nat2Z.id in HF.
  unfold lad. cbn [fst snd]. change (Ascii.eqb "a" lab_c) with false. change (Ascii.eqb "c" lab_c) with true. cbv iota. rewrite !Nat2Z.id. unfold ann. destruct (nth_error c j) as [[|]|]; try reflexivity.
  unfold cre. assert (E : nth_error (upd c j false) i = Some true); [|rewrite E; reflexivity].
  rewrite (nth_error_nth' _ false) by (rewrite upd_length; lia). rewrite nth_upd by lia. destruct (Nat.eqb_spec i j) as [->|_]; [lia|]. rewrite HF. reflexivity.
Qed.
Lemma hop_empty (c : config) x y l : length c = n -> (forall z, in_shell l z -> nth (Z.to_nat (coord_index nb z)) c true = false) -> in_shell l y -> proc_act (pidx nb (hop2 x y)) c = None.
Proof.
  intros Hc HF Hy. specialize (HF y Hy). unfold pidx, hop2. cbn [map fst snd proc_act]. unfold lad at 1. cbn [fst snd]. change (Ascii.eqb "a" lab_c) with false. cbv iota. unfold ann.
  destruct (nth_error c (Z.to_nat (coord_index nb y))) as [b|] eqn:E; [|reflexivity]. rewrite (nth_error_nth _ _ true E) in HF. subst b. reflexivity.
Qed.
Lemma shell_coord l x : In l (angs nb) -> in_shell l x -> coord_ok nb x.
Proof. intros Hl (s & m & -> & Hs & Hm). apply imp_ok; auto. Qed.
Lemma dip_blocked (fsqrt : F -> F) pi gaunt eps ops psi : dkeys nb = [KInt 1; KInt 2] -> getDipoleOperators fsqrt pi gaunt nb eps = Ok ops -> shell_all nb 2 true psi \/ shell_all nb 1 false psi ->
  Forall (fun op => wf_op n op /\ blocked n op psi) ops.
Proof.
  intros HK E HS. unfold getDipoleOperators in E. eapply map_res_all; [|exact E]. intros v op _ Ev. cbv beta in Ev. split; [exact (L_Program4.dip_wf nb W fsqrt pi gaunt v op Ev)|].
  destruct v as [|n0 [|n1 [|n2 rest]]]; try (rewrite dip_short in Ev by (cbn; lia); discriminate). intros c p Hc Hk Hp.
  destruct (dip_selection fsqrt pi gaunt nb W 1 2 HK n0 n1 n2 rest op p Ev Hp) as (s & m & m' & -> & H2 & H1 & _).
  assert (A1 : In 1 (angs nb)) by (unfold angs; rewrite HK; cbn; auto). assert (A2 : In 2 (angs nb)) by (unfold angs; rewrite HK; cbn; auto).
  destruct HS as [HS|HS].
  - apply (hop_closed c _ _ 2 Hc); [intros z Hz; exact (HS c z Hc Hk Hz)|exact H2| |exact (shell_coord 2 _ A2 H2)|exact (shell_coord 1 _ A1 H1)].
    intros Ec. apply (coord_index_inj nb) in Ec; [discriminate Ec|exact W|exact (shell_coord 2 _ A2 H2)|exact (shell_coord 1 _ A1 H1)].
  - apply (hop_empty c _ _ 1 Hc); [intros z Hz; exact (HS c z Hc Hk Hz)|exact H1].
Qed.
Lemma nixs_blocked (fsqrt : F -> F) arccos fsin pi gaunt jn sph qs radial ops psi : In 2 (angs nb) -> getNIXSOperators fsqrt arccos fsin pi gaunt jn sph nb qs 2 2 radial = Ok ops -> shell_all nb 2 false psi ->
  Forall (fun op => wf_op n op /\ blocked n op psi) ops.
Proof.
  intros H2 E HS. unfold getNIXSOperators in E. eapply map_res_all; [|exact E]. intros [[q0 q1] q2] op _ Ev. cbv beta in Ev.
  destruct (nixs_ok fsqrt pi gaunt arccos fsin jn sph nb W 2 2 H2 H2 q0 q1 q2 radial 1) as (op' & E' & HO). rewrite Ev in E'. apply ok_inj in E'. subst op'. split; [exact (one_body_wf nb W op 2 2 _ H2 H2 HO)|].
  intros c p Hc Hk Hp. destruct (proj1 (proj2 HO) p Hp) as (x & y & -> & Hx & Hy). apply (hop_empty c _ _ 2 Hc); [intros z Hz; exact (HS c z Hc Hk Hz)|exact Hy].
Qed.
Lemma pes_blocked lab l ops (psi : psi_t F) : In l (angs nb) -> lab = lab_c \/ lab = lab_a -> getPESOperators lab nb l = Ok ops -> shell_all nb l (Ascii.eqb lab lab_c) psi ->
  length ops = length (S_Operators.shell_list l) /\ Forall (fun op => wf_op n op /\ blocked n op psi) ops.
Proof.
  intros Hl HL E HS. rewrite (pes_ok nb W lab l Hl) in E. apply ok_inj in E. subst ops. split; [apply map_length|]. apply Forall_forall. intros op Ho. apply in_map_iff in Ho as (x & <- & Hx).
  assert (Sx : in_shell l x) by (unfold S_Operators.shell_list in Hx; apply in_flat_map in Hx as (s & Hs & Hx); apply in_map_iff in Hx as (m & <- & Hm); unfold mrange in Hm; apply zrange2_In in Hm; exists s, m; split; [reflexivity|]; destruct Hs as [<-|[<-|[]]]; lia).
  destruct (coord_lt nb W x (shell_coord l x Hl Sx)) as (i & Ei & Li). split.
  - split; [repeat constructor; intros []|]. constructor; [|constructor]. constructor; [|constructor]. split; cbn [fst snd]; [rewrite Ei; lia|]. destruct HL as [-> | ->]; [right|left]; reflexivity.
  - intros c p Hc Hk [<-|[]]. specialize (HS c x Hc Hk Sx). change (match lad (coord_index nb x, lab) c with None => None | Some (c'', s) => Some (c'', s * 1) end = None). unfold lad. cbn [fst snd]. destruct HL as [-> | ->].
    + change (Ascii.eqb lab_c lab_c) with true in *. cbv iota. unfold cre. destruct (nth_error c (Z.to_nat (coord_index nb x))) as [b|] eqn:En; [|reflexivity]. rewrite (nth_error_nth _ _ _ En) in HS. subst b. reflexivity.
    + change (Ascii.eqb lab_a lab_c) with false in *. cbv iota. unfold ann. destruct (nth_error c (Z.to_nat (coord_index nb x))) as [b|] eqn:En; [|reflexivity]. rewrite (nth_error_nth _ _ _ En) in HS. subst b. reflexivity.
Qed.
End O.
Lemma in_all {A} (P : A -> Prop) l a : Forall P l -> In a l -> P a.
Proof. intros H. revert a. apply Forall_forall. exact H. Qed.
Section R.
Variables (fsqrt fexp : F -> F) (pi : F) (gaunt : Z -> Z -> Z -> Z -> Z -> Z -> F) (nb : nbaths_t).
Hypothesis HE : exp_laws fexp.
Hypothesis W : wf_nbaths nb.
Variables (k_B T : F) (fuel : nat) (hOp : op_t F) (rs : option restrictions_t) (ks : Z) (swm : F) (psis : list (psi_t F)) (es : list F).
Hypothesis HkT : (k_B * T)%F <> 0%F.
Hypothesis Hne : es <> [].
Hypothesis HL : length psis = length es.
Hypothesis HV : forall psi, In psi psis -> forall k, In k (dkeys psi) -> valid_key (n_orb nb) k.
Variables (ord : nat -> nat -> nat -> set_order) (R : nat) (w : list F) (d : F).
Notation N := (Z.of_nat (n_orb nb)).
Lemma xas_zero eps ops : dkeys nb = [KInt 1; KInt 2] -> getDipoleOperators fsqrt pi gaunt nb eps = Ok ops -> (forall psi, In psi psis -> shell_all nb 2 true psi) \/ (forall psi, In psi psis -> shell_all nb 1 false psi) ->
  absorption fsqrt fexp k_B fuel N hOp rs ks swm ord R psis es T w d ops = repeat (Ok (zero_file w (length ops))) R.
Proof.
  intros HK E HS. assert (B : forall psi, In psi psis -> Forall (fun op => wf_op (n_orb nb) op /\ blocked (n_orb nb) op psi) ops) by (intros psi Hp; apply (dip_blocked nb W fsqrt pi gaunt eps); auto; destruct HS; auto).
  apply absorption_zero; auto.
  - intros op Ho. destruct psis as [|psi l]; [destruct es; [congruence|discriminate HL]|]. exact (proj1 (in_all _ _ _ (B psi (or_introl eq_refl)) Ho)).
  - intros op psi Ho Hp. exact (proj2 (in_all _ _ _ (B psi Hp) Ho)).
Qed.
Lemma nixs_zero arccos fsin jn sph qs radial ops : In 2 (angs nb) -> getNIXSOperators fsqrt arccos fsin pi gaunt jn sph nb qs 2 2 radial = Ok ops -> (forall psi, In psi psis -> shell_all nb 2 false psi) ->
  absorption fsqrt fexp k_B fuel N hOp rs ks swm ord R psis es T w d ops = repeat (Ok (zero_file w (length ops))) R.
Proof.
  intros H2 E HS. assert (B : forall psi, In psi psis -> Forall (fun op => wf_op (n_orb nb) op /\ blocked (n_orb nb) op psi) ops) by (intros psi Hp; apply (nixs_blocked nb W fsqrt arccos fsin pi gaunt jn sph qs radial); auto).
  apply absorption_zero; auto.
  - intros op Ho. destruct psis as [|psi l]; [destruct es; [congruence|discriminate HL]|]. exact (proj1 (in_all _ _ _ (B psi (or_introl eq_refl)) Ho)).
  - intros op psi Ho Hp. exact (proj2 (in_all _ _ _ (B psi Hp) Ho)).
Qed.
Lemma ps_closed l ps ips : In l (angs nb) -> d <> 0%F -> getPhotoEmissionOperators nb l = Ok ps -> getInversePhotoEmissionOperators nb l = Ok ips -> (forall psi, In psi psis -> shell_all nb l true psi) ->
  photoemission fsqrt fexp k_B fuel N hOp rs ks swm ord R psis es T w d ps ips = emission fsqrt fexp k_B fuel N hOp rs ks swm ord R psis es T w d ps.
Proof.
  unfold getPhotoEmissionOperators, getInversePhotoEmissionOperators. intros Hl Hd Ep Ei HS. assert (B : forall psi, In psi psis -> length ips = length (S_Operators.shell_list l) /\ Forall (fun op => wf_op (n_orb nb) op /\ blocked (n_orb nb) op psi) ips) by (intros psi Hp; apply (pes_blocked nb W lab_c l); auto).
  rewrite (pes_ok nb W lab_a l Hl) in Ep. apply ok_inj in Ep. rewrite (pes_ok nb W lab_c l Hl) in Ei. apply ok_inj in Ei.
  apply photo_closed; auto.
  - subst. now rewrite !map_length.
  - intros op Ho. destruct psis as [|psi l']; [destruct es; [congruence|discriminate HL]|]. exact (proj1 (in_all _ _ _ (proj2 (B psi (or_introl eq_refl))) Ho)).
  - intros op psi Ho Hp. exact (proj2 (in_all _ _ _ (proj2 (B psi Hp)) Ho)).
Qed.
Lemma ps_empty l ps ips : In l (angs nb) -> d <> 0%F -> getPhotoEmissionOperators nb l = Ok ps -> getInversePhotoEmissionOperators nb l = Ok ips -> (forall psi, In psi psis -> shell_all nb l false psi) ->
  photoemission fsqrt fexp k_B fuel N hOp rs ks swm ord R psis es T w d ps ips = absorption fsqrt fexp k_B fuel N hOp rs ks swm ord R psis es T w d ips.
Proof.
  unfold getPhotoEmissionOperators, getInversePhotoEmissionOperators. intros Hl Hd Ep Ei HS. assert (B : forall psi, In psi psis -> length ps = length (S_Operators.shell_list l) /\ Forall (fun op => wf_op (n_orb nb) op /\ blocked (n_orb nb) op psi) ps) by (intros psi Hp; apply (pes_blocked nb W lab_a l); auto).
  rewrite (pes_ok nb W lab_a l Hl) in Ep. apply ok_inj in Ep. rewrite (pes_ok nb W lab_c l Hl) in Ei. apply ok_inj in Ei.
  apply photo_empty; auto.
  - subst. now rewrite !map_length.
  - intros op Ho. destruct psis as [|psi l']; [destruct es; [congruence|discriminate HL]|]. exact (proj1 (in_all _ _ _ (proj2 (B psi (or_introl eq_refl))) Ho)).
  - intros op psi Ho Hp. exact (proj2 (in_all _ _ _ (proj2 (B psi Hp)) Ho)).
Qed.
End R.
End S.
