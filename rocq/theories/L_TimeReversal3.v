(* Kramers degeneracy; time reversal of the crystal-field Hamiltonian. *)
From Coq Require Import Permutation Ring Field.
From Verif Require Import M_Prelude M_Scalar M_PSR M_State M_Basis M_Expect M_Operators S_Fock S_Ops S_Basis S_Expect S_Operators S_Symmetry S_TimeReversal.
From Verif Require Import L_Scalar L_Sum L_Dict L_Fock L_State L_Ops L_Index L_Expect L_Expect4 L_Cubic L_Operators L_Operators2 L_Operators3 L_Operators4 L_Operators5 L_Operators6 L_Operators10.
From Verif Require Import L_Symmetry L_Symmetry3 L_Symmetry6 L_TimeReversal L_TimeReversal2.
Local Open Scope Z_scope.

Section K.
Context {F : ofield}.
Add Field Ff : (f_field F).
Add Ring Cring : (@c_ring F).
Implicit Types u v w : config -> cx F.
Variable bp bs : bkey -> Z -> Z.
Variable nb : nbaths_t.
Hypothesis Hwf : wf_nbaths nb.
Hypothesis Hang : NoDup (angs nb).
Hypothesis Hpair : pairs bp bs nb.
Notation n := (n_orb nb).
Notation T := (timerev bp bs nb).
Let tl := tau_lt bp bs nb Hwf Hang Hpair.
Let ti := tau_inv bp bs nb Hwf Hang Hpair.
Let s1 := sig_1 bp bs nb Hwf Hang Hpair.
Let st := sig_tau bp bs nb Hwf Hang Hpair.
Let TT := timerev_T (F := F) bp bs nb Hwf Hang Hpair.
Lemma T_antiunitary u w : csum (fun t => cconj (T u t) * T w t)%C (allcfg n) = cconj (csum (fun t => cconj (u t) * w t)%C (allcfg n)).
Proof.
  transitivity (vip n (Tv n (tau bp nb) (sig bs nb) u) (Tv n (tau bp nb) (sig bs nb) w)); [|exact (Tv_vip n (tau bp nb) (sig bs nb) tl ti s1 st u w)]. unfold vip. apply csum_ext. intros t Ht. apply allcfg_In in Ht. rewrite !TT by auto. reflexivity.
Qed.
Lemma T_square v t : length t = n -> T (T v) t = ((if Nat.even (nelec t) then c1 else - c1) * v t)%C.
Proof.
  intros Ht. rewrite TT by auto. rewrite (Tv_ext n (tau bp nb) (sig bs nb) tl ti s1 _ (Tv n (tau bp nb) (sig bs nb) v)) by (auto; intros s Hs; apply TT; auto).
  rewrite (Tv_Tv n _ _ tl ti s1 st) by auto. f_equal. unfold par. destruct (Nat.even _); [apply cofZ_1|apply cofZ_m1].
Qed.
Lemma T_antilinear a u w t : T (fun s => a * u s + w s)%C t = (cconj a * T u t + T w t)%C.
Proof.
  unfold timerev. rewrite <- csum_mul_l, <- csum_add. apply csum_ext. intros s _. rewrite cconj_add, cconj_mul. ring.
Qed.
Lemma T_scale a u t : T (fun s => a * u s)%C t = (cconj a * T u t)%C.
Proof. unfold timerev. rewrite <- csum_mul_l. apply csum_ext. intros s _. rewrite cconj_mul. ring. Qed.
Lemma T_ext' u w t : (forall s, length s = n -> u s = w s) -> T u t = T w t.
Proof. intros H. unfold timerev. apply csum_ext. intros s Hs. apply allcfg_In in Hs. rewrite H; auto. Qed.
Lemma kramers A (e : F) v : reverses bp bs nb A A -> (forall t, length t = n -> opv n A v t = (creal e * v t)%C) ->
  (forall t, length t = n -> opv n A (T v) t = (creal e * T v t)%C) /\
  csum (fun t => cconj (T v t) * T v t)%C (allcfg n) = csum (fun t => cconj (v t) * v t)%C (allcfg n) /\
  ((forall t, length t = n -> v t <> c0 -> Nat.even (nelec t) = false) -> csum (fun t => cconj (v t) * T v t)%C (allcfg n) = c0).
Proof.
  intros HA HE. split; [|split].
  - intros t Ht. rewrite <- HA by auto. rewrite (T_ext' _ (fun s => creal e * v s)%C) by auto. rewrite T_scale, cconj_real. reflexivity.
  - rewrite T_antiunitary. rewrite <- csum_conj. apply csum_ext. intros t _. rewrite cconj_mul, cconj_conj. ring.
  - intros HN. set (x := csum (fun t => cconj (v t) * T v t)%C (allcfg n)).
    assert (E : csum (fun t => cconj (T v t) * T (T v) t)%C (allcfg n) = cconj x) by (apply T_antiunitary).
    assert (E' : csum (fun t => cconj (T v t) * T (T v) t)%C (allcfg n) = (- cconj x)%C).
    { unfold x. rewrite <- csum_conj, <- csum_opp. apply csum_ext. intros t Ht. apply allcfg_In in Ht. rewrite T_square by auto. rewrite cconj_mul, cconj_conj.
      destruct (ceqb_spec (v t) c0) as [Ev|Ev].
      - rewrite Ev. ring.
      - rewrite HN by auto. ring. }
    rewrite E' in E. apply cconj_inj. rewrite cconj_0.
    assert (Z2 : (cconj x + cconj x = c0)%C). { rewrite <- E at 1. ring. }
    pose proof two_nz (F := F) as H2. apply cx_ext; cbn.
    + apply (f_equal re) in Z2. cbn in Z2. assert (Z3 : ((1 + 1) * re x)%F = 0%F) by (rewrite <- Z2; ring). apply fmul_integral in Z3 as [Z3|Z3]; [congruence|auto].
    + apply (f_equal im) in Z2. cbn in Z2. assert (Z3 : ((1 + 1) * (- im x))%F = 0%F) by (rewrite <- Z2; ring). apply fmul_integral in Z3 as [Z3|Z3]; [congruence|auto].
Qed.
End K.

Section CF.
Context {F : ofield}.
Add Field Ff2 : (f_field F).
Add Ring Cring2 : (@c_ring F).
Variable fsqrt : F -> F.
Definition ri (b : bath_basis) (i : nat) : nat := match b with Spherical => (4 - i)%nat | _ => i end.
Definition rho (b : bath_basis) (i : nat) : Z := match b with Spherical => parity (Z.of_nat i) | _ => 1 end.
Hypothesis SQ : forall x : F, (0 <= x)%F -> (0 <= fsqrt x)%F /\ (fsqrt x * fsqrt x)%F = x.
Lemma rho_sq b i : rho b i * rho b i = 1.
Proof. destruct b; cbn [rho]; auto. apply parity_sq. Qed.
Lemma ub_rev b i k : (i < 5)%nat -> (k < 5)%nat -> at_m (ub fsqrt b) (ri b i) k = (cofZ (rho b i) * cconj (at_m (ub fsqrt b) i k))%C.
Proof.
  intros Hi Hk. destruct b; cbn [ub ri rho].
  - rewrite (u5_real fsqrt SQ i k) by lia. assert (E : (-1) ^ Z.of_nat (i + 2) = parity (Z.of_nat i)).
    { destruct i as [|[|[|[|[|i]]]]]; [reflexivity..|lia]. }
    rewrite E. assert (E2 : (@cofZ F (parity (Z.of_nat i)) * cofZ (parity (Z.of_nat i)) = c1)%C) by (rewrite <- cofZ_mul, parity_sq; apply cofZ_1).
    change (2 * 2 - i)%nat with (4 - i)%nat. transitivity (cofZ (parity (Z.of_nat i)) * cofZ (parity (Z.of_nat i)) * at_m (u5 fsqrt) (4 - i) k)%C; [rewrite E2; ring|ring].
  - rewrite cofZ_1. destruct i as [|[|[|[|[|i]]]]]; [..|lia]; (destruct k as [|[|[|[|[|k]]]]]; [..|lia]); apply cx_ext; cbn; ring.
  - rewrite cofZ_1. destruct i as [|[|[|[|[|i]]]]]; [..|lia]; (destruct k as [|[|[|[|[|k]]]]]; [..|lia]); apply cx_ext; cbn; ring.
Qed.
Lemma ri_lt b i : (i < 5)%nat -> (ri b i < 5)%nat. Proof. destruct b; cbn [ri]; lia. Qed.
Lemma rotm_rev b b' x y i j : (i < 5)%nat -> (j < 5)%nat ->
  rotm (ub fsqrt b) (ub fsqrt b') x y (ri b i) (ri b' j) = (cofZ (rho b i * rho b' j) * cconj (rotm (ub fsqrt b) (ub fsqrt b') x y i j))%C.
Proof.
  intros Hi Hj. unfold rotm. rewrite <- csum_conj, <- csum_mul_l. apply csum_ext. intros k Hk. apply in_seq in Hk.
  rewrite !ub_rev by lia. rewrite cofZ_mul. rewrite !cconj_mul, cconj_conj, cconj_real, cconj_cofZ. ring.
Qed.
Lemma sgn_neq0 z (x : cx F) : z * z = 1 -> x <> c0 -> (cofZ z * cconj x)%C <> c0.
Proof.
  intros Hz Hx E. apply Hx. apply cconj_inj. rewrite cconj_0. transitivity (cofZ z * (cofZ z * cconj x))%C; [|rewrite E; ring].
  transitivity (cofZ (z * z) * cconj x)%C; [rewrite Hz, cofZ_1; ring|rewrite cofZ_mul; ring].
Qed.
Notation P b := (cf_partner b).
Notation G b := (cf_sign b).
Definition tw (s z : Z) : Z := if s =? 1 then z else - z.
Lemma rv_d b s i : (s = 0 \/ s = 1) -> (i < 5)%nat -> reverse (P b) (d_orb s i) = d_orb (1 - s) (ri Spherical i) /\ reverse_sign (G b) (d_orb s i) = tw s (rho Spherical i).
Proof. intros [-> | ->] Hi; (destruct i as [|[|[|[|[|i]]]]]; [..|lia]); split; reflexivity. Qed.
Lemma rv_b b o s i : (o = 0 \/ o = 10) -> (s = 0 \/ s = 1) -> (i < 5)%nat ->
  reverse (P b) (bath_orb o s i) = bath_orb o (1 - s) (ri b i) /\ reverse_sign (G b) (bath_orb o s i) = tw s (rho b i).
Proof. intros [-> | ->] [-> | ->] Hi; (destruct i as [|[|[|[|[|i]]]]]; [..|lia]); destruct b; split; reflexivity. Qed.
Lemma tw_tw s x y : tw s x * tw s y = x * y.
Proof. unfold tw. destruct (s =? 1); lia. Qed.
Variable p : cf_params (F := F).
Variables (b : bath_basis) (nB nV : Z).
Notation A1 := (wr (imp_list (imp_at fsqrt p)) [] : sop_t F).
Notation A2 := (wr (over (offs_of nB nV) (hop_w (v_at fsqrt p b))) [] : sop_t F).
Notation A3 := (wr (over (offs_of nB nV) (eb_w (e_at fsqrt p b))) [] : sop_t F).
Lemma A1_trd : trd (P b) (G b) A1 A1.
Proof.
  intros q a H. apply A1_dget. apply A1_dget, imp_In in H as (i & j & s & Hi & Hj & Hs & Hn & -> & ->). apply imp_In.
  exists (ri Spherical i), (ri Spherical j), (1 - s). pose proof (ri_lt Spherical i Hi). pose proof (ri_lt Spherical j Hj).
  assert (E : imp_at fsqrt p (ri Spherical i) (ri Spherical j) = (cofZ (rho Spherical i * rho Spherical j) * cconj (imp_at fsqrt p i j))%C) by (apply (rotm_rev Spherical Spherical); auto).
  destruct (rv_d b s i Hs Hi) as [R1 S1]. destruct (rv_d b s j Hs Hj) as [R2 S2].
  rewrite prv_hop2, psg_hop2, R1, R2, S1, S2, tw_tw, E. do 2 (split; [assumption|]). split; [lia|]. split; [|split; reflexivity].
  apply sgn_neq0; auto. apply sq_mul; apply rho_sq.
Qed.
Lemma A2_trd : trd (P b) (G b) A2 A2.
Proof.
  intros q a H. apply A2_dget. apply A2_dget, hop_In in H as (o & s & i & j & (Ho & Hs & Hi & Hj) & Hn & H). apply hop_In.
  exists o, (1 - s), (ri b i), (ri Spherical j). pose proof (ri_lt b i Hi). pose proof (ri_lt Spherical j Hj). pose proof (offs_ok' _ _ _ Ho) as Ho'.
  assert (E : v_at fsqrt p b o (ri b i) (ri Spherical j) = (cofZ (rho b i * rho Spherical j) * cconj (v_at fsqrt p b o i j))%C).
  { unfold v_at. destruct (o =? 0); apply (rotm_rev b Spherical); auto. }
  destruct (rv_b b o s i Ho' Hs Hi) as [R1 S1]. destruct (rv_d b s j Hs Hj) as [R2 S2].
  rewrite E. split; [repeat split; auto; lia|]. split.
  { apply sgn_neq0; auto. apply sq_mul; apply rho_sq. }
  destruct H as [[-> ->]|[-> ->]]; rewrite prv_hop2, psg_hop2, R1, R2, S1, S2, tw_tw; [left|right].
  - split; reflexivity.
  - split; [reflexivity|]. rewrite cconj_mul, cconj_cofZ, cconj_conj. f_equal. f_equal. lia.
Qed.
Lemma A3_trd : trd (P b) (G b) A3 A3.
Proof.
  intros q a H. apply A3_dget. apply A3_dget, eb_In in H as (o & s & i & j & (Ho & Hs & Hi & Hj) & Hn & -> & ->). apply eb_In.
  exists o, (1 - s), (ri b i), (ri b j). pose proof (ri_lt b i Hi). pose proof (ri_lt b j Hj). pose proof (offs_ok' _ _ _ Ho) as Ho'.
  assert (E : e_at fsqrt p b o (ri b i) (ri b j) = (cofZ (rho b i * rho b j) * cconj (e_at fsqrt p b o i j))%C).
  { unfold e_at. destruct (o =? 0); apply (rotm_rev b b); auto. }
  destruct (rv_b b o s i Ho' Hs Hi) as [R1 S1]. destruct (rv_b b o s j Ho' Hs Hj) as [R2 S2].
  rewrite prv_hop2, psg_hop2, R1, R2, S1, S2, tw_tw, E. split; [repeat split; auto; lia|]. split; [|split; reflexivity].
  apply sgn_neq0; auto. apply sq_mul; apply rho_sq.
Qed.
Variable nb : nbaths_t.
Hypothesis Hwf : wf_nbaths nb.
Hypothesis Hang : NoDup (angs nb).
Hypothesis Hd2 : In 2 (angs nb).
Hypothesis HB : In (KInt 2, nB) nb.
Hypothesis HV : nB - nV = 10 -> 20 <= nB.
Hypothesis H10 : 10 <= nB.
Hypothesis Hten : Forall (fun kn => snd kn mod 10 = 0) nb.
Lemma cf_pairs : pairs (P b) (G b) nb.
Proof.
  intros k n x Hi Hx. rewrite Forall_forall in Hten. specialize (Hten _ Hi). cbn [snd] in Hten.
  pose proof (Z.div_mod n 10 ltac:(lia)) as Dn. rewrite Hten in Dn.
  pose proof (Z.div_mod x 10 ltac:(lia)) as Dx. pose proof (Z.mod_pos_bound x 10 ltac:(lia)) as Bx.
  set (q := x / 10) in *. set (r := x mod 10) in *. clearbody q r. clear Hi. subst x.
  assert (Q : forall d, 0 <= d < 10 -> (10 * q + d) / 10 = q) by (intros d Hd; symmetry; apply Z.div_unique with d; lia).
  assert (M : forall d, 0 <= d < 10 -> (10 * q + d) mod 10 = d) by (intros d Hd; symmetry; apply Z.mod_unique with q; lia).
  assert (M5 : forall d, (10 * q + d) mod 5 = d mod 5) by (intros d; replace (10 * q + d) with (d + (2 * q) * 5) by lia; apply Z.mod_add; lia).
  assert (M' : forall d, (10 * q + d + 5) mod 10 = (d + 5) mod 10) by (intros d; replace (10 * q + d + 5) with (d + 5 + q * 10) by lia; apply Z.mod_add; lia).
  assert (PS : cf_partner Spherical k (10 * q + r) = 10 * q + (9 - r)) by (unfold cf_partner; rewrite Q, M by lia; lia).
  assert (PS' : cf_partner Spherical k (10 * q + (9 - r)) = 10 * q + r) by (unfold cf_partner; rewrite Q, M by lia; lia).
  assert (B5 : 0 <= (r + 5) mod 10 < 10) by (apply Z.mod_pos_bound; lia).
  assert (I5 : ((r + 5) mod 10 + 5) mod 10 = r) by (assert (H : In r [0;1;2;3;4;5;6;7;8;9]) by (cbn; lia); cbn in H; repeat (destruct H as [<-|H]; [reflexivity|]); destruct H).
  assert (PC : forall bb, bb <> Spherical -> forall d, 0 <= d < 10 -> cf_partner bb k (10 * q + d) = 10 * q + (d + 5) mod 10).
  { intros [] Hbb d Hd; [congruence|..]; unfold cf_partner; rewrite Q, M' by lia; reflexivity. }
  assert (SG : forall bb d, 0 <= d < 10 -> cf_sign bb k (10 * q + d) = cf_sign bb k d).
  { intros bb d Hd. unfold cf_sign. rewrite M, M5 by auto. rewrite (Z.mod_small d 10) by auto. reflexivity. }
  destruct b.
  - rewrite PS, PS', !SG by lia. split; [lia|]. split; [reflexivity|].
    assert (H : In r [0;1;2;3;4;5;6;7;8;9]) by (cbn; lia). clear -H. cbn in H. repeat (destruct H as [<-|H]; [cbn; split; [auto|reflexivity]|]). destruct H.
  - rewrite !(PC Cubic) by (congruence || lia). rewrite I5, !SG by lia. split; [lia|]. split; [reflexivity|].
    assert (H : In r [0;1;2;3;4;5;6;7;8;9]) by (cbn; lia). clear -H. cbn in H. repeat (destruct H as [<-|H]; [cbn; split; [auto|reflexivity]|]). destruct H.
  - rewrite !(PC OtherBasis) by (congruence || lia). rewrite I5, !SG by lia. split; [lia|]. split; [reflexivity|].
    assert (H : In r [0;1;2;3;4;5;6;7;8;9]) by (cbn; lia). clear -H. cbn in H. repeat (destruct H as [<-|H]; [cbn; split; [auto|reflexivity]|]). destruct H.
Qed.
Lemma d_ok s i : (s = 0 \/ s = 1) -> (i < 5)%nat -> coord_ok nb (d_orb s i).
Proof. intros Hs Hi. cbn. split; auto. split; auto. lia. Qed.
Lemma b_ok o s i : In o (offs_of nB nV) -> (s = 0 \/ s = 1) -> (i < 5)%nat -> coord_ok nb (bath_orb o s i).
Proof. intros Ho Hs Hi. unfold bath_orb, coord_ok. exists nB. split; auto. apply offs_ok in Ho. destruct Ho as [-> | [-> E]]; [|apply HV in E]; lia. Qed.
Lemma hop_ok x y : coord_ok nb x -> coord_ok nb y -> Forall (fun xa : spinorb * ascii => coord_ok nb (fst xa)) (hop2 x y).
Proof. intros. unfold hop2. repeat (apply Forall_cons || apply Forall_nil); auto. Qed.
Lemma A_keys (A : sop_t F) : In A [A1; A2; A3] -> forall q, In q (dkeys A) -> exists x y, q = hop2 x y /\ coord_ok nb x /\ coord_ok nb y.
Proof.
  intros HA q Hq. apply dget_Some_key in Hq as [v Hq]. destruct HA as [<-|[<-|[<-|[]]]].
  - apply A1_dget, imp_In in Hq as (i & j & s & Hi & Hj & Hs & _ & -> & _). eauto 8 using d_ok.
  - apply A2_dget, hop_In in Hq as (o & s & i & j & (Ho & Hs & Hi & Hj) & _ & [[-> _]|[-> _]]); eauto 8 using d_ok, b_ok.
  - apply A3_dget, eb_In in Hq as (o & s & i & j & (Ho & Hs & Hi & Hj) & _ & -> & _). eauto 8 using b_ok.
Qed.
Lemma CF_tr : tr (P b) (G b) nb (addOps [A1; A2; A3]) (addOps [A1; A2; A3]).
Proof.
  assert (X : forall A : sop_t F, In A [A1; A2; A3] -> NoDup (dkeys A) -> trd (P b) (G b) A A -> tr (P b) (G b) nb A A).
  { intros A HA HN HT. assert (HI : op_in nb A). { apply keys_in. intros q Hq. destruct (A_keys A HA q Hq) as (x & y & -> & Hx & Hy). apply hop_ok; auto. }
    apply trd_tr; auto; [apply cf_pairs|]. intros q Hq. destruct (A_keys A HA q Hq) as (x & y & -> & _). reflexivity. }
  pose proof (A_NoDup fsqrt p b nB nV) as N. apply Forall_cons_iff in N as [N1 N]. apply Forall_cons_iff in N as [N2 N]. apply Forall_cons_iff in N as [N3 _].
  apply tr_addOps; auto using cf_pairs. constructor; [apply X; [left; reflexivity|exact N1|apply A1_trd]|].
  constructor; [apply X; [right; left; reflexivity|exact N2|apply A2_trd]|]. constructor; [apply X; [right; right; left; reflexivity|exact N3|apply A3_trd]|constructor].
Qed.
End CF.
Section Z.
Context {F : ofield}.
Add Field Ff3 : (f_field F).
Lemma fopp_zero : (- 0)%F = (0 : F)%F. Proof. ring. Qed.
End Z.
Lemma opposite_0 {F : ofield} (hp : @ham_params F) : no_field hp -> opposite_field hp = hp.
Proof.
  intros (H1 & H2 & H3). destruct hp. cbn in *. subst. unfold opposite_field. cbn. rewrite !fopp_zero. reflexivity.
Qed.
Lemma total_rev {F : ofield} (fsqrt : F -> F) pi gaunt fint nb hp bp bs h0 h0' hOp hOp' :
  wf_nbaths nb -> NoDup (angs nb) -> pairs bp bs nb ->
  (forall l1 l2 l3 m1 m2 m3, gaunt l1 l2 l3 (- m1) (- m2) (- m3) = gaunt l1 l2 l3 m1 m2 m3) -> ham_set fint nb hp ->
  NoDup (dkeys h0) -> good_labels h0 -> op_in nb h0 -> NoDup (dkeys h0') -> good_labels h0' -> op_in nb h0' ->
  reverses bp bs nb (indexed nb h0) (indexed nb h0') ->
  get_hamiltonian_operator fsqrt pi gaunt fint nb hp h0 = Ok hOp ->
  get_hamiltonian_operator fsqrt pi gaunt fint nb (opposite_field hp) h0' = Ok hOp' -> reverses bp bs nb hOp hOp'.
Proof. intros Hw Ha Hp Hg (Hf & (n & H1) & H2 & H3 & H4 & H5 & H6 & H7). exact (tr_total bp bs nb Hw Ha Hp fsqrt pi gaunt Hg fint Hf H6 H7 hp n h0 h0' hOp hOp' H1 H2 H3 H4 H5). Qed.
Lemma total_rev_CF {F : ofield} (fsqrt : F -> F) pi gaunt fint nb nv hp params b hOp hOp' :
  (forall x : F, (0 <= x)%F -> (0 <= fsqrt x)%F /\ (fsqrt x * fsqrt x)%F = x) ->
  (forall l1 l2 l3 m1 m2 m3, gaunt l1 l2 l3 (- m1) (- m2) (- m3) = gaunt l1 l2 l3 m1 m2 m3) -> ham_set fint nb hp -> cf_system nb nv -> b <> OtherBasis ->
  get_hamiltonian_operator_using_CF fsqrt pi gaunt fint nb nv hp params b = Ok hOp ->
  get_hamiltonian_operator_using_CF fsqrt pi gaunt fint nb nv (opposite_field hp) params b = Ok hOp' ->
  reverses (cf_partner b) (cf_sign b) nb hOp hOp'.
Proof.
  intros Hs Hg Hh (Hw & Ha & HB & HV & H10) Hb E E'.
  assert (X : exists nB, dget nb (KInt 2) = Some nB /\ (nB = 10 \/ nB = 20)) by (destruct HB; eauto). destruct X as (nB & HB' & EB). clear HB.
  set (p := read_h0_CF_file params) in *. pose proof (CF_eq fsqrt p nb nv b nB 10 Hb HB' HV) as EC.
  destruct (total_CF fint fsqrt pi gaunt nb hp Hw nv params b nB 10 Hb HB' HV eq_refl EB) as (h0 & C1 & C2 & C3 & C4 & _ & C6).
  destruct (total_CF fint fsqrt pi gaunt nb (opposite_field hp) Hw nv params b nB 10 Hb HB' HV eq_refl EB) as (h0' & D1 & _ & _ & _ & _ & D6).
  fold p in C1, D1. rewrite C1 in D1. injection D1 as <-. rewrite C6 in E. rewrite D6 in E'.
  assert (GL : good_labels h0) by (apply assert_hermitian_iff in C3 as [G _]; auto).
  refine (total_rev fsqrt pi gaunt fint nb hp _ _ h0 h0 hOp hOp' Hw Ha _ Hg Hh C2 GL C4 C2 GL C4 _ E E').
  - apply (cf_pairs b nb); auto.
  - apply tr_reverses; auto; [apply (cf_pairs b nb); auto|]. rewrite EC in C1. injection C1 as <-.
    destruct Hh as (_ & _ & _ & _ & _ & _ & _ & Hd). apply CF_tr; auto; [apply dget_In; auto|lia|lia].
Qed.
Lemma rev_SOC {F : ofield} (fsqrt : F -> F) bp bs nb : wf_nbaths nb -> NoDup (angs nb) -> pairs bp bs nb -> forall xi l, In l (angs nb) ->
  reverses bp bs nb (indexed nb (getSOCop fsqrt xi l)) (indexed nb (getSOCop fsqrt xi l)).
Proof. intros Hw Ha Hp xi l Hl. assert (G : good_labels (getSOCop fsqrt xi l)) by (eapply good_one; apply soc_matrix). apply tr_reverses; auto. apply tr_soc; auto. Qed.
Lemma rev_field {F : ofield} bp bs nb : wf_nbaths nb -> NoDup (angs nb) -> pairs bp bs nb -> forall (hx hy hz : F) l, In l (angs nb) ->
  reverses bp bs nb (indexed nb (gethHfieldop hx hy hz l)) (indexed nb (gethHfieldop (- hx)%F (- hy)%F (- hz)%F l)).
Proof. intros Hw Ha Hp hx hy hz l Hl. apply tr_reverses; auto; [eapply good_one; apply fld_matrix..|]. apply tr_fld; auto. Qed.
Lemma rev_U {F : ofield} (fsqrt : F -> F) pi gaunt bp bs nb : wf_nbaths nb -> NoDup (angs nb) -> pairs bp bs nb ->
  (forall l1 l2 l3 m1 m2 m3, gaunt l1 l2 l3 (- m1) (- m2) (- m3) = gaunt l1 l2 l3 m1 m2 m3) ->
  forall l1 l2 l3 l4 R, (forall l, In l [l1; l2; l3; l4] -> In l (angs nb)) ->
  reverses bp bs nb (indexed nb (getUop fsqrt pi gaunt l1 l2 l3 l4 R)) (indexed nb (getUop fsqrt pi gaunt l1 l2 l3 l4 R)).
Proof. intros Hw Ha Hp Hg l1 l2 l3 l4 R Hl. apply tr_reverses; auto; [apply good_U..|]. apply tr_U; auto. Qed.
Lemma total_rev_CF' {F : ofield} (fsqrt : F -> F) pi gaunt fint nb nv hp params b hOp hOp' :
  (forall x : F, (0 <= x)%F -> (0 <= fsqrt x)%F /\ (fsqrt x * fsqrt x)%F = x) ->
  (forall l1 l2 l3 m1 m2 m3, gaunt l1 l2 l3 (- m1) (- m2) (- m3) = gaunt l1 l2 l3 m1 m2 m3) -> ham_set fint nb hp -> cf_system nb nv -> b <> OtherBasis ->
  get_hamiltonian_operator_using_CF fsqrt pi gaunt fint nb nv hp params b = Ok hOp ->
  get_hamiltonian_operator_using_CF fsqrt pi gaunt fint nb nv (opposite_field hp) params b = Ok hOp' ->
  pairs (cf_partner b) (cf_sign b) nb /\ reverses (cf_partner b) (cf_sign b) nb hOp hOp'.
Proof.
  intros Hs Hg Hh Hc Hb E E'. split; [apply (cf_pairs b nb); apply Hc|]. exact (total_rev_CF fsqrt pi gaunt fint nb nv hp params b hOp hOp' Hs Hg Hh Hc Hb E E').
Qed.
Lemma CF_kramers {F : ofield} (fsqrt : F -> F) pi gaunt fint nb nv hp params b hOp :
  (forall x : F, (0 <= x)%F -> (0 <= fsqrt x)%F /\ (fsqrt x * fsqrt x)%F = x) ->
  (forall l1 l2 l3 m1 m2 m3, gaunt l1 l2 l3 (- m1) (- m2) (- m3) = gaunt l1 l2 l3 m1 m2 m3) -> ham_set fint nb hp -> cf_system nb nv -> b <> OtherBasis ->
  no_field hp -> get_hamiltonian_operator_using_CF fsqrt pi gaunt fint nb nv hp params b = Ok hOp ->
  forall e v, eigenvector (n_orb nb) hOp e v -> odd_electrons (n_orb nb) v ->
  exists w, eigenvector (n_orb nb) hOp e w /\ vdot (n_orb nb) w w = vdot (n_orb nb) v v /\ vdot (n_orb nb) v w = c0.
Proof.
  intros Hs Hg Hh Hc Hb Hz E e v Hv Ho. exists (timerev (cf_partner b) (cf_sign b) nb v).
  assert (E' := E). rewrite <- (opposite_0 hp Hz) in E' at 1.
  destruct (total_rev_CF' fsqrt pi gaunt fint nb nv hp params b hOp hOp Hs Hg Hh Hc Hb E E') as [Hp Hr]. destruct Hc as (Hw & Ha & _).
  destruct (kramers (cf_partner b) (cf_sign b) nb Hw Ha Hp hOp e v Hr Hv) as (K1 & K2 & K3). split; [exact K1|]. split; [exact K2|exact (K3 Ho)].
Qed.
