(* The operator of non-resonant inelastic x-ray scattering. *)
From Coq Require Import Permutation Ring Field.
From Verif Require Import M_Prelude M_Scalar M_PSR M_Ladder M_State M_Basis M_Expect M_Operators.
From Verif Require Import S_Fock S_Ops S_Basis S_Expect S_Operators.
From Verif Require Import L_Scalar L_Sum L_Dict L_Fock L_State L_ApplyOp L_Ops L_Index L_Expect L_Expect2 L_Expect3 L_Expect5 L_Expect6 L_Operators L_Operators2 L_Operators3 L_Operators4 L_Operators5 L_Operators6 L_Operators7.
Local Open Scope Z_scope.

Section A.
Context {F : ofield}.
Add Field Ff : (f_field F).
Add Ring Cring : (@c_ring F).
Lemma fold_res_add_inv {S A I} (P : S -> Prop) (ob : S -> I -> cx F) (g : A -> I -> cx F) f (l : list A) :
  (forall s a, In a l -> P s -> exists s', f s a = Ok s' /\ P s' /\ forall k, ob s' k = (ob s k + g a k)%C) ->
  forall s, P s -> exists s', fold_res f l s = Ok s' /\ P s' /\ forall k, ob s' k = (ob s k + csum (fun a => g a k) l)%C.
Proof.
  induction l as [|a l IH]; intros H s Hs.
  - exists s. split; [reflexivity|]. split; auto. intros k. cbn [csum]. ring.
  - destruct (H s a (or_introl eq_refl) Hs) as (s1 & E1 & P1 & G1).
    destruct (IH (fun s b Hb => H s b (or_intror Hb)) s1 P1) as (s2 & E2 & P2 & G2).
    exists s2. cbn [fold_res]. rewrite E1. cbn [bind]. split; auto. split; auto. intros k. rewrite G2, G1. cbn [csum]. ring.
Qed.
Variable fsqrt : F -> F.
Variable pi : F.
Variable gaunt : Z -> Z -> Z -> Z -> Z -> Z -> F.
Variable arccos fsin : F -> F.
Variable spherical_jn : Z -> F -> F.
Variable sph_harm : Z -> Z -> F -> F -> cx F.
Let ck := gauntC fsqrt pi gaunt.
Variable nb : nbaths_t.
Hypothesis W : wf_nbaths nb.
Variables li lj : Z.
Hypothesis Hli : In li (angs nb).
Hypothesis Hlj : In lj (angs nb).
Variables q0 q1 q2 : F.
Variable mesh : list (F * (cx F * cx F)).
Variable kmin : Z.
Let theta := nixs_theta fsqrt arccos q0 q1 q2.
Let phi := nixs_phi fsqrt arccos fsin q0 q1 q2.
Let Rk (k : Z) := rintegral spherical_jn k (norm3 fsqrt q0 q1 q2) mesh.
Definition nixs_t (k mi mj : Z) : cx F :=
  (Rk k * (ipow k * creal (fsqrt (fofZ (2 * k + 1)))) * cconj (sph_harm (mi - mj) k phi theta) * creal (ck k li mi lj mj))%C.
Definition inv (d : op_t F) : Prop := NoDup (dkeys d) /\ forall p, In p (dkeys d) -> exists x y, p = hkey nb x y /\ in_shell li x /\ in_shell lj y.
Definition kk (mi mj s : Z) := hkey nb (SImp li s mi) (SImp lj s mj).
Definition hit (mi mj s : Z) (k : list (Z * ascii)) (v : cx F) : cx F := if eqb k (kk mi mj s) then v else c0.
Lemma val_dadd (d : op_t F) k v k' : val (dadd d k v) k' = (val d k' + (if eqb k' k then v else c0))%C.
Proof. exact (dval_dadd d k v k'). Qed.
Lemma in_dadd (d : op_t F) k v p : In p (dkeys (dadd d k v)) -> p = k \/ In p (dkeys d).
Proof.
  intros Hp. unfold dadd in Hp. destruct (dget d k); apply in_dkeys_dset in Hp; destruct Hp; auto.
Qed.
Lemma nixs_sum : exists op, getNIXSOperator fsqrt pi gaunt arccos fsin spherical_jn sph_harm nb q0 q1 q2 li lj mesh kmin = Ok op /\ inv op /\
  forall key, val op key = csum (fun k => if (li + lj + k) mod 2 =? 0 then
    csum (fun mi => csum (fun mj => if Z.abs (mi - mj) <=? k then csum (fun s => hit mi mj s key (nixs_t k mi mj)) (zrange 2) else c0) (mrange lj)) (mrange li)
    else c0) (zrange2 kmin (Z.abs (li + lj) + 1)).
Proof.
  unfold getNIXSOperator. 
  match goal with |- exists op, fold_res ?f ?l ?s0 = Ok op /\ _ =>
    destruct (fold_res_add_inv inv (fun d key => val d key) (fun k key => if (li + lj + k) mod 2 =? 0 then
    csum (fun mi => csum (fun mj => if Z.abs (mi - mj) <=? k then csum (fun s => hit mi mj s key (nixs_t k mi mj)) (zrange 2) else c0) (mrange lj)) (mrange li)
    else c0) f l) with (s := s0) as (op & E & Hinv & G) end.
  - intros d k _ Hd. destruct ((li + lj + k) mod 2 =? 0); [|exists d; split; auto; split; auto; intros; ring].
    apply fold_res_add_inv; auto. clear d Hd. intros d mi Hmi Hd. apply fold_res_add_inv; auto. clear d Hd. intros d mj Hmj Hd.
    destruct (Z.leb_spec (Z.abs (mi - mj)) k) as [Hk|Hk]; [|exists d; split; auto; split; auto; intros; ring].
    unfold mrange in *. apply zrange2_In in Hmi, Hmj.
    change (rintegral spherical_jn k (norm3 fsqrt q0 q1 q2) mesh) with (Rk k).
    change (nixs_theta fsqrt arccos q0 q1 q2) with theta. change (nixs_phi fsqrt arccos fsin q0 q1 q2) with phi.
    change (gauntC fsqrt pi gaunt) with ck. fold (nixs_t k mi mj).
    destruct (ceqb_spec (nixs_t k mi mj) c0) as [Ez|Ez]; cbn [negb].
    + exists d. split; auto. split; auto. intros key. rewrite Ez. unfold hit. rewrite csum_zero; [ring|]. intros s _. destruct (eqb key _); auto.
    + apply fold_res_add_inv; auto. clear d Hd. intros d s Hs Hd. apply zrange_In in Hs.
      assert (Ci : coord_ok nb (SImp li s mi)) by (cbn; repeat split; auto; lia). assert (Cj : coord_ok nb (SImp lj s mj)) by (cbn; repeat split; auto; lia).
      rewrite (c2i_ok nb (SImp li s mi)), (c2i_ok nb (SImp lj s mj)) by auto. cbn [bind].
      eexists. split; [reflexivity|]. split; [|intros key; apply val_dadd].
      destruct Hd as [Hn Hk']. split.
      * apply NoDup_dadd. exact Hn.
      * intros p Hp.
        assert (Hp' : p = kk mi mj s \/ In p (dkeys d)) by (apply in_dadd in Hp; exact Hp).
        destruct Hp' as [-> |Hp']; auto. exists (SImp li s mi), (SImp lj s mj). split; auto. split; [exists s, mi|exists s, mj]; (split; [reflexivity|lia]).
  - split; [constructor|]. intros p [].
  - exists op. split; [exact E|]. split; [exact Hinv|]. intros key. rewrite G. unfold val. cbn [dget]. ring.
Qed.
Lemma mod2_even a : (a mod 2 =? 0) = Z.even a.
Proof. rewrite Zmod_even. destruct (Z.even a); reflexivity. Qed.
Lemma nixs_ok : exists op, getNIXSOperator fsqrt pi gaunt arccos fsin spherical_jn sph_harm nb q0 q1 q2 li lj mesh kmin = Ok op /\
  is_one_body nb op li lj (plane_wave fsqrt ck Rk (fun k m => sph_harm m k phi theta) ipow (zrange2 kmin (Z.abs (li + lj) + 1))).
Proof.
  destruct nixs_sum as (op & E & [Hn Hk] & G). exists op. split; [exact E|]. split; [exact Hn|]. split; [exact Hk|].
  intros x y (s & m & -> & Hs & Hm) (s' & m' & -> & Hs' & Hm'). change (pidx nb (hop2 (SImp li s m) (SImp lj s' m'))) with (hkey nb (SImp li s m) (SImp lj s' m')).
  rewrite G. unfold plane_wave, when.
  assert (HH : forall mi mj t v, - li <= mi <= li -> - lj <= mj <= lj -> (t = 0 \/ t = 1) -> 
    hit mi mj t (hkey nb (SImp li s m) (SImp lj s' m')) v = if (mi =? m) && (mj =? m') && (t =? s) && (t =? s') then v else c0).
  { intros mi mj t v Hi Hj Ht. unfold hit, kk. destruct (eqb_spec (hkey nb (SImp li s m) (SImp lj s' m')) (hkey nb (SImp li t mi) (SImp lj t mj))) as [Eq|Ne].
    - apply (hkey_inj nb W) in Eq; try (cbn; auto; fail). destruct Eq as [E1 E2]. injection E1 as -> ->. injection E2 as -> ->. rewrite !Z.eqb_refl. auto.
    - destruct (Z.eqb_spec mi m) as [->|]; auto. destruct (Z.eqb_spec mj m') as [->|]; auto. destruct (Z.eqb_spec t s) as [->|]; auto.
      destruct (Z.eqb_spec s s') as [->|]; auto. congruence. }
  assert (K : forall k, csum (fun mi => csum (fun mj => if Z.abs (mi - mj) <=? k then csum (fun t => hit mi mj t (hkey nb (SImp li s m) (SImp lj s' m')) (nixs_t k mi mj)) (zrange 2) else c0) (mrange lj)) (mrange li)
     = if (s =? s') && (Z.abs (m - m') <=? k) then nixs_t k m m' else c0).
  { intros k. unfold mrange. rewrite (csum_single _ _ m); [|apply zrange2_NoDup|apply zrange2_In; lia|].
    - rewrite (csum_single _ _ m'); [|apply zrange2_NoDup|apply zrange2_In; lia|].
      + destruct (Z.abs (m - m') <=? k); [|rewrite Bool.andb_false_r; auto]. rewrite Bool.andb_true_r.
        change (zrange 2) with [0; 1]. cbn [csum]. rewrite !HH by auto. rewrite !Z.eqb_refl. cbn [andb].
        destruct Hs as [-> | ->], Hs' as [-> | ->]; cbn; ring.
      + intros mj Hj Hne. apply zrange2_In in Hj. destruct (Z.abs (m - mj) <=? k); auto. apply csum_zero. intros t Ht. apply zrange_In in Ht.
        rewrite HH by lia. destruct (Z.eqb_spec mj m'); [congruence|]. rewrite Bool.andb_false_r. auto.
    - intros mi Hi Hne. apply zrange2_In in Hi. apply csum_zero. intros mj Hj. apply zrange2_In in Hj. destruct (Z.abs (mi - mj) <=? k); auto.
      apply csum_zero. intros t Ht. apply zrange_In in Ht. rewrite HH by lia. destruct (Z.eqb_spec mi m); [congruence|]. auto. }
  destruct (Z.eqb_spec s s') as [<-|Hne].
  - apply csum_ext. intros k _. rewrite mod2_even, K. rewrite ?Z.eqb_refl. cbn [andb]. destruct (Z.even (li + lj + k)); auto. cbn [andb].
    destruct (Z.abs (m - m') <=? k); auto. unfold nixs_t. ring.
  - apply csum_zero. intros k _. rewrite K. destruct (Z.eqb_spec s s'); [congruence|]; cbn [andb]. destruct (_ =? 0); auto.
Qed.
(* the sign of q_y is lost *)
Lemma nixs_phi_mirror : nixs_phi fsqrt arccos fsin q0 (- q1)%F q2 = nixs_phi fsqrt arccos fsin q0 q1 q2.
Proof.
  unfold nixs_phi, nixs_theta, norm3. replace (- q1 * - q1)%F with (q1 * q1)%F by ring. reflexivity.
Qed.
Lemma nixs_mirror : getNIXSOperator fsqrt pi gaunt arccos fsin spherical_jn sph_harm nb q0 (- q1)%F q2 li lj mesh kmin =
  getNIXSOperator fsqrt pi gaunt arccos fsin spherical_jn sph_harm nb q0 q1 q2 li lj mesh kmin.
Proof.
  unfold getNIXSOperator. rewrite nixs_phi_mirror. unfold nixs_theta, norm3. replace (- q1 * - q1)%F with (q1 * q1)%F by ring. reflexivity.
Qed.
End A.
