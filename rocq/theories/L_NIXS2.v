(* The scattering operators of the program. *)
From Verif Require Import M_Prelude M_Scalar M_State M_Basis M_Expect M_Operators M_Program S_Fock S_Basis S_Operators S_NIXS L_Operators8 L_NIXS.
Local Open Scope Z_scope.
Lemma map_res_all {A B} (f : A -> res B) (P : A -> B -> Prop) l : (forall x, exists y, f x = Ok y /\ P x y) -> exists ys, map_res f l = Ok ys /\ Forall2 P l ys.
Proof.
  intros H. induction l as [|x l (ys & E & G)]; [exists []; auto|]. destruct (H x) as (y & Ey & Py). exists (y :: ys). cbn [map_res]. rewrite Ey. cbn [bind]. rewrite E. auto.
Qed.
Lemma nixs_all (F : ofield) (fsqrt : F -> F) pi gaunt arccos fsin spherical_jn sph_harm nb : wf_nbaths nb ->
  forall li lj, In li (angs nb) -> In lj (angs nb) -> forall qs mesh, exists ops,
  getNIXSOperators fsqrt arccos fsin pi gaunt spherical_jn sph_harm nb qs li lj mesh = Ok ops /\
  Forall2 (fun q op => let '(q0, q1, q2) := q in is_one_body nb op li lj
    (plane_wave fsqrt (gauntC fsqrt pi gaunt) (radial_int spherical_jn (fsqrt (q0 * q0 + q1 * q1 + q2 * q2)%F) mesh)
       (fun k m => sph_harm m k (nixs_phi fsqrt arccos fsin q0 q1 q2) (nixs_theta fsqrt arccos q0 q1 q2)) i_power
       (zrange2 1 (Z.abs (li + lj) + 1)))) qs ops.
Proof.
  intros W li lj Hi Hj qs mesh. unfold getNIXSOperators. apply map_res_all. intros [[q0 q1] q2]. exact (@nixs_elements F fsqrt pi gaunt arccos fsin spherical_jn sph_harm nb W li lj Hi Hj q0 q1 q2 mesh 1).
Qed.
