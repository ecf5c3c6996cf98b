(* Scalars of the model.  Python floats are modelled as elements of an ordered field,
   Python complex numbers as pairs of such elements.  Rounding is not modelled. *)
From Coq Require Import Field Ring Qcanon.
From Verif Require Import M_Prelude.

Record ofield := mkOF {
  car :> Type;
  f0 : car; f1 : car;
  fadd : car -> car -> car; fmul : car -> car -> car;
  fsub : car -> car -> car; fopp : car -> car;
  fdiv : car -> car -> car; finv : car -> car;
  fltb : car -> car -> bool;
  f_field : field_theory f0 f1 fadd fmul fsub fopp fdiv finv (@eq car);
  flt_irrefl : forall x, fltb x x = false;
  flt_trans : forall x y z, fltb x y = true -> fltb y z = true -> fltb x z = true;
  flt_total : forall x y, fltb x y = false -> fltb y x = false -> x = y;
  flt_add : forall x y z, fltb x y = true -> fltb (fadd x z) (fadd y z) = true;
  flt_mul : forall x y, fltb f0 x = true -> fltb f0 y = true -> fltb f0 (fmul x y) = true
}.
Arguments f0 {_}. Arguments f1 {_}.
Arguments fadd {_}. Arguments fmul {_}. Arguments fsub {_}. Arguments fopp {_}.
Arguments fdiv {_}. Arguments finv {_}. Arguments fltb {_}.

Declare Scope of_scope.
Delimit Scope of_scope with F.
Bind Scope of_scope with car.
Notation "0" := f0 : of_scope.
Notation "1" := f1 : of_scope.
Infix "+" := fadd : of_scope.
Infix "*" := fmul : of_scope.
Infix "-" := fsub : of_scope.
Notation "- x" := (fopp x) : of_scope.
Infix "/" := fdiv : of_scope.
Infix "<?" := fltb : of_scope.
Notation "x < y" := (fltb x y = true) : of_scope.
Notation "x <= y" := (fltb y x = false) : of_scope.

Definition feqb {F : ofield} (x y : F) : bool := negb (fltb x y) && negb (fltb y x).

(* Complex numbers. *)
Record cx (F : ofield) := mkC { re : F; im : F }.
Arguments mkC {F} re im. Arguments re {F} c. Arguments im {F} c.

Section Cx.
Context {F : ofield}.
Local Open Scope of_scope.
Definition c0 : cx F := mkC 0 0.
Definition c1 : cx F := mkC 1 0.
Definition cI : cx F := mkC 0 1.
Definition cadd (x y : cx F) : cx F := mkC (re x + re y) (im x + im y).
Definition csub (x y : cx F) : cx F := mkC (re x - re y) (im x - im y).
Definition copp (x : cx F) : cx F := mkC (- re x) (- im x).
Definition cmul (x y : cx F) : cx F :=
  mkC (re x * re y - im x * im y) (re x * im y + im x * re y).
Definition cconj (x : cx F) : cx F := mkC (re x) (- im x).
(* abs(x)**2 *)
Definition cabs2 (x : cx F) : F := re x * re x + im x * im x.
Definition cinv (x : cx F) : cx F := mkC (re x / cabs2 x) (- im x / cabs2 x).
Definition cdiv (x y : cx F) : cx F := cmul x (cinv y).
Definition creal (x : F) : cx F := mkC x 0.
Definition ceqb (x y : cx F) : bool := feqb (re x) (re y) && feqb (im x) (im y).
(* Python integer (an amplitude -1, 0, 1) used as complex number *)
Definition fofZ (z : Z) : F :=
  match z with
  | Z0 => 0
  | Zpos p => Pos.iter_op (@fadd F) p 1
  | Zneg p => - Pos.iter_op (@fadd F) p 1
  end.
Definition cofZ (z : Z) : cx F := creal (fofZ z).
(* fractional constants such as 1/2 *)
Definition fhalf : F := 1 / (1 + 1).
End Cx.

Declare Scope cx_scope.
Delimit Scope cx_scope with C.
Bind Scope cx_scope with cx.
Infix "+" := cadd : cx_scope.
Infix "*" := cmul : cx_scope.
Infix "-" := csub : cx_scope.
Notation "- x" := (copp x) : cx_scope.
Infix "/" := cdiv : cx_scope.

(* Executable instance: canonical rationals. *)
Definition Qc_ltb (x y : Qc) : bool := match Qccompare x y with Lt => true | _ => false end.
Lemma Qc_ltb_lt x y : Qc_ltb x y = true <-> (x < y)%Qc.
Proof. unfold Qc_ltb. rewrite Qclt_alt. destruct (Qccompare x y); split; congruence. Qed.

Definition QcF : ofield.
Proof.
  refine (mkOF Qc 0%Qc 1%Qc Qcplus Qcmult Qcminus Qcopp Qcdiv Qcinv Qc_ltb Qcft _ _ _ _ _).
  - intros x. destruct (Qc_ltb x x) eqn:E; auto.
    apply Qc_ltb_lt in E. exfalso. apply (Qclt_not_eq _ _ E). reflexivity.
  - intros x y z Hx Hy. apply Qc_ltb_lt in Hx, Hy. apply Qc_ltb_lt. eapply Qclt_trans; eauto.
  - intros x y Hx Hy. destruct (Qc_dec x y) as [[H|H]|H]; auto; apply Qc_ltb_lt in H; congruence.
  - intros x y z H. apply Qc_ltb_lt in H. apply Qc_ltb_lt.
    unfold Qclt, Qcplus in *; cbn [this Q2Qc] in *. rewrite !Qreduction.Qred_correct.
    apply QArith_base.Qplus_lt_l. exact H.
  - intros x y Hx Hy. apply Qc_ltb_lt in Hx, Hy. apply Qc_ltb_lt.
    replace 0%Qc with (0 * y)%Qc by apply Qcmult_0_l.
    apply Qcmult_lt_compat_r; assumption.
Defined.
