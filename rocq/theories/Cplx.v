(** Complex numbers over the standard-library reals, 2x2 matrices and
    2-vectors.  Pure mathematics (specification side): nothing here models a
    particular piece of graphix code; numpy's [complex128] is idealised as [C]. *)
From Coq Require Import Reals Lra Psatz FunctionalExtensionality Bool.
Local Open Scope R_scope.

Record C := mkC { re : R; im : R }.

Lemma C_eq (a b : C) : re a = re b -> im a = im b -> a = b.
Proof. destruct a, b; simpl; intros; subst; reflexivity. Qed.

Definition C0 := mkC 0 0.
Definition C1 := mkC 1 0.
Definition Ci := mkC 0 1.
Definition RtoC (x : R) := mkC x 0.
Definition Cadd a b := mkC (re a + re b) (im a + im b).
Definition Copp a := mkC (- re a) (- im a).
Definition Csub a b := Cadd a (Copp b).
Definition Cmul a b := mkC (re a * re b - im a * im b) (re a * im b + im a * re b).
Definition Cconj a := mkC (re a) (- im a).
Definition Cnorm2 a := re a * re a + im a * im a.

Declare Scope C_scope.
Delimit Scope C_scope with C.
Bind Scope C_scope with C.
Infix "+" := Cadd : C_scope.
Infix "*" := Cmul : C_scope.
Infix "-" := Csub : C_scope.
Notation "- x" := (Copp x) : C_scope.
Local Open Scope C_scope.

Lemma C_ring_theory : ring_theory C0 C1 Cadd Cmul Csub Copp eq.
Proof.
  constructor; intros; apply C_eq; simpl; ring.
Qed.
Add Ring Cring : C_ring_theory.

Ltac ceq := apply C_eq; simpl.

Lemma Cconj_add a b : Cconj (a + b) = Cconj a + Cconj b.
Proof. ceq; ring. Qed.
Lemma Cconj_mul a b : Cconj (a * b) = Cconj a * Cconj b.
Proof. ceq; ring. Qed.
Lemma Cconj_opp a : Cconj (- a) = - Cconj a.
Proof. ceq; ring. Qed.
Lemma Cconj_inv a : Cconj (Cconj a) = a.
Proof. ceq; ring. Qed.
Lemma Cconj_0 : Cconj C0 = C0.
Proof. ceq; ring. Qed.
Lemma Cconj_1 : Cconj C1 = C1.
Proof. ceq; ring. Qed.
Lemma Cconj_i : Cconj Ci = - Ci.
Proof. ceq; ring. Qed.
Lemma Cconj_R x : Cconj (RtoC x) = RtoC x.
Proof. ceq; ring. Qed.
Lemma RtoC_add x y : RtoC (x + y) = RtoC x + RtoC y.
Proof. ceq; ring. Qed.
Lemma RtoC_mul x y : RtoC (x * y) = RtoC x * RtoC y.
Proof. ceq; ring. Qed.
Lemma RtoC_opp x : RtoC (- x) = - RtoC x.
Proof. ceq; ring. Qed.
Lemma Ci_sq : Ci * Ci = - C1.
Proof. ceq; ring. Qed.
Lemma Cnorm2_mul a b : Cnorm2 (a * b) = (Cnorm2 a * Cnorm2 b)%R.
Proof. unfold Cnorm2; simpl; ring. Qed.
Lemma Cnorm2_conj a : Cnorm2 (Cconj a) = Cnorm2 a.
Proof. unfold Cnorm2; simpl; ring. Qed.
Lemma Cnorm2_R x : Cnorm2 (RtoC x) = (x * x)%R.
Proof. unfold Cnorm2; simpl; ring. Qed.
Lemma Cnorm2_mulconj a : a * Cconj a = RtoC (Cnorm2 a).
Proof. unfold Cnorm2; ceq; ring. Qed.
Lemma Cnorm2_nonneg a : (0 <= Cnorm2 a)%R.
Proof. unfold Cnorm2; nra. Qed.
Lemma Cnorm2_0 a : Cnorm2 a = 0%R -> a = C0.
Proof. unfold Cnorm2; intros H; ceq; nra. Qed.
Lemma C1_neq_C0 : C1 <> C0.
Proof. intros H; apply (f_equal re) in H; simpl in H; lra. Qed.

(** Unit-modulus scalars ("global phases"). *)
Definition phase (c : C) : Prop := Cnorm2 c = 1%R.
Lemma phase_1 : phase C1.
Proof. unfold phase, Cnorm2; simpl; ring. Qed.
Lemma phase_m1 : phase (- C1).
Proof. unfold phase, Cnorm2; simpl; ring. Qed.
Lemma phase_i : phase Ci.
Proof. unfold phase, Cnorm2; simpl; ring. Qed.
Lemma phase_mi : phase (- Ci).
Proof. unfold phase, Cnorm2; simpl; ring. Qed.
Lemma phase_mul a b : phase a -> phase b -> phase (a * b).
Proof. unfold phase; intros; rewrite Cnorm2_mul, H, H0; ring. Qed.
Lemma phase_conj a : phase a -> phase (Cconj a).
Proof. unfold phase; intros; rewrite Cnorm2_conj; auto. Qed.
Lemma phase_inv a : phase a -> a * Cconj a = C1.
Proof. unfold phase; intros H; rewrite Cnorm2_mulconj, H; reflexivity. Qed.
Lemma phase_inv' a : phase a -> Cconj a * a = C1.
Proof. intros; rewrite <- (phase_inv a H); ring. Qed.

(** e^{i pi a}: graphix angles are in units of pi
    (fundamentals.py:25-62, [ANGLE_PI = 1], [angle_to_rad]). *)
Definition cis (a : R) : C := mkC (cos (a * PI)) (sin (a * PI)).
Lemma phase_cis a : phase (cis a).
Proof. unfold phase, Cnorm2, cis; simpl. pose proof (sin2_cos2 (a * PI)) as H; unfold Rsqr in H; lra. Qed.
Lemma cis_add a b : cis (a + b) = cis a * cis b.
Proof. unfold cis; ceq; rewrite Rmult_plus_distr_r; [rewrite cos_plus | rewrite sin_plus]; ring. Qed.
Lemma cis_0 : cis 0 = C1.
Proof. unfold cis; ceq; rewrite Rmult_0_l; [apply cos_0 | apply sin_0]. Qed.
Lemma cis_1 : cis 1 = - C1.
Proof. unfold cis; ceq; rewrite Rmult_1_l; [rewrite cos_PI | rewrite sin_PI]; ring. Qed.
Lemma cis_2 : cis 2 = C1.
Proof. replace 2%R with (1 + 1)%R by ring. rewrite cis_add, cis_1. ring. Qed.
Lemma cis_half : cis (1 / 2) = Ci.
Proof. unfold cis; ceq; replace (1 / 2 * PI)%R with (PI / 2)%R by field; [apply cos_PI2 | apply sin_PI2]. Qed.
Lemma cis_opp a : cis (- a) = Cconj (cis a).
Proof. unfold cis; ceq; rewrite Ropp_mult_distr_l_reverse; [apply cos_neg | apply sin_neg]. Qed.
