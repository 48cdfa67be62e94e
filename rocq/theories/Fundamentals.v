(** Model of graphix/fundamentals.py, graphix/pauli.py (signs, complex units,
    axes, planes, Pauli gates). *)
From Coq Require Import Reals Lra ZArith List Bool.
From Verif Require Import Cplx Mat2.
Import ListNotations.
Local Open Scope C_scope.

(** fundamentals.py:71-75 class Sign *)
Inductive sign := Plus | Minus.
Definition sign_eqb a b := match a, b with Plus, Plus | Minus, Minus => true | _, _ => false end.
(** fundamentals.py:82-87 plus_if *)
Definition plus_if (b : bool) : sign := if b then Plus else Minus.
(** fundamentals.py:89-94 minus_if *)
Definition minus_if (b : bool) : sign := if b then Minus else Plus.
(** fundamentals.py:96-98 __neg__ *)
Definition sign_neg (s : sign) : sign := minus_if (sign_eqb s Plus).
(** fundamentals.py:112-122 __mul__ (Sign x Sign) *)
Definition sign_mul (a b : sign) : sign := plus_if (sign_eqb a b).
(** fundamentals.py:139-142 __int__, __float__, __complex__ *)
Definition sign_R (s : sign) : R := match s with Plus => 1%R | Minus => (-1)%R end.
Definition sign_C (s : sign) : C := RtoC (sign_R s).

(** fundamentals.py:160-173 class ComplexUnit (values 0..3) *)
Inductive cunit := UOne | UJ | UMOne | UMJ.
Definition cunit_val u := match u with UOne => 0 | UJ => 1 | UMOne => 2 | UMJ => 3 end.
(** [ComplexUnit(v)]; only called on [v mod 4] *)
Definition cunit_of (v : nat) := match v with 0 => UOne | 1 => UJ | 2 => UMOne | _ => UMJ end.
(** fundamentals.py:201-206 from_properties *)
Definition cunit_props (s : sign) (im : bool) : cunit :=
  cunit_of ((match s with Plus => 0 | Minus => 2 end) + (if im then 1 else 0)).
(** fundamentals.py:208-211 sign *)
Definition cunit_sign u := plus_if (Nat.ltb (cunit_val u) 2).
(** fundamentals.py:213-216 is_imag *)
Definition cunit_is_imag u := negb (Nat.eqb (Nat.modulo (cunit_val u) 2) 0).
(** fundamentals.py:218-221 __complex__ : 1j ** value *)
Fixpoint cpow (c : C) (n : nat) : C := match n with O => C1 | S n => c * cpow c n end.
Definition cunit_C u : C := cpow Ci (cunit_val u).
(** fundamentals.py:230-239 __mul__ (ComplexUnit x ComplexUnit) *)
Definition cunit_mul a b := cunit_of (Nat.modulo (cunit_val a + cunit_val b) 4).
(** fundamentals.py:245-247 __neg__ *)
Definition cunit_neg a := cunit_of (Nat.modulo (cunit_val a + 2) 4).
(** fundamentals.py:168-199 from_or_none on a Sign, seen as the complex number
    [complex(sign)] *)
Definition cunit_of_sign (s : sign) : cunit := match s with Plus => UOne | Minus => UMOne end.

(** fundamentals.py:361-376 class Axis *)
Inductive axis := AX | AY | AZ.
Definition axis_eqb a b := match a, b with AX, AX | AY, AY | AZ, AZ => true | _, _ => false end.
Lemma axis_eqb_spec a b : reflect (a = b) (axis_eqb a b).
Proof. destruct a, b; constructor; congruence. Qed.
(** fundamentals.py:379-382 SingletonI / IXYZ: [None] is I *)
Definition ixyz := option axis.

(** fundamentals.py:392-398 class Plane *)
Inductive plane := PXY | PYZ | PXZ.
Definition plane_eqb a b := match a, b with PXY, PXY | PYZ, PYZ | PXZ, PXZ => true | _, _ => false end.
(** fundamentals.py:400-411 axes *)
Definition plane_axes p := match p with PXY => (AX, AY) | PYZ => (AY, AZ) | PXZ => (AX, AZ) end.
(** fundamentals.py:413-424 orth *)
Definition plane_orth p := match p with PXY => AZ | PYZ => AX | PXZ => AY end.
(** fundamentals.py:426-437 cos *)
Definition plane_cos p := match p with PXY => AX | PYZ => AZ | PXZ => AZ end.
(** fundamentals.py:439-450 sin *)
Definition plane_sin p := match p with PXY => AY | PYZ => AY | PXZ => AX end.
(** fundamentals.py:458-474 polar; the angle is in units of pi *)
Definition plane_polar p (a : R) : R * R * R :=
  let c := cos (a * PI) in let s := sin (a * PI) in
  match p with PXY => (c, s, 0%R) | PYZ => (0%R, s, c) | PXZ => (s, 0%R, c) end.
(** fundamentals.py:476-487 from_axes; [None] is the ValueError *)
Definition plane_from_axes (a b : axis) : option plane :=
  match a, b with
  | AX, AY | AY, AX => Some PXY
  | AY, AZ | AZ, AY => Some PYZ
  | AX, AZ | AZ, AX => Some PXZ
  | _, _ => None
  end.

(** ops.py:29-32, 260-265 Ops.from_ixyz *)
Definition axis_mat (a : axis) : mat2 := match a with AX => mX | AY => mY | AZ => mZ end.
Definition ixyz_mat (s : ixyz) : mat2 := match s with None => mid | Some a => axis_mat a end.

(** pauli.py:30-45 class Pauli *)
Record pauli := Pauli { p_sym : ixyz; p_unit : cunit }.
(** pauli.py:62-66 matrix *)
Definition pauli_mat (p : pauli) : mat2 := mscale (cunit_C (p_unit p)) (ixyz_mat (p_sym p)).
(** pauli.py:109-133 _matmul_impl *)
Definition pauli_matmul_impl (l r : ixyz) : pauli :=
  match l, r with
  | None, _ => Pauli r UOne
  | _, None => Pauli l UOne
  | Some a, Some b =>
      match a, b with
      | AX, AX | AY, AY | AZ, AZ => Pauli None UOne
      | AX, AY => Pauli (Some AZ) UJ
      | AY, AX => Pauli (Some AZ) UMJ
      | AY, AZ => Pauli (Some AX) UJ
      | AZ, AY => Pauli (Some AX) UMJ
      | AZ, AX => Pauli (Some AY) UJ
      | AX, AZ => Pauli (Some AY) UMJ
      end
  end.
(** pauli.py:141-145 __mul__ by a complex unit *)
Definition pauli_scale (p : pauli) (u : cunit) : pauli := Pauli (p_sym p) (cunit_mul (p_unit p) u).
(** pauli.py:135-139 __matmul__ *)
Definition pauli_matmul (a b : pauli) : pauli :=
  pauli_scale (pauli_matmul_impl (p_sym a) (p_sym b)) (cunit_mul (p_unit a) (p_unit b)).
(** pauli.py:151-153 __neg__ *)
Definition pauli_neg (a : pauli) : pauli := Pauli (p_sym a) (cunit_neg (p_unit a)).
(** pauli.py:52-60 axis; [None] is the ValueError *)
Definition pauli_axis (p : pauli) : option axis := p_sym p.

(** states.py:66-78 PlanarState.to_statevector_numpy *)
Definition planar_state (p : plane) (a : R) : vec2 :=
  match p with
  | PXY => Vec2 (RtoC (/ sqrt 2)) (RtoC (/ sqrt 2) * cis a)
  | PYZ => Vec2 (RtoC (cos (a * PI / 2))) (Ci * RtoC (sin (a * PI / 2)))
  | PXZ => Vec2 (RtoC (cos (a * PI / 2))) (RtoC (sin (a * PI / 2)))
  end.
(** states.py:83-94 BasicStates; pauli.py:67-82 Pauli.eigenstate *)
Definition pauli_eigenstate (p : pauli) (b : bool) : plane * R :=
  match p_sym p with
  | Some AX => (PXY, if b then 1%R else 0%R)
  | Some AY => (PXY, if b then (-1/2)%R else (1/2)%R)
  | Some AZ => (PXZ, if b then 1%R else 0%R)
  | None => (PXY, 0%R)
  end.

(** * Facts *)
Lemma sign_mul_R a b : sign_R (sign_mul a b) = (sign_R a * sign_R b)%R.
Proof. destruct a, b; simpl; ring. Qed.
Lemma sign_neg_R a : sign_R (sign_neg a) = (- sign_R a)%R.
Proof. destruct a; simpl; ring. Qed.
Lemma cunit_mul_C a b : cunit_C (cunit_mul a b) = cunit_C a * cunit_C b.
Proof. destruct a, b; unfold cunit_C; simpl; ceq; ring. Qed.
Lemma cunit_neg_C a : cunit_C (cunit_neg a) = - cunit_C a.
Proof. destruct a; unfold cunit_C; simpl; ceq; ring. Qed.
Lemma cunit_of_sign_C s : cunit_C (cunit_of_sign s) = sign_C s.
Proof. destruct s; unfold cunit_C; simpl; ceq; ring. Qed.
Lemma cunit_props_spec u : cunit_props (cunit_sign u) (cunit_is_imag u) = u.
Proof. destruct u; reflexivity. Qed.
Lemma cunit_props_C s i : cunit_C (cunit_props s i) = sign_C s * (if i then Ci else C1).
Proof. destruct s, i; unfold cunit_C; simpl; ceq; ring. Qed.
Lemma cunit_phase u : phase (cunit_C u).
Proof. destruct u; unfold phase, Cnorm2, cunit_C; simpl; ring. Qed.

Lemma pauli_matmul_impl_mat l r : pauli_mat (pauli_matmul_impl l r) = mmul (ixyz_mat l) (ixyz_mat r).
Proof.
  destruct l as [[]|], r as [[]|]; unfold pauli_mat, cunit_C; simpl; meq; ceq; ring.
Qed.
Lemma pauli_scale_mat p u : pauli_mat (pauli_scale p u) = mscale (cunit_C u) (pauli_mat p).
Proof.
  unfold pauli_mat, pauli_scale; simpl. rewrite cunit_mul_C, mscale_mscale. f_equal. ring.
Qed.
Lemma pauli_matmul_mat a b : pauli_mat (pauli_matmul a b) = mmul (pauli_mat a) (pauli_mat b).
Proof.
  unfold pauli_matmul. rewrite pauli_scale_mat, pauli_matmul_impl_mat, cunit_mul_C.
  unfold pauli_mat. rewrite mscale_mul_l, mscale_mul_r, mscale_mscale. reflexivity.
Qed.
Lemma pauli_neg_mat a : pauli_mat (pauli_neg a) = mscale (- C1) (pauli_mat a).
Proof. unfold pauli_mat; simpl. rewrite cunit_neg_C, mscale_mscale. f_equal; ring. Qed.

Lemma axis_mat_sq a : mmul (axis_mat a) (axis_mat a) = mid.
Proof. destruct a; simpl; meq; ceq; ring. Qed.
Lemma axis_mat_dag a : mdag (axis_mat a) = axis_mat a.
Proof. destruct a; simpl; meq; ceq; ring. Qed.
Lemma axis_mat_anti a b : a <> b -> mmul (axis_mat a) (axis_mat b) = mscale (- C1) (mmul (axis_mat b) (axis_mat a)).
Proof. intros H; destruct a, b; try congruence; simpl; meq; ceq; ring. Qed.
Lemma unitary_axis a : unitary (axis_mat a).
Proof. destruct a; [apply unitary_X|apply unitary_Y|apply unitary_Z]. Qed.
