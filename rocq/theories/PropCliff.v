(** Property theorems: Clifford tables, domains, measurements, Pauli algebra
    (C07-C11). *)
From Coq Require Import Reals Arith List Bool.
From Verif Require Import Cplx Mat2 Fundamentals CliffordDb Clifford NSet Measure QState Pattern.
Import ListNotations.

(** ** C07 *)
Theorem C07_mul : forall a b, mmul (clifford_mat a) (clifford_mat b) ~= clifford_mat (clifford_mul a b).
Proof. exact clifford_mul_mat. Qed.
Theorem C07_conj : forall a, mdag (clifford_mat a) ~= clifford_mat (clifford_conj a).
Proof. exact clifford_conj_mat. Qed.
Theorem C07_unitary : forall a, unitary (clifford_mat a).
Proof. exact clifford_unitary. Qed.
(** the 24 gates are pairwise distinct up to phase *)
Theorem C07_distinct : forall a b, clifford_mat a ~= clifford_mat b -> a = b.
Proof. exact clifford_mat_inj. Qed.
Theorem C07_hsz : forall c, mprod (map clifford_mat (clifford_hsz c)) ~= clifford_mat c
  /\ forall g, In g (clifford_hsz c) -> g = gI \/ g = gZ \/ g = gS \/ g = gH.
Proof. intros c. split; [apply clifford_hsz_mat|apply clifford_hsz_gates]. Qed.
(** qasm3 lists the gates in application order *)
Theorem C07_qasm3 : forall c, mprod (map clifford_mat (rev (clifford_qasm3 c))) ~= clifford_mat c.
Proof. exact clifford_qasm3_mat. Qed.
(** Clifford.measure is conjugation C^dagger P C, exactly (including the sign and unit) *)
Theorem C07_measure : forall c p,
  pauli_mat (clifford_measure c p) = mmul (mmul (mdag (clifford_mat c)) (pauli_mat p)) (clifford_mat c).
Proof. intros c p. rewrite <- mmul_assoc. symmetry. apply clifford_measure_mat. Qed.
(** named gates *)
Theorem C07_named : clifford_mat gI = mid /\ clifford_mat gX = mX /\ clifford_mat gY = mY /\ clifford_mat gZ = mZ
  /\ clifford_mat gS = mS /\ clifford_mat gSdg = mSdg /\ clifford_mat gH = mH.
Proof.
  repeat split; [exact clifford_mat_I|exact clifford_mat_X|exact clifford_mat_Y|exact clifford_mat_Z|exact clifford_mat_S
  |exact clifford_mat_Sdg|exact clifford_mat_H].
Qed.
Print Assumptions C07_mul. Print Assumptions C07_conj. Print Assumptions C07_unitary. Print Assumptions C07_distinct.
Print Assumptions C07_hsz. Print Assumptions C07_qasm3. Print Assumptions C07_measure. Print Assumptions C07_named.

(** ** C08: X^s Z^t C = C X^s' Z^t' for the parities of the domains under any
    outcomes; the RuntimeError branch is unreachable *)
Theorem C08_commute_domains : forall c s t,
  exists s' t', commute_domains_opt c s t = Some (s', t') /\
  forall o, mmul (mXZ (parity o s) (parity o t)) (clifford_mat c) ~= mmul (clifford_mat c) (mXZ (parity o s') (parity o t')).
Proof.
  intros c s t. destruct (commute_domains c s t) as [s' t'] eqn:E. exists s', t'. split.
  - rewrite commute_domains_total, E; auto.
  - intros o. apply commute_domains_mat; auto.
Qed.
Print Assumptions C08_commute_domains.
Example C08_case : commute_domains gH (sing 0) (of_list [1; 2]) = (of_list [1; 2], sing 0)
  /\ commute_domains gS (sing 0) (sing 1) = (sing 0, of_list [0; 1]).
Proof. split; vm_compute; reflexivity. Qed.

(** ** C09 *)
(** projector of m.clifford(C) = C^dagger (projector of m) C, for every angle *)
Theorem C09_measurement_clifford : forall m c r,
  meas_proj (meas_clifford m c) r = mmul (mmul (mdag (clifford_mat c)) (meas_proj m r)) (clifford_mat c).
Proof. intros m c r. rewrite <- mmul_assoc. apply meas_clifford_proj. Qed.
(** a Pauli measurement and its Bloch form have the same projectors, which are
    (I + (-1)^r P)/2 *)
Theorem C09_to_bloch : forall ax s r,
  meas_proj (MPauli ax s) r = meas_proj (MBloch (fst (to_bloch (MPauli ax s))) (snd (to_bloch (MPauli ax s)))) r
  /\ meas_proj (MPauli ax s) r = mscale (RtoC (/ 2)) (madd mid (mscale (sign_C (if r then sign_neg s else s)) (axis_mat ax))).
Proof.
  intros ax s r. split; [destruct ax, s; reflexivity|]. rewrite to_bloch_pauli. destruct s, r; do 2 f_equal; unfold sign_C; cbn [sign_neg sign_R rsign];
    rewrite mscale_mscale; f_equal; ceq; ring.
Qed.
(** the state of a measured vector is normalised, and its outer product is the
    projector *)
Theorem C09_vector : forall m r, vouter (mvec m r) (mvec m r) = meas_proj m r
  /\ (Cnorm2 (v0 (mvec m r)) + Cnorm2 (v1 (mvec m r)) = 1)%R.
Proof. intros; split; [apply mvec_proj|apply mvec_norm]. Qed.
Print Assumptions C09_measurement_clifford. Print Assumptions C09_to_bloch. Print Assumptions C09_vector.

(** ** C10: the measurement the simulator performs for domains (s, t) is the
    undecorated one after Z^t then X^s *)
Theorem C10_describe_measurement : forall o n m s t,
  seq_ops o [CM n m s t] ≈ [OApp1 (mXZ (parity o s) (parity o t)) n; OMeas (mvec m (o n)) n].
Proof. exact meas_ops_XZ. Qed.
Theorem C10_projector : forall o m s t r,
  mvec (describe_measurement o m s t) r ~v vmul (mdag (mXZ (parity o s) (parity o t))) (mvec m r).
Proof. exact describe_vec. Qed.
Print Assumptions C10_describe_measurement. Print Assumptions C10_projector.

(** ** C11 *)
Theorem C11_pauli_product : forall a b, pauli_mat (pauli_matmul a b) = mmul (pauli_mat a) (pauli_mat b).
Proof. exact pauli_matmul_mat. Qed.
Theorem C11_pauli_neg : forall a, pauli_mat (pauli_neg a) = mscale (- C1) (pauli_mat a).
Proof. exact pauli_neg_mat. Qed.
Theorem C11_pauli_scale : forall p u, pauli_mat (pauli_scale p u) = mscale (cunit_C u) (pauli_mat p).
Proof. exact pauli_scale_mat. Qed.
Theorem C11_unit_group : (forall a b, cunit_C (cunit_mul a b) = Cmul (cunit_C a) (cunit_C b))
  /\ (forall a, cunit_C (cunit_neg a) = Copp (cunit_C a))
  /\ (forall u, cunit_props (cunit_sign u) (cunit_is_imag u) = u)
  /\ (forall s i, cunit_C (cunit_props s i) = Cmul (sign_C s) (if i then Ci else C1)).
Proof. repeat split; [exact cunit_mul_C|exact cunit_neg_C|exact cunit_props_spec|exact cunit_props_C]. Qed.
Theorem C11_sign : (forall a b, sign_R (sign_mul a b) = (sign_R a * sign_R b)%R) /\ (forall a, sign_R (sign_neg a) = (- sign_R a)%R).
Proof. split; [exact sign_mul_R|exact sign_neg_R]. Qed.
Theorem C11_axes : (forall a, mmul (axis_mat a) (axis_mat a) = mid)
  /\ (forall a b, a <> b -> mmul (axis_mat a) (axis_mat b) = mscale (- C1) (mmul (axis_mat b) (axis_mat a))).
Proof. split; [exact axis_mat_sq|exact axis_mat_anti]. Qed.
Print Assumptions C11_pauli_product. Print Assumptions C11_unit_group. Print Assumptions C11_axes.
