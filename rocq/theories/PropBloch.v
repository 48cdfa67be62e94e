(** Property theorems: planes, axes, states and measurements on the Bloch sphere (C62). *)
From Coq Require Import Reals Lra Psatz Arith ZArith List Bool Lia.
From Verif Require Import Cplx Mat2 Fundamentals CliffordDb Clifford NSet Measure.
Import ListNotations.
Local Open Scope C_scope.

(** ** Model *)
(** pauli.py:156-166 Pauli.iterate over IXYZ_VALUES (fundamentals.py:389) and the units
    (fundamentals.py:151-164, in the order of the enumeration) *)
Definition pauli_iterate (symbol_only : bool) : list pauli :=
  flat_map (fun sym => map (Pauli sym) (if symbol_only then [UOne] else [UOne; UJ; UMOne; UMJ])) [None; Some AX; Some AY; Some AZ].
(** pauli.py:67-71 eigenstate: the guard on [binary]; [None] is the ValueError *)
Definition pauli_eigenstate_py (p : pauli) (binary : Z) : option (plane * R) :=
  if (binary =? 0)%Z then Some (pauli_eigenstate p false) else if (binary =? 1)%Z then Some (pauli_eigenstate p true) else None.
(** states.py:31-36 State.to_densitymatrix_numpy *)
Definition to_densitymatrix (v : vec2) : mat2 := vouter v v.
(** states.py:66-78 the state vector of a PlanarState *)
Definition vec_of (s : plane * R) : vec2 := planar_state (fst s) (snd s).
(** measurements.py:343-345 iteration over Pauli measurements *)
Definition pauli_measurements : list measurement := flat_map (fun ax => map (MPauli ax) [Plus; Minus]) [AX; AY; AZ].

(** ** Specification *)
(** the coordinate of a point of the space along an axis *)
Definition coord (ax : axis) (v : R * R * R) : R := let '(x, y, z) := v in match ax with AX => x | AY => y | AZ => z end.
Definition dot (v w : R * R * R) : R := (coord AX v * coord AX w + coord AY v * coord AY w + coord AZ v * coord AZ w)%R.
(** mean value of a matrix in a state *)
Definition mean (M : mat2) (v : vec2) : C := vinner v (vmul M v).

(** ** Planes and axes *)
Theorem C62_axes (p : plane) : let '(a, b) := plane_axes p in
  a <> b /\ plane_orth p <> a /\ plane_orth p <> b /\ plane_from_axes a b = Some p /\
  ((plane_cos p = a /\ plane_sin p = b) \/ (plane_cos p = b /\ plane_sin p = a)).
Proof. destruct p; cbn; repeat split; try discriminate; auto. Qed.
(** the plane of two axes is the one they carry; it exists unless they are equal *)
Theorem C62_from_axes (a b : axis) (p : plane) : plane_from_axes a b = Some p <-> a <> b /\ plane_orth p <> a /\ plane_orth p <> b.
Proof.
  destruct a, b, p; cbn; split; intros H; try discriminate H; try reflexivity; try (destruct H as (H1 & H2 & H3); congruence); repeat split; discriminate.
Qed.
Theorem C62_from_axes_error (a b : axis) : plane_from_axes a b = None <-> a = b.
Proof. destruct a, b; cbn; split; congruence. Qed.
Theorem C62_from_axes_sym (a b : axis) : plane_from_axes a b = plane_from_axes b a.
Proof. destruct a, b; reflexivity. Qed.
(** the point at an angle: cosine and sine along the two axes of the plane, zero
    along the orthogonal one *)
Theorem C62_polar (p : plane) (a : R) : coord (plane_cos p) (plane_polar p a) = cos (a * PI) /\
  coord (plane_sin p) (plane_polar p a) = sin (a * PI) /\ coord (plane_orth p) (plane_polar p a) = 0%R /\
  dot (plane_polar p a) (plane_polar p a) = 1%R.
Proof.
  pose proof (sin2_cos2 (a * PI)) as H. unfold Rsqr in H. destruct p; cbn; repeat split; try reflexivity; unfold dot; cbn; lra.
Qed.
Print Assumptions C62_axes.
Print Assumptions C62_from_axes.
Print Assumptions C62_from_axes_error.
Print Assumptions C62_from_axes_sym.
Print Assumptions C62_polar.

(** ** Planar states *)
(** a planar state is normalised; its density matrix is (I + x X + y Y + z Z) / 2
    and its mean values along the axes are x, y, z, where (x, y, z) is the point
    of the plane at its angle *)
Lemma trace_outer M v : mean M v = mtrace (mmul M (to_densitymatrix v)).
Proof. unfold mean, mtrace, to_densitymatrix, vinner, vmul, vouter, mmul. cbn [m00 m01 m10 m11 v0 v1]. ring. Qed.
Lemma state_density p a : to_densitymatrix (planar_state p a) = outcome_operator (plane_polar p a) false.
Proof. apply planar_state_proj. Qed.
Theorem C62_density (p : plane) (a : R) : let r := plane_polar p a in to_densitymatrix (planar_state p a) =
  mscale (RtoC (/ 2)) (madd mid (madd (madd (mscale (RtoC (coord AX r)) mX) (mscale (RtoC (coord AY r)) mY)) (mscale (RtoC (coord AZ r)) mZ))).
Proof.
  cbv zeta. rewrite state_density. destruct (plane_polar p a) as [[x y] z]. unfold outcome_operator, mpauli_vec. cbn [coord]. f_equal. f_equal. apply mscale_1.
Qed.
Print Assumptions C62_density.
Lemma trace_op v M : mtrace (mmul M (outcome_operator v false)) =
  RtoC (/ 2) * (mtrace M + RtoC (coord AX v) * mtrace (mmul M mX) + RtoC (coord AY v) * mtrace (mmul M mY) + RtoC (coord AZ v) * mtrace (mmul M mZ)).
Proof.
  destruct v as [[x y] z]. unfold outcome_operator, mpauli_vec, mtrace, mmul, mscale, madd, mX, mY, mZ, mid. cbn [m00 m01 m10 m11 coord]. change (RtoC 1) with C1. ring.
Qed.
Theorem C62_mean (p : plane) (a : R) : vinner (planar_state p a) (planar_state p a) = C1 /\
  forall ax, mean (axis_mat ax) (planar_state p a) = RtoC (coord ax (plane_polar p a)).
Proof.
  split.
  - transitivity (mean mid (planar_state p a)); [unfold mean; rewrite vmul_1; reflexivity|]. rewrite trace_outer, state_density, trace_op.
    unfold mtrace, mmul, mid, mX, mY, mZ. cbn [m00 m01 m10 m11]. ceq; field.
  - intros ax. rewrite trace_outer, state_density, trace_op. destruct ax; unfold axis_mat, mtrace, mmul, mX, mY, mZ; cbn [m00 m01 m10 m11]; ceq; field.
Qed.
Print Assumptions C62_mean.
(** Born rule on the sphere: measuring a planar state, outcome r has probability
    (1 + (-1)^r cos of the angle between the two points) / 2 *)
Theorem C62_born (p q : plane) (a b : R) (r : bool) :
  mean (meas_proj (MBloch b q) r) (planar_state p a) = RtoC ((1 + rsign r * dot (plane_polar q b) (plane_polar p a)) / 2).
Proof.
  rewrite trace_outer, state_density, trace_op. unfold meas_proj. cbn [to_bloch]. generalize (plane_polar q b) (plane_polar p a). intros [[x y] z] [[x' y'] z'].
  unfold outcome_operator, mpauli_vec, mtrace, mmul, mscale, madd, mX, mY, mZ, mid, dot, rsign. cbn [m00 m01 m10 m11 coord]. destruct r; ceq; field.
Qed.
Print Assumptions C62_born.
(** in particular, measuring a state in its own plane at its own angle gives 0
    and leaves the state; a planar measurement prepares a planar state *)
Lemma proj_state p a : vmul (outcome_operator (plane_polar p a) false) (planar_state p a) = planar_state p a.
Proof.
  rewrite <- state_density. unfold to_densitymatrix. transitivity (vscale (vinner (planar_state p a) (planar_state p a)) (planar_state p a)).
  - unfold vmul, vouter, vscale, vinner. cbn [m00 m01 m10 m11 v0 v1]. f_equal; ring.
  - rewrite (proj1 (C62_mean p a)). apply vscale_1.
Qed.
Theorem C62_measure_own (p : plane) (a : R) :
  vmul (meas_proj (MBloch a p) false) (planar_state p a) = planar_state p a /\ vmul (meas_proj (MBloch a p) true) (planar_state p a) = Vec2 C0 C0.
Proof.
  unfold meas_proj. cbn [to_bloch]. split; [apply proj_state|].
  assert (E : madd (outcome_operator (plane_polar p a) false) (outcome_operator (plane_polar p a) true) = mid).
  { destruct (plane_polar p a) as [[x y] z]. unfold outcome_operator, mpauli_vec. meq; ceq; field. }
  assert (L : forall A B v, vmul (madd A B) v = Vec2 (v0 (vmul A v) + v0 (vmul B v)) (v1 (vmul A v) + v1 (vmul B v))) by (intros; unfold vmul, madd; cbn; f_equal; ring).
  pose proof (L (outcome_operator (plane_polar p a) false) (outcome_operator (plane_polar p a) true) (planar_state p a)) as K. rewrite E, proj_state, vmul_1 in K.
  assert (K0 : v0 (planar_state p a) = v0 (planar_state p a) + v0 (vmul (outcome_operator (plane_polar p a) true) (planar_state p a))) by (rewrite K at 1; reflexivity).
  assert (K1 : v1 (planar_state p a) = v1 (planar_state p a) + v1 (vmul (outcome_operator (plane_polar p a) true) (planar_state p a))) by (rewrite K at 1; reflexivity).
  assert (Z : forall x y : C, x = x + y -> y = C0) by (intros x y H; transitivity (- x + (x + y)); [ring|rewrite <- H; ring]).
  veq; [apply Z in K0; exact K0|apply Z in K1; exact K1].
Qed.
Print Assumptions C62_measure_own.

(** ** Pauli operators *)
Definition bsign (b : bool) : C := if b then - C1 else C1.
Lemma trig0 : cos (0 * PI) = 1%R /\ sin (0 * PI) = 0%R /\ cos (1 * PI) = (-1)%R /\ sin (1 * PI) = 0%R /\
  cos (1 / 2 * PI) = 0%R /\ sin (1 / 2 * PI) = 1%R /\ cos (-1 / 2 * PI) = 0%R /\ sin (-1 / 2 * PI) = (-1)%R.
Proof.
  rewrite Rmult_0_l, Rmult_1_l, cos_0, sin_0, cos_PI, sin_PI. replace (1 / 2 * PI)%R with (PI / 2)%R by field. replace (-1 / 2 * PI)%R with (- (PI / 2))%R by field.
  rewrite cos_neg, sin_neg, cos_PI2, sin_PI2. repeat split; reflexivity.
Qed.
Lemma eig_polar ax b u : let s := pauli_eigenstate (Pauli (Some ax) u) b in
  outcome_operator (plane_polar (fst s) (snd s)) false = mscale (RtoC (/ 2)) (madd mid (mscale (bsign b) (axis_mat ax))).
Proof.
  destruct trig0 as (H1 & H2 & H3 & H4 & H5 & H6 & H7 & H8). cbv zeta.
  destruct ax, b; cbn [pauli_eigenstate p_sym fst snd]; unfold outcome_operator, plane_polar, mpauli_vec;
  rewrite ?H1, ?H2, ?H3, ?H4, ?H5, ?H6, ?H7, ?H8; unfold bsign, axis_mat, mX, mY, mZ; meq; ceq; field.
Qed.
(** the eigenstates of a Pauli are normalised, orthogonal (unless it is a multiple
    of the identity), and the eigenvalue is the unit of the Pauli, negated for
    binary = 1: for -Z, the "0" eigenstate is the one of eigenvalue -1 *)
Theorem C62_eigenstate (ax : axis) (u : cunit) (b : bool) : let P := Pauli (Some ax) u in let s := vec_of (pauli_eigenstate P b) in
  vinner s s = C1 /\ vmul (pauli_mat P) s = vscale (cunit_C u * bsign b) s.
Proof.
  cbv zeta. unfold vec_of. split; [apply C62_mean|].
  pose proof (eig_polar ax b u) as E. cbv zeta in E. pose proof (proj_state (fst (pauli_eigenstate (Pauli (Some ax) u) b)) (snd (pauli_eigenstate (Pauli (Some ax) u) b))) as F.
  set (v := planar_state _ _) in *. rewrite E in F.
  unfold pauli_mat. cbn [p_sym p_unit ixyz_mat]. rewrite vmul_mscale, <- vscale_vscale. f_equal.
  assert (G : vmul (axis_mat ax) v = vmul (mmul (axis_mat ax) (mscale (RtoC (/ 2)) (madd mid (mscale (bsign b) (axis_mat ax))))) v) by (rewrite <- vmul_mmul, F; reflexivity).
  rewrite G. rewrite <- F at 2. rewrite <- vmul_mscale. f_equal.
  destruct ax, b; unfold bsign, axis_mat, mX, mY, mZ; meq; ceq; field.
Qed.
Print Assumptions C62_eigenstate.
Theorem C62_eigenstate_identity (u : cunit) (b : bool) : let P := Pauli None u in let s := vec_of (pauli_eigenstate P b) in
  vinner s s = C1 /\ vmul (pauli_mat P) s = vscale (cunit_C u) s.
Proof. cbv zeta. unfold vec_of. split; [apply C62_mean|]. unfold pauli_mat. cbn [p_sym p_unit ixyz_mat]. rewrite vmul_mscale, vmul_1. reflexivity. Qed.
Print Assumptions C62_eigenstate_identity.
Theorem C62_eigenstate_orthogonal (ax : axis) (u : cunit) : let P := Pauli (Some ax) u in
  mean (to_densitymatrix (vec_of (pauli_eigenstate P true))) (vec_of (pauli_eigenstate P false)) = C0.
Proof.
  cbv zeta. unfold vec_of. rewrite trace_outer, !state_density. rewrite (eig_polar ax true u), (eig_polar ax false u).
  destruct ax; unfold bsign, axis_mat, mtrace, mmul, mscale, madd, mX, mY, mZ, mid; cbn [m00 m01 m10 m11]; ceq; field.
Qed.
Print Assumptions C62_eigenstate_orthogonal.
(** only 0 and 1 are accepted *)
Theorem C62_eigenstate_error (P : pauli) (z : Z) : pauli_eigenstate_py P z = None <-> (z <> 0 /\ z <> 1)%Z.
Proof. unfold pauli_eigenstate_py. destruct (Z.eqb_spec z 0), (Z.eqb_spec z 1); split; intros H; try discriminate H; try reflexivity; try tauto; lia. Qed.
Print Assumptions C62_eigenstate_error.
(** outcome r of a Pauli measurement projects on the eigenstate r of its axis,
    exchanged when the sign is minus *)
Theorem C62_pauli_measurement (ax : axis) (s : sign) (r : bool) :
  meas_proj (MPauli ax s) r = to_densitymatrix (vec_of (pauli_eigenstate (Pauli (Some ax) UOne) (xorb r (sign_eqb s Minus)))).
Proof.
  unfold vec_of. rewrite state_density, (eig_polar ax (xorb r (sign_eqb s Minus)) UOne), to_bloch_pauli. f_equal. f_equal. rewrite mscale_mscale. f_equal.
  destruct s, r; unfold sign_C, rsign, bsign; cbn; ceq; ring.
Qed.
Print Assumptions C62_pauli_measurement.
(** iterating over Pauli lists every Pauli exactly once, or every symbol once;
    over Pauli measurements, every one of them *)
Theorem C62_iterate : NoDup (pauli_iterate false) /\ (forall P, In P (pauli_iterate false)) /\
  NoDup (pauli_iterate true) /\ (forall P, In P (pauli_iterate true) <-> p_unit P = UOne).
Proof.
  assert (D : forall l : list pauli, (forall a b : pauli, {a = b} + {a <> b}) -> (if (fix nd l := match l with [] => true | x :: l => negb (existsb (fun y => match p_sym x, p_sym y with None, None => true | Some a, Some b => axis_eqb a b | _, _ => false end && (cunit_val (p_unit x) =? cunit_val (p_unit y))%nat) l) && nd l end) l then NoDup l else True)).
  { intros l _. induction l as [|x l IH]; [constructor|]. destruct (existsb _ l) eqn:E; cbn [negb andb]; auto.
    destruct ((fix nd l := match l with [] => true | x :: l => negb (existsb (fun y => match p_sym x, p_sym y with None, None => true | Some a, Some b => axis_eqb a b | _, _ => false end && (cunit_val (p_unit x) =? cunit_val (p_unit y))%nat) l) && nd l end) l); auto.
    constructor; auto. intros K. assert (X : existsb (fun y => match p_sym x, p_sym y with None, None => true | Some a, Some b => axis_eqb a b | _, _ => false end && (cunit_val (p_unit x) =? cunit_val (p_unit y))%nat) l = true); [|congruence].
    apply existsb_exists. exists x. split; auto. rewrite Nat.eqb_refl, andb_true_r. destruct (p_sym x) as [[| |]|]; reflexivity. }
  assert (Dec : forall a b : pauli, {a = b} + {a <> b}) by (intros [s u] [s' u']; repeat decide equality).
  split; [exact (D (pauli_iterate false) Dec)|]. split; [|split; [exact (D (pauli_iterate true) Dec)|]].
  - intros [[[| |]|] [| | |]]; cbn; tauto.
  - intros [s u]. cbn [p_unit]. split.
    + intros H. cbn in H. repeat (destruct H as [H|H]; [injection H as _ <-; reflexivity|]). destruct H.
    + intros ->. destruct s as [[| |]|]; cbn; tauto.
Qed.
Print Assumptions C62_iterate.
Theorem C62_iterate_measurements : NoDup pauli_measurements /\ forall ax s, In (MPauli ax s) pauli_measurements.
Proof.
  split.
  - unfold pauli_measurements. cbn [flat_map map app]. repeat (constructor; [cbn [In]; intros H; repeat (destruct H as [H|H]; [discriminate H|]); exact H|]). constructor.
  - intros [| |] [|]; cbn; tauto.
Qed.
Print Assumptions C62_iterate_measurements.

(** ** Clifford gates on planes and axes *)
(** the plane of a measurement after a Clifford gate is the one carried by the
    images of its axes (it always exists); gates act one after the other like
    their product *)
Theorem C62_clifford_plane (p : plane) (c : clifford) : let '(a, b) := plane_axes p in
  plane_from_axes (axis_clifford a c) (axis_clifford b c) = Some (plane_clifford p c) /\ axis_clifford (plane_orth p) c = plane_orth (plane_clifford p c).
Proof. destruct c, p; split; reflexivity. Qed.
Print Assumptions C62_clifford_plane.
Theorem C62_clifford_compose (c d : clifford) : (forall p, plane_clifford (plane_clifford p c) d = plane_clifford p (clifford_mul c d)) /\
  (forall a, axis_clifford (axis_clifford a c) d = axis_clifford a (clifford_mul c d)).
Proof. split; [intros p; destruct c, d, p; reflexivity|intros a; destruct c, d, a; reflexivity]. Qed.
Print Assumptions C62_clifford_compose.
(** the axis of an image is the axis of the conjugated matrix, up to sign *)
Theorem C62_clifford_axis (a : axis) (c : clifford) : exists s,
  mmul (mdag (clifford_mat c)) (mmul (axis_mat a) (clifford_mat c)) = mscale (sign_C s) (axis_mat (axis_clifford a c)).
Proof.
  destruct (pauli_clifford_plus a c) as (b & s & _ & E1 & E2). exists s. pose proof (pauli_clifford_mat a Plus c) as K. rewrite E1 in K. rewrite E2, <- K.
  f_equal. f_equal. symmetry. apply mscale_1.
Qed.
Print Assumptions C62_clifford_axis.

(** ** Examples *)
Example C62_ex_states : vec_of (pauli_eigenstate (Pauli (Some AZ) UMOne) true) = Vec2 C0 C1 /\ cunit_C UMOne * bsign true = C1.
Proof.
  split.
  - unfold vec_of, pauli_eigenstate. cbn [p_sym fst snd planar_state]. replace (1 * PI / 2)%R with (PI / 2)%R by field. rewrite cos_PI2, sin_PI2. reflexivity.
  - unfold cunit_C, bsign. cbn. ceq; ring.
Qed.
Example C62_ex_born : mean (meas_proj (MBloch 0 PXY) false) (planar_state PXZ (1 / 3)) = RtoC ((1 + sin (PI / 3)) / 2).
Proof. rewrite C62_born. f_equal. unfold dot, rsign, plane_polar. cbn [coord]. replace (1 / 3 * PI)%R with (PI / 3)%R by field. rewrite Rmult_0_l, cos_0, sin_0. field. Qed.
