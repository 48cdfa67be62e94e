(** Model of graphix/measurements.py: Bloch and Pauli measurements, the effect
    of a Clifford gate on them, and the projectors they denote. *)
From Coq Require Import Reals Lra Psatz ZArith List Bool.
From Verif Require Import Cplx Mat2 Fundamentals CliffordDb Clifford NSet.
Import ListNotations.
Local Open Scope C_scope.

(** measurements.py:207-337 BlochMeasurement(angle, plane), 348-477
    PauliMeasurement(axis, sign).  Angles are idealised as real numbers in
    units of pi. *)
Inductive measurement :=
| MBloch (a : R) (p : plane)
| MPauli (ax : axis) (s : sign).

(** measurements.py:424-439 / 233-236 to_bloch *)
Definition to_bloch (m : measurement) : R * plane :=
  match m with
  | MBloch a p => (a, p)
  | MPauli AX Plus => (0%R, PXY)
  | MPauli AX Minus => (1%R, PXY)
  | MPauli AY Plus => ((1/2)%R, PXY)
  | MPauli AY Minus => ((3/2)%R, PXY)
  | MPauli AZ Plus => (0%R, PYZ)
  | MPauli AZ Minus => (1%R, PYZ)
  end.

(** measurements.py:409-424 to_pauli *)
Definition to_pauli (a : axis) (s : sign) : pauli := pauli_scale (Pauli (Some a) UOne) (cunit_of_sign s).
(** measurements.py:465-468 PauliMeasurement.clifford.  The symbol of the
    image is never I, so [pauli.axis] does not raise ([pauli_clifford_axis]). *)
Definition pauli_clifford (a : axis) (s : sign) (c : clifford) : axis * sign :=
  let p := clifford_measure c (to_pauli a s) in
  (match p_sym p with Some b => b | None => a end, cunit_sign (p_unit p)).
(** fundamentals.py:374-376 Axis.clifford *)
Definition axis_clifford (a : axis) (c : clifford) : axis :=
  match p_sym (clifford_measure_axis c a) with Some b => b | None => a end.
(** fundamentals.py:508-510 Plane.clifford.  The two images are distinct so
    [from_axes] does not raise ([plane_clifford_ok]). *)
Definition plane_clifford (p : plane) (c : clifford) : plane :=
  let '(a, b) := plane_axes p in
  match plane_from_axes (axis_clifford a c) (axis_clifford b c) with Some q => q | None => p end.

(** measurements.py:312-329 BlochMeasurement.clifford (numeric angle) *)
Definition bloch_clifford (a : R) (p : plane) (c : clifford) : R * plane :=
  let new_plane := plane_clifford p c in
  let '(cos_ax, cos_sg) := pauli_clifford (plane_cos p) Plus c in
  let '(sin_ax, sin_sg) := pauli_clifford (plane_sin p) Plus c in
  let exchange := negb (axis_eqb cos_ax (plane_cos new_plane)) in
  let angle := if eqb exchange (sign_eqb cos_sg sin_sg) then (2 * 1 - a)%R else a in
  let add_term := if sign_eqb cos_sg Minus then (0 + 1)%R else 0%R in
  let add_term := if exchange then (1 / 2 + add_term)%R else add_term in
  let angle := (angle + add_term)%R in
  let angle := if Rle_dec (2 * 1) angle then (angle - 2 * 1)%R else angle in
  (angle, new_plane).

Definition meas_clifford (m : measurement) (c : clifford) : measurement :=
  match m with
  | MBloch a p => let '(a', p') := bloch_clifford a p c in MBloch a' p'
  | MPauli ax s => let '(ax', s') := pauli_clifford ax s c in MPauli ax' s'
  end.

(** * Specification: the projector of outcome [r] *)
(** sim/base_backend.py:506-535 _outcome_to_operator_matrix on
    plane.polar(angle): (I + (-1)^r v.sigma)/2 *)
Definition mpauli_vec (x y z : R) : mat2 :=
  madd (madd (mscale (RtoC x) mX) (mscale (RtoC y) mY)) (mscale (RtoC z) mZ).
Definition outcome_operator (v : R * R * R) (r : bool) : mat2 :=
  let '(x, y, z) := v in
  let s := if r then (-1)%R else 1%R in
  mscale (RtoC (/ 2)) (madd mid (mscale (RtoC s) (mpauli_vec x y z))).
(** the operator the backend applies when measuring [m] with outcome [r]
    (base_backend.py:825-856 measure: [angle = bloch.angle],
    [vec = bloch.plane.polar(angle)]) *)
Definition meas_proj (m : measurement) (r : bool) : mat2 :=
  let '(a, p) := to_bloch m in outcome_operator (plane_polar p a) r.

(** vector onto which outcome [r] projects *)
Definition b2R (b : bool) : R := if b then 1%R else 0%R.
Definition mvec (m : measurement) (r : bool) : vec2 :=
  let '(a, p) := to_bloch m in planar_state p (a + b2R r).

(** * Facts *)
Definition rsign (r : bool) : R := if r then (-1)%R else 1%R.
Lemma cos_add_b a r : cos ((a + b2R r) * PI) = (rsign r * cos (a * PI))%R.
Proof.
  destruct r; simpl; [|rewrite Rplus_0_r; ring].
  replace ((a + 1) * PI)%R with (a * PI + PI)%R by ring. rewrite neg_cos; ring.
Qed.
Lemma sin_add_b a r : sin ((a + b2R r) * PI) = (rsign r * sin (a * PI))%R.
Proof.
  destruct r; simpl; [|rewrite Rplus_0_r; ring].
  replace ((a + 1) * PI)%R with (a * PI + PI)%R by ring. rewrite neg_sin; ring.
Qed.
Lemma half_cc x : (cos (x / 2) * cos (x / 2) = (1 + cos x) / 2)%R.
Proof.
  replace x with (2 * (x / 2))%R at 3 by field. rewrite cos_2a.
  pose proof (sin2_cos2 (x / 2)) as H; unfold Rsqr in H. lra.
Qed.
Lemma half_ss x : (sin (x / 2) * sin (x / 2) = (1 - cos x) / 2)%R.
Proof.
  replace x with (2 * (x / 2))%R at 3 by field. rewrite cos_2a.
  pose proof (sin2_cos2 (x / 2)) as H; unfold Rsqr in H. lra.
Qed.
Lemma half_cs x : (cos (x / 2) * sin (x / 2) = sin x / 2)%R.
Proof. replace x with (2 * (x / 2))%R at 3 by field. rewrite sin_2a. lra. Qed.

Lemma planar_state_proj p a : vouter (planar_state p a) (planar_state p a) = outcome_operator (plane_polar p a) false.
Proof.
  destruct p; unfold planar_state, outcome_operator, plane_polar, mpauli_vec; simpl.
  - assert (H : (/ sqrt 2 * / sqrt 2 = / 2)%R) by (apply sqrt_mul_inv; lra).
    set (q := (/ sqrt 2)%R) in *.
    transitivity (mscale (RtoC (q * q)) (Mat2 C1 (Cconj (cis a)) (cis a) (cis a * Cconj (cis a)))).
    + rewrite RtoC_mul. unfold vouter; simpl. rewrite Cconj_mul, Cconj_R. meq; ring.
    + rewrite H, (phase_inv _ (phase_cis a)). unfold cis; meq; ceq; field.
  - pose proof (half_cc (a * PI)); pose proof (half_ss (a * PI)); pose proof (half_cs (a * PI)).
    meq; ceq; nra.
  - pose proof (half_cc (a * PI)); pose proof (half_ss (a * PI)); pose proof (half_cs (a * PI)).
    meq; ceq; nra.
Qed.
Lemma outcome_operator_shift p a r :
  outcome_operator (plane_polar p (a + b2R r)) false = outcome_operator (plane_polar p a) r.
Proof.
  unfold outcome_operator, plane_polar. destruct p; rewrite cos_add_b, sin_add_b; unfold mpauli_vec;
  meq; ceq; unfold rsign; destruct r; field.
Qed.
Lemma mvec_proj m r : vouter (mvec m r) (mvec m r) = meas_proj m r.
Proof.
  unfold mvec, meas_proj. destruct (to_bloch m) as [a p]. rewrite planar_state_proj.
  apply outcome_operator_shift.
Qed.
Lemma planar_state_norm p a : (Cnorm2 (v0 (planar_state p a)) + Cnorm2 (v1 (planar_state p a)) = 1)%R.
Proof.
  destruct p; simpl; unfold Cnorm2; simpl.
  - assert (H : (/ sqrt 2 * / sqrt 2 = / 2)%R) by (apply sqrt_mul_inv; lra).
    pose proof (sin2_cos2 (a * PI)) as E; unfold Rsqr in E.
    set (q := (/ sqrt 2)%R) in *. nra.
  - pose proof (half_cc (a * PI)); pose proof (half_ss (a * PI)). nra.
  - pose proof (half_cc (a * PI)); pose proof (half_ss (a * PI)). nra.
Qed.
Lemma mvec_norm m r : (Cnorm2 (v0 (mvec m r)) + Cnorm2 (v1 (mvec m r)) = 1)%R.
Proof. unfold mvec. destruct (to_bloch m). apply planar_state_norm. Qed.

(** combination of the two axes carried by the plane *)
Lemma outcome_axes p a r : outcome_operator (plane_polar p a) r =
  mscale (RtoC (/ 2)) (madd mid (mscale (RtoC (rsign r))
    (madd (mscale (RtoC (cos (a * PI))) (axis_mat (plane_cos p))) (mscale (RtoC (sin (a * PI))) (axis_mat (plane_sin p)))))).
Proof.
  unfold outcome_operator, plane_polar, mpauli_vec, rsign. destruct p; simpl; meq; ceq; ring.
Qed.

Lemma conj_comb U P Q x y s : unitary U ->
  mmul (mdag U) (mmul (mscale (RtoC (/ 2)) (madd mid (mscale s (madd (mscale x P) (mscale y Q))))) U)
  = mscale (RtoC (/ 2)) (madd mid (mscale s (madd (mscale x (mmul (mdag U) (mmul P U))) (mscale y (mmul (mdag U) (mmul Q U)))))).
Proof.
  intros [H _].
  transitivity (mscale (RtoC (/2)) (madd (mmul (mdag U) U) (mscale s (madd (mscale x (mmul (mdag U) (mmul P U))) (mscale y (mmul (mdag U) (mmul Q U))))))).
  - meq; ring.
  - rewrite H; reflexivity.
Qed.

Lemma pauli_clifford_plus a c : exists b s, clifford_measure_axis c a = Pauli (Some b) (cunit_props s false)
  /\ pauli_clifford a Plus c = (b, s) /\ axis_clifford a c = b.
Proof.
  unfold pauli_clifford, axis_clifford, clifford_measure, to_pauli; cbn [p_sym p_unit pauli_scale].
  destruct c, a; cbn; do 2 eexists; repeat split; reflexivity.
Qed.
Lemma pauli_clifford_mat a s c : let '(b, s') := pauli_clifford a s c in
  mmul (mdag (clifford_mat c)) (mmul (mscale (sign_C s) (axis_mat a)) (clifford_mat c)) = mscale (sign_C s') (axis_mat b).
Proof.
  rewrite mscale_mul_l, mscale_mul_r, clifford_measure_axis_mat.
  unfold pauli_clifford, clifford_measure, to_pauli, clifford_measure_axis; cbn [p_sym p_unit pauli_scale].
  destruct (clifford_measure_db c) as [[[x sx] [y sy]] [z sz]].
  destruct a; cbn [p_sym p_unit pauli_scale]; unfold pauli_mat, pauli_scale; cbn [p_sym p_unit ixyz_mat];
  rewrite mscale_mscale; f_equal; destruct s; try destruct sx; try destruct sy; try destruct sz; cbn; ceq; ring.
Qed.

Definition axes_ok (c : clifford) (p : plane) : bool :=
  let q := plane_clifford p c in
  let ca := fst (pauli_clifford (plane_cos p) Plus c) in
  let sa := fst (pauli_clifford (plane_sin p) Plus c) in
  (axis_eqb ca (plane_cos q) && axis_eqb sa (plane_sin q)) || (axis_eqb ca (plane_sin q) && axis_eqb sa (plane_cos q)).
Lemma axes_ok_all c p : axes_ok c p = true.
Proof. destruct c, p; reflexivity. Qed.
Lemma plane_clifford_ok p c : let '(a, b) := plane_axes p in
  plane_from_axes (axis_clifford a c) (axis_clifford b c) = Some (plane_clifford p c).
Proof. destruct c, p; reflexivity. Qed.

Lemma cos_sub2 a : cos ((a - 2 * 1) * PI) = cos (a * PI).
Proof.
  rewrite <- (cos_period ((a - 2 * 1) * PI) 1). f_equal. simpl. ring.
Qed.
Lemma sin_sub2 a : sin ((a - 2 * 1) * PI) = sin (a * PI).
Proof.
  rewrite <- (sin_period ((a - 2 * 1) * PI) 1). f_equal. simpl. ring.
Qed.
Lemma cos_2sub a : cos ((2 * 1 - a) * PI) = cos (a * PI).
Proof.
  replace ((2 * 1 - a) * PI)%R with (- ((a - 2 * 1) * PI))%R by ring. rewrite cos_neg. apply cos_sub2.
Qed.
Lemma sin_2sub a : sin ((2 * 1 - a) * PI) = (- sin (a * PI))%R.
Proof.
  replace ((2 * 1 - a) * PI)%R with (- ((a - 2 * 1) * PI))%R by ring. rewrite sin_neg. f_equal. apply sin_sub2.
Qed.
Lemma cos_half_shift a : cos ((a + 1/2) * PI) = (- sin (a * PI))%R.
Proof.
  replace ((a + 1/2) * PI)%R with (PI / 2 + a * PI)%R by field. rewrite cos_plus, cos_PI2, sin_PI2; ring.
Qed.
Lemma sin_half_shift a : sin ((a + 1/2) * PI) = cos (a * PI).
Proof.
  replace ((a + 1/2) * PI)%R with (PI / 2 + a * PI)%R by field. rewrite sin_plus, cos_PI2, sin_PI2; ring.
Qed.

Definition new_angle (a : R) (exchange : bool) (cs ss : sign) : R :=
  let angle := if eqb exchange (sign_eqb cs ss) then (2 * 1 - a)%R else a in
  let add_term := if sign_eqb cs Minus then (0 + 1)%R else 0%R in
  let add_term := if exchange then (1 / 2 + add_term)%R else add_term in
  (angle + add_term)%R.

Lemma new_angle_spec a e cs ss :
  cos (new_angle a e cs ss * PI) = (if e then sign_R ss * sin (a * PI) else sign_R cs * cos (a * PI))%R /\
  sin (new_angle a e cs ss * PI) = (if e then sign_R cs * cos (a * PI) else sign_R ss * sin (a * PI))%R.
Proof.
  unfold new_angle.
  assert (A1 : forall x, cos ((x + (0 + 1)) * PI) = (- cos (x * PI))%R).
  { intros x. replace ((x + (0 + 1)) * PI)%R with (x * PI + PI)%R by ring. apply neg_cos. }
  assert (A2 : forall x, sin ((x + (0 + 1)) * PI) = (- sin (x * PI))%R).
  { intros x. replace ((x + (0 + 1)) * PI)%R with (x * PI + PI)%R by ring. apply neg_sin. }
  assert (B : forall x y : R, (x + (1 / 2 + y) = (x + y) + 1 / 2)%R) by (intros; ring).
  destruct e, cs, ss; cbn [eqb sign_eqb sign_R]; rewrite ?B, ?cos_half_shift, ?sin_half_shift, ?A1, ?A2, ?Rplus_0_r,
    ?cos_2sub, ?sin_2sub; split; ring.
Qed.

Lemma bloch_clifford_proj a p c r : let '(a', p') := bloch_clifford a p c in
  outcome_operator (plane_polar p' a') r = mmul (mdag (clifford_mat c)) (mmul (outcome_operator (plane_polar p a) r) (clifford_mat c)).
Proof.
  unfold bloch_clifford.
  pose proof (axes_ok_all c p) as AO. unfold axes_ok in AO.
  destruct (pauli_clifford_plus (plane_cos p) c) as (ca & cs & Ec & Ec' & _).
  destruct (pauli_clifford_plus (plane_sin p) c) as (sa & ss & Es & Es' & _).
  rewrite Ec', Es' in *. cbn [fst] in AO. cbv zeta.
  set (q := plane_clifford p c) in *.
  fold (new_angle a (negb (axis_eqb ca (plane_cos q))) cs ss).
  set (e := negb (axis_eqb ca (plane_cos q))).
  rewrite !outcome_axes, conj_comb by apply clifford_unitary.
  rewrite !clifford_measure_axis_mat, Ec, Es, !pauli_mat_signed.
  pose proof (new_angle_spec a e cs ss) as [HC HS].
  assert (HC' : cos ((if Rle_dec (2 * 1) (new_angle a e cs ss) then (new_angle a e cs ss - 2 * 1) else new_angle a e cs ss) * PI)
     = cos (new_angle a e cs ss * PI)) by (destruct (Rle_dec _ _); [apply cos_sub2|reflexivity]).
  assert (HS' : sin ((if Rle_dec (2 * 1) (new_angle a e cs ss) then (new_angle a e cs ss - 2 * 1) else new_angle a e cs ss) * PI)
     = sin (new_angle a e cs ss * PI)) by (destruct (Rle_dec _ _); [apply sin_sub2|reflexivity]).
  rewrite HC', HS', HC, HS. clear HC HS HC' HS'.
  f_equal. f_equal. f_equal. unfold e in *. clear e.
  destruct (axis_eqb_spec ca (plane_cos q)) as [E1|E1]; cbn [negb].
  - destruct (axis_eqb_spec sa (plane_sin q)) as [E2|E2].
    + rewrite <- E1, <- E2. unfold sign_C. rewrite !mscale_mscale, <- !RtoC_mul.
      f_equal; f_equal; f_equal; ring.
    + exfalso. simpl in AO. destruct (axis_eqb_spec ca (plane_sin q)) as [E3|E3]; [|discriminate].
      rewrite E1 in E3. clear - E3. destruct q; discriminate.
  - simpl in AO. apply andb_true_iff in AO. destruct AO as [A1 A2].
    destruct (axis_eqb_spec ca (plane_sin q)) as [E2|]; [|discriminate].
    destruct (axis_eqb_spec sa (plane_cos q)) as [E3|]; [|discriminate].
    rewrite <- E2, <- E3. unfold sign_C. rewrite !mscale_mscale, <- !RtoC_mul.
    set (A := axis_mat sa); set (B := axis_mat ca). meq; ceq; ring.
Qed.

Lemma to_bloch_pauli ax s r : meas_proj (MPauli ax s) r =
  mscale (RtoC (/ 2)) (madd mid (mscale (RtoC (rsign r)) (mscale (sign_C s) (axis_mat ax)))).
Proof.
  unfold meas_proj.
  assert (H0 : cos (0 * PI) = 1%R) by (rewrite Rmult_0_l; apply cos_0).
  assert (H1 : sin (0 * PI) = 0%R) by (rewrite Rmult_0_l; apply sin_0).
  assert (H2 : cos (1 * PI) = (-1)%R) by (rewrite Rmult_1_l; apply cos_PI).
  assert (H3 : sin (1 * PI) = 0%R) by (rewrite Rmult_1_l; apply sin_PI).
  assert (H4 : cos (1 / 2 * PI) = 0%R) by (replace (1 / 2 * PI)%R with (PI / 2)%R by field; apply cos_PI2).
  assert (H5 : sin (1 / 2 * PI) = 1%R) by (replace (1 / 2 * PI)%R with (PI / 2)%R by field; apply sin_PI2).
  assert (H6 : cos (3 / 2 * PI) = 0%R) by (replace (3 / 2 * PI)%R with (3 * (PI / 2))%R by field; apply cos_3PI2).
  assert (H7 : sin (3 / 2 * PI) = (-1)%R) by (replace (3 / 2 * PI)%R with (3 * (PI / 2))%R by field; apply sin_3PI2).
  destruct ax, s; cbn [to_bloch]; rewrite outcome_axes;
  rewrite ?H0, ?H1, ?H2, ?H3, ?H4, ?H5, ?H6, ?H7; cbn [plane_cos plane_sin sign_R];
  f_equal; f_equal; f_equal; unfold sign_C; meq; ceq; ring.
Qed.

(** outcome r of [m.clifford(C)] is the projector C^dag P C *)
Lemma meas_clifford_proj m c r :
  meas_proj (meas_clifford m c) r = mmul (mdag (clifford_mat c)) (mmul (meas_proj m r) (clifford_mat c)).
Proof.
  destruct m as [a p|ax s]; cbn [meas_clifford].
  - pose proof (bloch_clifford_proj a p c r) as H. destruct (bloch_clifford a p c) as [a' p'].
    exact H.
  - pose proof (pauli_clifford_mat ax s c) as H. destruct (pauli_clifford ax s c) as [b s'].
    rewrite !to_bloch_pauli, <- H.
    set (P := mscale (sign_C s) (axis_mat ax)). set (U := clifford_mat c).
    pose proof (conj_comb U P (mscale C0 mid) C1 C0 (RtoC (rsign r)) (clifford_unitary c)) as E.
    assert (X : forall Q R, madd (mscale C1 Q) (mscale C0 R) = Q) by (intros; meq; ring).
    rewrite !X in E. symmetry; exact E.
Qed.
Lemma mvec_clifford m c r : mvec (meas_clifford m c) r ~v vmul (mdag (clifford_mat c)) (mvec m r).
Proof.
  apply vouter_inj_phase; [apply mvec_norm|].
  rewrite mvec_proj, meas_clifford_proj, <- mvec_proj, mmul_assoc, vouter_mul. reflexivity.
Qed.

(** ** The angle returned stays in [0, 2) *)
Lemma bloch_clifford_range a p c : (0 <= a < 2)%R -> (0 <= fst (bloch_clifford a p c) < 2)%R.
Proof.
  intros H. unfold bloch_clifford.
  destruct (pauli_clifford (plane_cos p) Plus c) as [ca cs].
  destruct (pauli_clifford (plane_sin p) Plus c) as [sa ss]. cbv zeta.
  set (q := plane_clifford p c). fold (new_angle a (negb (axis_eqb ca (plane_cos q))) cs ss).
  set (e := negb _). cbn [fst].
  assert (0 <= new_angle a e cs ss < 4)%R.
  { unfold new_angle. destruct e, cs, ss; cbn [eqb sign_eqb]; lra. }
  destruct (Rle_dec _ _); lra.
Qed.
