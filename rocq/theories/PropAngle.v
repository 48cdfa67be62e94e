(** Property theorems: angles (C40).  Floating-point rounding is not modelled:
    numbers are exact reals. *)
From Coq Require Import Reals Lra Psatz ZArith List Bool Lia.
From Verif Require Import Cplx Mat2 Fundamentals CliffordDb Clifford Measure Circuit Transpile.
Import ListNotations.
Local Open Scope R_scope.

(** ** C40 *)
(** parameter.py ParameterizedAngle: Python numbers are [int]s or [float]s; a
    symbolic expression of any type [E] *)
Inductive pyangle (E : Type) := AFloat (a : R) | AInt (z : Z) | ASym (e : E).
Arguments AFloat {E}. Arguments AInt {E}. Arguments ASym {E}.
Definition ang_val {E} (v : pyangle E) : option R := match v with AFloat a => Some a | AInt z => Some (IZR z) | ASym _ => None end.
(** transpiler.py:972-988 normalize_angle *)
Definition normalize_angle {E} (v : pyangle E) : pyangle E := match v with AFloat a => AFloat (mod2 a) | v => v end.

(** math.isclose(a, b, rel_tol, abs_tol) (documented formula) *)
Definition isclose (rel abs a b : R) : bool := if Rle_dec (Rabs (a - b)) (Rmax (rel * Rmax (Rabs a) (Rabs b)) abs) then true else false.
(** Python [round]: nearest integer, halves to even *)
Definition pround (x : R) : Z :=
  let k := Int_part x in
  let f := x - IZR k in
  if Rlt_dec f (1 / 2) then k else if Rlt_dec (1 / 2) f then (k + 1)%Z else if Z.even k then k else (k + 1)%Z.
(** measurements.py:244-256 BlochMeasurement.to_pauli_or_none (numeric angle);
    449-452 for PauliMeasurement *)
Definition to_pauli_or_none (rel abs : R) (m : measurement) : option (axis * sign) :=
  match m with
  | MPauli ax s => Some (ax, s)
  | MBloch a p =>
      let d := 2 * a in
      let k := pround d in
      if negb (isclose rel abs d (IZR k)) then None
      else
        let k4 := (k mod 4)%Z in
        let ax := if (k4 mod 2 =? 0)%Z then plane_cos p else plane_sin p in
        let s := if (2 <=? k4)%Z then Minus else Plus in
        Some (ax, s)
  end.
(** measurements.py:258-261 to_pauli_or_bloch *)
Definition to_pauli_or_bloch (rel abs : R) (m : measurement) : measurement :=
  match to_pauli_or_none rel abs m with Some (ax, s) => MPauli ax s | None => m end.
(** measurements.py:263-306, 462-464 isclose (float angles) *)
Definition meas_isclose (rel abs : R) (m m' : measurement) : bool :=
  match m, m' with
  | MBloch a p, MBloch b q => isclose rel abs a b && plane_eqb p q
  | MPauli ax s, MPauli ax' s' => axis_eqb ax ax' && sign_eqb s s'
  | _, _ => false
  end.
(** measurements.py:397-406 __neg__ *)
Definition pauli_meas_neg (ax : axis) (s : sign) : measurement := MPauli ax (sign_neg s).

(** *** Proofs *)
Lemma mod2_range a : 0 <= mod2 a < 2.
Proof. unfold mod2. destruct (base_Int_part (a / 2)) as [A B]. split; lra. Qed.
Lemma polar_cis p a b : cis a = cis b -> plane_polar p a = plane_polar p b.
Proof. intros H. unfold cis in H. injection H as A B. unfold plane_polar. destruct p; rewrite A, B; auto. Qed.
Lemma proj_cis p a b r : cis a = cis b -> meas_proj (MBloch a p) r = meas_proj (MBloch b p) r.
Proof. intros H. unfold meas_proj, to_bloch. rewrite (polar_cis p a b H). auto. Qed.
Lemma Int_part_Z z : Int_part (IZR z) = z.
Proof. destruct (base_Int_part (IZR z)) as [A B]. apply le_IZR in A. assert (IZR z < IZR (Int_part (IZR z) + 1)) by (rewrite plus_IZR; lra). apply lt_IZR in H. lia. Qed.
Lemma cis_2z z : cis (2 * IZR z) = C1.
Proof.
  rewrite <- cis_mod2. unfold mod2. replace (2 * IZR z / 2) with (IZR z) by field. rewrite Int_part_Z. replace (2 * IZR z - 2 * IZR z) with 0 by ring. apply cis_0.
Qed.
Lemma cis_mod4 k : cis (IZR k / 2) = cis (IZR (k mod 4) / 2).
Proof.
  rewrite (Z.div_mod k 4) at 1 by lia. rewrite plus_IZR, mult_IZR. replace ((4 * IZR (k / 4) + IZR (k mod 4)) / 2) with (2 * IZR (k / 4) + IZR (k mod 4) / 2) by field.
  rewrite cis_add, cis_2z. ring.
Qed.
Lemma pround_near x : Rabs (x - IZR (pround x)) <= 1 / 2.
Proof.
  unfold pround. cbv zeta. destruct (base_Int_part x) as [A B]. set (k := Int_part x) in *.
  destruct (Rlt_dec (x - IZR k) (1 / 2)); [rewrite Rabs_pos_eq; lra|]. destruct (Rlt_dec (1 / 2) (x - IZR k)); [|destruct (Z.even k)]; rewrite ?plus_IZR.
  - rewrite Rabs_left1; lra.
  - rewrite Rabs_pos_eq; lra.
  - rewrite Rabs_left1; lra.
Qed.
Lemma pround_Z z : pround (IZR z) = z.
Proof. unfold pround. cbv zeta. rewrite Int_part_Z. destruct (Rlt_dec (IZR z - IZR z) (1 / 2)); auto. lra. Qed.
Lemma pround_unique x k : Rabs (x - IZR k) < 1 / 2 -> pround x = k.
Proof.
  intros H. pose proof (pround_near x) as N. assert (L : Rabs (IZR (pround x - k)) < 1).
  { rewrite minus_IZR. replace (IZR (pround x) - IZR k) with ((x - IZR k) - (x - IZR (pround x))) by ring. eapply Rle_lt_trans; [apply Rabs_triang|]. rewrite Rabs_Ropp. lra. }
  rewrite <- abs_IZR in L. apply lt_IZR in L. lia.
Qed.
Lemma cis_32 : cis (3 / 2) = Copp Ci.
Proof. replace (3 / 2) with (1 + 1 / 2) by field. rewrite cis_add, cis_1, cis_half. ring. Qed.
Lemma cs a x y : cis a = mkC x y -> cos (a * PI) = x /\ sin (a * PI) = y.
Proof. unfold cis. intros H. injection H. auto. Qed.
Lemma cs0 : cos (0 * PI) = 1 /\ sin (0 * PI) = 0.
Proof. apply cs. rewrite cis_0. reflexivity. Qed.
Lemma cs1 : cos (1 * PI) = -1 /\ sin (1 * PI) = 0.
Proof. apply cs. rewrite cis_1. apply C_eq; cbn; ring. Qed.
Lemma csh : cos (1 / 2 * PI) = 0 /\ sin (1 / 2 * PI) = 1.
Proof. apply cs. rewrite cis_half. reflexivity. Qed.
Lemma cs3 : cos (3 / 2 * PI) = 0 /\ sin (3 / 2 * PI) = -1.
Proof. apply cs. rewrite cis_32. apply C_eq; cbn; ring. Qed.
Lemma to_pauli_proj k p r : meas_proj (MPauli (if ((k mod 4) mod 2 =? 0)%Z then plane_cos p else plane_sin p) (if (2 <=? k mod 4)%Z then Minus else Plus)) r = meas_proj (MBloch (IZR k / 2) p) r.
Proof.
  rewrite (proj_cis p (IZR k / 2) (IZR (k mod 4) / 2)) by apply cis_mod4.
  assert (R4 : (0 <= k mod 4 < 4)%Z) by (apply Z.mod_pos_bound; lia). revert R4. generalize (k mod 4)%Z. intros z Hz.
  assert (Cz : (z = 0 \/ z = 1 \/ z = 2 \/ z = 3)%Z) by lia. clear Hz. destruct cs0 as [A0 B0], cs1 as [A1 B1], csh as [Ah Bh], cs3 as [A3 B3].
  destruct Cz as [-> | [-> | [-> | ->]]].
  - replace (IZR 0 / 2) with 0 by field. change ((0 mod 2 =? 0)%Z) with true. change (2 <=? 0)%Z with false. cbv iota.
    unfold meas_proj, plane_polar. destruct p; cbn [to_bloch plane_cos plane_sin]; rewrite ?A0, ?B0; auto.
  - change ((1 mod 2 =? 0)%Z) with false. change (2 <=? 1)%Z with false. cbv iota.
    unfold meas_proj, plane_polar. destruct p; cbn [to_bloch plane_cos plane_sin]; rewrite ?A0, ?B0, ?Ah, ?Bh; auto.
  - replace (IZR 2 / 2) with 1 by field. change ((2 mod 2 =? 0)%Z) with true. change (2 <=? 2)%Z with true. cbv iota.
    unfold meas_proj, plane_polar. destruct p; cbn [to_bloch plane_cos plane_sin]; rewrite ?A1, ?B1; auto.
  - change ((3 mod 2 =? 0)%Z) with false. change (2 <=? 3)%Z with true. cbv iota.
    unfold meas_proj, plane_polar. destruct p; cbn [to_bloch plane_cos plane_sin]; rewrite ?A1, ?B1, ?A3, ?B3; auto.
Qed.

(** numeric (float) angles are brought to [0, 2) and denote the same projectors and
    the same phase; symbolic angles are left alone *)
Theorem C40_normalize : forall E (a : R) (p : plane) (r : bool), exists b, @normalize_angle E (AFloat a) = AFloat b /\ 0 <= b < 2 /\
  cis b = cis a /\ meas_proj (MBloch b p) r = meas_proj (MBloch a p) r /\ exists k : Z, b = a + 2 * IZR k.
Proof.
  intros E a p r. exists (mod2 a). split; auto. split; [apply mod2_range|]. split; [apply cis_mod2|]. split; [apply proj_cis, cis_mod2|].
  exists (- Int_part (a / 2))%Z. unfold mod2. rewrite opp_IZR. ring.
Qed.
Print Assumptions C40_normalize.
Theorem C40_normalize_symbolic : forall E (e : E), normalize_angle (ASym e) = ASym e.
Proof. auto. Qed.
(** the docstring promises [0, 2) for every instantiated angle: false of Python integers *)
Theorem C40_integers_refuted : ~ (forall E (v : pyangle E) a, ang_val (normalize_angle v) = Some a -> 0 <= a < 2).
Proof. intros H. specialize (H unit (AInt 5) (IZR 5) eq_refl). lra. Qed.
Print Assumptions C40_integers_refuted.
(** the action of a Clifford keeps angles in [0, 2) *)
Theorem C40_clifford_range : forall a p c b q, 0 <= a < 2 -> meas_clifford (MBloch a p) c = MBloch b q -> 0 <= b < 2.
Proof.
  intros a p c b q H. cbn [meas_clifford]. unfold bloch_clifford.
  destruct (pauli_clifford (plane_cos p) Plus c) as [ca cg], (pauli_clifford (plane_sin p) Plus c) as [sa sg].
  intros E. injection E as <- <-.
  destruct (negb (axis_eqb ca (plane_cos (plane_clifford p c)))), cg, sg; cbn [eqb sign_eqb];
    match goal with |- context [Rle_dec ?x ?y] => destruct (Rle_dec x y) end; lra.
Qed.
Print Assumptions C40_clifford_range.
(** to_pauli_or_none: what it returns is the Pauli measurement of the half-integer
    angle nearest to the angle, which is within the tolerance; every half-integer
    angle is recognised; without tolerance nothing else is *)
Theorem C40_to_pauli_sound : forall rel abs a p ax s, to_pauli_or_none rel abs (MBloch a p) = Some (ax, s) ->
  exists k : Z, Rabs (2 * a - IZR k) <= Rmax (rel * Rmax (Rabs (2 * a)) (Rabs (IZR k))) abs /\ Rabs (2 * a - IZR k) <= 1 / 2 /\
    forall r, meas_proj (MPauli ax s) r = meas_proj (MBloch (IZR k / 2) p) r.
Proof.
  intros rel abs a p ax s. unfold to_pauli_or_none. cbv zeta. destruct (isclose rel abs (2 * a) (IZR (pround (2 * a)))) eqn:E; cbn [negb]; [|discriminate].
  intros K. injection K as <- <-. exists (pround (2 * a)). split; [|split; [apply pround_near|intros r; apply to_pauli_proj]].
  unfold isclose in E. destruct (Rle_dec _ _) as [L|L]; [auto|discriminate].
Qed.
Print Assumptions C40_to_pauli_sound.
Theorem C40_to_pauli_complete : forall rel abs (k : Z) p, 0 <= rel -> 0 <= abs ->
  exists ax s, to_pauli_or_none rel abs (MBloch (IZR k / 2) p) = Some (ax, s) /\ forall r, meas_proj (MPauli ax s) r = meas_proj (MBloch (IZR k / 2) p) r.
Proof.
  intros rel abs k p HR HA. unfold to_pauli_or_none. cbv zeta. replace (2 * (IZR k / 2)) with (IZR k) by field. rewrite pround_Z.
  replace (isclose rel abs (IZR k) (IZR k)) with true.
  - cbn [negb]. do 2 eexists. split; [reflexivity|]. intros r. apply to_pauli_proj.
  - unfold isclose. destruct (Rle_dec _ _) as [L|L]; auto. exfalso. apply L. unfold Rminus. rewrite Rplus_opp_r, Rabs_R0. eapply Rle_trans; [apply HA|apply Rmax_r].
Qed.
Print Assumptions C40_to_pauli_complete.
Theorem C40_to_pauli_exact : forall a p, (exists ax s, to_pauli_or_none 0 0 (MBloch a p) = Some (ax, s)) <-> exists k : Z, a = IZR k / 2.
Proof.
  intros a p. split.
  - intros (ax & s & E). apply C40_to_pauli_sound in E. destruct E as (k & L & _). exists k. rewrite Rmult_0_l, Rmax_left in L by lra.
    destruct (Req_dec (2 * a - IZR k) 0) as [Q|Q]; [lra|]. apply Rabs_pos_lt in Q. lra.
  - intros (k & ->). destruct (C40_to_pauli_complete 0 0 k p) as (ax & s & E & _); try lra. eauto.
Qed.
Print Assumptions C40_to_pauli_exact.
(** to_pauli_or_bloch keeps the projectors exactly at half-integer angles, and only
    replaces measurements whose angle is within the tolerance of one *)
Theorem C40_to_pauli_or_bloch : forall rel abs m, let m' := to_pauli_or_bloch rel abs m in
  m' = m \/ exists a p ax s k, m = MBloch a p /\ m' = MPauli ax s /\ Rabs (2 * a - IZR k) <= Rmax (rel * Rmax (Rabs (2 * a)) (Rabs (IZR k))) abs /\
    forall r, meas_proj m' r = meas_proj (MBloch (IZR k / 2) p) r.
Proof.
  intros rel abs m m'. unfold m', to_pauli_or_bloch. destruct (to_pauli_or_none rel abs m) as [[ax s]|] eqn:E; [|auto].
  destruct m as [a p|ax' s']; [|cbn in E; injection E as <- <-; auto]. right. apply C40_to_pauli_sound in E. destruct E as (k & L & _ & P). exists a, p, ax, s, k. auto.
Qed.
Print Assumptions C40_to_pauli_or_bloch.
(** isclose is reflexive, symmetric, and with zero tolerance is equality *)
Lemma isclose_sym rel abs a b : isclose rel abs a b = isclose rel abs b a.
Proof. unfold isclose. rewrite Rabs_minus_sym, (Rmax_comm (Rabs a)). auto. Qed.
Lemma plane_eqb_spec p q : plane_eqb p q = true <-> p = q.
Proof. destruct p, q; cbn; split; congruence. Qed.
Theorem C40_isclose : forall rel abs m m', 0 <= abs -> meas_isclose rel abs m m = true /\ meas_isclose rel abs m m' = meas_isclose rel abs m' m /\
  (meas_isclose 0 0 m m' = true <-> m = m').
Proof.
  intros rel abs m m' HA. split; [|split].
  - destruct m as [a p|ax s]; cbn [meas_isclose]; [|destruct ax, s; auto]. unfold isclose. destruct (Rle_dec _ _) as [L|L]; [destruct p; auto|].
    exfalso. apply L. unfold Rminus. rewrite Rplus_opp_r, Rabs_R0. eapply Rle_trans; [apply HA|apply Rmax_r].
  - destruct m as [a p|ax s], m' as [b q|ax' s']; cbn [meas_isclose]; auto; [rewrite isclose_sym; destruct p, q; auto|destruct ax, ax', s, s'; auto].
  - destruct m as [a p|ax s], m' as [b q|ax' s']; cbn [meas_isclose].
    + rewrite andb_true_iff, plane_eqb_spec. unfold isclose. destruct (Rle_dec _ _) as [L|L].
      * rewrite Rmult_0_l, Rmax_left in L by lra. split; [|intros E; injection E; auto]. intros [_ ->]. f_equal.
        destruct (Req_dec (a - b) 0) as [Q|Q]; [lra|]. apply Rabs_pos_lt in Q. lra.
      * split; [intros []; discriminate|]. intros E. injection E as -> ->. exfalso. apply L. unfold Rminus. rewrite Rplus_opp_r, Rabs_R0. apply Rmax_r.
    + split; discriminate.
    + split; discriminate.
    + destruct ax, ax', s, s'; cbn; split; congruence.
Qed.
Print Assumptions C40_isclose.
(** negation exchanges the outcomes *)
Theorem C40_neg : forall ax s r, meas_proj (pauli_meas_neg ax s) r = meas_proj (MPauli ax s) (negb r).
Proof. intros ax s r. unfold pauli_meas_neg. rewrite !to_bloch_pauli, !mscale_mscale. do 3 f_equal. destruct s, r; unfold sign_C; cbn [sign_neg negb sign_R rsign]; apply C_eq; cbn; ring. Qed.
Print Assumptions C40_neg.

(** *** Non-vacuity *)
Example normalize_ex : @normalize_angle unit (AFloat (-3 / 4)) = AFloat (5 / 4).
Proof.
  cbn. f_equal. unfold mod2. assert (E : Int_part (-3 / 4 / 2) = (-1)%Z).
  { destruct (base_Int_part (-3 / 4 / 2)) as [A B]. assert (L1 : (Int_part (-3 / 4 / 2) < 0)%Z) by (apply lt_IZR; lra). assert (L2 : (-2 < Int_part (-3 / 4 / 2))%Z) by (apply lt_IZR; lra). lia. }
  rewrite E. lra.
Qed.
Example to_pauli_ex : to_pauli_or_none 0 0 (MBloch (3 / 2) PXZ) = Some (AX, Minus) /\ to_pauli_or_none 0 0 (MBloch (1 / 4) PXY) = None.
Proof.
  split.
  - cbn [to_pauli_or_none]. cbv zeta. replace (2 * (3 / 2)) with (IZR 3) by field. rewrite pround_Z. unfold isclose. destruct (Rle_dec _ _) as [L|L]; [reflexivity|].
    exfalso. apply L. unfold Rminus. rewrite Rplus_opp_r, Rabs_R0. apply Rmax_r.
  - destruct (to_pauli_or_none 0 0 (MBloch (1 / 4) PXY)) as [[ax s]|] eqn:E; auto. exfalso.
    destruct (proj1 (C40_to_pauli_exact (1 / 4) PXY)) as (k & Hk); [eauto|]. assert (K : IZR (2 * k) = 1) by (rewrite mult_IZR; lra). apply (eq_IZR (2 * k) 1) in K. lia.
Qed.
