(** Property theorems: rewriting of measurements and J gates in circuits (C47). *)
From Coq Require Import Reals Lra Arith List Bool Lia Permutation FunctionalExtensionality.
From Verif Require Import Cplx Mat2 NSet QState Fundamentals CliffordDb Clifford Measure Pattern Statevec Density Circuit Swaps PropCircuit.
Import ListNotations.

(** ** C47 *)
(** transpiler.py:720-737 transpile_measurements_to_z_axis; [circuit.h], [circuit.rx], [circuit.m] are [circ_add] *)
Definition z_axis_instr (i : instr) : list instr :=
  match i with
  | IM q AX => [IH q; IM q AZ]
  | IM q AY => [IRX q (1 / 2); IM q AZ]
  | i => [i]
  end.
Definition to_z_axis (c : circuit) : res circuit := rfold (fun d i => circ_extend d (z_axis_instr i)) (c_instr c) (circ_new (c_width c)).
(** transpiler.py:739-749 transpile_j_to_rzh *)
Definition rzh_instr (i : instr) : list instr := match i with IJ q a => [IRZ q a; IH q] | i => [i] end.
Definition j_to_rzh (c : circuit) : res circuit := rfold (fun d i => circ_extend d (rzh_instr i)) (c_instr c) (circ_new (c_width c)).

(** *** Specification *)
(** same outcomes, same states on every branch, up to a global phase *)
Definition same_circuit (l l' : list instr) : Prop := forall o, exists c, phase c /\ forall psi, csem o 0 l psi = cscale c (csem o 0 l' psi).

(** *** Proofs *)
Section Pass.
Variable f : instr -> list instr.
(** a rewriting step keeps the assertions and the active qubits, and the meaning *)
Hypothesis Hadd : forall i d, add_ok (c_active d) i = true -> exists d', circ_extend d (f i) = Ok d' /\
  c_width d' = c_width d /\ c_instr d' = c_instr d ++ f i /\ c_active d' = match i with IM q _ => sremove q (c_active d) | _ => c_active d end.
Hypothesis Hsem : forall o k i, exists c, phase c /\ forall l psi, csem o k (f i ++ l) psi = cscale c (csem o k (i :: l) psi).
Lemma pass_ok l c d d' : rfold circ_add l c = Ok d -> c_active d' = c_active c ->
  exists d2, rfold (fun d i => circ_extend d (f i)) l d' = Ok d2 /\ c_width d2 = c_width d' /\ c_instr d2 = c_instr d' ++ flat_map f l /\ c_active d2 = c_active d.
Proof.
  revert c d'. induction l as [|i l IH]; intros c d' E HA; cbn [rfold flat_map] in *.
  - injection E as <-. exists d'. rewrite app_nil_r. auto.
  - unfold circ_add in E at 1. destruct (add_ok (c_active c) i) eqn:A; [|discriminate].
    rewrite <- HA in A. destruct (Hadd i d' A) as (d1 & E1 & W1 & I1 & A1). rewrite E1.
    destruct (IH _ d1 E) as (d2 & E2 & W2 & I2 & A2). { cbn [c_active]. rewrite A1, HA. auto. }
    exists d2. split; auto. split; [congruence|]. split; auto. rewrite I2, I1, <- app_assoc. auto.
Qed.
Lemma pass_sem o l k : exists c, phase c /\ forall psi, csem o k (flat_map f l) psi = cscale c (csem o k l psi).
Proof.
  revert k. induction l as [|i l IH]; intros k.
  - exists C1. split; [apply phase_1|]. intros psi. rewrite cscale_1. auto.
  - cbn [flat_map]. destruct (Hsem o k i) as (c & Pc & K).
    assert (X : exists k' (g : state -> state), forall l psi, csem o k (i :: l) psi = csem o k' l (g psi)) by (destruct i; cbn [csem]; eauto).
    destruct X as (k' & g & X). destruct (IH k') as (c2 & P2 & K2). exists (Cmul c c2). split; [apply phase_mul; auto|].
    intros psi. rewrite K, !X, K2, cscale_cscale. auto.
Qed.
End Pass.

Lemma ext1 d i : add_ok (c_active d) i = true -> circ_extend d [i] = Ok (Circ (c_width d) (c_instr d ++ [i]) (match i with IM q _ => sremove q (c_active d) | _ => c_active d end)).
Proof. intros H. unfold circ_extend. cbn [rfold]. unfold circ_add. rewrite H. auto. Qed.
Lemma ext2 d a b q : iqubits a = [q] -> is_meas a = false -> iqubits b = [q] -> mem q (c_active d) = true ->
  circ_extend d [a; b] = Ok (Circ (c_width d) (c_instr d ++ [a; b]) (match b with IM q _ => sremove q (c_active d) | _ => c_active d end)).
Proof.
  intros Ha Ma Hb Hq. unfold circ_extend. cbn [rfold]. unfold circ_add at 1.
  assert (A : forall i, iqubits i = [q] -> add_ok (c_active d) i = true).
  { intros i E. unfold add_ok. rewrite E. cbn [forallb]. rewrite Hq. destruct i; cbn in E |- *; try discriminate; auto. }
  rewrite (A a Ha). assert (C : (match a with IM q _ => sremove q (c_active d) | _ => c_active d end) = c_active d) by (destruct a; auto; discriminate).
  rewrite C. unfold circ_add. cbn [c_active]. rewrite (A b Hb). cbn [c_width c_instr]. rewrite <- app_assoc. auto.
Qed.
Lemma ok_mem d q i : iqubits i = [q] -> add_ok (c_active d) i = true -> mem q (c_active d) = true.
Proof. intros E H. unfold add_ok in H. rewrite E in H. cbn [forallb] in H. rewrite !andb_true_iff in H. tauto. Qed.
Lemma z_add i d : add_ok (c_active d) i = true -> exists d', circ_extend d (z_axis_instr i) = Ok d' /\
  c_width d' = c_width d /\ c_instr d' = c_instr d ++ z_axis_instr i /\ c_active d' = match i with IM q _ => sremove q (c_active d) | _ => c_active d end.
Proof.
  intros H. destruct i; try (eexists; split; [apply (ext1 d _ H)|]; auto). destruct ax; cbn [z_axis_instr].
  - eexists. split; [apply (ext2 d _ _ q); auto; eapply ok_mem; [|exact H]; auto|]. auto.
  - eexists. split; [apply (ext2 d _ _ q); auto; eapply ok_mem; [|exact H]; auto|]. auto.
  - eexists. split; [apply (ext1 d _ H)|]. auto.
Qed.
Lemma rzh_add i d : add_ok (c_active d) i = true -> exists d', circ_extend d (rzh_instr i) = Ok d' /\
  c_width d' = c_width d /\ c_instr d' = c_instr d ++ rzh_instr i /\ c_active d' = match i with IM q _ => sremove q (c_active d) | _ => c_active d end.
Proof.
  intros H. destruct i; try (eexists; split; [apply (ext1 d _ H)|]; auto). cbn [rzh_instr].
  eexists. split; [apply (ext2 d _ _ q); auto; eapply ok_mem; [|exact H]; auto|]. auto.
Qed.
Lemma cl_op_h : clifford_mat K6 = op_h.
Proof. rewrite clifford_mat_H. unfold mH, op_h, mscale. cbn. f_equal; ring. Qed.
Lemma sqrt_half_cos : (cos (1 / 2 * PI / 2) = / sqrt 2)%R.
Proof. replace (1 / 2 * PI / 2)%R with (PI / 4)%R by field. rewrite cos_PI4. field. apply Rgt_not_eq, sqrt_lt_R0; lra. Qed.
Lemma sqrt_half_sin : (sin (1 / 2 * PI / 2) = / sqrt 2)%R.
Proof. replace (1 / 2 * PI / 2)%R with (PI / 4)%R by field. rewrite sin_PI4. field. apply Rgt_not_eq, sqrt_lt_R0; lra. Qed.
Lemma cl_op_rx : clifford_mat K7 = op_rx (1 / 2).
Proof.
  unfold clifford_mat, ginterp, op_rx. cbn [clifford_db fst snd]. rewrite sqrt_half_cos, sqrt_half_sin. unfold gmatC, gC, mscale. cbn. f_equal; apply C_eq; cbn; ring.
Qed.
(** measuring P after U is measuring U^dagger P U *)
Lemma meas_after c ax q r U : clifford_mat c = U -> meas_clifford (MPauli AZ Plus) c = MPauli ax Plus ->
  exists d, phase d /\ forall psi, cmeas q AZ r (app_op (OApp1 U q) psi) = cscale d (cmeas q ax r psi).
Proof.
  intros <- E. pose proof (mvec_clifford (MPauli AZ Plus) c r) as K. rewrite E in K.
  assert (L : [OApp1 (clifford_mat c) q; OMeas (mvec (MPauli AZ Plus) r) q] ≈ [OMeas (mvec (MPauli ax Plus) r) q]).
  { rewrite app1_meas. symmetry. apply meas_veqp. auto. }
  destruct L as (d & Pd & L). exists d. split; auto.
Qed.
Lemma z_sem o k i : exists c, phase c /\ forall l psi, csem o k (z_axis_instr i ++ l) psi = cscale c (csem o k (i :: l) psi).
Proof.
  assert (T : forall l', exists c, phase c /\ forall l psi, csem o k (l' ++ l) psi = cscale c (csem o k (l' ++ l) psi)).
  { intros l'. exists C1. split; [apply phase_1|]. intros. rewrite cscale_1. auto. }
  destruct i; try apply (T [_]). destruct ax; cbn [z_axis_instr]; [| |apply (T [_])].
  - destruct (meas_after K6 AX q (o k) op_h cl_op_h) as (d & Pd & K); [vm_compute; reflexivity|]. exists d. split; auto. intros l psi.
    cbn [app csem gate]. rewrite K, csem_scale. auto.
  - destruct (meas_after K7 AY q (o k) (op_rx (1 / 2)) cl_op_rx) as (d & Pd & K); [vm_compute; reflexivity|]. exists d. split; auto. intros l psi.
    cbn [app csem gate]. rewrite K, csem_scale. auto.
Qed.
Lemma rzh_mat a : mmul op_h (op_rz a) = mscale (cis (- (a / 2))) (op_j a).
Proof.
  unfold op_h, op_rz, op_j, mmul, mscale. cbn. assert (E : cis (a / 2) = Cmul (cis (- (a / 2))) (cis a)) by (rewrite <- cis_add; f_equal; field). rewrite E. f_equal; ring.
Qed.
Lemma rzh_sem o k i : exists c, phase c /\ forall l psi, csem o k (rzh_instr i ++ l) psi = cscale c (csem o k (i :: l) psi).
Proof.
  assert (T : forall l', exists c, phase c /\ forall l psi, csem o k (l' ++ l) psi = cscale c (csem o k (l' ++ l) psi)).
  { intros l'. exists C1. split; [apply phase_1|]. intros. rewrite cscale_1. auto. }
  destruct i; try apply (T [_]). cbn [rzh_instr]. exists (cis (- (angle / 2))). split; [apply phase_cis|]. intros l psi.
  cbn [app csem gate]. rewrite app1_app1, rzh_mat. rewrite <- csem_scale. f_equal. extensionality f. cbn [app_op]. unfold cscale. destruct (f q); cbn; ring.
Qed.
(** every circuit built by the API is rewritten without error into a circuit that
    computes the same states and has only Z measurements / no J gates *)
Theorem C47_z_axis : forall w l c, circ_make w l = Ok c -> exists c', to_z_axis c = Ok c' /\ circ_make w (c_instr c') = Ok c' /\
  same_circuit (c_instr c') (c_instr c) /\ (forall q ax, In (IM q ax) (c_instr c') -> ax = AZ) /\
  c_width c' = c_width c /\ c_active c' = c_active c.
Proof.
  intros w l c E. destruct (circ_extend_fields _ _ _ E) as [W I]. cbn in W, I. unfold to_z_axis. rewrite I, W.
  destruct (pass_ok z_axis_instr z_add l (circ_new w) c (circ_new w) E eq_refl) as (d & E2 & W2 & I2 & A2). cbn [c_instr circ_new app] in I2. rewrite E2. exists d. split; auto. split.
  - unfold circ_make, circ_extend. rewrite I2. clear - E2. revert E2. generalize (circ_new w). induction l as [|i l IH]; intros c0 E2; cbn [rfold flat_map] in *; auto.
    rewrite rfold_app. destruct (circ_extend c0 (z_axis_instr i)) as [c1|] eqn:E1; [|discriminate]. unfold circ_extend in E1. rewrite E1. auto.
  - split; [|split; [|split; [cbn in W2; congruence|auto]]].
    + intros o. rewrite I2. apply (pass_sem z_axis_instr z_sem o l 0).
    + intros q ax H. rewrite I2 in H. apply in_flat_map in H. destruct H as (i & _ & H). destruct i as [| | | | | | | | | | |q' ax'| | | |]; cbn in H; try (destruct H as [H|[]]; discriminate).
      destruct ax'; cbn in H; intuition congruence.
Qed.
Print Assumptions C47_z_axis.
Theorem C47_j_to_rzh : forall w l c, circ_make w l = Ok c -> exists c', j_to_rzh c = Ok c' /\ circ_make w (c_instr c') = Ok c' /\
  same_circuit (c_instr c') (c_instr c) /\ (forall q a, ~ In (IJ q a) (c_instr c')) /\
  c_width c' = c_width c /\ c_active c' = c_active c.
Proof.
  intros w l c E. destruct (circ_extend_fields _ _ _ E) as [W I]. cbn in W, I. unfold j_to_rzh. rewrite I, W.
  destruct (pass_ok rzh_instr rzh_add l (circ_new w) c (circ_new w) E eq_refl) as (d & E2 & W2 & I2 & A2). cbn [c_instr circ_new app] in I2. rewrite E2. exists d. split; auto. split.
  - unfold circ_make, circ_extend. rewrite I2. clear - E2. revert E2. generalize (circ_new w). induction l as [|i l IH]; intros c0 E2; cbn [rfold flat_map] in *; auto.
    rewrite rfold_app. destruct (circ_extend c0 (rzh_instr i)) as [c1|] eqn:E1; [|discriminate]. unfold circ_extend in E1. rewrite E1. auto.
  - split; [|split; [|split; [cbn in W2; congruence|auto]]].
    + intros o. rewrite I2. apply (pass_sem rzh_instr rzh_sem o l 0).
    + intros q a H. rewrite I2 in H. apply in_flat_map in H. destruct H as (i & _ & H). destruct i; cbn in H; intuition congruence.
Qed.
Print Assumptions C47_j_to_rzh.
(** *** Non-vacuity *)
Example rewrite_ex a : exists c, circ_make 2 [IJ 0 a; ICNOT 1 0; IM 0 AY; IM 1 AX] = Ok c /\
  flat_map z_axis_instr (c_instr c) = [IJ 0 a; ICNOT 1 0; IRX 0 (1 / 2); IM 0 AZ; IH 1; IM 1 AZ] /\
  flat_map rzh_instr (c_instr c) = [IRZ 0 a; IH 0; ICNOT 1 0; IM 0 AY; IM 1 AX].
Proof. eexists. split; [vm_compute; reflexivity|]. split; reflexivity. Qed.
