(** Property theorems: noise channels (C27).

    [drep n rho f g] is the matrix element <f|rho|g> of the array [rho] on n
    qubits, [conj1 U q] maps rho to U_q rho U_q^dagger, [channel_map n k data qs]
    is what DensityMatrix.apply_channel computes for the Kraus operators [data]
    on the qubits [qs], [kraus_new] is the KrausChannel constructor. *)
From Coq Require Import Reals Lra Arith List Bool Lia Permutation FunctionalExtensionality.
From Verif Require Import Cplx Mat2 NSet QState Pattern Statevec Density.
Import ListNotations.
Local Open Scope C_scope.

(** any channel with sum K^dagger K = I preserves the trace and positivity of
    any density matrix, on any distinct target qubits, and passes the check of
    apply_channel *)
Theorem C27_trace_preserving : forall n data qs rho, NoDup qs -> (forall q, In q qs -> (q < n)%nat) ->
  (forall i j, (i < 2 ^ length qs)%nat -> (j < 2 ^ length qs)%nat -> ksum (length qs) data i j = if (i =? j)%nat then C1 else C0) ->
  dm_trace n (channel_map n (length qs) data qs rho) = dm_trace n rho.
Proof. intros. apply channel_trace; auto. Qed.
Print Assumptions C27_trace_preserving.
Theorem C27_positive : forall n data qs rho, NoDup qs -> (forall q, In q qs -> (q < n)%nat) ->
  psd n (drep n rho) -> psd n (drep n (channel_map n (length qs) data qs rho)).
Proof. intros. apply channel_psd; auto. Qed.
Print Assumptions C27_positive.
Theorem C27_apply_succeeds : forall n data qs rho, NoDup qs -> (forall q, In q qs -> (q < n)%nat) -> kcomplete (length qs) data ->
  dm_trace n rho = C1 -> apply_channel n (length qs) data qs rho = Ok (channel_map n (length qs) data qs rho).
Proof. intros. unfold apply_channel. rewrite channel_trace, H2, isclose_refl by auto. auto. Qed.
Print Assumptions C27_apply_succeeds.

(** every constructor but pauli_channel returns a channel (no ValueError) with
    sum K^dagger K = I *)
Theorem C27_complete : forall p, (0 <= p <= 1)%R ->
  (kraus_new 1 (dephasing p) = Ok (dephasing p) /\ kcomplete 1 (dephasing p)) /\
  (kraus_new 1 (depolarising p) = Ok (depolarising p) /\ kcomplete 1 (depolarising p)) /\
  (kraus_new 1 (amplitude_damping p) = Ok (amplitude_damping p) /\ kcomplete 1 (amplitude_damping p)) /\
  (kraus_new 2 (two_qubit_depolarising p) = Ok (two_qubit_depolarising p) /\ kcomplete 2 (two_qubit_depolarising p)) /\
  (kraus_new 2 (two_qubit_depolarising_tensor p) = Ok (two_qubit_depolarising_tensor p) /\ kcomplete 2 (two_qubit_depolarising_tensor p)) /\
  (kraus_new 2 (two_qubit_amplitude_damping p) = Ok (two_qubit_amplitude_damping p) /\ kcomplete 2 (two_qubit_amplitude_damping p)).
Proof.
  intros p H.
  pose proof (dephasing_complete p H). pose proof (depolarising_complete p H). pose proof (ad_complete p H).
  pose proof (two_depolarising_complete p H). pose proof (two_tensor_complete p H). pose proof (two_ad_complete p H).
  repeat split; auto; apply kraus_new_ok; auto; try discriminate; simpl; lia.
Qed.
Print Assumptions C27_complete.

Lemma in1 n q : (q < n)%nat -> forall x, In x [q] -> (x < n)%nat.
Proof. intros H x [<-|[]]; auto. Qed.
Lemma in2 n q1 q2 : (q1 < n)%nat -> (q2 < n)%nat -> forall x, In x [q1; q2] -> (x < n)%nat.
Proof. intros H H' x [<-|[<-|[]]]; auto. Qed.
Ltac chan := match goal with
  | |- drep ?n (channel_map ?n _ ?d [?q] ?r) = _ => etransitivity; [refine (channel_drep n d [q] r _); apply in1; assumption|]
  | |- drep ?n (channel_map ?n _ ?d [?q1; ?q2] ?r) = _ => etransitivity; [refine (channel_drep n d [q1; q2] r _); apply in2; assumption|]
  end; let f := fresh "f" in let g := fresh "g" in extensionality f; extensionality g; unfold csum, gsum.
(** documented actions *)
Theorem C27_dephasing : forall p n q rho, (0 <= p <= 1)%R -> (q < n)%nat ->
  drep n (channel_map n 1 (dephasing p) [q] rho) = dplus (dscale (1 - p) (drep n rho)) (dscale p (conj1 mZ q (drep n rho))).
Proof.
  intros p n q rho H Hq. chan. unfold dephasing. cbn [fold_right fst snd]. rewrite !conjk_1, conj1_mid, !sq_sq' by lra.
  unfold dplus, dscale. ring.
Qed.
Print Assumptions C27_dephasing.
(** depolarising: (1-p) rho + p/3 (X rho X + Y rho Y + Z rho Z), which is
    (1 - 4p/3) rho + 4p/3 (tr_q rho) (x) I/2 *)
Theorem C27_depolarising : forall p n q rho, (0 <= p <= 1)%R -> (q < n)%nat ->
  let R := drep n rho in
  drep n (channel_map n 1 (depolarising p) [q] rho)
  = dplus (dscale (1 - p) R) (dscale (p / 3) (dplus (conj1 mX q R) (dplus (conj1 mY q R) (conj1 mZ q R))))
  /\ drep n (channel_map n 1 (depolarising p) [q] rho) = dplus (dscale (1 - 4 * (p / 3)) R) (dscale (4 * (p / 3)) (mixed q R)).
Proof.
  intros p n q rho H Hq R.
  assert (E : drep n (channel_map n 1 (depolarising p) [q] rho)
    = dplus (dscale (1 - p) R) (dscale (p / 3) (dplus (conj1 mX q R) (dplus (conj1 mY q R) (conj1 mZ q R))))).
  { chan. unfold depolarising. cbn [fold_right fst snd]. rewrite !conjk_1, conj1_mid, !sq_sq' by lra. fold R. unfold dplus, dscale. ring. }
  split; auto. rewrite E. extensionality f. extensionality g. pose proof (f_equal (fun X => X f g) (conj1_mixed q R)) as M.
  unfold dplus, dscale in *. cbv beta in M. set (m := mixed q R f g) in *.
  set (x := conj1 mX q R f g) in *. set (y := conj1 mY q R f g) in *. set (z := conj1 mZ q R f g) in *. set (r := R f g) in *.
  replace (x + (y + z)) with (RtoC 4 * m - r) by (rewrite <- M; ring).
  replace (4 * (p / 3))%R with (p / 3 * 4)%R by ring. rewrite RtoC_mul. replace (1 - p / 3 * 4)%R with ((1 - p) + - (p / 3))%R by field.
  rewrite RtoC_add, RtoC_opp. ring.
Qed.
Print Assumptions C27_depolarising.
Theorem C27_amplitude_damping : forall p n q rho, (0 <= p <= 1)%R -> (q < n)%nat ->
  let R := drep n rho in
  drep n (channel_map n 1 (amplitude_damping p) [q] rho) = fun f g =>
    match f q, g q with
    | false, false => R f g + RtoC p * R (upd f q true) (upd g q true)
    | true, true => RtoC (1 - p) * R f g
    | _, _ => RtoC (sqrt (1 - p)) * R f g
    end.
Proof.
  intros p n q rho H Hq R. chan. unfold amplitude_damping. cbn [fold_right fst snd]. rewrite !conjk_1. fold R. unfold conj1.
  pose proof (upd_id f q) as Ef. pose proof (upd_id g q) as Eg. rewrite Cconj_1.
  pose proof (sq_sq' (1 - p) ltac:(lra)) as E1. pose proof (sq_sq' p ltac:(lra)) as E2.
  destruct (f q), (g q); cbn [mget ad_k1 ad_k2 m00 m01 m10 m11]; rewrite ?Cconj_0, ?Cconj_1.
  - rewrite <- E1. rewrite Ef, Eg. ring.
  - unfold sq at 2. rewrite Ef, Eg. fold (sq (1 - p)). unfold sq. ring.
  - unfold sq. rewrite Cconj_R. rewrite Ef, Eg. ring.
  - rewrite <- E2, Ef, Eg. ring.
Qed.
Print Assumptions C27_amplitude_damping.
(** two-qubit depolarising: (1-p) rho + p/15 sum over the 15 non-identity Pauli
    pairs *)
Definition paulis : list mat2 := [mid; mX; mY; mZ].
Theorem C27_two_qubit_depolarising : forall p n q1 q2 rho, (0 <= p <= 1)%R -> (q1 < n)%nat -> (q2 < n)%nat -> q1 <> q2 ->
  let R := drep n rho in
  drep n (channel_map n 2 (two_qubit_depolarising p) [q1; q2] rho) = fun f g =>
    RtoC (1 - p) * R f g + RtoC (p / 15) * csum (tl (list_prod paulis paulis)) (fun PQ => conj1 (fst PQ) q1 (conj1 (snd PQ) q2 R) f g).
Proof.
  intros p n q1 q2 rho H H1 H2 HN R. chan. unfold two_qubit_depolarising, paulis. cbn [fold_right fst snd map list_prod app tl].
  rewrite !conjk_2, !sq_sq' by (auto; lra). fold R. rewrite !conj1_mid. ring.
Qed.
Print Assumptions C27_two_qubit_depolarising.
(** the tensor versions are the one-qubit channels applied to both qubits *)
Definition depol1 (p : R) (q : nat) (R : dop) : dop :=
  dplus (dscale (1 - p) R) (dscale (p / 3) (dplus (conj1 mX q R) (dplus (conj1 mY q R) (conj1 mZ q R)))).
Lemma conj1_dplus U q a b f g : conj1 U q (dplus a b) f g = conj1 U q a f g + conj1 U q b f g.
Proof. unfold conj1, dplus. ring. Qed.
Lemma conj1_dscale U q x a f g : conj1 U q (dscale x a) f g = RtoC x * conj1 U q a f g.
Proof. unfold conj1, dscale. ring. Qed.
Theorem C27_two_qubit_depolarising_tensor : forall p n q1 q2 rho, (0 <= p <= 1)%R -> (q1 < n)%nat -> (q2 < n)%nat -> q1 <> q2 ->
  drep n (channel_map n 2 (two_qubit_depolarising_tensor p) [q1; q2] rho) = depol1 p q1 (depol1 p q2 (drep n rho)).
Proof.
  intros p n q1 q2 rho H H1 H2 HN. chan. unfold two_qubit_depolarising_tensor. cbn [fold_right fst snd]. set (R := drep n rho).
  rewrite !conjk_2 by auto. set (c := sq (1 - p) * sq (p / 3)).
  assert (E : c * Cconj c = RtoC (1 - p) * RtoC (p / 3)).
  { unfold c. rewrite Cconj_mul, <- !sq_sq' by lra. ring. }
  rewrite E, !Cconj_R. unfold depol1. unfold dplus at 1, dscale at 1. rewrite !conj1_mid.
  change (dscale (p / 3) (dplus (conj1 mX q1 ?r) (dplus (conj1 mY q1 ?r) (conj1 mZ q1 ?r))) f g) with
   (RtoC (p/3) * (conj1 mX q1 r f g + (conj1 mY q1 r f g + conj1 mZ q1 r f g))).
  rewrite !conj1_dplus, !conj1_dscale, !conj1_dplus. unfold dplus, dscale. ring.
Qed.
Print Assumptions C27_two_qubit_depolarising_tensor.
Definition damp1 (p : R) (q : nat) (R : dop) : dop := dplus (conj1 (ad_k1 p) q R) (conj1 (ad_k2 p) q R).
Theorem C27_two_qubit_amplitude_damping : forall p n q1 q2 rho, (q1 < n)%nat -> (q2 < n)%nat -> q1 <> q2 ->
  drep n (channel_map n 2 (two_qubit_amplitude_damping p) [q1; q2] rho) = damp1 p q1 (damp1 p q2 (drep n rho))
  /\ drep n (channel_map n 1 (amplitude_damping p) [q1] rho) = damp1 p q1 (drep n rho).
Proof.
  intros p n q1 q2 rho H1 H2 HN. split.
  - chan. unfold two_qubit_amplitude_damping. cbn [fold_right flat_map map app fst snd]. rewrite !conjk_2 by auto. rewrite Cconj_1.
    unfold damp1. unfold dplus at 1. rewrite !conj1_dplus. ring.
  - chan. unfold amplitude_damping. cbn [fold_right fst snd]. rewrite !conjk_1, Cconj_1. unfold damp1, dplus. ring.
Qed.
Print Assumptions C27_two_qubit_amplitude_damping.

(** pauli_channel is wrong: its Kraus operators have sum K^dagger K =
    4/3 (px+py+pz) I, so the constructor raises ValueError for all probabilities
    whose sum is not 3/4 up to numerical tolerance *)
Lemma pauli_ksum px py pz i j : (0 <= px)%R -> (0 <= py)%R -> (0 <= pz)%R -> (i < 2)%nat -> (j < 2)%nat ->
  ksum 1 [(sq (1 - (1 - px - py - pz)), m2 mid); (sq (px / 3), m2 mX); (sq (py / 3), m2 mY); (sq (pz / 3), m2 mZ)] i j
  = RtoC (4 / 3 * (px + py + pz)) * eye i j.
Proof.
  intros Hx Hy Hz Hi Hj. unfold ksum. unfold csum at 1, gsum. cbn [fold_right fst snd]. rewrite !gram2, !sq_sq by lra.
  rewrite (proj1 unitary_id), (proj1 unitary_X), (proj1 unitary_Y), (proj1 unitary_Z), !m2_mid by auto.
  replace (4 / 3 * (px + py + pz))%R with ((1 - (1 - px - py - pz)) + (px / 3 + (py / 3 + pz / 3)))%R by field. rewrite !RtoC_add. ring.
Qed.
Theorem C27_pauli_channel_refuted : forall px py pz, (0 <= px)%R -> (0 <= py)%R -> (0 <= pz)%R ->
  (Rabs (4 / 3 * (px + py + pz) - 1) > 2 / 100000)%R -> pauli_channel px py pz = Err EValue.
Proof.
  intros px py pz Hx Hy Hz HS. unfold pauli_channel. destruct (Rlt_dec 1 (px + py + pz)); auto. unfold kraus_new. simpl length.
  change (4 ^ 1 <? 4)%nat with false. cbv iota.
  destruct (allclose _ _ _) eqn:E; auto. exfalso. unfold allclose in E. rewrite forallb_forall in E.
  specialize (E 0%nat ltac:(simpl; auto)). rewrite forallb_forall in E. specialize (E 0%nat ltac:(simpl; auto)).
  rewrite pauli_ksum in E by (auto; lia). unfold isclose in E. destruct (Rle_dec _ _) as [L|L]; [|discriminate].
  change (eye 0 0) with C1 in L.
  assert (M1 : Cmod C1 = 1%R) by (unfold Cmod, Cnorm2; simpl; replace (_ + _)%R with 1%R by ring; apply sqrt_1).
  assert (M2 : Cmod (RtoC (4 / 3 * (px + py + pz)) * C1 - C1) = Rabs (4 / 3 * (px + py + pz) - 1)).
  { unfold Cmod, Cnorm2. simpl. rewrite <- sqrt_Rsqr_abs. f_equal. unfold Rsqr. ring. }
  rewrite M1, M2 in L. lra.
Qed.
Print Assumptions C27_pauli_channel_refuted.
(** in particular the documented channel (1-px-py-pz) rho + px X rho X + ... is
    not available for px = py = pz = 1/10, nor for the noiseless case *)
Example C27_pauli_channel_case : pauli_channel (1 / 10) (1 / 10) (1 / 10) = Err EValue /\ pauli_channel 0 0 0 = Err EValue.
Proof.
  split; apply C27_pauli_channel_refuted; try lra.
  - replace (4 / 3 * (1 / 10 + 1 / 10 + 1 / 10) - 1)%R with (- (3 / 5))%R by field. rewrite Rabs_Ropp, Rabs_pos_eq; lra.
  - replace (4 / 3 * (0 + 0 + 0) - 1)%R with (- (1))%R by field. rewrite Rabs_Ropp, Rabs_pos_eq; lra.
Qed.
(** where it is accepted (sum 3/4) it is not the documented channel: the weight
    of rho is 3/4 instead of 1/4 *)
Theorem C27_pauli_channel_wrong_action_refuted : exists data, pauli_channel (1 / 4) (1 / 4) (1 / 4) = Ok data /\
  forall n q rho, (q < n)%nat -> let R := drep n rho in
  drep n (channel_map n 1 data [q] rho) = fun f g => RtoC (3 / 4) * R f g
    + RtoC (1 / 12) * (conj1 mX q R f g + conj1 mY q R f g + conj1 mZ q R f g).
Proof.
  set (p := (1 / 4)%R). eexists. split.
  - unfold pauli_channel. destruct (Rlt_dec 1 (p + p + p)) as [L|L]; [unfold p in L; lra|]. apply kraus_new_ok; [discriminate|simpl; lia|].
    intros i j Hi Hj. rewrite pauli_ksum; try (unfold p; lra); auto.
    replace (4 / 3 * (p + p + p))%R with 1%R by (unfold p; field). change (RtoC 1) with C1. ring.
  - intros n q rho Hq R. chan. cbn [fold_right fst snd]. rewrite !conjk_1, conj1_mid, !sq_sq' by (unfold p; lra). fold R.
    replace (1 - (1 - p - p - p))%R with (3 / 4)%R by (unfold p; field). replace (p / 3)%R with (1 / 12)%R by (unfold p; field). ring.
Qed.
Print Assumptions C27_pauli_channel_wrong_action_refuted.
Example C27_case : forall p, (0 <= p <= 1)%R ->
  apply_channel 1 1 (dephasing p) [0%nat] (m2 (Mat2 (RtoC (1 / 2)) (RtoC (1 / 2)) (RtoC (1 / 2)) (RtoC (1 / 2))))
  = Ok (channel_map 1 1 (dephasing p) [0%nat] (m2 (Mat2 (RtoC (1 / 2)) (RtoC (1 / 2)) (RtoC (1 / 2)) (RtoC (1 / 2))))).
Proof.
  intros p H. apply (C27_apply_succeeds 1 (dephasing p) [0%nat]).
  - repeat constructor; auto.
  - apply in1; lia.
  - apply dephasing_complete; auto.
  - unfold dm_trace. rewrite range2. unfold csum, m2. simpl. ceq; field.
Qed.
