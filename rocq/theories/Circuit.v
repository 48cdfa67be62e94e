(** Model of graphix/instruction.py and of the gate-level part of
    graphix/transpiler.py: circuits, their meaning (Circuit.simulate), the
    decomposition into J and CZ gates, and the elimination of SWAP gates.
    Angles are real numbers in units of pi (parameterised angles are not
    modelled here). *)
From Coq Require Import Reals Lra Nsatz Arith List Bool Lia Permutation FunctionalExtensionality.
From Verif Require Import Cplx Mat2 NSet QState Fundamentals CliffordDb Clifford Measure Pattern Statevec Density.
Import ListNotations.
Local Open Scope C_scope.

(** instruction.py:42-58, 116-360: the sixteen instruction classes, with their
    fields in the order of the dataclasses *)
Inductive instr :=
| ICCX (target c0 c1 : nat)
| IRZZ (target control : nat) (angle : R)
| ICNOT (target control : nat)
| ICZ (u v : nat)
| ISWAP (u v : nat)
| IH (q : nat) | IS (q : nat) | IX (q : nat) | IY (q : nat) | IZ (q : nat) | II (q : nat)
| IM (q : nat) (ax : axis)
| IRX (q : nat) (angle : R) | IRY (q : nat) (angle : R) | IRZ (q : nat) (angle : R)
| IJ (q : nat) (angle : R).

(** * Meaning of the gates *)
(** a numpy array given by its rows *)
Definition rows (M : list (list C)) : cmat := fun i j => nth j (nth i M []) C0.
(** matrix product of d x d arrays *)
Definition cmm (d : nat) (A B : cmat) : cmat := fun i j => csum (range d) (fun k => A i k * B k j).
(** ops.py:46-55 Ops.CNOT *)
Definition op_cnot : cmat := rows [[C1; C0; C0; C0]; [C0; C1; C0; C0]; [C0; C0; C0; C1]; [C0; C0; C1; C0]].
(** ops.py:66-79 Ops.CCX *)
Definition op_ccx : cmat := rows
  [[C1; C0; C0; C0; C0; C0; C0; C0]; [C0; C1; C0; C0; C0; C0; C0; C0]; [C0; C0; C1; C0; C0; C0; C0; C0]; [C0; C0; C0; C1; C0; C0; C0; C0];
   [C0; C0; C0; C0; C1; C0; C0; C0]; [C0; C0; C0; C0; C0; C1; C0; C0]; [C0; C0; C0; C0; C0; C0; C0; C1]; [C0; C0; C0; C0; C0; C0; C1; C0]].
(** ops.py:107-121 Ops.rx *)
Definition op_rx (a : R) : mat2 :=
  Mat2 (RtoC (cos (a * PI / 2))) (- Ci * RtoC (sin (a * PI / 2))) (- Ci * RtoC (sin (a * PI / 2))) (RtoC (cos (a * PI / 2))).
(** ops.py:131-145 Ops.ry *)
Definition op_ry (a : R) : mat2 :=
  Mat2 (RtoC (cos (a * PI / 2))) (RtoC (- sin (a * PI / 2))) (RtoC (sin (a * PI / 2))) (RtoC (cos (a * PI / 2))).
(** ops.py:155-168 Ops.rz: exp(-+ i angle / 2) *)
Definition op_rz (a : R) : mat2 := Mat2 (cis (- (a / 2))) C0 C0 (cis (a / 2)).
(** ops.py:178-197 Ops.j *)
Definition op_j (a : R) : mat2 :=
  let q := RtoC (/ sqrt 2) in Mat2 q (q * cis a) q (- q * cis a).
(** ops.py:33,35 Ops.S, Ops.H *)
Definition op_s : mat2 := Mat2 C1 C0 C0 Ci.
Definition op_h : mat2 := let q := RtoC (/ sqrt 2) in Mat2 q q q (- q).
(** ops.py:207-225 Ops.rzz: CNOT @ kron(I, rz) @ CNOT *)
Definition op_rzz (a : R) : cmat := cmm 4 (cmm 4 op_cnot (kronm (m2 mid) (op_rz a))) op_cnot.

(** apply a matrix on the listed qubits, most significant first *)
Definition appk (M : cmat) (qs : list nat) (psi : state) : state := fun f =>
  let k := length qs in
  cbsum k (fun a => M (idx k (fun t => f (nth t qs 0%nat))) (idx k a) * psi (putf qs a f)).
(** exchange two qubits *)
Definition swapst (u v : nat) (psi : state) : state := fun f => psi (upd (upd f u (f v)) v (f u)).
(** transpiler.py:595-638 the action of one unitary instruction in
    Circuit.simulate *)
Definition gate (i : instr) (psi : state) : state :=
  match i with
  | ICCX t c0 c1 => appk op_ccx [c0; c1; t] psi
  | IRZZ t c a => appk (op_rzz a) [c; t] psi
  | ICNOT t c => appk op_cnot [c; t] psi
  | ICZ u v => app_op (OCz u v) psi
  | ISWAP u v => swapst u v psi
  | IH q => app_op (OApp1 op_h q) psi
  | IS q => app_op (OApp1 op_s q) psi
  | IX q => app_op (OApp1 mX q) psi
  | IY q => app_op (OApp1 mY q) psi
  | IZ q => app_op (OApp1 mZ q) psi
  | II _ => psi
  | IM _ _ => psi
  | IRX q a => app_op (OApp1 (op_rx a) q) psi
  | IRY q a => app_op (OApp1 (op_ry a) q) psi
  | IRZ q a => app_op (OApp1 (op_rz a) q) psi
  | IJ q a => app_op (OApp1 (op_j a) q) psi
  end.
(** transpiler.py:639-643: measurement of a qubit in a Pauli basis with outcome r;
    the qubit is projected and removed *)
Definition cmeas (q : nat) (ax : axis) (r : bool) (psi : state) : state := app_op (OMeas (mvec (MPauli ax Plus) r) q) psi.
(** transpiler.py:553-642 Circuit.simulate, as the unnormalised state in the
    branch where the k-th measurement has outcome [o k]; [k] measurements have
    already been done *)
Fixpoint csem (o : nat -> bool) (k : nat) (l : list instr) (psi : state) : state :=
  match l with
  | [] => psi
  | IM q ax :: l' => csem o (S k) l' (cmeas q ax (o k) psi)
  | i :: l' => csem o k l' (gate i psi)
  end.

(** * Decomposition into J and CZ *)
Inductive jinstr := JJ (q : nat) (angle : R) | JCZ (u v : nat) | JM (q : nat) (ax : axis).
(** transpiler.py:752-767 decompose_rzz *)
Definition decompose_rzz (t c : nat) (a : R) : list instr := [ICNOT t c; IRZ t a; ICNOT t c].
(** transpiler.py:770-806 decompose_ccx *)
Definition decompose_ccx (t c0 c1 : nat) : list instr :=
  [IH t; ICNOT t c1; IRZ t (-1 / 4); ICNOT t c0; IRZ t (1 / 4); ICNOT t c1; IRZ t (-1 / 4); ICNOT t c0;
   IRZ c1 (-1 / 4); IRZ t (1 / 4); ICNOT c1 c0; IH t; IRZ c1 (-1 / 4); ICNOT c1 c0; IRZ c0 (1 / 4); IRZ c1 (1 / 2)].
(** transpiler.py:809-825 decompose_cnot *)
Definition decompose_cnot (t c : nat) : list instr := [IH t; ICZ c t; IH t].
(** transpiler.py:828-847 decompose_swap *)
Definition decompose_swap (u v : nat) : list instr := [ICNOT v u; ICNOT u v; ICNOT v u].
(** transpiler.py:850-863 decompose_y *)
Definition decompose_y (q : nat) : list instr := [IZ q; IX q].
(** transpiler.py:866-882 decompose_rx, 885-904 decompose_ry, 907-923 decompose_rz *)
Definition decompose_rx (q : nat) (a : R) : list jinstr := [JJ q 0; JJ q a].
Definition decompose_ry (q : nat) (a : R) : list jinstr := [JJ q (-1 / 2); JJ q a; JJ q (1 / 2); JJ q 0].
Definition decompose_rz (q : nat) (a : R) : list jinstr := [JJ q a; JJ q 0].
(** transpiler.py:928-969 instructions_to_jcz.  The generator calls itself on
    the decompositions; [d] bounds the depth of these calls and three levels
    are enough ([jcz_depth]).  As in the code, the I instruction executes
    [return]: it ends the generator, so the instructions after it are not
    visited. *)
Fixpoint jcz (d : nat) (l : list instr) : list jinstr :=
  match d with
  | O => []
  | S d' => (fix go (l : list instr) : list jinstr :=
      match l with
      | [] => []
      | i :: l' =>
        match i with
        | IJ q a => JJ q a :: go l'
        | ICZ u v => JCZ u v :: go l'
        | IM q ax => JM q ax :: go l'
        | II _ => []
        | IH q => JJ q 0 :: go l'
        | IS q => decompose_rz q (1 / 2) ++ go l'
        | IX q => decompose_rx q 1 ++ go l'
        | IY q => jcz d' (decompose_y q) ++ go l'
        | IZ q => decompose_rz q 1 ++ go l'
        | IRX q a => decompose_rx q a ++ go l'
        | IRY q a => decompose_ry q a ++ go l'
        | IRZ q a => decompose_rz q a ++ go l'
        | ICCX t c0 c1 => jcz d' (decompose_ccx t c0 c1) ++ go l'
        | IRZZ t c a => jcz d' (decompose_rzz t c a) ++ go l'
        | ICNOT t c => jcz d' (decompose_cnot t c) ++ go l'
        | ISWAP u v => jcz d' (decompose_swap u v) ++ go l'
        end
      end) l
  end.
Definition instructions_to_jcz (l : list instr) : list jinstr := jcz 3 l.
(** J and CZ gates are instructions too *)
Definition of_j (j : jinstr) : instr := match j with JJ q a => IJ q a | JCZ u v => ICZ u v | JM q ax => IM q ax end.

(** the qubits of an instruction *)
Definition iqubits (i : instr) : list nat :=
  match i with
  | ICCX t c0 c1 => [t; c0; c1] | IRZZ t c _ => [t; c] | ICNOT t c => [t; c] | ICZ u v => [u; v] | ISWAP u v => [u; v]
  | IH q | IS q | IX q | IY q | IZ q | II q | IM q _ | IRX q _ | IRY q _ | IRZ q _ | IJ q _ => [q]
  end.
(** equality of two circuits in branch [o], up to a global phase *)
Definition ceq_phase (F G : state -> state) : Prop := exists c, phase c /\ forall psi, F psi = cscale c (G psi).

(** * One-qubit decompositions *)
Notation q2 := (RtoC (/ sqrt 2)).
Lemma q2_sq : q2 * q2 = RtoC (/ 2).
Proof. rewrite <- RtoC_mul, sqrt_mul_inv by lra. auto. Qed.
Lemma op_h_j : op_h = op_j 0.
Proof. unfold op_h, op_j. rewrite cis_0. meq; ring. Qed.
Lemma cis_half_sq a : cis (a / 2) * cis (a / 2) = cis a.
Proof. rewrite <- cis_add. f_equal. field. Qed.
Lemma cis_dbl a : cis a = mkC (cos (a * PI / 2) * cos (a * PI / 2) - sin (a * PI / 2) * sin (a * PI / 2)) (2 * (cos (a * PI / 2) * sin (a * PI / 2))).
Proof.
  unfold cis. f_equal.
  - replace (a * PI)%R with (2 * (a * PI / 2))%R at 1 by field. rewrite cos_2a. ring.
  - replace (a * PI)%R with (2 * (a * PI / 2))%R at 1 by field. rewrite sin_2a. ring.
Qed.
Lemma cis_hf a : cis (a / 2) = mkC (cos (a * PI / 2)) (sin (a * PI / 2)).
Proof. unfold cis. replace (a / 2 * PI)%R with (a * PI / 2)%R by field. auto. Qed.
Ltac trig a := let c := fresh "c" in let s := fresh "s" in let q := fresh "q" in
  rewrite ?cis_opp, ?cis_hf, ?(cis_dbl a); pose proof (sin2_cos2 (a * PI / 2)) as ?H1; unfold Rsqr in *;
  pose proof (sqrt_mul_inv 2 ltac:(lra)) as ?H2;
  set (c := cos (a * PI / 2)) in *; set (s := sin (a * PI / 2)) in *; set (q := (/ sqrt 2)%R) in *;
  assert (2 * (q * q) = 1)%R by lra; meq; ceq; try nsatz.
Lemma rz_j a : mmul (op_j 0) (op_j a) = mscale (cis (a / 2)) (op_rz a).
Proof. unfold op_j, op_rz. rewrite cis_0. trig a. Qed.
Lemma rx_j a : mmul (op_j a) (op_j 0) = mscale (cis (a / 2)) (op_rx a).
Proof. unfold op_j, op_rx. rewrite cis_0. trig a. Qed.
Lemma cis_mhalf : cis (-1 / 2) = - Ci.
Proof. replace (-1 / 2)%R with (- (1 / 2))%R by field. rewrite cis_opp, cis_half. apply Cconj_i. Qed.
Lemma ry_j a : mmul (op_j 0) (mmul (op_j (1 / 2)) (mmul (op_j a) (op_j (-1 / 2)))) = mscale (cis (a / 2)) (op_ry a).
Proof. unfold op_j, op_ry. rewrite cis_0, cis_half, cis_mhalf. trig a. Qed.
Lemma s_j : mmul (op_j 0) (op_j (1 / 2)) = op_s.
Proof. unfold op_j, op_s. rewrite cis_0, cis_half. trig 0%R. Qed.
Lemma z_j : mmul (op_j 0) (op_j 1) = mZ.
Proof. unfold op_j, mZ. rewrite cis_0, cis_1. trig 0%R. Qed.
Lemma x_j : mmul (op_j 1) (op_j 0) = mX.
Proof. unfold op_j, mX. rewrite cis_0, cis_1. trig 0%R. Qed.

(** * Two- and three-qubit gates *)
Lemma bits2_0 (x y : bool) : (2 * (2 * 0 + (if x then 1 else 0)) + (if y then 1 else 0))%nat = if x then (if y then 3 else 2)%nat else (if y then 1 else 0)%nat.
Proof. destruct x, y; reflexivity. Qed.
Lemma upd2_id f u v : upd (upd f v (f v)) u (f u) = f.
Proof. rewrite !upd_id. auto. Qed.
Lemma appk_2 M u v psi f : u <> v -> appk M [u; v] psi f =
  let r := (if f u then (if f v then 3 else 2) else (if f v then 1 else 0))%nat in
  M r 0%nat * psi (upd (upd f v false) u false) + M r 1%nat * psi (upd (upd f v true) u false)
  + M r 2%nat * psi (upd (upd f v false) u true) + M r 3%nat * psi (upd (upd f v true) u true).
Proof.
  intros N. unfold appk, cbsum. cbn [length bsum idx nth]. rewrite !putf2 by auto.
  rewrite !upd_same, !(upd_other _ 1%nat _ 0%nat) by lia. rewrite !upd_same, bits2_0. cbv iota zeta. cbn [Nat.mul Nat.add]. ring.
Qed.
Lemma cnot_spec t c psi f : c <> t -> gate (ICNOT t c) psi f = psi (upd f t (xorb (f t) (f c))).
Proof.
  intros N. cbn [gate]. rewrite appk_2 by auto. unfold op_cnot, rows. pose proof (upd_id f c) as E.
  destruct (f c), (f t); cbn [nth xorb]; rewrite (upd_comm _ _ _ _ _ N) || idtac; rewrite ?(upd_comm f t c) by auto; rewrite ?E; ring.
Qed.
Lemma swap_spec u v psi f : gate (ISWAP u v) psi f = psi (upd (upd f u (f v)) v (f u)).
Proof. reflexivity. Qed.
Lemma rzz_spec t c a psi f : c <> t -> gate (IRZZ t c a) psi f = cis (if xorb (f c) (f t) then a / 2 else - (a / 2)) * psi f.
Proof.
  intros N. cbn [gate]. rewrite appk_2 by auto. unfold op_rzz, cmm, op_cnot, rows, csum, gsum, kronm, m2, range. 
  pose proof (upd_id f c) as E. pose proof (upd_id f t) as E'.
  destruct (f c), (f t); cbn -[cis]; rewrite ?(upd_comm f t c) by auto; rewrite ?E, ?E'; ring.
Qed.
Lemma putf3 a b c s f : a <> b -> a <> c -> b <> c -> putf [a; b; c] s f = upd (upd (upd f a (s 0%nat)) b (s 1%nat)) c (s 2%nat).
Proof.
  intros N1 N2 N3. extensionality x. unfold putf, upd. simpl.
  destruct (Nat.eqb_spec x a), (Nat.eqb_spec x b), (Nat.eqb_spec x c); subst; try congruence; auto.
Qed.
Lemma ccx_spec t c0 c1 psi f : c0 <> t -> c1 <> t -> c0 <> c1 ->
  gate (ICCX t c0 c1) psi f = psi (upd f t (xorb (f t) (f c0 && f c1))).
Proof.
  intros N1 N2 N3. cbn [gate]. unfold appk, cbsum. cbn [length bsum idx nth]. rewrite !putf3 by auto.
  repeat (rewrite !upd_same || rewrite !(upd_other _ 2%nat _ 0%nat) by lia || rewrite !(upd_other _ 2%nat _ 1%nat) by lia || rewrite !(upd_other _ 1%nat _ 0%nat) by lia).
  unfold op_ccx, rows. pose proof (upd_id f c0) as E. pose proof (upd_id f c1) as E1.
  destruct (f c0), (f c1), (f t); cbn; rewrite ?E, ?E1; ring.
Qed.

(** three-bit view of a state around [f] *)
Section Three.
Variables (c0 c1 t : nat) (N1 : c0 <> t) (N2 : c1 <> t) (N3 : c0 <> c1) (f : asg).
Definition G3 (a b x : bool) : asg := upd (upd (upd f c0 a) c1 b) t x.
Lemma G3_0 a b x : G3 a b x c0 = a.
Proof. unfold G3. rewrite upd_other, upd_other, upd_same by auto. auto. Qed.
Lemma G3_1 a b x : G3 a b x c1 = b.
Proof. unfold G3. rewrite upd_other, upd_same by auto. auto. Qed.
Lemma G3_t a b x : G3 a b x t = x.
Proof. unfold G3. apply upd_same. Qed.
Lemma G3_u0 a b x a' : upd (G3 a b x) c0 a' = G3 a' b x.
Proof. unfold G3. rewrite (upd_comm _ t c0), (upd_comm _ c1 c0), upd_upd by auto. auto. Qed.
Lemma G3_u1 a b x b' : upd (G3 a b x) c1 b' = G3 a b' x.
Proof. unfold G3. rewrite (upd_comm _ t c1), upd_upd by auto. auto. Qed.
Lemma G3_ut a b x x' : upd (G3 a b x) t x' = G3 a b x'.
Proof. unfold G3. apply upd_upd. Qed.
Lemma G3_f : f = G3 (f c0) (f c1) (f t).
Proof. unfold G3. rewrite upd_id, upd_id, upd_id. auto. Qed.
Definition ph (x : bool) (a : R) : C := cis (if x then a / 2 else - (a / 2)).
Lemma g_cnot_1t psi a b x : gate (ICNOT t c1) psi (G3 a b x) = psi (G3 a b (xorb x b)).
Proof. rewrite cnot_spec, G3_1, G3_t, G3_ut by auto. auto. Qed.
Lemma g_cnot_0t psi a b x : gate (ICNOT t c0) psi (G3 a b x) = psi (G3 a b (xorb x a)).
Proof. rewrite cnot_spec, G3_0, G3_t, G3_ut by auto. auto. Qed.
Lemma g_cnot_01 psi a b x : gate (ICNOT c1 c0) psi (G3 a b x) = psi (G3 a (xorb b a) x).
Proof. rewrite cnot_spec, G3_0, G3_1, G3_u1 by auto. auto. Qed.
Lemma rz_at q al psi g : gate (IRZ q al) psi g = ph (g q) al * psi g.
Proof. cbn [gate app_op]. unfold op_rz, ph. pose proof (upd_id g q) as E. destruct (g q); cbn [mget m00 m01 m10 m11]; rewrite E; ring. Qed.
Lemma g_rz_t al psi a b x : gate (IRZ t al) psi (G3 a b x) = ph x al * psi (G3 a b x).
Proof. rewrite rz_at, G3_t. auto. Qed.
Lemma g_rz_0 al psi a b x : gate (IRZ c0 al) psi (G3 a b x) = ph a al * psi (G3 a b x).
Proof. rewrite rz_at, G3_0. auto. Qed.
Lemma g_rz_1 al psi a b x : gate (IRZ c1 al) psi (G3 a b x) = ph b al * psi (G3 a b x).
Proof. rewrite rz_at, G3_1. auto. Qed.
Lemma g_h psi a b x : gate (IH t) psi (G3 a b x) = q2 * psi (G3 a b false) + (if x then - q2 else q2) * psi (G3 a b true).
Proof. cbn [gate app_op]. rewrite !G3_ut, G3_t. unfold op_h. destruct x; reflexivity. Qed.
Lemma Cmul_assoc a b c : a * (b * c) = a * b * c. Proof. ring. Qed.
Lemma cis_pm a b c : cis a * c = cis b * c -> cis a * c = cis b * c. Proof. auto. Qed.
Definition dccx : list instr :=
  [ICNOT t c1; IRZ t (-1 / 4); ICNOT t c0; IRZ t (1 / 4); ICNOT t c1; IRZ t (-1 / 4); ICNOT t c0;
   IRZ c1 (-1 / 4); IRZ t (1 / 4); ICNOT c1 c0; IRZ c1 (-1 / 4); ICNOT c1 c0; IRZ c0 (1 / 4); IRZ c1 (1 / 2)].
Lemma cis_78 : cis (7 / 8) = - cis (- (1 / 8)).
Proof. replace (7 / 8)%R with (1 + - (1 / 8))%R by field. rewrite cis_add, cis_1. ring. Qed.
Lemma cis_m98 : cis (- (9 / 8)) = - cis (- (1 / 8)).
Proof. replace (- (9 / 8))%R with (- (1) + - (1 / 8))%R by field. rewrite cis_add, cis_opp, cis_1, Cconj_opp, Cconj_1. ring. Qed.
Lemma dccx_phase o k psi a b x : csem o k dccx psi (G3 a b x) = cis (- (1 / 8)) * (sgn (a && b && x) * psi (G3 a b x)).
Proof.
  unfold dccx. cbn [csem]. 
  repeat (rewrite g_cnot_1t || rewrite g_cnot_0t || rewrite g_cnot_01 || rewrite g_rz_t || rewrite g_rz_0 || rewrite g_rz_1).
  rewrite !Cmul_assoc.
  replace (xorb (xorb b a) a) with b by (destruct a, b; auto).
  replace (xorb (xorb (xorb (xorb x a) b) a) b) with x by (destruct a, b, x; auto).
  f_equal. unfold ph, sgn. rewrite <- !cis_add. 
  destruct a, b, x; cbn [andb xorb]; try (replace (_ * - C1) with (- cis (- (1 / 8))) by ring);
   try (replace (_ * C1) with (cis (- (1 / 8))) by ring); try (f_equal; field); rewrite <- cis_78; f_equal; field.
Qed.
Lemma ccx_dec o k psi : csem o k (decompose_ccx t c0 c1) psi f = cis (- (1 / 8)) * gate (ICCX t c0 c1) psi f.
Proof.
  assert (E : forall a b x, csem o k (decompose_ccx t c0 c1) psi (G3 a b x)
    = q2 * csem o k dccx (gate (IH t) psi) (G3 a b false) + (if x then - q2 else q2) * csem o k dccx (gate (IH t) psi) (G3 a b true)).
  { intros a b x. unfold dccx, decompose_ccx. cbn [csem].
    repeat (rewrite g_cnot_1t || rewrite g_cnot_0t || rewrite g_cnot_01 || rewrite g_rz_t || rewrite g_rz_0 || rewrite g_rz_1 || rewrite g_h).
    ring. }
  rewrite G3_f at 1. rewrite E, !dccx_phase, !g_h. rewrite ccx_spec by auto.
  assert (U : forall y, upd f t y = G3 (f c0) (f c1) y) by (intros y; unfold G3; rewrite !upd_id; auto). rewrite U.
  assert (T : q2 * q2 + q2 * q2 = C1) by (rewrite q2_sq, <- RtoC_add; apply C_eq; simpl; lra).
  set (P0 := psi (G3 (f c0) (f c1) false)). set (P1 := psi (G3 (f c0) (f c1) true)).
  transitivity (cis (- (1 / 8)) * ((q2 * q2 + q2 * q2) * psi (G3 (f c0) (f c1) (xorb (f t) (f c0 && f c1)))));
    [|rewrite T; ring].
  destruct (f c0), (f c1), (f t); cbn [andb xorb sgn]; fold P0 P1; ring.
Qed.
End Three.

(** * Linearity and composition *)
Lemma appk_scale M qs c psi : appk M qs (cscale c psi) = cscale c (appk M qs psi).
Proof. extensionality f. unfold appk, cscale. cbv zeta. rewrite <- cbsum_mul. apply cbsum_ext. intros a. ring. Qed.
Lemma gate_scale i c psi : gate i (cscale c psi) = cscale c (gate i psi).
Proof. destruct i; cbn [gate]; auto using appk_scale, app_op_scale. Qed.
Lemma csem_scale o l : forall k c psi, csem o k l (cscale c psi) = cscale c (csem o k l psi).
Proof.
  induction l as [|i l IH]; intros k c psi; simpl; auto.
  destruct i; try (rewrite gate_scale, IH; reflexivity). unfold cmeas. rewrite app_op_scale, IH. auto.
Qed.
Definition is_meas (i : instr) : bool := match i with IM _ _ => true | _ => false end.
Definition nmeas (l : list instr) : nat := length (filter is_meas l).
Lemma csem_app o a : forall k b psi, csem o k (a ++ b) psi = csem o (k + nmeas a) b (csem o k a psi).
Proof.
  induction a as [|i a IH]; intros k b psi; cbn [app].
  - unfold nmeas; simpl. rewrite Nat.add_0_r. auto.
  - destruct i; cbn [csem]; rewrite IH; unfold nmeas; cbn [filter is_meas length]; auto.
    rewrite Nat.add_succ_comm. auto.
Qed.
Lemma csem_unit o k i l psi : is_meas i = false -> csem o k (i :: l) psi = csem o k l (gate i psi).
Proof. destruct i; simpl; auto; discriminate. Qed.

(** * Correctness of the decompositions *)
Lemma h_h q psi : gate (IH q) (gate (IH q) psi) = psi.
Proof.
  cbn [gate]. rewrite app1_app1. replace (mmul op_h op_h) with mid.
  - extensionality f. simpl. pose proof (upd_id f q) as E. destruct (f q); rewrite E; simpl; ring.
  - unfold op_h. trig 0%R.
Qed.
Lemma cnot_dec o k t c psi : c <> t -> csem o k (decompose_cnot t c) psi = gate (ICNOT t c) psi.
Proof.
  intros N. unfold decompose_cnot. cbn [csem]. extensionality f. rewrite cnot_spec by auto.
  cbn [gate app_op]. rewrite !upd_same, !(upd_other _ t _ c) by auto. rewrite !upd_upd. unfold op_h.
  assert (T : q2 * q2 + q2 * q2 = C1) by (rewrite q2_sq, <- RtoC_add; apply C_eq; simpl; lra).
  set (P0 := psi (upd f t false)). set (P1 := psi (upd f t true)).
  transitivity ((q2 * q2 + q2 * q2) * psi (upd f t (xorb (f t) (f c)))); [|rewrite T; ring].
  destruct (f t), (f c); cbn [mget m00 m01 m10 m11 xorb andb sgn]; fold P0 P1; ring.
Qed.
Lemma swap_dec o k u v psi : u <> v -> csem o k (decompose_swap u v) psi = gate (ISWAP u v) psi.
Proof.
  intros N. unfold decompose_swap. cbn [csem]. extensionality f. rewrite !cnot_spec by auto. rewrite swap_spec.
  f_equal. extensionality x. unfold upd. rewrite !Nat.eqb_refl.
  assert ((u =? v)%nat = false) as -> by (apply Nat.eqb_neq; auto). assert ((v =? u)%nat = false) as -> by (apply Nat.eqb_neq; auto).
  destruct (Nat.eqb_spec x u) as [E1|], (Nat.eqb_spec x v) as [E2|]; try congruence; try rewrite E1; try rewrite E2; rewrite ?Nat.eqb_refl; auto;
    destruct (f u), (f v); auto.
Qed.
Lemma rzz_dec o k t c a psi : c <> t -> csem o k (decompose_rzz t c a) psi = gate (IRZZ t c a) psi.
Proof.
  intros N. unfold decompose_rzz. cbn [csem]. extensionality f. rewrite cnot_spec by auto. rewrite rz_at, cnot_spec, rzz_spec by auto.
  rewrite !upd_same, !(upd_other _ t _ c), upd_upd by auto. unfold ph.
  replace (xorb (xorb (f t) (f c)) (f c)) with (f t) by (destruct (f t), (f c); auto). rewrite upd_id. rewrite (xorb_comm (f t)). auto.
Qed.
Lemma y_dec o k q psi : csem o k (decompose_y q) psi = cscale (- Ci) (gate (IY q) psi).
Proof.
  unfold decompose_y. cbn [csem gate]. rewrite app1_app1. extensionality f. unfold cscale, mX, mZ, mY. simpl.
  pose proof Ci_sq as E. destruct (f q); simpl; [replace (- Ci * (Ci * psi (upd f q false) + C0 * psi (upd f q true))) with (- (Ci * Ci) * psi (upd f q false)) by ring
   |replace (- Ci * (C0 * psi (upd f q false) + - Ci * psi (upd f q true))) with (Ci * Ci * psi (upd f q true)) by ring]; rewrite E; ring.
Qed.
Lemma app1_scale A B c q psi : A = mscale c B -> app_op (OApp1 A q) psi = cscale c (app_op (OApp1 B q) psi).
Proof. intros ->. extensionality f. unfold cscale. simpl. destruct (f q); simpl; ring. Qed.
Lemma rz_dec o k q a psi : csem o k (map of_j (decompose_rz q a)) psi = cscale (cis (a / 2)) (gate (IRZ q a) psi).
Proof. unfold decompose_rz. cbn [map of_j csem gate]. rewrite app1_app1. apply app1_scale, rz_j. Qed.
Lemma rx_dec o k q a psi : csem o k (map of_j (decompose_rx q a)) psi = cscale (cis (a / 2)) (gate (IRX q a) psi).
Proof. unfold decompose_rx. cbn [map of_j csem gate]. rewrite app1_app1. apply app1_scale, rx_j. Qed.
Lemma ry_dec o k q a psi : csem o k (map of_j (decompose_ry q a)) psi = cscale (cis (a / 2)) (gate (IRY q a) psi).
Proof. unfold decompose_ry. cbn [map of_j csem gate]. rewrite !app1_app1. apply app1_scale. rewrite <- ry_j. rewrite !mmul_assoc. auto. Qed.
Lemma s_dec o k q psi : csem o k (map of_j (decompose_rz q (1 / 2))) psi = gate (IS q) psi.
Proof. unfold decompose_rz. cbn [map of_j csem gate]. rewrite app1_app1, s_j. auto. Qed.
Lemma z_dec o k q psi : csem o k (map of_j (decompose_rz q 1)) psi = gate (IZ q) psi.
Proof. unfold decompose_rz. cbn [map of_j csem gate]. rewrite app1_app1, z_j. auto. Qed.
Lemma x_dec o k q psi : csem o k (map of_j (decompose_rx q 1)) psi = gate (IX q) psi.
Proof. unfold decompose_rx. cbn [map of_j csem gate]. rewrite app1_app1, x_j. auto. Qed.

(** nesting depth of the decomposition of an instruction *)
Definition ilev (i : instr) : nat :=
  match i with ICCX _ _ _ | IRZZ _ _ _ | ISWAP _ _ => 3 | ICNOT _ _ | IY _ => 2 | _ => 1 end.
Definition not_I (i : instr) : bool := match i with II _ => false | _ => true end.
Definition jnmeas (l : list jinstr) : nat := nmeas (map of_j l).
(** the recursive expansion made by one iteration of the loop *)
Definition expand (d : nat) (i : instr) : list jinstr :=
  match i with
  | IJ q a => [JJ q a] | ICZ u v => [JCZ u v] | IM q ax => [JM q ax] | II _ => [] | IH q => [JJ q 0]
  | IS q => decompose_rz q (1 / 2) | IX q => decompose_rx q 1 | IY q => jcz d (decompose_y q) | IZ q => decompose_rz q 1
  | IRX q a => decompose_rx q a | IRY q a => decompose_ry q a | IRZ q a => decompose_rz q a
  | ICCX t c0 c1 => jcz d (decompose_ccx t c0 c1) | IRZZ t c a => jcz d (decompose_rzz t c a)
  | ICNOT t c => jcz d (decompose_cnot t c) | ISWAP u v => jcz d (decompose_swap u v)
  end.
Lemma jcz_cons d i l : jcz (S d) (i :: l) = if not_I i then expand d i ++ jcz (S d) l else [].
Proof. destruct i; reflexivity. Qed.
Lemma jcz_nil d : jcz d [] = [].
Proof. destruct d; reflexivity. Qed.
Definition jmeas (j : jinstr) : bool := match j with JM _ _ => true | _ => false end.
Lemma jcz_nomeas d : forall l, forallb (fun i => negb (is_meas i)) l = true -> forallb (fun j => negb (jmeas j)) (jcz d l) = true.
Proof.
  induction d as [|d IH]; intros l; [reflexivity|]. induction l as [|i l IHl]; [reflexivity|]. rewrite jcz_cons. cbn [forallb].
  intros H. apply andb_prop in H. destruct H as [H1 H2]. destruct (not_I i); [|reflexivity]. rewrite forallb_app, IHl by auto. rewrite andb_true_r.
  destruct i; try discriminate; try reflexivity; apply IH; reflexivity.
Qed.
Lemma jnmeas_0 l : forallb (fun j => negb (jmeas j)) l = true -> jnmeas l = 0%nat.
Proof.
  unfold jnmeas, nmeas. induction l as [|j l IH]; auto. cbn [forallb]. intros H. apply andb_prop in H. destruct H. destruct j; try discriminate; cbn; auto.
Qed.
Definition iok (d : nat) (i : instr) : Prop := (ilev i <= d)%nat /\ NoDup (iqubits i) /\ not_I i = true.
Lemma nd2 (a b : nat) : NoDup [a; b] -> a <> b /\ b <> a.
Proof. intros H. inversion H; subst. simpl in *. split; intros ->; tauto. Qed.
Lemma nd3 (a b c : nat) : NoDup [a; b; c] -> a <> b /\ a <> c /\ b <> c.
Proof. intros H. inversion H as [|? ? K1 K2]; subst. inversion K2 as [|? ? K3 K4]; subst. simpl in *. repeat split; intros ->; tauto. Qed.
Lemma nodup2 (a b : nat) : a <> b -> NoDup [a; b].
Proof. intros. repeat constructor; simpl; intuition. Qed.
Lemma nodup1 (a : nat) : NoDup [a].
Proof. repeat constructor; simpl; intuition. Qed.
Definition cphase (F G : state -> state) : Prop := exists c, phase c /\ forall psi, F psi = cscale c (G psi).
Lemma cphase_eq F G : (forall psi, F psi = G psi) -> cphase F G.
Proof. intros H. exists C1. split; [apply phase_1|]. intros. rewrite cscale_1. auto. Qed.
Lemma cphase_trans F G H : cphase F G -> cphase G H -> cphase F H.
Proof. intros (c & Hc & E) (d & Hd & E'). exists (c * d). split; [apply phase_mul; auto|]. intros. rewrite E, E', cscale_cscale. auto. Qed.
Lemma jcz_sem d : forall l, Forall (iok d) l -> forall o k, cphase (csem o k (map of_j (jcz d l))) (csem o k l).
Proof.
  induction d as [|d IH]; intros l HL.
  { destruct l as [|i l]; [intros; apply cphase_eq; auto|]. inversion HL as [|? ? [K _] _]; subst. destruct i; simpl in K; lia. }
  induction HL as [|i l Hi HL IHl]; intros o k; [apply cphase_eq; auto|].
  rewrite jcz_cons. destruct Hi as (Hl & Hn & HI). rewrite HI, map_app. destruct (is_meas i) eqn:Em.
  { destruct i; try discriminate. cbn [expand map of_j app csem]. destruct (IHl o (S k)) as (c & Hc & E). exists c. split; auto. }
  assert (N0 : nmeas (map of_j (expand d i)) = 0%nat).
  { apply (jnmeas_0 (expand d i)). destruct i; try discriminate; try reflexivity; apply jcz_nomeas; reflexivity. }
  assert (D : cphase (csem o k (map of_j (expand d i))) (gate i)).
  { destruct i; try discriminate; cbn [expand]; cbn [iqubits] in Hn; cbn [ilev] in Hl.
    - destruct (nd3 _ _ _ Hn) as (A & B & D). apply cphase_trans with (csem o k (decompose_ccx target c0 c1)).
      + apply IH. unfold decompose_ccx. repeat constructor; try (simpl; lia); simpl; intuition.
      + exists (cis (- (1 / 8))). split; [apply phase_cis|]. intros psi. extensionality f. apply ccx_dec; auto.
    - apply nd2 in Hn. apply cphase_trans with (csem o k (decompose_rzz target control angle)).
      + apply IH. unfold decompose_rzz. repeat constructor; try (simpl; lia); simpl; intuition.
      + apply cphase_eq. intros. apply rzz_dec. tauto.
    - apply nd2 in Hn. apply cphase_trans with (csem o k (decompose_cnot target control)).
      + apply IH. unfold decompose_cnot. repeat constructor; try (simpl; lia); simpl; intuition.
      + apply cphase_eq. intros. apply cnot_dec. tauto.
    - apply cphase_eq. auto.
    - apply nd2 in Hn. apply cphase_trans with (csem o k (decompose_swap u v)).
      + apply IH. unfold decompose_swap. repeat constructor; try (simpl; lia); simpl; intuition.
      + apply cphase_eq. intros. apply swap_dec. tauto.
    - apply cphase_eq. intros. cbn [map of_j csem gate]. rewrite op_h_j. auto.
    - apply cphase_eq. intros. apply s_dec.
    - apply cphase_eq. intros. apply x_dec.
    - apply cphase_trans with (csem o k (decompose_y q)).
      + apply IH. unfold decompose_y. repeat constructor; try (simpl; lia); simpl; intuition.
      + exists (- Ci). split; [apply phase_mi|]. intros. apply y_dec.
    - apply cphase_eq. intros. apply z_dec.
    - exists (cis (angle / 2)). split; [apply phase_cis|]. intros. apply rx_dec.
    - exists (cis (angle / 2)). split; [apply phase_cis|]. intros. apply ry_dec.
    - exists (cis (angle / 2)). split; [apply phase_cis|]. intros. apply rz_dec.
    - apply cphase_eq. auto. }
  destruct D as (c & Hc & E). destruct (IHl o k) as (c' & Hc' & E'). exists (c * c'). split; [apply phase_mul; auto|].
  intros psi. rewrite csem_app, N0, Nat.add_0_r, E, E', csem_scale, csem_unit, cscale_cscale by auto. f_equal. ring.
Qed.
(** three levels of nesting are enough *)
Lemma jcz_depth d l : (3 <= d)%nat -> jcz d l = jcz 3 l.
Proof.
  intros H. assert (E1 : forall a, jcz (S (S a)) [] = []) by reflexivity.
  assert (K : forall e, (1 <= e)%nat -> forall l, forallb (fun i => (ilev i <=? 1)%nat) l = true -> jcz e l = jcz 1 l).
  { intros e He. destruct e as [|e]; [lia|]. induction l0 as [|i l0 IH]; [auto|]. intros HH. cbn [forallb] in HH. apply andb_prop in HH. destruct HH as [A B].
    rewrite !jcz_cons, IH by auto. destruct i; try discriminate; reflexivity. }
  assert (K2 : forall e, (2 <= e)%nat -> forall l, forallb (fun i => (ilev i <=? 2)%nat) l = true -> jcz e l = jcz 2 l).
  { intros e He. destruct e as [|e]; [lia|]. induction l0 as [|i l0 IH]; [auto|]. intros HH. cbn [forallb] in HH. apply andb_prop in HH. destruct HH as [A B].
    rewrite !jcz_cons, IH by auto. destruct i; try discriminate; try reflexivity; cbn [not_I expand]; (rewrite (K e); [reflexivity|lia|reflexivity]). }
  destruct d as [|d]; [lia|]. induction l as [|i l IH]; auto. rewrite !jcz_cons, IH.
  destruct i; try reflexivity; cbn [not_I expand];
   (rewrite (K2 d); [reflexivity|lia|reflexivity]) .
Qed.
