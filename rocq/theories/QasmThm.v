(** Proofs about the OpenQASM 3 exporter. *)
From Coq Require Import Reals Lra ZArith Arith List Bool Lia Permutation FunctionalExtensionality.
From Verif Require Import Cplx Mat2 NSet QState Fundamentals CliffordDb Clifford Measure Layer Pattern Statevec Density Circuit Swaps OpenGraph PropRewrite Qasm.
Import ListNotations.
Local Open Scope C_scope.

(** the angle a printed expression denotes, in units of pi *)
Definition shown (lim : R -> Z * positive) (a : R) : R := (qeval (angle_to_str lim a) / PI)%R.
Definition near (a b : R) : Prop := (Rabs (a - b) <= / 1000000000 * Rmax (Rabs a) (Rabs b))%R.
Lemma near_refl a : near a a.
Proof.
  unfold near. replace (a - a)%R with 0%R by ring. rewrite Rabs_R0. apply Rmult_le_pos; [lra|].
  apply Rle_trans with (Rabs a); [apply Rabs_pos|apply Rmax_l].
Qed.
Lemma near_opp a b : near (- a) b -> near a (- b).
Proof.
  unfold near. intros H. replace (a - - b)%R with (- (- a - b))%R by ring. rewrite Rabs_Ropp.
  rewrite Rabs_Ropp in H. rewrite (Rabs_Ropp b). auto.
Qed.
Lemma shown_eq lim a : shown lim a = if isclose a (frac_val (lim a)) then frac_val (lim a) else a.
Proof.
  pose proof PI_neq0 as P. unfold shown, angle_to_str. destruct (lim a) as [num den] eqn:E.
  destruct (isclose a (frac_val (num, den))); cbn [negb]; [|cbn; field; auto].
  assert (SG : forall e, (qeval (if (num <? 0)%Z then ENeg e else e) = (if (num <? 0)%Z then -1 else 1) * qeval e)%R).
  { intros e. destruct (num <? 0)%Z; cbn; ring. }
  assert (AB : ((if (num <? 0)%Z then -1 else 1) * IZR (Z.abs num) = IZR num)%R).
  { destruct (Z.ltb_spec num 0).
    - rewrite Z.abs_neq by lia. rewrite opp_IZR. ring.
    - rewrite Z.abs_eq by lia. ring. }
  unfold frac_val. cbn [fst snd].
  destruct (Pos.eqb_spec den 1) as [->|D].
  - destruct (Z.eqb_spec (Z.abs num) 0) as [Z0|Z0].
    + assert (num = 0%Z) as -> by lia. cbn. field; auto.
    + destruct (Z.eqb_spec (Z.abs num) 1) as [Z1|Z1]; rewrite SG; cbn [qeval].
      * rewrite <- AB, Z1. field; auto.
      * rewrite <- AB. field; auto.
  - rewrite SG. cbn [qeval]. assert (IZR (Z.pos den) <> 0)%R by (apply not_0_IZR; lia).
    destruct (Z.eqb_spec (Z.abs num) 1) as [Z1|Z1]; cbn [qeval]; rewrite <- AB; [rewrite Z1|]; field; auto.
Qed.
Lemma shown_near lim a : near a (shown lim a).
Proof.
  rewrite shown_eq. unfold isclose. destruct (Rle_dec _ _) as [L|L]; [exact L|apply near_refl].
Qed.
Lemma shown_exact lim a : frac_val (lim a) = a -> shown lim a = a.
Proof. intros H. rewrite shown_eq, H. destruct (isclose a a); auto. Qed.

(** the measurement the exported program performs *)
Definition shown_meas (lim : R -> Z * positive) (m : measurement) : measurement :=
  let '(a, p) := to_bloch m in
  MBloch (if Req_EM_T a 0 then 0%R else match p with PYZ => shown lim a | _ => (- shown lim (- a))%R end) p.
Definition shown_cmd (lim : R -> Z * positive) (c : cmd) : cmd :=
  match c with CM n m s t => CM n (shown_meas lim m) s t | c => c end.

(** ** Masks: the measured qubits are in the measured state *)
Definition mask (ms : list nat) (o : nat -> bool) (psi : state) : state :=
  fun f => if forallb (fun n => Bool.eqb (f n) (o n)) ms then psi f else C0.
Lemma forallb_upd ms o f n b : ~ In n ms ->
  forallb (fun k => Bool.eqb (upd f n b k) (o k)) ms = forallb (fun k => Bool.eqb (f k) (o k)) ms.
Proof.
  intros H. induction ms as [|k ms IH]; cbn; auto. rewrite IH by (intros K; apply H; right; auto).
  rewrite upd_other; auto. intros ->. apply H; left; auto.
Qed.
Lemma mask_op ms o p psi : (forall n, In n (onodes p) -> ~ In n ms) -> app_op p (mask ms o psi) = mask ms o (app_op p psi).
Proof.
  intros H. extensionality f. unfold mask.
  destruct p as [U n|u v|v n|v n]; cbn [onodes] in H; cbn [app_op]; rewrite ?forallb_upd by (apply H; cbn; auto);
  destruct (forallb _ ms); try ring; auto.
Qed.
Lemma mask_den ms o l psi : (forall p n, In p l -> In n (onodes p) -> ~ In n ms) -> den l (mask ms o psi) = mask ms o (den l psi).
Proof.
  revert psi. induction l as [|p l IH]; intros psi H; cbn [den]; auto.
  rewrite mask_op by (intros n; apply H; left; auto). apply IH. intros q n K. apply H; right; auto.
Qed.
Lemma mask_scale ms o c psi : mask ms o (cscale c psi) = cscale c (mask ms o psi).
Proof. extensionality f. unfold mask, cscale. destruct (forallb _ ms); auto. ring. Qed.
Definition ket (b : bool) : vec2 := if b then Vec2 C0 C1 else Vec2 C1 C0.
Lemma mask_meas ms o n psi :
  (fun f => if Bool.eqb (f n) (o n) then mask ms o psi f else C0) = mask (n :: ms) o (app_op (OMeas (ket (o n)) n) psi).
Proof.
  extensionality f. unfold mask. cbn [forallb app_op]. destruct (Bool.eqb (f n) (o n)) eqn:E; cbn [andb]; auto.
  destruct (forallb _ ms); auto. apply eqb_prop in E. rewrite <- E.
  assert (U : psi f = psi (upd f n (f n))) by (rewrite upd_id; auto). rewrite U.
  destruct (f n); cbn; rewrite ?Cconj_0, ?Cconj_1; ring.
Qed.

(** ** Measurement bases *)
Definition basis_gates (lim : R -> Z * positive) (m : measurement) : list qgate :=
  let '(a, p) := to_bloch m in
  (match p with PXY => [Gh] | _ => [] end)
  ++ (if Req_EM_T a 0 then [] else
      [match p with PXY => Grx (angle_to_str lim (- a)) | PXZ => Gry (angle_to_str lim (- a)) | PYZ => Grx (angle_to_str lim a) end]).
Lemma qeval_shown lim a : (qeval (angle_to_str lim a) / 2 = shown lim a * PI / 2)%R.
Proof. unfold shown. pose proof PI_neq0. field. auto. Qed.
Lemma cis_half_c b : cis (b / 2) = mkC (cos (b * PI / 2)) (sin (b * PI / 2)).
Proof. unfold cis. f_equal; f_equal; field. Qed.
Lemma xy_vec b r : vmul (mdag (mmul (Mat2 (RtoC (cos (- b * PI / 2))) (mkC 0 (- sin (- b * PI / 2))) (mkC 0 (- sin (- b * PI / 2))) (RtoC (cos (- b * PI / 2)))) (qmat Gh))) (ket r)
  ~v planar_state PXY (b + b2R r).
Proof.
  exists (cis (- b / 2)). split; [apply phase_cis|].
  assert (E : cis (b + b2R r) = (if r then - C1 else C1) * (cis (b / 2) * cis (b / 2))).
  { rewrite (cis_add b (b2R r)), <- (cis_add (b / 2) (b / 2)). replace (b / 2 + b / 2)%R with b by field. destruct r; cbn [b2R]; rewrite ?cis_1, ?cis_0; ring. }
  assert (E2 : cis (- b / 2) * cis (b / 2) = C1).
  { rewrite <- cis_add. replace (- b / 2 + b / 2)%R with 0%R by field. apply cis_0. }
  assert (F1 : mkC (cos (- b * PI / 2)) (sin (- b * PI / 2)) = cis (- b / 2)) by (unfold cis; f_equal; f_equal; field).
  assert (F2 : mkC (cos (- b * PI / 2)) (- sin (- b * PI / 2)) = cis (b / 2)).
  { unfold cis. replace (- b * PI / 2)%R with (- (b / 2 * PI))%R by field. rewrite cos_neg, sin_neg, Ropp_involutive. auto. }
  unfold planar_state. rewrite E.
  assert (G : vmul (mdag (mmul (Mat2 (RtoC (cos (- b * PI / 2))) (mkC 0 (- sin (- b * PI / 2))) (mkC 0 (- sin (- b * PI / 2))) (RtoC (cos (- b * PI / 2)))) (qmat Gh))) (ket r)
    = Vec2 (RtoC (/ sqrt 2) * mkC (cos (- b * PI / 2)) (sin (- b * PI / 2)))
           ((if r then - C1 else C1) * (RtoC (/ sqrt 2) * mkC (cos (- b * PI / 2)) (- sin (- b * PI / 2))))).
  { destruct r; apply vec2_eq; apply C_eq; cbn; ring. }
  rewrite G, F1, F2. apply vec2_eq; cbn [v0 v1 vscale]; [ring|].
  transitivity ((cis (- b / 2) * cis (b / 2)) * ((if r then - C1 else C1) * (RtoC (/ sqrt 2) * cis (b / 2)))); [rewrite E2; ring|ring].
Qed.
Lemma half_shift b : ((b + 1) * PI / 2 = b * PI / 2 + PI / 2)%R. Proof. field. Qed.
Lemma xz_vec b r : vmul (mdag (Mat2 (RtoC (cos (- b * PI / 2))) (RtoC (- sin (- b * PI / 2))) (RtoC (sin (- b * PI / 2))) (RtoC (cos (- b * PI / 2))))) (ket r)
  ~v planar_state PXZ (b + b2R r).
Proof.
  replace (- b * PI / 2)%R with (- (b * PI / 2))%R by field. rewrite cos_neg, sin_neg.
  exists C1. split; [apply phase_1|]. unfold planar_state. destruct r; cbn [b2R].
  - rewrite half_shift, cos_plus, sin_plus, cos_PI2, sin_PI2. apply vec2_eq; apply C_eq; cbn; ring.
  - rewrite Rplus_0_r. apply vec2_eq; apply C_eq; cbn; ring.
Qed.
Lemma yz_vec b r : vmul (mdag (Mat2 (RtoC (cos (b * PI / 2))) (mkC 0 (- sin (b * PI / 2))) (mkC 0 (- sin (b * PI / 2))) (RtoC (cos (b * PI / 2))))) (ket r)
  ~v planar_state PYZ (b + b2R r).
Proof.
  unfold planar_state. destruct r; cbn [b2R].
  - exists (- Ci). split; [apply phase_mi|]. rewrite half_shift, cos_plus, sin_plus, cos_PI2, sin_PI2. apply vec2_eq; apply C_eq; cbn; ring.
  - exists C1. split; [apply phase_1|]. rewrite Rplus_0_r. apply vec2_eq; apply C_eq; cbn; ring.
Qed.
Lemma app1_list gs n : map (fun g => OApp1 (qmat g) n) gs ≈ [OApp1 (mprod (map qmat (rev gs))) n].
Proof.
  induction gs as [|g gs IH] using rev_ind.
  - cbn. symmetry. apply app1_id.
  - rewrite map_app, rev_app_distr. cbn [rev app map mprod fold_right]. eapply leq_trans; [apply leq_app_r, IH|].
    cbn [app map]. apply app1_fuse.
Qed.
Lemma basis_ops lim m n r : map (fun g => OApp1 (qmat g) n) (basis_gates lim m) ++ [OMeas (ket r) n] ≈ [OMeas (mvec (shown_meas lim m) r) n].
Proof.
  eapply leq_trans; [apply leq_app_r, app1_list|]. cbn [app].
  eapply leq_trans; [apply app1_meas|]. apply meas_veqp.
  unfold basis_gates, mvec, shown_meas. destruct (to_bloch m) as [a p]. cbn [to_bloch].
  destruct (Req_EM_T a 0) as [Z|Z].
  - destruct p; cbn [app rev map mprod fold_right].
    + rewrite mmul_1_r. pose proof (xy_vec 0 r) as H. replace (- 0 * PI / 2)%R with 0%R in H by field. rewrite cos_0, sin_0 in H.
      assert (I : Mat2 (RtoC 1) (mkC 0 (- 0)) (mkC 0 (- 0)) (RtoC 1) = mid) by (apply mat2_eq; apply C_eq; cbn; ring).
      rewrite I, mmul_1_l in H. exact H.
    + pose proof (yz_vec 0 r) as H. replace (0 * PI / 2)%R with 0%R in H by field. rewrite cos_0, sin_0 in H.
      assert (I : Mat2 (RtoC 1) (mkC 0 (- 0)) (mkC 0 (- 0)) (RtoC 1) = mid) by (apply mat2_eq; apply C_eq; cbn; ring).
      rewrite I in H. exact H.
    + pose proof (xz_vec 0 r) as H. replace (- 0 * PI / 2)%R with 0%R in H by field. rewrite cos_0, sin_0 in H.
      assert (I : Mat2 (RtoC 1) (RtoC (- 0)) (RtoC 0) (RtoC 1) = mid) by (apply mat2_eq; apply C_eq; cbn; ring).
      rewrite I in H. exact H.
  - destruct p; cbn [app rev map mprod fold_right]; rewrite mmul_1_r.
    + cbn [qmat]. rewrite !qeval_shown. pose proof (xy_vec (- shown lim (- a)) r) as H. rewrite !Ropp_involutive in H. exact H.
    + cbn [qmat]. rewrite !qeval_shown. apply yz_vec.
    + cbn [qmat]. rewrite !qeval_shown. pose proof (xz_vec (- shown lim (- a)) r) as H. rewrite !Ropp_involutive in H. exact H.
Qed.

Lemma clifford_qasm3_names c g : In g (clifford_qasm3 c) -> qmat (qname g) = clifford_mat g.
Proof.
  intros H. assert (K : In g [K0; K1; K2; K3; K4; K5; K6]) by (destruct c; cbn in H; cbn; tauto).
  cbn in K. decompose [or] K; try contradiction; subst; cbn [qname qmat].
  - symmetry; apply clifford_mat_I.
  - symmetry; apply clifford_mat_X.
  - symmetry; apply clifford_mat_Y.
  - symmetry; apply clifford_mat_Z.
  - rewrite clifford_mat_S. auto.
  - rewrite clifford_mat_Sdg. auto.
  - rewrite clifford_mat_H. unfold mH, mscale. cbn. f_equal; ring.
Qed.

(** ** Execution of the exported statements *)
Lemma qexec_app o a b st : qexec o (a ++ b) st = match qexec o a st with Some s => qexec o b s | None => None end.
Proof. revert st. induction a as [|s a IH]; intros st; cbn [app qexec]; auto. destruct (qstep o st s); auto. Qed.
Lemma qcheck1 st n : In n (qr_q st) -> qcheck st [n] = true.
Proof. intros H. unfold qcheck. cbn. assert (lmem n (qr_q st) = true) as -> by (apply lmem_In; auto). auto. Qed.
Lemma exec_gates o gs n : forall st, In n (qr_q st) ->
  qexec o (map (fun g => SGate g n) gs) st = Some (QRun (qr_q st) (qr_c st) (qr_b st) (den (map (fun g => OApp1 (qmat g) n) gs) (qr_psi st))).
Proof.
  induction gs as [|g gs IH]; intros st H; cbn [map qexec den].
  - destruct st; auto.
  - cbn [qstep]. rewrite qcheck1 by auto. rewrite IH by auto. auto.
Qed.
Lemma qcond_ok o b l : (forall k, In k l -> b k = Some (o k)) -> qcond b l = Some (xorsum l o).
Proof.
  induction l as [|k l IH]; intros H; cbn; auto. rewrite H by (left; auto). rewrite IH by (intros; apply H; right; auto). auto.
Qed.
Lemma exec_domain (it : iter) o d g n st : iter_ok it -> In n (qr_q st) -> (forall k, mem k d = true -> qr_b st k = Some (o k)) ->
  qexec o (domain_qasm it d g n) st = Some (QRun (qr_q st) (qr_c st) (qr_b st) (den (if parity o d then [OApp1 (qmat g) n] else []) (qr_psi st))).
Proof.
  intros Hit Hn Hd. unfold domain_qasm.
  assert (P : parity o d = xorsum (it d) o) by (symmetry; apply xorsum_perm, Hit).
  assert (Q : forall k, In k (it d) -> qr_b st k = Some (o k)) by (intros k K; apply Hd; apply (iter_In it d k Hit); auto).
  rewrite P. destruct (it d) as [|k l] eqn:E.
  - cbn. destruct st; auto.
  - cbn [qexec qstep]. rewrite (qcond_ok o) by auto. rewrite qcheck1 by auto. destruct (xorsum (k :: l) o); cbn; auto. destruct st; auto.
Qed.
Lemma mask_cscale_op ms o p c psi : (forall n, In n (onodes p) -> ~ In n ms) ->
  app_op p (cscale c (mask ms o psi)) = cscale c (mask ms o (app_op p psi)).
Proof. intros H. rewrite app_op_scale, mask_op; auto. Qed.

(** the measurement of a pattern command, as executed by the program *)
Lemma meas_qasm_ops lim o n m s t : exists c, phase c /\ forall psi,
  den ((if parity o s then [OApp1 mX n] else []) ++ (if parity o t then [OApp1 mZ n] else []) ++ map (fun g => OApp1 (qmat g) n) (basis_gates lim m) ++ [OMeas (ket (o n)) n]) psi
  = cscale c (den (cmd_ops o (CM n (shown_meas lim m) s t)) psi).
Proof.
  enough (H : (if parity o s then [OApp1 mX n] else []) ++ (if parity o t then [OApp1 mZ n] else []) ++ map (fun g => OApp1 (qmat g) n) (basis_gates lim m) ++ [OMeas (ket (o n)) n]
    ≈ seq_ops o [CM n (shown_meas lim m) s t]).
  { destruct H as (c & P & H). exists c; split; auto. }
  eapply leq_trans; [|apply leq_sym, meas_ops_XZ].
  eapply leq_trans; [apply leq_app_l, leq_app_l, basis_ops|].
  rewrite app_assoc. change [OApp1 (mXZ (parity o s) (parity o t)) n; OMeas (mvec (shown_meas lim m) (o n)) n] with ([OApp1 (mXZ (parity o s) (parity o t)) n] ++ [OMeas (mvec (shown_meas lim m) (o n)) n]).
  apply leq_app_r. unfold mXZ, mpow. destruct (parity o s), (parity o t); cbn [app].
  - eapply leq_trans; [apply app1_fuse|]. apply app1_meqp. apply meqp_sym. exists (- C1). split; [apply phase_m1|apply XZ_anti].
  - rewrite mmul_1_r. apply leq_refl.
  - rewrite mmul_1_l. apply leq_refl.
  - rewrite mmul_1_r. apply leq_sym, app1_id.
Qed.
Lemma ket0_prep_h n psi : indep n psi -> app_op (OApp1 (qmat Gh) n) (app_op (OPrep ket0 n) psi) = app_op (OPrep plus_state n) psi.
Proof.
  intros H. extensionality f. cbn [app_op]. rewrite !upd_same, !H. unfold plus_state, planar_state. rewrite cis_0.
  destruct (f n); cbn; ring.
Qed.
Lemma mask_indep ms o n psi : ~ In n ms -> indep n psi -> indep n (mask ms o psi).
Proof. intros H I f b. unfold mask. rewrite forallb_upd by auto. rewrite I. auto. Qed.
Lemma cscale_indep c n psi : indep n psi -> indep n (cscale c psi).
Proof. intros I f b. unfold cscale. rewrite I. auto. Qed.
Lemma runnable_measured inp l n : runnable inp l -> measured_in l n -> In n inp \/ prepared_in l n.
Proof.
  intros H M. pose proof (run_state_spec inp l) as K. destruct (run_state inp l) as [[a m]|e]; [|tauto].
  destruct K as [_ (_ & _ & K)]. auto.
Qed.

Record qinv (lim : R -> Z * positive) (o : nat -> bool) (pre : list cmd) (st : qrun) : Prop := {
  qi_q : forall n, In n (qr_q st) <-> prepared_in pre n;
  qi_c : forall n, In n (qr_c st) <-> measured_in pre n;
  qi_b : forall n, measured_in pre n -> qr_b st n = Some (o n);
  qi_ind : forall n, ~ prepared_in pre n -> indep n (den (seq_ops o (map (shown_cmd lim) pre)) (fun _ => C1));
  qi_psi : exists ms c, phase c /\ (forall n, In n ms <-> measured_in pre n) /\
     qr_psi st = cscale c (mask ms o (den (seq_ops o (map (shown_cmd lim) pre)) (fun _ => C1)))
}.

Section Exec.
Variables (lim : R -> Z * positive) (it : iter) (zerob : vec2 -> bool).
Hypotheses (Hit : iter_ok it) (Hz : forall v, zerob v = true -> v = ket0).

Lemma den_snoc o pre c : den (seq_ops o (map (shown_cmd lim) (pre ++ [c]))) (fun _ => C1)
  = den (cmd_ops o (shown_cmd lim c)) (den (seq_ops o (map (shown_cmd lim) pre)) (fun _ => C1)).
Proof. rewrite map_app, seq_ops_app, den_app. cbn [map]. unfold seq_ops at 1. cbn [flat_map]. rewrite app_nil_r. auto. Qed.
Lemma live_prep pre n : live [] pre n -> prepared_in pre n.
Proof. intros [[[]|H] _]; auto. Qed.
Lemma ind_snoc o pre c : (forall n, ~ prepared_in pre n -> indep n (den (seq_ops o (map (shown_cmd lim) pre)) (fun _ => C1))) ->
  cmd_ok [] pre c -> forall n, ~ prepared_in (pre ++ [c]) n -> indep n (den (seq_ops o (map (shown_cmd lim) (pre ++ [c]))) (fun _ => C1)).
Proof.
  intros I K n H. rewrite den_snoc. rewrite prepared_app in H. apply indep_den; [|apply I; tauto].
  intros p Hp Hn. apply H. destruct c as [k st|u v|k m s t|k d|k d|k c|k d|]; cbn [shown_cmd cmd_ops cmd_ok] in *.
  - destruct Hp as [<-|[]]. destruct Hn as [<-|[]]. right. apply prepared_one. eauto.
  - left. destruct Hp as [<-|[]]. destruct K as [K1 K2]. destruct Hn as [<-|[<-|[]]]; apply live_prep; auto.
  - left. destruct Hp as [<-|[]]. destruct Hn as [<-|[]]. apply live_prep; tauto.
  - left. destruct (parity o d); [|destruct Hp]. destruct Hp as [<-|[]]. destruct Hn as [<-|[]]. apply live_prep; tauto.
  - left. destruct (parity o d); [|destruct Hp]. destruct Hp as [<-|[]]. destruct Hn as [<-|[]]. apply live_prep; tauto.
  - left. destruct Hp as [<-|[]]. destruct Hn as [<-|[]]. apply live_prep; tauto.
  - destruct Hp.
  - destruct Hp.
Qed.
(** a command that only changes the state *)
Lemma qinv_skip o pre c st psi' : cmd_ok [] pre c -> (forall n, ~ measured_in [c] n) -> (forall n, ~ prepared_in [c] n) ->
  qinv lim o pre st ->
  (forall ms d, phase d -> (forall n, In n ms <-> measured_in pre n) ->
     qr_psi st = cscale d (mask ms o (den (seq_ops o (map (shown_cmd lim) pre)) (fun _ => C1))) ->
     exists d', phase d' /\ psi' = cscale d' (mask ms o (den (seq_ops o (map (shown_cmd lim) (pre ++ [c]))) (fun _ => C1)))) ->
  qinv lim o (pre ++ [c]) (QRun (qr_q st) (qr_c st) (qr_b st) psi').
Proof.
  intros K NM NP [Q Cc B I (ms & d & Pd & M & E)] H.
  assert (A1 : forall n, measured_in (pre ++ [c]) n <-> measured_in pre n) by (intros n; rewrite measured_app; pose proof (NM n); tauto).
  assert (A2 : forall n, prepared_in (pre ++ [c]) n <-> prepared_in pre n) by (intros n; rewrite prepared_app; pose proof (NP n); tauto).
  split; cbn [qr_q qr_c qr_b qr_psi].
  - intros n. rewrite A2. auto.
  - intros n. rewrite A1. auto.
  - intros n. rewrite A1. auto.
  - apply ind_snoc; auto.
  - destruct (H ms d Pd M E) as (d' & Pd' & E'). exists ms, d'. split; auto. split; auto. intros n. rewrite A1. auto.
Qed.
Ltac nocmd := intros ?n; rewrite ?measured_one, ?prepared_one; intros H'; decompose [ex] H'; discriminate.

Lemma step_qasm o pre c prog st : runnable [] (pre ++ [c]) -> cmd_sem_ok c = true -> cmd_qasm lim it zerob c = Ok prog ->
  qinv lim o pre st -> exists st', qexec o prog st = Some st' /\ qinv lim o (pre ++ [c]) st'.
Proof.
  intros R S P V. apply runnable_snoc in R. destruct R as [R K]. pose proof V as [Q Cc B I (ms0 & d0 & Pd0 & M0 & E0)].
  assert (LV : forall n, live [] pre n -> In n (qr_q st)) by (intros n L; apply Q, live_prep; auto).
  assert (LM : forall n ms, live [] pre n -> (forall n, In n ms <-> measured_in pre n) -> ~ In n ms) by (intros n ms [_ L] HM X; apply L, HM; auto).
  destruct c as [n st0|u v|n m s t|n d|n d|n c|n d|]; cbn [cmd_qasm cmd_ok cmd_sem_ok] in *.
  - (* N *)
    assert (NP : ~ prepared_in pre n) by tauto.
    assert (NQ : lmem n (qr_q st) = false).
    { apply not_true_iff_false. rewrite lmem_In, Q. auto. }
    assert (NM : ~ In n ms0). { intros X. apply M0 in X. destruct (runnable_measured _ _ _ R X) as [[]|]; auto. }
    assert (A1 : forall k, measured_in (pre ++ [CN n st0]) k <-> measured_in pre k).
    { intros k. rewrite measured_app, measured_one. split; auto. intros [?|(?&?&?&?)]; auto; discriminate. }
    assert (A2 : forall k, prepared_in (pre ++ [CN n st0]) k <-> k = n \/ prepared_in pre k).
    { intros k. rewrite prepared_app, prepared_one. split.
      - intros [?|(?&X)]; auto. injection X; auto.
      - intros [->|?]; eauto. }
    assert (FIN : forall psi', psi' = cscale d0 (mask ms0 o (app_op (OPrep (nstate_vec st0) n) (den (seq_ops o (map (shown_cmd lim) pre)) (fun _ => C1)))) ->
      qinv lim o (pre ++ [CN n st0]) (QRun (n :: qr_q st) (qr_c st) (qr_b st) psi')).
    { intros psi' ->. split; cbn [qr_q qr_c qr_b qr_psi].
      - intros k. rewrite A2. cbn. rewrite Q. intuition.
      - intros k. rewrite A1. auto.
      - intros k. rewrite A1. auto.
      - apply ind_snoc; auto.
      - exists ms0, d0. split; auto. split; [intros k; rewrite A1; auto|]. rewrite den_snoc. auto. }
    destruct st0 as [|v]; cbn [state_qasm rbind] in P.
    + injection P as <-. cbn [qexec qstep]. rewrite NQ. rewrite qcheck1 by (left; auto). eexists. split; [reflexivity|].
      apply FIN. cbn [qr_psi nstate_vec]. rewrite ket0_prep_h.
      * rewrite E0. apply mask_cscale_op. intros k [<-|[]]; auto.
      * rewrite E0. apply cscale_indep, mask_indep; auto.
    + destruct (zerob v) eqn:Z; [|discriminate]. injection P as <-. cbn [qexec qstep]. rewrite NQ. eexists. split; [reflexivity|].
      apply FIN. cbn [nstate_vec]. rewrite (Hz v Z), E0. apply mask_cscale_op. intros k [<-|[]]; auto.
  - (* E *)
    injection P as <-. destruct K as [K1 K2]. cbn [qexec qstep].
    assert (qcheck st [u; v] = true) as ->.
    { unfold qcheck. cbn. rewrite (proj2 (lmem_In u _) (LV u K1)), (proj2 (lmem_In v _) (LV v K2)). cbn. rewrite orb_false_r.
      apply negb_true_iff in S. rewrite S. auto. }
    eexists. split; [reflexivity|]. apply qinv_skip; auto; try nocmd; [cbn; auto|].
    intros ms d Pd HM E. exists d. split; auto. rewrite E, den_snoc. cbn [shown_cmd cmd_ops den]. apply mask_cscale_op.
    intros k [<-|[<-|[]]]; auto.
  - (* M *)
    injection P as <-. destruct K as [K1 K2].
    assert (DM : forall k, mem k s = true -> qr_b st k = Some (o k)) by (intros k X; apply B, K2; auto).
    assert (DT : forall k, mem k t = true -> qr_b st k = Some (o k)) by (intros k X; apply B, K2; auto).
    assert (EQ : meas_qasm lim it n m s t = domain_qasm it s Gx n ++ domain_qasm it t Gz n ++ map (fun g => SGate g n) (basis_gates lim m) ++ [SBit n; SMeas n]).
    { unfold meas_qasm, basis_gates, angle_qasm. destruct (to_bloch m) as [a p]. f_equal. f_equal. rewrite map_app, <- app_assoc. f_equal; [destruct p; auto|].
      destruct (Req_EM_T a 0); [auto|]. destruct p; auto. }
    rewrite EQ. rewrite qexec_app, exec_domain by auto. rewrite qexec_app, exec_domain by (cbn; auto). cbn [qr_q qr_c qr_b qr_psi].
    rewrite qexec_app, exec_gates by (cbn; auto). cbn [qexec qstep qr_q qr_c qr_b qr_psi].
    assert (NC : lmem n (qr_c st) = false). { apply not_true_iff_false. rewrite lmem_In, Cc. destruct K1; auto. }
    rewrite NC. rewrite qcheck1 by (cbn; auto). cbn [qr_q qr_c qr_b qr_psi andb].
    assert (lmem n (n :: qr_c st) = true) as -> by (apply lmem_In; left; auto).
    eexists. split; [reflexivity|].
    assert (A1 : forall k, measured_in (pre ++ [CM n m s t]) k <-> k = n \/ measured_in pre k).
    { intros k. rewrite measured_app, measured_one. split.
      - intros [?|(?&?&?&X)]; auto. injection X; auto.
      - intros [->|?]; eauto. }
    assert (A2 : forall k, prepared_in (pre ++ [CM n m s t]) k <-> prepared_in pre k).
    { intros k. rewrite prepared_app, prepared_one. split; auto. intros [?|(?&?)]; auto; discriminate. }
    split; cbn [qr_q qr_c qr_b qr_psi].
    + intros k. rewrite A2. auto.
    + intros k. rewrite A1. cbn. rewrite Cc. intuition.
    + intros k. rewrite A1. destruct (Nat.eqb_spec k n) as [->|NE]; [auto|]. intros [X|X]; [contradiction|auto].
    + apply ind_snoc; [auto|split; auto].
    + destruct (meas_qasm_ops lim o n m s t) as (e & Pe & HE). exists (n :: ms0), (d0 * e). split; [apply phase_mul; auto|]. split.
      * intros k. rewrite A1. cbn. rewrite M0. intuition.
      * rewrite den_snoc. cbn [shown_cmd].
        set (X := if parity o s then [OApp1 (qmat Gx) n] else []). set (Z := if parity o t then [OApp1 (qmat Gz) n] else []).
        set (G := map (fun g => OApp1 (qmat g) n) (basis_gates lim m)).
        assert (ON : forall p k, In p (X ++ Z ++ G) -> In k (onodes p) -> k = n).
        { intros p k Hp. apply in_app_or in Hp. destruct Hp as [Hp|Hp]; [|apply in_app_or in Hp; destruct Hp as [Hp|Hp]].
          - unfold X in Hp. destruct (parity o s); [|destruct Hp]. destruct Hp as [<-|[]]. cbn. intuition.
          - unfold Z in Hp. destruct (parity o t); [|destruct Hp]. destruct Hp as [<-|[]]. cbn. intuition.
          - unfold G in Hp. apply in_map_iff in Hp. destruct Hp as (g & <- & _). cbn. intuition. }
        rewrite <- !den_app. rewrite E0, den_scale, mask_den.
        2:{ intros p k Hp Hk. rewrite (ON p k Hp Hk). apply LM; auto. }
        set (phi := den (seq_ops o (map (shown_cmd lim) pre)) (fun _ => C1)).
        assert (MM : (fun f => if Bool.eqb (f n) (o n) then cscale d0 (mask ms0 o (den (X ++ Z ++ G) phi)) f else C0)
          = cscale d0 (mask (n :: ms0) o (app_op (OMeas (ket (o n)) n) (den (X ++ Z ++ G) phi)))).
        { rewrite <- mask_meas. extensionality f. unfold cscale. destruct (Bool.eqb (f n) (o n)); auto. ring. }
        etransitivity; [exact MM|]. change (app_op (OMeas (ket (o n)) n) (den (X ++ Z ++ G) phi)) with (den [OMeas (ket (o n)) n] (den (X ++ Z ++ G) phi)).
        rewrite <- den_app. rewrite <- !app_assoc. unfold X, Z, G. cbn [qmat]. rewrite HE. rewrite mask_scale, cscale_cscale. rewrite den_app. auto.
  - (* X *)
    injection P as <-. destruct K as [K1 K2]. rewrite exec_domain by auto. eexists. split; [reflexivity|].
    apply qinv_skip; auto; try nocmd; [cbn; auto|].
    intros ms e Pe HM E. exists e. split; auto. rewrite E, den_snoc. cbn [shown_cmd cmd_ops]. destruct (parity o d); cbn [den]; auto.
    apply mask_cscale_op. intros k [<-|[]]; auto.
  - (* Z *)
    injection P as <-. destruct K as [K1 K2]. rewrite exec_domain by auto. eexists. split; [reflexivity|].
    apply qinv_skip; auto; try nocmd; [cbn; auto|].
    intros ms e Pe HM E. exists e. split; auto. rewrite E, den_snoc. cbn [shown_cmd cmd_ops]. destruct (parity o d); cbn [den]; auto.
    apply mask_cscale_op. intros k [<-|[]]; auto.
  - (* C *)
    injection P as <-. rewrite <- (map_map qname (fun g => SGate g n)). rewrite exec_gates by auto. eexists. split; [reflexivity|].
    apply qinv_skip; auto; try nocmd.
    intros ms e Pe HM E.
    assert (QE : map (fun g => OApp1 (qmat g) n) (map qname (clifford_qasm3 c)) ≈ [OApp1 (clifford_mat c) n]).
    { eapply leq_trans; [apply app1_list|]. apply app1_meqp. eapply meqp_trans; [|apply clifford_qasm3_mat]. apply meqp_eq. f_equal.
      rewrite <- map_rev, map_map. apply map_ext_in. intros g Hg. apply in_rev in Hg.
      apply clifford_qasm3_names with (c := c). auto. }
    destruct QE as (x & Px & QE). exists (e * x). split; [apply phase_mul; auto|].
    rewrite E, den_scale, QE, den_snoc. cbn [shown_cmd cmd_ops den]. rewrite mask_op by (intros k [<-|[]]; auto). extensionality f. unfold cscale. ring.
  - discriminate.
  - discriminate.
Qed.
End Exec.
