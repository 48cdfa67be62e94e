(** Proofs about the OpenQASM 3 export of circuits. *)
From Coq Require Import Reals Lra ZArith Arith List Bool Lia Permutation FunctionalExtensionality.
From Verif Require Import Cplx Mat2 NSet QState Fundamentals CliffordDb Clifford Measure Layer Pattern Statevec Density Circuit Swaps OpenGraph PropRewrite Qasm QasmThm.
Import ListNotations.
Local Open Scope C_scope.

(** the instruction the exported program performs *)
Definition shown_instr (lim : R -> Z * positive) (i : instr) : instr :=
  match i with
  | IRX q a => IRX q (shown lim a) | IRY q a => IRY q (shown lim a) | IRZ q a => IRZ q (shown lim a)
  | IJ q a => IJ q (shown lim a) | IRZZ t c a => IRZZ t c (shown lim a)
  | i => i
  end.
Lemma shown_qubits lim i : iqubits (shown_instr lim i) = iqubits i.
Proof. destruct i; auto. Qed.
Lemma shown_add_ok lim A i : add_ok A (shown_instr lim i) = add_ok A i.
Proof. unfold add_ok. rewrite shown_qubits. destruct i; auto. Qed.
Lemma shown_targets lim l : mtargets (map (shown_instr lim) l) = mtargets l.
Proof. induction l as [|i l IH]; auto. cbn [map mtargets flat_map]. unfold mtargets in IH. rewrite IH. destruct i; auto. Qed.
Definition no_rzz (i : instr) : bool := match i with IRZZ _ _ _ => false | _ => true end.
(** accepted by instruction_to_qasm3 *)
Definition direct (i : instr) : bool := match i with IJ _ _ => false | IM _ AX | IM _ AY => false | _ => true end.

Lemma rx_mat lim a : qmat (Grx (angle_to_str lim a)) = op_rx (shown lim a).
Proof. cbn [qmat]. rewrite qeval_shown. unfold op_rx. apply mat2_eq; apply C_eq; cbn; ring. Qed.
Lemma ry_mat lim a : qmat (Gry (angle_to_str lim a)) = op_ry (shown lim a).
Proof. cbn [qmat]. rewrite qeval_shown. auto. Qed.
Lemma rz_mat lim a : qmat (Grz (angle_to_str lim a)) = op_rz (shown lim a).
Proof.
  cbn [qmat]. rewrite qeval_shown. unfold op_rz. rewrite cis_opp, cis_hf. auto.
Qed.
Lemma z_meas_vec r : ket r ~v mvec (MPauli AZ Plus) r.
Proof.
  unfold mvec. cbn [to_bloch]. unfold planar_state. destruct r; cbn [b2R ket].
  - exists (- Ci). split; [apply phase_mi|]. replace ((0 + 1) * PI / 2)%R with (PI / 2)%R by field. rewrite cos_PI2, sin_PI2. apply vec2_eq; apply C_eq; cbn; ring.
  - exists C1. split; [apply phase_1|]. replace ((0 + 0) * PI / 2)%R with 0%R by field. rewrite cos_0, sin_0. apply vec2_eq; apply C_eq; cbn; ring.
Qed.
Lemma qcheck_ok st l : (forall q, In q l -> In q (qr_q st)) -> NoDup l -> qcheck st l = true.
Proof.
  intros H N. unfold qcheck. rewrite andb_true_iff. split; [|apply ndb_spec; auto].
  apply forallb_forall. intros q Hq. apply lmem_In, H; auto.
Qed.
Lemma mask_app1 ms o U n psi : ~ In n ms -> app_op (OApp1 U n) (mask ms o psi) = mask ms o (app_op (OApp1 U n) psi).
Proof. intros H. apply mask_op. intros k [<-|[]]; auto. Qed.

(** one unitary instruction *)
Lemma instr_step lim o ms i s st psi e : instr_qasm lim i = Ok s -> is_meas i = false -> no_rzz i = true -> NoDup (iqubits i) ->
  (forall q, In q (iqubits i) -> In q (qr_q st) /\ ~ In q ms) -> qr_psi st = cscale e (mask ms o psi) ->
  qstep o st s = Some (QRun (qr_q st) (qr_c st) (qr_b st) (cscale e (mask ms o (gate (shown_instr lim i) psi)))).
Proof.
  intros E M NR ND H P.
  assert (CK : forall l, l = iqubits i \/ Permutation l (iqubits i) -> qcheck st l = true).
  { intros l [->|Q].
    - apply qcheck_ok; auto. intros q Hq. apply H; auto.
    - apply qcheck_ok; [|eapply Permutation_NoDup; [symmetry; exact Q|auto]]. intros q Hq. apply H. eapply Permutation_in; eauto. }
  assert (ONE : forall g n, iqubits i = [n] -> s = SGate g n -> gate (shown_instr lim i) psi = app_op (OApp1 (qmat g) n) psi ->
    qstep o st s = Some (QRun (qr_q st) (qr_c st) (qr_b st) (cscale e (mask ms o (gate (shown_instr lim i) psi))))).
  { intros g n Q -> G. cbn [qstep]. rewrite CK by (left; auto). rewrite G, P, app_op_scale, mask_app1; auto.
    apply H. rewrite Q. left; auto. }
  destruct i; cbn [instr_qasm] in E; try discriminate; try (injection E as <-); cbn [iqubits] in *.
  - (* CCX *) cbn [qstep]. rewrite CK by (right; apply Permutation_sym, (Permutation_cons_append [c0; c1] target)). rewrite P.
    apply nd3 in ND. destruct ND as (N1 & N2 & N3).
    f_equal. f_equal. extensionality f. unfold cscale, mask. rewrite forallb_upd by (apply H; cbn; auto). cbn [shown_instr]. rewrite ccx_spec by auto.
    destruct (forallb _ ms); auto.
  - (* CNOT *) cbn [qstep]. rewrite CK by (right; constructor). rewrite P. apply nd2 in ND.
    f_equal. f_equal. extensionality f. unfold cscale, mask. rewrite forallb_upd by (apply H; cbn; auto). cbn [shown_instr]. rewrite cnot_spec by tauto.
    destruct (forallb _ ms); auto.
  - (* CZ *) cbn [qstep]. rewrite CK by (left; auto). rewrite P. rewrite mask_cscale_op; auto. intros n Hn. apply H. cbn in Hn; cbn; tauto.
  - (* SWAP *) cbn [qstep]. rewrite CK by (left; auto). rewrite P. f_equal. f_equal. extensionality f. unfold swapst, cscale, mask.
    rewrite !forallb_upd by (apply H; cbn; auto). cbn [shown_instr gate]. unfold swapst. destruct (forallb _ ms); auto.
  - apply (ONE Gh q); auto.
  - apply (ONE Gs q); auto.
  - apply (ONE Gx q); auto.
  - apply (ONE Gy q); auto.
  - apply (ONE Gz q); auto.
  - apply (ONE Gid q); auto. cbn [shown_instr gate qmat]. extensionality f. cbn [app_op]. rewrite <- (upd_id f q) at 1.
    destruct (f q); cbn; ring.
  - apply (ONE (Grx (angle_qasm lim angle)) q); auto. cbn [shown_instr gate]. rewrite <- rx_mat. auto.
  - apply (ONE (Gry (angle_qasm lim angle)) q); auto. cbn [shown_instr gate]. rewrite <- ry_mat. auto.
  - apply (ONE (Grz (angle_qasm lim angle)) q); auto. cbn [shown_instr gate]. rewrite <- rz_mat. auto.
Qed.
Lemma add_nodup A i : add_ok A i = true -> no_rzz i = true -> NoDup (iqubits i).
Proof. unfold add_ok. rewrite andb_true_iff. intros [_ H] N. apply ndb_spec. destruct i; auto. discriminate. Qed.
Lemma add_active A i q : add_ok A i = true -> In q (iqubits i) -> mem q A = true.
Proof. unfold add_ok. rewrite andb_true_iff, forallb_forall. intros [H _] Q. auto. Qed.
Lemma direct_ok lim l : forallb direct l = true -> exists prog, rmap (instr_qasm lim) l = Ok prog.
Proof.
  induction l as [|i l IH]; cbn [forallb rmap]; [eauto|]. rewrite andb_true_iff. intros [D F]. destruct (IH F) as [p Hp].
  assert (exists s, instr_qasm lim i = Ok s) as [s Hs] by (destruct i; cbn in *; eauto; [destruct ax; eauto; discriminate|discriminate]).
  rewrite Hs, Hp. cbn. eauto.
Qed.

Lemma circ_exec lim ob oc : forall l c d ms k st psi e prog, rfold circ_add l c = Ok d -> forallb no_rzz l = true ->
  (forall q, mem q (c_active c) = true -> In q (qr_q st) /\ ~ In q ms) ->
  (existsb is_meas l = true -> forall q, mem q (c_active c) = true -> In q (qr_c st)) ->
  (forall j q, nth_error (mtargets l) j = Some q -> oc (k + j)%nat = ob q) ->
  qr_psi st = cscale e (mask ms ob psi) -> phase e -> rmap (instr_qasm lim) l = Ok prog ->
  exists st' e', qexec ob prog st = Some st' /\ phase e' /\ qr_q st' = qr_q st /\
    (forall q, qr_b st' q = if lmem q (mtargets l) then Some (ob q) else qr_b st q) /\
    qr_psi st' = cscale e' (mask (rev (mtargets l) ++ ms) ob (csem oc k (map (shown_instr lim) l) psi)).
Proof.
  induction l as [|i l IH]; intros c d ms k st psi e prog E NR HA HC HO P Pe HP; cbn [rmap] in HP.
  - injection HP as <-. cbn [qexec]. exists st, e. cbn. auto 6.
  - cbn [rfold] in E. destruct (instr_qasm lim i) as [s|] eqn:Es; [|discriminate]. cbn [rbind] in HP.
    destruct (rmap (instr_qasm lim) l) as [pl|] eqn:El; [|discriminate]. injection HP as <-.
    cbn [forallb] in NR. rewrite andb_true_iff in NR. destruct NR as [NI NL].
    unfold circ_add in E at 1. destruct (add_ok (c_active c) i) eqn:A; [|discriminate].
    pose proof (add_nodup _ _ A NI) as ND. cbn [qexec].
    destruct (is_meas i) eqn:MI.
    + destruct i as [| | | | | | | | | | |q ax| | | |]; try discriminate. cbn [instr_qasm] in Es. destruct ax; try discriminate. injection Es as <-.
      assert (Aq : mem q (c_active c) = true) by (apply (add_active _ (IM q AZ)); cbn; auto).
      destruct (HA q Aq) as [Q1 Q2]. cbn [qstep]. rewrite qcheck1 by auto.
      assert (lmem q (qr_c st) = true) as -> by (apply lmem_In, HC; auto). cbn [andb].
      assert (KK : app_op (OMeas (ket (ob q)) q) psi = app_op (OMeas (ket (ob q)) q) psi) by auto.
      destruct (meas_veqp _ _ q (z_meas_vec (ob q))) as (x & Px & X). specialize (X psi). cbn [den] in X.
      assert (O0 : oc k = ob q). { rewrite <- (HO 0%nat q) by auto. rewrite Nat.add_0_r. auto. }
      destruct (IH _ _ (q :: ms) (S k) (QRun (qr_q st) (qr_c st) (fun k0 => if (k0 =? q)%nat then Some (ob q) else qr_b st k0) (fun f => if Bool.eqb (f q) (ob q) then qr_psi st f else C0))
                  (cmeas q AZ (oc k) psi) (e * x) pl E NL) as (st' & e' & E' & Pe' & Q' & B' & S'); cbn [qr_q qr_c qr_b qr_psi c_active]; auto.
      * intros q'. rewrite mem_sremove, andb_true_iff, negb_true_iff, Nat.eqb_neq. intros [H1 H2]. destruct (HA q' H1). split; auto.
        intros [->|?]; auto.
      * intros HM q'. rewrite mem_sremove, andb_true_iff. intros [H1 _]. apply HC; auto.
      * intros j q' Hj. rewrite <- (HO (S j) q') by auto. f_equal. lia.
      * rewrite P. etransitivity.
        { instantiate (1 := cscale e (mask (q :: ms) ob (app_op (OMeas (ket (ob q)) q) psi))). rewrite <- mask_meas. extensionality f. unfold cscale. destruct (Bool.eqb (f q) (ob q)); auto. ring. }
        rewrite X. unfold cmeas. rewrite O0, mask_scale, cscale_cscale. auto.
      * apply phase_mul; auto.
      * exists st', e'. split; auto. split; auto. split; auto. split.
        -- intros q'. rewrite B'. cbn [mtargets flat_map app]. fold (mtargets l). unfold lmem at 2. cbn [existsb]. fold (lmem q' (mtargets l)).
           destruct (lmem q' (mtargets l)); [rewrite orb_true_r; auto|]. rewrite orb_false_r. cbn [qr_b]. destruct (Nat.eqb_spec q' q) as [->|]; auto.
        -- rewrite S'. cbn [mtargets flat_map app rev map shown_instr csem]. rewrite <- app_assoc. auto.
    + assert (T : mtargets (i :: l) = mtargets l) by (destruct i; auto; discriminate).
      rewrite (instr_step lim ob ms i s st psi e Es MI NI ND).
      2:{ intros q Hq. apply HA. eapply add_active; eauto. }
      2:{ auto. }
      destruct (IH _ _ ms k (QRun (qr_q st) (qr_c st) (qr_b st) (cscale e (mask ms ob (gate (shown_instr lim i) psi)))) (gate (shown_instr lim i) psi) e pl E NL)
        as (st' & e' & E' & Pe' & Q' & B' & S'); cbn [qr_q qr_c qr_b qr_psi c_active]; auto.
      * intros q Hq. apply HA. destruct i; auto; discriminate.
      * intros HM q Hq. apply HC; [cbn [existsb]; rewrite HM, orb_true_r; auto|]. destruct i; auto; discriminate.
      * rewrite <- T. auto.
      * exists st', e'. split; auto. split; auto. split; auto. rewrite T. split; auto.
        rewrite S'. f_equal. f_equal. cbn [map]. symmetry. rewrite csem_unit; auto. destruct i; auto; discriminate.
Qed.
