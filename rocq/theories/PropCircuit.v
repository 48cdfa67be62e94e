(** Property theorems: gate decompositions (C20), elimination of SWAP gates
    (C22), loss of instructions in transpilation (C23).

    [gate i psi] is the action of instruction [i] in Circuit.simulate,
    [csem o 0 l psi] the unnormalised final state of the circuit [l] in the
    branch where the k-th measurement has outcome [o k]; [cscale c psi] is c psi. *)
From Coq Require Import Reals Lra Arith List Bool Lia Permutation FunctionalExtensionality.
From Verif Require Import Cplx Mat2 NSet QState Fundamentals CliffordDb Clifford Measure Pattern Statevec Density Circuit Swaps.
Import ListNotations.
Local Open Scope C_scope.

(** * C20 *)
(** reading of the multi-qubit matrices of ops.py *)
Theorem C20_gates : forall psi f,
  (forall t c, c <> t -> gate (ICNOT t c) psi f = psi (upd f t (xorb (f t) (f c)))) /\
  (forall t c0 c1, c0 <> t -> c1 <> t -> c0 <> c1 -> gate (ICCX t c0 c1) psi f = psi (upd f t (xorb (f t) (f c0 && f c1)))) /\
  (forall t c a, c <> t -> gate (IRZZ t c a) psi f = cis (if xorb (f c) (f t) then a / 2 else - (a / 2)) * psi f).
Proof. intros. split; [|split]; intros; [apply cnot_spec|apply ccx_spec|apply rzz_spec]; auto. Qed.
Print Assumptions C20_gates.
(** for every instruction other than M, the emitted J and CZ gates multiply to
    the gate up to a global phase, for every angle and every state *)
Theorem C20_decomposition : forall i, NoDup (iqubits i) -> is_meas i = false ->
  forall o k, exists c, phase c /\ forall psi, csem o k (map of_j (instructions_to_jcz [i])) psi = cscale c (gate i psi).
Proof.
  intros i ND HM o k. destruct (not_I i) eqn:E.
  - destruct (jcz_sem 3 [i]) with (o := o) (k := k) as (c & Hc & H).
    + constructor; [|constructor]. split; auto. destruct i; simpl; lia.
    + exists c. split; auto. intros psi. unfold instructions_to_jcz. rewrite H. rewrite csem_unit by auto. auto.
  - destruct i; try discriminate. exists C1. split; [apply phase_1|]. intros. rewrite cscale_1. auto.
Qed.
Print Assumptions C20_decomposition.
(** whole circuits, measurements included, as long as there is no I gate *)
Theorem C20_circuit : forall l, Forall (fun i => NoDup (iqubits i) /\ forall q, i <> II q) l ->
  forall o, exists c, phase c /\ forall psi, csem o 0 (map of_j (instructions_to_jcz l)) psi = cscale c (csem o 0 l psi).
Proof.
  intros l H o. apply (jcz_sem 3). eapply Forall_impl; [|exact H]. intros i [A B]. split; [destruct i; simpl; lia|]. split; auto.
  destruct i; auto. elim (B q); auto.
Qed.
Print Assumptions C20_circuit.
Theorem C20_total : forall d l, (3 <= d)%nat -> jcz d l = instructions_to_jcz l.
Proof. intros. apply jcz_depth; auto. Qed.
Print Assumptions C20_total.
Example C20_case : forall a, exists c, phase c /\ forall psi,
  csem (fun _ => false) 0 (map of_j (instructions_to_jcz [ICCX 2 0 1; IRZZ 0 2 a; IY 1; IM 0 AX])) psi
  = cscale c (csem (fun _ => false) 0 [ICCX 2 0 1; IRZZ 0 2 a; IY 1; IM 0 AX] psi).
Proof. intros a. apply C20_circuit. repeat constructor; simpl; try lia; intuition; discriminate. Qed.

(** * C23 *)
(** without I gates nothing is lost ([C20_circuit]); but everything that follows
    an I gate is dropped, whatever it is *)
Theorem C23_dropped : forall l q l', (forall i, In i l -> forall q', i <> II q') ->
  instructions_to_jcz (l ++ II q :: l') = instructions_to_jcz l.
Proof.
  intros l q l' H. unfold instructions_to_jcz. induction l as [|i l IH]; auto. cbn [app]. rewrite !jcz_cons, IH by (intros; apply H; simpl; auto). auto.
Qed.
Print Assumptions C23_dropped.
(** the I gate is accepted by the API, and the emitted gates are not the circuit *)
Theorem C23_refuted : exists l c, circ_make 1 l = Ok c /\ c_instr c = l /\
  instructions_to_jcz (c_instr c) = [] /\
  ~ exists z, phase z /\ forall psi, csem (fun _ => false) 0 (map of_j (instructions_to_jcz (c_instr c))) psi = cscale z (csem (fun _ => false) 0 (c_instr c) psi).
Proof.
  exists [II 0%nat; IX 0%nat], (Circ 1 [II 0%nat; IX 0%nat] (of_list (range 1))). split; [|split; [|split]].
  - vm_compute. reflexivity.
  - reflexivity.
  - reflexivity.
  - intros (z & Hz & H). specialize (H (fun f => if f 0%nat then C0 else C1)).
    apply (f_equal (fun s => s (fun _ => false))) in H. unfold cscale in H. cbn in H. apply C1_neq_C0. rewrite H. ring.
Qed.
Print Assumptions C23_refuted.
Theorem C23_no_identity_gate_partial : forall l, Forall (fun i => NoDup (iqubits i) /\ forall q, i <> II q) l ->
  forall o, exists c, phase c /\ forall psi, csem o 0 (map of_j (instructions_to_jcz l)) psi = cscale c (csem o 0 l psi).
Proof. exact C20_circuit. Qed.
Print Assumptions C23_no_identity_gate_partial.

(** * C22 *)
(** transpile_swaps succeeds on every circuit accepted by the API; its circuit
    has no SWAP and measures along the same axes in the same order; qubit [q] of
    the original is qubit [i] of the new one when outputs[q] is OQubit i: giving
    corresponding qubits the same bits, the amplitudes are equal in every
    branch *)
Theorem C22_swaps : forall w l c, circ_make w l = Ok c -> exists c' outs,
  transpile_swaps c = Ok (c', outs) /\ length outs = w /\
  (forall i, In i (c_instr c') -> forall u v, i <> ISWAP u v) /\
  maxes (c_instr c') = maxes l /\
  (forall q k, nth_error outs q = Some (OBit k) <-> nth_error (mtargets l) k = Some q) /\
  (forall q q' i, nth_error outs q = Some (OQubit i) -> nth_error outs q' = Some (OQubit i) -> q = q') /\
  forall o psi, on_register w psi -> forall f g, (forall q i, nth_error outs q = Some (OQubit i) -> g i = f q) ->
    csem o 0 l psi f = csem o 0 (c_instr c') psi g.
Proof.
  intros w l c H. destruct (transpile_swaps_spec w l c H) as (c' & outs & mi & E & HI). exists c', outs. split; auto.
  split; [apply HI|]. split; [|split; [apply HI|split; [apply HI|split; [apply HI|]]]].
  - intros i Hi u v ->. pose proof (sw_noswap _ _ _ _ _ _ HI) as N. rewrite forallb_forall in N. specialize (N _ Hi). discriminate.
  - intros o psi HP f g HA. apply (sw_rel _ _ _ _ _ _ HI o psi HP f g HA).
Qed.
Print Assumptions C22_swaps.
Example C22_case : exists c c', circ_make 3 [ISWAP 0 1; ICNOT 2 0; IM 0 AX; ISWAP 1 2] = Ok c
  /\ transpile_swaps c = Ok (c', [OBit 0; OQubit 2; OQubit 0]) /\ c_instr c' = [ICNOT 2 1; IM 1 AX].
Proof. do 2 eexists. split; [vm_compute; reflexivity|]. split; vm_compute; reflexivity. Qed.

(** restoring the order of the output nodes: [node i] is the output node of
    qubit i of the new circuit, listed in the order of the qubits *)
Theorem C22_output_nodes_partial : forall w l c c' outs, circ_make w l = Ok c -> transpile_swaps c = Ok (c', outs) ->
  (forall q i, nth_error outs q = Some (OQubit i) -> exists j, nth_error outs i = Some (OQubit j)) ->
  forall node, swap_output_nodes outs (map node (unmeasured c')) = Ok (map node (out_qubits outs)).
Proof.
  intros w l c c' outs H E HS node. destruct (transpile_swaps_spec w l c H) as (c1 & o1 & mi & E' & HI). rewrite E in E'. inversion E'; subst c1 o1.
  eapply swap_output_nodes_ok; eauto. intros i Hi. apply out_qubits_In in Hi. destruct Hi as (q & Hq). apply positions_In. unfold oat. eapply HS; eauto.
Qed.
Print Assumptions C22_output_nodes_partial.
(** otherwise it raises KeyError: Circuit.transpile fails on this circuit *)
Theorem C22_output_nodes_keyerror : forall outs q i nodes, nth_error outs q = Some (OQubit i) -> (forall j, nth_error outs i <> Some (OQubit j)) ->
  swap_output_nodes outs nodes = Err EKey.
Proof.
  intros outs q i nodes H N. unfold swap_output_nodes. rewrite (extract_err outs i); auto.
  - apply out_qubits_In. exists q. auto.
  - intros K. apply positions_In in K. destruct K as (j & K). elim (N j). auto.
Qed.
Print Assumptions C22_output_nodes_keyerror.
Theorem C22_output_nodes_refuted : exists c c' outs, circ_make 2 [ISWAP 0 1; IM 0 AZ] = Ok c /\ transpile_swaps c = Ok (c', outs)
  /\ forall nodes, swap_output_nodes outs nodes = Err EKey.
Proof.
  do 3 eexists. split; [vm_compute; reflexivity|]. split; [vm_compute; reflexivity|].
  intros nodes. apply (C22_output_nodes_keyerror _ 1 0); [reflexivity|]. intros j; discriminate.
Qed.
Print Assumptions C22_output_nodes_refuted.
(** the classical outputs are listed by qubit, not in the order of the gates as
    documented (TranspiledPattern.classical_outputs): with M(1) before M(0) and
    no SWAP at all, the two are exchanged *)
Theorem C22_classical_outputs_refuted : exists c c' outs, circ_make 2 [IM 1 AX; IM 0 AX] = Ok c /\ transpile_swaps c = Ok (c', outs)
  /\ c_instr c' = c_instr c /\ forall a b, swap_classical_outputs outs [a; b] = Ok [b; a].
Proof. do 3 eexists. split; [vm_compute; reflexivity|]. split; [vm_compute; reflexivity|]. split; reflexivity. Qed.
Print Assumptions C22_classical_outputs_refuted.
