(** Property theorems: circuit extraction from focused flows (C50). *)
From Coq Require Import Reals Lra Arith List Bool Lia Permutation FunctionalExtensionality.
From Verif Require Import Cplx Mat2 NSet QState Fundamentals Clifford Measure Layer Pattern Standardize NodeIndex OpenGraph FlowDet FlowSpec Flow FlowWF FlowPat OGMap PropFlow GPFlow PropGPFlow PropExtract PropExtract TranspilePat RunBranch PropRemovePauli Focus FlowSem GState GraphSimThm Statevec Density Circuit Swaps PauliStr PauliOp Berg Ladder PropCircExt FlowCirc FlowCircSem FlowCircStr FlowCircLoad FlowCircMap FlowCircExt FlowCircFin.
Import ListNotations.
Local Open Scope list_scope.
Local Arguments app_op : simpl never.

(** * Specification *)
(** the state of an n-qubit register, qubit q on the node ns[q] *)
Definition on_nodes (ns : list nat) (phi : state) : state := fun f => phi (fun q => match nth_error ns q with Some n => f n | None => false end).
(** the circuit computes the map of the graph: on every input register, up to one
    non-zero scalar (the same for all states), qubit q of the circuit entering on
    the q-th input node and leaving on the q-th output node *)
Definition circuit_of_graph (c : circuit) (og : opengraph) : Prop := exists z, z <> C0 /\ forall o k phi, on_register (c_width c) phi ->
  den (graph_ops og) (on_nodes (og_in og) phi) = cscale z (on_nodes (og_out og) (csem o k (c_instr c) phi)).
(** the same for a pattern: in every outcome branch *)
Definition circuit_of_pattern (c : circuit) (p : pattern) : Prop := forall o, exists z, z <> C0 /\ forall o' k phi, on_register (c_width c) phi ->
  den (seq_ops o (p_seq p)) (on_nodes (p_in p) phi) = cscale z (on_nodes (p_out p) (csem o' k (c_instr c) phi)).
(** no input is measured along a Pauli axis with a minus sign *)
Definition no_minus_input (og : opengraph) : Prop := forall i ax, In i (og_in og) -> dget (og_meas og) i <> Some (MPauli ax Minus).

(** * Theorems *)
Lemma extract_ok it f : iter_ok it -> og_ok (pf_og f) -> simple (og_graph (pf_og f)) -> NoDup (dkeys (pf_cf f)) -> pauli_flow (pf_og f) (pf_cf f) (pf_layers f) -> focused (pf_og f) (pf_cf f) ->
  og_cliff (pf_og f) = [] -> length (og_in (pf_og f)) = length (og_out (pf_og f)) -> og_out (pf_og f) <> [] -> no_minus_input (pf_og f) ->
  exists c, extracted_circuit it f = Ok c /\ c_width c = length (og_out (pf_og f)) /\ (forall i, In i (c_instr c) -> is_meas i = false) /\ circuit_of_graph c (pf_og f).
Proof.
  intros H1 H2 H3 H4 PF FO HC HL NE NM. destruct (extract_sem it f H1 H2 H3 H4 PF FO NE HC) as (c & E & W & M & z & Z & S); auto.
  { intros i s Hi ax E. destruct s; auto. destruct (NM i ax Hi E). }
  exists c. split; auto. split; auto. split; auto. exists z. split; auto. rewrite W. exact S.
Qed.
(** A focused Pauli flow that passes check_well_formed, on an open graph without
    output Cliffords with as many inputs as outputs (not none) and no input
    measured along a negative axis: extraction and compilation succeed, and the
    circuit, which has one qubit per output and no measurement, computes the map
    of the open graph *)
Theorem C50_extract_circuit : forall it f, iter_ok it -> og_ok (pf_og f) -> simple (og_graph (pf_og f)) -> NoDup (dkeys (pf_cf f)) ->
  pf_check it f = Ok tt -> is_focused f = Ok true -> og_cliff (pf_og f) = [] -> length (og_in (pf_og f)) = length (og_out (pf_og f)) -> og_out (pf_og f) <> [] -> no_minus_input (pf_og f) ->
  exists c, extracted_circuit it f = Ok c /\ c_width c = length (og_out (pf_og f)) /\ (forall i, In i (c_instr c) -> is_meas i = false) /\ circuit_of_graph c (pf_og f).
Proof.
  intros it f H1 H2 H3 H4 H5 H6 HC HL NE NM. destruct (pf_check_decides it H1 f H2 H4) as [[_ PF]|[K _]]; [|congruence].
  destruct (is_focused_decides f) as [[_ FO]|[K _]]; [apply (ok_meas _ H2)|auto|intros i s n E H; apply (cf_img _ _ (pfl_cf _ _ _ PF) i s n E H)| |congruence]. apply extract_ok; auto.
Qed.
Print Assumptions C50_extract_circuit.
Lemma on_nodes_ins og phi n : ~ In n (og_in og) -> indep n (on_nodes (og_in og) phi).
Proof. intros N f b. unfold on_nodes. f_equal. extensionality q. destruct (nth_error (og_in og) q) as [m|] eqn:E; auto. unfold upd. destruct (Nat.eqb_spec m n) as [->|]; auto. exfalso. apply N. eapply nth_error_In; eauto. Qed.
Lemma graph_pattern c og p : circuit_of_graph c og -> implements p og -> p_in p = og_in og -> p_out p = og_out og -> circuit_of_pattern c p.
Proof.
  intros (z & Z & S) IM E1 E2 o. destruct (IM o) as (k & Pk & K). exists (k * z)%C. split; [intros Q; apply Cmul_zero in Q; destruct Q as [Q|Q]; [apply (phase_nz _ Pk Q)|auto]|].
  intros o' j phi HP. rewrite E1, E2, K by (intros n _ Ni; apply on_nodes_ins; auto). rewrite (S o' j) by auto. apply cscale_cscale.
Qed.
(** The circuit also computes the map of any pattern obtained from the flow, in
    every branch *)
Theorem C50_pattern : forall it f order xz p c, iter_ok it -> og_ok (pf_og f) -> simple (og_graph (pf_og f)) -> NoDup (dkeys (pf_cf f)) ->
  pf_check it f = Ok tt -> is_focused f = Ok true -> og_cliff (pf_og f) = [] -> length (og_in (pf_og f)) = length (og_out (pf_og f)) -> og_out (pf_og f) <> [] -> no_minus_input (pf_og f) ->
  extracted_circuit it f = Ok c -> pf_to_xz it f = Ok xz -> xz_to_pattern it xz order = Ok p -> circuit_of_pattern c p.
Proof.
  intros it f order xz p c H1 H2 H3 H4 H5 H6 HC HL NE NM Ec Ex Ep. destruct (C50_extract_circuit it f) as (c' & E & _ & _ & S); auto. assert (c' = c) by congruence. subst c'.
  destruct (C18_pauli_flow_deterministic it f) as (xz' & Ex' & _ & _ & Q); auto. assert (xz' = xz) by congruence. subst xz'. destruct (Q order p Ep) as (A & B & _ & _ & IM). eapply graph_pattern; eauto.
Qed.
Print Assumptions C50_pattern.
(** OpenGraph.to_circuit: OpenGraphError iff the graph has no Pauli flow;
    otherwise, under the conditions above, a circuit for the map of the graph *)
Theorem C50_og_to_circuit : forall it og, iter_ok it -> og_ok og -> simple (og_graph og) ->
  og_cliff og = [] -> length (og_in og) = length (og_out og) -> og_out og <> [] -> no_minus_input og ->
  (exists c, og_to_circuit it og = Ok c /\ (exists cf ls, pauli_flow og cf ls) /\ c_width c = length (og_out og) /\ (forall i, In i (c_instr c) -> is_meas i = false) /\ circuit_of_graph c og /\
     forall it' p, iter_ok it' -> og_to_pattern it' og = Ok p -> circuit_of_pattern c p) \/
  (og_to_circuit it og = Err EOpenGraph /\ forall cf ls, ~ pauli_flow og cf ls).
Proof.
  intros it og H1 H2 H3 HC HL NE NM. unfold og_to_circuit, to_pauliflow. destruct (find_pauliflow_correct it og H1 H2 H3) as [(f & E & EO & ND & PF & FO & _)|[E N]]; rewrite E; cbn [rbind]; [left|right; auto].
  subst og. destruct (extract_ok it f) as (c & Ec & W & M & S); auto. exists c. split; auto. split; [eauto|]. split; [auto|]. split; [auto|]. split; [auto|].
  intros it' p Hit' Ep. destruct (C44_to_pattern it' (pf_og f) Hit' H2 H3) as [(q & Eq & _ & I & O & _ & _ & IM)|[K _]]; [|congruence]. assert (q = p) by congruence. subst q. eapply graph_pattern; eauto.
Qed.
Print Assumptions C50_og_to_circuit.
(** output Cliffords and isometries are refused; so are flows that are not focused *)
Theorem C50_errors : forall it f,
  (og_cliff (pf_og f) <> [] -> extracted_circuit it f = Err ENotImplemented) /\
  (og_cliff (pf_og f) = [] -> is_focused f = Ok false -> extracted_circuit it f = Err EValue) /\
  (iter_ok it -> og_ok (pf_og f) -> simple (og_graph (pf_og f)) -> NoDup (dkeys (pf_cf f)) -> pf_check it f = Ok tt -> is_focused f = Ok true -> og_cliff (pf_og f) = [] ->
     og_in (pf_og f) <> [] -> length (og_in (pf_og f)) <> length (og_out (pf_og f)) -> og_out (pf_og f) <> [] -> extracted_circuit it f = Err ENotImplemented).
Proof.
  intros it f. split; [|split].
  - intros H. unfold extracted_circuit, extract_circuit. destruct (og_cliff (pf_og f)); [congruence|reflexivity].
  - intros H1 H2. unfold extracted_circuit, extract_circuit. rewrite H1. unfold extraction_strings. rewrite H2. reflexivity.
  - intros H1 H2 H3 H4 H5 H6 HC NI LEN NE. destruct (pf_check_decides it H1 f H2 H4) as [[_ PF]|[K _]]; [|congruence].
    destruct (is_focused_decides f) as [[_ FO]|[K _]]; [apply (ok_meas _ H2)|auto|intros i s n E H; apply (cf_img _ _ (pfl_cf _ _ _ PF) i s n E H)| |congruence].
    unfold extracted_circuit, extract_circuit. rewrite HC. destruct (strs_spec it f) as (strs & -> & HS); auto. cbn [rbind]. destruct (dag_spec f) with (strs := strs) as (d & -> & HD & HK); auto. cbn [rbind].
    unfold cmap_from_flow. destruct (x_map_spec it f H1 H2 H3 PF NI) as (xs & EX & _).
    assert (EZ : exists zs, z_map_from_flow f strs = Ok zs).
    { unfold z_map_from_flow. match goal with |- context [rmap ?F ?l] => destruct (rmap_ok F l) as (zs & E & _) end; [|eauto]. intros i Hi. destruct (dget (og_meas (pf_og f)) i) as [m|] eqn:Em.
      - destruct (HS i m Em) as (p & -> & _). cbn. eauto.
      - assert (Ho : In i (og_out (pf_og f))). { destruct (in_dec Nat.eq_dec i (og_out (pf_og f))); auto. exfalso. apply dget_None in Em. apply Em, (ok_meas _ H2). split; auto. apply (ok_in _ H2); auto. }
        apply In_nth_error in Ho. destruct Ho as (q & Hq). rewrite (proj1 (out_index _ q i (proj1 (ok_out _ H2))) Hq). cbn. eauto. }
    destruct EZ as (zs & ->). cbn [rbind]. rewrite EX. cbn [rbind]. unfold er_to_circuit. cbn [pd_out cm_out]. destruct (list_eq_dec Nat.eq_dec _ _); [|congruence]. rewrite C31_isometry by auto. reflexivity.
Qed.
Print Assumptions C50_errors.
(** * An input measured along a negative axis *)
(** the open graph 0 - 1 with input 0 measured along -X and output 1: its map is
    X H, but the extraction compiles a circuit for another unitary.  The sign of
    the image of Z takes the axis of the input itself into account
    (extraction.py:541-545 loops over c_set | odd_c_set, node included) *)
Definition minus_og : opengraph := OG (Graph [0; 1] [(0, 1)])%nat [0%nat] [1%nat] [(0%nat, MPauli AX Minus)] [].
Definition minus_flow : pflow := PF minus_og [(0%nat, of_list [1%nat])] [of_list [1%nat]; of_list [0%nat]].
Definition mp (a : axis) : pstring := PStr 1 [(0%nat, a)] Minus.
Lemma mp_op a psi : ps_op (mp a) psi = cscale (- C1)%C (app_op (OApp1 (axis_mat a) 0) psi).
Proof. unfold ps_op, mp. cbn [ps_sign ps_axes]. change (axes_op [(0%nat, a)] psi) with (app_op (OApp1 (axis_mat a) 0) psi). f_equal. apply C_eq; cbn; ring. Qed.
Lemma minus_valid : cm_valid 1 (CMap [mp AZ] [mp AX] [0%nat] [1%nat]).
Proof.
  split; [auto|]. split; [auto|]. split; [auto|]. split; [auto|]. split.
  - intros p [<-|[<-|[]]]; (split; [|auto]); (split; cbn; [repeat constructor; intros []|intros q [<-|[]]; lia]).
  - intros i j Hi Hj. assert (i = 0%nat) by lia. assert (j = 0%nat) by lia. subst. cbn [nth cm_x cm_z Nat.eqb]. split; [|split]; intros psi; auto.
    rewrite !mp_op, !app_op_scale, !app1_app1, !cscale_cscale. replace (mmul (axis_mat AZ) (axis_mat AX)) with (mscale (sgn true) (mmul (axis_mat AX) (axis_mat AZ))); [|unfold mscale; cbn; unfold mX, mZ, mmul; cbn; f_equal; apply C_eq; cbn; ring].
    rewrite app1_sgn, cscale_cscale. f_equal.
Qed.
Theorem C50_minus_input_refuted : og_ok minus_og /\ simple (og_graph minus_og) /\ NoDup (dkeys (pf_cf minus_flow)) /\ pf_check elems minus_flow = Ok tt /\ is_focused minus_flow = Ok true /\ og_cliff minus_og = [] /\
  exists c, extracted_circuit elems minus_flow = Ok c /\ ~ circuit_of_graph c minus_og.
Proof.
  assert (OK : og_ok minus_og).
  { apply og_ok_dec; try reflexivity. apply graph_ok_dec; try reflexivity. repeat constructor; cbn; intuition discriminate. }
  split; [exact OK|]. split; [intros e [<-|[]]; cbn; lia|]. split; [repeat constructor; intros []|]. split; [vm_compute; reflexivity|]. split; [vm_compute; reflexivity|]. split; [reflexivity|].
  set (dag := PDag [(0%nat, PExp 0 (mp AX))] [of_list [1%nat]; of_list [0%nat]] [1%nat]). set (cm := CMap [mp AZ] [mp AX] [0%nat] [1%nat]).
  assert (E : extract_circuit elems minus_flow = Ok (dag, cm)) by (vm_compute; reflexivity).
  assert (DO : dag_ok 1 dag).
  { split; cbn [dag pd_layers pd_exp tl].
    - intros s v [<-|[]] Hv. apply mem_of_list in Hv. destruct Hv as [<-|[]]. cbn. eauto.
    - intros v e. cbn [dget]. destruct (0 =? v)%nat; [|discriminate]. intros [= <-]. cbn [pe_ps]. split; [|reflexivity]. split; [repeat constructor; intros []|intros q [<-|[]]; cbn; lia]. }
  destruct (C32_er_to_circuit elems 1 dag cm) as (lc & le & es & EC & _ & R & DS & c & Pc & S); [lia|exact minus_valid|apply iter_elems|exact DO|auto|].
  exists (Circ 1 (lc ++ le) (of_list (range 1))). split; [unfold extracted_circuit; rewrite E; exact EC|]. intros (z & Z & H). cbn [c_width c_instr] in H.
  assert (ID : forall psi, exps es psi = psi).
  { destruct DS as (ls & _ & F). clear - F. revert F. generalize (concat (rev ls)). intros l F. induction F as [|v e l es He F IH]; intros psi; auto. unfold exps. cbn [fold_left]. fold (exps es (pexp_op e psi)). rewrite IH.
    cbn [dag pd_exp dget] in He. destruct (0 =? v)%nat; [|discriminate]. injection He as <-. apply exp0. }
  set (phi := fun f : asg => if f 0%nat then C0 else C1). specialize (H (fun _ => false) 0%nat phi). rewrite S, ID in H. set (v := csem (fun _ => false) 0 lc phi) in H.
  assert (HV : v = cscale (- C1)%C (app_op (OApp1 mX 0) v)).
  { unfold v. destruct (R (fun _ => false) 0%nat 0%nat (Nat.lt_0_1) phi) as [_ K]. cbn [cm cm_z nth] in K. rewrite mp_op in K. cbn [axis_mat] in K. rewrite <- K. f_equal. extensionality f. unfold phi, app_op. destruct (f 0%nat); unfold upd; cbn; ring. }
  assert (OR : on_register 1 phi) by (intros f g Q; unfold phi; rewrite Q by lia; auto). specialize (H OR).
  set (f0 := fun _ : nat => false). set (f1 := upd f0 1 true). pose proof (f_equal (fun s => s f0) H) as H0. pose proof (f_equal (fun s => s f1) H) as H1. cbn beta in H0, H1.
  assert (L : den (graph_ops minus_og) (on_nodes (og_in minus_og) phi) f1 = den (graph_ops minus_og) (on_nodes (og_in minus_og) phi) f0 /\ den (graph_ops minus_og) (on_nodes (og_in minus_og) phi) f0 <> C0).
  { assert (L : forall f, den (graph_ops minus_og) (on_nodes (og_in minus_og) phi) f = (RtoC (/ sqrt 2) * RtoC (/ sqrt 2))%C).
    { intros f. change (graph_ops minus_og) with [OPrep plus_state 1; OCz 0 1; OMeas (mvec (MPauli AX Minus) false) 0]. change (og_in minus_og) with [0%nat]. cbn [den].
      assert (EP : forall b, vget plus_state b = RtoC (/ sqrt 2)). { intros b. unfold plus_state, planar_state. assert (E0 : cis 0 = C1) by (unfold cis; rewrite Rmult_0_l, cos_0, sin_0; reflexivity). rewrite E0. destruct b; cbn [vget v0 v1]; apply C_eq; cbn; ring. }
      assert (EM : Cconj (v0 (mvec (MPauli AX Minus) false)) = RtoC (/ sqrt 2)) by (unfold mvec; cbn [to_bloch]; unfold planar_state; cbn [v0]; apply C_eq; cbn; ring).
      unfold app_op, on_nodes, phi. rewrite !EP, EM. unfold upd. cbn [nth_error Nat.eqb andb].
      cbn [sgn]. ring. }
    rewrite !L. split; auto. intros Y. apply (f_equal re) in Y. cbn in Y. pose proof (Rinv_neq_0_compat _ sqrt2_neq_0) as N. nra. }
  assert (V01 : on_nodes [1%nat] v f1 = (- on_nodes [1%nat] v f0)%C).
  { clearbody v. unfold on_nodes. set (g1 := fun q => match nth_error [1%nat] q with Some n => f1 n | None => false end). set (g0 := fun q => match nth_error [1%nat] q with Some n => f0 n | None => false end).
    pose proof (f_equal (fun s => s g1) HV) as K. cbn beta in K. rewrite K. unfold cscale, app_op. change (g1 0%nat) with true. unfold mX. cbn [mget m00 m01 m10 m11].
    replace (upd g1 0 false) with g0; [ring|]. extensionality q. destruct q as [|[|q]]; reflexivity. }
  destruct L as [L1 L2]. rewrite H0, H1 in L1. unfold cscale in *. cbn [minus_og og_out] in *. change (on_nodes [1%nat] (fun f => (c * v f)%C) ?g) with (c * on_nodes [1%nat] v g)%C in *. rewrite V01 in L1. apply L2. rewrite H0.
  set (w := on_nodes [1%nat] v f0) in *. destruct (z * (c * w))%C as [a b] eqn:Q. assert (X : (z * (c * - w) = - (z * (c * w)))%C) by ring. rewrite X, Q in L1. pose proof (f_equal re L1) as Y1. pose proof (f_equal im L1) as Y2. cbn in Y1, Y2. apply C_eq; cbn; lra.
Qed.
Print Assumptions C50_minus_input_refuted.

(** * Non-vacuity *)
(** two qubits: node 4 is an input and an output, node 2 a gadget measured in YZ,
    node 1 a Pauli measurement along -X; any angles *)
Definition gadget_og (a b : R) : opengraph :=
  OG (Graph [0; 1; 2; 3; 4] [(0, 1); (1, 3); (2, 3); (3, 4)])%nat [0; 4]%nat [3; 4]%nat [(0%nat, MBloch a PXY); (1%nat, MPauli AX Minus); (2%nat, MBloch b PYZ)] [].
Definition gadget_flow (a b : R) : pflow := PF (gadget_og a b) [(0%nat, of_list [1%nat]); (1%nat, of_list [3%nat]); (2%nat, of_list [2%nat])] [of_list [3; 4]%nat; of_list [2%nat]; of_list [0; 1]%nat].
Lemma gadget_ok a b : og_ok (gadget_og a b) /\ simple (og_graph (gadget_og a b)) /\ NoDup (dkeys (pf_cf (gadget_flow a b))) /\ no_minus_input (gadget_og a b).
Proof.
  split; [|split; [|split]].
  - apply og_ok_dec; try reflexivity. apply graph_ok_dec; try reflexivity. repeat constructor; cbn; intuition discriminate.
  - intros e H. cbn in H. intuition; subst; cbn in *; discriminate.
  - repeat constructor; cbn; intuition discriminate.
  - intros i ax [<-|[<-|[]]]; cbn; discriminate.
Qed.
Example C50_instance a b : exists c, extracted_circuit elems (gadget_flow a b) = Ok c /\ c_width c = 2%nat /\ circuit_of_graph c (gadget_og a b).
Proof.
  destruct (gadget_ok a b) as (H1 & H2 & H3 & H4). destruct (C50_extract_circuit elems (gadget_flow a b)) as (c & A & B & _ & D); [apply iter_elems|auto|auto|auto|vm_compute; reflexivity|vm_compute; reflexivity|reflexivity|reflexivity|discriminate|auto|]. exists c. auto.
Qed.
(** the strings computed for it: Z on qubit 0 goes to the string of node 0 *)
Example C50_instance_strings a b : exists dag cm, extract_circuit elems (gadget_flow a b) = Ok (dag, cm) /\
  cm_z cm = [PStr 2 [(0%nat, AZ)] Minus; PStr 2 [(1%nat, AZ)] Plus].
Proof. eexists. eexists. split; [vm_compute; reflexivity|reflexivity]. Qed.
(** a graph without Pauli flow *)
Example C50_instance_none a : og_to_circuit elems (OG (Graph [0; 1] [])%nat [0%nat] [1%nat] [(0%nat, MBloch a PXY)] []) = Err EOpenGraph.
Proof. vm_compute. reflexivity. Qed.
