(** Property theorems about flows: determinism (C18) and well-formedness checks
    (C42). *)
From Coq Require Import Reals Arith List Bool Lia Permutation.
From Verif Require Import Cplx Mat2 NSet Fundamentals CliffordDb Clifford Measure QState Layer Pattern Standardize FlowSem FlowDet OpenGraph FlowSpec Flow FlowWF FlowPat OGMap.
Import ListNotations.

(** ** C42: check_well_formed decides the axioms, whatever the iteration order
    of sets: it returns normally iff the flow satisfies its definition, and
    raises a FlowError otherwise *)
Theorem C42_pauli_flow_check_decides : forall it f, iter_ok it -> og_ok (pf_og f) -> NoDup (dkeys (pf_cf f)) ->
  (pf_check it f = Ok tt /\ pauli_flow (pf_og f) (pf_cf f) (pf_layers f)) \/
  (pf_check it f = Err EFlow /\ ~ pauli_flow (pf_og f) (pf_cf f) (pf_layers f)).
Proof. intros it f H1 H2 H3. exact (pf_check_decides it H1 f H2 H3). Qed.
Print Assumptions C42_pauli_flow_check_decides.
Theorem C42_gflow_check_decides : forall it f, iter_ok it -> og_ok (pf_og f) -> NoDup (dkeys (pf_cf f)) -> planar (pf_og f) ->
  (gf_check it f = Ok tt /\ gflow (pf_og f) (pf_cf f) (pf_layers f)) \/
  (gf_check it f = Err EFlow /\ ~ gflow (pf_og f) (pf_cf f) (pf_layers f)).
Proof. intros it f H1 H2 H3 H4. exact (gf_check_decides it H1 f H2 H3 H4). Qed.
Print Assumptions C42_gflow_check_decides.
Theorem C42_causal_flow_check_decides : forall it f, iter_ok it -> og_ok (pf_og f) -> NoDup (dkeys (pf_cf f)) -> planar (pf_og f) ->
  (cf_check it f = Ok tt /\ causal_flow (pf_og f) (pf_cf f) (pf_layers f)) \/
  (cf_check it f = Err EFlow /\ ~ causal_flow (pf_og f) (pf_cf f) (pf_layers f)).
Proof. intros it f H1 H2 H3 H4. exact (cf_check_decides it H1 f H2 H3 H4). Qed.
Print Assumptions C42_causal_flow_check_decides.
(** every causal flow is a gflow, every gflow is a Pauli flow *)
Theorem C42_flow_hierarchy : forall f, og_ok (pf_og f) ->
  (causal_flow (pf_og f) (pf_cf f) (pf_layers f) -> gflow (pf_og f) (pf_cf f) (pf_layers f)) /\
  (planar (pf_og f) -> gflow (pf_og f) (pf_cf f) (pf_layers f) -> pauli_flow (pf_og f) (pf_cf f) (pf_layers f)).
Proof. intros f H. split; [apply causal_gflow; auto|apply gflow_pauli]. Qed.
Print Assumptions C42_flow_hierarchy.

(** ** C18 *)
(** what the user gets from corrections [xz] of open graph [og]: a pattern for
    every compatible order (and when no order is given), and every pattern
    obtained runs, has the inputs and outputs of the graph, is deterministic and
    implements the linear map of the graph *)
Definition yields_deterministic (it : iter) (og : opengraph) (ls : list nset) (xz : xzcorr) : Prop :=
  (exists p, xz_to_pattern it xz None = Ok p) /\
  (forall o, order_compat og ls o -> dkeys (og_meas og) <> [] -> exists p, xz_to_pattern it xz (Some o) = Ok p) /\
  (forall order p, xz_to_pattern it xz order = Ok p ->
     p_in p = og_in og /\ p_out p = og_out og /\ check_runnability p = Ok tt /\ deterministic p /\ implements p og).
Lemma det_yields it og cf ls xz : iter_ok it -> og_ok og -> simple (og_graph og) -> pauli_flow og cf ls -> flow_corr og cf ls xz ->
  yields_deterministic it og ls xz.
Proof.
  intros H1 H2 H3 H4 H5. pose proof H5 as (E1 & E2 & _). split; [|split].
  - destruct (total_order_ok og ls H2 (pfl_order _ _ _ H4) it xz H1 E1 E2) as (o & T & OC).
    apply (flow_pattern_exists it H1 og H2 cf ls H4 xz H5 None o T OC). auto.
  - intros o OC N. apply (flow_pattern_exists it H1 og H2 cf ls H4 xz H5 (Some o) o eq_refl OC). auto.
  - intros order p E. destruct (flow_det_pattern it H1 og H2 H3 cf ls H4 xz H5 order p E) as (A & B & D & F). split; auto. split; auto.
    split; [apply check_runnability_spec; auto|]. split; auto. eapply flow_implements; eauto.
Qed.
Theorem C18_pauli_flow_deterministic : forall it f, iter_ok it -> og_ok (pf_og f) -> simple (og_graph (pf_og f)) -> NoDup (dkeys (pf_cf f)) ->
  pf_check it f = Ok tt -> exists xz, pf_to_xz it f = Ok xz /\ yields_deterministic it (pf_og f) (pf_layers f) xz.
Proof.
  intros it f H1 H2 H3 H4 H5. destruct (pf_check_decides it H1 f H2 H4) as [[_ P]|[K _]]; [|congruence].
  destruct (pf_to_xz_corr it H1 f (pfl_order _ _ _ P) (pfl_cf _ _ _ P)) as (xz & E & XC). exists xz. split; auto. eapply det_yields; eauto.
Qed.
Print Assumptions C18_pauli_flow_deterministic.
Theorem C18_gflow_deterministic : forall it f, iter_ok it -> og_ok (pf_og f) -> simple (og_graph (pf_og f)) -> NoDup (dkeys (pf_cf f)) -> planar (pf_og f) ->
  gf_check it f = Ok tt -> exists xz, gf_to_xz f = Ok xz /\ yields_deterministic it (pf_og f) (pf_layers f) xz.
Proof.
  intros it f H1 H2 H3 H4 HP H5. destruct (gf_check_decides it H1 f H2 H4 HP) as [[_ P]|[K _]]; [|congruence].
  destruct (gf_to_xz_corr f H4 P) as (xz & E & XC). exists xz. split; auto. eapply det_yields; eauto. apply gflow_pauli; auto.
Qed.
Print Assumptions C18_gflow_deterministic.
Theorem C18_causal_flow_deterministic : forall it f, iter_ok it -> og_ok (pf_og f) -> simple (og_graph (pf_og f)) -> NoDup (dkeys (pf_cf f)) -> planar (pf_og f) ->
  cf_check it f = Ok tt -> exists xz, cf_to_xz f = Ok xz /\ yields_deterministic it (pf_og f) (pf_layers f) xz.
Proof.
  intros it f H1 H2 H3 H4 HP H5. destruct (cf_check_decides it H1 f H2 H4 HP) as [[_ P]|[K _]]; [|congruence].
  destruct (cf_to_xz_corr f H4 P) as (xz & E & XC). exists xz. split; auto. eapply det_yields; eauto. apply gflow_pauli, causal_gflow; auto.
Qed.
Print Assumptions C18_causal_flow_deterministic.
(** a global phase changes no probability *)
Theorem C18_equal_probability : forall p psi o o', deterministic p -> (forall n, prepared_in (p_seq p) n -> indep n psi) ->
  forall a, Cnorm2 (den (seq_ops o (p_seq p)) psi a) = Cnorm2 (den (seq_ops o' (p_seq p)) psi a).
Proof.
  intros p psi o o' D H a. destruct (D o o') as (c & Hc & E). rewrite (E psi H). unfold cscale. rewrite Cnorm2_mul. unfold phase in Hc. rewrite Hc. ring.
Qed.
Print Assumptions C18_equal_probability.

(** *** Non-vacuity *)
Fixpoint ndb (l : list nat) : bool := match l with [] => true | x :: l => negb (lmem x l) && ndb l end.
Lemma ndb_spec l : ndb l = true <-> NoDup l.
Proof.
  induction l as [|x l IH]; cbn; [split; auto; constructor|]. rewrite andb_true_iff, negb_true_iff, <- not_true_iff_false, lmem_In, IH. split.
  - intros []. constructor; auto.
  - intros H. inversion H; auto.
Qed.
Lemma graph_ok_dec g : ndb (g_nodes g) = true -> NoDup (map edge_norm (g_edges g)) ->
  forallb (fun e => lmem (fst e) (g_nodes g) && lmem (snd e) (g_nodes g)) (g_edges g) = true -> graph_ok g.
Proof.
  intros A B D. split; [apply ndb_spec; auto|]. split; auto. intros e He. rewrite forallb_forall in D. specialize (D e He). apply andb_prop in D. rewrite !lmem_In in D. auto.
Qed.
Lemma og_ok_dec og : graph_ok (og_graph og) -> ndb (dkeys (og_meas og)) = true -> ndb (dkeys (og_cliff og)) = true ->
  og_make (og_graph og) (og_in og) (og_out og) (og_meas og) (og_cliff og) = Ok og -> og_ok og.
Proof.
  intros A B D E. destruct og as [g i o m c]. cbn in *. destruct (og_make_spec g i o m c A) as [[K _]|[_ K]]; auto; try (apply ndb_spec; auto). congruence.
Qed.
(** a line 0 - 1 - 2 with an input and an output *)
Definition line_og (ma mb : measurement) : opengraph :=
  OG (Graph [0; 1; 2] [(0, 1); (1, 2)]) [0] [2] [(0, ma); (1, mb)] [(2, K6)].
Lemma line_ok ma mb : og_ok (line_og ma mb) /\ simple (og_graph (line_og ma mb)).
Proof.
  split.
  - apply og_ok_dec; try reflexivity. apply graph_ok_dec; try reflexivity. repeat constructor; cbn; intuition discriminate.
  - intros e [<-|[<-|[]]]; cbn; discriminate.
Qed.
(** causal flow (and gflow) of the line with two XY measurements *)
Definition line_cf (a b : R) : pflow := PF (line_og (MBloch a PXY) (MBloch b PXY)) [(0, sing 1); (1, sing 2)] [sing 2; sing 1; sing 0].
Example line_cf_ok a b : cf_check elems (line_cf a b) = Ok tt /\ gf_check elems (line_cf a b) = Ok tt /\ pf_check elems (line_cf a b) = Ok tt.
Proof. vm_compute. auto. Qed.
Example line_cf_planar a b : planar (pf_og (line_cf a b)).
Proof. intros [|[|n]] m; cbn; intros [= <-]; eauto. Qed.
(** a Pauli flow that is not a gflow: the X-measured node is in the same layer *)
Definition line_pf (a : R) : pflow := PF (line_og (MBloch a PXY) (MPauli AX Minus)) [(0, sing 1); (1, sing 2)] [sing 2; of_list [0; 1]].
Example line_pf_ok a : pf_check elems (line_pf a) = Ok tt.
Proof. vm_compute. auto. Qed.
Example line_pf_pattern a : exists xz p, pf_to_xz elems (line_pf a) = Ok xz /\ xz_to_pattern elems xz None = Ok p /\ length (p_seq p) = 9 /\
  length (elems (dgets (xz_z xz) 0)) = 1 /\ length (elems (dgets (xz_x xz) 1)) = 1.
Proof.
  destruct (line_ok (MBloch a PXY) (MPauli AX Minus)) as [H1 H2].
  destruct (C18_pauli_flow_deterministic elems (line_pf a) iter_elems H1 H2) as (xz & E & (p & Ep) & _).
  { apply ndb_spec. reflexivity. }
  { apply line_pf_ok. }
  exists xz, p. split; auto. split; auto. revert Ep. vm_compute in E. injection E as <-. intros Ep. vm_compute in Ep. injection Ep as <-. auto.
Qed.
(** a gflow that is not a causal flow: a YZ measurement on a neighbour *)
Definition star_gf (a : R) : pflow := PF (OG (Graph [0; 1] [(0, 1)]) [0] [0] [(1, MBloch a PYZ)] []) [(1, sing 1)] [sing 0; sing 1].
Example star_gf_ok a : gf_check elems (star_gf a) = Ok tt /\ cf_check elems (star_gf a) = Err EFlow.
Proof. vm_compute. auto. Qed.
(** an order that is not compatible is rejected *)
Example line_bad_order a b : exists xz, cf_to_xz (line_cf a b) = Ok xz /\ xz_to_pattern elems xz (Some [1; 0]) = Err EXZ.
Proof. eexists. split; [vm_compute; reflexivity|]. vm_compute. reflexivity. Qed.
(** wrong layers are rejected *)
Example line_bad_layers a b : cf_check elems (PF (pf_og (line_cf a b)) (pf_cf (line_cf a b)) [sing 2; sing 0; sing 1]) = Err EFlow.
Proof. vm_compute. reflexivity. Qed.

(** The hypothesis [simple] is needed and not enforced by OpenGraph: a graph
    with a self-loop is accepted, has a (g)flow accepted by check_well_formed,
    and yields a pattern entangling a node with itself. *)
Theorem C18_self_loop_refuted : exists g ms og f xz p,
  og_make g [] [] ms [] = Ok og /\ pf_og f = og /\ gf_check elems f = Ok tt /\ gf_to_xz f = Ok xz /\ xz_to_pattern elems xz None = Ok p /\ In (CE 0 0) (p_seq p).
Proof.
  exists (Graph [0] [(0, 0)]), [(0, MBloch 0 PXZ)]. eexists. exists (PF (OG (Graph [0] [(0, 0)]) [] [] [(0, MBloch 0 PXZ)] []) [(0, sing 0)] [sing 0]).
  eexists. eexists. split; [vm_compute; reflexivity|]. split; [reflexivity|]. split; [vm_compute; reflexivity|]. split; [vm_compute; reflexivity|].
  split; [vm_compute; reflexivity|]. cbn. auto.
Qed.
Print Assumptions C18_self_loop_refuted.
