(** C36: graphix.graphsim.GraphState.  Specification: the state of a decorated
    graph is the one [to_statevector] builds (|+> on every node, CZ on every edge,
    then Z, S, H according to the attributes of the nodes); measuring node [u]
    along the axis [ax] with outcome [r] applies <ax,r| to that node. *)
From Coq Require Import Reals Lra Arith List Bool Lia Permutation Setoid Morphisms FunctionalExtensionality.
From Verif Require Import Cplx Mat2 Fundamentals CliffordDb Clifford NSet Measure QState Pattern Layer Standardize OpenGraph FlowSem FlowWF GState GraphSim GraphSimThm.
Import ListNotations.
Local Arguments app_op : simpl never.

(** * Specification *)
(** distinct nodes; edges are distinct, join distinct nodes of the graph: what networkx stores when no self loop is added *)
Definition simple_graph (g : gs) : Prop :=
  NoDup (gs_nodes g) /\ (forall e, In e (gs_edges g) -> In (fst e) (gs_nodes g) /\ In (snd e) (gs_nodes g)) /\
  NoDup (map edge_norm (gs_edges g)) /\ (forall e, In e (gs_edges g) -> fst e <> snd e).
Lemma simple_ok g : simple_graph g <-> gs_ok g.
Proof. unfold simple_graph, gs_ok, es_in, es_ok. tauto. Qed.
(** the state vector of the graph *)
Definition statevec (g : gs) : state := den (gs_ops g) (fun _ => C1).
Definition same_up_to_phase (a b : state) : Prop := exists c, phase c /\ a = cscale c b.
Definition gate_on (U : mat2) (u : nat) (psi : state) : state := app_op (OApp1 U u) psi.
(** <ax, r| on node [u] *)
Definition project (ax : axis) (r : bool) (u : nat) (psi : state) : state := app_op (OMeas (mvec (MPauli ax Plus) r) u) psi.
Definition neighbours (g : gs) (u v : nat) : Prop := In (u, v) (gs_edges g) \/ In (v, u) (gs_edges g).
Lemma nb_neighbours g u v : mem v (gs_nb g u) = true <-> neighbours g u v.
Proof. unfold gs_nb, nb. rewrite mem_nbh. reflexivity. Qed.
Definition isolated (g : gs) (u : nat) : Prop := forall v, ~ neighbours g u v.
Lemma isolated_dec g u : is_empty (gs_nb g u) = true <-> isolated g u.
Proof.
  split.
  - intros H v K. apply nb_neighbours in K. rewrite (is_empty_mem _ H) in K. discriminate.
  - intros H. apply is_empty_spec, nset_ext. intros v. rewrite mem_empty. apply not_true_iff_false. rewrite nb_neighbours. apply H.
Qed.

(** * Gates *)
Theorem C36_gates : forall it g u, iter_ok it -> simple_graph g -> In u (gs_nodes g) ->
  (simple_graph (g_h g u) /\ gs_nodes (g_h g u) = gs_nodes g /\ same_up_to_phase (statevec (g_h g u)) (gate_on mH u (statevec g))) /\
  (simple_graph (g_z it g u) /\ gs_nodes (g_z it g u) = gs_nodes g /\ same_up_to_phase (statevec (g_z it g u)) (gate_on mZ u (statevec g))).
Proof.
  intros it g u IT O Hu. apply simple_ok in O. rewrite !simple_ok. split.
  - pose proof (h_ok g u O Hu) as K. split; [apply K|]. split; [apply K|]. rewrite <- clifford_mat_H. apply gate_state; auto.
  - pose proof (z_ok it IT g u O Hu) as K. split; [apply K|]. split; [apply K|]. rewrite <- clifford_mat_Z. apply gate_state; auto.
Qed.
(** [s] applies S, except on a hollow node with a loop and a positive sign that has a neighbour *)
Definition s_safe (g : gs) (u : nat) : Prop :=
  ~ (mem u (gs_hollow g) = true /\ mem u (gs_loop g) = true /\ mem u (gs_sign g) = false) \/ isolated g u.
Lemma s_safe_bug g u : s_safe g u -> s_bug g u = false \/ is_empty (gs_nb g u) = true.
Proof.
  intros [H|H]; [left|right; apply isolated_dec; auto]. apply not_true_iff_false. unfold s_bug. rewrite !andb_true_iff, negb_true_iff. tauto.
Qed.
Theorem C36_gate_s_partial : forall it g u, iter_ok it -> simple_graph g -> In u (gs_nodes g) ->
  simple_graph (g_s it g u) /\ gs_nodes (g_s it g u) = gs_nodes g /\
  (s_safe g u -> same_up_to_phase (statevec (g_s it g u)) (gate_on mS u (statevec g))) /\
  (** otherwise X is applied on top of S *)
  (~ s_safe g u -> same_up_to_phase (statevec (g_s it g u)) (gate_on mX u (gate_on mS u (statevec g)))).
Proof.
  intros it g u IT O Hu. apply simple_ok in O. rewrite !simple_ok. pose proof (s_ok_gen it IT g u O Hu) as K. split; [apply K|]. split; [apply K|]. split.
  - intros H. rewrite <- clifford_mat_S. apply gate_state; auto. apply s_ok; auto. apply s_safe_bug; auto.
  - intros H. destruct (s_bug g u) eqn:E.
    + pose proof (gate_state g u _ _ O K) as (c & Hc & G). unfold same_up_to_phase, statevec. fold (gstate (g_s it g u)) (gstate g). rewrite G.
      assert (Q : [OApp1 (clifford_mat (clifford_mul K1 K4)) u] ≈ [OApp1 mS u; OApp1 mX u]).
      { rewrite app1_fuse. apply app1_meqp. rewrite <- clifford_mat_X, <- clifford_mat_S. apply meqp_sym, clifford_mul_mat. }
      destruct Q as (d & Hd & Q). specialize (Q (gstate g)). cbn [den] in Q. rewrite Q. exists (c * d)%C. split; [apply phase_mul; auto|]. rewrite cscale_cscale. auto.
    + exfalso. apply H. left. intros (A & B & D). unfold s_bug in E. rewrite A, B, D in E. discriminate.
Qed.
(** the witness: two nodes joined by an edge, node 0 hollow with a loop.  On two
    nodes in this state, [s] leaves |0+>.. the state X S psi, which is not S psi *)
Definition bug_graph : gs := GS [0; 1] [(0, 1)] sempty (sing 0) (sing 0).
Lemma bug_simple : simple_graph bug_graph.
Proof.
  split; [repeat constructor; cbn; intuition discriminate|]. split; [intros e [<-|[]]; cbn; auto|]. split; [cbn; repeat constructor; auto|]. intros e [<-|[]]. discriminate.
Qed.
Definition asg2 (a b : bool) : asg := fun n => match n with O => a | S O => b | _ => false end.
Lemma bug_state : exists q, q <> C0 /\ forall a b, statevec bug_graph (asg2 a b) = (q * (C1 + Ci * sgn (xorb a b)))%C.
Proof.
  exists (RtoC (/ sqrt 2) * hk 2)%C. split.
  - intros E. assert (P : (0 < / sqrt 2)%R) by (apply Rinv_0_lt_compat, sqrt_lt_R0; lra). apply (hk_norm 2). transitivity (RtoC (sqrt 2) * (RtoC (/ sqrt 2) * hk 2))%C; [|rewrite E; ring].
    transitivity ((RtoC (sqrt 2 * / sqrt 2)) * hk 2)%C; [|rewrite RtoC_mul; ring]. rewrite Rinv_r by (apply Rgt_not_eq, sqrt_lt_R0; lra). cbn. apply C_eq; cbn; ring.
  - intros a b. unfold statevec, gs_ops. rewrite den_app. cbn [bug_graph gs_nodes]. rewrite preps_const. cbn [length]. generalize (hk 2). intros q.
    change (den (cz_ops [(0, 1)] ++ [] ++ [OApp1 mS 0] ++ [OApp1 mH 0]) (fun _ => (q * C1)%C) (asg2 a b) = (RtoC (/ sqrt 2) * q * (C1 + Ci * sgn (xorb a b)))%C).
    cbn [cz_ops map app den fst snd]. unfold app_op, mH, mS. generalize (RtoC (/ sqrt 2)). intros h. unfold upd, asg2. cbn. destruct a, b; cbn; ring.
Qed.
Lemma bug_s : ~ same_up_to_phase (statevec (g_s elems bug_graph 0)) (gate_on mS 0 (statevec bug_graph)).
Proof.
  intros H.
  pose proof bug_simple as O. destruct (C36_gate_s_partial elems bug_graph 0 iter_elems O (or_introl eq_refl)) as (_ & _ & _ & K). destruct K as (d & Hd & K).
  { intros [K|K]; [apply K; auto|]. apply (K 1). left; left; auto. }
  destruct H as (c & Hc & H). rewrite K in H. destruct bug_state as (q & Hq & V). remember (statevec bug_graph) as psi.
  assert (E : forall b, (d * (Ci * (q * (C1 + Ci * sgn (xorb true b)))) = c * (q * (C1 + Ci * sgn (xorb false b))))%C).
  { intros b. pose proof (f_equal (fun phi => phi (asg2 false b)) H) as E. cbv beta in E. unfold cscale, gate_on, app_op in E. cbn [asg2] in E.
    assert (U : forall x y, upd (asg2 x b) 0 y = asg2 y b) by (intros; extensionality n; destruct n as [|[|n]]; reflexivity).
    assert (A0 : forall x, asg2 x b 0 = x) by reflexivity. rewrite ?U, ?A0 in E. rewrite ?U, ?A0, ?V in E. cbn [mX mS mget m00 m01 m10 m11] in E.
    revert E. generalize (sgn (xorb false b)) (sgn (xorb true b)). intros x y E. transitivity (d * (C0 * (C1 * (q * (C1 + Ci * x)) + C0 * (q * (C1 + Ci * y))) + C1 * (C0 * (q * (C1 + Ci * x)) + Ci * (q * (C1 + Ci * y)))))%C; [ring|]. rewrite E. ring. }
  pose proof (E false) as E0. pose proof (E true) as E1. cbn [xorb sgn] in E0, E1.
  assert (E2 : (d * q * (C1 + Ci) = c * q * (C1 + Ci))%C). { transitivity (d * (Ci * (q * (C1 + Ci * - C1))))%C; [|rewrite E0; ring]. transitivity (d * q * (Ci - Ci * Ci))%C; [rewrite Ci_sq|]; ring. }
  assert (E3 : (d * q * (Ci - C1) = - (c * q * (Ci - C1)))%C). { transitivity (d * (Ci * (q * (C1 + Ci * C1))))%C; [|rewrite E1; ring]. transitivity (d * q * (Ci + Ci * Ci))%C; [rewrite Ci_sq|]; ring. }
  assert (E4 : (d * q = C0)%C).
  { destruct (d * q)%C as [x y], (c * q)%C as [x' y']. pose proof (f_equal re E2) as R2. pose proof (f_equal im E2) as I2. pose proof (f_equal re E3) as R3. pose proof (f_equal im E3) as I3. cbn in R2, I2, R3, I3. apply C_eq; cbn; lra. }
  apply Hq. transitivity (Cconj d * (d * q))%C; [transitivity ((Cconj d * d) * q)%C; [rewrite phase_inv' by auto; ring|ring]|]. rewrite E4. ring.
Qed.
Theorem C36_gate_s_refuted : exists it g u, iter_ok it /\ simple_graph g /\ In u (gs_nodes g) /\ ~ same_up_to_phase (statevec (g_s it g u)) (gate_on mS u (statevec g)).
Proof. exists elems, bug_graph, 0. split; [apply iter_elems|]. split; [apply bug_simple|]. split; [left; auto|]. apply bug_s. Qed.

(** * Equivalent graphs *)
Theorem C36_equivalent_graphs : forall it g, iter_ok it -> simple_graph g ->
  (forall u, match g_e1 it g u with
   | Ok g' => In u (gs_nodes g) /\ mem u (gs_loop g) = true /\ simple_graph g' /\ gs_nodes g' = gs_nodes g /\ same_up_to_phase (statevec g') (statevec g) /\ (mem u (gs_hollow g') = negb (mem u (gs_hollow g)))
   | Err EKey => ~ In u (gs_nodes g)
   | Err EValue => In u (gs_nodes g) /\ mem u (gs_loop g) = false
   | Err _ => False end) /\
  (forall u v, match g_e2 it g u v with
   | Ok g' => neighbours g u v /\ mem u (gs_loop g) = false /\ mem v (gs_loop g) = false /\ simple_graph g' /\ gs_nodes g' = gs_nodes g /\ same_up_to_phase (statevec g') (statevec g) /\
              mem u (gs_hollow g') = negb (mem u (gs_hollow g)) /\ mem v (gs_hollow g') = negb (mem v (gs_hollow g))
   | Err EValue => ~ neighbours g u v \/ mem u (gs_loop g) = true \/ mem v (gs_loop g) = true
   | Err _ => False end).
Proof.
  intros it g IT O. apply simple_ok in O. split.
  - intros u. destruct (has g u) eqn:Hu.
    + apply has_In in Hu. destruct (mem u (gs_loop g)) eqn:El.
      * destruct (e1_ok it IT g u O Hu El) as (g' & E & S & _ & H & _). rewrite E. rewrite simple_ok. do 2 (split; auto). split; [apply S|]. split; [apply S|]. split; [apply same_state; auto|]. rewrite H, Nat.eqb_refl. apply xorb_true_r.
      * unfold g_e1, at_node. rewrite (proj2 (has_In g u)), El by auto. cbn. auto.
    + unfold g_e1, at_node. rewrite Hu. rewrite <- has_In, Hu. discriminate.
  - intros u v. destruct (mem v (gs_nb g u)) eqn:Huv.
    + assert (Hu : In u (gs_nodes g)) by (destruct O as (_ & B & _); apply nb_neighbours in Huv; destruct Huv as [K|K]; apply B in K; apply K).
      assert (UV : u <> v) by (intros <-; unfold gs_nb in Huv; rewrite nb_self in Huv; [discriminate|apply O]).
      destruct (mem u (gs_loop g)) eqn:Eu; [|destruct (mem v (gs_loop g)) eqn:Ev].
      * unfold g_e2. rewrite Huv, Eu. cbn. auto.
      * unfold g_e2. rewrite Huv, Eu, Ev. cbn. auto.
      * destruct (e2_ok it IT g u v O Hu Huv Eu Ev) as (g' & E & S & _ & H & _). rewrite E, simple_ok. split; [apply nb_neighbours; auto|]. do 2 (split; auto). split; [apply S|]. split; [apply S|]. split; [apply same_state; auto|].
        rewrite !H, !Nat.eqb_refl, orb_true_r, !xorb_true_r. auto.
    + unfold g_e2. rewrite Huv. cbn [negb]. left. rewrite <- nb_neighbours, Huv. discriminate.
Qed.
(** equivalent_fill_node: same state, never raises on a node of the graph; 1 when the
    node is hollow and isolated (and stays hollow), 2 when it is filled and isolated, 0 otherwise,
    and then the node is filled.  (A hollow isolated node with a loop is filled by E1 and gives 0.) *)
Theorem C36_fill_node : forall it g u, iter_ok it -> simple_graph g -> In u (gs_nodes g) ->
  exists g' r, g_fill it g u = Ok (g', r) /\ simple_graph g' /\ gs_nodes g' = gs_nodes g /\ same_up_to_phase (statevec g') (statevec g) /\
  (r = 1 <-> isolated g u /\ mem u (gs_hollow g) = true /\ mem u (gs_loop g) = false) /\
  (r = 2 <-> isolated g u /\ mem u (gs_hollow g) = false) /\
  (r <> 1 -> mem u (gs_hollow g') = false) /\ r <= 2.
Proof.
  intros it g u IT O Hu. apply simple_ok in O. destruct (fill_ok it IT g u O Hu) as (g' & r & E & S & H). exists g', r. rewrite simple_ok. split; auto. split; [apply S|]. split; [apply S|]. split; [apply same_state; auto|].
  rewrite <- isolated_dec. destruct H as [(-> & A & B)|[(-> & -> & A & B & D)|(-> & -> & A & B)]].
  - split; [split; [discriminate|]|split; [split; [discriminate|]|split; auto]].
    + intros (I1 & I2 & I3). exfalso. unfold g_fill, at_node in E. rewrite (proj2 (has_In g u)), I2, I3 in E by auto. rewrite (proj2 (it_nil it IT _) I1) in E. discriminate.
    + intros (I1 & I2). exfalso. destruct (B I2). congruence.
  - split; [tauto|]. split; [split; [discriminate|intros [_ K]; congruence]|]. split; [congruence|lia].
  - split; [split; [discriminate|intros (_ & K & _); congruence]|]. split; [tauto|]. auto.
Qed.

(** * Measurements *)
(** [measured g ax r u g' pr]: outcome [r] has probability [pr] and leaves the state of [g'] on the other nodes *)
Definition measured (g : gs) (ax : axis) (r : bool) (u : nat) (g' : gs) (pr : R) : Prop :=
  gs_nodes g' = filter (fun n => negb (n =? u)%nat) (gs_nodes g) /\ simple_graph g' /\
  exists c, Cnorm2 c = pr /\ project ax r u (statevec g) = cscale c (statevec g').
Lemma measured_of q g u ax r g' : gs_ok g -> In u (gs_nodes g) -> meas_ok q g u (mvec (MPauli ax Plus) r) g' -> measured g ax r u g' (q / 2).
Proof. intros O Hu M. split; [apply M|]. split; [apply simple_ok, M|]. apply (meas_state q); auto. Qed.
Theorem C36_measure : forall it g u choice, iter_ok it -> simple_graph g -> In u (gs_nodes g) ->
  (exists g' r pr, measure_z it g u choice = Ok (g', r) /\ measured g AZ r u g' pr /\ (pr = 1 / 2 \/ pr = 1)%R /\ (~ isolated g u -> r = choice)) /\
  (exists g' r pr, measure_y it g u choice = Ok (g', r) /\ measured g AY r u g' pr /\ (pr = 1 / 2 \/ pr = 1)%R /\ (~ isolated g u -> r = choice)) /\
  (exists g' r pr, measure_x it g u choice = Ok (g', r) /\ measured g AX r u g' pr /\ (pr = 1 / 2 \/ pr = 1)%R /\ (pr = (1 / 2)%R -> r = choice) /\ (~ isolated g u -> r = choice)).
Proof.
  intros it g u choice IT O Hu. apply simple_ok in O.
  assert (NI : ~ isolated g u -> is_empty (gs_nb g u) = false) by (rewrite <- isolated_dec; apply not_true_iff_false).
  split; [|split].
  - destruct (mz_ok it IT g u choice O Hu) as (g' & r & q & E & M & Q & R). exists g', r, (q / 2)%R. split; auto. split; [apply measured_of; auto|]. split; [destruct Q as [-> | ->]; lra|]. intros H. apply R; auto.
  - destruct (my_ok it IT g u choice O Hu) as (g' & r & q & E & M & Q & R). exists g', r, (q / 2)%R. split; auto. split; [apply measured_of; auto|]. split; [destruct Q as [-> | ->]; lra|]. intros H. apply R; auto.
  - destruct (mx_ok it IT g u choice O Hu) as (g' & r & q & E & M & Q & R & T). exists g', r, (q / 2)%R. split; auto. split; [apply measured_of; auto|]. split; [destruct Q as [-> | ->]; lra|]. split; [intros H; apply T; lra|]. intros H. apply T, R; auto.
Qed.
(** the documented "choice of measurement outcome" is ignored by measure_z on a
    filled isolated node although both outcomes are possible *)
Theorem C36_measure_z_choice_refuted : exists it g u, iter_ok it /\ simple_graph g /\ In u (gs_nodes g) /\
  (forall choice, exists g', measure_z it g u choice = Ok (g', false)) /\
  (forall r, exists g', measured g AZ r u g' (1 / 2)).
Proof.
  exists elems, (gs_new [0] []), 0. assert (O : simple_graph (gs_new [0] [])).
  { split; [repeat constructor; auto|]. split; [intros e []|]. split; [constructor|intros e []]. }
  split; [apply iter_elems|]. split; auto. split; [left; auto|]. split.
  - intros choice. eexists. unfold measure_z, g_fill, at_node. cbn. destruct choice; vm_compute; reflexivity.
  - intros r. exists (remove_node (gs_new [0] []) 0). apply (measured_of 1); [apply simple_ok; auto|left; auto|]. apply meas_solid; auto. 
    + left; auto.
    + intros n. cbn [remove_node gs_sign gs_new]. assert (H : mem n (gs_nb (gs_new [0] []) 0) = false). { apply not_true_iff_false. rewrite nb_neighbours. intros [[]|[]]. } fold (gs_new [0] []). rewrite H, andb_false_r. auto.
Qed.

(** * Local Cliffords *)
(** extract_vops: one Clifford per node, and the state is the bare graph followed by them *)
Theorem C36_extract_vops : forall g, simple_graph g ->
  map fst (extract_vops g) = gs_nodes g /\
  same_up_to_phase (statevec g) (den (map (fun p => OApp1 (clifford_mat (snd p)) (fst p)) (extract_vops g)) (statevec (gs_new (gs_nodes g) (gs_edges g)))).
Proof.
  intros g O. apply simple_ok in O. split.
  - unfold extract_vops. rewrite map_map. cbn. apply map_id.
  - assert (O' : gs_ok (gs_new (gs_nodes g) (gs_edges g))) by exact O.
    destruct (gs_ops_gops g O) as (c & Hc & K). destruct (gs_ops_gops _ O') as (d & Hd & K'). unfold statevec. rewrite K, K', den_scale.
    assert (E : map (fun p : nat * clifford => OApp1 (clifford_mat (snd p)) (fst p)) (extract_vops g) = clayer (gs_nodes g) (gs_vop g)) by (unfold extract_vops; rewrite map_map; reflexivity).
    rewrite E. unfold gops. rewrite !den_app. cbn [gs_new gs_nodes gs_edges].
    assert (L : clayer (gs_nodes g) (gs_vop (gs_new (gs_nodes g) (gs_edges g))) ≈ []).
    { apply layer_id. intros n _. rewrite gs_vop3. cbn [gs_new gs_sign gs_loop gs_hollow]. rewrite mem_empty. cbn. apply clifford_mat_I. }
    destruct L as (e & He & L). rewrite L. cbn [den]. rewrite den_scale. exists (c * Cconj d * Cconj e)%C. split; [repeat apply phase_mul; auto; apply phase_conj; auto|].
    rewrite !cscale_cscale. f_equal. transitivity (c * (Cconj d * d) * (Cconj e * e))%C; [rewrite !phase_inv' by auto; ring|ring].
Qed.
(** the gates [apply_vops] applies, in order *)
Definition vop_gates (vops : list (nat * clifford)) : list (nat * clifford) := flat_map (fun p => map (fun c => (fst p, c)) (rev (clifford_hsz (snd p)))) vops.
(** every S of the run is applied to a node on which [s] is right *)
Fixpoint s_safe_run (it : iter) (g : gs) (l : list (nat * clifford)) : Prop :=
  match l with
  | [] => True
  | (n, c) :: l => (c = K4 -> s_safe g n) /\ forall g', apply_gate it n g c = Ok g' -> s_safe_run it g' l
  end.
Lemma gate_run it (IT : iter_ok it) l : forall g, gs_ok g -> (forall n c, In (n, c) l -> In n (gs_nodes g) /\ (c = K3 \/ c = K4 \/ c = K6)) -> s_safe_run it g l ->
  exists g', rfold (fun g p => apply_gate it (fst p) g (snd p)) l g = Ok g' /\ gs_ok g' /\ gs_nodes g' = gs_nodes g /\ same_up_to_phase (gstate g') (den (map (fun p => OApp1 (clifford_mat (snd p)) (fst p)) l) (gstate g)).
Proof.
  induction l as [|[n c] l IH]; intros g O Hl HS.
  - exists g. split; auto. split; auto. split; auto. exists C1. split; [apply phase_1|]. rewrite cscale_1. auto.
  - cbn [rfold fst snd]. destruct (Hl n c) as [Hn Hc]; [left; auto|]. destruct HS as [HS1 HS2].
    assert (G : exists g1, apply_gate it n g c = Ok g1 /\ gate_ok g n c g1).
    { unfold apply_gate, at_node. rewrite (proj2 (has_In g n)) by auto. destruct Hc as [-> | [-> | ->]]; eexists; (split; [reflexivity|]); [apply z_ok|apply s_ok|apply h_ok]; auto. apply s_safe_bug; auto. }
    destruct G as (g1 & E & G). rewrite E. destruct (IH g1) as (g' & E' & O' & N' & (d & Hd & Q)).
    + apply G.
    + intros m k Hk. rewrite (proj1 G). apply Hl. right; auto.
    + apply HS2; auto.
    + exists g'. split; auto. split; auto. split; [rewrite N'; apply G|]. destruct (gate_state g n c g1 O G) as (e & He & Q'). exists (d * e)%C. split; [apply phase_mul; auto|]. rewrite Q, Q'. cbn [map den fst snd]. rewrite den_scale, cscale_cscale. auto.
Qed.
Lemma apply_vops_gates it vops : forall g, apply_vops it g vops = rfold (fun g p => apply_gate it (fst p) g (snd p)) (vop_gates vops) g.
Proof.
  induction vops as [|p vops IH]; intros g; auto. unfold apply_vops. cbn [rfold]. cbn [vop_gates flat_map]. fold (vop_gates vops). rewrite rfold_app.
  assert (E : forall l g, rfold (apply_gate it (fst p)) l g = rfold (fun g q => apply_gate it (fst q) g (snd q)) (map (fun c => (fst p, c)) l) g).
  { induction l as [|c l IHl]; intros g0; auto. cbn [map rfold fst snd]. destruct (apply_gate it (fst p) g0 c); auto. }
  unfold apply_vop at 1. rewrite E. destruct (rfold _ (map (fun c => (fst p, c)) (rev (clifford_hsz (snd p)))) g); auto. apply IH.
Qed.
Lemma vop_gates_ops vops : map (fun p => OApp1 (clifford_mat (snd p)) (fst p)) (vop_gates vops) ≈ map (fun p : nat * clifford => OApp1 (clifford_mat (snd p)) (fst p)) vops.
Proof.
  induction vops as [|[n c] vops IH]; [reflexivity|]. cbn [vop_gates flat_map map fst snd]. fold (vop_gates vops). rewrite map_app, map_map. cbn [fst snd].
  change (OApp1 (clifford_mat c) n :: ?x) with ([OApp1 (clifford_mat c) n] ++ x). transitivity ([OApp1 (clifford_mat c) n] ++ map (fun p : nat * clifford => OApp1 (clifford_mat (snd p)) (fst p)) vops); [|reflexivity].
  apply app_leq; auto. etransitivity; [|apply app1_meqp, clifford_hsz_mat]. generalize (clifford_hsz c). intros l. induction l as [|a l IHl]; [symmetry; apply app1_id|].
  cbn [rev]. rewrite map_app, IHl. cbn [map]. cbn [app]. apply app1_fuse.
Qed.
Theorem C36_apply_vops_partial : forall it g vops, iter_ok it -> simple_graph g -> (forall n c, In (n, c) vops -> In n (gs_nodes g) /\ c <> K0) -> s_safe_run it g (vop_gates vops) ->
  exists g', apply_vops it g vops = Ok g' /\ simple_graph g' /\ gs_nodes g' = gs_nodes g /\
  same_up_to_phase (statevec g') (den (map (fun p => OApp1 (clifford_mat (snd p)) (fst p)) vops) (statevec g)).
Proof.
  intros it g vops IT O Hv HS. apply simple_ok in O. rewrite apply_vops_gates. destruct (gate_run it IT (vop_gates vops) g O) as (g' & E & O' & N' & (c & Hc & Q)); auto.
  - intros n c H. apply in_flat_map in H. destruct H as ([m k] & H1 & H2). apply in_map_iff in H2. destruct H2 as (c' & [= <- <-] & H2). cbn [fst snd] in H2. apply in_rev in H2. destruct (Hv _ _ H1) as [A B]. split; auto.
    destruct k; cbn in H2; intuition (subst; auto).
  - exists g'. rewrite simple_ok. split; auto. split; auto. split; auto. destruct (vop_gates_ops vops) as (d & Hd & K). exists (c * d)%C. split; [apply phase_mul; auto|]. unfold statevec. fold (gstate g') (gstate g). rewrite Q, K, cscale_cscale. auto.
Qed.
(** the identity Clifford raises RuntimeError, although it is a local Clifford like the others *)
Theorem C36_apply_vops_identity_refuted : forall it g n, apply_vops it g [(n, K0)] = Err ERuntime.
Proof. reflexivity. Qed.
(** on a bare graph state, the local Clifford number 15 (S H S) is applied wrongly *)
Definition pair_graph : gs := gs_new [0; 1] [(0, 1)].
Theorem C36_apply_vops_refuted : exists it g n c g', iter_ok it /\ simple_graph g /\ In n (gs_nodes g) /\ apply_vops it g [(n, c)] = Ok g' /\
  ~ same_up_to_phase (statevec g') (den [OApp1 (clifford_mat c) n] (statevec g)).
Proof.
  assert (O : simple_graph pair_graph) by exact bug_simple. assert (O' := proj1 (simple_ok _) O).
  exists elems, pair_graph, 0, K15, (g_s elems bug_graph 0). split; [apply iter_elems|]. split; auto. split; [left; auto|]. split; [vm_compute; reflexivity|]. intros H.
  pose proof (s_ok elems iter_elems pair_graph 0 O' (or_introl eq_refl) (or_introl eq_refl)) as G1. pose proof (h_ok _ 0 (proj1 (proj2 G1)) (or_introl eq_refl)) as G2.
  pose proof (gate_trans _ _ _ _ _ _ G1 G2) as G. assert (E : g_h (g_s elems pair_graph 0) 0 = bug_graph) by (vm_compute; reflexivity). rewrite E in G.
  destruct (gate_state _ _ _ _ O' G) as (c & Hc & Q). 
  assert (K : [OApp1 (clifford_mat (clifford_mul K6 K4)) 0; OApp1 mS 0] ≈ [OApp1 (clifford_mat K15) 0]).
  { rewrite app1_fuse. apply app1_meqp. rewrite <- clifford_mat_S. apply (clifford_mul_mat K4 (clifford_mul K6 K4)). }
  destruct K as (d & Hd & K). specialize (K (gstate pair_graph)). cbn [den] in K.
  pose proof bug_simple as OB. destruct H as (e & He & H).
  assert (X : same_up_to_phase (statevec (g_s elems bug_graph 0)) (gate_on mS 0 (statevec bug_graph))).
  { exists (e * Cconj d * Cconj c)%C. split; [repeat apply phase_mul; auto; apply phase_conj; auto|]. rewrite H. unfold statevec, gate_on. fold (gstate bug_graph) (gstate pair_graph). rewrite Q, app_op_scale, K. cbn [den]. rewrite !cscale_cscale. f_equal.
    transitivity (e * (Cconj d * d) * (Cconj c * c))%C; [rewrite !phase_inv' by auto; ring|ring]. }
  clear - X. revert X. apply bug_s.
Qed.

(** * Non-trivial instances *)
(** a triangle with a tail; node 0 hollow, node 1 hollow with a loop, node 2 negative *)
Definition ex_graph : gs := GS [0; 1; 2; 3] [(0, 1); (1, 2); (0, 2); (2, 3)] (sing 2) (sing 1) (sadd 1 (sing 0)).
Example ex_simple : simple_graph ex_graph.
Proof.
  split; [repeat constructor; cbn; intuition discriminate|]. split; [intros e [<-|[<-|[<-|[<-|[]]]]]; cbn; auto 8|]. split; [cbn; repeat constructor; cbn; intuition discriminate|]. intros e [<-|[<-|[<-|[<-|[]]]]]; discriminate.
Qed.
(** every operation really changes the graph *)
Example ex_e1 : match g_e1 elems ex_graph 1 with Ok g' => gs_edges g' = [(0, 1); (1, 2); (2, 3)] | _ => False end.
Proof. vm_compute. reflexivity. Qed.
Example ex_e2 : match g_e2 elems ex_graph 0 2 with Ok g' => mem 3 (gs_nb g' 0) = true /\ mem 3 (gs_nb g' 2) = false | _ => False end.
Proof. vm_compute. auto. Qed.
Example ex_fill : match g_fill elems ex_graph 0 with Ok (g', r) => r = 0 /\ mem 0 (gs_hollow g') = false | _ => False end.
Proof. vm_compute. auto. Qed.
Example ex_measure : match measure_x elems ex_graph 2 true with Ok (g', r) => r = true /\ gs_nodes g' = [0; 1; 3] /\ gs_edges g' <> [] | _ => False end.
Proof. vm_compute. do 2 (split; [reflexivity|]). discriminate. Qed.
Example ex_measure_y : match measure_y elems ex_graph 1 true with Ok (g', r) => r = true /\ gs_nodes g' = [0; 2; 3] | _ => False end.
Proof. vm_compute. auto. Qed.
Example ex_safe : s_safe ex_graph 0 /\ ~ s_safe ex_graph 1.
Proof.
  split.
  - left. vm_compute. intuition discriminate.
  - intros [H|H]; [apply H; vm_compute; auto|]. apply (H 0). right. cbn. auto.
Qed.
Example ex_vops : s_safe_run elems pair_graph (vop_gates [(0, K20); (1, K13)]).
Proof. cbn. repeat match goal with |- _ /\ _ => split | |- K4 = K4 -> _ => intros _ | |- ?a = ?b -> _ => intros [=] | |- forall g', Ok _ = Ok g' -> _ => intros ? [= <-] | |- True => exact I | |- s_safe _ _ => left; vm_compute; intuition discriminate | |- forall g', _ => let g := fresh "g" in let H := fresh "H" in intros g H; vm_compute in H; injection H as <- end. Qed.

Print Assumptions C36_gates. Print Assumptions C36_gate_s_partial. Print Assumptions C36_gate_s_refuted. Print Assumptions C36_equivalent_graphs. Print Assumptions C36_fill_node.
Print Assumptions C36_measure. Print Assumptions C36_measure_z_choice_refuted. Print Assumptions C36_extract_vops. Print Assumptions C36_apply_vops_partial. Print Assumptions C36_apply_vops_identity_refuted. Print Assumptions C36_apply_vops_refuted.
