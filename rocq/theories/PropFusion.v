(** C54: the fusion network of a graph (graphix/extraction.py).

    Specification, from FusionThm.v: [simple_adj] (a networkx graph without self-loops), [nb] (adjacency),
    [is_star], [is_chain], [at_most]. *)
From Coq Require Import ZArith Arith List Bool Lia Permutation.
From Verif Require Import NSet Pattern Standardize OpenGraph NodeIndex Fusion FusionThm.
Import ListNotations.

(** the edge {u, w} is in the cluster *)
Definition has_edge (c : cluster) (u w : nat) : Prop := In (u, w) (cl_edges c) \/ In (w, u) (cl_edges c).
(** a cluster is a star within the GHZ limit (or of at most three nodes), or a row of at least four nodes within the linear limit
    (a row of one node appears only under a linear limit below two) *)
Definition shape (mg ml : option nat) (c : cluster) : Prop :=
  is_star c /\ (at_most (length (cl_nodes c)) mg \/ (length (cl_nodes c) <= 3)%nat)
  \/ is_chain c /\ ((4 <= length (cl_nodes c))%nat /\ at_most (length (cl_nodes c)) ml \/ length (cl_nodes c) = 1 /\ below 1 ml = false).
Record decomposition (a : adj) (r : list cluster) : Prop := {
  (** every edge of the graph is in a cluster and conversely *)
  dc_edges : forall u w, nb a u w <-> exists c, In c r /\ has_edge c u w;
  (** no edge is in two clusters, nor twice in a cluster *)
  dc_once : NoDup (map edge_norm (flat_map cl_edges r));
  (** the nodes of the clusters are the nodes of the graph *)
  dc_nodes : forall v, In v (dkeys a) <-> exists c, In c r /\ In v (cl_nodes c) }.

Lemma edge_norm_In u w l : In (edge_norm (u, w)) (map edge_norm l) <-> In (u, w) l \/ In (w, u) l.
Proof.
  rewrite in_map_iff. split.
  - intros ([x y] & E & H). apply edge_norm_eq in E. destruct E as [[-> ->]|[-> ->]]; auto.
  - intros [H|H]; [exists (u, w); auto|exists (w, u); split; auto; apply edge_norm_swap].
Qed.
Lemma chain_nodes l : forall u w, In (u, w) (chain l) -> In u l /\ In w l.
Proof.
  induction l as [|x l IH]; intros u w H; [destruct H|]. destruct l as [|y l]; [destruct H|]. change (chain (x :: y :: l)) with ((x, y) :: chain (y :: l)) in H. destruct H as [[= <- <-]|H]; [split; [left|right; left]; auto|]. destruct (IH _ _ H). split; right; auto.
Qed.
Lemma okc_edge_nodes a mg ml st c u w : okc a mg ml st c -> In (u, w) (cl_edges c) -> In u (cl_nodes c) /\ In w (cl_nodes c).
Proof.
  intros [_ [[(_ & rt & lv & E1 & _ & E2) _]|[[_ E] _]]] H.
  - rewrite E2 in H. apply in_map_iff in H. destruct H as (i & [= <- <-] & H). rewrite E1. split; [left|right]; auto.
  - rewrite E in H. apply chain_nodes; auto.
Qed.
Lemma okc_shape a mg ml st c : okc a mg ml st c -> shape mg ml c /\ (st -> cl_type c = LINEAR -> NoDup (cl_nodes c)).
Proof.
  intros [_ [[H1 H2]|[H1 (H2 & H3 & H4 & H5 & H6 & H7)]]].
  - split; [left; auto|]. intros _ T. destruct H1 as [E _]. congruence.
  - split; [right; split; auto|auto]. destruct (Nat.eq_dec (length (cl_nodes c)) 1) as [E|N]; [right; auto|]. left. assert (length (cl_nodes c) <> 0) by (destruct (cl_nodes c); [congruence|discriminate]). split; [lia|]. destruct H3; [auto|congruence].
Qed.
Lemma finish a mg ml st r b : Inv a b (flat_map cl_edges r) 0 -> Forall (okc a mg ml st) r -> (forall v, In v (isolated a) -> In (ghz [v] v) r) -> decomposition a r.
Proof.
  intros HI HO HS. rewrite Forall_forall in HO.
  assert (NO : forall u w, ~ nb b u w).
  { intros u w H. pose proof (iv_ne _ _ _ _ HI) as T. assert (Z0 : total b = 0) by lia. unfold total in Z0. pose proof (proj1 (sum_0 _ _) Z0 u (nb_key _ _ _ H)) as L. cbv beta in L. unfold nb in H. destruct (nbl b u); [destruct H|discriminate]. }
  assert (ED : forall u w, nb a u w <-> exists c, In c r /\ has_edge c u w).
  { intros u w. rewrite (iv_all _ _ _ _ HI u w). rewrite edge_norm_In. split.
    - intros [H|H]; [destruct (NO _ _ H)|]. rewrite !in_flat_map in H. destruct H as [(c & H1 & H2)|(c & H1 & H2)]; exists c; split; auto; [left|right]; auto.
    - intros (c & H1 & [H2|H2]); right; [left|right]; apply in_flat_map; eauto. }
  constructor; auto.
  - apply HI.
  - intros v. split.
    + intros Hv. destruct (nbl a v) as [|w l] eqn:E.
      * exists (ghz [v] v). split; [|left; auto]. apply HS. apply filter_In. rewrite E. auto.
      * assert (N : nb a v w) by (unfold nb; rewrite E; left; auto). apply ED in N. destruct N as (c & H1 & H2). exists c. split; auto. destruct H2 as [H2|H2]; eapply okc_edge_nodes in H2; eauto; tauto.
    + intros (c & H1 & H2). apply (HO c H1); auto.
Qed.
Lemma network a mg ml fuel (st : Prop) : simple_adj a -> (st -> forall v, at_most (S (length (nbl a v))) mg) ->
  match graph_to_fusion_network fuel a mg ml with
  | Some (Ok r) => decomposition a r /\ Forall (shape mg ml) r /\ (st -> Forall (fun c => cl_type c = LINEAR -> NoDup (cl_nodes c)) r)
  | Some (Err _) => False
  | None => below 1 ml = true -> st -> (number_of_edges a <= fuel)%nat -> False
  end.
Proof.
  intros SA HM. unfold graph_to_fusion_network. destruct (star_fold a mg SA (map fst (sort_deg (big a))) _ (init_inv a mg SA)) as (s & E & HS & L & D). rewrite E.
  assert (HD : st -> degs2 (fs_a s)).
  { intros Hst k. destruct (le_lt_dec (length (nbl a k)) 2) as [Q|Q]; [specialize (L k); cbn [fs_a] in L; lia|]. apply (D (HM Hst)). apply in_map_iff. exists (k, length (nbl a k)). split; auto. apply sort_deg_In. unfold big. apply in_map_iff. exists k. split; auto. apply filter_In. split; [|apply Nat.ltb_lt; auto]. destruct (nbl a k) as [|z zs] eqn:EZ; [cbn in Q; lia|]. apply (nb_key a k z). unfold nb. rewrite EZ. left; auto. }
  assert (NE : (fs_ne s <= Z.of_nat (number_of_edges a))%Z).
  { destruct HS as [HI _]. pose proof (iv_ne _ _ _ _ HI) as T1. rewrite (number_of_edges_ups a SA). pose proof (ups_half a SA) as T2. assert (T3 : total (fs_a s) <= total a); [|lia]. unfold total. rewrite (iv_keys _ _ _ _ HI). cbn [fs_a] in L. clear - L. induction (dkeys a) as [|k ks IH]; cbn [map list_sum fold_right]; auto. specialize (L k). unfold list_sum in IH. lia. }
  pose proof (rounds_ok a mg ml st SA fuel s (sinv_finv _ _ _ _ _ HS HD)) as R.
  destruct (rounds fuel ml s) as [[r|e]|] eqn:ER; auto.
  - destruct R as [(b & HI) HO]. split; [|split].
    + eapply finish; [exact HI|exact HO|]. intros v Hv. destruct (rounds_keeps _ _ _ _ ER) as [r1 ->]. destruct (star_fold_keeps _ _ _ _ E) as [r2 R2]. rewrite R2. cbn [fs_r]. apply in_or_app. left. apply in_or_app. left. apply in_map_iff. exists v. auto.
    + eapply Forall_impl; [|exact HO]. intros c Hc. eapply okc_shape; eauto.
    + intros Hst. eapply Forall_impl; [|exact HO]. intros c Hc. eapply okc_shape; eauto.
  - intros B Hst HF. apply R; auto. lia.
Qed.

(** Whatever the limits: if [graph_to_fusion_network] returns, it raises no error, its clusters partition the edges of the graph,
    cover its nodes, and have the stated shapes. *)
Theorem C54_partition : forall fuel a mg ml out, simple_adj a -> graph_to_fusion_network fuel a mg ml = Some out ->
  exists r, out = Ok r /\ decomposition a r /\ Forall (shape mg ml) r.
Proof.
  intros fuel a mg ml out SA H. pose proof (network a mg ml fuel False SA (fun F => match F with end)) as N. rewrite H in N. destruct out as [r|e]; [|destruct N]. exists r. tauto.
Qed.
(** With a GHZ limit above every degree (or none) and a linear limit of at least two (or none), it returns within [number_of_edges]
    turns of its main loop, and its linear clusters are simple paths. *)
Theorem C54_terminates : forall a mg ml, simple_adj a -> (forall v, at_most (S (length (nbl a v))) mg) -> (match ml with None => True | Some m => (2 <= m)%nat end) ->
  exists r, (forall fuel, (number_of_edges a <= fuel)%nat -> graph_to_fusion_network fuel a mg ml = Some (Ok r))
    /\ decomposition a r /\ Forall (shape mg ml) r /\ Forall (fun c => cl_type c = LINEAR -> (4 <= length (cl_nodes c))%nat /\ NoDup (cl_nodes c)) r.
Proof.
  intros a mg ml SA HM HL. assert (B : below 1 ml = true) by (destruct ml as [m|]; auto; unfold below; apply Nat.ltb_lt; lia).
  pose proof (network a mg ml (number_of_edges a) True SA (fun _ => HM)) as N. destruct (graph_to_fusion_network (number_of_edges a) a mg ml) as [[r|e]|] eqn:E; [| destruct N|destruct (N B I (le_n _))].
  destruct N as (N1 & N2 & N3). exists r. split; [|split; [auto|split; [auto|]]].
  - intros fuel HF. unfold graph_to_fusion_network in *. destruct (rfold _ _ _) as [s|]; [|discriminate]. clear - E HF. revert s E HF. generalize (number_of_edges a). intros n. revert fuel.
    induction n as [|n IH]; intros fuel s E HF; cbn [rounds] in E.
    + destruct (fs_ne s =? 0)%Z eqn:Q; [|discriminate]. destruct fuel; cbn [rounds]; rewrite Q; auto.
    + destruct fuel as [|fuel]; [lia|]. cbn [rounds]. destruct (fs_ne s =? 0)%Z eqn:Q; auto. destruct (round ml s) as [s'|]; [|discriminate]. apply IH; auto. lia.
  - apply Forall_forall. intros c Hc T. rewrite Forall_forall in N2, N3. split; [|apply (N3 I); auto]. destruct (N2 c Hc) as [[[T' _] _]|[_ [[Q _]|[_ Q]]]]; [congruence|auto|congruence].
Qed.
(** The nodes fused between two different clusters are their common nodes, each once. *)
Theorem C54_fusion_nodes : forall c1 c2, (forall n, In n (fusion_nodes c1 c2) <-> cl_eqb c1 c2 = false /\ In n (cl_nodes c1) /\ In n (cl_nodes c2)) /\ NoDup (fusion_nodes c1 c2).
Proof.
  intros c1 c2. unfold fusion_nodes. destruct (cl_eqb c1 c2); (split; [|try constructor]).
  - intros n. split; [intros []|intros [H _]; discriminate].
  - intros n. rewrite filter_In, nodup_In, lmem_In. tauto.
  - apply NoDup_filter, NoDup_nodup.
Qed.
(** and equality of clusters is: same type, same nodes, same undirected edges *)
Theorem C54_equal : forall c1 c2, cl_eqb c1 c2 = true <-> cl_type c1 = cl_type c2 /\ (forall n, In n (cl_nodes c1) <-> In n (cl_nodes c2)) /\ (forall u w, has_edge c1 u w <-> has_edge c2 u w).
Proof.
  assert (SB : forall l1 l2, subset_b l1 l2 = true <-> forall n, In n l1 -> In n l2).
  { intros l1 l2. unfold subset_b. rewrite forallb_forall. split; intros H n Hn; apply lmem_In; auto. }
  assert (EM : forall u w l, emem (u, w) l = true <-> In (u, w) l \/ In (w, u) l).
  { intros u w l. rewrite <- edge_norm_In. unfold emem. rewrite existsb_exists. split; [intros (x & H1 & H2); apply edge_eqb_eq in H2; subst; auto|]. intros H. exists (edge_norm (u, w)). split; auto. apply edge_eqb_eq. auto. }
  assert (EF : forall l1 l2, forallb (fun e => emem e l2) l1 = true <-> forall u w, In (u, w) l1 \/ In (w, u) l1 -> In (u, w) l2 \/ In (w, u) l2).
  { intros l1 l2. rewrite forallb_forall. split.
    - intros H u w [K|K]; apply H in K; apply EM in K; tauto.
    - intros H [u w] K. apply EM. auto. }
  intros c1 c2. unfold cl_eqb, has_edge. rewrite !andb_true_iff, !SB, !EF. assert (T : (match cl_type c1, cl_type c2 with GHZ, GHZ | LINEAR, LINEAR => true | _, _ => false end) = true <-> cl_type c1 = cl_type c2) by (destruct (cl_type c1), (cl_type c2); split; congruence || auto).
  rewrite T. split.
  - intros [[[[H1 H2] H3] H4] H5]. split; auto. split; [intros n; split; auto|]. intros u w; split; auto.
  - intros (H1 & H2 & H3). repeat split; auto; intros; apply H2 || apply H3; auto.
Qed.

(** * Where the limits break it *)
Lemma stuck ml s : (fs_ne s <> 0)%Z -> round ml s = Ok s -> forall fuel, rounds fuel ml s = None.
Proof. intros N R fuel. induction fuel as [|fuel IH]; cbn [rounds]; (destruct (Z.eqb_spec (fs_ne s) 0); [congruence|]); auto. rewrite R. auto. Qed.
Definition complete5 : adj := map (fun v => (v, filter (fun w => negb (w =? v)%nat) (seq 0 5))) (seq 0 5).
Definition edge2 : adj := [(0, [1]); (1, [0])].
Fixpoint distinct (l : list nat) : bool := match l with [] => true | x :: l' => negb (lmem x l') && distinct l' end.
Lemma distinct_NoDup l : distinct l = true -> NoDup l.
Proof. induction l as [|x l IH]; cbn [distinct]; [constructor|]. rewrite andb_true_iff, negb_true_iff. intros [H1 H2]. constructor; auto. intros K. apply lmem_In in K. congruence. Qed.
Definition simple_b (a : adj) : bool :=
  distinct (dkeys a) && forallb (fun v => distinct (nbl a v) && negb (lmem v (nbl a v)) && forallb (fun w => lmem v (nbl a w)) (nbl a v)) (dkeys a).
Lemma simple_b_ok a : simple_b a = true -> simple_adj a.
Proof.
  unfold simple_b. rewrite andb_true_iff, forallb_forall. intros [H1 H2].
  assert (K : forall v w, nb a v w -> distinct (nbl a v) = true /\ ~ In v (nbl a v) /\ forall w, In w (nbl a v) -> In v (nbl a w)).
  { intros v w H. specialize (H2 v (nb_key _ _ _ H)). rewrite !andb_true_iff, negb_true_iff, forallb_forall in H2. destruct H2 as [[A B] D]. split; auto. split; [intros X; apply lmem_In in X; congruence|]. intros x Hx. apply lmem_In. auto. }
  constructor.
  - apply distinct_NoDup; auto.
  - intros v. destruct (nbl a v) as [|w l] eqn:E; [constructor|]. rewrite <- E. apply distinct_NoDup. apply (K v w). unfold nb. rewrite E. left; auto.
  - intros v H. exact (proj1 (proj2 (K v v H)) H).
  - intros u w H. exact (proj2 (proj2 (K u w H)) w H).
Qed.
Lemma complete5_simple : simple_adj complete5.
Proof. apply simple_b_ok. reflexivity. Qed.
(** [max_ghz] = 2 on the complete graph with five nodes: the main loop never ends *)
Theorem C54_ghz_limit_refuted : simple_adj complete5 /\ forall fuel, graph_to_fusion_network fuel complete5 (Some 2) None = None.
Proof.
  split; [exact complete5_simple|]. unfold graph_to_fusion_network.
  destruct (rfold (star_step (Some 2)) (map fst (sort_deg (big complete5))) _) as [s|] eqn:E; vm_compute in E; [|discriminate]. injection E as <-.
  intros [|fuel]; [reflexivity|]. cbn [rounds]. match goal with |- context [round None ?x] => set (s0 := x) end.
  destruct (round None s0) as [s1|] eqn:E1; vm_compute in E1; [|discriminate]. injection E1 as <-. apply stuck; [cbn; lia|]. reflexivity.
Qed.
(** [max_lin] = 1 on a single edge: the main loop never ends and the list of clusters grows *)
Theorem C54_lin_limit_refuted : simple_adj edge2 /\ forall fuel, graph_to_fusion_network fuel edge2 None (Some 1) = None.
Proof.
  split; [apply simple_b_ok; reflexivity|]. unfold graph_to_fusion_network. cbv [rfold star_step sort_deg big edge2 isolated dkeys map filter nbl dget Nat.eqb Nat.ltb Nat.leb length fold_left fst].
  change (Z.of_nat _) with 1%Z. intros fuel. generalize (@nil cluster). induction fuel as [|fuel IH]; intros r; [reflexivity|].
  cbn [rounds fs_ne Z.eqb]. unfold round. cbn. apply IH.
Qed.
(** a GHZ limit below three is not respected *)
Definition path3 : adj := [(0, [1]); (1, [0; 2]); (2, [1])].
Theorem C54_ghz_size_refuted : simple_adj path3 /\ forall fuel, (1 <= fuel)%nat -> graph_to_fusion_network fuel path3 (Some 2) None = Some (Ok [Cl GHZ [1; 0; 2] [(1, 0); (1, 2)]]).
Proof. split; [apply simple_b_ok; reflexivity|]. intros [|fuel] H; [lia|]. destruct fuel; reflexivity. Qed.
(** under a GHZ limit a linear cluster can pass twice through a node *)
Definition lasso : adj := [(0, [3; 1; 2; 4; 5]); (1, [0; 2]); (2, [0; 1]); (3, [0]); (4, [0]); (5, [0])].
Theorem C54_linear_refuted : simple_adj lasso /\ forall fuel, (1 <= fuel)%nat ->
  graph_to_fusion_network fuel lasso (Some 3) None = Some (Ok [Cl GHZ [0; 5; 4] [(0, 5); (0, 4)]; Cl LINEAR [3; 0; 2; 1; 0] [(3, 0); (0, 2); (2, 1); (1, 0)]]).
Proof. split; [apply simple_b_ok; reflexivity|]. intros [|fuel] H; [lia|]. destruct fuel; reflexivity. Qed.
(** a graph with a self-loop raises KeyError *)
Theorem C54_loop_refuted : forall fuel mg ml, below 1 ml = true -> (1 <= fuel)%nat -> graph_to_fusion_network fuel [(0, [0])] mg ml = Some (Err EKey).
Proof.
  intros [|fuel] mg ml B H; [lia|]. unfold graph_to_fusion_network. cbn -[below]. unfold round. cbn -[below]. unfold lin_step. cbn -[below]. rewrite B. reflexivity.
Qed.

(** The hypotheses are met by the complete graph with five nodes, without limit and with linear limit two: *)

(** The hypotheses are met by the complete graph with five nodes, and by a square with an isolated node and a row, with limits 3 and 5: *)
Example C54_example_complete : graph_to_fusion_network 10 complete5 None None =
  Some (Ok [Cl GHZ [0; 4; 3; 2; 1] [(0, 4); (0, 3); (0, 2); (0, 1)]; Cl GHZ [1; 4; 3; 2] [(1, 4); (1, 3); (1, 2)]; Cl GHZ [2; 3; 4] [(2, 3); (2, 4)]; Cl GHZ [3; 4] [(3, 4)]]).
Proof. reflexivity. Qed.
Definition mixed : adj := [(0, [1; 3]); (1, [0; 2]); (2, [1; 3]); (3, [2; 0]); (7, []); (8, [9]); (9, [8; 10]); (10, [9; 11]); (11, [10])].
Example C54_example_mixed : simple_adj mixed /\ (forall v, at_most (S (length (nbl mixed v))) (Some 3)) /\ (2 <= 5)%nat
  /\ graph_to_fusion_network 7 mixed (Some 3) (Some 5) = Some (Ok [Cl GHZ [7] []; Cl LINEAR [8; 9; 10; 11] [(8, 9); (9, 10); (10, 11)]; Cl GHZ [0; 1; 3] [(0, 1); (0, 3)]; Cl GHZ [2; 1; 3] [(2, 1); (2, 3)]]).
Proof.
  split; [apply simple_b_ok; reflexivity|]. split; [|split; [lia|reflexivity]]. intros v. unfold at_most. do 12 (destruct v as [|v]; [cbn; lia|]). cbn. lia.
Qed.
Example C54_example_fusion : fusion_nodes (ghz [0; 1; 3] 0) (ghz [2; 1; 3] 2) = [1; 3] /\ fusion_nodes (ghz [0; 1; 3] 0) (ghz [0; 3; 1] 0) = [].
Proof. split; reflexivity. Qed.
Print Assumptions C54_partition.
Print Assumptions C54_terminates.
Print Assumptions C54_fusion_nodes.
Print Assumptions C54_equal.
Print Assumptions C54_ghz_limit_refuted.
Print Assumptions C54_lin_limit_refuted.
Print Assumptions C54_ghz_size_refuted.
Print Assumptions C54_linear_refuted.
Print Assumptions C54_loop_refuted.
