(** Property theorems: construction, neighbourhoods and composition of open graphs (C39). *)
From Coq Require Import Reals Lra Arith List Bool Lia Permutation FunctionalExtensionality.
From Verif Require Import Cplx Mat2 NSet QState Fundamentals CliffordDb Clifford Measure Layer Pattern Standardize OpenGraph FlowWF OGMap Space PropFlow Compose.
Import ListNotations.

(** ** C39 *)
(** *** Specification of the composition *)
(** the node [u] of [self] that the node [v] of [other] is merged with *)
Definition merged_pair (og1 : opengraph) (mapping : dict nat) (v u : nat) : Prop := dget mapping v = Some u /\ In u (g_nodes (og_graph og1)).
Definition is_merged (og1 : opengraph) (mapping : dict nat) (u : nat) : Prop := exists v, merged_pair og1 mapping v u.
Definition is_mergedb (og1 : opengraph) (mapping : dict nat) (u : nat) : bool := lmem u (dvals mapping) && lmem u (g_nodes (og_graph og1)).
(** the ports of [self] that are not merged, or are ports of both, then the ports of [other] that are not merged *)
Definition ports (og1 : opengraph) (mapping mc : dict nat) (p1 p2 : list nat) : list nat :=
  filter (fun n => negb (is_mergedb og1 mapping n) || lmem n (map (rl mc) p2)) p1 ++
  filter (fun n => negb (is_mergedb og1 mapping n)) (map (rl mc) p2).
Record composed (og1 og2 : opengraph) (mapping : dict nat) (og : opengraph) (mc : dict nat) : Prop := {
  (** the complete relabelling: an injection of the nodes of [other] extending the
      mapping, with labels greater than all those in use for the other nodes *)
  cp_dom : forall v, In v (g_nodes (og_graph og2)) <-> exists u, dget mc v = Some u;
  cp_inj : forall v w u, dget mc v = Some u -> dget mc w = Some u -> v = w;
  cp_ext : forall v u, dget mapping v = Some u -> dget mc v = Some u;
  cp_fresh : forall v u, dget mc v = Some u -> dget mapping v = None ->
    (forall n, In n (g_nodes (og_graph og1)) -> n < u) /\ forall w n, dget mapping w = Some n -> n < u;
  (** nodes and edges *)
  cp_nodes : forall n, In n (g_nodes (og_graph og)) <-> In n (g_nodes (og_graph og1)) \/ exists v, dget mc v = Some n;
  cp_edges : forall a b, adjacent (og_graph og) a b <->
    adjacent (og_graph og1) a b \/ exists v w, adjacent (og_graph og2) v w /\ dget mc v = Some a /\ dget mc w = Some b;
  (** inputs and outputs, in order *)
  cp_in : og_in og = ports og1 mapping mc (og_in og1) (og_in og2);
  cp_out : og_out og = ports og1 mapping mc (og_out og1) (og_out og2);
  (** measurements *)
  cp_meas1 : forall n, ~ (exists v, dget mc v = Some n) -> dget (og_meas og) n = dget (og_meas og1) n;
  cp_meas2 : forall v n, dget mc v = Some n -> ~ In n (g_nodes (og_graph og1)) -> dget (og_meas og) n = dget (og_meas og2) v;
  cp_meas12 : forall v u, merged_pair og1 mapping v u -> dget (og_meas og) u =
    match dget (og_meas og1) u, dget (og_meas og2) v with
    | _, Some a => Some (match dget (og_cliff og1) u with Some c => meas_clifford a c | None => a end)
    | Some b, None => Some (match dget (og_cliff og2) v with Some c => meas_clifford b c | None => b end)
    | None, None => None
    end;
  (** output Cliffords *)
  cp_cl1 : forall n, ~ (exists v, dget mc v = Some n) -> dget (og_cliff og) n = dget (og_cliff og1) n;
  cp_cl2 : forall v n, dget mc v = Some n -> ~ In n (g_nodes (og_graph og1)) -> dget (og_cliff og) n = dget (og_cliff og2) v;
  cp_cl12 : forall v u, merged_pair og1 mapping v u -> In u (og_out og1) -> In v (og_out og2) -> dget (og_cliff og) u =
    match dget (og_cliff og1) u, dget (og_cliff og2) v with
    | Some c1, Some c2 => Some (clifford_mul c2 c1)
    | Some c1, None => Some c1
    | None, r => r
    end }.

(** *** Proofs *)
Lemma mul_K0_r c : clifford_mul c K0 = c.
Proof. destruct c; reflexivity. Qed.
Section CP.
Variables (og1 og2 : opengraph) (mapping : dict nat) (mx : nat).
Hypotheses (H1 : og_ok og1) (H2 : og_ok og2) (NK : NoDup (dkeys mapping)) (NV : NoDup (dvals mapping))
  (HK : forall v, In v (dkeys mapping) -> In v (g_nodes (og_graph og2)))
  (HX : rmax (g_nodes (og_graph og1) ++ dvals mapping) = Ok mx).
Let V1 := g_nodes (og_graph og1).
Let V2 := g_nodes (og_graph og2).
Let sq := sequential V2 mapping (S mx).
Let mc := mapping ++ sq.

Lemma sq_keys : dkeys sq = elems (sdiff (of_list V2) (of_list (dkeys mapping))).
Proof.
  unfold sq, sequential. cbv zeta. generalize (elems (sdiff (of_list V2) (of_list (dkeys mapping)))). intros l. unfold dkeys. generalize (S mx).
  induction l as [|a l IH]; intros k; cbn; auto. f_equal. apply IH.
Qed.
Lemma sq_vals : dvals sq = seq (S mx) (length (dvals sq)).
Proof.
  unfold sq, sequential. cbv zeta. generalize (elems (sdiff (of_list V2) (of_list (dkeys mapping)))). intros l. unfold dvals. generalize (S mx).
  induction l as [|a l IH]; intros k; cbn; auto. f_equal. apply IH.
Qed.
Lemma sq_key v : In v (dkeys sq) <-> In v V2 /\ ~ In v (dkeys mapping).
Proof. rewrite sq_keys, elems_spec, mem_sdiff, andb_true_iff, negb_true_iff, <- not_true_iff_false, !mem_of_list. tauto. Qed.
Lemma mc_NoDup : NoDup (dkeys mc).
Proof.
  unfold mc, dkeys. rewrite map_app. apply NoDup_app; auto.
  - change (map fst sq) with (dkeys sq). rewrite sq_keys. apply elems_NoDup.
  - intros v A B. apply sq_key in B. tauto.
Qed.
Lemma sq_gt n : In n (dvals sq) -> mx < n.
Proof. rewrite sq_vals, in_seq. lia. Qed.
Lemma mc_vNoDup : NoDup (dvals mc).
Proof.
  unfold mc, dvals. rewrite map_app. apply NoDup_app; auto.
  - change (map snd sq) with (dvals sq). rewrite sq_vals. apply seq_NoDup.
  - intros v A B. apply sq_gt in B. assert (K : v <= mx) by (apply (rmax_spec _ _ HX), in_or_app; right; auto). lia.
Qed.
Lemma mc_dom v : In v V2 <-> exists u, dget mc v = Some u.
Proof.
  transitivity (In v (dkeys mc)).
  - unfold mc, dkeys. rewrite map_app, in_app_iff. change (map fst sq) with (dkeys sq). rewrite sq_key.
    change (map fst mapping) with (dkeys mapping). split; [|intros [K|K]; [apply HK|]; tauto]. intros K. destruct (in_dec Nat.eq_dec v (dkeys mapping)); tauto.
  - split; [apply dget_keys|intros (u & E); apply dget_is_key in E; auto].
Qed.
Lemma mc_inj v w u : dget mc v = Some u -> dget mc w = Some u -> v = w.
Proof.
  intros A B. apply (dinv_get mc _ _ mc_NoDup mc_vNoDup) in A, B. congruence.
Qed.
Lemma mc_ext v u : dget mapping v = Some u -> dget mc v = Some u.
Proof. intros E. unfold mc. rewrite dget_app, E. auto. Qed.
Lemma mc_old v u : dget mc v = Some u -> u <= mx -> dget mapping v = Some u.
Proof.
  unfold mc. rewrite dget_app. destruct (dget mapping v); auto. intros E L. apply dget_In in E.
  assert (K : mx < u) by (apply sq_gt, dvals_In; eauto). lia.
Qed.
Lemma V1_le n : In n V1 -> n <= mx.
Proof. intros H. apply (rmax_spec _ _ HX), in_or_app. auto. Qed.
Lemma mc_fresh v u : dget mc v = Some u -> dget mapping v = None -> mx < u.
Proof. intros E N. destruct (le_lt_dec u mx) as [L|L]; auto. apply (mc_old v u E) in L. congruence. Qed.
Lemma rl_mc v : In v V2 -> dget mc v = Some (rl mc v).
Proof. intros H. apply mc_dom in H. destruct H as (u & E). unfold rl. rewrite E. auto. Qed.
Lemma rl_Some v u : dget mc v = Some u -> rl mc v = u.
Proof. unfold rl. intros ->. auto. Qed.
Lemma rl_inj v w : In v V2 -> In w V2 -> rl mc v = rl mc w -> v = w.
Proof. intros A B E. apply rl_mc in A, B. rewrite E in A. eapply mc_inj; eauto. Qed.
Lemma rl_NoDup l : NoDup l -> (forall v, In v l -> In v V2) -> NoDup (map (rl mc) l).
Proof.
  induction l as [|a l IH]; intros ND H; cbn [map]; [constructor|]. inversion ND; subst. constructor; [|apply IH; auto; intros; apply H; right; auto].
  intros K. apply in_map_iff in K. destruct K as (b & E & Hb). apply rl_inj in E; [subst; auto|apply H; right; auto|apply H; left; auto].
Qed.
Let merged := sinter (of_list (dvals mc)) (of_list V1).
Lemma merged_b n : mem n merged = is_mergedb og1 mapping n.
Proof.
  unfold merged, is_mergedb. apply eq_true_iff_eq. rewrite mem_sinter, !andb_true_iff, !mem_of_list, !lmem_In. fold V1.
  split; intros [A B]; split; auto.
  - apply dvals_In in A. destruct A as (k & A). apply In_dget in A; [|apply mc_NoDup]. apply mc_old in A; [|apply V1_le; auto]. apply dget_In in A. apply dvals_In. eauto.
  - unfold mc, dvals. rewrite map_app. apply in_or_app. auto.
Qed.
Lemma merged_spec n : mem n merged = true <-> is_merged og1 mapping n.
Proof.
  rewrite merged_b. unfold is_mergedb, is_merged, merged_pair. rewrite andb_true_iff, !lmem_In. split.
  - intros [A B]. apply dvals_In in A. destruct A as (k & A). apply In_dget in A; auto. exists k. auto.
  - intros (v & A & B). split; auto. apply dget_In in A. apply dvals_In. eauto.
Qed.
Lemma merged_rl v u : In v V2 -> (merged_pair og1 mapping v u <-> rl mc v = u /\ In u V1).
Proof.
  intros Hv. unfold merged_pair. split.
  - intros [A B]. split; auto. apply rl_Some, mc_ext; auto.
  - intros [A B]. split; auto. apply mc_old; [|apply V1_le; auto]. rewrite <- A. apply rl_mc; auto.
Qed.
Lemma ports_eq p1 p2 : merge_ports mc merged p1 p2 = ports og1 mapping mc p1 p2.
Proof. unfold merge_ports, ports. cbv zeta. f_equal; apply filter_ext; intros n; rewrite merged_b; auto. Qed.
Lemma ports_NoDup p1 p2 : NoDup p1 -> NoDup p2 -> (forall n, In n p1 -> In n V1) -> (forall n, In n p2 -> In n V2) -> NoDup (ports og1 mapping mc p1 p2).
Proof.
  intros N1 N2 I1 I2. unfold ports. apply NoDup_app; try apply NoDup_filter; auto.
  - apply rl_NoDup; auto.
  - intros n A B. apply filter_In in A, B. destruct A as [A _], B as [B C]. rewrite negb_true_iff in C. apply not_true_iff_false in C. apply C.
    rewrite <- merged_b, merged_spec. apply in_map_iff in B. destruct B as (v & E & Hv). exists v. apply (merged_rl v n); auto.
Qed.
Lemma ports_In p1 p2 n : In n (ports og1 mapping mc p1 p2) <->
  (In n p1 /\ (~ is_merged og1 mapping n \/ In n (map (rl mc) p2))) \/ (In n (map (rl mc) p2) /\ ~ is_merged og1 mapping n).
Proof.
  unfold ports. rewrite in_app_iff, !filter_In, orb_true_iff, !negb_true_iff, <- !not_true_iff_false, lmem_In, <- merged_b, merged_spec. tauto.
Qed.
Let g := g_compose (og_graph og1) (g_relabel mc (og_graph og2)).
Lemma g_nodes_In n : In n (g_nodes g) <-> In n V1 \/ In n (map (rl mc) V2).
Proof.
  unfold g, g_compose, g_relabel. cbn [g_nodes]. rewrite in_app_iff, filter_In, negb_true_iff, <- not_true_iff_false, lmem_In. fold V1 V2.
  destruct (in_dec Nat.eq_dec n V1); tauto.
Qed.
Lemma img_iff n : In n (map (rl mc) V2) <-> exists v, dget mc v = Some n.
Proof.
  rewrite in_map_iff. split.
  - intros (v & <- & H). exists v. apply rl_mc; auto.
  - intros (v & E). exists v. split; [apply rl_Some; auto|]. apply mc_dom; eauto.
Qed.
Lemma g_ok : graph_ok g.
Proof.
  destruct (ok_graph _ H1) as (A1 & A2 & A3), (ok_graph _ H2) as (B1 & B2 & B3). split; [|split].
  - unfold g, g_compose, g_relabel. cbn [g_nodes]. apply NoDup_app; auto.
    + apply NoDup_filter, rl_NoDup; auto.
    + intros n A B. apply filter_In in B. rewrite negb_true_iff, <- not_true_iff_false, lmem_In in B. tauto.
  - unfold g, g_compose, g_relabel. cbn [g_edges]. rewrite map_app. apply NoDup_app; auto.
    + set (es := map _ (g_edges (og_graph og2))). assert (K : NoDup (map edge_norm es)).
      { unfold es. clear es A1 A2 A3. revert B2 B3. generalize (g_edges (og_graph og2)). induction l as [|[a b] l IH]; intros B2 B3; cbn [map]; constructor.
        - inversion B2 as [|? ? C1 C2]; subst. intros K. apply C1. rewrite map_map in K. apply in_map_iff in K. destruct K as ([c d] & E & Hc). cbn [fst snd] in E.
          destruct (B3 (a, b) (or_introl eq_refl)) as [P1 P2], (B3 (c, d) (or_intror Hc)) as [P3 P4]. cbn [fst snd] in *.
          apply in_map_iff. exists (c, d). split; auto. apply edge_norm_inv in E. destruct E as [[E1 E2]|[E1 E2]]; apply rl_inj in E1; auto; apply rl_inj in E2; auto; subst; auto using edge_norm_sw.
        - apply IH; [inversion B2; auto|]. intros e He. apply B3. right; auto. }
      revert K. generalize es. clear. induction es as [|e es IH]; intros K; cbn [filter map] in *; auto. inversion K as [|? ? C1 C2]; subst.
      destruct (negb _); auto. cbn [map]. constructor; auto. intros Q. apply C1. apply in_map_iff in Q. destruct Q as (x & <- & Hx). apply filter_In in Hx. apply in_map; tauto.
    + intros e A B. apply in_map_iff in B. destruct B as (x & <- & Hx). apply filter_In in Hx. destruct Hx as [_ Hx]. rewrite negb_true_iff, <- not_true_iff_false, edge_in_spec in Hx. auto.
  - intros e He. unfold g, g_compose, g_relabel in He. cbn [g_edges] in He. rewrite !g_nodes_In. apply in_app_or in He. destruct He as [He|He].
    + apply A3 in He. tauto.
    + apply filter_In in He. destruct He as [He _]. apply in_map_iff in He. destruct He as ([a b] & <- & He). apply B3 in He. cbn [fst snd] in *. split; right; apply in_map; tauto.
Qed.
Lemma g_adj a b : adjacent g a b <-> adjacent (og_graph og1) a b \/ exists v w, adjacent (og_graph og2) v w /\ dget mc v = Some a /\ dget mc w = Some b.
Proof.
  destruct (ok_graph _ H2) as (B1 & B2 & B3). rewrite !adjacent_norm. unfold g, g_compose. cbn [g_edges]. rewrite map_app, in_app_iff.
  assert (X : In (edge_norm (a, b)) (map edge_norm (filter (fun e => negb (edge_in e (g_edges (og_graph og1)))) (g_edges (g_relabel mc (og_graph og2)))))
    <-> ~ In (edge_norm (a, b)) (map edge_norm (g_edges (og_graph og1))) /\ adjacent (g_relabel mc (og_graph og2)) a b).
  { rewrite adjacent_norm, !in_map_iff. split.
    - intros (x & E & Hx). apply filter_In in Hx. destruct Hx as [Hx N]. rewrite negb_true_iff, <- not_true_iff_false, edge_in_spec in N. rewrite E, in_map_iff in N. split; eauto.
    - intros [N (x & E & Hx)]. exists x. split; auto. apply filter_In. split; auto. rewrite negb_true_iff, <- not_true_iff_false, edge_in_spec, E, in_map_iff. auto. }
  assert (Y : adjacent (g_relabel mc (og_graph og2)) a b <-> exists v w, adjacent (og_graph og2) v w /\ dget mc v = Some a /\ dget mc w = Some b).
  { unfold adjacent at 1, g_relabel. cbn [g_edges]. rewrite !in_map_iff. split.
    - intros [([v w] & E & H)|([v w] & E & H)]; injection E as <- <-; cbn [fst snd] in *; destruct (B3 _ H) as [P Q]; cbn in P, Q; [exists v, w|exists w, v];
        (split; [unfold adjacent; auto|split; apply rl_mc; auto]).
    - intros (v & w & [H|H] & E & F); apply rl_Some in E, F; subst; [left; exists (v, w)|right; exists (w, v)]; auto. }
  rewrite X, Y. pose proof (edge_in_spec (a, b) (g_edges (og_graph og1))) as Q. destruct (edge_in (a, b) (g_edges (og_graph og1))).
  - apply proj1 in Q. specialize (Q eq_refl). tauto.
  - assert (N : ~ In (edge_norm (a, b)) (map edge_norm (g_edges (og_graph og1)))) by (intros K; apply Q in K; discriminate). tauto.
Qed.

Variables (m1' m2' : dict measurement).
Hypotheses (M1 : forall u, dget m1' u = match dget (dinv mapping) u, dget (og_meas og1) u with
       | Some v, Some b => match dget (og_cliff og2) v with Some c => Some (meas_clifford b c) | None => dget (og_meas og1) u end
       | _, _ => dget (og_meas og1) u end)
  (M2 : forall v, dget m2' v = match dget mapping v, dget (og_meas og2) v with
       | Some u, Some a => match dget (og_cliff og1) u with Some c => Some (meas_clifford a c) | None => dget (og_meas og2) v end
       | _, _ => dget (og_meas og2) v end)
  (N1 : NoDup (dkeys m1')) (N2 : NoDup (dkeys m2')).
Let ins := merge_ports mc merged (og_in og1) (og_in og2).
Let outs := merge_ports mc merged (og_out og1) (og_out og2).
Let meas := dupdate m1' (map (fun p => (rl mc (fst p), snd p)) m2').
Let cl := compose_cliffs mc outs (og_cliff og1) (og_cliff og2).

Lemma m1_key u : In u (dkeys m1') <-> In u V1 /\ ~ In u (og_out og1).
Proof.
  unfold V1. rewrite <- (proj2 (ok_meas _ H1)). split; intros H; apply dget_keys in H; destruct H as (x & E).
  - rewrite M1 in E. destruct (dget (og_meas og1) u) eqn:E'; [eapply dget_is_key; eauto|]. destruct (dget (dinv mapping) u); discriminate.
  - destruct (dget m1' u) eqn:E'; [eapply dget_is_key; eauto|]. rewrite M1, E in E'. destruct (dget (dinv mapping) u); [|discriminate]. destruct (dget (og_cliff og2) n); discriminate.
Qed.
Lemma m2_key u : In u (dkeys m2') <-> In u V2 /\ ~ In u (og_out og2).
Proof.
  unfold V2. rewrite <- (proj2 (ok_meas _ H2)). split; intros H; apply dget_keys in H; destruct H as (x & E).
  - rewrite M2 in E. destruct (dget (og_meas og2) u) eqn:E'; [eapply dget_is_key; eauto|]. destruct (dget mapping u); discriminate.
  - destruct (dget m2' u) eqn:E'; [eapply dget_is_key; eauto|]. rewrite M2, E in E'. destruct (dget mapping u); [|discriminate]. destruct (dget (og_cliff og1) n); discriminate.
Qed.
Lemma m2_NoDup : NoDup (dkeys (map (fun p => (rl mc (fst p), snd p)) m2')).
Proof.
  unfold dkeys. rewrite map_map. cbn [fst]. rewrite <- (map_map fst (rl mc)). apply rl_NoDup; auto. intros v Hv. apply m2_key in Hv. tauto.
Qed.
Lemma meas_get1 n : ~ In n (map (rl mc) V2) -> dget meas n = dget m1' n.
Proof.
  intros N. unfold meas. rewrite dupdate_get by apply m2_NoDup. rewrite (proj2 (dget_None _ n)); auto. unfold dkeys. rewrite map_map. cbn [fst]. intros K.
  apply N. rewrite <- (map_map fst (rl mc)) in K. apply in_map_iff in K. destruct K as (v & <- & Hv). apply in_map. apply m2_key in Hv. tauto.
Qed.
Lemma meas_get2 v : In v V2 -> dget meas (rl mc v) = match dget m2' v with Some a => Some a | None => dget m1' (rl mc v) end.
Proof.
  intros H. unfold meas. rewrite dupdate_get by apply m2_NoDup. rewrite dget_map_keys; auto. intros j Hj E. apply rl_inj in E; auto. apply m2_key in Hj. tauto.
Qed.
Lemma cl2_NoDup : NoDup (map (rl mc) (dkeys (og_cliff og2))).
Proof. apply rl_NoDup; [apply (ok_cliff _ H2)|]. intros v Hv. apply (ok_cliff _ H2) in Hv. apply (ok_out _ H2); auto. Qed.
Lemma cl_get n : dget cl n = if lmem n outs then match dget (map (fun p => (rl mc (fst p), snd p)) (og_cliff og2)) n, dget (og_cliff og1) n with
       | Some b, Some a => Some (clifford_mul b a) | Some b, None => Some (clifford_mul b K0) | None, r => r end else None.
Proof. unfold cl. apply cliffs_get, cl2_NoDup. Qed.
Lemma cl2_get v : In v V2 -> dget (map (fun p => (rl mc (fst p), snd p)) (og_cliff og2)) (rl mc v) = dget (og_cliff og2) v.
Proof. intros H. apply dget_map_keys. intros j Hj E. apply rl_inj in E; auto. apply (ok_cliff _ H2) in Hj. apply (ok_out _ H2); auto. Qed.
Lemma outs_In n : In n outs <-> (In n (og_out og1) /\ (~ is_merged og1 mapping n \/ In n (map (rl mc) (og_out og2)))) \/ (In n (map (rl mc) (og_out og2)) /\ ~ is_merged og1 mapping n).
Proof. unfold outs. rewrite ports_eq. apply ports_In. Qed.
Lemma img_out2 v : In v V2 -> (In (rl mc v) (map (rl mc) (og_out og2)) <-> In v (og_out og2)).
Proof.
  intros H. split; [|apply in_map]. intros K. apply in_map_iff in K. destruct K as (w & E & Hw). apply rl_inj in E; [subst; auto| |auto]. apply (ok_out _ H2); auto.
Qed.
Lemma rl_merged v : In v V2 -> (is_merged og1 mapping (rl mc v) <-> In (rl mc v) V1).
Proof.
  intros H. split; [intros (w & _ & K); auto|]. intros K. exists v. apply merged_rl; auto.
Qed.
Lemma unm n : ~ In n (map (rl mc) V2) -> ~ is_merged og1 mapping n.
Proof. intros N (v & A & B). apply N, img_iff. exists v. apply mc_ext; auto. Qed.
(** the outputs, seen from each graph *)
Lemma outs1 n : ~ In n (map (rl mc) V2) -> (In n outs <-> In n (og_out og1)).
Proof.
  intros N. rewrite outs_In. assert (K : ~ In n (map (rl mc) (og_out og2))).
  { intros K. apply N. apply in_map_iff in K. destruct K as (v & <- & Hv). apply in_map. apply (ok_out _ H2); auto. }
  pose proof (unm n N). tauto.
Qed.
Lemma outs2 v : In v V2 -> ~ In (rl mc v) V1 -> (In (rl mc v) outs <-> In v (og_out og2)).
Proof.
  intros Hv N. rewrite outs_In, img_out2, rl_merged by auto. assert (~ In (rl mc v) (og_out og1)) by (intros K; apply N, (ok_out _ H1); auto). tauto.
Qed.
Lemma outs12 v : In v V2 -> In (rl mc v) V1 -> (In (rl mc v) outs <-> In (rl mc v) (og_out og1) /\ In v (og_out og2)).
Proof. intros Hv N. rewrite outs_In, img_out2, rl_merged by auto. tauto. Qed.
Lemma img_dec n : In n (map (rl mc) V2) \/ ~ In n (map (rl mc) V2).
Proof. destruct (in_dec Nat.eq_dec n (map (rl mc) V2)); auto. Qed.
Lemma V1_dec n : In n V1 \/ ~ In n V1.
Proof. destruct (in_dec Nat.eq_dec n V1); auto. Qed.

Lemma comp_ok : og_ok (OG g ins outs meas cl).
Proof.
  constructor; cbn [og_graph og_in og_out og_meas og_cliff].
  - apply g_ok.
  - unfold ins. rewrite ports_eq. split; [apply ports_NoDup; try apply (ok_in _ H1); apply (ok_in _ H2)|].
    intros n K. apply ports_In in K. rewrite g_nodes_In. destruct K as [[K _]|[K _]]; [left; apply (ok_in _ H1); auto|right].
    apply in_map_iff in K. destruct K as (v & <- & Hv). apply in_map, (ok_in _ H2); auto.
  - unfold outs. rewrite ports_eq. split; [apply ports_NoDup; try apply (ok_out _ H1); apply (ok_out _ H2)|].
    intros n K. apply ports_In in K. rewrite g_nodes_In. destruct K as [[K _]|[K _]]; [left; apply (ok_out _ H1); auto|right].
    apply in_map_iff in K. destruct K as (v & <- & Hv). apply in_map, (ok_out _ H2); auto.
  - split; [apply dupdate_NoDup; auto|]. intros n. rewrite g_nodes_In. unfold meas. rewrite dupdate_keys, m1_key. unfold dkeys at 1. rewrite map_map. cbn [fst].
    rewrite <- (map_map fst (rl mc)). change (map fst m2') with (dkeys m2').
    destruct (img_dec n) as [I|I].
    + apply in_map_iff in I. destruct I as (v & <- & Hv). assert (X : In (rl mc v) (map (rl mc) (dkeys m2')) <-> ~ In v (og_out og2)).
      { split.
        - intros K. apply in_map_iff in K. destruct K as (w & E & Hw). apply m2_key in Hw. apply rl_inj in E; [subst; tauto|tauto|auto].
        - intros K. apply in_map, m2_key. auto. }
      rewrite X. destruct (V1_dec (rl mc v)) as [J|J].
      * rewrite outs12 by auto. pose proof (in_map (rl mc) _ _ Hv). destruct (in_dec Nat.eq_dec v (og_out og2)), (in_dec Nat.eq_dec (rl mc v) (og_out og1)); tauto.
      * rewrite outs2 by auto. pose proof (in_map (rl mc) _ _ Hv). tauto.
    + rewrite outs1 by auto. assert (K : ~ In n (map (rl mc) (dkeys m2'))).
      { intros K. apply I. apply in_map_iff in K. destruct K as (v & <- & Hv). apply in_map. apply m2_key in Hv. tauto. }
      tauto.
  - split; [apply cliffs_NoDup, (ok_cliff _ H1)|]. intros n K. apply dget_keys in K. destruct K as (c & E). rewrite cl_get in E. destruct (lmem n outs) eqn:L; [|discriminate].
    apply lmem_In; auto.
Qed.
Lemma meas2_out v : In v V2 -> (dget (og_meas og2) v = None <-> In v (og_out og2)).
Proof.
  intros H. rewrite dget_None, (proj2 (ok_meas _ H2)). fold V2. destruct (in_dec Nat.eq_dec v (og_out og2)); tauto.
Qed.
Lemma meas1_out v : In v V1 -> (dget (og_meas og1) v = None <-> In v (og_out og1)).
Proof.
  intros H. rewrite dget_None, (proj2 (ok_meas _ H1)). fold V1. destruct (in_dec Nat.eq_dec v (og_out og1)); tauto.
Qed.
Lemma comp_spec : composed og1 og2 mapping (OG g ins outs meas cl) mc.
Proof.
  constructor; cbn [og_graph og_in og_out og_meas og_cliff].
  - exact mc_dom.
  - exact mc_inj.
  - exact mc_ext.
  - intros v u E N. pose proof (mc_fresh v u E N) as L. split.
    + intros n Hn. apply V1_le in Hn. lia.
    + intros w n Hn. apply dget_In in Hn. assert (n <= mx) by (apply (rmax_spec _ _ HX), in_or_app; right; apply dvals_In; eauto). lia.
  - intros n. rewrite g_nodes_In, img_iff. tauto.
  - exact g_adj.
  - apply ports_eq.
  - apply ports_eq.
  - intros n N. rewrite <- img_iff in N. rewrite meas_get1 by auto. rewrite M1. destruct (dget (dinv mapping) n) as [v|] eqn:E; auto.
    apply (proj1 (dinv_get mapping v n NK NV)) in E. exfalso. apply N, img_iff. exists v. apply mc_ext; auto.
  - intros v n E NV1. assert (Hv : In v V2) by (apply mc_dom; eauto). apply rl_Some in E. subst n. rewrite meas_get2 by auto.
    rewrite (proj2 (dget_None m1' _)) by (rewrite m1_key; tauto). rewrite M2.
    destruct (dget mapping v) as [u|] eqn:E, (dget (og_meas og2) v) as [a|] eqn:Ea; auto.
    rewrite (proj2 (dget_None (og_cliff og1) u)); auto. intros K. apply (ok_cliff _ H1), (ok_out _ H1) in K. apply NV1. apply mc_ext, rl_Some in E. rewrite E. auto.
  - intros v u K. assert (Hv : In v V2) by (apply HK; eapply dget_is_key; apply K). pose proof K as [E HU]. apply mc_ext, rl_Some in E. subst u.
    rewrite meas_get2 by auto. rewrite M1, M2. destruct K as [K _]. rewrite K. rewrite (proj2 (dinv_get mapping v (rl mc v) NK NV)) by auto.
    destruct (dget (og_meas og1) (rl mc v)) as [b|], (dget (og_meas og2) v) as [a|]; auto; [destruct (dget (og_cliff og1) (rl mc v))|destruct (dget (og_cliff og2) v)|destruct (dget (og_cliff og1) (rl mc v))]; auto.
  - intros n N. rewrite <- img_iff in N. rewrite cl_get. destruct (lmem n outs) eqn:L.
    + rewrite (proj2 (dget_None _ n)); auto. unfold dkeys. rewrite map_map. cbn [fst]. rewrite <- (map_map fst (rl mc)). intros K. apply N. apply in_map_iff in K. destruct K as (v & <- & Hv).
      apply in_map. apply (ok_cliff _ H2) in Hv. apply (ok_out _ H2); auto.
    + symmetry. apply dget_None. intros K. apply (ok_cliff _ H1) in K. apply (outs1 n N) in K. apply lmem_In in K. congruence.
  - intros v n E NV1. assert (Hv : In v V2) by (apply mc_dom; eauto). apply rl_Some in E. subst n. rewrite cl_get, cl2_get by auto.
    rewrite (proj2 (dget_None (og_cliff og1) _)) by (intros K; apply NV1; apply (ok_out _ H1), (ok_cliff _ H1); auto).
    destruct (dget (og_cliff og2) v) as [c|] eqn:Ec.
    + assert (O : In v (og_out og2)) by (apply (ok_cliff _ H2); eapply dget_is_key; eauto). apply (outs2 v Hv NV1) in O. apply lmem_In in O. rewrite O, mul_K0_r. auto.
    + destruct (lmem _ outs); auto.
  - intros v u K O1 O2. assert (Hv : In v V2) by (apply HK; eapply dget_is_key; apply K). pose proof K as [E HU]. apply mc_ext, rl_Some in E. subst u.
    rewrite cl_get, cl2_get by auto. replace (lmem (rl mc v) outs) with true; [|symmetry; apply lmem_In, outs12; auto].
    destruct (dget (og_cliff og2) v), (dget (og_cliff og1) (rl mc v)); rewrite ?mul_K0_r; auto.
Qed.
End CP.

(** construction accepts exactly the valid open graphs (documented conditions: [og_ok]) *)
Theorem C39_construct : forall g ins outs ms cl, graph_ok g -> NoDup (dkeys ms) -> NoDup (dkeys cl) ->
  (og_ok (OG g ins outs ms cl) /\ og_make g ins outs ms cl = Ok (OG g ins outs ms cl)) \/
  (~ og_ok (OG g ins outs ms cl) /\ og_make g ins outs ms cl = Err EOpenGraph).
Proof. exact og_make_spec. Qed.
Print Assumptions C39_construct.
Theorem C39_neighbors : forall og s, (forall n, mem n s = true -> In n (g_nodes (og_graph og))) ->
  exists r, og_neighbors og s = Ok r /\ forall v, mem v r = true <-> exists u, mem u s = true /\ adjacent (og_graph og) u v.
Proof. exact og_neighbors_spec. Qed.
Print Assumptions C39_neighbors.
(** the number of neighbours of [v] in [s] is odd *)
Definition odd_nb (g : graph) (s : nset) (v : nat) : Prop := Nat.Odd (length (filter (fun u => mem v (nbh g u)) (elems s))).
Lemma xorsum_odd l f : xorsum l f = true <-> Nat.Odd (length (filter f l)).
Proof.
  rewrite <- Nat.odd_spec. induction l as [|a l IH]; cbn [xorsum fold_right filter]; [cbn; tauto|].
  change (fold_right (fun n b => xorb (f n) b) false l) with (xorsum l f). destruct (f a); cbn [length].
  - rewrite Nat.odd_succ, <- Nat.negb_odd, negb_true_iff, <- not_true_iff_false, <- IH. destruct (xorsum l f); cbn; intuition discriminate.
  - rewrite xorb_false_l. auto.
Qed.
Theorem C39_odd_neighbors : forall og s, (forall n, mem n s = true -> In n (g_nodes (og_graph og))) ->
  exists r, og_odd og s = Ok r /\ forall v, mem v r = true <-> odd_nb (og_graph og) s v.
Proof.
  intros og s H. destruct (og_odd_spec og s H) as (r & E & K). exists r. split; auto. intros v. rewrite K. apply xorsum_odd.
Qed.
Print Assumptions C39_odd_neighbors.
Theorem C39_unknown_node : forall og s n, mem n s = true -> ~ In n (g_nodes (og_graph og)) -> og_neighbors og s = Err ENetworkX /\ og_odd og s = Err ENetworkX.
Proof.
  intros og s n Hn N. assert (NB : mem n (og_nodes og) = false) by (apply not_true_iff_false; unfold og_nodes; rewrite mem_of_list; auto).
  apply elems_spec in Hn. unfold og_odd. unfold og_neighbors at 1. split.
  - generalize sempty. revert Hn. induction (elems s) as [|a l IH]; [intros []|]. intros Hn acc. cbn [rfold]. destruct Hn as [->|Hn]; [rewrite NB; auto|].
    destruct (mem a (og_nodes og)); auto.
  - generalize sempty. revert Hn. induction (elems s) as [|a l IH]; [intros []|]. intros Hn acc. cbn [rfold].
    assert (A : forall k, mem k (og_nodes og) = false -> og_neighbors og (sing k) = Err ENetworkX).
    { intros k Hk. unfold og_neighbors. assert (P : In k (elems (sing k))) by (apply elems_spec; rewrite mem_sing; apply Nat.eqb_refl).
      destruct (elems (sing k)) as [|b [|c l']] eqn:E; [destruct P| |].
      - destruct P as [->|[]]. cbn [rfold]. rewrite Hk. auto.
      - exfalso. pose proof (elems_NoDup (sing k)) as ND. rewrite E in ND. assert (B : forall x, In x (elems (sing k)) -> x = k) by (intros x Hx; apply elems_spec in Hx; rewrite mem_sing in Hx; apply Nat.eqb_eq; auto).
        rewrite E in B. rewrite (B b), (B c) in ND by (cbn; auto). inversion ND as [|? ? Q _]; subst. apply Q. left; auto. }
    destruct (mem a (og_nodes og)) eqn:Ea.
    + destruct Hn as [->|Hn]; [congruence|]. rewrite og_neighbors_sing by (apply mem_of_list; auto). cbn [rbind]. apply IH; auto.
    + rewrite (A a Ea). auto.
Qed.
Print Assumptions C39_unknown_node.

(** [compose]: exactly when it fails and with what, and what it returns *)
Definition compatible (close : measurement -> measurement -> bool) (og1 og2 : opengraph) (mapping : dict nat) : Prop :=
  forall v u a b, dget mapping v = Some u -> dget (og_meas og2) v = Some a -> dget (og_meas og1) u = Some b -> close a b = true.
Theorem C39_compose : forall close og1 og2 mapping, og_ok og1 -> og_ok og2 -> NoDup (dkeys mapping) ->
  ((exists v, In v (dkeys mapping) /\ ~ In v (g_nodes (og_graph og2))) \/ ~ NoDup (dvals mapping) -> og_compose close og1 og2 mapping = Err EValue) /\
  ((forall v, In v (dkeys mapping) -> In v (g_nodes (og_graph og2))) -> NoDup (dvals mapping) ->
    (~ compatible close og1 og2 mapping -> og_compose close og1 og2 mapping = Err EOpenGraph) /\
    (compatible close og1 og2 mapping ->
      (g_nodes (og_graph og1) = [] /\ mapping = [] -> og_compose close og1 og2 mapping = Err EValue) /\
      (g_nodes (og_graph og1) <> [] \/ mapping <> [] ->
        exists og mc, og_compose close og1 og2 mapping = Ok (og, mc) /\ og_ok og /\ composed og1 og2 mapping og mc))).
Proof.
  intros close og1 og2 mapping H1 H2 NK.
  assert (LV : (length mapping =? length (elems (of_list (dvals mapping))))%nat = true <-> NoDup (dvals mapping)).
  { rewrite Nat.eqb_eq, <- len_set. unfold dvals. rewrite map_length. split; intros; congruence. }
  split.
  { intros H. unfold og_compose. cbv zeta. destruct (ssub (of_list (dkeys mapping)) _) eqn:E1; cbn [negb]; auto.
    destruct H as [(v & A & B)|H]; [rewrite ssub_of_list in E1; exfalso; auto|].
    destruct (length mapping =? _)%nat eqn:E2; cbn [negb]; auto. tauto. }
  intros HK NV. assert (E1 : ssub (of_list (dkeys mapping)) (of_list (g_nodes (og_graph og2))) = true) by (apply ssub_of_list; auto).
  assert (E2 : (length mapping =? length (elems (of_list (dvals mapping))))%nat = true) by tauto.
  split.
  - intros NC. unfold og_compose. cbv zeta. rewrite E1, E2. cbn [negb]. rewrite loop_err; auto.
    assert (D : Forall (fun p => pair_ok close og1 og2 (fst p) (snd p)) mapping \/ exists p, In p mapping /\ ~ pair_ok close og1 og2 (fst p) (snd p)).
    { clear. induction mapping as [|[v u] l IH]; [left; constructor|]. destruct IH as [IH|(p & A & B)]; [|right; exists p; split; auto; right; auto].
      destruct (dget (og_meas og2) v) as [a|] eqn:Ea, (dget (og_meas og1) u) as [b|] eqn:Eb.
      1: destruct (close a b) eqn:Ec; [|right; exists (v, u); split; [left; auto|]; intros K; specialize (K a b); cbn in K; rewrite K in Ec; auto; discriminate].
      all: left; constructor; auto; intros x y X Y; cbn in X, Y; congruence. }
    destruct D as [D|([v u] & A & B)]; [|eauto]. exfalso. apply NC. intros v u a b K1 K2 K3. rewrite Forall_forall in D. apply (D (v, u)); auto. apply dget_In; auto.
  - intros CC. destruct (loop_ok close og1 og2 mapping (og_meas og1) (og_meas og2)) as (m1 & m2 & EL & G1 & G2 & D1 & D2); auto.
    { intros v u K a b A B. apply (CC v u a b); auto. apply In_dget; auto. }
    split.
    + intros [A B]. unfold og_compose. cbv zeta. rewrite E1, E2. cbn [negb]. rewrite EL. cbn [rbind]. rewrite A, B. reflexivity.
    + intros NE. destruct (rmax (g_nodes (og_graph og1) ++ dvals mapping)) as [mx|] eqn:EX.
      2:{ exfalso. destruct (g_nodes (og_graph og1)); [|discriminate]. destruct mapping; [|discriminate]. destruct NE; auto. }
      do 2 eexists. split; [|split].
      * unfold og_compose. cbv zeta. rewrite E1, E2. cbn [negb]. rewrite EL. cbn [rbind]. rewrite EX. cbn [rbind fst snd].
        pose proof (comp_ok og1 og2 mapping mx H1 H2 NK NV HK EX m1 m2 G1 G2 (D1 (proj1 (ok_meas _ H1))) ) as OK. cbv zeta in OK.
        match goal with |- context [og_make ?a ?b ?c ?d ?e] => destruct (og_make_spec a b c d e) as [[_ K]|[K _]]; [apply OK|apply OK|apply OK| |exfalso; apply K; exact OK] end.
        rewrite K. cbn [rbind]. reflexivity.
      * apply comp_ok; auto. apply D1, H1.
      * apply comp_spec; auto.
        Unshelve. apply D2, H2.
Qed.
Print Assumptions C39_compose.

(** *** What a composition computes *)
(** relabelling an open graph *)
Definition og_rename (mc : dict nat) (og : opengraph) : opengraph :=
  OG (g_relabel mc (og_graph og)) (map (rl mc) (og_in og)) (map (rl mc) (og_out og))
     (map (fun p => (rl mc (fst p), snd p)) (og_meas og)) (map (fun p => (rl mc (fst p), snd p)) (og_cliff og)).
(** [other] is plugged after [self]: every merged node is an output of [self],
    without pending Clifford, and an input of [other], and no edge of [self] is
    doubled by one of [other] *)
Record plugged (og1 og2 : opengraph) (mapping : dict nat) : Prop := {
  pl_pair : forall v u, merged_pair og1 mapping v u -> In u (og_out og1) /\ In v (og_in og2) /\ dget (og_cliff og1) u = None;
  pl_edge : forall v w a b, merged_pair og1 mapping v a -> merged_pair og1 mapping w b -> adjacent (og_graph og2) v w -> ~ adjacent (og_graph og1) a b }.

Lemma dict_perm {A} (d e : dict A) : NoDup (dkeys d) -> NoDup (dkeys e) -> (forall k, dget d k = dget e k) -> Permutation d e.
Proof.
  intros N1 N2 H. apply NoDup_Permutation; [eapply NoDup_map_inv; apply N1|eapply NoDup_map_inv; apply N2|].
  intros [k v]. split; intros K; apply In_dget in K; auto; apply dget_In; congruence.
Qed.
Section Seq.
Variables (og1 og2 og : opengraph) (mapping mc : dict nat).
Hypotheses (H1 : og_ok og1) (H2 : og_ok og2) (H : og_ok og) (CP : composed og1 og2 mapping og mc) (PL : plugged og1 og2 mapping)
  (NK : NoDup (dkeys mapping)) (HK : forall v, In v (dkeys mapping) -> In v (g_nodes (og_graph og2))).
Let V1 := g_nodes (og_graph og1).
Let V2 := g_nodes (og_graph og2).
Lemma s_rl v : In v V2 -> dget mc v = Some (rl mc v).
Proof. intros K. apply (cp_dom _ _ _ _ _ CP) in K. destruct K as (u & E). unfold rl. rewrite E. auto. Qed.
Lemma s_inj v w : In v V2 -> In w V2 -> rl mc v = rl mc w -> v = w.
Proof. intros A B E. apply s_rl in A, B. rewrite E in A. eapply (cp_inj _ _ _ _ _ CP); eauto. Qed.
Lemma s_merged v : In v V2 -> In (rl mc v) V1 -> merged_pair og1 mapping v (rl mc v).
Proof.
  intros A B. split; auto. destruct (dget mapping v) as [u|] eqn:E.
  - rewrite <- (s_rl v A). symmetry. apply (cp_ext _ _ _ _ _ CP); auto.
  - destruct (cp_fresh _ _ _ _ _ CP v _ (s_rl v A) E) as [K _]. specialize (K _ B). lia.
Qed.
Lemma s_merged_b n : is_mergedb og1 mapping n = true <-> exists v, In v V2 /\ rl mc v = n /\ In n V1.
Proof.
  unfold is_mergedb. rewrite andb_true_iff, !lmem_In. split.
  - intros [A B]. apply dvals_In in A. destruct A as (k & A). assert (Hk : In k (dkeys mapping)) by (apply in_map_iff; exists (k, n); auto).
    exists k. split; [apply HK; auto|]. split; auto. apply In_dget in A; auto. apply (cp_ext _ _ _ _ _ CP) in A. unfold rl. rewrite A. auto.
  - intros (v & A & B & D). split; auto. subst n. destruct (s_merged v A D) as [K _]. apply dget_In in K. apply dvals_In. eauto.
Qed.
Lemma s_mapped v : In v (og_in og2) \/ In v (og_out og2) \/ In v (dkeys (og_meas og2)) \/ In v (dkeys (og_cliff og2)) -> In v V2.
Proof.
  intros [K|[K|[K|K]]]; [apply (ok_in _ H2)|apply (ok_out _ H2)|apply (ok_meas _ H2)|apply (ok_out _ H2), (ok_cliff _ H2)]; auto.
Qed.
(** a node of both graphs is an output of [self] and an input of [other] *)
Lemma s_both v : In v V2 -> In (rl mc v) V1 -> In (rl mc v) (og_out og1) /\ In v (og_in og2) /\ dget (og_cliff og1) (rl mc v) = None.
Proof. intros A B. apply (pl_pair _ _ _ PL). apply s_merged; auto. Qed.
Lemma s_NoDup l : NoDup l -> (forall v, In v l -> In v V2) -> NoDup (map (rl mc) l).
Proof.
  induction l as [|a l IH]; intros ND K; cbn [map]; [constructor|]. inversion ND; subst. constructor; [|apply IH; auto; intros; apply K; right; auto].
  intros Q. apply in_map_iff in Q. destruct Q as (b & E & Hb). apply s_inj in E; [subst; auto|apply K; right; auto|apply K; left; auto].
Qed.
Lemma s_in n : In n (og_in og) <-> In n (og_in og1) \/ (exists v, In v (og_in og2) /\ rl mc v = n /\ ~ In n V1).
Proof.
  rewrite (cp_in _ _ _ _ _ CP). unfold ports. rewrite in_app_iff, !filter_In, orb_true_iff, !negb_true_iff, <- !not_true_iff_false, lmem_In, s_merged_b. split.
  - intros [[A _]|[A B]]; auto. right. apply in_map_iff in A. destruct A as (v & E & Hv). exists v. split; auto. split; auto. intros K. apply B. exists v. split; auto. apply s_mapped; auto.
  - intros [A|(v & A & B & D)].
    + left. split; auto. destruct (in_dec Nat.eq_dec n (map (rl mc) (og_in og2))) as [K|K]; auto. left. intros (v & Hv & E & _). apply K. subst n. apply in_map.
      apply s_both; auto. apply (ok_in _ H1); auto.
    + right. subst n. split; [apply in_map; auto|]. intros (w & P & Q & R). auto.
Qed.
Lemma s_prep : Permutation (og_prepared og) (og_prepared og1 ++ og_prepared (og_rename mc og2)).
Proof.
  apply NoDup_Permutation.
  - apply NoDup_filter, (ok_graph _ H).
  - apply NoDup_app; [apply NoDup_filter, (ok_graph _ H1)|apply NoDup_filter; cbn [og_rename og_graph g_relabel g_nodes]; apply s_NoDup; [apply (ok_graph _ H2)|auto]|].
    intros n A B. apply og_prepared_In in A, B. cbn [og_rename og_graph g_relabel g_nodes og_in] in B. destruct A as [A _], B as [B D].
    apply in_map_iff in B. destruct B as (v & <- & Hv). apply D, in_map. apply s_both; auto.
  - intros n. rewrite in_app_iff, !og_prepared_In, s_in, (cp_nodes _ _ _ _ _ CP). cbn [og_rename og_graph g_relabel g_nodes og_in]. fold V1. split.
    + intros [[A|(v & A)] B]; [tauto|]. destruct (in_dec Nat.eq_dec n V1) as [K|K]; [tauto|]. right. assert (Hv : In v V2) by (apply (cp_dom _ _ _ _ _ CP); eauto).
      assert (E : rl mc v = n) by (unfold rl; rewrite A; auto). subst n. split; [apply in_map; auto|]. intros Q. apply B. right. apply in_map_iff in Q. destruct Q as (w & E & Hw). exists w. auto.
    + intros [[A B]|[A B]].
      * split; auto. intros [K|(v & _ & _ & K)]; auto.
      * apply in_map_iff in A. destruct A as (v & E & Hv). split; [right; exists v; rewrite <- E; apply s_rl; auto|].
        intros [K|(w & P & Q & R)].
        -- apply B. subst n. apply in_map. apply s_both; auto. apply (ok_in _ H1); auto.
        -- apply B. subst n. rewrite <- Q. apply in_map; auto.
Qed.
Lemma s_edges : Permutation (map edge_norm (g_edges (og_graph og))) (map edge_norm (g_edges (og_graph og1) ++ g_edges (g_relabel mc (og_graph og2)))).
Proof.
  destruct (ok_graph _ H) as (_ & A2 & _), (ok_graph _ H1) as (_ & B2 & B3), (ok_graph _ H2) as (_ & D2 & D3).
  apply NoDup_Permutation; auto.
  - rewrite map_app. apply NoDup_app; auto.
    + cbn [g_relabel g_edges]. clear - D2 D3 CP V2. revert D2 D3. generalize (g_edges (og_graph og2)). induction l as [|[a b] l IH]; intros B2 B3; cbn [map]; constructor.
      * inversion B2 as [|? ? C1 C2]; subst. intros K. apply C1. rewrite map_map in K. apply in_map_iff in K. destruct K as ([c d] & E & Hc). cbn [fst snd] in E.
        destruct (B3 (a, b) (or_introl eq_refl)) as [P1 P2], (B3 (c, d) (or_intror Hc)) as [P3 P4]. cbn [fst snd] in *.
        apply in_map_iff. exists (c, d). split; auto. apply edge_norm_inv in E. destruct E as [[E1 E2]|[E1 E2]]; apply s_inj in E1; auto; apply s_inj in E2; auto; subst; auto using edge_norm_sw.
      * apply IH; [inversion B2; auto|]. intros e He. apply B3. right; auto.
    + intros e A B. apply in_map_iff in A. destruct A as ([a b] & <- & A). apply in_map_iff in B. destruct B as ([a' b'] & E & B). cbn [g_relabel g_edges] in B. apply in_map_iff in B. destruct B as ([v w] & E' & B).
      injection E' as <- <-. cbn [fst snd] in *. destruct (B3 _ A) as [P1 P2], (D3 _ B) as [Q1 Q2]. cbn [fst snd] in *. apply edge_norm_inv in E.
      destruct E as [[<- <-]|[<- <-]]; (eapply (pl_edge _ _ _ PL v w); [apply s_merged; auto|apply s_merged; auto|left; auto|unfold adjacent; auto]).
  - intros [a b]. rewrite map_app, in_app_iff. assert (X : forall g, In (a, b) (map edge_norm (g_edges g)) <-> (adjacent g a b /\ a <= b)).
    { intros g. rewrite adjacent_norm. split.
      - intros K. assert (L : a <= b) by (apply in_map_iff in K; destruct K as ([c d] & E & _); unfold edge_norm in E; cbn in E; injection E as <- <-; lia).
        split; auto. replace (edge_norm (a, b)) with (a, b); auto. unfold edge_norm; cbn. f_equal; lia.
      - intros [K L]. replace (edge_norm (a, b)) with (a, b) in K; auto. unfold edge_norm; cbn. f_equal; lia. }
    change (g_edges (g_relabel mc (og_graph og2))) with (g_edges (g_relabel mc (og_graph og2))). rewrite !X, (cp_edges _ _ _ _ _ CP).
    assert (Y : adjacent (g_relabel mc (og_graph og2)) a b <-> exists v w, adjacent (og_graph og2) v w /\ dget mc v = Some a /\ dget mc w = Some b).
    { unfold adjacent at 1, g_relabel. cbn [g_edges]. rewrite !in_map_iff. split.
      - intros [([v w] & E & K)|([v w] & E & K)]; injection E as <- <-; cbn [fst snd] in *; destruct (D3 _ K) as [P Q]; cbn in P, Q; [exists v, w|exists w, v];
        (split; [unfold adjacent; auto|split; apply s_rl; auto]).
      - intros (v & w & [K|K] & E & F); [left; exists (v, w)|right; exists (w, v)]; cbn [fst snd]; unfold rl; rewrite E, F; auto. }
    rewrite Y. tauto.
Qed.
Lemma img_or n : (exists v, In v V2 /\ rl mc v = n) \/ ~ exists v, dget mc v = Some n.
Proof.
  destruct (in_dec Nat.eq_dec n (map (rl mc) V2)) as [K|K]; [left; apply in_map_iff in K; destruct K as (v & E & Hv); eauto|right].
  intros (v & E). apply K. replace n with (rl mc v) by (unfold rl; rewrite E; auto). apply in_map. apply (cp_dom _ _ _ _ _ CP). eauto.
Qed.
Lemma s_mapk {A} (d : dict A) v : (forall k, In k (dkeys d) -> In k V2) -> In v V2 -> dget (map (fun p => (rl mc (fst p), snd p)) d) (rl mc v) = dget d v.
Proof. intros K Hv. apply dget_map_keys. intros j Hj E. apply s_inj in E; auto. Qed.
Lemma s_mapn {A} (d : dict A) n : (forall k, In k (dkeys d) -> In k V2) -> (~ exists v, dget mc v = Some n) -> dget (map (fun p => (rl mc (fst p), snd p)) d) n = None.
Proof.
  intros K N. apply dget_None. unfold dkeys. rewrite map_map. cbn [fst]. rewrite <- (map_map fst (rl mc)). intros Q. apply in_map_iff in Q. destruct Q as (v & <- & Hv).
  apply N. exists v. apply s_rl, K; auto.
Qed.
Lemma s_mapND {A} (d : dict A) : (forall k, In k (dkeys d) -> In k V2) -> NoDup (dkeys d) -> NoDup (dkeys (map (fun p => (rl mc (fst p), snd p)) d)).
Proof. intros K ND. unfold dkeys. rewrite map_map. cbn [fst]. rewrite <- (map_map fst (rl mc)). apply s_NoDup; auto. Qed.
Lemma s_meas : Permutation (og_meas og) (og_meas og1 ++ og_meas (og_rename mc og2)).
Proof.
  cbn [og_rename og_meas]. assert (KK : forall k, In k (dkeys (og_meas og2)) -> In k V2) by (intros; apply s_mapped; auto).
  apply dict_perm; [apply (ok_meas _ H)| |].
  - unfold dkeys. rewrite map_app. apply NoDup_app; [apply (ok_meas _ H1)|apply s_mapND; auto; apply (ok_meas _ H2)|].
    intros n A B. apply (ok_meas _ H1) in A. destruct A as [A A']. rewrite map_map in B. cbn [fst] in B. rewrite <- (map_map fst (rl mc)) in B. apply in_map_iff in B. destruct B as (v & <- & Hv).
    apply A'. apply s_both; auto.
  - intros n. rewrite dget_app. destruct (img_or n) as [(v & Hv & <-)|N].
    + rewrite s_mapk by auto. destruct (in_dec Nat.eq_dec (rl mc v) V1) as [I|I].
      * rewrite (cp_meas12 _ _ _ _ _ CP v (rl mc v)) by (apply s_merged; auto). destruct (s_both v Hv I) as (A & B & C).
        rewrite (proj2 (dget_None (og_meas og1) (rl mc v))) by (intros K; apply (ok_meas _ H1) in K; tauto). rewrite C. destruct (dget (og_meas og2) v); auto.
      * rewrite (cp_meas2 _ _ _ _ _ CP v) by (auto using s_rl). rewrite (proj2 (dget_None (og_meas og1) (rl mc v))); auto. intros K; apply (ok_meas _ H1) in K; tauto.
    + rewrite s_mapn by auto. rewrite (cp_meas1 _ _ _ _ _ CP n N). destruct (dget (og_meas og1) n); auto.
Qed.
Lemma s_cliff : Permutation (og_cliff og) (og_cliff og1 ++ og_cliff (og_rename mc og2)).
Proof.
  cbn [og_rename og_cliff]. assert (KK : forall k, In k (dkeys (og_cliff og2)) -> In k V2) by (intros; apply s_mapped; auto).
  assert (O1 : forall k, In k (dkeys (og_cliff og1)) -> In k V1) by (intros k Hk; apply (ok_out _ H1), (ok_cliff _ H1); auto).
  apply dict_perm; [apply (ok_cliff _ H)| |].
  - unfold dkeys. rewrite map_app. apply NoDup_app; [apply (ok_cliff _ H1)|apply s_mapND; auto; apply (ok_cliff _ H2)|].
    intros n A B. rewrite map_map in B. cbn [fst] in B. rewrite <- (map_map fst (rl mc)) in B. apply in_map_iff in B. destruct B as (v & <- & Hv).
    destruct (s_both v) as (_ & _ & K); auto. apply dget_None in K. auto.
  - intros n. rewrite dget_app. destruct (img_or n) as [(v & Hv & <-)|N].
    + rewrite s_mapk by auto. destruct (in_dec Nat.eq_dec (rl mc v) V1) as [I|I].
      * destruct (s_both v Hv I) as (A & B & C). destruct (in_dec Nat.eq_dec v (og_out og2)) as [O|O].
        -- rewrite (cp_cl12 _ _ _ _ _ CP v (rl mc v)) by (auto using s_merged). rewrite C. auto.
        -- rewrite C. rewrite (proj2 (dget_None (og_cliff og2) v)) by (intros K; apply O, (ok_cliff _ H2); auto).
           apply dget_None. intros K. apply (ok_cliff _ H) in K. rewrite (cp_out _ _ _ _ _ CP) in K. unfold ports in K. apply in_app_or in K.
           assert (NO : ~ In (rl mc v) (map (rl mc) (og_out og2))) by (intros Q; apply in_map_iff in Q; destruct Q as (w & E & Hw); apply s_inj in E; auto; [subst; auto|apply s_mapped; auto]).
           rewrite !filter_In, orb_true_iff, lmem_In, negb_true_iff, <- not_true_iff_false, s_merged_b in K. destruct K as [[_ [K|K]]|[K _]]; auto. apply K. eauto.
      * rewrite (cp_cl2 _ _ _ _ _ CP v) by (auto using s_rl). rewrite (proj2 (dget_None (og_cliff og1) (rl mc v))); auto.
    + rewrite s_mapn by auto. rewrite (cp_cl1 _ _ _ _ _ CP n N). destruct (dget (og_cliff og1) n); auto.
Qed.
Lemma app1_perm {A} (f : A -> mat2) (k : A -> nat) l l' : NoDup (map k l) -> Permutation l l' -> map (fun a => OApp1 (f a) (k a)) l ≈ map (fun a => OApp1 (f a) (k a)) l'.
Proof.
  intros ND P. revert ND. induction P; intros ND; cbn [map] in *.
  - reflexivity.
  - inversion ND; subst. apply leq_cons, IHP; auto.
  - apply (leq_app_r [_; _] [_; _]). apply comm2. intros n [<-|[]] [E|[]]. inversion ND as [|? ? K _]; subst. apply K. left; auto.
  - rewrite IHP1, IHP2; [reflexivity| |auto]. eapply Permutation_NoDup; [apply Permutation_map; eauto|auto].
Qed.
Lemma seq_graph_ops : graph_ops og ≈ graph_ops og1 ++ graph_ops (og_rename mc og2).
Proof.
  set (og2' := og_rename mc og2).
  set (P1 := map (fun n => OPrep plus_state n) (og_prepared og1)). set (P2 := map (fun n => OPrep plus_state n) (og_prepared og2')).
  set (E1 := cz_ops (g_edges (og_graph og1))). set (E2 := cz_ops (g_edges (og_graph og2'))).
  set (M1 := map (fun p => OMeas (mvec (snd p) false) (fst p)) (og_meas og1)). set (M2 := map (fun p => OMeas (mvec (snd p) false) (fst p)) (og_meas og2')).
  set (C1 := map (fun p => OApp1 (clifford_mat (snd p)) (fst p)) (og_cliff og1)). set (C2 := map (fun p => OApp1 (clifford_mat (snd p)) (fst p)) (og_cliff og2')).
  transitivity ((P1 ++ P2) ++ (E1 ++ E2) ++ (M1 ++ M2) ++ (C1 ++ C2)).
  { unfold graph_ops. apply leq_app; [|apply leq_app; [|apply leq_app]].
    - unfold P1, P2. rewrite <- map_app. transitivity (prep_ops (map (fun n => (n, SPlus)) (og_prepared og))); [unfold prep_ops; rewrite map_map; reflexivity|].
      transitivity (prep_ops (map (fun n => (n, SPlus)) (og_prepared og1 ++ og_prepared og2'))); [|unfold prep_ops; rewrite map_map; reflexivity].
      apply prep_ops_perm; [rewrite map_map; cbn [fst]; rewrite map_id; apply NoDup_filter, (ok_graph _ H)|]. apply Permutation_map, s_prep.
    - unfold E1, E2, cz_ops. rewrite <- map_app. change (cz_ops (g_edges (og_graph og)) ≈ cz_ops (g_edges (og_graph og1) ++ g_edges (og_graph og2'))).
      etransitivity; [apply cz_ops_perm, s_edges|]. symmetry. apply cz_ops_perm, Permutation_refl.
    - unfold M1, M2. rewrite <- map_app. apply (meas_ops_perm (fun p => mvec (snd p) false) fst); [apply (ok_meas _ H)|apply s_meas].
    - unfold C1, C2. rewrite <- map_app. apply (app1_perm (fun p => clifford_mat (snd p)) fst); [apply (ok_cliff _ H)|apply s_cliff]. }
  change (graph_ops og1) with (P1 ++ E1 ++ M1 ++ C1). change (graph_ops og2') with (P2 ++ E2 ++ M2 ++ C2).
  (* a node of the first graph touched by an operation of the second one is merged *)
  assert (NP2 : forall p n, In p P2 -> In n (onodes p) -> ~ In n V1).
  { intros p n Hp Hn K. apply in_map_iff in Hp. destruct Hp as (x & <- & Hx). destruct Hn as [->|[]]. apply og_prepared_In in Hx. destruct Hx as [A B]. cbn [og2' og_rename og_graph g_relabel g_nodes og_in] in A, B.
    apply in_map_iff in A. destruct A as (v & <- & Hv). apply B, in_map, s_both; auto. }
  assert (NM : forall n, In n V1 -> (In n (dkeys (og_meas og1)) \/ In n (dkeys (og_cliff og1))) -> ~ exists v, In v V2 /\ rl mc v = n).
  { intros n A B (v & Hv & <-). destruct (s_both v Hv A) as (X & Y & Z). destruct B as [B|B]; [apply (ok_meas _ H1) in B; tauto|]. apply dget_None in Z. auto. }
  assert (NE1 : forall p n, In p E1 -> In n (onodes p) -> In n V1).
  { intros p n Hp Hn. apply in_map_iff in Hp. destruct Hp as (x & <- & Hx). apply (ok_graph _ H1) in Hx. destruct Hn as [<-|[<-|[]]]; tauto. }
  assert (NE2 : forall p n, In p E2 -> In n (onodes p) -> exists v, In v V2 /\ rl mc v = n).
  { intros p n Hp Hn. apply in_map_iff in Hp. destruct Hp as (x & <- & Hx). cbn [og2' og_rename og_graph g_relabel g_edges] in Hx. apply in_map_iff in Hx. destruct Hx as (y & <- & Hy). apply (ok_graph _ H2) in Hy.
    destruct Hn as [<-|[<-|[]]]; cbn [fst snd]; [exists (fst y)|exists (snd y)]; split; auto; apply Hy. }
  assert (NM1 : forall p n, In p M1 -> In n (onodes p) -> In n (dkeys (og_meas og1))).
  { intros p n Hp Hn. apply in_map_iff in Hp. destruct Hp as (x & <- & Hx). destruct Hn as [<-|[]]. apply in_map; auto. }
  assert (NC1 : forall p n, In p C1 -> In n (onodes p) -> In n (dkeys (og_cliff og1))).
  { intros p n Hp Hn. apply in_map_iff in Hp. destruct Hp as (x & <- & Hx). destruct Hn as [<-|[]]. apply in_map; auto. }
  assert (NM2 : forall p n, In p M2 -> In n (onodes p) -> exists v, In v V2 /\ rl mc v = n).
  { intros p n Hp Hn. apply in_map_iff in Hp. destruct Hp as (x & <- & Hx). destruct Hn as [<-|[]]. cbn [og2' og_rename og_meas] in Hx. apply in_map_iff in Hx. destruct Hx as (y & <- & Hy).
    cbn [fst]. eexists. split; [|reflexivity]. apply s_mapped. right. right. left. apply in_map; auto. }
  assert (V1m : forall n, In n (dkeys (og_meas og1)) -> In n V1) by (intros n Hn; apply (ok_meas _ H1) in Hn; tauto).
  assert (V1c : forall n, In n (dkeys (og_cliff og1)) -> In n V1) by (intros n Hn; apply (ok_out _ H1), (ok_cliff _ H1); auto).
  rewrite <- !app_assoc. apply leq_app_l.
  assert (T1 : P2 ++ E1 ++ M1 ++ C1 ≈ (E1 ++ M1 ++ C1) ++ P2).
  { apply comm_ll. intros p q Hp Hq n A B. apply (NP2 p n Hp A). apply in_app_or in Hq. destruct Hq as [Hq|Hq]; [eauto|]. apply in_app_or in Hq. destruct Hq as [Hq|Hq]; eauto. }
  assert (T2 : E2 ++ M1 ++ C1 ≈ (M1 ++ C1) ++ E2).
  { apply comm_ll. intros p q Hp Hq n A B. apply in_app_or in Hq. apply (NM n); [|destruct Hq; eauto|eauto]. destruct Hq; eauto. }
  assert (T3 : M2 ++ C1 ≈ C1 ++ M2).
  { apply comm_ll. intros p q Hp Hq n A B. apply (NM n); eauto. }
  transitivity (P2 ++ E1 ++ E2 ++ M1 ++ C1 ++ M2 ++ C2).
  { do 4 apply leq_app_l. rewrite !app_assoc. apply leq_app_r. exact T3. }
  transitivity (P2 ++ E1 ++ M1 ++ C1 ++ E2 ++ M2 ++ C2).
  { do 2 apply leq_app_l. rewrite (app_assoc M1 C1 (M2 ++ C2)), (app_assoc M1 C1 (E2 ++ M2 ++ C2)), !app_assoc. do 2 apply leq_app_r. rewrite <- !app_assoc. rewrite T2. rewrite <- app_assoc. reflexivity. }
  replace (P2 ++ E1 ++ M1 ++ C1 ++ E2 ++ M2 ++ C2) with ((P2 ++ E1 ++ M1 ++ C1) ++ E2 ++ M2 ++ C2) by (rewrite <- !app_assoc; auto).
  rewrite T1. rewrite <- !app_assoc. reflexivity.
Qed.
End Seq.
(** when [other] is plugged after [self] (or the graphs are disjoint), the composed
    graph computes the map of [self] followed by the map of [other] *)
Theorem C39_sequential : forall close og1 og2 mapping og mc, og_ok og1 -> og_ok og2 -> NoDup (dkeys mapping) ->
  og_compose close og1 og2 mapping = Ok (og, mc) -> plugged og1 og2 mapping ->
  graph_ops og ≈ graph_ops og1 ++ graph_ops (og_rename mc og2).
Proof.
  intros close og1 og2 mapping og mc H1 H2 NK E PL. destruct (C39_compose close og1 og2 mapping H1 H2 NK) as [A B].
  destruct (ssub (of_list (dkeys mapping)) (of_list (g_nodes (og_graph og2)))) eqn:ES.
  2:{ unfold og_compose in E. cbv zeta in E. rewrite ES in E. discriminate. }
  rewrite ssub_of_list in ES. destruct (ListDec.NoDup_dec Nat.eq_dec (dvals mapping)) as [NV|NV]; [|rewrite A in E; [discriminate|auto]].
  destruct (B ES NV) as [B1 B2].
  assert (CC : compatible close og1 og2 mapping).
  { intros v u a b K1 K2 K3. destruct (close a b) eqn:CL; auto. rewrite B1 in E; [discriminate|]. intros K. rewrite (K v u a b) in CL; auto. discriminate. }
  destruct (B2 CC) as [B3 B4]. assert (NE : g_nodes (og_graph og1) <> [] \/ mapping <> []).
  { destruct (g_nodes (og_graph og1)) as [|x l]; [|left; discriminate]. destruct mapping as [|y m]; [|right; discriminate]. rewrite B3 in E; auto. discriminate. }
  destruct (B4 NE) as (og' & mc' & E' & OK & CP). rewrite E in E'. injection E' as <- <-. eapply seq_graph_ops; eauto.
Qed.
Print Assumptions C39_sequential.

(** *** Non-vacuity *)
Definition bare_line (ma mb : measurement) : opengraph := OG (Graph [0; 1; 2] [(0, 1); (1, 2)]) [0] [2] [(0, ma); (1, mb)] [].
Lemma bare_line_ok ma mb : og_ok (bare_line ma mb).
Proof. apply og_ok_dec; try reflexivity. apply graph_ok_dec; try reflexivity. repeat constructor; cbn; intuition discriminate. Qed.
(** two lines plugged one after the other make a longer line *)
Example compose_lines close a b c d : plugged (bare_line a b) (line_og c d) [(0, 2)] /\
  og_compose close (bare_line a b) (line_og c d) [(0, 2)] =
    Ok (OG (Graph [0; 1; 2; 3; 4] [(0, 1); (1, 2); (2, 3); (3, 4)]) [0] [4] [(0, a); (1, b); (2, c); (3, d)] [(4, K6)], [(0, 2); (1, 3); (2, 4)]).
Proof.
  split.
  - constructor.
    + intros v u [A B]. cbn in A. destruct v; [|discriminate]. injection A as <-. cbn. auto.
    + intros v w x y [A _] [B _] K. cbn in A, B. destruct v; [|discriminate]. destruct w; [|discriminate]. destruct K as [K|K]; cbn in K; intuition discriminate.
  - reflexivity.
Qed.
(** a merge that is not a plug: an output with a Clifford meets a measured node *)
Example compose_measured close a b c d : compatible close (line_og a b) (bare_line c d) [(1, 2)] /\
  og_compose close (line_og a b) (bare_line c d) [(1, 2)] =
    Ok (OG (Graph [0; 1; 2; 3; 4] [(0, 1); (1, 2); (3, 2); (2, 4)]) [0; 3] [4] [(0, a); (1, b); (3, c); (2, meas_clifford d K6)] [], [(1, 2); (0, 3); (2, 4)]).
Proof.
  split.
  - intros v u x y A B D. cbn in A. destruct v as [|[|v]]; try discriminate. injection A as <-. cbn in D. discriminate.
  - reflexivity.
Qed.
Example compose_errors : og_compose (fun _ _ => false) (bare_line (MPauli AX Plus) (MPauli AX Plus)) (bare_line (MPauli AX Plus) (MPauli AX Plus)) [(0, 0)] = Err EOpenGraph /\
  og_compose (fun _ _ => true) (bare_line (MPauli AX Plus) (MPauli AX Plus)) (bare_line (MPauli AX Plus) (MPauli AX Plus)) [(3, 0)] = Err EValue /\
  og_compose (fun _ _ => true) (bare_line (MPauli AX Plus) (MPauli AX Plus)) (bare_line (MPauli AX Plus) (MPauli AX Plus)) [(0, 1); (1, 1)] = Err EValue.
Proof. vm_compute. auto. Qed.
Example neighbours a b : og_neighbors (line_og a b) (of_list [0; 2]) = Ok (sing 1) /\ og_odd (line_og a b) (of_list [0; 2]) = Ok sempty /\ og_odd (line_og a b) (of_list [0; 1]) = Ok (of_list [0; 1; 2]).
Proof. vm_compute. auto. Qed.
Example construct_rejects a : og_make (Graph [0; 1] [(0, 1)]) [0] [1] [] [] = Err EOpenGraph /\ og_make (Graph [0; 1] [(0, 1)]) [0] [1; 1] [(0, a)] [] = Err EOpenGraph /\
  og_make (Graph [0; 1] [(0, 1)]) [0] [1] [(0, a)] [(0, K1)] = Err EOpenGraph.
Proof. vm_compute. auto. Qed.

(** *** What composition does not do *)
(** the documented requirements hold, yet composing from the empty open graph fails *)
Theorem C39_empty_refuted : ~ (forall close og1 og2 mapping, og_ok og1 -> og_ok og2 -> NoDup (dkeys mapping) ->
  (forall v, In v (dkeys mapping) -> In v (g_nodes (og_graph og2))) -> NoDup (dvals mapping) -> compatible close og1 og2 mapping ->
  exists og mc, og_compose close og1 og2 mapping = Ok (og, mc)).
Proof.
  intros H. destruct (H (fun _ _ => true) (OG (Graph [] []) [] [] [] []) (bare_line (MPauli AX Plus) (MPauli AX Plus)) []) as (og & mc & E).
  - apply og_ok_dec; try reflexivity. apply graph_ok_dec; try reflexivity. constructor.
  - apply bare_line_ok.
  - constructor.
  - intros v [].
  - constructor.
  - intros v u a b A. discriminate.
  - discriminate.
Qed.
Print Assumptions C39_empty_refuted.
Lemma not_leq l l' f f' : den l (fun _ => C1) f = C1 -> den l' (fun _ => C1) f = C1 -> den l (fun _ => C1) f' = C1 -> den l' (fun _ => C1) f' = Copp C1 -> ~ l ≈ l'.
Proof.
  intros A B D E (c & _ & K). pose proof (f_equal (fun s => s f) (K (fun _ => C1))) as K1. pose proof (f_equal (fun s => s f') (K (fun _ => C1))) as K2. cbv beta in K1, K2. unfold cscale in K1, K2.
  rewrite A, B in K1. rewrite D, E in K2. destruct c as [x y]. apply (f_equal re) in K1, K2. cbn in K1, K2. lra.
Qed.
Lemma cz_one u v f : den [OCz u v] (fun _ => C1) f = sgn (f u && f v).
Proof. cbn [den app_op]. ring. Qed.
(** a graph on two nodes joined by an edge *)
Definition two_og : opengraph := OG (Graph [0; 1] [(0, 1)]) [0; 1] [0; 1] [] [].
Lemma two_ok : og_ok two_og.
Proof. apply og_ok_dec; try reflexivity. apply graph_ok_dec; try reflexivity. repeat constructor; cbn; intuition. Qed.
(** outputs merged with inputs, but an edge of both graphs is kept once instead of
    being cancelled: CZ instead of CZ CZ *)
Theorem C39_common_edge_refuted : ~ (forall close og1 og2 mapping og mc, og_ok og1 -> og_ok og2 -> NoDup (dkeys mapping) ->
  og_compose close og1 og2 mapping = Ok (og, mc) ->
  (forall v u, merged_pair og1 mapping v u -> In u (og_out og1) /\ In v (og_in og2) /\ dget (og_cliff og1) u = None) ->
  graph_ops og ≈ graph_ops og1 ++ graph_ops (og_rename mc og2)).
Proof.
  intros H. specialize (H (fun _ _ => true) two_og two_og [(0, 0); (1, 1)] two_og [(0, 0); (1, 1)] two_ok two_ok).
  assert (K : graph_ops two_og ≈ graph_ops two_og ++ graph_ops (og_rename [(0, 0); (1, 1)] two_og)).
  { apply H; [apply ndb_spec; reflexivity|reflexivity|]. intros v u [A B]. cbn in A. destruct v as [|[|v]]; [injection A as <-|injection A as <-|discriminate]; cbn; auto. }
  change (graph_ops two_og) with [OCz 0 1] in K. change (graph_ops (og_rename [(0, 0); (1, 1)] two_og)) with [OCz 0 1] in K. symmetry in K. revert K.
  apply (not_leq _ _ (fun _ => false) (fun _ => true)); rewrite ?cz_one; cbn [den app_op app]; unfold sgn; cbn; ring.
Qed.
Print Assumptions C39_common_edge_refuted.
(** outputs merged with inputs, but a pending Clifford of the first graph is applied
    after the edges of the second one *)
Definition x_og : opengraph := OG (Graph [0] []) [0] [0] [] [(0, K1)].
Lemma x_ok : og_ok x_og.
Proof. apply og_ok_dec; try reflexivity. apply graph_ok_dec; try reflexivity. repeat constructor; cbn; intuition. Qed.
Theorem C39_clifford_refuted : ~ (forall close og1 og2 mapping og mc, og_ok og1 -> og_ok og2 -> NoDup (dkeys mapping) ->
  og_compose close og1 og2 mapping = Ok (og, mc) ->
  (forall v u, merged_pair og1 mapping v u -> In u (og_out og1) /\ In v (og_in og2)) ->
  (forall v w a b, merged_pair og1 mapping v a -> merged_pair og1 mapping w b -> adjacent (og_graph og2) v w -> ~ adjacent (og_graph og1) a b) ->
  graph_ops og ≈ graph_ops og1 ++ graph_ops (og_rename mc og2)).
Proof.
  intros H. specialize (H (fun _ _ => true) x_og two_og [(0, 0)] (OG (Graph [0; 1] [(0, 1)]) [0; 1] [0; 1] [] [(0, K1)]) [(0, 0); (1, 1)] x_ok two_ok).
  match type of H with _ -> _ -> _ -> _ -> ?l ≈ ?r => assert (K : l ≈ r) end.
  { apply H; [apply ndb_spec; reflexivity|reflexivity| |].
    - intros v u [A B]. cbn in A. destruct v as [|v]; [injection A as <-|discriminate]; cbn; auto.
    - intros v w a b _ _ _ [K|K]; destruct K. }
  unfold graph_ops in K. cbn [og_prepared og_graph g_nodes og_in g_edges og_meas og_cliff x_og two_og og_rename g_relabel map filter lmem existsb negb app fst snd rl dget Nat.eqb orb] in K.
  rewrite clifford_mat_X in K. revert K.
  apply (not_leq _ _ (fun _ => false) (fun _ => true)); cbn [den app_op app]; unfold sgn, mX; cbn; ring.
Qed.
Print Assumptions C39_clifford_refuted.
