(** Property theorems: patterns from open graphs (C44), extraction of the
    XZ-corrections of a pattern (C45). *)
From Coq Require Import Reals Lra Arith ZArith List Bool Lia Permutation.
From Verif Require Import Cplx Mat2 NSet QState Fundamentals CliffordDb Clifford Measure Layer Pattern Standardize PropStd
  FlowSem FlowDet OpenGraph FlowSpec Flow FlowWF FlowPat OGMap PropFlow TopGen Corr CFlow PropFind GPFlow PropGPFlow Space SpaceMin SpaceHeur PropSpace TranspilePat Extract.
Import ListNotations.

(** ** C44 *)
(** opengraph.py:106-146 OpenGraph.to_pattern: a causal flow is searched when all
    the measurements are Bloch measurements (downcast_bloch, opengraph.py:212-240,
    raises TypeError otherwise), then a Pauli flow *)
Definition og_to_pattern (it : iter) (og : opengraph) : res pattern :=
  do f <- (if forallb (fun p => is_bloch (snd p)) (og_meas og) then find_cflow it og else Ok None);
  match f with
  | Some f => do xz <- cf_to_xz f; xz_to_pattern it xz None
  | None =>
      do g <- find_pauliflow it og;
      match g with
      | Some g => do xz <- pf_to_xz it g; xz_to_pattern it xz None
      | None => Err EOpenGraph
      end
  end.
Lemma bloch_planar og : og_ok og -> forallb (fun p => is_bloch (snd p)) (og_meas og) = true -> planar og.
Proof.
  intros Hog H n m Hm. apply dget_In in Hm. rewrite forallb_forall in H. specialize (H _ Hm). cbn in H. destruct m; [eauto|discriminate].
Qed.
(** For every open graph without self loops, whatever the iteration order of
    sets: to_pattern returns a runnable pattern with the inputs and outputs of
    the graph, deterministic and implementing the graph, if the graph has a
    Pauli flow; it raises OpenGraphError if the graph has none; nothing else *)
Theorem C44_to_pattern : forall it og, iter_ok it -> og_ok og -> simple (og_graph og) ->
  (exists p, og_to_pattern it og = Ok p /\ (exists cf ls, pauli_flow og cf ls) /\
     p_in p = og_in og /\ p_out p = og_out og /\ check_runnability p = Ok tt /\ deterministic p /\ implements p og) \/
  (og_to_pattern it og = Err EOpenGraph /\ forall cf ls, ~ pauli_flow og cf ls).
Proof.
  intros it og H1 H2 H3. unfold og_to_pattern.
  assert (G : (exists f, (if forallb (fun p => is_bloch (snd p)) (og_meas og) then find_cflow it og else Ok None) = Ok (Some f) /\ planar og /\ find_cflow it og = Ok (Some f)) \/
     (if forallb (fun p => is_bloch (snd p)) (og_meas og) then find_cflow it og else Ok None) = Ok None).
  { destruct (forallb _ (og_meas og)) eqn:B; auto. pose proof (bloch_planar og H2 B) as P. destruct (find_cflow_correct it og H1 H2 P) as [(f & E & _)|[E _]]; eauto. }
  destruct G as [(f & G & P & E)|G]; rewrite G; cbn [rbind].
  - left. destruct (C15_pattern it og f H1 H2 H3 P E) as (xz & Ex & (p & Ep) & YY & Y). rewrite Ex. cbn [rbind]. exists p. split; auto. split; [|eapply Y; eauto].
    destruct (find_cflow_correct it og H1 H2 P) as [(f' & _ & _ & _ & C & _)|[E' _]]; [|congruence]. exists (pf_cf f'), (pf_layers f').
    apply (gflow_pauli (PF og _ _)); auto. apply (causal_gflow (PF og _ _)); auto.
  - destruct (find_pauliflow_correct it og H1 H2 H3) as [(f & E & A & _ & B & _)|[E N]]; rewrite E; cbn [rbind]; [left|right; auto].
    destruct (proj1 (C17_pattern it og f H1 H2 H3) E) as (xz & Ex & (p & Ep) & YY & Y). rewrite Ex. cbn [rbind]. exists p. split; auto. split; [eauto|eapply Y; eauto].
Qed.
Print Assumptions C44_to_pattern.
(** *** Non-vacuity: a line (causal flow), a line measured along X then Y (no
    causal flow is searched), and a node with nobody to correct it *)
Example to_pattern_line a b : exists p, og_to_pattern elems (line_og (MBloch a PXY) (MBloch b PXY)) = Ok p /\ length (p_seq p) = 10.
Proof. eexists. split; [vm_compute; reflexivity|]. reflexivity. Qed.
Example to_pattern_pauli : exists p, og_to_pattern elems (line_og (MPauli AX Plus) (MPauli AY Plus)) = Ok p.
Proof. eexists. vm_compute. reflexivity. Qed.
Example to_pattern_none a : og_to_pattern elems (OG (Graph [0; 1] [(0, 1)]) [0; 1] [1] [(0, MBloch a PXY)] []) = Err EOpenGraph.
Proof. vm_compute. reflexivity. Qed.

(** ** C45 *)
(** pattern.py:1130-1151 Pattern.to_xzcorrections; [es]: the edges of the
    standardized pattern as networkx lists them *)
Definition pat_to_xz (it : iter) (p : pattern) (es : list (nat * nat)) : res xzcorr := do st <- from_pattern p; std_to_xz it st es.
(** [es] lists the edges of the graph of [p]: those entangled an odd number of times *)
Definition edges_of (p : pattern) (es : list (nat * nat)) : Prop := forall st, from_pattern p = Ok st -> edge_enum st es.
Definition all_plus (p : pattern) : Prop := forall n s, In (CN n s) (p_seq p) -> s = SPlus.
(** Whatever the pattern and the iteration order of sets: if the extraction of
    the XZ-corrections succeeds then all nodes are prepared in |+>, and every
    pattern generated from the corrections (in whatever accepted measurement
    order) is runnable, has the same inputs and outputs and computes the same
    map in every branch.  It fails only on patterns that are not runnable, on
    patterns that cannot be standardized (NotImplementedError: Clifford command
    before an entanglement) and, with ValueError, exactly if some node is not
    prepared in |+> *)
Theorem C45_round_trip : forall it p es, iter_ok it -> pat_ok p -> sem_ok (p_seq p) = true -> edges_of p es ->
  match pat_to_xz it p es with
  | Ok xz => all_plus p /\ og_in (xz_og xz) = p_in p /\ og_out (xz_og xz) = p_out p /\
      (forall n, In n (g_nodes (og_graph (xz_og xz))) <-> exists_node (p_in p) (p_seq p) n) /\
      (exists q, xz_to_pattern it xz None = Ok q) /\
      (forall o, order_compat (xz_og xz) (xz_layers xz) o -> dkeys (og_meas (xz_og xz)) <> [] -> exists q, xz_to_pattern it xz (Some o) = Ok q) /\
      (forall order q, xz_to_pattern it xz order = Ok q ->
         p_in q = p_in p /\ p_out q = p_out p /\ check_runnability q = Ok tt /\ forall o, same_branch o (p_seq p) (p_seq q))
  | Err e => (exists r, e = ERun r /\ check_runnability p = Err e) \/ (e = ENotImplemented /\ exists n g, In (CC n g) (p_seq p)) \/ (e = EValue /\ ~ all_plus p)
  end.
Proof.
  intros it p es Hit PO SO EO. unfold pat_to_xz. destruct (from_pattern p) as [st|e] eqn:E; cbn [rbind].
  2:{ destruct (from_pattern_err p e E) as [(r & -> & N)| ->].
      - left. exists r. split; auto. unfold from_pattern in E. destruct (check_runnability p) as [[]|e'] eqn:C; cbn [rbind] in E; [exfalso; apply N, check_runnability_spec; auto|congruence].
      - right; left. split; auto. destruct (existsb (fun c => match c with CC _ _ => true | _ => false end) (p_seq p)) eqn:X.
        { apply existsb_exists in X. destruct X as (c & X1 & X2). destruct c; try discriminate. eauto. }
        assert (I : forall n g, ~ In (CC n g) (p_seq p)).
        { intros n g K. apply not_true_iff_false in X. apply X, existsb_exists. exists (CC n g). auto. }
        destruct (check_runnability p) as [[]|e'] eqn:C.
        + apply check_runnability_spec in C. destruct (from_pattern_noC p C I); congruence.
        + unfold from_pattern in E. rewrite C in E. cbn [rbind] in E. unfold check_runnability in C. destruct (run_state (p_in p) (p_seq p)) as [x|x] eqn:R; [discriminate|].
          destruct (run_state_err _ _ _ R) as (r & Er). rewrite Er in *. congruence. }
  destruct (std_facts p st PO SO E) as (W & OK & NI & HL & EI & EOut & RU & _ & EN). pose proof (EO st E) as HE.
  destruct (forallb (fun q => is_plus (snd q)) (sp_n st)) eqn:FP.
  - assert (HP : forall q, In q (sp_n st) -> snd q = SPlus).
    { intros q Hq. rewrite forallb_forall in FP. specialize (FP q Hq). destruct (snd q); [auto|discriminate]. }
    destruct (std_to_xz_ok it st es Hit W OK NI HE HL HP) as (ls & Es & OO & CO). rewrite Es.
    pose proof (sog_ok st es W OK NI HE) as OG. set (xz := XZ _ _ _ ls). split.
    { intros n s Hn. apply (HP (n, s)). rewrite EN. unfold ns_of. apply in_flat_map. exists (CN n s). split; auto. left; auto. }
    split; [exact EI|]. split; [exact EOut|]. split.
    { intros n. unfold xz. cbn [xz_og og_graph]. rewrite (sg_nodes st es W n). unfold std_node, exists_node. rewrite EI, EN. split; (intros [K|K]; [left; auto|right]).
      - apply in_map_iff in K. destruct K as ([k s] & <- & K). exists s. unfold ns_of in K. apply in_flat_map in K. destruct K as (c & K1 & K2). destruct c; cbn in K2; try tauto. destruct K2 as [[= <- <-]|[]]. auto.
      - destruct K as (s & K). apply in_map_iff. exists (n, s). split; auto. unfold ns_of. apply in_flat_map. exists (CN n s). split; auto. left; auto. }
    assert (HR : xz_respects xz). { intros u v _ H. apply CO, corrects_dgets; auto. }
    split; [|split].
    + destruct (total_order_ok (xz_og xz) ls OG OO it xz Hit eq_refl eq_refl) as (o & T & OC). destruct (xz_pattern_ok it Hit xz OG OO HR None o T OC) as (q & Q & _); eauto.
    + intros o OC N. destruct (xz_pattern_ok it Hit xz OG OO HR (Some o) o eq_refl OC) as (q & Q & _); eauto.
    + intros order q Q. destruct (xz_pattern_inv it Hit xz OG OO HR order q Q) as (o & OC & _ & A & B & D & F).
      split; [rewrite A; exact EI|]. split; [rewrite B; exact EOut|]. split; [apply check_runnability_spec; auto|]. intros br. eapply same_branch_trans; [apply (from_pattern_same p st es PO SO E HE)|].
      unfold same_branch. rewrite D. symmetry. apply (std_xz_round it st es Hit W OK NI HE HP ls o OO CO OC).
  - unfold std_to_xz, std_opengraph. rewrite FP. cbn [negb rbind]. right; right. split; auto. intros AP. apply not_true_iff_false in FP. apply FP. apply forallb_forall. intros [n s] Hn. rewrite EN in Hn.
    unfold ns_of in Hn. apply in_flat_map in Hn. destruct Hn as (c & K1 & K2). destruct c; cbn in K2; try tauto. destruct K2 as [[= <- <-]|[]]. rewrite (AP _ _ K1). reflexivity.
Qed.
Print Assumptions C45_round_trip.
(** *** Non-vacuity: corrections in the middle, an edge entangled three times, a
    Pauli measurement with both domains, a Clifford command *)
Definition ex45 (a : R) : pattern :=
  Pat [0] [CN 1 SPlus; CE 0 1; CM 0 (MBloch a PXY) sempty sempty; CX 1 (sing 0); CN 2 SPlus; CE 1 2; CE 2 1; CE 1 2;
           CM 1 (MPauli AY Plus) sempty (sing 0); CX 2 (sing 1); CZ 2 (sing 0); CC 2 gH] [2] 3.
Example ex45_ok a : pat_ok (ex45 a) /\ sem_ok (p_seq (ex45 a)) = true /\
  exists xz, pat_to_xz elems (ex45 a) [(0, 1); (1, 2)] = Ok xz /\ exists q, xz_to_pattern elems xz None = Ok q /\ length (p_seq q) = 10.
Proof.
  split; [|split; [reflexivity|]].
  - split; [repeat constructor; cbn; tauto|]. unfold pat_wf. vm_compute. apply Permutation_refl.
  - eexists. split; [vm_compute; reflexivity|]. eexists. split; [vm_compute; reflexivity|]. reflexivity.
Qed.
Example ex45_edges a : edges_of (ex45 a) [(0, 1); (1, 2)].
Proof. intros st H. vm_compute in H. injection H as <-. unfold edge_enum. vm_compute. repeat constructor. Qed.
