(** Property theorems: standardization, runnability, container (C01-C05). *)
From Coq Require Import Reals Arith List Bool Permutation.
From Verif Require Import Cplx Mat2 Fundamentals CliffordDb Clifford NSet Measure QState Pattern Layer Standardize.
Import ListNotations.

(** A non-trivial runnable pattern: two wires, an input, adaptive measurements,
    corrections before an entanglement, a Clifford command before a measurement. *)
Definition ex_pat (a : R) : pattern :=
  pat_extend (pat_new [0])
    [CN 1 SPlus; CN 2 SPlus; CE 0 1; CM 0 (MBloch a PXY) sempty sempty; CX 1 (sing 0); CE 1 2; CC 1 K1;
     CC 1 K6; CZ 1 (sing 0); CM 1 (MPauli AY Minus) (sing 0) sempty; CN 3 SPlus; CX 2 (sing 1); CC 2 K2; CE 2 3; CT].
Lemma ex_pat_ok a : pat_ok (ex_pat a).
Proof. split; [repeat constructor; simpl; intuition discriminate|]. apply Permutation_refl. Qed.
Lemma ex_pat_sem a : sem_ok (p_seq (ex_pat a)) = true. Proof. reflexivity. Qed.
Lemma ex_pat_runnable a : runnable (p_in (ex_pat a)) (p_seq (ex_pat a)).
Proof. apply check_runnability_spec. reflexivity. Qed.
Lemma ex_pat_from a : exists st, from_pattern (ex_pat a) = Ok st /\ length (sp_m st) = 2 /\ length (sp_e st) = 3.
Proof.
  assert (K : match from_pattern (ex_pat a) with Ok st => ((length (sp_m st) =? 2) && (length (sp_e st) =? 3))%nat%bool | Err _ => false end = true)
    by (vm_compute; reflexivity).
  destruct (from_pattern (ex_pat a)) as [st|]; [|discriminate]. exists st. split; auto.
  apply andb_true_iff in K. destruct K as [K1 K2]. split; apply Nat.eqb_eq; auto.
Qed.
Lemma std_enum_self p st : from_pattern p = Ok st -> edge_enum st (sp_e st).
Proof.
  intros E. unfold edge_enum. rewrite (map_ext_in edge_norm (fun e => e)); [rewrite map_id; apply Permutation_refl|].
  intros e He. apply from_pattern_inv in E. destruct E as [_ I]. apply (si_e _ _ _ I e He).
Qed.
Lemma std_exists p st : pat_ok p -> sem_ok (p_seq p) = true -> from_pattern p = Ok st -> exists p', standardizes p (Ok p').
Proof.
  intros H1 H2 E. pose proof (std_enum_self _ _ E) as HE.
  destruct (standardizes_ok p (to_pattern st (sp_e st)) H1 H2) as [(r & H & N)|[H|H]].
  - unfold standardizes. rewrite E. eauto.
  - apply from_pattern_inv in E. tauto.
  - exfalso. unfold to_pattern in H. rewrite (no_loops p st _ E H2 HE) in H. unfold reorder_output_nodes in H.
    destruct (assert_permutation (p_out (pat_extend (pat_new (sp_in st)) (std_cmds st (sp_e st)))) (sp_out st)) eqn:Q; [discriminate|].
    apply assert_permutation_err in Q. congruence.
  - destruct H as (st' & es & p' & E' & HE' & Hr & _). exists p'. unfold standardizes. rewrite E. eauto.
Qed.
Lemma ex_pat_std a : exists p', standardizes (ex_pat a) (Ok p').
Proof.
  destruct (ex_pat_from a) as (st & E & _). exact (std_exists _ _ (ex_pat_ok a) (ex_pat_sem a) E).
Qed.

(** ** C01 *)
Theorem C01_standardize_preserves_computation : forall p p',
  pat_ok p -> sem_ok (p_seq p) = true -> standardizes p (Ok p') ->
  p_in p' = p_in p /\ p_out p' = p_out p /\ forall o, same_branch o (p_seq p) (p_seq p').
Proof.
  intros p p' H1 H2 H3. destruct (standardizes_ok p (Ok p') H1 H2 H3) as [(r & H & _)|[H|H]]; try discriminate.
  destruct H as (st & es & q & _ & _ & [= <-] & _ & Hi & Ho & _ & _ & _ & Hs). auto.
Qed.
Print Assumptions C01_standardize_preserves_computation.
(** whatever the iteration order of the edge set, standardize returns a pattern
    unless the pattern is not runnable (RunnabilityError) or a Clifford command
    cannot be moved past an entanglement (NotImplementedError) *)
Theorem C01_standardize_total : forall p r,
  pat_ok p -> sem_ok (p_seq p) = true -> standardizes p r ->
  (exists p', r = Ok p') \/ (exists rs, r = Err (ERun rs) /\ ~ runnable (p_in p) (p_seq p)) \/ r = Err ENotImplemented.
Proof.
  intros p r H1 H2 H3. destruct (standardizes_ok p r H1 H2 H3) as [H|[H|H]]; auto.
  destruct H as (st & es & q & _ & _ & H & _). eauto.
Qed.
Print Assumptions C01_standardize_total.
Theorem C01_standardize_total_without_clifford : forall p r,
  pat_ok p -> sem_ok (p_seq p) = true -> runnable (p_in p) (p_seq p) -> (forall n g, ~ In (CC n g) (p_seq p)) ->
  standardizes p r -> exists p', r = Ok p'.
Proof.
  intros p r H1 H2 HR HC H3. destruct (standardizes_ok p r H1 H2 H3) as [(rs & _ & N)|[H|H]].
  - contradiction.
  - exfalso. destruct (from_pattern_noC p HR HC) as (st & E). unfold standardizes in H3. rewrite E in H3.
    destruct H3 as (es & HE & Hr). rewrite H in Hr. unfold to_pattern in Hr.
    rewrite (no_loops p st es E H2 HE) in Hr. unfold reorder_output_nodes in Hr.
    destruct (assert_permutation (p_out (pat_extend (pat_new (sp_in st)) (std_cmds st es))) (sp_out st)) eqn:Q; [discriminate|]. apply assert_permutation_err in Q. congruence.
  - destruct H as (st & es & q & _ & _ & H & _). eauto.
Qed.
Print Assumptions C01_standardize_total_without_clifford.
Example C01_case a : exists p', pat_ok (ex_pat a) /\ sem_ok (p_seq (ex_pat a)) = true /\ standardizes (ex_pat a) (Ok p').
Proof. destruct (ex_pat_std a) as (p' & H). exists p'. exact (conj (ex_pat_ok a) (conj (ex_pat_sem a) H)). Qed.

(** ** C02 *)
(** N, then E, then M, then Z, then X, then C commands; same preparations and
    measured nodes in the same order; an edge is kept iff it occurs an odd
    number of times; corrections and Cliffords at most once per node *)
Theorem C02_standard_order : forall p p',
  pat_ok p -> sem_ok (p_seq p) = true -> standardizes p (Ok p') ->
  exists ns es ms zs xs cs,
    p_seq p' = map (fun p => CN (fst p) (snd p)) ns ++ map (fun e => CE (fst e) (snd e)) es ++ map mcmd_cmd ms
      ++ map (fun p => CZ (fst p) (snd p)) zs ++ map (fun p => CX (fst p) (snd p)) xs ++ map (fun p => CC (fst p) (snd p)) cs
    /\ ns = ns_of (p_seq p) /\ map mc_node ms = ms_of (p_seq p)
    /\ (forall e, In (edge_norm e) (map edge_norm es) <-> odd_count (edge_norm e) (edge_cmds (p_seq p)) = true)
    /\ NoDup (map edge_norm es)
    /\ NoDup (map fst zs) /\ NoDup (map fst xs) /\ NoDup (map fst cs)
    /\ (forall n, In n (map fst zs) \/ In n (map fst xs) \/ In n (map fst cs) -> In n (p_out p'))
    /\ is_standard true p' = true /\ is_standard false p' = true.
Proof.
  intros p p' H1 H2 H3. destruct (standardizes_ok p (Ok p') H1 H2 H3) as [(r & H & _)|[H|H]]; try discriminate.
  destruct H as (st & es & q & E & HE & [= <-] & Hq & Hi & Ho & Hok & HR & HR' & Hs).
  pose proof (from_pattern_inv _ _ E) as [_ HI]. pose proof (std_inv_wf _ _ _ HR HI) as W.
  pose proof (from_pattern_out_ok p st H1 E) as [_ HO]. destruct (from_pattern_io _ _ E) as [E1 E2].
  exists (sp_n st), es, (sp_m st), (sp_z st), (sp_x st), (sp_c st).
  split; [exact Hq|]. split; [apply (si_n _ _ _ HI)|]. split; [apply (si_m _ _ _ HI)|].
  split.
  { intros e. unfold from_pattern in E. destruct (check_runnability p); [|discriminate]. simpl in E.
    rewrite <- (std_fold_edges p _ st (edge_norm e) E). rewrite existsb_exists. split.
    - intros K. exists (edge_norm e). split; [eapply Permutation_in; eauto|apply edge_eqb_eq; auto].
    - intros (x & Hx & K). apply edge_eqb_eq in K. subst x. eapply Permutation_in; [apply Permutation_sym; exact HE|auto]. }
  split. { eapply Permutation_NoDup; [apply Permutation_sym; exact HE|apply (sw_eN st W)]. }
  split; [apply (sw_zN st W)|]. split; [apply (sw_xN st W)|]. split; [apply (sw_cN st W)|].
  split. { intros n K. rewrite Ho, <- E2, HO. destruct K as [K|[K|K]]; [apply (sw_zk st W n K)|apply (sw_xk st W n K)|apply (sw_ck st W n K)]. }
  split; eapply std_is_standard; eauto.
Qed.
Print Assumptions C02_standard_order.

(** ** C03 *)
Theorem C03_standardize_runnable : forall p p',
  pat_ok p -> sem_ok (p_seq p) = true -> standardizes p (Ok p') ->
  check_runnability p = Ok tt /\ check_runnability p' = Ok tt.
Proof.
  intros p p' H1 H2 H3. destruct (standardizes_ok p (Ok p') H1 H2 H3) as [(r & H & _)|[H|H]]; try discriminate.
  destruct H as (st & es & q & E & HE & [= <-] & Hq & Hi & Ho & Hok & HR & HR' & Hs).
  split; apply check_runnability_spec; auto.
Qed.
Print Assumptions C03_standardize_runnable.

(** ** C04 *)
Theorem C04_check_runnability_exact : forall p,
  (check_runnability p = Ok tt <-> runnable (p_in p) (p_seq p)) /\
  (forall e, check_runnability p = Err e -> exists r, e = ERun r).
Proof.
  intros p. split; [apply check_runnability_spec|]. intros e. unfold check_runnability.
  destruct (run_state (p_in p) (p_seq p)) eqn:E; [discriminate|]. intros [= <-]. eapply run_state_err; eauto.
Qed.
Print Assumptions C04_check_runnability_exact.
Example C04_accepts a : check_runnability (ex_pat a) = Ok tt. Proof. reflexivity. Qed.
Example C04_rejects : check_runnability (Pat [] [CN 0 SPlus; CX 0 (sing 1)] [0] 1) = Err (ERun NotYetMeasured).
Proof. reflexivity. Qed.

(** ** C05 *)
(** any list of commands appended to a new pattern *)
Theorem C05_container : forall inp l,
  p_in (pat_extend (pat_new inp) l) = inp /\ p_seq (pat_extend (pat_new inp) l) = l
  /\ p_n (pat_extend (pat_new inp) l) = length inp + count_N l
  /\ (NoDup inp -> runnable inp l -> NoDup (p_out (pat_extend (pat_new inp) l))
       /\ forall n, In n (p_out (pat_extend (pat_new inp) l)) <-> live inp l n).
Proof.
  intros inp l. destruct (pat_extend_fields (pat_new inp) l) as (H1 & H2 & H3).
  rewrite H1, H2, H3, pat_extend_n. simpl. do 3 (split; [reflexivity|]). intros HI HR. apply outs_of_live; auto.
Qed.
Print Assumptions C05_container.
(** after any history of container calls (rejected calls leave the pattern
    unchanged), the inputs are distinct and, if the pattern is runnable, the
    outputs are exactly the live nodes, each once *)
Theorem C05_history : forall inp calls,
  NoDup inp -> (forall l inp', In (PReplace l (Some inp')) calls -> NoDup inp') ->
  let p := fold_left pstep calls (pat_new inp) in
  NoDup (p_in p) /\ (runnable (p_in p) (p_seq p) ->
    NoDup (p_out p) /\ forall n, In n (p_out p) <-> live (p_in p) (p_seq p) n).
Proof.
  intros inp calls HI H p.
  assert (J : hist_ok p).
  { unfold p. clear p. assert (G : forall q, hist_ok q -> hist_ok (fold_left pstep calls q)).
    { induction calls as [|c calls IH]; simpl; auto. intros q Hq. apply IH; [intros; eapply H; simpl; eauto|].
      apply hist_ok_step; auto. intros l i ->. eapply H; simpl; eauto. }
    apply G, hist_ok_new; auto. }
  destruct J as [NI P]. split; auto. intros HR. specialize (P HR).
  destruct (outs_of_live _ _ NI HR) as [A B]. split.
  - eapply Permutation_NoDup; [apply Permutation_sym; eauto|auto].
  - intros n. rewrite <- B. split; apply Permutation_in; auto. apply Permutation_sym; auto.
Qed.
Print Assumptions C05_history.
Example C05_case : let p := fold_left pstep [PAdd (CN 1 SPlus); PExtend [CE 0 1; CM 0 (MPauli AX Plus) sempty sempty]; PReorderOut [1]] (pat_new [0]) in
  runnable (p_in p) (p_seq p) /\ p_out p = [1].
Proof. split; [apply check_runnability_spec; reflexivity|reflexivity]. Qed.
Theorem C05_reorder : forall p outs,
  (forall p', reorder_output_nodes p outs = Ok p' -> p' = Pat (p_in p) (p_seq p) outs (p_n p)) /\
  (forall e, reorder_output_nodes p outs = Err e -> e = EPattern) /\
  ((exists p', reorder_output_nodes p outs = Ok p') <-> NoDup outs /\ forall n, In n outs <-> In n (p_out p)).
Proof.
  intros p outs. unfold reorder_output_nodes. split; [|split].
  - intros p'. destruct (assert_permutation _ _); congruence.
  - intros e. destruct (assert_permutation _ _) eqn:E; [congruence|]. intros [= <-]. eapply assert_permutation_err; eauto.
  - rewrite <- assert_permutation_spec. destruct (assert_permutation _ _) as [[]|]; split; eauto; try discriminate.
    intros (p' & K); discriminate.
Qed.
Print Assumptions C05_reorder.
