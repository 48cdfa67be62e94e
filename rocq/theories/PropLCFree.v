(** Property theorems: removal of the local Clifford commands (C35). *)
From Coq Require Import Reals Lra Arith List Bool Lia Permutation FunctionalExtensionality.
From Verif Require Import Cplx Mat2 NSet Fundamentals CliffordDb Clifford Measure QState Layer Pattern Standardize FlowSem FlowDet
  OpenGraph FlowSpec Flow FlowWF FlowPat OGMap PropFlow CFlow PropFind GPFlow PropGPFlow PropExtract TranspilePat Compose Reindex GraphSimThm RunBranch RemovePauliFin Simulator Push PropPush PropRemovePauli LCFree.
Import ListNotations.

(** * Specification *)
(** the state of the node [u] moved to the node [v] *)
Definition moved (u v : nat) (psi : state) : state := relab (tr u v) psi.

(** * Clifford.to_opengraph *)
(** For each of the 24 Clifford gates, Clifford.to_opengraph() succeeds; the
    open graph has one input and one output, only Pauli measurements and no
    local Clifford; it has a flow, and every branch of the pattern generated
    from it applies the gate to the input and moves it to the output node,
    up to a phase and a factor 1/sqrt 2 per measurement *)
Theorem C35_to_opengraph : forall it c, iter_ok it -> exists og q,
  clifford_to_og c = Ok og /\ og_ok og /\ og_in og = [0] /\ og_cliff og = [] /\ (forall n m, dget (og_meas og) n = Some m -> is_pauli m = true) /\
  og_to_pattern it og = Ok q /\ p_in q = [0] /\ (forall n d, ~ In (CC n d) (p_seq q)) /\ exists out, p_out q = [out] /\
  forall o, exists z, phase z /\ forall psi, input_only (prepared_in (p_seq q)) psi ->
    den (seq_ops o (p_seq q)) psi = cscale (z * hk (count_N (p_seq q)))%C (moved 0 out (app_op (OApp1 (clifford_mat c) 0) psi)).
Proof.
  intros it c Hit. destruct (gadget it c Hit) as (q & E & QI & QO & QR & QW & QS & QC & QP & QN & QD). destruct (clifford_og_ok c) as (E1 & E2 & _).
  exists (clifford_og c), q. do 4 (split; [auto|]). split.
  { intros n m H. apply dget_In in H. unfold clifford_og in H. cbn [og_meas] in H. apply in_combine_r in H. apply decomp_xy in H. destruct H as [ -> | [ -> | [ -> | -> ]]]; reflexivity. }
  do 3 (split; [auto|]). exists (length (clifford_decomp c)). split; auto. rewrite QN. intros o. destruct (QD o) as (z & Pz & Z). exists z. split; auto. intros psi HI. apply Z. intros j Hj. apply HI, QP. lia.
Qed.
Print Assumptions C35_to_opengraph.

(** * remove_local_clifford_commands *)
Lemma measured_indep inp l o psi n : runnable inp l -> measured_in l n -> indep n (den (seq_ops o l) psi).
Proof.
  induction l as [|c l IH] using rev_ind; intros HR (m & s & t & H); [destruct H|]. apply runnable_snoc in HR. destruct HR as [HR OK].
  rewrite seq_ops_app, den_app. cbn [seq_ops flat_map]. rewrite app_nil_r. apply in_app_or in H. destruct H as [H|[->|[]]].
  - assert (M : measured_in l n) by (exists m, s, t; auto). specialize (IH HR M). apply indep_den; auto. intros p Hp Hn.
    assert (NL : ~ live inp l n) by (intros [_ K]; auto). assert (NN : In n inp \/ prepared_in l n) by (eapply runnable_measured; eauto).
    destruct c as [k st|u v|k m' s' t'|k d|k d|k c|k d|]; cbn [cmd_ops cmd_ok] in *; try (destruct (parity o d)); try destruct Hp as [<-|[]]; try destruct Hp as [<-|[]]; try (destruct Hp; fail); cbn [onodes In] in Hn.
    + destruct Hn as [<-|[]]. tauto.
    + destruct OK. destruct Hn as [<-|[<-|[]]]; tauto.
    + destruct OK. destruct Hn as [<-|[]]; tauto.
    + destruct OK. destruct Hn as [<-|[]]; tauto.
    + destruct OK. destruct Hn as [<-|[]]; tauto.
    + destruct Hn as [<-|[]]; tauto.
  - cbn [cmd_ops den]. apply meas_indep.
Qed.
Lemma no_nodes p : is_empty (pat_nodes p) = true -> forall n, ~ (In n (p_in p) \/ prepared_in (p_seq p) n).
Proof. intros E n H. apply pat_nodes_spec in H. pose proof (is_empty_mem _ E n). congruence. Qed.
(** For every runnable pattern without a C(n, I) command, whatever the iteration
    order of sets: the result has the same inputs, is runnable, contains no C
    command; its nodes are those of the pattern and fresh ones; the node [n] of
    the pattern becomes [mu n], which is [n] itself if no C command acts on [n]
    and a fresh label or [n] in general; the outputs are the images of the
    outputs, in the same order; and every branch of the result computes the
    branch of the pattern with the same outcomes, up to a phase and a factor
    1/sqrt 2 for each added node *)
Theorem C35_remove_local_clifford : forall it p, iter_ok it -> pat_ok p -> check_runnability p = Ok tt -> has_no_S (p_seq p) ->
  (forall n, ~ In (CC n K0) (p_seq p)) ->
  exists p' mu, remove_local_clifford it p = Ok p' /\
    p_in p' = p_in p /\ pat_ok p' /\ check_runnability p' = Ok tt /\ has_no_S (p_seq p') /\ (forall n c, ~ In (CC n c) (p_seq p')) /\
    p_out p' = map mu (p_out p) /\
    (forall n, exists_node (p_in p) (p_seq p) n -> exists_node (p_in p') (p_seq p') n /\ exists_node (p_in p') (p_seq p') (mu n)) /\
    (forall a b, exists_node (p_in p) (p_seq p) a -> exists_node (p_in p) (p_seq p) b -> mu a = mu b -> a = b) /\
    (forall n, exists_node (p_in p) (p_seq p) n -> mu n = n \/ ~ exists_node (p_in p) (p_seq p) (mu n)) /\
    (forall n, exists_node (p_in p) (p_seq p) n -> (forall c, ~ In (CC n c) (p_seq p)) -> mu n = n) /\
    (forall n, measured_in (p_seq p) n -> measured_in (p_seq p') (mu n)) /\
    exists k, count_N (p_seq p') = count_N (p_seq p) + k /\
    forall o', exists z, phase z /\
      same_map (prepared_in (p_seq p')) (exists_node (p_in p') (p_seq p')) (p_out p') (p_out p) (z * hk k)%C
        (den (seq_ops o' (p_seq p'))) (den (seq_ops (fun n => o' (mu n)) (p_seq p))).
Proof.
  intros it p Hit [NDI WF] HR HS HC. apply check_runnability_spec in HR. unfold remove_local_clifford. destruct (is_empty (pat_nodes p)) eqn:EE.
  - pose proof (no_nodes p EE) as NN. exists p, (fun n => n). split; auto. split; auto. split; [split; auto|]. split; [apply check_runnability_spec; auto|]. split; auto. split.
    { intros n c H. apply in_split in H. destruct H as (a & b & E). pose proof (HR a (CC n c) b E) as [H _]. apply (NN n). rewrite E, prepared_app. tauto. }
    split; [rewrite map_id; auto|]. split; [intros n H; exfalso; apply (NN n); exact H|]. split; [auto|]. split; [auto|]. split; [auto|]. split; auto.
    exists 0. split; [lia|]. intros o'. exists C1. split; [apply phase_1|]. intros psi _ f f' _ E. cbn [hk].
    change (fun n => o' n) with o'. replace f' with f; [ring|]. extensionality n. apply E. intros K. apply (NN n); exact K.
  - assert (RM : exists m0, rmax (elems (pat_nodes p)) = Ok m0 /\ forall n, In n (p_in p) \/ prepared_in (p_seq p) n -> n <= m0).
    { destruct (rmax (elems (pat_nodes p))) as [m0|e] eqn:E.
      - exists m0. split; auto. intros n H. apply (rmax_spec _ _ E). apply elems_spec, pat_nodes_spec; auto.
      - exfalso. unfold rmax in E. destruct (elems (pat_nodes p)) eqn:EL; [|discriminate]. apply not_true_iff_false in EE. apply EE, is_empty_spec, nset_ext. intros n. rewrite mem_empty. apply not_true_iff_false. intros K. apply elems_spec in K. rewrite EL in K. destruct K. }
    destruct RM as (m0 & -> & HM). cbn [rbind]. destruct (lcf_loop it Hit (p_in p) m0 (p_seq p) HR HS HC HM) as (np & mx & mp & F & G & l' & E & I). rewrite E. cbn [rbind].
    pose proof (li_bij _ _ _ _ _ _ _ _ _ I) as FG. pose proof (F_inj F G FG) as FI. destruct (wf_outs p NDI HR WF) as [O1 O2].
    assert (EO : map (rl mp) (p_out p) = map F (p_out p)). { apply map_ext_in. intros n Hn. symmetry. apply (li_F _ _ _ _ _ _ _ _ _ I). apply HM, O2; auto. }
    rewrite EO, (li_np _ _ _ _ _ _ _ _ _ I). destruct (pat_extend_new (p_in p) l') as (X1 & X2 & X3). pose proof (li_run _ _ _ _ _ _ _ _ _ I) as RL. destruct (outs_of_live _ _ NDI RL) as [Q1 Q2].
    assert (LV : forall n, In n (map F (p_out p)) <-> live (p_in p) l' n).
    { intros n. rewrite in_map_iff. split.
      - intros (k & <- & H). apply (li_live _ _ _ _ _ _ _ _ _ I), O2; auto.
      - intros H. exists (G n). split; [apply FG|]. apply O2, (li_live _ _ _ _ _ _ _ _ _ I). rewrite (proj2 FG). auto. }
    assert (PO : NoDup (map F (p_out p)) /\ forall n, In n (map F (p_out p)) <-> In n (outs_of (p_in p) l')).
    { split; [apply FinFun.Injective_map_NoDup; auto; intros a b; apply FI|]. intros n. rewrite Q2. auto. }
    unfold reorder_output_nodes. rewrite X1, X2, X3. rewrite (proj2 (assert_permutation_spec _ _) PO).
    exists (Pat (p_in p) l' (map F (p_out p)) (p_n (pat_extend (pat_new (p_in p)) l'))), F. split; auto. cbn [p_in p_seq p_out]. split; auto.
    split. { split; auto. unfold pat_wf. cbn [p_in p_seq p_out]. destruct PO. apply NoDup_Permutation; auto. }
    split; [apply check_runnability_spec; auto|]. split; [apply I|]. split; [apply I|]. split; auto.
    assert (NI := li_node _ _ _ _ _ _ _ _ _ I).
    split. { intros n H. split; [apply NI; auto|]. destruct (li_new _ _ _ _ _ _ _ _ _ I n (HM n H)) as [->|K]; apply NI; auto. }
    split; [intros a b _ _; apply FI|].
    split. { intros n H. destruct (li_new _ _ _ _ _ _ _ _ _ I n (HM n H)) as [K|K]; auto. right. intros Z. apply HM in Z. lia. }
    split. { intros n H. apply (li_same _ _ _ _ _ _ _ _ _ I). apply HM; auto. }
    split; [apply I|]. exists (mx - m0). split; [apply I|]. intros o'. destruct (li_sem _ _ _ _ _ _ _ _ _ I o') as (z & Pz & Z). exists z. split; auto.
    intros psi HI f' f HF HN. assert (IN : forall n, m0 < n <= mx -> indep n psi).
    { intros n Hn. apply HI. assert (K : In n (p_in p) \/ prepared_in l' n) by (apply NI; auto). destruct K as [K|K]; auto. assert (n <= m0) by (apply HM; auto). lia. }
    rewrite Z by auto. unfold cscale, relab. f_equal. set (X := den (seq_ops (fun n => o' (F n)) (p_seq p)) psi).
    (* the nodes of which the result does not depend *)
    set (L := filter (fun n => negb (lmem n (p_out p))) (elems (pat_nodes p)) ++ seq (S m0) (mx - m0)).
    apply (indep_agree X L).
    + intros n Hn. unfold L in Hn. apply in_app_or in Hn. destruct Hn as [Hn|Hn].
      * apply filter_In in Hn. destruct Hn as [H1 H2]. apply elems_spec, pat_nodes_spec in H1. apply negb_true_iff in H2. apply measured_indep with (inp := p_in p); auto.
        assert (NL : ~ live (p_in p) (p_seq p) n) by (intros K; apply O2, lmem_In in K; congruence).
        pose proof (run_state_spec (p_in p) (p_seq p)) as RS. destruct (run_state (p_in p) (p_seq p)) as [[a ms]|e]; [|tauto]. destruct RS as [_ (A1 & A2 & A3)].
        destruct (mem n ms) eqn:Em; [apply A2; auto|]. exfalso. apply NL. split; auto. intros K. apply A2 in K. congruence.
      * apply in_seq in Hn. apply indep_den; [|apply IN; lia]. intros q Hq Hk. assert (n <= m0) by (apply HM; eapply seq_onodes; eauto). lia.
    + intros n Hn. unfold L in Hn. rewrite in_app_iff, filter_In, in_seq, negb_true_iff, elems_spec, pat_nodes_spec in Hn.
      destruct (lmem n (p_out p)) eqn:EL.
      * apply lmem_In in EL. clear - HF EL. induction (p_out p) as [|a l IH]; [destruct EL|]. cbn [map] in HF. inversion HF; subst. destruct EL as [<-|EL]; auto.
      * assert (N1 : ~ exists_node (p_in p) l' n). { intros K. apply NI in K. destruct K as [K|K]; [apply Hn; left; auto|apply Hn; right; lia]. }
        assert (FN : F n = n).
        { destruct (le_lt_dec n m0) as [Le|Gt]; [|apply (li_hi _ _ _ _ _ _ _ _ _ I); assert (~ n <= mx) by (intros K; apply Hn; right; lia); lia].
          rewrite (li_F _ _ _ _ _ _ _ _ _ I) by auto. unfold rl. destruct (dget mp n) eqn:D; auto. apply (li_key _ _ _ _ _ _ _ _ _ I) in D. exfalso. apply Hn. left. auto. }
        rewrite FN. apply HN; auto.
Qed.
Print Assumptions C35_remove_local_clifford.
(** A command C(n, I) makes the function fail, or is only accepted by luck *)
Theorem C35_identity_refuted : exists p, pat_ok p /\ check_runnability p = Ok tt /\ has_no_S (p_seq p) /\
  remove_local_clifford elems p = Err EPattern.
Proof.
  exists (Pat [0; 1] [CC 0 K0] [0; 1] 2). split; [split; [repeat constructor; cbn; intuition lia|apply Permutation_refl]|]. split; [reflexivity|]. split; [intros n d [H|[]]; discriminate|]. vm_compute. reflexivity.
Qed.
Print Assumptions C35_identity_refuted.
(** *** Non-vacuity *)
Definition lc_pat (a : R) : pattern := Pat [0; 1] [CC 0 K6; CE 0 1; CC 0 K4; CM 0 (MBloch a PXY) sempty sempty; CX 1 (sing 0); CC 1 K5] [1] 2.
Example C35_case : forall a, pat_ok (lc_pat a) /\ check_runnability (lc_pat a) = Ok tt /\ has_no_S (p_seq (lc_pat a)) /\ (forall n, ~ In (CC n K0) (p_seq (lc_pat a))).
Proof.
  intros a. split; [split; [repeat constructor; cbn; intuition lia|apply Permutation_refl]|]. split; [reflexivity|]. split; [intros n d H; cbn in H; intuition discriminate|]. intros n H; cbn in H; intuition discriminate.
Qed.
Example C35_case_result : forall a, exists p', remove_local_clifford elems (lc_pat a) = Ok p' /\ p_out p' = [6] /\ count_N (p_seq p') = 5.
Proof. intros a. eexists. split; [vm_compute; reflexivity|]. split; reflexivity. Qed.
