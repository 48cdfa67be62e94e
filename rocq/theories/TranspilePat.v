(** From the transpiled flow to the transpiled pattern. *)
From Coq Require Import Reals Lra Arith ZArith List Bool Lia Permutation Relations FunctionalExtensionality.
From Verif Require Import Cplx Mat2 NSet QState Fundamentals CliffordDb Clifford Measure Layer Pattern Standardize PropStd Statevec Density Circuit Swaps
  PropCircuit FlowSem FlowDet OpenGraph FlowSpec Flow FlowWF FlowPat OGMap PropFlow TopGen Corr Space SpaceMin SpaceHeur PropSpace Transpile TranspileFlow.
Import ListNotations.

(** * Standardization succeeds on patterns without Clifford before the last E *)
Definition is_C (c : cmd) : bool := match c with CC _ _ => true | _ => false end.
Definition is_E (c : cmd) : bool := match c with CE _ _ => true | _ => false end.
Lemma std_noC l : forall st, forallb (fun c => negb (is_C c)) l = true -> sp_c st = [] -> exists st', rfold std_step l st = Ok st' /\ sp_c st' = [].
Proof.
  induction l as [|c l IH]; intros st H E; [exists st; auto|]. cbn [forallb] in H. apply andb_prop in H. destruct H as [H1 H2]. cbn [rfold].
  assert (K : exists st1, std_step st c = Ok st1 /\ sp_c st1 = []).
  { destruct c; cbn [std_step]; try discriminate; try (eexists; split; [reflexivity|]; cbn [sp_c]; auto).
    - unfold std_side. rewrite E. cbn [dget rbind sp_c sp_x sp_z]. eexists. split; reflexivity.
    - rewrite E. reflexivity.
    - destruct (commute_domains _ _ _). eexists. split; [reflexivity|]. auto.
    - destruct (commute_domains _ _ _). eexists. split; [reflexivity|]. auto. }
  destruct K as (st1 & K1 & K2). rewrite K1. cbn [rbind]. apply IH; auto.
Qed.
Lemma std_noE l : forall st, forallb (fun c => negb (is_E c)) l = true -> exists st', rfold std_step l st = Ok st'.
Proof.
  induction l as [|c l IH]; intros st H; [exists st; auto|]. cbn [forallb] in H. apply andb_prop in H. destruct H as [H1 H2]. cbn [rfold].
  assert (K : exists st1, std_step st c = Ok st1).
  { destruct c; cbn [std_step]; try discriminate; try (eexists; reflexivity); destruct (commute_domains _ _ _); eexists; reflexivity. }
  destruct K as (st1 & K1). rewrite K1. cbn [rbind]. apply IH; auto.
Qed.
Lemma std_total p a b : p_seq p = a ++ b -> forallb (fun c => negb (is_C c)) a = true -> forallb (fun c => negb (is_E c)) b = true -> runnable (p_in p) (p_seq p) ->
  exists st, from_pattern p = Ok st.
Proof.
  intros E A B R. unfold from_pattern. apply check_runnability_spec in R. rewrite R. cbn [rbind]. rewrite E, rfold_app.
  destruct (std_noC a (std_init p) A eq_refl) as (st & -> & _). cbn [rbind]. apply std_noE; auto.
Qed.
Lemma forallb_map {A B} (f : A -> B) (g : B -> bool) l : forallb g (map f l) = forallb (fun a => g (f a)) l.
Proof. induction l; cbn; congruence. Qed.
Lemma forallb_true {A} (g : A -> bool) l : (forall a, g a = true) -> forallb g l = true.
Proof. intros H. apply forallb_forall. auto. Qed.
Lemma flow_seq_shape me xc zc order c : In c (flow_seq me xc zc order) -> is_C c = false /\ is_E c = false /\ cmd_sem_ok c = true.
Proof.
  unfold flow_seq. rewrite in_flat_map. intros (u & _ & H). repeat (rewrite in_app_iff in H || cbn [In] in H).
  repeat match goal with H : _ \/ _ |- _ => destruct H as [H|H] | H : False |- _ => destruct H end; try (subst c; auto);
   try (apply in_map_iff in H; destruct H as (? & <- & _); auto).
  unfold corr_cmds in H. rewrite in_app_iff in H. destruct H as [H|H]; apply in_map_iff in H; destruct H as (? & <- & _); auto.
Qed.
Lemma xz_cmds_std it xz order p : p_seq p = xz_cmds it xz order -> runnable (p_in p) (p_seq p) -> exists st, from_pattern p = Ok st.
Proof.
  intros E R. unfold xz_cmds in E. rewrite !app_assoc in E. eapply std_total; [exact E|..]; auto.
  - rewrite !forallb_app, !forallb_map. rewrite !andb_true_iff. split; [split|]; try (apply forallb_true; reflexivity).
    apply forallb_forall. intros c H. apply flow_seq_shape in H. destruct H as [-> _]. auto.
  - rewrite forallb_map. apply forallb_true; auto.
Qed.
Lemma xz_cmds_sem it xz order : simple (og_graph (xz_og xz)) -> sem_ok (xz_cmds it xz order) = true.
Proof.
  intros S. unfold xz_cmds, sem_ok. rewrite !forallb_app, !forallb_map. rewrite !andb_true_iff. split; [|split; [|split]]; try (apply forallb_true; reflexivity).
  - apply forallb_forall. intros e He. apply S in He. cbn. apply negb_true_iff, Nat.eqb_neq; auto.
  - apply forallb_forall. intros c H. apply flow_seq_shape in H. tauto.
Qed.

(** * The map of the open graph *)
Lemma og_prepared_range w n en st act : tinv w act st -> enum_ok en -> n = t_n st ->
  og_prepared (t_og w st en) = seq w (n - w).
Proof.
  intros I HE ->. unfold og_prepared, t_og. cbn [og_in og_graph g_nodes]. rewrite (ti_ns _ _ _ I). unfold range. pose proof (ti_w _ _ _ I) as L.
  replace (t_n st) with (w + (t_n st - w))%nat at 1 by lia. rewrite seq_app, filter_app. cbn [Nat.add].
  assert (F : filter (fun n => negb (lmem n (seq 0 w))) (seq 0 w) = []).
  { assert (G : forall l, (forall x, In x l -> x < w) -> filter (fun n => negb (lmem n (seq 0 w))) l = []).
    { induction l as [|x l IH]; auto; intros H; cbn [filter]. replace (lmem x (seq 0 w)) with true; [cbn; apply IH; intros; apply H; right; auto|].
      symmetry. apply lmem_In, in_seq. specialize (H x (or_introl eq_refl)). lia. }
    apply G. intros x Hx. apply in_seq in Hx. lia. }
  rewrite F. cbn [app]. assert (G : forall l, (forall x, In x l -> w <= x) -> filter (fun n => negb (lmem n (seq 0 w))) l = l).
  { induction l as [|x l IH]; auto; intros H; cbn [filter]. replace (lmem x (seq 0 w)) with false; [cbn; f_equal; apply IH; intros; apply H; right; auto|].
    symmetry. apply not_true_iff_false. rewrite lmem_In, in_seq. specialize (H x (or_introl eq_refl)). lia. }
  apply G. intros x Hx. apply in_seq in Hx. lia.
Qed.
Lemma t_graph_ops w act st en : tinv w act st -> enum_ok en -> graph_ops (t_og w st en) ≈ z_ops w st.
Proof.
  intros I HE. unfold graph_ops, z_ops. rewrite (og_prepared_range w (t_n st) en st act I HE eq_refl). cbn [t_og og_graph g_edges og_meas og_cliff map].
  rewrite app_nil_r. apply leq_app; [reflexivity|]. apply leq_app; [|reflexivity].
  fold (cz_ops (en (t_es st))). apply cz_ops_perm.
  eapply perm_trans; [apply HE|]. erewrite map_ext_in; [rewrite map_id; apply Permutation_refl|]. intros e He. apply (ti_es _ _ _ I); auto.
Qed.

(** * Classical outputs *)
Lemma lremove_app n a b : ~ In n a -> lremove n (a ++ n :: b) = a ++ b.
Proof.
  induction a as [|x a IH]; intros H; cbn [app lremove].
  - rewrite Nat.eqb_refl. auto.
  - destruct (Nat.eqb_spec x n) as [->|]; [elim H; left; auto|]. rewrite IH; auto. intros K; apply H; right; auto.
Qed.
Lemma outs_cl cl : forall a, NoDup (a ++ dkeys cl) -> outs_of (a ++ dkeys cl) (cl_cmds cl) = a.
Proof.
  induction cl as [|[n ax] cl IH]; intros a H; cbn [cl_cmds map outs_of dkeys fst snd].
  - apply app_nil_r.
  - cbn [dkeys map fst] in H. rewrite lremove_app; [apply IH; eapply NoDup_remove_1; eauto|]. intros K. apply NoDup_remove_2 in H. apply H, in_or_app; auto.
Qed.
Lemma seq_ops_cl o cl : seq_ops o (cl_cmds cl) = cl_ops o cl.
Proof.
  unfold seq_ops, cl_cmds, cl_ops. induction cl as [|[n ax] cl IH]; auto. cbn [map flat_map fst snd]. rewrite IH. cbn [cmd_ops app]. f_equal.
Qed.
Lemma combine_outs (P : nat -> bool) idx : forall k, (forall i, i < length idx -> (P (k + i) = true <-> exists n, nth_error idx i = Some (Some n))) ->
  length (filter P (seq k (length idx))) = length (t_outs idx) /\
  forall q n, In (q, n) (combine (filter P (seq k (length idx))) (t_outs idx)) <-> k <= q /\ nth_error idx (q - k) = Some (Some n).
Proof.
  induction idx as [|o idx IH]; intros k H; cbn [length seq filter t_outs flat_map combine].
  - split; auto. intros q n. split; [intros []|]. intros [_ K]. destruct (q - k); discriminate.
  - assert (H0 : P k = true <-> exists n, o = Some n).
    { specialize (H 0 ltac:(cbn; lia)). rewrite Nat.add_0_r in H. rewrite H. cbn. split; intros (n & K); exists n; congruence. }
    destruct (IH (S k)) as [L C]. { intros i Hi. replace (S k + i) with (k + S i) by lia. rewrite (H (S i)) by (cbn; lia). reflexivity. }
    assert (SH : forall q n, (k <= q /\ nth_error (o :: idx) (q - k) = Some (Some n)) <-> (q = k /\ o = Some n) \/ (S k <= q /\ nth_error idx (q - S k) = Some (Some n))).
    { intros q n. split.
      - intros [A B]. destruct (Nat.eq_dec q k) as [->|Ne]; [rewrite Nat.sub_diag in B; cbn in B; left; split; congruence|]. right. split; [lia|]. replace (q - k) with (S (q - S k)) in B by lia. exact B.
      - intros [[-> ->]|[A B]]; [rewrite Nat.sub_diag; auto|]. split; [lia|]. replace (q - k) with (S (q - S k)) by lia. exact B. }
    destruct o as [m|].
    + replace (P k) with true by (symmetry; apply H0; eauto). cbn [app length combine]. fold (t_outs idx). split; [lia|]. intros q n. rewrite SH. cbn [In]. rewrite C.
      split; [intros [[= -> ->]|?]; auto|intros [[-> [= ->]]|?]; auto].
    + replace (P k) with false by (symmetry; apply not_true_iff_false; rewrite H0; intros (n & ?); discriminate). cbn [app]. fold (t_outs idx). split; auto. intros q n. rewrite SH, C.
      split; [auto|intros [[_ ?]|?]; [discriminate|auto]].
Qed.

Lemma map_split3 {A B} (f : A -> B) l a x b : map f l = a ++ x :: b -> exists a' x' b', l = a' ++ x' :: b' /\ map f a' = a /\ f x' = x /\ map f b' = b.
Proof.
  revert a. induction l as [|y l IH]; intros a H; [destruct a; discriminate|]. destruct a as [|z a]; cbn in H.
  - injection H as <- <-. exists [], y, l. auto.
  - injection H as <- H. destruct (IH a H) as (a' & x' & b' & -> & <- & E & F). exists (y :: a'), x', b'. auto.
Qed.
Lemma xz_exists it xz order n : iter_ok it -> og_ok (xz_og xz) ->
  exists_node (og_in (xz_og xz)) (xz_cmds it xz order) n <-> In n (g_nodes (og_graph (xz_og xz))).
Proof.
  intros Hit Hog. unfold exists_node, xz_cmds. rewrite !prepared_app.
  assert (P1 : prepared_in (map (fun n => CN n SPlus) (it (sdiff (og_nodes (xz_og xz)) (of_list (og_in (xz_og xz)))))) n <-> In n (g_nodes (og_graph (xz_og xz))) /\ ~ In n (og_in (xz_og xz))).
  { unfold prepared_in. split.
    - intros (s & H). apply in_map_iff in H. destruct H as (k & [= <- <-] & H). apply iter_In in H; auto. unfold og_nodes in H.
      rewrite mem_sdiff, andb_true_iff, negb_true_iff, <- not_true_iff_false, !mem_of_list in H. auto.
    - intros H. exists SPlus. apply in_map_iff. exists n. split; auto. apply iter_In; auto. unfold og_nodes.
      rewrite mem_sdiff, andb_true_iff, negb_true_iff, <- not_true_iff_false, !mem_of_list. auto. }
  assert (P2 : ~ prepared_in (map (fun e => CE (fst e) (snd e)) (g_edges (og_graph (xz_og xz)))) n) by (intros (s & H); apply in_map_iff in H; destruct H as (? & ? & _); discriminate).
  assert (P3 : ~ prepared_in (map (fun p => CC (fst p) (snd p)) (og_cliff (xz_og xz))) n) by (intros (s & H); apply in_map_iff in H; destruct H as (? & ? & _); discriminate).
  assert (P4 : forall me xc zc, ~ prepared_in (flow_seq me xc zc order) n).
  { intros me xc zc (s & H). unfold flow_seq in H. rewrite in_flat_map in H. destruct H as (u & _ & [H|H]); [discriminate|]. unfold corr_cmds in H. rewrite in_app_iff in H.
    destruct H as [H|H]; apply in_map_iff in H; destruct H as (? & ? & _); discriminate. }
  rewrite P1. split.
  - intros [K|[K|[K|[K|K]]]]; [apply (ok_in _ Hog); auto|tauto|tauto| |tauto]. apply P4 in K. tauto.
  - intros K. destruct (in_dec Nat.eq_dec n (og_in (xz_og xz))); auto.
Qed.
Lemma expand_nmeas i : not_I i = true -> jnmeas (expand 2 i) = nmeas [i].
Proof. intros H. destruct i; try discriminate; reflexivity. Qed.
Lemma jcz_nmeas l : Forall plain l -> jnmeas (instructions_to_jcz l) = nmeas l.
Proof.
  intros H. unfold instructions_to_jcz. induction H as [|i l P _ IH]; [reflexivity|]. rewrite jcz_cons, (plain_notI i P), jnmeas_app, IH, (expand_nmeas i (plain_notI i P)).
  unfold nmeas. rewrite <- app_length, <- filter_app. reflexivity.
Qed.

Lemma ms_of_cl cl : ms_of (cl_cmds cl) = dkeys cl.
Proof. unfold cl_cmds, ms_of, dkeys. induction cl as [|[? ?] d IHd]; auto. cbn. f_equal. exact IHd. Qed.
Lemma indep_reg w psi n : on_register w psi -> w <= n -> indep n psi.
Proof. intros H L f b. apply H. intros q Hq. unfold upd. destruct (Nat.eqb_spec q n), (Nat.eqb_spec n q); auto; lia. Qed.
(** * The transpiled pattern *)
Definition nb_ok (nb : stdp -> nat -> list nat) : Prop := forall st, std_wf st -> nbs_ok st (nb st).
Theorem transpile_noswap_sem it en nb nrm w l c : iter_ok it -> enum_ok en -> nb_ok nb -> nrm_ok nrm -> circ_make w l = Ok c -> Forall plain l ->
  exists p cl, transpile_noswap it en nb nrm c = Ok (p, cl) /\ p_in p = range w /\ pat_ok p /\ check_runnability p = Ok tt /\ length (p_out p) = length (unmeasured c) /\
    length cl = nmeas l /\ NoDup cl /\ (forall n, In n cl -> measured_in (p_seq p) n /\ ~ In n (p_out p)) /\
    forall o, exists z, phase z /\ forall psi, on_register w psi ->
      forall f g, (forall q n, In (q, n) (combine (unmeasured c) (p_out p)) -> g q = f n) ->
      den (seq_ops o (p_seq p)) psi f = (z * RtoC ((/ sqrt 2) ^ (length (ms_of (p_seq p)) - nmeas l)) * csem (outcomes o cl) 0 l psi g)%C.
Proof.
  intros Hit HE Hnb HN HC HF. destruct (t_loop nrm w l c HN HC HF) as (st & E & I & S & E1 & E2).
  pose proof (t_og_ok w _ st en I HE) as OG. pose proof (t_simple w _ st en I HE) as SI.
  destruct (t_layers w _ st en I HE it Hit) as (z & ls & Z & L & CF).
  set (og := t_og w st en) in *. set (fl := PF og (t_x st) ls).
  assert (TC : transpile_to_causalflow it en nrm c = Ok (fl, t_cl st)).
  { unfold transpile_to_causalflow. rewrite E. cbn [rbind]. rewrite E2, (t_og_make w _ st en I HE). cbn [rbind]. fold og. rewrite Z. cbn [rbind]. rewrite L. reflexivity. }
  destruct (cf_to_xz_corr fl (t_x_ND w _ st I) CF) as (xz & X & XC). pose proof XC as (X1 & X2 & _).
  assert (PFl : pauli_flow og (t_x st) ls) by (apply (gflow_pauli fl (t_planar w _ st en I)), (causal_gflow fl), CF).
  destruct (det_yields it og (t_x st) ls xz Hit OG SI PFl XC) as ((p & P) & _ & K). destruct (K None p P) as (I1 & O1 & R1 & _ & M1). clear K.
  destruct (xz_pattern_inv it Hit xz) with (order := @None (list nat)) (p := p) as (ord & OC & _ & A & B & D & R); rewrite ?X1, ?X2; auto; [apply CF|eapply corr_respects; eauto|].
  rewrite X1, X2 in *.
  assert (PO : pat_ok p).
  { split; [rewrite I1; apply OG|]. unfold pat_wf. destruct (outs_of_live (p_in p) (p_seq p)) as [N1 N2]; [rewrite I1; apply OG|auto|].
    apply NoDup_Permutation; auto; [rewrite O1; apply OG|]. intros n. rewrite N2, A, D, O1. destruct (xz_runnable it Hit xz) with (order := ord) as [_ LV]; rewrite ?X1, ?X2; auto; [apply CF|eapply corr_respects; eauto|]. rewrite X1 in LV. symmetry. apply LV. }
  assert (SO : sem_ok (p_seq p) = true) by (rewrite D; apply xz_cmds_sem; rewrite X1; auto).
  destruct (xz_cmds_std it xz ord p D R) as (sd & SD).
  destruct (std_facts p sd PO SO SD) as (W1 & W2 & W3 & W4 & W5 & W6 & W7 & W8 & W9).
  destruct (space_opt_ok sd (nb sd) W1 W2 W3 (Hnb sd W1) W4) as (q & Q1 & _ & Q2 & Q3 & Q4 & _ & Q5 & Q6 & Q7 & Q8).
  assert (SB : forall o, same_branch o (p_seq p) (p_seq q)).
  { intros o. eapply same_branch_trans; [apply (from_pattern_same p sd (sp_e sd) PO SO SD)|apply Q8]; apply std_enum_self with p; auto. }
  assert (XE : forall n, exists_node (p_in p) (p_seq p) n <-> In n (g_nodes (og_graph og))).
  { intros n. rewrite A, D. pose proof (xz_exists it xz ord n Hit) as K. rewrite X1 in K. apply K. auto. }
  set (r := pat_extend q (cl_cmds (t_cl st))).
  destruct (pat_extend_fields q (cl_cmds (t_cl st))) as (F1 & F2 & F3). fold r in F1, F2, F3.
  assert (OU : p_out r = t_outs (t_idx st)).
  { rewrite F3, Q3, W6, O1. apply outs_cl. apply OG. }
  assert (CLq : forall n, In n (dkeys (t_cl st)) -> live (p_in q) (p_seq q) n).
  { intros n Hn. destruct (outs_of_live (p_in q) (p_seq q)) as [_ LV]; [apply Q4|auto|]. apply LV. eapply Permutation_in; [apply Q4|]. rewrite Q3, W6, O1. apply in_or_app; auto. }
  assert (RR : runnable (p_in r) (p_seq r)).
  { rewrite F1, F2. apply runnable_app. split; auto. intros pre cm post E3. unfold cl_cmds in E3. apply map_split3 in E3. destruct E3 as (a & [n ax] & b & E3 & <- & <- & <-).
    cbn [fst snd cmd_ok]. split; [|intros k; rewrite mem_empty; intros [?|?]; discriminate].
    assert (Hn : In n (dkeys (t_cl st))) by (rewrite E3; unfold dkeys; rewrite map_app; apply in_or_app; right; left; auto). destruct (CLq n Hn) as [L1 L2]. split.
    - unfold exists_node in *. rewrite prepared_app. tauto.
    - rewrite measured_app. intros [K|(m & s & t & K)]; [auto|]. apply in_map_iff in K. destruct K as ([n' ax'] & [= -> _ _ _] & K).
      pose proof (ti_clN _ _ _ I) as ND. rewrite E3 in ND. unfold dkeys in ND. rewrite map_app in ND. apply NoDup_remove_2 in ND. apply ND, in_or_app. left. apply (in_map fst) in K. exact K. }
  assert (MS : ms_of (p_seq r) = ms_of (p_seq p) ++ dkeys (t_cl st)).
  { rewrite F2, ms_of_app, Q6, W8. f_equal. apply ms_of_cl. }
  exists r, (dkeys (t_cl st)).
  assert (JN : jnmeas (instructions_to_jcz l) = nmeas l) by (apply jcz_nmeas; auto).
  split; [|split; [|split; [|split; [|split; [|split; [|split; [|split]]]]]]].
  - unfold transpile_noswap. rewrite TC. cbn [rbind fst snd]. unfold tflow_to_pattern. rewrite X. cbn [rbind]. rewrite P. cbn [rbind]. rewrite SD. cbn [rbind]. rewrite Q1. reflexivity.
  - rewrite F1, Q2, W5, I1. reflexivity.
  - split; [rewrite F1; apply Q4|]. unfold pat_wf. rewrite F1, F2, F3, outs_of_app. apply outs_of_Permutation. apply Q4.
  - apply check_runnability_spec. auto.
  - rewrite OU. destruct (combine_outs (fun q => mem q (c_active c)) (t_idx st) 0) as [LE _]; [intros i _; cbn; apply (ti_act _ _ _ I)|]. unfold unmeasured. rewrite E2. rewrite (ti_len _ _ _ I) in LE. symmetry. exact LE.
  - unfold dkeys. rewrite map_length. rewrite <- (proj1 (S (fun _ => false))). auto.
  - apply (ti_clN _ _ _ I).
  - intros n Hn. split; [apply ms_of_In; rewrite MS; apply in_or_app; auto|]. rewrite OU, t_outs_In. intros (k & K). apply (ti_live _ _ _ I) in K. tauto.
  - intros o. destruct (M1 o) as (z1 & Hz1 & M2). destruct (S o) as (_ & z2 & Hz2 & S2). destruct (SB o) as (z3 & Hz3 & S3).
    destruct (C20_circuit l HF (outcomes o (dkeys (t_cl st)))) as (z4 & Hz4 & S4).
    pose proof (t_graph_ops w _ st en I HE) as (z5 & Hz5 & S5).
    exists (z1 * Cconj z3 * z5 * z2 * z4)%C. split; [repeat apply phase_mul; auto; apply phase_conj; auto|]. intros psi HP f g HA.
    assert (LM : length (ms_of (p_seq r)) - nmeas l = length (t_ms st)).
    { rewrite MS, app_length. replace (length (dkeys (t_cl st))) with (nmeas l) by (unfold dkeys; rewrite map_length, <- (proj1 (S (fun _ => false))); auto).
      enough (EQ : length (ms_of (p_seq p)) = length (dkeys (t_ms st))) by (unfold dkeys in EQ; rewrite map_length in EQ; lia).
      apply Permutation_length, NoDup_Permutation; [apply (runnable_NoDup _ _ W7)|apply (ti_msN _ _ _ I)|]. intros n.
      change (dkeys (t_ms st)) with (dkeys (og_meas og)). rewrite (proj2 (ok_meas _ OG) n). rewrite ms_of_In.
      destruct (outs_of_live (p_in p) (p_seq p)) as [_ LV]; [apply PO|auto|].
      assert (NO : In n (og_out og) <-> live (p_in p) (p_seq p) n).
      { rewrite <- LV, <- O1. split; apply Permutation_in; [|apply Permutation_sym]; apply PO. }
      rewrite NO. unfold live. split.
      - intros K. split; [|tauto]. apply XE. apply (runnable_NoDup _ _ W7). apply ms_of_In; auto.
      - intros [K1 K2]. apply XE in K1. destruct (in_dec Nat.eq_dec n (ms_of (p_seq p))) as [K|K]; [apply ms_of_In; auto|]. rewrite ms_of_In in K. elim K2. split; auto. }
    rewrite LM, F2, seq_ops_app, seq_ops_cl, den_app.
    assert (EQ : den (seq_ops o (p_seq q)) psi = cscale (z1 * Cconj z3 * z5) (den (z_ops w st) psi)).
    { transitivity (cscale (Cconj z3) (cscale z3 (den (seq_ops o (p_seq q)) psi))).
      - rewrite cscale_cscale, (phase_inv' z3 Hz3), cscale_1. auto.
      - rewrite <- S3, M2, S5, !cscale_cscale; [f_equal; ring|]. intros n H1 H2. apply (indep_reg w); auto. cbn in H2. rewrite range_In in H2. lia. }
    rewrite EQ, den_scale. unfold cscale at 1. rewrite <- den_app, (S2 psi HP f g).
    + rewrite S4. unfold cscale. ring.
    + intros k n K. apply HA. rewrite OU. unfold unmeasured. rewrite E2. destruct (combine_outs (fun q => mem q (c_active c)) (t_idx st) 0) as [_ CO]; [intros i _; cbn; apply (ti_act _ _ _ I)|].
      rewrite (ti_len _ _ _ I) in CO. apply CO. rewrite Nat.sub_0_r. split; [lia|exact K].
Qed.
