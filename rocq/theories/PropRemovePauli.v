(** Property theorems: removal of Pauli measurements (C37). *)
From Coq Require Import Reals Lra Arith ZArith List Bool Lia Permutation Setoid Morphisms FunctionalExtensionality.
From Verif Require Import Cplx Mat2 Fundamentals CliffordDb Clifford NSet Measure QState Pattern Layer Standardize PropStd
  Shift OpenGraph FlowSpec FlowPat TopGen Corr Space SpaceMin SpaceHeur PropSpace Push PropPush GState GraphSim GraphSimThm RemovePauli RemovePauliThm RemovePauliSem RunBranch RemovePauliFin.
Import ListNotations.

(** pattern.py:1888-1926 Pattern.remove_pauli_measurements(copy=True, standardize):
    the result [r], with the node_map [nm] of the process and whether the warning
    "Non-Pauli measurement on an isolated node was removed" is issued ([warned]).
    The iteration orders of sets ([it]), of the edge set ([es]) and of the adjacency
    of the graph ([nbs]) are arbitrary.  [None]: an exception, written EKey. *)
Definition removes (standardize : bool) (p : pattern) (r : res pattern) (nm : nat -> option nat) (warned : bool) : Prop :=
  match from_pattern p with
  | Err e => r = Err e
  | Ok st => exists it, iter_ok it /\
      match remove_pauli it st (push_cut sempty st) with
      | None => r = Err EKey
      | Some (st', m, w) => nm = m /\ warned = w /\
          if standardize then exists es, edge_enum st' es /\ r = to_pattern st' es
          else exists nbs, nbs_ok st' nbs /\ r = space_opt st' nbs
      end
  end.

(** * Specification *)
(** the branch of the original pattern: the outcome of a surviving node is that of
    its new node, the outcome of a removed node is 0 *)
Definition branch_of (nm : nat -> option nat) (o' : nat -> bool) (n : nat) : bool := match nm n with Some v => o' v | None => false end.
(** a state of the inputs: it does not involve the nodes to be prepared *)
Definition input_only (prepared : nat -> Prop) (psi : state) : Prop := forall n, prepared n -> indep n psi.
(** the map [old] (on [nodes], outputs [outs]) is [c] times the map [new] (outputs [outs']) *)
Definition same_map (prepared nodes : nat -> Prop) (outs outs' : list nat) (c : C) (old new : state -> state) : Prop :=
  forall psi, input_only prepared psi -> forall f f', Forall2 (fun n v => f n = f' v) outs outs' -> (forall n, ~ nodes n -> f n = f' n) ->
    old psi f = (c * new psi f')%C.
Definition adj (es : list (nat * nat)) (u v : nat) : Prop := In (u, v) es \/ In (v, u) es.

(** * StandardizedPattern level *)
Lemma input_pin st psi : input_only (fun n => In n (map fst (sp_n st))) psi -> Pin (of_list (sp_in st)) (std_nodes st) psi.
Proof.
  intros H n Hn Hi. apply H. unfold std_nodes in Hn. apply in_app_or in Hn. destruct Hn as [Hn|Hn]; auto. exfalso. apply not_true_iff_false in Hi. apply Hi, mem_of_list; auto.
Qed.
Lemma remove_core : forall it leave st, iter_ok it -> std_wf st -> std_out_ok st -> NoDup (sp_in st) -> has_loop st = false ->
  (forall p, In p (sp_n st) -> snd p = SPlus) ->
  let c := push_cut leave st in let pushed := pauli_push leave st in
  exists st' nm warned, remove_pauli it st c = Some (st', nm, warned) /\
    std_wf st' /\ std_out_ok st' /\ has_loop st' = false /\ sp_in st' = sp_in st /\
    (forall v, std_node st' v <-> exists n, nm n = Some v) /\ (forall n v, nm n = Some v -> std_node st n /\ std_node st v) /\
    (forall a b v, nm a = Some v -> nm b = Some v -> a = b) /\
    (forall v, In v (sp_in st) -> nm v = Some v) /\ Forall2 (fun n v => nm n = Some v) (sp_out st) (sp_out st') /\
    (warned = false -> forall n, std_node st n -> nm n = None -> ~ In n (sp_in st) /\ exists m, In m (ct_pauli c) /\ mc_node m = n) /\
    (forall es es' o', edge_enum st es -> edge_enum st' es' -> exists k, (warned = false -> k <> C0) /\
       same_map (fun n => In n (map fst (sp_n st))) (std_node st) (sp_out st) (sp_out st') k
         (den (seq_ops (branch_of nm o') (std_cmds pushed es))) (den (seq_ops o' (std_cmds st' es')))) /\
    (forall m', In m' (sp_m st') -> exists m, In m (sp_m pushed) /\ nm (mc_node m) = Some (mc_node m') /\ is_pauli (mc_meas m') = is_pauli (mc_meas m)) /\
    (forall m v, In m (ct_pauli c) -> nm (mc_node m) = Some v -> ~ In v (sp_in st) -> exists m' s, In m' (sp_m st') /\ mc_node m' = v /\ mc_meas m' = MPauli AX s /\
       (exists w, adj (sp_e st') v w) /\ forall w, adj (sp_e st') v w -> In w (sp_in st)) /\
    (forall m v es, In m (ct_pauli c) -> nm (mc_node m) = Some v -> ~ In v (sp_in st) -> edge_enum st es ->
       exists o psi f, psi f <> C0 /\ input_only (fun n => In n (map fst (sp_n st))) psi /\ forall g, den (seq_ops o (std_cmds pushed es)) psi g = C0).
Proof.
  intros it leave st IT W SO NI HL PL c pushed.
  assert (NLoop : forall e, In e (sp_e st) -> fst e <> snd e). { intros e He E. unfold has_loop in HL. apply not_true_iff_false in HL. apply HL. apply existsb_exists. exists e. split; auto. apply Nat.eqb_eq; auto. }
  destruct (run_ok it IT leave st W SO NI NLoop) as (r1 & r & eo & D & K & J & Lo & E1 & E2 & I & S & EX & HJ).
  destruct (outs_map leave st eo D r I) as (outs & _ & HO). set (st' := new_std leave st r outs).
  exists st', (rp_map r), (negb (match isolated (of_list (sp_in st)) r1 with [] => true | _ => false end)).
  assert (HJ' : negb (match isolated (of_list (sp_in st)) r1 with [] => true | _ => false end) = false -> J = []) by (destruct (isolated _ r1); [auto|discriminate]).
  pose proof (ri_map _ _ _ _ _ _ _ _ _ _ I) as NM. pose proof (new_wf leave st W SO eo D r I outs HO) as W'.
  assert (INJ : forall a b v, rp_map r a = Some v -> rp_map r b = Some v -> a = b) by (intros a b v; rewrite !NM; intros [_ <-] [_ <-]; auto).
  split. { unfold remove_pauli, c. rewrite E1, E2. rewrite (new_std_eq leave st r outs HO). reflexivity. }
  split; [exact W'|]. split; [apply (new_out_ok leave st W SO eo D r I outs HO)|].
  split. { unfold has_loop. apply not_true_iff_false. intros Z. apply existsb_exists in Z. destruct Z as (e & He & Z). apply Nat.eqb_eq in Z. apply (new_loops leave st eo D r I outs e He Z). }
  split; [reflexivity|]. split. { intros v. unfold st'. rewrite (new_node leave st eo D r I outs v). split; [intros Hv; exists (rp_src r v); apply NM; auto|]. intros (n & Hn). apply NM in Hn. tauto. }
  split. { intros n v Hn. apply NM in Hn. destruct Hn as [Hv <-]. apply (ri_sub _ _ _ _ _ _ _ _ _ _ I) in Hv. rewrite <- !(L0_node leave). split; auto. apply (ri_srcL _ _ _ _ _ _ _ _ _ _ I); auto. }
  split; [exact INJ|].
  split. { intros v Hv. apply mem_of_list in Hv. apply NM. split; [apply (ri_inpL _ _ _ _ _ _ _ _ _ _ I)|apply (ri_inp _ _ _ _ _ _ _ _ _ _ I)]; auto. }
  split; [exact HO|].
  split. { intros Hw n Hn Z. apply HJ' in Hw. subst J. destruct S as (P & SL & SK & _). rewrite <- (L0_node leave) in Hn. apply (Permutation_in _ (Permutation_sym P)) in Hn. cbn [app] in Hn. apply in_app_or in Hn. destruct Hn as [Hn|Hn].
    - apply SK in Hn. destruct Hn as [A B]. split; [intros C; apply mem_of_list in C; congruence|]. destruct (pauli_at (ct_pauli (push_cut leave st)) n) as [[a s]|] eqn:Q; [|congruence]. apply pauli_at_In in Q. destruct Q as (m & Q1 & Q2 & _). exists m. auto.
    - apply SL in Hn. destruct Hn as (v & A & B). assert (rp_map r n = Some v) by (apply NM; auto). congruence. }
  split.
  - intros es es' o' HE HE'. destruct (old_new leave st W SO NI eo D r I outs HO K J Lo S o' PL es es' HE HE') as (k & Hk & Q). exists k. split; [intros Hw; apply Hk, HJ'; auto|].
    intros psi Hp f f' Hf Hn. apply Q; auto. + apply input_pin; auto. + intros n H. apply Hn. rewrite <- (L0_node leave). auto.
  - split.
    { intros m' Hm'. unfold st' in Hm'. cbn [new_std sp_m] in Hm'. rewrite new_ms_eq in Hm'. apply in_map_iff in Hm'. destruct Hm' as (m & <- & Hm). apply filter_In in Hm. destruct Hm as [Hm SV]. exists m. unfold surv in SV. destruct (rp_map r (mc_node m)) as [v|] eqn:Q; [|discriminate].
      split; auto. unfold new_m. rewrite Q. cbn [mc_node mc_meas]. split; auto. unfold mcmd_clifford. destruct (commute_domains _ _ _). cbn [mc_meas]. destruct (mc_meas m); cbn; auto. }
    assert (RM : forall m v, In m (ct_pauli c) -> rp_map r (mc_node m) = Some v -> ~ In v (sp_in st) -> exists m' s, In m' (sp_m st') /\ mc_node m' = v /\ mc_meas m' = MPauli AX s /\ rp_pm r v = Some (AX, s) /\ In v (rp_L r) /\ mem v (of_list (sp_in st)) = false /\
      (exists w, adj (sp_e st') v w) /\ (forall w, adj (sp_e st') v w -> In w (sp_in st)) /\ (forall w, mem w (nb (rp_es r) v) = true -> mem w (of_list (sp_in st)) = true)).
    { intros m v Hm Hv Hi. pose proof Hv as Hv'. apply NM in Hv'. destruct Hv' as [Hv1 Hv2].
    assert (MM : exists a s, mc_meas m = MPauli a s). { pose proof (ci_p _ _ _ (cut_whole leave st W)) as CP. apply (in_map (fun m => (mc_node m, mc_meas m))) in Hm. unfold c in Hm. rewrite CP in Hm. apply in_map_iff in Hm. destruct Hm as (m0 & Q & Hm0). apply filter_In in Hm0. destruct Hm0 as [_ Hm0]. injection Q as _ Q. rewrite <- Q. unfold moved in Hm0. destruct (mc_meas m0); [discriminate|eauto]. }
    destruct MM as (a0 & s0 & MM). assert (PA : pauli_at (ct_pauli (push_cut leave st)) (mc_node m) = Some (a0, s0)) by (apply pauli_at_get; auto; apply (pauli_N leave st W)).
    pose proof (pm_P0 _ _ _ _ _ _ _ _ _ _ _ I Hv1) as PM. rewrite Hv2, PA in PM. destruct (pauli_clifford a0 s0 (D (mc_node m))) as [a s] eqn:PC.
    assert (Ni : mem v (of_list (sp_in st)) = false). { apply not_true_iff_false. intros Z. apply Hi, mem_of_list; auto. }
    destruct (EX v a s Hv1 Ni PM) as (-> & (w & Hw) & HN). exists (new_m r m), s.
    assert (Hm1 : In m (sp_m pushed)) by (unfold pushed; rewrite (ms1_eq leave st); apply in_or_app; auto).
    assert (SV : surv r m = true) by (unfold surv; rewrite Hv; auto).
    split. { unfold st'. cbn [new_std sp_m]. rewrite new_ms_eq. apply in_map, filter_In. split; auto. } unfold new_m. rewrite Hv. cbn [mc_node mc_meas]. split; auto.
    rewrite (cl_meas leave st W eo D r I m v Hm1 Hv). split. { unfold mcmd_clifford. destruct (commute_domains _ _ _). cbn [mc_meas]. rewrite MM. unfold meas_clifford. rewrite PC. reflexivity. } split; auto. split; auto. split; auto.
    assert (AD : forall u, adj (sp_e st') v u <-> mem u (nb (rp_es r) v) = true).
    { intros u. unfold nb. rewrite <- (ein_adj []), ein_spec. unfold adj. cbn [st' new_std sp_e]. split.
      - assert (NN : forall e, In e (map edge_norm (rp_es r)) -> edge_norm e = e). { intros e He. apply in_map_iff in He. destruct He as ([x y] & <- & _). unfold edge_norm. cbn [fst snd]. f_equal; lia. }
        intros [H|H]; [rewrite (NN _ H); auto|]. rewrite edge_norm_swap. rewrite (NN _ H). auto.
      - intros H. destruct (edge_norm_cases (v, u)) as [Q|Q]; rewrite Q in H; auto. }
    split; [exists w; apply AD; auto|]. split; [|exact HN]. intros u Hu. apply AD in Hu. apply HN in Hu. apply mem_of_list; auto. }
    split.
    + intros m v Hm Hv Hi. destruct (RM m v Hm Hv Hi) as (m' & s & A & B & C & _ & _ & _ & F & H & _). exists m', s. tauto.
    + intros m v es Hm Hv Hi HE. destruct (RM m v Hm Hv Hi) as (m' & s & A & B & C & PMv & HvL & Ni & F & H & HN).
      set (o' := fun n : nat => sign_eqb s Plus). destruct (old_X leave st W SO NI eo D r I K J Lo S o' PL es HE) as (k & _ & Q).
      set (psi := fun f : asg => if forallb (fun n => negb (f n)) (sp_in st) then C1 else C0).
      assert (IP : input_only (fun n => In n (map fst (sp_n st))) psi). { intros n Hn f b. unfold psi. replace (forallb (fun n0 => negb (upd f n b n0)) (sp_in st)) with (forallb (fun n0 => negb (f n0)) (sp_in st)); auto.
        assert (NI' : ~ In n (sp_in st)) by (apply (sw_nin _ W); auto). revert NI'. generalize (sp_in st). induction l as [|x l IH]; intros N; auto. cbn [forallb]. rewrite IH by (intros Z; apply N; right; auto). rewrite upd_other; auto. intros ->. apply N; left; auto. }
      exists (branch_of (rp_map r) o'), psi, (fun _ => false). split. { unfold psi. rewrite (proj2 (forallb_forall _ _)) by auto. intros Z. apply (f_equal re) in Z. cbn in Z. lra. }
      split; auto. intros g. unfold pushed. change (branch_of (rp_map r) o') with (old_branch r o'). rewrite (Q psi (input_pin st psi IP)).
      rewrite (x_zero leave st W NI eo D r I o' v s psi); auto.
      * unfold cscale, zero_state. ring.
      * apply input_pin; auto.
      * intros f Hf n Hn. unfold psi in Hf. destruct (forallb _ _) eqn:Z; [|congruence]. rewrite forallb_forall in Z. apply mem_of_list in Hn. apply Z in Hn. apply negb_true_iff in Hn. auto.
Qed.
(** remove_pauli_measurements(PauliPushingCut): on every standardized pattern that
    prepares its nodes in |+>, whatever the iteration orders, it stops and raises
    nothing; the result is a well-formed standardized pattern on a subset of the
    nodes, with the same inputs and the outputs renamed by node_map; unless the
    warning is issued, the nodes that disappear are non-input Pauli measurements
    that the cut has moved to the front; every branch of the result is, up to a
    factor, the branch of the Pauli-pushed pattern in which removed nodes have
    outcome 0, and the factor is not zero unless the warning is issued;
    the measurements of the result are surviving measurements, Pauli ones stay
    Pauli; the remaining non-input Pauli measurements of the cut are X measurements
    all of whose neighbours (there is one at least) are inputs. *)
Theorem C37_standardized : forall it leave st, iter_ok it -> std_wf st -> std_out_ok st -> NoDup (sp_in st) -> has_loop st = false ->
  (forall p, In p (sp_n st) -> snd p = SPlus) ->
  let c := push_cut leave st in let pushed := pauli_push leave st in
  exists st' nm warned, remove_pauli it st c = Some (st', nm, warned) /\
    std_wf st' /\ std_out_ok st' /\ has_loop st' = false /\ sp_in st' = sp_in st /\
    (forall v, std_node st' v <-> exists n, nm n = Some v) /\ (forall n v, nm n = Some v -> std_node st n /\ std_node st v) /\
    (forall a b v, nm a = Some v -> nm b = Some v -> a = b) /\
    (forall v, In v (sp_in st) -> nm v = Some v) /\ Forall2 (fun n v => nm n = Some v) (sp_out st) (sp_out st') /\
    (warned = false -> forall n, std_node st n -> nm n = None -> ~ In n (sp_in st) /\ exists m, In m (ct_pauli c) /\ mc_node m = n) /\
    (forall es es' o', edge_enum st es -> edge_enum st' es' -> exists k, (warned = false -> k <> C0) /\
       same_map (fun n => In n (map fst (sp_n st))) (std_node st) (sp_out st) (sp_out st') k
         (den (seq_ops (branch_of nm o') (std_cmds pushed es))) (den (seq_ops o' (std_cmds st' es')))) /\
    (forall m', In m' (sp_m st') -> exists m, In m (sp_m pushed) /\ nm (mc_node m) = Some (mc_node m') /\ is_pauli (mc_meas m') = is_pauli (mc_meas m)) /\
    (forall m v, In m (ct_pauli c) -> nm (mc_node m) = Some v -> ~ In v (sp_in st) -> exists m' s, In m' (sp_m st') /\ mc_node m' = v /\ mc_meas m' = MPauli AX s /\
       (exists w, adj (sp_e st') v w) /\ forall w, adj (sp_e st') v w -> In w (sp_in st)).
Proof.
  intros it leave st IT W SO NI HL PL c pushed. destruct (remove_core it leave st IT W SO NI HL PL) as (st' & nm & wd & H). exists st', nm, wd. fold c pushed in H. tauto.
Qed.
Print Assumptions C37_standardized.
Lemma Forall2_imp_in {A B} (R R' : A -> B -> Prop) l l' : Forall2 R l l' -> (forall a b, In a l -> R a b -> R' a b) -> Forall2 R' l l'.
Proof. induction 1; intros H'; constructor; auto. - apply H'; simpl; auto. - apply IHForall2. intros; apply H'; simpl; auto. Qed.
(** a map with factor 0 vanishes *)
Lemma same_map_zero prepared nodes ns outs outs' (nm : nat -> option nat) old new : (forall n, nodes n <-> In n ns) -> Forall2 (fun n v => nm n = Some v) outs outs' ->
  (forall a b v, nm a = Some v -> nm b = Some v -> a = b) -> (forall n v, nm n = Some v -> nodes v) -> same_map prepared nodes outs outs' C0 old new ->
  forall psi, input_only prepared psi -> forall g, old psi g = C0.
Proof.
  intros NS HO HJ HS Q psi IP g.
  assert (EX : exists g', Forall2 (fun n v => g n = g' v) outs outs' /\ forall n, ~ nodes n -> g n = g' n).
    { exists (fun v => if lmem v ns then match find (fun n => match nm n with Some w => (w =? v)%nat | None => false end) outs with Some n => g n | None => false end else g v). split.
      - apply (Forall2_imp_in _ _ _ _ HO). intros n v Hn Hv. pose proof (HS n v Hv) as Nv. assert (Z : lmem v ns = true) by (apply lmem_In, NS; auto). rewrite Z.
        destruct (find _ outs) as [n'|] eqn:F.
        + apply find_some in F. destruct F as [_ F]. destruct (nm n') as [w|] eqn:Q'; [|discriminate]. apply Nat.eqb_eq in F. subst w. f_equal. eapply HJ; eauto.
        + exfalso. pose proof (find_none _ _ F n Hn) as Y. cbn in Y. rewrite Hv, Nat.eqb_refl in Y. discriminate.
      - intros n Hn. destruct (lmem n ns) eqn:Z; auto. exfalso. apply Hn. apply lmem_In in Z. apply NS; auto. }
  destruct EX as (g' & G1 & G2). rewrite (Q psi IP g g' G1 G2). ring.
Qed.
(** the input |0...0> *)
Definition zero_input (inp : list nat) : state := fun f => if forallb (fun n => negb (f n)) inp then C1 else C0.
Lemma zero_input_nz inp : zero_input inp (fun _ => false) <> C0.
Proof. unfold zero_input. rewrite (proj2 (forallb_forall _ _)) by auto. intros Z. apply (f_equal re) in Z. cbn in Z. lra. Qed.
Lemma zero_input_only st : std_wf st -> input_only (fun n => In n (map fst (sp_n st))) (zero_input (sp_in st)).
Proof.
  intros W n Hn f b. unfold zero_input. replace (forallb (fun n0 => negb (upd f n b n0)) (sp_in st)) with (forallb (fun n0 => negb (f n0)) (sp_in st)); auto.
  assert (NI' : ~ In n (sp_in st)) by (apply (sw_nin _ W); auto). revert NI'. generalize (sp_in st). induction l as [|x l IH]; intros N; auto. cbn [forallb]. rewrite IH by (intros Z; apply N; right; auto). rewrite upd_other; auto. intros ->. apply N; left; auto.
Qed.
(** If every branch of the Pauli-pushed pattern has a non-zero probability on every
    input, no non-input Pauli measurement of the cut remains, and no branch is
    lost. *)
Theorem C37_all_removed : forall it leave st es, iter_ok it -> std_wf st -> std_out_ok st -> NoDup (sp_in st) -> has_loop st = false ->
  (forall p, In p (sp_n st) -> snd p = SPlus) -> edge_enum st es ->
  let c := push_cut leave st in let pushed := pauli_push leave st in
  (forall o psi f, psi f <> C0 -> input_only (fun n => In n (map fst (sp_n st))) psi -> ~ forall g, den (seq_ops o (std_cmds pushed es)) psi g = C0) ->
  exists st' nm warned, remove_pauli it st c = Some (st', nm, warned) /\
    (forall m, In m (ct_pauli c) -> ~ In (mc_node m) (sp_in st) -> nm (mc_node m) = None) /\
    (forall es' o', edge_enum st' es' -> exists k, k <> C0 /\
       same_map (fun n => In n (map fst (sp_n st))) (std_node st) (sp_out st) (sp_out st') k
         (den (seq_ops (branch_of nm o') (std_cmds pushed es))) (den (seq_ops o' (std_cmds st' es')))).
Proof.
  intros it leave st es IT W SO NI HL PL HE c pushed NZ. destruct (remove_core it leave st IT W SO NI HL PL) as (st' & nm & wd & H1 & W' & SO' & HL' & HI & HN & HS & HJ & HIN & HO & HK & HM & _ & _ & HZ). exists st', nm, wd. split; auto. split.
  - intros m Hm Hi. destruct (nm (mc_node m)) as [v|] eqn:Q; auto. exfalso. destruct (HZ m v es Hm Q) as (o & psi & f & Hf & IP & Z); auto.
    + intros K. apply HIN in K as K'. assert (v = mc_node m) by (symmetry; eapply HJ; eauto). congruence.
    + apply (NZ o psi f Hf IP); auto.
  - intros es' o' HE'. destruct (HM es es' o' HE HE') as (k & _ & Q). exists k. split; auto. intros ->.
    apply (NZ (branch_of nm o') _ _ (zero_input_nz (sp_in st)) (zero_input_only st W)).
    apply (same_map_zero _ _ (std_nodes st) _ _ nm _ _) with (5 := Q); auto; [intros n; unfold std_node, std_nodes; rewrite in_app_iff; tauto|intros n v Hv; apply (HS n v Hv)|]. apply zero_input_only; auto.
Qed.
Print Assumptions C37_all_removed.

(** * Pattern level *)
Lemma enum_loops st es : has_loop st = false -> edge_enum st es -> existsb (fun e => (fst e =? snd e)%nat) es = false.
Proof.
  intros HL HE. apply not_true_iff_false. intros Z. apply existsb_exists in Z. destruct Z as (e & He & Z). apply not_true_iff_false in HL. apply HL. apply existsb_exists. exists (edge_norm e). split.
  - eapply Permutation_in; [exact HE|]. apply in_map; auto.
  - apply Nat.eqb_eq in Z. apply Nat.eqb_eq. unfold edge_norm. cbn. lia.
Qed.
Lemma pushed_pauli st m : std_wf st -> In m (sp_m (pauli_push sempty st)) -> is_pauli (mc_meas m) = true -> In m (ct_pauli (push_cut sempty st)).
Proof.
  intros W Hm Hp. change (sp_m (pauli_push sempty st)) with (ct_pauli (push_cut sempty st) ++ ct_rest (push_cut sempty st)) in Hm. apply in_app_or in Hm. destruct Hm as [Hm|Hm]; auto. exfalso.
  destruct (push_first sempty st W) as (fr & bk & E1 & E2 & E3 & _). change (sp_m (pauli_push sempty st)) with (ct_pauli (push_cut sempty st) ++ ct_rest (push_cut sempty st)) in E1.
  pose proof (ci_q _ _ _ (cut_whole sempty st W)) as CR. apply (in_map (fun m => (mc_node m, mc_meas m))) in Hm. rewrite CR in Hm. apply in_map_iff in Hm. destruct Hm as (m0 & Q & Hm0). apply filter_In in Hm0. destruct Hm0 as [_ Hm0]. injection Q as _ Q. rewrite <- to_move_moved in Hm0. unfold to_move in Hm0. rewrite Q, Hp in Hm0. cbn in Hm0. rewrite mem_empty in Hm0. discriminate.
Qed.
Lemma phase_nz c : phase c -> c <> C0.
Proof. intros H ->. unfold phase, Cnorm2 in H. cbn in H. lra. Qed.
(** Pattern.remove_pauli_measurements, with either value of [standardize], on every
    pattern that prepares its nodes in |+>: it raises RunnabilityError on a pattern
    that is not runnable, NotImplementedError when standardization does, and
    otherwise succeeds.  The result is a runnable pattern with the same inputs; its
    nodes are nodes of the original ones, [nm] maps the surviving nodes injectively
    to those of the result, inputs to themselves and outputs to outputs in the same
    order; every branch of the result is, up to a factor, a branch of the original
    pattern; the factor is not zero unless the warning is issued; a remaining Pauli
    measurement of a non-input node is an X measurement; if the original pattern is
    deterministic, no Pauli measurement of a non-input node remains, and the
    factors are not zero. *)
Theorem C37_remove_pauli_measurements : forall std p r nm warned, pat_ok p -> sem_ok (p_seq p) = true ->
  (forall n s, In (CN n s) (p_seq p) -> s = SPlus) -> removes std p r nm warned ->
  (exists rs, r = Err (ERun rs) /\ ~ runnable (p_in p) (p_seq p)) \/
  (r = Err ENotImplemented /\ from_pattern p = Err ENotImplemented) \/
  exists p' sd, r = Ok p' /\ p_in p' = p_in p /\ pat_ok p' /\ check_runnability p' = Ok tt /\
    (forall v, exists_node (p_in p') (p_seq p') v <-> exists n, nm n = Some v) /\
    (forall n v, nm n = Some v -> exists_node (p_in p) (p_seq p) n /\ exists_node (p_in p) (p_seq p) v) /\
    (forall a b v, nm a = Some v -> nm b = Some v -> a = b) /\
    (forall v, In v (p_in p) -> nm v = Some v) /\ Forall2 (fun n v => nm n = Some v) (p_out p) (p_out p') /\
    (forall o', exists k, (warned = false \/ deterministic p -> k <> C0) /\
       same_map (prepared_in (p_seq p)) (exists_node (p_in p) (p_seq p)) (p_out p) (p_out p') k
         (den (seq_ops (shift_outcomes (branch_of nm o') sd) (p_seq p))) (den (seq_ops o' (p_seq p')))) /\
    (forall m, In m (pat_ms (p_seq p')) -> is_pauli (mc_meas m) = true ->
       In (mc_node m) (p_in p') \/ ((exists s, mc_meas m = MPauli AX s) /\ ~ deterministic p)).
Proof.
  intros std p r nm warned H1 H2 HP H. unfold removes in H. destruct (from_pattern p) as [st|e] eqn:E; [right; right|subst r; destruct (from_pattern_err _ _ E) as [(rs & -> & N)| ->]; eauto].
  destruct (std_facts p st H1 H2 E) as (W & SO & NI & HL & E1 & E2 & HR & MM & NN). destruct H as (it & IT & H).
  assert (PL : forall q, In q (sp_n st) -> snd q = SPlus). { intros [n s] K. rewrite NN in K. unfold ns_of in K. apply in_flat_map in K. destruct K as (c & C1 & C2). destruct c; cbn in C2; try tauto. destruct C2 as [[= -> ->]|[]]. cbn. eapply HP; eauto. }
  destruct (C13_cut st sempty W) as (W1 & F1 & F2 & F3 & F4 & _ & _ & _ & PF & _ & SEM & SU & IN).
  assert (HE : edge_enum st (sp_e st)) by (apply (std_enum_self p st E)).
  destruct (remove_core it sempty st IT W SO NI HL PL) as (st' & nm' & wd & R1 & W' & SO' & HL' & HI & HN & HS & HJ & HIN & HO & HK & HM & HB & HX & HZ).
  rewrite R1 in H. destruct H as (-> & -> & H).
  assert (PR : forall n, In n (map fst (sp_n st)) <-> prepared_in (p_seq p) n) by (intros n; rewrite NN; apply ns_of_In).
  assert (EN : forall n, std_node st n <-> exists_node (p_in p) (p_seq p) n) by (intros n; unfold std_node, exists_node; rewrite PR, E1; tauto).
  set (sd := ct_sd (push_cut sempty st)) in *.
  (* a branch that vanishes *)
  assert (DET : deterministic p -> forall o psi f, psi f <> C0 -> input_only (fun n => In n (map fst (sp_n st))) psi -> ~ forall g, den (seq_ops o (std_cmds (pauli_push sempty st) (sp_e st))) psi g = C0).
  { intros DE o psi f Hf IP Z. apply Hf. replace psi with zero_state; [reflexivity|]. symmetry.
    apply (all_zero (p_in p) (p_seq p)); auto.
    - intros n s Hn. rewrite (HP _ _ Hn). exists false. cbn. intros Y. apply (f_equal re) in Y. cbn in Y. pose proof sqrt2_neq_0. pose proof (Rinv_neq_0_compat _ H0). unfold Rdiv in Y. lra.
    - intros n Hn. apply IP, PR; auto.
    - assert (Z0 : den (seq_ops (shift_outcomes o sd) (p_seq p)) psi = zero_state).
      { pose proof (from_pattern_same p st (sp_e st) H1 H2 E HE (shift_outcomes o sd)) as (c1 & _ & Q1). rewrite Q1. destruct (SEM (sp_e st) o) as (c2 & _ & Q2). rewrite Q2. extensionality g. unfold cscale, zero_state. rewrite Z. ring. }
      intros o2. destruct (DE o2 (shift_outcomes o sd)) as (c & _ & Q). rewrite Q, Z0; [|intros n Hn; apply IP, PR; auto]. extensionality g. unfold cscale, zero_state. ring. }
  (* any good pattern for st' *)
  assert (KEY : forall p' es', edge_enum st' es' -> p_in p' = sp_in st' -> p_out p' = sp_out st' -> pat_wf p' -> runnable (p_in p') (p_seq p') -> pat_ms (p_seq p') = sp_m st' ->
    (forall v, exists_node (p_in p') (p_seq p') v <-> std_node st' v) -> (forall o, same_branch o (std_cmds st' es') (p_seq p')) ->
    p_in p' = p_in p /\ pat_ok p' /\ check_runnability p' = Ok tt /\
    (forall v, exists_node (p_in p') (p_seq p') v <-> exists n, nm' n = Some v) /\
    (forall n v, nm' n = Some v -> exists_node (p_in p) (p_seq p) n /\ exists_node (p_in p) (p_seq p) v) /\
    (forall a b v, nm' a = Some v -> nm' b = Some v -> a = b) /\
    (forall v, In v (p_in p) -> nm' v = Some v) /\ Forall2 (fun n v => nm' n = Some v) (p_out p) (p_out p') /\
    (forall o', exists k, (wd = false \/ deterministic p -> k <> C0) /\
       same_map (prepared_in (p_seq p)) (exists_node (p_in p) (p_seq p)) (p_out p) (p_out p') k
         (den (seq_ops (shift_outcomes (branch_of nm' o') sd) (p_seq p))) (den (seq_ops o' (p_seq p')))) /\
    (forall m, In m (pat_ms (p_seq p')) -> is_pauli (mc_meas m) = true ->
       In (mc_node m) (p_in p') \/ ((exists s, mc_meas m = MPauli AX s) /\ ~ deterministic p))).
  { intros p' es' HE' Q1 Q2 Q3 Q4 Q5 Q6 Q7. rewrite Q1, Q2, HI. split; auto. split; [split; auto; rewrite Q1, HI; auto|]. split; [apply check_runnability_spec; auto; rewrite Q1, HI in Q4; auto|].
    split; [intros v; rewrite <- HI, <- Q1, Q6; apply HN|]. split; [intros n v Hv; rewrite <- !EN; eauto|]. split; [exact HJ|]. split; [rewrite <- E1; exact HIN|]. split; [rewrite <- E2; exact HO|]. split.
    - intros o'. pose proof (from_pattern_same p st (sp_e st) H1 H2 E HE (shift_outcomes (branch_of nm' o') sd)) as (c1 & P1 & B1). destruct (SEM (sp_e st) (branch_of nm' o')) as (c2 & P2 & B2). destruct (Q7 o') as (c3 & P3 & B3).
      assert (KK : exists k, (wd = false \/ deterministic p -> k <> C0) /\ same_map (fun n => In n (map fst (sp_n st))) (std_node st) (sp_out st) (sp_out st') k (den (seq_ops (branch_of nm' o') (std_cmds (pauli_push sempty st) (sp_e st)))) (den (seq_ops o' (std_cmds st' es')))).
      { destruct (HM (sp_e st) es' o' HE HE') as (k & K1 & K2). exists k. split; auto. intros [Hw|DE]; auto. intros ->. apply (DET DE (branch_of nm' o') _ _ (zero_input_nz (sp_in st)) (zero_input_only st W)).
        apply (same_map_zero _ _ (std_nodes st) _ _ nm' _ _) with (5 := K2); auto; [intros n; unfold std_node, std_nodes; rewrite in_app_iff; tauto|intros n v Hv; apply (HS n v Hv)|]. apply zero_input_only; auto. }
      destruct KK as (k & K1 & K2). exists (c1 * c2 * k * c3)%C. split.
      + intros Hw. apply K1 in Hw. intros Z. apply Cmul_zero in Z. destruct Z as [Z|Z]; [|apply (phase_nz _ P3 Z)]. apply Cmul_zero in Z. destruct Z as [Z|Z]; [|auto]. apply Cmul_zero in Z. destruct Z as [Z|Z]; [apply (phase_nz _ P1 Z)|apply (phase_nz _ P2 Z)].
      + intros psi IP f f' Hf Hn. rewrite B1, B2. unfold cscale. rewrite (K2 psi) with (f' := f'); [rewrite B3; unfold cscale; ring| | |].
        * intros n Hn'. apply IP, PR; auto.
        * rewrite E2; auto.
        * intros n Hn'. apply Hn. rewrite <- EN. auto.
    - rewrite Q5. intros m' Hm' Hp. destruct (HB m' Hm') as (m & A & B & C). rewrite Hp in C. symmetry in C. assert (Hm := pushed_pauli st m W A C).
      destruct (in_dec Nat.eq_dec (mc_node m') (sp_in st)) as [Hi|Hi]; [left; auto|right]. split.
      + destruct (HX m _ Hm B Hi) as (m2 & s & X1 & X2 & X3 & _). replace m' with m2; eauto. 
        assert (NoDup (map mc_node (sp_m st'))) by (apply W'). revert H0 X1 Hm' X2. clear. generalize (sp_m st'). induction l as [|a l IH]; simpl; [tauto|]. intros N. inversion N; subst. intros [->|X1] [->|Hm'] X2; auto; exfalso; apply H1; rewrite <- ?X2; [rewrite X2; apply in_map; auto|apply in_map; auto].
      + intros DE. destruct (HZ m _ (sp_e st) Hm B Hi HE) as (o & psi & f & Hf & IP & Z). apply (DET DE o psi f Hf IP); auto. }
  destruct std.
  - destruct H as (es & HEs & ->). destruct (to_pattern_ok st' es W' HEs) as (p' & P1 & P2 & P3 & P4 & P5); auto; [rewrite HI; auto|apply (enum_loops st'); auto|].
    exists p', sd. split; auto. apply (KEY p' es); auto.
    + rewrite P2, P4. apply std_runnable; auto. apply edge_enum_nodes; auto.
    + rewrite P4. apply pat_ms_std.
    + rewrite P4, P2. intros v. unfold exists_node, std_node. rewrite <- ns_of_In, std_cmds_ns. tauto.
    + rewrite P4. intros o. unfold same_branch. reflexivity.
  - destruct H as (nbs & NB & ->).
    destruct (space_opt_ok st' nbs W' SO' (eq_ind_r (@NoDup nat) NI HI) NB HL') as (p' & P1 & P1' & P2 & P3 & P4 & _ & P5 & P6 & P6' & P7).
    assert (HEs : edge_enum st' (sp_e st')). { unfold edge_enum. rewrite (map_ext_in edge_norm (fun e => e)); [rewrite map_id; apply Permutation_refl|]. intros e He. apply (sw_e _ W' e He). }
    exists p', sd. split; auto. apply (KEY p' (sp_e st')); auto.
    + apply P4.
    + apply (space_cmds_ms _ _ _ P1').
    + rewrite P2. exact P6'.
Qed.
Print Assumptions C37_remove_pauli_measurements.

(** * A concrete case *)
(** a line of five nodes with three Pauli measurements, one with sign -, and
    domains: one input, one output and one measurement remain; the output is node 4
    renamed to 3 *)
Definition rm_ex (a : R) : pattern :=
  pat_extend (pat_new [0])
    [CN 1 SPlus; CN 2 SPlus; CN 3 SPlus; CN 4 SPlus; CE 0 1; CE 1 2; CE 2 3; CE 3 4;
     CM 0 (MBloch a PXY) sempty sempty; CM 1 (MPauli AX Minus) (sing 0) sempty; CM 2 (MPauli AY Plus) (sing 1) (sing 0);
     CM 3 (MPauli AX Plus) (sing 2) (sing 1); CX 4 (sing 3); CZ 4 (sing 2)].
Example C37_case : forall a, pat_ok (rm_ex a) /\ sem_ok (p_seq (rm_ex a)) = true /\ (forall n s, In (CN n s) (p_seq (rm_ex a)) -> s = SPlus) /\
  exists p' nm, removes true (rm_ex a) (Ok p') nm false /\ map nm [0; 1; 2; 3; 4] = [Some 0; None; None; None; Some 3] /\
    p_out (rm_ex a) = [4] /\ p_out p' = [3] /\ map mc_node (pat_ms (p_seq p')) = [0].
Proof.
  intros a. split.
  { split; [cbn; repeat constructor; simpl; intuition congruence|]. vm_compute. apply Permutation_refl. }
  split; [reflexivity|]. split. { cbn. intros n s H. repeat (destruct H as [H|H]; [congruence|]). tauto. }
  destruct (from_pattern (rm_ex a)) as [st|e] eqn:E; [|vm_compute in E; discriminate].
  destruct (remove_pauli elems st (push_cut sempty st)) as [[[st' nm] w]|] eqn:R; [|vm_compute in E; injection E as <-; vm_compute in R; discriminate].
  destruct (to_pattern st' (sp_e st')) as [p'|e] eqn:T; [|vm_compute in E; injection E as <-; vm_compute in R; injection R as <- <- <-; vm_compute in T; discriminate].
  exists p', nm. split.
  { unfold removes. rewrite E. exists elems. split; [apply iter_elems|]. rewrite R. split; auto. split. { vm_compute in E; injection E as <-; vm_compute in R; injection R as _ _ <-. reflexivity. }
    exists (sp_e st'). split; auto. vm_compute in E; injection E as <-; vm_compute in R; injection R as <- _ _. cbv. apply Permutation_refl. }
  vm_compute in E; injection E as <-; vm_compute in R; injection R as <- <- _; vm_compute in T; injection T as <-. repeat split.
Qed.

(** * Where the property fails *)
Lemma const_only P : input_only P (fun _ => C1).
Proof. intros n _ f b. reflexivity. Qed.
Definition out_at (b : bool) : asg := upd (fun _ => false) 1 b.
Lemma preps2 psi l : den (OPrep (nstate_vec SPlus) 0 :: OPrep (nstate_vec SPlus) 1 :: l) psi = cscale (hk 2) (den l psi).
Proof.
  change (OPrep (nstate_vec SPlus) 0 :: OPrep (nstate_vec SPlus) 1 :: l) with (prep_ops [(0, SPlus); (1, SPlus)] ++ l). rewrite den_app, preps_plus, den_scale; [reflexivity|]. intros p [<-|[<-|[]]]; reflexivity.
Qed.
Lemma preps1 psi n l : den (OPrep (nstate_vec SPlus) n :: l) psi = cscale (hk 1) (den l psi).
Proof.
  change (OPrep (nstate_vec SPlus) n :: l) with (prep_ops [(n, SPlus)] ++ l). rewrite den_app, preps_plus, den_scale; [reflexivity|]. intros p [<-|[]]; reflexivity.
Qed.
Lemma Cz_half (x : C) : x = (- x)%C -> x = C0.
Proof. intros H. apply C_eq; [apply (f_equal re) in H|apply (f_equal im) in H]; cbn in *; lra. Qed.
(** the factor cannot be claimed to be non-zero when the warning is issued, even
    though every node that is removed carries a Pauli measurement: an isolated node
    measured along -X has outcome 1 only, but the corrections that depend on it are
    dropped as if it had outcome 0; the result is no branch of the original *)
Definition iso_ex : pattern := pat_extend (pat_new []) [CN 0 SPlus; CN 1 SPlus; CM 0 (MPauli AX Minus) sempty sempty; CZ 1 (sing 0)].
Theorem C37_isolated_refuted : exists p p' nm, pat_ok p /\ sem_ok (p_seq p) = true /\ (forall n s, In (CN n s) (p_seq p) -> s = SPlus) /\
  (forall m, In m (pat_ms (p_seq p)) -> is_pauli (mc_meas m) = true) /\ removes true p (Ok p') nm true /\
  forall o o' k, same_map (prepared_in (p_seq p)) (exists_node (p_in p) (p_seq p)) (p_out p) (p_out p') k (den (seq_ops o (p_seq p))) (den (seq_ops o' (p_seq p'))) -> k = C0.
Proof.
  destruct (from_pattern iso_ex) as [st|e] eqn:E; [|vm_compute in E; discriminate].
  destruct (remove_pauli elems st (push_cut sempty st)) as [[[st' nm] w]|] eqn:R; [|vm_compute in E; injection E as <-; vm_compute in R; discriminate].
  destruct (to_pattern st' (sp_e st')) as [p'|e] eqn:T; [|vm_compute in E; injection E as <-; vm_compute in R; injection R as <- <- <-; vm_compute in T; discriminate].
  exists iso_ex, p', nm. split. { split; [constructor|]. vm_compute. apply Permutation_refl. }
  split; [reflexivity|]. split. { cbn. intros n s H. repeat (destruct H as [H|H]; [congruence|]). tauto. }
  split. { cbn. intros m [<-|[]]. reflexivity. }
  split.
  { unfold removes. rewrite E. exists elems. split; [apply iter_elems|]. rewrite R. split; auto. split. { vm_compute in E; injection E as <-; vm_compute in R; injection R as _ _ <-. reflexivity. }
    exists (sp_e st'). split; auto. vm_compute in E; injection E as <-; vm_compute in R; injection R as <- _ _. cbv. apply Permutation_refl. }
  vm_compute in E; injection E as <-; vm_compute in R; injection R as <- <- _; vm_compute in T; injection T as <-.
  intros o o' k H. cbn [p_seq p_out] in H.
  assert (V : forall b, den (seq_ops o (p_seq iso_ex)) (fun _ => C1) (out_at b) = (k * hk 1)%C).
  { intros b. rewrite (H (fun _ => C1) (const_only _) (out_at b) (out_at b)); [|repeat constructor|auto]. cbn [seq_ops flat_map app cmd_ops p_seq]. rewrite preps1. unfold cscale. cbn [den]. ring. }
  assert (Z : (k * hk 1)%C = C0).
  { assert (F := pat_extend_fields (pat_new []) [CN 0 SPlus; CN 1 SPlus; CM 0 (MPauli AX Minus) sempty sempty; CZ 1 (sing 0)]). destruct F as (_ & F & _). unfold iso_ex in V. rewrite F in V. cbn [p_seq pat_new seq_ops flat_map app cmd_ops] in V.
    rewrite parity_sing in V. unfold describe_measurement in V. rewrite !parity_empty in V. pose proof (V false) as V0. pose proof (V true) as V1. clear V. rewrite preps2 in V0, V1. destruct (o 0) eqn:O.
    - unfold cscale, out_at in V0, V1. cbn [app den] in V0, V1. unfold app_op in V0, V1. rewrite !upd_same in V0, V1. revert V0 V1. generalize (mvec (MPauli AX Minus) true) (hk 2) (k * hk 1)%C. intros v h x V0 V1. cbn in V0, V1. apply Cz_half. rewrite <- V0 at 1. rewrite <- V1. ring.
    - rewrite <- V0. cbn [app den]. unfold cscale, app_op. pose proof (minus_vec Minus) as MV. cbn [sign_eqb] in MV. transitivity (hk 2 * (Cconj (v0 (mvec (MPauli AX Minus) false)) + Cconj (v1 (mvec (MPauli AX Minus) false))))%C; [ring|]. rewrite MV. ring. }
  apply Cmul_zero in Z. destruct Z as [Z|Z]; auto. exfalso. apply (hk_norm 1 Z).
Qed.
Print Assumptions C37_isolated_refuted.

Lemma plus_get b : vget (nstate_vec SPlus) b = hk 1.
Proof.
  assert (E := f_equal (fun g => g (upd (fun _ => false) 0 b)) (preps1 (fun _ => C1) 0 [])). cbn [den] in E. unfold app_op, cscale in E. rewrite upd_same in E.
  transitivity (vget (nstate_vec SPlus) b * C1)%C; [ring|]. rewrite E. ring.
Qed.
(** the hypothesis on preparations is needed: the states in which the nodes are
    prepared are ignored.  Node 0 is prepared in |0>: the original output is a
    multiple of |+>, the new one of S|+>. *)
Definition vec_ex : pattern := pat_extend (pat_new []) [CN 0 (SVec (bvec false)); CN 1 SPlus; CE 0 1; CM 0 (MPauli AY Plus) sempty sempty].
Theorem C37_preparations_refuted : exists p p' nm, pat_ok p /\ sem_ok (p_seq p) = true /\ removes true p (Ok p') nm false /\
  forall o o' k, same_map (prepared_in (p_seq p)) (exists_node (p_in p) (p_seq p)) (p_out p) (p_out p') k (den (seq_ops o (p_seq p))) (den (seq_ops o' (p_seq p'))) -> k = C0.
Proof.
  destruct (from_pattern vec_ex) as [st|e] eqn:E; [|vm_compute in E; discriminate].
  destruct (remove_pauli elems st (push_cut sempty st)) as [[[st' nm] w]|] eqn:R; [|vm_compute in E; injection E as <-; vm_compute in R; discriminate].
  destruct (to_pattern st' (sp_e st')) as [p'|e] eqn:T; [|vm_compute in E; injection E as <-; vm_compute in R; injection R as <- <- <-; vm_compute in T; discriminate].
  exists vec_ex, p', nm. split. { split; [constructor|]. vm_compute. apply Permutation_refl. }
  split; [reflexivity|]. split.
  { unfold removes. rewrite E. exists elems. split; [apply iter_elems|]. rewrite R. split; auto. split. { vm_compute in E; injection E as <-; vm_compute in R; injection R as _ _ <-. reflexivity. }
    exists (sp_e st'). split; auto. vm_compute in E; injection E as <-; vm_compute in R; injection R as <- _ _. cbv. apply Permutation_refl. }
  vm_compute in E; injection E as <-; vm_compute in R; injection R as <- <- _; vm_compute in T; injection T as <-.
  intros o o' k H. cbn [p_seq p_out] in H.
  assert (V : forall b, den (seq_ops o (p_seq vec_ex)) (fun _ => C1) (out_at b) = (k * (hk 1 * (if b then Ci else C1)))%C).
  { intros b. rewrite (H (fun _ => C1) (const_only _) (out_at b) (out_at b)); [|repeat constructor|auto]. cbn [seq_ops flat_map app cmd_ops p_seq]. rewrite preps1. unfold cscale, out_at. cbn [den]. unfold app_op. rewrite !upd_same. f_equal. f_equal. rewrite clifford_mat_S. destruct b; apply C_eq; cbn; ring. }
  assert (W : den (seq_ops o (p_seq vec_ex)) (fun _ => C1) (out_at true) = den (seq_ops o (p_seq vec_ex)) (fun _ => C1) (out_at false)).
  { assert (F := pat_extend_fields (pat_new []) [CN 0 (SVec (bvec false)); CN 1 SPlus; CE 0 1; CM 0 (MPauli AY Plus) sempty sempty]). destruct F as (_ & F & _). unfold vec_ex. rewrite F. cbn [p_seq pat_new seq_ops flat_map app cmd_ops den].
    generalize (mvec (describe_measurement o (MPauli AY Plus) sempty sempty) (o 0)). intros v. unfold app_op, out_at. rewrite !upd_same, !upd_other by lia. rewrite !upd_same, !plus_get. cbn [vget nstate_vec bvec v0 v1 sgn andb]. ring. }
  rewrite !V in W. assert (Z : (k * hk 1 = C0)%C).
  { revert W. generalize (hk 1). intros h W. assert (Z : (k * h * Ci = k * h)%C). { transitivity (k * (h * Ci))%C; [ring|rewrite W; ring]. } revert Z. generalize (k * h)%C. intros x Z. pose proof (f_equal re Z) as Z1. pose proof (f_equal im Z) as Z2. cbn in Z1, Z2. apply C_eq; cbn; lra. }
  apply Cmul_zero in Z. destruct Z as [Z|Z]; auto. exfalso. apply (hk_norm 1 Z).
Qed.
Print Assumptions C37_preparations_refuted.
