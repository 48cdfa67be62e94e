(** Property theorems: transpilation of circuits to patterns (C21). *)
From Coq Require Import Reals Lra Arith ZArith List Bool Lia Permutation Relations FunctionalExtensionality.
From Verif Require Import Cplx Mat2 NSet QState Fundamentals CliffordDb Clifford Measure Layer Pattern Standardize PropStd Statevec Density Circuit Swaps
  PropCircuit FlowSem FlowDet OpenGraph FlowSpec Flow FlowWF FlowPat OGMap PropFlow TopGen Corr Space SpaceMin SpaceHeur PropSpace Transpile TranspileFlow TranspilePat.
Import ListNotations.

(** * Specification *)
(** In every branch, the pattern applied to a state of the register (its inputs
    are nodes 0..w-1) yields the state computed by the circuit, up to a global
    phase and to the factor 1/sqrt 2 of every non-classical measurement: the
    k-th output node carries the qubit [qs[k]], and the k-th measurement of the
    circuit has the outcome of node [cl[k]] *)
Definition implements_circuit (w : nat) (p : pattern) (cl : list nat) (l : list instr) (qs : list nat) : Prop :=
  p_in p = range w /\ length (p_out p) = length qs /\ length cl = nmeas l /\ NoDup cl /\ (forall n, In n cl -> measured_in (p_seq p) n) /\
  forall o, exists z, phase z /\ forall psi, on_register w psi ->
    forall f g, (forall q n, In (q, n) (combine qs (p_out p)) -> g q = f n) ->
    den (seq_ops o (p_seq p)) psi f
    = (z * RtoC ((/ sqrt 2) ^ (length (ms_of (p_seq p)) - nmeas l)) * csem (fun k => o (nth k cl 0)) 0 l psi g)%C.

(** * transpile_swaps=False *)
Theorem C21_transpile_without_swaps : forall it en nb nrm w l c, iter_ok it -> enum_ok en -> nb_ok nb -> nrm_ok nrm ->
  circ_make w l = Ok c -> Forall (fun i => NoDup (iqubits i) /\ forall q, i <> II q) l ->
  exists p cl, transpile_noswap it en nb nrm c = Ok (p, cl) /\ check_runnability p = Ok tt /\ implements_circuit w p cl l (unmeasured c).
Proof.
  intros it en nb nrm w l c H1 H2 H3 H4 H5 H6. destruct (transpile_noswap_sem it en nb nrm w l c H1 H2 H3 H4 H5 H6) as (p & cl & A & B & _ & R & D & F & G & K & S).
  exists p, cl. split; auto. split; auto. split; auto. split; auto. split; auto. split; auto. split; auto. intros n Hn. apply K; auto.
Qed.
Print Assumptions C21_transpile_without_swaps.

(** * transpile_swaps=True *)
Lemma circ_extend_snoc c l i c1 c2 : circ_extend c l = Ok c1 -> circ_add c1 i = Ok c2 -> circ_extend c (l ++ [i]) = Ok c2.
Proof. unfold circ_extend. intros H1 H2. rewrite rfold_app, H1. cbn [rbind rfold]. rewrite H2. auto. Qed.
Lemma imap_plain outs i i' : oinj outs -> imap (visit_qubit outs) i = Ok i' -> plain i -> plain i'.
Proof.
  intros HI HM [ND NI].
  assert (HF : Forall2 (oat outs) (iqubits i) (iqubits i') /\ forall q, i' <> II q).
  { destruct i; cbn [imap] in HM;
    repeat match type of HM with rbind (visit_qubit outs ?q) _ = _ => let E := fresh "E" in destruct (visit_qubit outs q) eqn:E; cbn [rbind] in HM; [apply vq_ok in E|discriminate] end;
    injection HM as <-; cbn [iqubits]; (split; [repeat constructor; auto|]); try (intros; discriminate). elim (NI q); auto. }
  destruct HF as [HF NI']. split; auto. clear - HI HF ND. induction HF as [|q k qs ks H HF IH]; [constructor|]. inversion ND as [|? ? N1 N2]; subst. constructor; auto.
  intros K. apply N1. clear - HI HF H K. induction HF as [|q' k' qs ks H' HF IH]; [destruct K|]. destruct K as [->|K]; [left; eapply HI; eauto|right; auto].
Qed.
Lemma swap_step_made w l act c' outs mi i c'' outs' mi' : swinv w l act c' outs mi -> circ_make w (c_instr c') = Ok c' -> Forall plain (c_instr c') -> plain i ->
  swap_step (c', outs, mi) i = Ok (c'', outs', mi') -> circ_make w (c_instr c'') = Ok c'' /\ Forall plain (c_instr c'').
Proof.
  intros HI HM HP Hi E.
  assert (G : forall i' c1, imap (visit_qubit outs) i = Ok i' -> circ_add c' i' = Ok c1 -> circ_make w (c_instr c1) = Ok c1 /\ Forall plain (c_instr c1)).
  { intros i' c1 E1 E2. assert (EI : c_instr c1 = c_instr c' ++ [i']) by (unfold circ_add in E2; destruct (add_ok (c_active c') i'); [injection E2 as <-; auto|discriminate]).
    rewrite EI. split; [eapply circ_extend_snoc; eauto|]. apply Forall_app. split; auto. constructor; auto. eapply imap_plain; eauto. apply HI. }
  unfold swap_step in E. destruct i;
   try (destruct (imap (visit_qubit outs) _) as [i'|] eqn:E1; cbn [rbind] in E; [|discriminate]; destruct (circ_add c' i') as [cc|] eqn:E2; cbn [rbind] in E; [|discriminate];
        injection E as <- _ _; eapply G; eauto; fail).
  repeat match type of E with rbind (visit_qubit outs ?q) _ = _ => destruct (visit_qubit outs q); cbn [rbind] in E; [|discriminate] end.
  repeat match type of E with match nth_error outs ?q with _ => _ end = _ => destruct (nth_error outs q); [|discriminate] end. injection E as <- _ _. auto.
Qed.
Lemma transpile_swaps_made w l c : circ_make w l = Ok c -> Forall plain l ->
  exists c' outs mi, transpile_swaps c = Ok (c', outs) /\ swinv w l (c_active c) c' outs mi /\ circ_make w (c_instr c') = Ok c' /\ Forall plain (c_instr c').
Proof.
  intros H HP. destruct (circ_extend_fields _ _ _ H) as [EW EI]. cbn in EW, EI. unfold transpile_swaps. rewrite EW, EI.
  assert (G : forall l l0 act c0 c' outs mi, swinv w l0 act c' outs mi -> c_active c0 = act -> circ_extend c0 l = Ok c -> Forall plain l -> circ_make w (c_instr c') = Ok c' -> Forall plain (c_instr c') ->
     exists c'' outs' mi', rfold swap_step l (c', outs, mi) = Ok (c'', outs', mi') /\ swinv w (l0 ++ l) (c_active c) c'' outs' mi' /\ circ_make w (c_instr c'') = Ok c'' /\ Forall plain (c_instr c'')).
  { clear. intros l. induction l as [|i l IH]; intros l0 act c0 c' outs mi HI HA HE HP M1 M2.
    - inversion HE; subst. rewrite app_nil_r. do 3 eexists. split; [reflexivity|auto].
    - apply circ_extend_cons in HE. destruct HE as [Eok HE]. inversion HP as [|? ? P1 P2]; subst.
      destruct (swap_step_inv w l0 _ c' outs mi i HI Eok) as (c1 & o1 & m1 & ES & I1). destruct (swap_step_made w l0 _ c' outs mi i c1 o1 m1 HI M1 M2 P1 ES) as [N1 N2].
      cbn [rfold]. rewrite ES. cbn [rbind]. destruct (fun K => IH (l0 ++ [i]) _ _ c1 o1 m1 I1 K HE P2 N1 N2) as (c2 & o2 & m2 & Q); [reflexivity|].
      exists c2, o2, m2. rewrite <- app_assoc in Q. exact Q. }
  destruct (G l [] _ (circ_new w) _ _ _ (swinv_init w) eq_refl H HP) as (c' & outs & mi & E & HI & M1 & M2); [reflexivity|constructor|].
  exists c', outs, mi. rewrite E. auto.
Qed.

Definition measured_qubits (c : circuit) : list nat := filter (fun q => negb (mem q (c_active c))) (range (c_width c)).
Definition node_at (qs outs : list nat) (q : nat) : nat := nth (pos_of q qs) outs 0.
Lemma node_at_map qs outs : NoDup qs -> length outs = length qs -> map (node_at qs outs) qs = outs.
Proof.
  unfold node_at. revert outs. induction qs as [|q qs IH]; intros [|x outs] ND L; try discriminate; auto. cbn [map pos_of]. rewrite Nat.eqb_refl. cbn [nth]. f_equal.
  inversion ND; subst. transitivity (map (fun q => nth (pos_of q qs) outs 0) qs); [|apply IH; auto]. apply map_ext_in. intros a Ha. destruct (Nat.eqb_spec a q) as [->|]; [tauto|auto].
Qed.
Lemma node_at_combine qs outs q n : NoDup qs -> length outs = length qs -> In (q, n) (combine qs outs) -> n = node_at qs outs q /\ In q qs.
Proof.
  unfold node_at. revert outs. induction qs as [|a qs IH]; intros [|x outs] ND L H; try discriminate; try destruct H; inversion ND; subst; cbn [pos_of].
  - injection H as -> ->. rewrite Nat.eqb_refl. split; [auto|left; auto].
  - destruct (IH outs) as [E I]; auto. destruct (Nat.eqb_spec q a) as [->|]; [tauto|]. split; [exact E|right; auto].
Qed.
Definition oidx_opt (node : nat -> nat) (o : oidx) : option nat := match o with OQubit i => Some (node i) | OBit _ => None end.
Lemma t_outs_oidx node outs : t_outs (map (oidx_opt node) outs) = map node (out_qubits outs).
Proof. unfold t_outs, out_qubits. induction outs as [|[i|k] outs IH]; cbn; auto. f_equal. auto. Qed.
Lemma unmeasured_range c q : In q (unmeasured c) <-> mem q (c_active c) = true /\ q < c_width c.
Proof. unfold unmeasured. rewrite filter_In, range_In. tauto. Qed.
Lemma circ_active_sub l : forall c c' q, circ_extend c l = Ok c' -> mem q (c_active c') = true -> mem q (c_active c) = true.
Proof.
  induction l as [|i l IH]; intros c c' q H M; [injection H as <-; auto|]. apply circ_extend_cons in H. destruct H as [_ H]. apply (IH _ _ q H) in M. cbn [c_active] in M.
  destruct i; auto. rewrite mem_sremove, andb_true_iff in M. tauto.
Qed.
Lemma circ_active_lt w l c q : circ_make w l = Ok c -> mem q (c_active c) = true -> q < w.
Proof. intros H M. apply (circ_active_sub l _ _ q H) in M. cbn in M. apply mem_of_list, range_In in M. auto. Qed.
Lemma combine_range q n (l : list nat) k m : In (q, n) (combine (seq k m) l) -> k <= q /\ nth_error l (q - k) = Some n.
Proof.
  revert l k. induction m as [|m IH]; intros l k H; [destruct H|]. destruct l as [|x l]; [destruct H|]. cbn [seq combine] in H. destruct H as [H|H].
  - injection H as -> ->. rewrite Nat.sub_diag. auto.
  - apply IH in H. destruct H as [A B]. split; [lia|]. replace (q - k) with (S (q - S k)) by lia. exact B.
Qed.
(** C21 for the default mode.  Measurements are allowed, provided the bookkeeping
    of the outputs does not fail: a qubit of the SWAP-free circuit that carries
    an output must be unmeasured in the original (see C22_output_nodes_partial
    and C22_output_nodes_refuted) *)
Theorem C21_transpile : forall it en nb nrm w l c, iter_ok it -> enum_ok en -> nb_ok nb -> nrm_ok nrm ->
  circ_make w l = Ok c -> Forall (fun i => NoDup (iqubits i) /\ forall q, i <> II q) l ->
  (forall c' outs, transpile_swaps c = Ok (c', outs) -> forall q i, nth_error outs q = Some (OQubit i) -> exists j, nth_error outs i = Some (OQubit j)) ->
  exists p cl bits, transpile it en nb nrm c = Ok (p, bits) /\ check_runnability p = Ok tt /\ implements_circuit w p cl l (unmeasured c) /\
    length bits = length (measured_qubits c) /\
    (forall q n, In (q, n) (combine (measured_qubits c) bits) <-> exists k, nth_error (mtargets l) k = Some q /\ nth_error cl k = Some n).
Proof.
  intros it en nb nrm w l c H1 H2 H3 H4 H5 H6 H7.
  destruct (transpile_swaps_made w l c H5 H6) as (c' & outs & mi & E & HI & M & P). specialize (H7 c' outs E).
  destruct (transpile_noswap_sem it en nb nrm w (c_instr c') c' H1 H2 H3 H4 M P) as (p & cl & T & I & PO & R & L & LC & NC & KC & S).
  set (node := node_at (unmeasured c') (p_out p)).
  assert (NU : NoDup (unmeasured c')) by (apply NoDup_filter, seq_NoDup).
  assert (EO : map node (unmeasured c') = p_out p) by (apply node_at_map; auto).
  assert (HS : forall i, In i (out_qubits outs) -> In i (positions outs)) by (intros i Hi; apply out_qubits_In in Hi; destruct Hi as (q & Hq); apply positions_In; unfold oat; eapply H7; eauto).
  pose proof (swap_output_nodes_ok w l _ c' outs mi node HI HS) as SO. rewrite EO in SO.
  assert (CW : c_width c = w) by apply (circ_extend_fields _ _ _ H5).
  assert (PU : Permutation (out_qubits outs) (unmeasured c')).
  { apply NoDup_Permutation; auto; [apply out_qubits_NoDup, HI|]. intros i. rewrite out_qubits_In, unmeasured_range. split.
    - intros (q & K). split; [eapply (sw_range _ _ _ _ _ _ HI); eauto|]. destruct (H7 q i K) as (j & J). rewrite (sw_width _ _ _ _ _ _ HI), <- (sw_len _ _ _ _ _ _ HI). apply nth_error_Some. congruence.
    - intros [K _]. apply (sw_act' _ _ _ _ _ _ HI); auto. }
  assert (NP : NoDup (p_out p)).
  { destruct (outs_of_live (p_in p) (p_seq p)) as [N1 _]; [apply PO|apply check_runnability_spec; auto|]. eapply Permutation_NoDup; [apply Permutation_sym, PO|auto]. }
  assert (PN : Permutation (map node (out_qubits outs)) (p_out p)) by (rewrite <- EO; apply Permutation_map; auto).
  set (p' := Pat (p_in p) (p_seq p) (map node (out_qubits outs)) (p_n p)).
  assert (RO : reorder_output_nodes p (map node (out_qubits outs)) = Ok p').
  { unfold reorder_output_nodes. replace (assert_permutation (p_out p) (map node (out_qubits outs))) with (@Ok unit tt); [reflexivity|]. symmetry. apply assert_permutation_spec. split.
    - eapply Permutation_NoDup; [apply Permutation_sym, PN|auto].
    - intros n. split; apply Permutation_in; [|apply Permutation_sym]; auto. }
  assert (NM : nmeas (c_instr c') = nmeas l) by (rewrite !nmeas_mtargets, <- !maxes_mtargets, (sw_axes _ _ _ _ _ _ HI); auto).
  set (bits := map (fun k => nth k cl 0) (out_bits outs)).
  assert (OB : forall k, In k (out_bits outs) -> k < length cl).
  { intros k Hk. unfold out_bits in Hk. apply in_flat_map in Hk. destruct Hk as (o & Ho & K). destruct o as [|k']; [destruct K|]. destruct K as [->|[]].
    apply In_nth_error in Ho. destruct Ho as (q & Ho). apply (sw_bits _ _ _ _ _ _ HI) in Ho. rewrite LC, NM, nmeas_mtargets. apply nth_error_Some. congruence. }
  assert (SC : swap_classical_outputs outs cl = Ok bits).
  { unfold swap_classical_outputs. apply rmap_ok. intros k Hk. unfold lookup. rewrite (nth_error_nth' cl 0) by auto. auto. }
  assert (IA : forall node q, nth_error (map (oidx_opt node) outs) q = option_map (oidx_opt node) (nth_error outs q)) by (intros; apply nth_error_map).
  destruct (combine_outs (fun q => mem q (c_active c)) (map (oidx_opt node) outs) 0) as [LE CO].
  { intros q _. cbn [Nat.add]. rewrite (sw_act _ _ _ _ _ _ HI q). unfold oat. split.
    - intros (i & K). exists (node i). rewrite IA, K. auto.
    - intros (n & K). rewrite IA in K. destruct (nth_error outs q) as [[i|k]|]; try discriminate. eauto. }
  rewrite map_length, (sw_len _ _ _ _ _ _ HI) in LE, CO. rewrite t_outs_oidx in LE, CO.
  exists p', cl, bits. split; [|split; [|split; [|]]].
  - unfold transpile. rewrite E. cbn [rbind fst snd]. rewrite T. cbn [rbind fst snd]. rewrite SO. cbn [rbind]. rewrite RO. cbn [rbind]. rewrite SC. reflexivity.
  - apply check_runnability_spec. cbn [p' p_in p_seq]. apply check_runnability_spec. auto.
  - split; [exact I|]. split; [cbn [p' p_out]; unfold unmeasured; rewrite CW; symmetry; exact LE|]. split; [congruence|]. split; auto. split; [intros n Hn; apply KC; auto|].
    intros o. destruct (S o) as (z & Hz & K). exists z. split; auto. intros psi HP f g HA. cbn [p' p_seq].
    rewrite (K psi HP f (fun i => f (node i))).
    + rewrite NM. f_equal. symmetry. apply (sw_rel _ _ _ _ _ _ HI (fun k => o (nth k cl 0)) psi HP g (fun i => f (node i))).
      intros q i Q. symmetry. apply HA. unfold unmeasured. rewrite CW. cbn [p' p_out]. apply CO. rewrite Nat.sub_0_r. split; [lia|]. rewrite IA, Q. auto.
    + intros i n Q. apply node_at_combine in Q; auto. destruct Q as [-> _]. auto.
  - set (bopt := fun o => match o with OBit k => Some (nth k cl 0) | OQubit _ => None end).
    assert (IB : forall q, nth_error (map bopt outs) q = option_map bopt (nth_error outs q)) by (intros; apply nth_error_map).
    destruct (combine_outs (fun q => negb (mem q (c_active c))) (map bopt outs) 0) as [LB CB].
    { intros q Hq. rewrite map_length in Hq. cbn [Nat.add]. rewrite negb_true_iff, <- not_true_iff_false, (sw_act _ _ _ _ _ _ HI q). unfold oat. rewrite IB.
      destruct (nth_error outs q) as [[i|k]|] eqn:Q; cbn.
      - split; [intros K; elim K; eauto|intros (n & K); discriminate].
      - split; [eauto|intros _ (i & K); discriminate].
      - apply nth_error_None in Q. lia. }
    rewrite map_length, (sw_len _ _ _ _ _ _ HI) in LB, CB.
    assert (EB : t_outs (map bopt outs) = bits) by (unfold t_outs, bits, out_bits; clear; induction outs as [|[i|k] outs IH]; cbn; auto; f_equal; auto).
    rewrite EB in LB, CB. unfold measured_qubits. rewrite CW. split; [symmetry; exact LB|]. intros q n. rewrite (CB q n), Nat.sub_0_r, IB. split.
    + intros [_ K]. destruct (nth_error outs q) as [[i|k]|] eqn:Q; try discriminate. cbn in K. injection K as <-. exists k. pose proof (proj1 (sw_bits _ _ _ _ _ _ HI q k) Q) as B. split; auto.
      apply nth_error_nth'. rewrite LC, NM, nmeas_mtargets. apply nth_error_Some. congruence.
    + intros (k & K1 & K2). split; [lia|]. apply (sw_bits _ _ _ _ _ _ HI) in K1. rewrite K1. cbn. f_equal. f_equal. apply nth_error_nth with (d := 0) in K2. auto.
Qed.
Print Assumptions C21_transpile.
(** circuits without measurement: the condition holds *)
Theorem C21_transpile_unitary : forall it en nb nrm w l c, iter_ok it -> enum_ok en -> nb_ok nb -> nrm_ok nrm ->
  circ_make w l = Ok c -> Forall (fun i => NoDup (iqubits i) /\ forall q, i <> II q) l -> (forall i q ax, In i l -> i <> IM q ax) ->
  exists p, transpile it en nb nrm c = Ok (p, []) /\ check_runnability p = Ok tt /\ p_in p = range w /\ length (p_out p) = w /\
    forall o, exists z, phase z /\ forall psi, on_register w psi ->
      forall f g, (forall q n, nth_error (p_out p) q = Some n -> g q = f n) ->
      den (seq_ops o (p_seq p)) psi f = (z * RtoC ((/ sqrt 2) ^ length (ms_of (p_seq p))) * fold_left (fun phi i => gate i phi) l psi g)%C.
Proof.
  intros it en nb nrm w l c H1 H2 H3 H4 H5 H6 NM.
  assert (MT : mtargets l = []).
  { clear - NM. unfold mtargets. induction l as [|i l IH]; auto. cbn [flat_map]. rewrite IH by (intros; apply NM; right; auto). destruct i; auto. elim (NM (IM q ax) q ax); [left; auto|auto]. }
  assert (N0 : nmeas l = 0) by (rewrite nmeas_mtargets, MT; auto).
  destruct (transpile_swaps_made w l c H5 H6) as (c0 & outs0 & mi & E0 & HI & M0 & _).
  assert (AQ : forall q, q < w -> exists i, nth_error outs0 q = Some (OQubit i)).
  { intros q Hq. rewrite <- (sw_len _ _ _ _ _ _ HI) in Hq. destruct (nth_error outs0 q) as [[i|k]|] eqn:Q; eauto.
    - apply (sw_bits _ _ _ _ _ _ HI) in Q. rewrite MT in Q. destruct k; discriminate.
    - apply nth_error_None in Q. lia. }
  assert (AC : forall q, mem q (c_active c) = true <-> q < w).
  { intros q. rewrite (sw_act _ _ _ _ _ _ HI). split; [|intros K; apply AQ; auto]. intros (i & K). unfold oat in K. rewrite <- (sw_len _ _ _ _ _ _ HI). apply nth_error_Some. congruence. }
  assert (CW : c_width c = w) by apply (circ_extend_fields _ _ _ H5).
  assert (UN : unmeasured c = range w).
  { unfold unmeasured. rewrite CW. clear - AC. assert (G : forall l, (forall x, In x l -> x < w) -> filter (fun q => mem q (c_active c)) l = l).
    { induction l as [|x l IH]; auto; intros H; cbn [filter]. rewrite (proj2 (AC x) (H x (or_introl eq_refl))). f_equal. apply IH. intros; apply H; right; auto. }
    apply G. intros x Hx. apply range_In; auto. }
  assert (MQ : measured_qubits c = []).
  { unfold measured_qubits. rewrite CW. clear - AC. assert (G : forall l, (forall x, In x l -> x < w) -> filter (fun q => negb (mem q (c_active c))) l = []).
    { induction l as [|x l IH]; auto; intros H; cbn [filter]. rewrite (proj2 (AC x) (H x (or_introl eq_refl))). cbn. apply IH. intros; apply H; right; auto. }
    apply G. intros x Hx. apply range_In; auto. }
  destruct (C21_transpile it en nb nrm w l c H1 H2 H3 H4 H5 H6) as (p & cl & bits & T & R & IM & LB & _).
  { intros c' outs E q i K. rewrite E0 in E. injection E as <- <-. apply AQ. eapply circ_active_lt; [exact M0|]. apply (sw_range _ _ _ _ _ _ HI q); auto. }
  rewrite MQ in LB. destruct bits; [|discriminate]. destruct IM as (I1 & I2 & _ & _ & _ & I3). rewrite UN in I2, I3.
  exists p. split; auto. split; auto. split; auto. split; [rewrite I2; apply seq_length|]. intros o. destruct (I3 o) as (z & Hz & S). exists z. split; auto.
  intros psi HP f g HA. rewrite (S psi HP f g).
  - rewrite N0, Nat.sub_0_r. f_equal. clear - NM. revert psi. generalize 0. induction l as [|i l IH]; intros k psi; auto. cbn [fold_left].
    rewrite <- (IH (fun i q ax H => NM i q ax (or_intror H)) k). destruct i; auto. elim (NM (IM q ax) q ax); [left; auto|auto].
  - intros q n K. apply HA. apply combine_range in K. rewrite Nat.sub_0_r in K. tauto.
Qed.
Print Assumptions C21_transpile_unitary.

(** *** Non-vacuity *)
Lemma std_nb_ok : nb_ok std_nbs.
Proof. intros st H. apply std_nbs_ok; auto. Qed.
Lemma enum_id_ok : enum_ok (fun es => es).
Proof. intros es. apply Permutation_refl. Qed.
Lemma nrm_id_ok : nrm_ok (fun _ a => a).
Proof. intros n a. auto. Qed.
Lemma plain_b l : forallb (fun i => Swaps.ndb (iqubits i) && not_I i) l = true -> Forall (fun i => NoDup (iqubits i) /\ forall q, i <> II q) l.
Proof.
  intros H. apply Forall_forall. intros i Hi. rewrite forallb_forall in H. apply H in Hi. apply andb_prop in Hi. destruct Hi as [A B]. split; [apply Swaps.ndb_spec; auto|].
  intros q ->. discriminate.
Qed.
Definition ex_circuit (a b : R) : list instr := [IH 0; ICNOT 1 0; ISWAP 1 2; IRZZ 2 0 a; ICCX 0 1 2; IJ 1 b; ISWAP 0 2].
Example C21_case : forall a b, exists c p, circ_make 3 (ex_circuit a b) = Ok c /\ transpile elems (fun es => es) std_nbs (fun _ a => a) c = Ok (p, []) /\
  check_runnability p = Ok tt /\ length (p_out p) = 3%nat.
Proof.
  intros a b. destruct (circ_make 3 (ex_circuit a b)) as [c|] eqn:E; [|vm_compute in E; discriminate].
  destruct (C21_transpile_unitary elems (fun es => es) std_nbs (fun _ a => a) 3 (ex_circuit a b) c iter_elems enum_id_ok std_nb_ok nrm_id_ok E) as (p & T & R & _ & L & _).
  - apply plain_b. reflexivity.
  - intros i q ax H ->. cbn in H. repeat (destruct H as [H|H]; [discriminate|]). destruct H.
  - exists c, p. auto.
Qed.
(** with measurements: the outputs and the classical outputs *)
Example C21_measured_case : exists c p, circ_make 3 [IH 0; ISWAP 0 1; ICNOT 2 1; IM 2 AX; IM 0 AZ] = Ok c /\
  transpile elems (fun es => es) std_nbs (fun _ a => a) c = Err EKey /\
  transpile_noswap elems (fun es => es) std_nbs (fun _ a => a) c = Ok p /\ check_runnability (fst p) = Ok tt /\ length (snd p) = 2%nat.
Proof.
  destruct (circ_make 3 [IH 0; ISWAP 0 1; ICNOT 2 1; IM 2 AX; IM 0 AZ]) as [c|] eqn:E; [|vm_compute in E; discriminate].
  destruct (C21_transpile_without_swaps elems (fun es => es) std_nbs (fun _ a => a) 3 _ c iter_elems enum_id_ok std_nb_ok nrm_id_ok E) as (p & cl & T & R & _ & _ & L & _).
  - apply plain_b. reflexivity.
  - exists c, (p, cl). split; auto. split; [|auto]. vm_compute in E. injection E as <-. vm_compute. reflexivity.
Qed.
Example C21_default_case : exists c p bits, circ_make 3 [IH 0; ICNOT 2 0; ISWAP 0 2; IM 1 AX] = Ok c /\
  transpile elems (fun es => es) std_nbs (fun _ a => a) c = Ok (p, bits) /\ check_runnability p = Ok tt /\ length bits = 1%nat /\ length (p_out p) = 2%nat.
Proof.
  destruct (circ_make 3 [IH 0; ICNOT 2 0; ISWAP 0 2; IM 1 AX]) as [c|] eqn:E; [|vm_compute in E; discriminate].
  destruct (C21_transpile elems (fun es => es) std_nbs (fun _ a => a) 3 _ c iter_elems enum_id_ok std_nb_ok nrm_id_ok E) as (p & cl & bits & T & R & (_ & L1 & _) & L & _).
  - apply plain_b. reflexivity.
  - vm_compute in E. injection E as <-. intros c' outs E q i. vm_compute in E. injection E as <- <-.
    destruct q as [|[|[|q]]]; cbn; intros K; try discriminate; [injection K as <-; cbn; eauto|injection K as <-; cbn; eauto|]. destruct q; discriminate.
  - exists c, p, bits. split; auto. split; auto. split; auto. rewrite L, L1. vm_compute in E. injection E as <-. vm_compute. auto.
Qed.

(** * Circuits accepted by the API outside the hypotheses *)
(** rzz does not check that its two qubits differ (transpiler.py:359-382): the
    transpiler then builds a self-loop and fails *)
Theorem C21_rzz_same_qubit_refuted : forall a, exists c, circ_make 1 [IRZZ 0 0 a] = Ok c /\
  transpile elems (fun es => es) std_nbs (fun _ a => a) c = Err EValue.
Proof. intros a. eexists. split; [vm_compute; reflexivity|]. vm_compute. reflexivity. Qed.
Print Assumptions C21_rzz_same_qubit_refuted.
(** an I gate makes the transpiler drop the gates that follow it (C23): the
    pattern obtained from I(0), X(0) has no command *)
Theorem C21_identity_refuted : exists c p, circ_make 1 [II 0; IX 0] = Ok c /\
  transpile elems (fun es => es) std_nbs (fun _ a => a) c = Ok (p, []) /\ p_seq p = [].
Proof. do 2 eexists. split; [vm_compute; reflexivity|]. split; [vm_compute; reflexivity|]. reflexivity. Qed.
Print Assumptions C21_identity_refuted.
