(** Property theorems: Pauli pushing (C13). *)
From Coq Require Import Reals Arith ZArith List Bool Lia Permutation Setoid Morphisms.
From Verif Require Import Cplx Mat2 Fundamentals CliffordDb Clifford NSet Measure QState Pattern Layer Standardize PropStd
  Shift OpenGraph FlowSpec FlowPat TopGen Corr Space SpaceMin SpaceHeur PropSpace Push.
Import ListNotations.

(** pattern.py:1837-1886 Pattern.perform_pauli_pushing(leave_nodes, copy=True,
    standardize); the iteration orders of the edge set ([es]) and of the
    adjacency of the graph built from it ([nbs]) are arbitrary *)
Definition pushes (standardize : bool) (leave : nset) (p : pattern) (r : res pattern) : Prop :=
  match from_pattern p with
  | Err e => r = Err e
  | Ok st => if standardize then exists es, edge_enum st es /\ r = to_pattern (pauli_push leave st) es
             else exists nbs, nbs_ok st nbs /\ r = space_opt (pauli_push leave st) nbs
  end.

(** * Specification *)
(** a Pauli measurement outside of [leave]: the ones to be moved *)
Definition is_pauli (m : measurement) : bool := match m with MPauli _ _ => true | MBloch _ _ => false end.
Definition to_move (leave : nset) (m : mcmd) : bool := is_pauli (mc_meas m) && negb (mem (mc_node m) leave).
(** node and measurement, without the domains *)
Definition what (m : mcmd) : nat * measurement := (mc_node m, mc_meas m).
(** the measurements [ms'] are [ms] with those to be moved in front, without
    domains, and nothing else reordered *)
Definition pauli_first (leave : nset) (ms ms' : list mcmd) : Prop :=
  exists front back, ms' = front ++ back /\
    map what front = map what (filter (to_move leave) ms) /\
    map what back = map what (filter (fun m => negb (to_move leave m)) ms) /\
    forall m, In m front -> mc_s m = sempty /\ mc_t m = sempty.

(** * Lemmas *)
Lemma to_move_moved leave m : to_move leave m = moved leave m.
Proof. unfold to_move, moved, is_pauli. destruct (mc_meas m); auto. Qed.
Lemma filter_eq {A} (f g : A -> bool) l : (forall a, f a = g a) -> filter f l = filter g l.
Proof. intros H. induction l as [|a l IH]; auto. simpl. rewrite H, IH. auto. Qed.
Lemma push_first leave st : std_wf st -> pauli_first leave (sp_m st) (sp_m (pauli_push leave st)).
Proof.
  intros W. destruct (cut_whole leave st W) as [P Q E _ _ _]. exists (ct_pauli (push_cut leave st)), (ct_rest (push_cut leave st)). split; [reflexivity|].
  rewrite (filter_eq (to_move leave) (moved leave)) by apply to_move_moved.
  rewrite (filter_eq (fun m => negb (to_move leave m)) (fun m => negb (moved leave m))) by (intros m; rewrite to_move_moved; auto). split; [exact P|]. split; [exact Q|exact E].
Qed.
Lemma pat_ms_none l : (forall c, In c l -> pat_ms [c] = []) -> pat_ms l = [].
Proof. induction l as [|c l IH]; intros H; auto. change (c :: l) with ([c] ++ l). rewrite pat_ms_app, (H c), IH; auto; [|left; auto]. intros c' H'. apply H. right; auto. Qed.
Lemma active_ms st a n a' : ensure_active st a n = Ok a' -> pat_ms (fst a') = pat_ms (fst a).
Proof.
  unfold ensure_active. destruct (mem n (snd a)); [intros [= <-]; auto|]. destruct (dget (rev (sp_n st)) n); [|discriminate]. intros [= <-]. cbn [fst]. rewrite pat_ms_app. cbn. apply app_nil_r.
Qed.
Lemma nb_ms st nbs done a n a' : ensure_nb st nbs done a n = Ok a' -> pat_ms (fst a') = pat_ms (fst a).
Proof.
  unfold ensure_nb. destruct (ensure_active st a n) as [a1|] eqn:E; cbn [rbind]; [|discriminate]. apply active_ms in E. rewrite <- E. clear E.
  destruct (negb (mem n (sp_nodes st))); [discriminate|]. generalize (nbs n) as l. intros l. revert a1. induction l as [|k l IH]; intros a1; cbn [rfold]; [intros [= <-]; auto|].
  destruct (mem k done); cbn [rbind]; [apply IH|]. destruct (ensure_active st a1 k) as [a2|] eqn:E; cbn [rbind]; [|discriminate]. intros H. rewrite (IH _ H). cbn [fst]. rewrite pat_ms_app. cbn. rewrite app_nil_r. eapply active_ms; eauto.
Qed.
Lemma space_cmds_ms st nbs l : space_cmds st nbs = Ok l -> pat_ms l = sp_m st.
Proof.
  unfold space_cmds. destruct (has_loop st); [discriminate|].
  assert (A : forall ms x x', rfold (sp_step_m st nbs) ms x = Ok x' -> pat_ms (fst (fst x')) = pat_ms (fst (fst x)) ++ ms).
  { induction ms as [|m ms IH]; intros [a d] x'; cbn [rfold]; [intros [= <-]; rewrite app_nil_r; auto|]. unfold sp_step_m at 1.
    destruct (ensure_nb st nbs d a (mc_node m)) as [a1|] eqn:E; cbn [rbind]; [|discriminate]. intros H. rewrite (IH _ _ H). cbn [fst]. rewrite pat_ms_app, (nb_ms _ _ _ _ _ _ E). rewrite <- app_assoc. f_equal. destruct m; auto. }
  assert (B : forall ns x x', rfold (sp_step_out st nbs) ns x = Ok x' -> pat_ms (fst (fst x')) = pat_ms (fst (fst x))).
  { induction ns as [|m ms IH]; intros [a d] x'; cbn [rfold]; [intros [= <-]; auto|]. unfold sp_step_out at 1.
    destruct (ensure_nb st nbs d a m) as [a1|] eqn:E; cbn [rbind]; [|discriminate]. intros H. rewrite (IH _ _ H). cbn [fst]. rewrite pat_ms_app, (nb_ms _ _ _ _ _ _ E). rewrite (pat_ms_none (out_cmds st m)); [apply app_nil_r|].
    intros c. unfold out_cmds. rewrite !in_app_iff. destruct (dget_ne (sp_z st) m), (dget_ne (sp_x st) m), (dget (sp_c st) m); simpl; intuition; subst; auto. }
  destruct (rfold (sp_step_m st nbs) (sp_m st) _) as [x1|] eqn:E1; cbn [rbind]; [|discriminate]. destruct (rfold (sp_step_out st nbs) (sp_out st) x1) as [x2|] eqn:E2; cbn [rbind]; [|discriminate]. intros [= <-].
  rewrite (B _ _ _ E2), (A _ _ _ E1). reflexivity.
Qed.

(** * Theorems *)
(** StandardizedPattern.perform_pauli_pushing / PauliPushingCut: the moved
    measurements come first without domains, everything else is the same up to
    domains; branch [o'] of the result is branch [shift_outcomes o' sd] of the
    original, [sd] being the dictionary shifted_domains, whose keys are the moved
    nodes; the translation of branches is a bijection. *)
Theorem C13_cut : forall st leave, std_wf st ->
  let st' := pauli_push leave st in let sd := ct_sd (push_cut leave st) in
  std_wf st' /\ sp_in st' = sp_in st /\ sp_out st' = sp_out st /\ sp_n st' = sp_n st /\ sp_e st' = sp_e st /\ sp_c st' = sp_c st /\
  dkeys (sp_z st') = dkeys (sp_z st) /\ dkeys (sp_x st') = dkeys (sp_x st) /\
  pauli_first leave (sp_m st) (sp_m st') /\
  (forall n, In n (dkeys sd) <-> exists m, In m (sp_m st) /\ to_move leave m = true /\ mc_node m = n) /\
  (forall es o', seq_ops (shift_outcomes o' sd) (std_cmds st es) ≈ seq_ops o' (std_cmds st' es)) /\
  (forall o, exists o', forall n, shift_outcomes o' sd n = o n) /\
  (forall o1 o2, (forall n, shift_outcomes o1 sd n = shift_outcomes o2 sd n) -> forall n, o1 n = o2 n).
Proof.
  intros st leave W st' sd. split; [apply push_wf; auto|]. do 5 (split; [reflexivity|]).
  split; [apply exp_keys|]. split; [apply exp_keys|]. split; [apply push_first; auto|].
  split. { intros n. unfold sd. rewrite (ci_k _ _ _ (cut_whole leave st W) n), in_map_iff. split; intros (m & A & B).
    - apply filter_In in B. exists m. rewrite to_move_moved. tauto.
    - exists m. rewrite filter_In, <- to_move_moved. tauto. }
  split; [intros; apply push_sem; auto|]. split; [apply (cut_surj leave (sp_m st))|apply (cut_inj leave (sp_m st))]; apply W.
Qed.
Print Assumptions C13_cut.

(** Pattern.perform_pauli_pushing, with either value of [standardize]: it raises
    RunnabilityError on a pattern that is not runnable, NotImplementedError when
    standardization does (a non-Pauli Clifford command before an E command), and
    otherwise succeeds *)
Theorem C13_perform_pauli_pushing : forall std leave p r, pat_ok p -> sem_ok (p_seq p) = true -> pushes std leave p r ->
  (exists rs, r = Err (ERun rs) /\ ~ runnable (p_in p) (p_seq p)) \/
  (r = Err ENotImplemented /\ from_pattern p = Err ENotImplemented) \/
  exists st p' sd, from_pattern p = Ok st /\ r = Ok p' /\ p_in p' = p_in p /\ p_out p' = p_out p /\ pat_ok p' /\ check_runnability p' = Ok tt /\
    pauli_first leave (sp_m st) (pat_ms (p_seq p')) /\
    (forall o', seq_ops (shift_outcomes o' sd) (p_seq p) ≈ seq_ops o' (p_seq p')) /\
    (forall o, exists o', forall n, shift_outcomes o' sd n = o n) /\
    (forall o1 o2, (forall n, shift_outcomes o1 sd n = shift_outcomes o2 sd n) -> forall n, o1 n = o2 n).
Proof.
  intros std leave p r H1 H2 H. unfold pushes in H. destruct (from_pattern p) as [st|e] eqn:E; [right; right|subst r; destruct (from_pattern_err _ _ E) as [(rs & -> & N)| ->]; eauto].
  destruct (std_facts p st H1 H2 E) as (W & SO & NI & HL & E1 & E2 & HR & MM & NN).
  destruct (C13_cut st leave W) as (W' & F1 & F2 & F3 & F4 & _ & _ & _ & PF & _ & SEM & SU & IN). set (sd := ct_sd (push_cut leave st)) in *. set (st' := pauli_push leave st) in *.
  pose proof (push_out_ok leave st W SO) as SO'. fold st' in SO'.
  assert (HL' : has_loop st' = false) by exact HL. exists st.
  destruct std.
  - destruct H as (es & HE & ->). assert (HE' : edge_enum st' es) by exact HE.
    destruct (to_pattern_ok st' es W' HE') as (p' & P1 & P2 & P3 & P4 & P5); auto. { apply (no_loops p st es E H2 HE). }
    exists p', sd. split; auto. split; auto. rewrite P2, P3, F1, F2. split; auto. split; auto.
    assert (RN : runnable (p_in p') (p_seq p')). { rewrite P2, P4. apply std_runnable; auto. apply edge_enum_nodes; auto. }
    split. { split; auto. rewrite P2, F1. auto. }
    split; [apply check_runnability_spec; auto|]. rewrite P4, pat_ms_std. split; auto. split; auto. intros o'. rewrite <- SEM. apply (from_pattern_same p st es); auto.
  - destruct H as (nbs & NB & ->). assert (NB' : nbs_ok st' nbs) by exact NB.
    destruct (space_opt_ok st' nbs W' SO' (eq_ind_r (@NoDup nat) NI F1) NB' HL') as (p' & P1 & P1' & P2 & P3 & P4 & _ & P5 & P6 & _ & P7).
    exists p', sd. split; auto. split; auto. rewrite P2, P3, F1, F2. split; auto. split; auto. split; auto. split; [apply check_runnability_spec; auto|].
    rewrite (space_cmds_ms _ _ _ P1'). split; auto. split; auto. intros o'.
    assert (HE : edge_enum st (sp_e st)) by (apply (std_enum_self p st E)). 
    assert (Q := P7 (sp_e st) o' HE). unfold same_branch in Q. rewrite <- Q, <- SEM. apply (from_pattern_same p st); auto.
Qed.
Print Assumptions C13_perform_pauli_pushing.

(** a Pauli measurement with both domains behind a non-Pauli one, a Pauli
    measurement left in place, a correction depending on a moved node *)
Definition push_ex (a : R) : pattern :=
  pat_extend (pat_new [0])
    [CN 1 SPlus; CN 2 SPlus; CN 3 SPlus; CN 4 SPlus; CE 0 1; CE 1 2; CE 2 3; CE 3 4;
     CM 0 (MBloch a PXY) sempty sempty; CM 1 (MPauli AY Minus) (sing 0) sempty; CM 2 (MPauli AX Plus) (sing 1) (sing 0);
     CM 3 (MPauli AZ Plus) (sing 2) (sing 1); CX 4 (sing 3); CZ 4 (sing 2)].
Example C13_case : forall a, pat_ok (push_ex a) /\ sem_ok (p_seq (push_ex a)) = true /\
  match from_pattern (push_ex a) with
  | Ok st => sp_m (pauli_push (sing 2) st) =
       [MC 1 (MPauli AY Minus) sempty sempty; MC 3 (MPauli AZ Plus) sempty sempty; MC 0 (MBloch a PXY) sempty sempty;
        MC 2 (MPauli AX Plus) (of_list [0; 1]) (sing 0)] /\
     ct_sd (push_cut (sing 2) st) = [(1, sing 0); (3, sing 2)] /\
     sp_x (pauli_push (sing 2) st) = [(4, of_list [2; 3])] /\
     match to_pattern (pauli_push (sing 2) st) (sp_e st) with Ok p' => pushes true (sing 2) (push_ex a) (Ok p') | Err _ => False end
  | Err _ => False end.
Proof.
  intros a. split.
  { split; [cbn; repeat constructor; simpl; intuition congruence|]. vm_compute. apply Permutation_refl. }
  split; [reflexivity|].
  destruct (from_pattern (push_ex a)) as [st|e] eqn:E; [|vm_compute in E; discriminate].
  assert (HE := std_enum_self _ _ E). unfold pushes. rewrite E.
  vm_compute in E. injection E as <-. split; [vm_compute; reflexivity|]. split; [vm_compute; reflexivity|]. split; [vm_compute; reflexivity|].
  match goal with |- context [to_pattern ?s ?e] => destruct (to_pattern s e) as [p'|e'] eqn:Q; [exists e; auto|vm_compute in Q; discriminate] end.
Qed.
