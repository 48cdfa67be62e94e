(** Runs of the tensor-network backend: the initial network of the parallel mode
    is the graph state of the pattern, and every mode ends with the branch of the
    selected outcomes. *)
From Coq Require Import Reals Lra Arith List Bool Lia Permutation FunctionalExtensionality.
From Verif Require Import Cplx Mat2 Fundamentals CliffordDb Clifford NSet Measure QState Layer Pattern Standardize NodeIndex Statevec Density Simulator OpenGraph Flow Space SpaceHeur PropSpace PropExtract TensorNet TensorThm TensorGraph.
Import ListNotations.
Local Open Scope C_scope.

Definition pes (l : list cmd) : list (nat * nat) := flat_map (fun c => match c with CE u v => [(u, v)] | _ => [] end) l.
Lemma pes_app a b : pes (a ++ b) = pes a ++ pes b.
Proof. apply flat_map_app. Qed.
Lemma std_step_e st c st' : (forall u v, c <> CE u v) -> std_step st c = Ok st' -> sp_e st' = sp_e st.
Proof.
  intros N H. destruct c as [n s|u v|n me s t|n d|n d|n g|n d|]; cbn [std_step] in H; try (injection H as <-; reflexivity); [destruct (N u v eq_refl)| |]; destruct (commute_domains _ _ _) in H; injection H as <-; reflexivity.
Qed.
Lemma std_edges l : forall st st', rfold std_step l st = Ok st' -> NoDup (sp_e st) ->
  NoDup (sp_e st') /\ cz_ops (sp_e st) ++ cz_ops (pes l) ≈ cz_ops (sp_e st')
  /\ forall e, In e (sp_e st') -> In e (sp_e st) \/ exists u v, In (CE u v) l /\ e = edge_norm (u, v).
Proof.
  induction l as [|c l IH]; intros st st' H ND.
  - injection H as <-. split; auto. split; [cbn; rewrite app_nil_r; reflexivity|auto].
  - cbn [rfold] in H. destruct (std_step st c) as [st1|] eqn:E1; [|discriminate].
    assert (D : (exists u v, c = CE u v) \/ (forall u v, c <> CE u v)) by (destruct c; eauto; right; discriminate).
    destruct D as [(u & v & ->)|D].
    + cbn [std_step] in E1. destruct (std_side st u v) as [s1|] eqn:S1; [|discriminate]. cbn [rbind] in E1. destruct (std_side s1 v u) as [s2|] eqn:S2; [|discriminate]. cbn [rbind] in E1. injection E1 as <-.
      destruct (std_side_spec _ _ _ _ S1) as (? & _ & _ & _ & _ & Q1 & _). destruct (std_side_spec _ _ _ _ S2) as (? & _ & _ & _ & _ & Q2 & _).
      assert (Q : sp_e s2 = sp_e st) by congruence. destruct (IH _ _ H) as (A & B & C); cbn [sp_e] in *; rewrite Q in *; [apply edge_toggle_NoDup; auto|]. split; auto. split.
      * rewrite <- B. cbn [pes flat_map app cz_ops map fst snd]. rewrite <- (cz_toggle u v (sp_e st) ND). rewrite <- app_assoc. reflexivity.
      * intros e He. destruct (C e He) as [K|(a & b & K1 & K2)]; [|right; exists a, b; split; [right; auto|auto]]. apply edge_toggle_In in K. destruct K as [->|K]; auto. right. exists u, v. split; [left; auto|auto].
    + pose proof (std_step_e _ _ _ D E1) as Q. destruct (IH _ _ H) as (A & B & C); [rewrite Q; auto|]. rewrite Q in *. split; auto. split.
      * replace (pes (c :: l)) with (pes l); auto. destruct c; try reflexivity. destruct (D u v eq_refl).
      * intros e He. destruct (C e He) as [K|(a & b & K1 & K2)]; auto. right; exists a, b; split; [right; auto|auto].
Qed.
Lemma den_cz es : forall psi f, den (cz_ops es) psi f = eprod es f * psi f.
Proof.
  induction es as [|e es IH]; intros psi f; [unfold eprod, lprod; cbn; ring|]. cbn [cz_ops map den]. fold (cz_ops es). rewrite IH. cbn [app_op]. unfold eprod. rewrite lprod_cons. ring.
Qed.
Lemma lprod_const_perm {X} (a b : list X) (c : C) : Permutation a b -> lprod a (fun _ => c) = lprod b (fun _ => c).
Proof. intros P. apply Permutation_length in P. revert b P. induction a as [|x a IH]; intros [|y b] H; cbn in H; try lia; auto. rewrite !lprod_cons, (IH b) by lia. auto. Qed.
Lemma input_lprod inp f : input_state inp (DState SPlus) f = lprod inp (fun _ => RtoC (/ sqrt 2)).
Proof. cbn [input_state]. induction inp as [|n inp IH]; [reflexivity|]. cbn [length repeat prod_amp]. rewrite lprod_cons, <- IH. cbn [nstate_vec]. fold plus_state. rewrite plus_get. reflexivity. Qed.
Lemma den_preps o a : (forall c, In c a -> isN (kind_of c) = true) -> plus_preps a -> forall psi f, den (seq_ops o a) psi f = lprod (map fst (ns_of a)) (fun _ => RtoC (/ sqrt 2)) * psi f.
Proof.
  induction a as [|c a IH]; intros HN HP psi f; [unfold lprod; cbn; ring|]. pose proof (HN c (or_introl eq_refl)) as Hc. destruct c as [n s| | | | | | |]; try discriminate.
  assert (s = SPlus) by (apply (HP n); left; auto). subst s. cbn [seq_ops flat_map cmd_ops app den ns_of map fst]. fold (seq_ops o a). fold (ns_of a). rewrite IH; [|intros; apply HN; right; auto|intros m s Hs; apply (HP m); right; auto].
  cbn [app_op nstate_vec]. fold plus_state. rewrite plus_get, lprod_cons. ring.
Qed.
Lemma seq_ops_E o b : (forall c, In c b -> isE (kind_of c) = true) -> seq_ops o b = cz_ops (pes b).
Proof.
  induction b as [|c b IH]; intros H; auto. pose proof (H c (or_introl eq_refl)) as Hc. destruct c; try discriminate. cbn. f_equal. apply IH. intros; apply H; right; auto.
Qed.
Lemma ns_of_none l : (forall c, In c l -> isN (kind_of c) = false) -> ns_of l = [].
Proof. induction l as [|c l IH]; intros H; auto. pose proof (H c (or_introl eq_refl)). destruct c; try discriminate; cbn; apply IH; intros; apply H; right; auto. Qed.
Lemma ms_of_none l : (forall c, In c l -> isM (kind_of c) = false) -> ms_of l = [].
Proof. induction l as [|c l IH]; intros H; auto. pose proof (H c (or_introl eq_refl)). destruct c; try discriminate; cbn; apply IH; intros; apply H; right; auto. Qed.
Lemma pes_none l : (forall c, In c l -> isE (kind_of c) = false) -> pes l = [].
Proof. induction l as [|c l IH]; intros H; auto. pose proof (H c (or_introl eq_refl)). destruct c; try discriminate; cbn; apply IH; intros; apply H; right; auto. Qed.

Section Runs.
Variables (czl czr : bool -> bool -> bool -> C) (sel : selector) (g : rng) (p : pattern) (es : list (nat * nat)).
Hypotheses (HCZ : cz_split czl czr) (NI : NoDup (p_in p)) (WF : pat_wf p) (HR : runnable (p_in p) (p_seq p)) (HS : sem_ok (p_seq p) = true)
  (HP : plus_preps (p_seq p)) (HE : edges_of p es).
Let psi0 := input_state (p_in p) (DState SPlus).
Lemma check_ok : check_runnability p = Ok tt.
Proof. apply check_runnability_spec; auto. Qed.
Lemma std_facts st : from_pattern p = Ok st -> std_wf st /\ std_out_ok st /\ sp_in st = p_in p /\ sp_out st = p_out p /\ edge_enum st es /\ has_loop st = false /\ sp_n st = ns_of (p_seq p).
Proof.
  intros H. pose proof H as H0. apply from_pattern_inv in H0. destruct H0 as [_ HI]. destruct (from_pattern_io _ _ H) as [E1 E2]. split; [eapply std_inv_wf; eauto|]. split; [eapply from_pattern_out_ok; eauto; split; auto|]. split; auto. split; auto. split; auto. split; [|apply HI].
  rewrite <- (has_loop_enum st es (HE _ H)). eapply no_loops; eauto.
Qed.
Lemma pat_og : match pat_opengraph p es with
  | Ok og => exists st, from_pattern p = Ok st /\ og_graph og = std_graph st es
  | Err e => from_pattern p = Err e
  end.
Proof.
  unfold pat_opengraph. destruct (from_pattern p) as [st|e] eqn:E; cbn [rbind]; auto. destruct (std_facts st E) as (W & SO & E1 & E2 & EE & HL & EN).
  rewrite (std_opengraph_ok st es W SO); auto.
  - exists st. auto.
  - rewrite E1; auto.
  - intros [n s] Hn. rewrite EN in Hn. unfold ns_of in Hn. apply in_flat_map in Hn. destruct Hn as (c & C1 & C2). destruct c; cbn in C2; try tauto. destruct C2 as [[= -> ->]|[]]. cbn. eapply HP; eauto.
Qed.
(** in the parallel mode, N and E commands do nothing *)
Lemma fold_skip l b : tb_seq b = false -> plus_preps l -> (forall c, In c l -> isN (kind_of c) || isE (kind_of c) = true) ->
  rfold (tn_step czl czr sel g) l (TSim b [] 0) = Ok (TSim b [] 0).
Proof.
  intros SQ. induction l as [|c l IH]; intros PP H; auto. pose proof (H c (or_introl eq_refl)) as Hc. cbn [rfold].
  destruct c as [n s|u v| | | | | |]; try discriminate; cbn [tn_step].
  - assert (s = SPlus) by (apply (PP n); left; auto). subst s. cbn [tb_add_nodes ts_bk]. rewrite SQ. cbn [rbind ts_res ts_rng]. apply IH; [intros m s Hs; apply (PP m); right; auto|intros; apply H; right; auto].
  - unfold tb_entangle. cbn [ts_bk]. rewrite SQ. cbn [rbind ts_res ts_rng]. apply IH; [intros m s Hs; apply (PP m); right; auto|intros; apply H; right; auto].
Qed.
Lemma sel_prefix l : (forall c, In c l -> isM (kind_of c) = false) -> tselected sel g l (outc []) 0.
Proof.
  induction l as [|c l IH] using rev_ind; intros H; [constructor|]. apply tsel_other; [apply IH; intros; apply H, in_or_app; auto|].
  intros n m s t ->. specialize (H (CM n m s t)). rewrite in_app_iff in H. discriminate H. right; left; auto.
Qed.
Lemma edge_norm_in e n : fst (edge_norm e) = n \/ snd (edge_norm e) = n <-> fst e = n \/ snd e = n.
Proof. destruct (edge_norm_cases e) as [-> | ->]; cbn [fst snd]; tauto. Qed.
Lemma parallel_inv st a b r iso : from_pattern p = Ok st -> p_seq p = a ++ b ++ r ->
  (forall c, In c a -> isN (kind_of c) = true) -> (forall c, In c b -> isE (kind_of c) = true) -> (forall c, In c r -> isN (kind_of c) || isE (kind_of c) = false) ->
  TInv (p_in p) psi0 (a ++ b) (TSim (TB (prepare_graph_state (g_nodes (std_graph st es)) (g_edges (std_graph st es))) false iso) [] 0).
Proof.
  intros EF EP HA HB HC. destruct (std_facts st EF) as (W & SO & E1 & E2 & EE & HL & EN).
  assert (NIs : NoDup (sp_in st)) by (rewrite E1; auto).
  pose proof (sg_ok st es W EE) as (GN & GE & GV). pose proof (sg_simple st es EE HL) as GS.
  assert (RN : forall c, In c r -> isN (kind_of c) = false) by (intros c Hc; apply HC, orb_false_iff in Hc; tauto).
  assert (RE : forall c, In c r -> isE (kind_of c) = false) by (intros c Hc; apply HC, orb_false_iff in Hc; tauto).
  assert (BN : forall c, In c b -> isN (kind_of c) = false) by (intros c Hc; apply HB in Hc; destruct c; auto; discriminate).
  assert (AE : forall c, In c a -> isE (kind_of c) = false) by (intros c Hc; apply HA in Hc; destruct c; auto; discriminate).
  assert (ABM : forall c, In c (a ++ b) -> isM (kind_of c) = false).
  { intros c Hc. apply in_app_or in Hc. destruct Hc as [Hc|Hc]; [apply HA in Hc|apply HB in Hc]; destruct c; auto; discriminate. }
  assert (EN' : sp_n st = ns_of a). { rewrite EN, EP. rewrite !ns_of_app, (ns_of_none b), (ns_of_none r), !app_nil_r; auto. }
  assert (ND : forall n, In n (g_nodes (std_graph st es)) <-> In n (p_in p) \/ prepared_in (a ++ b) n).
  { intros n. rewrite (sg_nodes st es W n). unfold std_node. rewrite E1, EN'. rewrite <- ns_of_In, ns_of_app, (ns_of_none b), app_nil_r; auto. tauto. }
  destruct (prepare_ok (g_nodes (std_graph st es)) (g_edges (std_graph st es)) GN) as (P1 & P2 & P3 & P4).
  { intros e He. destruct (GV e He). split; auto. }
  set (N := prepare_graph_state (g_nodes (std_graph st es)) (g_edges (std_graph st es))) in *. clearbody N.
  assert (NM : forall n, ~ measured_in (a ++ b) n). { intros n Hn. apply ms_of_In in Hn. rewrite ms_of_none in Hn; auto. }
  constructor; cbn [ts_bk tb_net ts_res].
  - intros t Ht. apply ND, P1; auto.
  - intros n [Hn _] HT. apply P2; [apply ND; auto|]. intros e He. cbn [std_graph g_edges] in He.
    assert (K : In (edge_norm e) (sp_e st)) by (eapply Permutation_in; [exact EE|apply in_map; auto]).
    unfold from_pattern in EF. rewrite check_ok in EF. cbn [rbind] in EF. destruct (std_edges _ _ _ EF (NoDup_nil _)) as (_ & _ & Q). destruct (Q _ K) as [[]|(u & v & Q1 & Q2)].
    assert (Q3 : In (CE u v) (a ++ b)). { rewrite EP, app_assoc in Q1. apply in_app_or in Q1. destruct Q1 as [Q1|Q1]; auto. apply RE in Q1. discriminate. }
    assert (Q4 : ~ (u = n \/ v = n)). { intros X. unfold touched in HT. apply not_true_iff_false in HT. apply HT. apply existsb_exists. exists (CE u v). split; auto. cbn. apply orb_true_iff. rewrite !Nat.eqb_eq. auto. }
    assert (Q5 : ~ (fst e = n \/ snd e = n)). { intros X. apply Q4. apply (proj2 (edge_norm_in e n)) in X. rewrite Q2 in X. exact (proj1 (edge_norm_in (u, v) n) X). }
    split; intros X; apply Q5; auto.
  - intros k. split; [intros (x & [=])|intros H; destruct (NM k H)].
  - exact P3.
  - assert (Q : exists c, phase c /\ forall psi, den (cz_ops (g_edges (std_graph st es))) psi = cscale c (den (cz_ops (pes b)) psi)).
    { assert (X : cz_ops (g_edges (std_graph st es)) ≈ cz_ops (pes b)); [|exact X]. cbn [std_graph g_edges]. transitivity (cz_ops (sp_e st)); [apply cz_ops_perm; exact EE|]. symmetry.
      unfold from_pattern in EF. rewrite check_ok in EF. cbn [rbind] in EF. destruct (std_edges _ _ _ EF (NoDup_nil _)) as (_ & Q & _). rewrite EP, !pes_app, (pes_none a), (pes_none r), app_nil_r in Q; auto. }
    destruct Q as (c & PH & Q). exists c. split; auto. rewrite (ms_of_none (a ++ b)) by auto. cbn [length pow].
    eapply reps_ext; [| |exact P4].
    + intros n. rewrite ND. unfold live. specialize (NM n). tauto.
    + intros f. unfold graph_state. set (K := lprod (g_nodes (std_graph st es)) (fun _ => RtoC (/ sqrt 2))).
      assert (EK : den (seq_ops (outc []) a) psi0 f = K).
      { rewrite den_preps; auto; [|intros n s Hn; apply (HP n); rewrite EP; apply in_or_app; auto]. unfold psi0. rewrite input_lprod, <- lprod_app. apply lprod_const_perm. apply NoDup_Permutation; auto.
        - rewrite <- EN'. apply Layer.NoDup_app; auto; [apply W|]. rewrite <- E1. intros n Hn K'. exact (sw_nin _ W n Hn K').
        - intros n. rewrite ND, in_app_iff, prepared_app, !ns_of_In. assert (~ prepared_in b n). { intros X. apply ns_of_In in X. rewrite (ns_of_none b BN) in X. destruct X. } tauto. }
      rewrite seq_ops_app, den_app, (seq_ops_E _ b HB). specialize (Q (den (seq_ops (outc []) a) psi0)). apply (f_equal (fun s => s f)) in Q. rewrite den_cz in Q. unfold cscale in Q. rewrite EK in Q.
      change (RtoC 1) with C1. transitivity (eprod (g_edges (std_graph st es)) f * K); [ring|]. rewrite Q. ring.
Qed.
Lemma sequential_inv iso : TInv (p_in p) psi0 [] (TSim (TB (fold_left tn_add_qubit (p_in p) (TN [] [] 0)) true iso) [] 0).
Proof.
  destruct (reps_inputs (p_in p) NI) as (A & B & C & D). assert (NM : forall n, ~ measured_in [] n) by (intros n (? & ? & ? & [])). assert (NP : forall n, ~ prepared_in [] n) by (intros n (? & [])).
  constructor; cbn [ts_bk tb_net ts_res].
  - intros t Ht. left; auto.
  - intros n [[Hn|Hn] _] _; [auto|destruct (NP n Hn)].
  - intros k. split; [intros (x & [=])|intros H; destruct (NM k H)].
  - exact C.
  - exists C1. split; [apply phase_1|]. eapply reps_ext; [| |exact D].
    + intros n. unfold live. specialize (NM n). specialize (NP n). tauto.
    + intros f. cbn [ms_of flat_map length pow den seq_ops]. change (RtoC 1) with C1. unfold psi0. ring.
Qed.
Lemma sel_nil : tselected sel g [] (outc []) 0.
Proof. constructor. Qed.
(** the isolated nodes of the graph of the pattern *)
Definition pat_iso (iso : list nat) : Prop := exists st, from_pattern p = Ok st /\ iso = isolated_nodes (std_graph st es).
Lemma tn_run_inv mode : match tn_run czl czr sel g p es mode (DState SPlus) with
  | Ok st => TInv (p_in p) psi0 (p_seq p) st /\ tselected sel g (p_seq p) (outc (ts_res st)) (ts_rng st)
  | Err e => from_pattern p = Err e \/ mode = Parallel /\ is_standard false p = false /\ e = EValue
      \/ exists iso, pat_iso iso /\ tfails sel g iso (p_seq p) e
  end.
Proof.
  unfold tn_run, tb_init.
  assert (SEQ : forall og, pat_opengraph p es = Ok og ->
     match (do b <- tb_add_nodes (TB (TN [] [] 0) true (isolated_nodes (og_graph og))) (p_in p) (DState SPlus); do _ <- check_runnability p; rfold (tn_step czl czr sel g) (p_seq p) (TSim b [] 0)) with
     | Ok st => TInv (p_in p) psi0 (p_seq p) st /\ tselected sel g (p_seq p) (outc (ts_res st)) (ts_rng st)
     | Err e => exists iso, pat_iso iso /\ tfails sel g iso (p_seq p) e end).
  { intros og E. pose proof pat_og as Q. rewrite E in Q. destruct Q as (st & EF & ->). rewrite check_ok. cbn [tb_add_nodes tb_seq tb_net tb_iso rbind].
    pose proof (tn_fold czl czr sel g (p_in p) psi0 [] _ (p_seq p) HCZ (sequential_inv (isolated_nodes (std_graph st es))) eq_refl sel_nil HR HS HP (fun c _ => or_introl eq_refl)) as K.
    cbn [app] in K. destruct (rfold _ _ _) as [st'|e]; [tauto|]. exists (isolated_nodes (std_graph st es)). split; [exists st; auto|]. exact K. }
  assert (PAR : forall og, pat_opengraph p es = Ok og -> is_standard false p = true ->
     match (do b <- tb_add_nodes (TB (prepare_graph_state (g_nodes (og_graph og)) (g_edges (og_graph og))) false (isolated_nodes (og_graph og))) (p_in p) (DState SPlus); do _ <- check_runnability p; rfold (tn_step czl czr sel g) (p_seq p) (TSim b [] 0)) with
     | Ok st => TInv (p_in p) psi0 (p_seq p) st /\ tselected sel g (p_seq p) (outc (ts_res st)) (ts_rng st)
     | Err e => exists iso, pat_iso iso /\ tfails sel g iso (p_seq p) e end).
  { intros og E ST. pose proof pat_og as Q. rewrite E in Q. destruct Q as (st & EF & ->). rewrite check_ok. cbn [tb_add_nodes tb_seq tb_net tb_iso rbind].
    set (b0 := TB _ false _). unfold is_standard in ST.
    destruct (skip_while_split isN (p_seq p)) as (a & Ea & Ha). destruct (skip_while_split isE (skip_while isN (p_seq p))) as (b & Eb & Hb).
    destruct (skip_while_split isM (skip_while isE (skip_while isN (p_seq p)))) as (c & Ec & Hc).
    destruct (skip_while_split isXZC (skip_while isM (skip_while isE (skip_while isN (p_seq p))))) as (d & Ed & Hd).
    destruct (skip_while isXZC (skip_while isM (skip_while isE (skip_while isN (p_seq p))))) as [|? ?]; [|discriminate]. rewrite app_nil_r in Ed.
    assert (EQ : p_seq p = a ++ b ++ (c ++ d)) by (rewrite Ea, Eb, Ec, Ed; auto). clear Ea Eb Ec Ed ST.
    assert (HCD : forall x, In x (c ++ d) -> isN (kind_of x) || isE (kind_of x) = false). { intros x Hx. apply in_app_or in Hx. destruct Hx as [Hx|Hx]; [apply Hc in Hx|apply Hd in Hx]; destruct x; auto; discriminate. }
    pose proof (parallel_inv st a b (c ++ d) (isolated_nodes (std_graph st es)) EF EQ Ha Hb HCD) as HI. fold b0 in HI.
    assert (SUB : forall x, In x (c ++ d) \/ In x (a ++ b) -> In x (p_seq p)) by (intros x Hx; rewrite EQ, !in_app_iff in *; tauto).
    assert (SK : rfold (tn_step czl czr sel g) (a ++ b) (TSim b0 [] 0) = Ok (TSim b0 [] 0)).
    { apply fold_skip; auto; [intros n s Hn; apply (HP n); apply SUB; auto|]. intros x Hx. apply in_app_or in Hx. destruct Hx as [Hx|Hx]; [rewrite (Ha x Hx)|rewrite (Hb x Hx), orb_true_r]; auto. }
    rewrite app_assoc in EQ. rewrite EQ in HR, HS |- *. rewrite rfold_app, SK. cbn [rbind].
    assert (S0 : tselected sel g (a ++ b) (outc []) 0). { apply sel_prefix. intros x Hx. apply in_app_or in Hx. destruct Hx as [Hx|Hx]; [apply Ha in Hx|apply Hb in Hx]; destruct x; auto; discriminate. }
    assert (S1 : sem_ok (c ++ d) = true). { unfold sem_ok in *. rewrite forallb_app in HS. apply andb_true_iff in HS. tauto. }
    assert (S2 : plus_preps (c ++ d)) by (intros n s Hn; apply (HP n); apply SUB; auto).
    pose proof (tn_fold czl czr sel g (p_in p) psi0 (a ++ b) _ (c ++ d) HCZ HI eq_refl S0 HR S1 S2 (fun x Hx => or_intror (HCD x Hx))) as K.
    destruct (rfold _ (c ++ d) _) as [st'|e]; [tauto|]. exists (isolated_nodes (std_graph st es)). split; [exists st; auto|]. exact K. }
  destruct mode.
  - destruct (is_standard false p) eqn:ST; cbn [rbind]; [|right; left; auto]. pose proof pat_og as Q. destruct (pat_opengraph p es) as [og|e] eqn:EO; cbn [rbind]; [|auto].
    specialize (PAR og eq_refl eq_refl). destruct (rbind _ _) in PAR |- *; auto.
  - cbn [rbind]. pose proof pat_og as Q. destruct (pat_opengraph p es) as [og|e] eqn:EO; cbn [rbind]; [|auto].
    specialize (SEQ og eq_refl). destruct (rbind _ _) in SEQ |- *; auto.
  - pose proof pat_og as Q. destruct (pat_opengraph p es) as [og|e] eqn:EO; cbn [rbind]; [|auto].
    destruct ((5 <? max_degree (og_graph og))%nat || negb (is_standard false p)) eqn:M.
    + specialize (SEQ og eq_refl). destruct (rbind _ _) in SEQ |- *; auto.
    + apply orb_false_iff in M. destruct M as [_ M]. apply negb_false_iff in M. specialize (PAR og eq_refl M). destruct (rbind _ _) in PAR |- *; auto.
Qed.
End Runs.
