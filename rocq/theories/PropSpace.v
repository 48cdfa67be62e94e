(** Property theorems: space minimisation and parallelisation (C24). *)
From Coq Require Import Reals Arith ZArith NArith List Bool Lia Permutation Setoid Morphisms.
From Verif Require Import Cplx Mat2 Fundamentals CliffordDb Clifford NSet Measure QState Pattern Layer Standardize PropStd
  OpenGraph FlowSpec FlowPat TopGen Corr Space SpaceMin SpaceHeur.
Import ListNotations.

(** * Pattern-level functions *)
(** pattern.py:1307-1341 Pattern.minimize_space(heuristics, copy=True): the
    iteration orders of the edge set ([es]) and of the adjacency of the graphs
    built from it ([nbs], [nbs']) are arbitrary *)
Definition minimizes (p : pattern) (hs : list (nat * nat) -> list heuristic) (r : res pattern) : Prop :=
  match from_pattern p with
  | Err e => r = Err e
  | Ok st => exists es nbs nbs', edge_enum st es /\ nbs_ok st nbs /\ nbs_ok st nbs' /\
      r = (do st' <- minimize_space nbs st (hs es); space_opt st' nbs')
  end.
(** pattern.py:1338-1341 with copy=False only the command sequence is replaced *)
Definition with_seq (p q : pattern) : pattern := Pat (p_in p) (p_seq q) (p_out p) (p_n p).
(** pattern.py:1180-1188 measurement_commands *)
Definition pat_ms (l : list cmd) : list mcmd := flat_map (fun c => match c with CM n me s t => [MC n me s t] | _ => [] end) l.
(** pattern.py:1343-1354 _reorder_pattern and 1296-1305 parallelize_pattern *)
Definition parallelize_rest (it : iter) (p : pattern) (r : res pattern) : Prop :=
  match (do st <- from_pattern p; do ord <- measurement_order_depth it st; do ms <- m_sort (pat_ms (p_seq p)) ord; Ok (set_m st ms)) with
  | Err e => r = Err e
  | Ok st => exists nbs, nbs_ok st nbs /\ r = (do q <- space_opt st nbs; Ok (with_seq p q))
  end.
Definition parallelizes (it : iter) (p : pattern) (r : res pattern) : Prop :=
  if is_standard false p then parallelize_rest it p r
  else exists r1, standardizes p r1 /\
    match r1 with Err e => r = Err e | Ok p1 => parallelize_rest it (with_seq p p1) r end.

(** * Lemmas *)
Lemma std_facts p st : pat_ok p -> sem_ok (p_seq p) = true -> from_pattern p = Ok st ->
  std_wf st /\ std_out_ok st /\ NoDup (sp_in st) /\ has_loop st = false /\ sp_in st = p_in p /\ sp_out st = p_out p /\ runnable (p_in p) (p_seq p) /\
  map mc_node (sp_m st) = ms_of (p_seq p) /\ sp_n st = ns_of (p_seq p).
Proof.
  intros H1 H2 E. pose proof (from_pattern_inv _ _ E) as [HR HI]. destruct (from_pattern_io _ _ E) as [E1 E2].
  split; [eapply std_inv_wf; eauto|]. split; [eapply from_pattern_out_ok; eauto|]. split; [rewrite E1; apply H1|].
  split; [exact (no_loops p st _ E H2 (std_enum_self _ _ E))|]. split; auto. split; auto. split; auto. split; [apply (si_m _ _ _ HI)|apply (si_n _ _ _ HI)].
Qed.
Lemma from_pattern_same p st es : pat_ok p -> sem_ok (p_seq p) = true -> from_pattern p = Ok st -> edge_enum st es -> forall o, same_branch o (p_seq p) (std_cmds st es).
Proof.
  intros H1 H2 E HE o. destruct (standardizes_ok p (to_pattern st es) H1 H2) as [(rs & H & N)|[H|H]].
  - unfold standardizes. rewrite E. eauto.
  - exfalso. apply N. apply (from_pattern_inv _ _ E).
  - exfalso. unfold to_pattern in H. rewrite (no_loops p st _ E H2 HE) in H. unfold reorder_output_nodes in H.
    destruct (assert_permutation (p_out (pat_extend (pat_new (sp_in st)) (std_cmds st es))) (sp_out st)) eqn:Q; [discriminate|].
    apply assert_permutation_err in Q. congruence.
  - destruct H as (st' & es' & p' & E' & HE' & Hr & Hs & _ & _ & _ & _ & _ & HB). rewrite E in E'. injection E' as <-.
    assert (P := HB o). rewrite Hs in P. unfold to_pattern in Hr. rewrite (no_loops p st _ E H2 HE) in Hr. unfold reorder_output_nodes in Hr.
    destruct (assert_permutation (p_out (pat_extend (pat_new (sp_in st)) (std_cmds st es))) (sp_out st)); [|discriminate]. cbn [rbind] in Hr. injection Hr as Hr.
    rewrite <- Hr in Hs. cbn [p_seq] in Hs. destruct (pat_extend_fields (pat_new (sp_in st)) (std_cmds st es)) as (F1 & F2 & F3). rewrite F2 in Hs. cbn in Hs. rewrite Hs. exact P.
Qed.
Lemma same_branch_trans o a b c : same_branch o a b -> same_branch o b c -> same_branch o a c.
Proof. unfold same_branch. intros -> ->. reflexivity. Qed.
Lemma existsb_odd e l : odd_count e l = true -> exists x, In x l /\ edge_eqb e x = true.
Proof.
  induction l as [|x l IH]; cbn; [discriminate|]. destruct (edge_eqb e x) eqn:Q; [exists x; auto|].
  intros H. destruct IH as (y & A & B); [|exists y; auto]. destruct (odd_count e l); auto.
Qed.
Lemma covers_self p st : pat_ok p -> from_pattern p = Ok st -> covers st p.
Proof.
  intros H1 E. pose proof (from_pattern_inv _ _ E) as [HR HI]. split.
  - intros n [K|K]; [left; rewrite <- (si_in _ _ _ HI); auto|right]. rewrite (si_n _ _ _ HI) in K. apply ns_of_In; auto.
  - intros u v K. assert (K2 : existsb (edge_eqb (edge_norm (u, v))) (sp_e st) = true) by (apply existsb_exists; eexists; split; [exact K|apply edge_eqb_eq; auto]).
    unfold from_pattern in E. destruct (check_runnability p); [|discriminate]. simpl in E. rewrite (std_fold_edges p _ st _ E) in K2.
    apply existsb_odd in K2. destruct K2 as (x & K2 & K3). apply edge_eqb_eq in K3. subst x. unfold edge_cmds in K2. apply in_flat_map in K2. destruct K2 as (c & C1 & C2).
    destruct c as [n0 s0|y z|n0 me s0 t0|n0 d|n0 d|n0 g|n0 d|]; cbn in C2; try tauto. destruct C2 as [C2|[]].
    unfold edge_norm in C2; cbn in C2. injection C2 as A B. assert (y = u /\ z = v \/ y = v /\ z = u) as [[-> ->]|[-> ->]] by lia; auto.
Qed.

(** every edge is emitted *)
Lemma ensure_active_incl st a n a' : ensure_active st a n = Ok a' -> incl (fst a) (fst a').
Proof.
  unfold ensure_active. destruct (mem n (snd a)); [intros [= <-]; apply incl_refl|]. destruct (dget (rev (sp_n st)) n); cbn [rbind]; [|discriminate]. intros [= <-]. cbn. apply incl_appl, incl_refl.
Qed.
Lemma ensure_nb_edges st nbs done a n a' : ensure_nb st nbs done a n = Ok a' -> incl (fst a) (fst a') /\ forall k, In k (nbs n) -> mem k done = false -> In (CE n k) (fst a').
Proof.
  unfold ensure_nb. destruct (ensure_active st a n) as [a1|] eqn:E1; [|discriminate]. cbn [rbind]. apply ensure_active_incl in E1. destruct (negb (mem n (sp_nodes st))); [discriminate|].
  set (f := fun (a : list cmd * nset) (k : nat) => _).
  assert (G : forall l a1 a', rfold f l a1 = Ok a' -> incl (fst a1) (fst a') /\ forall k, In k l -> mem k done = false -> In (CE n k) (fst a')).
  { clear. induction l as [|k l IH]; intros a a'; cbn [rfold]; [intros [= <-]; split; [apply incl_refl|intros k []]|].
    unfold f at 1. destruct (mem k done) eqn:Ek.
    - intros H. destruct (IH _ _ H) as [A B]. split; auto. intros k' [<-|K] D; [congruence|auto].
    - destruct (ensure_active st a k) as [a1|] eqn:E; cbn [rbind]; [|discriminate]. intros H. destruct (IH _ _ H) as [A B]. cbn [fst] in A.
      apply ensure_active_incl in E. split; [intros c Hc; apply A, in_or_app; auto|]. intros k' [<-|K] D; [|auto]. apply A, in_or_app. right; left; auto. }
  intros H. destruct (G _ _ _ H) as [A B]. split; auto. eapply incl_tran; eauto.
Qed.
Lemma space_cmds_edges st nbs l u v : std_wf st -> std_out_ok st -> nbs_ok st nbs -> space_cmds st nbs = Ok l -> In (edge_norm (u, v)) (sp_e st) -> In (CE u v) l \/ In (CE v u) l.
Proof.
  intros W SO NB E He. unfold space_cmds in E. destruct (has_loop st); [discriminate|].
  pose (J := fun (x : list cmd * nset * nset) => forall n, mem n (snd x) = true -> forall k, In k (nbs n) -> In (CE n k) (fst (fst x)) \/ In (CE k n) (fst (fst x))).
  assert (ST : forall a done n a' cs, J (a, done) -> ensure_nb st nbs done a n = Ok a' -> J (fst a' ++ cs, snd a', sadd n done)).
  { intros a done n a' cs H Q. destruct (ensure_nb_edges _ _ _ _ _ _ Q) as [I1 I2]. intros m Hm k Hk. cbn [fst snd] in *. rewrite mem_sadd, orb_true_iff, Nat.eqb_eq in Hm.
    rewrite !in_app_iff. destruct Hm as [Hm|Hm].
    - subst m. destruct (mem k done) eqn:Ek; [|left; left; auto].
      assert (Hk' : In n (nbs k)). { apply NB. rewrite edge_norm_swap. apply NB; auto. }
      destruct (H k Ek n Hk') as [T|T]; [right|left]; left; apply I1; auto.
    - destruct (H m Hm k Hk) as [T|T]; [left|right]; left; apply I1; auto. }
  assert (LM : forall ms x x', J x -> rfold (sp_step_m st nbs) ms x = Ok x' -> J x' /\ forall n, mem n (snd x) = true \/ In n (map mc_node ms) -> mem n (snd x') = true).
  { induction ms as [|m ms IH]; intros [a done] x' H; cbn [rfold]; [intros [= <-]; split; auto; intros n [K|[]]; auto|].
    unfold sp_step_m at 1. destruct (ensure_nb st nbs done a (mc_node m)) as [a1|] eqn:Q; cbn [rbind]; [|discriminate]. intros R.
    destruct (IH _ _ (ST _ _ _ _ [mcmd_cmd m] H Q) R) as [A B]. split; auto. intros n K. apply B. cbn [snd] in *. rewrite mem_sadd, orb_true_iff, Nat.eqb_eq. cbn [map In] in K. destruct K as [K|[K|K]]; auto. }
  assert (LO : forall ns x x', J x -> rfold (sp_step_out st nbs) ns x = Ok x' -> J x' /\ forall n, mem n (snd x) = true \/ In n ns -> mem n (snd x') = true).
  { induction ns as [|m ns IH]; intros [a done] x' H; cbn [rfold]; [intros [= <-]; split; auto; intros n [K|[]]; auto|].
    unfold sp_step_out at 1. destruct (ensure_nb st nbs done a m) as [a1|] eqn:Q; cbn [rbind]; [|discriminate]. intros R.
    destruct (IH _ _ (ST _ _ _ _ (out_cmds st m) H Q) R) as [A B]. split; auto. intros n K. apply B. cbn [snd] in *. rewrite mem_sadd, orb_true_iff, Nat.eqb_eq. cbn [In] in K. destruct K as [K|[K|K]]; auto. }
  destruct (rfold (sp_step_m st nbs) (sp_m st) ([], of_list (sp_in st), sempty)) as [x1|] eqn:E1; [|discriminate]. cbn [rbind] in E.
  destruct (rfold (sp_step_out st nbs) (sp_out st) x1) as [x2|] eqn:E2; [|discriminate]. cbn [rbind] in E. injection E as <-.
  assert (J0 : J ([], of_list (sp_in st), sempty)) by (intros n H; cbn [snd] in H; rewrite mem_empty in H; discriminate).
  destruct (LM _ _ _ J0 E1) as [J1 D1]. destruct (LO _ _ _ J1 E2) as [J2 D2].
  destruct (sw_e _ W _ He) as (U & V & _).
  assert (Nu : std_node st u). { unfold edge_norm in *; cbn in *. destruct (Nat.min_dec u v) as [Q|Q], (Nat.max_dec u v) as [Q'|Q']; rewrite Q in U; rewrite Q' in V; auto. replace u with v; auto. lia. }
  apply J2; [|apply NB; auto]. apply D2. destruct (in_dec Nat.eq_dec u (map mc_node (sp_m st))) as [K|K]; [left; apply D1; auto|right]. apply SO. auto.
Qed.

(** ** minimize_space *)
(** With heuristics that only propose legitimate measurement orders (or none),
    minimize_space returns a runnable pattern with the same inputs and outputs
    that performs the same computation on every branch *)
Theorem C24_minimize_space_preserves : forall p hs st r,
  pat_ok p -> sem_ok (p_seq p) = true -> from_pattern p = Ok st ->
  (forall es, edge_enum st es -> forall h, In h (hs es) -> heur_ok st h) -> minimizes p hs r ->
  exists p', r = Ok p' /\ p_in p' = p_in p /\ p_out p' = p_out p /\ pat_ok p' /\ runnable (p_in p') (p_seq p') /\
    Permutation (ms_of (p_seq p')) (ms_of (p_seq p)) /\
    (forall o, same_branch o (p_seq p) (p_seq p')) /\
    (pat_ok (with_seq p p') /\ runnable (p_in p) (p_seq (with_seq p p'))).
Proof.
  intros p hs st r H1 H2 E HH M. unfold minimizes in M. rewrite E in M. destruct M as (es & nbs & nbs' & HE & NB & NB' & ->).
  destruct (std_facts p st H1 H2 E) as (W & SO & NI & HL & E1 & E2 & HR & MM & NN).
  destruct (min_loop_ok st nbs W SO NI HL (hs es) None (HH es HE) I) as (st' & A & B & _). unfold minimize_space. rewrite A. cbn [rbind].
  destruct (reordered_wf st W SO HL st' B) as (W' & SO' & F1 & F2 & F3 & F4 & HL' & SB).
  assert (NB2 : nbs_ok st' nbs') by (unfold nbs_ok; rewrite F4; exact NB').
  destruct (space_opt_ok st' nbs' W' SO' (eq_ind_r (@NoDup nat) NI F1) NB2 HL') as (p' & P1 & _ & P2 & P3 & P4 & _ & P5 & P6 & _ & P7).
  exists p'. split; auto. rewrite P2, P3, F1, F2, E1, E2. split; auto. split; auto. split; auto. rewrite P2, F1, E1 in P5. split; auto. split.
  { rewrite P6, <- MM. destruct B as (ms & -> & P & _). cbn [set_m sp_m]. apply Permutation_map; auto. }
  split.
  - intros o. eapply same_branch_trans; [apply (from_pattern_same p st es); auto|]. eapply same_branch_trans; [apply SB|]. apply P7. unfold edge_enum. rewrite F4. exact HE.
  - split; auto. destruct P4 as [Q1 Q2]. split; [apply H1|]. unfold pat_wf, with_seq in *. cbn [p_in p_seq p_out p_n] in *. rewrite P2, P3, F1, F2, E1, E2 in Q2. exact Q2.
Qed.
Print Assumptions C24_minimize_space_preserves.

(** The default heuristics: never fails on patterns whose N commands prepare |+>,
    and the space used is at most that of the original pattern, and at most the
    optimum for the original measurement order *)
Theorem C24_minimize_space_default : forall it p st r,
  iter_ok it -> pat_ok p -> sem_ok (p_seq p) = true -> from_pattern p = Ok st ->
  (forall n s, In (CN n s) (p_seq p) -> s = SPlus) -> minimizes p (default_heuristics it) r ->
  exists p', r = Ok p' /\ p_in p' = p_in p /\ p_out p' = p_out p /\ pat_ok p' /\ runnable (p_in p') (p_seq p') /\
    Permutation (ms_of (p_seq p')) (ms_of (p_seq p)) /\
    (forall o, same_branch o (p_seq p) (p_seq p')) /\
    (pattern_max_space p' <= pattern_max_space p)%Z /\
    forall q, pat_ok q -> runnable (p_in q) (p_seq q) -> p_in q = p_in p -> ms_of (p_seq q) = ms_of (p_seq p) -> covers st q ->
      (pattern_max_space p' <= pattern_max_space q)%Z.
Proof.
  intros it p st r Hit H1 H2 E HP M. destruct (std_facts p st H1 H2 E) as (W & SO & NI & HL & E1 & E2 & HR & MM & NN).
  assert (HP' : forall x, In x (sp_n st) -> snd x = SPlus).
  { intros [n s] K. rewrite NN in K. unfold ns_of in K. apply in_flat_map in K. destruct K as (c & C1 & C2). destruct c; cbn in C2; try tauto. destruct C2 as [[= -> ->]|[]]. cbn. eapply HP; eauto. }
  assert (M' := M). unfold minimizes in M'. rewrite E in M'. destruct M' as (es & nbs & nbs' & HE & NB & NB' & ER).
  destruct (minimize_default_ok it st es nbs Hit W SO NI HE HL NB HP') as (st' & sp & sp' & A & B & C1 & C2 & C3).
  destruct (C24_minimize_space_preserves p (default_heuristics it) st r H1 H2 E) as (p' & K1 & K2 & K3 & K4 & K5 & K6 & K7 & _); auto.
  { intros es' HE' h Hh. cbn in Hh. destruct Hh as [<-|[<-|[<-|[]]]].
    - destruct (h_causal_ok it st es' nbs Hit W SO NI HE' HL NB HP') as [Q|(o & f & Q & Q' & _)]; [left; auto|right; eauto].
    - destruct (h_greedy_ok it st Hit W SO HL) as (og & G1 & G2). right; eauto.
    - apply h_unchanged_ok; auto. }
  exists p'. split; auto. split; auto. split; auto. split; auto. split; auto. split; auto. split; auto.
  assert (SPq : forall q, pat_ok q -> runnable (p_in q) (p_seq q) -> p_in q = p_in p -> ms_of (p_seq q) = ms_of (p_seq p) -> covers st q -> (pattern_max_space p' <= pattern_max_space q)%Z).
  { intros q Q1 Q2 Q3 Q4 Q5.
    assert (L := space_optimal st nbs q sp W SO NI NB HL C1 Q2). rewrite E1, MM in L. specialize (L Q3 Q4 Q5).
    destruct (reordered_wf st W SO HL st' B) as (W' & SO' & F1 & F2 & F3 & F4 & HL' & SB).
    assert (NB2 : nbs_ok st' nbs') by (unfold nbs_ok; rewrite F4; exact NB').
    destruct (space_opt_ok st' nbs' W' SO' (eq_ind_r (@NoDup nat) NI F1) NB2 HL') as (p2 & P1 & P1' & P2 & _).
    rewrite ER, A in K1. cbn [rbind] in K1. rewrite P1 in K1. injection K1 as ->.
    assert (SE := std_max_space_eq _ _ _ P1').
    assert (SE2 : std_max_space st' nbs' = Ok sp').
    { destruct (std_max_space_char st' nbs' W' SO' (eq_ind_r (@NoDup nat) NI F1) HL') as (m1 & X1 & Y1).
      destruct (std_max_space_char st' nbs W' SO' (eq_ind_r (@NoDup nat) NI F1) HL') as (m2 & X2 & Y2). rewrite C2 in X2. injection X2 as <-. rewrite X1. f_equal.
      assert (NS : forall l, nb_set st' nbs l = nb_set st' nbs' l).
      { intros l. apply nset_ext. intros k. apply eq_true_iff_eq. rewrite !nb_set_mem. assert (Q : forall n, In k (nbs n) <-> In k (nbs' n)) by (intros n; rewrite (proj2 (NB n) k), (proj2 (NB' n) k); tauto).
        split; (intros [T|(n & T1 & [T2|T2])]; [auto|right; exists n; auto|right; exists n; split; auto; right; apply Q; auto]). }
      apply Z.le_antisymm; [apply Y1|apply Y2].
      - destruct (proj1 (Y2 sp') (Z.le_refl _)) as (T1 & T2 & T3). split; auto. rewrite NS in T3. split; auto. intros a b c T. rewrite <- NS. eapply T2; eauto.
      - destruct (proj1 (Y1 m1) (Z.le_refl _)) as (T1 & T2 & T3). split; auto. rewrite <- NS in T3. split; auto. intros a b c T. rewrite NS. eapply T2; eauto. }
    rewrite SE in SE2. injection SE2 as SE2. unfold pattern_max_space at 1. rewrite P2. lia. }
  split; auto. apply SPq; auto. apply covers_self; auto.
Qed.
Print Assumptions C24_minimize_space_default.

(** ** to_space_optimal_pattern and max_space (StandardizedPattern) *)
(** minimize_space([]): same measurement order; the space used is exactly the
    max_space() of the standardized pattern, and no pattern with the same inputs
    and the same measurement order that prepares the nodes and executes the edges
    needs less *)
Theorem C24_space_optimal : forall p st r,
  pat_ok p -> sem_ok (p_seq p) = true -> from_pattern p = Ok st -> minimizes p (fun _ => []) r ->
  exists p', r = Ok p' /\ ms_of (p_seq p') = ms_of (p_seq p) /\
    (forall nbs, nbs_ok st nbs -> std_max_space st nbs = Ok (pattern_max_space p')) /\
    covers st p' /\
    forall q, runnable (p_in q) (p_seq q) -> p_in q = p_in p -> ms_of (p_seq q) = ms_of (p_seq p) -> covers st q ->
      (pattern_max_space p' <= pattern_max_space q)%Z.
Proof.
  intros p st r H1 H2 E M. unfold minimizes in M. rewrite E in M. destruct M as (es & nbs & nbs' & HE & NB & NB' & ->).
  destruct (std_facts p st H1 H2 E) as (W & SO & NI & HL & E1 & E2 & HR & MM & NN). cbn [minimize_space min_loop rbind].
  destruct (space_opt_ok st nbs' W SO NI NB' HL) as (p' & P1 & P1' & P2 & P3 & P4 & _ & P5 & P6 & P7 & P8).
  assert (SE := std_max_space_eq _ _ _ P1').
  exists p'. split; auto. split; [congruence|].
  assert (SN : forall nb, nbs_ok st nb -> std_max_space st nb = Ok (pattern_max_space p')).
  { intros nb Hnb. unfold pattern_max_space. rewrite P2, <- SE.
    destruct (std_max_space_char st nb W SO NI HL) as (m1 & X1 & Y1). destruct (std_max_space_char st nbs' W SO NI HL) as (m2 & X2 & Y2). rewrite X1, X2. f_equal.
    assert (NS : forall l, nb_set st nb l = nb_set st nbs' l).
    { intros l. apply nset_ext. intros k. apply eq_true_iff_eq. rewrite !nb_set_mem. assert (Q : forall n, In k (nb n) <-> In k (nbs' n)) by (intros n; rewrite (proj2 (Hnb n) k), (proj2 (NB' n) k); tauto).
      split; (intros [T|(n & T1 & [T2|T2])]; [auto|right; exists n; auto|right; exists n; split; auto; right; apply Q; auto]). }
    apply Z.le_antisymm; [apply Y1|apply Y2].
    - destruct (proj1 (Y2 m2) (Z.le_refl _)) as (T1 & T2 & T3). split; auto. rewrite <- NS in T3. split; auto. intros a b c T. rewrite NS. eapply T2; eauto.
    - destruct (proj1 (Y1 m1) (Z.le_refl _)) as (T1 & T2 & T3). split; auto. rewrite NS in T3. split; auto. intros a b c T. rewrite <- NS. eapply T2; eauto. }
  split; auto. split.
  - split.
    + intros n Hn. rewrite P2. apply P7; auto.
    + intros u v He. destruct (space_cmds_edges st nbs' _ u v W SO NB' P1' He); auto.
  - intros q Q1 Q2 Q3 Q4. apply (space_optimal st nbs' q _ W SO NI NB' HL (SN _ NB') Q1); auto; [congruence|]. rewrite Q3, MM. auto.
Qed.
Print Assumptions C24_space_optimal.

(** when the corrections come from a causal flow (the first default heuristic
    succeeds), its order needs no more space than any other legitimate order *)
Theorem C24_causal_order_optimal : forall it p st es nbs ord opt ord' ms ms' sp sp',
  iter_ok it -> pat_ok p -> sem_ok (p_seq p) = true -> from_pattern p = Ok st -> (forall n s, In (CN n s) (p_seq p) -> s = SPlus) ->
  edge_enum st es -> nbs_ok st nbs -> h_causal it es st = Ok (Some (ord, opt)) ->
  good_order st ord' -> m_sort (sp_m st) ord = Ok ms -> m_sort (sp_m st) ord' = Ok ms' ->
  std_max_space (set_m st ms) nbs = Ok sp -> std_max_space (set_m st ms') nbs = Ok sp' ->
  good_order st ord /\ opt = true /\ (sp <= sp')%Z.
Proof.
  intros it p st es nbs ord opt ord' ms ms' sp sp' Hit H1 H2 E HP HE NB HC G' M M' S S'.
  destruct (std_facts p st H1 H2 E) as (W & SO & NI & HL & E1 & E2 & HR & MM & NN).
  assert (HP' : forall x, In x (sp_n st) -> snd x = SPlus).
  { intros [n s] K. rewrite NN in K. unfold ns_of in K. apply in_flat_map in K. destruct K as (c & C1 & C2). destruct c; cbn in C2; try tauto. destruct C2 as [[= -> ->]|[]]. cbn. eapply HP; eauto. }
  destruct (h_causal_ok it st es nbs Hit W SO NI HE HL NB HP') as [Q|(o & f & Q & Q' & F)]; rewrite HC in Q; [discriminate|]. injection Q as -> ->. split; auto. split; auto.
  destruct (good_order_sort st o W Q') as (l & L1 & L2 & L3 & L4). rewrite M in L1. injection L1 as <-.
  destruct (good_order_sort st ord' W G') as (l & K1 & K2 & K3 & K4). rewrite M' in K1. injection K1 as <-.
  rewrite <- L4 in F. exact (fresh_optimal st nbs f ms ms' sp sp' W SO NI HL L2 K2 L3 K3 F S S').
Qed.
Print Assumptions C24_causal_order_optimal.

(** ** parallelize_pattern *)
Definition nem (k : kind) : bool := match k with kN | kE | kM => true | _ => false end.
Lemma skip_while_split f l : exists a, l = a ++ skip_while f l /\ forall c, In c a -> f (kind_of c) = true.
Proof.
  induction l as [|c l (a & E & H)]; [exists []; split; auto; intros c []|]. cbn. destruct (f (kind_of c)) eqn:Q.
  - exists (c :: a). split; [cbn; congruence|]. intros c' [<-|K]; auto.
  - exists []. split; [reflexivity|intros c' []].
Qed.
Lemma pat_ms_app a b : pat_ms (a ++ b) = pat_ms a ++ pat_ms b.
Proof. apply flat_map_app. Qed.
Lemma std_nem l : forall st, sp_z st = [] -> sp_x st = [] -> sp_c st = [] -> (forall c, In c l -> nem (kind_of c) = true) ->
  exists st', rfold std_step l st = Ok st' /\ sp_z st' = [] /\ sp_x st' = [] /\ sp_c st' = [] /\ sp_m st' = sp_m st ++ pat_ms l.
Proof.
  induction l as [|c l IH]; intros st Z X C H; cbn [rfold]; [exists st; rewrite app_nil_r; auto|].
  assert (Hc := H c (or_introl eq_refl)). assert (G : exists st1, std_step st c = Ok st1 /\ sp_z st1 = [] /\ sp_x st1 = [] /\ sp_c st1 = [] /\ sp_m st1 = sp_m st ++ pat_ms [c]).
  { destruct c as [n s|u v|n me s t|n d|n d|n g|n d|]; try discriminate; unfold std_step.
    - eexists. split; [reflexivity|]. cbn. rewrite app_nil_r. auto.
    - unfold std_side, dget_ne. rewrite C, X, Z. cbn [dget rbind sp_c sp_x sp_z]. eexists. split; [reflexivity|]. cbn [sp_c sp_x sp_z sp_m pat_ms flat_map app]. rewrite app_nil_r. auto.
    - unfold dget_ne. rewrite C, X, Z. cbn [dget]. eexists. split; [reflexivity|]. cbn. auto. }
  destruct G as (st1 & -> & Z1 & X1 & C1 & M1). destruct (IH st1 Z1 X1 C1) as (st' & E & Z2 & X2 & C2 & M2); [intros; apply H; right; auto|]. exists st'. split; auto. split; auto. split; auto. split; auto.
  rewrite M2, M1, <- app_assoc, <- pat_ms_app. reflexivity.
Qed.
Lemma std_xzc l : forall st, (forall c, In c l -> isXZC (kind_of c) = true) -> exists st', rfold std_step l st = Ok st' /\ sp_m st' = sp_m st /\ pat_ms l = [].
Proof.
  induction l as [|c l IH]; intros st H; cbn [rfold]; [exists st; auto|].
  assert (Hc := H c (or_introl eq_refl)). assert (G : exists st1, std_step st c = Ok st1 /\ sp_m st1 = sp_m st /\ pat_ms [c] = []).
  { destruct c as [n s|u v|n me s t|n d|n d|n g|n d|]; try discriminate; unfold std_step.
    - destruct (commute_domains (match dget (sp_c st) n with Some g => g | None => gI end) d sempty). eexists. split; [reflexivity|]. auto.
    - destruct (commute_domains (match dget (sp_c st) n with Some g => g | None => gI end) sempty d). eexists. split; [reflexivity|]. auto.
    - eexists. split; [reflexivity|]. auto. }
  destruct G as (st1 & -> & M1 & P1). destruct (IH st1) as (st' & E & M2 & P2); [intros; apply H; right; auto|]. exists st'. split; auto. split; [congruence|].
  change (c :: l) with ([c] ++ l). rewrite pat_ms_app, P1, P2. auto.
Qed.
Lemma from_standard p : is_standard false p = true -> runnable (p_in p) (p_seq p) -> exists st, from_pattern p = Ok st /\ sp_m st = pat_ms (p_seq p).
Proof.
  intros HS HR. apply check_runnability_spec in HR. unfold from_pattern. rewrite HR. cbn [rbind]. unfold is_standard in HS.
  destruct (skip_while_split isN (p_seq p)) as (a & Ea & Ha). destruct (skip_while_split isE (skip_while isN (p_seq p))) as (b & Eb & Hb).
  destruct (skip_while_split isM (skip_while isE (skip_while isN (p_seq p)))) as (c & Ec & Hc).
  destruct (skip_while_split isXZC (skip_while isM (skip_while isE (skip_while isN (p_seq p))))) as (d & Ed & Hd).
  destruct (skip_while isXZC (skip_while isM (skip_while isE (skip_while isN (p_seq p))))) as [|? ?]; [|discriminate]. rewrite app_nil_r in Ed.
  assert (EQ : p_seq p = (a ++ b ++ c) ++ d) by (rewrite Ea, Eb, Ec, Ed, <- !app_assoc; auto). rewrite EQ. clear HS.
  destruct (std_nem (a ++ b ++ c) (std_init p) eq_refl eq_refl eq_refl) as (st & E & _ & _ & _ & M).
  { intros x Hx. rewrite !in_app_iff in Hx. destruct Hx as [Hx|[Hx|Hx]]; [apply Ha in Hx|apply Hb in Hx|apply Hc in Hx]; destruct (kind_of x); auto; discriminate. }
  destruct (std_xzc d st Hd) as (st' & E' & M' & P'). exists st'. rewrite rfold_app, E. cbn [rbind]. split; auto. rewrite M', M, (pat_ms_app (a ++ b ++ c) d), P', app_nil_r. auto.
Qed.
Lemma layers_order it st gens : iter_ok it -> std_wf st -> meas_layers st gens -> good_order st (flat_map it gens).
Proof.
  intros Hit W ML. assert (IN : forall n, In n (flat_map it gens) <-> std_meas st n).
  { intros n. rewrite in_flat_map, (ml_cover _ _ ML). split.
    - intros (l & L1 & L2). apply In_nth_error in L1. destruct L1 as (i & Hi). exists i, l. split; auto. apply (iter_In _ _ _ Hit); auto.
    - intros (i & l & L1 & L2). exists l. split; [eapply nth_error_In; eauto|apply (iter_In _ _ _ Hit); auto]. }
  split.
  - apply NoDup_Permutation; [|exact (sw_mN _ W)|exact IN].
    assert (G : forall gs, (forall i j n, in_layer gs i n -> in_layer gs j n -> i = j) -> NoDup (flat_map it gs)).
    { induction gs as [|g gs IH]; intros D; cbn [flat_map]; [constructor|]. apply NoDup_app; [apply (iter_NoDup it g Hit)|apply IH|].
      - intros i j n (l & A & B) (l' & A' & B'). assert (S i = S j); [|lia]. apply (D (S i) (S j) n); [exists l|exists l']; auto.
      - intros n Hn K. apply (iter_In _ _ _ Hit) in Hn. apply in_flat_map in K. destruct K as (l & L1 & L2). apply In_nth_error in L1. destruct L1 as (i & Hi). apply (iter_In _ _ _ Hit) in L2.
        assert (0 = S i); [|lia]. apply (D 0 (S i) n); [exists g; auto|exists l; auto]. }
    apply G. apply (ml_disj _ _ ML).
  - intros pre n post m k E Hm Hn Hk. assert (MD : mdep st k n) by (exists m; auto).
    destruct (mdep_meas st W k n MD) as [Mk Mn]. apply (ml_cover _ _ ML) in Mk, Mn. destruct Mk as (i & Li), Mn as (j & Lj). assert (LT := ml_dep _ _ ML k n i j MD Li Lj).
    assert (G : forall gs i j pre post, (forall i j n, in_layer gs i n -> in_layer gs j n -> i = j) -> in_layer gs i k -> in_layer gs j n -> i < j -> flat_map it gs = pre ++ n :: post -> In k pre).
    { clear - Hit. induction gs as [|g gs IH]; intros i j pre post D Li Lj LT E; [destruct Li as (l & A & _); destruct i; discriminate|]. cbn [flat_map] in E.
      destruct j as [|j]; [lia|]. assert (Hng : ~ In n (it g)).
      { intros K. apply (iter_In _ _ _ Hit) in K. assert (0 = S j); [|lia]. apply (D 0 (S j) n); auto. exists g; auto. }
      assert (SP : exists pre', pre = it g ++ pre' /\ flat_map it gs = pre' ++ n :: post).
      { revert pre E Hng. generalize (it g). intros a. induction a as [|x a IHa]; intros pre E Hng; [exists pre; auto|]. destruct pre as [|y pre]; cbn in E; injection E as -> E; [exfalso; apply Hng; left; auto|].
        destruct (IHa pre E) as (pre' & -> & Q); [intros K; apply Hng; right; auto|]. exists pre'. auto. }
      destruct SP as (pre' & -> & Q). apply in_or_app. destruct i as [|i].
      - left. destruct Li as (l & [= <-] & L). apply (iter_In _ _ _ Hit); auto.
      - right. apply (IH i j pre' post); auto; [|lia]. intros a b c (l & A & B) (l' & A' & B'). assert (S a = S b); [|lia]. apply (D (S a) (S b) c); [exists l|exists l']; auto. }
    eapply G; eauto. apply (ml_disj _ _ ML).
Qed.
Lemma parallel_core it p r : iter_ok it -> pat_ok p -> sem_ok (p_seq p) = true -> is_standard false p = true -> runnable (p_in p) (p_seq p) -> p_out p <> [] -> parallelize_rest it p r ->
  exists p' gens st, r = Ok p' /\ p_in p' = p_in p /\ p_out p' = p_out p /\ pat_ok p' /\ runnable (p_in p') (p_seq p') /\ (forall o, same_branch o (p_seq p) (p_seq p')) /\
    from_pattern p = Ok st /\ meas_layers st gens /\ ms_of (p_seq p') = flat_map it gens /\ sp_m st = pat_ms (p_seq p).
Proof.
  intros Hit H1 H2 HS HR HO H. destruct (from_standard p HS HR) as (st & E & EM). unfold parallelize_rest in H. rewrite E in H. cbn [rbind] in H.
  destruct (std_facts p st H1 H2 E) as (W & SO & NI & HL & E1 & E2 & _ & MM & NN).
  destruct (std_layers_ok it st Hit W SO) as (gens & EL & ML). unfold measurement_order_depth in H. rewrite EL in H. cbn [rbind] in H.
  assert (EO : is_empty (of_list (sp_out st)) = false).
  { apply not_true_iff_false. intros Q. apply is_empty_spec in Q. destruct (sp_out st) as [|n l] eqn:Eo; [congruence|]. assert (K : mem n (of_list (n :: l)) = true) by (apply mem_of_list; left; auto). rewrite Q, mem_empty in K. discriminate. }
  rewrite EO in H. cbn [tl] in H. rewrite rev_involutive, <- EM in H.
  destruct (good_order_sort st _ W (layers_order it st gens Hit W ML)) as (ms & S1 & S2 & S3 & S4). rewrite S1 in H. cbn [rbind] in H.
  destruct H as (nbs & NB & ->). assert (R : reordered st (set_m st ms)) by (exists ms; auto).
  destruct (reordered_wf st W SO HL _ R) as (W' & SO' & F1 & F2 & F3 & F4 & HL' & SB).
  destruct (space_opt_ok (set_m st ms) nbs W' SO' NI NB HL') as (q & P1 & _ & P2 & P3 & P4 & _ & P5 & P6 & _ & P7). rewrite P1. cbn [rbind].
  exists (with_seq p q), gens, st. split; auto. split; auto. split; auto. cbn [with_seq p_in p_out p_seq].
  cbn [set_m sp_in sp_out] in P2, P3. split.
  { destruct P4 as [Q1 Q2]. split; [apply H1|]. unfold pat_wf, with_seq in *. cbn [p_in p_seq p_out p_n]. rewrite P2, P3, E1, E2 in Q2. exact Q2. }
  split; [rewrite P2, E1 in P5; auto|]. split.
  { intros o. eapply same_branch_trans; [apply (from_pattern_same p st (sp_e st)); auto; eapply std_enum_self; eauto|]. eapply same_branch_trans; [apply SB|]. apply P7. unfold edge_enum. rewrite F4. eapply std_enum_self; eauto. }
  split; auto. split; auto. split; auto. rewrite P6. cbn [set_m sp_m]. auto.
Qed.
Lemma pat_ms_std st es : pat_ms (std_cmds st es) = sp_m st.
Proof.
  unfold std_cmds. rewrite !pat_ms_app. assert (Z : forall A (f : A -> cmd) l, (forall a, pat_ms [f a] = []) -> pat_ms (map f l) = []).
  { intros A f l H. induction l as [|a l IH]; auto. change (map f (a :: l)) with ([f a] ++ map f l). rewrite pat_ms_app, H, IH. auto. }
  rewrite (Z _ _ (sp_n st)), (Z _ _ es), (Z _ _ (sp_z st)), (Z _ _ (sp_x st)), (Z _ _ (sp_c st)) by auto. rewrite !app_nil_r. cbn [app].
  induction (sp_m st) as [|[n me s t] l IH]; auto. cbn. f_equal. auto.
Qed.
Lemma std_cmds_sem st es : existsb (fun e => (fst e =? snd e)%nat) es = false -> sem_ok (std_cmds st es) = true.
Proof.
  intros H. unfold sem_ok, std_cmds. rewrite !forallb_app, !andb_true_iff. assert (Z : forall A (f : A -> cmd) l, (forall a, In a l -> cmd_sem_ok (f a) = true) -> forallb cmd_sem_ok (map f l) = true).
  { intros A f l K. apply forallb_forall. intros c Hc. apply in_map_iff in Hc. destruct Hc as (a & <- & Ha). auto. }
  repeat split; apply Z; auto. intros [u v] He. cbn. destruct (Nat.eqb_spec u v) as [Q|Q]; auto. exfalso. apply not_true_iff_false in H. apply H, existsb_exists. exists (u, v). split; auto. apply Nat.eqb_eq; auto.
Qed.
Lemma meas_layers_m st st' gens : sp_m st = sp_m st' -> meas_layers st gens -> meas_layers st' gens.
Proof.
  intros E [A B C D F]. constructor; auto; unfold std_meas, mdep in *; rewrite <- E; auto.
Qed.

(** parallelize_pattern on a pattern with at least one output: the result is
    runnable, performs the same computation, and its measurements are grouped by
    layers: all dependencies go from a layer to a later one, and no measurement
    could be in an earlier layer *)
Theorem C24_parallelize_preserves : forall it p st r,
  iter_ok it -> pat_ok p -> sem_ok (p_seq p) = true -> from_pattern p = Ok st -> p_out p <> [] -> parallelizes it p r ->
  exists p' gens, r = Ok p' /\ p_in p' = p_in p /\ p_out p' = p_out p /\ pat_ok p' /\ runnable (p_in p') (p_seq p') /\
    (forall o, same_branch o (p_seq p) (p_seq p')) /\
    ms_of (p_seq p') = flat_map it gens /\ meas_layers st gens.
Proof.
  intros it p st r Hit H1 H2 E HO H. destruct (std_facts p st H1 H2 E) as (W & SO & NI & HL & E1 & E2 & HR & MM & NN).
  unfold parallelizes in H. destruct (is_standard false p) eqn:HS.
  - destruct (parallel_core it p r Hit H1 H2 HS HR HO H) as (p' & gens & st' & K1 & K2 & K3 & K4 & K5 & K6 & K7 & K8 & K9 & _). rewrite E in K7. injection K7 as <-.
    exists p', gens. auto 10.
  - destruct H as (r1 & S & H). destruct (standardizes_ok p r1 H1 H2 S) as [(rs & _ & N)|[Q|Q]]; [contradiction| |].
    { exfalso. unfold standardizes in S. rewrite E in S. destruct S as (es & HE & S). rewrite Q in S. unfold to_pattern in S. rewrite (no_loops p st _ E H2 HE) in S. unfold reorder_output_nodes in S.
      destruct (assert_permutation (p_out (pat_extend (pat_new (sp_in st)) (std_cmds st es))) (sp_out st)) eqn:Q9; [discriminate|]. apply assert_permutation_err in Q9. congruence. }
    destruct Q as (st' & es & p1 & E' & HE & -> & Q1 & Q2 & Q3 & Q4 & _ & Q5 & Q6). rewrite E in E'. injection E' as <-.
    destruct (parallel_core it (with_seq p p1) r) as (p' & gens & st' & K1 & K2 & K3 & K4 & K5 & K6 & K7 & K8 & K9 & K10); auto.
    + destruct Q4 as [Q4 Q4']. split; [apply H1|]. unfold pat_wf, with_seq in *. cbn [p_in p_seq p_out p_n]. rewrite Q2, Q3 in Q4'. exact Q4'.
    + cbn [with_seq p_seq]. rewrite Q1. apply std_cmds_sem. eapply no_loops; eauto.
    + eapply std_is_standard. cbn [with_seq p_seq]. exact Q1.
    + cbn [with_seq p_in p_seq]. rewrite <- Q2. auto.
    + exists p', gens. split; auto. split; auto. split; auto. split; auto. split; auto. split; [intros o; eapply same_branch_trans; [apply Q6|apply K6]|]. split; auto.
      eapply meas_layers_m; [|exact K8]. rewrite K10. cbn [with_seq p_seq]. rewrite Q1. apply pat_ms_std.
Qed.
Print Assumptions C24_parallelize_preserves.
(** the layers are as few as possible: along any chain of dependencies the nodes
    are in distinct layers, so any measurement schedule in rounds needs at least
    as many rounds *)
Theorem C24_parallelize_depth : forall st gens (round : nat -> nat) n i,
  meas_layers st gens -> (forall u v, mdep st u v -> round u < round v) -> in_layer gens i n -> i <= round n.
Proof.
  intros st gens round n i ML HR. revert n. induction i as [|i IH]; intros n Hn; [lia|]. destruct (ml_early _ _ ML n i Hn) as (u & D & L). specialize (IH u L). specialize (HR u n D). lia.
Qed.
Print Assumptions C24_parallelize_depth.

(** ** Non-vacuity *)
Definition std_nbs (st : stdp) (n : nat) : list nat :=
  nodup Nat.eq_dec (flat_map (fun e => if (fst e =? n)%nat then [snd e] else if (snd e =? n)%nat then [fst e] else []) (sp_e st)).
Lemma std_nbs_ok st : std_wf st -> nbs_ok st (std_nbs st).
Proof.
  intros W n. split; [apply NoDup_nodup|]. intros k. unfold std_nbs. rewrite nodup_In, in_flat_map. split.
  - intros ([u v] & H & K). cbn in K. destruct (sw_e _ W _ H) as (_ & _ & N). destruct (Nat.eqb_spec u n) as [Q|Q].
    + destruct K as [<-|[]]. subst u. rewrite N. auto.
    + destruct (Nat.eqb_spec v n) as [Q'|Q']; [|destruct K]. destruct K as [<-|[]]. subst v. rewrite edge_norm_swap, N. auto.
  - intros H. exists (edge_norm (n, k)). split; auto. unfold edge_norm. cbn. destruct (Nat.eqb_spec (Nat.min n k) n) as [Q|Q]; [left; lia|]. destruct (Nat.eqb_spec (Nat.max n k) n) as [Q'|Q']; [left; lia|lia].
Qed.
Lemma minimizes_exists p hs st : pat_ok p -> sem_ok (p_seq p) = true -> from_pattern p = Ok st -> exists r, minimizes p hs r.
Proof.
  intros H1 H2 E. destruct (std_facts p st H1 H2 E) as (W & _). unfold minimizes. rewrite E. eexists. exists (sp_e st), (std_nbs st), (std_nbs st).
  split; [eapply std_enum_self; eauto|]. split; [apply std_nbs_ok; auto|]. split; [apply std_nbs_ok; auto|reflexivity].
Qed.
Example C24_case a : exists st r, pat_ok (ex_pat a) /\ sem_ok (p_seq (ex_pat a)) = true /\ from_pattern (ex_pat a) = Ok st /\
  (forall n s, In (CN n s) (p_seq (ex_pat a)) -> s = SPlus) /\ p_out (ex_pat a) <> [] /\ minimizes (ex_pat a) (default_heuristics elems) r.
Proof.
  destruct (ex_pat_from a) as (st & E & _). destruct (minimizes_exists (ex_pat a) (default_heuristics elems) st (ex_pat_ok a) (ex_pat_sem a) E) as (r & Hr).
  exists st, r. split; [apply ex_pat_ok|]. split; [apply ex_pat_sem|]. split; [exact E|]. split; [|split; [discriminate|exact Hr]].
  intros n s H. cbn in H. repeat (destruct H as [H|H]; [try discriminate H; injection H as <- <-; reflexivity|]). destruct H.
Qed.
(** a chain of five nodes prepared at once: space 5 is reduced to 2 *)
Definition ex_chain (a : R) : pattern :=
  pat_extend (pat_new [0])
    [CN 1 SPlus; CN 2 SPlus; CN 3 SPlus; CN 4 SPlus; CE 0 1; CE 1 2; CE 2 3; CE 3 4;
     CM 0 (MBloch a PXY) sempty sempty; CM 1 (MBloch a PXY) (sing 0) sempty; CM 2 (MBloch a PXY) (sing 1) (sing 0);
     CM 3 (MBloch a PXY) (sing 2) (sing 1); CX 4 (sing 3); CZ 4 (sing 2)].
Definition chain_check (a : R) : bool :=
  match from_pattern (ex_chain a) with
  | Ok st => match (do st' <- minimize_space (std_nbs st) st (default_heuristics elems (sp_e st)); space_opt st' (std_nbs st)) with
      | Ok p' => (pattern_max_space (ex_chain a) =? 5)%Z && (pattern_max_space p' =? 2)%Z
      | Err _ => false end
  | Err _ => false end.
Example C24_chain a : exists p', minimizes (ex_chain a) (default_heuristics elems) (Ok p') /\ pattern_max_space (ex_chain a) = 5%Z /\ pattern_max_space p' = 2%Z.
Proof.
  assert (K : chain_check a = true) by (vm_compute; reflexivity). unfold chain_check in K. unfold minimizes.
  destruct (from_pattern (ex_chain a)) as [st|] eqn:E; [|discriminate].
  assert (W : std_wf st). { pose proof (from_pattern_inv _ _ E) as [HR HI]. eapply std_inv_wf; eauto. }
  destruct (do st' <- minimize_space (std_nbs st) st (default_heuristics elems (sp_e st)); space_opt st' (std_nbs st)) as [p'|] eqn:Q; [|discriminate].
  apply andb_true_iff in K. destruct K as [K1 K2]. apply Z.eqb_eq in K1, K2. exists p'. split; auto. exists (sp_e st), (std_nbs st), (std_nbs st).
  split; [eapply std_enum_self; eauto|]. split; [apply std_nbs_ok; auto|]. split; [apply std_nbs_ok; auto|auto].
Qed.
(** parallelisation of the same pattern with two independent measurements *)
Definition ex_par (a : R) : pattern :=
  pat_extend (pat_new [0; 1])
    [CN 2 SPlus; CE 0 2; CM 0 (MBloch a PXY) sempty sempty; CX 2 (sing 0); CN 3 SPlus; CE 2 3; CM 2 (MBloch a PXY) sempty sempty; CX 3 (sing 2); CN 4 SPlus; CE 1 4; CM 1 (MBloch a PXY) sempty sempty; CX 4 (sing 1)].
Definition par_check (a : R) : option (list nat) :=
  match from_pattern (ex_par a) with
  | Ok st => match to_pattern st (sp_e st) with
     | Ok p1 => let p := with_seq (ex_par a) p1 in
        match (do st <- from_pattern p; do ord <- measurement_order_depth elems st; do ms <- m_sort (pat_ms (p_seq p)) ord; Ok (set_m st ms)) with
        | Ok st => match space_opt st (std_nbs st) with Ok q => Some (ms_of (p_seq q)) | Err _ => None end
        | Err _ => None end
     | Err _ => None end
  | Err _ => None end.
Example C24_par a : ms_of (p_seq (ex_par a)) = [0; 2; 1] /\ exists p', parallelizes elems (ex_par a) (Ok p') /\ ms_of (p_seq p') = [0; 1; 2].
Proof.
  split; [reflexivity|]. assert (K : par_check a = Some [0; 1; 2]) by (vm_compute; reflexivity). unfold par_check in K.
  unfold parallelizes. replace (is_standard false (ex_par a)) with false by reflexivity. unfold standardizes, parallelize_rest.
  destruct (from_pattern (ex_par a)) as [st|] eqn:E; [|discriminate]. destruct (to_pattern st (sp_e st)) as [p1|] eqn:E1; [|discriminate].
  cbv zeta in K. destruct (from_pattern (with_seq (ex_par a) p1)) as [st1|] eqn:F; cbn [rbind] in K; [|discriminate].
  assert (W : std_wf st1). { pose proof (from_pattern_inv _ _ F) as [HR HI]. eapply std_inv_wf; eauto. }
  destruct (measurement_order_depth elems st1) as [ord|] eqn:O; cbn [rbind] in K; [|discriminate].
  destruct (m_sort (pat_ms (p_seq (with_seq (ex_par a) p1))) ord) as [ms|] eqn:MS; cbn [rbind] in K; [|discriminate].
  destruct (space_opt (set_m st1 ms) (std_nbs (set_m st1 ms))) as [q|] eqn:SQ; [|discriminate].
  exists (with_seq (ex_par a) q). split; [|cbn [with_seq p_seq]; congruence]. exists (Ok p1). split; [exists (sp_e st); split; [eapply std_enum_self; eauto|auto]|].
  rewrite F. cbn [rbind]. rewrite O. cbn [rbind]. rewrite MS. cbn [rbind]. exists (std_nbs (set_m st1 ms)). split; [exact (std_nbs_ok st1 W)|]. rewrite SQ. reflexivity.
Qed.

(** ** Where the code departs from the documentation *)
(** parallelize_pattern on a pattern without outputs drops the last layer of
    measurements: N(0) M(0) becomes the empty pattern, and Pattern([0]) M(0)
    raises PatternError *)
Definition ex_noout : pattern := pat_extend (pat_new []) [CN 0 SPlus; CM 0 (MPauli AX Plus) sempty sempty].
Definition ex_noout' : pattern := pat_extend (pat_new [0]) [CM 0 (MPauli AX Plus) sempty sempty].
Lemma nil_nbs_ok st : sp_e st = [] -> nbs_ok st (fun _ => []).
Proof. intros E n. split; [constructor|]. intros k. rewrite E. cbn. tauto. Qed.
Theorem C24_parallelize_no_outputs_refuted :
  (pat_ok ex_noout /\ sem_ok (p_seq ex_noout) = true /\ check_runnability ex_noout = Ok tt /\
   exists p', parallelizes elems ex_noout (Ok p') /\ p_seq p' = [] /\ ms_of (p_seq ex_noout) = [0]) /\
  (pat_ok ex_noout' /\ sem_ok (p_seq ex_noout') = true /\ check_runnability ex_noout' = Ok tt /\ parallelizes elems ex_noout' (Err EPattern)).
Proof.
  split.
  - split; [split; [constructor|apply Permutation_refl]|]. split; auto. split; auto. exists (Pat [] [] [] 1). split; [|auto].
    unfold parallelizes. replace (is_standard false ex_noout) with true by reflexivity. unfold parallelize_rest.
    exists (fun _ => []). split; [apply nil_nbs_ok; reflexivity|]. vm_compute. reflexivity.
  - split; [split; [repeat constructor; cbn; tauto|apply Permutation_refl]|]. split; auto. split; auto.
    unfold parallelizes. replace (is_standard false ex_noout') with true by reflexivity. unfold parallelize_rest.
    exists (fun _ => []). split; [apply nil_nbs_ok; reflexivity|]. vm_compute. reflexivity.
Qed.
Print Assumptions C24_parallelize_no_outputs_refuted.
(** minimize_space() with the default heuristics raises ValueError as soon as an
    N command does not prepare |+> (the causal-flow heuristic lets the exception
    through), although the pattern is runnable and minimize_space([]) succeeds *)
Definition ex_zero : pattern := pat_extend (pat_new []) [CN 0 (SVec (Vec2 C1 C0))].
Theorem C24_minimize_space_states_refuted :
  pat_ok ex_zero /\ sem_ok (p_seq ex_zero) = true /\ check_runnability ex_zero = Ok tt /\
  minimizes ex_zero (default_heuristics elems) (Err EValue) /\ exists p', minimizes ex_zero (fun _ => []) (Ok p').
Proof.
  split; [split; [constructor|apply Permutation_refl]|]. split; auto. split; auto.
  split; [|eexists]; exists [], (fun _ => []), (fun _ => []); (split; [apply Permutation_refl|]); (split; [apply nil_nbs_ok; reflexivity|]); (split; [apply nil_nbs_ok; reflexivity|]); [vm_compute; reflexivity|reflexivity].
Qed.
Print Assumptions C24_minimize_space_states_refuted.
