(** Property theorems: simulation of a circuit (C55).

    Vocabulary (Circuit.v, Simulator.v, CircSim.v): [circ_simulate ord close1 sel g
    c input] is Circuit.simulate on the state-vector backend; [csem o 0 l psi] is
    the unnormalised state obtained from [psi] by the instructions [l] when the
    k-th measurement has outcome [o k]; [alive w l] are the qubits not measured
    by [l], in increasing order; [wt qs Psi] is the squared norm of a state of
    the qubits [qs]. *)
From Coq Require Import Reals Lra Arith List Bool Lia Permutation FunctionalExtensionality.
From Verif Require Import Cplx Mat2 Fundamentals CliffordDb Clifford NSet Measure QState Layer Pattern Standardize NodeIndex Statevec Simulator Density DMSim Circuit Swaps
  FlowSem OpenGraph FlowSpec Flow FlowWF FlowPat Space TopGen Corr Transpile TranspilePat PropSpace PropTranspile CircSim.
Import ListNotations.
Local Open Scope C_scope.

(** * Circuits *)
Lemma make_active w l : forall c, circ_make w l = Ok c -> forall q, mem q (c_active c) = true <-> In q (alive w l).
Proof.
  induction l as [|i l IH] using rev_ind; intros c H q.
  - injection H as <-. cbn. unfold alive. cbn. rewrite mem_of_list, filter_In. tauto.
  - unfold circ_make, circ_extend in H. rewrite rfold_app in H. destruct (rfold circ_add l (circ_new w)) as [c1|] eqn:E; [|discriminate]. cbn [rfold] in H.
    unfold circ_add in H at 1. destruct (add_ok (c_active c1) i); [|discriminate]. injection H as <-. cbn [c_active]. specialize (IH c1 E).
    destruct (is_meas i) eqn:EM.
    + destruct i as [| | | | | | | | | | |q0 ax| | | |]; try discriminate. rewrite mem_sremove, alive_meas, filter_In, andb_true_iff, IH, (Nat.eqb_sym q q0). tauto.
    + rewrite alive_gate, <- IH by auto. destruct i; try discriminate; tauto.
Qed.
Lemma alive_unmeasured w l c : circ_make w l = Ok c -> alive w l = unmeasured c.
Proof.
  intros H. pose proof (make_active w l c H) as A. destruct (circ_extend_fields _ _ _ H) as [EW _]. cbn in EW. unfold unmeasured. rewrite EW. unfold alive in *. apply filter_ext_in. intros q Hq.
  apply eq_true_iff_eq. rewrite A, filter_In. tauto.
Qed.
Lemma ndb_NoDup l : ndb l = true -> NoDup l.
Proof.
  induction l as [|x l IH]; cbn; intros H; constructor; apply andb_true_iff in H; destruct H as [H1 H2]; auto. intros K. apply negb_true_iff in H1.
  assert (existsb (Nat.eqb x) l = true) by (apply existsb_exists; exists x; split; auto; apply Nat.eqb_refl). congruence.
Qed.
(** the two qubits of an RZZ gate are not checked to be distinct by the code *)
Definition rzz_distinct (l : list instr) : Prop := forall t c a, In (IRZZ t c a) l -> t <> c.
Lemma make_qubits w l c : circ_make w l = Ok c -> rzz_distinct l -> qubits_ok w l.
Proof.
  intros H HR a i z ->. unfold circ_make, circ_extend in H. rewrite rfold_app in H. destruct (rfold circ_add a (circ_new w)) as [c1|] eqn:E; [|discriminate]. cbn [rfold] in H.
  unfold circ_add in H at 1. destruct (add_ok (c_active c1) i) eqn:EA; [|discriminate]. unfold add_ok in EA. apply andb_true_iff in EA. destruct EA as [E1 E2]. rewrite forallb_forall in E1. split.
  - destruct i; try (apply ndb_NoDup; exact E2). assert (N : target <> control) by (eapply HR; apply in_or_app; right; left; reflexivity). cbn. repeat constructor; cbn; intuition.
  - intros q Hq. apply (make_active w a c1 E). apply E1; auto.
Qed.

(** * C55 *)
(** for every circuit, input, selector and schedule of the parallel kernels: the
    simulation ends with the unmeasured qubits, in increasing order, in the
    normalised state of the branch of the recorded outcomes, which are those the
    selector returns when asked in program order with the exact conditional
    probability of outcome 0; it only fails at a measurement where the selector
    fails, or returns an outcome of conditional probability at most 2e-10 *)
Theorem C55_simulate : forall ord close1 sel g w l c input,
  (forall t n, sched (ord t n) n) -> close1 1%R = true ->
  circ_make w l = Ok c -> rzz_distinct l ->
  let d := match input with Some d => d | None => DState SPlus end in
  data_ok d w ->
  let psi0 := input_state (range w) d in
  let qs := alive w l in let n := length qs in
  match circ_simulate ord close1 sel g c input with
  | Ok st =>
      cselected sel g w psi0 l (cs_out st) (cs_rng st) /\ length (cs_out st) = nmeas l
      /\ ni_list (b_ni (cs_bk st)) = qs /\ sv_n (b_sv (cs_bk st)) = n
      /\ sqnorm n (rep n (sv_psi (b_sv (cs_bk st)))) = 1%R
      /\ exists z, (Cnorm2 z * wt qs (csem (fun k => nth k (cs_out st) false) 0 l psi0) = 1)%R
         /\ forall f, sv_psi (b_sv (cs_bk st)) (idx n (fun i => f (nth i qs 0%nat))) = z * csem (fun k => nth k (cs_out st) false) 0 l psi0 f
  | Err e => cfails sel g w psi0 l e
  end.
Proof.
  intros ord close1 sel g w l c input HO HC HM HR d HD psi0 qs n. unfold circ_simulate. destruct (circ_extend_fields _ _ _ HM) as [EW EI]. cbn in EW, EI. rewrite EW, EI.
  replace (match input with Some d0 => d0 | None => DState SPlus end) with d by (unfold d; destruct input; auto).
  replace (match input with None => DState SPlus | Some d0 => d0 end) with d by (unfold d; destruct input; auto).
  assert (LR : length (range w) = w) by apply seq_length.
  destruct (init_inv close1 (range w) d) as (b & Eb & HI); [apply seq_NoDup|auto|rewrite LR; auto|]. rewrite Eb. cbn [rbind].
  assert (AR : alive w [] = range w).
  { unfold alive. cbn. clear. induction (range w) as [|x r IH]; cbn; auto. congruence. }
  assert (C0I : CInv w psi0 [] (CSim b [] 0)).
  { unfold bk_add_nodes in Eb. destruct (sv_add_nodes close1 (b_sv bk_init) (length (range w)) d) as [s|]; [|discriminate]. cbn [rbind] in Eb. injection Eb as <-.
    destruct HI as [J1 J2 J3 J4 J5 J6]. cbn [s_bk b_ni b_sv s_res] in *. constructor; cbn [cs_bk cs_out cs_rng b_ni b_sv]; auto. }
  pose proof (circ_fold ord HO sel g w psi0 (CSim b [] 0) l C0I eq_refl eq_refl (make_qubits w l c HM HR)) as F.
  destruct (rfold (circ_step ord sel g) l (CSim b [] 0)) as [st|e]; auto. destruct F as [[I1 I2 I3 I4 I5 (z & I6)] SEL].
  fold qs in I2. rewrite I2 in I3, I6. fold n in I3. rewrite I3 in I5, I6. split; auto. split; auto. split; auto. split; auto. split; auto. exists z. split; [|exact I6].
  rewrite <- I5. symmetry. apply (wt_amp n (sv_psi (b_sv (cs_bk st))) qs z); auto. rewrite <- I2. apply I1.
Qed.
Print Assumptions C55_simulate.

(** * Circuits without measurement *)
Lemma cselected_nomeas sel g w psi0 l bs k : cselected sel g w psi0 l bs k -> nmeas l = 0%nat -> bs = [] /\ k = 0%nat.
Proof.
  induction 1 as [|l i bs k S IH HM|l q ax bs k p0 b k' S IH HP HM]; intros N; auto; rewrite nmeas_snoc in N; [apply IH; lia|cbn in N; lia].
Qed.
Lemma csem_0 o l : forall j psi, nmeas l = 0%nat -> csem o j l psi = fold_left (fun phi i => gate i phi) l psi.
Proof.
  induction l as [|i l IH]; intros j psi N; auto. unfold nmeas in N. destruct i; cbn [csem fold_left filter is_meas length] in *; try discriminate; apply IH; exact N.
Qed.
(** the simulation cannot fail, draws nothing, and yields the product of the
    gates applied to the input *)
Theorem C55_unitary : forall ord close1 sel g w l c input,
  (forall t n, sched (ord t n) n) -> close1 1%R = true ->
  circ_make w l = Ok c -> rzz_distinct l -> (forall i, In i l -> is_meas i = false) ->
  let d := match input with Some d => d | None => DState SPlus end in
  data_ok d w ->
  exists st, circ_simulate ord close1 sel g c input = Ok st /\ cs_out st = [] /\ cs_rng st = 0%nat
    /\ ni_list (b_ni (cs_bk st)) = range w /\ sv_n (b_sv (cs_bk st)) = w
    /\ exists z, z <> C0 /\ forall f, sv_psi (b_sv (cs_bk st)) (idx w f) = z * fold_left (fun phi i => gate i phi) l (input_state (range w) d) f.
Proof.
  intros ord close1 sel g w l c input HO HC HM HR NM d HD. pose proof (C55_simulate ord close1 sel g w l c input HO HC HM HR HD) as S. cbv zeta in S. fold d in S.
  assert (N0 : nmeas l = 0%nat).
  { clear - NM. unfold nmeas. induction l as [|i l IH]; cbn; auto. rewrite (NM i) by (left; auto). apply IH. intros; apply NM; right; auto. }
  assert (AL : alive w l = range w).
  { unfold alive. assert (mtargets l = []) as -> by (apply length_zero_iff_nil; rewrite <- nmeas_mtargets; auto). cbn. clear. induction (range w) as [|x r IH]; cbn; auto. congruence. }
  assert (LR : length (range w) = w) by apply seq_length.
  destruct (circ_simulate ord close1 sel g c input) as [st|e].
  - destruct S as (SEL & LO & S1 & S2 & S3 & z & Z1 & Z2). rewrite AL in *. rewrite LR in *. destruct (cselected_nomeas _ _ _ _ _ _ _ SEL N0) as [E1 E2].
    exists st. split; auto. split; auto. split; auto. split; auto. split; auto. exists z. split.
    + intros ->. unfold Cnorm2 in Z1. cbn in Z1. lra.
    + intros f. specialize (Z2 f). rewrite csem_0 in Z2 by auto. rewrite <- Z2. f_equal. apply idx_ext. intros i Hi. unfold range. rewrite seq_nth; auto.
  - exfalso. destruct S as (a & q & ax & r & bs & k & p0 & -> & _). specialize (NM (IM q ax)). cbn in NM. assert (true = false); [apply NM; apply in_or_app; right; left; auto|discriminate].
Qed.
Print Assumptions C55_unitary.

(** * The circuit and its pattern *)
Lemma Cinv_l a : a <> C0 -> Cinv a * a = C1.
Proof.
  intros H. assert (K : Cnorm2 a <> 0%R) by (intros E; apply H; apply Cnorm2_0; auto). unfold Cnorm2 in K. apply C_eq; cbn; unfold Cnorm2; field; exact K.
Qed.
Lemma input_on_register w d : on_register w (input_state (range w) d).
Proof.
  intros f g H. unfold input_state. assert (K : forall l ss, (forall q, In q l -> (q < w)%nat) -> prod_amp l ss f = prod_amp l ss g).
  { induction l as [|n l IH]; intros [|s ss] Hl; cbn [prod_amp]; auto. rewrite H by (apply Hl; left; auto). f_equal. apply IH. intros; apply Hl; right; auto. }
  assert (R : forall q, In q (range w) -> (q < w)%nat) by (intros q; apply (sched_In _ _ _ (sched_range w))).
  destruct d; [apply K; auto|apply K; auto|]. f_equal. apply idx_ext. intros i Hi. unfold pull. apply H, R, nth_In. auto.
Qed.
Lemma combine_place (qs outs : list nat) (b : asg) q n : NoDup qs -> NoDup outs -> length outs = length qs -> In (q, n) (combine qs outs) -> place qs b q = place outs b n.
Proof.
  intros N1 N2 L H. apply In_nth with (d := (0, 0)%nat) in H. destruct H as (i & Hi & E). rewrite combine_nth in E by auto. rewrite combine_length in Hi. injection E as <- <-.
  transitivity (b i); [apply (pull_place qs b i N1); lia|symmetry; apply (pull_place outs b i N2); lia].
Qed.
(** whenever a pattern implements the circuit (as transpiled patterns do, C21),
    a run of the pattern and a simulation of the circuit from the same input
    that record the same outcomes for the measurements of the circuit return
    the same state, up to a global phase, amplitude by amplitude *)
Theorem C55_pattern_and_circuit : forall ord ord' close1 close1' sel sel' g g' w l c p cl d st cst,
  (forall t n, sched (ord t n) n) -> close1 1%R = true -> (forall t n, sched (ord' t n) n) -> close1' 1%R = true ->
  circ_make w l = Ok c -> rzz_distinct l -> data_ok d w ->
  pat_ok p -> runnable (p_in p) (p_seq p) -> no_S (p_seq p) = true -> prep_ok (p_seq p) ->
  implements_circuit w p cl l (unmeasured c) ->
  sim_run ord close1 sel g p d = Ok st -> circ_simulate ord' close1' sel' g' c (Some d) = Ok cst ->
  (forall k, (k < nmeas l)%nat -> outc (s_res st) (nth k cl 0%nat) = nth k (cs_out cst) false) ->
  sv_n (b_sv (s_bk st)) = sv_n (b_sv (cs_bk cst)) /\
  exists z, phase z /\ forall j, (j < 2 ^ sv_n (b_sv (cs_bk cst)))%nat -> sv_psi (b_sv (s_bk st)) j = z * sv_psi (b_sv (cs_bk cst)) j.
Proof.
  intros ord ord' close1 close1' sel sel' g g' w l c p cl d st cst HO HC HO' HC' HM HR HD [PI PW] RN NS PP (EI & LO & LC & _ & _ & SEM) ES EC HOUT.
  assert (LR : length (range w) = w) by apply seq_length.
  pose proof (sim_run_spec ord close1 sel g p d HO HC PI PW RN NS PP) as S1. rewrite EI, LR, ES in S1. specialize (S1 HD). cbv zeta in S1.
  destruct S1 as (_ & _ & _ & N1 & Q1 & c1 & _ & A1).
  pose proof (C55_simulate ord' close1' sel' g' w l c (Some d) HO' HC' HM HR HD) as S2. cbv zeta in S2. rewrite EC in S2.
  destruct S2 as (_ & _ & _ & N2 & Q2 & c2 & W2 & A2). rewrite (alive_unmeasured w l c HM) in *.
  set (qs := unmeasured c) in *. set (n := length qs) in *. rewrite LO in *. rewrite N1, N2. split; auto.
  destruct (SEM (outc (s_res st))) as (z & Hz & SE). set (psi0 := input_state (range w) d) in *.
  assert (EO : csem (fun k => outc (s_res st) (nth k cl 0%nat)) 0 l psi0 = csem (fun k => nth k (cs_out cst) false) 0 l psi0).
  { apply Transpile.csem_ext. intros k Hk. apply HOUT. lia. }
  assert (NQ : NoDup qs) by (apply NoDup_filter, seq_NoDup).
  assert (NO : NoDup (p_out p)) by (eapply Permutation_NoDup; [apply Permutation_sym, PW|]; apply outs_of_live; auto).
  assert (C2 : c2 <> C0) by (intros ->; unfold Cnorm2 in W2; cbn in W2; lra).
  set (s := RtoC ((/ sqrt 2) ^ (length (ms_of (p_seq p)) - nmeas l))) in *.
  assert (K : forall j, (j < 2 ^ n)%nat -> sv_psi (b_sv (s_bk st)) j = c1 * z * s * Cinv c2 * sv_psi (b_sv (cs_bk cst)) j).
  { intros j Hj. pose proof (A1 (place (p_out p) (bits n j))) as B1. pose proof (A2 (place qs (bits n j))) as B2.
    replace (idx n (pull (p_out p) (place (p_out p) (bits n j)))) with j in B1.
    2: { transitivity (idx n (bits n j)); [symmetry; apply idx_bits; auto|]. apply idx_ext. intros i Hi. symmetry. apply pull_place; auto. lia. }
    replace (idx n (fun i => place qs (bits n j) (nth i qs 0%nat))) with j in B2.
    2: { transitivity (idx n (bits n j)); [symmetry; apply idx_bits; auto|]. apply idx_ext. intros i Hi. symmetry. apply (pull_place qs (bits n j) i); auto. }
    rewrite B1, B2. rewrite (SE psi0 (input_on_register w d) (place (p_out p) (bits n j)) (place qs (bits n j))).
    - rewrite EO. set (y := csem _ 0 l psi0 _). transitivity (c1 * z * s * (Cinv c2 * c2) * y); [rewrite Cinv_l by auto; ring|ring].
    - intros q x Hx. apply combine_place; auto. }
  exists (c1 * z * s * Cinv c2). split; [|exact K]. set (k := c1 * z * s * Cinv c2) in *.
  assert (EQ : sqnorm n (rep n (sv_psi (b_sv (s_bk st)))) = (Cnorm2 k * sqnorm n (rep n (sv_psi (b_sv (cs_bk cst)))))%R).
  { rewrite <- sqnorm_scale. apply sqnorm_ext. intros f. unfold rep. apply K. apply idx_lt. }
  rewrite Q1, Q2 in EQ. unfold phase. lra.
Qed.
Print Assumptions C55_pattern_and_circuit.

(** * Transpiled patterns *)
(** the commands of transpiled patterns: nodes are prepared in |+>, and there is
    no shift command *)
Definition plain_cmd (c : cmd) : Prop := match c with CN _ (SVec _) | CS _ _ => False | _ => True end.
Lemma plain_ok l : Forall plain_cmd l -> no_S l = true /\ prep_ok l.
Proof.
  intros H. rewrite Forall_forall in H. split.
  - unfold no_S. apply forallb_forall. intros c Hc. apply H in Hc. destruct c; auto.
  - intros n v Hc. apply H in Hc. destruct Hc.
Qed.
Lemma rfold_keep {A B} (f : A -> B -> res A) (P : A -> Prop) l : (forall a b a', P a -> f a b = Ok a' -> P a') -> forall a a', P a -> rfold f l a = Ok a' -> P a'.
Proof.
  intros HF. induction l as [|b l IH]; intros a a' HP H; cbn [rfold] in H; [injection H as <-; auto|]. destruct (f a b) as [a1|] eqn:E; [|discriminate]. cbn [rbind] in H. eapply IH; [|exact H]. eapply HF; eauto.
Qed.
Lemma pat_add_seq p c : p_seq (pat_add p c) = p_seq p ++ [c].
Proof. destruct c; auto. Qed.
Lemma pat_extend_seq l : forall p, p_seq (pat_extend p l) = p_seq p ++ l.
Proof.
  induction l as [|c l IH]; intros p; cbn; [rewrite app_nil_r; auto|]. change (fold_left pat_add l (pat_add p c)) with (pat_extend (pat_add p c) l). rewrite IH, pat_add_seq, <- app_assoc. auto.
Qed.
Lemma reorder_seq p outs p' : reorder_output_nodes p outs = Ok p' -> p_seq p' = p_seq p /\ p_in p' = p_in p /\ p_out p' = outs /\ assert_permutation (p_out p) outs = Ok tt.
Proof.
  unfold reorder_output_nodes. destruct (assert_permutation (p_out p) outs) as [[]|]; [|discriminate]. intros H. injection H as <-. auto.
Qed.
Lemma to_pattern_plain it xz o p : xz_to_pattern it xz o = Ok p -> Forall plain_cmd (p_seq p).
Proof.
  unfold xz_to_pattern. set (e := match o with None => _ | Some _ => _ end). destruct e as [order|]; [|discriminate]. cbn [rbind].
  destruct (Flow.rmap (node_cmds it xz) order) as [ms|] eqn:E; [|discriminate]. cbn [rbind]. intros H. apply reorder_seq in H. destruct H as (-> & _). rewrite pat_extend_seq. cbn [p_seq pat_new app].
  assert (HM : Forall plain_cmd (concat ms)).
  { revert ms E. induction order as [|u order IH]; intros ms E; cbn in E; [injection E as <-; constructor|].
    unfold node_cmds at 1 in E. destruct (of_opt EKey (dget (og_meas (xz_og xz)) u)) as [m|]; [|discriminate]. cbn [rbind] in E.
    destruct (Flow.rmap (node_cmds it xz) order) as [bs|]; [|discriminate]. cbn [rbind] in E. injection E as <-. cbn [concat]. apply Forall_app. split; [|apply IH; auto].
    constructor; [exact I|]. apply Forall_app. split; apply Forall_forall; intros c Hc; apply in_map_iff in Hc; destruct Hc as (x & <- & _); exact I. }
  repeat (apply Forall_app; split); auto; apply Forall_forall; intros c Hc; apply in_map_iff in Hc; destruct Hc as (x & <- & _); exact I.
Qed.
Lemma space_plain st nbs p : (forall n s, In (n, s) (sp_n st) -> s = SPlus) -> space_opt st nbs = Ok p -> Forall plain_cmd (p_seq p).
Proof.
  intros HN H. unfold space_opt in H. destruct (space_cmds st nbs) as [l|] eqn:E; [|discriminate]. cbn [rbind] in H. apply reorder_seq in H. destruct H as (-> & _). rewrite pat_extend_seq. cbn [p_seq pat_new app].
  set (P := fun a : list cmd * nset => Forall plain_cmd (fst a)).
  assert (EA : forall a n a', P a -> ensure_active st a n = Ok a' -> P a').
  { intros a n a' HP HE. unfold ensure_active in HE. destruct (mem n (snd a)); [injection HE as <-; auto|]. destruct (dget (rev (sp_n st)) n) as [s|] eqn:D; [|discriminate]. cbn [rbind] in HE. injection HE as <-.
    unfold P. cbn [fst]. apply Forall_app. split; auto. constructor; auto. apply dget_In, in_rev, HN in D. subst s. exact I. }
  assert (EN : forall done a n a', P a -> ensure_nb st nbs done a n = Ok a' -> P a').
  { intros done a n a' HP HE. unfold ensure_nb in HE. destruct (ensure_active st a n) as [a1|] eqn:E1; [|discriminate]. cbn [rbind] in HE. apply EA in E1; auto. destruct (negb (mem n (sp_nodes st))); [discriminate|].
    revert HE. apply rfold_keep; auto. clear - EA. intros a k a' HP HE. destruct (mem k done); [injection HE as <-; auto|]. destruct (ensure_active st a k) as [a2|] eqn:E2; [|discriminate]. cbn [rbind] in HE. injection HE as <-.
    apply EA in E2; auto. unfold P in *. cbn [fst]. apply Forall_app. split; auto. constructor; auto. exact I. }
  unfold space_cmds in E. destruct (has_loop st); [discriminate|].
  destruct (rfold (sp_step_m st nbs) (sp_m st) ([], of_list (sp_in st), sempty)) as [x1|] eqn:E1; [|discriminate]. cbn [rbind] in E.
  destruct (rfold (sp_step_out st nbs) (sp_out st) x1) as [x2|] eqn:E2; [|discriminate]. cbn [rbind] in E. injection E as <-. change (P (fst x2)).
  assert (P1 : P (fst x1)).
  { revert E1. apply (rfold_keep _ (fun x => P (fst x))); [|constructor]. intros [a done] m x' HP HE. unfold sp_step_m in HE. destruct (ensure_nb st nbs done a (mc_node m)) as [a1|] eqn:EE; [|discriminate]. cbn [rbind] in HE. injection HE as <-.
    apply EN in EE; auto. unfold P in *. cbn [fst]. apply Forall_app. split; auto. constructor; auto. exact I. }
  revert E2. apply (rfold_keep _ (fun x => P (fst x))); [|exact P1]. intros [a done] m x' HP HE. unfold sp_step_out in HE. destruct (ensure_nb st nbs done a m) as [a1|] eqn:EE; [|discriminate]. cbn [rbind] in HE. injection HE as <-.
  apply EN in EE; auto. unfold P in *. cbn [fst]. apply Forall_app. split; auto. unfold out_cmds. repeat (apply Forall_app; split).
  - destruct (dget_ne (sp_z st) m); constructor; auto; exact I.
  - destruct (dget_ne (sp_x st) m); constructor; auto; exact I.
  - destruct (dget (sp_c st) m); constructor; auto; exact I.
Qed.
Lemma noswap_plain it en nb nrm c p cl : transpile_noswap it en nb nrm c = Ok (p, cl) -> Forall plain_cmd (p_seq p).
Proof.
  unfold transpile_noswap. destruct (transpile_to_causalflow it en nrm c) as [[f dcl]|]; [|discriminate]. cbn [rbind fst snd]. unfold tflow_to_pattern.
  destruct (cf_to_xz f) as [xz|]; [|discriminate]. cbn [rbind]. destruct (xz_to_pattern it xz None) as [p1|] eqn:E1; [|discriminate]. cbn [rbind].
  destruct (from_pattern p1) as [st|] eqn:E2; [|discriminate]. cbn [rbind]. destruct (space_opt st (nb st)) as [q|] eqn:E3; [|discriminate]. cbn [rbind]. intros H. injection H as <- _.
  rewrite pat_extend_seq. apply Forall_app. split.
  - eapply space_plain; [|exact E3]. intros n s Hn. apply from_pattern_inv in E2. destruct E2 as [_ HI]. rewrite (si_n _ _ _ HI) in Hn. apply to_pattern_plain in E1. rewrite Forall_forall in E1.
    unfold ns_of in Hn. apply in_flat_map in Hn. destruct Hn as (x & Hx & K). apply E1 in Hx. destruct x; try (destruct K; fail). destruct K as [K|[]]. injection K as -> ->. destruct s; auto. destruct Hx.
  - unfold cl_cmds. apply Forall_forall. intros x Hx. apply in_map_iff in Hx. destruct Hx as (y & <- & _). exact I.
Qed.

Lemma plain_rzz l : Forall (fun i => NoDup (iqubits i) /\ forall q, i <> II q) l -> rzz_distinct l.
Proof. intros H t c a Hi E. subst t. rewrite Forall_forall in H. apply H in Hi. destruct Hi as [N _]. cbn in N. inversion N as [|? ? K _]; subst. apply K. left. auto. Qed.
(** runs of [p] and simulations of [c] from the same input that agree on the
    outcomes of the measurements of the circuit (the k-th one being that of the
    node [cl[k]]) end in the same state up to a global phase *)
Definition same_simulation (w : nat) (l : list instr) (c : circuit) (p : pattern) (cl : list nat) : Prop :=
  forall ord ord' close1 close1' sel sel' g g' d st cst,
  (forall t n, sched (ord t n) n) -> close1 1%R = true -> (forall t n, sched (ord' t n) n) -> close1' 1%R = true -> data_ok d w ->
  sim_run ord close1 sel g p d = Ok st -> circ_simulate ord' close1' sel' g' c (Some d) = Ok cst ->
  (forall k, (k < nmeas l)%nat -> outc (s_res st) (nth k cl 0%nat) = nth k (cs_out cst) false) ->
  sv_n (b_sv (s_bk st)) = sv_n (b_sv (cs_bk cst)) /\
  exists z, phase z /\ forall j, (j < 2 ^ sv_n (b_sv (cs_bk cst)))%nat -> sv_psi (b_sv (s_bk st)) j = z * sv_psi (b_sv (cs_bk cst)) j.
Theorem C55_transpile_without_swaps : forall it en nb nrm w l c, iter_ok it -> enum_ok en -> nb_ok nb -> nrm_ok nrm ->
  circ_make w l = Ok c -> Forall (fun i => NoDup (iqubits i) /\ forall q, i <> II q) l ->
  exists p cl, transpile_noswap it en nb nrm c = Ok (p, cl) /\ length cl = nmeas l /\ same_simulation w l c p cl.
Proof.
  intros it en nb nrm w l c H1 H2 H3 H4 H5 H6. destruct (transpile_noswap_sem it en nb nrm w l c H1 H2 H3 H4 H5 H6) as (p & cl & A & B & PO & R & D & F & G & K & S).
  exists p, cl. split; auto. split; auto. destruct (plain_ok _ (noswap_plain _ _ _ _ _ _ _ A)) as [NS PP].
  intros ord ord' close1 close1' sel sel' g g' d st cst HO HC HO' HC' HD ES EC HOUT.
  eapply (C55_pattern_and_circuit ord ord' close1 close1' sel sel' g g' w l c p cl d st cst); eauto using plain_rzz.
  - apply check_runnability_spec. auto.
  - split; auto. split; auto. split; auto. split; auto. split; [intros n Hn; apply K; auto|exact S].
Qed.
Print Assumptions C55_transpile_without_swaps.
Lemma transpile_pat_ok it en nb nrm w l c p bits : iter_ok it -> enum_ok en -> nb_ok nb -> nrm_ok nrm ->
  circ_make w l = Ok c -> Forall (fun i => NoDup (iqubits i) /\ forall q, i <> II q) l -> transpile it en nb nrm c = Ok (p, bits) -> pat_ok p /\ Forall plain_cmd (p_seq p).
Proof.
  intros H1 H2 H3 H4 H5 H6 T. unfold transpile in T. destruct (transpile_swaps_made w l c H5 H6) as (c' & outs & mi & E & HI & M & P). rewrite E in T. cbn [rbind fst snd] in T.
  destruct (transpile_noswap_sem it en nb nrm w (c_instr c') c' H1 H2 H3 H4 M P) as (p0 & cl & T0 & _ & [PI PW] & R & _). rewrite T0 in T. cbn [rbind fst snd] in T.
  destruct (swap_output_nodes outs (p_out p0)) as [ns|]; [|discriminate]. cbn [rbind] in T. destruct (reorder_output_nodes p0 ns) as [p1|] eqn:RO; [|discriminate]. cbn [rbind] in T.
  destruct (swap_classical_outputs outs cl) as [bs|]; [|discriminate]. cbn [rbind] in T. injection T as <- _. apply reorder_seq in RO. destruct RO as (R1 & R2 & R3 & R4).
  rewrite R1. split; [|eapply noswap_plain; eauto]. split; [rewrite R2; auto|]. unfold pat_wf. rewrite R1, R2, R3. apply assert_permutation_spec in R4. destruct R4 as [N1 N2].
  eapply perm_trans; [|exact PW]. apply NoDup_Permutation; auto. eapply Permutation_NoDup; [apply Permutation_sym, PW|]. apply outs_of_live; auto. apply check_runnability_spec; auto.
Qed.
Theorem C55_transpile : forall it en nb nrm w l c, iter_ok it -> enum_ok en -> nb_ok nb -> nrm_ok nrm ->
  circ_make w l = Ok c -> Forall (fun i => NoDup (iqubits i) /\ forall q, i <> II q) l ->
  (forall c' outs, transpile_swaps c = Ok (c', outs) -> forall q i, nth_error outs q = Some (OQubit i) -> exists j, nth_error outs i = Some (OQubit j)) ->
  exists p cl bits, transpile it en nb nrm c = Ok (p, bits) /\
    (forall q n, In (q, n) (combine (measured_qubits c) bits) <-> exists k, nth_error (mtargets l) k = Some q /\ nth_error cl k = Some n) /\
    same_simulation w l c p cl.
Proof.
  intros it en nb nrm w l c H1 H2 H3 H4 H5 H6 H7. destruct (C21_transpile it en nb nrm w l c H1 H2 H3 H4 H5 H6 H7) as (p & cl & bits & T & R & IM & _ & B).
  exists p, cl, bits. split; auto. split; auto. destruct (transpile_pat_ok it en nb nrm w l c p bits H1 H2 H3 H4 H5 H6 T) as [PO PL]. destruct (plain_ok _ PL) as [NS PP].
  intros ord ord' close1 close1' sel sel' g g' d st cst HO HC HO' HC' HD ES EC HOUT.
  eapply (C55_pattern_and_circuit ord ord' close1 close1' sel sel' g g' w l c p cl d st cst); eauto using plain_rzz.
  apply check_runnability_spec. auto.
Qed.
Print Assumptions C55_transpile.
Lemma range_combine w (l : list nat) q n : length l = w -> nth_error l q = Some n -> In (q, n) (combine (range w) l).
Proof.
  intros L H. assert (Hq : (q < w)%nat) by (rewrite <- L; apply nth_error_Some; congruence).
  replace (q, n) with (nth q (combine (range w) l) (0, 0)%nat); [apply nth_In; rewrite combine_length; unfold range; rewrite seq_length; lia|].
  rewrite combine_nth by (unfold range; rewrite seq_length; auto). unfold range. rewrite seq_nth by auto. f_equal. apply nth_error_nth. auto.
Qed.
(** without measurement: the simulation of the circuit succeeds, and every run
    of its pattern that succeeds returns the same state up to a global phase *)
Theorem C55_transpile_unitary : forall it en nb nrm w l c, iter_ok it -> enum_ok en -> nb_ok nb -> nrm_ok nrm ->
  circ_make w l = Ok c -> Forall (fun i => NoDup (iqubits i) /\ forall q, i <> II q) l -> (forall i, In i l -> is_meas i = false) ->
  exists p, transpile it en nb nrm c = Ok (p, []) /\
    forall ord ord' close1 close1' sel sel' g g' d st,
    (forall t n, sched (ord t n) n) -> close1 1%R = true -> (forall t n, sched (ord' t n) n) -> close1' 1%R = true -> data_ok d w ->
    sim_run ord close1 sel g p d = Ok st ->
    exists cst z, circ_simulate ord' close1' sel' g' c (Some d) = Ok cst /\ sv_n (b_sv (s_bk st)) = w /\ sv_n (b_sv (cs_bk cst)) = w /\
      phase z /\ forall j, (j < 2 ^ w)%nat -> sv_psi (b_sv (s_bk st)) j = z * sv_psi (b_sv (cs_bk cst)) j.
Proof.
  intros it en nb nrm w l c H1 H2 H3 H4 H5 H6 NM.
  assert (N0 : nmeas l = 0%nat).
  { clear - NM. unfold nmeas. induction l as [|i l IH]; cbn; auto. rewrite (NM i) by (left; auto). apply IH. intros; apply NM; right; auto. }
  destruct (C21_transpile_unitary it en nb nrm w l c H1 H2 H3 H4 H5 H6) as (p & T & R & I1 & I2 & I3); [intros i q ax Hi ->; apply NM in Hi; discriminate|].
  exists p. split; auto. destruct (transpile_pat_ok it en nb nrm w l c p [] H1 H2 H3 H4 H5 H6 T) as [PO PL]. destruct (plain_ok _ PL) as [NS PP].
  assert (AL : unmeasured c = range w).
  { rewrite <- (alive_unmeasured w l c H5). unfold alive. assert (mtargets l = []) as -> by (apply length_zero_iff_nil; rewrite <- nmeas_mtargets; auto). cbn. clear. induction (range w) as [|x r IH]; cbn; auto. congruence. }
  intros ord ord' close1 close1' sel sel' g g' d st HO HC HO' HC' HD ES.
  destruct (C55_unitary ord' close1' sel' g' w l c (Some d) HO' HC' H5 (plain_rzz l H6) NM HD) as (cst & EC & _ & _ & _ & SN & _).
  destruct (C55_pattern_and_circuit ord ord' close1 close1' sel sel' g g' w l c p [] d st cst) as (Z1 & z & Z2 & Z3); auto.
  - apply plain_rzz; auto.
  - apply check_runnability_spec. auto.
  - split; auto. rewrite AL, I2, N0. split; [symmetry; apply seq_length|]. split; [auto|]. split; [constructor|]. split; [intros n []|].
    intros o. destruct (I3 o) as (z & Hz & SE). exists z. split; auto. intros psi HP f g0 HA. rewrite Nat.sub_0_r, (SE psi HP f g0).
    + rewrite csem_0 by auto. auto.
    + intros q n K. apply HA. apply range_combine; auto.
  - intros k Hk. lia.
  - exists cst, z. rewrite SN in *. split; auto.
Qed.
Print Assumptions C55_transpile_unitary.

(** * Non-vacuity *)
(** an example with every kind of instruction, and one without measurement *)
Definition ex_sim (a b : R) : list instr := [IH 0; ICNOT 1 0; ISWAP 1 2; IRZZ 2 0 a; IM 1 AY; ICZ 0 2; IRX 0 b; ISWAP 0 2; IM 0 AZ].
Example C55_case : forall a b ord close1 sel g, (forall t n, sched (ord t n) n) -> close1 1%R = true -> exists c, circ_make 3 (ex_sim a b) = Ok c /\ alive 3 (ex_sim a b) = [2]%nat /\
  match circ_simulate ord close1 sel g c None with
  | Ok st => length (cs_out st) = 2%nat /\ sv_n (b_sv (cs_bk st)) = 1%nat
  | Err e => cfails sel g 3 (input_state (range 3) (DState SPlus)) (ex_sim a b) e
  end.
Proof.
  intros a b ord close1 sel g HO HC. destruct (circ_make 3 (ex_sim a b)) as [c|] eqn:E; [|vm_compute in E; discriminate]. exists c. split; [reflexivity|]. split; [reflexivity|].
  assert (HR : rzz_distinct (ex_sim a b)) by (apply plain_rzz, plain_b; reflexivity).
  assert (HD : data_ok (DState SPlus) 3) by exact vnorm2_plus.
  pose proof (C55_simulate ord close1 sel g 3 _ c None HO HC E HR HD) as S. cbv zeta in S.
  destruct (circ_simulate ord close1 sel g c None) as [st|e]; [|exact S]. destruct S as (_ & S1 & _ & S2 & _). split; [rewrite S1; reflexivity|rewrite S2; reflexivity].
Qed.
Example C55_unitary_case : forall a b ord close1 sel g, (forall t n, sched (ord t n) n) -> close1 1%R = true -> exists c st z,
  circ_make 3 (ex_circuit a b) = Ok c /\ circ_simulate ord close1 sel g c None = Ok st /\ z <> C0 /\
  forall f, sv_psi (b_sv (cs_bk st)) (idx 3 f) = z * fold_left (fun phi i => gate i phi) (ex_circuit a b) (input_state (range 3) (DState SPlus)) f.
Proof.
  intros a b ord close1 sel g HO HC. destruct (circ_make 3 (ex_circuit a b)) as [c|] eqn:E; [|vm_compute in E; discriminate].
  destruct (C55_unitary ord close1 sel g 3 (ex_circuit a b) c None HO HC E) as (st & S1 & _ & _ & _ & _ & z & S2 & S3).
  - apply plain_rzz, plain_b; reflexivity.
  - intros i H. cbn in H. repeat (destruct H as [<-|H]; [reflexivity|]). destruct H.
  - exact vnorm2_plus.
  - exists c, st, z. auto.
Qed.
Example C55_transpile_case : forall a b, exists c p, circ_make 3 (ex_circuit a b) = Ok c /\ transpile elems (fun es => es) std_nbs (fun _ a => a) c = Ok (p, []).
Proof.
  intros a b. destruct (C21_case a b) as (c & p & E1 & E2 & _). eauto.
Qed.
