(** Property theorems: branch selectors (C33) and the simulation of a pattern on
    the state-vector backend (C38).

    Vocabulary (Simulator.v, QState.v): [sim_run ord close1 sel g p d] runs the
    pattern [p] with branch selector [sel], random values [g] and input [d],
    [ord] being the order in which the iterations of parallel kernel loops run;
    [den (seq_ops o l) psi0] is the (unnormalised) state obtained from [psi0] by
    the commands [l] when the measurement of node [n] has outcome [o n];
    [wt l Psi] is its squared norm, the register being the nodes [l];
    [outs_of inp l] are the nodes alive after [l]. *)
From Coq Require Import Reals Lra Arith List Bool Lia Permutation FunctionalExtensionality.
From Verif Require Import Cplx Mat2 Fundamentals CliffordDb Clifford NSet Measure QState Pattern NodeIndex Statevec Simulator.
Import ListNotations.
Local Open Scope C_scope.

(** * C33 *)
(** a fixed selector returns the requested outcome whatever the state, and draws
    nothing; for a node without predefined outcome it asks the default selector
    or raises ValueError *)
Theorem C33_fixed : forall results default g k n p0,
  sel_measure (SelFixed results default) g k n p0 =
  match results n, default with
  | Some b, _ => Ok (b, k)
  | None, Some d => sel_measure d g k n p0
  | None, None => Err EValue
  end.
Proof. intros. simpl. destruct (results n), default; reflexivity. Qed.
Print Assumptions C33_fixed.
Theorem C33_const : forall b g k n p0, sel_measure (SelConst b) g k n p0 = Ok (b, k).
Proof. reflexivity. Qed.
Print Assumptions C33_const.
(** the random selector returns 0 exactly when the value drawn is at most the
    probability of outcome 0 (an event of probability p0 for a draw uniform in
    [0,1)), and consumes one draw *)
Theorem C33_random : forall g k n p0, exists b, sel_measure (SelRandom true) g k n p0 = Ok (b, S k) /\ (b = false <-> (r_random g k <= p0)%R).
Proof.
  intros. simpl. eexists. split; [reflexivity|]. destruct (Rlt_dec p0 (r_random g k)) as [H|H]; split; intros; try discriminate; auto; lra.
Qed.
Print Assumptions C33_random.
(** on any state, for any measurement: the two expectation values are real and
    non-negative and sum to the squared norm, hence to one on a normalised state *)
Lemma proj_sum m x y : (Cnorm2 (Cconj (v0 (mvec m false)) * x + Cconj (v1 (mvec m false)) * y)
  + Cnorm2 (Cconj (v0 (mvec m true)) * x + Cconj (v1 (mvec m true)) * y) = Cnorm2 x + Cnorm2 y)%R.
Proof.
  assert (Q : forall v, Cnorm2 (Cconj (v0 v) * x + Cconj (v1 v) * y) =
    re (Cconj x * (m00 (vouter v v) * x + m01 (vouter v v) * y) + Cconj y * (m10 (vouter v v) * x + m11 (vouter v v) * y))).
  { intros [[a b] [c d]]. destruct x, y. unfold Cnorm2. simpl. ring. }
  rewrite !Q, !mvec_proj. unfold meas_proj. destruct (to_bloch m) as [a p]. destruct (plane_polar p a) as [[vx vy] vz].
  destruct x, y. unfold Cnorm2. simpl. field.
Qed.
Theorem C33_probabilities : forall blocks halves psi n q m, (q < n)%nat -> sched blocks (2 ^ q) -> sched halves (2 ^ (n - q - 1)) ->
  let e b := expectation_single_jit blocks halves psi (meas_proj m b) n q in
  im (e false) = 0%R /\ im (e true) = 0%R /\ (0 <= re (e false))%R /\ (0 <= re (e true))%R
  /\ (re (e false) + re (e true) = sqnorm n (rep n psi))%R.
Proof.
  intros blocks halves psi n q m Hq SB SH e.
  assert (E : forall b, e b = RtoC (sqnorm (n - 1) (mbranch (mvec m b) q (rep n psi)))).
  { intros b. unfold e. rewrite <- mvec_proj. apply expectation_branch; auto. }
  rewrite !E. cbn [re im RtoC]. do 2 (split; [reflexivity|]). do 2 (split; [apply sqnorm_nonneg|]).
  rewrite (sqnorm_split n q) by auto. unfold sqnorm, rbsum. rewrite <- !bsum_Radd. apply bsum_ext. intros g. unfold mbranch. apply proj_sum.
Qed.
Print Assumptions C33_probabilities.
Corollary C33_probabilities_normalised : forall blocks halves psi n q m, (q < n)%nat -> sched blocks (2 ^ q) -> sched halves (2 ^ (n - q - 1)) ->
  sqnorm n (rep n psi) = 1%R ->
  let p b := re (expectation_single_jit blocks halves psi (meas_proj m b) n q) in
  (p false + p true = 1 /\ 0 <= p false <= 1 /\ 0 <= p true <= 1)%R.
Proof.
  intros blocks halves psi n q m Hq SB SH N p. destruct (C33_probabilities blocks halves psi n q m Hq SB SH) as (_ & _ & A & B & S).
  rewrite N in S. unfold p. lra.
Qed.
Print Assumptions C33_probabilities_normalised.
(** the random selector never returns 1 when the probability of 0 is one *)
Theorem C33_certain_zero : forall g k n p0, (r_random g k < 1)%R -> (1 <= p0)%R -> sel_measure (SelRandom true) g k n p0 = Ok (false, S k).
Proof. intros. simpl. destruct (Rlt_dec p0 (r_random g k)); auto. lra. Qed.
Print Assumptions C33_certain_zero.
(** but it returns the impossible outcome 0 of a certain measurement of 1 when
    the value drawn is exactly 0.0, which numpy's random() can return: the
    comparison is random() > p0 rather than random() >= p0 *)
Theorem C33_impossible_outcome_refuted :
  ~ (forall g k n p0, (0 <= r_random g k < 1)%R -> p0 = 0%R -> sel_measure (SelRandom true) g k n p0 = Ok (true, S k)).
Proof.
  intros H. specialize (H (Rng (fun _ => 0%R) (fun _ => false)) 0%nat 0%nat 0%R). simpl in H. destruct (Rlt_dec 0 0); [lra|].
  assert (0 <= 0 < 1)%R by lra. specialize (H H0 eq_refl). discriminate.
Qed.
Print Assumptions C33_impossible_outcome_refuted.

(** * C38 *)
(** any branch selector: the run ends, with qubits in the order of the output
    nodes, in the normalised state of the branch of the recorded outcomes, and
    these outcomes are those the selector returns when it is asked, in program
    order, with the exact conditional probability of outcome 0.  A run only fails
    at a measurement where the selector fails, or returns an outcome of
    conditional probability at most 2e-10 (the tolerance of project_qubit). *)
Theorem C38_simulation : forall ord close1 sel g p d,
  (forall t n, sched (ord t n) n) -> close1 1%R = true ->
  NoDup (p_in p) -> pat_wf p -> runnable (p_in p) (p_seq p) -> no_S (p_seq p) = true -> prep_ok (p_seq p) ->
  data_ok d (length (p_in p)) ->
  let psi0 := input_state (p_in p) d in
  match sim_run ord close1 sel g p d with
  | Ok st => let o := outc (s_res st) in let outs := p_out p in let n := length outs in
      selected sel g (p_in p) psi0 (p_seq p) o (s_rng st)
      /\ (forall k, (exists b, dget (s_res st) k = Some b) <-> measured_in (p_seq p) k)
      /\ ni_list (b_ni (s_bk st)) = outs /\ sv_n (b_sv (s_bk st)) = n
      /\ sqnorm n (rep n (sv_psi (b_sv (s_bk st)))) = 1%R
      /\ exists c, (Cnorm2 c * wt outs (den (seq_ops o (p_seq p)) psi0) = 1)%R
         /\ forall f, sv_psi (b_sv (s_bk st)) (idx n (fun i => f (nth i outs 0%nat))) = c * den (seq_ops o (p_seq p)) psi0 f
  | Err e => exists a n m s t b o k p0, p_seq p = a ++ CM n m s t :: b /\ selected sel g (p_in p) psi0 a o k
      /\ prob0 (p_in p) psi0 a (CM n m s t) o n p0
      /\ (sel_measure sel g k n p0 = Err e
          \/ e = ERuntime /\ exists x k', sel_measure sel g k n p0 = Ok (x, k')
             /\ (wt (outs_of (p_in p) (a ++ [CM n m s t])) (den (seq_ops (with_out o n x) (a ++ [CM n m s t])) psi0)
                 <= 2 * atol * wt (outs_of (p_in p) a) (den (seq_ops (with_out o n x) a) psi0))%R)
  end.
Proof. intros. apply sim_run_spec; auto. Qed.
Print Assumptions C38_simulation.

Lemma selected_fixed results default g inp psi0 l o k o' : (forall n, measured_in l n -> results n = Some (o' n)) ->
  selected (SelFixed results default) g inp psi0 l o k -> forall n, measured_in l n -> o n = o' n.
Proof.
  intros H S. induction S as [o|l c o k S IH HC|l n m s t o k p0 k' S IH HP HM]; intros x Hx.
  - destruct Hx as (? & ? & ? & []).
  - apply IH; [intros y Hy; apply H, measured_snoc; auto|]. apply measured_app in Hx. destruct Hx as [Hx|Hx]; auto.
    apply measured_one in Hx. destruct Hx as (? & ? & ? & ->). destruct (HC _ _ _ _ eq_refl).
  - apply measured_app in Hx. destruct Hx as [Hx|Hx]; [apply IH; auto; intros y Hy; apply H, measured_snoc; auto|].
    apply measured_one in Hx. destruct Hx as (? & ? & ? & E). injection E as -> _ _ _.
    assert (results x = Some (o' x)) as ER by (apply H, measured_app; right; apply measured_one; eauto).
    simpl in HM. rewrite ER in HM. congruence.
Qed.
(** fixed branch: if the requested outcomes [o] all have conditional probability
    above the tolerance, the run ends in the normalised state of the branch [o] *)
Theorem C38_fixed_branch : forall ord close1 results default g p d o,
  (forall t n, sched (ord t n) n) -> close1 1%R = true ->
  NoDup (p_in p) -> pat_wf p -> runnable (p_in p) (p_seq p) -> no_S (p_seq p) = true -> prep_ok (p_seq p) ->
  data_ok d (length (p_in p)) ->
  (forall n, measured_in (p_seq p) n -> results n = Some (o n)) ->
  let psi0 := input_state (p_in p) d in
  (forall a n m s t b, p_seq p = a ++ CM n m s t :: b ->
     wt (outs_of (p_in p) (a ++ [CM n m s t])) (den (seq_ops o (a ++ [CM n m s t])) psi0)
     > 2 * atol * wt (outs_of (p_in p) a) (den (seq_ops o a) psi0))%R ->
  exists st, sim_run ord close1 (SelFixed results default) g p d = Ok st
    /\ (forall n, measured_in (p_seq p) n -> dget (s_res st) n = Some (o n))
    /\ ni_list (b_ni (s_bk st)) = p_out p /\ sv_n (b_sv (s_bk st)) = length (p_out p)
    /\ exists c, (Cnorm2 c * wt (p_out p) (den (seq_ops o (p_seq p)) psi0) = 1)%R
       /\ forall f, sv_psi (b_sv (s_bk st)) (idx (length (p_out p)) (fun i => f (nth i (p_out p) 0%nat))) = c * den (seq_ops o (p_seq p)) psi0 f.
Proof.
  intros ord close1 results default g p d o HO HC ND HW HR HS HP HD HF psi0 HB.
  pose proof (C38_simulation ord close1 (SelFixed results default) g p d HO HC ND HW HR HS HP HD) as T. cbv zeta in T. fold psi0 in T.
  destruct (sim_run ord close1 (SelFixed results default) g p d) as [st|e].
  - destruct T as (SEL & RES & L & N & NRM & c & C1 & C2). exists st. split; auto.
    pose proof (selected_fixed _ _ _ _ _ _ _ _ o HF SEL) as EO.
    assert (ES : seq_ops (outc (s_res st)) (p_seq p) = seq_ops o (p_seq p)) by (apply (seq_ops_ext' (p_in p)); auto).
    rewrite ES in C1, C2. split; [|split; [auto|split; [auto|exists c; auto]]].
    intros n Hn. destruct (proj2 (RES n) Hn) as (b & Hb). specialize (EO n Hn). unfold outc in EO. rewrite Hb in EO. congruence.
  - exfalso. destruct T as (a & n & m & s & t & b & o1 & k & p0 & E & SEL & _ & F).
    assert (Mn : measured_in (p_seq p) n) by (exists m, s, t; rewrite E; apply in_or_app; simpl; auto).
    assert (MA : forall x, measured_in a x -> measured_in (p_seq p) x).
    { intros x (? & ? & ? & Hx). do 3 eexists. rewrite E. apply in_or_app. left. eauto. }
    assert (HF' : forall x, measured_in a x -> results x = Some (o x)) by (intros x Hx; auto).
    pose proof (selected_fixed _ _ _ _ _ _ _ _ o HF' SEL) as EO.
    simpl in F. rewrite (HF n Mn) in F. destruct F as [F|(_ & x & k' & F & G)]; [discriminate|]. injection F as <- _.
    assert (RA : runnable (p_in p) (a ++ [CM n m s t])).
    { intros x c y Exy. apply (HR x c (y ++ b)). rewrite E. change (CM n m s t :: b) with ([CM n m s t] ++ b). rewrite app_assoc, Exy, <- app_assoc. reflexivity. }
    pose proof RA as RA'. apply runnable_snoc in RA'. destruct RA' as [RA1 _].
    rewrite (seq_ops_ext' (p_in p) (a ++ [CM n m s t]) (with_out o1 n (o n)) o RA) in G.
    2:{ intros x Hx. unfold with_out. destruct (Nat.eqb_spec n x) as [->|NE]; auto. apply measured_app in Hx. destruct Hx as [Hx|Hx]; auto.
        apply measured_one in Hx. destruct Hx as (? & ? & ? & Hx). congruence. }
    rewrite (seq_ops_ext' (p_in p) a (with_out o1 n (o n)) o RA1) in G.
    2:{ intros x Hx. unfold with_out. destruct (Nat.eqb_spec n x) as [->|NE]; auto. }
    specialize (HB a n m s t b E). lra.
Qed.
Print Assumptions C38_fixed_branch.

(** ** A concrete case: the Hadamard pattern on input |+>, both branches *)
Definition hadamard : pattern := pat_extend (pat_new [0%nat])
  [CN 1 SPlus; CE 0 1; CM 0 (MPauli AX Plus) sempty sempty; CX 1 (sing 0)].
Lemma half_sqrt : (/ sqrt 2 * / sqrt 2 = / 2)%R.
Proof. rewrite <- Rinv_mult, sqrt_sqrt; lra. Qed.
Lemma had_w0 o : wt (outs_of [0%nat] [CN 1 SPlus; CE 0 1]) (den (seq_ops o [CN 1 SPlus; CE 0 1]) (input_state [0%nat] (DState SPlus))) = 1%R.
Proof.
  unfold wt, sqnorm, rbsum. simpl outs_of. simpl length. cbn [bsum].
  cbn [seq_ops flat_map app cmd_ops den app_op nstate_vec].
  unfold input_state. cbn [length repeat prod_amp nstate_vec].
  unfold place, upd. simpl. rewrite cis_0. pose proof half_sqrt as H. set (h := (/ sqrt 2)%R) in *.
  unfold Cnorm2. simpl. transitivity (4 * (h * h) * (h * h))%R; [ring|]. rewrite H. field.
Qed.
Lemma had_w1 o : wt (outs_of [0%nat] [CN 1 SPlus; CE 0 1; CM 0 (MPauli AX Plus) sempty sempty])
  (den (seq_ops o [CN 1 SPlus; CE 0 1; CM 0 (MPauli AX Plus) sempty sempty]) (input_state [0%nat] (DState SPlus))) = (1 / 2)%R.
Proof.
  unfold wt, sqnorm, rbsum. simpl outs_of. simpl length. cbn [bsum].
  cbn [seq_ops flat_map app cmd_ops den app_op nstate_vec].
  unfold input_state. cbn [length repeat prod_amp nstate_vec].
  assert (describe_measurement o (MPauli AX Plus) sempty sempty = MPauli AX Plus) as -> by reflexivity.
  unfold place, upd. simpl. rewrite cis_0.
  rewrite Rplus_0_l.
  assert (E : exists e, (e * e = 1)%R /\ cis (b2R (o 0%nat)) = RtoC e).
  { destruct (o 0%nat); simpl; [exists (-1)%R|exists 1%R]; (split; [ring|]); unfold cis, RtoC; rewrite ?Rmult_1_l, ?Rmult_0_l, ?cos_PI, ?sin_PI, ?cos_0, ?sin_0; reflexivity. }
  destruct E as (e & He & ->). pose proof half_sqrt as H. set (h := (/ sqrt 2)%R) in *.
  unfold Cnorm2. simpl. transitivity ((2 + 2 * (e * e)) * (h * h) * (h * h) * (h * h))%R; [ring|]. rewrite H, He. field.
Qed.
Example C38_case : forall ord close1 g o, (forall t n, sched (ord t n) n) -> close1 1%R = true ->
  exists st, sim_run ord close1 (SelFixed (fun n => Some (o n)) None) g hadamard (DState SPlus) = Ok st
    /\ dget (s_res st) 0%nat = Some (o 0%nat) /\ ni_list (b_ni (s_bk st)) = [1%nat] /\ sv_n (b_sv (s_bk st)) = 1%nat.
Proof.
  intros ord close1 g o HO HC.
  destruct (C38_fixed_branch ord close1 (fun n => Some (o n)) None g hadamard (DState SPlus) o) as (st & E & R & L & N & _); auto.
  - repeat constructor; auto.
  - apply Permutation_refl.
  - apply check_runnability_spec. reflexivity.
  - intros n v H. simpl in H. repeat (destruct H as [H|H]; [discriminate|]). destruct H.
  - apply vnorm2_plus.
  - intros a n m s t b E. change (p_seq hadamard) with [CN 1 SPlus; CE 0 1; CM 0 (MPauli AX Plus) sempty sempty; CX 1 (sing 0)] in E.
    change (p_in hadamard) with [0%nat].
    destruct a as [|x1 [|x2 [|x3 [|x4 a]]]]; simpl in E; try discriminate.
    + injection E as <- <- <- <- <- <- _. simpl app. rewrite had_w0, had_w1. unfold atol. lra.
    + destruct a; discriminate.
  - exists st. split; auto. split; auto. apply R. exists (MPauli AX Plus), sempty, sempty. simpl; auto.
Qed.

(** * C41: construction from amplitudes *)
(** without a number of qubits: a non-empty list is accepted only if it has 2^n
    entries and its norm is (close to) one, and the state has these amplitudes *)
Theorem C41_inferred : forall close1 l s, l <> [] -> sv_make_amps close1 l = Ok s ->
  length l = (2 ^ sv_n s)%nat /\ close1 (sqrt (rsum l Cnorm2)) = true /\ forall i, sv_psi s i = nth i l C0.
Proof.
  intros close1 l s Hl H. destruct l as [|x l]; [tauto|]. unfold sv_make_amps in H.
  destruct (is_pow2 (length (x :: l))) eqn:E; [|discriminate]. apply Nat.eqb_eq in E. unfold sv_make in H. rewrite Nat.eqb_refl in H.
  destruct (close1 _) eqn:C; [|discriminate]. injection H as <-. cbn [sv_n sv_psi]. auto.
Qed.
Print Assumptions C41_inferred.
(** every normalised list of 2^n amplitudes is accepted *)
Theorem C41_accepts : forall close1 l n, length l = (2 ^ n)%nat -> close1 (sqrt (rsum l Cnorm2)) = true ->
  sv_make_amps close1 l = Ok (SV (fun i => nth i l C0) n) /\ sv_make close1 (DAmps l) n = Ok (SV (fun i => nth i l C0) n).
Proof.
  intros close1 l n E H. destruct l as [|x l]; [pose proof (pow2_pos n); simpl in E; lia|].
  unfold sv_make_amps, sv_make, is_pow2. rewrite E, Nat.log2_pow2, !Nat.eqb_refl, H by lia. auto.
Qed.
Print Assumptions C41_accepts.
(** with a number of qubits the length check is missing: the list [0, 0, 1] is
    accepted for one qubit and gives the zero vector *)
Theorem C41_nqubit_refuted : ~ (forall close1 l n s, close1 1%R = true -> sv_make close1 (DAmps l) n = Ok s -> l <> [] -> length l = (2 ^ n)%nat).
Proof.
  intros H. specialize (H (fun _ => true) [C0; C0; C1] 1%nat _ eq_refl eq_refl). discriminate H. discriminate.
Qed.
Print Assumptions C41_nqubit_refuted.
Theorem C41_nqubit_zero_vector : forall close1, close1 1%R = true ->
  exists s, sv_make close1 (DAmps [C0; C0; C1]) 1 = Ok s /\ sqnorm 1 (rep 1 (sv_psi s)) = 0%R.
Proof.
  intros close1 H. unfold sv_make. simpl length. change (Nat.log2 3 =? 1)%nat with true. cbv iota.
  assert (rsum [C0; C0; C1] Cnorm2 = 1%R) as -> by (unfold rsum, Cnorm2; simpl; ring). rewrite sqrt_1, H. eexists. split; [reflexivity|].
  unfold sqnorm, rbsum, rep, Cnorm2. simpl. unfold upd. simpl. ring.
Qed.
Print Assumptions C41_nqubit_zero_vector.
Example C41_case : forall close1, close1 1%R = true -> sv_make_amps close1 [C0; C1; C0; C0] = Ok (SV (fun i => nth i [C0; C1; C0; C0] C0) 2).
Proof.
  intros close1 H. apply (C41_accepts close1 _ 2%nat); [reflexivity|].
  assert (rsum [C0; C1; C0; C0] Cnorm2 = 1%R) as -> by (unfold rsum, Cnorm2; simpl; ring). rewrite sqrt_1. auto.
Qed.
