(** Property C53: simulation on the tensor-network backend. *)
From Coq Require Import Reals Lra Arith List Bool Lia Permutation FunctionalExtensionality.
From Verif Require Import Cplx Mat2 Fundamentals CliffordDb Clifford NSet Measure QState Layer Pattern Standardize NodeIndex Statevec Density Simulator PropSim OpenGraph Flow Space SpaceHeur PropSpace PropExtract TensorNet TensorThm TensorGraph TensorRun.
Import ListNotations.
Local Open Scope C_scope.

(** * Specification (see also TensorThm.v)
    [cz_split]: the two tensors produced by the decomposition of CZ contract to
    the diagonal matrix CZ.
    [tselected sel g l o k]: the outcomes [o] of the measurements of [l] are
    those the selector returns in program order when it is asked with
    probability 1/2 (twice per measurement, the second answer being dropped).
    [tfails sel g iso l e]: at some measurement of [l] the selector raises [e],
    or the measured node is isolated in the graph (in [iso]) although a previous
    command other than N and M targets it. *)

(** the amplitudes read from the network of a run are, up to a global phase and
    the factor sqrt 2 per measurement, those of the branch selected *)
Theorem C53_run : forall czl czr sel g p es mode, cz_split czl czr ->
  NoDup (p_in p) -> pat_wf p -> runnable (p_in p) (p_seq p) -> sem_ok (p_seq p) = true -> plus_preps (p_seq p) -> edges_of p es ->
  let psi0 := input_state (p_in p) (DState SPlus) in
  match tn_run czl czr sel g p es mode (DState SPlus) with
  | Ok st => let o := outc (ts_res st) in
      tselected sel g (p_seq p) o (ts_rng st)
      /\ (forall k, (exists b, dget (ts_res st) k = Some b) <-> measured_in (p_seq p) k)
      /\ exists c, phase c /\ forall f, basis_coefficient (tb_net (ts_bk st)) (p_out p) (idx (length (p_out p)) (fun i => f (nth i (p_out p) 0%nat)))
           = Ok (c * RtoC (sqrt 2 ^ length (ms_of (p_seq p))) * den (seq_ops o (p_seq p)) psi0 f)
  | Err e => from_pattern p = Err e \/ mode = Parallel /\ is_standard false p = false /\ e = EValue
      \/ exists iso, pat_iso p es iso /\ tfails sel g iso (p_seq p) e
  end.
Proof.
  intros czl czr sel g p es mode HCZ NI WF HR HS HP HE psi0.
  pose proof (tn_run_inv czl czr sel g p es HCZ NI WF HR HS HP HE mode) as T. fold psi0 in T.
  destruct (tn_run czl czr sel g p es mode (DState SPlus)) as [st|e]; auto. destruct T as [[_ _ I1 _ (c & PH & RP)] SEL]. cbv zeta. split; auto. split; auto.
  exists c. split; auto. intros f. destruct (outs_of_live _ _ NI HR) as [ND LV].
  assert (NO : NoDup (p_out p)) by (eapply Permutation_NoDup; [apply Permutation_sym; exact WF|auto]).
  assert (LO : forall n, live (p_in p) (p_seq p) n <-> In n (p_out p)).
  { intros n. rewrite <- LV. split; apply Permutation_in; [apply Permutation_sym|]; exact WF. }
  destruct (contract_ok _ _ _ _ (p_out p) (basis_bits (length (p_out p)) (idx (length (p_out p)) (fun i => f (nth i (p_out p) 0%nat)))) f RP NO LO (basis_bits_length _ _)) as (l & El & Ec).
  { intros i Hi. apply (basis_bits_nth (length (p_out p)) (fun i => f (nth i (p_out p) 0%nat))). auto. }
  unfold basis_coefficient. rewrite El. cbn [rbind]. rewrite Ec. reflexivity.
Qed.
Print Assumptions C53_run.

Lemma rmap_ok {A B} (f : A -> res B) (h : A -> B) l : (forall a, In a l -> f a = Ok (h a)) -> rmap f l = Ok (map h l).
Proof. induction l as [|a l IH]; intros H; cbn [rmap map]; auto. rewrite (H a) by (left; auto). cbn [rbind]. rewrite IH by (intros; apply H; right; auto). reflexivity. Qed.
Lemma sqrt2_pos : (0 < sqrt 2)%R.
Proof. apply sqrt_lt_R0. lra. Qed.
Lemma Cnorm2_RtoC x : Cnorm2 (RtoC x) = (x * x)%R.
Proof. unfold Cnorm2; cbn; ring. Qed.

(** the state vector returned is the normalised state of the branch, and is nan
    exactly when the outcomes selected are impossible *)
Theorem C53_statevector : forall czl czr sel g p es mode st, cz_split czl czr ->
  NoDup (p_in p) -> pat_wf p -> runnable (p_in p) (p_seq p) -> sem_ok (p_seq p) = true -> plus_preps (p_seq p) -> edges_of p es ->
  tn_run czl czr sel g p es mode (DState SPlus) = Ok st ->
  let psi := den (seq_ops (outc (ts_res st)) (p_seq p)) (input_state (p_in p) (DState SPlus)) in
  let n := length (p_out p) in
  (wt (p_out p) psi = 0%R /\ to_statevector (tb_net (ts_bk st)) (p_out p) = Ok None) \/
  (wt (p_out p) psi <> 0%R /\ exists l c, to_statevector (tb_net (ts_bk st)) (p_out p) = Ok (Some l) /\ length l = (2 ^ n)%nat
     /\ (Cnorm2 c * wt (p_out p) psi = 1)%R /\ forall f, nth (idx n (fun i => f (nth i (p_out p) 0%nat))) l C0 = c * psi f).
Proof.
  intros czl czr sel g p es mode st HCZ NI WF HR HS HP HE ER psi n.
  pose proof (C53_run czl czr sel g p es mode HCZ NI WF HR HS HP HE) as T. cbv zeta in T. rewrite ER in T. fold psi in T. destruct T as (_ & _ & c & PH & HB).
  destruct (outs_of_live _ _ NI HR) as [ND LV].
  assert (NO : NoDup (p_out p)) by (eapply Permutation_NoDup; [apply Permutation_sym; exact WF|auto]).
  set (K := c * RtoC (sqrt 2 ^ length (ms_of (p_seq p)))) in *. fold n in HB.
  assert (EI : forall i, (i < 2 ^ n)%nat -> i = idx n (fun q => place (p_out p) (bits n i) (nth q (p_out p) 0%nat))).
  { intros x Hx. rewrite <- (idx_bits n x Hx) at 1. apply idx_ext. intros q Hq. symmetry. apply (pull_place (p_out p)); auto. }
  set (A := fun i : nat => K * psi (place (p_out p) (bits n i))).
  assert (HA : forall i, (i < 2 ^ n)%nat -> basis_coefficient (tb_net (ts_bk st)) (p_out p) i = Ok (A i)).
  { intros i Hi. rewrite (EI i Hi) at 1. apply HB. }
  assert (HF : forall f, A (idx n (fun i => f (nth i (p_out p) 0%nat))) = K * psi f).
  { intros f. assert (X := HA _ (idx_lt n (fun i => f (nth i (p_out p) 0%nat)))). rewrite HB in X. congruence. }
  unfold to_statevector. fold n. rewrite (rmap_ok _ A) by (intros i Hi; apply HA; unfold range in Hi; apply in_seq in Hi; lia). cbn [rbind].
  assert (EN : rsum (map A (range (2 ^ n))) Cnorm2 = (Cnorm2 K * wt (p_out p) psi)%R).
  { unfold rsum. rewrite (gsum_map R Rplus 0%R). rewrite <- (bsum_range R Rplus 0%R) by (intros; ring).
    change (bsum R Rplus n (fun f => Cnorm2 (A (idx n f)))) with (sqnorm n (rep n A)). apply wt_amp; auto. }
  rewrite EN. assert (PK : (0 < Cnorm2 K)%R).
  { unfold K. rewrite Cnorm2_mul, Cnorm2_RtoC. unfold phase in PH. rewrite PH. assert (0 < sqrt 2 ^ length (ms_of (p_seq p)))%R by (apply pow_lt, sqrt2_pos). nra. }
  assert (PW : (0 <= wt (p_out p) psi)%R) by apply sqnorm_nonneg.
  set (w := wt (p_out p) psi) in *. set (kk := Cnorm2 K) in *. destruct (Req_EM_T w 0) as [E0|E0].
  - left. split; auto. rewrite E0, Rmult_0_r, sqrt_0. destruct (Req_EM_T 0 0); [reflexivity|lra].
  - right. split; auto. assert (PN : (0 < kk * w)%R) by nra. pose proof (sqrt_lt_R0 _ PN) as SN. destruct (Req_EM_T (sqrt (kk * w)) 0); [lra|].
    eexists. exists (RtoC (/ sqrt (kk * w)) * K). split; [reflexivity|]. split; [rewrite !map_length; unfold range; apply seq_length|]. split.
    + rewrite Cnorm2_mul, Cnorm2_RtoC. fold kk. assert (SQ : (sqrt (kk * w) * sqrt (kk * w) = kk * w)%R) by (apply sqrt_sqrt; lra).
      set (s := sqrt (kk * w)) in *. replace (/ s * / s * kk * w)%R with ((kk * w) / (s * s))%R by (field; lra). rewrite SQ. field. nra.
    + intros f. rewrite map_map. set (F := fun x => RtoC (/ sqrt (kk * w)) * A x).
      rewrite (nth_indep _ C0 (F 0%nat)) by (rewrite map_length; unfold range; rewrite seq_length; apply idx_lt). rewrite (map_nth F). unfold range. rewrite seq_nth by apply idx_lt. unfold F. rewrite Nat.add_0_l, HF. ring.
Qed.
Print Assumptions C53_statevector.

(** ** Fixed outcomes: agreement with the state-vector backend *)
Lemma tselected_fixed results default g l o k o' : (forall n, measured_in l n -> results n = Some (o' n)) ->
  tselected (SelFixed results default) g l o k -> forall n, measured_in l n -> o n = o' n.
Proof.
  intros H S. induction S as [o|l c o k S IH HC|l n m s t o k k' S IH HM]; intros x Hx.
  - destruct Hx as (? & ? & ? & []).
  - apply IH; [intros y Hy; apply H, measured_snoc; auto|]. apply measured_app in Hx. destruct Hx as [Hx|Hx]; auto.
    apply measured_one in Hx. destruct Hx as (? & ? & ? & ->). destruct (HC _ _ _ _ eq_refl).
  - apply measured_app in Hx. destruct Hx as [Hx|Hx]; [apply IH; auto; intros y Hy; apply H, measured_snoc; auto|].
    apply measured_one in Hx. destruct Hx as (? & ? & ? & E). injection E as -> _ _ _.
    assert (results x = Some (o' x)) as ER by (apply H, measured_app; right; apply measured_one; eauto).
    destruct HM as (k1 & b2 & HM & _). simpl in HM. rewrite ER in HM. congruence.
Qed.
(** nodes measured after being the target of a command other than N and M are
    not isolated: then no run fails in the probability of an isolated node *)
Definition iso_untouched (p : pattern) (es : list (nat * nat)) : Prop :=
  forall iso a n m s t b, pat_iso p es iso -> p_seq p = a ++ CM n m s t :: b -> In n iso -> touched a n = false.
Theorem C53_fixed_branch : forall czl czr results default g p es mode o pst, cz_split czl czr ->
  NoDup (p_in p) -> pat_wf p -> runnable (p_in p) (p_seq p) -> sem_ok (p_seq p) = true -> plus_preps (p_seq p) -> edges_of p es ->
  from_pattern p = Ok pst -> (mode = Parallel -> is_standard false p = true) -> iso_untouched p es ->
  (forall n, measured_in (p_seq p) n -> results n = Some (o n)) ->
  let psi := den (seq_ops o (p_seq p)) (input_state (p_in p) (DState SPlus)) in
  let n := length (p_out p) in
  wt (p_out p) psi <> 0%R ->
  exists st l c, tn_run czl czr (SelFixed results default) g p es mode (DState SPlus) = Ok st
    /\ (forall k, measured_in (p_seq p) k -> dget (ts_res st) k = Some (o k))
    /\ to_statevector (tb_net (ts_bk st)) (p_out p) = Ok (Some l) /\ length l = (2 ^ n)%nat
    /\ (Cnorm2 c * wt (p_out p) psi = 1)%R /\ forall f, nth (idx n (fun i => f (nth i (p_out p) 0%nat))) l C0 = c * psi f.
Proof.
  intros czl czr results default g p es mode o pst HCZ NI WF HR HS HP HE EF HM HI HF psi n HW.
  pose proof (C53_run czl czr (SelFixed results default) g p es mode HCZ NI WF HR HS HP HE) as T. cbv zeta in T.
  destruct (tn_run czl czr (SelFixed results default) g p es mode (DState SPlus)) as [st|e] eqn:ER.
  - destruct T as (SEL & RES & _). pose proof (tselected_fixed _ _ _ _ _ _ o HF SEL) as EO.
    assert (ES : seq_ops (outc (ts_res st)) (p_seq p) = seq_ops o (p_seq p)) by (apply (seq_ops_ext' (p_in p)); auto).
    pose proof (C53_statevector czl czr _ g p es mode st HCZ NI WF HR HS HP HE ER) as S. cbv zeta in S. rewrite ES in S. fold psi n in S. destruct S as [[S _]|(_ & l & c & S1 & S2 & S3 & S4)]; [tauto|].
    exists st, l, c. split; auto. split; auto. intros k Hk. destruct (proj2 (RES k) Hk) as (b & Hb). specialize (EO k Hk). unfold outc in EO. rewrite Hb in EO. congruence.
  - exfalso. destruct T as [T|[(T1 & T2 & _)|(iso & T1 & a & x & m & s & t & b & o1 & k & E & SEL & F)]]; [congruence|rewrite HM in T2; [discriminate|auto]|].
    assert (Mx : measured_in (p_seq p) x) by (exists m, s, t; rewrite E; apply in_or_app; simpl; auto).
    destruct F as [F|(F1 & F2 & _)]; [|rewrite (HI iso a x m s t b T1 E F1) in F2; discriminate].
    unfold ask_fails in F. cbn [sel_measure] in F. rewrite (HF x Mx) in F. destruct F as [F|(? & ? & _ & F)]; discriminate.
Qed.
Print Assumptions C53_fixed_branch.
(** for the same outcomes, of non-zero probability above the tolerance, the
    tensor-network and the state-vector backends return the same state up to a
    global phase *)
Theorem C53_agrees : forall czl czr ord close1 results default g p es mode o pst, cz_split czl czr ->
  (forall t n, sched (ord t n) n) -> close1 1%R = true ->
  NoDup (p_in p) -> pat_wf p -> runnable (p_in p) (p_seq p) -> sem_ok (p_seq p) = true -> plus_preps (p_seq p) -> edges_of p es ->
  from_pattern p = Ok pst -> (mode = Parallel -> is_standard false p = true) -> iso_untouched p es ->
  (forall n, measured_in (p_seq p) n -> results n = Some (o n)) ->
  (forall a n m s t b, p_seq p = a ++ CM n m s t :: b ->
     wt (outs_of (p_in p) (a ++ [CM n m s t])) (den (seq_ops o (a ++ [CM n m s t])) (input_state (p_in p) (DState SPlus)))
     > 2 * atol * wt (outs_of (p_in p) a) (den (seq_ops o a) (input_state (p_in p) (DState SPlus))))%R ->
  exists st l st', tn_run czl czr (SelFixed results default) g p es mode (DState SPlus) = Ok st
    /\ to_statevector (tb_net (ts_bk st)) (p_out p) = Ok (Some l)
    /\ sim_run ord close1 (SelFixed results default) g p (DState SPlus) = Ok st'
    /\ (forall k, measured_in (p_seq p) k -> dget (ts_res st) k = dget (s_res st') k)
    /\ ni_list (b_ni (s_bk st')) = p_out p
    /\ exists c, phase c /\ forall i, (i < 2 ^ length (p_out p))%nat -> nth i l C0 = c * sv_psi (b_sv (s_bk st')) i.
Proof.
  intros czl czr ord close1 results default g p es mode o pst HCZ HO HC NI WF HR HS HP HE EF HM HI HF HB.
  assert (NS : no_S (p_seq p) = true). { unfold no_S, sem_ok in *. rewrite forallb_forall in *. intros c Hc. apply HS in Hc. destruct c; auto; discriminate. }
  assert (PO : prep_ok (p_seq p)). { intros n v Hn. apply HP in Hn. discriminate. }
  destruct (C38_fixed_branch ord close1 results default g p (DState SPlus) o HO HC NI WF HR NS PO) as (st' & E' & R' & L' & N' & c' & W' & A'); auto.
  { cbn. apply vnorm2_plus. }
  set (psi := den (seq_ops o (p_seq p)) (input_state (p_in p) (DState SPlus))) in *.
  assert (HW : wt (p_out p) psi <> 0%R). { intros X. rewrite X in W'. lra. }
  destruct (C53_fixed_branch czl czr results default g p es mode o pst HCZ NI WF HR HS HP HE EF HM HI HF HW) as (st & l & c & E & R & S & LL & W & A). fold psi in W, A.
  exists st, l, st'. split; auto. split; auto. split; auto. split; [intros k Hk; rewrite R, R' by auto; auto|]. split; auto.
  assert (NC : Cnorm2 c' <> 0%R) by (intros X; rewrite X in W'; lra).
  assert (NC' : c' <> C0) by (intros ->; apply NC; unfold Cnorm2; cbn; ring).
  set (ci := RtoC (/ Cnorm2 c') * Cconj c'). assert (CI : c' * ci = C1).
  { unfold ci. apply C_eq; cbn; unfold Cnorm2 in *; field; auto. }
  clearbody ci. exists (c * ci). split.
  - unfold phase. rewrite Cnorm2_mul. assert (X : (Cnorm2 c' * Cnorm2 (ci) = 1)%R). { rewrite <- Cnorm2_mul. rewrite CI. unfold Cnorm2; cbn; ring. }
    set (w := wt (p_out p) psi) in *. set (x := Cnorm2 c) in *. set (y := Cnorm2 c') in *. set (z := Cnorm2 (ci)) in *. apply (Rmult_eq_reg_r w); auto.
    replace (x * z * w)%R with (x * w * z)%R by ring. rewrite W. replace (1 * z)%R with ((y * w) * z)%R by (rewrite W'; ring). replace (y * w * z)%R with (y * z * w)%R by ring. rewrite X. auto.
  - set (n := length (p_out p)) in *. intros i Hi. assert (NO : NoDup (p_out p)). { destruct (outs_of_live _ _ NI HR) as [ND LV]. eapply Permutation_NoDup; [apply Permutation_sym; exact WF|auto]. }
    assert (EI : i = idx n (fun q => place (p_out p) (bits n i) (nth q (p_out p) 0%nat))).
    { rewrite <- (idx_bits n i Hi) at 1. apply idx_ext. intros q Hq. symmetry. apply (pull_place (p_out p)); auto. }
    set (f := place (p_out p) (bits n i)) in EI. rewrite EI. rewrite A, A'. transitivity (c * (c' * ci) * psi f); [rewrite CI; ring|ring].
Qed.
Print Assumptions C53_agrees.

(** ** Refusals *)
(** input states other than |+> are refused *)
Theorem C53_other_input : forall czl czr sel g p es mode d b, d <> DState SPlus -> tb_init p es mode = Ok b ->
  tn_run czl czr sel g p es mode d = Err ENotImplemented.
Proof. intros czl czr sel g p es mode d b HD HB. unfold tn_run. rewrite HB. cbn [rbind]. destruct d as [[|v]| |]; cbn; auto. tauto. Qed.
Print Assumptions C53_other_input.
(** the random selector draws twice per measurement *)
Lemma tselected_random g l o k b : tselected (SelRandom b) g l o k -> k = (2 * length (ms_of l))%nat.
Proof.
  intros S. induction S as [o|l c o k S IH HC|l n m s t o k k' S IH HM]; auto.
  - unfold ms_of in *. rewrite flat_map_app, app_length, IH. destruct c; cbn; try lia. destruct (HC _ _ _ _ eq_refl).
  - unfold ms_of in *. rewrite flat_map_app, app_length. cbn [flat_map app length]. destruct HM as (k1 & b2 & H1 & H2). destruct b; cbn [sel_measure] in H1, H2; injection H1 as _ <-; injection H2 as _ <-; lia.
Qed.
Theorem C53_draws : forall czl czr b g p es mode st, cz_split czl czr ->
  NoDup (p_in p) -> pat_wf p -> runnable (p_in p) (p_seq p) -> sem_ok (p_seq p) = true -> plus_preps (p_seq p) -> edges_of p es ->
  tn_run czl czr (SelRandom b) g p es mode (DState SPlus) = Ok st -> ts_rng st = (2 * length (ms_of (p_seq p)))%nat.
Proof.
  intros czl czr b g p es mode st HCZ NI WF HR HS HP HE ER. pose proof (C53_run czl czr (SelRandom b) g p es mode HCZ NI WF HR HS HP HE) as T. cbv zeta in T. rewrite ER in T.
  destruct T as (T & _). eapply tselected_random; eauto.
Qed.
Print Assumptions C53_draws.

(** ** A decomposition of CZ, and a concrete case: the Hadamard pattern in every
    mode, for both outcomes *)
Definition ex_czl (o1 i1 b : bool) : C := if eqb o1 i1 && eqb i1 b then C1 else C0.
Definition ex_czr (b o2 i2 : bool) : C := if eqb o2 i2 then sgn (b && i2) else C0.
Example ex_cz : cz_split ex_czl ex_czr.
Proof. intros [] [] [] []; unfold ex_czl, ex_czr; cbn [eqb andb sgn]; ring. Qed.
Lemma had_edges : edges_of hadamard [(0, 1)]%nat.
Proof. intros st H. vm_compute in H. injection H as <-. unfold edge_enum. vm_compute. constructor. constructor. Qed.
Example C53_case : forall ord close1 g o mode, (forall t n, sched (ord t n) n) -> close1 1%R = true ->
  exists st l st', tn_run ex_czl ex_czr (SelFixed (fun n => Some (o n)) None) g hadamard [(0, 1)]%nat mode (DState SPlus) = Ok st
    /\ to_statevector (tb_net (ts_bk st)) (p_out hadamard) = Ok (Some l)
    /\ sim_run ord close1 (SelFixed (fun n => Some (o n)) None) g hadamard (DState SPlus) = Ok st'
    /\ dget (ts_res st) 0%nat = dget (s_res st') 0%nat
    /\ exists c, phase c /\ forall i, (i < 2)%nat -> nth i l C0 = c * sv_psi (b_sv (s_bk st')) i.
Proof.
  intros ord close1 g o mode HO HC.
  destruct (from_pattern hadamard) as [pst|e] eqn:EF; [|vm_compute in EF; discriminate].
  destruct (C53_agrees ex_czl ex_czr ord close1 (fun n => Some (o n)) None g hadamard [(0, 1)]%nat mode o pst ex_cz HO HC) as (st & l & st' & A1 & A2 & A3 & A4 & _ & A5); auto.
  - repeat constructor; auto.
  - apply Permutation_refl.
  - apply check_runnability_spec. reflexivity.
  - intros n v H. simpl in H. repeat (destruct H as [H|H]; [try discriminate; injection H; auto|]). destruct H.
  - apply had_edges.
  - intros iso a n m s t b (st & E & ->) _ H. exfalso. vm_compute in E. injection E as <-. vm_compute in H. destruct H.
  - intros a n m s t b E. change (p_seq hadamard) with [CN 1 SPlus; CE 0 1; CM 0 (MPauli AX Plus) sempty sempty; CX 1 (sing 0)] in E.
    change (p_in hadamard) with [0%nat].
    destruct a as [|x1 [|x2 [|x3 [|x4 a]]]]; simpl in E; try discriminate.
    + injection E as <- <- <- <- <- <- _. simpl app. rewrite had_w0, had_w1. unfold atol. lra.
    + destruct a; discriminate.
  - exists st, l, st'. split; auto. split; auto. split; auto. split; [|exact A5]. apply A4. exists (MPauli AX Plus), sempty, sempty. right. right. left. reflexivity.
Qed.

(** ** Probabilities
    The outcomes are drawn with probability 1/2, whatever the state: measuring in
    the X basis a node in state |+> on which no E command acts, the run may draw
    the impossible outcome 1, and the state vector is nan. *)
Definition iso_pat : pattern := pat_extend (pat_new [0%nat]) [CM 0 (MPauli AX Plus) sempty sempty].
Lemma tselected_asked sel g l o k : tselected sel g l o k -> forall n, measured_in l n -> exists k k', asked sel g n k (o n) k'.
Proof.
  intros S. induction S as [o|l c o k S IH HC|l n m s t o k k' S IH HM]; intros x Hx.
  - destruct Hx as (? & ? & ? & []).
  - apply IH. apply measured_app in Hx. destruct Hx as [Hx|Hx]; auto. apply measured_one in Hx. destruct Hx as (? & ? & ? & ->). destruct (HC _ _ _ _ eq_refl).
  - apply measured_app in Hx. destruct Hx as [Hx|Hx]; auto. apply measured_one in Hx. destruct Hx as (? & ? & ? & E). injection E as -> _ _ _. eauto.
Qed.
Theorem C53_probability_refuted : forall czl czr mode, cz_split czl czr ->
  ~ (forall g p es st, NoDup (p_in p) -> pat_wf p -> runnable (p_in p) (p_seq p) -> sem_ok (p_seq p) = true -> plus_preps (p_seq p) -> edges_of p es ->
     tn_run czl czr (SelRandom true) g p es mode (DState SPlus) = Ok st -> exists l, to_statevector (tb_net (ts_bk st)) (p_out p) = Ok (Some l)).
Proof.
  intros czl czr mode HCZ H. set (g := Rng (fun _ => (3 / 4)%R) (fun _ => false)).
  assert (H1 : NoDup (p_in iso_pat)) by (repeat constructor; auto). assert (H2 : pat_wf iso_pat) by apply Permutation_refl.
  assert (H3 : runnable (p_in iso_pat) (p_seq iso_pat)) by (apply check_runnability_spec; reflexivity). assert (H4 : sem_ok (p_seq iso_pat) = true) by reflexivity.
  assert (H5 : plus_preps (p_seq iso_pat)) by (intros n s Hn; simpl in Hn; destruct Hn as [Hn|[]]; discriminate).
  assert (H6 : edges_of iso_pat []) by (intros st E; vm_compute in E; injection E as <-; unfold edge_enum; constructor).
  pose proof (C53_run czl czr (SelRandom true) g iso_pat [] mode HCZ H1 H2 H3 H4 H5 H6) as T. cbv zeta in T.
  destruct (tn_run czl czr (SelRandom true) g iso_pat [] mode (DState SPlus)) as [st|e] eqn:ER.
  - destruct T as (SEL & _ & _). destruct (tselected_asked _ _ _ _ _ SEL 0%nat) as (k & k' & k1 & b2 & A & _); [exists (MPauli AX Plus), sempty, sempty; left; reflexivity|].
    cbn [sel_measure] in A. unfold g in A at 1. cbn [r_random] in A. destruct (Rlt_dec (1 / 2) (3 / 4)) as [_|N]; [|lra]. injection A as A _.
    pose proof (C53_statevector czl czr (SelRandom true) g iso_pat [] mode st HCZ H1 H2 H3 H4 H5 H6 ER) as S. cbv zeta in S. destruct (H g iso_pat [] st H1 H2 H3 H4 H5 H6 ER) as (l & El). destruct S as [[_ S]|[S _]]; [rewrite S in El; discriminate|]. apply S.
    unfold wt, sqnorm, rbsum. simpl p_out. simpl length. cbn [bsum]. change (p_seq iso_pat) with [CM 0 (MPauli AX Plus) sempty sempty]. change (p_in iso_pat) with [0%nat]. revert A. generalize (outc (ts_res st)). intros o A.
    cbn [seq_ops flat_map app cmd_ops den app_op]. unfold input_state. cbn [length repeat prod_amp nstate_vec].
    assert (describe_measurement o (MPauli AX Plus) sempty sempty = MPauli AX Plus) as -> by reflexivity.
    unfold place, upd. simpl. rewrite cis_0, <- A. cbn [b2R]. rewrite Rplus_0_l.
    assert (E : cis 1 = RtoC (-1)%R). { unfold cis. rewrite Rmult_1_l, cos_PI, sin_PI. reflexivity. } rewrite E. set (h := (/ sqrt 2)%R). unfold Cnorm2. cbn. ring.
  - destruct T as [T|[(-> & T & _)|(iso & _ & a & x & m & s & t & b & o1 & k & E & SEL & F)]]; [vm_compute in T; discriminate|vm_compute in T; discriminate|].
    destruct F as [[F|(? & ? & _ & F)]|(_ & F & _)]; [discriminate|discriminate|]. change (p_seq iso_pat) with [CM 0 (MPauli AX Plus) sempty sempty] in E. destruct a as [|y a]; [discriminate|]. destruct a; discriminate.
Qed.
Print Assumptions C53_probability_refuted.
