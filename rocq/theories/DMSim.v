(** Model of the density-matrix simulation of a pattern, with or without noise
    model: DensityMatrix and DensityMatrixBackend (sim/density_matrix.py),
    DenseStateBackend (sim/base_backend.py:740-898) and PatternSimulator.run
    (simulator.py:396-480). *)
From Coq Require Import Reals Lra Arith List Bool Lia Permutation FunctionalExtensionality.
From Verif Require Import Cplx Mat2 Fundamentals CliffordDb Clifford NSet Measure QState Pattern NodeIndex Statevec Density Simulator Noise.
Import ListNotations.
Local Open Scope C_scope.

(** * DensityMatrix *)
(** a DensityMatrix: the array and its number of qubits (density_matrix.py:111-118) *)
Record dmat := DM { dm_rho : cmat; dm_n : nat }.
(** density_matrix.py:46-53 data: anything Statevector accepts, or a matrix of
    2^k rows *)
Inductive ddata := DPure (d : data) | DMatrix (k : nat) (rho : cmat).
(** np.outer(psi, psi.conj()) *)
Definition couter (psi : arr) : cmat := fun i j => psi i * Cconj (psi j).
(** density_matrix.py:47-109 DensityMatrix(data, nqubit).  The parameter [psdb]
    is lv.is_psd (linalg_validations.py:44-62, eigenvalues computed by LAPACK);
    a matrix whose dimension is not a power of two is not modelled. *)
Definition dm_make (close1 : R -> bool) (psdb : nat -> cmat -> bool) (d : ddata) (nqubit : nat) : res dmat :=
  match d with
  | DPure d => do s <- sv_make close1 d nqubit; Ok (DM (couter (sv_psi s)) (sv_n s))
  | DMatrix k rho =>
      if (k =? nqubit)%nat then
        if isclose (dm_trace k rho) C1 then if psdb k rho then Ok (DM rho k) else Err EValue else Err EValue
      else Err EValue
  end.
(** density_matrix.py:296-310 tensor: np.kron *)
Definition dm_tensor (a b : dmat) : dmat :=
  DM (fun i j => dm_rho a (i / 2 ^ dm_n b)%nat (j / 2 ^ dm_n b)%nat * dm_rho b (i mod 2 ^ dm_n b)%nat (j mod 2 ^ dm_n b)%nat) (dm_n a + dm_n b).
(** density_matrix.py:167-194 add_nodes *)
Definition dm_add_nodes (close1 : R -> bool) (psdb : nat -> cmat -> bool) (s : dmat) (nqubit : nat) (d : ddata) : res dmat :=
  do o <- dm_make close1 psdb d nqubit; Ok (dm_tensor s o).
(** density_matrix.py:195-213 evolve_single *)
Definition dm_evolve_single (s : dmat) (op : mat2) (q : nat) : res dmat :=
  if (q <? dm_n s)%nat then Ok (DM (dm_evolve (dm_n s) 1 (m2 op) [q] (dm_rho s)) (dm_n s)) else Err EAssert.
Fixpoint nodupb (l : list nat) : bool := match l with [] => true | x :: l' => negb (lmem x l') && nodupb l' end.
(** density_matrix.py:215-261 evolve, with its checks; [k] is the number of
    qubits of the operator *)
Definition evolve_ok (n k : nat) (qs : list nat) : bool :=
  (k =? length qs)%nat && forallb (fun q => (q <? n)%nat) qs && nodupb qs.
Definition dm_evolve_chk (s : dmat) (k : nat) (op : cmat) (qs : list nat) : res dmat :=
  if evolve_ok (dm_n s) k qs then Ok (DM (dm_evolve (dm_n s) k op qs (dm_rho s)) (dm_n s)) else Err EValue.
(** ops.py:36-40 Ops.CZ *)
Definition czm : cmat := fun i j => if (i =? j)%nat then (if (i =? 3)%nat then - C1 else C1) else C0.
(** density_matrix.py:344-352 entangle *)
Definition dm_entangle (s : dmat) (u v : nat) : res dmat := dm_evolve_chk s 2 czm [u; v].
(** density_matrix.py:354-365 normalize; a zero trace fills the array with NaN *)
Definition Ceq0 (a : C) : bool := if Req_EM_T (re a) 0 then if Req_EM_T (im a) 0 then true else false else false.
Definition Cinv (a : C) : C := mkC (re a / Cnorm2 a)%R (- im a / Cnorm2 a)%R.
Definition dm_normalize (s : dmat) : res dmat :=
  let t := dm_trace (dm_n s) (dm_rho s) in
  if Ceq0 t then Err ENan else Ok (DM (fun i j => dm_rho s i j * Cinv t) (dm_n s)).
(** density_matrix.py:263-290 expectation_single: trace of op rho / tr rho *)
Definition dm_expectation (s : dmat) (op : mat2) (q : nat) : res C :=
  if (q <? dm_n s)%nat then
    do s' <- dm_normalize s;
    Ok (csum (range (2 ^ dm_n s)) (fun i => csum (range 2) (fun a =>
      m2 op (sub (dm_n s) 1 [q] i) a * dm_rho s' (putb (dm_n s) 1 [q] i a) i)))
  else Err EValue.
(** density_matrix.py:379-396 ptrace of one qubit *)
Definition dm_ptrace (s : dmat) (q : nat) : dmat :=
  let n := dm_n s in
  DM (fun i j => csum [false; true] (fun c => dm_rho s (idx n (ins q c (bits (n - 1) i))) (idx n (ins q c (bits (n - 1) j))))) (n - 1).
(** density_matrix.py:367-371 remove_qubit; base_backend.py:450-464 project_qubit *)
Definition dm_project (s : dmat) (op : mat2) (q : nat) : res dmat :=
  do s1 <- dm_evolve_single s op q; dm_normalize (dm_ptrace s1 q).
(** density_matrix.py:333-342 permute *)
Definition dm_permute (s : dmat) (perm : list nat) : res dmat :=
  let n := dm_n s in
  if check_permutation perm n then
    let sg i := idx n (fun a => bits n i (pos_of a perm)) in
    Ok (DM (fun i j => dm_rho s (sg i) (sg j)) n)
  else Err EValue.

(** Noise.to_krauschannel: depolarising.py:45-48, 74-77, amplitude_damping.py:43-46,
    77-80; [user] gives the channels of user-defined noise *)
Definition noise_channel (user : nat -> list kraus) (a : noise) : res (list kraus) :=
  match a with
  | Dep1 p => kraus_new 1 (depolarising p)
  | Dep2 p => kraus_new 2 (two_qubit_depolarising p)
  | Damp1 p => kraus_new 1 (amplitude_damping p)
  | Damp2 p => kraus_new 2 (two_qubit_amplitude_damping p)
  | NUser i _ => Ok (user i)
  end.
(** density_matrix.py:416-451 apply_channel, 453-465 apply_noise *)
Definition dm_apply_noise (user : nat -> list kraus) (s : dmat) (a : noise) (qs : list nat) : res dmat :=
  do data <- noise_channel user a;
  if evolve_ok (dm_n s) (noise_nqubits a) qs then
    do rho <- apply_channel (dm_n s) (noise_nqubits a) data qs (dm_rho s); Ok (DM rho (dm_n s))
  else Err EValue.

(** * Backend and simulator *)
Record dsim := DSim { d_dm : dmat; d_ni : nindex; d_res : dict bool; d_rng : nat }.
Definition set_dm (st : dsim) (s : dmat) : dsim := DSim s (d_ni st) (d_res st) (d_rng st).
(** whether the selector evaluates f_expectation0 (branch_selector.py:79-95, 126-143, 156-160) *)
Fixpoint sel_calls (s : selector) (qubit : nat) : bool :=
  match s with
  | SelRandom b => b
  | SelFixed results default => match results qubit with Some _ => false | None => match default with None => false | Some d => sel_calls d qubit end end
  | SelConst _ => false
  end.
(** base_backend.py:813-857 measure.  expectation_single works on a shallow copy
    and normalises the shared array in place (density_matrix.py:284-285), hence
    the normalisation of the state when f_expectation0 is called. *)
Definition dbk_measure (sel : selector) (g : rng) (st : dsim) (n : nat) (m : measurement) : res (dmat * nindex * bool * nat) :=
  do loc <- ni_index (d_ni st) n;
  do s <- (if sel_calls sel n then dm_normalize (d_dm st) else Ok (d_dm st));
  do e <- dm_expectation s (meas_proj m false) loc;
  do ok <- sel_measure sel g (d_rng st) n (re e);
  do s' <- dm_project s (meas_proj m (fst ok)) loc;
  do ni <- ni_remove (d_ni st) n;
  Ok (s', ni, fst ok, snd ok).
(** base_backend.py:876-879 apply_single, apply_clifford *)
Definition dbk_single (st : dsim) (n : nat) (op : mat2) : res dsim :=
  do i <- ni_index (d_ni st) n; do s <- dm_evolve_single (d_dm st) op i; Ok (set_dm st s).
Definition conf_opt (u : nat -> R) (nm : option nmodel) (rk : bool * nat) : bool * nat :=
  match nm with None => rk | Some m => nm_confuse u m rk end.
(** simulator.py:447-478 one iteration of run *)
Definition dm_step (close1 : R -> bool) (psdb : nat -> cmat -> bool) (user : nat -> list kraus) (sel : selector) (g : rng) (u : nat -> R) (nm : option nmodel)
  (st : dsim) (c : ncmd) : res dsim :=
  match c with
  | NC (CN n s) =>
      do d <- dm_add_nodes close1 psdb (d_dm st) 1 (DPure (DState s));
      Ok (DSim d (ni_extend (d_ni st) [n]) (d_res st) (d_rng st))
  | NC (CE a b) =>
      do i <- ni_index (d_ni st) a; do j <- ni_index (d_ni st) b;
      do d <- dm_entangle (d_dm st) i j; Ok (set_dm st d)
  | NC (CM n m s t) =>
      do ps <- res_parity (d_res st) s; do pt <- res_parity (d_res st) t;
      let m := if ps : bool then meas_clifford m K1 else m in
      let m := if pt : bool then meas_clifford m K3 else m in
      do x <- dbk_measure sel g st n m;
      let '(d, ni, o, k) := x in
      let ok := conf_opt u nm (o, k) in
      Ok (DSim d ni (dset (d_res st) n (fst ok)) (snd ok))
  | NC (CX n d) => do p <- res_parity (d_res st) d; if p : bool then dbk_single st n mX else Ok st
  | NC (CZ n d) => do p <- res_parity (d_res st) d; if p : bool then dbk_single st n mZ else Ok st
  | NC (CC n c) => dbk_single st n (clifford_mat c)
  | NC CT => Ok st
  | NC (CS _ _) => Err EValue
  | NA a =>
      do p <- match an_dom a with None => Ok true | Some d => res_parity (d_res st) d end;
      if p : bool then
        do qs <- rfold (fun acc n => do i <- ni_index (d_ni st) n; Ok (acc ++ [i])) (an_nodes a) [];
        do d <- dm_apply_noise user (d_dm st) (an_noise a) qs; Ok (set_dm st d)
      else Ok st
  end.
(** base_backend.py:888-893 finalize *)
Definition dbk_finalize (st : dsim) (outs : list nat) : res dsim :=
  do perm <- rfold (fun acc n => do i <- ni_index (d_ni st) n; Ok (acc ++ [i])) outs [];
  do s <- dm_permute (d_dm st) perm;
  Ok (DSim s (ni_extend ni_clear outs) (d_res st) (d_rng st)).
(** simulator.py:396-480 run on a fresh DensityMatrixBackend
    (density_matrix.py:492-496 DensityMatrixBackend, one qubit-free state) with an explicit input *)
Definition dm_init : dmat := DM (fun _ _ => C1) 0.
Definition dm_run (close1 : R -> bool) (psdb : nat -> cmat -> bool) (user : nat -> list kraus) (sel : selector) (g : rng) (u : nat -> R) (nm : option nmodel)
  (p : pattern) (d : ddata) : res dsim :=
  do s <- dm_add_nodes close1 psdb dm_init (length (p_in p)) d;
  do l <- match nm with None => Ok (map NC (p_seq p)) | Some m => noisy_seq m p true end;
  do _ <- check_runnability p;
  do st <- rfold (dm_step close1 psdb user sel g u nm) l (DSim s (ni_extend ni_clear (p_in p)) [] 0);
  dbk_finalize st (p_out p).

(** * Specification: operators on nodes *)
(** p rho p^dagger for an elementary operation *)
Definition dapp (p : op) (R : dop) : dop := fun f g =>
  match p with
  | OApp1 U n => conj1 U n R f g
  | OCz a b => sgn (f a && f b) * R f g * sgn (g a && g b)
  | OMeas v n => Cconj (v0 v) * R (upd f n false) (upd g n false) * v0 v + Cconj (v0 v) * R (upd f n false) (upd g n true) * v1 v
               + Cconj (v1 v) * R (upd f n true) (upd g n false) * v0 v + Cconj (v1 v) * R (upd f n true) (upd g n true) * v1 v
  | OPrep v n => vget v (f n) * R f g * Cconj (vget v (g n))
  end.
(** the channel with Kraus operators [data] on [nodes] *)
Definition dchan (data : list kraus) (nodes : list nat) (R : dop) : dop := fun f g =>
  csum data (fun d => fst d * Cconj (fst d) * conjk (snd d) nodes R f g).
(** the channel of a noise *)
Definition noise_data (user : nat -> list kraus) (a : noise) : list kraus :=
  match a with
  | Dep1 p => depolarising p
  | Dep2 p => two_qubit_depolarising p
  | Damp1 p => amplitude_damping p
  | Damp2 p => two_qubit_amplitude_damping p
  | NUser i _ => user i
  end.
(** effect of a command or noise when the recorded outcomes are [o] and the
    outcomes on which the qubits were projected are [w] *)
Definition nstep (user : nat -> list kraus) (o w : nat -> bool) (c : ncmd) (R : dop) : dop :=
  match c with
  | NC (CM n m s t) => dapp (OMeas (mvec (describe_measurement o m s t) (w n)) n) R
  | NC c => fold_left (fun R p => dapp p R) (cmd_ops o c) R
  | NA a => if match an_dom a with None => true | Some d => parity o d end then dchan (noise_data user (an_noise a)) (an_nodes a) R else R
  end.
Definition nden (user : nat -> list kraus) (o w : nat -> bool) (l : list ncmd) (R : dop) : dop := fold_left (fun R c => nstep user o w c R) l R.
(** trace over the nodes [l] *)
Definition dtr (l : list nat) (R : dop) : C := asum l (fun f => R f f) (fun _ => false).
(** the operator of the input nodes *)
Definition dinput (inp : list nat) (d : ddata) : dop := fun f g =>
  match d with
  | DPure d => input_state inp d f * Cconj (input_state inp d g)
  | DMatrix k rho => rho (idx k (pull inp f)) (idx k (pull inp g))
  end.
Definition herm (R : dop) : Prop := forall f g, R g f = Cconj (R f g).
(** a state of k qubits: normalised vector, or matrix of trace one that is a
    (non-normalised) mixture of pure states and passes the test of positivity *)
Definition ddata_ok (psdb : nat -> cmat -> bool) (d : ddata) (k : nat) : Prop :=
  match d with
  | DPure d => data_ok d k
  | DMatrix k' rho => k' = k /\ dm_trace k rho = C1 /\ psdb k rho = true /\
      exists L : list arr, forall i j, (i < 2 ^ k)%nat -> (j < 2 ^ k)%nat -> rho i j = csum L (fun P => P i * Cconj (P j))
  end.

(** * Lifting matrices to operators on nodes *)
Lemma drep_ext n rho f f' g g' : (forall i, (i < n)%nat -> f i = f' i) -> (forall i, (i < n)%nat -> g i = g' i) -> drep n rho f g = drep n rho f' g'.
Proof. intros H1 H2. unfold drep. f_equal; apply idx_ext; auto. Qed.
Lemma pull_putf l nodes qs a f i : NoDup l -> Forall2 (fun q n => nth_error l q = Some n) qs nodes -> (i < length l)%nat ->
  putf qs a (pull l f) i = pull l (putf nodes a f) i.
Proof.
  intros ND H Hi. unfold pull, putf.
  assert (E : lmem i qs = lmem (nth i l 0%nat) nodes /\ (In i qs -> pos_of i qs = pos_of (nth i l 0%nat) nodes)).
  { induction H as [|q n qs nodes Hq HF IH]; [simpl; tauto|]. destruct IH as [IH1 IH2]. cbn [lmem existsb pos_of].
    assert (EQ : (i =? q)%nat = (nth i l 0%nat =? n)%nat).
    { destruct (Nat.eqb_spec i q) as [->|N]; symmetry; [apply Nat.eqb_eq, nth_nth_error; auto|]. apply Nat.eqb_neq. intros E. apply N.
      eapply NoDup_nth_inj; eauto. rewrite <- E. apply nth_error_nth'. auto. }
    fold (lmem i qs). fold (lmem (nth i l 0%nat) nodes). rewrite <- EQ, IH1. split; auto. intros [->|K].
    - rewrite Nat.eqb_refl. auto.
    - destruct (i =? q)%nat; auto. }
  destruct E as [E1 E2]. rewrite <- E1. destruct (lmem i qs) eqn:E; auto. rewrite E2; auto. apply lmem_In; auto.
Qed.
Lemma Forall2_len {A B} (P : A -> B -> Prop) l l' : Forall2 P l l' -> length l = length l'.
Proof. induction 1; simpl; auto. Qed.
Lemma chan_lift n rho l nodes qs data (R : dop) k : n = length l -> NoDup l -> Forall2 (fun q n => nth_error l q = Some n) qs nodes ->
  (forall f g, drep n rho (pull l f) (pull l g) = k * R f g) ->
  forall f g, drep n (channel_map n (length nodes) data qs rho) (pull l f) (pull l g) = k * dchan data nodes R f g.
Proof.
  intros En ND HF H f g. assert (EL : length qs = length nodes) by (eapply Forall2_len; eauto). rewrite <- EL.
  assert (HB : forall q, In q qs -> (q < n)%nat).
  { intros q Hq. apply In_nth_error in Hq. destruct Hq as (t & Ht). subst n. clear -HF Ht. revert t Ht; induction HF; intros [|t] Ht; simpl in Ht; try discriminate; eauto.
    injection Ht as <-. eapply nth_error_lt; eauto. }
  rewrite channel_drep by auto. unfold dchan. rewrite <- csum_mul. apply csum_ext. intros d _. 
  transitivity (fst d * Cconj (fst d) * (k * conjk (snd d) nodes R f g)); [|ring]. f_equal.
  unfold conjk. rewrite EL. rewrite <- cbsum_mul. apply cbsum_ext. intros a. rewrite <- cbsum_mul. apply cbsum_ext. intros b.
  assert (EI : forall h, idx (length nodes) (fun t => pull l h (nth t qs 0%nat)) = idx (length nodes) (fun t => h (nth t nodes 0%nat))).
  { intros h. apply idx_ext. intros t Ht. unfold pull. f_equal. clear -HF Ht. revert t Ht. induction HF as [|q n0 qs nodes Hq HF IH]; intros [|t] Ht; simpl in *; try lia.
    - apply nth_nth_error; auto.
    - apply IH; lia. }
  rewrite !EI. rewrite (drep_ext n rho (putf qs a (pull l f)) (pull l (putf nodes a f)) (putf qs b (pull l g)) (pull l (putf nodes b g))).
  - rewrite H. ring.
  - intros i Hi. apply pull_putf; auto. lia.
  - intros i Hi. apply pull_putf; auto. lia.
Qed.
Lemma channel_map1 n k op qs rho : channel_map n k [(C1, op)] qs rho = dm_evolve n k op qs rho.
Proof. extensionality i. extensionality j. unfold channel_map, csum. simpl. rewrite Cconj_1. ring. Qed.
Lemma dchan1 op nodes R : dchan [(C1, op)] nodes R = conjk op nodes R.
Proof. extensionality f. extensionality g. unfold dchan, csum. simpl. rewrite Cconj_1. ring. Qed.
Lemma complete1 U : unitary U -> kcomplete 1 [(C1, m2 U)].
Proof.
  intros H. apply (complete_unitary1 [(C1, U)]).
  - intros c V [E|[]]. injection E as <- <-. auto.
  - unfold csum. simpl. rewrite Cconj_1. ring.
Qed.
Lemma complete_cz : kcomplete 2 [(C1, czm)].
Proof.
  intros i j Hi Hj. unfold ksum, csum. cbn in Hi, Hj.
  do 4 (destruct i as [|i]; [do 4 (destruct j as [|j]; [cbn; apply C_eq; cbn; ring|]); lia|]). lia.
Qed.
Lemma conjk_cz a b R : a <> b -> conjk czm [a; b] R = dapp (OCz a b) R.
Proof.
  intros N. extensionality f. extensionality g. unfold conjk, cbsum. cbn [length bsum idx nth].
  rewrite !putf2, !upd_same by auto. rewrite !(upd_other _ 1%nat _ 0%nat) by lia. rewrite !upd_same.
  assert (E : R f g = R (upd (upd f b (f b)) a (f a)) (upd (upd g b (g b)) a (g a))) by (rewrite !upd_id; auto).
  cbn [dapp]. rewrite E. clear E. unfold czm.
  assert (CM1 : Cconj (- C1) = - C1) by (apply C_eq; cbn; ring). assert (CZ0 : Cconj C0 = C0) by (apply C_eq; cbn; ring).
  destruct (f a), (f b), (g a), (g b); cbn [Nat.mul Nat.add Nat.eqb andb sgn]; rewrite ?CM1, ?CZ0, ?Cconj_1; ring.
Qed.

(** * Kronecker product *)
Lemma tensor_drep a b f g : drep (dm_n a + dm_n b) (dm_rho (dm_tensor a b)) f g
  = drep (dm_n a) (dm_rho a) f g * drep (dm_n b) (dm_rho b) (shiftn (dm_n a) f) (shiftn (dm_n a) g).
Proof.
  unfold drep, dm_tensor. cbn [dm_rho]. rewrite !idx_app.
  pose proof (idx_lt (dm_n b) (shiftn (dm_n a) f)). pose proof (idx_lt (dm_n b) (shiftn (dm_n a) g)).
  rewrite !Nat.div_add_l, !(Nat.div_small (idx (dm_n b) _)), !Nat.add_0_r by lia.
  rewrite !(Nat.add_comm (idx (dm_n a) _ * _)), !Nat.mod_add, !Nat.mod_small by lia. auto.
Qed.
Lemma prep_lift s v l node (R : dop) k : dm_n s = length l ->
  (forall f g, drep (dm_n s) (dm_rho s) (pull l f) (pull l g) = k * R f g) ->
  let s' := dm_tensor s (DM (couter (st_arr v)) 1) in
  forall f g, drep (dm_n s') (dm_rho s') (pull (l ++ [node]) f) (pull (l ++ [node]) g) = k * dapp (OPrep (nstate_vec v) node) R f g.
Proof.
  intros En H s' f g. unfold s'. change (dm_n (dm_tensor s _)) with (dm_n s + dm_n (DM (couter (st_arr v)) 1))%nat.
  rewrite tensor_drep. cbn [dm_n dm_rho dapp].
  rewrite (drep_ext (dm_n s) (dm_rho s) (pull (l ++ [node]) f) (pull l f) (pull (l ++ [node]) g) (pull l g)).
  2,3: intros i Hi; unfold pull; rewrite app_nth1 by lia; auto.
  rewrite H. unfold drep, couter. change (st_arr v (idx 1 ?x)) with (rep 1 (st_arr v) x). rewrite !st_arr_rep. unfold shiftn, pull.
  rewrite Nat.add_0_r, En, !app_nth2, !Nat.sub_diag by lia. cbn [nth]. ring.
Qed.
Lemma cbsum_S n F : cbsum (S n) F = cbsum n (fun f => F (upd f n false) + F (upd f n true)).
Proof. reflexivity. Qed.
Lemma prep_trace s v : vnorm2 (nstate_vec v) = 1%R ->
  dm_trace (dm_n s + 1) (dm_rho (dm_tensor s (DM (couter (st_arr v)) 1))) = dm_trace (dm_n s) (dm_rho s).
Proof.
  intros HV. rewrite !trace_drep. rewrite Nat.add_1_r, cbsum_S. apply cbsum_ext. intros f.
  pose proof (tensor_drep s (DM (couter (st_arr v)) 1)) as T. cbn [dm_n dm_rho] in T. rewrite Nat.add_1_r in T. rewrite !T.
  rewrite !(drep_ext (dm_n s) (dm_rho s) (upd f (dm_n s) _) f (upd f (dm_n s) _) f) by (intros; apply upd_other; lia).
  unfold drep at 2 4, couter. change (st_arr v (idx 1 ?x)) with (rep 1 (st_arr v) x). rewrite !st_arr_rep. unfold shiftn. rewrite Nat.add_0_r, !upd_same.
  unfold vnorm2 in HV. cbn [vget].
  transitivity (drep (dm_n s) (dm_rho s) f f * (v0 (nstate_vec v) * Cconj (v0 (nstate_vec v)) + v1 (nstate_vec v) * Cconj (v1 (nstate_vec v)))); [ring|].
  rewrite !Cnorm2_mulconj, <- RtoC_add. rewrite HV. change (RtoC 1) with C1. ring.
Qed.
