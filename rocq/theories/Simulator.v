(** Model of the state-vector simulation of a pattern: branch selectors
    (graphix/branch_selector.py), DenseStateBackend (sim/base_backend.py:740-898)
    on Statevector (sim/statevec.py), DefaultMeasureMethod and
    PatternSimulator.run (simulator.py:96-480) without noise model. *)
From Coq Require Import Reals Lra Arith List Bool Lia Permutation FunctionalExtensionality.
From Verif Require Import Cplx Mat2 Fundamentals CliffordDb Clifford NSet Measure QState Pattern NodeIndex Statevec.
Import ListNotations.
Local Open Scope C_scope.

(** * Branch selectors *)
(** branch_selector.py:61-157 *)
Inductive selector :=
| SelRandom (pr_calc : bool)
| SelFixed (results : nat -> option bool) (default : option selector)
| SelConst (result : bool).
(** a random-number generator: the successive values of random() and of
    choice([0, 1]) *)
Record rng := Rng { r_random : nat -> R; r_choice : nat -> bool }.
(** branch_selector.py:75-91 RandomBranchSelector.measure (outcome 1 iff
    random() > prob_0), 120-135 FixedBranchSelector.measure, 152-157
    ConstBranchSelector.measure.  [p0] is the value of f_expectation0, [k] the
    number of values already drawn.  A default selector gets its own generator
    (branch_selector.py:142); as the stream of values is arbitrary in every
    theorem, the model goes on with the same stream. *)
Fixpoint sel_measure (s : selector) (g : rng) (k : nat) (qubit : nat) (p0 : R) : res (bool * nat) :=
  match s with
  | SelRandom true => Ok (if Rlt_dec p0 (r_random g k) then true else false, S k)
  | SelRandom false => Ok (r_choice g k, S k)
  | SelFixed results default =>
      match results qubit with
      | Some b => Ok (b, k)
      | None => match default with None => Err EValue | Some d => sel_measure d g k qubit p0 end
      end
  | SelConst b => Ok (b, k)
  end.

(** * Statevector *)
(** a Statevector: the array and the number of active qubits
    (statevec.py:86-88).  The capacity is unbounded. *)
Record sv := SV { sv_psi : arr; sv_n : nat }.
(** sim/data.py: a state broadcast to every node, one state per node, or an
    array of amplitudes *)
Inductive data := DState (s : nstate) | DStates (l : list nstate) | DAmps (l : list C).
(** states.py to_statevector_numpy *)
Definition st_arr (s : nstate) : arr := fun i => vget (nstate_vec s) (negb (i =? 0)%nat).
(** np.kron of a vector and a 2-vector *)
Definition kron2 (a b : arr) : arr := fun i => a (i / 2)%nat * b (i mod 2)%nat.
(** statevec.py:181-184: reduce(kron, states); the empty list is the scalar 1 *)
Definition kron_states (l : list nstate) : arr :=
  match l with [] => fun _ => C1 | s :: l' => fold_left (fun a s => kron2 a (st_arr s)) l' (st_arr s) end.
(** statevec.py:92-226 Statevector(data, nqubit).  np.isclose is the parameter
    [close1] of the model: it holds at least of 1. *)
Definition sv_make (close1 : R -> bool) (d : data) (nqubit : nat) : res sv :=
  match d with
  | DState s => Ok (SV (kron_states (repeat s nqubit)) nqubit)
  | DStates l =>
      if (length l =? nqubit)%nat then Ok (SV (kron_states l) nqubit) else Err EValue
  | DAmps [] => if (nqubit =? 0)%nat then Ok (SV (fun _ => C1) 0) else Err EValue
  | DAmps l =>
      if (Nat.log2 (length l) =? nqubit)%nat then
        if close1 (sqrt (rsum l Cnorm2)) then Ok (SV (fun i => nth i l C0) nqubit) else Err EValue
      else Err EValue
  end.
(** statevec.py:188-198 Statevector(amplitudes) with the number of qubits inferred *)
Definition is_pow2 (k : nat) : bool := (2 ^ Nat.log2 k =? k)%nat.
Definition sv_make_amps (close1 : R -> bool) (l : list C) : res sv :=
  match l with
  | [] => Ok (SV (fun _ => C1) 0)
  | _ => if is_pow2 (length l) then sv_make close1 (DAmps l) (Nat.log2 (length l)) else Err EValue
  end.
(** statevec.py:269-300 add_nodes, 508-524 tensor *)
Definition sv_add_nodes (close1 : R -> bool) (s : sv) (nqubit : nat) (d : data) : res sv :=
  match nqubit, d with
  | S O, DState SPlus => Ok (SV (add_default_node_jit (sv_psi s) (sv_n s)) (S (sv_n s)))
  | _, _ => do o <- sv_make close1 d nqubit; Ok (SV (tensor_jit (sv_psi s) (sv_psi o) (sv_n s) (sv_n o)) (sv_n s + sv_n o))
  end.

Section Sched.
(** the order in which the iterations of a loop of [n] iterations run in the
    [t]-th kernel call *)
Variable ord : nat -> nat -> list nat.

(** DenseStateBackend fields (base_backend.py:774-776); [b_clk] counts kernel
    calls (it only selects a schedule) *)
Record backend := BK { b_sv : sv; b_ni : nindex; b_clk : nat }.
(** statevec.py:526-542 _check_bounds *)
Definition check_bounds (s : sv) (q : nat) : res unit := if (q <? sv_n s)%nat then Ok tt else Err EIndex.
(** statevec.py:302-315 entangle *)
Definition sv_entangle (t : nat) (s : sv) (u v : nat) : res sv :=
  do _ <- check_bounds s u; do _ <- check_bounds s v;
  Ok (SV (entangle_jit (ord t (2 ^ sv_n s)) (sv_psi s) (sv_n s) u v) (sv_n s)).
(** statevec.py:317-332 evolve_single *)
Definition sv_evolve_single (t : nat) (s : sv) (op : mat2) (q : nat) : res sv :=
  do _ <- check_bounds s q;
  Ok (SV (evolve_single_jit (ord t (2 ^ q)) (ord t (2 ^ (sv_n s - q - 1))) (sv_psi s) op (sv_n s) q) (sv_n s)).
(** statevec.py:334-359 expectation_single *)
Definition sv_expectation_single (t : nat) (s : sv) (op : mat2) (q : nat) : res C :=
  do _ <- check_bounds s q;
  Ok (expectation_single_jit (ord t (2 ^ q)) (ord t (2 ^ (sv_n s - q - 1))) (sv_psi s) op (sv_n s) q).
(** statevec.py:430-491 project_qubit, atol = 1e-10 *)
Definition atol : R := 1 / 10000000000.
Definition sv_project_qubit (t : nat) (s : sv) (op : mat2) (q : nat) : res sv :=
  do _ <- check_bounds s q;
  match project_qubit_jit (ord t (2 ^ q)) (ord t (2 ^ (sv_n s - q - 1))) (sv_psi s) op (sv_n s) q atol with
  | Some (psi, n) => Ok (SV psi n)
  | None => Err ERuntime
  end.
(** statevec.py:543-549 permute *)
Definition sv_permute (s : sv) (perm : list nat) : res sv :=
  match permute (sv_psi s) (sv_n s) perm with Some psi => Ok (SV psi (sv_n s)) | None => Err EValue end.

(** * Backend *)
(** base_backend.py:779-798 add_nodes *)
Definition bk_add_nodes (close1 : R -> bool) (b : backend) (nodes : list nat) (d : data) : res backend :=
  do s <- sv_add_nodes close1 (b_sv b) (length nodes) d;
  Ok (BK s (ni_extend (b_ni b) nodes) (S (b_clk b))).
(** base_backend.py:800-811 entangle_nodes *)
Definition bk_entangle (b : backend) (u v : nat) : res backend :=
  do i <- ni_index (b_ni b) u; do j <- ni_index (b_ni b) v;
  do s <- sv_entangle (b_clk b) (b_sv b) i j;
  Ok (BK s (b_ni b) (S (b_clk b))).
(** base_backend.py:876-879 apply_single, apply_clifford *)
Definition bk_apply_single (b : backend) (n : nat) (op : mat2) : res backend :=
  do i <- ni_index (b_ni b) n;
  do s <- sv_evolve_single (b_clk b) (b_sv b) op i;
  Ok (BK s (b_ni b) (S (b_clk b))).
(** base_backend.py:813-857 measure.  f_expectation0 is lazy in the code: it
    has no effect on the state; its assertion on the imaginary part is
    discharged by C33_probability_real. *)
Definition bk_measure (sel : selector) (g : rng) (k : nat) (b : backend) (n : nat) (m : measurement) : res (backend * bool * nat) :=
  do loc <- ni_index (b_ni b) n;
  do e <- sv_expectation_single (b_clk b) (b_sv b) (meas_proj m false) loc;
  do ok <- sel_measure sel g k n (re e);
  do s <- sv_project_qubit (S (b_clk b)) (b_sv b) (meas_proj m (fst ok)) loc;
  do ni <- ni_remove (b_ni b) n;
  Ok (BK s ni (S (S (b_clk b))), fst ok, snd ok).
(** base_backend.py:888-893 finalize *)
Definition bk_finalize (b : backend) (outs : list nat) : res backend :=
  do perm <- rfold (fun acc n => do i <- ni_index (b_ni b) n; Ok (acc ++ [i])) outs [];
  do s <- sv_permute (b_sv b) perm;
  Ok (BK s (ni_extend ni_clear outs) (S (b_clk b))).

(** * Simulator *)
(** sum(results[j] for j in domain) % 2; a missing key is KeyError
    (simulator.py:171-180, 216-218) *)
Definition res_parity (r : dict bool) (d : nset) : res bool :=
  rfold (fun b j => match dget r j with Some x => Ok (xorb b x) | None => Err EKey end) (elems d) false.
Record sim := Sim { s_bk : backend; s_res : dict bool; s_rng : nat }.
(** simulator.py:445-478, one iteration of the loop of run, with
    DefaultPrepareMethod (72-82) and DefaultMeasureMethod (109-115, 206-226) *)
Definition sim_step (close1 : R -> bool) (sel : selector) (g : rng) (st : sim) (c : cmd) : res sim :=
  match c with
  | CN n s => do b <- bk_add_nodes close1 (s_bk st) [n] (DState s); Ok (Sim b (s_res st) (s_rng st))
  | CE u v => do b <- bk_entangle (s_bk st) u v; Ok (Sim b (s_res st) (s_rng st))
  | CM n m s t =>
      do ps <- res_parity (s_res st) s; do pt <- res_parity (s_res st) t;
      let m := if ps : bool then meas_clifford m K1 else m in
      let m := if pt : bool then meas_clifford m K3 else m in
      do x <- bk_measure sel g (s_rng st) (s_bk st) n m;
      let '(b, o, k) := x in
      Ok (Sim b (dset (s_res st) n o) k)
  | CX n d => do p <- res_parity (s_res st) d;
      if p : bool then do b <- bk_apply_single (s_bk st) n mX; Ok (Sim b (s_res st) (s_rng st)) else Ok st
  | CZ n d => do p <- res_parity (s_res st) d;
      if p : bool then do b <- bk_apply_single (s_bk st) n mZ; Ok (Sim b (s_res st) (s_rng st)) else Ok st
  | CC n c => do b <- bk_apply_single (s_bk st) n (clifford_mat c); Ok (Sim b (s_res st) (s_rng st))
  | CT => Ok st
  | CS _ _ => Err EValue
  end.
(** a fresh backend: StatevectorBackend() (statevec.py:752) *)
Definition bk_init : backend := BK (SV (fun _ => C1) 0) ni_clear 0.
(** simulator.py:396-480 run with an explicit input state on a fresh backend *)
Definition sim_run (close1 : R -> bool) (sel : selector) (g : rng) (p : pattern) (input : data) : res sim :=
  do b <- bk_add_nodes close1 bk_init (p_in p) input;
  do _ <- check_runnability p;
  do st <- rfold (sim_step close1 sel g) (p_seq p) (Sim b [] 0);
  do b <- bk_finalize (s_bk st) (p_out p);
  Ok (Sim b (s_res st) (s_rng st)).
End Sched.

(** * Specification: from qubit positions to nodes *)
(** bits of the qubits at the positions of [l] when node n has bit f n *)
Definition pull (l : list nat) (f : asg) : asg := fun i => f (nth i l 0%nat).
(** assignment of nodes where the i-th node of [l] has bit g i *)
Definition place (l : list nat) (g : asg) : asg := fun n => if lmem n l then g (pos_of n l) else false.
(** squared norm of a state of the register [l] *)
Definition wt (l : list nat) (Psi : state) : R := sqnorm (length l) (fun g => Psi (place l g)).

Lemma rep_ext n psi f g : (forall i, (i < n)%nat -> f i = g i) -> rep n psi f = rep n psi g.
Proof. intros H. unfold rep. f_equal. apply idx_ext; auto. Qed.
Lemma nth_nth_error {A} (l : list A) i d a : nth_error l i = Some a -> nth i l d = a.
Proof. revert i; induction l; destruct i; simpl; try discriminate; auto. congruence. Qed.
Lemma pull_upd l f q n b i : NoDup l -> nth_error l q = Some n -> (i < length l)%nat -> upd (pull l f) q b i = pull l (upd f n b) i.
Proof.
  intros ND Hq Hi. unfold pull, upd. destruct (Nat.eqb_spec i q) as [->|N].
  - rewrite (nth_nth_error _ _ _ _ Hq), Nat.eqb_refl. auto.
  - destruct (Nat.eqb_spec (nth i l 0%nat) n) as [E|E]; auto. exfalso. apply N.
    eapply NoDup_nth_inj; eauto. rewrite <- E. apply nth_error_nth'. auto.
Qed.
Lemma pull_ins l f q n b i : NoDup l -> nth_error l q = Some n -> (i < length l)%nat -> ins q b (pull (ldel q l) f) i = pull l (upd f n b) i.
Proof.
  intros ND Hq Hi. destruct (ldel_split _ _ _ Hq) as (a & c & -> & La & ->). subst q.
  unfold ins, pull, upd. destruct (Nat.ltb_spec i (length a)) as [H|H]; [|destruct (Nat.eqb_spec i (length a)) as [->|H2]].
  - rewrite !app_nth1 by auto. destruct (Nat.eqb_spec (nth i a 0%nat) n) as [E|E]; auto. exfalso.
    apply NoDup_remove_2 in ND. apply ND, in_or_app. left. rewrite <- E. apply nth_In; auto.
  - rewrite (app_nth2 a), Nat.sub_diag by lia. simpl. rewrite Nat.eqb_refl. auto.
  - rewrite (app_nth2 a (n :: c)) by lia. rewrite app_nth2 by lia.
    destruct (i - length a)%nat as [|k] eqn:E; [lia|]. replace (i - 1 - length a)%nat with k by lia. simpl.
    destruct (Nat.eqb_spec (nth k c 0%nat) n) as [E2|E2]; auto. exfalso.
    apply NoDup_remove_2 in ND. apply ND, in_or_app. right. rewrite <- E2. apply nth_In.
    rewrite app_length in Hi. simpl in Hi. lia.
Qed.
Lemma pos_of_nth' l i d : NoDup l -> (i < length l)%nat -> pos_of (nth i l d) l = i.
Proof.
  revert i; induction l as [|x l IH]; simpl; [lia|]. intros i ND Hi. inversion ND as [|? ? N1 N2]; subst.
  destruct i as [|i]; [rewrite Nat.eqb_refl; auto|]. assert (i < length l)%nat by lia.
  destruct (Nat.eqb_spec (nth i l d) x) as [E|E]; [exfalso; apply N1; rewrite <- E; apply nth_In; auto|]. rewrite IH; auto.
Qed.
Lemma pull_place l g i : NoDup l -> (i < length l)%nat -> pull l (place l g) i = g i.
Proof.
  intros ND Hi. unfold pull, place. assert (lmem (nth i l 0%nat) l = true) as -> by (apply lmem_In, nth_In; auto).
  rewrite pos_of_nth'; auto.
Qed.

(** * Norms *)
Lemma split_bit_gen (A : Type) (add : A -> A -> A) (zero : A)
  (ac : forall a b, add a b = add b a) (aa : forall a b c, add a (add b c) = add (add a b) c) (a0 : forall a, add a zero = a) n q G : (q < n)%nat ->
  bsum A add n (fun f => G (idx n f)) = bsum A add (n - 1) (fun g => add (G (idx n (ins q false g))) (G (idx n (ins q true g)))).
Proof.
  intros H. rewrite (bsum_range A add zero ac aa a0).
  rewrite <- (gsum_perm A add zero ac aa _ _ _ (pnodes_range (range (2 ^ q)) (range (2 ^ (n - q - 1))) n q H (sched_range _) (sched_range _))).
  rewrite (gsum_pairs A add zero aa).
  rewrite (gsum_perm A add zero ac aa _ _ _ (pairs_half (range (2 ^ q)) (range (2 ^ (n - q - 1))) n q H (sched_range _) (sched_range _))).
  rewrite gsum_map. cbn [fst snd]. rewrite <- (bsum_range A add zero ac aa a0). apply bsum_ext. intros g.
  rewrite !idx_ins_blk by auto. rewrite Nat.add_0_r. auto.
Qed.
Lemma split_bit n q G : (q < n)%nat -> bsum R Rplus n (fun f => G (idx n f)) = bsum R Rplus (n - 1) (fun g => G (idx n (ins q false g)) + G (idx n (ins q true g)))%R.
Proof. apply (split_bit_gen R Rplus 0%R Rplus_comm (fun a b c => eq_sym (Rplus_assoc a b c)) Rplus_0_r). Qed.
Lemma bsum_RtoC n F : bsum C Cadd n (fun f => RtoC (F f)) = RtoC (bsum R Rplus n F).
Proof. revert F; induction n as [|n IH]; intros F; simpl; auto. rewrite <- IH. apply bsum_ext. intros; rewrite RtoC_add; auto. Qed.
(** the expectation of |v><v| is the squared norm of <v|psi> *)
Lemma expectation_branch blocks halves psi v n q : (q < n)%nat -> sched blocks (2 ^ q) -> sched halves (2 ^ (n - q - 1)) ->
  expectation_single_jit blocks halves psi (vouter v v) n q = RtoC (sqnorm (n - 1) (mbranch v q (rep n psi))).
Proof.
  intros H SB SH. rewrite expectation_rep by auto. rewrite <- (evolve_single_rep blocks halves psi (vouter v v) n q H SB SH).
  set (psi' := evolve_single_jit blocks halves psi (vouter v v) n q). unfold inner, cbsum, rep.
  rewrite (split_bit_gen C Cadd C0 Cadd_comm Cadd_assoc Cadd_0 n q (fun i => Cconj (psi i) * psi' i)) by auto.
  unfold sqnorm, rbsum. rewrite <- bsum_RtoC. apply bsum_ext. intros g.
  change (psi' (idx n (ins q false g))) with (rep n psi' (ins q false g)). change (psi' (idx n (ins q true g))) with (rep n psi' (ins q true g)).
  unfold psi'. rewrite (evolve_single_rep blocks halves) by auto. cbn [app_op]. rewrite !ins_q, !ins_upd. cbn [mget vouter m00 m01 m10 m11].
  rewrite <- Cnorm2_mulconj. unfold mbranch. rewrite !Cconj_add, !Cconj_mul, !Cconj_inv. unfold rep. ring.
Qed.
Lemma bsum_Rscale n k F : bsum R Rplus n (fun f => k * F f)%R = (k * bsum R Rplus n F)%R.
Proof. revert F; induction n as [|n IH]; intros F; simpl; auto. rewrite <- IH. apply bsum_ext. intros; ring. Qed.
Lemma bsum_Radd n F G : bsum R Rplus n (fun f => F f + G f)%R = (bsum R Rplus n F + bsum R Rplus n G)%R.
Proof. revert F G; induction n as [|n IH]; intros F G; simpl; auto. rewrite <- IH. apply bsum_ext. intros; ring. Qed.
Lemma sqnorm_split n q psi : (q < n)%nat -> sqnorm n (rep n psi) =
  (sqnorm (n - 1) (fun g => rep n psi (ins q false g)) + sqnorm (n - 1) (fun g => rep n psi (ins q true g)))%R.
Proof.
  intros H. unfold sqnorm, rbsum. rewrite <- bsum_Radd. unfold rep.
  rewrite (split_bit n q (fun i => Cnorm2 (psi i))) by auto. reflexivity.
Qed.
Lemma unitary_norm2 U x y : unitary U ->
  (Cnorm2 (m00 U * x + m01 U * y) + Cnorm2 (m10 U * x + m11 U * y) = Cnorm2 x + Cnorm2 y)%R.
Proof.
  intros [H _]. assert (E00 := f_equal m00 H). assert (E01 := f_equal m01 H). assert (E10 := f_equal m10 H). assert (E11 := f_equal m11 H).
  simpl in *. destruct U as [[a a'] [b b'] [c c'] [d d']], x as [x x'], y as [y y'].
  unfold Cmul, Cadd, Cconj, C1, C0 in *. simpl in *. injection E00 as A1 A2. injection E01 as B1 B2. injection E10 as D1 D2. injection E11 as F1 F2.
  unfold Cnorm2. simpl.
  transitivity ((a * a - - a' * a' + (c * c - - c' * c')) * (x * x + x' * x')
    + (b * b - - b' * b' + (d * d - - d' * d')) * (y * y + y' * y')
    + 2 * (a * b - - a' * b' + (c * d - - c' * d')) * (x * y + x' * y')
    + 2 * (a * b' + - a' * b + (c * d' + - c' * d)) * (x' * y - x * y'))%R; [ring|]. rewrite A1, F1, B1, B2. ring.
Qed.
Lemma sqnorm_ext n a b : (forall f, a f = b f) -> sqnorm n a = sqnorm n b.
Proof. intros H. f_equal. extensionality f; auto. Qed.
Lemma sqnorm_evolve blocks halves psi U n q : (q < n)%nat -> sched blocks (2 ^ q) -> sched halves (2 ^ (n - q - 1)) -> unitary U ->
  sqnorm n (rep n (evolve_single_jit blocks halves psi U n q)) = sqnorm n (rep n psi).
Proof.
  intros H SB SH HU. rewrite !(sqnorm_split n q) by auto. rewrite (evolve_single_rep blocks halves) by auto.
  unfold sqnorm, rbsum. rewrite <- !bsum_Radd. apply bsum_ext. intros g. cbn [app_op]. rewrite !ins_q, !ins_upd. cbn [mget].
  apply unitary_norm2; auto.
Qed.
Lemma sqnorm_entangle order psi n u v : (u < n)%nat -> (v < n)%nat -> sched order (2 ^ n) ->
  sqnorm n (rep n (entangle_jit order psi n u v)) = sqnorm n (rep n psi).
Proof.
  intros Hu Hv S. rewrite entangle_rep by auto. unfold sqnorm, rbsum. apply bsum_ext. intros f. cbn [app_op].
  rewrite Cnorm2_mul. destruct (f u && f v); unfold Cnorm2; simpl; ring.
Qed.
Lemma sqnorm_prep n v psi : sqnorm (S n) (app_op (OPrep v n) (rep n psi)) = (vnorm2 v * sqnorm n (rep n psi))%R.
Proof.
  unfold sqnorm, rbsum. cbn [bsum app_op]. rewrite <- bsum_Rscale. apply bsum_ext. intros f.
  rewrite !upd_same. unfold rep. rewrite !idx_upd_ge by lia. rewrite !Cnorm2_mul. unfold vnorm2. simpl. ring.
Qed.
Lemma sqnorm_project v n q psi N c psi' : phase c -> N = sqnorm (n - 1) (mbranch v q (rep n psi)) -> (0 < N)%R ->
  rep (n - 1) psi' = cscale (c * RtoC (1 / sqrt N)) (mbranch v q (rep n psi)) -> sqnorm (n - 1) (rep (n - 1) psi') = 1%R.
Proof.
  intros Hc EN HN E. rewrite E. unfold cscale. rewrite sqnorm_scale, <- EN, Cnorm2_mul, Hc, Cnorm2_R.
  assert (S : (sqrt N * sqrt N = N)%R) by (apply sqrt_sqrt; lra).
  assert (0 < sqrt N)%R by (apply sqrt_lt_R0; auto). rewrite <- S at 3. field. lra.
Qed.
Lemma sqnorm_permute psi n perm psi' : permute psi n perm = Some psi' -> sqnorm n (rep n psi') = sqnorm n (rep n psi).
Proof.
  unfold permute. destruct (check_permutation perm n) eqn:E; [|discriminate]. intros K; injection K as <-. apply check_permutation_iff in E.
  set (ra := fun a b c => eq_sym (Rplus_assoc a b c)). unfold sqnorm, rbsum.
  set (sg := fun i => idx n (fun a => bits n i (pos_of a perm))).
  set (psi' := fun i => if (i <? 2 ^ n)%nat then psi (sg i) else psi i).
  change (bsum R Rplus n (fun f => Cnorm2 (rep n psi' f)) = bsum R Rplus n (fun f => Cnorm2 (rep n psi f))).
  unfold rep. rewrite (bsum_range R Rplus 0%R Rplus_comm ra Rplus_0_r n (fun i => Cnorm2 (psi' i))).
  rewrite (bsum_range R Rplus 0%R Rplus_comm ra Rplus_0_r n (fun i => Cnorm2 (psi i))).
  transitivity (gsum R Rplus 0%R (map sg (range (2 ^ n))) (fun i => Cnorm2 (psi i))).
  - rewrite gsum_map. apply gsum_ext. intros i Hi. apply (sched_In _ _ _ (sched_range _)) in Hi. unfold psi'.
    apply Nat.ltb_lt in Hi. rewrite Hi. auto.
  - apply gsum_perm; auto using Rplus_comm.
    assert (L : length perm = n) by (rewrite (Permutation_length E); apply seq_length).
    assert (NDp : NoDup perm) by (eapply Permutation_NoDup; [apply Permutation_sym; exact E|apply seq_NoDup]).
    assert (ND : NoDup (map sg (range (2 ^ n)))).
    { apply NoDup_map_in; [|apply seq_NoDup]. intros i j Hi Hj Eij.
      apply (sched_In _ _ _ (sched_range _)) in Hi, Hj. rewrite <- (idx_bits n i Hi), <- (idx_bits n j Hj). apply idx_ext. intros k Hk.
      assert (Kn : (nth k perm 0 < n)%nat).
      { assert (In (nth k perm 0%nat) perm) by (apply nth_In; lia). eapply Permutation_in in H; [|exact E]. apply in_seq in H. lia. }
      pose proof (idx_inj n _ _ Eij _ Kn) as EE. cbv beta in EE. rewrite pos_of_nth' in EE by (auto; lia). auto. }
    apply NoDup_Permutation_bis; auto; [rewrite map_length; auto|].
    intros x Hx. apply in_map_iff in Hx. destruct Hx as (i & <- & _). apply (sched_In _ _ _ (sched_range _)). apply idx_lt.
Qed.

(** * Refinement *)
Definition no_S (l : list cmd) : bool := forallb (fun c => match c with CS _ _ => false | _ => true end) l.
Lemma cmd_ops_ext' inp pre c o o' : cmd_ok inp pre c ->
  (forall n, measured_in (pre ++ [c]) n -> o n = o' n) -> cmd_ops o c = cmd_ops o' c.
Proof.
  intros HC H.
  assert (P : forall d, (forall k, mem k d = true -> measured_in pre k) -> parity o d = parity o' d).
  { intros d Hd. apply parity_ext. intros k Hk. apply H. rewrite measured_app. auto. }
  destruct c as [n st|u v|n m s t|n d|n d|n c|n d|]; simpl in *; auto.
  - unfold describe_measurement. rewrite (P s), (P t) by (intros; apply HC; auto).
    rewrite (H n); auto. apply measured_app. right. apply measured_one. eauto.
  - rewrite (P d); auto. apply HC.
  - rewrite (P d); auto. apply HC.
Qed.
Lemma seq_ops_ext' inp l o o' : runnable inp l ->
  (forall n, measured_in l n -> o n = o' n) -> seq_ops o l = seq_ops o' l.
Proof.
  induction l as [|c l IH] using rev_ind; auto. intros HR H.
  apply runnable_snoc in HR. destruct HR as [HR HC]. rewrite !seq_ops_app. f_equal.
  - apply IH; auto. intros n Hn. apply H, measured_app; auto.
  - simpl. rewrite !app_nil_r. eapply cmd_ops_ext'; eauto.
Qed.
(** outcomes recorded in the results dictionary *)
Definition outc (r : dict bool) (n : nat) : bool := match dget r n with Some b => b | None => false end.
Lemma res_parity_ok r d : (forall k, mem k d = true -> exists b, dget r k = Some b) -> res_parity r d = Ok (parity (outc r) d).
Proof.
  intros H. unfold res_parity, parity.
  assert (K : forall l b, (forall k, In k l -> exists x, dget r k = Some x) ->
    rfold (fun b j => match dget r j with Some x => Ok (xorb b x) | None => Err EKey end) l b = Ok (xorb b (xorsum l (outc r)))).
  { induction l as [|k l IH]; intros b HL; simpl; [rewrite xorb_false_r; auto|].
    destruct (HL k) as [x Hx]; [simpl; auto|]. rewrite Hx, IH by (intros; apply HL; simpl; auto). unfold outc at 2. rewrite Hx.
    f_equal. destruct b, x, (xorsum l (outc r)); reflexivity. }
  rewrite K by (intros k Hk; apply H, elems_spec; auto). rewrite xorb_false_l. auto.
Qed.
(** the register after [pre], and its amplitudes *)
Record Inv (inp : list nat) (psi0 : state) (pre : list cmd) (st : sim) : Prop := {
  inv_ni : ni_inv (b_ni (s_bk st));
  inv_perm : Permutation (ni_list (b_ni (s_bk st))) (outs_of inp pre);
  inv_n : sv_n (b_sv (s_bk st)) = length (ni_list (b_ni (s_bk st)));
  inv_res : forall k, (exists b, dget (s_res st) k = Some b) <-> measured_in pre k;
  inv_norm : sqnorm (sv_n (b_sv (s_bk st))) (rep (sv_n (b_sv (s_bk st))) (sv_psi (b_sv (s_bk st)))) = 1%R;
  inv_amp : exists c, forall f, rep (sv_n (b_sv (s_bk st))) (sv_psi (b_sv (s_bk st))) (pull (ni_list (b_ni (s_bk st))) f)
      = c * den (seq_ops (outc (s_res st)) pre) psi0 f }.
Lemma ni_index_ok s n : ni_inv s -> In n (ni_list s) -> exists i, ni_index s n = Ok i /\ nth_error (ni_list s) i = Some n.
Proof.
  intros [ND H] K. apply In_nth_error in K. destruct K as [i K]. exists i. unfold ni_index. rewrite (proj2 (H n i) K). auto.
Qed.
Lemma nth_error_lt {A} (l : list A) i a : nth_error l i = Some a -> (i < length l)%nat.
Proof. intros H. apply nth_error_Some. congruence. Qed.
Lemma amp_app1 psi n U q l node c Psi blocks halves : n = length l -> NoDup l -> nth_error l q = Some node ->
  sched blocks (2 ^ q) -> sched halves (2 ^ (n - q - 1)) ->
  (forall f, rep n psi (pull l f) = c * Psi f) ->
  forall f, rep n (evolve_single_jit blocks halves psi U n q) (pull l f) = c * app_op (OApp1 U node) Psi f.
Proof.
  intros En ND Hq SB SH H f. assert (Hl : (q < n)%nat) by (subst n; eapply nth_error_lt; eauto).
  rewrite evolve_single_rep by auto. cbn [app_op].
  rewrite !(rep_ext n psi (upd (pull l f) q _) (pull l (upd f node _))) by (intros i Hi; eapply pull_upd; eauto; lia).
  rewrite !H. change (pull l f q) with (f (nth q l 0%nat)). rewrite (nth_nth_error _ _ _ _ Hq). ring.
Qed.
Lemma amp_cz psi n q1 q2 l u v c Psi order : n = length l -> nth_error l q1 = Some u -> nth_error l q2 = Some v ->
  sched order (2 ^ n) ->
  (forall f, rep n psi (pull l f) = c * Psi f) ->
  forall f, rep n (entangle_jit order psi n q1 q2) (pull l f) = c * app_op (OCz u v) Psi f.
Proof.
  intros En H1 H2 SO H f. rewrite entangle_rep by (auto; subst n; eapply nth_error_lt; eauto). cbn [app_op]. rewrite H.
  unfold pull. rewrite (nth_nth_error _ _ _ _ H1), (nth_nth_error _ _ _ _ H2). ring.
Qed.
Lemma amp_prep psi n v l node c Psi psi' : n = length l ->
  rep (S n) psi' = app_op (OPrep v n) (rep n psi) ->
  (forall f, rep n psi (pull l f) = c * Psi f) ->
  forall f, rep (S n) psi' (pull (l ++ [node]) f) = c * app_op (OPrep v node) Psi f.
Proof.
  intros En E H f. rewrite E. cbn [app_op]. unfold pull at 1. subst n. rewrite app_nth2, Nat.sub_diag by lia. cbn [nth].
  rewrite (rep_ext _ psi (pull (l ++ [node]) f) (pull l f)); [rewrite H; ring|].
  intros i Hi. unfold pull. rewrite app_nth1 by auto. auto.
Qed.
Lemma amp_branch psi n v q l node c Psi : n = length l -> NoDup l -> nth_error l q = Some node ->
  (forall f, rep n psi (pull l f) = c * Psi f) ->
  forall f, mbranch v q (rep n psi) (pull (ldel q l) f) = c * app_op (OMeas v node) Psi f.
Proof.
  intros En ND Hq H f. unfold mbranch. cbn [app_op].
  rewrite !(rep_ext n psi (ins q _ (pull (ldel q l) f)) (pull l (upd f node _))) by (intros i Hi; eapply pull_ins; eauto; lia).
  rewrite !H. ring.
Qed.
Lemma wt_amp n psi l c Psi : n = length l -> NoDup l -> (forall f, rep n psi (pull l f) = c * Psi f) ->
  sqnorm n (rep n psi) = (Cnorm2 c * wt l Psi)%R.
Proof.
  intros -> ND H. unfold wt. rewrite <- sqnorm_scale. apply sqnorm_ext. intros g. rewrite <- H.
  apply rep_ext. intros i Hi. symmetry. apply pull_place; auto.
Qed.

Lemma mbranch_ext v n q psi f g : (q < n)%nat -> (forall i, (i < n - 1)%nat -> f i = g i) -> mbranch v q (rep n psi) f = mbranch v q (rep n psi) g.
Proof.
  intros Hq H. unfold mbranch.
  assert (K : forall b, rep n psi (ins q b f) = rep n psi (ins q b g)).
  { intros b. apply rep_ext. intros i Hi. unfold ins. destruct (Nat.ltb_spec i q); [apply H; lia|].
    destruct (Nat.eqb_spec i q); auto. apply H; lia. }
  rewrite !K. auto.
Qed.
Lemma ldel_length {A} (l : list A) q a : nth_error l q = Some a -> length (ldel q l) = (length l - 1)%nat.
Proof. intros H. destruct (ldel_split _ _ _ H) as (x & y & -> & _ & ->). rewrite !app_length. simpl. lia. Qed.
Lemma ldel_NoDup {A} (l : list A) q a : NoDup l -> nth_error l q = Some a -> NoDup (ldel q l).
Proof. intros ND H. destruct (ldel_split _ _ _ H) as (x & y & -> & _ & ->). eapply NoDup_remove_1; eauto. Qed.
Lemma wt_branch psi n v q l node c Psi : n = length l -> NoDup l -> nth_error l q = Some node ->
  (forall f, rep n psi (pull l f) = c * Psi f) ->
  sqnorm (n - 1) (mbranch v q (rep n psi)) = (Cnorm2 c * wt (ldel q l) (app_op (OMeas v node) Psi))%R.
Proof.
  intros En ND Hq H. unfold wt. rewrite (ldel_length l q node), <- En by auto. rewrite <- sqnorm_scale. apply sqnorm_ext. intros g.
  rewrite <- (amp_branch psi n v q l node c Psi En ND Hq H). apply mbranch_ext; [subst n; eapply nth_error_lt; eauto|].
  intros i Hi. symmetry. apply pull_place; [eapply ldel_NoDup; eauto|]. rewrite (ldel_length l q node); auto. lia.
Qed.
(** the norm of a register does not depend on the order of its nodes *)
Lemma wt_perm l l' Psi : NoDup l -> Permutation l l' -> wt l Psi = wt l' Psi.
Proof.
  intros ND P. assert (ND' : NoDup l') by (eapply Permutation_NoDup; eauto). unfold wt.
  pose proof (Permutation_length P) as EL. rewrite <- EL. set (n := length l) in *.
  set (psi := fun i => Psi (place l (bits n i))). set (perm := map (fun x => pos_of x l) l').
  assert (E1 : forall g, rep n psi g = Psi (place l g)).
  { intros g. unfold rep, psi. f_equal. extensionality x. unfold place. destruct (lmem x l) eqn:E; auto.
    apply lmem_In in E. apply (idx_inj n); [apply idx_bits, idx_lt|]. apply (pos_of_nth l x 0%nat E). }
  assert (PP : check_permutation perm n = true).
  { apply check_permutation_iff. apply NoDup_Permutation_bis.
    - apply NoDup_map_in; auto. intros x y Hx Hy Exy.
      apply (Permutation_in _ (Permutation_sym P)) in Hx, Hy.
      rewrite <- (proj2 (pos_of_nth l x 0%nat Hx)), <- (proj2 (pos_of_nth l y 0%nat Hy)). congruence.
    - unfold perm, range. rewrite seq_length, map_length. lia.
    - intros x Hx. apply in_map_iff in Hx. destruct Hx as (y & <- & Hy). apply (Permutation_in _ (Permutation_sym P)) in Hy.
      apply in_seq. pose proof (pos_of_nth l y 0%nat Hy). unfold n. lia. }
  destruct (permute psi n perm) as [psi'|] eqn:EP; [|unfold permute in EP; rewrite PP in EP; discriminate].
  rewrite <- (sqnorm_ext n _ _ E1). rewrite <- (sqnorm_permute _ _ _ _ EP). apply sqnorm_ext. intros f.
  rewrite (permute_rep _ _ _ _ EP f (fun j => f (pos_of (nth j l 0%nat) l'))).
  - rewrite E1. f_equal. extensionality x. unfold place.
    assert (lmem x l = lmem x l') as ->.
    { apply eq_true_iff_eq. rewrite !lmem_In. split; apply Permutation_in; auto using Permutation_sym. }
    destruct (lmem x l') eqn:E; auto. apply lmem_In in E. apply (Permutation_in _ (Permutation_sym P)) in E.
    rewrite (proj2 (pos_of_nth l x 0%nat E)). auto.
  - intros i Hi. unfold perm. rewrite (nth_indep (map (fun x => pos_of x l) l') 0%nat (pos_of 0%nat l)) by (rewrite map_length; lia). rewrite (map_nth (fun x => pos_of x l)).
    assert (In (nth i l' 0%nat) l) by (apply (Permutation_in _ (Permutation_sym P)), nth_In; lia).
    rewrite (proj2 (pos_of_nth l _ 0%nat H)). rewrite pos_of_nth' by (auto; lia). auto.
Qed.
Lemma vplus_plus : vplus = plus_state.
Proof. unfold vplus, plus_state, planar_state. rewrite cis_0. veq; ceq; field; apply Rgt_not_eq, sqrt_lt_R0; lra. Qed.
Lemma st_arr_rep s f : rep 1 (st_arr s) f = vget (nstate_vec s) (f 0%nat).
Proof. unfold rep, st_arr. simpl. destruct (f 0%nat); reflexivity. Qed.
Lemma app_inj_len {A} (a b c d : list A) : length a = length b -> a ++ c = b ++ d -> a = b /\ c = d.
Proof.
  revert b; induction a as [|x a IH]; intros [|y b] L E; simpl in *; try discriminate; auto.
  injection E as -> E. apply IH in E; [|lia]. destruct E as [-> ->]; auto.
Qed.
Lemma Cmul_assoc' a b c : a * (b * c) = a * b * c.
Proof. ring. Qed.
Lemma add1_rep close1 s st : exists psi', sv_add_nodes close1 s 1 (DState st) = Ok (SV psi' (S (sv_n s)))
  /\ rep (S (sv_n s)) psi' = app_op (OPrep (nstate_vec st) (sv_n s)) (rep (sv_n s) (sv_psi s)).
Proof.
  destruct st as [|v].
  - eexists. split; [reflexivity|]. rewrite add_default_rep, vplus_plus. reflexivity.
  - exists (tensor_jit (sv_psi s) (st_arr (SVec v)) (sv_n s) 1). split.
    + unfold sv_add_nodes. cbn [sv_make rbind]. cbn [repeat kron_states fold_left sv_psi sv_n]. rewrite Nat.add_1_r. reflexivity.
    + rewrite <- Nat.add_1_r, tensor_rep. extensionality f. rewrite st_arr_rep. cbn [app_op]. unfold shiftn. rewrite Nat.add_0_r. ring.
Qed.
Definition prep_ok (l : list cmd) : Prop := forall n v, In (CN n (SVec v)) l -> vnorm2 v = 1%R.
Lemma vnorm2_plus : vnorm2 plus_state = 1%R.
Proof. apply planar_state_norm. Qed.
Lemma phase_mul_norm c d : phase c -> Cnorm2 (c * d) = Cnorm2 d.
Proof. intros H. rewrite Cnorm2_mul, H. ring. Qed.
Lemma atol_pos : (0 < atol)%R.
Proof. unfold atol. lra. Qed.

Section Refine.
Variable ord : nat -> nat -> list nat.
Hypothesis Hord : forall t n, sched (ord t n) n.
Variables (close1 : R -> bool) (sel : selector) (g : rng) (inp : list nat) (psi0 : state).
Hypothesis Hinp : NoDup inp.

Lemma apply_single_ok b n U l : ni_inv (b_ni b) -> l = ni_list (b_ni b) -> In n l -> sv_n (b_sv b) = length l -> unitary U ->
  exists b', bk_apply_single ord b n U = Ok b' /\ b_ni b' = b_ni b /\ sv_n (b_sv b') = sv_n (b_sv b)
   /\ sqnorm (sv_n (b_sv b')) (rep (sv_n (b_sv b')) (sv_psi (b_sv b'))) = sqnorm (sv_n (b_sv b)) (rep (sv_n (b_sv b)) (sv_psi (b_sv b)))
   /\ forall c Psi, (forall f, rep (sv_n (b_sv b)) (sv_psi (b_sv b)) (pull l f) = c * Psi f) ->
      forall f, rep (sv_n (b_sv b')) (sv_psi (b_sv b')) (pull l f) = c * app_op (OApp1 U n) Psi f.
Proof.
  intros HI El Hn En HU. subst l. destruct (ni_index_ok _ _ HI Hn) as (i & Ei & Hi). pose proof (nth_error_lt _ _ _ Hi) as Li.
  unfold bk_apply_single, sv_evolve_single, check_bounds. rewrite Ei. cbn [rbind].
  replace (i <? sv_n (b_sv b))%nat with true by (symmetry; apply Nat.ltb_lt; lia). cbn [rbind].
  eexists. split; [reflexivity|]. cbn [b_ni b_sv sv_n sv_psi]. do 2 (split; [reflexivity|]). split.
  - apply sqnorm_evolve; auto. lia.
  - intros c Psi H. apply amp_app1; auto. apply HI.
Qed.
Lemma live_listed pre st n : Inv inp psi0 pre st -> runnable inp pre -> live inp pre n -> In n (ni_list (b_ni (s_bk st))).
Proof.
  intros HI HR HL. eapply Permutation_in; [apply Permutation_sym, (inv_perm _ _ _ _ HI)|]. apply (outs_of_live inp pre Hinp HR). auto.
Qed.
(** the failure of a measurement: the requested outcome [b] has conditional
    probability at most 2 atol *)
Definition negligible (pre : list cmd) (c : cmd) (o : nat -> bool) : Prop :=
  (wt (outs_of inp (pre ++ [c])) (den (seq_ops o (pre ++ [c])) psi0) <= 2 * atol * wt (outs_of inp pre) (den (seq_ops o pre) psi0))%R.
(** the outcome map [o] with outcome [b] for node [n] *)
Definition with_out (o : nat -> bool) (n : nat) (b : bool) : nat -> bool := fun k => if (n =? k)%nat then b else o k.
(** [p0] is the probability of outcome 0 for the measurement [c] of node [n],
    given the outcomes [o] of the measurements in [pre] *)
Definition prob0 (pre : list cmd) (c : cmd) (o : nat -> bool) (n : nat) (p0 : R) : Prop :=
  (p0 * wt (outs_of inp pre) (den (seq_ops o pre) psi0) = wt (outs_of inp (pre ++ [c])) (den (seq_ops (with_out o n false) (pre ++ [c])) psi0))%R.
Lemma outc_dset r n b : outc (dset r n b) = with_out (outc r) n b.
Proof. extensionality k. unfold outc, with_out. rewrite dget_dset. destruct (n =? k)%nat; auto. Qed.
Lemma sim_step_inv pre c st : runnable inp (pre ++ [c]) -> no_S [c] = true -> prep_ok [c] -> Inv inp psi0 pre st ->
  match sim_step ord close1 sel g st c with
  | Ok st' => Inv inp psi0 (pre ++ [c]) st' /\ (forall k, measured_in pre k -> dget (s_res st') k = dget (s_res st) k) /\
      ((forall n m s t, c <> CM n m s t) -> s_rng st' = s_rng st) /\
      (forall n m s t, c = CM n m s t -> exists p0, prob0 pre c (outc (s_res st)) n p0 /\ sel_measure sel g (s_rng st) n p0 = Ok (outc (s_res st') n, s_rng st'))
  | Err e => exists n m s t, c = CM n m s t /\
      exists p0, prob0 pre c (outc (s_res st)) n p0 /\
      (sel_measure sel g (s_rng st) n p0 = Err e \/
       (e = ERuntime /\ exists b k, sel_measure sel g (s_rng st) n p0 = Ok (b, k) /\ negligible pre c (with_out (outc (s_res st)) n b)))
  end.
Proof.
  intros HR HS HP HI. pose proof HR as HR0. apply runnable_snoc in HR. destruct HR as [HR HC].
  pose proof HI as [I1 I2 I3 I4 I5 (c0 & I6)]. pose proof (proj1 I1) as ND.
  assert (DOM : forall d, (forall k, mem k d = true -> measured_in pre k) -> res_parity (s_res st) d = Ok (parity (outc (s_res st)) d)).
  { intros d Hd. apply res_parity_ok. intros k Hk. apply I4, Hd; auto. }
  assert (NM : forall x, measured_in (pre ++ [x]) = measured_in (pre ++ [x])) by auto.
  assert (ME : forall k, (forall n m s t, c <> CM n m s t) -> measured_in (pre ++ [c]) k <-> measured_in pre k).
  { intros k H. rewrite measured_app. split; auto. intros [K|K]; auto. apply measured_one in K. destruct K as (m & s & t & E). destruct (H _ _ _ _ E). }
  assert (AP : forall n U (E : (forall m s t, c <> CM n m s t)), (forall n m s t, c <> CM n m s t) -> (forall n s, c <> CN n s) ->
     seq_ops (outc (s_res st)) [c] = [OApp1 U n] -> live inp pre n -> unitary U ->
     exists b', bk_apply_single ord (s_bk st) n U = Ok b' /\ Inv inp psi0 (pre ++ [c]) (Sim b' (s_res st) (s_rng st))).
  { intros n U _ H1 H2 E HL HU.
    destruct (apply_single_ok (s_bk st) n U _ I1 eq_refl (live_listed _ _ _ HI HR HL) I3 HU) as (b' & Eb & E1 & E2 & E3 & E4).
    exists b'. split; auto. constructor; cbn [s_bk s_res s_rng].
    - rewrite E1; auto.
    - rewrite E1, outs_of_app. destruct c; simpl; auto; [destruct (H2 _ _ eq_refl)|destruct (H1 _ _ _ _ eq_refl)].
    - rewrite E1, E2; auto.
    - intros k. rewrite I4. symmetry. apply ME; auto.
    - rewrite E3; auto.
    - exists c0. rewrite E1. rewrite seq_ops_app, E, den_app. cbn [den]. apply E4; auto. }
  assert (SK : seq_ops (outc (s_res st)) [c] = [] -> (forall n m s t, c <> CM n m s t) -> (forall n s, c <> CN n s) -> Inv inp psi0 (pre ++ [c]) st).
  { intros E H1 H2. constructor; auto.
    - rewrite outs_of_app. destruct c; simpl; auto; [destruct (H2 _ _ eq_refl)|destruct (H1 _ _ _ _ eq_refl)].
    - intros k. rewrite I4. symmetry. apply ME; auto.
    - exists c0. rewrite seq_ops_app, E, app_nil_r. auto. }
  destruct c as [n s|u v|n m s t|n d|n d|n cl|n d|]; cbn [sim_step].
  - (* N *) unfold bk_add_nodes. cbn [length]. destruct (add1_rep close1 (b_sv (s_bk st)) s) as (psi' & Ea & Er). rewrite Ea. cbn [rbind].
    destruct HC as [HC1 HC2].
    assert (NL : ~ In n (ni_list (b_ni (s_bk st)))).
    { intros K. eapply Permutation_in in K; [|exact I2]. apply (outs_of_live inp pre Hinp HR) in K. destruct K as [[K|K] _]; tauto. }
    assert (ND' : NoDup (ni_list (b_ni (s_bk st)) ++ [n])).
    { apply NoDup_app'; auto; [repeat constructor; auto|]. intros x Hx [->|[]]. auto. }
    split; [|split; [auto|split; [auto|discriminate]]].
    constructor; cbn [s_bk s_res s_rng b_ni b_sv sv_n sv_psi].
    + apply ni_extend_inv; auto.
    + unfold ni_extend. cbn [ni_list]. rewrite outs_of_app. simpl. apply Permutation_app_tail; auto.
    + unfold ni_extend. cbn [ni_list]. rewrite app_length, I3. simpl. lia.
    + intros k. rewrite I4. symmetry. apply ME. discriminate.
    + rewrite Er, sqnorm_prep, I5. rewrite Rmult_1_r. destruct s; [apply vnorm2_plus|]. apply (HP n v). simpl; auto.
    + exists c0. unfold ni_extend. cbn [ni_list]. rewrite seq_ops_app, den_app. simpl seq_ops. cbn [den].
      eapply amp_prep; eauto.
  - (* E *) destruct HC as [Hu Hv]. pose proof (live_listed _ _ _ HI HR Hu) as Ku. pose proof (live_listed _ _ _ HI HR Hv) as Kv.
    destruct (ni_index_ok _ _ I1 Ku) as (i & Ei & Hi). destruct (ni_index_ok _ _ I1 Kv) as (j & Ej & Hj).
    pose proof (nth_error_lt _ _ _ Hi). pose proof (nth_error_lt _ _ _ Hj).
    unfold bk_entangle, sv_entangle, check_bounds. rewrite Ei, Ej. cbn [rbind].
    replace (i <? sv_n (b_sv (s_bk st)))%nat with true by (symmetry; apply Nat.ltb_lt; lia). cbn [rbind].
    replace (j <? sv_n (b_sv (s_bk st)))%nat with true by (symmetry; apply Nat.ltb_lt; lia). cbn [rbind].
    split; [|split; [auto|split; [auto|discriminate]]].
    constructor; cbn [s_bk s_res s_rng b_ni b_sv sv_n sv_psi]; auto.
    + rewrite outs_of_app. auto.
    + intros k. rewrite I4. symmetry. apply ME. discriminate.
    + rewrite sqnorm_entangle; auto; lia.
    + exists c0. rewrite seq_ops_app, den_app. simpl seq_ops. cbn [den]. apply amp_cz; auto.
  - (* M *) destruct HC as [HL HD]. rewrite !DOM by (intros; apply HD; auto). cbn [rbind].
    fold (describe_measurement (outc (s_res st)) m s t). set (m' := describe_measurement (outc (s_res st)) m s t).
    change (if parity (outc (s_res st)) t then meas_clifford (if parity (outc (s_res st)) s then meas_clifford m K1 else m) K3 else if parity (outc (s_res st)) s then meas_clifford m K1 else m) with m'.
    pose proof (live_listed _ _ _ HI HR HL) as Kn. destruct (ni_index_ok _ _ I1 Kn) as (i & Ei & Hi). pose proof (nth_error_lt _ _ _ Hi) as Li.
    unfold bk_measure. rewrite Ei. cbn [rbind]. unfold sv_expectation_single, check_bounds.
    assert (Lb : (i <? sv_n (b_sv (s_bk st)))%nat = true) by (apply Nat.ltb_lt; lia).
    rewrite Lb. cbn [rbind].
    set (ev := expectation_single_jit _ _ _ _ _ _).
    assert (Li' : (i < sv_n (b_sv (s_bk st)))%nat) by lia.
    set (Psi := den (seq_ops (outc (s_res st)) pre) psi0) in *.
    (* the outcome map after recording an outcome *)
    assert (NMn : ~ measured_in pre n) by apply HL.
    assert (OE : forall b k, measured_in pre k -> with_out (outc (s_res st)) n b k = outc (s_res st) k).
    { intros b k0 Hk. unfold with_out. destruct (Nat.eqb_spec n k0); auto. subst; tauto. }
    assert (On : forall b, with_out (outc (s_res st)) n b n = b) by (intros b; unfold with_out; rewrite Nat.eqb_refl; auto).
    assert (SE : forall b, seq_ops (with_out (outc (s_res st)) n b) pre = seq_ops (outc (s_res st)) pre) by (intros b; apply (seq_ops_ext' inp); auto).
    assert (CE' : forall b, seq_ops (with_out (outc (s_res st)) n b) [CM n m s t] = [OMeas (mvec m' b) n]).
    { intros b. simpl. rewrite On. unfold m', describe_measurement. rewrite !(parity_ext (with_out (outc (s_res st)) n b) (outc (s_res st))); auto; intros; apply OE, HD; auto. }
    assert (DE : forall b, den (seq_ops (with_out (outc (s_res st)) n b) (pre ++ [CM n m s t])) psi0 = app_op (OMeas (mvec m' b) n) Psi).
    { intros b. rewrite seq_ops_app, SE, CE', den_app. reflexivity. }
    assert (WB := fun b => wt_branch (sv_psi (b_sv (s_bk st))) (sv_n (b_sv (s_bk st))) (mvec m' b) i _ n c0 Psi I3 ND Hi I6).
    assert (W1 := wt_amp _ _ _ _ _ I3 ND I6). rewrite I5 in W1.
    assert (PL : Permutation (ldel i (ni_list (b_ni (s_bk st)))) (outs_of inp (pre ++ [CM n m s t]))).
    { rewrite outs_of_app. simpl. destruct (ldel_split _ _ _ Hi) as (a & c & EL & _ & ED). rewrite ED.
      rewrite EL in I2, ND. eapply perm_trans; [|apply lremove_Permutation; exact I2].
      apply Permutation_cons_inv with (a := n). eapply perm_trans; [apply Permutation_middle|]. apply lremove_perm. apply in_or_app; simpl; auto. }
    pose proof (Cnorm2_nonneg c0) as P0.
    assert (P1 : (0 < Cnorm2 c0)%R). { destruct P0 as [P0|P0]; auto. rewrite <- P0 in W1. lra. }
    assert (PR0 : prob0 pre (CM n m s t) (outc (s_res st)) n (re ev)).
    { unfold prob0. rewrite DE. fold Psi. rewrite <- (wt_perm _ _ _ (ldel_NoDup _ _ _ ND Hi) PL). rewrite <- (wt_perm _ _ Psi ND I2).
      unfold ev. rewrite <- mvec_proj, expectation_branch by auto. rewrite WB. cbn [re RtoC].
      set (w := wt (ni_list (b_ni (s_bk st))) Psi) in *. set (w' := wt (ldel i _) _).
      replace (Cnorm2 c0 * w' * w)%R with (w' * (Cnorm2 c0 * w))%R by ring. rewrite <- W1. ring. }
    destruct (sel_measure sel g (s_rng st) n (re ev)) as [[b k]|e] eqn:ES; cbn [rbind];
      [|exists n, m, s, t; split; auto; exists (re ev); split; auto].
    cbn [fst snd]. unfold sv_project_qubit, check_bounds. rewrite Lb. cbn [rbind]. rewrite <- mvec_proj.
    pose proof (project_rep (ord (S (b_clk (s_bk st))) (2 ^ i)) (ord (S (b_clk (s_bk st))) (2 ^ (sv_n (b_sv (s_bk st)) - i - 1)))
      (sv_psi (b_sv (s_bk st))) (mvec m' b) (sv_n (b_sv (s_bk st))) i atol Li' (Hord _ _) (Hord _ _) (mvec_norm m' b) (Rlt_le _ _ atol_pos)) as PR.
    cbv zeta in PR.
    destruct (project_qubit_jit _ _ _ _ _ _ _) as [[psi' n']|]; cbn [rbind].
    + destruct PR as (-> & HN & ph & Hph & Er).
      destruct (ni_remove (b_ni (s_bk st)) n) as [ni'|e] eqn:ER; cbn [rbind].
      * destruct (ni_remove_inv _ _ _ I1 ER) as (I1' & a & c & EL & EL').
        assert (ELd : ni_list ni' = ldel i (ni_list (b_ni (s_bk st)))).
        { destruct (ldel_split _ _ _ Hi) as (a2 & c2 & EL2 & La2 & ->). rewrite EL'. rewrite EL in EL2, ND, Hi.
          assert (length a = length a2).
          { rewrite La2. eapply NoDup_nth_inj; [exact ND| |exact Hi]. rewrite nth_error_app2, Nat.sub_diag by lia. reflexivity. }
          assert (a = a2 /\ n :: c = n :: c2) as [-> E2] by (apply app_inj_len; auto). injection E2 as ->. reflexivity. }
        split; [|split; [|split]].
        -- constructor; cbn [s_bk s_res s_rng b_ni b_sv sv_n sv_psi]; auto.
           ++ rewrite ELd; auto.
           ++ rewrite ELd, (ldel_length _ _ n) by exact Hi. lia.
           ++ intros k0. rewrite measured_app, <- I4. rewrite dget_dset. split.
              ** intros [x Hx]. destruct (Nat.eqb_spec n k0) as [E0|E0]; [right; rewrite <- E0; apply measured_one; eauto|left; eauto].
              ** intros [[x Hx]|K]; [destruct (Nat.eqb_spec n k0); eauto|]. apply measured_one in K. destruct K as (? & ? & ? & K). injection K as -> _ _ _. rewrite Nat.eqb_refl. eauto.
           ++ eapply (sqnorm_project _ _ _ _ _ ph); eauto. pose proof atol_pos. lra.
           ++ eexists. intros f. rewrite ELd, Er. unfold cscale. rewrite (amp_branch _ _ _ _ _ n c0 Psi); auto.
              rewrite outc_dset, DE. rewrite Cmul_assoc'. reflexivity.
        -- cbn [s_res]. intros k0 Hk. rewrite dget_dset. destruct (Nat.eqb_spec n k0) as [E0|E0]; auto. rewrite E0 in NMn. tauto.
        -- intros N. destruct (N n m s t eq_refl).
        -- intros ? ? ? ? E. injection E as <- <- <- <-. exists (re ev). split; auto. cbn [s_res s_rng]. rewrite outc_dset, On. auto.
      * exfalso. unfold ni_remove in ER. pose proof (proj2 (proj2 I1 n i) Hi) as Ed. rewrite Ed in ER.
        replace (i <? length (ni_list (b_ni (s_bk st))))%nat with true in ER by (symmetry; apply Nat.ltb_lt; lia). discriminate.
    + exists n, m, s, t. split; auto. exists (re ev). split; auto. right. split; auto. exists b, k. split; auto. unfold negligible.
      rewrite DE. rewrite SE. fold Psi.
      rewrite <- (wt_perm _ _ _ (ldel_NoDup _ _ _ ND Hi) PL). rewrite <- (wt_perm _ _ Psi ND I2).
      rewrite WB in PR. set (w := wt (ni_list (b_ni (s_bk st))) Psi) in *.
      apply Rmult_le_reg_l with (Cnorm2 c0); auto.
      replace (Cnorm2 c0 * (2 * atol * w))%R with (2 * atol * (Cnorm2 c0 * w))%R by ring. rewrite <- W1. lra.
  - (* X *) destruct HC as [HL HD]. rewrite DOM by auto. cbn [rbind]. destruct (parity (outc (s_res st)) d) eqn:EP.
    + destruct (AP n mX) as (b' & Eb & HI'); auto using unitary_X; try discriminate; [simpl; rewrite EP; auto|]. rewrite Eb. cbn [rbind].
      split; auto. split; [auto|split; [auto|discriminate]].
    + split; [apply SK; try discriminate; simpl; rewrite EP; auto|]. split; [auto|split; [auto|discriminate]].
  - (* Z *) destruct HC as [HL HD]. rewrite DOM by auto. cbn [rbind]. destruct (parity (outc (s_res st)) d) eqn:EP.
    + destruct (AP n mZ) as (b' & Eb & HI'); auto using unitary_Z; try discriminate; [simpl; rewrite EP; auto|]. rewrite Eb. cbn [rbind].
      split; auto. split; [auto|split; [auto|discriminate]].
    + split; [apply SK; try discriminate; simpl; rewrite EP; auto|]. split; [auto|split; [auto|discriminate]].
  - (* C *) destruct (AP n (clifford_mat cl)) as (b' & Eb & HI'); auto using clifford_unitary; try discriminate. rewrite Eb. cbn [rbind].
    split; auto. split; [auto|split; [auto|discriminate]].
  - discriminate.
  - split; [apply SK; try discriminate; auto|]. split; [auto|split; [auto|discriminate]].
Qed.

(** * A whole run *)
(** [selected l o k]: [o] is the history of outcomes that the branch selector
    chooses along [l], each from the exact probability of outcome 0 given the
    earlier outcomes; [k] values have been drawn *)
Inductive selected : list cmd -> (nat -> bool) -> nat -> Prop :=
| sel_nil o : selected [] o 0
| sel_other l c o k : selected l o k -> (forall n m s t, c <> CM n m s t) -> selected (l ++ [c]) o k
| sel_meas l n m s t o k p0 k' : selected l o k -> prob0 l (CM n m s t) o n p0 ->
    sel_measure sel g k n p0 = Ok (o n, k') -> selected (l ++ [CM n m s t]) o k'.
(** a run fails at a measurement: either the selector fails, or the outcome it
    selects has conditional probability at most 2 atol *)
Definition fails (l : list cmd) (e : err) : Prop :=
  exists a n m s t b o k p0, l = a ++ CM n m s t :: b /\ selected a o k /\ prob0 a (CM n m s t) o n p0 /\
    (sel_measure sel g k n p0 = Err e \/
     (e = ERuntime /\ exists x k', sel_measure sel g k n p0 = Ok (x, k') /\ negligible a (CM n m s t) (with_out o n x))).

Lemma measured_snoc l c n : measured_in l n -> measured_in (l ++ [c]) n.
Proof. intros H. apply measured_app; auto. Qed.
Lemma prob0_ext l n m s t o o' p0 : runnable inp (l ++ [CM n m s t]) -> (forall k, measured_in l k -> o k = o' k) ->
  prob0 l (CM n m s t) o n p0 -> prob0 l (CM n m s t) o' n p0.
Proof.
  intros HR H. unfold prob0. pose proof HR as HR'. apply runnable_snoc in HR'. destruct HR' as [HRl _].
  rewrite (seq_ops_ext' inp l o o' HRl H).
  rewrite (seq_ops_ext' inp (l ++ [CM n m s t]) (with_out o n false) (with_out o' n false) HR); auto.
  intros k Hk. unfold with_out. destruct (Nat.eqb_spec n k) as [E|E]; auto. apply measured_app in Hk. destruct Hk as [Hk|Hk]; auto.
  apply measured_one in Hk. destruct Hk as (? & ? & ? & Hk). congruence.
Qed.
Lemma selected_ext l o k : selected l o k -> runnable inp l -> forall o', (forall n, measured_in l n -> o n = o' n) -> selected l o' k.
Proof.
  induction 1 as [o|l c o k HS IH HC|l n m s t o k p0 k' HS IH HP HM]; intros HR o' HO; pose proof HR as HR0.
  - constructor.
  - apply runnable_snoc in HR. constructor; auto. apply IH; [apply HR|]. intros; apply HO, measured_snoc; auto.
  - apply runnable_snoc in HR. eapply sel_meas with (p0 := p0).
    + apply IH; [apply HR|]. intros; apply HO, measured_snoc; auto.
    + eapply prob0_ext; [exact HR0| |exact HP]. intros; apply HO, measured_snoc; auto.
    + rewrite <- HO; eauto. apply measured_app. right. apply measured_one. eauto.
Qed.
Lemma fails_snoc l c e : fails l e -> fails (l ++ [c]) e.
Proof.
  intros (a & n & m & s & t & b & o & k & p0 & -> & H). exists a, n, m, s, t, (b ++ [c]), o, k, p0. rewrite <- app_assoc. auto.
Qed.
Lemma sim_fold st0 l : Inv inp psi0 [] st0 -> s_rng st0 = 0%nat -> runnable inp l -> no_S l = true -> prep_ok l ->
  match rfold (sim_step ord close1 sel g) l st0 with
  | Ok st => Inv inp psi0 l st /\ selected l (outc (s_res st)) (s_rng st)
  | Err e => fails l e
  end.
Proof.
  intros H0 K0. induction l as [|c l IH] using rev_ind; intros HR HS HP.
  - simpl. split; auto. rewrite K0. constructor.
  - pose proof HR as HR0. apply runnable_snoc in HR. destruct HR as [HR HC].
    unfold no_S in HS. rewrite forallb_app in HS. apply andb_true_iff in HS. destruct HS as [HS1 HS2].
    assert (HP1 : prep_ok l) by (intros n v Hn; apply (HP n v), in_or_app; auto).
    assert (HP2 : prep_ok [c]) by (intros n v Hn; apply (HP n v), in_or_app; auto).
    specialize (IH HR HS1 HP1). rewrite rfold_app.
    destruct (rfold (sim_step ord close1 sel g) l st0) as [st|e]; [|apply fails_snoc; auto].
    destruct IH as [HI HSel]. cbn [rfold].
    pose proof (sim_step_inv l c st HR0 HS2 HP2 HI) as ST.
    destruct (sim_step ord close1 sel g st c) as [st'|e].
    + destruct ST as (HI' & HK & HG & HM). split; auto.
      assert (EX : forall n, measured_in l n -> outc (s_res st) n = outc (s_res st') n) by (intros n Hn; unfold outc; rewrite HK; auto).
      pose proof (selected_ext _ _ _ HSel HR _ EX) as HSel'.
      assert (D : (exists n m s t, c = CM n m s t) \/ (forall n m s t, c <> CM n m s t)) by (destruct c; eauto 6; right; discriminate).
      destruct D as [(n & m & s & t & ->)|D].
      * destruct (HM n m s t eq_refl) as (p0 & P0 & PM). eapply sel_meas; [exact HSel'| |exact PM]. eapply prob0_ext; [exact HR0|exact EX|exact P0].
      * rewrite (HG D). apply sel_other; auto.
    + destruct ST as (n & m & s & t & -> & p0 & P0 & PM). exists l, n, m, s, t, [], (outc (s_res st)), (s_rng st), p0. auto.
Qed.
End Refine.

(** * The input state *)
(** amplitude of the assignment [f] in the product state where the i-th node of
    [l] is in the i-th state of [ss] *)
Fixpoint prod_amp (l : list nat) (ss : list nstate) (f : asg) : C :=
  match l, ss with n :: l', s :: ss' => vget (nstate_vec s) (f n) * prod_amp l' ss' f | _, _ => C1 end.
(** the state of the input nodes given as simulation input; amplitudes are
    big-endian: the first input node is the most significant bit *)
Definition input_state (inp : list nat) (d : data) : state := fun f =>
  match d with
  | DState s => prod_amp inp (repeat s (length inp)) f
  | DStates l => prod_amp inp l f
  | DAmps l => nth (idx (length inp) (pull inp f)) l C0
  end.
(** a normalised state of k qubits *)
Definition data_ok (d : data) (k : nat) : Prop :=
  match d with
  | DState s => vnorm2 (nstate_vec s) = 1%R
  | DStates l => length l = k /\ Forall (fun s => vnorm2 (nstate_vec s) = 1%R) l
  | DAmps l => length l = (2 ^ k)%nat /\ rsum l Cnorm2 = 1%R
  end.
Lemma kron_snoc ss s : rep (S (length ss)) (kron_states (ss ++ [s])) = app_op (OPrep (nstate_vec s) (length ss)) (rep (length ss) (kron_states ss)).
Proof.
  destruct ss as [|s0 ss].
  - simpl kron_states. extensionality f. cbn [length]. rewrite st_arr_rep. cbn [app_op]. unfold rep. ring.
  - cbn [kron_states app]. rewrite fold_left_app. cbn [fold_left]. set (a := fold_left _ ss _). extensionality f. cbn [app_op].
    unfold rep. cbn [idx]. set (k := idx _ f). unfold kron2, st_arr.
    assert (E1 : ((2 * k + (if f (length (s0 :: ss)) then 1 else 0)) / 2 = k)%nat)
      by (rewrite Nat.mul_comm, Nat.div_add_l by lia; destruct (f _); simpl; lia).
    assert (E2 : ((2 * k + (if f (length (s0 :: ss)) then 1 else 0)) mod 2 = (if f (length (s0 :: ss)) then 1 else 0))%nat)
      by (rewrite Nat.add_comm, Nat.mul_comm, Nat.mod_add by lia; destruct (f _); reflexivity).
    fold k. rewrite E1, E2. destruct (f (length (s0 :: ss))); simpl negb; ring.
Qed.
Lemma prod_amp_snoc l ss n s f : length l = length ss -> prod_amp (l ++ [n]) (ss ++ [s]) f = vget (nstate_vec s) (f n) * prod_amp l ss f.
Proof.
  revert ss; induction l as [|x l IH]; intros [|y ss] E; simpl in *; try discriminate; auto. rewrite IH by lia. ring.
Qed.
Lemma kron_amp ss : forall l, length l = length ss -> forall f, rep (length ss) (kron_states ss) (pull l f) = C1 * prod_amp l ss f.
Proof.
  induction ss as [|s ss IH] using rev_ind; intros l El f.
  - destruct l; [|discriminate]. simpl. unfold rep. ring.
  - rewrite app_length in *. simpl in El. destruct (@exists_last _ l) as (l' & n & ->); [intros ->; simpl in El; lia|].
    rewrite app_length in El. simpl in El. simpl length. rewrite Nat.add_1_r.
    rewrite (amp_prep (kron_states ss) (length ss) (nstate_vec s) l' n C1 (prod_amp l' ss)); try lia.
    + cbn [app_op]. rewrite prod_amp_snoc by lia. ring.
    + apply kron_snoc.
    + apply IH. lia.
Qed.
Lemma kron_norm ss : Forall (fun s => vnorm2 (nstate_vec s) = 1%R) ss -> sqnorm (length ss) (rep (length ss) (kron_states ss)) = 1%R.
Proof.
  induction ss as [|s ss IH] using rev_ind; intros H.
  - unfold sqnorm, rbsum, rep, Cnorm2. simpl. ring.
  - apply Forall_app in H. destruct H as [H1 H2]. inversion H2 as [|? ? H3 _]; subst.
    rewrite app_length. simpl. rewrite Nat.add_1_r, kron_snoc, sqnorm_prep, H3, IH; auto. ring.
Qed.
Lemma sv_make_ok close1 d k : close1 1%R = true -> data_ok d k -> exists psi, sv_make close1 d k = Ok (SV psi k)
  /\ sqnorm k (rep k psi) = 1%R /\ forall l, length l = k -> forall f, rep k psi (pull l f) = C1 * input_state l d f.
Proof.
  intros HC H. destruct d as [s|ss|l]; cbn [data_ok sv_make] in *.
  - exists (kron_states (repeat s k)). split; auto. pose proof (repeat_length s k) as L. split.
    + rewrite <- L at 1 2. apply kron_norm. apply Forall_forall. intros x Hx. apply repeat_spec in Hx. subst; auto.
    + intros l El f. pose proof (kron_amp (repeat s k) l) as K. rewrite L in K. unfold input_state. rewrite El. apply K; auto.
  - destruct H as [E H]. rewrite E, Nat.eqb_refl. exists (kron_states ss). split; auto. subst k. split; [apply kron_norm; auto|].
    intros l El f. apply kron_amp; auto.
  - destruct H as [E H]. exists (fun i => nth i l C0). split; [|split].
    + destruct l as [|x l]; [pose proof (pow2_pos k); simpl in E; lia|]. set (L := x :: l) in *. rewrite E, Nat.log2_pow2, Nat.eqb_refl by lia.
      rewrite H, sqrt_1, HC. auto.
    + unfold sqnorm, rbsum, rep. rewrite (bsum_range R Rplus 0%R Rplus_comm (fun a b c => eq_sym (Rplus_assoc a b c)) Rplus_0_r k (fun i => Cnorm2 (nth i l C0))).
      rewrite <- E, <- H. unfold rsum. clear. unfold range.
      assert (EM : map (fun i => nth i l C0) (seq 0 (length l)) = l); [|transitivity (gsum R Rplus 0%R (map (fun i => nth i l C0) (seq 0 (length l))) Cnorm2); [rewrite gsum_map; auto|rewrite EM; auto]].
      apply nth_ext with (d := C0) (d' := C0); rewrite map_length, seq_length; auto. intros i Hi.
      rewrite (nth_indep _ C0 (nth 0 l C0)) by (rewrite map_length, seq_length; auto). rewrite (map_nth (fun i => nth i l C0)). rewrite seq_nth; auto.
    + intros l0 El f. unfold input_state, rep. rewrite El. ring.
Qed.
Lemma init_inv close1 inp d : NoDup inp -> close1 1%R = true -> data_ok d (length inp) ->
  exists b, bk_add_nodes close1 bk_init inp d = Ok b /\ Inv inp (input_state inp d) [] (Sim b [] 0).
Proof.
  intros ND HC HD.
  assert (K : exists psi, sv_add_nodes close1 (b_sv bk_init) (length inp) d = Ok (SV psi (length inp))
    /\ sqnorm (length inp) (rep (length inp) psi) = 1%R /\ forall f, rep (length inp) psi (pull inp f) = C1 * input_state inp d f).
  { assert (G : exists psi, (do o <- sv_make close1 d (length inp); Ok (SV (tensor_jit (fun _ => C1) (sv_psi o) 0 (sv_n o)) (0 + sv_n o))) = Ok (SV psi (length inp))
      /\ sqnorm (length inp) (rep (length inp) psi) = 1%R /\ forall f, rep (length inp) psi (pull inp f) = C1 * input_state inp d f).
    { destruct (sv_make_ok close1 d (length inp) HC HD) as (psi & E & N & A). rewrite E. cbn [rbind sv_psi sv_n Nat.add].
      exists (tensor_jit (fun _ => C1) psi 0 (length inp)). split; auto.
      assert (T : rep (length inp) (tensor_jit (fun _ => C1) psi 0 (length inp)) = rep (length inp) psi).
      { change (length inp) with (0 + length inp)%nat at 1. rewrite tensor_rep. extensionality f. unfold rep at 1. change (shiftn 0 f) with f. ring. }
      rewrite T. split; auto. }
    unfold sv_add_nodes, bk_init. cbn [b_sv sv_psi sv_n].
    destruct (length inp) as [|[|k]] eqn:EL; auto. destruct d as [[|v]|ss|l]; auto.
    exists (add_default_node_jit (fun _ => C1) 0). split; auto. rewrite add_default_rep, vplus_plus. split.
    - rewrite sqnorm_prep, vnorm2_plus. unfold sqnorm, rbsum, rep, Cnorm2. simpl. ring.
    - destruct inp as [|n [|]]; try discriminate. intros f. unfold input_state. cbn [length repeat prod_amp app_op nstate_vec]. unfold rep. change (pull [n] f 0) with (f n). ring. }
  destruct K as (psi & E & N & A). unfold bk_add_nodes. rewrite E. cbn [rbind]. eexists. split; [reflexivity|].
  assert (L : ni_list (ni_extend (b_ni bk_init) inp) = inp) by reflexivity.
  constructor; cbn [s_bk s_res s_rng b_ni b_sv sv_n sv_psi]; rewrite ?L; auto.
  - apply ni_extend_inv; [split; [constructor|]|auto]; simpl. intros n i. unfold dget. simpl. split; [discriminate|destruct i; discriminate].
  - intros k. split; [intros (b & Hb); discriminate|]. intros (? & ? & ? & []).
  - exists C1. auto.
Qed.
Lemma finalize_ok b outs : ni_inv (b_ni b) -> Permutation outs (ni_list (b_ni b)) -> sv_n (b_sv b) = length (ni_list (b_ni b)) ->
  exists b', bk_finalize b outs = Ok b' /\ ni_list (b_ni b') = outs /\ ni_inv (b_ni b') /\ sv_n (b_sv b') = sv_n (b_sv b)
  /\ sqnorm (sv_n (b_sv b')) (rep (sv_n (b_sv b')) (sv_psi (b_sv b'))) = sqnorm (sv_n (b_sv b)) (rep (sv_n (b_sv b)) (sv_psi (b_sv b)))
  /\ forall f, rep (sv_n (b_sv b')) (sv_psi (b_sv b')) (pull outs f) = rep (sv_n (b_sv b)) (sv_psi (b_sv b)) (pull (ni_list (b_ni b)) f).
Proof.
  intros HI HP EN. pose proof (proj1 HI) as ND. set (l := ni_list (b_ni b)) in *.
  assert (NDo : NoDup outs) by (eapply Permutation_NoDup; [apply Permutation_sym; exact HP|auto]).
  assert (F : forall o acc, incl o l -> rfold (fun acc n => do i <- ni_index (b_ni b) n; Ok (acc ++ [i])) o acc = Ok (acc ++ map (fun x => pos_of x l) o)).
  { induction o as [|x o IH]; intros acc Ho; simpl; [rewrite app_nil_r; auto|].
    destruct (ni_index_ok _ x HI (Ho x (or_introl eq_refl))) as (i & Ei & Hi). rewrite Ei. cbn [rbind].
    rewrite IH by (intros y Hy; apply Ho; simpl; auto). rewrite <- app_assoc. simpl. do 3 f_equal.
    fold l in Hi. pose proof (nth_error_lt _ _ _ Hi). rewrite <- (nth_nth_error _ _ 0%nat _ Hi). symmetry. apply pos_of_nth'; auto. }
  unfold bk_finalize. rewrite F by (intros x Hx; eapply Permutation_in; eauto). cbn [rbind app]. set (perm := map _ outs).
  pose proof (Permutation_length HP) as EL.
  assert (PP : check_permutation perm (sv_n (b_sv b)) = true).
  { apply check_permutation_iff. apply NoDup_Permutation_bis.
    - apply NoDup_map_in; auto. intros x y Hx Hy Exy. apply (Permutation_in _ HP) in Hx, Hy.
      rewrite <- (proj2 (pos_of_nth l x 0%nat Hx)), <- (proj2 (pos_of_nth l y 0%nat Hy)). congruence.
    - unfold perm, range. rewrite seq_length, map_length. lia.
    - intros x Hx. apply in_map_iff in Hx. destruct Hx as (y & <- & Hy). apply (Permutation_in _ HP) in Hy.
      apply in_seq. pose proof (pos_of_nth l y 0%nat Hy). lia. }
  unfold sv_permute. destruct (permute (sv_psi (b_sv b)) (sv_n (b_sv b)) perm) as [psi'|] eqn:EP; [|unfold permute in EP; rewrite PP in EP; discriminate].
  cbn [rbind]. eexists. split; [reflexivity|]. cbn [b_ni b_sv sv_n sv_psi]. split; [reflexivity|]. split; [|split; [auto|split]].
  - apply ni_extend_inv; [split; [constructor|]|auto]; simpl. intros n i. unfold dget. simpl. split; [discriminate|destruct i; discriminate].
  - eapply sqnorm_permute; eauto.
  - intros f. apply (permute_rep _ _ _ _ EP). intros i Hi. unfold pull, perm. f_equal.
    rewrite (nth_indep (map (fun x => pos_of x l) outs) 0%nat (pos_of 0%nat l)) by (rewrite map_length; lia). rewrite (map_nth (fun x => pos_of x l)).
    assert (In (nth i outs 0%nat) l) by (eapply Permutation_in; [exact HP|apply nth_In; lia]).
    symmetry. apply (proj2 (pos_of_nth l _ 0%nat H)).
Qed.

(** simulation of a runnable pattern on a normalised input *)
Lemma sim_run_spec ord close1 sel g p d :
  (forall t n, sched (ord t n) n) -> close1 1%R = true ->
  NoDup (p_in p) -> pat_wf p -> runnable (p_in p) (p_seq p) -> no_S (p_seq p) = true -> prep_ok (p_seq p) -> data_ok d (length (p_in p)) ->
  match sim_run ord close1 sel g p d with
  | Ok st => let o := outc (s_res st) in
      selected sel g (p_in p) (input_state (p_in p) d) (p_seq p) o (s_rng st)
      /\ (forall k, (exists b, dget (s_res st) k = Some b) <-> measured_in (p_seq p) k)
      /\ ni_list (b_ni (s_bk st)) = p_out p /\ sv_n (b_sv (s_bk st)) = length (p_out p)
      /\ sqnorm (length (p_out p)) (rep (length (p_out p)) (sv_psi (b_sv (s_bk st)))) = 1%R
      /\ exists c, (Cnorm2 c * wt (p_out p) (den (seq_ops o (p_seq p)) (input_state (p_in p) d)) = 1)%R
         /\ forall f, sv_psi (b_sv (s_bk st)) (idx (length (p_out p)) (pull (p_out p) f)) = c * den (seq_ops o (p_seq p)) (input_state (p_in p) d) f
  | Err e => fails sel g (p_in p) (input_state (p_in p) d) (p_seq p) e
  end.
Proof.
  intros HO HC ND HW HR HS HP HD. unfold sim_run.
  destruct (init_inv close1 (p_in p) d ND HC HD) as (b & Eb & HI). rewrite Eb. cbn [rbind].
  rewrite (proj2 (check_runnability_spec p) HR). cbn [rbind].
  pose proof (sim_fold ord HO close1 sel g (p_in p) (input_state (p_in p) d) ND (Sim b [] 0) (p_seq p) HI eq_refl HR HS HP) as F.
  destruct (rfold _ (p_seq p) _) as [st|e]; cbn [rbind]; auto.
  destruct F as [[I1 I2 I3 I4 I5 (c & I6)] SEL].
  assert (PM : Permutation (p_out p) (ni_list (b_ni (s_bk st)))) by (eapply perm_trans; [exact HW|apply Permutation_sym; auto]).
  destruct (finalize_ok (s_bk st) (p_out p) I1 PM I3) as (b' & Ef & F1 & F2 & F3 & F4 & F5). rewrite Ef. cbn [rbind]. cbn [s_bk s_res s_rng].
  assert (EN : sv_n (b_sv b') = length (p_out p)) by (rewrite F3, I3; symmetry; apply Permutation_length; auto).
  rewrite EN in F4, F5. split; auto. split; auto. split; auto. split; auto. split; [rewrite F4; auto|].
  exists c. split.
  - rewrite <- (wt_amp (length (p_out p)) (sv_psi (b_sv b')) (p_out p) c); auto.
    + rewrite F4; auto.
    + eapply Permutation_NoDup; [apply Permutation_sym; exact PM|apply I1].
    + intros f. rewrite F5. apply I6.
  - intros f. change (sv_psi (b_sv b') (idx (length (p_out p)) (pull (p_out p) f))) with (rep (length (p_out p)) (sv_psi (b_sv b')) (pull (p_out p) f)).
    rewrite F5. apply I6.
Qed.
