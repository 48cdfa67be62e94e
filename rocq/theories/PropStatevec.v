(** Property theorems: state-vector kernels (C28).

    An array [psi] with [n] active qubits holds the state
    [rep n psi : f |-> psi (idx n f)], qubit 0 being the most significant bit of
    the index.  [blocks], [halves] and [order] are the orders in which the
    iterations of the (possibly parallel) loops run: any permutation. *)
From Coq Require Import Reals Lra Arith List Bool Lia Permutation FunctionalExtensionality.
From Verif Require Import Cplx Mat2 QState Statevec.
Import ListNotations.
Local Open Scope C_scope.

(** the index convention: a bijection between bit strings of length n and
    [0, 2^n), big-endian *)
Theorem C28_index_convention : forall n,
  (forall f, (idx n f < 2 ^ n)%nat) /\
  (forall i, (i < 2 ^ n)%nat -> exists f, idx n f = i) /\
  (forall f g, idx n f = idx n g <-> forall k, (k < n)%nat -> f k = g k) /\
  (forall f q, (q < n)%nat -> Nat.testbit (idx n f) (n - 1 - q) = f q).
Proof.
  intros n. repeat split.
  - apply idx_lt.
  - intros i H. exists (bits n i). apply idx_bits; auto.
  - apply idx_inj.
  - apply idx_ext.
  - intros; apply testbit_pos; auto.
Qed.
Print Assumptions C28_index_convention.
(** Statevector.tensor: |psi> (x) |phi> *)
Theorem C28_tensor : forall psi phi n m f,
  rep (n + m) (tensor_jit psi phi n m) f = rep n psi f * rep m phi (fun k => f (n + k)%nat).
Proof. intros. rewrite tensor_rep. reflexivity. Qed.
Print Assumptions C28_tensor.
(** add_nodes with the default state: the new last qubit is |+> *)
Theorem C28_add_plus : forall psi n f,
  rep (S n) (add_default_node_jit psi n) f = RtoC (1 / sqrt 2) * rep n psi f.
Proof. intros. rewrite add_default_rep. cbn [app_op]. unfold vget, vplus. destruct (f n); reflexivity. Qed.
Print Assumptions C28_add_plus.
(** swap exchanges the two qubits *)
Theorem C28_swap : forall psi n u v f, (u < n)%nat -> (v < n)%nat ->
  rep n (swap_jit psi n u v) f = rep n psi (fun k => if (k =? u)%nat then f v else if (k =? v)%nat then f u else f k).
Proof. intros. rewrite swap_rep by auto. reflexivity. Qed.
Print Assumptions C28_swap.
(** entangle multiplies by -1 the amplitudes where both bits are 1 *)
Theorem C28_entangle : forall order psi n u v f, (u < n)%nat -> (v < n)%nat -> sched order (2 ^ n) ->
  rep n (entangle_jit order psi n u v) f = if f u && f v then - rep n psi f else rep n psi f.
Proof. intros. rewrite entangle_rep by auto. cbn [app_op]. destruct (f u && f v); simpl; ring. Qed.
Print Assumptions C28_entangle.
(** evolve_single: the amplitude of f is the matrix row of the bit f q applied
    to the two amplitudes that differ from f at most in q *)
Theorem C28_evolve_single : forall blocks halves psi U n q f, (q < n)%nat ->
  sched blocks (2 ^ q) -> sched halves (2 ^ (n - q - 1)) ->
  rep n (evolve_single_jit blocks halves psi U n q) f
  = mget U (f q) false * rep n psi (upd f q false) + mget U (f q) true * rep n psi (upd f q true).
Proof. intros. rewrite evolve_single_rep by auto. reflexivity. Qed.
Print Assumptions C28_evolve_single.
(** expectation_single: <psi| U_q |psi> *)
Theorem C28_expectation : forall blocks halves psi U n q, (q < n)%nat ->
  sched blocks (2 ^ q) -> sched halves (2 ^ (n - q - 1)) ->
  expectation_single_jit blocks halves psi U n q
  = inner n (rep n psi) (fun f => mget U (f q) false * rep n psi (upd f q false) + mget U (f q) true * rep n psi (upd f q true)).
Proof. intros. rewrite expectation_rep by auto. reflexivity. Qed.
Print Assumptions C28_expectation.
(** project_qubit with the projector |v><v|: the other qubits are left in the
    normalised state proportional to <v|psi>, up to a global phase; it raises
    only if the squared norm N of <v|psi> is negligible, and never returns when
    N <= atol *)
Theorem C28_project : forall blocks halves psi v n q atol, (q < n)%nat ->
  sched blocks (2 ^ q) -> sched halves (2 ^ (n - q - 1)) -> (0 <= atol)%R ->
  (Cnorm2 (v0 v) + Cnorm2 (v1 v) = 1)%R ->
  let branch := fun g => Cconj (v0 v) * rep n psi (ins q false g) + Cconj (v1 v) * rep n psi (ins q true g) in
  let N := sqnorm (n - 1) branch in
  match project_qubit_jit blocks halves psi (vouter v v) n q atol with
  | Some (psi', n') => n' = (n - 1)%nat /\ (atol < N)%R /\ sqnorm n' (rep n' psi') = 1%R /\
      exists c, phase c /\ forall g, rep n' psi' g = c * RtoC (1 / sqrt N) * branch g
  | None => (N <= 2 * atol)%R
  end.
Proof.
  intros blocks halves psi v n q atol H SB SH Ha Hv branch N.
  pose proof (project_rep blocks halves psi v n q atol H SB SH Hv Ha) as K. cbv zeta in K.
  change (mbranch v q (rep n psi)) with branch in K. fold N in K.
  destruct (project_qubit_jit blocks halves psi (vouter v v) n q atol) as [[psi' n']|]; auto.
  destruct K as (-> & HN & c & Hc & E). do 2 (split; auto). split.
  - rewrite E. unfold cscale. rewrite sqnorm_scale. fold N. rewrite Cnorm2_mul, Hc, Cnorm2_R.
    assert (0 < N)%R by lra. assert (S : (sqrt N * sqrt N = N)%R) by (apply sqrt_sqrt; lra).
    assert (0 < sqrt N)%R by (apply sqrt_lt_R0; auto). rewrite <- S at 3. field. lra.
  - exists c. split; auto. intros g. rewrite E. reflexivity.
Qed.
Print Assumptions C28_project.
(** permute: qubit i of the result is qubit permutation[i]; anything but a
    permutation of 0..n-1 is rejected *)
Theorem C28_permute : forall psi n perm,
  match permute psi n perm with
  | Some psi' => Permutation perm (seq 0 n) /\
      forall f g, (forall i, (i < n)%nat -> f i = g (nth i perm 0%nat)) -> rep n psi' f = rep n psi g
  | None => ~ Permutation perm (seq 0 n)
  end.
Proof.
  intros psi n perm. destruct (permute psi n perm) eqn:E.
  - split; [|apply permute_rep; auto]. apply check_permutation_iff. unfold permute in E. destruct (check_permutation perm n); auto; discriminate.
  - intros P. apply check_permutation_iff in P. unfold permute in E. rewrite P in E. discriminate.
Qed.
Print Assumptions C28_permute.

(** non-vacuity: a schedule that is not the sequential one, and a 2-qubit
    array on which CZ changes exactly one amplitude *)
Example C28_sched_nontrivial : sched [3; 1; 0; 2]%nat (2 ^ 2).
Proof.
  unfold sched, range. simpl. apply NoDup_Permutation.
  - repeat constructor; simpl; intuition lia.
  - repeat constructor; simpl; intuition lia.
  - simpl. intuition.
Qed.
Example C28_entangle_example : forall a b c d,
  map (entangle_jit [3; 1; 0; 2]%nat (fun i => nth i [a; b; c; d] C0) 2 0 1) [0; 1; 2; 3]%nat = [a; b; c; - d].
Proof. intros. reflexivity. Qed.
Example C28_project_example : forall a b c d,
  project_qubit_jit [0; 1]%nat [0]%nat (fun i => nth i [a; b; c; d] C0) (vouter (Vec2 C1 C0) (Vec2 C1 C0)) 2 1 0 = None ->
  Cnorm2 a = 0%R /\ Cnorm2 c = 0%R.
Proof.
  intros a b c d H.
  pose proof (C28_project [0; 1]%nat [0]%nat (fun i => nth i [a; b; c; d] C0) (Vec2 C1 C0) 2 1 0) as K. cbv zeta in K. rewrite H in K.
  assert (KK := K ltac:(lia) (sched_range 2) (sched_range 1) ltac:(lra) ltac:(unfold Cnorm2; simpl; ring)). clear K.
  unfold sqnorm, rbsum in KK. simpl in KK. unfold rep, ins, upd, Cnorm2 in *. simpl in KK. split; nra.
Qed.
