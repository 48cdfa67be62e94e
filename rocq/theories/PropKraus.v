(** Property theorems: which arrays are accepted as operators, and which lists of
    operators as channels (C65). *)
From Coq Require Import Reals Lra Arith NArith ZArith List Bool Lia FunctionalExtensionality.
From Verif Require Import Cplx Mat2 NSet QState Pattern Statevec Density.
Import ListNotations.
Local Open Scope nat_scope.

(** ** Model *)
(** a numpy array: its shape, and its entries when it is a matrix *)
Record ndarray := ND { nd_shape : list N; nd_at : cmat }.
(** linalg_validations.py:13-24 is_square *)
Definition is_square (m : ndarray) : bool := match nd_shape m with [rows; cols] => N.eqb rows cols | _ => false end.
Definition nd_size (m : ndarray) : N := hd 0%N (nd_shape m).
(** linalg_validations.py:27-36 is_qubitop: [size > 0 and size & (size - 1) == 0] *)
Definition is_qubitop (m : ndarray) : bool :=
  if negb (is_square m) then false
  else N.ltb 0 (nd_size m) && N.eqb (N.land (nd_size m) (nd_size m - 1)) 0.
(** linalg_validations.py:39-43 is_hermitian *)
Definition is_hermitian (m : ndarray) : bool :=
  if negb (is_square m) then false else allclose (N.to_nat (nd_size m)) (nd_at m) (fun i j => Cconj (nd_at m j i)).
(** linalg_validations.py:67-71 is_unit_trace *)
Definition is_unit_trace (m : ndarray) : bool :=
  if negb (is_square m) then false else isclose (csum (range (N.to_nat (nd_size m))) (fun i => nd_at m i i)) C1.
(** linalg_validations.py:46-64 is_psd.  The function [eigvalsh] is LAPACK's: the
    list of the eigenvalues of a Hermitian matrix *)
Definition is_psd (eigvalsh : ndarray -> list R) (m : ndarray) (tol : R) : res bool :=
  if negb (is_square m) then Ok false
  else if Rlt_dec tol 0 then Err EValue
  else if negb (is_hermitian m) then Ok false
  else Ok (forallb (fun e => if Rle_dec (- tol) e then true else false) (eigvalsh m)).
(** channels.py:20-35 _ilog2; [bit_length] of a non-negative integer is [N.size] *)
Definition ilog2 (n : Z) : res N := if (n <=? 0)%Z then Err EValue else Ok (N.size (Z.to_N (n - 1))).
(** channels.py:38-77 KrausData *)
Record kdata := KD { kd_coef : C; kd_op : ndarray }.
Definition kd_new (coef : C) (op : ndarray) : res kdata :=
  if negb (is_square op) then Err EValue else if negb (is_qubitop op) then Err EValue else Ok (KD coef op).
Definition kd_nqubit (d : kdata) : res N := ilog2 (Z.of_N (nd_size (kd_op d))).
(** channels.py:91-101 _nqubit: the lazy [any(...)] over the other operators *)
Fixpoint same_nqubit (q : N) (l : list kdata) : res N :=
  match l with [] => Ok q | d :: l => do q' <- kd_nqubit d; if N.eqb q' q then same_nqubit q l else Err EValue end.
(** channels.py:103-136 KrausChannel(kraus_data): the number of qubits and the data *)
Definition kc_work (l : list kdata) : cmat := fun i j =>
  csum l (fun d => csum (range (N.to_nat (nd_size (kd_op d)))) (fun r => Cmul (Cconj (Cmul (kd_coef d) (nd_at (kd_op d) r i))) (Cmul (kd_coef d) (nd_at (kd_op d) r j)))).
Definition kc_new (l : list kdata) : res (N * list kdata) :=
  match l with
  | [] => Err EValue
  | d :: ds =>
      do q <- kd_nqubit d;
      do q <- same_nqubit q ds;
      if N.ltb (4 ^ q) (N.of_nat (length l)) then Err EValue
      else if allclose (N.to_nat (2 ^ q)) (kc_work l) eye then Ok (q, l) else Err EValue
  end.

(** ** Operators *)
Lemma land_pred_pow2 n : (0 < n)%N -> (N.land n (n - 1) = 0%N <-> n = (2 ^ N.log2 n)%N).
Proof.
  intros P. set (k := N.log2 n). assert (B : (2 ^ k <= n < 2 ^ N.succ k)%N) by (apply N.log2_spec; auto). split.
  - intros E. destruct (N.eq_dec n (2 ^ k)) as [|Q]; auto. exfalso.
    (* n - 1 still has the leading bit *)
    assert (L : N.log2 (n - 1) = k).
    { apply N.log2_unique; [apply N.le_0_l|]. lia. }
    assert (T1 : N.testbit n k = true) by (apply N.bit_log2; lia).
    assert (T2 : N.testbit (n - 1) k = true). { rewrite <- L. apply N.bit_log2. assert (1 <= 2 ^ k)%N by (change 1%N with (2 ^ 0)%N; apply N.pow_le_mono_r; lia). lia. }
    assert (T : N.testbit (N.land n (n - 1)) k = true) by (rewrite N.land_spec, T1, T2; auto). rewrite E, N.bits_0 in T. discriminate.
  - intros E. rewrite E. apply N.bits_inj. intros j. rewrite N.land_spec, N.bits_0, N.pow2_bits_eqb.
    destruct (N.eqb_spec k j) as [<-|]; auto. cbn [andb]. rewrite N.sub_1_r, <- N.ones_equiv. apply N.ones_spec_high. lia.
Qed.
(** is_qubitop says: a matrix with the same power of two of rows and columns *)
Theorem C65_is_qubitop (m : ndarray) : is_qubitop m = true <-> exists k : N, nd_shape m = [2 ^ k; 2 ^ k]%N.
Proof.
  unfold is_qubitop, is_square, nd_size. split.
  - destruct (nd_shape m) as [|a [|b [|c l]]]; cbn [negb hd]; try discriminate. destruct (N.eqb_spec a b) as [<-|]; cbn [negb]; [|discriminate].
    rewrite andb_true_iff, N.ltb_lt, N.eqb_eq. intros [P E]. apply land_pred_pow2 in E; auto. exists (N.log2 a). rewrite <- E. auto.
  - intros [k ->]. cbn [hd]. rewrite N.eqb_refl. cbn [negb]. assert (P : (0 < 2 ^ k)%N) by (apply N.neq_0_lt_0, N.pow_nonzero; lia).
    rewrite andb_true_iff, N.ltb_lt, N.eqb_eq. split; auto. apply land_pred_pow2; auto. rewrite N.log2_pow2; auto. lia.
Qed.
Print Assumptions C65_is_qubitop.
(** _ilog2 is the least k with n <= 2^k (the ceiling of the logarithm, not the
    floor), and raises exactly when n is not positive *)
Lemma size_ceil n : (0 < n)%N -> forall j, (n <= 2 ^ j <-> N.size (n - 1) <= j)%N.
Proof.
  intros P j. destruct (N.eq_dec (n - 1) 0) as [E|E].
  - rewrite E. cbn [N.size]. assert (0 < 2 ^ j)%N by (apply N.neq_0_lt_0, N.pow_nonzero; lia). lia.
  - rewrite N.size_log2 by auto. rewrite N.le_succ_l, <- N.log2_lt_pow2 by lia. lia.
Qed.
Theorem C65_ilog2 (n : Z) : match ilog2 n with
  | Ok k => (0 < n)%Z /\ forall j : N, (n <= 2 ^ Z.of_N j)%Z <-> (k <= j)%N
  | Err e => (n <= 0)%Z /\ e = EValue
  end.
Proof.
  unfold ilog2. destruct (Z.leb_spec n 0) as [L|L]; auto. split; auto. intros j.
  replace (Z.to_N (n - 1)) with (Z.to_N n - 1)%N by lia. rewrite <- size_ceil by lia.
  change 2%Z with (Z.of_N 2). rewrite <- N2Z.inj_pow. lia.
Qed.
Print Assumptions C65_ilog2.
(** the docstring says floor(log2(n)): that is so exactly for powers of two *)
Theorem C65_ilog2_floor (n : N) : (0 < n)%N -> (ilog2 (Z.of_N n) = Ok (N.log2 n) <-> n = (2 ^ N.log2 n)%N).
Proof.
  intros P. pose proof (N.log2_spec n P) as B. pose proof (C65_ilog2 (Z.of_N n)) as H. destruct (ilog2 (Z.of_N n)) as [k|e]; [|lia]. destruct H as [_ H].
  assert (H' : forall j : N, (n <= 2 ^ j)%N <-> (k <= j)%N).
  { intros j. rewrite <- H. change 2%Z with (Z.of_N 2). rewrite <- N2Z.inj_pow. lia. }
  split.
  - intros [= ->]. assert (n <= 2 ^ N.log2 n)%N by (apply H'; lia). lia.
  - intros E. f_equal. apply N.le_antisymm.
    + apply H'. lia.
    + destruct (N.le_gt_cases (N.log2 n) k) as [|Q]; auto. exfalso. assert (n <= 2 ^ k)%N by (apply H'; lia).
      assert (2 ^ k < 2 ^ N.log2 n)%N by (apply N.pow_lt_mono_r; lia). lia.
Qed.
Print Assumptions C65_ilog2_floor.
Theorem C65_ilog2_floor_refuted : ilog2 3 = Ok 2%N /\ (2 ^ 1 <= 3 < 2 ^ 2)%Z.
Proof. split; [reflexivity|lia]. Qed.
Print Assumptions C65_ilog2_floor_refuted.
(** an operator is accepted exactly when it is 2^k by 2^k, and then acts on k qubits *)
Definition on_qubits (k : N) (d : kdata) : Prop := nd_shape (kd_op d) = [2 ^ k; 2 ^ k]%N.
Lemma nqubit_pow2 k d : on_qubits k d -> kd_nqubit d = Ok k.
Proof.
  intros H. unfold kd_nqubit, nd_size. rewrite H. cbn [hd]. assert (P : (0 < 2 ^ k)%N) by (apply N.neq_0_lt_0, N.pow_nonzero; lia).
  rewrite (proj2 (C65_ilog2_floor (2 ^ k) P)); rewrite N.log2_pow2 by lia; auto.
Qed.
Theorem C65_kraus_data (coef : C) (op : ndarray) :
  match kd_new coef op with
  | Ok d => kd_coef d = coef /\ kd_op d = op /\ exists k, on_qubits k d /\ kd_nqubit d = Ok k
  | Err e => e = EValue /\ ~ exists k : N, nd_shape op = [2 ^ k; 2 ^ k]%N
  end.
Proof.
  unfold kd_new. pose proof (C65_is_qubitop op) as H. assert (S : is_qubitop op = true -> is_square op = true) by (unfold is_qubitop; destruct (is_square op); auto).
  destruct (is_square op); cbn [negb].
  - destruct (is_qubitop op); cbn [negb].
    + destruct (proj1 H eq_refl) as [k K]. split; auto. split; auto. exists k. split; [exact K|]. apply nqubit_pow2. exact K.
    + split; auto. intros K. apply H in K. discriminate.
  - split; auto. intros K. apply H in K. apply S in K. discriminate.
Qed.
Print Assumptions C65_kraus_data.

(** ** Channels *)
Definition kd_valid (d : kdata) : Prop := exists k, on_qubits k d.
(** sum over the operators of (c K)^dagger (c K), every operator being 2^k by 2^k *)
Definition gram (k : nat) (l : list kdata) : cmat := ksum k (map (fun d => (kd_coef d, nd_at (kd_op d))) l).
Lemma same_nqubit_spec q l : (forall d, In d l -> kd_valid d) ->
  (same_nqubit q l = Ok q /\ forall d, In d l -> on_qubits q d) \/ (same_nqubit q l = Err EValue /\ ~ forall d, In d l -> on_qubits q d).
Proof.
  induction l as [|d l IH]; intros V; cbn [same_nqubit]; [left; split; auto; intros d []|].
  destruct (V d (or_introl eq_refl)) as [k K]. rewrite (nqubit_pow2 k d K). cbn [rbind]. destruct (N.eqb_spec k q) as [->|NE].
  - destruct IH as [[E H]|[E H]]; [intros x Hx; apply V; right; auto| |]; rewrite E; [left|right]; split; auto.
    + intros x [<-|Hx]; auto.
    + intros G. apply H. intros x Hx. apply G. right; auto.
  - right. split; auto. intros G. specialize (G d (or_introl eq_refl)). unfold on_qubits in *. rewrite K in G. injection G as G.
    apply NE. apply (N.pow_inj_r 2); [lia|auto].
Qed.
Lemma N2pow k : N.to_nat (2 ^ k) = 2 ^ N.to_nat k.
Proof. rewrite N2Nat.inj_pow. reflexivity. Qed.
Lemma work_gram k l : (forall d, In d l -> on_qubits k d) -> kc_work l = gram (N.to_nat k) l.
Proof.
  intros H. apply functional_extensionality. intros i. apply functional_extensionality. intros j. unfold kc_work, gram, ksum, csum. rewrite gsum_map.
  apply gsum_ext. intros d Hd. unfold nd_size. rewrite (H d Hd). cbn [hd fst snd]. rewrite N2pow. reflexivity.
Qed.
Lemma isclose_spec a b : isclose a b = true <-> (Cmod (a - b) <= 1 / 100000000 + 1 / 100000 * Cmod b)%R.
Proof. unfold isclose. destruct (Rle_dec _ _); split; auto; discriminate. Qed.
Lemma allclose_spec d A B : allclose d A B = true <-> forall i j, i < d -> j < d -> (Cmod (A i j - B i j) <= 1 / 100000000 + 1 / 100000 * Cmod (B i j))%R.
Proof.
  unfold allclose. rewrite forallb_forall. assert (R : forall x, In x (range d) <-> x < d) by (intros x; apply (sched_In _ _ _ (sched_range d))).
  split.
  - intros H i j Hi Hj. apply R, H in Hi. rewrite forallb_forall in Hi. apply isclose_spec, Hi, R. auto.
  - intros H i Hi. apply forallb_forall. intros j Hj. apply isclose_spec, H; apply R; auto.
Qed.
(** the constructor accepts exactly the non-empty lists of at most 4^k operators on k
    qubits whose normalisation is the identity up to numpy's tolerances, and raises
    ValueError otherwise; the channel keeps the list as it is *)
Definition channel_data (k : N) (l : list kdata) : Prop :=
  l <> [] /\ (forall d, In d l -> on_qubits k d) /\ (N.of_nat (length l) <= 4 ^ k)%N /\
  forall i j, i < 2 ^ N.to_nat k -> j < 2 ^ N.to_nat k -> (Cmod (gram (N.to_nat k) l i j - eye i j) <= 1 / 100000000 + 1 / 100000 * Cmod (eye i j))%R.
Theorem C65_channel (l : list kdata) : (forall d, In d l -> kd_valid d) ->
  match kc_new l with
  | Ok (k, l') => l' = l /\ channel_data k l
  | Err e => e = EValue /\ ~ exists k, channel_data k l
  end.
Proof.
  intros V. destruct l as [|d ds]; cbn [kc_new]; [split; auto; intros (k & H & _); apply H; auto|].
  destruct (V d (or_introl eq_refl)) as [k K]. rewrite (nqubit_pow2 k d K). cbn [rbind].
  assert (U : forall q, channel_data q (d :: ds) -> q = k).
  { intros q (_ & H & _). specialize (H d (or_introl eq_refl)). unfold on_qubits in *. rewrite K in H. injection H as H. symmetry. apply (N.pow_inj_r 2); [lia|auto]. }
  destruct (same_nqubit_spec k ds) as [[E H]|[E H]]; [intros x Hx; apply V; right; auto| |]; rewrite E; cbn [rbind].
  2:{ split; auto. intros (q & Q). pose proof (U q Q). subst q. apply H. intros x Hx. apply Q. right; auto. }
  assert (H' : forall x, In x (d :: ds) -> on_qubits k x) by (intros x [<-|Hx]; auto).
  destruct (N.ltb_spec (4 ^ k) (N.of_nat (length (d :: ds)))) as [L|L].
  { split; auto. intros (q & Q). pose proof (U q Q). subst q. destruct Q as (_ & _ & Q & _). lia. }
  rewrite (work_gram k) by exact H'. rewrite N2pow. destruct (allclose _ _ eye) eqn:A.
  - split; auto. split; [discriminate|]. split; auto. split; auto. apply allclose_spec. auto.
  - split; auto. intros (q & Q). pose proof (U q Q). subst q. destruct Q as (_ & _ & _ & Q). apply allclose_spec in Q. congruence.
Qed.
Print Assumptions C65_channel.
(** with an exact normalisation the constructor accepts *)
Theorem C65_channel_exact (k : N) (l : list kdata) : l <> [] -> (forall d, In d l -> on_qubits k d) -> (N.of_nat (length l) <= 4 ^ k)%N ->
  (forall i j, i < 2 ^ N.to_nat k -> j < 2 ^ N.to_nat k -> gram (N.to_nat k) l i j = eye i j) -> kc_new l = Ok (k, l).
Proof.
  intros N Q L G. assert (CD : channel_data k l).
  { split; auto. split; auto. split; auto. intros i j Hi Hj. rewrite G by auto. apply isclose_spec, isclose_refl. }
  pose proof (C65_channel l (fun d Hd => ex_intro _ k (Q d Hd))) as H. destruct (kc_new l) as [[q l']|e]; [|destruct H as [_ H]; exfalso; eauto].
  destruct H as [-> (_ & H & _)]. do 2 f_equal. destruct l as [|d l]; [congruence|]. specialize (H d (or_introl eq_refl)). specialize (Q d (or_introl eq_refl)).
  unfold on_qubits in *. rewrite Q in H. injection H as H. symmetry. apply (N.pow_inj_r 2); [lia|auto].
Qed.
Print Assumptions C65_channel_exact.
(** the channels of the constructor are those of the density-matrix model *)
Theorem C65_channel_model (k : N) (l : list kdata) : (forall d, In d l -> on_qubits k d) ->
  (kc_new l = Ok (k, l) <-> kraus_new (N.to_nat k) (map (fun d => (kd_coef d, nd_at (kd_op d))) l) = Ok (map (fun d => (kd_coef d, nd_at (kd_op d))) l)).
Proof.
  intros Q. pose proof (C65_channel l (fun d Hd => ex_intro _ k (Q d Hd))) as H. unfold kraus_new.
  assert (P4 : N.to_nat (4 ^ k) = 4 ^ N.to_nat k) by (rewrite N2Nat.inj_pow; reflexivity).
  destruct l as [|d ds]; [cbn; split; discriminate|]. set (l := d :: ds) in *. change (map _ l) with ((kd_coef d, nd_at (kd_op d)) :: map (fun d => (kd_coef d, nd_at (kd_op d))) ds) at 1.
  cbv iota. rewrite map_length. split.
  - intros E. rewrite E in H. destruct H as [_ (_ & _ & L & G)]. rewrite (proj2 (Nat.ltb_ge _ _)) by lia. apply allclose_spec in G. unfold gram in G. rewrite G. auto.
  - destruct (Nat.ltb_spec (4 ^ N.to_nat k) (length l)) as [|L]; [discriminate|]. destruct (allclose _ _ eye) eqn:A; [|discriminate]. intros _.
    assert (CD : channel_data k l). { split; [discriminate|]. split; auto. split; [lia|]. apply allclose_spec. exact A. }
    destruct (kc_new l) as [[q l']|e]; [|destruct H as [_ H]; exfalso; eauto]. destruct H as [-> (_ & H & _)]. do 2 f_equal.
    specialize (H d (or_introl eq_refl)). specialize (Q d (or_introl eq_refl)). unfold on_qubits in *. rewrite Q in H. injection H as H. symmetry. apply (N.pow_inj_r 2); [lia|auto].
Qed.
Print Assumptions C65_channel_model.

(** ** Hermitian, unit trace, positive *)
(** exact properties are always accepted; an accepted matrix has them up to numpy's
    tolerances, for every entry *)
Theorem C65_is_hermitian (m : ndarray) (d : N) : nd_shape m = [d; d] ->
  ((forall i j, i < N.to_nat d -> j < N.to_nat d -> nd_at m i j = Cconj (nd_at m j i)) -> is_hermitian m = true) /\
  (is_hermitian m = true -> forall i j, i < N.to_nat d -> j < N.to_nat d -> (Cmod (nd_at m i j - Cconj (nd_at m j i)) <= 1 / 100000000 + 1 / 100000 * Cmod (nd_at m j i))%R).
Proof.
  intros S. unfold is_hermitian, is_square, nd_size. rewrite S. cbn [hd]. rewrite N.eqb_refl. cbn [negb]. split.
  - intros H. apply allclose_spec. intros i j Hi Hj. rewrite H by auto. apply isclose_spec, isclose_refl.
  - intros H i j Hi Hj. rewrite allclose_spec in H. specialize (H i j Hi Hj). replace (Cmod (nd_at m j i)) with (Cmod (Cconj (nd_at m j i))); auto.
    unfold Cmod. f_equal. unfold Cnorm2, Cconj. cbn. ring.
Qed.
Print Assumptions C65_is_hermitian.
(** is_unit_trace: True exactly on square matrices whose sum of diagonal entries is 1
    up to numpy's tolerances *)
Theorem C65_is_unit_trace (m : ndarray) : is_unit_trace m = true <-> exists d : N, nd_shape m = [d; d] /\
  (Cmod (csum (range (N.to_nat d)) (fun i => nd_at m i i) - C1) <= 1 / 100000000 + 1 / 100000)%R.
Proof.
  assert (M1 : Cmod C1 = 1%R) by (unfold Cmod, Cnorm2; cbn; rewrite Rmult_0_l, Rplus_0_r, Rmult_1_l; apply sqrt_1).
  unfold is_unit_trace, is_square, nd_size. split.
  - destruct (nd_shape m) as [|a [|b [|c l]]]; cbn [negb hd]; try discriminate. destruct (N.eqb_spec a b) as [<-|]; cbn [negb]; [|discriminate].
    rewrite isclose_spec, M1, Rmult_1_r. intros H. exists a. auto.
  - intros (d & -> & H). cbn [hd]. rewrite N.eqb_refl. cbn [negb]. apply isclose_spec. rewrite M1, Rmult_1_r. exact H.
Qed.
Print Assumptions C65_is_unit_trace.
(** is_psd, relative to the eigenvalues of LAPACK: a negative tolerance raises
    ValueError except on a non-square array; otherwise the answer is True exactly
    when the matrix is square, Hermitian and has no eigenvalue below the tolerance *)
Theorem C65_is_psd eigvalsh (m : ndarray) (tol : R) : match is_psd eigvalsh m tol with
  | Ok b => (is_square m = false \/ (0 <= tol)%R) /\ (b = true <-> is_square m = true /\ is_hermitian m = true /\ forall e, In e (eigvalsh m) -> (- tol <= e)%R)
  | Err e => e = EValue /\ is_square m = true /\ (tol < 0)%R
  end.
Proof.
  unfold is_psd. destruct (is_square m); cbn [negb]; [|split; auto; split; [discriminate|tauto]]. destruct (Rlt_dec tol 0) as [L|L]; auto.
  apply Rnot_lt_le in L. destruct (is_hermitian m); cbn [negb]; [|split; auto; split; [discriminate|intros (_ & K & _); discriminate]]. split; auto. rewrite forallb_forall. split.
  - intros H. split; auto. split; auto. intros e He. specialize (H e He). destruct (Rle_dec _ _); auto; discriminate.
  - intros (_ & _ & H) e He. specialize (H e He). destruct (Rle_dec _ _); auto.
Qed.
Print Assumptions C65_is_psd.

(** ** Non-vacuity *)
Example C65_ex_trace : is_unit_trace (ND [2; 2]%N (fun i j => if (i =? 0) && (j =? 0) then C1 else C0)) = true /\ is_unit_trace (ND [2; 1]%N (fun _ _ => C1)) = false.
Proof.
  split; [|reflexivity]. apply C65_is_unit_trace. exists 2%N. split; [reflexivity|].
  change (range (N.to_nat 2)) with [0; 1]. unfold csum. cbn [nd_at].
  match goal with |- (Cmod ?x <= _)%R => replace x with C0 by (apply C_eq; cbn; ring) end.
  assert (Z : Cmod C0 = 0%R) by (unfold Cmod; replace (Cnorm2 C0) with 0%R by (unfold Cnorm2; cbn; ring); apply sqrt_0). rewrite Z. lra.
Qed.
Definition ex_half : ndarray := ND [2; 2]%N (fun i j => if (i =? j) then C1 else C0).
Example C65_ex_shapes : is_qubitop ex_half = true /\ is_qubitop (ND [3; 3]%N (nd_at ex_half)) = false /\ is_qubitop (ND [0; 0]%N (nd_at ex_half)) = false /\
  is_qubitop (ND [1; 1]%N (nd_at ex_half)) = true /\ is_qubitop (ND [4; 2]%N (nd_at ex_half)) = false /\ is_qubitop (ND [2; 2; 2]%N (nd_at ex_half)) = false.
Proof. repeat split; reflexivity. Qed.
Example C65_ex_nqubit : map ilog2 [0; 1; 2; 3; 4; 5; 8]%Z = [Err EValue; Ok 0; Ok 1; Ok 2; Ok 2; Ok 3; Ok 3]%N.
Proof. reflexivity. Qed.
(** the identity channel is accepted, operators of different sizes are not *)
Example C65_ex_identity : kc_new [KD C1 ex_half] = Ok (1%N, [KD C1 ex_half]).
Proof.
  apply C65_channel_exact; [discriminate|intros d [<-|[]]; reflexivity|cbn; lia|]. intros i j Hi Hj. change (2 ^ N.to_nat 1) with 2 in *. unfold gram, ksum, csum. change (2 ^ N.to_nat 1) with 2.
  destruct i as [|[|i]]; [| |lia]; (destruct j as [|[|j]]; [| |lia]); apply C_eq; cbn; ring.
Qed.
Example C65_ex_mixed : kc_new [KD C1 ex_half; KD C0 (ND [4; 4]%N (nd_at ex_half))] = Err EValue.
Proof. reflexivity. Qed.
