(** Model of the dense density matrix (graphix/sim/density_matrix.py) and of the
    Kraus channels (graphix/channels.py).  A 2^n x 2^n array is a function of
    the row and column index; only indices below 2^n are meaningful. *)
From Coq Require Import Reals Lra Arith List Bool Lia Permutation FunctionalExtensionality.
From Verif Require Import Cplx Mat2 NSet QState Pattern Statevec.
Import ListNotations.
Local Open Scope C_scope.

Definition cmat := nat -> nat -> C.
(** a 2x2 array *)
Definition m2 (U : mat2) : cmat := fun i j => mget U (negb (i =? 0)%nat) (negb (j =? 0)%nat).
(** np.kron of an array with a 2x2 array *)
Definition kronm (A : cmat) (U : mat2) : cmat := fun i j => A (i / 2)%nat (j / 2)%nat * m2 U (i mod 2) (j mod 2).

(** * DensityMatrix *)
(** reshape to (2,)*2n: the index of a row or column is the bit string of the
    qubits, qubit 0 most significant.  [sub] extracts the bits of the qubits
    [qs], [putb] replaces them by the bits of [a]. *)
Definition sub (n k : nat) (qs : list nat) (i : nat) : nat := idx k (fun t => bits n i (nth t qs 0%nat)).
Definition putb (n k : nat) (qs : list nat) (i a : nat) : nat :=
  idx n (fun q => if lmem q qs then bits k a (pos_of q qs) else bits n i q).
(** density_matrix.py:195-213 evolve_single, 215-261 evolve: the two tensordot
    contract the ket axes of the targets with op and the bra axes with op^dagger,
    and moveaxis puts the axes back *)
Definition dm_evolve (n k : nat) (op : cmat) (qs : list nat) (rho : cmat) : cmat := fun i j =>
  csum (range (2 ^ k)) (fun a => csum (range (2 ^ k)) (fun b =>
    op (sub n k qs i) a * rho (putb n k qs i a) (putb n k qs j b) * Cconj (op (sub n k qs j) b))).
(** np.trace *)
Definition dm_trace (n : nat) (rho : cmat) : C := csum (range (2 ^ n)) (fun i => rho i i).

(** * Channels *)
(** channels.py:39-77 KrausData: (coef, operator) *)
Definition kraus := (C * cmat)%type.
(** channels.py:128-134: sum of m^dagger m with m = coef * operator *)
Definition ksum (k : nat) (data : list kraus) : cmat := fun i j =>
  csum data (fun d => csum (range (2 ^ k)) (fun r => Cconj (fst d * snd d r i) * (fst d * snd d r j))).
(** np.isclose / np.allclose with the default tolerances rtol=1e-5, atol=1e-8 *)
Definition Cmod (a : C) : R := sqrt (Cnorm2 a).
Definition isclose (a b : C) : bool :=
  if Rle_dec (Cmod (a - b)) (1 / 100000000 + 1 / 100000 * Cmod b)%R then true else false.
Definition eye : cmat := fun i j => if (i =? j)%nat then C1 else C0.
Definition allclose (d : nat) (A B : cmat) : bool :=
  forallb (fun i => forallb (fun j => isclose (A i j) (B i j)) (range d)) (range d).
(** channels.py:100-136 KrausChannel(kraus_data) *)
Definition kraus_new (k : nat) (data : list kraus) : res (list kraus) :=
  match data with
  | [] => Err EValue
  | _ => if (4 ^ k <? length data)%nat then Err EValue
         else if allclose (2 ^ k) (ksum k data) eye then Ok data else Err EValue
  end.
(** density_matrix.py:416-451 apply_channel: the sum over the Kraus operators *)
Definition channel_map (n k : nat) (data : list kraus) (qs : list nat) (rho : cmat) : cmat := fun i j =>
  csum data (fun d => fst d * Cconj (fst d) * dm_evolve n k (snd d) qs rho i j).
(** the same with the final check of the trace *)
Definition apply_channel (n k : nat) (data : list kraus) (qs : list nat) (rho : cmat) : res cmat :=
  let r := channel_map n k data qs rho in
  if isclose (dm_trace n r) C1 then Ok r else Err EValue.

Definition sq (x : R) : C := RtoC (sqrt x).
(** channels.py:159-178 dephasing_channel *)
Definition dephasing (p : R) : list kraus := [(sq (1 - p), m2 mid); (sq p, m2 mZ)].
(** channels.py:181-200 depolarising_channel *)
Definition depolarising (p : R) : list kraus :=
  [(sq (1 - p), m2 mid); (sq (p / 3), m2 mX); (sq (p / 3), m2 mY); (sq (p / 3), m2 mZ)].
(** channels.py:203-220 pauli_channel *)
Definition pauli_channel (px py pz : R) : res (list kraus) :=
  if Rlt_dec 1 (px + py + pz) then Err EValue else
  let p_i := (1 - px - py - pz)%R in
  kraus_new 1 [(sq (1 - p_i), m2 mid); (sq (px / 3), m2 mX); (sq (py / 3), m2 mY); (sq (pz / 3), m2 mZ)].
(** channels.py:223-258 two_qubit_depolarising_channel *)
Definition two_qubit_depolarising (p : R) : list kraus :=
  (sq (1 - p), kronm (m2 mid) mid) ::
  map (fun UV => (sq (p / 15), kronm (m2 (fst UV)) (snd UV)))
    [(mX, mX); (mZ, mZ); (mX, mid); (mY, mY); (mY, mid); (mZ, mid); (mid, mX); (mid, mY); (mid, mZ);
     (mX, mY); (mX, mZ); (mY, mX); (mY, mZ); (mZ, mY); (mZ, mX)].
(** channels.py:261-298 two_qubit_depolarising_tensor_channel *)
Definition two_qubit_depolarising_tensor (p : R) : list kraus :=
  let c := sq (1 - p) * sq (p / 3) in
  [(RtoC (1 - p), kronm (m2 mid) mid); (RtoC (p / 3), kronm (m2 mX) mX); (RtoC (p / 3), kronm (m2 mY) mY); (RtoC (p / 3), kronm (m2 mZ) mZ);
   (c, kronm (m2 mX) mid); (c, kronm (m2 mY) mid); (c, kronm (m2 mZ) mid); (c, kronm (m2 mid) mX); (c, kronm (m2 mid) mY); (c, kronm (m2 mid) mZ);
   (RtoC (p / 3), kronm (m2 mX) mY); (RtoC (p / 3), kronm (m2 mX) mZ); (RtoC (p / 3), kronm (m2 mY) mX);
   (RtoC (p / 3), kronm (m2 mY) mZ); (RtoC (p / 3), kronm (m2 mZ) mX); (RtoC (p / 3), kronm (m2 mZ) mY)].
(** channels.py:301-305 _amplitude_damping_kraus *)
Definition ad_k1 (p : R) : mat2 := Mat2 C1 C0 C0 (sq (1 - p)).
Definition ad_k2 (p : R) : mat2 := Mat2 C0 (sq p) C0 C0.
(** channels.py:308-331 amplitude_damping_channel *)
Definition amplitude_damping (p : R) : list kraus := [(C1, m2 (ad_k1 p)); (C1, m2 (ad_k2 p))].
(** channels.py:334-352 two_qubit_amplitude_damping_channel *)
Definition two_qubit_amplitude_damping (p : R) : list kraus :=
  flat_map (fun l => map (fun r => (C1, kronm (m2 l) r)) [ad_k1 p; ad_k2 p]) [ad_k1 p; ad_k2 p].

(** * Specification *)
(** the operator held by the array: <f| rho |g> *)
Definition dop := asg -> asg -> C.
Definition drep (n : nat) (rho : cmat) : dop := fun f g => rho (idx n f) (idx n g).
(** U rho U^dagger, U acting on qubit q *)
Definition conj1 (U : mat2) (q : nat) (rho : dop) : dop := fun f g =>
  mget U (f q) false * rho (upd f q false) (upd g q false) * Cconj (mget U (g q) false)
  + mget U (f q) false * rho (upd f q false) (upd g q true) * Cconj (mget U (g q) true)
  + mget U (f q) true * rho (upd f q true) (upd g q false) * Cconj (mget U (g q) false)
  + mget U (f q) true * rho (upd f q true) (upd g q true) * Cconj (mget U (g q) true).
Definition dplus (a b : dop) : dop := fun f g => a f g + b f g.
Definition dscale (x : R) (a : dop) : dop := fun f g => RtoC x * a f g.
(** partial trace over q, tensored with I/2 on q *)
Definition mixed (q : nat) (rho : dop) : dop := fun f g =>
  if eqb (f q) (g q) then RtoC (/ 2) * (rho (upd f q false) (upd g q false) + rho (upd f q true) (upd g q true)) else C0.
(** replace the bits of the qubits [qs] by those of [c] *)
Definition putf (qs : list nat) (c f : asg) : asg := fun q => if lmem q qs then c (pos_of q qs) else f q.

(** * Sums over registers *)
Fixpoint asum (l : list nat) (F : asg -> C) (f : asg) : C :=
  match l with [] => F f | q :: l' => asum l' F (upd f q false) + asum l' F (upd f q true) end.
Lemma asum_ext l F G : (forall f, F f = G f) -> forall f, asum l F f = asum l G f.
Proof. intros H; induction l as [|q l IH]; simpl; auto. intros f. rewrite !IH. auto. Qed.
Lemma asum_app l l' F f : asum (l ++ l') F f = asum l (asum l' F) f.
Proof. revert f; induction l as [|q l IH]; intros f; simpl; auto. rewrite !IH. auto. Qed.
Lemma asum_perm l l' F : Permutation l l' -> NoDup l -> forall f, asum l F f = asum l' F f.
Proof.
  induction 1 as [|x l l' P IH|x y l|l l' l'' P1 IH1 P2 IH2]; intros ND f; simpl; auto.
  - inversion ND; subst. rewrite !IH; auto.
  - inversion ND as [|? ? N1 N2]; subst. assert (x <> y) by (intros ->; apply N1; simpl; auto).
    rewrite !(upd_comm _ x y) by auto. ring.
  - rewrite IH1, IH2; auto. eapply Permutation_NoDup; eauto.
Qed.
Lemma asum_snoc l q F f : asum (l ++ [q]) F f = asum l (fun f => F (upd f q false) + F (upd f q true)) f.
Proof. rewrite asum_app. reflexivity. Qed.
Lemma cbsum_asum n : forall F, cbsum n F = asum (range n) F (fun _ => false).
Proof.
  induction n as [|n IH]; intros F; auto. rewrite range_S, asum_snoc, <- IH. reflexivity.
Qed.
Lemma pos_of_app1 l x q : In x l -> pos_of x (l ++ [q]) = pos_of x l.
Proof. induction l as [|y l IH]; simpl; [tauto|]. intros H. destruct (Nat.eqb_spec x y); auto. rewrite IH; auto. destruct H; congruence. Qed.
Lemma pos_of_last l q : ~ In q l -> pos_of q (l ++ [q]) = length l.
Proof. induction l as [|y l IH]; simpl; intros H; [rewrite Nat.eqb_refl; auto|]. destruct (Nat.eqb_spec q y); [subst; tauto|]. rewrite IH; auto. Qed.
Lemma lmem_false n l : lmem n l = false <-> ~ In n l.
Proof. rewrite <- lmem_In. destruct (lmem n l); split; intros; try discriminate; auto; try tauto. Qed.
Lemma putf_snoc qs q c f b : ~ In q qs -> upd (putf qs c f) q b = putf (qs ++ [q]) (upd c (length qs) b) f.
Proof.
  intros H. extensionality x. unfold putf, upd at 1. destruct (Nat.eqb_spec x q) as [->|N].
  - assert (lmem q (qs ++ [q]) = true) as -> by (apply lmem_In, in_or_app; simpl; auto). rewrite pos_of_last, upd_same; auto.
  - destruct (lmem x qs) eqn:E.
    + apply lmem_In in E. assert (lmem x (qs ++ [q]) = true) as -> by (apply lmem_In, in_or_app; simpl; auto).
      rewrite pos_of_app1, upd_other; auto. pose proof (pos_of_nth qs x 0%nat E). lia.
    + apply lmem_false in E. assert (lmem x (qs ++ [q]) = false) as ->; auto. apply lmem_false. intros K. apply in_app_or in K. simpl in K. intuition congruence.
Qed.
Lemma asum_put qs : NoDup qs -> forall F f, asum qs F f = cbsum (length qs) (fun c => F (putf qs c f)).
Proof.
  induction qs as [|q qs IH] using rev_ind; intros ND F f.
  - unfold cbsum. simpl. f_equal.
  - pose proof (NoDup_remove_1 _ _ _ ND) as ND'. pose proof (NoDup_remove_2 _ _ _ ND) as NI. rewrite app_nil_r in *.
    rewrite asum_snoc, IH by auto. rewrite app_length. simpl. rewrite Nat.add_1_r. unfold cbsum. cbn [bsum].
    apply bsum_ext. intros c. rewrite !putf_snoc by auto. auto.
Qed.

(** * Rows and columns as assignments *)
Lemma bits_idx n f q : (q < n)%nat -> bits n (idx n f) q = f q.
Proof. apply (idx_inj n). apply idx_bits, idx_lt. Qed.
Lemma csum_cbsum k G : csum (range (2 ^ k)) G = cbsum k (fun c => G (idx k c)).
Proof. unfold csum, cbsum. rewrite (bsum_range C Cadd C0 Cadd_comm Cadd_assoc Cadd_0). reflexivity. Qed.
Lemma sub_idx n k qs f : (forall q, In q qs -> (q < n)%nat) -> length qs = k -> sub n k qs (idx n f) = idx k (fun t => f (nth t qs 0%nat)).
Proof. intros H L. apply idx_ext. intros t Ht. apply bits_idx, H, nth_In. lia. Qed.
Lemma putb_idx n k qs f c : length qs = k -> putb n k qs (idx n f) (idx k c) = idx n (putf qs c f).
Proof.
  intros L. apply idx_ext. intros q Hq. unfold putf. destruct (lmem q qs) eqn:E; [|apply bits_idx; auto].
  apply bits_idx. apply lmem_In in E. pose proof (pos_of_nth qs q 0%nat E). lia.
Qed.
(** op rho op^dagger for an operator on the qubits [qs] *)
Definition conjk (op : cmat) (qs : list nat) (rho : dop) : dop := fun f g =>
  let k := length qs in
  cbsum k (fun a => cbsum k (fun b => op (idx k (fun t => f (nth t qs 0%nat))) (idx k a) * rho (putf qs a f) (putf qs b g) * Cconj (op (idx k (fun t => g (nth t qs 0%nat))) (idx k b)))).
Lemma evolve_drep n op qs rho : (forall q, In q qs -> (q < n)%nat) ->
  drep n (dm_evolve n (length qs) op qs rho) = conjk op qs (drep n rho).
Proof.
  intros H. extensionality f. extensionality g. unfold drep, dm_evolve, conjk. rewrite csum_cbsum. apply bsum_ext. intros a.
  rewrite csum_cbsum. apply bsum_ext. intros b. rewrite !sub_idx, !putb_idx by auto. reflexivity.
Qed.
Lemma putf1 q c f : putf [q] c f = upd f q (c 0%nat).
Proof. extensionality x. unfold putf, upd. simpl. destruct (Nat.eqb_spec x q); auto. Qed.
Lemma putf2 q1 q2 c f : q1 <> q2 -> putf [q1; q2] c f = upd (upd f q2 (c 1%nat)) q1 (c 0%nat).
Proof.
  intros N. extensionality x. unfold putf, upd. simpl. destruct (Nat.eqb_spec x q1); auto. destruct (Nat.eqb_spec x q2); auto.
Qed.
Lemma m2_bits U (a b : bool) : m2 U (2 * 0 + (if a then 1 else 0))%nat (2 * 0 + (if b then 1 else 0))%nat = mget U a b.
Proof. destruct a, b; reflexivity. Qed.
Lemma m2_b0 U (a : bool) : m2 U (2 * 0 + (if a then 1 else 0))%nat (2 * 0 + 0)%nat = mget U a false.
Proof. exact (m2_bits U a false). Qed.
Lemma m2_b1 U (a : bool) : m2 U (2 * 0 + (if a then 1 else 0))%nat (2 * 0 + 1)%nat = mget U a true.
Proof. exact (m2_bits U a true). Qed.
Lemma conjk_1 U q rho : conjk (m2 U) [q] rho = conj1 U q rho.
Proof.
  extensionality f. extensionality g. unfold conjk, cbsum, conj1. cbn [length bsum idx nth]. rewrite !putf1, !upd_same, !m2_b0, !m2_b1. ring.
Qed.
Lemma kronm_bits U V (a a' b b' : bool) :
  kronm (m2 U) V (2 * (2 * 0 + (if a then 1 else 0)) + (if a' then 1 else 0))%nat (2 * (2 * 0 + (if b then 1 else 0)) + (if b' then 1 else 0))%nat
  = mget U a b * mget V a' b'.
Proof. destruct a, a', b, b'; reflexivity. Qed.
Lemma kronm_b00 U V (a a' : bool) :
  kronm (m2 U) V (2 * (2 * 0 + (if a then 1 else 0)) + (if a' then 1 else 0))%nat (2 * (2 * 0 + 0) + 0)%nat = mget U a false * mget V a' false.
Proof. exact (kronm_bits U V a a' false false). Qed.
Lemma kronm_b01 U V (a a' : bool) :
  kronm (m2 U) V (2 * (2 * 0 + (if a then 1 else 0)) + (if a' then 1 else 0))%nat (2 * (2 * 0 + 0) + 1)%nat = mget U a false * mget V a' true.
Proof. exact (kronm_bits U V a a' false true). Qed.
Lemma kronm_b10 U V (a a' : bool) :
  kronm (m2 U) V (2 * (2 * 0 + (if a then 1 else 0)) + (if a' then 1 else 0))%nat (2 * (2 * 0 + 1) + 0)%nat = mget U a true * mget V a' false.
Proof. exact (kronm_bits U V a a' true false). Qed.
Lemma kronm_b11 U V (a a' : bool) :
  kronm (m2 U) V (2 * (2 * 0 + (if a then 1 else 0)) + (if a' then 1 else 0))%nat (2 * (2 * 0 + 1) + 1)%nat = mget U a true * mget V a' true.
Proof. exact (kronm_bits U V a a' true true). Qed.
Lemma conjk_2 U V q1 q2 rho : q1 <> q2 -> conjk (kronm (m2 U) V) [q1; q2] rho = conj1 U q1 (conj1 V q2 rho).
Proof.
  intros N. extensionality f. extensionality g. unfold conjk, cbsum. cbn [length bsum idx nth].
  rewrite !putf2, !upd_same by auto. rewrite !(upd_other _ 1%nat _ 0%nat) by lia. rewrite !upd_same. rewrite !kronm_b00, !kronm_b01, !kronm_b10, !kronm_b11.
  unfold conj1. rewrite !(upd_other _ q1 _ q2) by auto.
  rewrite !(upd_comm _ q1 q2) by auto. rewrite !Cconj_mul. ring.
Qed.

(** * Trace preservation *)
Definition kcomplete (k : nat) (data : list kraus) : Prop :=
  forall i j, (i < 2 ^ k)%nat -> (j < 2 ^ k)%nat -> ksum k data i j = eye i j.
Lemma cbsum_add n F G : cbsum n (fun f => F f + G f) = cbsum n F + cbsum n G.
Proof. unfold cbsum. revert F G; induction n as [|n IH]; intros F G; simpl; auto. rewrite <- IH. apply bsum_ext. intros; ring. Qed.
Lemma cbsum_mul n c F : cbsum n (fun f => c * F f) = c * cbsum n F.
Proof. unfold cbsum. revert F; induction n as [|n IH]; intros F; simpl; auto. rewrite <- IH. apply bsum_ext. intros; ring. Qed.
Lemma cbsum_0 n : cbsum n (fun _ => C0) = C0.
Proof. unfold cbsum. induction n as [|n IH]; simpl; auto. replace (C0 + C0) with C0 by ring. auto. Qed.
Lemma cbsum_ext n F G : (forall f, F f = G f) -> cbsum n F = cbsum n G.
Proof. apply bsum_ext. Qed.
Lemma cbsum_swap n m F : cbsum n (fun a => cbsum m (fun b => F a b)) = cbsum m (fun b => cbsum n (fun a => F a b)).
Proof.
  revert F; induction n as [|n IH]; intros F; simpl; auto. unfold cbsum at 1. cbn [bsum].
  transitivity (cbsum n (fun a => cbsum m (fun b => F (upd a n false) b + F (upd a n true) b))).
  - apply bsum_ext. intros a. rewrite cbsum_add. auto.
  - rewrite IH. reflexivity.
Qed.
Lemma csum_cbsum_swap {X} (l : list X) n F : csum l (fun x => cbsum n (F x)) = cbsum n (fun f => csum l (fun x => F x f)).
Proof. induction l as [|x l IH]; simpl; [rewrite cbsum_0; auto|]. unfold csum in *. simpl. rewrite IH, <- cbsum_add. auto. Qed.
Lemma csum_mul {X} (l : list X) c F : csum l (fun x => c * F x) = c * csum l F.
Proof. unfold csum. induction l as [|x l IH]; simpl; [ring|]. rewrite IH. ring. Qed.
Lemma csum_ext {X} (l : list X) F G : (forall x, In x l -> F x = G x) -> csum l F = csum l G.
Proof. apply gsum_ext. Qed.
Lemma asum_csum {X} (l : list X) r F f : asum r (fun f => csum l (fun x => F x f)) f = csum l (fun x => asum r (F x) f).
Proof.
  revert f; induction r as [|q r IH]; intros f; simpl; auto. rewrite !IH. unfold csum. clear. induction l as [|x l IHl]; simpl; [ring|]. rewrite <- IHl. ring.
Qed.
(** Sum over all assignments of n bits, first those outside [qs], then those in [qs] *)
Definition rest (n : nat) (qs : list nat) : list nat := filter (fun q => negb (lmem q qs)) (range n).
Lemma rest_perm n qs : NoDup qs -> (forall q, In q qs -> (q < n)%nat) -> Permutation (range n) (rest n qs ++ qs).
Proof.
  intros ND H. apply NoDup_Permutation; [apply seq_NoDup| |].
  - apply NoDup_app'; auto; [apply NoDup_filter, seq_NoDup|]. intros x Hx Hy. apply filter_In in Hx. destruct Hx as [_ Hx].
    apply lmem_In in Hy. rewrite Hy in Hx. discriminate.
  - intros x. rewrite in_app_iff. unfold rest. rewrite filter_In. split.
    + intros Hx. destruct (lmem x qs) eqn:E; [right; apply lmem_In; auto|left; auto].
    + intros [[Hx _]|Hx]; auto. apply (sched_In _ _ _ (sched_range n)). auto.
Qed.
Lemma cbsum_split n qs F : NoDup qs -> (forall q, In q qs -> (q < n)%nat) ->
  cbsum n F = asum (rest n qs) (fun f => cbsum (length qs) (fun c => F (putf qs c f))) (fun _ => false).
Proof.
  intros ND H. rewrite cbsum_asum, (asum_perm _ _ _ (rest_perm n qs ND H)) by apply seq_NoDup. rewrite asum_app.
  apply asum_ext. intros f. apply asum_put; auto.
Qed.
Lemma putf_putf qs a c f : putf qs a (putf qs c f) = putf qs a f.
Proof. extensionality x. unfold putf. destruct (lmem x qs); auto. Qed.
Lemma putf_get qs c f t : NoDup qs -> (t < length qs)%nat -> putf qs c f (nth t qs 0%nat) = c t.
Proof.
  intros ND H. unfold putf. assert (lmem (nth t qs 0%nat) qs = true) as -> by (apply lmem_In, nth_In; auto). f_equal.
  revert t H; induction qs as [|x l IH]; simpl; [lia|]. intros i Hi. inversion ND as [|? ? N1 N2]; subst.
  destruct i as [|i]; [rewrite Nat.eqb_refl; auto|]. assert (i < length l)%nat by lia.
  destruct (Nat.eqb_spec (nth i l 0%nat) x) as [E|E]; [exfalso; apply N1; rewrite <- E; apply nth_In; auto|]. rewrite IH; auto.
Qed.
Lemma idx_putf qs c f : NoDup qs -> idx (length qs) (fun t => putf qs c f (nth t qs 0%nat)) = idx (length qs) c.
Proof. intros ND. apply idx_ext. intros t Ht. apply putf_get; auto. Qed.
Lemma eye_sum k (F : asg -> C) (a : asg) : (forall f g, (forall t, (t < k)%nat -> f t = g t) -> F f = F g) ->
  cbsum k (fun b => eye (idx k a) (idx k b) * F b) = F a.
Proof.
  intros HF. rewrite (cbsum_ext k _ (fun b => (fun i => eye (idx k a) i * F (bits k i)) (idx k b))).
  - rewrite <- (csum_cbsum k (fun i => eye (idx k a) i * F (bits k i))).
    assert (HI : In (idx k a) (range (2 ^ k))) by (apply (sched_In _ _ _ (sched_range _)), idx_lt).
    apply in_split in HI. destruct HI as (l1 & l2 & E).
    assert (ND : NoDup (range (2 ^ k))) by apply seq_NoDup. rewrite E in *. apply NoDup_remove_2 in ND.
    assert (Z : forall l, ~ In (idx k a) l -> csum l (fun i => eye (idx k a) i * F (bits k i)) = C0).
    { induction l as [|i l IH]; auto. intros NI. unfold csum in *. simpl. rewrite IH by (simpl in NI; tauto).
      unfold eye. destruct (Nat.eqb_spec (idx k a) i) as [E2|E2]; [simpl in NI; intuition congruence|ring]. }
    unfold csum. rewrite (gsum_app C Cadd C0 Cadd_comm Cadd_assoc Cadd_0). simpl.
    fold (@csum nat l1). rewrite (Z l1) by (intros K; apply ND, in_or_app; auto). fold (@csum nat l2).
    rewrite (Z l2) by (intros K; apply ND, in_or_app; auto).
    unfold eye. rewrite Nat.eqb_refl. rewrite (HF (bits k (idx k a)) a) by (intros; apply bits_idx; auto). ring.
  - intros b. f_equal. apply HF. intros t Ht. symmetry. apply bits_idx; auto.
Qed.
Lemma putf_ext qs a b f : (forall t, (t < length qs)%nat -> a t = b t) -> putf qs a f = putf qs b f.
Proof.
  intros H. extensionality x. unfold putf. destruct (lmem x qs) eqn:E; auto. apply H. apply lmem_In in E. apply (pos_of_nth qs x 0%nat E).
Qed.
Lemma channel_drep n data qs rho : (forall q, In q qs -> (q < n)%nat) ->
  drep n (channel_map n (length qs) data qs rho) = fun f g => csum data (fun d => fst d * Cconj (fst d) * conjk (snd d) qs (drep n rho) f g).
Proof.
  intros H. extensionality f. extensionality g. unfold drep at 1, channel_map. apply csum_ext. intros d _.
  rewrite <- evolve_drep by auto. reflexivity.
Qed.
Lemma trace_drep n rho : dm_trace n rho = cbsum n (fun f => drep n rho f f).
Proof. unfold dm_trace. rewrite (csum_cbsum n (fun i => rho i i)). reflexivity. Qed.
Lemma channel_trace n data qs rho : NoDup qs -> (forall q, In q qs -> (q < n)%nat) -> kcomplete (length qs) data ->
  dm_trace n (channel_map n (length qs) data qs rho) = dm_trace n rho.
Proof.
  intros ND H HK. rewrite !trace_drep, channel_drep by auto. rewrite !(cbsum_split n qs) by auto. apply asum_ext. intros f.
  set (k := length qs) in *. unfold conjk. fold k.
  transitivity (cbsum k (fun a => cbsum k (fun b => ksum k data (idx k b) (idx k a) * drep n rho (putf qs a f) (putf qs b f)))).
  - rewrite <- csum_cbsum_swap. rewrite (csum_ext data _ (fun d => cbsum k (fun a => cbsum k (fun b =>
      (cbsum k (fun c => Cconj (fst d * snd d (idx k c) (idx k b)) * (fst d * snd d (idx k c) (idx k a)))) * drep n rho (putf qs a f) (putf qs b f))))).
    + rewrite csum_cbsum_swap. apply cbsum_ext. intros a. rewrite csum_cbsum_swap. apply cbsum_ext. intros b.
      unfold ksum. rewrite (csum_ext data _ (fun d => drep n rho (putf qs a f) (putf qs b f) *
        cbsum k (fun c => Cconj (fst d * snd d (idx k c) (idx k b)) * (fst d * snd d (idx k c) (idx k a))))) by (intros; ring).
      rewrite csum_mul.
      rewrite (csum_ext data (fun d => csum (range (2 ^ k)) _) (fun d => cbsum k (fun c => Cconj (fst d * snd d (idx k c) (idx k b)) * (fst d * snd d (idx k c) (idx k a)))));
        [ring|]. intros d _. apply (csum_cbsum k (fun r => Cconj (fst d * snd d r (idx k b)) * (fst d * snd d r (idx k a)))).
    + intros d _. unfold k. rewrite (cbsum_ext _ _ (fun c => cbsum (length qs) (fun a => cbsum (length qs) (fun b =>
        Cconj (fst d * snd d (idx k c) (idx k b)) * (fst d * snd d (idx k c) (idx k a)) * drep n rho (putf qs a f) (putf qs b f))))).
      * rewrite cbsum_swap. apply cbsum_ext. intros a. rewrite cbsum_swap. apply cbsum_ext. intros b. fold k.
        rewrite (cbsum_ext k _ (fun c => drep n rho (putf qs a f) (putf qs b f) * (Cconj (fst d * snd d (idx k c) (idx k b)) * (fst d * snd d (idx k c) (idx k a))))) by (intros; ring).
        rewrite cbsum_mul. ring.
      * intros c. rewrite <- cbsum_mul. apply cbsum_ext. intros a. rewrite <- cbsum_mul. apply cbsum_ext. intros b.
        rewrite !idx_putf, !putf_putf by auto. fold k. rewrite Cconj_mul. ring.
  - apply cbsum_ext. intros a.
    rewrite (cbsum_ext k _ (fun b => eye (idx k a) (idx k b) * drep n rho (putf qs a f) (putf qs b f))).
    + apply (eye_sum k (fun b => drep n rho (putf qs a f) (putf qs b f))). intros x y Hxy. f_equal. apply putf_ext. auto.
    + intros b. rewrite HK by apply idx_lt. f_equal. unfold eye. rewrite Nat.eqb_sym. auto.
Qed.

(** * Positivity *)
Definition quad (n : nat) (rho : dop) (v : state) : C := cbsum n (fun f => cbsum n (fun g => Cconj (v f) * rho f g * v g)).
(** positive semi-definite on n qubits *)
Definition psd (n : nat) (rho : dop) : Prop := forall v, exists r, (0 <= r)%R /\ quad n rho v = RtoC r.
Lemma asum_cbsum l k F : forall f, asum l (fun g => cbsum k (F g)) f = cbsum k (fun c => asum l (fun g => F g c) f).
Proof. induction l as [|q l IH]; intros f; simpl; auto. rewrite !IH, cbsum_add. auto. Qed.
Lemma asum_mul l c F : forall f, asum l (fun g => c * F g) f = c * asum l F f.
Proof. induction l as [|q l IH]; intros f; simpl; auto. rewrite !IH. ring. Qed.
Lemma cbsum_conj n F : Cconj (cbsum n F) = cbsum n (fun f => Cconj (F f)).
Proof. unfold cbsum. revert F; induction n as [|n IH]; intros F; simpl; auto. rewrite IH. apply bsum_ext. intros. apply Cconj_add. Qed.
(** op^dagger v *)
Definition dagv (op : cmat) (qs : list nat) (v : state) : state := fun g =>
  let k := length qs in cbsum k (fun c => Cconj (op (idx k c) (idx k (fun t => g (nth t qs 0%nat)))) * v (putf qs c g)).
Lemma conjk_put op qs rho c f d g : NoDup qs -> conjk op qs rho (putf qs c f) (putf qs d g) =
  cbsum (length qs) (fun a => cbsum (length qs) (fun b => op (idx (length qs) c) (idx (length qs) a) * rho (putf qs a f) (putf qs b g) * Cconj (op (idx (length qs) d) (idx (length qs) b)))).
Proof. intros ND. unfold conjk. apply cbsum_ext. intros a. apply cbsum_ext. intros b. rewrite !idx_putf, !putf_putf by auto. auto. Qed.
Lemma dagv_put op qs v a f : NoDup qs -> dagv op qs v (putf qs a f) =
  cbsum (length qs) (fun c => Cconj (op (idx (length qs) c) (idx (length qs) a)) * v (putf qs c f)).
Proof. intros ND. unfold dagv. apply cbsum_ext. intros c. rewrite !idx_putf, !putf_putf by auto. auto. Qed.
Lemma quad_conjk n op qs rho v : NoDup qs -> (forall q, In q qs -> (q < n)%nat) -> quad n (conjk op qs rho) v = quad n rho (dagv op qs v).
Proof.
  intros ND H. unfold quad. rewrite !(cbsum_split n qs) by auto. apply asum_ext. intros f. set (k := length qs) in *.
  set (z := fun _ : nat => false).
  set (T := fun c a d b g => Cconj (v (putf qs c f)) * (op (idx k c) (idx k a) * rho (putf qs a f) (putf qs b g) * Cconj (op (idx k d) (idx k b))) * v (putf qs d g)).
  transitivity (cbsum k (fun c => cbsum k (fun a => asum (rest n qs) (fun g => cbsum k (fun d => cbsum k (fun b => T c a d b g))) z))).
  - apply cbsum_ext. intros c. rewrite (cbsum_split n qs) by auto. rewrite <- asum_cbsum. apply asum_ext. intros g. fold k.
    rewrite cbsum_swap. apply cbsum_ext. intros d. rewrite conjk_put by auto. fold k.
    rewrite (cbsum_ext k (fun a => cbsum k (fun b => T c a d b g)) (fun a => (Cconj (v (putf qs c f)) * v (putf qs d g)) * (cbsum k (fun b =>
       op (idx k c) (idx k a) * rho (putf qs a f) (putf qs b g) * Cconj (op (idx k d) (idx k b)))))).
    + rewrite cbsum_mul. ring.
    + intros a. unfold T. rewrite (cbsum_ext k (fun b => Cconj (v (putf qs c f)) * _ * v (putf qs d g)) (fun b => Cconj (v (putf qs c f)) * v (putf qs d g) * (
       op (idx k c) (idx k a) * rho (putf qs a f) (putf qs b g) * Cconj (op (idx k d) (idx k b))))) by (intros; ring).
      rewrite cbsum_mul. ring.
  - rewrite cbsum_swap. apply cbsum_ext. intros a. rewrite (cbsum_split n qs) by auto. fold k.
    rewrite <- asum_cbsum. apply asum_ext. intros g.
    rewrite (cbsum_ext k _ (fun c => cbsum k (fun b => cbsum k (fun d => T c a d b g)))) by (intros; apply cbsum_swap).
    rewrite cbsum_swap. apply cbsum_ext. intros b. rewrite !dagv_put by auto. fold k.
    set (R := rho (putf qs a f) (putf qs b g)). set (B := cbsum k (fun c => Cconj (op (idx k c) (idx k b)) * v (putf qs c g))).
    rewrite cbsum_conj. rewrite (cbsum_ext k (fun c => cbsum k (fun d => T c a d b g)) (fun c => (R * B) * Cconj (Cconj (op (idx k c) (idx k a)) * v (putf qs c f)))).
    + rewrite cbsum_mul. ring.
    + intros c. unfold T. fold R. rewrite (cbsum_ext k _ (fun d => (Cconj (v (putf qs c f)) * op (idx k c) (idx k a) * R) * (Cconj (op (idx k d) (idx k b)) * v (putf qs d g)))) by (intros; ring).
      rewrite cbsum_mul. fold B. rewrite Cconj_mul, Cconj_inv. ring.
Qed.
Lemma quad_add n a b v : quad n (fun f g => a f g + b f g) v = quad n a v + quad n b v.
Proof. unfold quad. rewrite <- cbsum_add. apply cbsum_ext. intros f. rewrite <- cbsum_add. apply cbsum_ext. intros g. ring. Qed.
Lemma quad_mul n c a v : quad n (fun f g => c * a f g) v = c * quad n a v.
Proof. unfold quad. rewrite <- cbsum_mul. apply cbsum_ext. intros f. rewrite <- cbsum_mul. apply cbsum_ext. intros g. ring. Qed.
Lemma quad_0 n v : quad n (fun _ _ => C0) v = C0.
Proof.
  unfold quad. transitivity (cbsum n (fun _ => C0)); [|apply cbsum_0]. apply cbsum_ext. intros f.
  transitivity (cbsum n (fun _ => C0)); [|apply cbsum_0]. apply cbsum_ext. intros g. ring.
Qed.
Lemma channel_psd n data qs rho : NoDup qs -> (forall q, In q qs -> (q < n)%nat) -> psd n (drep n rho) ->
  psd n (drep n (channel_map n (length qs) data qs rho)).
Proof.
  intros ND H P. rewrite channel_drep by auto. intros v. induction data as [|d data IH].
  - exists 0%R. split; [lra|]. unfold csum. simpl. apply quad_0.
  - destruct IH as (r & Hr & E). unfold csum in *. simpl. rewrite quad_add, E.
    rewrite quad_mul, quad_conjk by auto. destruct (P (dagv (snd d) qs v)) as (r' & Hr' & E'). rewrite E'. rewrite Cnorm2_mulconj, <- RtoC_mul, <- RtoC_add.
    eexists. split; [|reflexivity]. pose proof (Cnorm2_nonneg (fst d)). nra.
Qed.

(** * Completeness of the built-in channels *)
Lemma range2 : range (2 ^ 1) = [0; 1]%nat. Proof. reflexivity. Qed.
Lemma range4 : range (2 ^ 2) = [0; 1; 2; 3]%nat. Proof. reflexivity. Qed.
Lemma m2_get U (a b : bool) : m2 U (if a then 1 else 0)%nat (if b then 1 else 0)%nat = mget U a b.
Proof. destruct a, b; reflexivity. Qed.
Lemma gram2 c U i j : csum (range (2 ^ 1)) (fun r => Cconj (c * m2 U r i) * (c * m2 U r j)) = Cconj c * c * m2 (mmul (mdag U) U) i j.
Proof.
  rewrite range2. unfold csum, gsum, m2. simpl. destruct (i =? 0)%nat, (j =? 0)%nat; simpl; rewrite !Cconj_mul; ring.
Qed.
Lemma gram4 c U V i j : csum (range (2 ^ 2)) (fun r => Cconj (c * kronm (m2 U) V r i) * (c * kronm (m2 U) V r j))
  = Cconj c * c * (m2 (mmul (mdag U) U) (i / 2) (j / 2) * m2 (mmul (mdag V) V) (i mod 2) (j mod 2)).
Proof.
  rewrite range4. unfold csum, gsum, kronm. change (fold_right _ C0 [0; 1; 2; 3]%nat) with
   (Cconj (c * (m2 U 0 (i / 2) * m2 V 0 (i mod 2))) * (c * (m2 U 0 (j / 2) * m2 V 0 (j mod 2)))
    + (Cconj (c * (m2 U 0 (i / 2) * m2 V 1 (i mod 2))) * (c * (m2 U 0 (j / 2) * m2 V 1 (j mod 2)))
    + (Cconj (c * (m2 U 1 (i / 2) * m2 V 0 (i mod 2))) * (c * (m2 U 1 (j / 2) * m2 V 0 (j mod 2)))
    + (Cconj (c * (m2 U 1 (i / 2) * m2 V 1 (i mod 2))) * (c * (m2 U 1 (j / 2) * m2 V 1 (j mod 2))) + C0)))).
  unfold m2. destruct (i / 2 =? 0)%nat, (j / 2 =? 0)%nat, (i mod 2 =? 0)%nat, (j mod 2 =? 0)%nat; simpl; rewrite !Cconj_mul; ring.
Qed.
Lemma m2_mid i j : (i < 2)%nat -> (j < 2)%nat -> m2 mid i j = eye i j.
Proof. intros Hi Hj. destruct i as [|[|]], j as [|[|]]; try lia; reflexivity. Qed.
Lemma kron_mid i j : (i < 4)%nat -> (j < 4)%nat -> m2 mid (i / 2) (j / 2) * m2 mid (i mod 2) (j mod 2) = eye i j.
Proof.
  intros Hi Hj. destruct i as [|[|[|[|]]]], j as [|[|[|[|]]]]; try lia; cbn; ring.
Qed.
Lemma complete_unitary1 (l : list (C * mat2)) : (forall c U, In (c, U) l -> unitary U) -> csum l (fun d => Cconj (fst d) * fst d) = C1 ->
  kcomplete 1 (map (fun d => (fst d, m2 (snd d))) l).
Proof.
  intros HU HC i j Hi Hj. unfold ksum, csum at 1. rewrite gsum_map.
  rewrite (gsum_ext C Cadd C0 l _ (fun d => eye i j * (Cconj (fst d) * fst d))).
  - rewrite (csum_mul l (eye i j)), HC. ring.
  - intros [c U] Hd. cbn [fst snd]. rewrite gram2, (proj1 (HU c U Hd)), m2_mid by auto. ring.
Qed.
Lemma complete_unitary2 (l : list (C * (mat2 * mat2))) : (forall c U V, In (c, (U, V)) l -> unitary U /\ unitary V) -> csum l (fun d => Cconj (fst d) * fst d) = C1 ->
  kcomplete 2 (map (fun d => (fst d, kronm (m2 (fst (snd d))) (snd (snd d)))) l).
Proof.
  intros HU HC i j Hi Hj. unfold ksum, csum at 1. rewrite gsum_map.
  rewrite (gsum_ext C Cadd C0 l _ (fun d => eye i j * (Cconj (fst d) * fst d))).
  - rewrite (csum_mul l (eye i j)), HC. ring.
  - intros [c [U V]] Hd. cbn [fst snd]. destruct (HU c U V Hd) as [[EU _] [EV _]]. rewrite gram4, EU, EV, kron_mid by auto. ring.
Qed.
Lemma sq_sq x : (0 <= x)%R -> Cconj (sq x) * sq x = RtoC x.
Proof. intros H. unfold sq. rewrite Cconj_R, <- RtoC_mul, sqrt_sqrt; auto. Qed.
Lemma sq_sq' x : (0 <= x)%R -> sq x * Cconj (sq x) = RtoC x.
Proof. intros H. rewrite <- (sq_sq x H). ring. Qed.
Lemma dephasing_complete p : (0 <= p <= 1)%R -> kcomplete 1 (dephasing p).
Proof.
  intros H. apply (complete_unitary1 [(sq (1 - p), mid); (sq p, mZ)]).
  - simpl. intros c U [E|[E|[]]]; injection E as <- <-; auto using unitary_id, unitary_Z.
  - unfold csum. simpl. rewrite !sq_sq by lra. ceq; ring.
Qed.
Lemma depolarising_complete p : (0 <= p <= 1)%R -> kcomplete 1 (depolarising p).
Proof.
  intros H. apply (complete_unitary1 [(sq (1 - p), mid); (sq (p / 3), mX); (sq (p / 3), mY); (sq (p / 3), mZ)]).
  - simpl. intros c U [E|[E|[E|[E|[]]]]]; injection E as <- <-; auto using unitary_id, unitary_X, unitary_Y, unitary_Z.
  - unfold csum. simpl. rewrite !sq_sq by lra. ceq; field.
Qed.
Lemma two_depolarising_complete p : (0 <= p <= 1)%R -> kcomplete 2 (two_qubit_depolarising p).
Proof.
  intros H. apply (complete_unitary2 ((sq (1 - p), (mid, mid)) :: map (fun UV => (sq (p / 15), UV)) 
    [(mX, mX); (mZ, mZ); (mX, mid); (mY, mY); (mY, mid); (mZ, mid); (mid, mX); (mid, mY); (mid, mZ);
     (mX, mY); (mX, mZ); (mY, mX); (mY, mZ); (mZ, mY); (mZ, mX)])).
  - simpl. intros c U V K. repeat (destruct K as [K|K]; [injection K as <- <- <-; split; auto using unitary_id, unitary_X, unitary_Y, unitary_Z|]). destruct K.
  - unfold csum. simpl. rewrite !sq_sq by lra. ceq; field.
Qed.
Lemma two_tensor_complete p : (0 <= p <= 1)%R -> kcomplete 2 (two_qubit_depolarising_tensor p).
Proof.
  intros H. set (c := sq (1 - p) * sq (p / 3)). set (d := RtoC (p / 3)).
  apply (complete_unitary2 [(RtoC (1 - p), (mid, mid)); (d, (mX, mX)); (d, (mY, mY)); (d, (mZ, mZ)); (c, (mX, mid)); (c, (mY, mid)); (c, (mZ, mid));
     (c, (mid, mX)); (c, (mid, mY)); (c, (mid, mZ)); (d, (mX, mY)); (d, (mX, mZ)); (d, (mY, mX)); (d, (mY, mZ)); (d, (mZ, mX)); (d, (mZ, mY))]).
  - simpl. intros x U V K. repeat (destruct K as [K|K]; [injection K as <- <- <-; split; auto using unitary_id, unitary_X, unitary_Y, unitary_Z|]). destruct K.
  - unfold csum. simpl. assert (E : Cconj c * c = RtoC ((1 - p) * (p / 3))).
    { unfold c. rewrite Cconj_mul, RtoC_mul, <- !sq_sq by lra. ring. }
    rewrite E. unfold d. rewrite !Cconj_R. ceq; field.
Qed.
Lemma ad_gram p : (0 <= p <= 1)%R -> madd (mmul (mdag (ad_k1 p)) (ad_k1 p)) (mmul (mdag (ad_k2 p)) (ad_k2 p)) = mid.
Proof.
  intros H. pose proof (sq_sq (1 - p) ltac:(lra)) as E1. pose proof (sq_sq p ltac:(lra)) as E2.
  unfold ad_k1, ad_k2. meq; rewrite ?Cconj_0, ?Cconj_1.
  - ring. - ring. - ring.
  - transitivity (Cconj (sq (1 - p)) * sq (1 - p) + Cconj (sq p) * sq p); [ring|]. rewrite E1, E2. ceq; ring.
Qed.
Lemma m2_add U V i j : m2 (madd U V) i j = m2 U i j + m2 V i j.
Proof. unfold m2. destruct (i =? 0)%nat, (j =? 0)%nat; reflexivity. Qed.
Lemma ad_complete p : (0 <= p <= 1)%R -> kcomplete 1 (amplitude_damping p).
Proof.
  intros H i j Hi Hj. unfold ksum. unfold csum at 1, gsum, amplitude_damping. cbn [fold_right fst snd]. rewrite !gram2.
  rewrite <- m2_mid, <- (ad_gram p H), m2_add by auto. rewrite Cconj_1. ring.
Qed.
Lemma two_ad_complete p : (0 <= p <= 1)%R -> kcomplete 2 (two_qubit_amplitude_damping p).
Proof.
  intros H i j Hi Hj. unfold ksum. unfold csum at 1, gsum, two_qubit_amplitude_damping. cbn [fold_right flat_map map app fst snd]. rewrite !gram4.
  rewrite <- kron_mid by auto. rewrite <- (ad_gram p H), !m2_add. rewrite Cconj_1. ring.
Qed.
Lemma isclose_refl a : isclose a a = true.
Proof.
  unfold isclose. destruct (Rle_dec _ _) as [H|H]; auto. exfalso. apply H.
  assert (Cmod (a - a) = 0%R) as ->. { unfold Cmod, Cnorm2. simpl. replace (_ + _)%R with 0%R by ring. apply sqrt_0. }
  assert (0 <= Cmod a)%R by (apply sqrt_pos). lra.
Qed.
Lemma complete_allclose k data : kcomplete k data -> allclose (2 ^ k) (ksum k data) eye = true.
Proof.
  intros H. apply forallb_forall. intros i Hi. apply forallb_forall. intros j Hj.
  apply (sched_In _ _ _ (sched_range _)) in Hi, Hj. rewrite H by auto. apply isclose_refl.
Qed.
Lemma kraus_new_ok k data : data <> [] -> (length data <= 4 ^ k)%nat -> kcomplete k data -> kraus_new k data = Ok data.
Proof.
  intros H1 H2 H3. unfold kraus_new. destruct data; [tauto|]. rewrite (proj2 (Nat.ltb_ge _ _)) by auto. rewrite complete_allclose; auto.
Qed.
Lemma conj1_mid q rho : conj1 mid q rho = rho.
Proof.
  extensionality f. extensionality g. unfold conj1. assert (E : forall b : bool, upd f q (f q) = f) by (intros; apply upd_id).
  pose proof (upd_id f q) as Ef. pose proof (upd_id g q) as Eg.
  destruct (f q), (g q); simpl; rewrite ?Cconj_0, ?Cconj_1, Ef, Eg; ring.
Qed.
Lemma conj1_mixed q rho : dplus (dplus rho (conj1 mX q rho)) (dplus (conj1 mY q rho) (conj1 mZ q rho)) = dscale 4 (mixed q rho).
Proof.
  extensionality f. extensionality g. unfold dplus, dscale, mixed, conj1. pose proof (upd_id f q) as Ef. pose proof (upd_id g q) as Eg.
  assert (F : RtoC 4 * RtoC (/ 2) = C1 + C1) by (ceq; field).
  assert (I2 : forall x, Ci * x * Ci = - x) by (intros x; transitivity ((Ci * Ci) * x); [ring|rewrite Ci_sq; ring]).
  destruct (f q), (g q); simpl; rewrite ?Cconj_opp, ?Cconj_0, ?Cconj_1, ?Cconj_i; rewrite <- Ef at 1; rewrite <- Eg at 1.
  - transitivity ((C1 + C1) * (rho (upd f q false) (upd g q false) + rho (upd f q true) (upd g q true))); [|rewrite <- F; ring].
    replace (Ci * rho (upd f q false) (upd g q false) * - Ci) with (- (Ci * rho (upd f q false) (upd g q false) * Ci)) by ring. rewrite I2. ring.
  - replace (Ci * rho (upd f q false) (upd g q true) * - - Ci) with (Ci * rho (upd f q false) (upd g q true) * Ci) by ring. rewrite I2. ring.
  - replace (- Ci * rho (upd f q true) (upd g q false) * - Ci) with (Ci * rho (upd f q true) (upd g q false) * Ci) by ring. rewrite I2. ring.
  - transitivity ((C1 + C1) * (rho (upd f q false) (upd g q false) + rho (upd f q true) (upd g q true))); [|rewrite <- F; ring].
    replace (- Ci * rho (upd f q true) (upd g q true) * - - Ci) with (- (Ci * rho (upd f q true) (upd g q true) * Ci)) by ring. rewrite I2. ring.
Qed.
