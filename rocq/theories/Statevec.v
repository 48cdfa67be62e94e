(** Model of the state-vector kernels (graphix/sim/statevec.py:836-1200).

    Arrays are functions [nat -> C] (an array of unbounded capacity; the methods
    of Statevector call ensure_capacity before writing); numpy complex numbers are
    exact.  [for] loops are folds over [range]; [prange] loops are folds over an
    arbitrary permutation of the range (iterations are atomic). *)
From Coq Require Import Reals Lra Arith List Bool Lia Permutation FunctionalExtensionality.
From Verif Require Import Cplx Mat2 QState.
Import ListNotations.
Local Open Scope C_scope.

Definition arr := nat -> C.
(** psi[i] = c *)
Definition aset (psi : arr) (i : nat) (c : C) : arr := fun k => if (k =? i)%nat then c else psi k.
Definition for_ {A} (l : list nat) (body : nat -> A -> A) (a : A) : A := fold_left (fun a i => body i a) l a.
Definition range (n : nat) : list nat := seq 0 n.

(** statevec.py:842-864 _tensor_jit: the state of the loop is (psi, k); k
    reaches -1 only after its last use *)
Definition tensor_jit (psi phi : arr) (n m : nat) : arr :=
  let size_psi := 2 ^ n in let size_other := 2 ^ m in
  fst (for_ (range size_psi) (fun i st =>
         let alpha_old := fst st (size_psi - 1 - i)%nat in
         for_ (range size_other) (fun j st => (aset (fst st) (snd st) (alpha_old * phi (size_other - 1 - j)%nat), (snd st - 1)%nat)) st)
       (psi, (size_psi * size_other - 1)%nat)).
(** statevec.py:867-887 _add_default_node_jit; the while loop runs for
    read_idx = 2^n-1 downto 0 *)
Definition add_default_node_jit (psi : arr) (n : nat) : arr :=
  let amp := RtoC (1 / sqrt 2) in
  fst (for_ (range (2 ^ n)) (fun i st =>
         let v := amp * fst st (2 ^ n - 1 - i)%nat in
         (aset (aset (fst st) (snd st) v) (snd st - 1)%nat v, (snd st - 2)%nat))
       (psi, (2 ^ (n + 1) - 1)%nat)).
(** the pair update shared by the kernels below *)
Definition pstep (g1 g2 : C -> C -> C) (psi : arr) (ij : nat * nat) : arr :=
  let '(i1, i2) := ij in
  let psi1 := psi i1 in let psi2 := psi i2 in
  aset (aset psi i1 (g1 psi1 psi2)) i2 (g2 psi1 psi2).
(** statevec.py:890-912 _swap_jit *)
Definition swap_jit (psi : arr) (n q1 q2 : nat) : arr :=
  if (q1 =? q2)%nat then psi else
  let mask_1 := (2 ^ (n - 1 - q1))%nat in
  let mask_2 := (2 ^ (n - 1 - q2))%nat in
  let mask := Nat.lor mask_1 mask_2 in
  for_ (range (2 ^ n)) (fun i psi =>
    let b1 := negb (Nat.land i mask_1 =? 0)%nat in
    let b2 := negb (Nat.land i mask_2 =? 0)%nat in
    if negb (eqb b1 b2) then
      let j := Nat.lxor i mask in
      if (i <? j)%nat then pstep (fun x y => y) (fun x y => x) psi (i, j) else psi
    else psi) psi.
(** statevec.py:915-937 _entangle_jit; [order] is the order in which the
    iterations run: range(2^n) in the sequential case *)
Definition entangle_jit (order : list nat) (psi : arr) (n control target : nat) : arr :=
  let mask_control := (2 ^ (n - 1 - control))%nat in
  let mask_target := (2 ^ (n - 1 - target))%nat in
  let mask := Nat.lor mask_control mask_target in
  for_ order (fun i psi => if (Nat.land mask i =? mask)%nat then aset psi i (- psi i) else psi) psi.
(** statevec.py:945-954 _compute_op_psi *)
Definition compute_op_psi (op : mat2) (psi : arr) (b0 j size_half_block : nat) : arr :=
  let i1 := (b0 + j)%nat in let i2 := (i1 + size_half_block)%nat in
  pstep (fun psi1 psi2 => m00 op * psi1 + m01 op * psi2) (fun psi1 psi2 => m10 op * psi1 + m11 op * psi2) psi (i1, i2).
(** statevec.py:956-986 _evolve_single_jit.  In the parallel branches the
    iterations of the outer loop run in any order ([blocks] is a permutation of
    range(nblocks)), or, if there is one block, those of the inner loop
    ([halves]).  The sequential branch computes b0 incrementally, which equals
    size_block * b. *)
Definition evolve_single_jit (blocks halves : list nat) (psi : arr) (op : mat2) (n q : nat) : arr :=
  let size_block := (2 ^ (n - q))%nat in
  let size_half_block := (size_block / 2)%nat in
  for_ blocks (fun b psi => for_ halves (fun j psi => compute_op_psi op psi (size_block * b) j size_half_block) psi) psi.
(** statevec.py:995-1003 _compute_psic_op_psi *)
Definition compute_psic_op_psi (op : mat2) (psi : arr) (b0 j size_half_block : nat) : C :=
  let i1 := (b0 + j)%nat in let i2 := (i1 + size_half_block)%nat in
  let psi1 := psi i1 in let psi2 := psi i2 in
  let b1 := m00 op * psi1 + m01 op * psi2 in
  let b2 := m10 op * psi1 + m11 op * psi2 in
  Cconj psi1 * b1 + Cconj psi2 * b2.
(** statevec.py:1006-1040 _expectation_single_jit *)
Definition expectation_single_jit (blocks halves : list nat) (psi : arr) (op : mat2) (n q : nat) : C :=
  let size_block := (2 ^ (n - q))%nat in
  let size_half_block := (size_block / 2)%nat in
  for_ blocks (fun b r => for_ halves (fun j r => r + compute_psic_op_psi op psi (size_block * b) j size_half_block) r) C0.
(** statevec.py:1045-1070 _compute_op_psi_a2 and 1073-1109
    _evolve_single_and_compute_norm: (psi, norm2_0, norm2_1) *)
Definition evolve_and_norm (blocks halves : list nat) (psi : arr) (op : mat2) (n q : nat) : arr * R * R :=
  let size_block := (2 ^ (n - q))%nat in
  let size_half_block := (size_block / 2)%nat in
  for_ blocks (fun b st => for_ halves (fun j st =>
    let '(psi, n0, n1) := st in
    let psi' := compute_op_psi op psi (size_block * b) j size_half_block in
    let i1 := (size_block * b + j)%nat in
    (psi', (n0 + Cnorm2 (psi' i1))%R, (n1 + Cnorm2 (psi' (i1 + size_half_block)%nat))%R)) st) (psi, 0%R, 0%R).
(** statevec.py:1135-1157 _scale_psi, _scale_psi_kernel (the dispatch on the
    block size only specialises constants) *)
Definition scale_psi (psi : arr) (n_blocks size_block size_half_block shift : nat) (inv_norm : R) : arr :=
  fst (for_ (range n_blocks) (fun b st => for_ (range size_half_block) (fun j st =>
         let '(psi, k) := st in (aset psi k (psi (shift + size_block * b + j)%nat * RtoC inv_norm), S k)) st) (psi, O)).
(** statevec.py:1160-1198 _project_qubit_jit: [None] is RuntimeError *)
Definition project_qubit_jit (blocks halves : list nat) (psi : arr) (op : mat2) (n q : nat) (atol : R) : option (arr * nat) :=
  let n_blocks := (2 ^ q)%nat in
  let size_block := (2 ^ (n - q))%nat in
  let size_half_block := (size_block / 2)%nat in
  let '(psi, norm2_0, norm2_1) := evolve_and_norm blocks halves psi op n q in
  let '(shift, norm2) := if Rle_dec norm2_0 atol then (size_half_block, norm2_1) else (O, norm2_0) in
  if Rle_dec norm2 atol then None
  else Some (scale_psi psi n_blocks size_block size_half_block shift (1 / sqrt norm2), (n - 1)%nat).

(** * Specification side: amplitudes by bit assignments.  Qubit 0 is the most
    significant bit of the array index. *)
Fixpoint idx (n : nat) (f : asg) : nat :=
  match n with O => O | S n' => (2 * idx n' f + (if f n' then 1 else 0))%nat end.
(** the state on qubits 0..n-1 held by the first 2^n entries *)
Definition rep (n : nat) (psi : arr) : state := fun f => psi (idx n f).

Lemma idx_lt n f : (idx n f < 2 ^ n)%nat.
Proof. induction n as [|n IH]; simpl; [lia|]. destruct (f n); lia. Qed.
Definition shiftn (n : nat) (f : asg) : asg := fun k => f (n + k)%nat.
Lemma idx_app n m f : idx (n + m) f = (idx n f * 2 ^ m + idx m (shiftn n f))%nat.
Proof.
  induction m as [|m IH]; [rewrite Nat.add_0_r; simpl; lia|].
  rewrite Nat.add_succ_r. cbn [idx]. rewrite IH. change (shiftn n f m) with (f (n + m)%nat). rewrite Nat.pow_succ_r'. lia.
Qed.
Lemma idx_ext n f g : (forall k, (k < n)%nat -> f k = g k) -> idx n f = idx n g.
Proof. induction n as [|n IH]; simpl; auto. intros H. rewrite IH, H; auto. Qed.
Lemma idx_split n q f : (q < n)%nat ->
  idx n f = (idx q f * 2 ^ (n - q) + (if f q then 2 ^ (n - q - 1) else 0) + idx (n - q - 1) (shiftn (S q) f))%nat.
Proof.
  intros H. replace n with (q + (1 + (n - q - 1)))%nat at 1 by lia. rewrite idx_app, (idx_app 1).
  replace (1 + (n - q - 1))%nat with (n - q)%nat by lia.
  assert (idx 1 (shiftn q f) = if f q then 1 else 0)%nat as -> by (simpl; unfold shiftn; rewrite Nat.add_0_r; destruct (f q); reflexivity).
  assert (idx (n - q - 1) (shiftn 1 (shiftn q f)) = idx (n - q - 1) (shiftn (S q) f)) as ->.
  { apply idx_ext. intros k _. unfold shiftn. f_equal; lia. }
  destruct (f q); lia.
Qed.
Lemma testbit_idx n f k : Nat.testbit (idx n f) k = (k <? n)%nat && f (n - 1 - k)%nat.
Proof.
  revert k; induction n as [|n IH]; intros k; [rewrite Nat.bits_0; reflexivity|].
  cbn [idx]. destruct k as [|k].
  - rewrite Nat.sub_0_r. simpl (S n - 1)%nat. rewrite Nat.sub_0_r. simpl.
    destruct (f n); [rewrite Nat.add_1_r; apply Nat.testbit_odd_0 || (rewrite <- Nat.add_1_r; apply Nat.testbit_odd_0)|rewrite Nat.add_0_r; apply Nat.testbit_even_0].
  - replace (Nat.testbit (2 * idx n f + (if f n then 1 else 0)) (S k)) with (Nat.testbit (idx n f) k).
    + rewrite IH. change (S k <? S n)%nat with (k <? n)%nat. destruct (Nat.ltb_spec k n); auto. simpl. f_equal. lia.
    + destruct (f n); [rewrite Nat.testbit_odd_succ by lia|rewrite Nat.add_0_r, Nat.testbit_even_succ by lia]; auto.
Qed.
(** every index below 2^n is the index of a bit assignment *)
Definition bits (n i : nat) : asg := fun k => Nat.testbit i (n - 1 - k)%nat.
Lemma idx_bits n i : (i < 2 ^ n)%nat -> idx n (bits n i) = i.
Proof.
  intros H. apply Nat.bits_inj. intros k. rewrite testbit_idx. unfold bits. destruct (Nat.ltb_spec k n).
  - simpl. f_equal. lia.
  - simpl. symmetry. destruct (Nat.eq_dec i 0) as [->|N]; [apply Nat.bits_0|]. apply Nat.bits_above_log2.
    apply Nat.log2_lt_pow2; [lia|]. eapply Nat.lt_le_trans; [exact H|]. apply Nat.pow_le_mono_r; lia.
Qed.
Lemma idx_inj n f g : idx n f = idx n g -> forall k, (k < n)%nat -> f k = g k.
Proof.
  intros H k Hk. pose proof (testbit_idx n f (n - 1 - k)) as A. pose proof (testbit_idx n g (n - 1 - k)) as B.
  rewrite H in A. rewrite A in B. replace (n - 1 - (n - 1 - k))%nat with k in B by lia.
  destruct (Nat.ltb_spec (n - 1 - k) n); [simpl in B; auto|lia].
Qed.
(** * Loops of disjoint pair updates *)
Definition pnodes (L : list (nat * nat)) : list nat := flat_map (fun ij => [fst ij; snd ij]) L.
Lemma pfold_spec g1 g2 L psi : NoDup (pnodes L) ->
  let psi' := fold_left (pstep g1 g2) L psi in
  (forall a b, In (a, b) L -> psi' a = g1 (psi a) (psi b) /\ psi' b = g2 (psi a) (psi b)) /\
  (forall k, ~ In k (pnodes L) -> psi' k = psi k).
Proof.
  revert psi; induction L as [|[i1 i2] L IH]; intros psi ND; cbn [fold_left pnodes flat_map app fst snd In] in *.
  - split; [intros ? ? []|auto].
  - fold (pnodes L) in *. inversion ND as [|? ? N1 ND']; subst. inversion ND' as [|? ? N2 ND'']; subst.
    destruct (IH (pstep g1 g2 psi (i1, i2)) ND'') as [H1 H2].
    assert (V : forall k, k <> i1 -> k <> i2 -> pstep g1 g2 psi (i1, i2) k = psi k).
    { intros k K1 K2. unfold pstep, aset. apply Nat.eqb_neq in K1, K2. rewrite K1, K2. auto. }
    assert (V1 : pstep g1 g2 psi (i1, i2) i1 = g1 (psi i1) (psi i2)).
    { unfold pstep, aset. rewrite Nat.eqb_refl. destruct (Nat.eqb_spec i1 i2); auto. subst. simpl in N1. tauto. }
    assert (V2 : pstep g1 g2 psi (i1, i2) i2 = g2 (psi i1) (psi i2)).
    { unfold pstep, aset. rewrite Nat.eqb_refl. auto. }
    split.
    + intros a b [E|K].
      * injection E as <- <-. rewrite !H2; auto. intros K; apply N1; simpl; auto.
      * destruct (H1 _ _ K) as [E1 E2]. rewrite E1, E2.
        assert (In a (pnodes L) /\ In b (pnodes L)) as [Ka Kb].
        { split; apply in_flat_map; exists (a, b); simpl; auto. }
        rewrite !V; auto; intros ->; simpl in N1; tauto.
    + intros k K. rewrite H2 by tauto. apply V; intros ->; tauto.
Qed.
Lemma fold_flat {A B X} (f : X -> A -> B -> X) (bs : list A) (js : list B) x :
  fold_left (fun x b => fold_left (fun x j => f x b j) js x) bs x
  = fold_left (fun x p => f x (fst p) (snd p)) (flat_map (fun b => map (fun j => (b, j)) js) bs) x.
Proof.
  revert x; induction bs as [|b bs IH]; intros x; simpl; auto. rewrite fold_left_app, <- IH. f_equal.
  generalize x. clear. induction js as [|j js IH]; intros x; simpl; auto.
Qed.
Lemma fold_map {A B X} (f : X -> B -> X) (g : A -> B) l x : fold_left f (map g l) x = fold_left (fun x a => f x (g a)) l x.
Proof. revert x; induction l; simpl; auto. Qed.

(** the pairs visited by the kernels: blocks of size 2h *)
Definition bpairs (blocks halves : list nat) (h : nat) : list (nat * nat) :=
  map (fun p => (2 * h * fst p + snd p, 2 * h * fst p + snd p + h)%nat) (flat_map (fun b => map (fun j => (b, j)) halves) blocks).
Lemma bpairs_In blocks halves h a b : In (a, b) (bpairs blocks halves h) <->
  exists x j, In x blocks /\ In j halves /\ a = (2 * h * x + j)%nat /\ b = (2 * h * x + j + h)%nat.
Proof.
  unfold bpairs. rewrite in_map_iff. split.
  - intros ([x j] & E & K). apply in_flat_map in K. destruct K as (y & Hy & K). apply in_map_iff in K. destruct K as (i & E2 & Hi).
    injection E2 as -> ->. injection E as <- <-. exists x, j. auto.
  - intros (x & j & Hx & Hj & -> & ->). exists (x, j). split; auto. apply in_flat_map. exists x. split; auto. apply in_map_iff. eauto.
Qed.
Lemma pnodes_app a b : pnodes (a ++ b) = pnodes a ++ pnodes b.
Proof. apply flat_map_app. Qed.
Lemma NoDup_app' {A} (a b : list A) : NoDup a -> NoDup b -> (forall x, In x a -> ~ In x b) -> NoDup (a ++ b).
Proof.
  intros Ha Hb H. induction Ha as [|x a N Ha IH]; simpl; auto. constructor.
  - intros K. apply in_app_or in K. destruct K; [tauto|]. apply (H x); simpl; auto.
  - apply IH. intros; apply H; simpl; auto.
Qed.
Lemma bpairs_NoDup blocks halves h : NoDup blocks -> NoDup halves -> (forall j, In j halves -> (j < h)%nat) -> NoDup (pnodes (bpairs blocks halves h)).
Proof.
  intros HB HH HL. unfold bpairs. induction HB as [|b blocks Nb HB IH]; simpl; [constructor|].
  rewrite map_app, pnodes_app. apply NoDup_app'; auto.
  - rewrite map_map. simpl. clear IH Nb. induction HH as [|j halves Nj HH IH]; simpl; [constructor|].
    assert (K : forall x, In x (pnodes (map (fun x : nat => ((h + (h + 0)) * b + x, (h + (h + 0)) * b + x + h)%nat) halves)) ->
       exists i, In i halves /\ (x = (h + (h + 0)) * b + i \/ x = (h + (h + 0)) * b + i + h)%nat).
    { intros x Kx. apply in_flat_map in Kx. destruct Kx as ([u v] & K1 & K2). apply in_map_iff in K1. destruct K1 as (i & E & Hi). injection E as <- <-.
      exists i. simpl in K2. intuition. }
    assert (Lj : (j < h)%nat) by (apply HL; simpl; auto).
    assert (HL' : forall i, In i halves -> (i < h)%nat) by (intros; apply HL; simpl; auto).
    constructor; [|constructor; [|apply IH; auto]].
    + simpl. intros [E|E]; [lia|]. apply K in E. destruct E as (i & Hi & E). pose proof (HL' _ Hi). assert (i <> j) by (intros ->; tauto). lia.
    + intros E. apply K in E. destruct E as (i & Hi & E). pose proof (HL' _ Hi). assert (i <> j) by (intros ->; tauto). lia.
  - intros x K1 K2. apply in_flat_map in K1. destruct K1 as ([u v] & K1 & E1). apply in_map_iff in K1. destruct K1 as ([? i] & E & K1).
    apply in_map_iff in K1. destruct K1 as (i' & E' & Hi). injection E' as <- <-. injection E as <- <-.
    apply in_flat_map in K2. destruct K2 as ([u v] & K2 & E2). apply (bpairs_In blocks halves h) in K2. destruct K2 as (y & j & Hy & Hj & -> & ->).
    assert (y <> b) by (intros ->; tauto). apply HL in Hi, Hj. simpl in E1, E2. 
    assert (exists c, (c < 2 * h)%nat /\ x = 2 * h * b + c)%nat as (c & Hc & ->) by (destruct E1 as [<-|[<-|[]]]; [exists i'|exists (i' + h)%nat]; lia).
    assert (exists d, (d < 2 * h)%nat /\ 2 * h * b + c = 2 * h * y + d)%nat as (d & Hd & E) by (destruct E2 as [E2|[E2|[]]]; [exists j|exists (j + h)%nat]; lia).
    clear - H Hc Hd E. nia.
Qed.
(** [order] runs through range(n) in any order *)
Definition sched (order : list nat) (n : nat) : Prop := Permutation order (range n).
Lemma sched_NoDup order n : sched order n -> NoDup order.
Proof. intros H. eapply Permutation_NoDup; [apply Permutation_sym; exact H|apply seq_NoDup]. Qed.
Lemma sched_In order n i : sched order n -> (In i order <-> (i < n)%nat).
Proof.
  intros H. split; intros K.
  - eapply Permutation_in in K; [|exact H]. apply in_seq in K. lia.
  - eapply Permutation_in; [apply Permutation_sym; exact H|]. apply in_seq. lia.
Qed.
Lemma sched_range n : sched (range n) n.
Proof. apply Permutation_refl. Qed.

Lemma half_block n q : (q < n)%nat -> (2 ^ (n - q) / 2 = 2 ^ (n - q - 1) /\ 2 ^ (n - q) = 2 * 2 ^ (n - q - 1))%nat.
Proof.
  intros H. replace (n - q)%nat with (S (n - q - 1)) by lia. replace (S (n - q - 1) - 1)%nat with (n - q - 1)%nat by lia.
  rewrite Nat.pow_succ_r'. split; auto. rewrite Nat.mul_comm. apply Nat.div_mul. lia.
Qed.
Lemma evolve_as_pairs blocks halves psi op n q : (q < n)%nat ->
  evolve_single_jit blocks halves psi op n q
  = fold_left (pstep (fun x y => m00 op * x + m01 op * y) (fun x y => m10 op * x + m11 op * y)) (bpairs blocks halves (2 ^ (n - q - 1))) psi.
Proof.
  intros H. destruct (half_block n q H) as [E1 E2]. unfold evolve_single_jit, for_, bpairs. rewrite E1, E2, fold_map.
  rewrite (fold_flat (fun psi b j => compute_op_psi op psi (2 * 2 ^ (n - q - 1) * b) j (2 ^ (n - q - 1)))). reflexivity.
Qed.
Lemma idx_upd_ge n f q b : (n <= q)%nat -> idx n (upd f q b) = idx n f.
Proof. intros H. apply idx_ext. intros k Hk. apply upd_other. lia. Qed.
Lemma idx_upd n q f b : (q < n)%nat ->
  idx n (upd f q b) = (2 * 2 ^ (n - q - 1) * idx q f + idx (n - q - 1) (shiftn (S q) f) + (if b then 2 ^ (n - q - 1) else 0))%nat.
Proof.
  intros H. rewrite (idx_split n q) by auto. rewrite upd_same, idx_upd_ge by lia.
  assert (idx (n - q - 1) (shiftn (S q) (upd f q b)) = idx (n - q - 1) (shiftn (S q) f)) as ->.
  { apply idx_ext. intros k _. unfold shiftn. apply upd_other. lia. }
  destruct (half_block n q H) as [_ ->]. destruct b; lia.
Qed.
(** evolve_single applies the operator to the qubit *)
Lemma evolve_single_rep blocks halves psi op n q : (q < n)%nat -> sched blocks (2 ^ q) -> sched halves (2 ^ (n - q - 1)) ->
  rep n (evolve_single_jit blocks halves psi op n q) = app_op (OApp1 op q) (rep n psi).
Proof.
  intros H SB SH. rewrite evolve_as_pairs by auto.
  set (h := (2 ^ (n - q - 1))%nat).
  assert (ND : NoDup (pnodes (bpairs blocks halves h))).
  { apply bpairs_NoDup; eauto using sched_NoDup. intros j. apply sched_In; auto. }
  pose proof (pfold_spec (fun x y => m00 op * x + m01 op * y) (fun x y => m10 op * x + m11 op * y) _ psi ND) as [PF _].
  extensionality f. unfold rep. cbn [app_op].
  assert (K : In (idx n (upd f q false), idx n (upd f q true)) (bpairs blocks halves h)).
  { apply bpairs_In. exists (idx q f), (idx (n - q - 1) (shiftn (S q) f)). split; [apply (sched_In _ _ _ SB), idx_lt|].
    split; [apply (sched_In _ _ _ SH), idx_lt|]. rewrite !idx_upd by auto. fold h. split; lia. }
  destruct (PF _ _ K) as [P1 P2].
  destruct (f q) eqn:E; rewrite <- (upd_id f q), E at 1; [rewrite P2|rewrite P1]; reflexivity.
Qed.

(** * CZ *)
Lemma sfold_spec (c : nat -> bool) (g : C -> C) order psi : NoDup order ->
  let psi' := fold_left (fun psi i => if c i then aset psi i (g (psi i)) else psi) order psi in
  (forall i, In i order -> psi' i = if c i then g (psi i) else psi i) /\ (forall i, ~ In i order -> psi' i = psi i).
Proof.
  intros ND; revert psi; induction ND as [|x l N ND IH]; intros psi; cbn [fold_left]; [split; [intros i []|auto]|].
  set (p1 := if c x then aset psi x (g (psi x)) else psi). destruct (IH p1) as [H1 H2].
  assert (V : forall k, k <> x -> p1 k = psi k).
  { intros k K. unfold p1. destruct (c x); auto. unfold aset. apply Nat.eqb_neq in K. rewrite K; auto. }
  split.
  - intros i [<-|K].
    + rewrite H2 by auto. unfold p1. destruct (c x); auto. unfold aset. rewrite Nat.eqb_refl; auto.
    + rewrite H1 by auto. rewrite V by (intros ->; tauto). auto.
  - intros i K. rewrite H2 by (simpl in K; tauto). apply V. intros ->; simpl in K; tauto.
Qed.
Lemma mask_test a b i : (Nat.land (Nat.lor (2 ^ a) (2 ^ b)) i =? Nat.lor (2 ^ a) (2 ^ b))%nat = Nat.testbit i a && Nat.testbit i b.
Proof.
  apply eq_true_iff_eq. rewrite Nat.eqb_eq, andb_true_iff. split.
  - intros H. split; [assert (K := f_equal (fun x => Nat.testbit x a) H)|assert (K := f_equal (fun x => Nat.testbit x b) H)]; cbn beta in K;
      rewrite Nat.land_spec, Nat.lor_spec, !Nat.pow2_bits_eqb, Nat.eqb_refl in K; rewrite ?orb_true_r in K; simpl in K; auto.
  - intros [H1 H2]. apply Nat.bits_inj. intros k. rewrite Nat.land_spec, Nat.lor_spec, !Nat.pow2_bits_eqb.
    destruct (Nat.eqb_spec a k), (Nat.eqb_spec b k); subst; rewrite ?H1, ?H2; auto.
Qed.
Lemma testbit_pos n f q : (q < n)%nat -> Nat.testbit (idx n f) (n - 1 - q) = f q.
Proof.
  intros H. rewrite testbit_idx. replace (n - 1 - (n - 1 - q))%nat with q by lia.
  destruct (Nat.ltb_spec (n - 1 - q) n); auto; lia.
Qed.
Lemma entangle_rep order psi n u v : (u < n)%nat -> (v < n)%nat -> sched order (2 ^ n) ->
  rep n (entangle_jit order psi n u v) = app_op (OCz u v) (rep n psi).
Proof.
  intros Hu Hv S. extensionality f. unfold rep, entangle_jit, for_. cbn [app_op].
  pose proof (sfold_spec (fun i => Nat.land (Nat.lor (2 ^ (n - 1 - u)) (2 ^ (n - 1 - v))) i =? Nat.lor (2 ^ (n - 1 - u)) (2 ^ (n - 1 - v)))%nat
    Copp order psi (sched_NoDup _ _ S)) as [H _].
  rewrite H by (apply (sched_In _ _ _ S), idx_lt). rewrite mask_test, !testbit_pos by auto.
  destruct (f u && f v); simpl; ring.
Qed.

(** * SWAP *)
Definition fswap (u v : nat) (f : asg) : asg := fun k => if (k =? u)%nat then f v else if (k =? v)%nat then f u else f k.
Lemma cond_pairs g1 g2 (p : nat -> bool) (J : nat -> nat) l psi :
  fold_left (fun psi i => if p i then pstep g1 g2 psi (i, J i) else psi) l psi
  = fold_left (pstep g1 g2) (map (fun i => (i, J i)) (filter p l)) psi.
Proof. revert psi; induction l as [|i l IH]; intros psi; cbn [fold_left filter]; auto. rewrite IH. destruct (p i); reflexivity. Qed.
Lemma invol_pairs_NoDup (J : nat -> nat) l : NoDup l -> (forall i, J (J i) = i) -> (forall i, In i l -> (i < J i)%nat) ->
  NoDup (pnodes (map (fun i => (i, J i)) l)).
Proof.
  intros ND HJ HL. assert (K : forall l x, In x (pnodes (map (fun i => (i, J i)) l)) -> exists i, In i l /\ (x = i \/ x = J i)).
  { clear. intros l x K. apply in_flat_map in K. destruct K as ([a b] & K1 & K2). apply in_map_iff in K1. destruct K1 as (i & E & Hi).
    injection E as <- <-. exists i. simpl in K2. intuition. }
  induction ND as [|i l N ND IH]; simpl; [constructor|].
  assert (Li : (i < J i)%nat) by (apply HL; simpl; auto).
  constructor; [|constructor; [|apply IH; intros; apply HL; simpl; auto]].
  - simpl. intros [E|E]; [lia|]. apply K in E. destruct E as (k & Hk & [->| ->]); [tauto|].
    assert (k < J k)%nat by (apply HL; simpl; auto). rewrite HJ in Li. lia.
  - intros E. apply K in E. destruct E as (k & Hk & [E|E]).
    + assert (J k = i) by (rewrite <- E; apply HJ). assert (k < J k)%nat by (apply HL; simpl; auto). lia.
    + assert (i = k) by (rewrite <- (HJ i), E; apply HJ). subst. tauto.
Qed.
Lemma land_pow2 i a : negb (Nat.land i (2 ^ a) =? 0)%nat = Nat.testbit i a.
Proof.
  destruct (Nat.testbit i a) eqn:E.
  - apply negb_true_iff, Nat.eqb_neq. intros H. assert (K := f_equal (fun x => Nat.testbit x a) H). cbn beta in K.
    rewrite Nat.land_spec, E, Nat.pow2_bits_eqb, Nat.eqb_refl, Nat.bits_0 in K. discriminate.
  - apply negb_false_iff, Nat.eqb_eq. apply Nat.bits_inj. intros k. rewrite Nat.land_spec, Nat.pow2_bits_eqb, Nat.bits_0.
    destruct (Nat.eqb_spec a k); subst; rewrite ?E, ?andb_false_r; auto.
Qed.
Lemma swap_idx n u v f : (u < n)%nat -> (v < n)%nat -> f u <> f v ->
  Nat.lxor (idx n f) (Nat.lor (2 ^ (n - 1 - u)) (2 ^ (n - 1 - v))) = idx n (fswap u v f).
Proof.
  intros Hu Hv Hf. apply Nat.bits_inj. intros k. rewrite Nat.lxor_spec, Nat.lor_spec, !Nat.pow2_bits_eqb, !testbit_idx.
  destruct (Nat.ltb_spec k n).
  - simpl. unfold fswap. destruct (Nat.eqb_spec (n - 1 - k) u) as [E|E]; [|destruct (Nat.eqb_spec (n - 1 - k) v) as [E2|E2]].
    + replace (n - 1 - u =? k)%nat with true by (symmetry; apply Nat.eqb_eq; lia). simpl. rewrite E, xorb_true_r. destruct (f u), (f v); auto; congruence.
    + replace (n - 1 - v =? k)%nat with true by (symmetry; apply Nat.eqb_eq; lia). rewrite orb_true_r, E2, xorb_true_r. destruct (f u), (f v); auto; congruence.
    + replace (n - 1 - u =? k)%nat with false by (symmetry; apply Nat.eqb_neq; lia).
      replace (n - 1 - v =? k)%nat with false by (symmetry; apply Nat.eqb_neq; lia). apply xorb_false_r.
  - replace (n - 1 - u =? k)%nat with false by (symmetry; apply Nat.eqb_neq; lia).
    replace (n - 1 - v =? k)%nat with false by (symmetry; apply Nat.eqb_neq; lia). reflexivity.
Qed.
Lemma swap_rep psi n u v : (u < n)%nat -> (v < n)%nat ->
  rep n (swap_jit psi n u v) = fun f => rep n psi (fswap u v f).
Proof.
  intros Hu Hv. extensionality f. unfold rep, swap_jit.
  destruct (Nat.eqb_spec u v) as [->|Huv].
  { f_equal. apply idx_ext. intros k _. unfold fswap. destruct (Nat.eqb_spec k v); subst; auto. }
  set (mk := Nat.lor (2 ^ (n - 1 - u)) (2 ^ (n - 1 - v))). set (J := fun i => Nat.lxor i mk).
  set (p := fun i => xorb (Nat.testbit i (n - 1 - u)) (Nat.testbit i (n - 1 - v)) && (i <? J i)%nat).
  assert (E : forall psi, for_ (range (2 ^ n)) (fun i psi => if negb (eqb (negb (Nat.land i (2 ^ (n - 1 - u)) =? 0)%nat) (negb (Nat.land i (2 ^ (n - 1 - v)) =? 0)%nat)) then
      if (i <? Nat.lxor i mk)%nat then pstep (fun x y => y) (fun x y => x) psi (i, Nat.lxor i mk) else psi else psi) psi
      = fold_left (pstep (fun x y => y) (fun x y => x)) (map (fun i => (i, J i)) (filter p (range (2 ^ n)))) psi).
  { intros psi0. rewrite <- cond_pairs. unfold for_. generalize psi0. induction (range (2 ^ n)) as [|i l IH]; intros psi1; auto.
    cbn [fold_left]. rewrite IH. f_equal. rewrite !land_pow2. unfold p, J.
    destruct (Nat.testbit i (n - 1 - u)), (Nat.testbit i (n - 1 - v)); reflexivity. }
  cbv zeta. fold mk. rewrite E. clear E.
  assert (JJ : forall i, J (J i) = i).
  { intros i. unfold J. apply Nat.bits_inj. intros k. rewrite !Nat.lxor_spec. destruct (Nat.testbit i k), (Nat.testbit mk k); auto. }
  assert (ND : NoDup (pnodes (map (fun i => (i, J i)) (filter p (range (2 ^ n)))))).
  { apply invol_pairs_NoDup; auto; [apply NoDup_filter, seq_NoDup|]. intros i Hi. apply filter_In in Hi. destruct Hi as [_ Hi].
    unfold p in Hi. apply andb_true_iff in Hi. apply Nat.ltb_lt. tauto. }
  pose proof (pfold_spec (fun x y => y) (fun x y => x) _ psi ND) as [PF PN].
  assert (INL : forall g, g u <> g v -> (idx n g < J (idx n g))%nat -> In (idx n g, J (idx n g)) (map (fun i => (i, J i)) (filter p (range (2 ^ n))))).
  { intros g Hg Hlt. apply in_map_iff. exists (idx n g). split; auto. apply filter_In. split; [apply (sched_In _ _ _ (sched_range _)), idx_lt|].
    unfold p. rewrite !testbit_pos by auto. apply Nat.ltb_lt in Hlt. rewrite Hlt, andb_true_r. destruct (g u), (g v); auto; congruence. }
  destruct (Bool.bool_dec (f u) (f v)) as [Ef|Ef].
  - rewrite PN.
    + f_equal. apply idx_ext. intros k _. unfold fswap. destruct (Nat.eqb_spec k u); [subst; auto|]. destruct (Nat.eqb_spec k v); subst; auto.
    + intros K. apply in_flat_map in K. destruct K as ([a b] & K1 & K2). apply in_map_iff in K1. destruct K1 as (i & Ei & Hi).
      injection Ei as <- <-. apply filter_In in Hi. destruct Hi as [_ Hi]. unfold p in Hi. apply andb_true_iff in Hi. destruct Hi as [Hi _].
      assert (X : forall g, xorb (Nat.testbit (J g) (n - 1 - u)) (Nat.testbit (J g) (n - 1 - v)) = xorb (Nat.testbit g (n - 1 - u)) (Nat.testbit g (n - 1 - v))).
      { intros g. unfold J, mk. rewrite !Nat.lxor_spec, !Nat.lor_spec, !Nat.pow2_bits_eqb, !Nat.eqb_refl, orb_true_r. simpl.
        destruct (Nat.testbit g (n - 1 - u)), (Nat.testbit g (n - 1 - v)); auto. }
      simpl in K2. destruct K2 as [K2|[K2|[]]]; [rewrite K2 in Hi|rewrite <- X, K2 in Hi]; rewrite !testbit_pos, Ef, xorb_nilpotent in Hi by auto; discriminate.
  - assert (EJ : J (idx n f) = idx n (fswap u v f)) by (apply swap_idx; auto).
    assert (Ef' : fswap u v f u <> fswap u v f v).
    { unfold fswap. rewrite !Nat.eqb_refl. destruct (Nat.eqb_spec v u); [congruence|]. auto. }
    destruct (Nat.lt_trichotomy (idx n f) (J (idx n f))) as [L|[L|L]].
    + destruct (PF _ _ (INL f Ef L)) as [-> _]. rewrite EJ. auto.
    + exfalso. assert (K := f_equal (fun x => Nat.testbit x (n - 1 - u)) L). cbn beta in K. rewrite EJ, !testbit_pos in K by auto.
      unfold fswap in K. rewrite Nat.eqb_refl in K. auto.
    + assert (L' : (idx n (fswap u v f) < J (idx n (fswap u v f)))%nat) by (rewrite <- EJ, JJ; auto).
      destruct (PF _ _ (INL _ Ef' L')) as [_ K]. rewrite <- EJ, JJ in K. rewrite K, EJ. auto.
Qed.

(** * Tensor products *)
Lemma range_S n : range (S n) = range n ++ [n].
Proof. unfold range. rewrite seq_S. reflexivity. Qed.
Lemma for_app {A} l l' (b : nat -> A -> A) a : for_ (l ++ l') b a = for_ l' b (for_ l b a).
Proof. apply fold_left_app. Qed.
Lemma tensor_inner (phi : arr) (alpha : C) T x psi t : (t <= T)%nat ->
  for_ (range t) (fun j st => (aset (fst st) (snd st) (alpha * phi (T - 1 - j)%nat), (snd st - 1)%nat)) (psi, (x * T + T - 1)%nat)
  = (fun y => if (x * T + T - t <=? y)%nat && (y <? x * T + T)%nat then alpha * phi (y - x * T)%nat else psi y, (x * T + T - 1 - t)%nat).
Proof.
  induction t as [|t IH]; intros Ht.
  - unfold for_. simpl. rewrite !Nat.sub_0_r. f_equal. extensionality y.
    destruct (Nat.leb_spec (x * T + T) y), (Nat.ltb_spec y (x * T + T)); auto; lia.
  - rewrite range_S, for_app, IH by lia. unfold for_. cbn [fold_left fst snd]. f_equal; [|lia]. extensionality y. unfold aset.
    destruct (Nat.eqb_spec y (x * T + T - 1 - t)) as [->|N].
    + replace (x * T + T - S t <=? x * T + T - 1 - t)%nat with true by (symmetry; apply Nat.leb_le; lia).
      replace (x * T + T - 1 - t <? x * T + T)%nat with true by (symmetry; apply Nat.ltb_lt; lia). simpl. do 2 f_equal. lia.
    + destruct (Nat.leb_spec (x * T + T - t) y), (Nat.leb_spec (x * T + T - S t) y), (Nat.ltb_spec y (x * T + T)); auto; lia.
Qed.
Lemma tensor_outer (psi phi : arr) S_ T i : (0 < T)%nat -> (i <= S_)%nat ->
  for_ (range i) (fun i st => let alpha_old := fst st (S_ - 1 - i)%nat in
     for_ (range T) (fun j st => (aset (fst st) (snd st) (alpha_old * phi (T - 1 - j)%nat), (snd st - 1)%nat)) st) (psi, (S_ * T - 1)%nat)
  = (fun y => if ((S_ - i) * T <=? y)%nat && (y <? S_ * T)%nat then psi (y / T)%nat * phi (y mod T)%nat else psi y, ((S_ - i) * T - 1)%nat).
Proof.
  intros HT. induction i as [|i IH]; intros Hi.
  - unfold for_. simpl. rewrite !Nat.sub_0_r. f_equal. extensionality y.
    destruct (Nat.leb_spec (S_ * T) y), (Nat.ltb_spec y (S_ * T)); auto; lia.
  - rewrite range_S, for_app, IH by lia. unfold for_ at 1. cbn [fold_left fst snd]. cbv zeta.
    set (x := (S_ - 1 - i)%nat). replace (S_ - i)%nat with (S x) by lia. replace (S_ - S i)%nat with x by lia.
    replace ((S x * T <=? x)%nat) with false by (symmetry; apply Nat.leb_gt; nia). cbn [andb].
    replace (S x * T - 1)%nat with (x * T + T - 1)%nat by lia. rewrite tensor_inner by lia. f_equal; [|lia].
    extensionality y. replace (x * T + T - T)%nat with (x * T)%nat by lia.
    assert (S x * T <= S_ * T)%nat by (apply Nat.mul_le_mono_r; lia).
    destruct (Nat.leb_spec (x * T) y), (Nat.ltb_spec y (x * T + T)), (Nat.leb_spec (S x * T) y), (Nat.ltb_spec y (S_ * T)); cbn [andb]; try reflexivity; try (exfalso; lia).
    assert (y = x * T + (y - x * T))%nat as E by lia. rewrite E at 2 3.
    rewrite Nat.div_add_l, (Nat.div_small (y - x * T)), Nat.add_0_r by lia.
    rewrite (Nat.add_comm (x * T)), Nat.mod_add, Nat.mod_small by lia. auto.
Qed.
Lemma pow2_pos n : (0 < 2 ^ n)%nat.
Proof. pose proof (Nat.pow_nonzero 2 n). lia. Qed.
Lemma tensor_rep psi phi n m : rep (n + m) (tensor_jit psi phi n m) = fun f => rep n psi f * rep m phi (shiftn n f).
Proof.
  extensionality f. unfold rep, tensor_jit. cbv zeta. rewrite tensor_outer by (try apply pow2_pos; lia). cbn [fst].
  rewrite idx_app, Nat.sub_diag. pose proof (idx_lt m (shiftn n f)) as H1. pose proof (idx_lt n f) as H2.
  replace (0 * 2 ^ m <=? _)%nat with true by (symmetry; apply Nat.leb_le; lia).
  replace (_ <? _)%nat with true by (symmetry; apply Nat.ltb_lt; nia). simpl.
  rewrite Nat.div_add_l, (Nat.div_small (idx m _)), Nat.add_0_r by lia.
  rewrite (Nat.add_comm (idx n f * _)), Nat.mod_add, Nat.mod_small by lia. auto.
Qed.
Lemma add_default_loop (psi : arr) (amp : C) S_ i : (i <= S_)%nat ->
  for_ (range i) (fun i st => let v := amp * fst st (S_ - 1 - i)%nat in
         (aset (aset (fst st) (snd st) v) (snd st - 1)%nat v, (snd st - 2)%nat)) (psi, (2 * S_ - 1)%nat)
  = (fun y => if (2 * (S_ - i) <=? y)%nat && (y <? 2 * S_)%nat then amp * psi (y / 2)%nat else psi y, (2 * (S_ - i) - 1)%nat).
Proof.
  induction i as [|i IH]; intros Hi.
  - unfold for_. simpl. rewrite !Nat.sub_0_r. f_equal. extensionality y.
    destruct (Nat.leb_spec (S_ + (S_ + 0)) y), (Nat.ltb_spec y (S_ + (S_ + 0))); auto; lia.
  - rewrite range_S, for_app, IH by lia. unfold for_ at 1. cbn [fold_left fst snd]. cbv zeta. f_equal; [|lia].
    set (x := (S_ - 1 - i)%nat). replace (S_ - i)%nat with (S x) by lia. replace (S_ - S i)%nat with x by lia.
    replace (2 * S x <=? x)%nat with false by (symmetry; apply Nat.leb_gt; lia). cbn [andb].
    extensionality y. unfold aset.
    destruct (Nat.eqb_spec y (2 * S x - 1 - 1)) as [->|N1]; [|destruct (Nat.eqb_spec y (2 * S x - 1)) as [->|N2]].
    + replace (2 * x <=? 2 * S x - 1 - 1)%nat with true by (symmetry; apply Nat.leb_le; lia).
      replace (2 * S x - 1 - 1 <? 2 * S_)%nat with true by (symmetry; apply Nat.ltb_lt; lia). cbn [andb].
      replace (2 * S x - 1 - 1)%nat with (x * 2)%nat by lia. rewrite Nat.div_mul by lia. auto.
    + replace (2 * x <=? 2 * S x - 1)%nat with true by (symmetry; apply Nat.leb_le; lia).
      replace (2 * S x - 1 <? 2 * S_)%nat with true by (symmetry; apply Nat.ltb_lt; lia). cbn [andb].
      replace (2 * S x - 1)%nat with (x * 2 + 1)%nat by lia. rewrite Nat.div_add_l by lia. simpl. rewrite Nat.add_0_r. auto.
    + destruct (Nat.leb_spec (2 * S x) y), (Nat.leb_spec (2 * x) y), (Nat.ltb_spec y (2 * S_)); simpl; auto; lia.
Qed.
Definition vplus : vec2 := Vec2 (RtoC (1 / sqrt 2)) (RtoC (1 / sqrt 2)).
Lemma add_default_rep psi n : rep (S n) (add_default_node_jit psi n) = app_op (OPrep vplus n) (rep n psi).
Proof.
  extensionality f. unfold rep, add_default_node_jit. cbv zeta. replace (2 ^ (n + 1) - 1)%nat with (2 * 2 ^ n - 1)%nat by (rewrite Nat.add_1_r; reflexivity).
  rewrite add_default_loop by lia. cbn [fst app_op]. rewrite Nat.sub_diag. pose proof (idx_lt (S n) f) as H. rewrite Nat.pow_succ_r' in H.
  replace (2 * 0 <=? _)%nat with true by (symmetry; apply Nat.leb_le; lia).
  replace (_ <? _)%nat with true by (symmetry; apply Nat.ltb_lt; lia). cbn [andb]. cbn [idx].
  replace ((2 * idx n f + (if f n then 1 else 0)) / 2)%nat with (idx n f); [destruct (f n); reflexivity|].
  rewrite (Nat.mul_comm 2), Nat.div_add_l by lia. destruct (f n); simpl; lia.
Qed.

(** * Sums *)
Section Sum.
Variables (A : Type) (add : A -> A -> A) (zero : A).
Hypothesis add_comm : forall a b, add a b = add b a.
Hypothesis add_assoc : forall a b c, add a (add b c) = add (add a b) c.
Hypothesis add_0_r : forall a, add a zero = a.
Definition gsum {X} (l : list X) (F : X -> A) : A := fold_right (fun x a => add (F x) a) zero l.
Lemma gsum_perm {X} (l l' : list X) F : Permutation l l' -> gsum l F = gsum l' F.
Proof.
  induction 1; simpl; auto; [congruence| |congruence].
  rewrite !add_assoc. f_equal. apply add_comm.
Qed.
Lemma gsum_app {X} (l l' : list X) F : gsum (l ++ l') F = add (gsum l F) (gsum l' F).
Proof. induction l as [|x l IH]; simpl; [rewrite add_comm; auto|]. rewrite IH. apply add_assoc. Qed.
Lemma gsum_map {X Y} (l : list X) (g : X -> Y) F : gsum (map g l) F = gsum l (fun x => F (g x)).
Proof. induction l; simpl; congruence. Qed.
Lemma gsum_ext {X} (l : list X) F G : (forall x, In x l -> F x = G x) -> gsum l F = gsum l G.
Proof. induction l; simpl; auto. intros H. rewrite H, IHl; auto. Qed.
Lemma gsum_fold {X} (l : list X) F a : fold_left (fun a x => add a (F x)) l a = add a (gsum l F).
Proof. revert a; induction l as [|x l IH]; intros a; simpl; [rewrite add_0_r; auto|]. rewrite IH, add_assoc; auto. Qed.
Lemma gsum_pairs (L : list (nat * nat)) F : gsum (pnodes L) F = gsum L (fun p => add (F (fst p)) (F (snd p))).
Proof. induction L as [|[a b] L IH]; simpl; auto. fold (pnodes L). rewrite IH, add_assoc. auto. Qed.
(** sum over the 2^n assignments of the bits 0..n-1 *)
Fixpoint bsum (n : nat) (F : asg -> A) : A :=
  match n with O => F (fun _ => false) | S n' => bsum n' (fun f => add (F (upd f n' false)) (F (upd f n' true))) end.
Lemma bsum_ext n F G : (forall f, F f = G f) -> bsum n F = bsum n G.
Proof. intros H. f_equal. extensionality f. auto. Qed.
Lemma range_double n F : gsum (range (2 * n)) F = gsum (range n) (fun i => add (F (2 * i)%nat) (F (2 * i + 1)%nat)).
Proof.
  induction n as [|n IH]; auto. replace (2 * S n)%nat with (S (S (2 * n))) by lia. rewrite !range_S, !gsum_app, IH. simpl.
  rewrite !add_0_r, <- add_assoc. do 2 f_equal. f_equal. lia.
Qed.
Lemma bsum_range n G : bsum n (fun f => G (idx n f)) = gsum (range (2 ^ n)) G.
Proof.
  revert G; induction n as [|n IH]; intros G; [simpl; rewrite add_0_r; auto|].
  rewrite Nat.pow_succ_r', range_double, <- IH. cbn [bsum]. apply bsum_ext. intros f. cbn [idx].
  rewrite !upd_same, !idx_upd_ge by lia. rewrite Nat.add_0_r. auto.
Qed.
End Sum.
Definition csum {X} := @gsum C Cadd C0 X.
Definition cbsum := bsum C Cadd.
Definition rsum {X} := @gsum R Rplus 0%R X.
Definition rbsum := bsum R Rplus.
Definition inner (n : nat) (a b : state) : C := cbsum n (fun f => Cconj (a f) * b f).
Definition sqnorm (n : nat) (a : state) : R := rbsum n (fun f => Cnorm2 (a f)).
Lemma Cadd_comm a b : a + b = b + a. Proof. ring. Qed.
Lemma Cadd_assoc a b c : a + (b + c) = a + b + c. Proof. ring. Qed.
Lemma Cadd_0 a : a + C0 = a. Proof. ring. Qed.

Lemma pnodes_range blocks halves n q : (q < n)%nat -> sched blocks (2 ^ q) -> sched halves (2 ^ (n - q - 1)) ->
  Permutation (pnodes (bpairs blocks halves (2 ^ (n - q - 1)))) (range (2 ^ n)).
Proof.
  intros H SB SH. apply NoDup_Permutation.
  - apply bpairs_NoDup; eauto using sched_NoDup. intros j. apply sched_In; auto.
  - apply seq_NoDup.
  - intros i. unfold range. rewrite in_seq. split.
    + intros K. apply in_flat_map in K. destruct K as ([a b] & K1 & K2). apply bpairs_In in K1.
      destruct K1 as (x & j & Hx & Hj & -> & ->). apply (sched_In _ _ _ SB) in Hx. apply (sched_In _ _ _ SH) in Hj.
      assert (E : (2 ^ n = 2 ^ q * (2 * 2 ^ (n - q - 1)))%nat).
      { destruct (half_block n q H) as [_ <-]. rewrite <- Nat.pow_add_r. f_equal. lia. }
      rewrite E. simpl fst in K2. simpl snd in K2. simpl In in K2. clear E. nia.
    + intros [_ K]. simpl in K. pose proof (idx_bits n i K) as E. set (f := bits n i) in *.
      apply in_flat_map. exists (idx n (upd f q false), idx n (upd f q true)). split.
      * apply bpairs_In. exists (idx q f), (idx (n - q - 1) (shiftn (S q) f)). split; [apply (sched_In _ _ _ SB), idx_lt|].
        split; [apply (sched_In _ _ _ SH), idx_lt|]. rewrite !idx_upd by auto. split; lia.
      * cbn [fst snd In]. destruct (f q) eqn:Eq; [right; left|left]; rewrite <- Eq, upd_id; auto.
Qed.
(** expectation_single is <psi| U_q |psi> *)
Lemma expectation_rep blocks halves psi op n q : (q < n)%nat -> sched blocks (2 ^ q) -> sched halves (2 ^ (n - q - 1)) ->
  expectation_single_jit blocks halves psi op n q = inner n (rep n psi) (app_op (OApp1 op q) (rep n psi)).
Proof.
  intros H SB SH. rewrite <- (evolve_single_rep blocks halves psi op n q H SB SH).
  set (psi' := evolve_single_jit blocks halves psi op n q).
  unfold inner, cbsum, rep. rewrite (bsum_range C Cadd C0 Cadd_comm Cadd_assoc Cadd_0 n (fun i => Cconj (psi i) * psi' i)).
  rewrite <- (gsum_perm C Cadd C0 Cadd_comm Cadd_assoc _ _ _ (pnodes_range blocks halves n q H SB SH)).
  rewrite (gsum_pairs C Cadd C0 Cadd_assoc).
  destruct (half_block n q H) as [E1 E2]. unfold expectation_single_jit, for_. rewrite E1, E2. set (h := (2 ^ (n - q - 1))%nat) in *.
  rewrite (fold_flat (fun r b j => r + compute_psic_op_psi op psi (2 * h * b) j h)).
  rewrite (gsum_fold C Cadd C0 Cadd_assoc Cadd_0 _ (fun p => compute_psic_op_psi op psi (2 * h * fst p) (snd p) h)).
  unfold bpairs at 1. rewrite gsum_map. rewrite Cadd_comm, Cadd_0. apply gsum_ext. intros [x j] K. cbn [fst snd].
  assert (ND : NoDup (pnodes (bpairs blocks halves h))).
  { apply bpairs_NoDup; eauto using sched_NoDup. intros j'. apply sched_In; auto. }
  pose proof (pfold_spec (fun x y => m00 op * x + m01 op * y) (fun x y => m10 op * x + m11 op * y) _ psi ND) as [PF _].
  assert (K' : In (2 * h * x + j, 2 * h * x + j + h)%nat (bpairs blocks halves h)).
  { unfold bpairs. apply in_map_iff. exists (x, j). auto. }
  apply PF in K'. unfold psi'. rewrite evolve_as_pairs by auto. fold h. destruct K' as [-> ->]. reflexivity.
Qed.

(** * Projection *)
(** insert the bit b at position q *)
Definition ins (q : nat) (b : bool) (g : asg) : asg := fun k => if (k <? q)%nat then g k else if (k =? q)%nat then b else g (k - 1)%nat.
Lemma idx_ins n q b g : (q < n)%nat ->
  idx n (ins q b g) = (2 * 2 ^ (n - q - 1) * idx q g + idx (n - q - 1) (shiftn q g) + (if b then 2 ^ (n - q - 1) else 0))%nat.
Proof.
  intros H. rewrite (idx_split n q) by auto.
  assert (ins q b g q = b) as -> by (unfold ins; rewrite Nat.ltb_irrefl, Nat.eqb_refl; auto).
  assert (idx q (ins q b g) = idx q g) as ->.
  { apply idx_ext. intros k Hk. unfold ins. apply Nat.ltb_lt in Hk. rewrite Hk. auto. }
  assert (idx (n - q - 1) (shiftn (S q) (ins q b g)) = idx (n - q - 1) (shiftn q g)) as ->.
  { apply idx_ext. intros k _. unfold shiftn, ins. replace (S q + k <? q)%nat with false by (symmetry; apply Nat.ltb_ge; lia).
    replace (S q + k =? q)%nat with false by (symmetry; apply Nat.eqb_neq; lia). f_equal. lia. }
  destruct (half_block n q H) as [_ ->]. destruct b; lia.
Qed.
Lemma ins_upd q b c g : upd (ins q b g) q c = ins q c g.
Proof. extensionality k. unfold upd, ins. destruct (Nat.eqb_spec k q); auto. subst. rewrite Nat.ltb_irrefl. auto. Qed.
Lemma ins_q q b g : ins q b g q = b.
Proof. unfold ins. rewrite Nat.ltb_irrefl, Nat.eqb_refl. auto. Qed.

Lemma nfold_spec g1 g2 L psi a0 a1 : NoDup (pnodes L) ->
  let psi' := fold_left (pstep g1 g2) L psi in
  fold_left (fun st p => let '(psi, n0, n1) := st in
     let psi' := pstep g1 g2 psi p in (psi', (n0 + Cnorm2 (psi' (fst p)))%R, (n1 + Cnorm2 (psi' (snd p)))%R)) L (psi, a0, a1)
  = (psi', (a0 + rsum L (fun p => Cnorm2 (psi' (fst p))))%R, (a1 + rsum L (fun p => Cnorm2 (psi' (snd p))))%R).
Proof.
  revert psi a0 a1; induction L as [|[i j] L IH]; intros psi a0 a1 ND.
  - unfold rsum. simpl. rewrite !Rplus_0_r. auto.
  - cbn [fold_left]. cbn [pnodes flat_map app fst snd] in ND. fold (pnodes L) in ND.
    inversion ND as [|? ? N1 ND']; subst. inversion ND' as [|? ? N2 ND'']; subst. rewrite IH by auto. unfold rsum. cbn [gsum fold_right fst snd].
    destruct (pfold_spec g1 g2 L (pstep g1 g2 psi (i, j)) ND'') as [_ PN].
    rewrite (PN i), (PN j) by (auto; simpl in N1; tauto). rewrite !Rplus_assoc. reflexivity.
Qed.
Definition blk (h y : nat) : nat := (2 * h * (y / h) + y mod h)%nat.
Lemma blk_pair h x j : (j < h)%nat -> blk h (h * x + j) = (2 * h * x + j)%nat.
Proof.
  intros H. unfold blk. rewrite (Nat.mul_comm h x), Nat.div_add_l, (Nat.div_small j) by lia.
  rewrite (Nat.add_comm (x * h)), Nat.mod_add, Nat.mod_small by lia. lia.
Qed.
Lemma idx_q n q g : (q < n)%nat -> idx (n - 1) g = (2 ^ (n - q - 1) * idx q g + idx (n - q - 1) (shiftn q g))%nat.
Proof. intros H. replace (n - 1)%nat with (q + (n - q - 1))%nat at 1 by lia. rewrite idx_app. lia. Qed.
Lemma idx_ins_blk n q b g : (q < n)%nat -> idx n (ins q b g) = (blk (2 ^ (n - q - 1)) (idx (n - 1) g) + (if b then 2 ^ (n - q - 1) else 0))%nat.
Proof. intros H. rewrite idx_ins, (idx_q n q) by auto. rewrite blk_pair by apply idx_lt. auto. Qed.
Lemma NoDup_map_in {X Y} (f : X -> Y) l : (forall x y, In x l -> In y l -> f x = f y -> x = y) -> NoDup l -> NoDup (map f l).
Proof.
  intros H ND. induction ND as [|x l N ND IH]; simpl; constructor.
  - intros K. apply in_map_iff in K. destruct K as (y & E & K). apply H in E; simpl; auto. subst; auto.
  - apply IH. intros; apply H; simpl; auto.
Qed.
Lemma pairs_half blocks halves n q : (q < n)%nat -> sched blocks (2 ^ q) -> sched halves (2 ^ (n - q - 1)) ->
  Permutation (bpairs blocks halves (2 ^ (n - q - 1)))
    (map (fun y => (blk (2 ^ (n - q - 1)) y, blk (2 ^ (n - q - 1)) y + 2 ^ (n - q - 1))%nat) (range (2 ^ (n - 1)))).
Proof.
  intros H SB SH. set (h := (2 ^ (n - q - 1))%nat).
  assert (Hh : (0 < h)%nat) by apply pow2_pos.
  assert (E : (2 ^ (n - 1) = h * 2 ^ q)%nat).
  { unfold h. rewrite <- Nat.pow_add_r. f_equal. lia. }
  apply NoDup_Permutation.
  - assert (ND : NoDup (pnodes (bpairs blocks halves h))).
    { apply bpairs_NoDup; eauto using sched_NoDup. intros j'. apply sched_In; auto. }
    revert ND. generalize (bpairs blocks halves h). clear. induction l as [|[a b] l IH]; intros ND; [constructor|].
    cbn [pnodes flat_map app fst snd] in ND. fold (pnodes l) in ND. inversion ND as [|? ? N1 ND']; subst. inversion ND' as [|? ? N2 ND'']; subst.
    constructor; auto. intros K. apply N1. right. apply in_flat_map. exists (a, b). simpl. auto.
  - apply NoDup_map_in; [|apply seq_NoDup]. intros x y _ _ K. injection K as K _. unfold blk in K.
    pose proof (Nat.div_mod x h). pose proof (Nat.div_mod y h). pose proof (Nat.mod_upper_bound x h). pose proof (Nat.mod_upper_bound y h).
    assert (x / h = y / h)%nat by nia. assert (x mod h = y mod h)%nat by nia. lia.
  - intros [a b]. rewrite bpairs_In, in_map_iff. split.
    + intros (x & j & Hx & Hj & -> & ->). apply (sched_In _ _ _ SB) in Hx. apply (sched_In _ _ _ SH) in Hj. fold h in Hj.
      exists (h * x + j)%nat. rewrite blk_pair by auto. split; auto. apply in_seq. rewrite E. nia.
    + intros (y & K & Hy). injection K as <- <-. apply in_seq in Hy. rewrite E in Hy.
      exists (y / h)%nat, (y mod h)%nat. split; [apply (sched_In _ _ _ SB), Nat.div_lt_upper_bound; lia|].
      split; [apply (sched_In _ _ _ SH), Nat.mod_upper_bound; lia|]. auto.
Qed.
(** the squared norms of the two halves after applying the operator *)
Lemma evolve_and_norm_spec blocks halves psi op n q : (q < n)%nat -> sched blocks (2 ^ q) -> sched halves (2 ^ (n - q - 1)) ->
  evolve_and_norm blocks halves psi op n q =
  (evolve_single_jit blocks halves psi op n q,
   sqnorm (n - 1) (fun g => app_op (OApp1 op q) (rep n psi) (ins q false g)),
   sqnorm (n - 1) (fun g => app_op (OApp1 op q) (rep n psi) (ins q true g))).
Proof.
  intros H SB SH. rewrite <- (evolve_single_rep blocks halves psi op n q H SB SH).
  set (psi' := evolve_single_jit blocks halves psi op n q).
  destruct (half_block n q H) as [E1 E2]. unfold evolve_and_norm, for_. rewrite E1, E2.
  rewrite (fold_flat (fun st b j => let '(psi0, n0, n1) := st in _)).
  transitivity (fold_left (fun st p => let '(psi, n0, n1) := st in
     let psi' := pstep (fun x y => m00 op * x + m01 op * y) (fun x y => m10 op * x + m11 op * y) psi p in
     (psi', (n0 + Cnorm2 (psi' (fst p)))%R, (n1 + Cnorm2 (psi' (snd p)))%R)) (bpairs blocks halves (2 ^ (n - q - 1))) (psi, 0%R, 0%R)).
  { unfold bpairs. rewrite fold_map. reflexivity. }
  rewrite nfold_spec by (apply bpairs_NoDup; eauto using sched_NoDup; intros j'; apply sched_In; auto).
  rewrite <- evolve_as_pairs by auto. fold psi'. rewrite !Rplus_0_l. unfold rsum.
  rewrite !(gsum_perm R Rplus 0%R Rplus_comm (fun a b c => eq_sym (Rplus_assoc a b c)) _ _ _ (pairs_half blocks halves n q H SB SH)).
  rewrite !gsum_map. cbn [fst snd]. unfold sqnorm, rbsum, rep.
  rewrite <- !(bsum_range R Rplus 0%R Rplus_comm (fun a b c => eq_sym (Rplus_assoc a b c)) Rplus_0_r).
  f_equal; [f_equal|]; apply bsum_ext; intros g; rewrite idx_ins_blk by auto; [rewrite Nat.add_0_r|]; auto.
Qed.
Lemma scale_inner (h shift b t : nat) (inv : R) (psi psi0 : arr) : (t <= h)%nat ->
  (forall y, (h * b <= y)%nat -> psi y = psi0 y) ->
  for_ (range t) (fun j st => let '(psi, k) := st in (aset psi k (psi (shift + 2 * h * b + j)%nat * RtoC inv), S k)) (psi, (h * b)%nat)
  = (fun y => if (h * b <=? y)%nat && (y <? h * b + t)%nat then psi0 (shift + blk h y)%nat * RtoC inv else psi y, (h * b + t)%nat).
Proof.
  intros Ht Hp. induction t as [|t IH].
  - unfold for_; simpl. rewrite Nat.add_0_r. f_equal. extensionality y. destruct (Nat.leb_spec (h * b) y), (Nat.ltb_spec y (h * b)); auto; lia.
  - rewrite range_S, for_app, IH by lia. unfold for_. cbn [fold_left]. f_equal; [|lia]. extensionality y. unfold aset.
    destruct (Nat.eqb_spec y (h * b + t)) as [->|N].
    + replace (h * b <=? h * b + t)%nat with true by (symmetry; apply Nat.leb_le; lia).
      replace (h * b + t <? h * b + S t)%nat with true by (symmetry; apply Nat.ltb_lt; lia).
      replace ((shift + 2 * h * b + t <? h * b + t)%nat) with false by (symmetry; apply Nat.ltb_ge; nia).
      rewrite andb_false_r. cbn [andb]. rewrite blk_pair by lia. rewrite Hp by nia. do 2 f_equal. lia.
    + destruct (Nat.leb_spec (h * b) y), (Nat.ltb_spec y (h * b + t)), (Nat.ltb_spec y (h * b + S t)); cbn [andb]; auto; lia.
Qed.
Lemma scale_outer (h shift nb : nat) (inv : R) (psi : arr) : (0 < h)%nat ->
  for_ (range nb) (fun b st => for_ (range h) (fun j st =>
     let '(psi, k) := st in (aset psi k (psi (shift + 2 * h * b + j)%nat * RtoC inv), S k)) st) (psi, O)
  = (fun y => if (y <? h * nb)%nat then psi (shift + blk h y)%nat * RtoC inv else psi y, (h * nb)%nat).
Proof.
  intros Hh. induction nb as [|nb IH].
  - unfold for_; simpl. rewrite Nat.mul_0_r. reflexivity.
  - rewrite range_S, for_app, IH. unfold for_ at 1. cbn [fold_left].
    rewrite (scale_inner h shift nb h inv _ psi); [|lia|].
    + f_equal; [|lia]. extensionality y.
      destruct (Nat.leb_spec (h * nb) y), (Nat.ltb_spec y (h * nb + h)), (Nat.ltb_spec y (h * nb)), (Nat.ltb_spec y (h * S nb)); cbn [andb]; auto; lia.
    + intros y Hy. replace (y <? h * nb)%nat with false by (symmetry; apply Nat.ltb_ge; lia). auto.
Qed.
Lemma scale_rep n q psi sb (inv : R) : (q < n)%nat ->
  rep (n - 1) (scale_psi psi (2 ^ q) (2 ^ (n - q)) (2 ^ (n - q) / 2) (if sb : bool then 2 ^ (n - q) / 2 else 0)%nat inv)
  = fun g => rep n psi (ins q sb g) * RtoC inv.
Proof.
  intros H. destruct (half_block n q H) as [E1 E2]. unfold scale_psi. rewrite E1, E2.
  rewrite scale_outer by apply pow2_pos. extensionality g. unfold rep. cbn [fst].
  assert (E : (2 ^ (n - q - 1) * 2 ^ q = 2 ^ (n - 1))%nat).
  { rewrite <- Nat.pow_add_r. f_equal. lia. }
  rewrite E. pose proof (idx_lt (n - 1) g) as L. apply Nat.ltb_lt in L. rewrite L.
  rewrite idx_ins_blk by auto. do 2 f_equal. destruct sb; lia.
Qed.
Definition vnorm2 (v : vec2) : R := (Cnorm2 (v0 v) + Cnorm2 (v1 v))%R.
(** the unnormalised post-measurement state of the remaining qubits *)
Definition mbranch (v : vec2) (q : nat) (psi : state) : state :=
  fun g => Cconj (v0 v) * psi (ins q false g) + Cconj (v1 v) * psi (ins q true g).
Lemma sqnorm_scale n c a : sqnorm n (fun g => c * a g) = (Cnorm2 c * sqnorm n a)%R.
Proof.
  unfold sqnorm, rbsum. transitivity (bsum R Rplus n (fun f => Cnorm2 c * Cnorm2 (a f))%R); [apply bsum_ext; intros; apply Cnorm2_mul|].
  assert (K : forall F : asg -> R, bsum R Rplus n (fun f => Cnorm2 c * F f)%R = (Cnorm2 c * bsum R Rplus n F)%R);
    [|apply (K (fun f => Cnorm2 (a f)))].
  clear a. induction n as [|n IH]; intros F; simpl; auto. rewrite <- IH. apply bsum_ext. intros; ring.
Qed.
Lemma sqnorm_nonneg n a : (0 <= sqnorm n a)%R.
Proof.
  unfold sqnorm, rbsum. assert (K : forall F : asg -> R, (forall f, 0 <= F f)%R -> (0 <= bsum R Rplus n F)%R).
  { induction n as [|n IH]; intros F HF; simpl; auto. apply IH. intros f. pose proof (HF (upd f n false)). pose proof (HF (upd f n true)). lra. }
  apply K. intros; apply Cnorm2_nonneg.
Qed.
Lemma project_rep blocks halves psi v n q atol : (q < n)%nat -> sched blocks (2 ^ q) -> sched halves (2 ^ (n - q - 1)) ->
  vnorm2 v = 1%R -> (0 <= atol)%R ->
  let N := sqnorm (n - 1) (mbranch v q (rep n psi)) in
  match project_qubit_jit blocks halves psi (vouter v v) n q atol with
  | Some (psi', n') => n' = (n - 1)%nat /\ (atol < N)%R /\ exists c, phase c /\ rep n' psi' = cscale (c * RtoC (1 / sqrt N)) (mbranch v q (rep n psi))
  | None => (N <= 2 * atol)%R
  end.
Proof.
  intros H SB SH Hv Ha N. unfold project_qubit_jit. rewrite evolve_and_norm_spec by auto.
  assert (EV : forall b g, app_op (OApp1 (vouter v v) q) (rep n psi) (ins q b g) = vget v b * mbranch v q (rep n psi) g).
  { intros b g. cbn [app_op]. rewrite ins_q, !ins_upd. unfold mbranch. destruct b; simpl; ring. }
  assert (EN : forall b, sqnorm (n - 1) (fun g => app_op (OApp1 (vouter v v) q) (rep n psi) (ins q b g)) = (Cnorm2 (vget v b) * N)%R).
  { intros b. unfold N. rewrite <- sqnorm_scale. unfold sqnorm, rbsum. apply bsum_ext. intros g. rewrite EV. auto. }
  rewrite !EN. unfold vnorm2 in Hv.
  assert (HN : (0 <= N)%R) by apply sqnorm_nonneg.
  assert (FIN : forall b, (atol < Cnorm2 (vget v b) * N)%R -> (Cnorm2 (vget v b) <= 1)%R ->
     (n - 1)%nat = (n - 1)%nat /\ (atol < N)%R /\ exists c, phase c /\
       rep (n - 1) (scale_psi (evolve_single_jit blocks halves psi (vouter v v) n q) (2 ^ q) (2 ^ (n - q)) (2 ^ (n - q) / 2)
          (if b then 2 ^ (n - q) / 2 else 0)%nat (1 / sqrt (Cnorm2 (vget v b) * N)))
       = cscale (c * RtoC (1 / sqrt N)) (mbranch v q (rep n psi))).
  { intros b Hb Hb1. split; auto. pose proof (Cnorm2_nonneg (vget v b)) as P. split; [nra|].
    assert (P' : (0 < Cnorm2 (vget v b))%R) by nra. assert (PN : (0 < N)%R) by nra.
    exists (vget v b * RtoC (1 / sqrt (Cnorm2 (vget v b)))).
    assert (S1 : (0 < sqrt (Cnorm2 (vget v b)))%R) by (apply sqrt_lt_R0; auto).
    assert (S2 : (0 < sqrt N)%R) by (apply sqrt_lt_R0; auto).
    assert (S3 : (sqrt (Cnorm2 (vget v b)) * sqrt (Cnorm2 (vget v b)) = Cnorm2 (vget v b))%R) by (apply sqrt_sqrt; lra).
    split.
    - unfold phase. rewrite Cnorm2_mul, Cnorm2_R. rewrite <- S3 at 1. field. lra.
    - rewrite scale_rep, (evolve_single_rep blocks halves) by auto. extensionality g. unfold cscale. rewrite EV, sqrt_mult by lra.
      replace (1 / (sqrt (Cnorm2 (vget v b)) * sqrt N))%R with (1 / sqrt (Cnorm2 (vget v b)) * (1 / sqrt N))%R by (field; lra).
      rewrite RtoC_mul. ring. }
  pose proof (Cnorm2_nonneg (v0 v)) as P0. pose proof (Cnorm2_nonneg (v1 v)) as P1.
  assert (FIN0 := FIN false). assert (FIN1 := FIN true). cbn [vget] in FIN0, FIN1 |- *.
  destruct (Rle_dec (Cnorm2 (v0 v) * N) atol) as [L0|L0].
  - destruct (Rle_dec (Cnorm2 (v1 v) * N) atol) as [L1|L1].
    + replace N with (Cnorm2 (v0 v) * N + Cnorm2 (v1 v) * N)%R by (rewrite <- Rmult_plus_distr_r, Hv; ring). lra.
    + apply Rnot_le_lt in L1. apply FIN1; auto. lra.
  - destruct (Rle_dec (Cnorm2 (v0 v) * N) atol) as [L1|L1]; [tauto|]. apply Rnot_le_lt in L1. apply FIN0; auto. lra.
Qed.

(** * permute (statevec.py:543-549, 1221-1225); np.transpose(a, p) has
    out.shape[i] = a.shape[p[i]]: entry (f_0..f_{n-1}) of the result is the entry
    of [a] whose index along axis p[i] is f_i *)
Fixpoint pos_of (x : nat) (l : list nat) : nat := match l with [] => O | y :: l' => if (x =? y)%nat then O else S (pos_of x l') end.
Definition check_permutation (perm : list nat) (n : nat) : bool :=
  (length perm =? n)%nat && forallb (fun x => existsb (Nat.eqb x) perm) (range n) && forallb (fun x => (x <? n)%nat) perm.
Definition permute (psi : arr) (n : nat) (perm : list nat) : option arr :=
  if check_permutation perm n
  then Some (fun i => if (i <? 2 ^ n)%nat then psi (idx n (fun a => bits n i (pos_of a perm))) else psi i)
  else None.
Lemma pos_of_nth l x d : In x l -> (pos_of x l < length l)%nat /\ nth (pos_of x l) l d = x.
Proof.
  induction l as [|y l IH]; simpl; [tauto|]. intros K. destruct (Nat.eqb_spec x y) as [->|N]; [split; [lia|auto]|].
  destruct IH as [I1 I2]; [destruct K; auto; congruence|]. split; [lia|auto].
Qed.
Lemma check_permutation_iff perm n : check_permutation perm n = true <-> Permutation perm (range n).
Proof.
  unfold check_permutation. rewrite !andb_true_iff, Nat.eqb_eq, !forallb_forall. split.
  - intros [[HL H1] H2]. apply Permutation_sym. apply NoDup_Permutation_bis; [apply seq_NoDup|unfold range; rewrite seq_length; lia|].
    intros x Hx. apply H1 in Hx. apply existsb_exists in Hx. destruct Hx as (y & Hy & E). apply Nat.eqb_eq in E. subst; auto.
  - intros P. repeat split.
    + rewrite (Permutation_length P). apply seq_length.
    + intros x Hx. apply existsb_exists. exists x. split; [|apply Nat.eqb_refl]. eapply Permutation_in; [apply Permutation_sym; eauto|auto].
    + intros x Hx. eapply Permutation_in in Hx; [|eauto]. apply in_seq in Hx. apply Nat.ltb_lt. lia.
Qed.
Lemma permute_rep psi n perm psi' : permute psi n perm = Some psi' ->
  forall f g, (forall i, (i < n)%nat -> f i = g (nth i perm 0%nat)) -> rep n psi' f = rep n psi g.
Proof.
  unfold permute. destruct (check_permutation perm n) eqn:E; [|discriminate]. intros K; injection K as <-. intros f g Hfg.
  apply check_permutation_iff in E. unfold rep. pose proof (idx_lt n f) as L. pose proof L as L'. apply Nat.ltb_lt in L'. rewrite L'.
  f_equal. apply idx_ext. intros k Hk.
  assert (Kp : In k perm) by (eapply Permutation_in; [apply Permutation_sym; eauto|apply in_seq; lia]).
  destruct (pos_of_nth perm k 0%nat Kp) as [P1 P2]. rewrite (Permutation_length E) in P1. unfold range in P1. rewrite seq_length in P1.
  pose proof (idx_inj n (bits n (idx n f)) f (idx_bits n _ L) _ P1) as ->. rewrite Hfg, P2; auto.
Qed.
