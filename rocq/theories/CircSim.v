(** Model of Circuit.simulate (graphix/transpiler.py:540-644) on the
    state-vector backend, with Statevector.evolve and Statevector.swap
    (graphix/sim/statevec.py:362-395, 498-506). *)
From Coq Require Import Reals Lra Nsatz Arith List Bool Lia Permutation FunctionalExtensionality.
From Verif Require Import Cplx Mat2 Fundamentals CliffordDb Clifford NSet Measure QState Pattern NodeIndex Statevec Simulator Density DMSim Circuit Swaps.
Import ListNotations.
Local Open Scope C_scope.

(** * Statevector.evolve *)
(** statevec.py:385-391: the labels of the result: those of the register, the
    labels of the targets being replaced, in turn, by fresh ones; IndexError on
    a target that is out of range *)
Definition res_labels (n : nat) (qs : list nat) : res (list nat) :=
  rfold (fun r iq => if (snd iq <? length r)%nat then Ok (NodeIndex.lset (snd iq) (n + fst iq)%nat r) else Err EIndex)
    (combine (range (length qs)) qs) (range n).
(** statevec.py:362-395 evolve: np.einsum(op_t, out ++ qubits, psi_t, 0..n-1,
    res_labels), i.e. the sum over all values of the labels 0..n+k-1 that agree
    with the result index.  The entries of [op] are indexed by row and column;
    a matrix of another size than 2^k (rejected by reshape) is not
    representable.  The sum follows the definition of einsum: the order in which
    numpy contracts the labels is not modelled (exact arithmetic). *)
Definition sv_evolve (s : sv) (op : cmat) (qs : list nat) : res sv :=
  let n := sv_n s in let k := length qs in
  do lab <- res_labels n qs;
  Ok (SV (fun j => cbsum (n + k) (fun L =>
            if forallb (fun p => eqb (L (nth p lab 0%nat)) (bits n j p)) (range n)
            then op (idx k (fun i => L (n + i)%nat)) (idx k (fun i => L (nth i qs 0%nat))) * sv_psi s (idx n L)
            else C0)) n).
(** statevec.py:498-506 swap (no check of the bounds) *)
Definition sv_swap (s : sv) (u v : nat) : sv := SV (swap_jit (sv_psi s) (sv_n s) u v) (sv_n s).

(** ** evolve applies the operator *)
Lemma nth_lset l i (a : nat) k : (i < length l)%nat -> nth k (NodeIndex.lset i a l) 0%nat = if (k =? i)%nat then a else nth k l 0%nat.
Proof.
  intros H. rewrite <- !nth_default_eq. unfold nth_default. rewrite nth_error_lset by auto. destruct (k =? i)%nat; auto.
Qed.
Lemma res_labels_ok n qs : NoDup qs -> (forall q, In q qs -> (q < n)%nat) ->
  exists lab, res_labels n qs = Ok lab /\ forall p, (p < n)%nat -> nth p lab 0%nat = if lmem p qs then (n + pos_of p qs)%nat else p.
Proof.
  intros ND H. unfold res_labels.
  assert (G : forall qs k r, NoDup qs -> (forall q, In q qs -> (q < n)%nat) -> length r = n ->
    exists lab, rfold (fun r iq => if (snd iq <? length r)%nat then Ok (NodeIndex.lset (snd iq) (n + fst iq)%nat r) else Err EIndex) (combine (seq k (length qs)) qs) r = Ok lab
    /\ forall p, (p < n)%nat -> nth p lab 0%nat = if lmem p qs then (n + (k + pos_of p qs))%nat else nth p r 0%nat).
  { clear. induction qs as [|q qs IH]; intros k r ND H L; cbn [length seq combine rfold].
    - exists r. split; auto.
    - inversion ND as [|? ? N1 N2]; subst. cbn [fst snd]. assert (Hq : (q < length r)%nat) by (apply H; simpl; auto). apply Nat.ltb_lt in Hq as Hq'. rewrite Hq'. cbn [rbind].
      destruct (IH (S k) (NodeIndex.lset q (length r + k) r)%nat N2) as (lab & E & P); [intros; apply H; right; auto|apply length_lset; auto|].
      exists lab. split; [exact E|]. intros p Hp. rewrite P by auto. cbn [lmem existsb pos_of]. rewrite nth_lset by auto.
      change (existsb (Nat.eqb p) qs) with (lmem p qs). destruct (Nat.eqb_spec p q) as [->|N]; cbn [orb].
      + replace (lmem q qs) with false by (symmetry; apply lmem_false; auto). f_equal. lia.
      + destruct (lmem p qs); auto. f_equal. lia. }
  destruct (G qs 0%nat (range n) ND H) as (lab & E & P); [apply seq_length|]. exists lab. split; [exact E|]. intros p Hp. rewrite P by auto.
  destruct (lmem p qs); auto. unfold range. rewrite seq_nth; auto.
Qed.
Lemma asum_zero B : forall h, asum B (fun _ => C0) h = C0.
Proof. induction B as [|b B IH]; intros h; simpl; auto. rewrite !IH. ring. Qed.
(** a sum over labels whose values are all fixed *)
Lemma asum_delta B (v : asg) F : NoDup B -> forall h,
  asum B (fun L => if forallb (fun b => eqb (L b) (v b)) B then F L else C0) h = F (fun x => if lmem x B then v x else h x).
Proof.
  assert (G : forall B B' F h, NoDup B -> (forall b, In b B' -> ~ In b B /\ h b = v b) ->
    asum B (fun L => if forallb (fun b => eqb (L b) (v b)) (B' ++ B) then F L else C0) h = F (fun x => if lmem x B then v x else h x)).
  { clear. induction B as [|q B IH]; intros B' F h ND H; cbn [asum].
    - rewrite app_nil_r. replace (forallb (fun b => eqb (h b) (v b)) B') with true; [f_equal|].
      symmetry. apply forallb_forall. intros b Hb. rewrite (proj2 (H b Hb)). apply eqb_reflx.
    - inversion ND as [|? ? N1 N2]; subst. 
      assert (E : forall b, asum B (fun L => if forallb (fun b0 => eqb (L b0) (v b0)) (B' ++ q :: B) then F L else C0) (upd h q b)
        = if eqb b (v q) then F (fun x => if lmem x (q :: B) then v x else h x) else C0).
      { intros b. destruct (eqb b (v q)) eqn:Eb.
        - apply eqb_prop in Eb. subst b. replace (B' ++ q :: B) with ((B' ++ [q]) ++ B) by (rewrite <- app_assoc; auto). rewrite IH; auto.
          + f_equal. extensionality x. cbn [lmem existsb]. change (existsb (Nat.eqb x) B) with (lmem x B). unfold upd. destruct (Nat.eqb_spec x q) as [->|N]; cbn [orb]; auto. destruct (lmem q B); auto.
          + intros x Hx. apply in_app_or in Hx. destruct Hx as [Hx|[<-|[]]].
            * destruct (H x Hx) as [A1 A2]. split; [intros K; apply A1; right; auto|]. rewrite upd_other; auto. intros ->. apply A1; left; auto.
            * split; auto. apply upd_same.
        - assert (Z : forall B'' h', ~ In q B'' -> h' q = b -> asum B'' (fun L => if forallb (fun b0 => eqb (L b0) (v b0)) (B' ++ q :: B) then F L else C0) h' = C0).
          { induction B'' as [|y B'' IH']; intros h' N H'; cbn [asum].
            - replace (forallb (fun b0 => eqb (h' b0) (v b0)) (B' ++ q :: B)) with false; auto. symmetry. apply not_true_iff_false. intros K. rewrite forallb_forall in K.
              assert (Iq : In q (B' ++ q :: B)) by (apply in_or_app; right; left; auto). specialize (K q Iq). rewrite H' in K. congruence.
            - assert (Ny : y <> q) by (intros ->; apply N; left; auto). assert (Nq : ~ In q B'') by (intros K; apply N; right; auto).
              rewrite (IH' (upd h' y false)), (IH' (upd h' y true)); auto; [ring| |]; rewrite upd_other; auto. }
          apply Z; auto. apply upd_same. }
      rewrite !E. destruct (v q); cbn [eqb]; ring. }
  intros ND h. apply (G B [] F h ND). intros b [].
Qed.
Lemma seq_range_perm n k qs : NoDup qs -> (forall q, In q qs -> (q < n)%nat) -> Permutation (range (n + k)) (qs ++ (rest n qs ++ seq n k)).
Proof.
  intros ND H. unfold range. rewrite seq_app. rewrite app_assoc. apply Permutation_app; auto. eapply perm_trans; [apply (rest_perm n qs); auto|]. apply Permutation_app_comm.
Qed.
Theorem evolve_rep s op qs : NoDup qs -> (forall q, In q qs -> (q < sv_n s)%nat) ->
  exists s', sv_evolve s op qs = Ok s' /\ sv_n s' = sv_n s /\ rep (sv_n s) (sv_psi s') = appk op qs (rep (sv_n s) (sv_psi s)).
Proof.
  intros ND H. unfold sv_evolve. set (n := sv_n s) in *. set (k := length qs). destruct (res_labels_ok n qs ND H) as (lab & E & P). rewrite E. cbn [rbind].
  eexists. split; [reflexivity|]. cbn [sv_n sv_psi]. split; auto. extensionality f. unfold rep at 1. 
  rewrite cbsum_asum. set (B := rest n qs ++ seq n k). set (v := fun x : nat => if (x <? n)%nat then f x else f (nth (x - n) qs 0%nat)).
  assert (NDB : NoDup (qs ++ B)) by (eapply Permutation_NoDup; [apply (seq_range_perm n k qs); auto|apply seq_NoDup]).
  rewrite (asum_perm _ _ _ (seq_range_perm n k qs ND H)) by apply seq_NoDup. fold B. rewrite asum_app.
  assert (RI : forall x, In x (rest n qs) <-> (x < n)%nat /\ ~ In x qs).
  { intros x. unfold rest. rewrite filter_In, negb_true_iff, lmem_false. unfold range. rewrite in_seq. intuition lia. }
  assert (EB : forall L, forallb (fun p => eqb (L (nth p lab 0%nat)) (bits n (idx n f) p)) (range n) = forallb (fun b => eqb (L b) (v b)) B).
  { intros L. apply eq_true_iff_eq. rewrite !forallb_forall. split; intros K x Hx.
    - unfold B in Hx. apply in_app_or in Hx. destruct Hx as [Hx|Hx].
      + apply RI in Hx. destruct Hx as [Hx Nx]. specialize (K x (proj2 (sched_In _ _ _ (sched_range n)) Hx)). rewrite P, bits_idx in K by auto.
        rewrite (proj2 (lmem_false x qs) Nx) in K. unfold v. apply Nat.ltb_lt in Hx. rewrite Hx. auto.
      + apply in_seq in Hx. set (t := nth (x - n) qs 0%nat). assert (It : In t qs) by (apply nth_In; unfold k in Hx; lia).
        specialize (K t (proj2 (sched_In _ _ _ (sched_range n)) (H t It))). rewrite P, bits_idx in K by auto. rewrite (proj2 (lmem_In t qs) It) in K.
        unfold t in K at 1. rewrite pos_of_nth' in K by (auto; unfold k in Hx; lia). replace (n + (x - n))%nat with x in K by lia.
        unfold v. replace (x <? n)%nat with false by (symmetry; apply Nat.ltb_ge; lia). exact K.
    - apply (sched_In _ _ _ (sched_range n)) in Hx. rewrite P, bits_idx by auto. destruct (lmem x qs) eqn:E1.
      + apply lmem_In in E1. destruct (pos_of_nth qs x 0%nat E1) as [Q1 Q2]. specialize (K (n + pos_of x qs)%nat). unfold v in K.
        replace (n + pos_of x qs <? n)%nat with false in K by (symmetry; apply Nat.ltb_ge; lia). replace (n + pos_of x qs - n)%nat with (pos_of x qs) in K by lia. rewrite Q2 in K. apply K.
        unfold B. apply in_or_app. right. apply in_seq. unfold k. lia.
      + apply lmem_false in E1. specialize (K x). unfold v in K. apply Nat.ltb_lt in Hx as Hx'. rewrite Hx' in K. apply K. unfold B. apply in_or_app. left. apply RI. auto. }
  rewrite (asum_ext qs _ (fun h => op (idx k (fun i => f (nth i qs 0%nat))) (idx k (fun i => h (nth i qs 0%nat)))
       * sv_psi s (idx n (fun x => if lmem x B then v x else h x)))).
  - rewrite asum_put by auto. unfold appk. fold k. cbv zeta. apply cbsum_ext. intros c. f_equal.
    + f_equal. apply idx_ext. intros i Hi. apply putf_get; auto.
    + unfold rep. f_equal. apply idx_ext. intros x Hx. unfold putf. destruct (lmem x qs) eqn:E1.
      * apply lmem_In in E1 as E2. replace (lmem x B) with false; [auto|]. symmetry. apply lmem_false. intros K. unfold B in K. apply in_app_or in K.
        destruct K as [K|K]; [apply RI in K; tauto|apply in_seq in K; lia].
      * apply lmem_false in E1. replace (lmem x B) with true. { unfold v. apply Nat.ltb_lt in Hx. rewrite Hx. auto. } symmetry. apply lmem_In. unfold B. apply in_or_app. left. apply RI; auto.
  - intros h. rewrite (asum_ext B _ (fun L => if forallb (fun b => eqb (L b) (v b)) B then op (idx k (fun i => L (n + i)%nat)) (idx k (fun i => L (nth i qs 0%nat))) * sv_psi s (idx n L) else C0)).
    2: { intros L. rewrite EB. auto. }
    rewrite (asum_delta B v (fun L => op (idx k (fun i => L (n + i)%nat)) (idx k (fun i => L (nth i qs 0%nat))) * sv_psi s (idx n L))).
    2: { apply NoDup_app_remove_l in NDB. auto. }
    f_equal. f_equal; apply idx_ext; intros i Hi.
    + replace (lmem (n + i) B) with true by (symmetry; apply lmem_In; unfold B; apply in_or_app; right; apply in_seq; lia). unfold v.
      replace (n + i <? n)%nat with false by (symmetry; apply Nat.ltb_ge; lia). f_equal. f_equal. lia.
    + assert (It : In (nth i qs 0%nat) qs) by (apply nth_In; auto). replace (lmem (nth i qs 0%nat) B) with false; [auto|]. symmetry. apply lmem_false. intros K. unfold B in K. apply in_app_or in K.
      destruct K as [K|K]; [apply RI in K; tauto|apply in_seq in K; pose proof (H _ It); lia].
Qed.

(** * Norms *)
Definition kunitary (k : nat) (op : cmat) : Prop := kcomplete k [(C1, op)].
Lemma sqnorm_outer n psi : RtoC (sqnorm n (rep n psi)) = dm_trace n (couter psi).
Proof.
  rewrite trace_drep. unfold sqnorm, rbsum, cbsum. rewrite <- bsum_RtoC. apply bsum_ext. intros f. unfold drep, couter, rep. rewrite <- Cnorm2_mulconj. ring.
Qed.
Lemma Cmul_comm a b : a * b = b * a. Proof. ring. Qed.
Lemma conjk_outer op qs n psi f g : conjk op qs (drep n (couter psi)) f g = appk op qs (rep n psi) f * Cconj (appk op qs (rep n psi) g).
Proof.
  unfold conjk, appk. cbv zeta. rewrite cbsum_conj, <- cbsum_mul. rewrite (cbsum_swap (length qs) (length qs)). apply cbsum_ext. intros b.
  rewrite Cmul_comm, <- cbsum_mul. apply cbsum_ext. intros a. unfold drep, couter, rep. rewrite Cconj_mul. ring.
Qed.
Lemma sqnorm_appk n op qs psi psi' : NoDup qs -> (forall q, In q qs -> (q < n)%nat) -> kunitary (length qs) op ->
  rep n psi' = appk op qs (rep n psi) -> sqnorm n (rep n psi') = sqnorm n (rep n psi).
Proof.
  intros ND H HU E. assert (K : RtoC (sqnorm n (rep n psi')) = RtoC (sqnorm n (rep n psi))); [|apply (f_equal re) in K; exact K].
  rewrite !sqnorm_outer. rewrite <- (channel_trace n [(C1, op)] qs (couter psi) ND H HU). rewrite !trace_drep, channel_drep by auto.
  apply cbsum_ext. intros f. unfold csum, gsum. cbn [fold_right fst snd]. rewrite conjk_outer, <- E, Cconj_1. unfold drep, couter, rep. ring.
Qed.
Lemma kun_entry k op : (forall i j, (i < 2 ^ k)%nat -> (j < 2 ^ k)%nat -> csum (range (2 ^ k)) (fun r => Cconj (op r i) * op r j) = eye i j) -> kunitary k op.
Proof.
  intros H i j Hi Hj. rewrite <- H by auto. unfold ksum. unfold csum at 1, gsum at 1. cbn [fold_right fst snd]. rewrite Cadd_0. apply csum_ext. intros r _. rewrite Cconj_mul, Cconj_1. ring.
Qed.
Lemma lt4 i : (i < 2 ^ 2)%nat -> i = 0%nat \/ i = 1%nat \/ i = 2%nat \/ i = 3%nat. Proof. cbn. lia. Qed.
Lemma lt8 i : (i < 2 ^ 3)%nat -> i = 0%nat \/ i = 1%nat \/ i = 2%nat \/ i = 3%nat \/ i = 4%nat \/ i = 5%nat \/ i = 6%nat \/ i = 7%nat. Proof. cbn. lia. Qed.
Lemma kun_cnot : kunitary 2 op_cnot.
Proof.
  apply kun_entry. intros i j Hi Hj. apply lt4 in Hi, Hj. unfold op_cnot, rows, csum, gsum, range, eye.
  destruct Hi as [Hi|[Hi|[Hi|Hi]]], Hj as [Hj|[Hj|[Hj|Hj]]]; subst i j; cbn; rewrite ?Cconj_1, ?Cconj_0; ring.
Qed.
Lemma kun_ccx : kunitary 3 op_ccx.
Proof.
  apply kun_entry. intros i j Hi Hj. apply lt8 in Hi, Hj. unfold op_ccx, rows, csum, gsum, range, eye.
  destruct Hi as [Hi|[Hi|[Hi|[Hi|[Hi|[Hi|[Hi|Hi]]]]]]], Hj as [Hj|[Hj|[Hj|[Hj|[Hj|[Hj|[Hj|Hj]]]]]]]; subst i j; cbn; rewrite ?Cconj_1, ?Cconj_0; ring.
Qed.
(** the entries of Ops.rzz: diagonal *)
Lemma rzz_entry a i j : (i < 2 ^ 2)%nat -> (j < 2 ^ 2)%nat -> op_rzz a i j = if (i =? j)%nat then cis (if (i =? 1)%nat || (i =? 2)%nat then a / 2 else - (a / 2)) else C0.
Proof.
  intros Hi Hj. apply lt4 in Hi, Hj. unfold op_rzz, cmm, op_cnot, rows, csum, gsum, kronm, m2, range.
  destruct Hi as [Hi|[Hi|[Hi|Hi]]], Hj as [Hj|[Hj|[Hj|Hj]]]; subst i j; cbn -[cis]; ring.
Qed.
Lemma cis_conj_mul a : Cconj (cis a) * cis a = C1.
Proof. rewrite <- cis_opp, <- cis_add. replace (- a + a)%R with 0%R by ring. apply cis_0. Qed.
Lemma kun_rzz a : kunitary 2 (op_rzz a).
Proof.
  apply kun_entry. intros i j Hi Hj. unfold csum, gsum. change (range (2 ^ 2)) with [0; 1; 2; 3]%nat. cbn [fold_right].
  rewrite !rzz_entry by (auto; cbn; lia). apply lt4 in Hi, Hj. unfold eye.
  destruct Hi as [Hi|[Hi|[Hi|Hi]]], Hj as [Hj|[Hj|[Hj|Hj]]]; subst i j; cbn -[cis]; rewrite ?Cconj_0, ?cis_conj_mul; ring.
Qed.
Definition op_swap : cmat := rows [[C1; C0; C0; C0]; [C0; C0; C1; C0]; [C0; C1; C0; C0]; [C0; C0; C0; C1]].
Lemma kun_swap : kunitary 2 op_swap.
Proof.
  apply kun_entry. intros i j Hi Hj. apply lt4 in Hi, Hj. unfold op_swap, rows, csum, gsum, range, eye.
  destruct Hi as [Hi|[Hi|[Hi|Hi]]], Hj as [Hj|[Hj|[Hj|Hj]]]; subst i j; cbn; rewrite ?Cconj_1, ?Cconj_0; ring.
Qed.
Lemma swap_appk u v Psi : u <> v -> appk op_swap [u; v] Psi = swapst u v Psi.
Proof.
  intros N. extensionality f. rewrite appk_2 by auto. unfold op_swap, rows, swapst.
  destruct (f u), (f v); cbn [nth]; rewrite ?(upd_comm f v u) by auto; ring.
Qed.
Lemma fswap_upd u v f : u <> v -> fswap u v f = upd (upd f u (f v)) v (f u).
Proof. intros N. extensionality x. unfold fswap, upd. destruct (Nat.eqb_spec x u), (Nat.eqb_spec x v); subst; auto; congruence. Qed.
Lemma unitary_j a : unitary (op_j a).
Proof. unfold op_j. split; trig a. Qed.
Lemma unitary_h : unitary op_h.
Proof. rewrite op_h_j. apply unitary_j. Qed.
Lemma unitary_s : unitary op_s.
Proof. unfold op_s. split; meq; ceq; ring. Qed.
Lemma unitary_rx a : unitary (op_rx a).
Proof. unfold op_rx. split; trig a. Qed.
Lemma unitary_ry a : unitary (op_ry a).
Proof. unfold op_ry. split; trig a. Qed.
Lemma unitary_rz a : unitary (op_rz a).
Proof. unfold op_rz. split; trig a. Qed.

(** * Circuit.simulate *)
Section Sched.
Variable ord : nat -> nat -> list nat.
(** transpiler.py:597-598, the local function evolve of the loop of simulate *)
Definition bk_evolve (b : backend) (op : cmat) (ns : list nat) : res backend :=
  do qs <- rmap (ni_index (b_ni b)) ns;
  do s <- sv_evolve (b_sv b) op qs;
  Ok (BK s (b_ni b) (S (b_clk b))).
(** transpiler.py:603-605 the SWAP instruction *)
Definition bk_swap (b : backend) (u v : nat) : res backend :=
  do i <- ni_index (b_ni b) u; do j <- ni_index (b_ni b) v;
  Ok (BK (sv_swap (b_sv b) i j) (b_ni b) (S (b_clk b))).
(** state of the loop: the backend, classical_measures, number of random values
    drawn *)
Record csim := CSim { cs_bk : backend; cs_out : list bool; cs_rng : nat }.
(** transpiler.py:594-595 evolve_single is bk_apply_single; 606-608 CZ is bk_entangle *)
Definition gate_step (b : backend) (i : instr) : res backend :=
  match i with
  | ICNOT t c => bk_evolve b op_cnot [c; t]
  | ISWAP u v => bk_swap b u v
  | ICZ u v => bk_entangle ord b u v
  | II _ => Ok b
  | IS q => bk_apply_single ord b q op_s
  | IH q => bk_apply_single ord b q op_h
  | IX q => bk_apply_single ord b q mX
  | IY q => bk_apply_single ord b q mY
  | IZ q => bk_apply_single ord b q mZ
  | IRX q a => bk_apply_single ord b q (op_rx a)
  | IRY q a => bk_apply_single ord b q (op_ry a)
  | IRZ q a => bk_apply_single ord b q (op_rz a)
  | IJ q a => bk_apply_single ord b q (op_j a)
  | IRZZ t c a => bk_evolve b (op_rzz a) [c; t]
  | ICCX t c0 c1 => bk_evolve b op_ccx [c0; c1; t]
  | IM _ _ => Ok b
  end.
(** transpiler.py:590-643 one iteration of the loop *)
Definition circ_step (sel : selector) (g : rng) (st : csim) (i : instr) : res csim :=
  match i with
  | IM q ax =>
      do x <- bk_measure ord sel g (cs_rng st) (cs_bk st) q (MPauli ax Plus);
      let '(b, o, k) := x in Ok (CSim b (cs_out st ++ [o]) k)
  | _ => do b <- gate_step (cs_bk st) i; Ok (CSim b (cs_out st) (cs_rng st))
  end.
(** transpiler.py:553-642 simulate(backend="statevector"); [input] is
    BasicStates.PLUS for every qubit by default (base_backend.py:779-784) *)
Definition circ_simulate (close1 : R -> bool) (sel : selector) (g : rng) (c : circuit) (input : option data) : res csim :=
  do b <- bk_add_nodes close1 bk_init (range (c_width c)) (match input with None => DState SPlus | Some d => d end);
  rfold (circ_step sel g) (c_instr c) (CSim b [] 0).
End Sched.

(** * Specification *)
(** the qubits of a circuit of width [w] not measured by the instructions [l],
    in increasing order *)
Definition alive (w : nat) (l : list instr) : list nat := filter (fun q => negb (lmem q (mtargets l))) (range w).
(** the outcome of the k-th measurement *)
Definition outk (bs : list bool) : nat -> bool := fun k => nth k bs false.
(** the unnormalised state after [l] when the measurements have had the outcomes [bs] *)
Definition cbranch (bs : list bool) (l : list instr) (psi0 : state) : state := csem (outk bs) 0 l psi0.
(** [p0] is the probability of outcome 0 for the measurement [i] that follows
    [l], given the outcomes [bs] of the measurements of [l] *)
Definition cprob0 (w : nat) (psi0 : state) (l : list instr) (i : instr) (bs : list bool) (p0 : R) : Prop :=
  (p0 * wt (alive w l) (cbranch bs l psi0) = wt (alive w (l ++ [i])) (cbranch (bs ++ [false]) (l ++ [i]) psi0))%R.
(** [bs] are the outcomes that the branch selector chooses along [l], each from
    the exact probability of outcome 0 given the earlier ones; [k] values have
    been drawn *)
Inductive cselected (sel : selector) (g : rng) (w : nat) (psi0 : state) : list instr -> list bool -> nat -> Prop :=
| csel_nil : cselected sel g w psi0 [] [] 0
| csel_gate l i bs k : cselected sel g w psi0 l bs k -> is_meas i = false -> cselected sel g w psi0 (l ++ [i]) bs k
| csel_meas l q ax bs k p0 b k' : cselected sel g w psi0 l bs k -> cprob0 w psi0 l (IM q ax) bs p0 ->
    sel_measure sel g k q p0 = Ok (b, k') -> cselected sel g w psi0 (l ++ [IM q ax]) (bs ++ [b]) k'.
(** a simulation fails at a measurement: the selector fails, or the outcome it
    selects has conditional probability at most 2 atol *)
Definition cfails (sel : selector) (g : rng) (w : nat) (psi0 : state) (l : list instr) (e : err) : Prop :=
  exists a q ax z bs k p0, l = a ++ IM q ax :: z /\ cselected sel g w psi0 a bs k /\ cprob0 w psi0 a (IM q ax) bs p0 /\
    (sel_measure sel g k q p0 = Err e \/
     (e = ERuntime /\ exists b k', sel_measure sel g k q p0 = Ok (b, k') /\
        (wt (alive w (a ++ [IM q ax])) (cbranch (bs ++ [b]) (a ++ [IM q ax]) psi0) <= 2 * atol * wt (alive w a) (cbranch bs a psi0))%R)).

(** * Refinement *)
Lemma F2_length {A B} (P : A -> B -> Prop) l l' : Forall2 P l l' -> length l = length l'.
Proof. induction 1; cbn; auto. Qed.
Lemma Forall2_nth {A B} (P : A -> B -> Prop) l l' : Forall2 P l l' -> forall i d d', (i < length l)%nat -> P (nth i l d) (nth i l' d').
Proof. induction 1; cbn [length nth]; intros [|i] d d' Hi; try lia; auto. apply IHForall2. lia. Qed.
Lemma pos_rel l qs ns : NoDup l -> Forall2 (fun q x => nth_error l q = Some x) qs ns ->
  (NoDup ns -> NoDup qs) /\ forall i, (i < length l)%nat -> lmem i qs = lmem (nth i l 0%nat) ns /\ (In i qs -> pos_of i qs = pos_of (nth i l 0%nat) ns).
Proof.
  intros ND H. induction H as [|q x qs ns Hq H [IH1 IH2]]; [split; [constructor|]; split; [auto|intros []]|]. pose proof (nth_error_lt _ _ _ Hq) as Lq.
  assert (EQ : forall i, (i < length l)%nat -> (i =? q)%nat = (nth i l 0%nat =? x)%nat).
  { intros i Hi. destruct (Nat.eqb_spec i q) as [->|N].
    - rewrite (nth_nth_error _ _ _ _ Hq), Nat.eqb_refl. auto.
    - symmetry. apply Nat.eqb_neq. intros E. apply N. eapply NoDup_nth_inj; [exact ND| |exact Hq]. rewrite <- E. apply nth_error_nth'. auto. }
  split.
  - intros NN. inversion NN as [|? ? N1 N2]; subst. constructor; auto. intros K. apply N1. apply lmem_In. apply lmem_In in K. destruct (IH2 q Lq) as [E _]. rewrite E in K.
    rewrite (nth_nth_error _ _ _ _ Hq) in K. auto.
  - intros i Hi. destruct (IH2 i Hi) as [E1 E2]. cbn [lmem existsb pos_of]. rewrite <- (EQ i Hi). change (existsb (Nat.eqb i) qs) with (lmem i qs). change (existsb (Nat.eqb (nth i l 0%nat)) ns) with (lmem (nth i l 0%nat) ns).
    split; [rewrite E1; auto|]. intros K. destruct (Nat.eqb_spec i q) as [->|N]; auto. f_equal. apply E2. destruct K; congruence.
Qed.
Lemma amp_appk psi psi' n op l qs ns c Psi : n = length l -> NoDup l -> Forall2 (fun q x => nth_error l q = Some x) qs ns ->
  rep n psi' = appk op qs (rep n psi) -> (forall f, rep n psi (pull l f) = c * Psi f) ->
  forall f, rep n psi' (pull l f) = c * appk op ns Psi f.
Proof.
  intros En ND HF E H f. rewrite E. unfold appk. cbv zeta. rewrite (F2_length _ _ _ HF), <- cbsum_mul. apply cbsum_ext. intros a.
  assert (E1 : idx (length ns) (fun t => pull l f (nth t qs 0%nat)) = idx (length ns) (fun t => f (nth t ns 0%nat))).
  { apply idx_ext. intros t Ht. unfold pull. f_equal. apply nth_nth_error. rewrite <- (F2_length _ _ _ HF) in Ht. apply (Forall2_nth _ _ _ HF t 0%nat 0%nat Ht). }
  rewrite E1. rewrite (rep_ext n psi (putf qs a (pull l f)) (pull l (putf ns a f))); [rewrite H; ring|].
  intros i Hi. subst n. destruct (proj2 (pos_rel l qs ns ND HF) i Hi) as [A B]. unfold putf, pull at 2. rewrite <- A. destruct (lmem i qs) eqn:EL; auto. rewrite B; auto. apply lmem_In; auto.
Qed.
Definition keeps (b b' : backend) : Prop :=
  b_ni b' = b_ni b /\ sv_n (b_sv b') = sv_n (b_sv b)
  /\ sqnorm (sv_n (b_sv b')) (rep (sv_n (b_sv b')) (sv_psi (b_sv b'))) = sqnorm (sv_n (b_sv b)) (rep (sv_n (b_sv b)) (sv_psi (b_sv b))).
Definition acts (b b' : backend) (l : list nat) (G : state -> state) : Prop :=
  forall c Psi, (forall f, rep (sv_n (b_sv b)) (sv_psi (b_sv b)) (pull l f) = c * Psi f) ->
      forall f, rep (sv_n (b_sv b')) (sv_psi (b_sv b')) (pull l f) = c * G Psi f.
Lemma ni_index_all s ns : ni_inv s -> (forall n, In n ns -> In n (ni_list s)) ->
  exists qs, rmap (ni_index s) ns = Ok qs /\ Forall2 (fun q x => nth_error (ni_list s) q = Some x) qs ns.
Proof.
  intros HI. induction ns as [|n ns IH]; intros H; cbn [rmap]; [exists []; auto|].
  destruct (ni_index_ok s n HI (H n (or_introl eq_refl))) as (i & Ei & Hi). rewrite Ei. cbn [rbind].
  destruct IH as (qs & E & F); [intros; apply H; right; auto|]. rewrite E. cbn [rbind]. exists (i :: qs). split; auto.
Qed.
Lemma evolve_ok b op ns : ni_inv (b_ni b) -> sv_n (b_sv b) = length (ni_list (b_ni b)) -> NoDup ns -> (forall n, In n ns -> In n (ni_list (b_ni b))) -> kunitary (length ns) op ->
  exists b', bk_evolve b op ns = Ok b' /\ keeps b b' /\ acts b b' (ni_list (b_ni b)) (appk op ns).
Proof.
  intros HI En ND H HU. unfold bk_evolve. destruct (ni_index_all _ _ HI H) as (qs & E & F). rewrite E. cbn [rbind].
  pose proof (proj1 HI) as NDl. destruct (pos_rel _ _ _ NDl F) as [NQ _]. specialize (NQ ND).
  assert (BQ : forall q, In q qs -> (q < sv_n (b_sv b))%nat).
  { intros q Hq. apply In_nth with (d := 0%nat) in Hq. destruct Hq as (i & Hi & <-). rewrite En. eapply nth_error_lt. apply (Forall2_nth _ _ _ F i 0%nat 0%nat Hi). }
  destruct (evolve_rep (b_sv b) op qs NQ BQ) as (s' & Es & E1 & E2). rewrite Es. cbn [rbind]. eexists. split; [reflexivity|]. unfold keeps, acts. cbn [b_ni b_sv]. rewrite E1. split.
  - split; [auto|split; [auto|]]. eapply sqnorm_appk; eauto. rewrite (F2_length _ _ _ F). auto.
  - intros c Psi HA. eapply amp_appk; eauto.
Qed.
Section Refine.
Variable ord : nat -> nat -> list nat.
Hypothesis Hord : forall t n, sched (ord t n) n.
Lemma single_ok b n U : ni_inv (b_ni b) -> sv_n (b_sv b) = length (ni_list (b_ni b)) -> In n (ni_list (b_ni b)) -> unitary U ->
  exists b', bk_apply_single ord b n U = Ok b' /\ keeps b b' /\ acts b b' (ni_list (b_ni b)) (app_op (OApp1 U n)).
Proof.
  intros HI En Hn HU. destruct (apply_single_ok ord Hord b n U _ HI eq_refl Hn En HU) as (b' & E & E1 & E2 & E3 & E4). exists b'. split; auto. split; [split; auto|]. exact E4.
Qed.
Lemma swap_ok b u v : ni_inv (b_ni b) -> sv_n (b_sv b) = length (ni_list (b_ni b)) -> u <> v -> In u (ni_list (b_ni b)) -> In v (ni_list (b_ni b)) ->
  exists b', bk_swap b u v = Ok b' /\ keeps b b' /\ acts b b' (ni_list (b_ni b)) (swapst u v).
Proof.
  intros HI En N Hu Hv. unfold bk_swap. destruct (ni_index_ok _ _ HI Hu) as (i & Ei & Hi). destruct (ni_index_ok _ _ HI Hv) as (j & Ej & Hj). rewrite Ei, Ej. cbn [rbind].
  pose proof (nth_error_lt _ _ _ Hi) as Li. pose proof (nth_error_lt _ _ _ Hj) as Lj. assert (Nij : i <> j) by (intros ->; congruence).
  eexists. split; [reflexivity|]. unfold keeps, acts, sv_swap. cbn [b_ni b_sv sv_n sv_psi].
  assert (ER : rep (sv_n (b_sv b)) (swap_jit (sv_psi (b_sv b)) (sv_n (b_sv b)) i j) = appk op_swap [i; j] (rep (sv_n (b_sv b)) (sv_psi (b_sv b)))).
  { rewrite swap_rep by lia. rewrite swap_appk by auto. extensionality f. rewrite fswap_upd by auto. reflexivity. }
  split.
  - split; [auto|split; [auto|]]. eapply sqnorm_appk; [| | |exact ER]; [repeat constructor; cbn; intuition|cbn; intuition lia|apply kun_swap].
  - intros c Psi HA f. rewrite (amp_appk (sv_psi (b_sv b)) _ _ op_swap (ni_list (b_ni b)) [i; j] [u; v] c Psi); auto; [|apply HI]. rewrite swap_appk by auto. reflexivity.
Qed.
Lemma cz_ok b u v : ni_inv (b_ni b) -> sv_n (b_sv b) = length (ni_list (b_ni b)) -> In u (ni_list (b_ni b)) -> In v (ni_list (b_ni b)) ->
  exists b', bk_entangle ord b u v = Ok b' /\ keeps b b' /\ acts b b' (ni_list (b_ni b)) (app_op (OCz u v)).
Proof.
  intros HI En Hu Hv. unfold bk_entangle, sv_entangle, check_bounds. destruct (ni_index_ok _ _ HI Hu) as (i & Ei & Hi). destruct (ni_index_ok _ _ HI Hv) as (j & Ej & Hj). rewrite Ei, Ej. cbn [rbind].
  pose proof (nth_error_lt _ _ _ Hi) as Li. pose proof (nth_error_lt _ _ _ Hj) as Lj.
  replace (i <? sv_n (b_sv b))%nat with true by (symmetry; apply Nat.ltb_lt; lia). cbn [rbind].
  replace (j <? sv_n (b_sv b))%nat with true by (symmetry; apply Nat.ltb_lt; lia). cbn [rbind].
  eexists. split; [reflexivity|]. unfold keeps, acts. cbn [b_ni b_sv sv_n sv_psi]. split.
  - split; [auto|split; [auto|]]. apply sqnorm_entangle; auto; lia.
  - intros c Psi HA. apply amp_cz; auto.
Qed.
Lemma gate_step_ok b i : ni_inv (b_ni b) -> sv_n (b_sv b) = length (ni_list (b_ni b)) -> NoDup (iqubits i) -> (forall q, In q (iqubits i) -> In q (ni_list (b_ni b))) -> is_meas i = false ->
  exists b', gate_step ord b i = Ok b' /\ keeps b b' /\ acts b b' (ni_list (b_ni b)) (gate i).
Proof.
  intros HI En ND H HM.
  assert (ID : exists b', Ok b = Ok b' /\ keeps b b' /\ acts b b' (ni_list (b_ni b)) (fun psi => psi)).
  { exists b. split; auto. split; [split; auto|]. intros c Psi HA. exact HA. }
  destruct i as [t c0 c1|t c a|t c|u v|u v|q|q|q|q|q|q|q ax|q a|q a|q a|q a]; cbn [gate_step iqubits] in *; try discriminate;
   try (apply single_ok; auto using unitary_h, unitary_s, unitary_X, unitary_Y, unitary_Z, unitary_rx, unitary_ry, unitary_rz, unitary_j; apply H; left; auto; fail).
  - apply evolve_ok; auto; [|cbn in H |- *; intuition|apply kun_ccx]. inversion ND as [|? ? N1 N2]; subst. inversion N2 as [|? ? N3 N4]; subst. cbn in N1, N3. repeat constructor; cbn; intuition.
  - apply evolve_ok; auto; [|cbn in H |- *; intuition|apply kun_rzz]. inversion ND as [|? ? N1 N2]; subst. cbn in N1. repeat constructor; cbn; intuition.
  - apply evolve_ok; auto; [|cbn in H |- *; intuition|apply kun_cnot]. inversion ND as [|? ? N1 N2]; subst. cbn in N1. repeat constructor; cbn; intuition.
  - apply cz_ok; auto; apply H; cbn; auto.
  - apply swap_ok; auto; try (apply H; cbn; auto). inversion ND as [|? ? N1 N2]; subst. cbn in N1. intuition.
  - exact ID.
Qed.

Variables (sel : selector) (g : rng) (w : nat) (psi0 : state).
(** the register after [pre]: the unmeasured qubits in increasing order *)
Record CInv (pre : list instr) (st : csim) : Prop := {
  ci_ni : ni_inv (b_ni (cs_bk st));
  ci_list : ni_list (b_ni (cs_bk st)) = alive w pre;
  ci_n : sv_n (b_sv (cs_bk st)) = length (ni_list (b_ni (cs_bk st)));
  ci_out : length (cs_out st) = nmeas pre;
  ci_norm : sqnorm (sv_n (b_sv (cs_bk st))) (rep (sv_n (b_sv (cs_bk st))) (sv_psi (b_sv (cs_bk st)))) = 1%R;
  ci_amp : exists c, forall f, rep (sv_n (b_sv (cs_bk st))) (sv_psi (b_sv (cs_bk st))) (pull (ni_list (b_ni (cs_bk st))) f) = c * cbranch (cs_out st) pre psi0 f }.
Lemma mtargets_snoc l i : mtargets (l ++ [i]) = mtargets l ++ match i with IM q _ => [q] | _ => [] end.
Proof. unfold mtargets. rewrite flat_map_app. cbn. rewrite app_nil_r. auto. Qed.
Lemma alive_gate l i : is_meas i = false -> alive w (l ++ [i]) = alive w l.
Proof. intros H. unfold alive. rewrite mtargets_snoc. destruct i; try discriminate; rewrite app_nil_r; auto. Qed.
Lemma filter_filter {A} (p q : A -> bool) l : filter p (filter q l) = filter (fun x => q x && p x) l.
Proof. induction l as [|x l IH]; cbn; auto. destruct (q x); cbn; [destruct (p x)|]; rewrite IH; auto. Qed.
Lemma lmem_app x a b : lmem x (a ++ b) = lmem x a || lmem x b.
Proof. unfold lmem. apply existsb_app. Qed.
Lemma alive_meas l q ax : alive w (l ++ [IM q ax]) = filter (fun x => negb (x =? q)%nat) (alive w l).
Proof.
  unfold alive. rewrite mtargets_snoc, filter_filter. apply filter_ext. intros x. rewrite lmem_app, negb_orb. f_equal. unfold lmem. cbn. rewrite orb_false_r. auto.
Qed.
Lemma filter_out a (q : nat) c : NoDup (a ++ q :: c) -> filter (fun x => negb (x =? q)%nat) (a ++ q :: c) = a ++ c.
Proof.
  intros ND. assert (K : forall l, ~ In q l -> filter (fun x => negb (x =? q)%nat) l = l).
  { induction l as [|x l IH]; intros H; cbn; auto. destruct (Nat.eqb_spec x q) as [->|]; [elim H; left; auto|]. cbn. f_equal. apply IH. intros N; apply H; right; auto. }
  apply NoDup_remove_2 in ND. rewrite filter_app. cbn [filter]. rewrite Nat.eqb_refl. cbn. rewrite !K; auto; intros N; apply ND, in_or_app; auto.
Qed.
Lemma csem_outk_ext l : forall bs bs' j psi, (forall k, (j <= k < j + nmeas l)%nat -> nth k bs false = nth k bs' false) -> csem (outk bs) j l psi = csem (outk bs') j l psi.
Proof.
  induction l as [|i l IH]; intros bs bs' j psi H; auto. unfold nmeas in H. destruct i; cbn [csem filter is_meas length] in *; try (apply IH; exact H).
  unfold outk at 2 4. rewrite (H j) by lia. apply IH. intros k Hk. apply H. unfold nmeas in Hk. lia.
Qed.
Lemma cbranch_app l bs b psi : length bs = nmeas l -> cbranch (bs ++ [b]) l psi = cbranch bs l psi.
Proof. intros E. apply csem_outk_ext. intros k Hk. rewrite app_nth1; auto. lia. Qed.
Lemma cbranch_gate l i bs psi : is_meas i = false -> cbranch bs (l ++ [i]) psi = gate i (cbranch bs l psi).
Proof. intros H. unfold cbranch. rewrite csem_app. destruct i; try discriminate; reflexivity. Qed.
Lemma cbranch_meas l q ax bs b psi : length bs = nmeas l -> cbranch (bs ++ [b]) (l ++ [IM q ax]) psi = cmeas q ax b (cbranch bs l psi).
Proof.
  intros E. unfold cbranch. rewrite csem_app. fold (cbranch (bs ++ [b]) l psi). rewrite cbranch_app by auto. cbn [csem Nat.add]. unfold outk. rewrite <- E, app_nth2, Nat.sub_diag by lia. reflexivity.
Qed.
Lemma nmeas_snoc l i : nmeas (l ++ [i]) = (nmeas l + if is_meas i then 1 else 0)%nat.
Proof. unfold nmeas. rewrite filter_app, app_length. cbn. destruct (is_meas i); auto. Qed.
Lemma circ_step_inv pre i st : CInv pre st -> NoDup (iqubits i) -> (forall q, In q (iqubits i) -> In q (alive w pre)) ->
  match circ_step ord sel g st i with
  | Ok st' => CInv (pre ++ [i]) st' /\
      (is_meas i = false -> cs_rng st' = cs_rng st /\ cs_out st' = cs_out st) /\
      (forall q ax, i = IM q ax -> exists p0 b, cprob0 w psi0 pre i (cs_out st) p0 /\ sel_measure sel g (cs_rng st) q p0 = Ok (b, cs_rng st') /\ cs_out st' = cs_out st ++ [b])
  | Err e => exists q ax, i = IM q ax /\ exists p0, cprob0 w psi0 pre i (cs_out st) p0 /\
      (sel_measure sel g (cs_rng st) q p0 = Err e \/
       (e = ERuntime /\ exists b k, sel_measure sel g (cs_rng st) q p0 = Ok (b, k) /\
          (wt (alive w (pre ++ [i])) (cbranch (cs_out st ++ [b]) (pre ++ [i]) psi0) <= 2 * atol * wt (alive w pre) (cbranch (cs_out st) pre psi0))%R))
  end.
Proof.
  intros HI NQ HQ. pose proof HI as [I1 I2 I3 I4 I5 (c0 & I6)]. pose proof (proj1 I1) as ND.
  destruct (is_meas i) eqn:EM.
  2: { destruct (gate_step_ok (cs_bk st) i I1 I3 NQ) as (b' & Eb & (K1 & K2 & K3) & KA); auto; [intros q Hq; rewrite I2; auto|].
    assert (ES : circ_step ord sel g st i = Ok (CSim b' (cs_out st) (cs_rng st))) by (destruct i; try discriminate; unfold circ_step; rewrite Eb; reflexivity).
    rewrite ES. split; [|split; [auto|intros q ax ->; discriminate]]. constructor; cbn [cs_bk cs_out cs_rng].
    - rewrite K1; auto.
    - rewrite K1, alive_gate; auto.
    - rewrite K1, K2; auto.
    - rewrite nmeas_snoc, EM, Nat.add_0_r; auto.
    - rewrite K3; auto.
    - exists c0. rewrite K1, cbranch_gate by auto. apply KA; auto. }
  destruct i as [| | | | | | | | | | |q ax| | | |]; try discriminate. clear EM. cbn [circ_step].
  set (m := MPauli ax Plus). set (l := ni_list (b_ni (cs_bk st))) in *. set (n := sv_n (b_sv (cs_bk st))) in *. set (psi := sv_psi (b_sv (cs_bk st))) in *.
  assert (Kn : In q l) by (rewrite I2; apply HQ; left; auto). destruct (ni_index_ok _ _ I1 Kn) as (i & Ei & Hi). fold l in Hi. pose proof (nth_error_lt _ _ _ Hi) as Li.
  unfold bk_measure. rewrite Ei. cbn [rbind]. unfold sv_expectation_single, check_bounds. fold n. fold psi.
  assert (Lb : (i <? n)%nat = true) by (apply Nat.ltb_lt; lia). assert (Li' : (i < n)%nat) by lia. rewrite Lb. cbn [rbind].
  set (ev := expectation_single_jit _ _ _ _ _ _). set (Psi := cbranch (cs_out st) pre psi0) in *.
  assert (DE : forall b, cbranch (cs_out st ++ [b]) (pre ++ [IM q ax]) psi0 = app_op (OMeas (mvec m b) q) Psi) by (intros b; rewrite cbranch_meas; auto).
  assert (WB := fun b => wt_branch psi n (mvec m b) i l q c0 Psi I3 ND Hi I6).
  assert (W1 := wt_amp n psi l c0 Psi I3 ND I6). rewrite I5 in W1.
  assert (AL : alive w (pre ++ [IM q ax]) = ldel i l).
  { rewrite alive_meas, <- I2. destruct (ldel_split _ _ _ Hi) as (a & c & EL & _ & ED). rewrite ED. rewrite EL in ND |- *. apply filter_out; auto. }
  pose proof (Cnorm2_nonneg c0) as P0. assert (P1 : (0 < Cnorm2 c0)%R) by (destruct P0 as [P0|P0]; auto; rewrite <- P0 in W1; lra).
  assert (PR0 : cprob0 w psi0 pre (IM q ax) (cs_out st) (re ev)).
  { unfold cprob0. rewrite DE, AL. fold Psi. rewrite <- I2. unfold ev. rewrite <- mvec_proj, expectation_branch by auto. rewrite WB. cbn [re RtoC].
    set (x := wt l Psi) in *. set (x' := wt (ldel i l) _). replace (Cnorm2 c0 * x' * x)%R with (x' * (Cnorm2 c0 * x))%R by ring. rewrite <- W1. ring. }
  destruct (sel_measure sel g (cs_rng st) q (re ev)) as [[b k]|e] eqn:ES; cbn [rbind]; [|exists q, ax; split; auto; exists (re ev); split; auto].
  cbn [fst snd]. unfold sv_project_qubit, check_bounds. fold n psi. rewrite Lb. cbn [rbind]. rewrite <- mvec_proj.
  pose proof (project_rep (ord (S (b_clk (cs_bk st))) (2 ^ i)) (ord (S (b_clk (cs_bk st))) (2 ^ (n - i - 1))) psi (mvec m b) n i atol Li' (Hord _ _) (Hord _ _) (mvec_norm m b) (Rlt_le _ _ atol_pos)) as PR.
  cbv zeta in PR. destruct (project_qubit_jit _ _ _ _ _ _ _) as [[psi' n']|]; cbn [rbind].
  - destruct PR as (-> & HN & ph & Hph & Er). destruct (ni_remove (b_ni (cs_bk st)) q) as [ni'|e] eqn:ER; cbn [rbind].
    + destruct (ni_remove_inv _ _ _ I1 ER) as (I1' & a & c & EL & EL'). fold l in EL.
      assert (ELd : ni_list ni' = alive w (pre ++ [IM q ax])) by (rewrite alive_meas, <- I2, EL', EL; symmetry; apply filter_out; rewrite <- EL; auto).
      split; [|split; [discriminate|]].
      * constructor; cbn [cs_bk cs_out cs_rng b_ni b_sv sv_n sv_psi]; auto.
        -- rewrite ELd, AL, (ldel_length _ _ q) by exact Hi. lia.
        -- rewrite app_length, nmeas_snoc. cbn. lia.
        -- eapply (sqnorm_project _ _ _ _ _ ph); eauto. pose proof atol_pos. lra.
        -- eexists. intros f. rewrite ELd, AL, Er. unfold cscale. rewrite (amp_branch _ _ _ _ _ q c0 Psi); auto. rewrite DE, Cmul_assoc'. reflexivity.
      * intros q' ax' E. injection E as <- <-. exists (re ev), b. cbn [cs_out cs_rng]. auto.
    + exfalso. unfold ni_remove in ER. pose proof (proj2 (proj2 I1 q i) Hi) as Ed. rewrite Ed in ER. fold l in ER.
      replace (i <? length l)%nat with true in ER by (symmetry; apply Nat.ltb_lt; lia). discriminate.
  - exists q, ax. split; auto. exists (re ev). split; auto. right. split; auto. exists b, k. split; auto. rewrite DE, AL. fold Psi. rewrite <- I2. rewrite WB in PR.
    set (x := wt l Psi) in *. apply Rmult_le_reg_l with (Cnorm2 c0); auto. replace (Cnorm2 c0 * (2 * atol * x))%R with (2 * atol * (Cnorm2 c0 * x))%R by ring. rewrite <- W1. lra.
Qed.
Lemma cfails_snoc l i e : cfails sel g w psi0 l e -> cfails sel g w psi0 (l ++ [i]) e.
Proof. intros (a & q & ax & z & bs & k & p0 & -> & H). exists a, q, ax, (z ++ [i]), bs, k, p0. rewrite <- app_assoc. auto. Qed.
(** every prefix acts on unmeasured qubits *)
Definition qubits_ok (l : list instr) : Prop := forall a i z, l = a ++ i :: z -> NoDup (iqubits i) /\ forall q, In q (iqubits i) -> In q (alive w a).
Lemma circ_fold st0 l : CInv [] st0 -> cs_out st0 = [] -> cs_rng st0 = 0%nat -> qubits_ok l ->
  match rfold (circ_step ord sel g) l st0 with
  | Ok st => CInv l st /\ cselected sel g w psi0 l (cs_out st) (cs_rng st)
  | Err e => cfails sel g w psi0 l e
  end.
Proof.
  intros H0 O0 K0. induction l as [|i l IH] using rev_ind; intros HQ.
  - cbn [rfold]. split; auto. rewrite O0, K0. constructor.
  - assert (HQ1 : qubits_ok l) by (intros a j z ->; apply (HQ a j (z ++ [i])); rewrite <- app_assoc; auto). specialize (IH HQ1).
    destruct (HQ l i [] eq_refl) as [NQ AQ]. rewrite rfold_app. destruct (rfold (circ_step ord sel g) l st0) as [st|e]; [|apply cfails_snoc; auto].
    destruct IH as [HI HS]. cbn [rfold]. pose proof (circ_step_inv l i st HI NQ AQ) as ST. destruct (circ_step ord sel g st i) as [st'|e]; cbn [rbind].
    + destruct ST as (HI' & HG & HM). split; auto. destruct (is_meas i) eqn:EM.
      * destruct i as [| | | | | | | | | | |q ax| | | |]; try discriminate. destruct (HM q ax eq_refl) as (p0 & b & P0 & PM & EO). rewrite EO. eapply csel_meas; eauto.
      * destruct (HG eq_refl) as [-> ->]. constructor; auto.
    + destruct ST as (q & ax & -> & p0 & P0 & PM). exists l, q, ax, [], (cs_out st), (cs_rng st), p0. auto.
Qed.
End Refine.
