(** Property theorems: inspection and comparison of states (C56).

    Vocabulary (Inspect.v, Statevec.v, Density.v): amplitude [sv_psi s j] of a
    state of [sv_n s] qubits; [idx n f] is the basis index whose bit for qubit q
    is [f q]; [appk op qs psi] is the operator [op] applied to the qubits [qs];
    [normalised s]: squared norm one; [phase z]: |z| = 1. *)
From Coq Require Import Reals Lra Arith List Bool Lia Permutation FunctionalExtensionality.
From Verif Require Import Cplx Mat2 Fundamentals CliffordDb Clifford NSet Measure QState Layer Pattern NodeIndex Statevec Simulator Density DMSim DMRun Circuit Swaps CircSim Inspect.
Import ListNotations.
Local Open Scope C_scope.

(** * fidelity *)
(** fidelity fails exactly on states of different sizes; otherwise it is a
    number between 0 and 1, symmetric, and 1 exactly when the states are equal
    up to a global phase *)
Theorem C56_fidelity : forall s t, normalised s -> normalised t ->
  (sv_n s <> sv_n t -> sv_fidelity s t = Err EValue) /\
  (sv_n s = sv_n t -> exists F, sv_fidelity s t = Ok F /\ sv_fidelity t s = Ok F /\ (0 <= F <= 1)%R /\
     (F = 1%R <-> exists z, phase z /\ forall j, (j < 2 ^ sv_n s)%nat -> sv_psi t j = z * sv_psi s j)).
Proof.
  intros s t Ns Nt. split.
  - intros N. unfold sv_fidelity, sv_dot. apply Nat.eqb_neq in N. rewrite N. auto.
  - intros E. eexists. split; [apply fid_val; auto|]. split.
    + rewrite fid_val by auto. f_equal. rewrite <- Cnorm2_conj. f_equal. rewrite csum_conj, E. apply csum_ext. intros j _. rewrite Cconj_mul, Cconj_inv. ring.
    + split; [apply fid_range; auto|]. apply fid_one; auto.
Qed.
Print Assumptions C56_fidelity.

(** * isclose *)
Lemma re_scale r c : re (RtoC r * Cconj c * c) = (r * Cnorm2 c)%R.
Proof. destruct c as [x y]. unfold Cnorm2. cbn. ring. Qed.
Theorem C56_isclose : forall s t rtol atol, normalised s -> normalised t -> sv_n s = sv_n t -> (0 <= rtol)%R -> (0 <= atol)%R ->
  exists F b, sv_fidelity s t = Ok F /\ sv_isclose s t rtol atol = Ok b /\ (b = true <-> (1 - F <= rtol)%R \/ (1 - F <= atol)%R) /\
    (** equal states are close *)
    ((exists z, phase z /\ forall j, (j < 2 ^ sv_n s)%nat -> sv_psi t j = z * sv_psi s j) -> b = true) /\
    (** close states are at a small distance up to a global phase *)
    (b = true -> (rtol < 1)%R -> (atol < 1)%R -> exists z, phase z /\
       (rsum (range (2 ^ sv_n s)) (fun j => Cnorm2 (sv_psi t j - z * sv_psi s j)) <= 2 * Rmax rtol atol)%R).
Proof.
  intros s t rtol atol Ns Nt E Hr Ha. set (ip := csum (range (2 ^ sv_n s)) (fun j => Cconj (sv_psi s j) * sv_psi t j)).
  pose proof (fid_val s t E) as FV. pose proof (fid_range s t E Ns Nt) as FR. pose proof (fid_one s t E Ns Nt) as F1. pose proof (dist_val s t E Ns Nt) as DV. fold ip in FV, FR, F1, DV.
  exists (Cnorm2 ip). eexists. split; auto. split; [unfold sv_isclose; rewrite FV; cbn [rbind]; unfold py_isclose; rewrite (proj2 (Rleb_spec 0 rtol) Hr), (proj2 (Rleb_spec 0 atol) Ha); reflexivity|].
  assert (SP : Rleb (Rabs (Cnorm2 ip - 1)) (Rabs (rtol * 1)) || Rleb (Rabs (Cnorm2 ip - 1)) (Rabs (rtol * Cnorm2 ip)) || Rleb (Rabs (Cnorm2 ip - 1)) atol = true <-> (1 - Cnorm2 ip <= rtol \/ 1 - Cnorm2 ip <= atol)%R).
  { rewrite !orb_true_iff, !Rleb_spec. rewrite (Rabs_left1 (Cnorm2 ip - 1)) by lra. rewrite (Rabs_pos_eq (rtol * 1)) by lra. rewrite (Rabs_pos_eq (rtol * Cnorm2 ip)) by (apply Rmult_le_pos; lra).
    assert (rtol * Cnorm2 ip <= rtol * 1)%R by (apply Rmult_le_compat_l; lra). split; [intros [[K|K]|K]; lra|intros [K|K]; [left; left|right]; lra]. }
  split; [exact SP|]. split.
  - intros Z. apply SP. apply F1 in Z. left. lra.
  - intros B R1 A1. apply SP in B. assert (P : (0 < Cnorm2 ip)%R) by (destruct B; lra). assert (MX : (1 - Cnorm2 ip <= Rmax rtol atol)%R) by (pose proof (Rmax_l rtol atol); pose proof (Rmax_r rtol atol); destruct B; lra).
    assert (MP : (0 < Cmod ip)%R) by (apply sqrt_lt_R0; auto). pose proof (Cmod_sq ip) as MS. set (m := Cmod ip) in *.
    exists (RtoC (/ m) * ip). assert (PZ : Cnorm2 (RtoC (/ m) * ip) = 1%R) by (rewrite Cnorm2_mul, Cnorm2_R, <- MS; field; lra).
    split; [exact PZ|]. rewrite DV, PZ. replace (re (Cconj (RtoC (/ m) * ip) * ip)) with m.
    + assert (m * m <= 1)%R by lra. assert (m <= 1)%R by nra. nra.
    + rewrite Cconj_mul, Cconj_R. rewrite re_scale, <- MS. field. lra.
Qed.
Print Assumptions C56_isclose.
(** with the default tolerances *)
Corollary C56_isclose_default : forall s t, normalised s -> normalised t -> sv_n s = sv_n t ->
  exists F b, sv_fidelity s t = Ok F /\ sv_isclose s t (1 / 10 ^ 9) 0 = Ok b /\ (b = true <-> (1 - 1 / 10 ^ 9 <= F)%R).
Proof.
  intros s t Ns Nt E. assert (P : (0 <= 1 / 10 ^ 9)%R) by (apply Rlt_le; apply Rdiv_lt_0_compat; [lra|apply pow_lt; lra]).
  destruct (C56_isclose s t (1 / 10 ^ 9) 0 Ns Nt E P (Rle_refl 0)) as (F & b & H1 & H2 & H3 & _). exists F, b. split; auto. split; auto. rewrite H3. split; [intros [K|K]; lra|intros K; left; lra].
Qed.

(** * Invariance under unitary gates *)
Lemma dot_appk n op qs a b a' b' : NoDup qs -> (forall q, In q qs -> (q < n)%nat) -> kunitary (length qs) op ->
  rep n a' = appk op qs (rep n a) -> rep n b' = appk op qs (rep n b) ->
  csum (range (2 ^ n)) (fun j => Cconj (a' j) * b' j) = csum (range (2 ^ n)) (fun j => Cconj (a j) * b j).
Proof.
  intros ND H HU EA EB. pose proof (channel_trace n [(C1, op)] qs (fun i j => b i * Cconj (a j)) ND H HU) as T. rewrite !trace_drep in T.
  rewrite !csum_cbsum. transitivity (cbsum n (fun f => drep n (fun i j => b i * Cconj (a j)) f f)); [|apply cbsum_ext; intros f; unfold drep; ring]. rewrite <- T. rewrite channel_drep by auto.
  apply cbsum_ext. intros f. unfold csum, gsum. cbn [fold_right fst snd].
  assert (E : conjk op qs (drep n (fun i j => b i * Cconj (a j))) f f = appk op qs (rep n b) f * Cconj (appk op qs (rep n a) f)).
  { unfold conjk, appk. cbv zeta. rewrite cbsum_conj, <- cbsum_mul. rewrite (cbsum_swap (length qs) (length qs)). apply cbsum_ext. intros c.
    rewrite CircSim.Cmul_comm, <- cbsum_mul. apply cbsum_ext. intros d. unfold drep, rep. rewrite Cconj_mul. ring. }
  rewrite E, <- EA, <- EB, Cconj_1. unfold rep. ring.
Qed.
Theorem C56_unitary_invariance : forall s t op qs, sv_n s = sv_n t -> NoDup qs -> (forall q, In q qs -> (q < sv_n s)%nat) -> kunitary (length qs) op ->
  exists s' t', sv_evolve s op qs = Ok s' /\ sv_evolve t op qs = Ok t' /\ sv_fidelity s' t' = sv_fidelity s t /\ (normalised s -> normalised s').
Proof.
  intros s t op qs E ND H HU. assert (H' : forall q, In q qs -> (q < sv_n t)%nat) by (rewrite <- E; auto).
  destruct (evolve_rep s op qs ND H) as (s' & E1 & N1 & R1). destruct (evolve_rep t op qs ND H') as (t' & E2 & N2 & R2). exists s', t'. split; auto. split; auto. split.
  - unfold sv_fidelity, sv_dot. rewrite N1, N2, <- E, Nat.eqb_refl. cbn [rbind]. rewrite <- E in R2. rewrite (dot_appk _ _ _ _ _ _ _ ND H HU R1 R2). auto.
  - rewrite !normalised_sqnorm, N1. intros K. rewrite <- K. eapply sqnorm_appk; eauto.
Qed.
Print Assumptions C56_unitary_invariance.

(** * expectation_value *)
Definition hermitian_op (k : nat) (op : cmat) : Prop := forall i j, (i < 2 ^ k)%nat -> (j < 2 ^ k)%nat -> op j i = Cconj (op i j).

Lemma appk_1 U q psi f : appk (m2 U) [q] psi f = mget U (f q) false * psi (upd f q false) + mget U (f q) true * psi (upd f q true).
Proof.
  unfold appk. cbn [length nth]. unfold cbsum. cbn [bsum]. rewrite !putf1. cbn [idx]. unfold upd at 1 2 4 5. cbn [Nat.eqb]. rewrite ?m2_bits, ?m2_b0, ?m2_b1. auto.
Qed.
Lemma inner_split n op qs psi : NoDup qs -> (forall q, In q qs -> (q < n)%nat) ->
  inner n (rep n psi) (appk op qs (rep n psi))
  = asum (rest n qs) (fun f => cbsum (length qs) (fun c => cbsum (length qs) (fun a => Cconj (rep n psi (putf qs c f)) * op (idx (length qs) c) (idx (length qs) a) * rep n psi (putf qs a f)))) (fun _ => false).
Proof.
  intros ND H. unfold inner. rewrite (cbsum_split n qs) by auto. apply asum_ext. intros f. apply cbsum_ext. intros c. unfold appk. cbv zeta. rewrite <- cbsum_mul. apply cbsum_ext. intros a.
  rewrite idx_putf, putf_putf by auto. ring.
Qed.
Lemma asum_conj l F : forall f, Cconj (asum l F f) = asum l (fun g => Cconj (F g)) f.
Proof. induction l as [|x l IH]; intros f; cbn; auto. rewrite Cconj_add, !IH. auto. Qed.
(** on a normalised state and different qubits of the register:
    <psi| op |psi>, a real number for a Hermitian operator, the value of
    expectation_single for one qubit; the constructor it uses rejects a state
    that is not normalised *)
Theorem C56_expectation_value : forall close1 s op qs, NoDup qs -> (forall q, In q qs -> (q < sv_n s)%nat) ->
  (normalised s -> close1 1%R = true ->
     sv_expectation_value close1 s op qs = Ok (inner (sv_n s) (rep (sv_n s) (sv_psi s)) (appk op qs (rep (sv_n s) (sv_psi s))))) /\
  (close1 (sqrt (rsum (range (2 ^ sv_n s)) (fun j => Cnorm2 (sv_psi s j)))) = false -> sv_expectation_value close1 s op qs = Err EValue) /\
  (hermitian_op (length qs) op -> im (inner (sv_n s) (rep (sv_n s) (sv_psi s)) (appk op qs (rep (sv_n s) (sv_psi s)))) = 0%R) /\
  (forall U q blocks halves, qs = [q] -> op = m2 U -> sched blocks (2 ^ q) -> sched halves (2 ^ (sv_n s - q - 1)) ->
     expectation_single_jit blocks halves (sv_psi s) U (sv_n s) q = inner (sv_n s) (rep (sv_n s) (sv_psi s)) (appk op qs (rep (sv_n s) (sv_psi s)))).
Proof.
  intros close1 s op qs ND H. set (n := sv_n s). set (l := map (sv_psi s) (range (2 ^ n))).
  assert (LL : length l = (2 ^ n)%nat) by (unfold l; rewrite map_length; apply seq_length).
  assert (RS : rsum l Cnorm2 = rsum (range (2 ^ n)) (fun j => Cnorm2 (sv_psi s j))) by apply (gsum_map R Rplus 0%R).
  split; [|split; [|split]].
  - intros Ns HC. unfold sv_expectation_value. fold n l. assert (HC' : close1 (sqrt (rsum l Cnorm2)) = true) by (rewrite RS; unfold n; rewrite Ns, sqrt_1; auto).
    destruct l as [|x l0] eqn:El; [pose proof (pow2_pos n); simpl in LL; lia|]. unfold sv_make_amps, sv_make, is_pow2. rewrite LL, Nat.log2_pow2, !Nat.eqb_refl, HC' by lia. cbn [rbind].
    rewrite <- El in *. set (t := SV (fun i => nth i l C0) n). destruct (evolve_rep t op qs ND) as (t' & E & N1 & R1); [exact H|]. rewrite E. cbn [rbind]. unfold sv_dot. rewrite N1. cbn [t sv_n]. fold n. rewrite Nat.eqb_refl. f_equal.
    unfold inner. rewrite csum_cbsum. apply cbsum_ext. intros f. f_equal. change (sv_psi t' (idx n f)) with (rep n (sv_psi t') f). cbn [t sv_n] in R1. rewrite R1. f_equal.
    extensionality g. unfold rep. cbn [t sv_psi]. pose proof (idx_lt n g) as Hg. unfold l. rewrite (nth_indep _ C0 (sv_psi s 0%nat)) by (fold l; lia). rewrite map_nth. unfold range. rewrite seq_nth; auto.
  - intros HC. unfold sv_expectation_value. fold n l. rewrite <- RS in HC. destruct l as [|x l0] eqn:El; [pose proof (pow2_pos n); simpl in LL; lia|]. unfold sv_make_amps, sv_make, is_pow2. rewrite LL, Nat.log2_pow2, !Nat.eqb_refl, HC by lia. reflexivity.
  - intros HH. rewrite (inner_split n op qs (sv_psi s) ND H). set (S := asum _ _ _). assert (K : Cconj S = S).
    { unfold S. rewrite asum_conj. apply asum_ext. intros f. rewrite cbsum_conj. rewrite (cbsum_ext _ _ (fun c => cbsum (length qs) (fun a => Cconj (Cconj (rep n (sv_psi s) (putf qs c f)) * op (idx (length qs) c) (idx (length qs) a) * rep n (sv_psi s) (putf qs a f))))) by (intros c; apply cbsum_conj).
      rewrite cbsum_swap. apply cbsum_ext. intros a. apply cbsum_ext. intros c. rewrite !Cconj_mul, Cconj_inv. rewrite (HH (idx (length qs) c) (idx (length qs) a)) by apply idx_lt. ring. }
    apply (f_equal im) in K. destruct S as [x y]. cbn in K |- *. lra.
  - intros U q blocks halves -> -> HB HH. rewrite expectation_rep by (auto; apply H; left; auto). unfold inner. apply cbsum_ext. intros f. f_equal. rewrite appk_1. reflexivity.
Qed.
Print Assumptions C56_expectation_value.

(** * to_dict *)
(** the key of the basis vector with bit [f q] for qubit q: first qubit first in
    the MSB encoding, last in the LSB encoding *)
Definition key (n : nat) (f : asg) (lsb : bool) : list bool := let k := map f (range n) in if lsb then rev k else k.
Lemma fmt_width_ok n i : (1 <= n)%nat -> (i < 2 ^ n)%nat -> fmt_width n i = n.
Proof.
  intros Hn Hi. unfold fmt_width. destruct (Nat.eqb_spec i 0) as [->|N]; [lia|]. assert (Nat.log2 i < n)%nat by (apply Nat.log2_lt_pow2; lia). lia.
Qed.
Lemma format_key n i lsb : (1 <= n)%nat -> (i < 2 ^ n)%nat -> format_encoding n i lsb = key n (bits n i) lsb.
Proof. intros. unfold format_encoding, key. rewrite fmt_width_ok by auto. auto. Qed.
Lemma key_inj n f g lsb : key n f lsb = key n g lsb -> idx n f = idx n g.
Proof.
  intros H. assert (E : map f (range n) = map g (range n)).
  { unfold key in H. destruct lsb; [|exact H]. apply (f_equal (@rev bool)) in H. rewrite !rev_involutive in H. exact H. }
  apply idx_ext. intros i Hi. assert (K : nth i (map f (range n)) (f 0%nat) = nth i (map g (range n)) (f 0%nat)) by congruence.
  rewrite (nth_indep (map g (range n)) (f 0%nat) (g 0%nat)) in K by (rewrite map_length; unfold range; rewrite seq_length; auto).
  rewrite !map_nth in K. unfold range in K. rewrite seq_nth in K by auto. exact K.
Qed.
Lemma to_dict_map_In {B} (h : C -> B) s lsb rtol atol k b : (1 <= sv_n s)%nat ->
  In (k, b) (to_dict_map h s lsb rtol atol) <-> exists f, k = key (sv_n s) f lsb /\ b = h (sv_psi s (idx (sv_n s) f)) /\ (atol < Cmod (sv_psi s (idx (sv_n s) f)))%R.
Proof.
  intros Hn. unfold to_dict_map. rewrite in_map_iff.
  assert (CP : forall i, negb (Rleb (Cmod (sv_psi s i)) (atol + rtol * 0)) = true <-> (atol < Cmod (sv_psi s i))%R).
  { intros i. rewrite negb_true_iff, <- not_true_iff_false, Rleb_spec. replace (atol + rtol * 0)%R with atol by ring. split; intros; lra. }
  split.
  - intros (i & E & Hi). apply filter_In in Hi. destruct Hi as [H1 H2]. apply in_seq in H1. apply CP in H2. injection E as <- <-. exists (bits (sv_n s) i).
    rewrite idx_bits by lia. split; auto. apply format_key; auto; lia.
  - intros (f & -> & -> & H). exists (idx (sv_n s) f). pose proof (idx_lt (sv_n s) f) as L. split.
    + f_equal. rewrite format_key by auto. unfold key. replace (map (bits (sv_n s) (idx (sv_n s) f)) (range (sv_n s))) with (map f (range (sv_n s))); auto.
      apply map_ext_in. intros q Hq. apply in_seq in Hq. symmetry. apply bits_idx. lia.
    + apply filter_In. split; [apply in_seq; lia|]. apply CP. auto.
Qed.
Lemma NoDup_map_inj_in {X Y} (h : X -> Y) l : NoDup l -> (forall x y, In x l -> In y l -> h x = h y -> x = y) -> NoDup (map h l).
Proof.
  induction 1 as [|x l H ND IH]; intros HI; cbn; constructor.
  - intros K. apply in_map_iff in K. destruct K as (y & E & Hy). apply H. rewrite <- (HI y x); auto; [right; auto|left; auto].
  - apply IH. intros a b Ha Hb. apply HI; right; auto.
Qed.
Lemma to_dict_map_NoDup {B} (h : C -> B) s lsb rtol atol : (1 <= sv_n s)%nat -> NoDup (map fst (to_dict_map h s lsb rtol atol)).
Proof.
  intros Hn. unfold to_dict_map. rewrite map_map. cbn [fst]. apply NoDup_map_inj_in; [apply NoDup_filter, seq_NoDup|].
  intros x y Hx Hy E. apply filter_In in Hx, Hy. destruct Hx as [Hx _], Hy as [Hy _]. apply in_seq in Hx, Hy. rewrite !format_key in E by (auto; lia). apply key_inj in E. rewrite !idx_bits in E by lia. exact E.
Qed.
(** for at least one qubit: a dictionary (distinct keys) with an entry for each
    basis vector whose amplitude exceeds atol in modulus, and no other; rtol has
    no effect *)
Theorem C56_to_dict : forall s lsb rtol atol, (1 <= sv_n s)%nat ->
  NoDup (map fst (to_dict s lsb rtol atol)) /\
  (forall k a, In (k, a) (to_dict s lsb rtol atol) <-> exists f, k = key (sv_n s) f lsb /\ a = sv_psi s (idx (sv_n s) f) /\ (atol < Cmod a)%R) /\
  to_dict s lsb rtol atol = to_dict s lsb 0 atol /\
  to_dict s true rtol atol = map (fun p => (rev (fst p), snd p)) (to_dict s false rtol atol).
Proof.
  intros s lsb rtol atol Hn. split; [apply to_dict_map_NoDup; auto|]. split.
  - intros k a. unfold to_dict. rewrite to_dict_map_In by auto. split; intros (f & H1 & H2 & H3); exists f; subst; auto.
  - unfold to_dict, to_dict_map. split; [|rewrite map_map; apply map_ext; intros i; auto]. f_equal. apply filter_ext. intros i. do 2 f_equal. ring.
Qed.
Print Assumptions C56_to_dict.
Lemma rsum_filter_split {X} (p : X -> bool) l F : rsum l F = (rsum (filter p l) F + rsum (filter (fun x => negb (p x)) l) F)%R.
Proof. unfold rsum, gsum. induction l as [|x l IH]; cbn; [ring|]. destruct (p x); cbn; rewrite IH; ring. Qed.
Lemma filter_len {X} (p : X -> bool) l : (length (filter p l) <= length l)%nat.
Proof. induction l as [|x l IH]; cbn; auto. destruct (p x); cbn; lia. Qed.
Lemma rsum_le_const {X} (l : list X) F c : (forall x, In x l -> (F x <= c)%R) -> (rsum l F <= INR (length l) * c)%R.
Proof.
  unfold rsum, gsum. induction l as [|x l IH]; intros H; [cbn; lra|]. cbn [fold_right length]. rewrite S_INR. pose proof (H x (or_introl eq_refl)). assert (fold_right (fun x a => F x + a) 0 l <= INR (length l) * c)%R by (apply IH; intros; apply H; right; auto). lra.
Qed.
(** the probabilities of the kept outcomes; they miss at most 2^n atol^2 of the
    total probability *)
Theorem C56_to_prob_dict : forall s lsb rtol atol, (1 <= sv_n s)%nat -> (0 <= atol)%R -> normalised s ->
  NoDup (map fst (to_prob_dict s lsb rtol atol)) /\
  (forall k p, In (k, p) (to_prob_dict s lsb rtol atol) <-> exists f, k = key (sv_n s) f lsb /\ p = Cnorm2 (sv_psi s (idx (sv_n s) f)) /\ (atol < Cmod (sv_psi s (idx (sv_n s) f)))%R) /\
  (1 - INR (2 ^ sv_n s) * (atol * atol) <= rsum (to_prob_dict s lsb rtol atol) snd <= 1)%R.
Proof.
  intros s lsb rtol atol Hn Ha Ns. split; [apply to_dict_map_NoDup; auto|]. split.
  - intros k p. unfold to_prob_dict. rewrite to_dict_map_In by auto. split; intros (f & H1 & H2 & H3); exists f; subst; rewrite Cmod_sq; auto.
  - set (P := fun i => negb (Rleb (Cmod (sv_psi s i)) (atol + rtol * 0))). set (N := range (2 ^ sv_n s)).
    assert (E : rsum (to_prob_dict s lsb rtol atol) snd = rsum (filter P N) (fun j => Cnorm2 (sv_psi s j))).
    { unfold to_prob_dict, to_dict_map. unfold rsum at 1. rewrite (gsum_map R Rplus 0%R). apply gsum_ext. intros i _. cbn [snd]. apply Cmod_sq. }
    pose proof (rsum_filter_split P N (fun j => Cnorm2 (sv_psi s j))) as SP. unfold N in SP at 1. rewrite Ns in SP. rewrite E.
    pose proof (rsum_nonneg (filter (fun x => negb (P x)) N) (fun j => Cnorm2 (sv_psi s j)) (fun j _ => Cnorm2_nonneg _)).
    assert (L : (rsum (filter (fun x => negb (P x)) N) (fun j => Cnorm2 (sv_psi s j)) <= INR (2 ^ sv_n s) * (atol * atol))%R).
    { eapply Rle_trans; [apply (rsum_le_const _ _ (atol * atol))|].
      - intros j Hj. apply filter_In in Hj. destruct Hj as [_ Hj]. unfold P in Hj. rewrite negb_involutive, Rleb_spec in Hj. rewrite <- Cmod_sq. pose proof (Cmod_nonneg (sv_psi s j)).
        assert (Cmod (sv_psi s j) <= atol)%R by lra. apply Rmult_le_compat; auto.
      - apply Rmult_le_compat_r; [apply Rmult_le_pos; auto|]. apply le_INR. eapply Nat.le_trans; [apply filter_len|]. unfold N, range. rewrite seq_length. auto. }
    lra.
Qed.
Print Assumptions C56_to_prob_dict.
(** a state without qubits gets the key "0" of length one, not the empty one *)
Theorem C56_to_dict_no_qubit_refuted : forall c lsb rtol atol, (atol < Cmod c)%R -> exists s, sv_n s = 0%nat /\ to_dict s lsb rtol atol = [([false], c)].
Proof.
  intros c lsb rtol atol H. exists (SV (fun _ => c) 0). split; auto. unfold to_dict, to_dict_map. change (range (2 ^ sv_n (SV (fun _ => c) 0))) with [0%nat]. cbn [filter sv_psi].
  replace (Rleb (Cmod c) (atol + rtol * 0)) with false; [cbn; destruct lsb; reflexivity|]. symmetry. apply not_true_iff_false. rewrite Rleb_spec. lra.
Qed.
Print Assumptions C56_to_dict_no_qubit_refuted.

(** * DensityMatrix *)
(** v^dagger rho w on 2^n-dimensional vectors *)
Definition bil (n : nat) (rho : cmat) (v w : nat -> C) : C :=
  csum (range (2 ^ n)) (fun i => csum (range (2 ^ n)) (fun j => Cconj (v i) * rho i j * w j)).
Lemma quad_bil n rho v : quad n (drep n rho) (rep n v) = bil n rho v v.
Proof. unfold quad, bil. rewrite csum_cbsum. apply cbsum_ext. intros f. rewrite csum_cbsum. apply cbsum_ext. intros g. reflexivity. Qed.
Lemma fidelity_bil s t : dm_n s = sv_n t ->
  dm_fidelity s t = if Req_EM_T (im (bil (dm_n s) (dm_rho s) (sv_psi t) (sv_psi t))) 0 then Ok (re (bil (dm_n s) (dm_rho s) (sv_psi t) (sv_psi t))) else Err EAssert.
Proof.
  intros E. unfold dm_fidelity. rewrite E, Nat.eqb_refl. set (r := csum _ _). replace r with (bil (sv_n t) (dm_rho s) (sv_psi t) (sv_psi t)); auto.
  unfold bil, r. apply csum_ext. intros i _. rewrite <- csum_mul. apply csum_ext. intros j _. ring.
Qed.
Lemma csum_sub {X} (l : list X) F G : csum l (fun x => F x - G x) = csum l F - csum l G.
Proof. unfold csum, gsum. induction l as [|x l IH]; cbn [fold_right]; [ring|]. rewrite IH. ring. Qed.
Lemma csum_delta (l : list nat) k F : NoDup l -> In k l -> csum l (fun i => (if (i =? k)%nat then C1 else C0) * F i) = F k.
Proof.
  intros ND H. induction l as [|x l IH]; [destruct H|]. inversion ND as [|? ? N1 N2]; subst. unfold csum, gsum in *. cbn [fold_right]. destruct H as [->|H].
  - rewrite Nat.eqb_refl. replace (fold_right _ C0 l) with C0; [ring|]. symmetry. clear - N1. induction l as [|y l IH]; cbn [fold_right]; auto.
    rewrite IH by (intros K; apply N1; right; auto). destruct (Nat.eqb_spec y k) as [->|]; [elim N1; left; auto|ring].
  - rewrite IH by auto. destruct (Nat.eqb_spec x k) as [->|]; [contradiction|ring].
Qed.
(** sum over the basis of the projections orthogonal to psi *)
Lemma bil_complement n rho psi : csum (range (2 ^ n)) (fun j => Cconj (psi j) * psi j) = C1 ->
  csum (range (2 ^ n)) (fun k => let v := fun i => (if (i =? k)%nat then C1 else C0) - Cconj (psi k) * psi i in bil n rho v v) = dm_trace n rho - bil n rho psi psi.
Proof.
  intros HN. set (N := range (2 ^ n)) in *. set (B := bil n rho psi psi).
  set (row := fun k => csum N (fun j => rho k j * psi j)). set (col := fun k => csum N (fun i => Cconj (psi i) * rho i k)).
  assert (NDN : NoDup N) by apply seq_NoDup.
  assert (E : forall k, In k N -> (let v := fun i => (if (i =? k)%nat then C1 else C0) - Cconj (psi k) * psi i in bil n rho v v) = rho k k - (Cconj (psi k) * row k + psi k * col k - Cconj (psi k) * psi k * B)).
  { intros k Hk. cbv zeta. unfold bil. fold N.
    transitivity (csum N (fun i => (if (i =? k)%nat then C1 else C0) * (rho i k - Cconj (psi k) * row i) - psi k * (Cconj (psi i) * rho i k - Cconj (psi k) * (Cconj (psi i) * row i)))).
    - apply csum_ext. intros i _.
      transitivity (csum N (fun j => (if (j =? k)%nat then C1 else C0) * (Cconj ((if (i =? k)%nat then C1 else C0) - Cconj (psi k) * psi i) * rho i j) - (Cconj (psi k) * Cconj ((if (i =? k)%nat then C1 else C0) - Cconj (psi k) * psi i)) * (rho i j * psi j))).
      + apply csum_ext. intros j _. ring.
      + rewrite csum_sub, csum_mul, (csum_delta N k) by auto. fold (row i).
        assert (CJ : Cconj ((if (i =? k)%nat then C1 else C0) - Cconj (psi k) * psi i) = (if (i =? k)%nat then C1 else C0) - psi k * Cconj (psi i)).
        { transitivity (Cconj ((if (i =? k)%nat then C1 else C0) + - (Cconj (psi k) * psi i))); [f_equal; ring|]. rewrite Cconj_add, Cconj_opp, Cconj_mul, Cconj_inv. destruct (i =? k)%nat; rewrite ?Cconj_1, ?Cconj_0; ring. }
        rewrite CJ. ring.
    - rewrite csum_sub, (csum_delta N k) by auto. rewrite csum_mul. rewrite csum_sub. fold (col k). rewrite csum_mul.
      replace (csum N (fun x => Cconj (psi x) * row x)) with B; [ring|]. unfold B, bil. fold N. apply csum_ext. intros i _. unfold row. rewrite <- csum_mul. apply csum_ext. intros j _. ring. }
  rewrite (csum_ext N _ _ E), csum_sub. f_equal.
  rewrite csum_sub, csum_add.
  replace (csum N (fun x => Cconj (psi x) * row x)) with B.
  2: { unfold B, bil. fold N. apply csum_ext. intros i _. unfold row. rewrite <- csum_mul. apply csum_ext. intros j _. ring. }
  replace (csum N (fun x => psi x * col x)) with B.
  2: { unfold B, bil. fold N. rewrite csum_swap. apply csum_ext. intros i _. unfold col. rewrite <- csum_mul. apply csum_ext. intros j _. ring. }
  replace (csum N (fun x => Cconj (psi x) * psi x * B)) with (B * csum N (fun x => Cconj (psi x) * psi x)).
  2: { rewrite <- csum_mul. apply csum_ext. intros j _. ring. }
  rewrite HN. ring.
Qed.
Lemma csum_RtoC {X} (l : list X) F : csum l (fun x => RtoC (F x)) = RtoC (rsum l F).
Proof. unfold csum, rsum, gsum. induction l as [|x l IH]; cbn [fold_right]; auto. rewrite IH, RtoC_add. auto. Qed.
Lemma normalised_csum t : normalised t -> csum (range (2 ^ sv_n t)) (fun j => Cconj (sv_psi t j) * sv_psi t j) = C1.
Proof.
  intros H. rewrite (csum_ext _ _ (fun j => RtoC (Cnorm2 (sv_psi t j)))) by (intros j _; rewrite <- Cnorm2_mulconj; ring). rewrite csum_RtoC. unfold normalised in H. rewrite H. reflexivity.
Qed.
(** fidelity of a density matrix (positive, of trace one) with a normalised
    state vector of the same size: it never fails, it is <psi| rho |psi>, between
    0 and 1, and the fidelity of the states when the matrix is a pure state *)
Theorem C56_dm_fidelity : forall s t, dm_n s = sv_n t -> normalised t ->
  (psd (dm_n s) (drep (dm_n s) (dm_rho s)) -> dm_trace (dm_n s) (dm_rho s) = C1 ->
     exists F, dm_fidelity s t = Ok F /\ (0 <= F <= 1)%R /\ RtoC F = quad (dm_n s) (drep (dm_n s) (dm_rho s)) (rep (dm_n s) (sv_psi t))) /\
  (forall u, sv_n u = sv_n t -> dm_rho s = couter (sv_psi u) -> dm_fidelity s t = sv_fidelity t u).
Proof.
  intros s t E Nt. rewrite fidelity_bil by auto. split.
  - intros HP HT. destruct (HP (rep (dm_n s) (sv_psi t))) as (r & Hr & Q). pose proof Q as Q'. rewrite quad_bil in Q. rewrite Q. cbn [im re RtoC].
    destruct (Req_EM_T 0 0) as [_|K]; [|elim K; auto]. exists r. split; auto. split; [|auto]. split; auto.
    pose proof (bil_complement (dm_n s) (dm_rho s) (sv_psi t)) as BC. rewrite E in BC at 1. specialize (BC (normalised_csum t Nt)). rewrite HT, Q in BC.
    set (w := fun k i : nat => (if (i =? k)%nat then C1 else C0) - Cconj (sv_psi t k) * sv_psi t i).
    assert (PN : exists x, (0 <= x)%R /\ csum (range (2 ^ dm_n s)) (fun k => bil (dm_n s) (dm_rho s) (w k) (w k)) = RtoC x).
    { generalize (range (2 ^ dm_n s)). induction l as [|k l (x & Hx & IH)]; [exists 0%R; split; [lra|reflexivity]|]. destruct (HP (rep (dm_n s) (w k))) as (y & Hy & K). rewrite quad_bil in K.
      exists (y + x)%R. split; [lra|]. unfold csum, gsum in *. cbn [fold_right]. rewrite IH, K, RtoC_add. auto. }
    destruct PN as (x & Hx & PN). unfold w in PN. cbv zeta in BC. rewrite PN in BC. apply (f_equal re) in BC. cbn in BC. lra.
  - intros u Eu HR. set (c := csum (range (2 ^ dm_n s)) (fun j => Cconj (sv_psi t j) * sv_psi u j)).
    assert (B : bil (dm_n s) (dm_rho s) (sv_psi t) (sv_psi t) = RtoC (Cnorm2 c)).
    { rewrite HR. rewrite <- Cnorm2_mulconj. unfold bil, c. rewrite csum_conj. rewrite <- csum_mul, csum_swap. apply csum_ext. intros j _. rewrite (csum_ext _ _ (fun i => (Cconj (sv_psi t i) * sv_psi u i) * Cconj (Cconj (sv_psi t j) * sv_psi u j))).
      - rewrite csum_mulr. auto.
      - intros i _. unfold couter. rewrite Cconj_mul, Cconj_inv. ring. }
    rewrite B. cbn [im re RtoC]. destruct (Req_EM_T 0 0) as [_|K]; [|elim K; auto]. unfold sv_fidelity, sv_dot. rewrite Eu, Nat.eqb_refl. cbn [rbind]. rewrite <- E. fold c. rewrite Cmod_sq. auto.
Qed.
Print Assumptions C56_dm_fidelity.

(** ** Partial trace *)
Lemma bsum_canon n F G : (forall f, (forall k, (n <= k)%nat -> f k = false) -> F f = G f) -> cbsum n F = cbsum n G.
Proof.
  unfold cbsum. revert F G. induction n as [|n IH]; intros F G H; cbn [bsum]; [apply H; auto|]. apply IH. intros f Hf. f_equal; apply H; intros k Hk; rewrite upd_other by lia; apply Hf; lia.
Qed.
Lemma psd_bil n rho : psd n (drep n rho) <-> forall v, exists r, (0 <= r)%R /\ bil n rho v v = RtoC r.
Proof.
  split; intros H v.
  - destruct (H (rep n v)) as (r & Hr & E). exists r. split; auto. rewrite <- quad_bil. auto.
  - destruct (H (fun j => v (fun k => if (k <? n)%nat then bits n j k else false))) as (r & Hr & E). exists r. split; auto. rewrite <- E, <- quad_bil. unfold quad.
    assert (K : forall f, (forall k, (n <= k)%nat -> f k = false) -> rep n (fun j => v (fun k => if (k <? n)%nat then bits n j k else false)) f = v f).
    { intros f Hf. unfold rep. f_equal. extensionality k. destruct (Nat.ltb_spec k n); [apply bits_idx; auto|symmetry; auto]. }
    apply bsum_canon. intros f Hf. apply bsum_canon. intros g Hg. rewrite !K by auto. auto.
Qed.
Section Ptrace.
Variables (n : nat) (qs : list nat).
Hypothesis ND : NoDup qs.
Hypothesis Hq : forall q, In q qs -> (q < n)%nat.
Let k := length qs.
Let m := (n - length qs)%nat.
Lemma rest_In x : In x (rest n qs) <-> (x < n)%nat /\ ~ In x qs.
Proof. unfold rest. rewrite filter_In, negb_true_iff, lmem_false. unfold range. rewrite in_seq. intuition lia. Qed.
Lemma rest_len : length (rest n qs) = m.
Proof. pose proof (Permutation_length (rest_perm n qs ND Hq)) as P. rewrite app_length in P. unfold range in P. rewrite seq_length in P. unfold m. lia. Qed.
Lemma rest_ND : NoDup (rest n qs). Proof. apply NoDup_filter, seq_NoDup. Qed.
(** the assignment with [F] on the remaining qubits and [c] on the traced ones *)
Definition join (F c : asg) : asg := putf qs c (putf (rest n qs) F (fun _ => false)).
Lemma cbsum_join H : cbsum n H = cbsum m (fun F => cbsum k (fun c => H (join F c))).
Proof. rewrite (cbsum_split n qs) by auto. rewrite asum_put by apply rest_ND. rewrite rest_len. reflexivity. Qed.
Lemma join_qs F c t : (t < k)%nat -> join F c (nth t qs 0%nat) = c t.
Proof. intros. apply putf_get; auto. Qed.
Lemma join_rest F c t : (t < m)%nat -> join F c (nth t (rest n qs) 0%nat) = F t.
Proof.
  intros Ht. unfold join. assert (I : In (nth t (rest n qs) 0%nat) (rest n qs)) by (apply nth_In; rewrite rest_len; auto).
  pose proof (putf_get (rest n qs) F (fun _ => false) t rest_ND) as G. rewrite rest_len in G. unfold putf at 1. apply rest_In in I. rewrite (proj2 (lmem_false _ qs) (proj2 I)). apply G; auto.
Qed.
Variable rho : cmat.
Lemma ptraces_entry s : dm_n s = n -> dm_rho s = rho -> (0 < n)%nat -> exists r, dm_ptraces s qs = Ok r /\ dm_n r = m /\
  (forall F G, drep m (dm_rho r) F G = cbsum k (fun c => drep n rho (join F c) (join G c))).
Proof.
  intros En Er Hn. unfold dm_ptraces. rewrite En, Er. apply Nat.ltb_lt in Hn. rewrite Hn. replace (forallb (fun q => (q <? n)%nat) qs) with true by (symmetry; apply forallb_forall; intros q K; apply Nat.ltb_lt; auto).
  cbn [andb]. eexists. split; [reflexivity|]. fold k m. split; auto. intros F G. unfold drep at 1. cbn [dm_rho]. rewrite csum_cbsum. apply cbsum_ext. intros c. rewrite csum_cbsum.
  assert (P : forall F c, idx n (fun q => if lmem q qs then bits k (idx k c) (pos_of q qs) else bits m (idx m F) (pos_of q (rest n qs))) = idx n (join F c)).
  { clear - ND Hq. intros F c. apply idx_ext. intros q Hq1. unfold join, putf. destruct (lmem q qs) eqn:E.
    - apply lmem_In in E. apply bits_idx. apply (pos_of_nth qs q 0%nat E).
    - apply lmem_false in E. assert (I : In q (rest n qs)) by (apply rest_In; auto). destruct (pos_of_nth (rest n qs) q 0%nat I) as [L _]. rewrite rest_len in L. rewrite bits_idx by auto.
      rewrite (proj2 (lmem_In q (rest n qs)) I). auto. }
  rewrite P. rewrite (cbsum_ext k _ (fun b => eye (idx k c) (idx k b) * rho (idx n (join F c)) (idx n (join G b)))) by (intros b; rewrite P; auto).
  apply (eye_sum k (fun b => rho (idx n (join F c)) (idx n (join G b)))). intros f g H. f_equal. apply idx_ext. intros x Hx. unfold join, putf. destruct (lmem x qs) eqn:E; auto. apply H. apply lmem_In in E. apply (pos_of_nth qs x 0%nat E).
Qed.
End Ptrace.
(** tracing out different qubits of the register: the remaining qubits keep their
    order, the entries are those of the partial trace, the trace is unchanged and
    a positive matrix stays positive *)
Theorem C56_ptrace : forall s qs, NoDup qs -> (forall q, In q qs -> (q < dm_n s)%nat) -> (0 < dm_n s)%nat ->
  let n := dm_n s in let m := (n - length qs)%nat in
  exists r, dm_ptraces s qs = Ok r /\ dm_n r = m /\
    (forall f g, drep m (dm_rho r) (fun i => f (nth i (rest n qs) 0%nat)) (fun i => g (nth i (rest n qs) 0%nat))
       = cbsum (length qs) (fun c => drep n (dm_rho s) (putf qs c f) (putf qs c g))) /\
    dm_trace m (dm_rho r) = dm_trace n (dm_rho s) /\
    (psd n (drep n (dm_rho s)) -> psd m (drep m (dm_rho r))).
Proof.
  intros s qs ND Hq Hn n m. destruct (ptraces_entry n qs ND Hq (dm_rho s) s eq_refl eq_refl Hn) as (r & E & En & ER). exists r. fold m in En, ER. split; auto. split; auto. split; [|split].
  - intros f g. rewrite ER. apply cbsum_ext. intros c.
    assert (J : forall h x, (x < n)%nat -> join n qs (fun i => h (nth i (rest n qs) 0%nat)) c x = putf qs c h x).
    { intros h x Hx. unfold join, putf. destruct (lmem x qs) eqn:EL; auto. apply lmem_false in EL. assert (I : In x (rest n qs)) by (apply rest_In; auto).
      rewrite (proj2 (lmem_In x (rest n qs)) I). destruct (pos_of_nth (rest n qs) x 0%nat I) as [_ P]. rewrite P. auto. }
    apply drep_ext; intros; apply J; auto.
  - rewrite !trace_drep, (cbsum_join n qs ND Hq). fold m. apply cbsum_ext. intros F. apply ER.
  - rewrite !psd_bil. intros HP v. set (k := length qs).
    set (w := fun (c : nat) (i : nat) => eye c (sub n k qs i) * v (idx m (fun t => bits n i (nth t (rest n qs) 0%nat)))).
    assert (EW : forall c F c1, w (idx k c) (idx n (join n qs F c1)) = eye (idx k c) (idx k c1) * v (idx m F)).
    { intros c F c1. unfold w. rewrite sub_idx by auto. f_equal; [f_equal|f_equal]; apply idx_ext; intros t Ht.
      - apply join_qs; auto.
      - assert (I : In (nth t (rest n qs) 0%nat) (rest n qs)) by (apply nth_In; rewrite rest_len; auto). apply rest_In in I. rewrite bits_idx by tauto. apply join_rest; auto. }
    assert (EE : forall a b, Cconj (eye a b) = eye a b) by (intros a b; unfold eye; destruct (a =? b)%nat; rewrite ?Cconj_1, ?Cconj_0; auto).
    assert (B : bil m (dm_rho r) v v = csum (range (2 ^ k)) (fun c => bil n (dm_rho s) (w c) (w c))).
    { rewrite csum_cbsum. unfold bil. rewrite csum_cbsum.
      rewrite (cbsum_ext m _ (fun F => cbsum m (fun G => cbsum k (fun c => Cconj (v (idx m F)) * drep n (dm_rho s) (join n qs F c) (join n qs G c) * v (idx m G))))).
      2: { intros F. rewrite csum_cbsum. apply cbsum_ext. intros G. change (dm_rho r (idx m F) (idx m G)) with (drep m (dm_rho r) F G). rewrite ER. rewrite (CircSim.Cmul_comm (_ * _)), <- (cbsum_mul _ (Cconj _)), <- cbsum_mul. apply cbsum_ext. intros c. ring. }
      rewrite (cbsum_ext m _ (fun F => cbsum k (fun c => cbsum m (fun G => Cconj (v (idx m F)) * drep n (dm_rho s) (join n qs F c) (join n qs G c) * v (idx m G))))) by (intros F; apply cbsum_swap).
      rewrite cbsum_swap. apply cbsum_ext. intros c. rewrite csum_cbsum, (cbsum_join n qs ND Hq). fold m k. apply cbsum_ext. intros F.
      assert (EX : forall H G c1 c2, (forall t, (t < k)%nat -> c1 t = c2 t) -> drep n (dm_rho s) (join n qs H c1) G = drep n (dm_rho s) (join n qs H c2) G).
      { intros H G c1 c2 HE. apply drep_ext; auto. intros x _. unfold join. rewrite (putf_ext qs c1 c2); auto. }
      assert (EX2 : forall H G c1 c2, (forall t, (t < k)%nat -> c1 t = c2 t) -> drep n (dm_rho s) H (join n qs G c1) = drep n (dm_rho s) H (join n qs G c2)).
      { intros H G c1 c2 HE. apply drep_ext; auto. intros x _. unfold join. rewrite (putf_ext qs c1 c2); auto. }
      symmetry. transitivity (cbsum k (fun c1 => eye (idx k c) (idx k c1) * cbsum m (fun G => Cconj (v (idx m F)) * drep n (dm_rho s) (join n qs F c1) (join n qs G c) * v (idx m G)))).
      - apply cbsum_ext. intros c1. rewrite EW, Cconj_mul, EE. rewrite csum_cbsum, (cbsum_join n qs ND Hq). fold m k. rewrite <- cbsum_mul. apply cbsum_ext. intros G.
        transitivity (cbsum k (fun c2 => eye (idx k c) (idx k c2) * (eye (idx k c) (idx k c1) * Cconj (v (idx m F)) * drep n (dm_rho s) (join n qs F c1) (join n qs G c2) * v (idx m G)))).
        + apply cbsum_ext. intros c2. rewrite EW. unfold drep. ring.
        + rewrite (eye_sum k (fun c2 => eye (idx k c) (idx k c1) * Cconj (v (idx m F)) * drep n (dm_rho s) (join n qs F c1) (join n qs G c2) * v (idx m G))); [ring|].
          intros f g HE. rewrite (EX2 (join n qs F c1) G f g HE). auto.
      - apply (eye_sum k (fun c1 => cbsum m (fun G => Cconj (v (idx m F)) * drep n (dm_rho s) (join n qs F c1) (join n qs G c) * v (idx m G)))).
        intros f g HE. apply cbsum_ext. intros G. rewrite (EX F (join n qs G c) f g HE). auto. }
    rewrite B. generalize (range (2 ^ k)). induction l as [|c l (x & Hx & IH)]; [exists 0%R; split; [lra|reflexivity]|]. destruct (HP (w c)) as (y & Hy & K).
    exists (y + x)%R. split; [lra|]. unfold csum, gsum in *. cbn [fold_right]. rewrite IH, K, RtoC_add. auto.
Qed.
Print Assumptions C56_ptrace.
(** tracing out the second (first) factor of a product leaves the other one *)
Lemma rest_seq a b : rest (a + b) (seq a b) = range a.
Proof.
  unfold rest, range. rewrite seq_app. cbn [Nat.add]. rewrite filter_app.
  assert (G1 : forall l, (forall x, In x l -> (x < a)%nat) -> filter (fun q => negb (lmem q (seq a b))) l = l).
  { induction l as [|x l IH]; intros H; cbn [filter]; auto. replace (lmem x (seq a b)) with false; [cbn; f_equal; apply IH; intros; apply H; right; auto|]. symmetry. apply lmem_false. intros K. apply in_seq in K. specialize (H x (or_introl eq_refl)). lia. }
  assert (G2 : forall l, (forall x, In x l -> In x (seq a b)) -> filter (fun q => negb (lmem q (seq a b))) l = []).
  { induction l as [|x l IH]; intros H; cbn [filter]; auto. rewrite (proj2 (lmem_In x _) (H x (or_introl eq_refl))). cbn. apply IH. intros; apply H; right; auto. }
  rewrite G1, G2; [apply app_nil_r|auto|intros x Hx; apply in_seq in Hx; lia].
Qed.
Lemma rest_range a b : rest (a + b) (range a) = seq a b.
Proof.
  unfold rest, range. rewrite seq_app. cbn [Nat.add]. rewrite filter_app.
  assert (G1 : forall l, (forall x, In x l -> (x < a)%nat) -> filter (fun q => negb (lmem q (seq 0 a))) l = []).
  { induction l as [|x l IH]; intros H; cbn [filter]; auto. replace (lmem x (seq 0 a)) with true; [cbn; apply IH; intros; apply H; right; auto|]. symmetry. apply lmem_In, in_seq. specialize (H x (or_introl eq_refl)). lia. }
  assert (G2 : forall l, (forall x, In x l -> (a <= x)%nat) -> filter (fun q => negb (lmem q (seq 0 a))) l = l).
  { induction l as [|x l IH]; intros H; cbn [filter]; auto. replace (lmem x (seq 0 a)) with false; [cbn; f_equal; apply IH; intros; apply H; right; auto|]. symmetry. apply lmem_false. intros K. apply in_seq in K. specialize (H x (or_introl eq_refl)). lia. }
  rewrite G1, G2; auto; intros x Hx; apply in_seq in Hx; lia.
Qed.
Theorem C56_ptrace_product : forall a b, (0 < dm_n a + dm_n b)%nat ->
  (exists r, dm_ptraces (dm_tensor a b) (seq (dm_n a) (dm_n b)) = Ok r /\ dm_n r = dm_n a /\
     forall i j, (i < 2 ^ dm_n a)%nat -> (j < 2 ^ dm_n a)%nat -> dm_rho r i j = dm_trace (dm_n b) (dm_rho b) * dm_rho a i j) /\
  (exists r, dm_ptraces (dm_tensor a b) (range (dm_n a)) = Ok r /\ dm_n r = dm_n b /\
     forall i j, (i < 2 ^ dm_n b)%nat -> (j < 2 ^ dm_n b)%nat -> dm_rho r i j = dm_trace (dm_n a) (dm_rho a) * dm_rho b i j).
Proof.
  intros a b Hn. set (na := dm_n a) in *. set (nb := dm_n b) in *. split.
  - destruct (ptraces_entry (na + nb) (seq na nb) (seq_NoDup _ _)) with (rho := dm_rho (dm_tensor a b)) (s := dm_tensor a b) as (r & E & En & ER); auto; [intros q K; apply in_seq in K; lia|].
    rewrite seq_length in *. replace (na + nb - nb)%nat with na in * by lia. exists r. split; auto. split; auto. intros i j Hi Hj.
    specialize (ER (bits na i) (bits na j)). unfold drep in ER at 1. rewrite !idx_bits in ER by auto. rewrite ER.
    rewrite trace_drep, CircSim.Cmul_comm, <- cbsum_mul. apply cbsum_ext. intros c. unfold na, nb. rewrite tensor_drep. fold na nb.
    assert (J1 : forall F x, (x < na)%nat -> join (na + nb) (seq na nb) F c x = F x).
    { intros F x Hx. unfold join. rewrite rest_seq. unfold putf. replace (lmem x (seq na nb)) with false by (symmetry; apply lmem_false; intros K; apply in_seq in K; lia).
      replace (lmem x (range na)) with true by (symmetry; apply lmem_In, in_seq; lia). f_equal. unfold range. pose proof (pos_of_nth' (seq 0 na) x 0%nat (seq_NoDup _ _)) as P. rewrite seq_length, seq_nth in P by auto. apply P; auto. }
    assert (J2 : forall F x, (x < nb)%nat -> shiftn na (join (na + nb) (seq na nb) F c) x = c x).
    { intros F x Hx. unfold shiftn, join, putf. replace (lmem (na + x) (seq na nb)) with true by (symmetry; apply lmem_In, in_seq; lia). f_equal.
      pose proof (pos_of_nth' (seq na nb) x 0%nat (seq_NoDup _ _)) as P. rewrite seq_length, seq_nth in P by auto. apply P; auto. }
    f_equal.
    + transitivity (drep na (dm_rho a) (bits na i) (bits na j)); [apply drep_ext; intros; apply J1; auto|]. unfold drep. rewrite !idx_bits by auto. auto.
    + apply drep_ext; intros; apply J2; auto.
  - destruct (ptraces_entry (na + nb) (range na) (seq_NoDup _ _)) with (rho := dm_rho (dm_tensor a b)) (s := dm_tensor a b) as (r & E & En & ER); auto; [intros q K; apply in_seq in K; lia|].
    assert (LR : length (range na) = na) by apply seq_length. rewrite LR in *. replace (na + nb - na)%nat with nb in * by lia. exists r. split; auto. split; auto. intros i j Hi Hj.
    specialize (ER (bits nb i) (bits nb j)). unfold drep in ER at 1. rewrite !idx_bits in ER by auto. rewrite ER.
    rewrite trace_drep, CircSim.Cmul_comm, <- cbsum_mul. apply cbsum_ext. intros c. unfold na, nb. rewrite tensor_drep. fold na nb. rewrite CircSim.Cmul_comm.
    assert (J1 : forall F x, (x < na)%nat -> join (na + nb) (range na) F c x = c x).
    { intros F x Hx. unfold join, putf. replace (lmem x (range na)) with true by (symmetry; apply lmem_In, in_seq; lia). f_equal. unfold range. pose proof (pos_of_nth' (seq 0 na) x 0%nat (seq_NoDup _ _)) as P. rewrite seq_length, seq_nth in P by auto. apply P; auto. }
    assert (J2 : forall F x, (x < nb)%nat -> shiftn na (join (na + nb) (range na) F c) x = F x).
    { intros F x Hx. unfold shiftn, join. rewrite rest_range. unfold putf. replace (lmem (na + x) (range na)) with false by (symmetry; apply lmem_false; intros K; apply in_seq in K; lia).
      replace (lmem (na + x) (seq na nb)) with true by (symmetry; apply lmem_In, in_seq; lia). f_equal.
      pose proof (pos_of_nth' (seq na nb) x 0%nat (seq_NoDup _ _)) as P. rewrite seq_length, seq_nth in P by auto. apply P; auto. }
    f_equal.
    + transitivity (drep nb (dm_rho b) (bits nb i) (bits nb j)); [apply drep_ext; intros; apply J2; auto|]. unfold drep. rewrite !idx_bits by auto. auto.
    + apply drep_ext; intros; apply J1; auto.
Qed.
Print Assumptions C56_ptrace_product.

(** ** swap and cnot *)
Lemma conjk_appk op qs rho f g : conjk op qs rho f g = appk op qs (fun f' => Cconj (appk op qs (fun g' => Cconj (rho f' g')) g)) f.
Proof.
  unfold conjk, appk. cbv zeta. apply cbsum_ext. intros a. rewrite cbsum_conj, <- cbsum_mul. apply cbsum_ext. intros b. rewrite Cconj_mul, Cconj_inv. ring.
Qed.
Lemma chk_ok2 s op u v : u <> v -> (u < dm_n s)%nat -> (v < dm_n s)%nat ->
  exists r, dm_evolve_chk s 2 op [u; v] = Ok r /\ dm_n r = dm_n s /\ drep (dm_n s) (dm_rho r) = conjk op [u; v] (drep (dm_n s) (dm_rho s)).
Proof.
  intros N Hu Hv. unfold dm_evolve_chk. assert (E : DMSim.evolve_ok (dm_n s) 2 [u; v] = true).
  { unfold DMSim.evolve_ok. cbn [length Nat.eqb forallb andb]. apply Nat.ltb_lt in Hu, Hv. rewrite Hu, Hv. apply nodupb_spec. repeat constructor; cbn; intuition. }
  rewrite E. eexists. split; [reflexivity|]. split; auto. cbn [dm_rho]. apply (evolve_drep (dm_n s) op [u; v]). cbn. intuition lia.
Qed.
Lemma chk_err2 s op u v : ~ (u <> v /\ (u < dm_n s)%nat /\ (v < dm_n s)%nat) -> dm_evolve_chk s 2 op [u; v] = Err EValue.
Proof.
  intros H. unfold dm_evolve_chk. destruct (DMSim.evolve_ok (dm_n s) 2 [u; v]) eqn:E; auto. elim H. unfold DMSim.evolve_ok in E. rewrite !andb_true_iff in E. destruct E as [[_ E1] E2].
  rewrite forallb_forall in E1. assert (U : (u < dm_n s)%nat) by (apply Nat.ltb_lt, E1; cbn; auto). assert (V : (v < dm_n s)%nat) by (apply Nat.ltb_lt, E1; cbn; auto).
  split; auto. intros ->. cbn [nodupb] in E2. rewrite (proj2 (lmem_In v [v])) in E2 by (left; auto). discriminate.
Qed.
(** swap exchanges the two qubits, cnot flips the target when the control is
    set, on both sides of the matrix; both raise ValueError on equal or unknown
    qubits *)
Theorem C56_dm_swap : forall s u v,
  (u <> v -> (u < dm_n s)%nat -> (v < dm_n s)%nat -> exists r, dm_swap s u v = Ok r /\ dm_n r = dm_n s /\
     forall f g, drep (dm_n s) (dm_rho r) f g = drep (dm_n s) (dm_rho s) (upd (upd f u (f v)) v (f u)) (upd (upd g u (g v)) v (g u))) /\
  (u = v \/ (dm_n s <= u)%nat \/ (dm_n s <= v)%nat -> dm_swap s u v = Err EValue).
Proof.
  intros s u v. split.
  - intros N Hu Hv. destruct (chk_ok2 s op_swap u v N Hu Hv) as (r & E & En & D). exists r. split; auto. split; auto. intros f g. rewrite D, conjk_appk, swap_appk by auto. unfold swapst. rewrite swap_appk by auto. unfold swapst. apply Cconj_inv.
  - intros H. apply chk_err2. lia.
Qed.
Theorem C56_dm_cnot : forall s c t,
  (c <> t -> (c < dm_n s)%nat -> (t < dm_n s)%nat -> exists r, dm_cnot s c t = Ok r /\ dm_n r = dm_n s /\
     forall f g, drep (dm_n s) (dm_rho r) f g = drep (dm_n s) (dm_rho s) (upd f t (xorb (f t) (f c))) (upd g t (xorb (g t) (g c)))) /\
  (c = t \/ (dm_n s <= c)%nat \/ (dm_n s <= t)%nat -> dm_cnot s c t = Err EValue).
Proof.
  intros s c t. split.
  - intros N Hu Hv. destruct (chk_ok2 s op_cnot c t N Hu Hv) as (r & E & En & D). exists r. split; auto. split; auto. intros f g. rewrite D, conjk_appk.
    change (gate (ICNOT t c) (fun f' => Cconj (gate (ICNOT t c) (fun g' => Cconj (drep (dm_n s) (dm_rho s) f' g')) g)) f = drep (dm_n s) (dm_rho s) (upd f t (xorb (f t) (f c))) (upd g t (xorb (g t) (g c)))).
    rewrite !cnot_spec by auto. apply Cconj_inv.
  - intros H. apply chk_err2. lia.
Qed.
Print Assumptions C56_dm_swap.
Print Assumptions C56_dm_cnot.

(** ** expectation_single of a density matrix *)
(** the value is the one of [dm_expectation] (C48); the matrix is left unchanged
    when its trace is one *)
Theorem C56_dm_expectation : forall s op q,
  match dm_expectation_eff s op q with
  | Ok (v, s') => dm_expectation s op q = Ok v /\ (dm_trace (dm_n s) (dm_rho s) = C1 -> s' = s)
  | Err e => dm_expectation s op q = Err e
  end.
Proof.
  intros s op q. unfold dm_expectation_eff, dm_expectation. destruct (q <? dm_n s)%nat; auto. destruct (dm_normalize s) as [s'|e] eqn:E; cbn [rbind]; auto.
  split; auto. intros T. rewrite normalize_1 in E by auto. congruence.
Qed.
Print Assumptions C56_dm_expectation.
(** otherwise reading an expectation value rescales the matrix itself: every
    nonzero matrix entry changes *)
Theorem C56_expectation_mutates_refuted : forall s op q, (q < dm_n s)%nat ->
  let t := dm_trace (dm_n s) (dm_rho s) in t <> C0 -> t <> C1 ->
  exists v s', dm_expectation_eff s op q = Ok (v, s') /\ forall i j, dm_rho s i j <> C0 -> dm_rho s' i j <> dm_rho s i j.
Proof.
  intros s op q Hq t H0 H1. apply Nat.ltb_lt in Hq. unfold dm_expectation_eff. rewrite Hq. unfold dm_normalize. fold t. destruct (Ceq0 t) eqn:E; [apply Ceq0_spec in E; contradiction|]. cbn [rbind].
  eexists. eexists. split; [reflexivity|]. cbn [dm_rho]. intros i j HN K. set (x := dm_rho s i j) in *. apply H1.
  assert (X : x * t = x). { transitivity (x * Cinv t * t); [rewrite K; auto|]. transitivity (x * (t * Cinv t)); [ring|]. rewrite Cinv_r by auto. ring. }
  assert (Y : Cinv x * (x * t) = Cinv x * x) by congruence. transitivity ((x * Cinv x) * t); [rewrite Cinv_r by auto; ring|]. transitivity (Cinv x * (x * t)); [ring|]. rewrite Y. transitivity (x * Cinv x); [ring|apply Cinv_r; auto].
Qed.
Print Assumptions C56_expectation_mutates_refuted.

(** ** evolve on repeated qubits *)
(** the density matrix rejects repeated targets, Statevector.evolve accepts
    them and is then not norm-preserving: CNOT on (0, 0) destroys the state *)
Theorem C56_evolve_repeated_refuted : forall a, exists s', sv_evolve (SV (fun i => if (i =? 0)%nat then a else - a) 1) op_cnot [0; 0]%nat = Ok s' /\
  (forall j, (j < 2)%nat -> sv_psi s' j = C0) /\ (forall d, dm_evolve_chk d 2 op_cnot [0; 0]%nat = Err EValue).
Proof.
  intros a. unfold sv_evolve. cbn [sv_n length]. change (res_labels 1 [0; 0]%nat) with (Ok [2%nat]). cbn [rbind]. eexists. split; [reflexivity|]. split.
  - intros j Hj. cbn [sv_psi]. unfold cbsum. cbn [Nat.add bsum]. destruct j as [|[|j]]; [| |lia]; cbn; ring.
  - intros d. apply chk_err2. intuition.
Qed.
Print Assumptions C56_evolve_repeated_refuted.

(** * Concrete cases *)
Definition qb (a b : C) : sv := SV (fun i => if (i =? 0)%nat then a else b) 1.
Lemma qb_normalised a b : (Cnorm2 a + Cnorm2 b = 1)%R -> normalised (qb a b).
Proof. intros H. unfold normalised, qb. cbn [sv_n sv_psi]. change (range (2 ^ 1)) with [0; 1]%nat. unfold rsum, gsum. cbn [fold_right Nat.eqb]. lra. Qed.
(** two states that differ by the phase i are close at every tolerance *)
Example ex_isclose a b : (Cnorm2 a + Cnorm2 b = 1)%R ->
  normalised (qb a b) /\ normalised (qb (Ci * a) (Ci * b)) /\ sv_isclose (qb a b) (qb (Ci * a) (Ci * b)) 0 0 = Ok true.
Proof.
  intros H. assert (P : phase Ci) by (unfold phase, Cnorm2; cbn; ring). assert (N1 := qb_normalised a b H).
  assert (N2 : normalised (qb (Ci * a) (Ci * b))) by (apply qb_normalised; rewrite !Cnorm2_mul; unfold phase in P; rewrite P; lra).
  split; auto. split; auto. destruct (C56_isclose (qb a b) (qb (Ci * a) (Ci * b)) 0 0 N1 N2 eq_refl (Rle_refl 0) (Rle_refl 0)) as (F & r & _ & E & _ & G & _). rewrite E. f_equal. apply G.
  exists Ci. split; auto. intros j Hj. cbn [qb sv_psi]. destruct (j =? 0)%nat; auto.
Qed.
(** orthogonal states are not *)
Example ex_not_close : normalised (qb C1 C0) /\ normalised (qb C0 C1) /\ sv_fidelity (qb C1 C0) (qb C0 C1) = Ok 0%R /\ sv_isclose (qb C1 C0) (qb C0 C1) (1 / 2) 0 = Ok false.
Proof.
  assert (N1 : normalised (qb C1 C0)) by (apply qb_normalised; unfold Cnorm2; cbn; ring). assert (N2 : normalised (qb C0 C1)) by (apply qb_normalised; unfold Cnorm2; cbn; ring).
  assert (F0 : sv_fidelity (qb C1 C0) (qb C0 C1) = Ok 0%R).
  { rewrite fid_val by auto. f_equal. change (range (2 ^ sv_n (qb C1 C0))) with [0; 1]%nat. unfold csum, gsum. cbn [fold_right qb sv_psi Nat.eqb]. unfold Cnorm2. cbn. ring. }
  repeat (split; auto). destruct (C56_isclose (qb C1 C0) (qb C0 C1) (1 / 2) 0 N1 N2 eq_refl) as (F & r & E1 & E & G & _); try lra. rewrite E. f_equal.
  assert (K : F = 0%R) by (rewrite F0 in E1; inversion E1; auto). destruct r; auto. destruct (proj1 G eq_refl); lra.
Qed.
(** the keys of a one-qubit state *)
Example ex_to_dict a b atol : (atol < Cmod a)%R -> (atol < Cmod b)%R -> to_dict (qb a b) false 0 atol = [([false], a); ([true], b)].
Proof.
  intros Ha Hb. unfold to_dict, to_dict_map. change (range (2 ^ sv_n (qb a b))) with [0; 1]%nat. cbn [filter qb sv_psi sv_n Nat.eqb].
  assert (G : forall x, (atol < Cmod x)%R -> Rleb (Cmod x) (atol + 0 * 0) = false) by (intros x K; apply not_true_iff_false; rewrite Rleb_spec; lra).
  rewrite (G a), (G b) by auto. reflexivity.
Qed.
(** an unnormalised matrix: the projection a|0><0| read by expectation_single *)
Example ex_mutates (r : R) op : r <> 0%R -> r <> 1%R ->
  exists v s', dm_expectation_eff (DM (fun i j => if (i =? 0)%nat && (j =? 0)%nat then RtoC r else C0) 1) op 0 = Ok (v, s') /\ dm_rho s' 0%nat 0%nat <> RtoC r.
Proof.
  intros H0 H1. set (s := DM _ 1). assert (T : dm_trace (dm_n s) (dm_rho s) = RtoC r).
  { unfold dm_trace. change (range (2 ^ dm_n s)) with [0; 1]%nat. unfold csum, gsum. cbn [fold_right s dm_rho Nat.eqb andb]. ring. }
  assert (N0 : RtoC r <> C0) by (intros K; apply H0; apply (f_equal re) in K; exact K). assert (N1 : RtoC r <> C1) by (intros K; apply H1; apply (f_equal re) in K; exact K).
  destruct (C56_expectation_mutates_refuted s op 0) as (v & s' & E & M); [cbn; lia|rewrite T; auto|rewrite T; auto|]. exists v, s'. split; auto. apply (M 0%nat 0%nat). exact N0.
Qed.
(** the reduced state of the first qubit of a product of two pure states *)
Example ex_ptrace a b c d : (Cnorm2 c + Cnorm2 d = 1)%R ->
  let A := DM (couter (sv_psi (qb a b))) 1 in let B := DM (couter (sv_psi (qb c d))) 1 in
  exists r, dm_ptraces (dm_tensor A B) [1%nat] = Ok r /\ dm_n r = 1%nat /\ forall i j, (i < 2)%nat -> (j < 2)%nat -> dm_rho r i j = couter (sv_psi (qb a b)) i j.
Proof.
  intros H A B. destruct (C56_ptrace_product A B) as [(r & E & En & R) _]; [cbn; lia|]. exists r. split; [exact E|]. split; auto. intros i j Hi Hj. rewrite (R i j Hi Hj).
  replace (dm_trace (dm_n B) (dm_rho B)) with C1; [cbn [A dm_rho]; ring|]. pose proof (normalised_csum (qb c d) (qb_normalised c d H)) as N. symmetry. rewrite <- N. unfold dm_trace. apply csum_ext. intros k _. cbn [B dm_rho]. unfold couter. ring.
Qed.
