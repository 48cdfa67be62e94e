(** Model of the functions that inspect and compare states: Statevector
    expectation_value, fidelity, isclose, to_dict and to_prob_dict
    (graphix/sim/statevec.py:397-416, 553-590, 592-770), DensityMatrix ptrace of
    several qubits, swap, cnot, fidelity and expectation_single with its effect
    on [self] (graphix/sim/density_matrix.py:264-290, 312-332, 373-410). *)
From Coq Require Import Reals Lra Arith List Bool Lia Permutation FunctionalExtensionality.
From Verif Require Import Cplx Mat2 Fundamentals CliffordDb Clifford NSet Measure QState Pattern NodeIndex Statevec Simulator Density DMSim DMRun Circuit Swaps CircSim.
Import ListNotations.
Local Open Scope C_scope.

Definition Rleb (a b : R) : bool := if Rle_dec a b then true else false.
Lemma Rleb_spec a b : Rleb a b = true <-> (a <= b)%R.
Proof. unfold Rleb. destruct (Rle_dec a b); split; auto; discriminate. Qed.

(** * Statevector *)
(** np.dot(a.conjugate(), b) of the meaningful amplitudes; ValueError on arrays
    of different lengths *)
Definition sv_dot (s t : sv) : res C :=
  if (sv_n s =? sv_n t)%nat then Ok (csum (range (2 ^ sv_n s)) (fun j => Cconj (sv_psi s j) * sv_psi t j)) else Err EValue.
(** statevec.py:397-416 expectation_value; the constructor of line 414 rejects an
    unnormalised array *)
Definition sv_expectation_value (close1 : R -> bool) (s : sv) (op : cmat) (qs : list nat) : res C :=
  do t <- sv_make_amps close1 (map (sv_psi s) (range (2 ^ sv_n s)));
  do t <- sv_evolve t op qs;
  sv_dot s t.
(** statevec.py:553-569 fidelity *)
Definition sv_fidelity (s t : sv) : res R := do c <- sv_dot s t; Ok (Cmod c * Cmod c)%R.
(** math.isclose(a, b, rel_tol, abs_tol); ValueError on a negative tolerance *)
Definition py_isclose (a b rel_tol abs_tol : R) : res bool :=
  if Rleb 0 rel_tol && Rleb 0 abs_tol then
    let d := Rabs (a - b) in Ok (Rleb d (Rabs (rel_tol * b)) || Rleb d (Rabs (rel_tol * a)) || Rleb d abs_tol)
  else Err EValue.
(** statevec.py:571-590 isclose *)
Definition sv_isclose (s t : sv) (rtol atol : R) : res bool := do f <- sv_fidelity s t; py_isclose f 1 rtol atol.
(** statevec.py:753-762 _format_encoding: f"{i:0{nqubit}b}", at least one digit *)
Definition fmt_width (n i : nat) : nat := Nat.max n (if (i =? 0)%nat then 1 else S (Nat.log2 i)).
Definition format_encoding (n i : nat) (lsb : bool) : list bool :=
  let out := map (bits (fmt_width n i) i) (range (fmt_width n i)) in if lsb then rev out else out.
(** statevec.py:738-750 _to_dict_map: the dict comprehension, as the list of its
    pairs (the keys are distinct, C56); np.isclose(x, 0, rtol, atol) is
    |x| <= atol + rtol * 0 *)
Definition to_dict_map {B} (f : C -> B) (s : sv) (lsb : bool) (rtol atol : R) : list (list bool * B) :=
  map (fun i => (format_encoding (sv_n s) i lsb, f (sv_psi s i)))
    (filter (fun i => negb (Rleb (Cmod (sv_psi s i)) (atol + rtol * 0))) (range (2 ^ sv_n s))).
(** statevec.py:592-644 to_dict *)
Definition to_dict (s : sv) (lsb : bool) (rtol atol : R) : list (list bool * C) := to_dict_map (fun x => x) s lsb rtol atol.
(** statevec.py:646-679 to_prob_dict *)
Definition to_prob_dict (s : sv) (lsb : bool) (rtol atol : R) : list (list bool * R) := to_dict_map (fun x => (Cmod x * Cmod x)%R) s lsb rtol atol.

(** * DensityMatrix *)
(** ops.py Ops.SWAP is CircSim.op_swap; density_matrix.py:312-320 cnot, swap *)
Definition dm_cnot (s : dmat) (c t : nat) : res dmat := dm_evolve_chk s 2 op_cnot [c; t].
Definition dm_swap (s : dmat) (u v : nat) : res dmat := dm_evolve_chk s 2 op_swap [u; v].
(** density_matrix.py:373-396 ptrace of a list of different qubits (numpy
    rejects repeated axes): contraction with the identity on the traced axes;
    the other axes keep their order *)
Definition dm_ptraces (s : dmat) (qs : list nat) : res dmat :=
  let n := dm_n s in let k := length qs in let m := (n - k)%nat in
  if (0 <? n)%nat && forallb (fun q => (q <? n)%nat) qs then
    let place i a := idx n (fun q => if lmem q qs then bits k a (pos_of q qs) else bits m i (pos_of q (rest n qs))) in
    Ok (DM (fun i j => csum (range (2 ^ k)) (fun a => csum (range (2 ^ k)) (fun b => eye a b * dm_rho s (place i a) (place j b)))) m)
  else Err EAssert.
(** density_matrix.py:398-410 fidelity with a state vector; math.isclose(x, 0)
    with the default tolerances holds for x = 0 only *)
Definition dm_fidelity (s : dmat) (t : sv) : res R :=
  if (dm_n s =? sv_n t)%nat then
    let r := csum (range (2 ^ dm_n s)) (fun i => Cconj (sv_psi t i) * csum (range (2 ^ dm_n s)) (fun j => dm_rho s i j * sv_psi t j)) in
    if Req_EM_T (im r) 0 then Ok (re r) else Err EAssert
  else Err EValue.
(** density_matrix.py:264-290 expectation_single: [copy.copy] is shallow and
    [normalize] works in place, so the array of [self] is normalised too: the
    value and the new contents of [self] *)
Definition dm_expectation_eff (s : dmat) (op : mat2) (q : nat) : res (C * dmat) :=
  if (q <? dm_n s)%nat then
    do s' <- dm_normalize s;
    Ok (csum (range (2 ^ dm_n s)) (fun i => csum (range 2) (fun a =>
      m2 op (sub (dm_n s) 1 [q] i) a * dm_rho s' (putb (dm_n s) 1 [q] i a) i)), s')
  else Err EValue.

(** * Lemmas *)
Definition normalised (s : sv) : Prop := rsum (range (2 ^ sv_n s)) (fun j => Cnorm2 (sv_psi s j)) = 1%R.
Lemma normalised_sqnorm s : normalised s <-> sqnorm (sv_n s) (rep (sv_n s) (sv_psi s)) = 1%R.
Proof.
  unfold normalised, sqnorm, rbsum, rsum, rep. pose proof (bsum_range R Rplus 0%R Rplus_comm (fun a b c => eq_sym (Rplus_assoc a b c)) Rplus_0_r (sv_n s) (fun j => Cnorm2 (sv_psi s j))) as E.
  cbv beta in E. rewrite E. tauto.
Qed.
Lemma dist_expand {X} (l : list X) (a b : X -> C) z :
  rsum l (fun j => Cnorm2 (b j - z * a j)) = (rsum l (fun j => Cnorm2 (b j)) + Cnorm2 z * rsum l (fun j => Cnorm2 (a j)) - 2 * re (Cconj z * csum l (fun j => Cconj (a j) * b j))%C)%R.
Proof.
  unfold rsum, csum, gsum. induction l as [|x l IH]; cbn [fold_right].
  - unfold Cnorm2, Cmul. cbn. ring.
  - rewrite IH. set (S := fold_right _ C0 l). destruct (a x) as [a1 a2], (b x) as [b1 b2], z as [z1 z2], S as [s1 s2]. unfold Cnorm2, Cmul, Csub, Cadd, Copp, Cconj. cbn. ring.
Qed.
Lemma rsum_nonneg {X} (l : list X) F : (forall x, In x l -> (0 <= F x)%R) -> (0 <= rsum l F)%R.
Proof. unfold rsum, gsum. induction l as [|x l IH]; cbn; intros H; [lra|]. pose proof (H x (or_introl eq_refl)). assert (0 <= fold_right (fun x a => F x + a) 0 l)%R by (apply IH; auto). lra. Qed.
Lemma rsum_zero {X} (l : list X) F : (forall x, In x l -> (0 <= F x)%R) -> rsum l F = 0%R -> forall x, In x l -> F x = 0%R.
Proof.
  unfold rsum, gsum. induction l as [|y l IH]; cbn; intros H E x Hx; [destruct Hx|]. pose proof (H y (or_introl eq_refl)). pose proof (rsum_nonneg l F (fun x K => H x (or_intror K))) as P. unfold rsum, gsum in P.
  destruct Hx as [<-|Hx]; [lra|]. apply IH; auto. lra.
Qed.
Lemma rsum_ext {X} (l : list X) F G : (forall x, In x l -> F x = G x) -> rsum l F = rsum l G.
Proof. apply gsum_ext. Qed.
Lemma Cmod_sq a : (Cmod a * Cmod a)%R = Cnorm2 a.
Proof. unfold Cmod. apply sqrt_sqrt. apply Cnorm2_nonneg. Qed.
Lemma Cmod_nonneg a : (0 <= Cmod a)%R. Proof. apply sqrt_pos. Qed.
Lemma re_conj_mul a : re (Cconj a * a) = Cnorm2 a.
Proof. destruct a. unfold Cnorm2. cbn. ring. Qed.

Section Cmp.
Variables s t : sv.
Hypothesis En : sv_n s = sv_n t.
Hypothesis Ns : normalised s.
Hypothesis Nt : normalised t.
Let N := range (2 ^ sv_n s).
Let ip : C := csum N (fun j => Cconj (sv_psi s j) * sv_psi t j).
Lemma fid_val : sv_fidelity s t = Ok (Cnorm2 ip).
Proof. unfold sv_fidelity, sv_dot. rewrite En, Nat.eqb_refl. cbn [rbind]. rewrite <- En. fold N ip. rewrite Cmod_sq. auto. Qed.
Lemma dist_val z : rsum N (fun j => Cnorm2 (sv_psi t j - z * sv_psi s j)) = (1 + Cnorm2 z - 2 * re (Cconj z * ip)%C)%R.
Proof. rewrite dist_expand. unfold N. rewrite Ns. rewrite En. rewrite Nt. rewrite <- En. fold N ip. ring. Qed.
Lemma fid_gap : rsum N (fun j => Cnorm2 (sv_psi t j - ip * sv_psi s j)) = (1 - Cnorm2 ip)%R.
Proof. rewrite dist_val, re_conj_mul. ring. Qed.
Lemma fid_range : (0 <= Cnorm2 ip <= 1)%R.
Proof. split; [apply Cnorm2_nonneg|]. pose proof fid_gap as G. pose proof (rsum_nonneg N (fun j => Cnorm2 (sv_psi t j - ip * sv_psi s j)) (fun j _ => Cnorm2_nonneg _)). lra. Qed.
Lemma fid_one : Cnorm2 ip = 1%R <-> exists z, phase z /\ forall j, (j < 2 ^ sv_n s)%nat -> sv_psi t j = z * sv_psi s j.
Proof.
  split.
  - intros H. exists ip. split; [exact H|]. intros j Hj. pose proof fid_gap as G. rewrite H in G. replace (1 - 1)%R with 0%R in G by ring.
    assert (K : Cnorm2 (sv_psi t j - ip * sv_psi s j) = 0%R). { apply (rsum_zero N (fun j => Cnorm2 (sv_psi t j - ip * sv_psi s j))); auto; [intros; apply Cnorm2_nonneg|apply in_seq; lia]. }
    apply Cnorm2_0 in K. transitivity (sv_psi t j - ip * sv_psi s j + ip * sv_psi s j); [ring|rewrite K; ring].
  - intros (z & Hz & E). assert (I : ip = z).
    { unfold ip. rewrite (csum_ext N _ (fun j => z * RtoC (Cnorm2 (sv_psi s j)))).
      - rewrite csum_mul. transitivity (z * RtoC (rsum N (fun j => Cnorm2 (sv_psi s j)))).
        + f_equal. clear. unfold csum, rsum, gsum. induction N as [|x l IH]; cbn [fold_right]; auto. rewrite IH, RtoC_add. auto.
        + unfold N. rewrite Ns. transitivity (z * C1); [reflexivity|ring].
      - intros j Hj. apply in_seq in Hj. rewrite E by lia. rewrite <- Cnorm2_mulconj. ring. }
    rewrite I. exact Hz.
Qed.
End Cmp.
