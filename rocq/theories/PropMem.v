(** Property theorems: the simulator stays inside its preallocated buffer, and the
    capacity of the buffer is not observable (C66). *)
From Coq Require Import Reals Lra Arith ZArith List Bool Lia Permutation FunctionalExtensionality.
From Verif Require Import Cplx Mat2 NSet Measure QState Layer Pattern Statevec Simulator.
Import ListNotations.
Local Open Scope nat_scope.

(** ** Model *)
(** the kernels of Statevec.v on a buffer of [L] entries: every read and every
    write is checked, [None] is an access outside the buffer (undefined behaviour in
    compiled code) *)
Notation "'get' x <- e ; f" := (match e with Some x => f | None => None end) (at level 200, x pattern, e at level 100, f at level 200).
Definition rd (L : nat) (psi : arr) (i : nat) : option C := if i <? L then Some (psi i) else None.
Definition wr (L : nat) (psi : arr) (i : nat) (c : C) : option arr := if i <? L then Some (aset psi i c) else None.
Definition ofor {A} (l : list nat) (body : nat -> A -> option A) (a : A) : option A :=
  fold_left (fun o i => match o with Some a => body i a | None => None end) l (Some a).
(** statevec.py:842-864 _tensor_jit *)
Definition c_tensor (L M : nat) (psi phi : arr) (n m : nat) : option arr :=
  let size_psi := 2 ^ n in let size_other := 2 ^ m in
  get st <- ofor (range size_psi) (fun i st =>
         get alpha_old <- rd L (fst st) (size_psi - 1 - i);
         ofor (range size_other) (fun j st =>
           get x <- rd M phi (size_other - 1 - j);
           get p <- wr L (fst st) (snd st) (Cmul alpha_old x); Some (p, snd st - 1)) st)
       (psi, size_psi * size_other - 1); Some (fst st).
(** statevec.py:867-887 _add_default_node_jit *)
Definition c_add_default (L : nat) (psi : arr) (n : nat) : option arr :=
  get st <- ofor (range (2 ^ n)) (fun i st =>
         get x <- rd L (fst st) (2 ^ n - 1 - i);
         let v := Cmul (RtoC (1 / sqrt 2)) x in
         get p <- wr L (fst st) (snd st) v; get p <- wr L p (snd st - 1) v; Some (p, snd st - 2))
       (psi, 2 ^ (n + 1) - 1); Some (fst st).
Definition c_pstep (L : nat) (g1 g2 : C -> C -> C) (psi : arr) (ij : nat * nat) : option arr :=
  get psi1 <- rd L psi (fst ij); get psi2 <- rd L psi (snd ij);
  get p <- wr L psi (fst ij) (g1 psi1 psi2); wr L p (snd ij) (g2 psi1 psi2).
(** statevec.py:890-912 _swap_jit *)
Definition c_swap (L : nat) (psi : arr) (n q1 q2 : nat) : option arr :=
  if q1 =? q2 then Some psi else
  let mask_1 := 2 ^ (n - 1 - q1) in
  let mask_2 := 2 ^ (n - 1 - q2) in
  let mask := Nat.lor mask_1 mask_2 in
  ofor (range (2 ^ n)) (fun i psi =>
    let b1 := negb (Nat.land i mask_1 =? 0) in
    let b2 := negb (Nat.land i mask_2 =? 0) in
    if negb (eqb b1 b2) then
      let j := Nat.lxor i mask in
      if i <? j then c_pstep L (fun x y => y) (fun x y => x) psi (i, j) else Some psi
    else Some psi) psi.
(** statevec.py:915-937 _entangle_jit *)
Definition c_entangle (L : nat) (order : list nat) (psi : arr) (n control target : nat) : option arr :=
  let mask := Nat.lor (2 ^ (n - 1 - control)) (2 ^ (n - 1 - target)) in
  ofor order (fun i psi => if Nat.land mask i =? mask then get x <- rd L psi i; wr L psi i (Copp x) else Some psi) psi.
(** statevec.py:945-954 _compute_op_psi *)
Definition c_op_psi (L : nat) (op : mat2) (psi : arr) (b0 j size_half_block : nat) : option arr :=
  c_pstep L (fun psi1 psi2 => m00 op * psi1 + m01 op * psi2)%C (fun psi1 psi2 => m10 op * psi1 + m11 op * psi2)%C psi (b0 + j, b0 + j + size_half_block).
(** statevec.py:956-986 _evolve_single_jit *)
Definition c_evolve (L : nat) (blocks halves : list nat) (psi : arr) (op : mat2) (n q : nat) : option arr :=
  let size_block := 2 ^ (n - q) in
  let size_half_block := size_block / 2 in
  ofor blocks (fun b psi => ofor halves (fun j psi => c_op_psi L op psi (size_block * b) j size_half_block) psi) psi.
(** statevec.py:995-1003 _compute_psic_op_psi, 1006-1040 _expectation_single_jit *)
Definition c_expectation (L : nat) (blocks halves : list nat) (psi : arr) (op : mat2) (n q : nat) : option C :=
  let size_block := 2 ^ (n - q) in
  let size_half_block := size_block / 2 in
  ofor blocks (fun b r => ofor halves (fun j r =>
    let i1 := size_block * b + j in
    get psi1 <- rd L psi i1; get psi2 <- rd L psi (i1 + size_half_block);
    Some (r + (Cconj psi1 * (m00 op * psi1 + m01 op * psi2) + Cconj psi2 * (m10 op * psi1 + m11 op * psi2)))%C) r) C0.
(** statevec.py:1045-1070 _compute_op_psi_a2 and 1073-1109 _evolve_single_and_compute_norm *)
Definition c_evolve_and_norm (L : nat) (blocks halves : list nat) (psi : arr) (op : mat2) (n q : nat) : option (arr * R * R) :=
  let size_block := 2 ^ (n - q) in
  let size_half_block := size_block / 2 in
  ofor blocks (fun b st => ofor halves (fun j st =>
    let '(psi, n0, n1) := st in
    get psi' <- c_op_psi L op psi (size_block * b) j size_half_block;
    let i1 := size_block * b + j in
    get a <- rd L psi' i1; get c <- rd L psi' (i1 + size_half_block);
    Some (psi', (n0 + Cnorm2 a)%R, (n1 + Cnorm2 c)%R)) st) (psi, 0%R, 0%R).
(** statevec.py:1112-1157 _scale_psi_kernel, _scale_psi *)
Definition c_scale (L : nat) (psi : arr) (n_blocks size_block size_half_block shift : nat) (inv_norm : R) : option arr :=
  get st <- ofor (range n_blocks) (fun b st => ofor (range size_half_block) (fun j st =>
         let '(psi, k) := st in
         get x <- rd L psi (shift + size_block * b + j);
         get p <- wr L psi k (Cmul x (RtoC inv_norm)); Some (p, S k)) st) (psi, 0); Some (fst st).
(** statevec.py:1160-1198 _project_qubit_jit; the inner [None] is RuntimeError *)
Definition c_project (L : nat) (blocks halves : list nat) (psi : arr) (op : mat2) (n q : nat) (atol : R) : option (option (arr * nat)) :=
  let n_blocks := 2 ^ q in
  let size_block := 2 ^ (n - q) in
  let size_half_block := size_block / 2 in
  get (psi, norm2_0, norm2_1) <- c_evolve_and_norm L blocks halves psi op n q;
  let '(shift, norm2) := if Rle_dec norm2_0 atol then (size_half_block, norm2_1) else (0, norm2_0) in
  if Rle_dec norm2 atol then Some None
  else get p <- c_scale L psi n_blocks size_block size_half_block shift (1 / sqrt norm2); Some (Some (p, n - 1)).

(** statevec.py:86-88 a Statevector: the buffer (its length and contents), the
    number of active qubits, the capacity *)
Record svb := SVB { b_len : nat; b_arr : arr; b_n : nat; b_max : nat }.
(** statevec.py:243-258 ensure_capacity; [np.empty] leaves arbitrary contents, the
    parameter [junk] *)
Definition ensure_capacity (junk : arr) (b : svb) (required : nat) : svb :=
  if b_max b <? required then SVB (2 ^ required) (fun i => if i <? b_len b then b_arr b i else junk i) (b_n b) required else b.
(** statevec.py:143-160 the constructor given a Statevector; no [nqubit] argument *)
Definition b_copy (junk : arr) (s : svb) (maxq : option nat) : res svb :=
  match maxq with
  | None => Ok s
  | Some mx =>
      if mx <? b_n s then Err EValue
      else if mx <? b_max s then Ok (SVB (Nat.min (2 ^ mx) (b_len s)) (b_arr s) (b_n s) mx)
      else Ok (ensure_capacity junk s mx)
  end.
(** statevec.py:162-222 the constructor given data; the array [psi] has the 2^n
    amplitudes *)
Definition b_make (close1 : R -> bool) (junk : arr) (d : data) (nqubit : nat) (maxq : option nat) : res svb :=
  do s <- sv_make close1 d nqubit;
  let mx := match maxq with Some mx => mx | None => sv_n s end in
  if mx <? sv_n s then Err EValue
  else Ok (ensure_capacity junk (SVB (2 ^ sv_n s) (sv_psi s) (sv_n s) (sv_n s)) mx).
(** statevec.py:294-297 add_nodes(1, PLUS) *)
Definition b_add_plus (junk : arr) (b : svb) : option svb :=
  let b := ensure_capacity junk b (b_n b + 1) in
  get p <- c_add_default (b_len b) (b_arr b) (b_n b); Some (SVB (b_len b) p (b_n b + 1) (b_max b)).
(** statevec.py:508-524 tensor; 298-300 add_nodes with other data *)
Definition b_tensor (junk : arr) (b o : svb) : option svb :=
  let b := ensure_capacity junk b (b_n b + b_n o) in
  get p <- c_tensor (b_len b) (2 ^ b_n o) (b_arr b) (b_arr o) (b_n b) (b_n o); Some (SVB (b_len b) p (b_n b + b_n o) (b_max b)).
(** statevec.py:302-316 entangle, after its bounds checks *)
Definition b_entangle (order : list nat) (b : svb) (u v : nat) : option svb :=
  get p <- c_entangle (b_len b) order (b_arr b) (b_n b) u v; Some (SVB (b_len b) p (b_n b) (b_max b)).
(** statevec.py:318-337 evolve_single, after its bounds check *)
Definition b_evolve_single (blocks halves : list nat) (b : svb) (op : mat2) (q : nat) : option svb :=
  get p <- c_evolve (b_len b) blocks halves (b_arr b) op (b_n b) q; Some (SVB (b_len b) p (b_n b) (b_max b)).
(** statevec.py:495-506 swap *)
Definition b_swap (b : svb) (u v : nat) : option svb :=
  get p <- c_swap (b_len b) (b_arr b) (b_n b) u v; Some (SVB (b_len b) p (b_n b) (b_max b)).
(** statevec.py:430-493 project_qubit, after its bounds check; the inner [None] is
    RuntimeError *)
Definition b_project (blocks halves : list nat) (b : svb) (op : mat2) (q : nat) (atol : R) : option (option svb) :=
  get r <- c_project (b_len b) blocks halves (b_arr b) op (b_n b) q atol;
  Some match r with Some (p, n) => Some (SVB (b_len b) p n (b_max b)) | None => None end.

(** ** Loops *)
Lemma rd_ok L psi i : i < L -> rd L psi i = Some (psi i).
Proof. intros H. unfold rd. apply Nat.ltb_lt in H. rewrite H. auto. Qed.
Lemma wr_ok L psi i c : i < L -> wr L psi i c = Some (aset psi i c).
Proof. intros H. unfold wr. apply Nat.ltb_lt in H. rewrite H. auto. Qed.
Lemma ofor_all {A} l (body' : nat -> A -> option A) body a : (forall i a, In i l -> body' i a = Some (body i a)) -> ofor l body' a = Some (for_ l body a).
Proof.
  unfold ofor, for_. revert a. induction l as [|i l IH]; intros a H; cbn [fold_left]; auto. rewrite (H i a (or_introl eq_refl)). apply IH. intros; apply H; right; auto.
Qed.
Lemma ofor_range {A} n (body' : nat -> A -> option A) body (Inv : nat -> A -> Prop) a : Inv 0 a ->
  (forall i a, i < n -> Inv i a -> body' i a = Some (body i a) /\ Inv (S i) (body i a)) ->
  ofor (range n) body' a = Some (for_ (range n) body a) /\ Inv n (for_ (range n) body a).
Proof.
  intros H0 HS. induction n as [|n IH]; [split; auto|].
  destruct IH as [E I]; [intros; apply HS; auto|]. rewrite range_S, for_app. unfold ofor in *. rewrite fold_left_app, E. cbn [fold_left].
  change (for_ [n] body (for_ (range n) body a)) with (body n (for_ (range n) body a)). apply HS; auto.
Qed.
Lemma pstep_ok L g1 g2 psi i j : i < L -> j < L -> c_pstep L g1 g2 psi (i, j) = Some (pstep g1 g2 psi (i, j)).
Proof. intros Hi Hj. unfold c_pstep, pstep. cbn [fst snd]. rewrite !rd_ok, wr_ok by auto. apply wr_ok; auto. Qed.
Lemma block_lt n q b j : q < n -> b < 2 ^ q -> j < 2 ^ (n - q - 1) -> 2 ^ (n - q) * b + j + 2 ^ (n - q) / 2 < 2 ^ n.
Proof.
  intros Hq Hb Hj. destruct (half_block n q Hq) as [-> E]. replace n with (q + (n - q)) at 3 by lia. rewrite Nat.pow_add_r, E.
  generalize dependent (2 ^ (n - q - 1)). intros h Hj _. revert Hb. generalize (2 ^ q). intros B Hb. nia.
Qed.
Lemma lt_pow2_bits x n : x < 2 ^ n <-> forall k, n <= k -> Nat.testbit x k = false.
Proof.
  split.
  - intros H k Hk. rewrite <- (idx_bits n x H), testbit_idx. rewrite (proj2 (Nat.ltb_ge k n)) by auto. auto.
  - intros H. assert (E : x = x mod 2 ^ n).
    { apply Nat.bits_inj. intros k. destruct (Nat.lt_ge_cases k n); [rewrite Nat.mod_pow2_bits_low; auto|rewrite Nat.mod_pow2_bits_high, H; auto]. }
    rewrite E. apply Nat.mod_upper_bound. apply Nat.pow_nonzero. lia.
Qed.

(** ** The kernels stay inside the buffer *)
(** on a buffer of at least 2^n entries (with n the number of qubits after the
    operation) and valid qubit indices, no kernel reads or writes outside, in any
    order of the parallel iterations, and the result is that of the kernel model used
    everywhere else *)
Theorem C66_tensor_in_bounds L M psi phi n m : 2 ^ (n + m) <= L -> 2 ^ m <= M -> c_tensor L M psi phi n m = Some (tensor_jit psi phi n m).
Proof.
  intros HL HM. unfold c_tensor, tensor_jit. cbv zeta. rewrite Nat.pow_add_r in HL. pose proof (pow2_pos n) as P1. pose proof (pow2_pos m) as P2.
  revert HL HM P1 P2. generalize (2 ^ n) (2 ^ m). intros S_ T HL HM P1 P2.
  match goal with |- (get st <- ofor _ ?b' ?a; _) = Some (fst (for_ _ ?b _)) =>
    destruct (ofor_range S_ b' b (fun i st => snd st = (S_ - i) * T - 1) a) as [E _]; [cbn [snd]; f_equal; nia| |rewrite E; auto] end.
  intros i st Hi Inv. rewrite rd_ok by nia.
  match goal with |- ofor _ ?b' ?a = Some (for_ _ ?b _) /\ _ =>
    destruct (ofor_range T b' b (fun j st => snd st = (S_ - i) * T - 1 - j) a) as [E J]; [rewrite Inv; lia| |split; [exact E|rewrite J; nia]] end.
  intros j [p k] Hj Ik. cbn [fst snd] in *. rewrite rd_ok by lia. rewrite wr_ok by nia. split; [auto|lia].
Qed.
Print Assumptions C66_tensor_in_bounds.
Theorem C66_add_default_in_bounds L psi n : 2 ^ (n + 1) <= L -> c_add_default L psi n = Some (add_default_node_jit psi n).
Proof.
  intros HL. unfold c_add_default, add_default_node_jit. cbv zeta. rewrite Nat.pow_add_r in *. change (2 ^ 1) with 2 in *. pose proof (pow2_pos n) as P.
  revert HL P. generalize (2 ^ n). intros S_ HL P.
  match goal with |- (get st <- ofor _ ?b' ?a; _) = Some (fst (for_ _ ?b _)) =>
    destruct (ofor_range S_ b' b (fun i st => snd st = S_ * 2 - 1 - 2 * i) a) as [E _]; [cbn [snd]; lia| |rewrite E; auto] end.
  intros i [p k] Hi Inv. cbn [fst snd] in *. rewrite rd_ok by lia. rewrite wr_ok by lia. rewrite wr_ok by lia. split; [auto|lia].
Qed.
Print Assumptions C66_add_default_in_bounds.
Theorem C66_swap_in_bounds L psi n u v : u < n -> v < n -> 2 ^ n <= L -> c_swap L psi n u v = Some (swap_jit psi n u v).
Proof.
  intros Hu Hv HL. unfold c_swap, swap_jit. destruct (u =? v); auto. cbv zeta. apply ofor_all. intros i p Hi. apply (sched_In _ _ _ (sched_range _)) in Hi.
  destruct (negb (eqb _ _)); auto. destruct (i <? _); auto. apply pstep_ok; [lia|]. eapply Nat.lt_le_trans; [|exact HL].
  apply lt_pow2_bits. intros k Hk. rewrite Nat.lxor_spec, Nat.lor_spec, !Nat.pow2_bits_eqb. rewrite (proj1 (lt_pow2_bits i n) Hi k Hk).
  destruct (Nat.eqb_spec (n - 1 - u) k); [lia|]. destruct (Nat.eqb_spec (n - 1 - v) k); [lia|]. auto.
Qed.
Print Assumptions C66_swap_in_bounds.
Theorem C66_entangle_in_bounds L order psi n u v : sched order (2 ^ n) -> 2 ^ n <= L -> c_entangle L order psi n u v = Some (entangle_jit order psi n u v).
Proof.
  intros HO HL. unfold c_entangle, entangle_jit. cbv zeta. apply ofor_all. intros i p Hi. apply (sched_In _ _ _ HO) in Hi.
  destruct (_ =? _); auto. rewrite rd_ok by lia. apply wr_ok. lia.
Qed.
Print Assumptions C66_entangle_in_bounds.
Theorem C66_evolve_in_bounds L blocks halves psi op n q : q < n -> sched blocks (2 ^ q) -> sched halves (2 ^ (n - q - 1)) -> 2 ^ n <= L ->
  c_evolve L blocks halves psi op n q = Some (evolve_single_jit blocks halves psi op n q) /\
  c_expectation L blocks halves psi op n q = Some (expectation_single_jit blocks halves psi op n q).
Proof.
  intros Hq HB HH HL. split.
  - unfold c_evolve, evolve_single_jit. cbv zeta. apply ofor_all. intros b p Hb. apply ofor_all. intros j p' Hj. apply (sched_In _ _ _ HB) in Hb. apply (sched_In _ _ _ HH) in Hj.
    pose proof (block_lt n q b j Hq Hb Hj). unfold c_op_psi, compute_op_psi. apply pstep_ok; lia.
  - unfold c_expectation, expectation_single_jit. cbv zeta. apply ofor_all. intros b p Hb. apply ofor_all. intros j p' Hj. apply (sched_In _ _ _ HB) in Hb. apply (sched_In _ _ _ HH) in Hj.
    pose proof (block_lt n q b j Hq Hb Hj). rewrite !rd_ok by lia. auto.
Qed.
Print Assumptions C66_evolve_in_bounds.
Lemma evolve_and_norm_in_bounds L blocks halves psi op n q : q < n -> sched blocks (2 ^ q) -> sched halves (2 ^ (n - q - 1)) -> 2 ^ n <= L ->
  c_evolve_and_norm L blocks halves psi op n q = Some (evolve_and_norm blocks halves psi op n q).
Proof.
  intros Hq HB HH HL. unfold c_evolve_and_norm, evolve_and_norm. cbv zeta. apply ofor_all. intros b p Hb. apply ofor_all. intros j [[p' r0] r1] Hj. apply (sched_In _ _ _ HB) in Hb. apply (sched_In _ _ _ HH) in Hj.
  pose proof (block_lt n q b j Hq Hb Hj). unfold c_op_psi, compute_op_psi. rewrite pstep_ok by lia. rewrite !rd_ok by lia. auto.
Qed.
Lemma scale_in_bounds L psi n q shift inv : q < n -> shift = 0 \/ shift = 2 ^ (n - q) / 2 -> 2 ^ n <= L ->
  c_scale L psi (2 ^ q) (2 ^ (n - q)) (2 ^ (n - q) / 2) shift inv = Some (scale_psi psi (2 ^ q) (2 ^ (n - q)) (2 ^ (n - q) / 2) shift inv).
Proof.
  intros Hq HS HL. destruct (half_block n q Hq) as [E1 E2].
  assert (EL : 2 ^ q * (2 * (2 ^ (n - q) / 2)) <= L). { rewrite E1, <- E2, <- Nat.pow_add_r. replace (q + (n - q)) with n by lia. auto. }
  assert (E3 : 2 ^ (n - q) = 2 * (2 ^ (n - q) / 2)) by congruence. clear E1 E2.
  remember (2 ^ (n - q) / 2) as h eqn:Eh. clear Eh. rewrite !E3. revert HS EL. clear. generalize (2 ^ q). intros B HS EL. unfold c_scale, scale_psi.
  match goal with |- (get st <- ofor _ ?b' ?a; _) = Some (fst (for_ _ ?b _)) =>
    destruct (ofor_range B b' b (fun i st => snd st = i * h) a) as [E _]; [reflexivity| |rewrite E; auto] end.
  intros b st Hb Inv.
  match goal with |- ofor _ ?b' ?a = Some (for_ _ ?b0 _) /\ _ =>
    destruct (ofor_range h b' b0 (fun j st => snd st = b * h + j) a) as [E J]; [lia| |split; [exact E|rewrite J; lia]] end.
  intros j [p k] Hj Ik. cbn [snd] in Ik. subst k. rewrite rd_ok by nia. rewrite wr_ok by nia. split; [auto|cbn [snd]; lia].
Qed.
Theorem C66_project_in_bounds L blocks halves psi op n q atol : q < n -> sched blocks (2 ^ q) -> sched halves (2 ^ (n - q - 1)) -> 2 ^ n <= L ->
  c_project L blocks halves psi op n q atol = Some (project_qubit_jit blocks halves psi op n q atol).
Proof.
  intros Hq HB HH HL. unfold c_project, project_qubit_jit. cbv zeta. rewrite evolve_and_norm_in_bounds by auto. destruct (evolve_and_norm _ _ _ _ _ _) as [[p r0] r1].
  destruct (Rle_dec r0 atol); destruct (Rle_dec _ atol); auto; rewrite scale_in_bounds; auto.
Qed.
Print Assumptions C66_project_in_bounds.

(** ** The capacity is not observable *)
(** the buffer has the size of the capacity and the active qubits fit *)
Definition b_ok (b : svb) : Prop := b_len b = 2 ^ b_max b /\ b_n b <= b_max b.
(** the observable part of the buffer: the first 2^n entries *)
Definition holds (b : svb) (s : sv) : Prop := b_n b = sv_n s /\ forall i, i < 2 ^ sv_n s -> b_arr b i = sv_psi s i.
Lemma rep_holds n psi phi : rep n psi = rep n phi <-> forall i, i < 2 ^ n -> psi i = phi i.
Proof.
  split.
  - intros H i Hi. pose proof (f_equal (fun r => r (bits n i)) H) as K. unfold rep in K. rewrite idx_bits in K by auto. auto.
  - intros H. apply functional_extensionality. intros f. apply H, idx_lt.
Qed.
Lemma pow_le n m : n <= m -> 2 ^ n <= 2 ^ m.
Proof. intros H. apply Nat.pow_le_mono_r; lia. Qed.
Theorem C66_ensure_capacity junk b r s : b_ok b -> holds b s ->
  let b' := ensure_capacity junk b r in b_ok b' /\ holds b' s /\ b_max b' = Nat.max (b_max b) r /\ (r <= b_max b -> b' = b).
Proof.
  intros [L N] [E H]. cbv zeta. unfold ensure_capacity. destruct (Nat.ltb_spec (b_max b) r) as [K|K].
  - unfold b_ok, holds. cbn [b_len b_arr b_n b_max]. split; [lia|]. split; [split; auto|split; lia]. intros i Hi. assert (P : 2 ^ sv_n s <= b_len b) by (rewrite L; apply pow_le; lia).
    rewrite (proj2 (Nat.ltb_lt _ _)) by lia. auto.
  - split; [split; auto|]. split; [split; auto|]. split; auto. lia.
Qed.
Print Assumptions C66_ensure_capacity.
(** the constructor: a capacity below the number of qubits is a ValueError, any other
    gives the same state *)
Theorem C66_constructor close1 junk d nqubit maxq :
  match sv_make close1 d nqubit with
  | Err e => b_make close1 junk d nqubit maxq = Err e
  | Ok s => (exists mx, maxq = Some mx /\ mx < sv_n s /\ b_make close1 junk d nqubit maxq = Err EValue) \/
      (exists b, b_make close1 junk d nqubit maxq = Ok b /\ b_ok b /\ holds b s /\
         match maxq with Some mx => sv_n s <= mx /\ b_max b = mx | None => b_max b = sv_n s end)
  end.
Proof.
  unfold b_make. destruct (sv_make close1 d nqubit) as [s|e]; cbn [rbind]; auto.
  destruct (Nat.ltb_spec (match maxq with Some mx => mx | None => sv_n s end) (sv_n s)) as [K|K].
  - destruct maxq as [mx|]; [left; eauto|lia].
  - right. eexists. split; [reflexivity|].
    destruct (C66_ensure_capacity junk (SVB (2 ^ sv_n s) (sv_psi s) (sv_n s) (sv_n s)) (match maxq with Some mx => mx | None => sv_n s end) s) as (A & B & D & _); [split; cbn; auto|split; cbn; auto|].
    split; auto. split; auto. cbn [b_max] in D. destruct maxq; lia.
Qed.
Print Assumptions C66_constructor.
(** copying, with a larger or a smaller capacity: ValueError exactly when the state
    does not fit, otherwise the same state with the capacity asked for *)
Theorem C66_copy junk b maxq s : b_ok b -> holds b s ->
  match b_copy junk b maxq with
  | Ok c => b_ok c /\ holds c s /\ match maxq with Some mx => sv_n s <= mx /\ b_max c = mx | None => b_max c = b_max b end
  | Err e => e = EValue /\ exists mx, maxq = Some mx /\ mx < sv_n s
  end.
Proof.
  intros B [E H]. pose proof B as [L N]. unfold b_copy. destruct maxq as [mx|]; [|split; auto; split; [split|]; auto].
  destruct (Nat.ltb_spec mx (b_n b)) as [K|K]; [split; auto; exists mx; split; auto; lia|].
  destruct (Nat.ltb_spec mx (b_max b)) as [K2|K2].
  - split; [split; cbn; auto; pose proof (pow_le mx (b_max b)); lia|]. split; [split; auto|]. split; cbn; lia.
  - destruct (C66_ensure_capacity junk b mx s B) as (A & C & D & _); [split; auto|]. split; auto. split; auto. lia.
Qed.
Print Assumptions C66_copy.
(** every method, whatever the capacity and whatever the unused part of the buffer
    contains: no access outside the buffer, the invariant is kept, and the state is the
    one of the model with unbounded arrays; the capacity grows only as needed *)
Theorem C66_add_plus junk b s : b_ok b -> holds b s -> exists b', b_add_plus junk b = Some b' /\ b_ok b' /\
  holds b' (SV (add_default_node_jit (sv_psi s) (sv_n s)) (S (sv_n s))) /\ b_max b' = Nat.max (b_max b) (S (sv_n s)).
Proof.
  intros B H. destruct (C66_ensure_capacity junk b (b_n b + 1) s B H) as (A & [C1 C2] & D & _). unfold b_add_plus. set (c := ensure_capacity junk b (b_n b + 1)) in *.
  destruct H as [E H]. assert (N : b_n c + 1 <= b_max c) by lia. rewrite C66_add_default_in_bounds by (rewrite (proj1 A); apply pow_le; auto).
  eexists. split; [reflexivity|]. unfold b_ok, holds. cbn [b_len b_arr b_n b_max sv_n sv_psi]. split; [split; [apply A|lia]|]. split; [|lia]. split; [lia|].
  apply rep_holds. rewrite C1. rewrite !add_default_rep. f_equal. apply rep_holds. auto.
Qed.
Print Assumptions C66_add_plus.
Theorem C66_tensor junk b o s t : b_ok b -> holds b s -> holds o t -> exists b', b_tensor junk b o = Some b' /\ b_ok b' /\
  holds b' (SV (tensor_jit (sv_psi s) (sv_psi t) (sv_n s) (sv_n t)) (sv_n s + sv_n t)) /\ b_max b' = Nat.max (b_max b) (sv_n s + sv_n t).
Proof.
  intros B H [T1 T2]. destruct (C66_ensure_capacity junk b (b_n b + b_n o) s B H) as (A & [C1 C2] & D & _). unfold b_tensor. set (c := ensure_capacity junk b (b_n b + b_n o)) in *.
  destruct H as [E H]. assert (N : b_n c + b_n o <= b_max c) by lia. rewrite C66_tensor_in_bounds by (auto; rewrite (proj1 A); apply pow_le; auto).
  eexists. split; [reflexivity|]. unfold b_ok, holds. cbn [b_len b_arr b_n b_max sv_n sv_psi]. split; [split; [apply A|lia]|]. split; [|lia]. split; [lia|].
  apply rep_holds. rewrite C1, T1, !tensor_rep. apply rep_holds in C2, T2. rewrite C2, T2. auto.
Qed.
Print Assumptions C66_tensor.
Theorem C66_methods b s : b_ok b -> holds b s ->
  (forall order u v, u < sv_n s -> v < sv_n s -> sched order (2 ^ sv_n s) -> exists b', b_entangle order b u v = Some b' /\ b_ok b' /\
     holds b' (SV (entangle_jit order (sv_psi s) (sv_n s) u v) (sv_n s)) /\ b_max b' = b_max b) /\
  (forall u v, u < sv_n s -> v < sv_n s -> exists b', b_swap b u v = Some b' /\ b_ok b' /\
     holds b' (SV (swap_jit (sv_psi s) (sv_n s) u v) (sv_n s)) /\ b_max b' = b_max b) /\
  (forall blocks halves op q, q < sv_n s -> sched blocks (2 ^ q) -> sched halves (2 ^ (sv_n s - q - 1)) -> 
     (exists b', b_evolve_single blocks halves b op q = Some b' /\ b_ok b' /\
       holds b' (SV (evolve_single_jit blocks halves (sv_psi s) op (sv_n s) q) (sv_n s)) /\ b_max b' = b_max b) /\
     c_expectation (b_len b) blocks halves (b_arr b) op (b_n b) q = Some (expectation_single_jit blocks halves (sv_psi s) op (sv_n s) q) /\
     forall atol, exists r, b_project blocks halves b op q atol = Some r /\
       match r, project_qubit_jit blocks halves (sv_psi s) op (sv_n s) q atol with
       | Some b', Some (psi, n') => b_ok b' /\ holds b' (SV psi n') /\ b_max b' = b_max b
       | None, None => True
       | _, _ => False
       end).
Proof.
  intros [L N] [E H]. assert (P : 2 ^ sv_n s <= b_len b) by (rewrite L; apply pow_le; lia). apply rep_holds in H. split; [|split].
  - intros order u v Hu Hv HO. unfold b_entangle. rewrite E, C66_entangle_in_bounds by auto. eexists. split; [reflexivity|]. unfold b_ok, holds. cbn [b_len b_arr b_n b_max sv_n sv_psi].
    split; [split; lia|]. split; auto. split; auto. apply rep_holds. rewrite !entangle_rep by auto. rewrite H. auto.
  - intros u v Hu Hv. unfold b_swap. rewrite E, C66_swap_in_bounds by auto. eexists. split; [reflexivity|]. unfold b_ok, holds. cbn [b_len b_arr b_n b_max sv_n sv_psi].
    split; [split; lia|]. split; auto. split; auto. apply rep_holds. rewrite !swap_rep by auto. rewrite H. auto.
  - intros blocks halves op q Hq HB HH. destruct (C66_evolve_in_bounds (b_len b) blocks halves (b_arr b) op (sv_n s) q Hq HB HH P) as [X Y]. split; [|split].
    + unfold b_evolve_single. rewrite E, X. eexists. split; [reflexivity|]. unfold b_ok, holds. cbn [b_len b_arr b_n b_max sv_n sv_psi].
      split; [split; lia|]. split; auto. split; auto. apply rep_holds. rewrite !evolve_single_rep by auto. rewrite H. auto.
    + rewrite E, Y. f_equal. rewrite !expectation_rep by auto. rewrite H. auto.
    + intros atol. unfold b_project. rewrite E, C66_project_in_bounds by auto. eexists. split; [reflexivity|].
      unfold project_qubit_jit. cbv zeta. rewrite !evolve_and_norm_spec by auto. rewrite H. set (n0 := sqnorm _ _). set (n1 := sqnorm _ _).
      assert (V : rep (sv_n s) (evolve_single_jit blocks halves (b_arr b) op (sv_n s) q) = rep (sv_n s) (evolve_single_jit blocks halves (sv_psi s) op (sv_n s) q)).
      { rewrite !evolve_single_rep by auto. rewrite H. auto. }
      assert (W : forall (sb : bool) inv, rep (sv_n s - 1) (scale_psi (evolve_single_jit blocks halves (b_arr b) op (sv_n s) q) (2 ^ q) (2 ^ (sv_n s - q)) (2 ^ (sv_n s - q) / 2) (if sb then 2 ^ (sv_n s - q) / 2 else 0) inv)
         = rep (sv_n s - 1) (scale_psi (evolve_single_jit blocks halves (sv_psi s) op (sv_n s) q) (2 ^ q) (2 ^ (sv_n s - q)) (2 ^ (sv_n s - q) / 2) (if sb then 2 ^ (sv_n s - q) / 2 else 0) inv)).
      { intros sb inv. rewrite !scale_rep by auto. rewrite V. auto. }
      destruct (Rle_dec n0 atol); (destruct (Rle_dec _ atol); auto); unfold b_ok, holds; cbn [b_len b_arr b_n b_max sv_n sv_psi]; (split; [split; lia|]; split; auto; split; auto); apply rep_holds.
      * apply (W true).
      * apply (W false).
Qed.
Print Assumptions C66_methods.

(** a history of method calls; each call may find its own junk in a new buffer *)
Inductive call :=
| MCap (junk : arr) (r : nat)
| MAdd (junk : arr)
| MTensor (junk : arr) (o : svb)
| MEntangle (order : list nat) (u v : nat)
| MSwap (u v : nat)
| MEvolve (blocks halves : list nat) (op : mat2) (q : nat)
| MProject (blocks halves : list nat) (op : mat2) (q : nat) (atol : R).
(** in the buffer: [None] out of bounds, [Some None] RuntimeError *)
Definition b_call (c : call) (b : svb) : option (option svb) :=
  let ok o := match o with Some b' => Some (Some b') | None => None end in
  match c with
  | MCap junk r => Some (Some (ensure_capacity junk b r))
  | MAdd junk => ok (b_add_plus junk b)
  | MTensor junk o => ok (b_tensor junk b o)
  | MEntangle order u v => ok (b_entangle order b u v)
  | MSwap u v => ok (b_swap b u v)
  | MEvolve blocks halves op q => ok (b_evolve_single blocks halves b op q)
  | MProject blocks halves op q atol => b_project blocks halves b op q atol
  end.
(** with unbounded arrays, as in Statevec.v and Simulator.v *)
Definition s_call (c : call) (s : sv) : option sv :=
  match c with
  | MCap _ _ => Some s
  | MAdd _ => Some (SV (add_default_node_jit (sv_psi s) (sv_n s)) (S (sv_n s)))
  | MTensor _ o => Some (SV (tensor_jit (sv_psi s) (b_arr o) (sv_n s) (b_n o)) (sv_n s + b_n o))
  | MEntangle order u v => Some (SV (entangle_jit order (sv_psi s) (sv_n s) u v) (sv_n s))
  | MSwap u v => Some (SV (swap_jit (sv_psi s) (sv_n s) u v) (sv_n s))
  | MEvolve blocks halves op q => Some (SV (evolve_single_jit blocks halves (sv_psi s) op (sv_n s) q) (sv_n s))
  | MProject blocks halves op q atol => match project_qubit_jit blocks halves (sv_psi s) op (sv_n s) q atol with Some (p, n) => Some (SV p n) | None => None end
  end.
(** the bounds checks at the head of the methods, on the number of active qubits *)
Definition valid (c : call) (n : nat) : Prop :=
  match c with
  | MCap _ _ | MAdd _ | MTensor _ _ => True
  | MEntangle order u v => u < n /\ v < n /\ sched order (2 ^ n)
  | MSwap u v => u < n /\ v < n
  | MEvolve blocks halves _ q | MProject blocks halves _ q _ => q < n /\ sched blocks (2 ^ q) /\ sched halves (2 ^ (n - q - 1))
  end.
(** the number of qubits and the capacity that a call needs *)
Definition qubits (c : call) (n : nat) : nat :=
  match c with MAdd _ => S n | MTensor _ o => n + b_n o | MProject _ _ _ _ _ => n - 1 | _ => n end.
Definition needs (c : call) (n : nat) : nat :=
  match c with MCap _ r => r | MAdd _ => S n | MTensor _ o => n + b_n o | _ => 0 end.
Fixpoint valid_all (l : list call) (n : nat) : Prop := match l with [] => True | c :: l => valid c n /\ valid_all l (qubits c n) end.
Fixpoint peak (l : list call) (n : nat) : nat := match l with [] => 0 | c :: l => Nat.max (needs c n) (peak l (qubits c n)) end.
Fixpoint b_run (l : list call) (b : svb) : option (option svb) :=
  match l with [] => Some (Some b) | c :: l => match b_call c b with Some (Some b') => b_run l b' | r => r end end.
Fixpoint s_run (l : list call) (s : sv) : option sv := match l with [] => Some s | c :: l => match s_call c s with Some s' => s_run l s' | None => None end end.
Lemma project_n blocks halves psi op n q atol p n' : project_qubit_jit blocks halves psi op n q atol = Some (p, n') -> n' = n - 1.
Proof.
  unfold project_qubit_jit. cbv zeta. destruct (evolve_and_norm _ _ _ _ _ _) as [[p0 r0] r1]. destruct (Rle_dec r0 atol); destruct (Rle_dec _ atol); intros E; inversion E; auto.
Qed.
Lemma call_ok c b s : b_ok b -> holds b s -> valid c (sv_n s) ->
  match b_call c b, s_call c s with
  | Some (Some b'), Some s' => b_ok b' /\ holds b' s' /\ sv_n s' = qubits c (sv_n s) /\ b_max b' = Nat.max (b_max b) (needs c (sv_n s))
  | Some None, None => True
  | _, _ => False
  end.
Proof.
  intros B H V. destruct (C66_methods b s B H) as (M1 & M2 & M3). destruct c; cbn [b_call s_call qubits needs valid] in *.
  - destruct (C66_ensure_capacity junk b r s B H) as (A & A2 & A3 & _). auto.
  - destruct (C66_add_plus junk b s B H) as (b' & -> & A & A2 & A3). auto.
  - destruct (C66_tensor junk b o s (SV (b_arr o) (b_n o)) B H) as (b' & -> & A & A2 & A3); [split; auto|]. auto.
  - destruct V as (V1 & V2 & V3). destruct (M1 order u v V1 V2 V3) as (b' & -> & A & A2 & A3). rewrite Nat.max_0_r. auto.
  - destruct V as (V1 & V2). destruct (M2 u v V1 V2) as (b' & -> & A & A2 & A3). rewrite Nat.max_0_r. auto.
  - destruct V as (V1 & V2 & V3). destruct (M3 blocks halves op q V1 V2 V3) as ((b' & -> & A & A2 & A3) & _). rewrite Nat.max_0_r. auto.
  - destruct V as (V1 & V2 & V3). destruct (M3 blocks halves op q V1 V2 V3) as (_ & _ & M). destruct (M atol) as (r & -> & K). rewrite Nat.max_0_r.
    destruct r as [b'|]; destruct (project_qubit_jit _ _ _ _ _ _ _) as [[p n']|] eqn:E; auto. apply project_n in E. destruct K as (K1 & K2 & K3). auto.
Qed.
(** along every history of valid calls: never outside the buffer, and the state (or the
    RuntimeError) is that of the unbounded model; in particular it depends neither on the
    initial capacity nor on the junk; the capacity is the maximum of the initial one and
    of what the calls required *)
Theorem C66_history l b s : b_ok b -> holds b s -> valid_all l (sv_n s) ->
  match b_run l b, s_run l s with
  | Some (Some b'), Some s' => b_ok b' /\ holds b' s' /\ b_max b' = Nat.max (b_max b) (peak l (sv_n s))
  | Some None, None => True
  | _, _ => False
  end.
Proof.
  revert b s. induction l as [|c l IH]; intros b s B H V; cbn [b_run s_run valid_all peak] in *; [rewrite Nat.max_0_r; auto|].
  destruct V as [V1 V2]. pose proof (call_ok c b s B H V1) as K. destruct (b_call c b) as [[b'|]|]; destruct (s_call c s) as [s'|]; try contradiction; auto.
  destruct K as (K1 & K2 & K3 & K4). rewrite <- K3 in V2. specialize (IH b' s' K1 K2 V2). destruct (b_run l b') as [[b2|]|]; destruct (s_run l s') as [s2|]; auto.
  rewrite <- K3. intuition lia.
Qed.
Print Assumptions C66_history.
(** with a sufficient preallocation the buffer is never reallocated *)
Theorem C66_no_reallocation l b s b' : b_ok b -> holds b s -> valid_all l (sv_n s) -> peak l (sv_n s) <= b_max b -> b_run l b = Some (Some b') ->
  b_max b' = b_max b /\ b_len b' = b_len b.
Proof.
  intros B H V P E. pose proof (C66_history l b s B H V) as K. rewrite E in K. destruct (s_run l s); [|contradiction]. destruct K as (K1 & _ & K3).
  assert (M : b_max b' = b_max b) by lia. split; auto. rewrite (proj1 K1), (proj1 B), M. auto.
Qed.
Print Assumptions C66_no_reallocation.

(** the index checks are needed: [swap] has none (statevec.py:495-506), and a negative
    index, as accepted by Python sequences, makes the kernel access the buffer outside;
    statevec.py:890-912 with signed indices, the shifts being exact *)
Definition c_swapZ (L : nat) (psi : arr) (n : nat) (q1 q2 : Z) : option arr :=
  if Z.eqb q1 q2 then Some psi else
  let mask_1 := 2 ^ Z.to_nat (Z.of_nat n - 1 - q1) in
  let mask_2 := 2 ^ Z.to_nat (Z.of_nat n - 1 - q2) in
  let mask := Nat.lor mask_1 mask_2 in
  ofor (range (2 ^ n)) (fun i psi =>
    let b1 := negb (Nat.land i mask_1 =? 0) in
    let b2 := negb (Nat.land i mask_2 =? 0) in
    if negb (eqb b1 b2) then
      let j := Nat.lxor i mask in
      if i <? j then c_pstep L (fun x y => y) (fun x y => x) psi (i, j) else Some psi
    else Some psi) psi.
Lemma ofor_none {A} l (body : nat -> A -> option A) a i : In i l -> (forall p, body i p = None) -> ofor l body a = None.
Proof.
  unfold ofor. intros Hi Hb.
  assert (N : forall l', fold_left (fun o i => match o with Some a => body i a | None => None end) l' None = None) by (induction l'; auto).
  generalize (Some a). induction l as [|k l IH]; intros o; [contradiction|]. cbn [fold_left]. destruct Hi as [->|Hi]; [|auto].
  destruct o; [rewrite Hb|]; apply N.
Qed.
Theorem C66_swap_signed L psi n :
  (forall u v, u < n -> v < n -> c_swapZ L psi n (Z.of_nat u) (Z.of_nat v) = c_swap L psi n u v).
Proof.
  intros u v Hu Hv. unfold c_swapZ, c_swap. replace (Z.eqb (Z.of_nat u) (Z.of_nat v)) with (u =? v).
  - replace (Z.to_nat (Z.of_nat n - 1 - Z.of_nat u)) with (n - 1 - u) by lia. replace (Z.to_nat (Z.of_nat n - 1 - Z.of_nat v)) with (n - 1 - v) by lia. auto.
  - destruct (Nat.eqb_spec u v); symmetry; [apply Z.eqb_eq|apply Z.eqb_neq]; lia.
Qed.
Print Assumptions C66_swap_signed.
Theorem C66_swap_unchecked_refuted L psi n u v : u < n -> (v < 0)%Z -> L <= 2 ^ Z.to_nat (Z.of_nat n - 1 - v) -> c_swapZ L psi n (Z.of_nat u) v = None.
Proof.
  intros Hu Hv HL. unfold c_swapZ. destruct (Z.eqb_spec (Z.of_nat u) v) as [X|_]; [lia|]. cbv zeta.
  replace (Z.to_nat (Z.of_nat n - 1 - Z.of_nat u)) with (n - 1 - u) by lia. remember (Z.to_nat (Z.of_nat n - 1 - v)) as k eqn:Ek. assert (K : n <= k) by lia. clear Ek.
  assert (P : 2 ^ (n - 1 - u) < 2 ^ n) by (apply Nat.pow_lt_mono_r; lia). assert (P2 : 2 ^ n <= 2 ^ k) by (apply pow_le; auto).
  apply (ofor_none _ _ _ (2 ^ (n - 1 - u))); [apply (sched_In _ _ _ (sched_range _)); auto|]. intros p.
  rewrite Nat.land_diag. pose proof (pow2_pos (n - 1 - u)) as Q. rewrite (proj2 (Nat.eqb_neq (2 ^ (n - 1 - u)) 0)) by lia.
  assert (E : Nat.land (2 ^ (n - 1 - u)) (2 ^ k) = 0).
  { apply Nat.bits_inj. intros m. rewrite Nat.land_spec, !Nat.pow2_bits_eqb, Nat.bits_0. destruct (Nat.eqb_spec (n - 1 - u) m); destruct (Nat.eqb_spec k m); auto; lia. }
  rewrite E. cbn [Nat.eqb negb eqb].
  assert (E2 : Nat.lxor (2 ^ (n - 1 - u)) (Nat.lor (2 ^ (n - 1 - u)) (2 ^ k)) = 2 ^ k).
  { apply Nat.bits_inj. intros m. rewrite Nat.lxor_spec, Nat.lor_spec, !Nat.pow2_bits_eqb. destruct (Nat.eqb_spec (n - 1 - u) m); destruct (Nat.eqb_spec k m); auto; lia. }
  rewrite E2, (proj2 (Nat.ltb_lt (2 ^ (n - 1 - u)) (2 ^ k))) by lia. unfold c_pstep, rd. cbn [fst snd]. rewrite (proj2 (Nat.ltb_ge (2 ^ k) L)) by lia. destruct (_ <? _); auto.
Qed.
Print Assumptions C66_swap_unchecked_refuted.
(** in contrast [entangle] is safe for every index, as its comment says: see
    C66_entangle_in_bounds, which assumes nothing on [u] and [v] *)

(** ** Non-vacuity *)
(** the checks detect what ensure_capacity prevents: one qubit added to a full buffer *)
Example C66_ex_overflow psi : c_add_default 2 psi 1 = None /\ c_add_default 4 psi 1 <> None /\ c_tensor 2 2 psi psi 1 1 = None.
Proof.
  split; [reflexivity|]. split; [|reflexivity]. rewrite C66_add_default_in_bounds by (cbn; lia). discriminate.
Qed.
Example C66_ex_swap psi : c_swap 2 psi 2 0 1 = None.
Proof. reflexivity. Qed.
(** a buffer for three qubits with one active: adding two qubits does not reallocate *)
Definition ex_b : svb := SVB 8 (fun _ => C1) 1 3.
Example C66_ex_preallocated junk : b_ok ex_b /\ exists b1 b2, b_add_plus junk ex_b = Some b1 /\ b_add_plus junk b1 = Some b2 /\ b_max b2 = 3 /\ b_n b2 = 3.
Proof.
  assert (B : b_ok ex_b) by (split; [reflexivity|cbn; lia]). split; auto.
  destruct (C66_add_plus junk ex_b (SV (fun _ => C1) 1) B) as (b1 & E1 & B1 & H1 & M1); [split; auto|].
  destruct (C66_add_plus junk b1 _ B1 H1) as (b2 & E2 & B2 & H2 & M2). exists b1, b2. split; auto. split; auto.
  cbn [sv_n b_max ex_b] in *. split; [lia|apply H2].
Qed.
Example C66_ex_growth junk : exists b', b_add_plus junk (SVB 2 (fun _ => C1) 1 1) = Some b' /\ b_max b' = 2 /\ b_len b' = 4.
Proof.
  destruct (C66_add_plus junk (SVB 2 (fun _ => C1) 1 1) (SV (fun _ => C1) 1)) as (b' & E & B & _ & M); [split; [reflexivity|cbn; lia]|split; auto|].
  exists b'. split; auto. cbn [b_max sv_n] in M. split; auto. rewrite (proj1 B), M. reflexivity.
Qed.
Example C66_ex_copy junk : b_copy junk ex_b (Some 0) = Err EValue /\ b_copy junk ex_b (Some 2) = Ok (SVB 4 (fun _ => C1) 1 2).
Proof. split; reflexivity. Qed.
(** a history: two qubits added to one, entangled, swapped, one rotated *)
Definition ex_hist (junk : arr) : list call :=
  [MAdd junk; MAdd junk; MEntangle (range 8) 0 2; MSwap 1 2; MEvolve (range 2) (range 2) (Mat2 C0 C1 C1 C0) 1; MCap junk 5].
Example C66_ex_history junk : valid_all (ex_hist junk) 1 /\ peak (ex_hist junk) 1 = 5 /\
  exists b', b_run (ex_hist junk) ex_b = Some (Some b') /\ b_n b' = 3 /\ b_max b' = 5.
Proof.
  assert (V : valid_all (ex_hist junk) 1) by (cbn [ex_hist valid_all valid qubits]; repeat split; try lia; apply sched_range). split; auto. split; auto.
  assert (B : b_ok ex_b) by (split; [reflexivity|cbn; lia]).
  assert (H : holds ex_b (SV (fun _ => C1) 1)) by (split; auto).
  pose proof (C66_history (ex_hist junk) ex_b _ B H V) as K.
  destruct (b_run (ex_hist junk) ex_b) as [[b'|]|]; [|cbn [s_run s_call ex_hist] in K; contradiction|contradiction].
  exists b'. cbn [s_run s_call ex_hist] in K. destruct K as (_ & [K _] & K2). auto.
Qed.
(** a full buffer of one qubit, swapping qubits 0 and -1 *)
Example C66_ex_negative psi : c_swapZ 2 psi 1 0 (-1) = None.
Proof. refine (C66_swap_unchecked_refuted 2 psi 1 0 (-1) _ _ _); [lia|lia|]. change (Z.to_nat (Z.of_nat 1 - 1 - -1)) with 1. cbn. lia. Qed.
