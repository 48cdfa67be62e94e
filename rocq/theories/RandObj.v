(** Model of graphix/random_objects.py.  The numbers drawn from the generator
    are parameters (the record [draws]): the theorems hold for every sequence of
    draws.  The quality of the distributions is not modelled. *)
From Coq Require Import Reals Lra Arith List Bool Lia Permutation FunctionalExtensionality.
From Verif Require Import Cplx Mat2 Fundamentals CliffordDb Clifford NSet Measure QState Pattern NodeIndex Statevec Simulator Density DMSim DMRun Circuit Swaps Transpile CircSim Inspect.
Import ListNotations.

(** numpy.random.Generator: [d_random k i], [d_normal k i] are the i-th number of
    the k-th call of random / uniform (in [0, 1)) and normal, [d_perm k n] the
    permutation applied by the k-th call to a list of length n, [d_int k n] the
    number below n returned by integers(n) *)
Record draws := Draws { d_random : nat -> nat -> R; d_normal : nat -> nat -> R; d_perm : nat -> nat -> list nat; d_int : nat -> nat -> nat }.
Definition good_draws (g : draws) : Prop :=
  (forall k i, (0 <= d_random g k i < 1)%R) /\ (forall k n, Permutation (d_perm g k n) (range n)) /\ (forall k n, 0 < n -> d_int g k n < n).
(** Generator.shuffle *)
Definition shuffle {A} (g : draws) (k : nat) (l : list A) (d : A) : list A := map (fun i => nth i l d) (d_perm g k (length l)).
(** an argument of type Iterable: a list can be read again, an iterator is empty
    after the first pass *)
Inductive iterable A := ISeq (l : list A) | IIter (l : list A).
Arguments ISeq {A}. Arguments IIter {A}.
Definition pass {A} (it : iterable A) : list A * iterable A := match it with ISeq l => (l, ISeq l) | IIter l => (l, IIter []) end.

(** * Circuits *)
Section Circuits.
Variable g : draws.
(** circuits under construction and number of calls made to the generator *)
Definition cst := (circuit * nat)%type.
Definition radd (s : cst) (i : instr) : res cst := do c <- circ_add (fst s) i; Ok (c, snd s).
(** a rotation whose angle is rng.random() *)
Definition rrot (f : R -> instr) (s : cst) : res cst := do c <- circ_add (fst s) (f (d_random g (snd s) 0)); Ok (c, S (snd s)).
(** random_objects.py:204-218 _first_rotation *)
Definition first_rotation (n : nat) (s : cst) : res cst := rfold (fun s q => rrot (IRX q) s) (range n) s.
(** random_objects.py:220-235 _mid_rotation *)
Definition mid_rotation (n : nat) (s : cst) : res cst := rfold (fun s q => do s <- rrot (IRX q) s; rrot (IRZ q) s) (range n) s.
(** random_objects.py:237-251 _last_rotation *)
Definition last_rotation (n : nat) (s : cst) : res cst := rfold (fun s q => rrot (IRZ q) s) (range n) s.
(** random_objects.py:253-265 _entangler: circuit.cnot(control, target) *)
Definition entangler (pairs : list (nat * nat)) (s : cst) : res cst := rfold (fun s p => radd s (ICNOT (snd p) (fst p))) pairs s.
(** random_objects.py:267-281 _entangler_rzz: circuit.rzz(control, target, angle) *)
Definition entangler_rzz (pairs : list (nat * nat)) (s : cst) : res cst := rfold (fun s p => rrot (IRZZ (snd p) (fst p)) s) pairs s.
(** random_objects.py:283-325 rand_gate *)
Fixpoint rand_gate_loop (n d : nat) (use_rzz : bool) (pairs : iterable (nat * nat)) (s : cst) : res cst :=
  match d with
  | 0 => Ok s
  | S d' => do s <- mid_rotation n s;
            let '(l, pairs') := pass pairs in
            do s <- (if use_rzz then entangler_rzz l s else entangler l s);
            rand_gate_loop n d' use_rzz pairs' s
  end.
Definition rand_gate (n depth : nat) (pairs : iterable (nat * nat)) (use_rzz : bool) : res circuit :=
  do s <- first_rotation n (circ_new n, 0);
  let '(l, pairs') := pass pairs in
  do s <- entangler l s;
  do s <- rand_gate_loop n (depth - 1) use_rzz pairs' s;
  do s <- last_rotation n s;
  Ok (fst s).

(** random_objects.py:327-349 _genpair, with the body of the loop that reads it;
    "x, y = choice[:2]" raises ValueError on fewer than two elements *)
Fixpoint genpair (add : nat -> nat -> instr) (count : nat) (choice : list nat) (s : cst) : res cst :=
  match count with
  | 0 => Ok s
  | S m => let choice' := shuffle g (snd s) choice 0 in
           match firstn 2 choice' with
           | [x; y] => do c <- circ_add (fst s) (add x y); genpair add m choice' (c, S (snd s))
           | _ => Err EValue
           end
  end.
(** random_objects.py:351-373 _gentriplet *)
Fixpoint gentriplet (add : nat -> nat -> nat -> instr) (count : nat) (choice : list nat) (s : cst) : res cst :=
  match count with
  | 0 => Ok s
  | S m => let choice' := shuffle g (snd s) choice 0 in
           match firstn 3 choice' with
           | [x; y; z] => do c <- circ_add (fst s) (add x y z); gentriplet add m choice' (c, S (snd s))
           | _ => Err EValue
           end
  end.
Record ropts := ROpts { use_j : bool; use_cz : bool; use_rzz : bool; use_ccx : bool; parameters : iterable R }.
(** random_objects.py:415-419: the generator expression reads the iterable once
    per rotation.  A parameter is represented by its value. *)
Definition parametric_choice (it : iterable R) : list (nat -> instr) :=
  let '(l1, it1) := pass it in let '(l2, it2) := pass it1 in let '(l3, _) := pass it2 in
  map (fun a q => IRX q a) l1 ++ map (fun a q => IRY q a) l2 ++ map (fun a q => IRZ q a) l3.
(** random_objects.py:420-431 gate_choice *)
Definition gate_choice (o : ropts) : list (nat -> instr) :=
  [(fun q => IRY q (1 / 4)); (fun q => IRZ q (- 1 / 4)); (fun q => IRX q (- 1 / 4)); IH; IS; IX; IZ; IY]%R
  ++ parametric_choice (parameters o) ++ (if use_j o then [fun q => IJ q (1 / 4)%R] else []).
(** random_objects.py:432-448 one layer *)
Definition rand_layer (n : nat) (o : ropts) (s : cst) : res cst :=
  do s <- genpair (fun j k => ICNOT k j) 2 (range n) s;
  do s <- (if use_cz o then genpair ICZ 2 (range n) s else Ok s);
  do s <- (if use_rzz o then genpair (fun j k => IRZZ k j (1 / 4)%R) 2 (range n) s else Ok s);
  do s <- (if use_ccx o then gentriplet (fun j k l => ICCX l j k) 2 (range n) s else Ok s);
  do s <- genpair ISWAP 2 (range n) s;
  rfold (fun s j => match nth_error (gate_choice o) (d_int g (snd s) (length (gate_choice o))) with
                    | Some f => do c <- circ_add (fst s) (f j); Ok (c, S (snd s))
                    | None => Err EIndex
                    end) (range n) s.
(** random_objects.py:375-449 rand_circuit *)
Definition rand_circuit (n depth : nat) (o : ropts) : res circuit :=
  do s <- rfold (fun s (_ : nat) => rand_layer n o s) (range depth) (circ_new n, 0);
  Ok (fst s).
End Circuits.
Arguments rand_layer g n o s : simpl never.

(** ** Lemmas *)
(** a gate on distinct qubits of the register that is neither the identity nor a
    measurement *)
Definition gate_on (n : nat) (i : instr) : Prop := plain i /\ (forall q, In q (iqubits i) -> q < n) /\ is_meas i = false.
Definition under (n : nat) (l : list instr) : circuit := Circ n l (of_list (range n)).
Lemma ndb_ok l : NoDup l -> ndb l = true.
Proof.
  induction 1 as [|x l H ND IH]; auto. cbn [ndb]. rewrite IH, andb_true_r. apply negb_true_iff. apply not_true_iff_false. intros K. apply existsb_exists in K.
  destruct K as (y & Hy & E). apply Nat.eqb_eq in E. subst. auto.
Qed.
Lemma add_under n l i : gate_on n i -> circ_add (under n l) i = Ok (under n (l ++ [i])).
Proof.
  intros ([H1 _] & H2 & H3). unfold circ_add, under. cbn [c_active c_width c_instr].
  assert (A : add_ok (of_list (range n)) i = true).
  { unfold add_ok. apply andb_true_iff. split; [|destruct i; auto using ndb_ok]. apply forallb_forall. intros q Hq. apply mem_of_list, in_seq. specialize (H2 q Hq). lia. }
  rewrite A. destruct i; try reflexivity. discriminate.
Qed.
Lemma under_make n l : Forall (gate_on n) l -> circ_make n l = Ok (under n l).
Proof.
  unfold circ_make, circ_extend. change (circ_new n) with (under n []). intros H. assert (G : forall l0, rfold circ_add l (under n l0) = Ok (under n (l0 ++ l))).
  { induction H as [|i l Hi HF IH]; intros l0; cbn [rfold]; [rewrite app_nil_r; auto|]. rewrite add_under by auto. rewrite IH, <- app_assoc. auto. }
  apply G.
Qed.
(** steps that only append valid gates satisfying P *)
Definition appends (P : instr -> Prop) (n len : nat) (f : cst -> res cst) : Prop :=
  forall l k, exists l' k', f (under n l, k) = Ok (under n (l ++ l'), k') /\ Forall (gate_on n) l' /\ Forall P l' /\ length l' = len.
Lemma appends_bind P n a b f h : appends P n a f -> appends P n b h -> appends P n (a + b) (fun s => do s <- f s; h s).
Proof.
  intros H1 H2 l k. destruct (H1 l k) as (l1 & k1 & E1 & G1 & P1 & L1). destruct (H2 (l ++ l1) k1) as (l2 & k2 & E2 & G2 & P2 & L2).
  exists (l1 ++ l2), k2. rewrite E1. cbn [rbind]. rewrite E2, <- app_assoc. split; auto. rewrite app_length. split; [apply Forall_app; auto|]. split; [apply Forall_app; auto|lia].
Qed.
Lemma appends_nil P n : appends P n 0 (fun s => Ok s).
Proof. intros l k. exists [], k. rewrite app_nil_r. auto. Qed.
Lemma appends_rfold P n a {X} (h : cst -> X -> res cst) L : (forall x, In x L -> appends P n a (fun s => h s x)) -> appends P n (length L * a) (fun s => rfold h L s).
Proof.
  intros H. induction L as [|x L IH]; [apply appends_nil|]. cbn [length Nat.mul]. intros l k.
  destruct (appends_bind P n a (length L * a) (fun s => h s x) (fun s => rfold h L s) (H x (or_introl eq_refl)) (IH (fun y Hy => H y (or_intror Hy))) l k) as (l' & k' & E & R).
  exists l', k'. split; [|auto]. rewrite <- E. reflexivity.
Qed.
Lemma appends_add (P : instr -> Prop) n i (k0 : nat -> nat) : gate_on n i -> P i -> forall l k, exists l' k', (do c <- circ_add (fst (under n l, k)) i; Ok (c, k0 k)) = Ok (under n (l ++ l'), k') /\ Forall (gate_on n) l' /\ Forall P l' /\ length l' = 1.
Proof. intros H HP l k. exists [i], (k0 k). cbn [fst]. rewrite add_under by auto. cbn [rbind]. auto. Qed.
Lemma shuffle_perm {A} g k (l : list A) d : good_draws g -> Permutation (shuffle g k l d) l.
Proof.
  intros (_ & H & _). unfold shuffle. eapply Permutation_trans; [apply Permutation_map, H|].
  assert (E : map (fun i => nth i l d) (range (length l)) = l); [|rewrite E; auto]. unfold range. clear. induction l as [|x l IH]; auto. cbn [length seq map nth]. f_equal. rewrite <- seq_shift, map_map. auto.
Qed.
Lemma perm_range n l : Permutation l (range n) -> NoDup l /\ (forall x, In x l -> x < n) /\ length l = n.
Proof.
  intros H. split; [apply (Permutation_NoDup (Permutation_sym H)), seq_NoDup|]. split; [intros x Hx; apply (Permutation_in _ H), in_seq in Hx; lia|]. rewrite (Permutation_length H). apply seq_length.
Qed.
Lemma appends_genpair P g n add count : good_draws g -> 2 <= n ->
  (forall x y, x < n -> y < n -> x <> y -> gate_on n (add x y) /\ P (add x y)) ->
  forall choice, Permutation choice (range n) -> appends P n count (genpair g add count choice).
Proof.
  intros HG Hn HA. induction count as [|m IH]; intros choice HP; [apply appends_nil|]. intros l k. cbn [genpair fst snd]. set (ch := shuffle g k choice 0).
  assert (PC : Permutation ch (range n)) by (eapply Permutation_trans; [apply shuffle_perm; auto|auto]). destruct (perm_range _ _ PC) as (ND & HB & L).
  destruct ch as [|x [|y r]] eqn:EC; [simpl in L; lia|simpl in L; lia|]. cbn [firstn].
  destruct (HA x y) as [A1 A2]; [apply HB; left; auto|apply HB; right; left; auto|inversion ND; subst; intros ->; cbn in *; tauto|].
  rewrite add_under by auto. cbn [rbind]. destruct (IH (x :: y :: r) PC (l ++ [add x y]) (S k)) as (l' & k' & E & G & Q & LL). exists (add x y :: l'), k'. rewrite E, <- app_assoc. cbn [length]. auto.
Qed.
Lemma appends_gentriplet P g n add count : good_draws g -> 3 <= n ->
  (forall x y z, x < n -> y < n -> z < n -> x <> y -> x <> z -> y <> z -> gate_on n (add x y z) /\ P (add x y z)) ->
  forall choice, Permutation choice (range n) -> appends P n count (gentriplet g add count choice).
Proof.
  intros HG Hn HA. induction count as [|m IH]; intros choice HP; [apply appends_nil|]. intros l k. cbn [gentriplet fst snd]. set (ch := shuffle g k choice 0).
  assert (PC : Permutation ch (range n)) by (eapply Permutation_trans; [apply shuffle_perm; auto|auto]). destruct (perm_range _ _ PC) as (ND & HB & L).
  destruct ch as [|x [|y [|z r]]] eqn:EC; [simpl in L; lia|simpl in L; lia|simpl in L; lia|]. cbn [firstn]. inversion ND as [|? ? N1 N2]; subst. inversion N2 as [|? ? N3 N4]; subst. cbn in N1, N3.
  destruct (HA x y z) as [A1 A2]; [apply HB; cbn; auto|apply HB; cbn; auto|apply HB; cbn; auto|intros ->; tauto|intros ->; tauto|intros ->; tauto|].
  rewrite add_under by auto. cbn [rbind]. destruct (IH (x :: y :: z :: r) PC (l ++ [add x y z]) (S k)) as (l' & k' & E & G & Q & LL). exists (add x y z :: l'), k'. rewrite E, <- app_assoc. cbn [length]. auto.
Qed.
Lemma genpair_small g add m n choice s : good_draws g -> n < 2 -> Permutation choice (range n) -> genpair g add (S m) choice s = Err EValue.
Proof.
  intros HG Hn HP. cbn [genpair]. assert (PC : Permutation (shuffle g (snd s) choice 0) (range n)) by (eapply Permutation_trans; [apply shuffle_perm; auto|auto]).
  destruct (perm_range _ _ PC) as (_ & _ & L). destruct (shuffle g (snd s) choice 0) as [|x [|y r]]; auto. simpl in L. lia.
Qed.
Lemma gentriplet_small g add m n choice s : good_draws g -> n < 3 -> Permutation choice (range n) -> gentriplet g add (S m) choice s = Err EValue.
Proof.
  intros HG Hn HP. cbn [gentriplet]. assert (PC : Permutation (shuffle g (snd s) choice 0) (range n)) by (eapply Permutation_trans; [apply shuffle_perm; auto|auto]).
  destruct (perm_range _ _ PC) as (_ & _ & L). destruct (shuffle g (snd s) choice 0) as [|x [|y [|z r]]]; auto. simpl in L. lia.
Qed.

(** * Matrices and states *)
Local Open Scope C_scope.
Definition cadj (A : cmat) : cmat := fun i j => Cconj (A j i).
(** random_objects.py:31-35 rand_herm: entry (i, j) of the k-th and (k+1)-th
    call is number i * sz + j *)
Definition rand_herm (g : draws) (k sz : nat) : cmat :=
  let tmp : cmat := fun i j => mkC (d_random g k (i * sz + j)) (d_random g (S k) (i * sz + j)) in
  fun i j => tmp i j + cadj tmp i j.
(** the matrices that rand_unit (random_objects.py:38-46: a phase for sz = 1,
    scipy.stats.unitary_group otherwise) can return *)
Definition unitary_d (d : nat) (U : cmat) : Prop := forall i j, (i < d)%nat -> (j < d)%nat -> cmm d (cadj U) U i j = eye i j.
(** random_objects.py:42-44 rand_unit(1) *)
Definition rand_unit1 (g : draws) (k : nat) : cmat := fun _ _ => cis (2 * d_random g k 0).
(** random_objects.py:49-80 rand_dm; [U] is the matrix returned by rand_unit.  A
    rank above dim does not fit into the array of eigenvalues (ValueError); a
    zero sum makes every entry NaN *)
Definition rand_dm (g : draws) (k : nat) (U : cmat) (dim : nat) (rank : option nat) : res cmat :=
  let r := match rank with None => dim | Some r => r end in
  if (dim <? r)%nat then Err EValue else
  let padded i := if (i <? r)%nat then d_random g k i else 0%R in
  let s := rsum (range dim) padded in
  if Req_EM_T s 0 then Err ENan else
  let D : cmat := fun i j => if (i =? j)%nat then RtoC (padded i / s)%R else C0 in
  Ok (cmm dim (cmm dim U D) (cadj U)).
(** random_objects.py:452-470 rand_state_vector *)
Definition rand_state_vector (g : draws) (k n : nat) : res (list C) :=
  let dim := (2 ^ n)%nat in
  let vec i := mkC (d_random g k i - / 2)%R (d_random g k (dim + i) - / 2)%R in
  let nrm := sqrt (rsum (range dim) (fun i => Cnorm2 (vec i))) in
  if Req_EM_T nrm 0 then Err ENan else Ok (map (fun i => vec i * RtoC (/ nrm)) (range dim)).
(** random_objects.py:96-117 rand_gauss_cpx_mat: [sig] times standard normal
    numbers *)
Definition gauss_mat (g : draws) (sig : R) (k dim : nat) : cmat := fun i j =>
  mkC (sig * d_normal g k (2 * (i * dim + j)))%R (sig * d_normal g k (2 * (i * dim + j) + 1))%R.
(** random_objects.py:120-154 rand_channel_kraus for dim = 2^k: [T] is the matrix
    returned by scipy.linalg.inv(scipy.linalg.sqrtm(h_mat)) *)
Definition kraus_h (g : draws) (sig : R) (k0 dim rank : nat) : cmat := fun i j =>
  csum (range rank) (fun r => cmm dim (cadj (gauss_mat g sig (k0 + r) dim)) (gauss_mat g sig (k0 + r) dim) i j).
Definition rand_channel_kraus (g : draws) (sig : R) (k0 : nat) (T : cmat) (k : nat) (rank : option nat) : res (list kraus) :=
  let dim := (2 ^ k)%nat in
  let r := match rank with None => (dim * dim)%nat | Some r => r end in
  if (r <? 1)%nat then Err EValue else
  kraus_new k (map (fun i => (C1, cmm dim (gauss_mat g sig (k0 + i) dim) T)) (range r)).
(** what scipy.linalg.sqrtm and inv return on an invertible positive matrix: the
    inverse of a Hermitian square root *)
Definition inv_sqrtm (d : nat) (H T : cmat) : Prop := exists S : cmat,
  (forall i j, (i < d)%nat -> (j < d)%nat -> cadj S i j = S i j /\ cmm d S S i j = H i j /\ cmm d S T i j = eye i j /\ cmm d T S i j = eye i j).
(** ops.py:228-245 build_tensor_pauli_ops: itertools.product of I, X, Y, Z, in
    lexicographic order *)
Fixpoint pauli_tensors (n : nat) : list cmat :=
  match n with
  | O => [eye]
  | S n' => flat_map (fun A => [kronm A mid; kronm A mX; kronm A mY; kronm A mZ]) (pauli_tensors n')
  end.
Definition build_tensor_pauli_ops (n : nat) : res (list cmat) := if (n <? 1)%nat then Err EValue else Ok (pauli_tensors n).
Definition Rnz (x : R) : bool := if Req_EM_T x 0 then false else true.
(** random_objects.py:159-201 rand_pauli_channel_kraus for dim = 2^nqb: uniform
    at call k, shuffle at call k+1.  A sum equal to zero (NaN probabilities)
    makes the check of the constructor fail *)
Definition rand_pauli_channel_kraus (g : draws) (k nqb : nat) (rank : option nat) : res (list kraus) :=
  let m := (4 ^ nqb)%nat in
  do r <- match rank with None => Ok m | Some r => if (r <? 1)%nat then Err EValue else Ok r end;
  if (m <? r)%nat then Err EValue else
  let tmp := map (d_random g k) (range r) in
  let s := rsum tmp (fun x => x) in
  if Req_EM_T s 0 then Err EValue else
  let prob := shuffle g (S k) (map (fun x => x / s)%R tmp ++ repeat 0%R (m - r)) 0%R in
  do ops <- build_tensor_pauli_ops nqb;
  let sel := filter (fun p => Rnz (fst p)) (combine prob ops) in
  if (length sel <? r)%nat then Err EIndex else
  kraus_new nqb (map (fun p => (sq (fst p), snd p)) (firstn r sel)).
