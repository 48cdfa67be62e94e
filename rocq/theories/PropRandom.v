(** Property theorems: random objects (C57).  [good_draws g]: random() returns
    numbers of [0, 1), shuffle permutes and integers(n) is below n; nothing else
    is assumed of the generator. *)
From Coq Require Import Reals Lra Arith List Bool Lia Permutation FunctionalExtensionality.
From Verif Require Import Cplx Mat2 NSet QState Fundamentals CliffordDb Clifford Measure Layer Pattern Standardize PropStd Statevec Density Circuit Swaps PropCircuit FlowSem FlowDet OpenGraph FlowSpec Flow FlowWF FlowPat OGMap PropFlow TopGen Corr Space SpaceMin SpaceHeur PropSpace Transpile TranspileFlow TranspilePat NodeIndex Simulator DMSim DMRun PropTranspile CircSim PropCircSim Inspect PropInspect RandObj.
Import ListNotations.

(** * rand_circuit *)
Definition items {A} (it : iterable A) : list A := match it with ISeq l => l | IIter l => l end.
(** the gates that the options allow *)
Definition allowed (o : ropts) (i : instr) : Prop :=
  match i with
  | ICNOT _ _ | ISWAP _ _ | IH _ | IS _ | IX _ | IY _ | IZ _ => True
  | ICZ _ _ => use_cz o = true
  | IRZZ _ _ a => use_rzz o = true /\ a = (1 / 4)%R
  | ICCX _ _ _ => use_ccx o = true
  | IJ _ a => use_j o = true /\ a = (1 / 4)%R
  | IRX _ a | IRZ _ a => a = (- 1 / 4)%R \/ In a (items (parameters o))
  | IRY _ a => a = (1 / 4)%R \/ In a (items (parameters o))
  | II _ | IM _ _ => False
  end.
Definition b2n (b : bool) : nat := if b then 1 else 0.
Lemma gate_on1 n q (f : nat -> instr) : iqubits (f q) = [q] -> (forall q', f q <> II q') -> is_meas (f q) = false -> q < n -> gate_on n (f q).
Proof. intros E N M H. split; [split; [rewrite E; repeat constructor; auto|auto]|]. split; auto. rewrite E. cbn. intuition lia. Qed.
Lemma gate_on2 n i x y : iqubits i = [y; x] \/ iqubits i = [x; y] -> (forall q', i <> II q') -> is_meas i = false -> x < n -> y < n -> x <> y -> gate_on n i.
Proof. intros E N M Hx Hy NE. split; [split; auto|split; auto]; destruct E as [E|E]; rewrite E; try (repeat constructor; cbn; intuition lia); cbn; intuition lia. Qed.
Lemma choice_ok o n f j : In f (gate_choice o) -> j < n -> gate_on n (f j) /\ allowed o (f j).
Proof.
  intros H Hj. unfold gate_choice in H. apply in_app_or in H. destruct H as [H|H].
  - cbn in H. repeat (destruct H as [E|H]; [split; [apply (gate_on1 n j f); rewrite <- ?E; auto; discriminate|rewrite <- E; cbn; auto]|]). destruct H.
  - apply in_app_or in H. destruct H as [H|H].
    + unfold parametric_choice in H. assert (G : exists a, In a (items (parameters o)) /\ (f = (fun q => IRX q a) \/ f = (fun q => IRY q a) \/ f = (fun q => IRZ q a))).
      { destruct (parameters o) as [l|l]; cbn [pass items] in *; rewrite !in_app_iff, !in_map_iff in H; destruct H as [(a & <- & Ha)|[(a & <- & Ha)|(a & <- & Ha)]]; try (destruct Ha; fail); exists a; split; auto. }
      destruct G as (a & Ha & [E|[E|E]]); (split; [apply (gate_on1 n j f); rewrite ?E; auto; discriminate|rewrite E; cbn; auto]).
    + destruct (use_j o) eqn:EJ; [|destruct H]. destruct H as [E|[]]. split; [apply (gate_on1 n j f); rewrite <- ?E; auto; discriminate|rewrite <- E; cbn; auto].
Qed.
Lemma choice_nonempty o : 0 < length (gate_choice o). Proof. cbn. lia. Qed.
Lemma layer_appends g n o : good_draws g -> 2 <= n -> (use_ccx o = true -> 3 <= n) ->
  appends (allowed o) n (2 + (2 * b2n (use_cz o) + (2 * b2n (use_rzz o) + (2 * b2n (use_ccx o) + (2 + n * 1))))) (rand_layer g n o).
Proof.
  intros HG Hn Hc. unfold rand_layer.
  assert (GP : forall add, (forall x y, x < n -> y < n -> x <> y -> gate_on n (add x y) /\ allowed o (add x y)) -> appends (allowed o) n 2 (genpair g add 2 (range n))) by (intros add H; apply appends_genpair; auto).
  apply (appends_bind _ _ 2 _ (fun s => genpair g (fun j k => ICNOT k j) 2 (range n) s)); [apply GP; intros x y Hx Hy N; split; [apply (gate_on2 n _ x y); auto; discriminate|cbn; auto]|].
  apply (appends_bind _ _ (2 * b2n (use_cz o)) _ (fun s => if use_cz o then genpair g ICZ 2 (range n) s else Ok s)).
  { destruct (use_cz o) eqn:E; [|apply appends_nil]. apply GP; intros x y Hx Hy N; split; [apply (gate_on2 n _ x y); auto; discriminate|cbn; auto]. }
  apply (appends_bind _ _ (2 * b2n (use_rzz o)) _ (fun s => if use_rzz o then genpair g (fun j k => IRZZ k j (1 / 4)%R) 2 (range n) s else Ok s)).
  { destruct (use_rzz o) eqn:E; [|apply appends_nil]. apply GP; intros x y Hx Hy N; split; [apply (gate_on2 n _ x y); auto; discriminate|cbn; auto]. }
  apply (appends_bind _ _ (2 * b2n (use_ccx o)) _ (fun s => if use_ccx o then gentriplet g (fun j k l => ICCX l j k) 2 (range n) s else Ok s)).
  { destruct (use_ccx o) eqn:E; [|apply appends_nil]. apply appends_gentriplet; auto. intros x y z Hx Hy Hz N1 N2 N3. split; [|cbn; auto].
    split; [split; [cbn; repeat constructor; cbn; intuition|discriminate]|]. split; [cbn; intuition lia|auto]. }
  apply (appends_bind _ _ 2 _ (fun s => genpair g ISWAP 2 (range n) s)); [apply GP; intros x y Hx Hy N; split; [apply (gate_on2 n _ x y); auto; discriminate|cbn; auto]|].
  pose proof (appends_rfold (allowed o) n 1 (fun s j => match nth_error (gate_choice o) (d_int g (snd s) (length (gate_choice o))) with
                    | Some f => do c <- circ_add (fst s) (f j); Ok (c, S (snd s)) | None => Err EIndex end) (range n)) as AR.
  unfold range in AR at 2. rewrite seq_length in AR. apply AR. intros j Hj l k. apply in_seq in Hj. cbn [snd].
  destruct (nth_error (gate_choice o) (d_int g k (length (gate_choice o)))) as [f|] eqn:E.
  - destruct (choice_ok o n f j) as [A B]; [eapply nth_error_In; eauto|lia|]. apply (appends_add (allowed o) n (f j) S A B).
  - apply nth_error_None in E. pose proof (proj2 (proj2 HG) k _ (choice_nonempty o)). lia.
Qed.
(** for at least two qubits (three with CCX), whatever is drawn: a circuit of the
    given width with depth x (4 + 2 per enabled two/three-qubit family + n)
    gates, only of the enabled kinds, on distinct qubits of the register, that
    the constructor accepts *)
Theorem C57_rand_circuit : forall g n depth o, good_draws g -> 2 <= n -> (use_ccx o = true -> 3 <= n) ->
  exists c, rand_circuit g n depth o = Ok c /\ c_width c = n /\ circ_make n (c_instr c) = Ok c /\
    length (c_instr c) = depth * (4 + 2 * b2n (use_cz o) + 2 * b2n (use_rzz o) + 2 * b2n (use_ccx o) + n) /\
    (forall i, In i (c_instr c) -> allowed o i /\ NoDup (iqubits i) /\ forall q, In q (iqubits i) -> q < n).
Proof.
  intros g n depth o HG Hn Hc. unfold rand_circuit. pose proof (appends_rfold (allowed o) n _ (fun s (_ : nat) => rand_layer g n o s) (range depth) (fun x _ => layer_appends g n o HG Hn Hc) [] 0) as (l & k & E & G & P & L).
  change (circ_new n) with (under n []). rewrite E. cbn [rbind fst app]. eexists. split; [reflexivity|]. split; auto. split; [apply under_make; auto|]. cbn [under c_instr]. split.
  - rewrite L. unfold range. rewrite seq_length. f_equal. lia.
  - intros i Hi. rewrite Forall_forall in G, P. specialize (P i Hi). destruct (G i Hi) as ([N _] & Q & _). auto.
Qed.
Print Assumptions C57_rand_circuit.
(** the circuit transpiles to a pattern that implements it in every branch, and
    simulates to the state obtained by applying its gates *)
Theorem C57_rand_circuit_usable : forall it en nb nrm ord close1 sel g' g n depth o, iter_ok it -> enum_ok en -> nb_ok nb -> nrm_ok nrm ->
  (forall t n, sched (ord t n) n) -> close1 1%R = true ->
  good_draws g -> 2 <= n -> (use_ccx o = true -> 3 <= n) ->
  exists c p st, rand_circuit g n depth o = Ok c /\
    transpile it en nb nrm c = Ok (p, []) /\ check_runnability p = Ok tt /\ p_in p = range n /\ length (p_out p) = n /\
    (forall b, exists z, phase z /\ forall psi, on_register n psi ->
      forall f f', (forall q m, nth_error (p_out p) q = Some m -> f' q = f m) ->
      den (seq_ops b (p_seq p)) psi f = (z * RtoC ((/ sqrt 2) ^ length (ms_of (p_seq p))) * fold_left (fun phi i => gate i phi) (c_instr c) psi f')%C) /\
    circ_simulate ord close1 sel g' c None = Ok st /\
    exists z, z <> C0 /\ forall f, sv_psi (b_sv (cs_bk st)) (idx n f) = (z * fold_left (fun phi i => gate i phi) (c_instr c) (input_state (range n) (DState SPlus)) f)%C.
Proof.
  intros it en nb nrm ord close1 sel g' g n depth o H1 H2 H3 H4 H5 H6 HG Hn Hc. destruct (C57_rand_circuit g n depth o HG Hn Hc) as (c & E & _ & M & _ & A).
  destruct (C21_transpile_unitary it en nb nrm n (c_instr c) c H1 H2 H3 H4 M) as (p & T & R & I & L & S).
  - apply Forall_forall. intros i Hi. destruct (A i Hi) as (A1 & A2 & _). split; auto. intros q ->. exact A1.
  - intros i q ax Hi ->. destruct (A _ Hi) as (A1 & _). exact A1.
  - destruct (C55_unitary ord close1 sel g' n (c_instr c) c None H5 H6 M) as (st & S1 & _ & _ & _ & _ & S2).
    + intros t q a Hi. destruct (A _ Hi) as (_ & A2 & _). cbn in A2. inversion A2; subst. cbn in *. intuition.
    + intros i Hi. destruct (A _ Hi) as (A1 & _). destruct i; auto. destruct A1.
    + apply vnorm2_plus.
    + exists c, p, st. repeat (split; auto).
Qed.
Print Assumptions C57_rand_circuit_usable.
(** with too few qubits every non-empty circuit is refused *)
Theorem C57_rand_circuit_small : forall g n depth o, good_draws g ->
  rand_circuit g n 0 o = Ok (circ_new n) /\
  (n < 2 -> 0 < depth -> rand_circuit g n depth o = Err EValue) /\
  (n < 3 -> use_ccx o = true -> 0 < depth -> rand_circuit g n depth o = Err EValue).
Proof.
  intros g n depth o HG. split; [reflexivity|].
  assert (D : 0 < depth -> rand_layer g n o (circ_new n, 0) = Err EValue -> rand_circuit g n depth o = Err EValue).
  { intros HD E. destruct depth as [|d]; [lia|]. unfold rand_circuit, range. cbn [seq rfold]. rewrite E. auto. }
  split.
  - intros Hn HD. apply D; auto. unfold rand_layer. rewrite (genpair_small g _ 1 n) by auto. auto.
  - intros Hn Hc HD. apply D; auto. destruct (Nat.lt_ge_cases n 2) as [L|L]; [unfold rand_layer; rewrite (genpair_small g _ 1 n) by auto; auto|].
    unfold rand_layer. change (circ_new n) with (under n []).
    assert (GP : forall add, (forall x y, x < n -> y < n -> x <> y -> gate_on n (add x y) /\ True) -> appends (fun _ => True) n 2 (genpair g add 2 (range n))) by (intros add H; apply appends_genpair; auto).
    destruct (GP (fun j k => ICNOT k j) (fun x y Hx Hy N => conj (gate_on2 n (ICNOT y x) x y (or_introl eq_refl) (fun q' E => ltac:(discriminate E)) eq_refl Hx Hy N) I) [] 0) as (l1 & k1 & E1 & _). cbn [app] in E1. rewrite E1. cbn [rbind].
    assert (S2 : exists l2 k2, (if use_cz o then genpair g ICZ 2 (range n) (under n (l1), k1) else Ok (under n (l1), k1)) = Ok (under n l2, k2)).
    { destruct (use_cz o); [|eauto]. destruct (GP ICZ (fun x y Hx Hy N => conj (gate_on2 n (ICZ x y) x y (or_intror eq_refl) (fun q' E => ltac:(discriminate E)) eq_refl Hx Hy N) I) (l1) k1) as (l2 & k2 & E2 & _). eauto. }
    destruct S2 as (l2 & k2 & E2). unfold cst in *. rewrite E2. cbn [rbind].
    assert (S3 : exists l3 k3, (if use_rzz o then genpair g (fun j k => IRZZ k j (1 / 4)%R) 2 (range n) (under n l2, k2) else Ok (under n l2, k2)) = Ok (under n l3, k3)).
    { destruct (use_rzz o); [|eauto]. destruct (GP (fun j k => IRZZ k j (1 / 4)%R) (fun x y Hx Hy N => conj (gate_on2 n (IRZZ y x (1 / 4)%R) x y (or_introl eq_refl) (fun q' E => ltac:(discriminate E)) eq_refl Hx Hy N) I) l2 k2) as (l3 & k3 & E3 & _). eauto. }
    destruct S3 as (l3 & k3 & E3). unfold cst in *. rewrite E3. cbn [rbind]. rewrite Hc. rewrite (gentriplet_small g _ 1 n) by auto. auto.
Qed.
Print Assumptions C57_rand_circuit_small.

(** * rand_gate *)
(** a gate with its angle forgotten, and the angle *)
Definition shape (i : instr) : instr :=
  match i with IRX q _ => IRX q 0 | IRY q _ => IRY q 0 | IRZ q _ => IRZ q 0 | IJ q _ => IJ q 0 | IRZZ t c _ => IRZZ t c 0 | _ => i end.
Definition angle_of (i : instr) : option R :=
  match i with IRX _ a | IRY _ a | IRZ _ a | IJ _ a | IRZZ _ _ a => Some a | _ => None end.
Definition drawn (i : instr) : Prop := forall a, angle_of i = Some a -> (0 <= a < 1)%R.
(** the layers of the docstring: RX on every qubit, an entangling layer, then
    depth - 1 times RX, RZ on every qubit and an entangling layer, then RZ on
    every qubit; [first] is the first entangling layer *)
Definition cnots (pairs : list (nat * nat)) : list instr := map (fun p => ICNOT (snd p) (fst p)) pairs.
Definition rzzs (pairs : list (nat * nat)) : list instr := map (fun p => IRZZ (snd p) (fst p) 0) pairs.
Definition gate_layers (n depth : nat) (first later : list instr) : list instr :=
  map (fun q => IRX q 0) (range n) ++ first ++
  concat (repeat (flat_map (fun q => [IRX q 0; IRZ q 0]%R) (range n) ++ later) (depth - 1)) ++
  map (fun q => IRZ q 0) (range n).
Definition emits (n : nat) (L : list instr) (f : cst -> res cst) : Prop :=
  forall l k, exists l' k', f (under n l, k) = Ok (under n (l ++ l'), k') /\ Forall (gate_on n) l' /\ Forall drawn l' /\ map shape l' = L.
Lemma emits_bind n A B f h : emits n A f -> emits n B h -> emits n (A ++ B) (fun s => do s <- f s; h s).
Proof.
  intros H1 H2 l k. destruct (H1 l k) as (l1 & k1 & E1 & G1 & P1 & L1). destruct (H2 (l ++ l1) k1) as (l2 & k2 & E2 & G2 & P2 & L2).
  exists (l1 ++ l2), k2. rewrite E1. cbn [rbind]. rewrite E2, <- app_assoc. split; auto. split; [apply Forall_app; auto|]. split; [apply Forall_app; auto|]. rewrite map_app, L1, L2. auto.
Qed.
Lemma emits_nil n : emits n [] (fun s => Ok s).
Proof. intros l k. exists [], k. rewrite app_nil_r. auto. Qed.
Lemma emits_rfold n {X} (A : X -> list instr) (h : cst -> X -> res cst) L : (forall x, In x L -> emits n (A x) (fun s => h s x)) -> emits n (flat_map A L) (fun s => rfold h L s).
Proof.
  intros H. induction L as [|x L IH]; [apply emits_nil|]. cbn [flat_map]. intros l k.
  destruct (emits_bind n (A x) _ (fun s => h s x) (fun s => rfold h L s) (H x (or_introl eq_refl)) (IH (fun y Hy => H y (or_intror Hy))) l k) as (l' & k' & E & R).
  exists l', k'. split; [|auto]. rewrite <- E. reflexivity.
Qed.
Lemma flat_single {X Y} (f : X -> Y) l : flat_map (fun x => [f x]) l = map f l.
Proof. induction l; cbn; congruence. Qed.
Lemma emits_rot g n f : good_draws g -> (forall a, gate_on n (f a) /\ angle_of (f a) = Some a /\ shape (f a) = f 0%R) -> emits n [f 0%R] (rrot g f).
Proof.
  intros HG H l k. destruct (H (d_random g k 0)) as (H1 & H2 & H3). exists [f (d_random g k 0)], (S k). unfold rrot. cbn [fst snd]. rewrite add_under by auto. cbn [rbind map]. split; auto. split; auto. split; [|rewrite H3; auto].
  constructor; auto. intros a E. rewrite H2 in E. injection E as <-. apply HG.
Qed.
Lemma emits_rx g n q : good_draws g -> q < n -> emits n [IRX q 0] (rrot g (IRX q)).
Proof. intros HG Hq. apply (emits_rot g n (IRX q) HG). intros a. split; auto. apply (gate_on1 n q (fun q => IRX q a)); auto; discriminate. Qed.
Lemma emits_rz g n q : good_draws g -> q < n -> emits n [IRZ q 0] (rrot g (IRZ q)).
Proof. intros HG Hq. apply (emits_rot g n (IRZ q) HG). intros a. split; auto. apply (gate_on1 n q (fun q => IRZ q a)); auto; discriminate. Qed.
Definition pairs_ok (n : nat) (pairs : list (nat * nat)) : Prop := forall a b, In (a, b) pairs -> a < n /\ b < n /\ a <> b.
Lemma emits_entangler n pairs : pairs_ok n pairs -> emits n (cnots pairs) (entangler pairs).
Proof.
  intros H. unfold cnots. rewrite <- flat_single. apply (emits_rfold n (fun p => [ICNOT (snd p) (fst p)])). intros [a b] Hp l k. destruct (H a b Hp) as (H1 & H2 & H3). exists [ICNOT b a], k. unfold radd. cbn [fst snd].
  rewrite add_under by (apply (gate_on2 n _ a b); auto; discriminate). cbn [rbind]. split; auto. split; [constructor; auto; apply (gate_on2 n _ a b); auto; discriminate|]. split; auto. constructor; auto. intros x E. discriminate E.
Qed.
Lemma emits_rzz g n pairs : good_draws g -> pairs_ok n pairs -> emits n (rzzs pairs) (entangler_rzz g pairs).
Proof.
  intros HG H. unfold rzzs. rewrite <- flat_single. apply (emits_rfold n (fun p => [IRZZ (snd p) (fst p) 0%R])). intros [a b] Hp. destruct (H a b Hp) as (H1 & H2 & H3). cbn [fst snd].
  apply (emits_rot g n (IRZZ b a) HG). intros x. split; auto. apply (gate_on2 n _ a b); auto; discriminate.
Qed.
Lemma emits_first g n : good_draws g -> emits n (map (fun q => IRX q 0) (range n)) (first_rotation g n).
Proof. intros HG. rewrite <- flat_single. apply (emits_rfold n (fun q => [IRX q 0%R])). intros q Hq. apply in_seq in Hq. apply emits_rx; auto; lia. Qed.
Lemma emits_last g n : good_draws g -> emits n (map (fun q => IRZ q 0) (range n)) (last_rotation g n).
Proof. intros HG. rewrite <- flat_single. apply (emits_rfold n (fun q => [IRZ q 0%R])). intros q Hq. apply in_seq in Hq. apply emits_rz; auto; lia. Qed.
Lemma emits_mid g n : good_draws g -> emits n (flat_map (fun q => [IRX q 0; IRZ q 0]%R) (range n)) (mid_rotation g n).
Proof. intros HG. apply (emits_rfold n (fun q => [IRX q 0; IRZ q 0]%R)). intros q Hq. apply in_seq in Hq. apply (emits_bind n [IRX q 0%R] [IRZ q 0%R] (rrot g (IRX q)) (rrot g (IRZ q))); [apply emits_rx|apply emits_rz]; auto; lia. Qed.
Definition later (rzz : bool) (pairs : list (nat * nat)) : list instr := if rzz then rzzs pairs else cnots pairs.
Lemma emits_later g n (b : bool) pairs : good_draws g -> pairs_ok n pairs -> emits n (later b pairs) (fun s => if b then entangler_rzz g pairs s else entangler pairs s).
Proof. intros HG HP. destruct b; [apply emits_rzz|apply emits_entangler]; auto. Qed.
Lemma emits_loop g n b pairs d : good_draws g -> pairs_ok n pairs ->
  emits n (concat (repeat (flat_map (fun q => [IRX q 0; IRZ q 0]%R) (range n) ++ later b pairs) d)) (rand_gate_loop g n d b (ISeq pairs)).
Proof.
  intros HG HP. induction d as [|d IH]; [apply emits_nil|]. cbn [repeat concat rand_gate_loop pass]. rewrite <- app_assoc.
  apply (emits_bind n _ _ (mid_rotation g n) (fun s => do s <- (if b then entangler_rzz g pairs s else entangler pairs s); rand_gate_loop g n d b (ISeq pairs) s)); [apply emits_mid; auto|].
  apply (emits_bind n _ _ (fun s => if b then entangler_rzz g pairs s else entangler pairs s) (rand_gate_loop g n d b (ISeq pairs))); auto. apply emits_later; auto.
Qed.
Lemma emits_loop_iter g n b d : good_draws g ->
  emits n (concat (repeat (flat_map (fun q => [IRX q 0; IRZ q 0]%R) (range n)) d)) (rand_gate_loop g n d b (IIter [])).
Proof.
  intros HG. induction d as [|d IH]; [apply emits_nil|]. cbn [repeat concat rand_gate_loop pass].
  apply (emits_bind n _ _ (mid_rotation g n) (fun s => do s <- (if b then entangler_rzz g [] s else entangler [] s); rand_gate_loop g n d b (IIter []) s)); [apply emits_mid; auto|].
  apply (emits_bind n [] _ (fun s => if b then entangler_rzz g [] s else entangler [] s) (rand_gate_loop g n d b (IIter []))); auto. destruct b; apply emits_nil.
Qed.
Lemma rand_gate_emits g n depth pairs b A : good_draws g -> pairs_ok n (fst (pass pairs)) -> emits n A (rand_gate_loop g n (depth - 1) b (snd (pass pairs))) ->
  exists c, rand_gate g n depth pairs b = Ok c /\ c_width c = n /\ circ_make n (c_instr c) = Ok c /\
    map shape (c_instr c) = map (fun q => IRX q 0%R) (range n) ++ cnots (fst (pass pairs)) ++ A ++ map (fun q => IRZ q 0%R) (range n) /\
    (forall i a, In i (c_instr c) -> angle_of i = Some a -> (0 <= a < 1)%R).
Proof.
  intros HG HP HA. unfold rand_gate. destruct (pass pairs) as [l it] eqn:E. cbn [fst snd] in *.
  pose proof (emits_bind n _ _ _ _ HA (emits_last g n HG)) as E1. pose proof (emits_bind n _ _ _ _ (emits_entangler n l HP) E1) as E2. pose proof (emits_bind n _ _ _ _ (emits_first g n HG) E2) as E3. cbv beta in E3.
  destruct (E3 [] 0) as (l' & k' & R & G & D & S). change (circ_new n) with (under n []). exists (under n l'). split.
  - destruct (first_rotation g n (under n [], 0)) as [s1|e]; cbn [rbind] in *; [|discriminate]. destruct (entangler l s1) as [s2|e]; cbn [rbind] in *; [|discriminate].
    destruct (rand_gate_loop g n (depth - 1) b it s2) as [s3|e]; cbn [rbind] in *; [|discriminate]. rewrite R. reflexivity.
  - split; auto. split; [apply under_make; auto|]. split; [exact S|]. intros i a Hi Ha. rewrite Forall_forall in D. apply (D i Hi a Ha).
Qed.
(** for a list of pairs of distinct qubits of the register: the layers in order,
    every angle in [0, 1) *)
Theorem C57_rand_gate : forall g n depth pairs use_rzz, good_draws g -> pairs_ok n pairs ->
  exists c, rand_gate g n depth (ISeq pairs) use_rzz = Ok c /\ c_width c = n /\ circ_make n (c_instr c) = Ok c /\
    map shape (c_instr c) = gate_layers n depth (cnots pairs) (if use_rzz then rzzs pairs else cnots pairs) /\
    (forall i a, In i (c_instr c) -> angle_of i = Some a -> (0 <= a < 1)%R).
Proof.
  intros g n depth pairs b HG HP. apply (rand_gate_emits g n depth (ISeq pairs) b _ HG HP). apply emits_loop; auto.
Qed.
Print Assumptions C57_rand_gate.
(** contrary to the docstring, the first entangling layer is made of CNOTs even
    with use_rzz=True, depth 0 is depth 1, and an iterator of pairs is used for
    the first layer only *)
Theorem C57_rand_gate_refuted : forall g n pairs, good_draws g -> pairs_ok n pairs -> pairs <> [] ->
  (forall depth, exists c t q, rand_gate g n depth (ISeq pairs) true = Ok c /\ In (ICNOT t q) (c_instr c)) /\
  (forall b, rand_gate g n 0 (ISeq pairs) b = rand_gate g n 1 (ISeq pairs) b) /\
  (forall depth b, exists c, rand_gate g n depth (IIter pairs) b = Ok c /\ map shape (c_instr c) = gate_layers n depth (cnots pairs) []).
Proof.
  intros g n pairs HG HP NE. split; [|split; [reflexivity|]].
  - intros depth. destruct (C57_rand_gate g n depth pairs true HG HP) as (c & E & _ & _ & S & _). destruct pairs as [|[a b] pairs]; [tauto|]. exists c, b, a. split; auto.
    assert (I : In (ICNOT b a) (map shape (c_instr c))) by (rewrite S; unfold gate_layers; apply in_or_app; right; left; reflexivity).
    apply in_map_iff in I. destruct I as (i & Ei & Hi). replace (ICNOT b a) with i; auto. destruct i; cbn in Ei; try discriminate; auto.
  - intros depth b. destruct (rand_gate_emits g n depth (IIter pairs) b _ HG HP (emits_loop_iter g n b (depth - 1) HG)) as (c & E & _ & _ & S & _). exists c. split; auto. rewrite S. cbn [pass fst]. unfold gate_layers. rewrite app_nil_r. auto.
Qed.
Print Assumptions C57_rand_gate_refuted.
(** with parameters given as an iterator, only the RX gates can carry one *)
Theorem C57_parameters_iterator_refuted : forall o l, parameters o = IIter l ->
  forall f q a, In f (gate_choice o) -> (f q = IRY q a -> a = 1 / 4)%R /\ (f q = IRZ q a -> a = - 1 / 4)%R.
Proof.
  intros o l E f q a H. unfold gate_choice in H. rewrite E in H. unfold parametric_choice in H. cbn [pass map app] in H. rewrite !app_nil_r in H.
  cbn [In] in H. rewrite in_app_iff, in_map_iff in H.
  repeat (destruct H as [<-|H]; [split; intros K; inversion K; auto|]). destruct H as [(x & <- & _)|H]; [split; intros K; inversion K|].
  destruct (use_j o); [|destruct H]. destruct H as [<-|[]]. split; intros K; inversion K.
Qed.
Print Assumptions C57_parameters_iterator_refuted.

(** * Matrices and states *)
Local Open Scope C_scope.
Theorem C57_rand_herm : forall g k sz i j, rand_herm g k sz i j = Cconj (rand_herm g k sz j i).
Proof. intros. unfold rand_herm, cadj. rewrite Cconj_add, Cconj_inv. ring. Qed.
Print Assumptions C57_rand_herm.

Lemma mulRtoC_norm a b r : (a * RtoC r * Cconj a) * b = RtoC r * RtoC (Cnorm2 a) * b.
Proof. rewrite <- Cnorm2_mulconj. ring. Qed.
(** the quadratic form of a d x d matrix *)
Definition quad_d (d : nat) (rho : cmat) (v : nat -> C) : C := csum (range d) (fun i => csum (range d) (fun j => Cconj (v i) * rho i j * v j)).
Section Dm.
Variables (U : cmat) (dim : nat) (p : nat -> R).
Hypothesis HU : unitary_d dim U.
Let D : cmat := fun i j => if (i =? j)%nat then RtoC (p i) else C0.
Let rho : cmat := cmm dim (cmm dim U D) (cadj U).
Lemma dm_entry i j : rho i j = csum (range dim) (fun k => U i k * RtoC (p k) * Cconj (U j k)).
Proof.
  unfold rho, cmm, cadj. apply csum_ext. intros k Hk. f_equal. transitivity (csum (range dim) (fun l => (if (l =? k)%nat then C1 else C0) * (U i l * RtoC (p l)))).
  - apply csum_ext. intros l _. unfold D. destruct (Nat.eqb_spec l k) as [->|]; ring.
  - rewrite (csum_delta (range dim) k) by (auto; apply seq_NoDup). auto.
Qed.
Lemma dm_herm i j : rho i j = Cconj (rho j i).
Proof. rewrite !dm_entry, csum_conj. apply csum_ext. intros k _. rewrite !Cconj_mul, Cconj_inv, Cconj_R. ring. Qed.
Lemma dm_tr : csum (range dim) (fun i => rho i i) = RtoC (rsum (range dim) p).
Proof.
  transitivity (csum (range dim) (fun k => csum (range dim) (fun i => RtoC (p k) * (cadj U k i * U i k)))).
  - symmetry. rewrite csum_swap. apply csum_ext. intros i _. rewrite dm_entry. apply csum_ext. intros k _. unfold cadj. ring.
  - rewrite <- csum_RtoC. apply csum_ext. intros k Hk. apply in_seq in Hk. rewrite csum_mul. fold (cmm dim (cadj U) U k k). rewrite HU by lia. unfold eye. rewrite Nat.eqb_refl. ring.
Qed.
Lemma dm_quad v : quad_d dim rho v = RtoC (rsum (range dim) (fun k => p k * Cnorm2 (csum (range dim) (fun i => (Cconj (v i) * U i k)%C)))%R).
Proof.
  rewrite <- csum_RtoC. unfold quad_d. transitivity (csum (range dim) (fun k => csum (range dim) (fun i => csum (range dim) (fun j => RtoC (p k) * ((Cconj (v i) * U i k) * Cconj (Cconj (v j) * U j k)))))).
  - symmetry. rewrite csum_swap. apply csum_ext. intros i _. rewrite csum_swap. apply csum_ext. intros j _. rewrite dm_entry. symmetry.
    transitivity (csum (range dim) (fun k => (Cconj (v i) * v j) * (U i k * RtoC (p k) * Cconj (U j k)))); [rewrite (csum_mul (range dim) (Cconj (v i) * v j)); ring|]. apply csum_ext. intros k _. rewrite Cconj_mul, Cconj_inv. ring.
  - apply csum_ext. intros k _. rewrite RtoC_mul, <- Cnorm2_mulconj, csum_conj. rewrite (csum_ext _ _ (fun i => RtoC (p k) * ((Cconj (v i) * U i k) * csum (range dim) (fun j => Cconj (Cconj (v j) * U j k))))).
    + rewrite csum_mul, csum_mulr. auto.
    + intros i _. rewrite csum_mul, csum_mul. auto.
Qed.
End Dm.
Lemma rsum_div {X} (l : list X) F s : rsum l (fun x => F x / s)%R = (rsum l F / s)%R.
Proof. unfold rsum, gsum. induction l as [|x l IH]; cbn [fold_right]; [unfold Rdiv; ring|]. rewrite IH. unfold Rdiv. ring. Qed.
Lemma rsum_pos_ex {X} (l : list X) F x : (forall x, In x l -> (0 <= F x)%R) -> In x l -> (0 < F x)%R -> (0 < rsum l F)%R.
Proof.
  intros H Hx P. destruct (Rle_lt_dec (rsum l F) 0) as [L|L]; auto. pose proof (rsum_nonneg l F H). assert (E : rsum l F = 0%R) by lra. pose proof (rsum_zero l F H E x Hx). lra.
Qed.
Lemma rsum_app {X} (l l' : list X) F : rsum (l ++ l') F = (rsum l F + rsum l' F)%R.
Proof. unfold rsum, gsum. induction l as [|x l IH]; cbn; [lra|]. rewrite IH. ring. Qed.
Lemma rsum_all0 {X} (l : list X) F : (forall x, In x l -> F x = 0%R) -> rsum l F = 0%R.
Proof. unfold rsum, gsum. induction l as [|x l IH]; cbn; intros H; auto. rewrite IH, (H x) by auto. ring. Qed.
Lemma csum_app {X} (l l' : list X) F : csum (l ++ l') F = csum l F + csum l' F.
Proof. unfold csum, gsum. induction l as [|x l IH]; cbn [app fold_right]; [ring|]. rewrite IH. ring. Qed.
Lemma csum_all0 {X} (l : list X) F : (forall x, In x l -> F x = C0) -> csum l F = C0.
Proof. unfold csum, gsum. induction l as [|x l IH]; cbn [fold_right]; intros H; auto. rewrite (H x) by (left; auto). rewrite IH by (intros; apply H; right; auto). ring. Qed.
(** a rank above dim is refused; otherwise, unless every drawn eigenvalue is
    zero (NaN), the matrix is Hermitian, of trace one and positive, a mixture of
    at most [rank] columns of the unitary matrix *)
Theorem C57_rand_dm : forall g k U dim rank, good_draws g -> unitary_d dim U ->
  let r := match rank with None => dim | Some r => r end in
  ((dim < r)%nat -> rand_dm g k U dim rank = Err EValue) /\
  ((r <= dim)%nat -> (forall i, (i < r)%nat -> d_random g k i = 0%R) -> rand_dm g k U dim rank = Err ENan) /\
  ((r <= dim)%nat -> (exists i, (i < r)%nat /\ d_random g k i <> 0%R) ->
     exists rho p, rand_dm g k U dim rank = Ok rho /\
       (forall i j, rho i j = Cconj (rho j i)) /\
       csum (range dim) (fun i => rho i i) = C1 /\
       (forall v, exists x, (0 <= x)%R /\ quad_d dim rho v = RtoC x) /\
       (forall i, (0 <= p i)%R) /\ rsum (range r) p = 1%R /\
       (forall i j, rho i j = csum (range r) (fun c => RtoC (p c) * (U i c * Cconj (U j c))))).
Proof.
  intros g k U dim rank HG HU r. unfold rand_dm. fold r. set (pad := fun i => if (i <? r)%nat then d_random g k i else 0%R). set (s := rsum (range dim) pad).
  assert (PN : forall i, (0 <= pad i)%R) by (intros i; unfold pad; destruct (i <? r)%nat; [apply HG|lra]).
  split; [intros H; apply Nat.ltb_lt in H; rewrite H; auto|]. split.
  - intros H Z. replace (dim <? r)%nat with false by (symmetry; apply Nat.ltb_ge; auto). assert (E : s = 0%R).
    { unfold s. rewrite (rsum_ext _ _ (fun _ => 0 * 0)%R); [rewrite (rsum_ext _ _ (fun x => (fun _ => 0%R) x / 1)%R)|].
      - clear. unfold rsum, gsum. induction (range dim); cbn [fold_right]; lra.
      - intros; lra.
      - intros i _. unfold pad. destruct (Nat.ltb_spec i r); [rewrite Z by auto|]; lra. }
    destruct (Req_EM_T s 0); [auto|contradiction].
  - intros H (i0 & Hi0 & NZ). replace (dim <? r)%nat with false by (symmetry; apply Nat.ltb_ge; auto).
    assert (SP : (0 < s)%R).
    { apply (rsum_pos_ex _ _ i0); [auto|apply in_seq; lia|]. unfold pad. replace (i0 <? r)%nat with true by (symmetry; apply Nat.ltb_lt; auto). pose proof (proj1 HG k i0). lra. }
    destruct (Req_EM_T s 0) as [E|_]; [lra|]. set (p := fun i => (pad i / s)%R). exists (cmm dim (cmm dim U (fun i j => if (i =? j)%nat then RtoC (p i) else C0)) (cadj U)), p. split; [reflexivity|].
    assert (PP : forall i, (0 <= p i)%R) by (intros i; unfold p; apply Rmult_le_pos; [auto|apply Rlt_le, Rinv_0_lt_compat; auto]).
    assert (S1 : rsum (range dim) p = 1%R) by (unfold p; rewrite rsum_div; fold s; field; lra).
    assert (RS : range dim = range r ++ seq r (dim - r)) by (unfold range; replace dim with (r + (dim - r))%nat at 1 by lia; rewrite seq_app; auto).
    assert (P0 : forall i, (r <= i)%nat -> p i = 0%R) by (intros i Hi; unfold p, pad; replace (i <? r)%nat with false by (symmetry; apply Nat.ltb_ge; auto); unfold Rdiv; ring).
    split; [intros i j; apply (dm_herm U dim p)|]. split; [rewrite (dm_tr U dim p HU), S1; auto|]. split; [|split; [exact PP|split]].
    + intros v. eexists. split; [|apply (dm_quad U dim p)]. apply rsum_nonneg. intros c _. apply Rmult_le_pos; [auto|apply Cnorm2_nonneg].
    + rewrite <- S1, RS, rsum_app. rewrite (rsum_all0 (seq r (dim - r))); [ring|]. intros x Hx. apply in_seq in Hx. apply P0. lia.
    + intros i j. rewrite (dm_entry U dim p), RS, csum_app. rewrite (csum_all0 (seq r (dim - r))).
      * rewrite Cadd_0. apply csum_ext. intros c _. ring.
      * intros c Hc. apply in_seq in Hc. rewrite P0 by lia. change (RtoC 0) with C0. ring.
Qed.
Print Assumptions C57_rand_dm.
(** for dim = 2^n it is a density matrix in the sense of C26/C56; rank one gives
    a pure state; rand_unit(1) is unitary *)
Corollary C57_rand_dm_qubits : forall g k U n rank rho, good_draws g -> unitary_d (2 ^ n) U -> rand_dm g k U (2 ^ n) rank = Ok rho ->
  psd n (drep n rho) /\ dm_trace n rho = C1 /\ (rank = Some 1%nat -> forall i j, rho i j = U i 0%nat * Cconj (U j 0%nat)).
Proof.
  intros g k U n rank rho HG HU E. pose proof (C57_rand_dm g k U (2 ^ n) rank HG HU) as (H1 & H2 & H3). set (r := match rank with None => (2 ^ n)%nat | Some r => r end) in *.
  assert (L : (r <= 2 ^ n)%nat) by (destruct (Nat.le_gt_cases r (2 ^ n)); auto; rewrite H1 in E by auto; discriminate).
  assert (X : (exists i, (i < r)%nat /\ d_random g k i <> 0%R) \/ forall i, (i < r)%nat -> d_random g k i = 0%R).
  { clear. induction r as [|r IH]; [right; intros; lia|]. destruct IH as [(i & Hi & N)|A]; [left; exists i; split; auto|]. destruct (Req_EM_T (d_random g k r) 0) as [Z|Z]; [|left; exists r; split; auto].
    right. intros i Hi. destruct (Nat.eq_dec i r) as [->|]; auto. apply A. lia. }
  destruct X as [X|X]; [|rewrite H2 in E by auto; discriminate]. destruct (H3 L X) as (rho' & p & E' & _ & T & Q & PP & PS & F). rewrite E in E'. injection E' as <-. split; [|split].
  - apply psd_bil. exact Q.
  - exact T.
  - intros R1 i j. unfold r in *. rewrite R1 in *. rewrite F. unfold csum, gsum, rsum, range in *. cbn [seq fold_right] in *. unfold gsum in PS. cbn [fold_right] in PS. replace (p 0%nat) with 1%R by lra. change (RtoC 1) with C1. ring.
Qed.
Lemma rand_unit1_unitary g k : unitary_d 1 (rand_unit1 g k).
Proof.
  intros i j Hi Hj. assert (i = 0%nat) by lia. assert (j = 0%nat) by lia. subst. unfold cmm, range, csum, gsum, cadj, rand_unit1. cbn [seq fold_right]. unfold eye. cbn [Nat.eqb].
  transitivity (cis (2 * d_random g k 0) * Cconj (cis (2 * d_random g k 0))); [ring|]. rewrite Cnorm2_mulconj. pose proof (phase_cis (2 * d_random g k 0)) as P. unfold phase in P. rewrite P. reflexivity.
Qed.
Print Assumptions C57_rand_dm_qubits.

(** ** rand_state_vector *)
(** unless every component is drawn as zero: a vector of 2^n amplitudes of norm
    one, which Statevec accepts as data *)
Theorem C57_rand_state_vector : forall g k n close1, close1 1%R = true ->
  (exists i, (i < 2 * 2 ^ n)%nat /\ d_random g k i <> (/ 2)%R) ->
  exists v s, rand_state_vector g k n = Ok v /\ length v = (2 ^ n)%nat /\ rsum v Cnorm2 = 1%R /\
    sv_make_amps close1 v = Ok s /\ sv_n s = n /\ normalised s /\ forall i, (i < 2 ^ n)%nat -> sv_psi s i = nth i v C0.
Proof.
  intros g k n close1 HC (i0 & Hi0 & NZ). set (dim := (2 ^ n)%nat) in *. set (vec := fun i => mkC (d_random g k i - / 2)%R (d_random g k (dim + i) - / 2)%R). set (q := rsum (range dim) (fun i => Cnorm2 (vec i))).
  assert (EQ : rand_state_vector g k n = if Req_EM_T (sqrt q) 0 then Err ENan else Ok (map (fun i => vec i * RtoC (/ sqrt q)) (range dim))) by reflexivity. rewrite EQ. clear EQ.
  assert (QP : (0 < q)%R).
  { assert (G : exists i, (i < dim)%nat /\ (0 < Cnorm2 (vec i))%R).
    { destruct (Nat.lt_ge_cases i0 dim) as [L|L]; [exists i0|exists (i0 - dim)%nat]; (split; [lia|]); unfold Cnorm2, vec; cbn [re im].
      - assert (d_random g k i0 - / 2 <> 0)%R by lra. pose proof (Rsqr_pos_lt _ H) as P. unfold Rsqr in P. pose proof (Rle_0_sqr (d_random g k (dim + i0) - / 2)) as P2. unfold Rsqr in P2. lra.
      - replace (dim + (i0 - dim))%nat with i0 by lia. assert (d_random g k i0 - / 2 <> 0)%R by lra. pose proof (Rsqr_pos_lt _ H) as P. unfold Rsqr in P. pose proof (Rle_0_sqr (d_random g k (i0 - dim) - / 2)) as P2. unfold Rsqr in P2. lra. }
    destruct G as (i & Hi & P). apply (rsum_pos_ex _ _ i); auto; [intros; apply Cnorm2_nonneg|apply in_seq; lia]. }
  pose proof (sqrt_lt_R0 q QP) as SQ. destruct (Req_EM_T (sqrt q) 0) as [E|_]; [lra|]. set (v := map (fun i => vec i * RtoC (/ sqrt q)) (range dim)).
  assert (LV : length v = dim) by (unfold v; rewrite map_length; apply seq_length).
  assert (NV : rsum v Cnorm2 = 1%R).
  { unfold v, rsum. rewrite (gsum_map R Rplus 0%R). change (rsum (range dim) (fun i => Cnorm2 (vec i * RtoC (/ sqrt q))) = 1%R). rewrite (rsum_ext _ _ (fun i => Cnorm2 (vec i) / q)%R).
    - rewrite rsum_div. fold q. field. lra.
    - intros i _. rewrite Cnorm2_mul, Cnorm2_R. unfold Rdiv. f_equal. rewrite <- Rinv_mult. rewrite sqrt_sqrt by lra. auto. }
  assert (MK : sv_make_amps close1 v = Ok (SV (fun i => nth i v C0) n)).
  { pose proof (pow2_pos n). destruct v as [|x v0] eqn:EV; [simpl in LV; lia|]. unfold sv_make_amps, sv_make, is_pow2. rewrite LV. unfold dim. rewrite Nat.log2_pow2, !Nat.eqb_refl, NV, sqrt_1, HC by lia. auto. }
  exists v, (SV (fun i => nth i v C0) n). split; [reflexivity|]. split; auto. split; auto. split; [exact MK|]. cbn [sv_n sv_psi]. split; auto. split; auto. unfold normalised. cbn [sv_n sv_psi]. fold dim. rewrite <- NV. rewrite <- LV.
  clear. unfold rsum, gsum. transitivity (fold_right (fun x a => (Cnorm2 x + a)%R) 0%R (map (fun i => nth i v C0) (range (length v)))).
  - generalize (range (length v)). intros l. induction l as [|x l IH]; cbn; auto. rewrite IH. auto.
  - f_equal. unfold range. clear. induction v as [|x l IH]; auto. cbn [length seq map nth]. f_equal. rewrite <- seq_shift, map_map. auto.
Qed.
Print Assumptions C57_rand_state_vector.

(** ** rand_channel_kraus *)
Lemma cmm_assoc d A B Q i j : cmm d (cmm d A B) Q i j = cmm d A (cmm d B Q) i j.
Proof.
  unfold cmm. transitivity (csum (range d) (fun k => csum (range d) (fun l => A i l * B l k * Q k j))).
  - apply csum_ext. intros k _. rewrite csum_mulr. auto.
  - rewrite csum_swap. apply csum_ext. intros l _. rewrite <- csum_mul. apply csum_ext. intros k _. ring.
Qed.
Lemma cmm_ext d A A' B B' i j : (forall k, (k < d)%nat -> A i k = A' i k) -> (forall k, (k < d)%nat -> B k j = B' k j) -> cmm d A B i j = cmm d A' B' i j.
Proof. intros H1 H2. apply csum_ext. intros k Hk. apply in_seq in Hk. rewrite H1, H2 by lia. auto. Qed.
Lemma cmm_eye_l d A i j : (i < d)%nat -> cmm d eye A i j = A i j.
Proof.
  intros Hi. unfold cmm. rewrite (csum_ext _ _ (fun k => (if (k =? i)%nat then C1 else C0) * A k j)).
  - rewrite (csum_delta (range d) i); auto; [apply seq_NoDup|apply in_seq; lia].
  - intros k _. unfold eye. rewrite Nat.eqb_sym. auto.
Qed.
Lemma cmm_eye_r d A i j : (j < d)%nat -> cmm d A eye i j = A i j.
Proof.
  intros Hj. unfold cmm. rewrite (csum_ext _ _ (fun k => (if (k =? j)%nat then C1 else C0) * A i k)).
  - rewrite (csum_delta (range d) j); auto; [apply seq_NoDup|apply in_seq; lia].
  - intros k _. unfold eye. ring.
Qed.
Lemma cadj_cmm d A B i j : cadj (cmm d A B) i j = cmm d (cadj B) (cadj A) i j.
Proof. unfold cadj, cmm. rewrite csum_conj. apply csum_ext. intros k _. rewrite Cconj_mul. ring. Qed.
(** T^dagger H T = 1 for the inverse of a Hermitian square root *)
Lemma inv_sqrtm_spec d H T i j : inv_sqrtm d H T -> (i < d)%nat -> (j < d)%nat -> cmm d (cadj T) (cmm d H T) i j = eye i j.
Proof.
  intros (S0 & HS) Hi Hj.
  transitivity (cmm d (cadj T) (cmm d S0 eye) i j).
  - apply cmm_ext; auto. intros k Hk. transitivity (cmm d (cmm d S0 S0) T k j); [apply cmm_ext; auto; intros l Hl; symmetry; apply HS; auto|]. rewrite cmm_assoc. apply cmm_ext; auto. intros l Hl. apply HS; auto.
  - transitivity (cmm d (cadj T) S0 i j); [apply cmm_ext; auto; intros k Hk; apply cmm_eye_r; auto|].
    transitivity (cmm d (cadj T) (cadj S0) i j); [apply cmm_ext; auto; intros k Hk; symmetry; apply HS; auto|]. rewrite <- cadj_cmm. unfold cadj. rewrite (proj1 (proj2 (proj2 (HS j i Hj Hi)))). unfold eye. rewrite Nat.eqb_sym. destruct (i =? j)%nat; rewrite ?Cconj_1, ?Cconj_0; auto.
Qed.
Lemma csum_map {X Y} (f : X -> Y) l F : csum (map f l) F = csum l (fun x => F (f x)).
Proof. unfold csum, gsum. induction l as [|x l IH]; cbn [map fold_right]; auto. rewrite IH. auto. Qed.
Lemma kraus_new_long k data : (4 ^ k < length data)%nat -> kraus_new k data = Err EValue.
Proof. intros L. unfold kraus_new. destruct data; auto. apply Nat.ltb_lt in L. rewrite L. auto. Qed.
(** rank outside 1..dim^2: ValueError; otherwise [rank] Kraus operators with
    sum K^dagger K = 1, which the KrausChannel constructor accepts; T is the
    inverse square root of H = sum G^dagger G computed by scipy *)
Theorem C57_rand_channel_kraus : forall g sig k0 T k rank,
  let dim := (2 ^ k)%nat in let r := match rank with None => (dim * dim)%nat | Some r => r end in
  ((r < 1 \/ 4 ^ k < r)%nat -> rand_channel_kraus g sig k0 T k rank = Err EValue) /\
  ((1 <= r <= 4 ^ k)%nat -> inv_sqrtm dim (kraus_h g sig k0 dim r) T ->
     exists data, rand_channel_kraus g sig k0 T k rank = Ok data /\ length data = r /\ kcomplete k data).
Proof.
  intros g sig k0 T k rank dim r. unfold rand_channel_kraus. cbv zeta. fold dim. fold r. set (data := map (fun i => (C1, cmm dim (gauss_mat g sig (k0 + i) dim) T)) (range r)).
  assert (LD : length data = r) by (unfold data; rewrite map_length; apply seq_length). split.
  - intros [L|L]; [apply Nat.ltb_lt in L; rewrite L; auto|]. replace (r <? 1)%nat with false by (symmetry; apply Nat.ltb_ge; lia). apply kraus_new_long. unfold kraus in *. rewrite LD. auto.
  - intros [L1 L2] HI. replace (r <? 1)%nat with false by (symmetry; apply Nat.ltb_ge; lia).
    assert (KC : kcomplete k data).
    { intros i j Hi Hj. fold dim in Hi, Hj. rewrite <- (inv_sqrtm_spec dim _ T i j HI Hi Hj). unfold ksum. fold dim. unfold data. rewrite csum_map. cbn [fst snd].
      transitivity (csum (range r) (fun x => cmm dim (cadj (cmm dim (gauss_mat g sig (k0 + x) dim) T)) (cmm dim (gauss_mat g sig (k0 + x) dim) T) i j)).
      - apply csum_ext. intros x _. unfold cmm at 3. apply csum_ext. intros y _. unfold cadj. rewrite Cconj_mul, Cconj_1. ring.
      - transitivity (csum (range r) (fun x => csum (range dim) (fun a => cadj T i a * cmm dim (cmm dim (cadj (gauss_mat g sig (k0 + x) dim)) (gauss_mat g sig (k0 + x) dim)) T a j))).
        + apply csum_ext. intros x _. set (G := gauss_mat g sig (k0 + x) dim). transitivity (cmm dim (cmm dim (cadj T) (cadj G)) (cmm dim G T) i j); [apply cmm_ext; auto; intros; apply cadj_cmm|].
          rewrite cmm_assoc. unfold cmm at 1. apply csum_ext. intros a _. f_equal. symmetry. apply cmm_assoc.
        + rewrite csum_swap. unfold cmm at 3. apply csum_ext. intros a _. rewrite csum_mul. f_equal. unfold cmm at 1. rewrite csum_swap. unfold cmm at 2. apply csum_ext. intros b _. rewrite csum_mulr. unfold kraus_h. auto. }
    exists data. split; [|auto]. apply kraus_new_ok; auto; [intros E; rewrite E in LD; simpl in LD; lia|unfold kraus in *; rewrite LD; lia].
Qed.
Print Assumptions C57_rand_channel_kraus.

(** ** rand_pauli_channel_kraus *)
Lemma csum_range_double m F : csum (range (2 * m)) F = csum (range m) (fun a => F (2 * a)%nat + F (2 * a + 1)%nat).
Proof.
  induction m as [|m IH]; auto. replace (2 * S m)%nat with (2 * m + 2)%nat by lia. unfold range in *. rewrite seq_app, csum_app, IH. rewrite (seq_S m 0), csum_app. f_equal.
  replace (seq (0 + 2 * m) 2) with [2 * m; 2 * m + 1]%nat by (cbn [seq]; f_equal; f_equal; lia). replace (0 + m)%nat with m by lia. unfold csum, gsum. cbn [fold_right]. ring.
Qed.
Definition isom (n : nat) (A : cmat) : Prop := forall i j, (i < 2 ^ n)%nat -> (j < 2 ^ n)%nat -> csum (range (2 ^ n)) (fun r => Cconj (A r i) * A r j) = eye i j.
Lemma div2_lt i m : (i < 2 * m)%nat -> (i / 2 < m)%nat. Proof. intros. apply Nat.div_lt_upper_bound; lia. Qed.
Lemma isom_kron n A U : isom n A -> unitary U -> isom (S n) (kronm A U).
Proof.
  intros HA HU i j Hi Hj. change (2 ^ S n)%nat with (2 * 2 ^ n)%nat in *. rewrite csum_range_double. unfold kronm.
  rewrite (csum_ext _ _ (fun a => (Cconj (A a (i / 2)%nat) * A a (j / 2)%nat) * (Cconj (m2 U 0 (i mod 2)) * m2 U 0 (j mod 2) + Cconj (m2 U 1 (i mod 2)) * m2 U 1 (j mod 2)))).
  - rewrite csum_mulr, HA by (apply div2_lt; auto). pose proof (Nat.div_mod i 2 ltac:(lia)) as Di. pose proof (Nat.div_mod j 2 ltac:(lia)) as Dj.
    assert (UU : forall b c, (b < 2)%nat -> (c < 2)%nat -> Cconj (m2 U 0 b) * m2 U 0 c + Cconj (m2 U 1 b) * m2 U 1 c = eye b c).
    { destruct HU as [HU _]. clear - HU. intros b c Hb Hc. destruct U as [a0 a1 a2 a3]. unfold mmul, mdag, mid in HU. cbn in HU. injection HU as E1 E2 E3 E4 E5 E6 E7 E8.
      destruct b as [|[|b]], c as [|[|c]]; try lia; unfold m2, eye; cbn; apply C_eq; cbn; lra. }
    rewrite UU by (apply Nat.mod_upper_bound; lia). unfold eye. destruct (Nat.eqb_spec (i / 2) (j / 2)), (Nat.eqb_spec (i mod 2) (j mod 2)), (Nat.eqb_spec i j); subst; try lia; try congruence; ring.
  - intros a _. replace ((2 * a) / 2)%nat with a by (rewrite Nat.mul_comm, Nat.div_mul; lia). replace ((2 * a + 1) / 2)%nat with a by (rewrite Nat.mul_comm, Nat.div_add_l by lia; cbn; lia).
    replace ((2 * a) mod 2)%nat with 0%nat by (rewrite Nat.mul_comm, Nat.mod_mul; lia). replace ((2 * a + 1) mod 2)%nat with 1%nat by (rewrite Nat.add_comm, Nat.mul_comm, Nat.mod_add by lia; auto).
    rewrite !Cconj_mul. ring.
Qed.
Lemma tensors_isom n : forall A, In A (pauli_tensors n) -> isom n A.
Proof.
  induction n as [|n IH]; intros A H; cbn [pauli_tensors] in H.
  - destruct H as [<-|[]]. intros i j Hi Hj. cbn in Hi, Hj. assert (i = 0%nat) by lia. assert (j = 0%nat) by lia. subst. change (range (2 ^ 0)) with [0%nat]. unfold csum, gsum, eye. cbn [fold_right Nat.eqb]. rewrite Cconj_1. ring.
  - apply in_flat_map in H. destruct H as (B & HB & H). specialize (IH B HB). cbn in H. destruct H as [<-|[<-|[<-|[<-|[]]]]]; apply isom_kron; auto using unitary_id, unitary_X, unitary_Y, unitary_Z.
Qed.
Lemma tensors_length n : length (pauli_tensors n) = (4 ^ n)%nat.
Proof.
  induction n as [|n IH]; auto. cbn [pauli_tensors]. change (4 ^ S n)%nat with (4 * 4 ^ n)%nat. rewrite <- IH. clear. induction (pauli_tensors n) as [|A l IH]; auto. cbn [flat_map app length]. rewrite IH. lia.
Qed.
(** the tensor products of Pauli matrices, in lexicographic order (I, X, Y, Z) *)
Lemma nth_flat4 {A B} (f0 f1 f2 f3 : A -> B) (d : B) (e : A) (l : list A) : forall k, (k < 4 * length l)%nat ->
  nth k (flat_map (fun a => [f0 a; f1 a; f2 a; f3 a]) l) d = nth (k mod 4) [f0 (nth (k / 4) l e); f1 (nth (k / 4) l e); f2 (nth (k / 4) l e); f3 (nth (k / 4) l e)] d.
Proof.
  induction l as [|a l IH]; intros k H; [cbn in H; lia|]. destruct k as [|[|[|[|k]]]]; try reflexivity.
  cbn [length] in H. cbn [flat_map app]. replace (S (S (S (S k)))) with (k + 1 * 4)%nat at 2 3 4 5 6 by lia. rewrite Nat.mod_add, Nat.div_add by lia. replace (k / 4 + 1)%nat with (S (k / 4)) by lia. cbn [nth]. apply IH. lia.
Qed.
Theorem C57_pauli_ops : forall n, build_tensor_pauli_ops 0 = Err EValue /\ ((1 <= n)%nat -> build_tensor_pauli_ops n = Ok (pauli_tensors n)) /\
  length (pauli_tensors n) = (4 ^ n)%nat /\ pauli_tensors 0 = [eye] /\
  forall k, (k < 4 ^ S n)%nat -> nth k (pauli_tensors (S n)) eye = kronm (nth (k / 4) (pauli_tensors n) eye) (nth (k mod 4) [mid; mX; mY; mZ] mid).
Proof.
  intros n. split; [reflexivity|]. split; [intros H; unfold build_tensor_pauli_ops; replace (n <? 1)%nat with false by (symmetry; apply Nat.ltb_ge; auto); auto|]. split; [apply tensors_length|]. split; [reflexivity|].
  intros k H. cbn [pauli_tensors]. rewrite (nth_flat4 _ _ _ _ eye eye) by (rewrite tensors_length; exact H). pose proof (Nat.mod_upper_bound k 4 ltac:(lia)) as B. destruct (k mod 4) as [|[|[|[|m]]]]; try reflexivity. lia.
Qed.
Print Assumptions C57_pauli_ops.

Lemma Rnz_spec x : Rnz x = true <-> x <> 0%R.
Proof. unfold Rnz. destruct (Req_EM_T x 0); split; intros; auto; try discriminate; contradiction. Qed.
Lemma filter_combine_len {B} (l : list R) (l' : list B) : length l = length l' -> length (filter (fun p => Rnz (fst p)) (combine l l')) = length (filter Rnz l).
Proof. revert l'. induction l as [|x l IH]; intros [|y l'] H; try discriminate; auto. cbn. destruct (Rnz x); cbn; rewrite IH; auto. Qed.
Lemma filter_perm_len {X} (p : X -> bool) l l' : Permutation l l' -> length (filter p l) = length (filter p l').
Proof. induction 1; cbn; auto; [destruct (p x); cbn; auto|destruct (p x), (p y); cbn; auto|congruence]. Qed.
Lemma rsum_filter_nz {B} (l : list R) (l' : list B) : length l = length l' -> rsum (filter (fun p => Rnz (fst p)) (combine l l')) fst = rsum l (fun x => x).
Proof.
  unfold rsum, gsum. revert l'. induction l as [|x l IH]; intros [|y l'] H; try discriminate; auto. cbn [combine filter fst fold_right]. unfold Rnz at 1. destruct (Req_EM_T x 0) as [E|E]; cbn [fold_right fst]; rewrite IH by auto; rewrite ?E; ring.
Qed.
Lemma rsum_perm l l' : Permutation l l' -> rsum l (fun x => x) = rsum l' (fun x => x).
Proof. unfold rsum, gsum. induction 1; cbn; auto; [rewrite IHPermutation; auto|lra|congruence]. Qed.
Lemma filter_all {X} (p : X -> bool) l : (forall x, In x l -> p x = true) -> filter p l = l.
Proof. induction l as [|x l IH]; intros H; cbn; auto. rewrite (H x) by (left; auto). rewrite IH by (intros; apply H; right; auto). auto. Qed.
Lemma filter_none {X} (p : X -> bool) l : (forall x, In x l -> p x = false) -> filter p l = [].
Proof. induction l as [|x l IH]; intros H; cbn; auto. rewrite (H x) by (left; auto). apply IH. intros; apply H; right; auto. Qed.
Lemma filter_lt {X} (p : X -> bool) l x : In x l -> p x = false -> (length (filter p l) < length l)%nat.
Proof. induction l as [|y l IH]; intros H E; [destruct H|]. cbn. destruct H as [->|H]; [rewrite E; pose proof (filter_len p l); lia|]. specialize (IH H E). destruct (p y); cbn; lia. Qed.
Lemma pauli_complete n (sel : list (R * cmat)) : (forall p, In p sel -> (0 <= fst p)%R /\ isom n (snd p)) -> rsum sel fst = 1%R -> kcomplete n (map (fun p => (sq (fst p), snd p)) sel).
Proof.
  intros H S1 i j Hi Hj. unfold ksum. rewrite csum_map. cbn [fst snd]. transitivity (csum sel (fun p => RtoC (fst p) * eye i j)).
  - apply csum_ext. intros [p A] Hp. destruct (H _ Hp) as [Hp0 HA]. cbn [fst snd] in *. rewrite <- (HA i j Hi Hj), <- csum_mul. apply csum_ext. intros r _. rewrite Cconj_mul. unfold sq. rewrite Cconj_R.
    replace (RtoC p) with (RtoC (sqrt p) * RtoC (sqrt p)) by (rewrite <- RtoC_mul, sqrt_sqrt; auto). ring.
  - rewrite csum_mulr, csum_RtoC, S1. change (RtoC 1) with C1. ring.
Qed.
(** for at least one qubit: rank 0 or above 4^n is refused; when all the drawn
    weights are positive, [rank] distinct Pauli strings with the normalised
    weights in random places, an accepted (trace-preserving) channel; a drawn
    zero (which uniform can return) makes it fail with IndexError *)
Theorem C57_rand_pauli_channel : forall g k n rank, good_draws g -> (1 <= n)%nat ->
  let r := match rank with None => (4 ^ n)%nat | Some r => r end in
  let total := rsum (range r) (d_random g k) in
  ((r < 1 \/ 4 ^ n < r)%nat -> rand_pauli_channel_kraus g k n rank = Err EValue) /\
  ((1 <= r <= 4 ^ n)%nat -> (forall i, (i < r)%nat -> (0 < d_random g k i)%R) ->
     exists data prob, rand_pauli_channel_kraus g k n rank = Ok data /\ length data = r /\ kcomplete n data /\
       Permutation prob (map (fun i => d_random g k i / total)%R (range r) ++ repeat 0%R (4 ^ n - r)) /\
       data = map (fun p => (RtoC (sqrt (fst p)), snd p)) (filter (fun p => Rnz (fst p)) (combine prob (pauli_tensors n)))) /\
  ((1 <= r <= 4 ^ n)%nat -> (exists i, (i < r)%nat /\ d_random g k i = 0%R) -> (exists i, (i < r)%nat /\ d_random g k i <> 0%R) ->
     rand_pauli_channel_kraus g k n rank = Err EIndex).
Proof.
  intros g k n rank HG Hn r total. set (tmp := map (d_random g k) (range r)).
  assert (TS : rsum tmp (fun x => x) = total) by (unfold tmp, rsum; rewrite (gsum_map R Rplus 0%R); auto).
  assert (LT : length tmp = r) by (unfold tmp; rewrite map_length; apply seq_length).
  set (l0 := map (fun x => x / total)%R tmp ++ repeat 0%R (4 ^ n - r)). set (prob := shuffle g (S k) l0 0%R). set (sel := filter (fun p => Rnz (fst p)) (combine prob (pauli_tensors n))).
  assert (EL0 : l0 = map (fun i => d_random g k i / total)%R (range r) ++ repeat 0%R (4 ^ n - r)) by (unfold l0, tmp; rewrite map_map; auto).
  assert (PP : Permutation prob l0) by (apply shuffle_perm; auto).
  assert (EV : (1 <= r <= 4 ^ n)%nat -> total <> 0%R -> rand_pauli_channel_kraus g k n rank = if (length sel <? r)%nat then Err EIndex else kraus_new n (map (fun p => (sq (fst p), snd p)) (firstn r sel))).
  { intros [H1 H2] HT. unfold rand_pauli_channel_kraus. cbv zeta. assert (ER : match rank with None => Ok (4 ^ n)%nat | Some r => if (r <? 1)%nat then Err EValue else Ok r end = Ok r).
    { unfold r in *. destruct rank as [x|]; auto. replace (x <? 1)%nat with false by (symmetry; apply Nat.ltb_ge; auto). auto. }
    rewrite ER. cbn [rbind]. replace (4 ^ n <? r)%nat with false by (symmetry; apply Nat.ltb_ge; auto). fold tmp. rewrite TS. destruct (Req_EM_T total 0) as [E|_]; [contradiction|]. fold l0 prob.
    unfold build_tensor_pauli_ops. replace (n <? 1)%nat with false by (symmetry; apply Nat.ltb_ge; auto). cbn [rbind]. reflexivity. }
  split; [|split].
  - intros H. unfold rand_pauli_channel_kraus. cbv zeta. unfold r in H. destruct rank as [x|].
    + destruct (Nat.ltb_spec x 1); [auto|]. cbn [rbind]. replace (4 ^ n <? x)%nat with true by (symmetry; apply Nat.ltb_lt; lia). auto.
    + pose proof (Nat.pow_nonzero 4 n). lia.
  - intros Hr HP. assert (T0 : (0 < total)%R) by (apply (rsum_pos_ex _ _ 0%nat); [intros; apply Rlt_le, HP; apply in_seq in H; lia|apply in_seq; lia|apply HP; lia]).
    assert (LL : length l0 = (4 ^ n)%nat) by (unfold l0; rewrite app_length, map_length, repeat_length, LT; lia). assert (LP : length prob = length (pauli_tensors n)) by (rewrite (Permutation_length PP), tensors_length; auto).
    assert (LS : length sel = r).
    { unfold sel. rewrite filter_combine_len by auto. rewrite (filter_perm_len Rnz _ _ PP). unfold l0. rewrite filter_app, app_length.
      rewrite filter_all, filter_none.
      - rewrite map_length. simpl. lia.
      - intros x Hx. apply repeat_spec in Hx. subst. apply not_true_iff_false. rewrite Rnz_spec. tauto.
      - intros x Hx. apply in_map_iff in Hx. destruct Hx as (y & <- & Hy). apply in_map_iff in Hy. destruct Hy as (i & <- & Hi). apply in_seq in Hi. apply Rnz_spec. apply Rgt_not_eq, Rdiv_lt_0_compat; auto. apply HP. lia. }
    assert (KC : kcomplete n (map (fun p => (sq (fst p), snd p)) sel)).
    { apply pauli_complete.
      - intros [p A] Hp. cbn [fst snd]. apply filter_In in Hp. destruct Hp as [Hp _]. split.
        + apply in_combine_l in Hp. apply (Permutation_in _ PP) in Hp. unfold l0 in Hp. apply in_app_or in Hp. destruct Hp as [Hp|Hp]; [|apply repeat_spec in Hp; lra].
          apply in_map_iff in Hp. destruct Hp as (y & <- & Hy). apply in_map_iff in Hy. destruct Hy as (i & <- & Hi). apply in_seq in Hi. apply Rlt_le, Rdiv_lt_0_compat; auto. apply HP. lia.
        + apply tensors_isom. apply in_combine_r in Hp. auto.
      - unfold sel. rewrite rsum_filter_nz by auto. rewrite (rsum_perm _ _ PP). unfold l0. rewrite rsum_app. rewrite (rsum_all0 (repeat 0%R (4 ^ n - r))) by (intros x Hx; apply repeat_spec in Hx; auto).
        unfold rsum at 1. rewrite (gsum_map R Rplus 0%R). change (rsum tmp (fun x => x / total)%R + 0 = 1)%R. rewrite (rsum_div tmp (fun x => x) total), TS. field. lra. }
    exists (map (fun p => (sq (fst p), snd p)) sel), prob. rewrite EV by (auto; lra). replace (length sel <? r)%nat with false by (symmetry; apply Nat.ltb_ge; lia). rewrite (firstn_all2 sel) by lia.
    assert (LD : length (map (fun p => (sq (fst p), snd p)) sel) = r) by (rewrite map_length; auto).
    split; [apply kraus_new_ok; auto; [intros E; rewrite E in LD; simpl in LD; lia|unfold kraus in *; rewrite LD; lia]|]. split; auto. split; auto. split; [rewrite <- EL0; auto|reflexivity].
  - intros Hr (i0 & Hi0 & Z) (i1 & Hi1 & NZ). assert (T0 : (0 < total)%R).
    { apply (rsum_pos_ex _ _ i1); [intros; apply HG|apply in_seq; lia|]. pose proof (proj1 HG k i1). lra. }
    rewrite EV by (auto; lra). assert (LL : length l0 = (4 ^ n)%nat) by (unfold l0; rewrite app_length, map_length, repeat_length, LT; lia). assert (LP : length prob = length (pauli_tensors n)) by (rewrite (Permutation_length PP), tensors_length; auto).
    replace (length sel <? r)%nat with true; auto. symmetry. apply Nat.ltb_lt. unfold sel. rewrite filter_combine_len by auto. rewrite (filter_perm_len Rnz _ _ PP). unfold l0. rewrite filter_app, app_length. rewrite (filter_none Rnz (repeat 0%R (4 ^ n - r))).
    + cbn [length]. rewrite Nat.add_0_r. apply Nat.lt_le_trans with (length (map (fun x => x / total)%R tmp)); [|rewrite map_length; lia]. apply (filter_lt Rnz _ (d_random g k i0 / total)%R).
      * apply in_map_iff. exists (d_random g k i0). split; auto. apply in_map. apply in_seq. lia.
      * apply not_true_iff_false. rewrite Rnz_spec. intros K. apply K. rewrite Z. unfold Rdiv. ring.
    + intros x Hx. apply repeat_spec in Hx. subst. apply not_true_iff_false. rewrite Rnz_spec. tauto.
Qed.
Print Assumptions C57_rand_pauli_channel.

(** * Concrete cases *)
(** a generator that always draws x in (0, 1), reverses lists and picks gate 0;
    its normal numbers make the first 2 x 2 Gaussian matrix the identity *)
Definition gx (x : R) : draws := Draws (fun _ _ => x) (fun _ i => if (i =? 0)%nat || (i =? 6)%nat then 1%R else 0%R) (fun _ n => rev (range n)) (fun _ _ => 0%nat).
Example gx_good x : (0 < x < 1)%R -> good_draws (gx x).
Proof. intros H. split; [intros; cbn; lra|]. split; [intros; cbn; apply Permutation_sym, Permutation_rev|]. intros; cbn; lia. Qed.
(** a circuit of three qubits with all the families *)
Example ex_rand_circuit x depth o : (0 < x < 1)%R -> exists c, rand_circuit (gx x) 3 depth o = Ok c /\ c_width c = 3%nat.
Proof. intros H. destruct (C57_rand_circuit (gx x) 3 depth o (gx_good x H)) as (c & E & W & _); [lia|lia|]. eauto. Qed.
Example ex_rand_gate x : (0 < x < 1)%R -> pairs_ok 2 [(0, 1); (1, 0)]%nat /\
  rand_gate (gx x) 2 1 (ISeq [(0, 1); (1, 0)]%nat) false = Ok (under 2 [IRX 0 x; IRX 1 x; ICNOT 1 0; ICNOT 0 1; IRZ 0 x; IRZ 1 x]).
Proof. intros _. split; [|reflexivity]. intros a b [E|[E|[]]]; injection E as <- <-; lia. Qed.
Example ex_rand_dm x : (0 < x < 1)%R -> unitary_d 2 eye /\ exists rho, rand_dm (gx x) 0 eye 2 (Some 1%nat) = Ok rho.
Proof.
  intros H. assert (U : unitary_d 2 eye).
  { intros i j Hi Hj. transitivity (cmm 2 eye eye i j); [|apply cmm_eye_l; auto]. apply cmm_ext; auto. intros c Hc. unfold cadj, eye. rewrite Nat.eqb_sym. destruct (i =? c)%nat; rewrite ?Cconj_1, ?Cconj_0; auto. }
  split; auto. destruct (C57_rand_dm (gx x) 0 eye 2 (Some 1%nat) (gx_good x H) U) as (_ & _ & G). destruct G as (rho & p & E & _); [lia|exists 0%nat; split; [lia|cbn; lra]|]. eauto.
Qed.
Example ex_state_vector x n : (0 < x < 1)%R -> x <> (/ 2)%R -> exists i, (i < 2 * 2 ^ n)%nat /\ d_random (gx x) 0 i <> (/ 2)%R.
Proof. intros _ H. exists 0%nat. split; auto. pose proof (pow2_pos n). lia. Qed.
Example ex_channel x : inv_sqrtm 2 (kraus_h (gx x) 1 0 2 1) eye.
Proof.
  assert (G : forall i j, (i < 2)%nat -> (j < 2)%nat -> gauss_mat (gx x) 1 0 2 i j = eye i j).
  { intros i j Hi Hj. destruct i as [|[|i]], j as [|[|j]]; try lia; unfold gauss_mat, gx, eye; cbn [d_normal Nat.mul Nat.add Nat.eqb orb]; apply C_eq; cbn; ring. }
  assert (A : forall i j, cadj eye i j = eye i j) by (intros i j; unfold cadj, eye; rewrite Nat.eqb_sym; destruct (i =? j)%nat; rewrite ?Cconj_1, ?Cconj_0; auto).
  exists eye. intros i j Hi Hj. split; [apply A|]. rewrite !cmm_eye_l by auto. split; auto. unfold kraus_h. change (range 1) with [0%nat]. unfold csum at 1, gsum. cbn [fold_right Nat.add]. rewrite Cadd_0.
  transitivity (cmm 2 eye eye i j); [rewrite cmm_eye_l; auto|]. apply cmm_ext; intros c Hc; [|symmetry; apply G; auto]. unfold cadj. rewrite (G c i Hc Hi). rewrite <- (A i c). reflexivity.
Qed.
Example ex_pauli x n : (0 < x < 1)%R -> (1 <= n)%nat -> exists data, rand_pauli_channel_kraus (gx x) 0 n None = Ok data /\ length data = (4 ^ n)%nat /\ kcomplete n data.
Proof.
  intros H Hn. destruct (C57_rand_pauli_channel (gx x) 0 n None (gx_good x H) Hn) as (_ & G & _). pose proof (Nat.pow_nonzero 4 n ltac:(lia)). destruct G as (data & prob & E & L & K & _); [lia|intros; cbn; lra|]. eauto.
Qed.
