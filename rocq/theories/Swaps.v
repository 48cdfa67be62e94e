(** Model of circuit construction (Circuit.add) and of transpile_swaps
    (graphix/transpiler.py). *)
From Coq Require Import Reals Lra Arith List Bool Lia Permutation FunctionalExtensionality.
From Verif Require Import Cplx Mat2 NSet QState Fundamentals CliffordDb Clifford Measure Pattern Statevec Density Circuit.
Import ListNotations.

(** transpiler.py:105-137 Circuit: width, instructions, active qubits *)
Record circuit := Circ { c_width : nat; c_instr : list instr; c_active : nset }.
(** transpiler.py:121-136 Circuit(width) *)
Definition circ_new (w : nat) : circuit := Circ w [] (of_list (range w)).
(** the assertions of the gate methods, transpiler.py:184-431: every qubit is
    active; two-qubit gates other than RZZ and CCX also check that their qubits
    are distinct *)
Fixpoint ndb (l : list nat) : bool := match l with [] => true | x :: l' => negb (existsb (Nat.eqb x) l') && ndb l' end.
Definition add_ok (active : nset) (i : instr) : bool :=
  forallb (fun q => mem q active) (iqubits i) && match i with IRZZ _ _ _ => true | _ => ndb (iqubits i) end.
(** transpiler.py:138-173 add, with the methods 184-431 it calls *)
Definition circ_add (c : circuit) (i : instr) : res circuit :=
  if add_ok (c_active c) i then
    Ok (Circ (c_width c) (c_instr c ++ [i]) (match i with IM q _ => sremove q (c_active c) | _ => c_active c end))
  else Err EAssert.
(** transpiler.py:175-178 extend; 121-136 Circuit(width, instr) *)
Definition circ_extend (c : circuit) (l : list instr) : res circuit := rfold circ_add l c.
Definition circ_make (w : nat) (l : list instr) : res circuit := circ_extend (circ_new w) l.

(** transpiler.py:1029-1033 OutputKind, OutputIndex *)
Inductive oidx := OQubit (i : nat) | OBit (k : nat).
(** transpiler.py:1057-1062 _TranspileSwapVisitor.visit_qubit *)
Definition visit_qubit (outs : list oidx) (q : nat) : res nat :=
  match nth_error outs q with
  | None => Err EIndex
  | Some (OBit _) => Err ERuntime
  | Some (OQubit i) => Ok i
  end.
(** instruction.py visit methods: rewrite the qubits, in the order of the code *)
Definition imap (v : nat -> res nat) (i : instr) : res instr :=
  match i with
  | ICCX t c0 c1 => do t' <- v t; do a <- v c0; do b <- v c1; Ok (ICCX t' a b)
  | IRZZ t c a => do t' <- v t; do c' <- v c; Ok (IRZZ t' c' a)
  | ICNOT t c => do t' <- v t; do c' <- v c; Ok (ICNOT t' c')
  | ICZ a b => do a' <- v a; do b' <- v b; Ok (ICZ a' b')
  | ISWAP a b => do a' <- v a; do b' <- v b; Ok (ISWAP a' b')
  | IH q => do q' <- v q; Ok (IH q') | IS q => do q' <- v q; Ok (IS q') | IX q => do q' <- v q; Ok (IX q')
  | IY q => do q' <- v q; Ok (IY q') | IZ q => do q' <- v q; Ok (IZ q') | II q => do q' <- v q; Ok (II q')
  | IM q ax => do q' <- v q; Ok (IM q' ax)
  | IRX q a => do q' <- v q; Ok (IRX q' a) | IRY q a => do q' <- v q; Ok (IRY q' a)
  | IRZ q a => do q' <- v q; Ok (IRZ q' a) | IJ q a => do q' <- v q; Ok (IJ q' a)
  end.
Fixpoint lset {A} (l : list A) (n : nat) (x : A) : list A :=
  match l, n with [], _ => [] | _ :: l', O => x :: l' | y :: l', S n' => y :: lset l' n' x end.
(** transpiler.py:1094-1110 one iteration; the state is (new circuit, outputs,
    measurement_index) *)
Definition swap_step (st : circuit * list oidx * nat) (i : instr) : res (circuit * list oidx * nat) :=
  let '(c, outs, mi) := st in
  match i with
  | ISWAP u v =>
      do _ <- visit_qubit outs u;
      do _ <- visit_qubit outs v;
      match nth_error outs u, nth_error outs v with
      | Some a, Some b => Ok (c, lset (lset outs u b) v a, mi)
      | _, _ => Err EIndex
      end
  | IM q _ =>
      do i' <- imap (visit_qubit outs) i;
      do c' <- circ_add c i';
      Ok (c', lset outs q (OBit mi), S mi)
  | _ =>
      do i' <- imap (visit_qubit outs) i;
      do c' <- circ_add c i';
      Ok (c', outs, mi)
  end.
(** transpiler.py:1065-1111 transpile_swaps (copy=True) *)
Definition transpile_swaps (c : circuit) : res (circuit * list oidx) :=
  match rfold swap_step (c_instr c) (circ_new (c_width c), map OQubit (range (c_width c)), 0) with
  | Ok (c', outs, _) => Ok (c', outs)
  | Err e => Err e
  end.

(** transpiler.py:1006-1008 extract_outputs *)
Definition out_qubits (outs : list oidx) : list nat := flat_map (fun o => match o with OQubit i => [i] | _ => [] end) outs.
Definition out_bits (outs : list oidx) : list nat := flat_map (fun o => match o with OBit k => [k] | _ => [] end) outs.
(** transpiler.py:1010-1018 extract_output_node_indices; [reduced_index] is the
    dictionary built by the loop *)
Fixpoint reduced_index (outs : list oidx) (index counter : nat) : dict nat :=
  match outs with
  | [] => []
  | OQubit _ :: outs' => (index, counter) :: reduced_index outs' (S index) (S counter)
  | OBit _ :: outs' => reduced_index outs' (S index) counter
  end.
Fixpoint rmap {A B} (f : A -> res B) (l : list A) : res (list B) :=
  match l with [] => Ok [] | a :: l' => do b <- f a; do bs <- rmap f l'; Ok (b :: bs) end.
Definition extract_output_node_indices (outs : list oidx) : res (list nat) :=
  let ri := reduced_index outs 0 0 in
  rmap (fun i => match dget ri i with Some r => Ok r | None => Err EKey end) (out_qubits outs).
(** transpiler.py:1020-1022 swap_output_nodes, 1024-1026 swap_classical_outputs *)
Definition lookup (l : list nat) (i : nat) : res nat := match nth_error l i with Some x => Ok x | None => Err EIndex end.
Definition swap_output_nodes (outs : list oidx) (nodes : list nat) : res (list nat) :=
  do r <- extract_output_node_indices outs; rmap (lookup nodes) r.
Definition swap_classical_outputs (outs : list oidx) (nodes : list nat) : res (list nat) := rmap (lookup nodes) (out_bits outs).

(** * Relabelling *)
(** the two states agree when qubit q of the first is qubit i of the second,
    for every unmeasured q *)
Definition agree (outs : list oidx) (f g : asg) : Prop := forall q i, nth_error outs q = Some (OQubit i) -> g i = f q.
Definition srel (outs : list oidx) (psi psi' : state) : Prop := forall f g, agree outs f g -> psi f = psi' g.
Definition oinj (outs : list oidx) : Prop := forall q q' i, nth_error outs q = Some (OQubit i) -> nth_error outs q' = Some (OQubit i) -> q = q'.
Definition oat (outs : list oidx) (q i : nat) : Prop := nth_error outs q = Some (OQubit i).
Lemma agree_upd outs f g q i b : oinj outs -> oat outs q i -> agree outs f g -> agree outs (upd f q b) (upd g i b).
Proof.
  intros HI HQ HA q' i' H. unfold upd. destruct (Nat.eqb_spec i' i) as [E|N].
  - subst. rewrite (HI q' q i H HQ), Nat.eqb_refl. auto.
  - destruct (Nat.eqb_spec q' q) as [->|N']; [|apply HA; auto]. unfold oat in HQ. congruence.
Qed.
Lemma agree_at outs f g q i : oat outs q i -> agree outs f g -> g i = f q.
Proof. intros H HA. apply HA; auto. Qed.
Lemma app1_rel outs U q i psi psi' : oinj outs -> oat outs q i -> srel outs psi psi' -> srel outs (app_op (OApp1 U q) psi) (app_op (OApp1 U i) psi').
Proof.
  intros HI HQ HS f g HA. simpl. rewrite (agree_at _ _ _ _ _ HQ HA).
  rewrite (HS _ _ (agree_upd _ _ _ _ _ false HI HQ HA)), (HS _ _ (agree_upd _ _ _ _ _ true HI HQ HA)). auto.
Qed.
Lemma cz_rel outs q i q' i' psi psi' : oat outs q i -> oat outs q' i' -> srel outs psi psi' -> srel outs (app_op (OCz q q') psi) (app_op (OCz i i') psi').
Proof. intros HQ HQ' HS f g HA. simpl. rewrite (agree_at _ _ _ _ _ HQ HA), (agree_at _ _ _ _ _ HQ' HA), (HS _ _ HA). auto. Qed.
Lemma agree_putf outs qs is c f g : oinj outs -> Forall2 (oat outs) qs is -> agree outs f g -> agree outs (putf qs c f) (putf is c g).
Proof.
  intros HI HF HA q i H. unfold putf.
  assert (K : (lmem i is = lmem q qs) /\ (lmem q qs = true -> pos_of i is = pos_of q qs)).
  { clear HA. induction HF as [|q0 i0 qs is H0 HF IH]; [split; auto|]. simpl. unfold lmem in *. simpl.
    destruct (Nat.eqb_spec q q0) as [->|N].
    - assert (i = i0) as -> by (unfold oat in *; congruence). rewrite Nat.eqb_refl. auto.
    - destruct (Nat.eqb_spec i i0) as [->|N']; [elim N; eapply HI; eauto|]. simpl. destruct IH as [A B]. split; auto. }
  destruct K as [K1 K2]. rewrite K1. destruct (lmem q qs) eqn:E; [|apply HA; auto]. rewrite K2; auto.
Qed.
Lemma Forall2_len {A B} (P : A -> B -> Prop) l l' : Forall2 P l l' -> length l = length l'.
Proof. induction 1; simpl; auto. Qed.
Lemma appk_rel outs M qs is psi psi' : oinj outs -> Forall2 (oat outs) qs is -> srel outs psi psi' -> srel outs (appk M qs psi) (appk M is psi').
Proof.
  intros HI HF HS f g HA. unfold appk. cbv zeta. assert (L : length qs = length is) by (eapply Forall2_len; eauto). rewrite <- L.
  apply cbsum_ext. intros a. f_equal; [|apply HS, agree_putf; auto]. f_equal. apply idx_ext. intros t Ht.
  assert (O : oat outs (nth t qs 0) (nth t is 0)).
  { clear - HF Ht. revert t Ht. induction HF; intros [|t] Ht; simpl in *; auto; try lia. apply IHHF; lia. }
  symmetry. apply (agree_at outs _ _ _ _ O HA).
Qed.
Lemma vq_ok outs q i : visit_qubit outs q = Ok i <-> oat outs q i.
Proof. unfold visit_qubit, oat. destruct (nth_error outs q) as [[j|k]|]; split; intros H; try discriminate; inversion H; auto. Qed.
(** a relabelled unitary gate has the same effect *)
Lemma gate_rel outs i i' psi psi' : oinj outs -> imap (visit_qubit outs) i = Ok i' -> srel outs psi psi' ->
  (forall u v, i <> ISWAP u v) -> srel outs (gate i psi) (gate i' psi').
Proof.
  intros HI HM HS HN.
  destruct i; cbn [imap] in HM;
  repeat match type of HM with rbind (visit_qubit outs ?q) _ = _ => let E := fresh "E" in destruct (visit_qubit outs q) eqn:E; cbn [rbind] in HM; [apply vq_ok in E|discriminate] end;
  injection HM as <-; cbn [gate]; auto using app1_rel, cz_rel; try (apply appk_rel; auto).
  elim (HN u v); auto.
Qed.

Lemma lset_length {A} (l : list A) n x : length (lset l n x) = length l.
Proof. revert n; induction l as [|y l IH]; intros [|n]; simpl; auto. Qed.
Lemma nth_lset {A} (l : list A) n x m : nth_error (lset l n x) m = if (m =? n) && (n <? length l) then Some x else nth_error l m.
Proof.
  revert n m; induction l as [|y l IH]; intros [|n] [|m]; simpl; auto. rewrite andb_false_r; auto.
  rewrite IH. auto.
Qed.
Lemma nth_lset_same {A} (l : list A) n x : n < length l -> nth_error (lset l n x) n = Some x.
Proof. intros H. rewrite nth_lset, Nat.eqb_refl. apply Nat.ltb_lt in H. rewrite H. auto. Qed.
Lemma nth_lset_other {A} (l : list A) n x m : m <> n -> nth_error (lset l n x) m = nth_error l m.
Proof. intros H. rewrite nth_lset. apply Nat.eqb_neq in H. rewrite H. auto. Qed.
(** targets of the measurements of a circuit, in order *)
Definition mtargets (l : list instr) : list nat := flat_map (fun i => match i with IM q _ => [q] | _ => [] end) l.
Definition maxes (l : list instr) : list axis := flat_map (fun i => match i with IM _ ax => [ax] | _ => [] end) l.
Definition is_swap (i : instr) : bool := match i with ISWAP _ _ => true | _ => false end.
(** the state only depends on qubits 0..w-1 *)
Definition on_register (w : nat) (psi : state) : Prop := forall f g, (forall q, q < w -> f q = g q) -> psi f = psi g.

Record swinv (w : nat) (l : list instr) (act : nset) (c' : circuit) (outs : list oidx) (mi : nat) : Prop := {
  sw_len : length outs = w;
  sw_width : c_width c' = w;
  sw_inj : oinj outs;
  sw_range : forall q i, oat outs q i -> mem i (c_active c') = true;
  sw_act : forall q, mem q act = true <-> exists i, oat outs q i;
  sw_act' : forall i, mem i (c_active c') = true -> exists q, oat outs q i;
  sw_mi : mi = length (mtargets l);
  sw_noswap : forallb (fun i => negb (is_swap i)) (c_instr c') = true;
  sw_axes : maxes (c_instr c') = maxes l;
  sw_bits : forall q k, nth_error outs q = Some (OBit k) <-> nth_error (mtargets l) k = Some q;
  sw_rel : forall o psi, on_register w psi -> srel outs (csem o 0 l psi) (csem o 0 (c_instr c') psi) }.

Lemma nmeas_mtargets l : nmeas l = length (mtargets l).
Proof. unfold nmeas, mtargets. induction l as [|i l IH]; simpl; auto. destruct i; simpl; auto. Qed.
Lemma maxes_mtargets l : length (maxes l) = length (mtargets l).
Proof. unfold maxes, mtargets. induction l as [|i l IH]; simpl; auto. destruct i; simpl; auto. Qed.
Lemma csem_snoc o l i psi : csem o 0 (l ++ [i]) psi = csem o (length (mtargets l)) [i] (csem o 0 l psi).
Proof. rewrite csem_app, nmeas_mtargets. auto. Qed.
Lemma swinv_init w : swinv w [] (of_list (range w)) (circ_new w) (map OQubit (range w)) 0.
Proof.
  assert (N : forall q x, nth_error (map OQubit (range w)) q = Some x <-> q < w /\ x = OQubit q).
  { intros q x. rewrite nth_error_map. unfold range. destruct (Nat.ltb_spec q w).
    - rewrite (nth_error_nth' _ 0) by (rewrite seq_length; auto). rewrite seq_nth by auto. simpl. split; [intros K; inversion K; auto|intros [_ ->]; auto].
    - assert (nth_error (seq 0 w) q = None) as -> by (apply nth_error_None; rewrite seq_length; lia). simpl. split; [discriminate|lia]. }
  assert (R : forall q, mem q (of_list (range w)) = true <-> q < w).
  { intros q. rewrite mem_of_list. unfold range. rewrite in_seq. lia. }
  constructor; auto.
  - rewrite map_length. unfold range. apply seq_length.
  - intros q q' i H H'. apply N in H, H'. destruct H as [_ H], H' as [_ H']. congruence.
  - intros q i H. apply N in H. destruct H as [H E]. inversion E; subst. apply R; auto.
  - intros q. rewrite R. unfold oat. split; [intros H; exists q; apply N; auto|]. intros (i & H). apply N in H. tauto.
  - intros i H. exists i. apply N. split; auto. apply R; auto.
  - intros q k. rewrite N. destruct k; simpl; split; [intros [_ ?]| |intros [_ ?]|]; discriminate.
  - intros o psi HP f g HA. simpl. apply HP. intros q Hq. symmetry. apply HA. apply N; auto.
Qed.
Lemma imap_total act outs i : (forall q, mem q act = true -> exists j, oat outs q j) -> forallb (fun q => mem q act) (iqubits i) = true ->
  exists i', imap (visit_qubit outs) i = Ok i' /\ Forall2 (oat outs) (iqubits i) (iqubits i') /\ is_swap i' = is_swap i /\ is_meas i' = is_meas i
    /\ maxes [i'] = maxes [i] /\ match i, i' with IRZZ _ _ _, IRZZ _ _ _ => True | IRZZ _ _ _, _ | _, IRZZ _ _ _ => False | _, _ => True end.
Proof.
  intros HA HF. rewrite forallb_forall in HF.
  destruct i; cbn [iqubits imap] in *;
  repeat match goal with |- context [rbind (visit_qubit outs ?q) _] =>
    let j := fresh "j" in let E := fresh "E" in destruct (HA q (HF q ltac:(simpl; auto))) as (j & E); pose proof (proj2 (vq_ok _ _ _) E) as ->; cbn [rbind] end;
  eexists; (split; [reflexivity|]); cbn; repeat split; auto.
Qed.
Lemma ndb_spec l : ndb l = true <-> NoDup l.
Proof.
  induction l as [|x l IH]; cbn [ndb]; [split; intros; auto; constructor|].
  rewrite andb_true_iff, negb_true_iff, IH. split.
  - intros [H1 H2]. constructor; auto. intros K. rewrite <- not_true_iff_false in H1. apply H1. apply existsb_exists. exists x. split; auto. apply Nat.eqb_refl.
  - intros K. apply NoDup_cons_iff in K. destruct K as [K1 K2]. split; auto. apply not_true_iff_false. intros E. apply existsb_exists in E.
    destruct E as (y & Hy & E). apply Nat.eqb_eq in E. subst. auto.
Qed.
Lemma oat_inj outs qs is : oinj outs -> Forall2 (oat outs) qs is -> NoDup qs -> NoDup is.
Proof.
  intros HI HF ND. induction HF as [|q i qs is H HF IH]; [constructor|]. inversion ND; subst. constructor; [|auto].
  intros K. apply H2. clear - HI H HF K. induction HF as [|q' i' qs is H' HF IH]; [inversion K|]. destruct K as [->|K]; [left; eapply HI; eauto|right; auto].
Qed.
Lemma swap_step_inv w l act c' outs mi i : swinv w l act c' outs mi -> add_ok act i = true ->
  exists c'' outs' mi', swap_step (c', outs, mi) i = Ok (c'', outs', mi')
  /\ swinv w (l ++ [i]) (match i with IM q _ => sremove q act | _ => act end) c'' outs' mi'.
Proof.
  intros HI HA. unfold add_ok in HA. apply andb_prop in HA. destruct HA as [HA HD].
  pose proof (imap_total act outs i (fun q => proj1 (sw_act _ _ _ _ _ _ HI q)) HA) as (i' & Ei & HF & Hs & Hm & Hx & Hz).
  assert (HAdd : add_ok (c_active c') i' = true).
  { unfold add_ok. apply andb_true_intro. split.
    - rewrite forallb_forall. intros q Hq. clear - HF Hq HI. induction HF; [inversion Hq|]. destruct Hq as [<-|Hq]; [eapply sw_range; eauto|auto].
    - destruct i, i'; try contradiction; try discriminate; auto; apply ndb_spec in HD; apply ndb_spec; eapply oat_inj; eauto; apply HI. }
  destruct (is_swap i) eqn:Esw.
  { destruct i as [| | | |u v| | | | | | | | | | | ]; try discriminate. cbn [swap_step].
    rewrite forallb_forall in HA. cbn [iqubits] in HA. apply ndb_spec in HD. apply nd2 in HD. destruct HD as [N1 N2].
    destruct (proj1 (sw_act _ _ _ _ _ _ HI u) (HA u ltac:(simpl; auto))) as (a & Ha).
    destruct (proj1 (sw_act _ _ _ _ _ _ HI v) (HA v ltac:(simpl; auto))) as (b & Hb).
    rewrite (proj2 (vq_ok _ _ _) Ha), (proj2 (vq_ok _ _ _) Hb). cbn [rbind]. unfold oat in *. rewrite Ha, Hb.
    do 3 eexists. split; [reflexivity|].
    assert (Lu : u < length outs) by (apply nth_error_Some; congruence).
    assert (Lv : v < length outs) by (apply nth_error_Some; congruence).
    assert (O : forall q, nth_error (lset (lset outs u (OQubit b)) v (OQubit a)) q = nth_error outs (if q =? u then v else if q =? v then u else q)).
    { intros q. destruct (Nat.eqb_spec q u) as [->|]; [|destruct (Nat.eqb_spec q v) as [->|]].
      - rewrite nth_lset_other, nth_lset_same by auto. auto.
      - rewrite nth_lset_same by (rewrite lset_length; auto). auto.
      - rewrite !nth_lset_other by auto. auto. }
    constructor; try apply HI.
    - rewrite !lset_length. apply HI.
    - intros q q' j. rewrite !O. intros K K'. pose proof (sw_inj _ _ _ _ _ _ HI _ _ _ K K') as E.
      destruct (Nat.eqb_spec q u), (Nat.eqb_spec q' u), (Nat.eqb_spec q v), (Nat.eqb_spec q' v); congruence.
    - intros q j. unfold oat. rewrite O. apply (sw_range _ _ _ _ _ _ HI).
    - intros q. unfold oat. rewrite O. destruct (Nat.eqb_spec q u) as [->|]; [|destruct (Nat.eqb_spec q v) as [->|]].
      + split; [intros; eauto|]. intros _. apply HA. simpl; auto.
      + split; [intros; eauto|]. intros _. apply HA. simpl; auto.
      + apply (sw_act _ _ _ _ _ _ HI).
    - intros j Hj. destruct (sw_act' _ _ _ _ _ _ HI j Hj) as (q & Hq). unfold oat in *.
      exists (if q =? u then v else if q =? v then u else q). rewrite O.
      destruct (Nat.eqb_spec q u) as [->|].
      + assert ((v =? u) = false) as -> by (apply Nat.eqb_neq; auto). rewrite Nat.eqb_refl. auto.
      + destruct (Nat.eqb_spec q v) as [->|].
        * rewrite Nat.eqb_refl. auto.
        * assert ((q =? u) = false) as -> by (apply Nat.eqb_neq; auto). assert ((q =? v) = false) as -> by (apply Nat.eqb_neq; auto). auto.
    - unfold mtargets. rewrite flat_map_app. simpl. rewrite app_nil_r. apply HI.
    - unfold maxes. rewrite flat_map_app. simpl. rewrite app_nil_r. apply HI.
    - intros q k. unfold mtargets. rewrite flat_map_app. simpl. rewrite app_nil_r. fold (mtargets l). rewrite <- (sw_bits _ _ _ _ _ _ HI), O.
      destruct (Nat.eqb_spec q u) as [->|]; [|destruct (Nat.eqb_spec q v) as [->|]]; [| |tauto]; split; congruence.
    - intros o psi HP f g HAg. rewrite csem_snoc. cbn [csem gate]. unfold swapst. apply (sw_rel _ _ _ _ _ _ HI o psi HP).
      intros q j Hq. unfold upd. specialize (HAg (if q =? u then v else if q =? v then u else q) j).
      rewrite O in HAg. destruct (Nat.eqb_spec q v) as [->|N].
      + assert ((v =? u) = false) as E by (apply Nat.eqb_neq; auto). rewrite E, Nat.eqb_refl in HAg. apply HAg; auto.
      + destruct (Nat.eqb_spec q u) as [->|N'].
        * assert ((v =? u) = false) as E by (apply Nat.eqb_neq; auto). rewrite E, Nat.eqb_refl in HAg. apply HAg; auto.
        * assert ((q =? u) = false) as E by (apply Nat.eqb_neq; auto). assert ((q =? v) = false) as E' by (apply Nat.eqb_neq; auto).
          rewrite E, E' in HAg. apply HAg; auto. }
  destruct (is_meas i) eqn:Em.
  { destruct i as [| | | | | | | | | | |q ax| | | | ]; try discriminate. cbn [swap_step]. rewrite Ei. cbn [rbind]. unfold circ_add at 1. rewrite HAdd. cbn [rbind].
    do 3 eexists. split; [reflexivity|].
    cbn [imap] in Ei. destruct (visit_qubit outs q) as [j|] eqn:Ej; [|discriminate]. cbn [rbind] in Ei. injection Ei as <-. apply vq_ok in Ej.
    assert (Lq : q < length outs) by (apply nth_error_Some; unfold oat in Ej; congruence).
    assert (T : mtargets (l ++ [IM q ax]) = mtargets l ++ [q]) by (unfold mtargets; rewrite flat_map_app; auto).
    assert (O : forall p x, oat (lset outs q (OBit mi)) p x <-> p <> q /\ oat outs p x).
    { intros p x. unfold oat. destruct (Nat.eq_dec p q) as [->|N]; [rewrite nth_lset_same by auto|rewrite nth_lset_other by auto].
      - split; [discriminate|intros [? _]; congruence].
      - tauto. }
    constructor; cbn [c_width c_instr c_active].
    - rewrite lset_length. apply HI.
    - apply HI.
    - intros p p' x K K'. apply O in K, K'. eapply (sw_inj _ _ _ _ _ _ HI); [apply K|apply K'].
    - intros p x K. apply O in K. destruct K as [N K]. rewrite mem_sremove. rewrite (sw_range _ _ _ _ _ _ HI p x K).
      destruct (Nat.eqb_spec x j) as [->|]; auto. elim N. eapply (sw_inj _ _ _ _ _ _ HI); eauto.
    - intros p. rewrite mem_sremove. destruct (Nat.eqb_spec p q) as [->|N]; simpl; rewrite ?andb_false_r, ?andb_true_r.
      + split; [discriminate|]. intros (x & K). apply O in K. tauto.
      + rewrite (sw_act _ _ _ _ _ _ HI). split; intros (x & K); exists x; [apply O; auto|apply O in K; tauto].
    - intros x. rewrite mem_sremove. destruct (Nat.eqb_spec x j) as [->|N]; simpl; rewrite ?andb_false_r, ?andb_true_r; [discriminate|]. intros K.
      destruct (sw_act' _ _ _ _ _ _ HI x K) as (p & Hp). exists p. apply O. split; auto. intros ->. unfold oat in *. congruence.
    - rewrite T, app_length, <- (sw_mi _ _ _ _ _ _ HI). simpl. lia.
    - rewrite forallb_app. rewrite (sw_noswap _ _ _ _ _ _ HI). auto.
    - unfold maxes. rewrite !flat_map_app. fold (maxes (c_instr c')). rewrite (sw_axes _ _ _ _ _ _ HI). auto.
    - intros p k. rewrite T. destruct (Nat.eq_dec p q) as [->|N].
      + rewrite nth_lset_same by auto. rewrite (sw_mi _ _ _ _ _ _ HI). split.
        * intros K. inversion K. rewrite nth_error_app2, Nat.sub_diag by lia. auto.
        * intros K. destruct (lt_dec k (length (mtargets l))) as [L|L].
          -- rewrite nth_error_app1 in K by auto. apply (sw_bits _ _ _ _ _ _ HI) in K. unfold oat in Ej. congruence.
          -- rewrite nth_error_app2 in K by lia. destruct (k - length (mtargets l)) as [|m] eqn:Ek; [|destruct m; discriminate]. do 2 f_equal. lia.
      + rewrite nth_lset_other by auto. rewrite (sw_bits _ _ _ _ _ _ HI). destruct (lt_dec k (length (mtargets l))) as [L|L].
        * rewrite nth_error_app1 by auto. tauto.
        * rewrite nth_error_app2 by lia. split; intros K.
          -- assert (k < length (mtargets l)) by (apply nth_error_Some; congruence). lia.
          -- destruct (k - length (mtargets l)) as [|[|m]]; simpl in K; congruence.
    - intros o psi HP f g HAg. rewrite !csem_snoc. cbn [csem]. rewrite <- !maxes_mtargets. rewrite (sw_axes _ _ _ _ _ _ HI).
      unfold cmeas. cbn [app_op].
      assert (AA : forall b, agree outs (upd f q b) (upd g j b)).
      { intros b p x Hp. unfold upd. destruct (Nat.eqb_spec x j) as [->|N].
        - rewrite (sw_inj _ _ _ _ _ _ HI p q j Hp Ej), Nat.eqb_refl. auto.
        - destruct (Nat.eqb_spec p q) as [->|N']; [unfold oat in Ej; congruence|]. apply HAg. apply O; auto. }
      rewrite !(sw_rel _ _ _ _ _ _ HI o psi HP _ _ (AA _)). auto. }
  assert (ES : swap_step (c', outs, mi) i = Ok (Circ (c_width c') (c_instr c' ++ [i']) (c_active c'), outs, mi)).
  { destruct i; try discriminate; cbn [swap_step]; rewrite Ei; cbn [rbind]; unfold circ_add; rewrite HAdd; destruct i'; try discriminate; auto. }
  rewrite ES. do 3 eexists. split; [reflexivity|].
  assert (T : mtargets (l ++ [i]) = mtargets l) by (unfold mtargets; rewrite flat_map_app; destruct i; try discriminate; simpl; rewrite app_nil_r; auto).
  assert (A : match i with IM q _ => sremove q act | _ => act end = act) by (destruct i; try discriminate; auto). rewrite A.
  constructor; cbn [c_width c_instr c_active]; try apply HI.
  - rewrite T. apply HI.
  - rewrite forallb_app, (sw_noswap _ _ _ _ _ _ HI). simpl. rewrite Hs. auto.
  - unfold maxes in *. rewrite !flat_map_app. f_equal; [apply HI|auto].
  - intros q k. rewrite T. apply HI.
  - intros o psi HP. rewrite !csem_snoc.
    assert (E1 : forall k p, csem o k [i] p = gate i p) by (intros; rewrite csem_unit by auto; auto).
    assert (E2 : forall k p, csem o k [i'] p = gate i' p) by (intros; rewrite csem_unit by auto; auto).
    rewrite E1, E2. apply gate_rel; auto; [apply HI|apply HI; auto|]. intros u v ->. discriminate.
Qed.
Lemma circ_extend_fields c l c' : circ_extend c l = Ok c' -> c_width c' = c_width c /\ c_instr c' = c_instr c ++ l.
Proof.
  unfold circ_extend. revert c; induction l as [|i l IH]; simpl; intros c H; [inversion H; rewrite app_nil_r; auto|].
  unfold circ_add in H at 1. destruct (add_ok (c_active c) i); [|discriminate]. apply IH in H. simpl in H. destruct H as [A B]. rewrite B, <- app_assoc. auto.
Qed.
(** transpile_swaps never fails on a circuit built by the API *)
Lemma transpile_swaps_spec w l c : circ_make w l = Ok c ->
  exists c' outs mi, transpile_swaps c = Ok (c', outs) /\ swinv w l (c_active c) c' outs mi.
Proof.
  intros H. destruct (circ_extend_fields _ _ _ H) as [EW EI]. cbn in EW, EI. unfold transpile_swaps. rewrite EW, EI.
  assert (G : forall l0 l act c0 c' outs mi, swinv w l0 act c' outs mi -> c_active c0 = act -> circ_extend c0 l = Ok c ->
     exists c'' outs' mi', rfold swap_step l (c', outs, mi) = Ok (c'', outs', mi') /\ swinv w (l0 ++ l) (c_active c) c'' outs' mi').
  { clear. intros l0 l. revert l0. induction l as [|i l IH]; intros l0 act c0 c' outs mi HI HA HE.
    - inversion HE; subst. rewrite app_nil_r. do 3 eexists. split; [reflexivity|auto].
    - unfold circ_extend in HE. simpl in HE. unfold circ_add in HE at 1. destruct (add_ok (c_active c0) i) eqn:Eok; [|discriminate].
      rewrite HA in Eok. destruct (swap_step_inv _ _ _ _ _ _ _ HI Eok) as (c1 & o1 & m1 & E1 & HI1). cbn [rfold]. rewrite E1.
      replace (l0 ++ i :: l) with ((l0 ++ [i]) ++ l) by (rewrite <- app_assoc; auto).
      eapply (IH _ _ _ c1 o1 m1 HI1); [|exact HE]. cbn. rewrite HA. auto. }
  destruct (G [] l _ (circ_new w) (circ_new w) (map OQubit (range w)) 0 (swinv_init w) eq_refl H) as (c'' & outs' & mi' & E & HI).
  rewrite E. do 3 eexists. split; [reflexivity|exact HI].
Qed.

(** * Output indices *)
Definition isq (o : option oidx) : bool := match o with Some (OQubit _) => true | _ => false end.
Lemma out_qubits_In outs i : In i (out_qubits outs) <-> exists q, oat outs q i.
Proof.
  unfold out_qubits, oat. rewrite in_flat_map. split.
  - intros (x & H1 & H2). destruct x as [j|]; [|inversion H2]. destruct H2 as [->|[]]. apply In_nth_error in H1. auto.
  - intros (q & H). exists (OQubit i). split; [eapply nth_error_In; eauto|simpl; auto].
Qed.
Lemma out_qubits_NoDup outs : oinj outs -> NoDup (out_qubits outs).
Proof.
  induction outs as [|x outs IH]; intros HI; [constructor|].
  assert (HI' : oinj outs) by (intros q q' i H H'; pose proof (HI (S q) (S q') i H H'); lia).
  destruct x as [j|k]; [|apply IH; auto]. cbn. constructor; [|apply IH; auto].
  intros K. apply (out_qubits_In outs) in K. destruct K as (q & K). pose proof (HI 0 (S q) j eq_refl K). lia.
Qed.
(** the original qubits that are not measured, in increasing order *)
Definition positions (outs : list oidx) : list nat := filter (fun q => isq (nth_error outs q)) (range (length outs)).
Lemma filter_map' {A B} (f : A -> B) (p : B -> bool) l : filter p (map f l) = map f (filter (fun x => p (f x)) l).
Proof. induction l as [|x l IH]; simpl; auto. destruct (p (f x)); simpl; rewrite IH; auto. Qed.
Lemma positions_cons x outs : positions (x :: outs) = (if isq (Some x) then [0] else []) ++ map S (positions outs).
Proof.
  unfold positions, range. simpl length. cbn [seq]. rewrite <- seq_shift. cbn [filter nth_error].
  rewrite filter_map'. cbn [nth_error]. destruct x; auto.
Qed.
Lemma positions_length outs : length (positions outs) = length (out_qubits outs).
Proof. induction outs as [|x outs IH]; auto. rewrite positions_cons, app_length, map_length, IH. destruct x; auto. Qed.
Lemma reduced_index_get outs : forall b c i, dget (reduced_index outs b c) i = 
  if lmem i (map (Nat.add b) (positions outs)) then Some (c + pos_of i (map (Nat.add b) (positions outs))) else None.
Proof.
  induction outs as [|x outs IH]; intros b c i; auto.
  assert (E : map (Nat.add b) (map S (positions outs)) = map (Nat.add (S b)) (positions outs)) by (rewrite map_map; apply map_ext; intros; lia).
  rewrite positions_cons, map_app, E. destruct x as [j|k]; cbn [isq reduced_index dget map app].
  - rewrite Nat.add_0_r. unfold lmem. simpl existsb. cbn [pos_of]. destruct (Nat.eqb_spec i b) as [->|N].
    + rewrite Nat.eqb_refl. simpl. f_equal. lia.
    + assert ((b =? i) = false) as -> by (apply Nat.eqb_neq; auto). rewrite IH. unfold lmem. simpl. destruct (existsb (Nat.eqb i) _); auto; f_equal; lia.
  - apply IH.
Qed.
Lemma positions_In outs q : In q (positions outs) <-> exists i, oat outs q i.
Proof.
  unfold positions, oat. rewrite filter_In. split.
  - intros [_ H]. destruct (nth_error outs q) as [[i|]|]; try discriminate. eauto.
  - intros (i & H). rewrite H. split; auto. unfold range. apply in_seq. split; [lia|]. simpl. apply nth_error_Some. congruence.
Qed.
Lemma rmap_ok {A B} (f : A -> res B) (g : A -> B) l : (forall a, In a l -> f a = Ok (g a)) -> rmap f l = Ok (map g l).
Proof. induction l as [|a l IH]; simpl; auto. intros H. rewrite H by auto. cbn [rbind]. rewrite IH by auto. auto. Qed.
Lemma rmap_err {A B} (f : A -> res B) e l : (forall a, In a l -> (exists b, f a = Ok b) \/ f a = Err e) -> (exists a, In a l /\ f a = Err e) -> rmap f l = Err e.
Proof.
  induction l as [|a l IH]; intros H (x & Hx & Ex); [inversion Hx|]. simpl. destruct (H a (or_introl eq_refl)) as [(b & Eb)|Eb]; rewrite Eb; auto. cbn [rbind].
  destruct Hx as [->|Hx]; [congruence|]. rewrite IH; auto. intros; apply H; simpl; auto. eauto.
Qed.
Lemma lmem_In' n l : lmem n l = true <-> In n l.
Proof. apply lmem_In. Qed.
Lemma extract_ok outs : (forall i, In i (out_qubits outs) -> In i (positions outs)) ->
  extract_output_node_indices outs = Ok (map (fun i => pos_of i (positions outs)) (out_qubits outs)).
Proof.
  intros H. unfold extract_output_node_indices. apply rmap_ok. intros i Hi. rewrite reduced_index_get.
  replace (map (Nat.add 0) (positions outs)) with (positions outs) by (rewrite <- (map_id (positions outs)) at 1; apply map_ext; auto).
  rewrite (proj2 (lmem_In' _ _) (H i Hi)). auto.
Qed.
Lemma extract_err outs i : In i (out_qubits outs) -> ~ In i (positions outs) -> extract_output_node_indices outs = Err EKey.
Proof.
  intros H N. unfold extract_output_node_indices.
  assert (E : map (Nat.add 0) (positions outs) = positions outs) by (rewrite <- (map_id (positions outs)) at 2; apply map_ext; auto).
  apply rmap_err.
  - intros a _. destruct (dget _ a); eauto.
  - exists i. split; auto. rewrite reduced_index_get, E. apply lmem_false in N. rewrite N. auto.
Qed.
(** unmeasured qubits of a circuit, in increasing order: the order of the
    outputs in transpile_to_causalflow (transpiler.py:470) *)
Definition unmeasured (c : circuit) : list nat := filter (fun q => mem q (c_active c)) (range (c_width c)).
Lemma same_positions w l act c' outs mi : swinv w l act c' outs mi -> (forall i, In i (out_qubits outs) -> In i (positions outs)) ->
  positions outs = unmeasured c'.
Proof.
  intros HI HS. unfold positions, unmeasured. rewrite (sw_len _ _ _ _ _ _ HI), (sw_width _ _ _ _ _ _ HI). apply filter_ext. intros q.
  assert (IN : incl (positions outs) (out_qubits outs)).
  { apply NoDup_length_incl; auto. apply out_qubits_NoDup, HI. rewrite positions_length. lia. }
  destruct (isq (nth_error outs q)) eqn:E1; symmetry.
  - assert (K : In q (out_qubits outs)). { apply IN, positions_In. destruct (nth_error outs q) as [[i|]|] eqn:E; try discriminate. exists i; auto. }
    apply out_qubits_In in K. destruct K as (p & K). eapply (sw_range _ _ _ _ _ _ HI); eauto.
  - destruct (mem q (c_active c')) eqn:E2; auto. destruct (sw_act' _ _ _ _ _ _ HI q E2) as (p & K).
    assert (KK : In q (out_qubits outs)) by (apply out_qubits_In; eauto). apply HS, positions_In in KK. destruct KK as (i & KK). unfold oat in KK. rewrite KK in E1. discriminate.
Qed.
Lemma lookup_map (node : nat -> nat) l i : In i l -> lookup (map node l) (pos_of i l) = Ok (node i).
Proof.
  intros H. unfold lookup. rewrite nth_error_map. destruct (pos_of_nth l i 0 H) as [B A].
  rewrite (nth_error_nth' l 0 B). simpl. rewrite A. auto.
Qed.
Lemma rmap_map {A B D} (f : B -> res D) (g : A -> B) l : rmap f (map g l) = rmap (fun a => f (g a)) l.
Proof. induction l as [|a l IH]; simpl; auto. rewrite IH. auto. Qed.
Lemma swap_output_nodes_ok w l act c' outs mi node : swinv w l act c' outs mi -> (forall i, In i (out_qubits outs) -> In i (positions outs)) ->
  swap_output_nodes outs (map node (unmeasured c')) = Ok (map node (out_qubits outs)).
Proof.
  intros HI HS. unfold swap_output_nodes. rewrite extract_ok by auto. cbn [rbind]. rewrite rmap_map. apply rmap_ok. intros i Hi.
  rewrite <- (same_positions _ _ _ _ _ _ HI HS). apply lookup_map; auto.
Qed.
