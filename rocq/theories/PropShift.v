(** Property theorems: signal shifting (C06). *)
From Coq Require Import Reals Lra Arith List Bool.
From Verif Require Import Cplx Mat2 Fundamentals CliffordDb Clifford NSet Measure QState Pattern Shift PropStd.
Import ListNotations.

(** Method 'direct': the pattern is updated in place to one with the same
    commands up to domains, runnable, with the same inputs and outputs; its
    branch [o'] is the branch [shift_outcomes o' signal_dict] of the original,
    and this correspondence of branches is a bijection. *)
Theorem C06_direct : forall p, runnable (p_in p) (p_seq p) -> sem_ok (p_seq p) = true ->
  exists p' sd, shift_direct p = Ok (p', sd) /\ p_in p' = p_in p /\ p_out p' = p_out p /\ p_n p' = p_n p
    /\ Forall2 same_shape (p_seq p) (p_seq p')
    /\ check_runnability p' = Ok tt
    /\ (forall o', seq_ops (shift_outcomes o' sd) (p_seq p) ≈ seq_ops o' (p_seq p'))
    /\ (forall o, exists o', forall n, shift_outcomes o' sd n = o n)
    /\ (forall o1 o2, (forall n, shift_outcomes o1 sd n = shift_outcomes o2 sd n) -> forall n, o1 n = o2 n).
Proof.
  intros p HR HS. destruct (shift_direct_spec p HR HS) as (l & sd & E & SH & NS & R & Q).
  exists (Pat (p_in p) l (p_out p) (p_n p)), sd. simpl. split; [auto|]. do 3 (split; [auto|]). split; [auto|].
  split; [apply check_runnability_spec; auto|]. split; [auto|].
  assert (sd = fst (direct_seq (p_seq p))) as ->.
  { unfold shift_direct in E. rewrite (proj2 (check_runnability_spec p) HR) in E. simpl in E. destruct (direct_seq (p_seq p)). injection E; auto. }
  split; [eapply direct_surj|eapply direct_inj]; eauto.
Qed.
Print Assumptions C06_direct.
(** no measurement keeps a signal: empty t-domain in plane XY, empty s-domain in
    planes YZ and XZ *)
Theorem C06_direct_removes_signals : forall p p' sd, shift_direct p = Ok (p', sd) ->
  forall n m s t, In (CM n m s t) (p_seq p') ->
  match snd (to_bloch m) with PXY => t = sempty | PYZ | PXZ => s = sempty end.
Proof.
  intros p p' sd E n m s t H. unfold shift_direct in E. destruct (check_runnability p); [|discriminate]. simpl in E.
  pose proof (direct_no_signal (p_seq p)) as F. destruct (direct_seq (p_seq p)) as [sd0 l]. injection E as <- <-. simpl in *.
  rewrite Forall_forall in F. specialize (F _ H). simpl in F. destruct (snd (to_bloch m)); auto.
Qed.
Print Assumptions C06_direct_removes_signals.
(** Method 'mc': the branch [o] of the original pattern is the branch
    [shift_outcomes o signal_dict] of the shifted one (the dictionary is applied
    in the opposite direction). *)
Theorem C06_mc : forall p, runnable (p_in p) (p_seq p) -> sem_ok (p_seq p) = true ->
  exists p' sd, shift_mc p = Ok (p', sd) /\ p_in p' = p_in p /\ p_out p' = p_out p /\ p_n p' = p_n p
    /\ Forall2 same_shape (p_seq p) (p_seq p')
    /\ check_runnability p' = Ok tt
    /\ (forall o, seq_ops o (p_seq p) ≈ seq_ops (shift_outcomes o sd) (p_seq p')).
Proof.
  intros p HR HS. destruct (shift_mc_spec p HR HS) as (l & sd & E & SH & R & Q).
  exists (Pat (p_in p) l (p_out p) (p_n p)), sd. simpl. split; [auto|]. do 3 (split; [auto|]). split; [auto|].
  split; [apply check_runnability_spec; auto|]. auto.
Qed.
Print Assumptions C06_mc.
(** both methods raise RunnabilityError on a pattern that is not runnable *)
Theorem C06_rejects : forall p, ~ runnable (p_in p) (p_seq p) ->
  exists r, shift_direct p = Err (ERun r) /\ shift_mc p = Err (ERun r).
Proof.
  intros p H. destruct (check_runnability p) as [[]|e] eqn:E.
  - apply check_runnability_spec in E. contradiction.
  - destruct (proj2 (C04_check_runnability_exact p) e E) as (r & ->). exists r. unfold shift_direct, shift_mc. rewrite E. auto.
Qed.
Print Assumptions C06_rejects.

(** a chain of t-domains *)
Definition chain : pattern :=
  pat_extend (pat_new [0; 1; 2; 3])
    [CM 0 (MPauli AX Plus) sempty sempty; CM 1 (MPauli AX Plus) sempty (sing 0);
     CM 2 (MPauli AX Plus) sempty (sing 1); CX 3 (sing 2)].
Example C06_case : check_runnability chain = Ok tt /\ sem_ok (p_seq chain) = true
  /\ match shift_direct chain, shift_mc chain with
     | Ok (p1, sd1), Ok (p2, sd2) => (sd1, sd2) = ([(1, sing 0); (2, of_list [0; 1])], [(0, sempty); (1, sing 0); (2, sing 1)])
         /\ p_seq p1 = p_seq p2
     | _, _ => False end.
Proof. vm_compute. auto. Qed.

(** shift_outcomes documents that the same dictionary can be used "either to
    transform the results into measurements observed in the unshifted pattern,
    or vice versa".  For the dictionary of the direct method the second
    direction fails: with outcomes 1,0,0 the two patterns end in orthogonal
    states. *)
Definition w_o : nat -> bool := fun n => (n =? 0)%nat.
Definition w_psi : state := fun f => if f 0 || f 1 || f 2 || f 3 then C0 else C1.
Lemma v0_XY m r : snd (to_bloch m) = PXY -> v0 (mvec m r) = RtoC (/ sqrt 2).
Proof. unfold mvec. destruct (to_bloch m) as [a p]. simpl. intros ->. reflexivity. Qed.
Lemma w_left a b c : den [OMeas a 0; OMeas b 1; OMeas c 2] w_psi (fun _ => false) = (Cconj (v0 a) * Cconj (v0 b) * Cconj (v0 c))%C.
Proof. simpl. unfold w_psi, upd. simpl. ring. Qed.
Lemma w_right a b c : den [OMeas a 0; OMeas b 1; OMeas c 2; OApp1 mX 3] w_psi (fun _ => false) = C0.
Proof. simpl. unfold w_psi, upd. simpl. ring. Qed.
Theorem C06_direct_vice_versa_refuted : exists p p' sd o,
  check_runnability p = Ok tt /\ sem_ok (p_seq p) = true /\ shift_direct p = Ok (p', sd) /\
  ~ (seq_ops o (p_seq p) ≈ seq_ops (shift_outcomes o sd) (p_seq p')).
Proof.
  exists chain.
  set (m := MPauli AX Plus).
  exists (Pat [0;1;2;3] [CM 0 m sempty sempty; CM 1 m sempty sempty; CM 2 m sempty sempty; CX 3 (of_list [0;1;2])] [3] 4).
  exists [(1, sing 0); (2, of_list [0; 1])], w_o.
  split; [reflexivity|]. split; [reflexivity|]. split; [vm_compute; reflexivity|].
  intros (c & Hc & H).
  specialize (H w_psi). apply (f_equal (fun g => g (fun _ => false))) in H.
  assert (L : seq_ops w_o (p_seq chain) = [OMeas (mvec m true) 0; OMeas (mvec (meas_clifford m K3) false) 1; OMeas (mvec m false) 2]).
  { reflexivity. }
  rewrite L, w_left in H.
  change (seq_ops _ _) with [OMeas (mvec m true) 0; OMeas (mvec m true) 1; OMeas (mvec m true) 2; OApp1 mX 3] in H.
  unfold cscale in H. rewrite w_right, !v0_XY, !Cconj_R in H by reflexivity.
  apply (f_equal re) in H. simpl in H.
  assert (P : (0 < / sqrt 2)%R) by (apply Rinv_0_lt_compat, sqrt_lt_R0; lra).
  set (q := (/ sqrt 2)%R) in *. assert (0 < q * q * q)%R by (repeat apply Rmult_lt_0_compat; auto). lra.
Qed.
Print Assumptions C06_direct_vice_versa_refuted.
