(** Property theorems: NodeIndex (C29). *)
From Coq Require Import Arith List Bool Lia Permutation.
From Verif Require Import NSet Pattern NodeIndex.
Import ListNotations.

(** After every history in which nodes are added only when absent, [index] and
    [__getitem__] are mutually inverse and the iteration lists distinct nodes. *)
Theorem C29_bijection : forall os, ni_fresh ni_clear os ->
  let s := ni_run os in
  NoDup (ni_list s) /\
  (forall n i, ni_index s n = Ok i <-> ni_getitem s i = Ok n) /\
  (forall n, In n (ni_list s) <-> exists i, ni_index s n = Ok i) /\
  (forall i, (i < length (ni_list s)) <-> exists n, ni_getitem s i = Ok n).
Proof.
  intros os HF s. destruct (ni_run_inv os HF) as [ND HD]. fold s in ND, HD.
  assert (B : forall n i, ni_index s n = Ok i <-> ni_getitem s i = Ok n).
  { intros n i. unfold ni_index, ni_getitem. pose proof (HD n i) as K. destruct (dget (ni_dict s) n) as [j|], (nth_error (ni_list s) i) as [k|];
      split; intros E; try discriminate E; injection E as ->.
    - destruct K as [K _]. specialize (K eq_refl). congruence.
    - destruct K as [_ K]. specialize (K eq_refl). congruence.
    - destruct K as [K _]. specialize (K eq_refl). discriminate.
    - destruct K as [_ K]. specialize (K eq_refl). discriminate. }
  split; auto. split; auto. split.
  - intros n. split.
    + intros K. apply In_nth_error in K. destruct K as [i K]. exists i. apply HD in K. unfold ni_index. rewrite K. auto.
    + intros [i K]. apply B in K. unfold ni_getitem in K. destruct (nth_error (ni_list s) i) eqn:E; [|discriminate]. injection K as ->. eapply nth_error_In; eauto.
  - intros i. rewrite <- nth_error_Some. unfold ni_getitem. destruct (nth_error (ni_list s) i); split; eauto; try congruence. intros [? ?]; discriminate.
Qed.
Print Assumptions C29_bijection.

(** the effect of each operation on the node order *)
Theorem C29_operations : forall os, ni_fresh ni_clear os -> let s := ni_run os in
  (forall us, ni_list (ni_extend s us) = ni_list s ++ us) /\
  (forall n, ~ In n (ni_list s) -> ni_remove s n = Err EKey) /\
  (forall n, In n (ni_list s) -> exists s' a b, ni_remove s n = Ok s' /\ ni_list s = a ++ n :: b /\ ni_list s' = a ++ b) /\
  (forall i j, i < length (ni_list s) -> j < length (ni_list s) -> exists s', ni_swap s i j = Ok s' /\ length (ni_list s') = length (ni_list s) /\
     ni_getitem s' i = ni_getitem s j /\ ni_getitem s' j = ni_getitem s i /\ forall k, k <> i -> k <> j -> ni_getitem s' k = ni_getitem s k) /\
  (forall i j, length (ni_list s) <= i \/ length (ni_list s) <= j -> ni_swap s i j = Err EIndex).
Proof.
  intros os HF s. pose proof (ni_run_inv os HF) as HI. fold s in HI. pose proof HI as [ND HD]. split; [reflexivity|]. split; [|split; [|split]].
  - intros n K. unfold ni_remove. rewrite (ni_inv_none _ _ HI K). auto.
  - intros n K. apply In_nth_error in K. destruct K as [i K]. assert (exists s', ni_remove s n = Ok s') as [s' E].
    { unfold ni_remove. rewrite (proj2 (HD _ _) K). assert (i < length (ni_list s)) as L by (apply nth_error_Some; congruence).
      apply Nat.ltb_lt in L. rewrite L. eauto. }
    destruct (ni_remove_inv _ _ _ HI E) as (_ & a & b & E1 & E2). eauto 6.
  - intros i j Hi Hj. destruct (nth_error (ni_list s) i) as [a|] eqn:Ei; [|apply nth_error_None in Ei; lia].
    destruct (nth_error (ni_list s) j) as [b|] eqn:Ej; [|apply nth_error_None in Ej; lia].
    assert (exists s', ni_swap s i j = Ok s') as [s' E] by (unfold ni_swap; rewrite Ei, Ej; eauto).
    destruct (ni_swap_inv _ _ _ _ HI E) as (_ & L & N). exists s'. split; auto. split; auto. unfold ni_getitem.
    rewrite !N, Nat.eqb_refl. split; auto. split.
    + destruct (Nat.eqb_spec j i); [subst; auto|]. rewrite Nat.eqb_refl. auto.
    + intros k K1 K2. rewrite N. apply Nat.eqb_neq in K1, K2. rewrite K1, K2. auto.
  - intros i j K. unfold ni_swap. destruct (nth_error (ni_list s) i) eqn:Ei; auto. destruct (nth_error (ni_list s) j) eqn:Ej; auto.
    assert (i < length (ni_list s)) by (apply nth_error_Some; congruence). assert (j < length (ni_list s)) by (apply nth_error_Some; congruence). lia.
Qed.
Print Assumptions C29_operations.

(** The freshness hypothesis is needed: [extend] does not check it. *)
Theorem C29_duplicate_extend_refuted : exists os n i, ni_getitem (ni_run os) i = Ok n /\ ni_index (ni_run os) n <> Ok i.
Proof. exists [OpExtend [7; 8; 7]], 7, 0. split; [reflexivity|]. intros H; discriminate H. Qed.
Print Assumptions C29_duplicate_extend_refuted.

Example C29_case : ni_fresh ni_clear [OpExtend [5; 3; 9]; OpSwap 0 2; OpRemove 3; OpExtend [3; 4]; OpRemove 9; OpRemove 77]
  /\ ni_list (ni_run [OpExtend [5; 3; 9]; OpSwap 0 2; OpRemove 3; OpExtend [3; 4]; OpRemove 9; OpRemove 77]) = [5; 3; 4].
Proof. split; [|reflexivity]. repeat split; repeat constructor; simpl; intuition discriminate. Qed.
