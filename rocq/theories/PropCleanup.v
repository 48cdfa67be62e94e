(** Property theorems: domain clean-up passes (C12). *)
From Coq Require Import Reals Lra Arith List Bool Permutation.
From Verif Require Import Cplx Mat2 Fundamentals CliffordDb Clifford NSet Measure QState Pattern Standardize Shift Cleanup PropStd.
Import ListNotations.

(** remove_useless_domains succeeds; the result has the same commands up to
    domains, the same inputs and outputs, is runnable and has the same branches;
    +X measurements have no s-domain and +Z measurements no t-domain. *)
Theorem C12_remove_useless_domains : forall p, pat_ok p -> runnable (p_in p) (p_seq p) ->
  exists p', remove_useless_domains p = Ok p' /\ p_in p' = p_in p /\ p_out p' = p_out p
    /\ check_runnability p' = Ok tt
    /\ Forall2 same_shape (p_seq p) (p_seq p')
    /\ (forall o, same_branch o (p_seq p) (p_seq p'))
    /\ (forall n s t, In (CM n (MPauli AX Plus) s t) (p_seq p') -> s = sempty)
    /\ (forall n s t, In (CM n (MPauli AZ Plus) s t) (p_seq p') -> t = sempty).
Proof.
  intros p WF HR.
  assert (RG : forall c cs, cs = [rud_cmd c] -> rw_good c cs) by (intros c cs ->; apply rud_good).
  destruct (rwl_make _ RG p _ WF HR (rud_rwl (p_seq p))) as (p' & E & E1 & E2 & E3 & E4).
  exists p'. split; [exact E|]. do 3 (split; [auto|]). rewrite E3. split; [|split; [|split]].
  - clear. induction (p_seq p) as [|c l IH]; simpl; constructor; auto.
    destruct c as [? ?|? ?|? [? ?|[] []] ? ?|? ?|? ?|? ?|? ?|]; simpl; auto.
  - intros o. eapply (rwl_ops _ RG), rud_rwl.
  - intros n s t. rewrite in_map_iff. intros (c & H & _). destruct c as [? ?|? ?|? [? ?|[] []] ? ?|? ?|? ?|? ?|? ?|]; simpl in H; congruence.
  - intros n s t. rewrite in_map_iff. intros (c & H & _). destruct c as [? ?|? ?|? [? ?|[] []] ? ?|? ?|? ?|? ?|? ?|]; simpl in H; congruence.
Qed.
Print Assumptions C12_remove_useless_domains.

(** single_qubit_domains: whatever the order in which the domain sets are
    iterated, it succeeds; same inputs and outputs, runnable, same branches; every
    domain has at most one node. *)
Theorem C12_single_qubit_domains : forall p r, pat_ok p -> runnable (p_in p) (p_seq p) -> single_qubit_domains p r ->
  exists p', r = Ok p' /\ p_in p' = p_in p /\ p_out p' = p_out p
    /\ check_runnability p' = Ok tt
    /\ (forall o, same_branch o (p_seq p) (p_seq p'))
    /\ (forall c, In c (p_seq p') -> match c with
         | CM _ _ s t => length (elems s) <= 1 /\ length (elems t) <= 1
         | CX _ d | CZ _ d => length (elems d) <= 1
         | _ => True end).
Proof.
  intros p r WF HR (l' & F & ->).
  destruct (rwl_make _ sqd_good p _ WF HR F) as (p' & E & E1 & E2 & E3 & E4).
  exists p'. split; [exact E|]. do 3 (split; [auto|]). rewrite E3. split.
  - intros o. eapply (rwl_ops _ sqd_good); eauto.
  - exact (rwl_all _ small_cmd _ _ sqd_small F).
Qed.
Print Assumptions C12_single_qubit_domains.

(** the pass has a result for every pattern: the relation is total *)
Theorem C12_single_qubit_domains_total : forall p, exists r, single_qubit_domains p r.
Proof.
  intros p. assert (D : forall mk n d, exists r, decompose mk n d r).
  { intros mk n d. unfold decompose. destruct (_ <=? 1); eauto. }
  assert (T : forall l, exists l', rwl sqd_cmd l l').
  { induction l as [|c l (l' & IH)]; [exists []; constructor|].
    assert (exists cs, sqd_cmd c cs) as (cs & Hc).
    { destruct c as [? ?|? ?|n m s t|n d|n d|? ?|? ?|]; simpl; eauto.
      - destruct (D CX n s) as (rs & ?), (D CZ n t) as (rt & ?). eauto 6.
      - destruct (D CX n d) as (r & ?). eauto.
      - destruct (D CZ n d) as (r & ?). eauto. }
    exists (cs ++ l'). constructor; auto. }
  destruct (T (p_seq p)) as (l' & H). exists (pat_make (p_in p) l' (Some (p_out p))), l'. auto.
Qed.
Print Assumptions C12_single_qubit_domains_total.

(** a pattern with useless and non-singleton domains *)
Definition messy (a : R) : pattern :=
  pat_extend (pat_new [0; 1; 2; 3])
    [CM 0 (MBloch a PXY) sempty sempty; CM 1 (MPauli AX Plus) (sing 0) (sing 0);
     CM 2 (MPauli AZ Plus) (of_list [0; 1]) (of_list [0; 1]); CX 3 (of_list [0; 2]); CZ 3 (sing 1)].
Example C12_case a : check_runnability (messy a) = Ok tt /\ pat_ok (messy a)
  /\ match remove_useless_domains (messy a) with
     | Ok p' => p_seq p' = [CM 0 (MBloch a PXY) sempty sempty; CM 1 (MPauli AX Plus) sempty (sing 0);
          CM 2 (MPauli AZ Plus) (of_list [0; 1]) sempty; CX 3 (of_list [0; 2]); CZ 3 (sing 1)]
     | Err _ => False end
  /\ exists p', single_qubit_domains (messy a) (Ok p') /\ p_seq p' =
     [CM 0 (MBloch a PXY) sempty sempty; CM 1 (MPauli AX Plus) (sing 0) (sing 0);
      CX 2 (sing 1); CX 2 (sing 0); CZ 2 (sing 0); CZ 2 (sing 1); CM 2 (MPauli AZ Plus) sempty sempty;
      CX 3 (sing 0); CX 3 (sing 2); CZ 3 (sing 1)].
Proof.
  split; [reflexivity|]. split.
  { split; [repeat constructor; simpl; intuition discriminate|]. unfold pat_wf. simpl. apply Permutation_refl. }
  split; [reflexivity|].
  set (l' := [CM 0 (MBloch a PXY) sempty sempty; CM 1 (MPauli AX Plus) (sing 0) (sing 0);
      CX 2 (sing 1); CX 2 (sing 0); CZ 2 (sing 0); CZ 2 (sing 1); CM 2 (MPauli AZ Plus) sempty sempty;
      CX 3 (sing 0); CX 3 (sing 2); CZ 3 (sing 1)]).
  exists (pat_extend (pat_new [0; 1; 2; 3]) l'). split.
  - exists l'. split; [|reflexivity].
    apply (rw_cons _ _ [CM 0 (MBloch a PXY) sempty sempty]). { exists None, None. repeat split. }
    apply (rw_cons _ _ [CM 1 (MPauli AX Plus) (sing 0) (sing 0)]). { exists None, None. repeat split. }
    apply (rw_cons _ _ [CX 2 (sing 1); CX 2 (sing 0); CZ 2 (sing 0); CZ 2 (sing 1); CM 2 (MPauli AZ Plus) sempty sempty]).
    { exists (Some [CX 2 (sing 1); CX 2 (sing 0)]), (Some [CZ 2 (sing 0); CZ 2 (sing 1)]). split; [|split].
      - exists [1; 0]. split; [apply perm_swap|reflexivity].
      - exists [0; 1]. split; [apply Permutation_refl|reflexivity].
      - reflexivity. }
    apply (rw_cons _ _ [CX 3 (sing 0); CX 3 (sing 2)]).
    { exists (Some [CX 3 (sing 0); CX 3 (sing 2)]). split; [exists [0; 2]; split; [apply Permutation_refl|]|]; reflexivity. }
    apply (rw_cons _ _ [CZ 3 (sing 1)]). { exists None. repeat split. }
    constructor.
  - reflexivity.
Qed.
