(** Model of graphix/command.py, the [Pattern] container of graphix/pattern.py,
    [Pattern.check_runnability], and the branch semantics of a pattern. *)
From Coq Require Import Reals Arith ZArith NArith List Bool Lia Permutation.
From Verif Require Import Cplx Mat2 Fundamentals CliffordDb Clifford NSet Measure QState.
Import ListNotations.

(** * Commands *)
(** State of a preparation command: [SPlus] is BasicStates.PLUS, [SVec] any
    other single-qubit state, given by its amplitudes (command.py:88-100,
    states.py:66-94). *)
Inductive nstate := SPlus | SVec (v : vec2).

(** command.py:88-304.  [BaseN]/[BaseM] subclasses defined by third parties and
    [ApplyNoise] are not modelled here. *)
Inductive cmd :=
| CN (n : nat) (st : nstate)
| CE (u v : nat)
| CM (n : nat) (m : measurement) (s t : nset)
| CX (n : nat) (d : nset)
| CZ (n : nat) (d : nset)
| CC (n : nat) (c : clifford)
| CS (n : nat) (d : nset)
| CT.

(** Python exceptions that the modelled functions raise *)
Inductive reason := AlreadyActive | AlreadyMeasured | NotYetActive | NotYetMeasured | DomainSelfLoop.
Inductive err :=
| ERun (r : reason)      (** RunnabilityError *)
| ENotImplemented        (** NotImplementedError *)
| EValue                 (** ValueError *)
| EPattern               (** PatternError *)
| EKey                   (** KeyError *)
| EIndex                 (** IndexError *)
| EType                  (** TypeError *)
| EAssert                (** AssertionError *)
| ERuntime               (** RuntimeError *)
| EAttr                  (** AttributeError *)
| ENetworkX              (** networkx.NetworkXError *)
| EOpenGraph             (** OpenGraphError *)
| EFlow                  (** FlowError *)
| EXZ                            (** XZCorrectionsError *)
| ENan                           (** not an exception: a division by zero fills an array with NaN *)
| EFuel.                         (** not an exception: a recursion ran out of fuel (shown impossible) *)
Inductive res (A : Type) := Ok (a : A) | Err (e : err).
Arguments Ok {A}. Arguments Err {A}.
Definition rbind {A B} (x : res A) (f : A -> res B) : res B := match x with Ok a => f a | Err e => Err e end.
Notation "'do' x <- e ; f" := (rbind e (fun x => f)) (at level 200, x pattern, e at level 100, f at level 200).
Fixpoint rfold {A B} (f : A -> B -> res A) (l : list B) (a : A) : res A :=
  match l with [] => Ok a | b :: l' => match f a b with Ok a' => rfold f l' a' | Err e => Err e end end.
Lemma rfold_app {A B} (f : A -> B -> res A) l1 l2 a :
  rfold f (l1 ++ l2) a = match rfold f l1 a with Ok a' => rfold f l2 a' | Err e => Err e end.
Proof. revert a; induction l1; simpl; auto. intros a0; destruct (f a0 a); auto. Qed.

(** * The container *)
(** pattern.py:75-120: input nodes, command sequence, output nodes, node count *)
Record pattern := Pat { p_in : list nat; p_seq : list cmd; p_out : list nat; p_n : nat }.

(** [list.remove]: removes the first occurrence *)
Fixpoint lremove (n : nat) (l : list nat) : list nat :=
  match l with [] => [] | x :: l' => if (x =? n)%nat then l' else x :: lremove n l' end.
Definition lmem (n : nat) (l : list nat) : bool := existsb (Nat.eqb n) l.

(** pattern.py:104-114 Pattern(input_nodes=...) *)
Definition pat_new (inp : list nat) : pattern := Pat inp [] inp (length inp).
(** pattern.py:122-139 add *)
Definition pat_add (p : pattern) (c : cmd) : pattern :=
  match c with
  | CN n _ => Pat (p_in p) (p_seq p ++ [c]) (p_out p ++ [n]) (S (p_n p))
  | CM n _ _ _ => Pat (p_in p) (p_seq p ++ [c]) (if lmem n (p_out p) then lremove n (p_out p) else p_out p) (p_n p)
  | _ => Pat (p_in p) (p_seq p ++ [c]) (p_out p) (p_n p)
  end.
(** pattern.py:141-151 extend *)
Definition pat_extend (p : pattern) (l : list cmd) : pattern := fold_left pat_add l p.
(** pattern.py:2007-2016 assert_permutation(original, user) *)
Definition assert_permutation (original user : list nat) : res unit :=
  if seqb (of_list user) (of_list original) then
    match rfold (fun st n => if mem n st then Ok (sremove n st) else Err EPattern) user (of_list user) with
    | Ok _ => Ok tt | Err e => Err e end
  else Err EPattern.
(** pattern.py:415-425 reorder_output_nodes *)
Definition reorder_output_nodes (p : pattern) (outs : list nat) : res pattern :=
  match assert_permutation (p_out p) outs with
  | Ok _ => Ok (Pat (p_in p) (p_seq p) outs (p_n p))
  | Err e => Err e
  end.
(** pattern.py:427-437 reorder_input_nodes *)
Definition reorder_input_nodes (p : pattern) (ins : list nat) : res pattern :=
  match assert_permutation (p_in p) ins with
  | Ok _ => Ok (Pat ins (p_seq p) (p_out p) (p_n p))
  | Err e => Err e
  end.

(** * Runnability *)
(** pattern.py:1650-1654 check_active *)
Definition check_active (active measured : nset) (n : nat) : res unit :=
  if mem n measured then Err (ERun AlreadyMeasured)
  else if mem n active then Ok tt else Err (ERun NotYetActive).
(** pattern.py:1656-1658 check_measured for all nodes of a domain *)
Definition check_measured (measured : nset) (d : nset) : res unit :=
  if ssub d measured then Ok tt else Err (ERun NotYetMeasured).
(** pattern.py:1677-1681 the loop over the two domains of an M command *)
Definition check_mdomain (measured : nset) (n : nat) (d : nset) : res unit :=
  if mem n d then Err (ERun DomainSelfLoop) else check_measured measured d.
(** pattern.py:1660-1693 one iteration of the loop; the state is (active, measured) *)
Definition run_step (st : nset * nset) (c : cmd) : res (nset * nset) :=
  let '(active, measured) := st in
  match c with
  | CN n _ =>
      if mem n active then Err (ERun AlreadyActive)
      else if mem n measured then Err (ERun AlreadyMeasured)
      else Ok (sadd n active, measured)
  | CE u v =>
      do _ <- check_active active measured u;
      do _ <- check_active active measured v;
      Ok st
  | CM n _ s t =>
      do _ <- check_active active measured n;
      do _ <- check_mdomain measured n s;
      do _ <- check_mdomain measured n t;
      Ok (sremove n active, sadd n measured)
  | CX n d | CZ n d =>
      do _ <- check_active active measured n;
      do _ <- check_measured measured d;
      Ok st
  | CC n _ =>
      do _ <- check_active active measured n;
      Ok st
  | CS _ _ | CT => Ok st
  end.
Definition run_state (inp : list nat) (l : list cmd) : res (nset * nset) :=
  rfold run_step l (of_list inp, sempty).
(** pattern.py:1633-1693 check_runnability *)
Definition check_runnability (p : pattern) : res unit :=
  match run_state (p_in p) (p_seq p) with Ok _ => Ok tt | Err e => Err e end.

(** ** Specification of runnability, on prefixes of the sequence *)
Definition measured_in (l : list cmd) (n : nat) : Prop := exists m s t, In (CM n m s t) l.
Definition prepared_in (l : list cmd) (n : nat) : Prop := exists st, In (CN n st) l.
(** the node exists and has not been consumed *)
Definition live (inp : list nat) (pre : list cmd) (n : nat) : Prop :=
  (In n inp \/ prepared_in pre n) /\ ~ measured_in pre n.
Definition cmd_ok (inp : list nat) (pre : list cmd) (c : cmd) : Prop :=
  match c with
  | CN n _ => ~ In n inp /\ ~ prepared_in pre n
  | CE u v => live inp pre u /\ live inp pre v
  | CM n _ s t => live inp pre n /\ forall k, mem k s = true \/ mem k t = true -> measured_in pre k
  | CX n d | CZ n d => live inp pre n /\ forall k, mem k d = true -> measured_in pre k
  | CC n _ => live inp pre n
  | CS _ _ | CT => True
  end.
Definition runnable (inp : list nat) (l : list cmd) : Prop :=
  forall pre c post, l = pre ++ c :: post -> cmd_ok inp pre c.

Lemma runnable_snoc inp l c : runnable inp (l ++ [c]) <-> runnable inp l /\ cmd_ok inp l c.
Proof.
  split.
  - intros H; split; [|apply (H l c []); auto].
    intros pre c' post E. apply (H pre c' (post ++ [c])). rewrite E, <- app_assoc; auto.
  - intros [H1 H2] pre c' post E.
    destruct (exists_last (l := c' :: post) ltac:(discriminate)) as (q & x & E').
    rewrite E' in E. rewrite app_assoc in E. apply app_inj_tail in E. destruct E as [E ->].
    destruct q as [|y q]; simpl in E'.
    + injection E' as ->. destruct post; [|discriminate]. rewrite app_nil_r in E; subst; auto.
    + injection E' as -> E'. apply (H1 pre y q); auto.
Qed.
Lemma runnable_nil inp : runnable inp [].
Proof. intros [|? ?] ? ? H; discriminate. Qed.
Lemma runnable_app_l inp l1 l2 : runnable inp (l1 ++ l2) -> runnable inp l1.
Proof. intros H pre c post E. apply (H pre c (post ++ l2)). rewrite E, <- app_assoc; auto. Qed.

Lemma measured_app l1 l2 n : measured_in (l1 ++ l2) n <-> measured_in l1 n \/ measured_in l2 n.
Proof.
  unfold measured_in. split.
  - intros (m & s & t & H). apply in_app_or in H. destruct H; [left|right]; eauto.
  - intros [(m & s & t & H)|(m & s & t & H)]; exists m, s, t; apply in_or_app; auto.
Qed.
Lemma prepared_app l1 l2 n : prepared_in (l1 ++ l2) n <-> prepared_in l1 n \/ prepared_in l2 n.
Proof.
  unfold prepared_in. split.
  - intros (st & H). apply in_app_or in H. destruct H; [left|right]; eauto.
  - intros [(st & H)|(st & H)]; exists st; apply in_or_app; auto.
Qed.
Lemma measured_one c n : measured_in [c] n <-> exists m s t, c = CM n m s t.
Proof. unfold measured_in; simpl. split; intros (m & s & t & H); exists m, s, t; intuition. Qed.
Lemma prepared_one c n : prepared_in [c] n <-> exists st, c = CN n st.
Proof. unfold prepared_in; simpl. split; intros (st & H); exists st; intuition. Qed.

Definition run_inv (inp : list nat) (l : list cmd) (a m : nset) : Prop :=
  (forall n, mem n a = true <-> live inp l n) /\ (forall n, mem n m = true <-> measured_in l n)
  /\ (forall n, measured_in l n -> In n inp \/ prepared_in l n).

Lemma check_active_ok a m n inp l : run_inv inp l a m ->
  (check_active a m n = Ok tt <-> live inp l n).
Proof.
  intros (Ha & Hm & _). unfold check_active.
  destruct (mem n m) eqn:E1.
  - split; [discriminate|]. intros [_ H]. exfalso. apply H, Hm; auto.
  - destruct (mem n a) eqn:E2.
    + split; auto. intros _; apply Ha; auto.
    + split; [discriminate|]. intros H. apply Ha in H. congruence.
Qed.
Lemma check_active_cases a m n : check_active a m n = Ok tt \/ exists e, check_active a m n = Err e.
Proof. unfold check_active. destruct (mem n m), (mem n a); eauto. Qed.
Lemma check_measured_ok a m d inp l : run_inv inp l a m ->
  (check_measured m d = Ok tt <-> forall k, mem k d = true -> measured_in l k).
Proof.
  intros (Ha & Hm & _). unfold check_measured. destruct (ssub d m) eqn:E.
  - split; auto. intros _ k Hk. apply Hm. apply (proj1 (ssub_spec d m) E); auto.
  - split; [discriminate|]. intros H. exfalso. assert (ssub d m = true); [|congruence].
    apply ssub_spec. intros k Hk. apply Hm, H; auto.
Qed.
Lemma check_measured_cases m d : check_measured m d = Ok tt \/ exists e, check_measured m d = Err e.
Proof. unfold check_measured. destruct (ssub d m); eauto. Qed.
Lemma check_mdomain_ok a m n d inp l : run_inv inp l a m -> live inp l n ->
  (check_mdomain m n d = Ok tt <-> forall k, mem k d = true -> measured_in l k).
Proof.
  intros HI HL. unfold check_mdomain. destruct (mem n d) eqn:E.
  - split; [discriminate|]. intros H. exfalso. apply HL. apply H; auto.
  - eapply check_measured_ok; eauto.
Qed.
Lemma check_mdomain_cases m n d : check_mdomain m n d = Ok tt \/ exists e, check_mdomain m n d = Err e.
Proof. unfold check_mdomain. destruct (mem n d); eauto. apply check_measured_cases. Qed.

Lemma run_inv_skip inp l a m c :
  (forall n, ~ measured_in [c] n) -> (forall n, ~ prepared_in [c] n) ->
  run_inv inp l a m -> run_inv inp (l ++ [c]) a m.
Proof.
  intros H1 H2 (Ha & Hm & Hp).
  assert (NM : forall k, measured_in (l ++ [c]) k <-> measured_in l k).
  { intros k. rewrite measured_app. split; auto. intros [?|K]; auto. destruct (H1 _ K). }
  assert (NP : forall k, prepared_in (l ++ [c]) k <-> prepared_in l k).
  { intros k. rewrite prepared_app. split; auto. intros [?|K]; auto. destruct (H2 _ K). }
  unfold run_inv, live. split; [|split]; intros k.
  - rewrite NM, NP. apply Ha.
  - rewrite NM. apply Hm.
  - rewrite NM, NP. apply Hp.
Qed.

Lemma run_state_snoc inp l c : run_state inp (l ++ [c]) = rbind (run_state inp l) (fun st => run_step st c).
Proof.
  unfold run_state. rewrite rfold_app. destruct (rfold run_step l _); simpl; auto.
  destruct (run_step a c); auto.
Qed.

Ltac one_absurd := intros ?n; rewrite ?measured_one, ?prepared_one; intros H'; decompose [ex] H'; discriminate.

(** the run state is exactly the sets of live and measured nodes, and the
    check succeeds exactly on runnable sequences *)
Lemma run_state_spec inp l :
  match run_state inp l with
  | Ok (a, m) => runnable inp l /\ run_inv inp l a m
  | Err _ => ~ runnable inp l
  end.
Proof.
  induction l as [|c l IH] using rev_ind.
  - simpl. split; [apply runnable_nil|]. unfold run_inv, live. split; [|split]; intros k.
    + rewrite mem_of_list. split; [intros K; split; auto; intros (m & s & t & [])|].
      intros [[K|(st & [])] _]; auto.
    + rewrite mem_empty. split; [discriminate|]. intros (m & s & t & []).
    + intros (m & s & t & []).
  - rewrite run_state_snoc. destruct (run_state inp l) as [[a m]|e]; simpl.
    2:{ intros H. apply IH. apply runnable_snoc in H. tauto. }
    destruct IH as [HR HI]. pose proof HI as (Ha & Hm & Hp).
    destruct c as [n st|u v|n me s t|n d|n d|n c|n d|]; cbn [run_step].
    + (* N *)
      destruct (mem n a) eqn:E1.
      { intros H. apply runnable_snoc in H. destruct H as [_ [H1 H2]].
        apply Ha in E1. destruct E1 as [[?|?] _]; auto. }
      destruct (mem n m) eqn:E2.
      { intros H. apply runnable_snoc in H. destruct H as [_ [H1 H2]].
        apply Hm in E2. destruct (Hp _ E2); auto. }
      assert (K : ~ In n inp /\ ~ prepared_in l n).
      { split; intros K; (assert (mem n a = true); [apply Ha; split; auto; intros Q; apply Hm in Q; congruence|congruence]). }
      split; [apply runnable_snoc; split; auto|].
      assert (NM : forall k, measured_in (l ++ [CN n st]) k <-> measured_in l k).
      { intros k. rewrite measured_app, measured_one. split; auto.
        intros [?|(?&?&?&?)]; auto; discriminate. }
      assert (NP : forall k, prepared_in (l ++ [CN n st]) k <-> prepared_in l k \/ k = n).
      { intros k. rewrite prepared_app, prepared_one. split.
        - intros [?|(?&E)]; auto. injection E; auto.
        - intros [?| ->]; eauto. }
      unfold run_inv, live. split; [|split]; intros k; rewrite ?NM, ?NP.
      * rewrite mem_sadd, orb_true_iff, Nat.eqb_eq, (Ha k). unfold live. split.
        -- intros [->|Q]; [|tauto]. split; auto. intros Q. apply Hm in Q. congruence.
        -- destruct (Nat.eq_dec k n); tauto.
      * apply Hm.
      * intros Q. destruct (Hp _ Q); auto.
    + (* E *)
      destruct (check_active_cases a m u) as [E|[e E]]; rewrite E; cbn [rbind].
      2:{ intros H. apply runnable_snoc in H. destruct H as [_ [H1 _]].
          apply (check_active_ok a m u inp l HI) in H1. congruence. }
      destruct (check_active_cases a m v) as [E'|[e E']]; rewrite E'; cbn [rbind].
      2:{ intros H. apply runnable_snoc in H. destruct H as [_ [_ H1]].
          apply (check_active_ok a m v inp l HI) in H1. congruence. }
      split; [apply runnable_snoc; split; auto; split; eapply check_active_ok; eauto|].
      apply run_inv_skip; auto; one_absurd.
    + (* M *)
      destruct (check_active_cases a m n) as [E|[e E]]; rewrite E; cbn [rbind].
      2:{ intros H. apply runnable_snoc in H. destruct H as [_ [H1 _]].
          apply (check_active_ok a m n inp l HI) in H1. congruence. }
      apply (check_active_ok a m n inp l HI) in E.
      destruct (check_mdomain_cases m n s) as [E1|[e E1]]; rewrite E1; cbn [rbind].
      2:{ intros H. apply runnable_snoc in H. destruct H as [_ [_ H1]].
          assert (check_mdomain m n s = Ok tt); [|congruence].
          apply (check_mdomain_ok a m n s inp l HI E). intros; apply H1; auto. }
      pose proof (proj1 (check_mdomain_ok a m n s inp l HI E) E1) as QE1.
      destruct (check_mdomain_cases m n t) as [E2|[e E2]]; rewrite E2; cbn [rbind].
      2:{ intros H. apply runnable_snoc in H. destruct H as [_ [_ H1]].
          assert (check_mdomain m n t = Ok tt); [|congruence].
          apply (check_mdomain_ok a m n t inp l HI E). intros; apply H1; auto. }
      pose proof (proj1 (check_mdomain_ok a m n t inp l HI E) E2) as QE2.
      split; [apply runnable_snoc; split; auto; split; auto; intros k [?|?]; auto|].
      assert (NM : forall k, measured_in (l ++ [CM n me s t]) k <-> measured_in l k \/ k = n).
      { intros k. rewrite measured_app, measured_one. split.
        - intros [?|(?&?&?&Q)]; auto. injection Q; auto.
        - intros [?| ->]; eauto. }
      assert (NP : forall k, prepared_in (l ++ [CM n me s t]) k <-> prepared_in l k).
      { intros k. rewrite prepared_app, prepared_one. split; auto.
        intros [?|(?&?)]; auto; discriminate. }
      unfold run_inv, live. split; [|split]; intros k; rewrite ?NM, ?NP.
      * rewrite mem_sremove, andb_true_iff, negb_true_iff, Nat.eqb_neq, (Ha k). unfold live. intuition.
      * rewrite mem_sadd, orb_true_iff, Nat.eqb_eq, (Hm k). intuition.
      * intros [Q| ->]; auto. destruct E; auto.
    + (* X *)
      destruct (check_active_cases a m n) as [E|[e E]]; rewrite E; cbn [rbind].
      2:{ intros H. apply runnable_snoc in H. destruct H as [_ [H1 _]].
          apply (check_active_ok a m n inp l HI) in H1. congruence. }
      apply (check_active_ok a m n inp l HI) in E.
      destruct (check_measured_cases m d) as [E1|[e E1]]; rewrite E1; cbn [rbind].
      2:{ intros H. apply runnable_snoc in H. destruct H as [_ [_ H1]].
          pose proof (proj2 (check_measured_ok a m d inp l HI) H1). congruence. }
      pose proof (proj1 (check_measured_ok a m d inp l HI) E1) as QE1.
      split; [apply runnable_snoc; split; auto; split; auto|].
      apply run_inv_skip; auto; one_absurd.
    + (* Z *)
      destruct (check_active_cases a m n) as [E|[e E]]; rewrite E; cbn [rbind].
      2:{ intros H. apply runnable_snoc in H. destruct H as [_ [H1 _]].
          apply (check_active_ok a m n inp l HI) in H1. congruence. }
      apply (check_active_ok a m n inp l HI) in E.
      destruct (check_measured_cases m d) as [E1|[e E1]]; rewrite E1; cbn [rbind].
      2:{ intros H. apply runnable_snoc in H. destruct H as [_ [_ H1]].
          pose proof (proj2 (check_measured_ok a m d inp l HI) H1). congruence. }
      pose proof (proj1 (check_measured_ok a m d inp l HI) E1) as QE1.
      split; [apply runnable_snoc; split; auto; split; auto|].
      apply run_inv_skip; auto; one_absurd.
    + (* C *)
      destruct (check_active_cases a m n) as [E|[e E]]; rewrite E; cbn [rbind].
      2:{ intros H. apply runnable_snoc in H. destruct H as [_ H1].
          apply (check_active_ok a m n inp l HI) in H1. congruence. }
      apply (check_active_ok a m n inp l HI) in E.
      split; [apply runnable_snoc; split; auto|].
      apply run_inv_skip; auto; one_absurd.
    + split; [apply runnable_snoc; split; simpl; auto|]. apply run_inv_skip; auto; one_absurd.
    + split; [apply runnable_snoc; split; simpl; auto|]. apply run_inv_skip; auto; one_absurd.
Qed.

Lemma check_runnability_spec p : check_runnability p = Ok tt <-> runnable (p_in p) (p_seq p).
Proof.
  unfold check_runnability. pose proof (run_state_spec (p_in p) (p_seq p)) as H.
  destruct (run_state (p_in p) (p_seq p)) as [[a m]|e]; [tauto|].
  split; [discriminate|]. intros; tauto.
Qed.
(** the only exception check_runnability raises is RunnabilityError *)
Lemma run_state_err inp l e : run_state inp l = Err e -> exists r, e = ERun r.
Proof.
  unfold run_state. generalize (of_list inp, sempty) as st.
  induction l as [|c l IH]; simpl; intros st; [discriminate|].
  destruct (run_step st c) as [st'|e'] eqn:E; [apply IH|]. intros [= <-].
  destruct st as [a m]. unfold run_step, check_mdomain, check_active, check_measured in E.
  destruct c as [n st|u v|n me s t|n d|n d|n c|n d|]; simpl in E;
  repeat match type of E with context [if ?b then _ else _] => destruct b; simpl in E end;
  try discriminate; injection E as <-; eauto.
Qed.

(** * Container invariants *)
(** nodes that exist and are not measured, in order of creation *)
Fixpoint outs_of (outs : list nat) (l : list cmd) : list nat :=
  match l with
  | [] => outs
  | CN n _ :: l' => outs_of (outs ++ [n]) l'
  | CM n _ _ _ :: l' => outs_of (lremove n outs) l'
  | _ :: l' => outs_of outs l'
  end.
Lemma lmem_In n l : lmem n l = true <-> In n l.
Proof.
  unfold lmem. rewrite existsb_exists. split.
  - intros (x & H & E). apply Nat.eqb_eq in E; subst; auto.
  - intros H; exists n; split; auto. apply Nat.eqb_refl.
Qed.
Lemma lremove_notin n l : ~ In n l -> lremove n l = l.
Proof.
  induction l as [|x l IH]; simpl; auto. intros H. destruct (Nat.eqb_spec x n); [subst; tauto|].
  rewrite IH; auto.
Qed.
Lemma lremove_perm n l : In n l -> Permutation l (n :: lremove n l).
Proof.
  induction l as [|x l IH]; simpl; [tauto|]. intros [->|H].
  - rewrite Nat.eqb_refl. auto.
  - destruct (Nat.eqb_spec x n); [subst; auto|]. rewrite perm_swap. apply perm_skip, IH; auto.
Qed.
Lemma lremove_NoDup n l : NoDup l -> NoDup (lremove n l) /\ (forall x, In x (lremove n l) <-> In x l /\ x <> n).
Proof.
  induction l as [|a l IH]; intros H; simpl; [split; [auto|tauto]|].
  inversion H as [|? ? Hn Hl]; subst. specialize (IH Hl). destruct IH as [IH1 IH2].
  destruct (Nat.eqb_spec a n).
  - subst. split; auto. intros x; split; [intros Hx; split; auto; intros ->; auto|]. intros [[?|?] ?]; congruence.
  - split.
    + constructor; auto. rewrite IH2. tauto.
    + intros x; simpl. rewrite IH2. split; [intros [?|[? ?]]; subst; auto|]. intros [[?|?] ?]; auto.
Qed.

Lemma pat_add_fields p c : p_in (pat_add p c) = p_in p /\ p_seq (pat_add p c) = p_seq p ++ [c]
  /\ p_out (pat_add p c) = outs_of (p_out p) [c].
Proof.
  destruct c; simpl; auto. repeat split; auto.
  destruct (lmem n (p_out p)) eqn:E; auto. rewrite lremove_notin; auto.
  rewrite <- lmem_In. congruence.
Qed.
Lemma outs_of_app outs l1 l2 : outs_of outs (l1 ++ l2) = outs_of (outs_of outs l1) l2.
Proof. revert outs; induction l1 as [|c l1 IH]; simpl; auto. intros; destruct c; auto. Qed.
Lemma pat_extend_fields p l : p_in (pat_extend p l) = p_in p /\ p_seq (pat_extend p l) = p_seq p ++ l
  /\ p_out (pat_extend p l) = outs_of (p_out p) l.
Proof.
  unfold pat_extend. revert p; induction l as [|c l IH]; simpl; intros p.
  - rewrite app_nil_r; auto.
  - destruct (IH (pat_add p c)) as (H1 & H2 & H3). destruct (pat_add_fields p c) as (A1 & A2 & A3).
    rewrite H1, H2, H3, A1, A2, A3, <- app_assoc. repeat split; auto.
    destruct c; reflexivity.
Qed.

(** A pattern as the API builds it: its output list is a duplicate-free
    rearrangement of the computed one. *)
Definition pat_wf (p : pattern) : Prop := Permutation (p_out p) (outs_of (p_in p) (p_seq p)).

(** on runnable sequences the outputs are exactly the live nodes *)
Lemma outs_of_live inp l : NoDup inp -> runnable inp l ->
  NoDup (outs_of inp l) /\ forall n, In n (outs_of inp l) <-> live inp l n.
Proof.
  intros ND. induction l as [|c l IH] using rev_ind; intros HR.
  - simpl. split; auto. intros n; split; [intros H; split; [auto|intros (?&?&?&[])]|].
    intros [[H|(?&[])] _]; auto.
  - apply runnable_snoc in HR. destruct HR as [HR HC]. destruct (IH HR) as [I1 I2].
    rewrite outs_of_app.
    destruct c as [n st|u v|n me s t|n d|n d|n c|n d|]; cbn [outs_of].
    + destruct HC as [C1 C2].
      pose proof (run_state_spec inp l) as RS. destruct (run_state inp l) as [[a m]|e]; [|tauto].
      destruct RS as [_ (_ & _ & HP)].
      assert (NI : ~ In n (outs_of inp l)). { rewrite I2. intros [[?|?] _]; auto. }
      assert (NMs : ~ measured_in l n). { intros Q. destruct (HP _ Q); auto. }
      split.
      * apply (Permutation_NoDup (l := n :: outs_of inp l)); [apply Permutation_cons_append|].
        constructor; auto.
      * intros k. rewrite in_app_iff, I2. unfold live. rewrite prepared_app, measured_app, prepared_one, measured_one. simpl.
        split.
        -- intros [[[?|?] ?]|[->|[]]]; split; auto; try (intros [?|(?&?&?&?)]; [tauto|discriminate]). right; right; eauto.
        -- intros [[H|[H|(st' & H)]] H']; [left; split; auto|left; split; auto|right; left; congruence].
    + split; auto. intros k. rewrite I2. unfold live. rewrite prepared_app, measured_app, prepared_one, measured_one.
      split; intros [H H']; (split; [destruct H as [?|H]; auto; try (destruct H as [?|(?&?)]; [auto|discriminate])|
        first [intros [?|(?&?&?&?)]; [tauto|discriminate]|tauto]]).
    + destruct (lremove_NoDup n _ I1) as [L1 L2]. split; auto.
      intros k. rewrite L2, I2. unfold live. rewrite prepared_app, measured_app, prepared_one, measured_one.
      split.
      * intros [[H H'] H'']. split; [tauto|]. intros [?|(?&?&?&E)]; [tauto|]. congruence.
      * intros [[H|[H|(?&H)]] H']; try discriminate; (split; [split; auto|]); intros ->; apply H'; eauto.
    + split; auto. intros k. rewrite I2. unfold live. rewrite prepared_app, measured_app, prepared_one, measured_one.
      split; intros [H H']; (split; [destruct H as [?|H]; auto; try (destruct H as [?|(?&?)]; [auto|discriminate])|
        first [intros [?|(?&?&?&?)]; [tauto|discriminate]|tauto]]).
    + split; auto. intros k. rewrite I2. unfold live. rewrite prepared_app, measured_app, prepared_one, measured_one.
      split; intros [H H']; (split; [destruct H as [?|H]; auto; try (destruct H as [?|(?&?)]; [auto|discriminate])|
        first [intros [?|(?&?&?&?)]; [tauto|discriminate]|tauto]]).
    + split; auto. intros k. rewrite I2. unfold live. rewrite prepared_app, measured_app, prepared_one, measured_one.
      split; intros [H H']; (split; [destruct H as [?|H]; auto; try (destruct H as [?|(?&?)]; [auto|discriminate])|
        first [intros [?|(?&?&?&?)]; [tauto|discriminate]|tauto]]).
    + split; auto. intros k. rewrite I2. unfold live. rewrite prepared_app, measured_app, prepared_one, measured_one.
      split; intros [H H']; (split; [destruct H as [?|H]; auto; try (destruct H as [?|(?&?)]; [auto|discriminate])|
        first [intros [?|(?&?&?&?)]; [tauto|discriminate]|tauto]]).
    + split; auto. intros k. rewrite I2. unfold live. rewrite prepared_app, measured_app, prepared_one, measured_one.
      split; intros [H H']; (split; [destruct H as [?|H]; auto; try (destruct H as [?|(?&?)]; [auto|discriminate])|
        first [intros [?|(?&?&?&?)]; [tauto|discriminate]|tauto]]).
Qed.

Lemma perm_loop l st :
  match rfold (fun st n => if mem n st then Ok (sremove n st) else Err EPattern) l st with
  | Ok _ => NoDup l /\ (forall n, In n l -> mem n st = true)
  | Err e => e = EPattern /\ ~ (NoDup l /\ (forall n, In n l -> mem n st = true))
  end.
Proof.
  revert st; induction l as [|x l IH]; simpl; intros st.
  - split; [constructor|tauto].
  - destruct (mem x st) eqn:Ex.
    + specialize (IH (sremove x st)). destruct (rfold _ l (sremove x st)).
      * destruct IH as [I1 I2]. split.
        -- constructor; auto. intros Hx. apply I2 in Hx. rewrite mem_sremove, Nat.eqb_refl, andb_false_r in Hx. discriminate.
        -- intros n [->|Hn]; auto. apply I2 in Hn. rewrite mem_sremove in Hn. apply andb_true_iff in Hn; tauto.
      * destruct IH as [-> I]. split; auto. intros [ND H]. apply I. inversion ND; subst. split; auto.
        intros n Hn. rewrite mem_sremove. apply andb_true_iff; split; [apply H; auto|].
        apply negb_true_iff, Nat.eqb_neq. intros ->; auto.
    + split; auto. intros [_ H]. rewrite H in Ex; auto; discriminate.
Qed.
(** assert_permutation(original, user) succeeds iff [user] has no duplicate and
    the same elements as [original] *)
Lemma assert_permutation_spec original user :
  assert_permutation original user = Ok tt <-> NoDup user /\ (forall n, In n user <-> In n original).
Proof.
  unfold assert_permutation, seqb. destruct (N.eqb_spec (of_list user) (of_list original)) as [E|E].
  - assert (EQ : forall n, In n user <-> In n original).
    { intros n. rewrite <- !mem_of_list, E. tauto. }
    pose proof (perm_loop user (of_list user)) as P.
    destruct (rfold _ user (of_list user)).
    + split; [intros _; split; [tauto|auto]|auto].
    + destruct P as [-> P]. split; [discriminate|]. intros [ND _]. exfalso; apply P; split; auto.
      intros n; apply mem_of_list.
  - split; [discriminate|]. intros [_ H]. exfalso; apply E. apply nset_ext; intros n.
    apply eq_true_iff_eq. rewrite !mem_of_list. apply H.
Qed.
Lemma assert_permutation_err original user e : assert_permutation original user = Err e -> e = EPattern.
Proof.
  unfold assert_permutation. destruct (seqb _ _); [|congruence].
  pose proof (perm_loop user (of_list user)) as P. destruct (rfold _ user (of_list user)); [discriminate|].
  destruct P; congruence.
Qed.

(** * Branch semantics *)
(** simulator.py:206-228 DefaultMeasureMethod.describe_measurement, on the
    outcomes [o] recorded so far *)
Definition describe_measurement (o : nat -> bool) (m : measurement) (s t : nset) : measurement :=
  let m := if parity o s then meas_clifford m K1 else m in
  if parity o t then meas_clifford m K3 else m.

Definition plus_state : vec2 := planar_state PXY 0.
Definition nstate_vec (st : nstate) : vec2 := match st with SPlus => plus_state | SVec v => v end.

(** The linear operation performed by a command in the branch where node [n] is
    measured with outcome [o n] (simulator.py:513-545, base_backend.py:700-880):
    preparation, CZ, projection on the measured outcome followed by removal of
    the node, X/Z conditioned on the parity of the domain, Clifford gate.  The
    state is left unnormalised.  T is ignored.  The simulator raises ValueError
    on S; [cmd_sem_ok] excludes it. *)
Definition cmd_ops (o : nat -> bool) (c : cmd) : list op :=
  match c with
  | CN n st => [OPrep (nstate_vec st) n]
  | CE u v => [OCz u v]
  | CM n m s t => [OMeas (mvec (describe_measurement o m s t) (o n)) n]
  | CX n d => if parity o d then [OApp1 mX n] else []
  | CZ n d => if parity o d then [OApp1 mZ n] else []
  | CC n c => [OApp1 (clifford_mat c) n]
  | CS _ _ | CT => []
  end.
Definition seq_ops (o : nat -> bool) (l : list cmd) : list op := flat_map (cmd_ops o) l.
(** Two command sequences induce the same linear map in branch [o], up to a
    global phase. *)
Definition same_branch (o : nat -> bool) (l1 l2 : list cmd) : Prop := seq_ops o l1 ≈ seq_ops o l2.

(** commands with a semantics: CZ needs two distinct qubits, S is rejected by
    the simulator (simulator.py:543-545) *)
Definition cmd_sem_ok (c : cmd) : bool :=
  match c with CE u v => negb (u =? v)%nat | CS _ _ => false | _ => true end.
Definition sem_ok (l : list cmd) : bool := forallb cmd_sem_ok l.

Lemma seq_ops_app o l1 l2 : seq_ops o (l1 ++ l2) = seq_ops o l1 ++ seq_ops o l2.
Proof. apply flat_map_app. Qed.

Lemma describe_vec o m s t r :
  mvec (describe_measurement o m s t) r ~v vmul (mdag (mXZ (parity o s) (parity o t))) (mvec m r).
Proof.
  unfold describe_measurement, mXZ.
  destruct (parity o s), (parity o t); simpl.
  - eapply veqp_trans; [apply mvec_clifford|].
    eapply veqp_trans; [apply veqp_vmul; [apply meqp_refl|apply mvec_clifford]|].
    rewrite vmul_mmul, clifford_mat_X, clifford_mat_Z, mdag_mul. apply veqp_refl.
  - rewrite mmul_1_r. rewrite <- clifford_mat_X. apply mvec_clifford.
  - rewrite mmul_1_l. rewrite <- clifford_mat_Z. apply mvec_clifford.
  - rewrite mmul_1_l, mdag_id, vmul_1. apply veqp_refl.
Qed.
(** measuring with domains (s, t) is: apply Z^t, then X^s, then measure *)
Lemma meas_ops_XZ o n m s t : seq_ops o [CM n m s t] ≈ [OApp1 (mXZ (parity o s) (parity o t)) n; OMeas (mvec m (o n)) n].
Proof.
  simpl. rewrite app1_meas. apply meas_veqp, describe_vec.
Qed.

(** pattern.py:104-120 the constructor with cmds and output_nodes *)
Definition pat_make (inp : list nat) (cmds : list cmd) (outs : option (list nat)) : res pattern :=
  let p := pat_extend (pat_new inp) cmds in
  match outs with Some os => reorder_output_nodes p os | None => Ok p end.
(** pattern.py:153-157 clear *)
Definition pat_clear (p : pattern) : pattern := Pat (p_in p) [] (p_in p) (length (p_in p)).
(** pattern.py:159-169 replace *)
Definition pat_replace (p : pattern) (cmds : list cmd) (inp : option (list nat)) : pattern :=
  pat_extend (pat_clear (match inp with Some i => Pat i (p_seq p) (p_out p) (p_n p) | None => p end)) cmds.
Definition count_N (l : list cmd) : nat := length (filter (fun c => match c with CN _ _ => true | _ => false end) l).
Lemma pat_extend_n p l : p_n (pat_extend p l) = p_n p + count_N l.
Proof.
  unfold pat_extend. revert p; induction l as [|c l IH]; simpl; intros p; [unfold count_N; simpl; lia|].
  rewrite IH. unfold count_N. destruct c; simpl; lia.
Qed.
(** histories of calls on a container *)
Inductive pcall := PAdd (c : cmd) | PExtend (l : list cmd) | PClear | PReplace (l : list cmd) (inp : option (list nat))
  | PReorderOut (l : list nat) | PReorderIn (l : list nat).
Definition pstep (p : pattern) (c : pcall) : pattern :=
  match c with
  | PAdd c => pat_add p c
  | PExtend l => pat_extend p l
  | PClear => pat_clear p
  | PReplace l inp => pat_replace p l inp
  | PReorderOut l => match reorder_output_nodes p l with Ok p' => p' | Err _ => p end
  | PReorderIn l => match reorder_input_nodes p l with Ok p' => p' | Err _ => p end
  end.

Lemma lremove_Permutation n l l' : Permutation l l' -> Permutation (lremove n l) (lremove n l').
Proof.
  induction 1; simpl; auto.
  - destruct (x =? n)%nat; auto.
  - destruct (Nat.eqb_spec x n), (Nat.eqb_spec y n); subst; auto. apply perm_swap.
  - eapply perm_trans; eauto.
Qed.
Lemma outs_of_Permutation a b l : Permutation a b -> Permutation (outs_of a l) (outs_of b l).
Proof.
  revert a b; induction l as [|c l IH]; simpl; auto. intros a b P. destruct c; auto using lremove_Permutation.
  apply IH. apply Permutation_app_tail; auto.
Qed.
Lemma runnable_perm inp inp' l : (forall n, In n inp <-> In n inp') -> runnable inp l -> runnable inp' l.
Proof.
  intros H HR pre c post E. specialize (HR pre c post E).
  assert (LV : forall n, live inp pre n -> live inp' pre n) by (intros n [[K|K] K']; split; auto; left; apply H; auto).
  destruct c; simpl in *; auto; try (destruct HR; split; auto; fail).
  destruct HR as [A B]. split; auto. intros K. apply A, H; auto.
Qed.
Definition hist_ok (p : pattern) : Prop := NoDup (p_in p) /\ (runnable (p_in p) (p_seq p) -> pat_wf p).
Lemma hist_ok_extend p l : hist_ok p -> hist_ok (pat_extend p l).
Proof.
  intros [H1 H2]. destruct (pat_extend_fields p l) as (E1 & E2 & E3). split; [rewrite E1; auto|].
  unfold pat_wf. rewrite E1, E2, E3, outs_of_app. intros HR. apply outs_of_Permutation, H2.
  eapply runnable_app_l; eauto.
Qed.
Lemma hist_ok_step p c : (forall l inp, c = PReplace l (Some inp) -> NoDup inp) -> hist_ok p -> hist_ok (pstep p c).
Proof.
  intros HC HP. destruct c as [c|l| |l [i|]|l|l]; simpl.
  - apply (hist_ok_extend p [c]); auto.
  - apply hist_ok_extend; auto.
  - split; [apply HP|]. intros _. apply Permutation_refl.
  - apply hist_ok_extend. split; [simpl; eapply HC; eauto|]. intros _. apply Permutation_refl.
  - apply hist_ok_extend. split; [apply HP|]. intros _. apply Permutation_refl.
  - unfold reorder_output_nodes. destruct (assert_permutation (p_out p) l) as [[]|] eqn:E; auto.
    apply assert_permutation_spec in E. destruct E as [ND EQ]. destruct HP as [H1 H2].
    split; [auto|]. simpl. intros HR. specialize (H2 HR). destruct (outs_of_live _ _ H1 HR) as [N1 _].
    unfold pat_wf; simpl. eapply perm_trans; [|exact H2]. apply NoDup_Permutation; auto.
    eapply Permutation_NoDup; [apply Permutation_sym; exact H2|auto].
  - unfold reorder_input_nodes. destruct (assert_permutation (p_in p) l) as [[]|] eqn:E; auto.
    apply assert_permutation_spec in E. destruct E as [ND EQ]. destruct HP as [H1 H2].
    split; [auto|]. simpl. intros HR. unfold pat_wf; simpl. eapply perm_trans.
    + apply H2. eapply runnable_perm; [|exact HR]. auto.
    + apply outs_of_Permutation. apply NoDup_Permutation; auto. intros n; symmetry; auto.
Qed.
Lemma hist_ok_new inp : NoDup inp -> hist_ok (pat_new inp).
Proof. intros H; split; auto. intros _. apply Permutation_refl. Qed.
