(** Property theorems: rewriting the measurements of a pattern and inspecting its
    nodes (C63). *)
From Coq Require Import Reals Lra Arith ZArith List Bool Lia Permutation FunctionalExtensionality.
From Verif Require Import Cplx Mat2 Fundamentals CliffordDb Clifford NSet Measure QState Layer Pattern Standardize OpenGraph Space SpaceHeur PropSpace TensorNet TensorRun PropAngle PropStd.
Import ListNotations.

(** ** Model *)
(** command.py:164-177 M.map; the function may raise *)
Definition cmd_map (f : measurement -> res measurement) (c : cmd) : res cmd :=
  match c with CM n m s t => do m' <- f m; Ok (CM n m' s t) | _ => Ok c end.
Fixpoint map_res {A B} (f : A -> res B) (l : list A) : res (list B) :=
  match l with [] => Ok [] | a :: l => do b <- f a; do l' <- map_res f l; Ok (b :: l') end.
(** pattern.py:1721-1730 Pattern.apply with copy=False: the new list is built
    before it replaces the old one, so an exception leaves the pattern as it was *)
Definition apply_inplace (f : measurement -> res measurement) (p : pattern) : pattern * option err :=
  match map_res (cmd_map f) (p_seq p) with
  | Ok l => (Pat (p_in p) l (p_out p) (p_n p), None)
  | Err e => (p, Some e)
  end.
(** pattern.py:1723-1728 with copy=True, 1732-1757 map *)
Definition pat_map (f : measurement -> res measurement) (p : pattern) : res pattern :=
  do l <- map_res (cmd_map f) (p_seq p); reorder_output_nodes (pat_extend (pat_new (p_in p)) l) (p_out p).
(** measurements.py:235-237 and 427-440 to_bloch *)
Definition m_to_bloch (m : measurement) : res measurement := let '(a, p) := to_bloch m in Ok (MBloch a p).
(** measurements.py:240-242 and 443-445 downcast_bloch *)
Definition m_downcast (m : measurement) : res measurement := match m with MBloch a p => Ok m | MPauli _ _ => Err EType end.
(** pattern.py:1759-1790 infer_pauli_measurements *)
Definition m_infer (rel abs : R) (m : measurement) : res measurement := Ok (to_pauli_or_bloch rel abs m).

(** pattern.py:1369-1386 space_list *)
Fixpoint space_from (k : Z) (l : list cmd) : list Z :=
  match l with
  | [] => []
  | CN _ _ :: l => (k + 1)%Z :: space_from (k + 1) l
  | CM _ _ _ _ :: l => (k - 1)%Z :: space_from (k - 1) l
  | _ :: l => space_from k l
  end.
Definition space_list (p : pattern) : list Z := space_from 0 (p_seq p).

(** pattern.py:740-765 _find_op_to_be_moved(E): the rest of the sequence from the
    first E on *)
Fixpoint from_first_E (l : list cmd) : list cmd := match l with CE _ _ :: _ => l | _ :: l => from_first_E l | [] => [] end.
(** pattern.py:1275-1283 the loop of connected_nodes; the command after the last
    one is an IndexError *)
Fixpoint conn_loop (node : nat) (prep : nset) (l : list cmd) : res (list nat) :=
  match l with
  | [] => Err EIndex
  | CE u v :: l =>
      let here := if (u =? node)%nat then (if mem v prep then [] else [v])
                  else if (v =? node)%nat && negb (mem u prep) then [u] else [] in
      do r <- conn_loop node prep l; Ok (here ++ r)
  | _ => Ok []
  end.
Definition conn_seq (node : nat) (prep : nset) (l : list cmd) : res (list nat) :=
  match from_first_E l with [] => Ok [] | l' => conn_loop node prep l' end.
(** pattern.py:1248-1284 connected_nodes: [q] is the pattern afterwards (it is
    standardized in place) and [r] the result *)
Definition connected_nodes (p : pattern) (node : nat) (prep : nset) (q : pattern) (r : res (list nat)) : Prop :=
  if is_standard false p then q = p /\ r = conn_seq node prep (p_seq p)
  else exists r', standardizes p r' /\
    match r' with
    | Ok p' => q = with_seq p p' /\ r = conn_seq node prep (p_seq q)
    | Err e => q = p /\ r = Err e
    end.
(** pattern.py:1286-1294 correction_commands *)
Definition correction_commands (p : pattern) : res (list cmd) :=
  if is_standard false p then Ok (filter (fun c => match c with CX _ _ | CZ _ _ => true | _ => false end) (p_seq p)) else Err EAssert.

(** ** Specification *)
(** [c'] is [c] with its measurement, if any, replaced by what [f] returns *)
Definition rewritten (f : measurement -> res measurement) (c c' : cmd) : Prop :=
  match c with CM n m s t => exists m', f m = Ok m' /\ c' = CM n m' s t | _ => c' = c end.
(** [k] nodes are present after the commands [pre]: inputs or prepared, not measured *)
Definition present (inp : list nat) (pre : list cmd) (k : nat) : Prop :=
  exists L, NoDup L /\ (forall n, In n L <-> live inp pre n) /\ length L = k.
Definition is_NM (c : cmd) : bool := match c with CN _ _ | CM _ _ _ _ => true | _ => false end.
Definition count_NM (l : list cmd) : nat := length (filter is_NM l).
(** number of E commands between two nodes *)
Definition links (a b : nat) (l : list cmd) : nat :=
  length (filter (fun c => match c with CE u v => ((u =? a) && (v =? b) || (u =? b) && (v =? a))%nat | _ => false end) l).

(** ** Rewriting measurements *)
Lemma map_res_spec f l : match map_res (cmd_map f) l with
  | Ok l' => Forall2 (rewritten f) l l'
  | Err e => exists pre n m s t post, l = pre ++ CM n m s t :: post /\ f m = Err e /\ (forall n' m' s' t', In (CM n' m' s' t') pre -> exists m'', f m' = Ok m'')
  end.
Proof.
  induction l as [|c l IH]; cbn [map_res]; [constructor|].
  destruct (cmd_map f c) as [c'|e] eqn:E; cbn [rbind].
  - assert (R : rewritten f c c').
    { destruct c; cbn in E |- *; try (injection E as <-; reflexivity). destruct (f m) as [m'|] eqn:F; [|discriminate]. cbn in E. injection E as <-. eauto. }
    destruct (map_res (cmd_map f) l) as [l'|e]; cbn [rbind]; [constructor; auto|].
    destruct IH as (pre & n & m & s & t & post & -> & F & P). exists (c :: pre), n, m, s, t, post. split; auto. split; auto.
    intros n' m' s' t' [->|K]; eauto. destruct R as (m'' & R & _). eauto.
  - destruct c; try discriminate E. cbn in E. destruct (f m) as [m'|] eqn:F; [discriminate|]. cbn in E. injection E as ->.
    exists [], n, m, s, t, l. repeat split; auto. intros ? ? ? ? [].
Qed.
Theorem C63_apply (f : measurement -> res measurement) (p q : pattern) (e : option err) : apply_inplace f p = (q, e) ->
  match e with
  | None => p_in q = p_in p /\ p_out q = p_out p /\ p_n q = p_n p /\ Forall2 (rewritten f) (p_seq p) (p_seq q)
  | Some e => q = p /\ exists pre n m s t post, p_seq p = pre ++ CM n m s t :: post /\ f m = Err e /\
      (forall n' m' s' t', In (CM n' m' s' t') pre -> exists m'', f m' = Ok m'')
  end.
Proof.
  unfold apply_inplace. pose proof (map_res_spec f (p_seq p)) as S. destruct (map_res _ _) as [l|e']; intros H; injection H as <- <-; cbn [p_in p_out p_n p_seq]; auto.
Qed.
Print Assumptions C63_apply.
Lemma rewritten_outs f l l' : Forall2 (rewritten f) l l' -> forall o, outs_of o l' = outs_of o l.
Proof.
  induction 1 as [|c c' l l' R H IH]; auto. intros o. destruct c; cbn in R; try (subst c'; cbn [outs_of]; apply IH). destruct R as (m' & _ & ->). cbn [outs_of]. apply IH.
Qed.
Lemma rewritten_count f l l' : Forall2 (rewritten f) l l' -> count_N l' = count_N l.
Proof.
  unfold count_N. induction 1 as [|c c' l l' R H IH]; auto. destruct c; cbn in R; try (subst c'; cbn; rewrite IH; auto). destruct R as (m' & _ & ->). cbn. auto.
Qed.
(** a copy holds the same commands, inputs and outputs; it cannot be made only
    when an output is listed twice, which does not happen to runnable patterns *)
Theorem C63_map (f : measurement -> res measurement) (p : pattern) : pat_wf p ->
  match apply_inplace f p with
  | (q, None) => (NoDup (p_out p) -> pat_map f p = Ok (Pat (p_in q) (p_seq q) (p_out q) (length (p_in p) + count_N (p_seq p)))) /\
                 (~ NoDup (p_out p) -> pat_map f p = Err EPattern)
  | (_, Some e) => pat_map f p = Err e
  end.
Proof.
  intros WF. unfold apply_inplace, pat_map. pose proof (map_res_spec f (p_seq p)) as S. destruct (map_res _ _) as [l|e]; cbn [rbind]; auto. cbn [p_in p_seq p_out].
  destruct (pat_extend_fields (pat_new (p_in p)) l) as (E1 & E2 & E3). cbn in E1, E2, E3. unfold reorder_output_nodes. rewrite E1, E2, E3, (rewritten_outs f _ _ S).
  pose proof (assert_permutation_spec (outs_of (p_in p) (p_seq p)) (p_out p)) as Q.
  assert (MEM : forall n, In n (p_out p) <-> In n (outs_of (p_in p) (p_seq p))) by (intros n; split; apply Permutation_in; [exact WF|apply Permutation_sym, WF]).
  rewrite pat_extend_n, (rewritten_count f _ _ S). cbn [pat_new p_n]. split; intros ND.
  - rewrite (proj2 Q) by (split; auto). reflexivity.
  - destruct (assert_permutation _ _) as [[]|e] eqn:E; [destruct ND; apply Q; auto|]. apply assert_permutation_err in E. subst. reflexivity.
Qed.
Print Assumptions C63_map.
Theorem C63_map_runnable (f : measurement -> res measurement) (p : pattern) : pat_ok p -> runnable (p_in p) (p_seq p) -> NoDup (p_out p).
Proof. intros [NI WF] R. eapply Permutation_NoDup; [apply Permutation_sym, WF|]. apply outs_of_live; auto. Qed.
Print Assumptions C63_map_runnable.

(** a function that keeps the measured operators keeps the computation *)
Lemma rewritten_sem f l l' : Forall2 (rewritten f) l l' -> (forall n m s t m', In (CM n m s t) l -> f m = Ok m' -> forall r, meas_proj m' r = meas_proj m r) ->
  forall o, same_branch o l l'.
Proof.
  intros H K o. unfold same_branch. induction H as [|c c' l l' R H IH]; [reflexivity|].
  change (c :: l) with ([c] ++ l). change (c' :: l') with ([c'] ++ l'). rewrite !seq_ops_app. apply leq_app; [|apply IH; intros; eapply K; [right|]; eauto].
  destruct c; cbn [rewritten] in R; try (subst; reflexivity). destruct R as (m' & F & ->). etransitivity; [apply meas_ops_XZ|]. etransitivity; [|symmetry; apply meas_ops_XZ].
  apply leq_cons. apply meas_veqp. apply vouter_inj_phase; [apply mvec_norm|]. rewrite !mvec_proj. symmetry. eapply K; [left; reflexivity|exact F].
Qed.
Theorem C63_same_computation (f : measurement -> res measurement) (p q : pattern) : apply_inplace f p = (q, None) ->
  (forall n m s t m', In (CM n m s t) (p_seq p) -> f m = Ok m' -> forall r, meas_proj m' r = meas_proj m r) ->
  forall o, same_branch o (p_seq p) (p_seq q).
Proof. intros H K. apply C63_apply in H. destruct H as (_ & _ & _ & H). eapply rewritten_sem; eauto. Qed.
Print Assumptions C63_same_computation.
Lemma rewritten_runnable f l l' : Forall2 (rewritten f) l l' -> forall st, rfold run_step l' st = rfold run_step l st.
Proof.
  induction 1 as [|c c' l l' R H IH]; intros st; auto. cbn [rfold].
  assert (E : run_step st c' = run_step st c) by (destruct c; cbn in R; try (subst c'; reflexivity); destruct R as (m' & _ & ->); reflexivity).
  rewrite E. destruct (run_step st c); auto.
Qed.
(** rewriting never changes whether, and why not, a pattern can be run *)
Theorem C63_runnable (f : measurement -> res measurement) (p q : pattern) e : apply_inplace f p = (q, e) -> check_runnability q = check_runnability p.
Proof.
  intros H. apply C63_apply in H. destruct e as [e|]; [destruct H as (-> & _); reflexivity|]. destruct H as (E & _ & _ & H).
  unfold check_runnability, run_state. rewrite E, (rewritten_runnable _ _ _ H). reflexivity.
Qed.
Print Assumptions C63_runnable.

Lemma map_total f l : (forall n m s t, In (CM n m s t) l -> exists m', f m = Ok m') -> exists l', map_res (cmd_map f) l = Ok l' /\ Forall2 (rewritten f) l l'.
Proof.
  intros H. pose proof (map_res_spec f l) as S. destruct (map_res _ l) as [l'|e]; [eauto|]. destruct S as (pre & n & m & s & t & post & -> & F & _).
  destruct (H n m s t) as (m' & E); [apply in_or_app; right; left; auto|congruence].
Qed.
Lemma apply_total f p : (forall n m s t, In (CM n m s t) (p_seq p) -> exists m', f m = Ok m') ->
  exists l, apply_inplace f p = (Pat (p_in p) l (p_out p) (p_n p), None) /\ Forall2 (rewritten f) (p_seq p) l.
Proof. intros H. destruct (map_total f _ H) as (l & E & F). exists l. unfold apply_inplace. rewrite E. auto. Qed.
Lemma rewritten_in f l l' n m s t : Forall2 (rewritten f) l l' -> In (CM n m s t) l' -> exists m0, In (CM n m0 s t) l /\ f m0 = Ok m.
Proof.
  induction 1 as [|c c' l l' R H IH]; intros K; [destruct K|]. destruct K as [->|K].
  - destruct c; cbn in R; try discriminate R. destruct R as (m' & F & [= -> -> -> ->]). exists m0. split; [left|]; auto.
  - destruct (IH K) as (m0 & K1 & K2). exists m0. split; [right|]; auto.
Qed.
Lemma rewritten_id f l l' : Forall2 (rewritten f) l l' -> (forall n m s t, In (CM n m s t) l -> f m = Ok m) -> l' = l.
Proof.
  induction 1 as [|c c' l l' R H IH]; intros K; auto. f_equal; [|apply IH; intros; eapply K; right; eauto].
  destruct c; cbn in R; auto. destruct R as (m' & F & ->). rewrite (K _ _ _ _ (or_introl eq_refl)) in F. injection F as <-. auto.
Qed.
(** blochify: always succeeds, same computation, every measurement is a Bloch
    measurement; applying it twice changes nothing; downcast_bloch then succeeds *)
Theorem C63_blochify (p : pattern) : exists q, apply_inplace m_to_bloch p = (q, None) /\
  (forall o, same_branch o (p_seq p) (p_seq q)) /\
  (forall n m s t, In (CM n m s t) (p_seq q) -> exists a pl, m = MBloch a pl) /\
  apply_inplace m_to_bloch q = (q, None) /\ apply_inplace m_downcast q = (q, None).
Proof.
  destruct (apply_total m_to_bloch p) as (l & E & F). { intros n m s t _. unfold m_to_bloch. destruct (to_bloch m); eauto. }
  exists (Pat (p_in p) l (p_out p) (p_n p)). split; auto. cbn [p_seq].
  assert (B : forall n m s t, In (CM n m s t) l -> exists a pl, m = MBloch a pl).
  { intros n m s t K. destruct (rewritten_in _ _ _ _ _ _ _ F K) as (m0 & _ & G). unfold m_to_bloch in G. destruct (to_bloch m0) as [a pl]. injection G as <-. eauto. }
  split; [|split; [exact B|]].
  - apply (C63_same_computation m_to_bloch p _ E). intros n m s t m' _ G r. unfold m_to_bloch in G. destruct (to_bloch m) as [a pl] eqn:Q. injection G as <-.
    unfold meas_proj. rewrite Q. reflexivity.
  - assert (ID : forall g, (forall a pl, g (MBloch a pl) = Ok (MBloch a pl)) -> apply_inplace g (Pat (p_in p) l (p_out p) (p_n p)) = (Pat (p_in p) l (p_out p) (p_n p), None)).
    { intros g G. destruct (apply_total g (Pat (p_in p) l (p_out p) (p_n p))) as (l' & E' & F'). { cbn. intros n m s t K. destruct (B _ _ _ _ K) as (a & pl & ->). eauto. }
      rewrite E'. cbn [p_seq p_in p_out p_n] in *. rewrite (rewritten_id _ _ _ F'); auto. intros n m s t K. destruct (B _ _ _ _ K) as (a & pl & ->). auto. }
    split; apply ID; reflexivity.
Qed.
Print Assumptions C63_blochify.
(** downcast_bloch raises TypeError exactly when a Pauli measurement is present,
    and changes nothing *)
Theorem C63_downcast (p : pattern) : exists e, apply_inplace m_downcast p = (p, e) /\
  (e = None <-> forall n m s t, In (CM n m s t) (p_seq p) -> exists a pl, m = MBloch a pl) /\ (e <> None -> e = Some EType).
Proof.
  destruct (apply_inplace m_downcast p) as [q e] eqn:E. exists e. pose proof (C63_apply _ _ _ _ E) as H. destruct e as [e|].
  - destruct H as (-> & pre & n & m & s & t & post & Q & F & _). split; auto. split.
    + split; [discriminate|]. intros K. destruct (K n m s t) as (a & pl & ->); [rewrite Q; apply in_or_app; right; left; auto|discriminate F].
    + intros _. destruct m; [discriminate F|]. injection F as <-. auto.
  - destruct H as (E1 & E2 & E3 & F).
    assert (B : forall n m s t, In (CM n m s t) (p_seq p) -> exists a pl, m = MBloch a pl).
    { intros n m s t K. clear - F K. induction F as [|c c' l l' R F IH]; [destruct K|]. destruct K as [->|K]; auto. destruct R as (m' & G & _). destruct m; [eauto|discriminate G]. }
    split; [|split; [tauto|congruence]]. f_equal. destruct p, q; cbn in *. subst. f_equal. eapply rewritten_id; eauto. intros n m s t K. destruct (B _ _ _ _ K) as (a & pl & ->). reflexivity.
Qed.
Print Assumptions C63_downcast.
(** infer_pauli_measurements: within the tolerances, every recognised angle is
    replaced by the nearest multiple of a quarter turn and then the computation is
    the same; with zero tolerances the computation is that of the pattern *)
Definition rounded (rel abs : R) (c c' : cmd) : Prop :=
  c' = c \/ exists n a pl s t (k : Z), c = CM n (MBloch a pl) s t /\ c' = CM n (MBloch (IZR k / 2) pl) s t /\
    (Rabs (2 * a - IZR k) <= Rmax (rel * Rmax (Rabs (2 * a)) (Rabs (IZR k))) abs)%R.
Theorem C63_infer (rel abs : R) (p : pattern) : exists q l, apply_inplace (m_infer rel abs) p = (q, None) /\
  Forall2 (rounded rel abs) (p_seq p) l /\ forall o, same_branch o l (p_seq q).
Proof.
  destruct (apply_total (m_infer rel abs) p) as (l & E & F); [unfold m_infer; eauto|].
  exists (Pat (p_in p) l (p_out p) (p_n p)). cbn [p_seq].
  assert (G : exists l0, Forall2 (rounded rel abs) (p_seq p) l0 /\ forall o, same_branch o l0 l).
  { clear E. induction F as [|c c' l l' R F IH]; [exists []; split; [constructor|intros o; apply leq_refl]|]. destruct IH as (l0 & IH1 & IH2).
    assert (X : exists c0, rounded rel abs c c0 /\ forall o, same_branch o [c0] [c']).
    { destruct c; cbn in R; try (subst c'; eexists; split; [left; reflexivity|intros o; apply leq_refl]). destruct R as (m' & [= <-] & ->).
      destruct (C40_to_pauli_or_bloch rel abs m) as [Q|(a & pl & ax & sg & k & Q1 & Q2 & L & PR)].
      - rewrite Q. eexists. split; [left; reflexivity|intros o; apply leq_refl].
      - rewrite Q2 in *. subst m. exists (CM n (MBloch (IZR k / 2) pl) s t). split; [right; exists n, a, pl, s, t, k; auto|].
        intros o. unfold same_branch. etransitivity; [apply meas_ops_XZ|]. etransitivity; [|symmetry; apply meas_ops_XZ].
        apply leq_cons. apply meas_veqp. apply vouter_inj_phase; [apply mvec_norm|]. rewrite !mvec_proj. symmetry. apply PR. }
    destruct X as (c0 & X1 & X2). exists (c0 :: l0). split; [constructor; auto|]. intros o. unfold same_branch in *.
    change (c0 :: l0) with ([c0] ++ l0). change (c' :: l') with ([c'] ++ l'). rewrite !seq_ops_app. apply leq_app; auto. }
  destruct G as (l0 & G1 & G2). exists l0. auto.
Qed.
Print Assumptions C63_infer.
Theorem C63_infer_exact (p : pattern) : exists q, apply_inplace (m_infer 0 0) p = (q, None) /\ forall o, same_branch o (p_seq p) (p_seq q).
Proof.
  destruct (C63_infer 0 0 p) as (q & l & E & F & S). exists q. split; auto. replace (p_seq p) with l; auto.
  clear - F. induction F as [|c c' l l' R F IH]; auto. f_equal; auto. destruct R as [->|(n & a & pl & s & t & k & -> & -> & L)]; auto.
  rewrite Rmult_0_l, Rmax_left in L by lra. do 2 f_equal. destruct (Req_dec (2 * a - IZR k) 0) as [Q|Q]; [lra|]. apply Rabs_pos_lt in Q. lra.
Qed.
Print Assumptions C63_infer_exact.

(** ** Counting nodes *)
Lemma count_N_snoc_len inp l c : NoDup inp -> runnable inp (l ++ [c]) ->
  Z.of_nat (length (outs_of inp (l ++ [c]))) = (Z.of_nat (length (outs_of inp l)) + match c with CN _ _ => 1 | CM _ _ _ _ => -1 | _ => 0 end)%Z.
Proof.
  intros NI R. rewrite outs_of_app. apply runnable_snoc in R. destruct R as [R C]. destruct (outs_of_live inp l NI R) as [ND LV].
  destruct c as [n s|u v|n m s t|n d|n d|n g|n d|]; cbn [outs_of]; try (rewrite Z.add_0_r; reflexivity).
  - rewrite app_length. cbn. lia.
  - destruct C as [C _]. apply LV in C. revert C. generalize (outs_of inp l). clear. induction l as [|x l IH]; intros K; [destruct K|]. cbn [lremove].
    destruct (Nat.eqb_spec x n); [cbn [length]; lia|]. destruct K as [->|K]; [congruence|]. cbn [length]. specialize (IH K). lia.
Qed.
Lemma present_len inp l k : NoDup inp -> runnable inp l -> (present inp l k <-> length (outs_of inp l) = k).
Proof.
  intros NI R. destruct (outs_of_live inp l NI R) as [ND LV]. split.
  - intros (L & L1 & L2 & <-). apply Permutation_length. apply NoDup_Permutation; auto. intros x. rewrite LV, L2. tauto.
  - intros <-. exists (outs_of inp l). auto.
Qed.
(** the nodes present are well defined *)
Theorem C63_present (p : pattern) pre post : NoDup (p_in p) -> runnable (p_in p) (p_seq p) -> p_seq p = pre ++ post -> exists! k, present (p_in p) pre k.
Proof.
  intros NI R E. rewrite E in R. apply runnable_app_l in R. exists (length (outs_of (p_in p) pre)). split; [apply present_len; auto|]. intros k K. apply present_len in K; auto.
Qed.
Print Assumptions C63_present.
Lemma space_from_nth pre c post : forall k, is_NM c = true -> forall d, nth (count_NM pre) (space_from k (pre ++ c :: post)) d =
  (k + fold_right (fun c a => match c with CN _ _ => 1 | CM _ _ _ _ => -1 | _ => 0 end + a) 0 (pre ++ [c]))%Z.
Proof.
  unfold count_NM. induction pre as [|c0 pre IH]; intros k N d.
  - cbn [app filter length nth]. destruct c; try discriminate N; cbn; lia.
  - cbn [app]. cbn [fold_right]. destruct c0; cbn [space_from filter is_NM length nth]; rewrite IH by auto; lia.
Qed.
Lemma outs_len_sum inp l : NoDup inp -> runnable inp l ->
  Z.of_nat (length (outs_of inp l)) = (Z.of_nat (length inp) + fold_right (fun c a => match c with CN _ _ => 1 | CM _ _ _ _ => -1 | _ => 0 end + a) 0 l)%Z.
Proof.
  intros NI. induction l as [|c l IH] using rev_ind; intros R; [cbn; lia|]. rewrite (count_N_snoc_len _ _ _ NI R). apply runnable_snoc in R. destruct R as [R _]. rewrite (IH R).
  clear. induction l as [|c0 l IH]; [cbn; lia|]. cbn [app fold_right]. lia.
Qed.
Lemma space_from_length l : forall k, length (space_from k l) = count_NM l.
Proof. unfold count_NM. induction l as [|c l IH]; intros k; auto. destruct c; cbn [space_from filter is_NM length]; rewrite ?IH; auto. Qed.
(** one entry per N and M command; it is the number of nodes present after the
    command, minus the number of inputs, which are forgotten *)
Theorem C63_space_list (p : pattern) : NoDup (p_in p) -> runnable (p_in p) (p_seq p) ->
  length (space_list p) = count_NM (p_seq p) /\
  forall pre c post k d, p_seq p = pre ++ c :: post -> is_NM c = true -> present (p_in p) (pre ++ [c]) k ->
    nth (count_NM pre) (space_list p) d = (Z.of_nat k - Z.of_nat (length (p_in p)))%Z.
Proof.
  intros NI R. split; [apply space_from_length|]. intros pre c post k d E N K. unfold space_list. rewrite E, space_from_nth by auto.
  assert (R' : runnable (p_in p) (pre ++ [c])) by (rewrite E in R; change (c :: post) with ([c] ++ post) in R; rewrite app_assoc in R; eapply runnable_app_l; eauto).
  apply present_len in K; auto. rewrite <- K, (outs_len_sum _ _ NI R'). lia.
Qed.
Print Assumptions C63_space_list.
(** the documented meaning (number of nodes present) is false of patterns with
    inputs: measuring the only input gives -1 *)
Theorem C63_space_list_refuted : ~ (forall p pre c post k d, pat_ok p -> runnable (p_in p) (p_seq p) -> p_seq p = pre ++ c :: post -> is_NM c = true ->
  present (p_in p) (pre ++ [c]) k -> nth (count_NM pre) (space_list p) d = Z.of_nat k).
Proof.
  intros H. set (p := Pat [0] [CM 0 (MPauli AX Plus) sempty sempty] [] 1).
  assert (NI : NoDup [0]) by (constructor; [intros []|constructor]).
  assert (R : runnable (p_in p) (p_seq p)) by (apply check_runnability_spec; reflexivity).
  specialize (H p [] (CM 0 (MPauli AX Plus) sempty sempty) [] 0 0%Z (conj NI (perm_nil _)) R eq_refl eq_refl).
  assert (K : present (p_in p) ([] ++ [CM 0 (MPauli AX Plus) sempty sempty]) 0) by (apply present_len; auto). specialize (H K). cbn in H. discriminate H.
Qed.
Print Assumptions C63_space_list_refuted.
(** max_space: the largest number of nodes present at any moment *)
Lemma pms_snoc i l c : pms i (l ++ [c]) = pms_step (pms i l) c.
Proof. unfold pms. apply fold_left_app. Qed.
Lemma exists_last_or {A} (q : list A) : q = [] \/ exists q' x, q = q' ++ [x].
Proof. destruct q as [|a q]; auto. right. destruct (exists_last (l := a :: q)) as (q' & x & E); [discriminate|]. eauto. Qed.
Theorem C63_max_space (p : pattern) : NoDup (p_in p) -> runnable (p_in p) (p_seq p) ->
  (forall pre post k, p_seq p = pre ++ post -> present (p_in p) pre k -> (Z.of_nat k <= pattern_max_space p)%Z) /\
  exists pre post k, p_seq p = pre ++ post /\ present (p_in p) pre k /\ pattern_max_space p = Z.of_nat k.
Proof.
  intros NI R. unfold pattern_max_space.
  assert (G : forall l post, p_seq p = l ++ post -> fst (pms (length (p_in p)) l) = Z.of_nat (length (outs_of (p_in p) l)) /\
    (forall pre q, l = pre ++ q -> (Z.of_nat (length (outs_of (p_in p) pre)) <= snd (pms (length (p_in p)) l))%Z) /\
    exists pre q, l = pre ++ q /\ snd (pms (length (p_in p)) l) = Z.of_nat (length (outs_of (p_in p) pre))).
  { induction l as [|c l IH] using rev_ind; intros post E.
    - split; [reflexivity|]. split; [|exists [], []; auto]. intros pre q K. symmetry in K. apply app_eq_nil in K. destruct K as [-> ->]. cbn. lia.
    - assert (R' : runnable (p_in p) (l ++ [c])) by (rewrite E in R; eapply runnable_app_l; eauto).
      pose proof (count_N_snoc_len _ _ _ NI R') as C. destruct (IH ([c] ++ post)) as (I1 & I2 & I3); [rewrite E, <- app_assoc; auto|].
      rewrite pms_snoc.
      assert (S : fst (pms_step (pms (length (p_in p)) l) c) = Z.of_nat (length (outs_of (p_in p) (l ++ [c]))) /\
        (snd (pms_step (pms (length (p_in p)) l) c) = Z.max (Z.of_nat (length (outs_of (p_in p) (l ++ [c])))) (snd (pms (length (p_in p)) l)))).
      { assert (M := I2 l [] (eq_sym (app_nil_r l))). destruct c; cbn [pms_step fst snd]; rewrite C, ?I1; split; lia. }
      destruct S as [S1 S2]. split; auto. split.
      + intros pre q K. rewrite S2. destruct (exists_last_or q) as [->|(q' & x & ->)].
        * rewrite app_nil_r in K. subst pre. lia.
        * rewrite app_assoc in K. apply app_inj_tail in K. destruct K as [-> ->]. specialize (I2 pre q' eq_refl). lia.
      + rewrite S2. destruct (Z.max_spec (Z.of_nat (length (outs_of (p_in p) (l ++ [c])))) (snd (pms (length (p_in p)) l))) as [[_ ->]|[_ ->]].
        * destruct I3 as (pre & q & -> & ->). exists pre, (q ++ [c]). rewrite app_assoc. auto.
        * exists (l ++ [c]), []. rewrite app_nil_r. auto. }
  destruct (G (p_seq p) [] (eq_sym (app_nil_r _))) as (_ & G2 & pre & q & E & G3). split.
  - intros pre' post k E' K. apply present_len in K; auto; [subst k; eapply G2; eauto|rewrite E' in R; eapply runnable_app_l; eauto].
  - exists pre, q, (length (outs_of (p_in p) pre)). split; auto. split; auto. apply present_len; auto. rewrite E in R. eapply runnable_app_l; eauto.
Qed.
Print Assumptions C63_max_space.

(** ** Connected and isolated nodes *)
Lemma skip_while_split f l : exists a, l = a ++ skip_while f l /\ forallb (fun c => f (kind_of c)) a = true /\ match skip_while f l with c :: _ => f (kind_of c) = false | [] => True end.
Proof.
  induction l as [|c l (a & E & A & B)]; [exists []; cbn; auto|]. cbn [skip_while]. destruct (f (kind_of c)) eqn:F.
  - exists (c :: a). cbn. rewrite F, A, <- E. auto.
  - exists []. cbn. rewrite F. auto.
Qed.
Lemma standard_split p : is_standard false p = true -> exists ns es rest, p_seq p = ns ++ es ++ rest /\
  forallb (fun c => isN (kind_of c)) ns = true /\ forallb (fun c => isE (kind_of c)) es = true /\
  forallb (fun c => negb (isN (kind_of c) || isE (kind_of c))) rest = true.
Proof.
  unfold is_standard. set (l := p_seq p). intros H.
  destruct (skip_while_split isN l) as (ns & E1 & A1 & _). set (l1 := skip_while isN l) in *.
  destruct (skip_while_split isE l1) as (es & E2 & A2 & _). set (l2 := skip_while isE l1) in *.
  destruct (skip_while_split isM l2) as (ms & E3 & A3 & _). set (l3 := skip_while isM l2) in *.
  destruct (skip_while_split isXZC l3) as (xs & E4 & A4 & _). destruct (skip_while isXZC l3); [|discriminate]. rewrite app_nil_r in E4.
  exists ns, es, (ms ++ xs). rewrite E1, E2, E3, E4. split; auto. split; auto. split; auto. rewrite forallb_app. apply andb_true_iff. rewrite forallb_forall in A3, A4.
  split; apply forallb_forall; intros c K; [apply A3 in K|apply A4 in K]; destruct c; auto.
Qed.
Lemma from_first_app ns l : forallb (fun c => isN (kind_of c)) ns = true -> from_first_E (ns ++ l) = from_first_E l.
Proof. induction ns as [|c ns IH]; auto. cbn. intros H. apply andb_true_iff in H. destruct H as [H1 H2]. destruct c; try discriminate H1. apply IH; auto. Qed.
Lemma from_first_none l : forallb (fun c => negb (isN (kind_of c) || isE (kind_of c))) l = true -> from_first_E l = [].
Proof. induction l as [|c l IH]; auto. cbn. intros H. apply andb_true_iff in H. destruct H as [H1 H2]. destruct c; try discriminate H1; apply IH; auto. Qed.
Lemma links_app a b l l' : links a b (l ++ l') = links a b l + links a b l'.
Proof. unfold links. rewrite filter_app, app_length. auto. Qed.
Lemma links_none a b l : forallb (fun c => negb (isE (kind_of c))) l = true -> links a b l = 0.
Proof. unfold links. induction l as [|c l IH]; auto. cbn. intros H. apply andb_true_iff in H. destruct H as [H1 H2]. destruct c; try discriminate H1; apply IH; auto. Qed.
Lemma conn_loop_spec node prep rest es : forallb (fun c => isE (kind_of c)) es = true -> forallb (fun c => negb (isN (kind_of c) || isE (kind_of c))) rest = true ->
  match rest with
  | [] => conn_loop node prep (es ++ rest) = Err EIndex
  | _ => exists L, conn_loop node prep (es ++ rest) = Ok L /\ forall v, count_occ Nat.eq_dec L v = if mem v prep then 0 else links node v es
  end.
Proof.
  intros HE HR. destruct rest as [|r rest].
  - rewrite app_nil_r. induction es as [|c es IH]; auto. cbn in HE. apply andb_true_iff in HE. destruct HE as [H1 H2]. destruct c; try discriminate H1. cbn [conn_loop]. rewrite IH by auto. reflexivity.
  - induction es as [|c es IH].
    + exists []. split; [|intros v'; destruct (mem v' prep); reflexivity]. cbn in HR. apply andb_true_iff in HR. destruct HR as [HR _]. destruct r; try discriminate HR; reflexivity.
    + cbn in HE. apply andb_true_iff in HE. destruct HE as [H1 H2]. destruct c as [|u v| | | | | |]; try discriminate H1. destruct (IH H2) as (L & E & C). cbn [app conn_loop]. cbv zeta. rewrite E. cbn [rbind].
      eexists. split; [reflexivity|]. intros w. rewrite count_occ_app, C. change (CE u v :: es) with ([CE u v] ++ es). rewrite links_app.
      assert (X : count_occ Nat.eq_dec (if (u =? node)%nat then if mem v prep then [] else [v] else if (v =? node)%nat && negb (mem u prep) then [u] else []) w =
                  if mem w prep then 0 else links node w [CE u v]).
      { unfold links. cbn [filter length]. destruct (Nat.eqb_spec u node) as [->|N1].
        - cbn [andb]. destruct (Nat.eqb_spec v w) as [->|N2]; cbn [orb].
          + destruct (mem w prep); cbn; auto. destruct (Nat.eq_dec w w); [auto|congruence].
          + replace ((node =? w) && (v =? node))%nat with false; [|destruct (Nat.eqb_spec node w), (Nat.eqb_spec v node); auto; congruence].
            cbn. destruct (mem v prep); cbn; [destruct (mem w prep); auto|]. destruct (Nat.eq_dec v w); [congruence|]. destruct (mem w prep); auto.
        - cbn [andb orb]. destruct (Nat.eqb_spec v node) as [->|N2]; [|rewrite andb_false_r; cbn; destruct (mem w prep); auto]. rewrite andb_true_r. destruct (Nat.eqb_spec u w) as [->|N3].
          + cbn. destruct (mem w prep); cbn; auto. destruct (Nat.eq_dec w w); [auto|congruence].
          + cbn. destruct (mem u prep); cbn; [destruct (mem w prep); auto|]. destruct (Nat.eq_dec u w); [congruence|]. destruct (mem w prep); auto. }
      rewrite X. destruct (mem w prep); auto.
Qed.
Lemma conn_seq_spec p node prep : is_standard false p = true ->
  match conn_seq node prep (p_seq p) with
  | Ok L => (forall v, count_occ Nat.eq_dec L v = if mem v prep then 0 else links node v (p_seq p)) /\
            ((exists u v, In (CE u v) (p_seq p)) -> exists c, In c (p_seq p) /\ isN (kind_of c) = false /\ isE (kind_of c) = false)
  | Err e => e = EIndex /\ (exists u v, In (CE u v) (p_seq p)) /\ forall c, In c (p_seq p) -> isN (kind_of c) = true \/ isE (kind_of c) = true
  end.
Proof.
  intros H. destruct (standard_split p H) as (ns & es & rest & E & A & B & C). rewrite E. unfold conn_seq. rewrite from_first_app by auto.
  assert (NL : forall node v, links node v (ns ++ es ++ rest) = links node v es).
  { intros a b. rewrite !links_app, (links_none _ _ ns), (links_none _ _ rest); [lia| |].
    - rewrite forallb_forall in C |- *. intros c K. apply C in K. destruct c; auto.
    - rewrite forallb_forall in A |- *. intros c K. apply A in K. destruct c; auto; discriminate. }
  rewrite forallb_forall in A. destruct es as [|e es].
  - cbn [app]. rewrite from_first_none by auto. split; [intros v; rewrite NL; destruct (mem v prep); reflexivity|].
    intros (u & v & K). exfalso. apply in_app_or in K. destruct K as [K|K]; [apply A in K; discriminate|]. rewrite forallb_forall in C. apply C in K. discriminate.
  - assert (Q : from_first_E ((e :: es) ++ rest) = (e :: es) ++ rest) by (cbn in B; destruct e; try discriminate B; reflexivity). rewrite Q.
    pose proof (conn_loop_spec node prep rest (e :: es) B C) as S. destruct rest as [|r rest].
    + cbn [app] in S |- *. rewrite S. split; auto. rewrite forallb_forall in B. split.
      * assert (K := B e (or_introl eq_refl)). destruct e as [|u v| | | | | |]; try discriminate K. exists u, v. apply in_or_app. right. left. auto.
      * intros c K. rewrite app_nil_r in K. apply in_app_or in K. destruct K as [K|K]; [left; apply A; auto|right; apply B; auto].
    + destruct S as (L & S & T). cbn [app] in S |- *. rewrite S. split.
      * intros v. rewrite T, <- NL. reflexivity.
      * intros _. exists r. split; [apply in_or_app; right; right; apply in_or_app; right; left; auto|]. cbn in C. apply andb_true_iff in C. destruct C as [C _]. destruct r; auto; discriminate.
Qed.
(** parity of the number of E commands between two nodes *)
Lemma link_edge a b u v : ((u =? a) && (v =? b) || (u =? b) && (v =? a))%nat = edge_eqb (edge_norm (a, b)) (edge_norm (u, v)).
Proof.
  apply eq_true_iff_eq. unfold edge_eqb, edge_norm. cbn [fst snd]. rewrite orb_true_iff, !andb_true_iff, !Nat.eqb_eq. lia.
Qed.
Lemma existsb_edge e es : existsb (edge_eqb e) es = true <-> In e es.
Proof. rewrite existsb_exists. split; [intros (x & H & K); apply edge_eqb_eq in K; subst; auto|]. intros H. exists e. split; auto. apply edge_eqb_eq; auto. Qed.
Lemma toggle_mem e e' es : existsb (edge_eqb e) (edge_toggle e' es) = xorb (edge_eqb e e') (existsb (edge_eqb e) es).
Proof.
  unfold edge_toggle. destruct (existsb (edge_eqb e') es) eqn:X.
  - apply eq_true_iff_eq. rewrite existsb_edge, filter_In, negb_true_iff. destruct (edge_eqb e e') eqn:Y.
    + apply edge_eqb_eq in Y. subst e'. rewrite X. assert (Z : edge_eqb e e = true) by (apply edge_eqb_eq; auto). rewrite Z. cbn. split; [intros [_ K]; discriminate|discriminate].
    + rewrite xorb_false_l, existsb_edge. split; [tauto|]. intros K. split; auto. apply not_true_iff_false. intros Z. apply edge_eqb_eq in Z. subst e'.
      assert (W : edge_eqb e e = true) by (apply edge_eqb_eq; auto). congruence.
  - rewrite existsb_app. cbn [existsb]. rewrite orb_false_r. destruct (edge_eqb e e') eqn:Y.
    + apply edge_eqb_eq in Y. subst e'. rewrite X. reflexivity.
    + rewrite orb_false_r, xorb_false_l. auto.
Qed.
Lemma std_parity a b l : forall st st', rfold std_step l st = Ok st' ->
  existsb (edge_eqb (edge_norm (a, b))) (sp_e st') = xorb (Nat.odd (links a b l)) (existsb (edge_eqb (edge_norm (a, b))) (sp_e st)).
Proof.
  induction l as [|c l IH]; intros st st' H; [injection H as <-; cbn; destruct (existsb _ _); reflexivity|]. cbn [rfold] in H. destruct (std_step st c) as [st1|] eqn:E1; [|discriminate].
  rewrite (IH _ _ H). change (c :: l) with ([c] ++ l). rewrite links_app, Nat.odd_add.
  assert (D : (exists u v, c = CE u v) \/ (forall u v, c <> CE u v)) by (destruct c; eauto; right; discriminate).
  destruct D as [(u & v & ->)|D].
  - cbn [std_step] in E1. destruct (std_side st u v) as [s1|] eqn:S1; [|discriminate]. cbn [rbind] in E1. destruct (std_side s1 v u) as [s2|] eqn:S2; [|discriminate]. cbn [rbind] in E1. injection E1 as <-.
    cbn [sp_e]. rewrite toggle_mem, (std_side_e _ _ _ _ S2), (std_side_e _ _ _ _ S1). unfold links at 2. cbn [filter]. rewrite link_edge.
    destruct (edge_eqb _ (edge_norm (u, v))); cbn; destruct (Nat.odd (links a b l)), (existsb _ (sp_e st)); reflexivity.
  - rewrite (std_step_e _ _ _ D E1). replace (links a b [c]) with 0; [cbn; destruct (Nat.odd (links a b l)), (existsb _ (sp_e st)); reflexivity|]. unfold links. destruct c; auto. destruct (D u v eq_refl).
Qed.
Lemma from_parity p st a b : from_pattern p = Ok st -> In (edge_norm (a, b)) (sp_e st) <-> Nat.odd (links a b (p_seq p)) = true.
Proof.
  unfold from_pattern. destruct (check_runnability p); [|discriminate]. cbn [rbind]. intros H. rewrite <- existsb_edge, (std_parity a b _ _ _ H). cbn. rewrite xorb_false_r. tauto.
Qed.
(** the edges of the open graph of a pattern join the nodes with an odd number of
    E commands *)
Theorem C63_graph (p : pattern) es st og a b : from_pattern p = Ok st -> edge_enum st es -> pat_opengraph p es = Ok og ->
  (adjacent (og_graph og) a b <-> Nat.odd (links a b (p_seq p)) = true).
Proof.
  intros E HE H. unfold pat_opengraph in H. rewrite E in H. cbn [rbind] in H. unfold std_opengraph in H.
  destruct (negb (forallb _ _)); [discriminate|]. destruct (has_loop st); [discriminate|].
  assert (G : og_graph og = std_graph st es).
  { unfold og_make in H. repeat match type of H with (if ?c then _ else _) = _ => destruct c; [discriminate|] end. injection H as <-. reflexivity. }
  rewrite G, (sg_adj st es HE), (from_parity _ _ _ _ E). tauto.
Qed.
Print Assumptions C63_graph.
Theorem C63_isolated (p : pattern) es st og n : pat_ok p -> from_pattern p = Ok st -> edge_enum st es -> pat_opengraph p es = Ok og ->
  (In n (isolated_nodes (og_graph og)) <-> (In n (p_in p) \/ prepared_in (p_seq p) n) /\ forall k, Nat.even (links n k (p_seq p)) = true).
Proof.
  intros PO E HE H. assert (AD := fun k => C63_graph p es st og n k E HE H). unfold pat_opengraph in H. rewrite E in H. cbn [rbind] in H. unfold std_opengraph in H.
  destruct (negb (forallb _ _)); [discriminate|]. destruct (has_loop st); [discriminate|].
  assert (G : og_graph og = std_graph st es).
  { unfold og_make in H. repeat match type of H with (if ?c then _ else _) = _ => destruct c; [discriminate|] end. injection H as <-. reflexivity. }
  rewrite G in *. unfold isolated_nodes. rewrite filter_In.
  assert (DG : (degree (std_graph st es) n =? 0)%nat = true <-> forall k, ~ adjacent (std_graph st es) n k).
  { rewrite Nat.eqb_eq. unfold degree, adjacent. set (l := g_edges (std_graph st es)). split.
    - intros K k [Q|Q]; [assert (X : In (n, k) (filter (fun e => (fst e =? n)%nat || (snd e =? n)%nat) l))|assert (X : In (k, n) (filter (fun e => (fst e =? n)%nat || (snd e =? n)%nat) l))];
        try (apply filter_In; split; [auto|cbn; rewrite Nat.eqb_refl, ?orb_true_r; auto]); destruct (filter _ l); [destruct X|discriminate K|destruct X|discriminate K].
    - intros K. destruct (filter _ l) as [|[a b] r] eqn:F; auto. exfalso. assert (X : In (a, b) (filter (fun e => (fst e =? n)%nat || (snd e =? n)%nat) l)) by (rewrite F; left; auto).
      apply filter_In in X. destruct X as [X1 X2]. cbn in X2. apply orb_true_iff in X2. rewrite !Nat.eqb_eq in X2. destruct X2 as [->| ->]; [apply (K b); auto|apply (K a); auto]. }
  rewrite DG. assert (ND : In n (g_nodes (std_graph st es)) <-> In n (p_in p) \/ prepared_in (p_seq p) n).
  { destruct (from_pattern_inv _ _ E) as [R I]. rewrite (sg_nodes st es (std_inv_wf _ _ _ R I)). unfold std_node. destruct I as [I1 I2 _ _ _ _ _ _ _]. rewrite I1, I2.
    assert (Q : In n (map fst (ns_of (p_seq p))) <-> prepared_in (p_seq p) n) by (apply ns_of_In). tauto. }
  rewrite ND. split; intros [K1 K2]; split; auto; intros k.
  - specialize (K2 k). rewrite AD, <- Nat.negb_even in K2. destruct (Nat.even _); auto.
  - rewrite AD, <- Nat.negb_even, K2. discriminate.
Qed.
Print Assumptions C63_isolated.
Lemma edge_dec (x y : nat * nat) : {x = y} + {x <> y}.
Proof. decide equality; apply Nat.eq_dec. Qed.
Lemma links_std a b st es : NoDup (sp_e st) -> edge_enum st es -> links a b (std_cmds st es) = if existsb (edge_eqb (edge_norm (a, b))) (sp_e st) then 1 else 0.
Proof.
  intros ND HE. unfold std_cmds. rewrite !links_app.
  assert (Z : forall A (f : A -> cmd) l, (forall x, isE (kind_of (f x)) = false) -> links a b (map f l) = 0).
  { intros A f l H. apply links_none. apply forallb_forall. intros c K. apply in_map_iff in K. destruct K as (x & <- & _). rewrite H. auto. }
  rewrite (Z _ (fun p : nat * nstate => CN (fst p) (snd p))), (Z _ mcmd_cmd), (Z _ (fun p : nat * nset => CZ (fst p) (snd p))), (Z _ (fun p : nat * nset => CX (fst p) (snd p))), (Z _ (fun p : nat * clifford => CC (fst p) (snd p))) by (intros; reflexivity).
  rewrite Nat.add_0_l, !Nat.add_0_r.
  transitivity (count_occ edge_dec (map edge_norm es) (edge_norm (a, b))).
  - unfold links. clear. induction es as [|[u v] es IH]; auto. cbn [map filter fst snd count_occ].
    rewrite link_edge. destruct (edge_eqb (edge_norm (a, b)) (edge_norm (u, v))) eqn:Q.
    + apply edge_eqb_eq in Q. destruct (edge_dec _ _) as [_|N]; [cbn [length]; auto|congruence].
    + destruct (edge_dec _ _) as [Y|_]; auto. rewrite Y in Q. assert (W : edge_eqb (edge_norm (a, b)) (edge_norm (a, b)) = true) by (apply edge_eqb_eq; auto). congruence.
  - match goal with |- count_occ ?d _ _ = _ => rewrite (proj1 (Permutation_count_occ d _ _) HE (edge_norm (a, b))); destruct (existsb _ (sp_e st)) eqn:X;
      [apply (proj1 (NoDup_count_occ' d (sp_e st)) ND), existsb_edge; auto|apply (proj1 (count_occ_not_In d (sp_e st) _)); rewrite <- existsb_edge; congruence] end.
Qed.
(** connected_nodes lists every neighbour that is not excluded, once per E command
    left between the two nodes, whose number is odd exactly when the open graph
    has the edge; the pattern afterwards is standard, with the same inputs and
    outputs and the same number of E commands up to parity, and the same
    computation *)
Theorem C63_connected (p q : pattern) (node : nat) (prep : nset) (L : list nat) : connected_nodes p node prep q (Ok L) ->
  is_standard false q = true /\ p_in q = p_in p /\ p_out q = p_out p /\
  (forall v, count_occ Nat.eq_dec L v = if mem v prep then 0 else links node v (p_seq q)) /\
  (forall a b, Nat.odd (links a b (p_seq q)) = Nat.odd (links a b (p_seq p))) /\
  (is_standard false p = true -> q = p) /\ (is_standard false p = false -> NoDup L) /\
  (pat_ok p -> sem_ok (p_seq p) = true -> forall o, same_branch o (p_seq p) (p_seq q)).
Proof.
  unfold connected_nodes. destruct (is_standard false p) eqn:S.
  - intros [-> H]. pose proof (conn_seq_spec p node prep S) as C. rewrite <- H in C. destruct C as [C _]. repeat (split; auto); [discriminate|]. intros _ _ o. apply leq_refl.
  - intros (r' & ST & H). destruct r' as [p'|e]; [|destruct H as [_ H]; discriminate H]. destruct H as [-> H].
    assert (ST' := ST). unfold standardizes in ST'. destruct (from_pattern p) as [st|] eqn:E; [|discriminate ST']. destruct ST' as (es & HE & T).
    assert (Q : p_seq p' = std_cmds st es).
    { unfold to_pattern in T. destruct (existsb _ es); [discriminate|]. unfold reorder_output_nodes in T. destruct (assert_permutation _ _); [|discriminate]. injection T as ->.
      cbn [p_seq]. destruct (pat_extend_fields (pat_new (sp_in st)) (std_cmds st es)) as (_ & -> & _). reflexivity. }
    assert (SQ : is_standard false (with_seq p p') = true) by (eapply std_is_standard; cbn [with_seq p_seq]; exact Q).
    pose proof (conn_seq_spec _ node prep SQ) as C. rewrite <- H in C. destruct C as [C _].
    destruct (from_pattern_inv _ _ E) as [R I]. pose proof (links_std) as LS. cbn [with_seq p_seq] in *. rewrite Q in *.
    assert (ND := si_eN _ _ _ I).
    split; [exact SQ|]. split; auto. split; auto. split; auto. split; [|split; [discriminate|split]].
    + intros a b. rewrite (LS a b st es ND HE). apply eq_true_iff_eq. rewrite <- (from_parity _ _ a b E), <- existsb_edge. destruct (existsb _ (sp_e st)); cbn; split; auto.
    + intros _. apply (NoDup_count_occ Nat.eq_dec). intros v. rewrite C. destruct (mem v prep); [lia|]. rewrite (LS node v st es ND HE). destruct (existsb _ _); lia.
    + intros PO SO o. destruct (C01_standardize_preserves_computation p p' PO SO ST) as (_ & _ & SB). rewrite <- Q. apply SB.
Qed.
Print Assumptions C63_connected.
(** it raises when standardization does, and also, with an IndexError, on every
    pattern with edges but no measurement, correction or Clifford *)
Theorem C63_connected_error (p q : pattern) (node : nat) (prep : nset) (r : res (list nat)) : connected_nodes p node prep q r ->
  (exists e, is_standard false p = false /\ standardizes p (Err e) /\ r = Err e /\ q = p) \/
  (is_standard false q = true /\ (r = Err EIndex <-> (exists u v, In (CE u v) (p_seq q)) /\ forall c, In c (p_seq q) -> isN (kind_of c) = true \/ isE (kind_of c) = true) /\
   forall e, r = Err e -> e = EIndex).
Proof.
  assert (G : is_standard false q = true -> r = conn_seq node prep (p_seq q) -> (r = Err EIndex <-> (exists u v, In (CE u v) (p_seq q)) /\ forall c, In c (p_seq q) -> isN (kind_of c) = true \/ isE (kind_of c) = true) /\
   forall e, r = Err e -> e = EIndex).
  { intros S ->. pose proof (conn_seq_spec q node prep S) as C. destruct (conn_seq node prep (p_seq q)) as [L|e].
    - split; [|discriminate]. split; [discriminate|]. intros [K1 K2]. destruct C as [_ C]. destruct (C K1) as (c & K3 & K4 & K5). destruct (K2 c K3); congruence.
    - destruct C as (-> & C). split; [tauto|]. intros e [= <-]. auto. }
  unfold connected_nodes. destruct (is_standard false p) eqn:S.
  - intros [-> ->]. right. split; auto.
  - intros (r' & ST & H). destruct r' as [p'|e]; [|destruct H as [-> ->]; left; eauto]. destruct H as [-> ->]. right.
    assert (SQ : is_standard false (with_seq p p') = true).
    { unfold standardizes in ST. destruct (from_pattern p) as [st|]; [|discriminate ST]. destruct ST as (es & HE & T). unfold to_pattern in T. destruct (existsb _ es); [discriminate|].
      unfold reorder_output_nodes in T. destruct (assert_permutation _ _); [|discriminate]. injection T as ->. eapply std_is_standard. cbn [with_seq p_seq].
      destruct (pat_extend_fields (pat_new (sp_in st)) (std_cmds st es)) as (_ & -> & _). reflexivity. }
    split; auto.
Qed.
Print Assumptions C63_connected_error.
(** "find nodes that are connected": false of the graph state of one edge *)
Theorem C63_connected_refuted : ~ (forall p node prep q r, pat_ok p -> runnable (p_in p) (p_seq p) -> sem_ok (p_seq p) = true ->
  connected_nodes p node prep q r -> exists L, r = Ok L).
Proof.
  intros H. set (p := Pat [] [CN 0 SPlus; CN 1 SPlus; CE 0 1] [0; 1] 2).
  assert (R : runnable (p_in p) (p_seq p)) by (apply check_runnability_spec; reflexivity).
  destruct (H p 0 sempty p (Err EIndex) (conj (NoDup_nil _) (Permutation_refl _)) R eq_refl) as (L & K); [|discriminate K].
  unfold connected_nodes. cbn. auto.
Qed.
Print Assumptions C63_connected_refuted.
(** correction_commands: the X and Z commands, on standard patterns only *)
Theorem C63_corrections (p : pattern) : match correction_commands p with
  | Ok l => is_standard false p = true /\ forall c, In c l <-> In c (p_seq p) /\ isXZ (kind_of c) = true
  | Err e => e = EAssert /\ is_standard false p = false
  end.
Proof.
  unfold correction_commands. destruct (is_standard false p); auto. split; auto. intros c. rewrite filter_In. destruct c; cbn; tauto.
Qed.
Print Assumptions C63_corrections.

(** ** Non-vacuity *)
Definition ex_p : pattern := Pat [0] [CN 1 SPlus; CN 2 SPlus; CE 0 1; CE 1 2; CM 0 (MBloch (1 / 2) PXY) sempty sempty; CM 1 (MPauli AZ Minus) (sing 0) sempty; CX 2 (sing 1)] [2] 3.
Example C63_ex_ok : pat_ok ex_p /\ runnable (p_in ex_p) (p_seq ex_p) /\ NoDup (p_out ex_p).
Proof.
  split; [split; [constructor; [intros []|constructor]|apply Permutation_refl]|]. split; [|constructor; [intros []|constructor]].
  apply check_runnability_spec. reflexivity.
Qed.
Example C63_ex_space : space_list ex_p = [1; 2; 1; 0]%Z /\ pattern_max_space ex_p = 3%Z.
Proof. split; reflexivity. Qed.
Example C63_ex_connected : connected_nodes ex_p 1 (sing 2) ex_p (Ok [0]).
Proof. split; reflexivity. Qed.
Example C63_ex_blochify : apply_inplace m_to_bloch ex_p = (Pat [0] [CN 1 SPlus; CN 2 SPlus; CE 0 1; CE 1 2; CM 0 (MBloch (1 / 2) PXY) sempty sempty; CM 1 (MBloch 1 PYZ) (sing 0) sempty; CX 2 (sing 1)] [2] 3, None).
Proof. reflexivity. Qed.
Example C63_ex_downcast : apply_inplace m_downcast ex_p = (ex_p, Some EType).
Proof. reflexivity. Qed.
