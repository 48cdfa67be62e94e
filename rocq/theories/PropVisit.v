(** Property theorems: rewriting circuits with visitors (C61): Circuit.visit,
    apply_angle, replace_parameter(s), is_parameterized. *)
From Coq Require Import Reals Lra Arith ZArith List Bool Lia Permutation FunctionalExtensionality.
From Verif Require Import Cplx Mat2 NSet QState Fundamentals CliffordDb Clifford Measure Pattern Statevec Density Circuit Swaps Param PropParam PropCircuit PropAngle Visit.
Import ListNotations.
Local Open Scope nat_scope.

(** * One instruction, field by field *)
(** [rewrites v i j]: [j] has the kind of [i], its qubits are the images of the
    qubits of [i] (in order), and so are its angle and its axis, if any.  A visit
    succeeds with result [j] exactly when this holds, so it reaches every field
    of every kind of instruction. *)
Theorem C61_fields {A B} (v : visitor A B) (i : ginstr A) (j : ginstr B) : visit v i = Ok j <-> rewrites v i j.
Proof. apply visit_rewrites. Qed.
Print Assumptions C61_fields.
(** the fields determine the instruction *)
Theorem C61_fields_determine {A} (i j : ginstr A) : gkind_of i = gkind_of j -> gqubits i = gqubits j -> gangle i = gangle j -> gaxis i = gaxis j -> i = j.
Proof. destruct i, j; cbn; intros H1 H2 H3 H4; try discriminate H1; try injection H2; try injection H3; try injection H4; intros; subst; reflexivity. Qed.
Print Assumptions C61_fields_determine.
(** an exception comes from the visitor, on one of the fields *)
Theorem C61_exceptions {A B} (v : visitor A B) (i : ginstr A) e : visit v i = Err e ->
  (exists q, In q (gqubits i) /\ v_qubit v q = Err e) \/ (exists a, gangle i = Some a /\ v_angle v a = Err e) \/ (exists x, gaxis i = Some x /\ v_axis v x = Err e).
Proof. apply visit_err. Qed.
Print Assumptions C61_exceptions.
(** the identity visitor changes nothing; two visits amount to one visit with
    the composed visitor *)
Theorem C61_identity {A} (i : ginstr A) : visit id_visitor i = Ok i.
Proof. destruct i; reflexivity. Qed.
Print Assumptions C61_identity.
Theorem C61_compose {A B D} (v : visitor A B) (w : visitor B D) (i : ginstr A) k :
  (exists j, visit v i = Ok j /\ visit w j = Ok k) <->
  visit (Vis (fun q => do q' <- v_qubit v q; v_qubit w q') (fun a => do b <- v_angle v a; v_angle w b) (fun x => do y <- v_axis v x; v_axis w y)) i = Ok k.
Proof.
  split.
  - intros (j & H1 & H2). apply visit_rewrites in H1, H2. apply visit_rewrites. destruct H1 as (K1 & Q1 & A1 & X1), H2 as (K2 & Q2 & A2 & X2). split; [congruence|]. cbn [v_qubit v_angle v_axis]. split; [|split].
    + clear - Q1 Q2. revert Q2. generalize (gqubits k). induction Q1; intros l2 Q2; inversion Q2; subst; constructor; auto. rewrite H. cbn [rbind]. auto.
    + destruct (gangle i), (gangle j), (gangle k); try tauto. rewrite A1. auto.
    + destruct (gaxis i), (gaxis j), (gaxis k); try tauto. rewrite X1. auto.
  - intros H. destruct i; cbn [visit v_qubit v_angle v_axis] in H;
    repeat match type of H with
    | rbind (rbind ?e _) _ = _ => let E := fresh "E" in destruct e eqn:E; cbn [rbind] in H; [|discriminate H]
    | rbind ?e _ = _ => let E := fresh "E" in destruct e eqn:E; cbn [rbind] in H; [|discriminate H]
    end; injection H as <-; cbn [visit];
    repeat match goal with K : _ = Ok _ |- context [rbind ?e _] => match type of K with e = _ => rewrite K; cbn [rbind] end end;
    eexists; (split; [reflexivity|]); cbn [visit]; repeat match goal with K : _ = Ok _ |- _ => rewrite K; cbn [rbind]; clear K end; reflexivity.
Qed.
Print Assumptions C61_compose.

(** * Circuits: copies and rewriting in place *)
(** In any program that creates circuits, adds instructions and visits (with
    visitors that may raise), the objects behave as independent values: the
    same circuits are seen, and the same exceptions are raised, as when each
    circuit owns its instructions. *)
Theorem C61_history {A} (ops : list (cop A)) :
  run_ops vstep [] ops = (see_all (fst (run_ops hstep (Heap [] []) ops)), snd (run_ops hstep (Heap [] []) ops)).
Proof. apply (run_sim ops (Heap [] [])). apply hinv_init. Qed.
Print Assumptions C61_history.
Lemma run_app {S A} (step : S -> cop A -> S * option err) ops o : forall s,
  fst (run_ops step s (ops ++ [o])) = fst (step (fst (run_ops step s ops)) o) /\
  snd (run_ops step s (ops ++ [o])) = snd (run_ops step s ops) ++ [snd (step (fst (run_ops step s ops)) o)].
Proof.
  induction ops as [|o' ops IH]; intros s; cbn [app run_ops].
  - cbn [fst snd app]. destruct (step s o) as [s1 e1]. cbn [fst snd app]. split; reflexivity.
  - destruct (step s o') as [s1 e]. specialize (IH s1). destruct (run_ops step s1 (ops ++ [o])), (run_ops step s1 ops). cbn [fst snd] in *. destruct IH as [-> ->]. auto.
Qed.
Lemma reach_sim {A} (ops : list (cop A)) o h : h = fst (run_ops hstep (Heap [] []) ops) ->
  vstep (see_all h) o = (see_all (fst (hstep h o)), snd (hstep h o)).
Proof.
  intros ->. pose proof (C61_history ops) as E1. pose proof (C61_history (ops ++ [o])) as E2.
  destruct (run_app vstep ops o []) as [P1 P2]. destruct (run_app hstep ops o (Heap [] [])) as [Q1 Q2].
  rewrite E2 in P1, P2. cbn [fst snd] in P1, P2. rewrite E1 in P1, P2. cbn [fst snd] in P1, P2. rewrite Q1 in P1. rewrite Q2 in P2. apply app_inv_head in P2. injection P2 as P2.
  destruct (vstep (see_all (fst (run_ops hstep (Heap [] []) ops))) o) as [a b]. cbn [fst snd] in *. subst. reflexivity.
Qed.
(** visit(copy=True), at any point of any program: either the k-th circuit has
    been rewritten into a new circuit, or an exception has been raised by the
    visitor; in both cases all the existing circuits are unchanged *)
Theorem C61_copy {A} (ops : list (cop A)) k v h h' e c :
  h = fst (run_ops hstep (Heap [] []) ops) -> nth_error (see_all h) k = Some c -> hstep h (OCopy k v) = (h', e) ->
  match e with
  | None => exists c', see_all h' = see_all h ++ [c'] /\ g_width c' = g_width c /\
              Forall2 (rewrites v) (g_instr c) (g_instr c') /\ g_active c' = of_list (range (g_width c))
  | Some e => see_all h' = see_all h /\ exists i, In i (g_instr c) /\ visit v i = Err e
  end.
Proof.
  intros Hh Hk HS. pose proof (reach_sim ops (OCopy k v) h Hh) as R. rewrite HS in R. cbn [fst snd vstep] in R. rewrite Hk in R. unfold gvisit in R.
  destruct (visit_all v (g_instr c)) as [l|e0] eqn:E; cbn [rbind] in R; injection R as R1 <-; rewrite <- R1.
  - eexists. split; [reflexivity|]. cbn [g_width g_instr g_active]. split; auto. split; auto. apply visit_all_spec; auto.
  - split; auto. clear - E. induction (g_instr c) as [|i l IH]; cbn [visit_all] in E; [discriminate|].
    destruct (visit v i) as [j|e1] eqn:V; cbn [rbind] in E; [|injection E as <-; exists i; split; [left; reflexivity|exact V]].
    destruct (visit_all v l); cbn [rbind] in E; [discriminate|]. injection E as <-. destruct (IH eq_refl) as (x & X1 & X2). exists x. split; [right|]; auto.
Qed.
Print Assumptions C61_copy.
(** visit(copy=False): the other circuits, and the width and active qubits of the
    k-th one, are unchanged; without exception its instructions are rewritten one
    by one; if the visitor raises on an instruction, those before it stay
    rewritten, it is itself untouched and so are those after it *)
Theorem C61_in_place {A} (ops : list (cop A)) k v h h' e c :
  h = fst (run_ops hstep (Heap [] []) ops) -> nth_error (see_all h) k = Some c -> hstep h (OInplace k v) = (h', e) ->
  exists c', nth_error (see_all h') k = Some c' /\ length (see_all h') = length (see_all h) /\
  (forall j, j <> k -> nth_error (see_all h') j = nth_error (see_all h) j) /\ g_width c' = g_width c /\ g_active c' = g_active c /\
  match e with
  | None => Forall2 (rewrites v) (g_instr c) (g_instr c')
  | Some e => exists a i b a', g_instr c = a ++ i :: b /\ g_instr c' = a' ++ i :: b /\ Forall2 (rewrites v) a a' /\ visit v i = Err e
  end.
Proof.
  intros Hh Hk HS. pose proof (reach_sim ops (OInplace k v) h Hh) as R. rewrite HS in R. cbn [fst snd vstep] in R. rewrite Hk in R.
  destruct (visit_some v (g_instr c)) as [l e0] eqn:E. injection R as R1 <-. rewrite <- R1.
  assert (Lk : k < length (see_all h)) by (apply nth_error_Some; congruence).
  eexists. split; [apply nth_lset_same; auto|]. split; [apply lset_length|]. split; [intros j Hj; apply nth_lset_other; auto|].
  cbn [g_width g_active g_instr]. split; auto. split; auto. apply visit_some_spec in E. exact E.
Qed.
Print Assumptions C61_in_place.

(** * Renaming qubits *)
(** [renamed w p psi psi']: [psi'] is [psi] where qubit q < w is called p q *)
Definition renamed (w : nat) (p : nat -> nat) (psi psi' : state) : Prop :=
  forall f g, (forall q, q < w -> g (p q) = f q) -> psi f = psi' g.
Definition inj_below (w : nat) (p : nat -> nat) : Prop := forall q q', q < w -> q' < w -> p q = p q' -> q = q'.
Definition below (w : nat) {A} (l : list (ginstr A)) : Prop := forall i q, In i l -> In q (gqubits i) -> q < w.
Definition outs_of (w : nat) (p : nat -> nat) : list oidx := map (fun q => OQubit (p q)) (range w).
Lemma nth_range w q : nth_error (range w) q = if q <? w then Some q else None.
Proof.
  destruct (Nat.ltb_spec q w).
  - unfold range. rewrite nth_error_nth' with (d := 0) by (rewrite seq_length; auto). rewrite seq_nth; auto.
  - apply nth_error_None. unfold range. rewrite seq_length. auto.
Qed.
Lemma outs_at w p q i : nth_error (outs_of w p) q = Some (OQubit i) <-> q < w /\ i = p q.
Proof.
  unfold outs_of. rewrite nth_error_map, nth_range. destruct (Nat.ltb_spec q w); cbn [option_map]; split; intros K.
  - injection K as <-. auto.
  - destruct K as [_ ->]. auto.
  - discriminate.
  - lia.
Qed.
Lemma outs_agree w p f g : agree (outs_of w p) f g <-> forall q, q < w -> g (p q) = f q.
Proof. split; [intros H q Hq; apply H; apply outs_at; auto|intros H q i K; apply outs_at in K; destruct K as [K ->]; auto]. Qed.
Lemma outs_srel w p psi psi' : srel (outs_of w p) psi psi' <-> renamed w p psi psi'.
Proof. split; intros H f g K; apply H; apply outs_agree; auto. Qed.
Lemma outs_inj w p : inj_below w p -> oinj (outs_of w p).
Proof. intros H q q' i K K'. apply outs_at in K, K'. destruct K, K'. apply H; auto; congruence. Qed.
Lemma vq_outs w p q : q < w -> visit_qubit (outs_of w p) q = Ok (p q).
Proof. intros H. apply vq_ok. apply outs_at. auto. Qed.
Lemma imap_visit w p (i : ginstr R) : (forall q, In q (gqubits i) -> q < w) ->
  exists j, visit (qubit_visitor p) i = Ok j /\ imap (visit_qubit (outs_of w p)) (to_instr i) = Ok (to_instr j).
Proof.
  intros H. destruct i; cbn [visit qubit_visitor v_qubit v_angle v_axis rbind to_instr imap];
  repeat rewrite vq_outs by (apply H; cbn [gqubits In]; auto); cbn [rbind]; eexists; split; reflexivity.
Qed.
Lemma swap_rel outs u v i j psi psi' : oinj outs -> oat outs u i -> oat outs v j -> srel outs psi psi' -> srel outs (swapst u v psi) (swapst i j psi').
Proof.
  intros HI HU HV HS f g HA. unfold swapst. apply HS. rewrite <- (agree_at _ _ _ _ _ HU HA), <- (agree_at _ _ _ _ _ HV HA). apply agree_upd; auto. apply agree_upd; auto.
Qed.
Lemma rename_list w p l l' : inj_below w p -> below w l -> visit_all (qubit_visitor p) l = Ok l' ->
  forall o k psi psi', renamed w p psi psi' -> renamed w p (csem o k (map to_instr l) psi) (csem o k (map to_instr l') psi').
Proof.
  intros HI. revert l'. induction l as [|i l IH]; intros l' HB H o k psi psi' HR; cbn [visit_all] in H; [injection H as <-; exact HR|].
  assert (HBi : forall q, In q (gqubits i) -> q < w) by (intros q; apply (HB i q); left; auto).
  destruct (imap_visit w p i HBi) as (j & J1 & J2).
  rewrite J1 in H. cbn [rbind] in H. destruct (visit_all (qubit_visitor p) l) as [r|] eqn:E; [|discriminate]. cbn [rbind] in H. injection H as <-.
  assert (HBl : below w l) by (intros x q Hx; apply HB; right; auto). specialize (IH r HBl eq_refl o).
  assert (G : (forall u v, to_instr i <> ISWAP u v) -> renamed w p (gate (to_instr i) psi) (gate (to_instr j) psi')).
  { intros NS. apply outs_srel. eapply gate_rel; eauto using outs_inj. apply outs_srel; auto. }
  destruct i; cbn [visit qubit_visitor v_qubit v_angle v_axis rbind] in J1; injection J1 as <-; cbn [map to_instr csem] in *;
  try (apply IH, G; intros; discriminate).
  - apply IH. apply outs_srel. apply swap_rel; auto using outs_inj; [apply outs_at; split; auto; apply HBi; cbn; auto|apply outs_at; split; auto; apply HBi; cbn; auto|apply outs_srel; auto].
  - apply IH. apply outs_srel. unfold cmeas. intros f g HA. cbn [app_op].
    assert (HQ : oat (outs_of w p) q (p q)) by (apply outs_at; split; auto; apply HBi; cbn; auto).
    f_equal; f_equal; apply (proj2 (outs_srel _ _ _ _) HR); apply agree_upd; auto using outs_inj.
Qed.
(** Renaming the qubits of a circuit with an injective visitor renames the qubits
    of the simulated state, on every branch of the measurements. *)
Theorem C61_rename (w : nat) (p : nat -> nat) (c c' : gcirc R) : inj_below w p -> below w (g_instr c) -> gvisit (qubit_visitor p) c = Ok c' ->
  forall o psi psi', renamed w p psi psi' -> renamed w p (csem o 0 (map to_instr (g_instr c)) psi) (csem o 0 (map to_instr (g_instr c')) psi').
Proof.
  intros HI HB H o psi psi'. unfold gvisit in H. destruct (visit_all (qubit_visitor p) (g_instr c)) as [l|] eqn:E; [|discriminate]. cbn [rbind] in H. injection H as <-. cbn [g_instr]. eapply rename_list; eauto.
Qed.
Print Assumptions C61_rename.

(** renaming injectively within the register gives a circuit that the gate
    methods accept *)
Lemma ndb_NoDup l : ndb l = true <-> NoDup l.
Proof.
  induction l as [|x l IH]; cbn [ndb]; [split; auto; constructor|].
  rewrite andb_true_iff, negb_true_iff, IH. split.
  - intros [H1 H2]. constructor; auto. intros K. assert (existsb (Nat.eqb x) l = true) by (apply existsb_exists; exists x; split; auto; apply Nat.eqb_refl). congruence.
  - intros H. inversion H; subst. split; auto. destruct (existsb (Nat.eqb x) l) eqn:E; auto. apply existsb_exists in E. destruct E as (y & Y & K). apply Nat.eqb_eq in K. subst. contradiction.
Qed.
Lemma NoDup_map_inj p l w : inj_below w p -> (forall q, In q l -> q < w) -> NoDup l -> NoDup (map p l).
Proof.
  intros HI HB H. induction H; cbn [map]; constructor.
  - intros K. apply in_map_iff in K. destruct K as (y & Y1 & Y2). apply HI in Y1; [subst; contradiction| |]; apply HB; [right|left]; auto.
  - apply IHNoDup. intros; apply HB; right; auto.
Qed.
Lemma visit_qubits {A} p (i : ginstr A) : exists j, visit (qubit_visitor p) i = Ok j /\ gqubits j = map p (gqubits i) /\
  (forall act, gactive act j = match i with GM q _ => sremove (p q) act | _ => act end) /\ (forall act, gadd_ok act j = forallb (fun q => mem (p q) act) (gqubits i) && match i with GRZZ _ _ _ => true | _ => ndb (map p (gqubits i)) end).
Proof. destruct i; eexists; repeat split. Qed.
Lemma gadd_fold {A} (l : list (ginstr A)) : forall c d, rfold gadd l c = Ok d -> g_width d = g_width c /\ g_instr d = g_instr c ++ l.
Proof.
  induction l as [|i l IH]; intros c d H; cbn [rfold] in H; [injection H as <-; rewrite app_nil_r; auto|].
  unfold gadd in H at 1. destruct (gadd_ok (g_active c) i); [|discriminate]. cbn [rbind] in H. apply IH in H. cbn [g_width g_instr] in H. rewrite <- app_assoc in H. exact H.
Qed.
Lemma rename_builds {A} w p (l : list (ginstr A)) : inj_below w p -> forall c c2 d,
  (forall q, mem q (g_active c) = true -> q < w /\ mem (p q) (g_active c2) = true) -> rfold gadd l c = Ok d ->
  exists l' d', visit_all (qubit_visitor p) l = Ok l' /\ rfold gadd l' c2 = Ok d' /\ g_instr d' = g_instr c2 ++ l'.
Proof.
  intros HI. induction l as [|i l IH]; intros c c2 d HA H; cbn [rfold visit_all] in *; [exists [], c2; rewrite app_nil_r; auto|].
  unfold gadd in H at 1. destruct (gadd_ok (g_active c) i) eqn:E; [|discriminate]. cbn [rbind] in H.
  destruct (visit_qubits p i) as (j & J1 & J2 & J3 & J4). rewrite J1. cbn [rbind].
  pose proof E as E'. unfold gadd_ok in E'. apply andb_true_iff in E'. destruct E' as [M N]. rewrite forallb_forall in M.
  assert (AJ : gadd_ok (g_active c2) j = true).
  { rewrite J4. apply andb_true_iff. split; [apply forallb_forall; intros q Hq; apply HA; auto|].
    assert (K : ndb (gqubits i) = true -> ndb (map p (gqubits i)) = true).
    { rewrite !ndb_NoDup. apply NoDup_map_inj with (w := w); auto. intros q Hq. apply HA; auto. }
    destruct i; auto. }
  assert (HB : forall q, mem q (gactive (g_active c) i) = true -> q < w /\ mem (p q) (gactive (g_active c2) j) = true).
  { intros q Hq. rewrite J3. destruct i; cbn [gactive] in Hq; try (apply HA; exact Hq).
    rewrite mem_sremove in Hq. apply andb_true_iff in Hq. destruct Hq as [Q1 Q2].
    assert (W0 : q0 < w) by (apply HA, M; cbn; auto).
    assert (Hne : q <> q0) by (intros ->; rewrite Nat.eqb_refl in *; discriminate).
    assert (Q : mem q (g_active c) = true) by (first [exact Q2|exact Q1]). destruct (HA q Q) as [W P]. split; auto.
    rewrite mem_sremove. assert (Hp : p q <> p q0) by (intros K; apply HI in K; auto).
    apply Nat.eqb_neq in Hp. rewrite ?Hp, ?(Nat.eqb_sym (p q0)), ?Hp. rewrite P. reflexivity. }
  destruct (IH (GCirc (g_width c) (g_instr c ++ [i]) (gactive (g_active c) i)) (GCirc (g_width c2) (g_instr c2 ++ [j]) (gactive (g_active c2) j)) d HB H) as (l' & d' & L1 & L2 & L3).
  exists (j :: l'), d'. rewrite L1. split; auto. cbn [rfold]. unfold gadd at 1. rewrite AJ. cbn [rbind]. split; auto. rewrite L3. cbn [g_instr]. rewrite <- app_assoc. reflexivity.
Qed.
Lemma mem_range q w : mem q (of_list (range w)) = true <-> q < w.
Proof. rewrite mem_of_list. unfold range. rewrite in_seq. lia. Qed.
Theorem C61_rename_builds {A} (w : nat) (p : nat -> nat) (l : list (ginstr A)) c : gmake w l = Ok c -> inj_below w p -> (forall q, q < w -> p q < w) ->
  exists c' d, gvisit (qubit_visitor p) c = Ok c' /\ gmake w (g_instr c') = Ok d /\ g_instr d = g_instr c' /\ g_width d = g_width c'.
Proof.
  intros H HI HR. destruct (gadd_fold _ _ _ H) as [W L]. cbn [g_width g_instr app] in W, L.
  destruct (rename_builds w p l HI (GCirc w [] (of_list (range w))) (GCirc w [] (of_list (range w))) c) as (l' & d & L1 & L2 & L3); auto.
  - cbn [g_active]. intros q Hq. apply mem_range in Hq. split; auto. apply mem_range. auto.
  - unfold gvisit. rewrite L, L1. cbn [rbind]. eexists _, d. split; [reflexivity|]. cbn [g_instr g_width]. split; [exact L2|]. split; [exact L3|]. apply gadd_fold in L2. destruct L2 as [L2 _]. rewrite L2, W. reflexivity.
Qed.
Print Assumptions C61_rename_builds.
(** ... but a visitor that merges two qubits, or that leaves the register, is
    accepted without exception and yields a circuit that the gate methods refuse *)
Theorem C61_rename_refuted :
  (exists (p : nat -> nat) (c c' : gcirc R), gmake 2 [GCNOT 1 0] = Ok c /\ (forall q, p q < 2) /\
     gvisit (qubit_visitor p) c = Ok c' /\ g_instr c' = [GCNOT 0 0] /\ gmake 2 (g_instr c') = Err EAssert) /\
  (exists (p : nat -> nat) (c c' : gcirc R), gmake 2 [GH 1] = Ok c /\ (forall q q', p q = p q' -> q = q') /\
     gvisit (qubit_visitor p) c = Ok c' /\ g_width c' = 2 /\ g_instr c' = [GH 2] /\ gmake 2 (g_instr c') = Err EAssert).
Proof.
  split; [exists (fun _ => 0)|exists S]; do 2 eexists; (split; [reflexivity|]); (split; [intros; lia|]); repeat split.
Qed.
Print Assumptions C61_rename_refuted.

(** * Active qubits *)
(** a copy considers every qubit of the register active: this is the active set
    of the original when it measures nothing, *)
Theorem C61_active {A} (w : nat) (l : list (ginstr A)) (v : visitor A A) c c' : gmake w l = Ok c -> (forall i, In i l -> gkind_of i <> KM) ->
  gvisit v c = Ok c' -> forall q, mem q (g_active c') = mem q (g_active c).
Proof.
  intros H NM HV q. destruct (gadd_fold _ _ _ H) as [W _]. cbn [g_width] in W.
  assert (K : forall l c d, rfold gadd l c = Ok d -> (forall i : ginstr A, In i l -> gkind_of i <> KM) -> g_active d = g_active c).
  { clear. induction l as [|i l IH]; intros c d H N; cbn [rfold] in H; [injection H as <-; auto|]. unfold gadd in H at 1. destruct (gadd_ok (g_active c) i); [|discriminate]. cbn [rbind] in H.
    rewrite (IH _ _ H) by (intros; apply N; right; auto). cbn [g_active]. specialize (N i (or_introl eq_refl)). destruct i; auto. elim N; auto. }
  rewrite (K _ _ _ H NM). cbn [g_active]. unfold gvisit in HV. destruct (visit_all v (g_instr c)); [|discriminate]. cbn [rbind] in HV. injection HV as <-. cbn [g_active]. rewrite W. reflexivity.
Qed.
Print Assumptions C61_active.
(** ... and not otherwise: the copy of a circuit accepts a gate on a measured qubit
    that the circuit itself refuses *)
Theorem C61_active_refuted : exists c c' c2 : gcirc R, gmake 1 [GM 0 AZ] = Ok c /\ gvisit id_visitor c = Ok c' /\ g_instr c' = g_instr c /\
  gadd c (GH 0) = Err EAssert /\ gadd c' (GH 0) = Ok c2 /\ gmake 1 (g_instr c2) = Err EAssert.
Proof. do 3 eexists. split; [reflexivity|]. split; [reflexivity|]. split; [reflexivity|]. split; [reflexivity|]. split; reflexivity. Qed.
Print Assumptions C61_active_refuted.

(** * Angles *)
(** [f] moves every angle by whole turns (angles are in units of pi): the
    simulated state is unchanged, up to a global phase, on every branch *)
Lemma cis_Z k : cis (IZR k) = C1 \/ cis (IZR k) = (- C1)%C.
Proof.
  destruct (Z.Even_or_Odd k) as [[m ->]|[m ->]].
  - left. rewrite mult_IZR. apply cis_2z.
  - right. rewrite plus_IZR, mult_IZR, cis_add, cis_2z, cis_1. ring.
Qed.
Lemma half_turn a k : exists s : R, (s = 1 \/ s = -1)%R /\ (cos ((a + 2 * IZR k) * PI / 2) = s * cos (a * PI / 2))%R /\ (sin ((a + 2 * IZR k) * PI / 2) = s * sin (a * PI / 2))%R.
Proof.
  assert (E : cis ((a + 2 * IZR k) / 2) = (cis (a / 2) * cis (IZR k))%C) by (rewrite <- cis_add; f_equal; field).
  rewrite !cis_hf in E. destruct (cis_Z k) as [K|K]; rewrite K in E; [exists 1%R|exists (-1)%R]; (split; [auto|]); injection E as E1 E2; split; [rewrite E1|rewrite E2|rewrite E1|rewrite E2]; cbn; ring.
Qed.
Lemma cis_neg_half x : cis (- (x / 2)) = mkC (cos (x * PI / 2)) (- sin (x * PI / 2)).
Proof. rewrite cis_opp, cis_hf. apply C_eq; reflexivity. Qed.
Lemma turn_ops a k : exists s : R, (s = 1 \/ s = -1)%R /\ op_rx (a + 2 * IZR k) = mscale (RtoC s) (op_rx a) /\
  op_ry (a + 2 * IZR k) = mscale (RtoC s) (op_ry a) /\ op_rz (a + 2 * IZR k) = mscale (RtoC s) (op_rz a).
Proof.
  destruct (half_turn a k) as (s & S & H1 & H2). exists s. split; auto. split; [|split].
  - unfold op_rx, mscale. rewrite H1, H2. cbn [m00 m01 m10 m11]. f_equal; ceq; ring.
  - unfold op_ry, mscale. rewrite H1, H2. cbn [m00 m01 m10 m11]. f_equal; ceq; ring.
  - unfold op_rz, mscale. rewrite !cis_neg_half, !cis_hf, H1, H2. cbn [m00 m01 m10 m11]. f_equal; ceq; ring.
Qed.
Lemma turn_j a k : op_j (a + 2 * IZR k) = op_j a.
Proof. unfold op_j. rewrite cis_add, cis_2z. cbv zeta. f_equal; ceq; ring. Qed.
Lemma mget_mscale c U a b : mget (mscale c U) a b = (c * mget U a b)%C.
Proof. destruct a, b; reflexivity. Qed.
Lemma rzz_scale s a b : op_rz b = mscale s (op_rz a) -> forall i j, op_rzz b i j = (s * op_rzz a i j)%C.
Proof.
  intros E i j. unfold op_rzz, cmm. rewrite <- csum_mul. apply csum_ext. intros x _.
  assert (K : csum (range 4) (fun k => (op_cnot i k * kronm (m2 mid) (op_rz b) k x)%C) = (s * csum (range 4) (fun k => (op_cnot i k * kronm (m2 mid) (op_rz a) k x)%C))%C).
  { rewrite <- csum_mul. apply csum_ext. intros y _. unfold kronm. rewrite E. unfold m2 at 2 4. rewrite mget_mscale. ring. }
  rewrite K. ring.
Qed.
Lemma appk_lin M N s qs psi : (forall i j, M i j = (s * N i j)%C) -> appk M qs psi = cscale s (appk N qs psi).
Proof. intros E. extensionality f. unfold appk, cscale. cbv zeta. rewrite <- cbsum_mul. apply cbsum_ext. intros a. rewrite E. ring. Qed.
Lemma phase_pm s : (s = 1 \/ s = -1)%R -> phase (RtoC s).
Proof. intros [->| ->]; unfold phase, Cnorm2; cbn; ring. Qed.
Lemma turn_gate f (i j : ginstr R) : (forall a, exists k : Z, f a = (a + 2 * IZR k)%R) -> visit (angle_visitor (fun a => Ok (f a))) i = Ok j ->
  exists z, phase z /\ forall o k l psi, csem o k (to_instr j :: l) psi = cscale z (csem o k (to_instr i :: l) psi).
Proof.
  intros HF HV.
  assert (R0 : forall a, exists s, phase (RtoC s) /\ op_rx (f a) = mscale (RtoC s) (op_rx a) /\ op_ry (f a) = mscale (RtoC s) (op_ry a) /\ op_rz (f a) = mscale (RtoC s) (op_rz a)).
  { intros a. destruct (HF a) as [k ->]. destruct (turn_ops a k) as (s & S & H). exists s. split; auto using phase_pm. }
  destruct i; cbn [visit angle_visitor v_qubit v_angle v_axis rbind] in HV; injection HV as <-;
  try (exists C1; split; [apply phase_1|]; intros; rewrite cscale_1; reflexivity).
  - destruct (R0 angle) as (s & S & _ & _ & H). exists (RtoC s). split; auto. intros o k l psi. cbn [csem to_instr gate]. rewrite (appk_lin _ _ _ _ _ (rzz_scale _ _ _ H)). apply csem_scale.
  - destruct (R0 angle) as (s & S & H & _). exists (RtoC s). split; auto. intros o k l psi. cbn [csem to_instr gate]. rewrite (app1_scale _ _ _ _ _ H). apply csem_scale.
  - destruct (R0 angle) as (s & S & _ & H & _). exists (RtoC s). split; auto. intros o k l psi. cbn [csem to_instr gate]. rewrite (app1_scale _ _ _ _ _ H). apply csem_scale.
  - destruct (R0 angle) as (s & S & _ & _ & H). exists (RtoC s). split; auto. intros o k l psi. cbn [csem to_instr gate]. rewrite (app1_scale _ _ _ _ _ H). apply csem_scale.
  - exists C1. split; [apply phase_1|]. intros. destruct (HF angle) as [m ->]. cbn [csem to_instr gate]. rewrite turn_j, cscale_1. reflexivity.
Qed.
Theorem C61_whole_turns (f : R -> R) (c c' : gcirc R) : (forall a, exists k : Z, f a = (a + 2 * IZR k)%R) -> apply_angle (fun a => Ok (f a)) c = Ok c' ->
  forall o, exists z, phase z /\ forall psi, csem o 0 (map to_instr (g_instr c')) psi = cscale z (csem o 0 (map to_instr (g_instr c)) psi).
Proof.
  intros HF H o. unfold apply_angle, gvisit in H. destruct (visit_all _ (g_instr c)) as [l'|] eqn:E; [|discriminate]. cbn [rbind] in H. injection H as <-. cbn [g_instr].
  generalize 0. revert l' E. induction (g_instr c) as [|i l IH]; intros l' E k; cbn [visit_all] in E.
  - injection E as <-. exists C1. split; [apply phase_1|]. intros. rewrite cscale_1. reflexivity.
  - destruct (visit _ i) as [j|] eqn:V; [|discriminate]. cbn [rbind] in E. destruct (visit_all _ l) as [r|]; [|discriminate]. cbn [rbind] in E. injection E as <-.
    destruct (turn_gate f i j HF V) as (z & Z & G).
    assert (D : forall k, exists z, phase z /\ forall psi, csem o k (map to_instr r) psi = cscale z (csem o k (map to_instr l) psi)) by (intros k'; apply IH; auto).
    destruct (D k) as (z1 & Z1 & G1). destruct (D (S k)) as (z2 & Z2 & G2). cbn [map].
    destruct (is_meas (to_instr i)) eqn:IM.
    + exists (z * z2)%C. split; [apply phase_mul; auto|]. intros psi. rewrite G.
      destruct i; cbn [to_instr is_meas] in IM; try discriminate IM. cbn [to_instr csem]. rewrite G2, cscale_cscale. reflexivity.
    + exists (z * z1)%C. split; [apply phase_mul; auto|]. intros psi. rewrite G.
      destruct i; cbn [to_instr is_meas] in IM; try discriminate IM; cbn [to_instr csem]; rewrite G1, cscale_cscale; reflexivity.
Qed.
Print Assumptions C61_whole_turns.

(** * Parameters *)
(** the circuit obtained when every parameter x has the value rho x *)
Definition at_values (rho : nat -> R) (c : gcirc val) : res (gcirc R) := apply_angle (fun a => Ok (denote rho a)) c.
Lemma apply_angle_ok {A B} (f : A -> res B) (c : gcirc A) : (forall i a, In i (g_instr c) -> gangle i = Some a -> exists b, f a = Ok b) -> exists c', apply_angle f c = Ok c'.
Proof.
  intros H. unfold apply_angle, gvisit. assert (K : exists l, visit_all (angle_visitor f) (g_instr c) = Ok l); [|destruct K as [l ->]; cbn [rbind]; eauto].
  induction (g_instr c) as [|i l IH]; cbn [visit_all]; eauto. destruct IH as [r ->]; [intros; eapply H; eauto; right; auto|].
  specialize (H i). destruct i; cbn [visit angle_visitor v_qubit v_angle v_axis rbind gangle] in *; eauto;
  destruct (H angle (or_introl eq_refl) eq_refl) as [b ->]; cbn [rbind]; eauto.
Qed.
Lemma visit_all_angles {A B D} (f : A -> res B) (g : B -> D) (h : A -> D) : (forall a b, f a = Ok b -> g b = h a) ->
  forall l l', visit_all (angle_visitor f) l = Ok l' -> visit_all (angle_visitor (fun a => Ok (g a))) l' = visit_all (angle_visitor (fun a => Ok (h a))) l.
Proof.
  intros HF. induction l as [|i l IH]; intros l' H; cbn [visit_all] in H; [injection H as <-; reflexivity|].
  destruct (visit _ i) as [j|] eqn:V; [|discriminate]. cbn [rbind] in H. destruct (visit_all _ l) as [r|]; [|discriminate]. cbn [rbind] in H. injection H as <-.
  cbn [visit_all]. rewrite (IH r eq_refl). f_equal.
  destruct i; cbn [visit angle_visitor v_qubit v_angle v_axis rbind] in V; try (injection V as <-; reflexivity);
  (destruct (f angle) as [b|] eqn:F; [|discriminate]); cbn [rbind] in V; injection V as <-; cbn [visit angle_visitor v_qubit v_angle v_axis rbind]; rewrite (HF _ _ F); reflexivity.
Qed.
Lemma at_values_after {A} (rho rho' : nat -> R) (f : A -> res val) (d : A -> R) c c' : (forall a b, f a = Ok b -> denote rho b = d a) -> apply_angle f c = Ok c' ->
  at_values rho c' = apply_angle (fun a => Ok (d a)) c.
Proof.
  intros HF H. unfold at_values, apply_angle, gvisit in *. destruct (visit_all (angle_visitor f) (g_instr c)) as [l|] eqn:E; [|discriminate]. cbn [rbind] in H. injection H as <-. cbn [g_instr g_width].
  rewrite (visit_all_angles f (denote rho) d HF _ _ E). reflexivity.
Qed.
Lemma of_pres_ok {A} (x : pres A) a : of_pres x = Ok a -> x = POk a.
Proof. destruct x; cbn; intros H; [injection H as ->; auto|discriminate]. Qed.
(** substituting a number or an expression for a parameter always succeeds, and
    gives the circuit where the parameter has that value: whatever the kind of
    the gates, J included *)
Theorem C61_replace_parameter (x : nat) (s : val) (c : gcirc val) : exists c', replace_parameter x s c = Ok c' /\
  forall rho, at_values rho c' = at_values (fun y => if y =? x then denote rho s else rho y) c.
Proof.
  destruct (apply_angle_ok (fun a => of_pres (with_parameter a x s)) c) as [c' H].
  - intros i a _ _. destruct (proj1 (C26_substitution_total a x s [])) as [u ->]. exists u. reflexivity.
  - exists c'. split; [exact H|]. intros rho. apply (at_values_after rho rho (fun a => of_pres (with_parameter a x s)) (denote (fun y => if y =? x then denote rho s else rho y)) c c'); auto. intros a b E. apply of_pres_ok in E.
    rewrite (C26_with_parameter _ _ _ _ E rho). f_equal. extensionality y. rewrite Nat.eqb_sym. reflexivity.
Qed.
Print Assumptions C61_replace_parameter.
Theorem C61_replace_parameters (asg : list (nat * val)) (c : gcirc val) : exists c', replace_parameters asg c = Ok c' /\
  forall rho, at_values rho c' = at_values (fun y => match dget asg y with Some s => denote rho s | None => rho y end) c.
Proof.
  destruct (apply_angle_ok (fun a => of_pres (with_parameters a asg)) c) as [c' H].
  - intros i a _ _. destruct (proj2 (C26_substitution_total a 0 (VNum 0) asg)) as [u ->]. exists u. reflexivity.
  - exists c'. split; [exact H|]. intros rho. apply (at_values_after rho rho (fun a => of_pres (with_parameters a asg)) (denote (fun y => match dget asg y with Some s => denote rho s | None => rho y end)) c c'); auto. intros a b E. apply of_pres_ok in E. apply (C26_with_parameters _ _ _ E rho).
Qed.
Print Assumptions C61_replace_parameters.
(** the parameters that occur in a circuit *)
Definition occurs (x : nat) (c : gcirc val) : Prop := exists i a, In i (g_instr c) /\ gangle i = Some a /\ In x (vparam a).
Lemma visit_all_In {A B} (v : visitor A B) l l' : visit_all v l = Ok l' -> forall j, In j l' -> exists i, In i l /\ rewrites v i j.
Proof.
  intros H. apply visit_all_spec in H. induction H; intros j [].
  - subst. eexists. split; [left; reflexivity|auto].
  - destruct (IHForall2 j H1) as (i & I1 & I2). exists i. split; [right|]; auto.
Qed.
(** after numbers have been substituted for all the parameters, none is left and
    the angles are plain numbers, the expected ones *)
Theorem C61_all_numbers (asg : list (nat * val)) (c c' : gcirc val) : replace_parameters asg c = Ok c' ->
  (forall x, occurs x c -> exists r, dget asg x = Some (VNum r)) ->
  (forall i a, In i (g_instr c') -> gangle i = Some a -> exists r, a = VNum r) /\ is_parameterized c' = false.
Proof.
  intros H HN.
  assert (K : forall i a, In i (g_instr c') -> gangle i = Some a -> exists r, a = VNum r).
  { intros j b Hj Hb. unfold replace_parameters, apply_angle, gvisit in H. destruct (visit_all _ (g_instr c)) as [l|] eqn:E; [|discriminate]. cbn [rbind] in H. injection H as <-. cbn [g_instr] in Hj.
    destruct (visit_all_In _ _ _ E j Hj) as (i & I1 & _ & _ & I2 & _). rewrite Hb in I2. destruct (gangle i) as [a|] eqn:Ga; [|contradiction].
    cbn [v_angle angle_visitor] in I2. apply of_pres_ok in I2. destruct a as [r|m x k]; cbn [with_parameters] in I2; [injection I2 as <-; eauto|].
    destruct (HN x) as [r Hr]; [exists i, (VAff m x k); repeat split; auto; left; reflexivity|]. rewrite Hr in I2. cbn [evaluate] in I2. injection I2 as <-. eauto. }
  split; auto. unfold is_parameterized. destruct (existsb _ (g_instr c')) eqn:X; auto. apply existsb_exists in X. destruct X as (i & I1 & I2).
  specialize (K i). destruct i; try discriminate I2; destruct (K angle I1 eq_refl) as [r ->]; discriminate I2.
Qed.
Print Assumptions C61_all_numbers.
(** is_parameterized, for circuits without J gates *)
Theorem C61_is_parameterized (c : gcirc val) : (forall i, In i (g_instr c) -> gkind_of i <> KJ) ->
  (is_parameterized c = true <-> exists x, occurs x c).
Proof.
  intros NJ. unfold is_parameterized. rewrite existsb_exists. split.
  - intros (i & I1 & I2). destruct i; try discriminate I2; (destruct angle as [r|m x k]; [discriminate I2|]); exists x; eexists _, (VAff m x k); repeat split; eauto; left; reflexivity.
  - intros (x & i & a & I1 & I2 & I3). exists i. split; auto. specialize (NJ i I1). destruct a as [r|m y k]; [destruct I3|].
    destruct i; cbn [gangle] in I2; try discriminate I2; injection I2 as ->; try reflexivity. elim NJ. reflexivity.
Qed.
Print Assumptions C61_is_parameterized.
(** it never answers yes for a circuit of numbers, but it overlooks the
    parameters of J gates *)
Theorem C61_is_parameterized_sound (c : gcirc val) : is_parameterized c = true -> exists x, occurs x c.
Proof.
  unfold is_parameterized. rewrite existsb_exists. intros (i & I1 & I2). destruct i; try discriminate I2; (destruct angle as [r|m x k]; [discriminate I2|]); exists x; eexists _, (VAff m x k); repeat split; eauto; left; reflexivity.
Qed.
Print Assumptions C61_is_parameterized_sound.
Theorem C61_is_parameterized_refuted : exists c : gcirc val, gmake 1 [GJ 0 (placeholder 0)] = Ok c /\ occurs 0 c /\ is_parameterized c = false.
Proof.
  eexists. split; [reflexivity|]. split; [|reflexivity]. exists (GJ 0 (placeholder 0)), (placeholder 0). cbn. auto.
Qed.
Print Assumptions C61_is_parameterized_refuted.

(** * Examples *)
(** renaming: a Bell circuit with its wires exchanged *)
Example C61_ex_rename : exists c c', gmake 2 [GH 0; GCNOT 1 0; GRZZ 1 0 (1 / 4)%R; GM 1 AY] = Ok c /\
  gvisit (qubit_visitor (fun q => 1 - q)) c = Ok c' /\ g_instr c' = [GH 1; GCNOT 0 1; GRZZ 0 1 (1 / 4)%R; GM 0 AY] /\
  inj_below 2 (fun q => 1 - q) /\ below 2 (g_instr c) /\ forall q, q < 2 -> 1 - q < 2.
Proof.
  do 2 eexists. split; [reflexivity|]. split; [reflexivity|]. split; [reflexivity|]. split; [|split].
  - intros q q' H H' E. lia.
  - intros i q Hi Hq. cbn [g_instr app] in Hi. destruct Hi as [<-|[<-|[<-|[<-|[]]]]]; cbn [gqubits In] in Hq; lia.
  - intros; lia.
Qed.
(** the states |01> and |10> are renamed into each other *)
Example C61_ex_renamed : renamed 2 (fun q => 1 - q) (fun f => if f 0 && negb (f 1) then C1 else C0) (fun f => if f 1 && negb (f 0) then C1 else C0).
Proof. intros f g H. rewrite <- (H 0), <- (H 1) by lia. reflexivity. Qed.
(** a program with a copy, a change of the copy, and a visitor that raises on
    qubit 1 in the middle of an instruction list *)
Definition ex_raise : visitor nat nat := Vis (fun q => if q =? 1 then Err EKey else Ok q) (fun a => Ok (S a)) Ok.
Example C61_ex_history :
  run_ops hstep (Heap [] []) [ONew 2; OAdd 0 (GRX 0 7); OAdd 0 (GRZZ 0 1 8); OAdd 0 (GRY 0 9); OCopy 0 ex_raise; OCopy 0 id_visitor; OInplace 1 ex_raise; OAdd 0 (GM 0 AX); OInplace 0 (angle_visitor (fun a => Ok (10 * a)))]
  = (Heap [GRX 0 70; GRZZ 0 1 80; GRY 0 90; GRX 0 8; GRX 0 8; GRZZ 0 1 8; GRY 0 9; GM 0 AX] [Obj 2 [0; 1; 2; 7] (sremove 0 (of_list (range 2))); Obj 2 [4; 5; 6] (of_list (range 2))],
     [None; None; None; None; Some EKey; None; Some EKey; None; None]).
Proof. reflexivity. Qed.
(** whole turns: adding 2 to the angle of a J gate and of an RX gate *)
Example C61_ex_turns : exists c', apply_angle (fun a => Ok (a + 2)%R) (GCirc 1 [GRX 0 (1 / 3)%R; GJ 0 (1 / 5)%R; GM 0 AZ] (of_list (range 1))) = Ok c' /\ forall a : R, exists k : Z, (a + 2 = a + 2 * IZR k)%R.
Proof. eexists. split; [reflexivity|]. intros a. exists 1%Z. ring. Qed.
(** parameters: theta in a J gate and 2 theta + 1 in an RZ gate, replaced by 1/4 *)
Example C61_ex_parameters : exists c', replace_parameters [(0, VNum (1 / 4))] (GCirc 1 [GJ 0 (placeholder 0); GRZ 0 (VAff 2 0 1)] (of_list (range 1))) = Ok c' /\
  at_values (fun _ => 0%R) c' = Ok (GCirc 1 [GJ 0 (1 * (1 / 4) + 0)%R; GRZ 0 (2 * (1 / 4) + 1)%R] (of_list (range 1))) /\
  is_parameterized (GCirc 1 [GJ 0 (placeholder 0); GRZ 0 (VAff 2 0 1)] (of_list (range 1))) = true.
Proof. eexists. split; [reflexivity|]. split; reflexivity. Qed.
