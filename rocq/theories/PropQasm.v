(** Property theorems: OpenQASM 3 export of patterns (C51) and circuits (C52). *)
From Coq Require Import Reals Lra ZArith Arith List Bool Lia Permutation FunctionalExtensionality.
From Verif Require Import Cplx Mat2 NSet QState Fundamentals CliffordDb Clifford Measure Layer Pattern Statevec Density Circuit Swaps OpenGraph PropRewrite Qasm QasmThm QasmCirc.
Import ListNotations.
Local Open Scope C_scope.

(** * Specification *)
(** Fraction(a).limit_denominator(1000) of a fraction with such a denominator is that fraction *)
Definition limit_denominator (lim : R -> Z * positive) : Prop :=
  forall a q, a = frac_val q -> (snd q <= 1000)%positive -> frac_val (lim a) = a.
(** a fraction of pi that angle_to_str prints exactly *)
Definition simple_angle (a : R) : Prop := exists q, a = frac_val q /\ (snd q <= 1000)%positive.
(** same command, up to the rendering of the angle: relative error at most 1e-9 *)
Definition near_cmd (c c' : cmd) : Prop :=
  match c, c' with
  | CM n m s t, CM n' m' s' t' => n' = n /\ s' = s /\ t' = t /\
      exists a a' p, to_bloch m = (a, p) /\ m' = MBloch a' p /\ (Rabs (a - a') <= / 1000000000 * Rmax (Rabs a) (Rabs a'))%R
  | _, _ => c' = c
  end.
Definition near_instr (i i' : instr) : Prop :=
  let near a a' := (Rabs (a - a') <= / 1000000000 * Rmax (Rabs a) (Rabs a'))%R in
  match i, i' with
  | IRX q a, IRX q' a' | IRY q a, IRY q' a' | IRZ q a, IRZ q' a' | IJ q a, IJ q' a' => q' = q /\ near a a'
  | IRZZ t c a, IRZZ t' c' a' => t' = t /\ c' = c /\ near a a'
  | _, _ => i' = i
  end.
(** the input nodes in their given states *)
Definition input_product (input : nat -> option nstate) (l : list nat) : state :=
  den (flat_map (fun n => match input n with Some st => [OPrep (nstate_vec st) n] | None => [] end) l) (fun _ => C1).
(** the run of the program [prog] in branch [o] is valid, records the outcomes,
    and ends, up to a global phase, in the state [phi] with every measured qubit
    in the state that was observed *)
Definition runs_to (o : nat -> bool) (prog : list qstmt) (st0 : qrun) (measured : nat -> Prop) (phi : state) : Prop :=
  exists st c, qexec o prog st0 = Some st /\ phase c /\
    (forall k, measured k -> qr_b st k = Some (o k)) /\
    (forall f, (forall k, measured k -> f k = o k) -> qr_psi st f = c * phi f) /\
    (forall f k, measured k -> f k <> o k -> qr_psi st f = C0).
Definition supported (zerob : vec2 -> bool) (st : nstate) : Prop := match st with SPlus => True | SVec v => zerob v = true end.

(** * C51 *)
Lemma inputs_cmds lim (it : iter) zerob input l prog : inputs_qasm zerob input l = Ok prog ->
  exists l0, cmds_qasm lim it zerob l0 = Ok prog /\ map (fun c => match c with CN n _ => n | _ => 0%nat end) l0 = l /\
    (forall c, In c l0 -> exists n st, c = CN n st /\ input n = Some st) /\
    flat_map (fun n => match input n with Some st => [OPrep (nstate_vec st) n] | None => [] end) l = flat_map (cmd_ops (fun _ => false)) l0 /\
    (forall o, flat_map (cmd_ops o) l0 = flat_map (cmd_ops (fun _ => false)) l0).
Proof.
  revert prog. induction l as [|n l IH]; intros prog H; cbn [inputs_qasm] in H.
  - injection H as <-. exists []. cbn. split; auto. split; auto. split; [intros ? []|]. auto.
  - destruct (input n) as [st|] eqn:E; [|discriminate]. destruct (state_qasm zerob n st) as [a|] eqn:Ea; [|discriminate].
    cbn [rbind] in H. destruct (inputs_qasm zerob input l) as [b|] eqn:Eb; [|discriminate]. injection H as <-.
    destruct (IH b eq_refl) as (l0 & H1 & H2 & H3 & H4 & H5). exists (CN n st :: l0). cbn [cmds_qasm cmd_qasm map flat_map]. rewrite Ea. cbn [rbind]. rewrite H1. cbn [rbind].
    split; auto. split; [rewrite H2; auto|]. split; [intros c [<-|Hc]; eauto|]. split; [rewrite E, H4; auto|]. intros o. rewrite H5. auto.
Qed.
Lemma cmds_qasm_app lim (it : iter) zerob a b pa pb : cmds_qasm lim it zerob a = Ok pa -> cmds_qasm lim it zerob b = Ok pb -> cmds_qasm lim it zerob (a ++ b) = Ok (pa ++ pb).
Proof.
  revert pa. induction a as [|c a IH]; intros pa Ha Hb; cbn [cmds_qasm app] in *.
  - injection Ha as <-. auto.
  - destruct (cmd_qasm lim it zerob c) as [x|]; [|discriminate]. cbn [rbind] in *. destruct (cmds_qasm lim it zerob a) as [y|]; [|discriminate]. injection Ha as <-.
    rewrite (IH y) by auto. cbn. rewrite <- app_assoc. auto.
Qed.
Lemma cmds_qasm_app_inv lim (it : iter) zerob a b prog : cmds_qasm lim it zerob (a ++ b) = Ok prog ->
  exists pa pb, cmds_qasm lim it zerob a = Ok pa /\ cmds_qasm lim it zerob b = Ok pb /\ prog = pa ++ pb.
Proof.
  revert prog. induction a as [|c a IH]; intros prog H; cbn [cmds_qasm app] in *; [eauto|].
  destruct (cmd_qasm lim it zerob c) as [x|]; [|discriminate]. cbn [rbind] in *.
  destruct (cmds_qasm lim it zerob (a ++ b)) as [y|] eqn:E; [|discriminate]. injection H as <-.
  destruct (IH y eq_refl) as (pa & pb & H1 & H2 & ->). rewrite H1. cbn. exists (x ++ pa), pb. rewrite app_assoc. auto.
Qed.
Lemma exec_all lim (it : iter) zerob o : iter_ok it -> (forall v, zerob v = true -> v = ket0) -> forall l prog, runnable [] l -> sem_ok l = true ->
  cmds_qasm lim it zerob l = Ok prog -> exists st, qexec o prog (qinit (fun _ => C1)) = Some st /\ qinv lim o l st.
Proof.
  intros Hit Hz. induction l as [|c l IH] using rev_ind; intros prog R S P.
  - injection P as <-. exists (qinit (fun _ => C1)). split; auto. split; cbn.
    + intros n. split; [intros []|intros (?&[])].
    + intros n. split; [intros []|intros (?&?&?&[])].
    + intros n (?&?&?&[]).
    + intros n _ f b. auto.
    + exists [], C1. split; [apply phase_1|]. split; [intros n; split; [intros []|intros (?&?&?&[])]|].
      rewrite cscale_1. extensionality f. auto.
  - destruct (cmds_qasm_app_inv _ _ _ _ _ _ P) as (pa & pb & H1 & H2 & ->).
    unfold sem_ok in S. rewrite forallb_app, andb_true_iff in S. destruct S as [S1 S2]. cbn in S2. rewrite andb_true_r in S2.
    destruct (IH pa) as (st & E & V); auto. { eapply runnable_app_l; eauto. }
    cbn [cmds_qasm] in H2. destruct (cmd_qasm lim it zerob c) as [x|] eqn:Ex; [|discriminate]. cbn in H2. injection H2 as <-. rewrite app_nil_r.
    destruct (step_qasm lim it zerob Hit Hz o l c x st R S2 Ex V) as (st' & E' & V'). exists st'. split; auto.
    rewrite qexec_app, E. auto.
Qed.
Lemma shown_near_cmd lim c : near_cmd c (shown_cmd lim c).
Proof.
  destruct c; cbn; auto. do 3 (split; auto). unfold shown_meas. destruct (to_bloch m) as [a p]. eexists a, _, p. split; auto. split; auto.
  change (near a (if Req_EM_T a 0 then 0%R else match p with PYZ => shown lim a | _ => (- shown lim (- a))%R end)).
  destruct (Req_EM_T a 0) as [->|]; [apply near_refl|]. destruct p; try apply shown_near; apply near_opp, shown_near.
Qed.
Lemma simple_opp a : simple_angle a -> simple_angle (- a).
Proof.
  intros (q & -> & H). exists (- fst q, snd q)%Z. split; auto. unfold frac_val. cbn [fst snd]. rewrite opp_IZR. field. apply not_0_IZR. discriminate.
Qed.
Lemma shown_simple lim a : limit_denominator lim -> simple_angle a -> shown lim a = a.
Proof. intros L (q & E & H). apply shown_exact. eapply L; eauto. Qed.
Lemma shown_branch lim o l : limit_denominator lim -> (forall n m s t, In (CM n m s t) l -> simple_angle (fst (to_bloch m))) ->
  seq_ops o (map (shown_cmd lim) l) ≈ seq_ops o l.
Proof.
  intros L. induction l as [|c l IH]; intros H; [apply leq_refl|]. change (c :: l) with ([c] ++ l) at 2. cbn [map]. change (shown_cmd lim c :: map (shown_cmd lim) l) with ([shown_cmd lim c] ++ map (shown_cmd lim) l).
  rewrite !seq_ops_app. apply leq_app; [|apply IH; intros; eapply H; right; eauto].
  destruct c; try apply leq_refl. cbn [shown_cmd]. eapply leq_trans; [apply meas_ops_XZ|]. eapply leq_trans; [|apply leq_sym, meas_ops_XZ].
  assert (E : mvec (shown_meas lim m) (o n) = mvec m (o n)).
  { specialize (H n m s t (or_introl eq_refl)). unfold mvec, shown_meas. destruct (to_bloch m) as [a p]. cbn [to_bloch fst] in *. f_equal. f_equal.
    destruct (Req_EM_T a 0); auto. destruct p; try apply shown_simple; auto; rewrite shown_simple by (auto; apply simple_opp; auto); ring. }
  rewrite E. apply leq_refl.
Qed.
Lemma runnable_inputs l0 l inp : map (fun c => match c with CN n _ => n | _ => 0%nat end) l0 = inp -> (forall c, In c l0 -> exists n st, c = CN n st) -> NoDup inp ->
  runnable inp l -> runnable [] (l0 ++ l).
Proof.
  intros E C ND R pre c post H.
  assert (PI0 : forall n, prepared_in l0 n <-> In n inp).
  { intros n. rewrite <- E, in_map_iff. split.
    - intros (st & K). exists (CN n st). auto.
    - intros (x & <- & K). destruct (C x K) as (k & st & ->). exists st. auto. }
  assert (MI0 : forall n, ~ measured_in l0 n). { intros n (m & s & t & K). destruct (C _ K) as (k & st & X). discriminate. }
  destruct (Nat.lt_ge_cases (length pre) (length l0)) as [LT|GE].
  - assert (X : l0 = pre ++ c :: firstn (length l0 - length pre - 1) post).
    { pose proof (f_equal (firstn (length l0)) H) as K. rewrite firstn_app, Nat.sub_diag, firstn_all, firstn_O, app_nil_r in K.
      rewrite firstn_app, firstn_all2 in K by lia. rewrite K at 1. f_equal. destruct (length l0 - length pre)%nat eqn:D; [lia|]. cbn [firstn]. f_equal. f_equal. lia. }
    destruct (C c) as (n & st & ->). { rewrite X. apply in_or_app. right; left; auto. }
    cbn [cmd_ok]. split; [intros []|]. intros (st' & K).
    rewrite <- E, X, map_app in ND. cbn [map] in ND. apply NoDup_remove_2 in ND. apply ND. apply in_or_app. left.
    apply in_map_iff. exists (CN n st'). auto.
  - assert (X : pre = l0 ++ skipn (length l0) pre /\ l = skipn (length l0) pre ++ c :: post).
    { pose proof (f_equal (firstn (length l0)) H) as K1. pose proof (f_equal (skipn (length l0)) H) as K2.
      rewrite firstn_app, Nat.sub_diag, firstn_all, firstn_O, app_nil_r in K1. rewrite firstn_app in K1. replace (length l0 - length pre)%nat with 0%nat in K1 by lia. rewrite firstn_O, app_nil_r in K1.
      rewrite skipn_app, Nat.sub_diag, skipn_all in K2. cbn [app skipn] in K2. rewrite skipn_app in K2. replace (length l0 - length pre)%nat with 0%nat in K2 by lia. cbn [skipn] in K2.
      split; auto. rewrite K1 at 1. symmetry. apply firstn_skipn. }
    destruct X as [X1 X2]. set (q := skipn (length l0) pre) in *. pose proof (R q c post X2) as K.
    assert (PP : forall n, prepared_in pre n <-> In n inp \/ prepared_in q n) by (intros n; rewrite X1, prepared_app, PI0; tauto).
    assert (MM : forall n, measured_in pre n <-> measured_in q n) by (intros n; rewrite X1, measured_app; pose proof (MI0 n); tauto).
    assert (LL : forall n, live inp q n -> live [] pre n) by (intros n [A B]; split; [right; apply PP; tauto|rewrite MM; auto]).
    destruct c; cbn [cmd_ok] in *; auto.
    + split; [intros []|]. rewrite PP. tauto.
    + destruct K; auto.
    + destruct K as [K1 K2]. split; auto. intros k Hk. apply MM; auto.
    + destruct K as [K1 K2]. split; auto. intros k Hk. apply MM; auto.
    + destruct K as [K1 K2]. split; auto. intros k Hk. apply MM; auto.
Qed.
Lemma mask_on ms o psi f : (forall k, In k ms -> f k = o k) -> mask ms o psi f = psi f.
Proof. intros H. unfold mask. rewrite (proj2 (forallb_forall _ ms)); auto. intros k Hk. rewrite H by auto. apply eqb_reflx. Qed.
Lemma mask_off ms o psi f k : In k ms -> f k <> o k -> mask ms o psi f = C0.
Proof.
  intros H N. unfold mask. destruct (forallb _ ms) eqn:E; auto. rewrite forallb_forall in E. specialize (E k H). apply eqb_prop in E. contradiction.
Qed.

Lemma pattern_runs lim (it : iter) zerob p input prog : iter_ok it -> (forall v, zerob v = true -> v = ket0) -> NoDup (p_in p) ->
  check_runnability p = Ok tt -> (forall n, ~ In (CE n n) (p_seq p)) -> pattern_to_qasm3 lim it zerob p input = Ok prog ->
  forall o, runs_to o prog (qinit (fun _ => C1)) (measured_in (p_seq p)) (den (seq_ops o (map (shown_cmd lim) (p_seq p))) (input_product input (p_in p))).
Proof.
  intros Hit Hz ND HR HE HP o. unfold pattern_to_qasm3 in HP.
  destruct (inputs_qasm zerob input (p_in p)) as [a|] eqn:Ea; [|discriminate]. cbn [rbind] in HP.
  destruct (cmds_qasm lim it zerob (p_seq p)) as [b|] eqn:Eb; [|discriminate]. injection HP as <-.
  apply check_runnability_spec in HR. destruct (inputs_cmds lim it _ _ _ _ Ea) as (l0 & H1 & H2 & H3 & H4 & H5).
  assert (S : sem_ok (l0 ++ p_seq p) = true).
  { unfold sem_ok. rewrite forallb_app, andb_true_iff. split; apply forallb_forall; intros c Hc.
    - destruct (H3 c Hc) as (n & st & -> & _). auto.
    - destruct c; auto; cbn.
      + apply negb_true_iff, Nat.eqb_neq. intros ->. eapply HE; eauto.
      + exfalso. clear - Eb Hc. revert b Eb. induction (p_seq p) as [|c l IH]; intros b Eb; [destruct Hc|]. cbn [cmds_qasm] in Eb.
        destruct Hc as [->|Hc]; [cbn in Eb; discriminate|]. destruct (cmd_qasm lim it zerob c); [|discriminate]. cbn in Eb.
        destruct (cmds_qasm lim it zerob l); [|discriminate]. eapply IH; eauto. }
  assert (R : runnable [] (l0 ++ p_seq p)).
  { apply runnable_inputs with (inp := p_in p); auto. intros c Hc. destruct (H3 c Hc) as (n & st & -> & _). eauto. }
  destruct (exec_all lim it zerob o Hit Hz _ (a ++ b) R S (cmds_qasm_app _ _ _ _ _ _ _ H1 Eb)) as (st & E & V).
  destruct V as [_ _ B _ (ms & c & Pc & M & P)].
  assert (MM : forall n, measured_in (l0 ++ p_seq p) n <-> measured_in (p_seq p) n).
  { intros n. rewrite measured_app. split; auto. intros [(m & s & t & K)|]; auto. destruct (H3 _ K) as (k & st' & X & _). discriminate. }
  assert (SH : map (shown_cmd lim) l0 = l0).
  { transitivity (map (fun c => c) l0); [|apply map_id]. apply map_ext_in. intros x Hx. destruct (H3 x Hx) as (n & st' & -> & _). auto. }
  assert (D : den (seq_ops o (map (shown_cmd lim) (l0 ++ p_seq p))) (fun _ => C1) = den (seq_ops o (map (shown_cmd lim) (p_seq p))) (input_product input (p_in p))).
  { rewrite map_app, seq_ops_app, den_app, SH. f_equal. unfold input_product. rewrite H4. unfold seq_ops. rewrite H5. auto. }
  rewrite D in P. exists st, c. split; auto. split; auto. split; [|split].
  - intros k Hk. apply B, MM; auto.
  - intros f Hf. rewrite P. unfold cscale. rewrite mask_on; auto. intros k Hk. apply Hf, MM, M; auto.
  - intros f k Hk Hf. rewrite P. unfold cscale. rewrite (mask_off _ _ _ _ k); auto; [ring|]. apply M, MM; auto.
Qed.

(** The exported program is valid and, on every branch, computes the state the
    pattern computes (with the printed angles), in the qubits that are not measured. *)
Theorem C51_pattern : forall lim (it : iter) zerob p input prog, iter_ok it -> (forall v, zerob v = true -> v = Vec2 C1 C0) -> NoDup (p_in p) ->
  check_runnability p = Ok tt -> (forall n, ~ In (CE n n) (p_seq p)) -> pattern_to_qasm3 lim it zerob p input = Ok prog ->
  exists l', Forall2 near_cmd (p_seq p) l' /\
    forall o, runs_to o prog (qinit (fun _ => C1)) (measured_in (p_seq p)) (den (seq_ops o l') (input_product input (p_in p))).
Proof.
  intros lim it zerob p input prog Hit Hz ND HR HE HP. exists (map (shown_cmd lim) (p_seq p)). split.
  - clear. induction (p_seq p); cbn; constructor; auto. apply shown_near_cmd.
  - eapply pattern_runs; eauto.
Qed.
Print Assumptions C51_pattern.
(** exact when the angles are fractions of pi with denominators up to 1000 *)
Theorem C51_exact : forall lim (it : iter) zerob p input prog, iter_ok it -> (forall v, zerob v = true -> v = Vec2 C1 C0) -> limit_denominator lim -> NoDup (p_in p) ->
  check_runnability p = Ok tt -> (forall n, ~ In (CE n n) (p_seq p)) -> (forall n m s t, In (CM n m s t) (p_seq p) -> simple_angle (fst (to_bloch m))) ->
  pattern_to_qasm3 lim it zerob p input = Ok prog ->
  forall o, runs_to o prog (qinit (fun _ => C1)) (measured_in (p_seq p)) (den (seq_ops o (p_seq p)) (input_product input (p_in p))).
Proof.
  intros lim it zerob p input prog Hit Hz HL ND HR HE HA HP o.
  destruct (pattern_runs lim it zerob p input prog Hit Hz ND HR HE HP o) as (st & c & E & Pc & B & F1 & F2).
  destruct (shown_branch lim o (p_seq p) HL HA) as (x & Px & X). exists st, (c * x). split; auto. split; [apply phase_mul; auto|]. split; auto. split; auto.
  intros f Hf. rewrite F1 by auto. rewrite X. unfold cscale. ring.
Qed.
Print Assumptions C51_exact.
(** when the export succeeds, and which exceptions it raises *)
Theorem C51_errors : forall lim (it : iter) zerob p input,
  ((exists prog, pattern_to_qasm3 lim it zerob p input = Ok prog) <->
   (forall n, In n (p_in p) -> exists st, input n = Some st /\ supported zerob st) /\
   (forall c, In c (p_seq p) -> match c with CS _ _ | CT => False | CN _ st => supported zerob st | _ => True end)) /\
  (forall e, pattern_to_qasm3 lim it zerob p input = Err e -> e = EValue \/ (e = EKey /\ exists n, In n (p_in p) /\ input n = None)).
Proof.
  intros lim it zerob p input.
  assert (ST : forall n st, (exists a, state_qasm zerob n st = Ok a) /\ supported zerob st \/ state_qasm zerob n st = Err EValue /\ ~ supported zerob st).
  { intros n [|v]; cbn; [left; eauto|]. destruct (zerob v); [left; eauto|right]. split; auto. }
  assert (A : forall l, (exists a, inputs_qasm zerob input l = Ok a) /\ (forall n, In n l -> exists st, input n = Some st /\ supported zerob st)
    \/ (exists e, inputs_qasm zerob input l = Err e /\ (e = EValue \/ (e = EKey /\ exists n, In n l /\ input n = None))) /\ ~ (forall n, In n l -> exists st, input n = Some st /\ supported zerob st)).
  { induction l as [|n l IH]; cbn [inputs_qasm]; [left; split; eauto; intros ? []|].
    destruct (input n) as [st|] eqn:E.
    - destruct (ST n st) as [[[a Ha] S]|[Ha S]]; rewrite Ha; cbn [rbind].
      + destruct IH as [[[b Hb] I]|[(e & Hb & He) I]]; rewrite Hb; cbn [rbind].
        * left. split; eauto. intros k [<-|Hk]; eauto.
        * right. split; [exists e; split; auto; destruct He as [|[? (k & ? & ?)]]; auto; right; split; auto; exists k; split; [right|]; auto|]. intros X. apply I. intros k Hk. apply X; right; auto.
      + right. split; eauto. intros X. destruct (X n (or_introl eq_refl)) as (st' & E' & S'). congruence.
    - right. split; [exists EKey; split; auto; right; split; auto; exists n; split; auto; left; auto|]. intros X. destruct (X n (or_introl eq_refl)) as (st' & E' & S'). congruence. }
  assert (B : forall l, (exists a, cmds_qasm lim it zerob l = Ok a) /\ (forall c, In c l -> match c with CS _ _ | CT => False | CN _ st => supported zerob st | _ => True end)
    \/ cmds_qasm lim it zerob l = Err EValue /\ ~ (forall c, In c l -> match c with CS _ _ | CT => False | CN _ st => supported zerob st | _ => True end)).
  { induction l as [|c l IH]; cbn [cmds_qasm]; [left; split; eauto; intros ? []|].
    assert (C : (exists a, cmd_qasm lim it zerob c = Ok a) /\ match c with CS _ _ | CT => False | CN _ st => supported zerob st | _ => True end
       \/ cmd_qasm lim it zerob c = Err EValue /\ ~ match c with CS _ _ | CT => False | CN _ st => supported zerob st | _ => True end).
    { destruct c; cbn [cmd_qasm]; eauto. destruct (ST n st) as [[[a Ha] S]|[Ha S]]; rewrite Ha; cbn; eauto. }
    destruct C as [[[a Ha] S]|[Ha S]]; rewrite Ha; cbn [rbind].
    - destruct IH as [[[b Hb] I]|[Hb I]]; rewrite Hb; cbn [rbind].
      + left. split; eauto. intros x [<-|Hx]; [exact S|exact (I x Hx)].
      + right. split; auto. intros X. apply I. intros x Hx. apply (X x (or_intror Hx)).
    - right. split; auto. intros X. apply S. apply (X c (or_introl eq_refl)). }
  unfold pattern_to_qasm3. destruct (A (p_in p)) as [[[a Ha] I]|[(e & Ha & He) I]]; rewrite Ha; cbn [rbind].
  - destruct (B (p_seq p)) as [[[b Hb] J]|[Hb J]]; rewrite Hb; cbn [rbind].
    + split; [split; eauto|discriminate].
    + split; [split; [intros [? ?]; discriminate|tauto]|]. intros e [= <-]. auto.
  - split; [split; [intros [? ?]; discriminate|tauto]|]. intros e' [= <-]. auto.
Qed.
Print Assumptions C51_errors.

(** *** Non-vacuity: a pattern with corrections, exported and simulated *)
Example C51_case a : a <> 0%R -> exists prog,
  let p := Pat [0%nat] [CN 1 SPlus; CE 0 1; CM 0 (MBloch a PXY) sempty sempty; CX 1 (sing 0)] [1%nat] 2 in
  check_runnability p = Ok tt /\
  pattern_to_qasm3 (fun _ => (0%Z, 1%positive)) elems (fun _ => false) p (fun _ => Some SPlus) = Ok prog /\
  prog = [SQubit 0; SGate Gh 0; SQubit 1; SGate Gh 1; SCz 0 1; SGate Gh 0; SGate (Grx (angle_to_str (fun _ => (0%Z, 1%positive)) (- a))) 0; SBit 0; SMeas 0; SIf [0%nat] Gx 1].
Proof.
  intros N. eexists. cbn zeta. split; [vm_compute; reflexivity|]. split; [|reflexivity].
  unfold pattern_to_qasm3. cbn [p_in p_seq inputs_qasm state_qasm rbind cmds_qasm cmd_qasm meas_qasm to_bloch domain_qasm app].
  destruct (Req_EM_T a 0); [contradiction|]. reflexivity.
Qed.

(** * C52 *)
Lemma instr_shown_near lim i : near_instr i (shown_instr lim i).
Proof. destruct i; cbn; auto; try (split; auto); try (split; auto); apply shown_near. Qed.
Lemma shown_half lim : limit_denominator lim -> shown lim (1 / 2) = (1 / 2)%R.
Proof. intros L. apply shown_simple; auto. exists (1%Z, 2%positive). split; [unfold frac_val; cbn; lra|cbn; lia]. Qed.
Lemma shown_flat lim l : limit_denominator lim ->
  map (shown_instr lim) (flat_map z_axis_instr (flat_map rzh_instr l)) = flat_map z_axis_instr (flat_map rzh_instr (map (shown_instr lim) l)).
Proof.
  intros L. induction l as [|i l IH]; auto. cbn [flat_map map]. rewrite !flat_map_app, map_app, IH. f_equal.
  destruct i; auto. destruct ax; auto. cbn [rzh_instr flat_map app z_axis_instr map shown_instr]. rewrite shown_half; auto.
Qed.
Lemma flat_targets l : mtargets (flat_map z_axis_instr (flat_map rzh_instr l)) = mtargets l.
Proof.
  induction l as [|i l IH]; auto. unfold mtargets in *. cbn [flat_map]. rewrite !flat_map_app, IH. destruct i; auto. destruct ax; auto.
Qed.
Lemma flat_no_rzz l : forallb no_rzz l = true -> forallb no_rzz (flat_map z_axis_instr (flat_map rzh_instr l)) = true.
Proof.
  induction l as [|i l IH]; auto. cbn [forallb flat_map]. rewrite andb_true_iff. intros [A B]. rewrite flat_map_app, forallb_app, (IH B), andb_true_r.
  destruct i; auto; try discriminate. destruct ax; auto.
Qed.
Lemma flat_direct l : forallb direct (flat_map z_axis_instr (flat_map rzh_instr l)) = true.
Proof. induction l as [|i l IH]; auto. cbn [flat_map]. rewrite flat_map_app, forallb_app, IH, andb_true_r. destruct i; auto. destruct ax; auto. Qed.
Lemma flat_sem o k l : exists c, phase c /\ forall psi, csem o k (flat_map z_axis_instr (flat_map rzh_instr l)) psi = cscale c (csem o k l psi).
Proof.
  destruct (pass_sem z_axis_instr z_sem o (flat_map rzh_instr l) k) as (c & P & H). destruct (pass_sem rzh_instr rzh_sem o l k) as (d & Q & K).
  exists (c * d). split; [apply phase_mul; auto|]. intros psi. rewrite H, K, cscale_cscale. auto.
Qed.
Lemma meas_targets l : existsb is_meas l = false -> mtargets l = [].
Proof. induction l as [|i l IH]; auto. cbn [existsb]. rewrite orb_false_iff. intros [A B]. unfold mtargets in *. cbn [flat_map]. rewrite IH by auto. destruct i; auto; discriminate. Qed.
(** the program printed for instructions that are all accepted *)
Lemma direct_runs lim w l d prog bits : circ_make w l = Ok d -> forallb no_rzz l = true -> rmap (instr_qasm lim) l = Ok prog -> bits = existsb is_meas l ->
  forall ob oc psi, (forall j q, nth_error (mtargets l) j = Some q -> oc j = ob q) ->
  runs_to ob prog (qregs w bits psi) (fun q => In q (mtargets l)) (csem oc 0 (map (shown_instr lim) l) psi).
Proof.
  intros E NR HP -> ob oc psi HO. unfold circ_make, circ_extend in E.
  assert (AC : forall q, mem q (c_active (circ_new w)) = true -> In q (range w)).
  { intros q. cbn [circ_new c_active]. rewrite mem_of_list. auto. }
  destruct (circ_exec lim ob oc l (circ_new w) d [] 0 (qregs w (existsb is_meas l) psi) psi C1 prog E NR) as (st & e & X & Pe & _ & B & P).
  - intros q Hq. split; [cbn; auto|intros []].
  - intros HM q Hq. unfold qregs. rewrite HM. cbn. auto.
  - exact HO.
  - cbn. rewrite cscale_1. extensionality f. auto.
  - apply phase_1.
  - exact HP.
  - exists st, e. split; auto. split; auto. rewrite app_nil_r in P. split; [|split].
    + intros k Hk. rewrite B. apply lmem_In in Hk. rewrite Hk. auto.
    + intros f Hf. rewrite P. unfold cscale. rewrite mask_on; auto. intros k Hk. apply Hf, in_rev; auto.
    + intros f k Hk Hf. rewrite P. unfold cscale. rewrite (mask_off _ _ _ _ k); auto; [ring|]. apply in_rev. rewrite rev_involutive. auto.
Qed.

Lemma circuit_core lim w l c : limit_denominator lim -> circ_make w l = Ok c -> (forall t k a, ~ In (IRZZ t k a) l) ->
  exists bits prog, circuit_to_qasm3 lim true c = Ok (w, bits, prog) /\
    forall ob psi, runs_to ob prog (qregs w bits psi) (fun q => In q (mtargets l)) (csem (fun k => ob (nth k (mtargets l) 0%nat)) 0 (map (shown_instr lim) l) psi).
Proof.
  intros L E NR. assert (N : forallb no_rzz l = true).
  { apply forallb_forall. intros i Hi. destruct i; auto. elim (NR _ _ _ Hi). }
  destruct (C47_j_to_rzh w l c E) as (c1 & E1 & M1 & _ & _ & W1 & _). destruct (C47_z_axis w _ c1 M1) as (c2 & E2 & M2 & _ & _ & W2 & _).
  destruct (circ_extend_fields _ _ _ E) as [W I]. cbn in W, I.
  assert (I1 : c_instr c1 = flat_map rzh_instr l).
  { unfold j_to_rzh in E1. rewrite I in E1. destruct (pass_ok rzh_instr rzh_add l (circ_new w) c (circ_new (c_width c)) E) as (x & X1 & _ & X2 & _); [rewrite W; auto|].
    rewrite X1 in E1. injection E1 as ->. auto. }
  assert (I2 : c_instr c2 = flat_map z_axis_instr (flat_map rzh_instr l)).
  { unfold to_z_axis in E2. destruct (pass_ok z_axis_instr z_add (c_instr c1) (circ_new w) c1 (circ_new (c_width c1)) M1) as (x & X1 & _ & X2 & _); [rewrite W1, W; auto|].
    rewrite X1 in E2. injection E2 as ->. rewrite X2, I1. auto. }
  destruct (direct_ok lim (c_instr c2)) as (prog & HP). { rewrite I2. apply flat_direct. }
  exists (existsb is_meas (c_instr c2)), prog. split.
  - unfold circuit_to_qasm3. rewrite E1. cbn [rbind]. rewrite E2. cbn [rbind]. rewrite HP. cbn [rbind]. rewrite W2, W1, W. auto.
  - intros ob psi. set (oc := fun k => ob (nth k (mtargets l) 0%nat)).
    assert (HO : forall j q, nth_error (mtargets (c_instr c2)) j = Some q -> oc j = ob q).
    { intros j q. rewrite I2, flat_targets. intros H. unfold oc. rewrite (nth_error_nth _ _ _ H). auto. }
    destruct (direct_runs lim w (c_instr c2) c2 prog _ M2 ltac:(rewrite I2; apply flat_no_rzz; auto) HP eq_refl ob oc psi HO) as (st & e & X & Pe & B & F1 & F2).
    rewrite I2, flat_targets in B, F1, F2. rewrite I2 in X. rewrite (shown_flat lim l L) in F1. destruct (flat_sem oc 0 (map (shown_instr lim) l)) as (x & Px & K).
    rewrite I2. exists st, (e * x). split; auto. split; [apply phase_mul; auto|]. split; auto. split; auto.
    intros f Hf. rewrite F1, K by auto. unfold cscale. ring.
Qed.
Lemma shown_nears lim l : Forall2 near_instr l (map (shown_instr lim) l).
Proof. induction l; cbn; constructor; auto. apply instr_shown_near. Qed.
(** For every circuit built through the API without RZZ, the export succeeds and the
    program performs, on every branch, the instructions of the circuit (with the printed angles). *)
Theorem C52_circuit : forall lim w l c, limit_denominator lim -> circ_make w l = Ok c -> (forall t k a, ~ In (IRZZ t k a) l) ->
  exists bits prog l', circuit_to_qasm3 lim true c = Ok (w, bits, prog) /\ Forall2 near_instr l l' /\
    forall ob psi, runs_to ob prog (qregs w bits psi) (fun q => In q (mtargets l)) (csem (fun k => ob (nth k (mtargets l) 0%nat)) 0 l' psi).
Proof.
  intros lim w l c L E NR. destruct (circuit_core lim w l c L E NR) as (bits & prog & A & B). exists bits, prog, (map (shown_instr lim) l).
  split; auto. split; auto. apply shown_nears.
Qed.
Print Assumptions C52_circuit.
(** the angle of an instruction *)
Definition iangle (i : instr) : option R := match i with IRX _ a | IRY _ a | IRZ _ a | IJ _ a | IRZZ _ _ a => Some a | _ => None end.
(** exact for fractions of pi *)
Theorem C52_exact : forall lim w l c, limit_denominator lim -> circ_make w l = Ok c -> (forall t k a, ~ In (IRZZ t k a) l) ->
  (forall i a, In i l -> iangle i = Some a -> simple_angle a) ->
  exists bits prog, circuit_to_qasm3 lim true c = Ok (w, bits, prog) /\
    forall ob psi, runs_to ob prog (qregs w bits psi) (fun q => In q (mtargets l)) (csem (fun k => ob (nth k (mtargets l) 0%nat)) 0 l psi).
Proof.
  intros lim w l c L E NR HA. destruct (circuit_core lim w l c L E NR) as (bits & prog & A & B). exists bits, prog. split; auto.
  assert (X : map (shown_instr lim) l = l); [|rewrite X in B; auto].
  transitivity (map (fun i => i) l); [|apply map_id]. apply map_ext_in. intros i Hi. destruct i; auto; cbn [shown_instr]; rewrite shown_simple; auto; apply (HA _ _ Hi eq_refl).
Qed.
Print Assumptions C52_exact.
(** without transpilation: the circuits that are accepted, the exception otherwise *)
Theorem C52_direct : forall lim w l c, circ_make w l = Ok c ->
  ((forall i, In i l -> match i with IJ _ _ => False | IM _ ax => ax = AZ | _ => True end) ->
   exists bits prog, circuit_to_qasm3 lim false c = Ok (w, bits, prog) /\
     ((forall t k a, ~ In (IRZZ t k a) l) -> exists l', Forall2 near_instr l l' /\
       forall ob psi, runs_to ob prog (qregs w bits psi) (fun q => In q (mtargets l)) (csem (fun k => ob (nth k (mtargets l) 0%nat)) 0 l' psi))) /\
  ((exists i, In i l /\ match i with IJ _ _ => True | IM _ ax => ax <> AZ | _ => False end) -> circuit_to_qasm3 lim false c = Err EValue).
Proof.
  intros lim w l c E. destruct (circ_extend_fields _ _ _ E) as [W I]. cbn in W, I. unfold circuit_to_qasm3. cbn [rbind]. rewrite I, W. split.
  - intros H. destruct (direct_ok lim l) as (prog & HP).
    { apply forallb_forall. intros i Hi. specialize (H i Hi). destruct i; auto; subst; auto. }
    rewrite HP. cbn [rbind]. do 2 eexists. split; [reflexivity|]. intros NR. exists (map (shown_instr lim) l). split; [apply shown_nears|].
    intros ob psi. eapply direct_runs; eauto.
    + apply forallb_forall. intros i Hi. destruct i; auto. elim (NR _ _ _ Hi).
    + intros j q Hj. cbn beta. rewrite (nth_error_nth _ _ _ Hj). auto.
  - intros (i & Hi & H). assert (X : rmap (instr_qasm lim) l = Err EValue); [|rewrite X; auto].
    clear - Hi H. induction l as [|i' l IH]; [destruct Hi|]. cbn [rmap].
    assert (D : (exists s, instr_qasm lim i' = Ok s) \/ instr_qasm lim i' = Err EValue) by (destruct i'; cbn; eauto; destruct ax; eauto).
    destruct D as [(s & D)|D]; rewrite D; auto. cbn [rbind]. destruct Hi as [->|Hi]; [|rewrite (IH Hi); auto].
    exfalso. destruct i; auto; cbn in D; [destruct ax; try discriminate; contradiction|discriminate].
Qed.
Print Assumptions C52_direct.
(** RZZ is exported as the controlled rotation crz, which is not the gate RZZ: there is
    a circuit whose exported program ends in a different state, even up to a global phase. *)
Theorem C52_rzz_refuted : forall lim, exists c prog, circ_make 2 [IRZZ 1 0 1] = Ok c /\ circuit_to_qasm3 lim true c = Ok (2%nat, false, prog) /\
  forall ob, ~ runs_to ob prog (qregs 2 false (fun _ => C1)) (fun _ => False) (csem ob 0 [IRZZ 1 0 1] (fun _ => C1)).
Proof.
  intros lim. eexists. eexists. split; [reflexivity|]. split; [reflexivity|]. intros ob (st & c & E & Pc & _ & F & _).
  cbn [qexec qstep] in E. rewrite qcheck_ok in E.
  2:{ cbn. tauto. }
  2:{ constructor; [cbn; intros [|[]]; discriminate|]. constructor; [intros []|constructor]. }
  injection E as <-. cbn [qr_psi qregs] in F.
  pose proof (F (fun _ => false) ltac:(intros ? [])) as F0. pose proof (F (fun n => (n =? 1)%nat) ltac:(intros ? [])) as F1.
  cbn [csem] in F0, F1. rewrite rzz_spec in F0, F1 by discriminate. cbn [Nat.eqb xorb] in F0, F1.
  assert (X : cis (1 / 2) = cis (- (1 / 2)) * cis 1) by (rewrite <- cis_add; f_equal; field).
  assert (Y : cis 1 = - C1) by apply cis_1.
  rewrite X, Y in F1.
  assert (Z : C1 = - C1). { replace C1 with (C1 * C1) at 1 by ring. rewrite F0. transitivity (- (c * (cis (- (1 / 2)) * (- C1) * C1))); [ring|]. rewrite <- F1. ring. }
  apply (f_equal re) in Z. cbn in Z. lra.
Qed.
Print Assumptions C52_rzz_refuted.
(** *** Non-vacuity *)
Example C52_case lim a : exists c, circ_make 3 [IJ 0 a; ICCX 2 0 1; IM 0 AX; IRY 1 a; IM 2 AZ] = Ok c /\
  circuit_to_qasm3 lim true c = Ok (3%nat, true, [SGate (Grz (angle_to_str lim a)) 0; SGate Gh 0; SCcx 0 1 2; SGate Gh 0; SMeas 0; SGate (Gry (angle_to_str lim a)) 1; SMeas 2]) /\
  circuit_to_qasm3 lim false c = Err EValue.
Proof.
  unfold circuit_to_qasm3, instr_qasm, angle_qasm. generalize (angle_to_str lim). intros f.
  eexists. split; [vm_compute; reflexivity|]. split; vm_compute; reflexivity.
Qed.

(** a function with the property assumed of limit_denominator *)
Example limit_case : exists lim, limit_denominator lim.
Proof.
  assert (Q : exists N, forall p, (p <= 1000)%positive -> (Pos.to_nat p <= N)%nat) by (exists (Pos.to_nat 1000); intros p; apply Pos2Nat.inj_le).
  destruct Q as (N & Q).
  pose (lim := fun a : R => match find (fun d => if Req_EM_T (IZR (Int_part (a * INR d))) (a * INR d) then true else false) (seq 1 N) with
                            | Some d => (Int_part (a * INR d), Pos.of_nat d) | None => (0%Z, 1%positive) end).
  exists lim. intros a [z p] E H. cbn [snd] in H. subst lim. cbn beta.
  destruct (find _ (seq 1 N)) as [d|] eqn:F.
  - apply find_some in F. destruct F as [F1 F2]. apply in_seq in F1. destruct (Req_EM_T (IZR (Int_part (a * INR d))) (a * INR d)) as [X|]; [|discriminate].
    unfold frac_val. cbn [fst snd]. rewrite X. replace (IZR (Z.pos (Pos.of_nat d))) with (INR d). { field. apply not_0_INR. lia. }
    rewrite INR_IZR_INZ. f_equal. rewrite <- positive_nat_Z, Nat2Pos.id; auto. lia.
  - exfalso. pose proof (find_none _ _ F (Pos.to_nat p)) as K. cbn beta in K.
    assert (I : (a * INR (Pos.to_nat p))%R = IZR z).
    { rewrite E. unfold frac_val. cbn [fst snd]. rewrite INR_IZR_INZ, positive_nat_Z. field. apply not_0_IZR. discriminate. }
    destruct (Req_EM_T (IZR (Int_part (a * INR (Pos.to_nat p)))) (a * INR (Pos.to_nat p))) as [|X].
    + discriminate K. apply in_seq. pose proof (Pos2Nat.is_pos p). specialize (Q p H). lia.
    + apply X. rewrite I. f_equal. unfold Int_part. rewrite <- (tech_up (IZR z) (z + 1)); [ring| |]; rewrite plus_IZR; lra.
Qed.
