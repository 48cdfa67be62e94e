(** Model of signal shifting: Pattern.shift_signals (methods 'direct' and 'mc'),
    extract_signal and shift_outcomes of graphix/pattern.py. *)
From Coq Require Import Reals Lra Arith List Bool Lia Permutation.
From Verif Require Import Cplx Mat2 Fundamentals CliffordDb Clifford NSet Measure QState Pattern.
Import ListNotations.

(** * Model *)
(** The values of [signal_dict]; domains are immutable values here: the sharing
    of one mutable set object between two commands is not modelled. *)
Definition sdict := dict nset.

(** pattern.py:2046-2076 shift_outcomes.  Outcomes are a total function instead
    of a dict: only the values at the nodes of the dict are meaningful. *)
Definition shift_outcomes (o : nat -> bool) (sd : sdict) : nat -> bool :=
  fun n => if parity o (match dget sd n with Some d => d | None => sempty end) then negb (o n) else o n.

(** pattern.py:687-697 expand_domain: the intersection is computed once, then
    the domain is XORed with the signal of each of its nodes *)
Definition expand_domain (sd : sdict) (d : nset) : nset :=
  fold_left (fun acc n => sxor acc (match dget sd n with Some d' => d' | None => sempty end))
    (elems (sinter d (of_list (dkeys sd)))) d.

(** pattern.py:699-737 one iteration of shift_signals_direct *)
Definition direct_step (sd : sdict) (c : cmd) : sdict * cmd :=
  match c with
  | CM n m s t =>
      let s := expand_domain sd s in
      let t := expand_domain sd t in
      match snd (to_bloch m) with
      | PXY => if is_empty t then (sd, CM n m s t) else (dset sd n t, CM n m s sempty)
      | PXZ => if is_empty s then (sd, CM n m s t) else (dset sd n s, CM n m sempty (sxor t s))
      | PYZ => if is_empty s then (sd, CM n m s t) else (dset sd n s, CM n m sempty t)
      end
  | CX n d => (sd, CX n (expand_domain sd d))
  | CZ n d => (sd, CZ n (expand_domain sd d))
  | _ => (sd, c)
  end.
Definition direct_fold (l : list cmd) (st : sdict * list cmd) : sdict * list cmd :=
  fold_left (fun st c => let '(sd', c') := direct_step (fst st) c in (sd', snd st ++ [c'])) l st.
Definition direct_seq (l : list cmd) : sdict * list cmd := direct_fold l ([], []).
(** pattern.py:683-738 shift_signals_direct; 627-656 shift_signals checks
    runnability first.  The pattern is updated in place: the result is the new
    pattern and the returned dictionary. *)
Definition shift_direct (p : pattern) : res (pattern * sdict) :=
  do _ <- check_runnability p;
  let '(sd, l) := direct_seq (p_seq p) in
  Ok (Pat (p_in p) l (p_out p) (p_n p), sd).

(** pattern.py:2032-2043 extract_signal: (s_domain, t_domain, signal) *)
Definition extract_signal (p : plane) (s t : nset) : nset * nset * nset :=
  match p with
  | PXY => (s, sempty, t)
  | PXZ => (sempty, sxor s t, s)
  | PYZ => (sempty, t, s)
  end.
(** pattern.py:1009-1027 signals: one command becomes one or two *)
Definition signals_step (sd : sdict) (c : cmd) : sdict * list cmd :=
  match c with
  | CM n m s t =>
      let '(s', t', g) := extract_signal (snd (to_bloch m)) s t in
      (dset sd n g, if is_empty g then [c] else [CM n m s' t'; CS n g])
  | _ => (sd, [c])
  end.
Definition signals_fold (l : list cmd) (st : sdict * list cmd) : sdict * list cmd :=
  fold_left (fun st c => let '(sd', cs) := signals_step (fst st) c in (sd', snd st ++ cs)) l st.
Definition signals (l : list cmd) : sdict * list cmd := signals_fold l ([], []).
(** pattern.py:835-850 _commute_xs, _commute_zs, _commute_ms, _commute_ss and
    _commute_with_following: the command that S(n, d) steps over *)
Definition commute_s (n : nat) (d : nset) (c : cmd) : cmd :=
  let sub x := if mem n x then sxor x d else x in
  match c with
  | CX k x => CX k (sub x)
  | CZ k x => CZ k (sub x)
  | CM k m s t => CM k m (sub s) (sub t)
  | CS k x => CS k (sub x)
  | _ => c
  end.
(** the inner part of the while loop (pattern.py:660-680): S(n, d) steps over
    each following command, and is dropped at the end *)
Fixpoint bubble (n : nat) (d : nset) (l : list cmd) : list cmd :=
  match l with [] => [] | c :: l' => commute_s n d c :: bubble n d l' end.
(** pattern.py:740-765 _find_op_to_be_moved(S, rev=True): the last S command,
    with the commands before and after it *)
Fixpoint find_last_s (l : list cmd) : option (list cmd * nat * nset * list cmd) :=
  match l with
  | [] => None
  | c :: l' =>
      match find_last_s l' with
      | Some (pre, n, d, post) => Some (c :: pre, n, d, post)
      | None => match c with CS n d => Some ([], n, d, l') | _ => None end
      end
  end.
(** pattern.py:657-681 the while loop, with fuel; [None] when out of fuel *)
Fixpoint mc_loop (fuel : nat) (l : list cmd) : option (list cmd) :=
  match find_last_s l with
  | None => Some l
  | Some (pre, n, d, post) => match fuel with 0 => None | S f => mc_loop f (pre ++ bubble n d post) end
  end.
Definition count_S (l : list cmd) : nat := length (filter (fun c => match c with CS _ _ => true | _ => false end) l).
Definition shift_mc (p : pattern) : res (pattern * sdict) :=
  do _ <- check_runnability p;
  let '(sd, l) := signals (p_seq p) in
  match mc_loop (count_S l) l with
  | Some l' => Ok (Pat (p_in p) l' (p_out p) (p_n p), sd)
  | None => Err ERuntime
  end.

(** * Measurement identities *)
Lemma planar_add1 p a : planar_state p (a + 1) ~v
  vmul (match p with PXY => mZ | PYZ => mX | PXZ => mmul mX mZ end) (planar_state p a).
Proof.
  apply vouter_inj_phase; [apply planar_state_norm|].
  set (U := match p with PXY => mZ | PYZ => mX | PXZ => mmul mX mZ end).
  transitivity (mmul (mmul U (vouter (planar_state p a) (planar_state p a))) (mdag U)).
  - rewrite !planar_state_proj. change 1%R with (b2R true). rewrite outcome_operator_shift.
    unfold U. destruct p; unfold outcome_operator, plane_polar, mpauli_vec; meq; ceq; field.
  - rewrite vouter_mul, mdag_dag. reflexivity.
Qed.
Lemma planar_add2 p a : planar_state p (a + 1 + 1) ~v planar_state p a.
Proof.
  apply vouter_inj_phase; [apply planar_state_norm|]. rewrite !planar_state_proj.
  change 1%R with (b2R true). rewrite outcome_operator_shift.
  unfold outcome_operator, plane_polar. destruct p; rewrite cos_add_b, sin_add_b; unfold mpauli_vec; meq; ceq; unfold rsign; field.
Qed.
Definition flip_mat (p : plane) : mat2 := match p with PXY => mZ | PYZ => mX | PXZ => mmul mX mZ end.
Lemma mvec_flip m r : mvec m (negb r) ~v vmul (flip_mat (snd (to_bloch m))) (mvec m r).
Proof.
  unfold mvec. destruct (to_bloch m) as [a p]; simpl. destruct r; simpl.
  - eapply veqp_trans; [|apply planar_add1]. apply veqp_sym. rewrite Rplus_0_r. apply planar_add2.
  - rewrite Rplus_0_r. apply planar_add1.
Qed.
(** the signal part of (s, t) flips the outcome, the rest stays *)
Definition extract_bool (p : plane) (s t : bool) : bool * bool * bool :=
  match p with PXY => (s, false, t) | PXZ => (false, xorb s t, s) | PYZ => (false, t, s) end.
Lemma mvec_extract m r s t : let '(s', t', g) := extract_bool (snd (to_bloch m)) s t in
  vmul (mdag (mXZ s t)) (mvec m r) ~v vmul (mdag (mXZ s' t')) (mvec m (xorb r g)).
Proof.
  destruct (extract_bool (snd (to_bloch m)) s t) as [[s' t'] g] eqn:E.
  destruct g.
  2:{ rewrite xorb_false_r. unfold extract_bool in E. destruct (snd (to_bloch m)); injection E as <- <- ?; subst;
      rewrite ?xorb_false_l; apply veqp_refl. }
  rewrite xorb_true_r. apply veqp_sym.
  eapply veqp_trans; [apply veqp_vmul; [apply meqp_refl|apply mvec_flip]|].
  rewrite vmul_mmul. apply veqp_vmul; [|apply veqp_refl].
  unfold extract_bool in E. destruct (snd (to_bloch m)); injection E as <- <- ->; simpl.
  - exists (if s then - C1 else C1)%C. split; [destruct s; unfold phase, Cnorm2; simpl; ring|]. destruct s; meq; ceq; ring.
  - exists C1. split; [apply phase_1|]. rewrite mscale_1. destruct t; meq; ceq; ring.
  - exists (- C1)%C. split; [unfold phase, Cnorm2; simpl; ring|]. destruct t; meq; ceq; ring.
Qed.

(** * Dependence of a branch on the outcomes *)
Lemma cmd_ops_ext inp pre c o o' : cmd_ok inp pre c -> cmd_sem_ok c = true ->
  (forall n, measured_in (pre ++ [c]) n -> o n = o' n) -> cmd_ops o c = cmd_ops o' c.
Proof.
  intros HC HS H.
  assert (P : forall d, (forall k, mem k d = true -> measured_in pre k) -> parity o d = parity o' d).
  { intros d Hd. apply parity_ext. intros k Hk. apply H. rewrite measured_app. auto. }
  destruct c as [n st|u v|n m s t|n d|n d|n c|n d|]; simpl in *; auto.
  - unfold describe_measurement. rewrite (P s), (P t) by (intros; apply HC; auto).
    rewrite (H n); auto. apply measured_app. right. apply measured_one. eauto.
  - rewrite (P d); auto. apply HC.
  - rewrite (P d); auto. apply HC.
Qed.
Lemma seq_ops_ext inp l o o' : runnable inp l -> sem_ok l = true ->
  (forall n, measured_in l n -> o n = o' n) -> seq_ops o l = seq_ops o' l.
Proof.
  induction l as [|c l IH] using rev_ind; auto. intros HR HS H.
  apply runnable_snoc in HR. destruct HR as [HR HC].
  unfold sem_ok in HS. rewrite forallb_app in HS. apply andb_true_iff in HS. destruct HS as [S1 S2]. simpl in S2.
  rewrite andb_true_r in S2. rewrite !seq_ops_app. f_equal.
  - apply IH; auto. intros n Hn. apply H, measured_app; auto.
  - simpl. rewrite !app_nil_r. eapply cmd_ops_ext; eauto.
Qed.

(** * The direct method *)
Definition sget (sd : sdict) (n : nat) : nset := match dget sd n with Some d => d | None => sempty end.
Lemma shift_outcomes_xor o sd n : shift_outcomes o sd n = xorb (o n) (parity o (sget sd n)).
Proof. unfold shift_outcomes, sget. destruct (parity o _), (o n); auto. Qed.
Lemma parity_fold o l f d : parity o (fold_left (fun acc n => sxor acc (f n)) l d) = xorb (parity o d) (xorsum l (fun n => parity o (f n))).
Proof.
  revert d; induction l as [|a l IH]; simpl; intros d; [rewrite xorb_false_r; auto|].
  rewrite IH, parity_sxor, xorb_assoc; auto.
Qed.
Lemma parity_expand o sd d : parity o (expand_domain sd d) = parity (shift_outcomes o sd) d.
Proof.
  unfold expand_domain. rewrite parity_fold.
  assert (E : parity (shift_outcomes o sd) d = xorb (parity o d) (parity (fun n => parity o (sget sd n)) d)).
  { rewrite <- parity_xor_o. apply parity_ext. intros n _. apply shift_outcomes_xor. }
  rewrite E. f_equal. unfold parity at 2.
  assert (P : Permutation (elems (sinter d (of_list (dkeys sd)))) (filter (fun n => mem n (of_list (dkeys sd))) (elems d))).
  { apply NoDup_Permutation; [apply elems_NoDup|apply NoDup_filter, elems_NoDup|].
    intros x. rewrite filter_In, !elems_spec, mem_sinter, andb_true_iff. tauto. }
  rewrite (xorsum_perm _ _ _ P), xorsum_filter. apply xorsum_ext. intros n _.
  destruct (mem n (of_list (dkeys sd))) eqn:K; auto. unfold sget.
  destruct (dget sd n) eqn:G; auto. apply dget_is_key in G. apply mem_of_list in G. congruence.
Qed.
Lemma mem_expand sd d k : mem k (expand_domain sd d) = true ->
  mem k d = true \/ exists n, mem n d = true /\ mem k (sget sd n) = true.
Proof.
  unfold expand_domain.
  assert (G : forall l acc, (forall n, In n l -> mem n d = true) ->
     mem k (fold_left (fun acc n => sxor acc (match dget sd n with Some d' => d' | None => sempty end)) l acc) = true ->
     mem k acc = true \/ exists n, mem n d = true /\ mem k (sget sd n) = true).
  { induction l as [|a l IH]; simpl; auto. intros acc Hl H. apply IH in H; auto.
    destruct H as [H|H]; auto. rewrite mem_sxor in H. fold (sget sd a) in H.
    destruct (mem k acc); auto. rewrite xorb_false_l in H. right. exists a. auto. }
  apply G. intros n Hn. apply elems_spec in Hn. rewrite mem_sinter in Hn. apply andb_true_iff in Hn. tauto.
Qed.

Lemma direct_snoc l c : direct_seq (l ++ [c]) =
  (fst (direct_step (fst (direct_seq l)) c), snd (direct_seq l) ++ [snd (direct_step (fst (direct_seq l)) c)]).
Proof.
  unfold direct_seq, direct_fold. rewrite fold_left_app; simpl.
  match goal with |- context [direct_step ?a c] => destruct (direct_step a c); reflexivity end.
Qed.
(** command [c'] is [c] except for its domains *)
Definition same_shape (c c' : cmd) : Prop :=
  match c, c' with
  | CM n m _ _, CM n' m' _ _ => n' = n /\ m' = m
  | CX n _, CX n' _ | CZ n _, CZ n' _ | CS n _, CS n' _ => n' = n
  | _, _ => c' = c
  end.
Lemma direct_shape sd c : same_shape c (snd (direct_step sd c)).
Proof.
  destruct c; simpl; auto. destruct (snd (to_bloch m)); destruct (is_empty _); simpl; auto.
Qed.
Lemma same_shape_measured c c' n : same_shape c c' -> (measured_in [c'] n <-> measured_in [c] n).
Proof.
  rewrite !measured_one. destruct c, c'; simpl; intros H; try discriminate H;
    try (split; intros (? & ? & ? & K); discriminate K).
  destruct H as [-> ->]. split; intros (? & ? & ? & K); injection K as -> <- ? ?; eauto.
Qed.
Lemma same_shape_prepared c c' n : same_shape c c' -> (prepared_in [c'] n <-> prepared_in [c] n).
Proof.
  rewrite !prepared_one. destruct c, c'; simpl; intros H; try discriminate H;
    try (split; intros (? & K); discriminate K).
  rewrite H. tauto.
Qed.
Lemma Forall2_shape_measured l l' n : Forall2 same_shape l l' -> (measured_in l' n <-> measured_in l n).
Proof.
  induction 1 as [|c c' l l' H F IH]; [tauto|].
  change (c :: l) with ([c] ++ l). change (c' :: l') with ([c'] ++ l').
  rewrite !measured_app, IH, same_shape_measured; [|eauto]. tauto.
Qed.
Lemma Forall2_shape_prepared l l' n : Forall2 same_shape l l' -> (prepared_in l' n <-> prepared_in l n).
Proof.
  induction 1 as [|c c' l l' H F IH]; [tauto|].
  change (c :: l) with ([c] ++ l). change (c' :: l') with ([c'] ++ l').
  rewrite !prepared_app, IH, same_shape_prepared; [|eauto]. tauto.
Qed.
Lemma Forall2_shape_live inp l l' n : Forall2 same_shape l l' -> (live inp l' n <-> live inp l n).
Proof. intros F. unfold live. rewrite (Forall2_shape_measured _ _ _ F), (Forall2_shape_prepared _ _ _ F). tauto. Qed.
Lemma Forall2_shape_outs l l' o : Forall2 same_shape l l' -> outs_of o l' = outs_of o l.
Proof.
  intros F; revert o; induction F as [|c c' l l' H F IH]; auto; intros o.
  destruct c, c'; simpl in *; try discriminate H; try (subst; auto); try (injection H as -> ->; auto); auto.
  destruct H as [-> ->]; auto.
Qed.

(** "measured in [l] before [n] is" *)
Record direct_inv (inp : list nat) (l : list cmd) : Prop := {
  di_shape : Forall2 same_shape l (snd (direct_seq l));
  di_keys : forall n, In n (dkeys (fst (direct_seq l))) -> measured_in l n;
  di_vals : forall n k, mem k (sget (fst (direct_seq l)) n) = true -> measured_in l k;
  di_run : runnable inp (snd (direct_seq l));
  di_sem : forall o, seq_ops (shift_outcomes o (fst (direct_seq l))) l ≈ seq_ops o (snd (direct_seq l));
}.
Lemma cmd_sem_ext_len l : sem_ok l = true -> forall c, In c l -> cmd_sem_ok c = true.
Proof. unfold sem_ok. rewrite forallb_forall. auto. Qed.
Lemma sget_dset sd n d k : sget (dset sd n d) k = if (n =? k)%nat then d else sget sd k.
Proof. unfold sget. rewrite dget_dset. destruct (n =? k)%nat; auto. Qed.
Lemma sget_none sd n : ~ In n (dkeys sd) -> sget sd n = sempty.
Proof. intros H. unfold sget. apply dget_None in H. rewrite H; auto. Qed.

(** one measurement, described with the domains' parities *)
Lemma meas_extract o o' n m s t s' t' g :
  (parity o' s', parity o' t', xorb (o n) (o' n)) =
  (fst (fst (extract_bool (snd (to_bloch m)) (parity o s) (parity o t))),
   snd (fst (extract_bool (snd (to_bloch m)) (parity o s) (parity o t))), g) ->
  g = snd (extract_bool (snd (to_bloch m)) (parity o s) (parity o t)) ->
  seq_ops o [CM n m s t] ≈ seq_ops o' [CM n m s' t'].
Proof.
  intros H Hg. rewrite !meas_ops_XZ, !app1_meas. apply meas_veqp.
  pose proof (mvec_extract m (o n) (parity o s) (parity o t)) as E.
  destruct (extract_bool (snd (to_bloch m)) (parity o s) (parity o t)) as [[a b] c]. simpl in *.
  pose proof (f_equal (fun x => fst (fst x)) H) as H1. pose proof (f_equal (fun x => snd (fst x)) H) as H2.
  pose proof (f_equal snd H) as H3. cbn [fst snd] in H1, H2, H3.
  rewrite H1, H2. replace (o' n) with (xorb (o n) c); [exact E|].
  rewrite <- Hg, <- H3. destruct (o n), (o' n); auto.
Qed.

Lemma direct_inv_all inp l : runnable inp l -> sem_ok l = true -> direct_inv inp l.
Proof.
  induction l as [|c l IH] using rev_ind; intros HR HS.
  - split.
    + constructor.
    + simpl; tauto.
    + cbn [fst snd direct_seq direct_fold fold_left]. intros n k H. rewrite sget_none in H by (simpl; auto). rewrite mem_empty in H. discriminate.
    + apply runnable_nil.
    + intros; reflexivity.
  - pose proof HR as HR0. apply runnable_snoc in HR. destruct HR as [HR HC].
    unfold sem_ok in HS. rewrite forallb_app in HS. apply andb_true_iff in HS. destruct HS as [S1 S2]. simpl in S2.
    rewrite andb_true_r in S2. destruct (IH HR S1) as [A B D R Q]. clear IH.
    set (sd := fst (direct_seq l)) in *. set (l1 := snd (direct_seq l)) in *.
    assert (HP : direct_seq (l ++ [c]) = (fst (direct_step sd c), l1 ++ [snd (direct_step sd c)])) by apply direct_snoc.
    assert (EX : forall d, (forall k, mem k d = true -> measured_in l k) -> forall k, mem k (expand_domain sd d) = true -> measured_in l k).
    { intros d Hd k Hk. apply mem_expand in Hk. destruct Hk as [Hk|(n & Hn & Hk)]; auto. eapply D; eauto. }
    assert (LV : forall n, live inp l n -> live inp l1 n) by (intros n; apply (Forall2_shape_live inp l l1 n A)).
    assert (MS : forall n, measured_in l n -> measured_in l1 n) by (intros n; apply (Forall2_shape_measured l l1 n A)).
    assert (SH : Forall2 same_shape (l ++ [c]) (snd (direct_seq (l ++ [c])))).
    { rewrite HP; simpl. apply Forall2_app; auto. constructor; auto. apply direct_shape. }
    assert (KEY : fst (direct_step sd c) = sd \/ exists n m s t d, c = CM n m s t /\ fst (direct_step sd c) = dset sd n d
                   /\ (forall k, mem k d = true -> measured_in l k)).
    { destruct c as [n st|u v|n m s t|n d|n d|n g|n d|]; simpl; auto. destruct HC as [HC1 HC2].
      destruct (snd (to_bloch m)); destruct (is_empty _); simpl; auto; right; exists n, m, s, t; eexists;
        (split; [reflexivity|split; [reflexivity|apply EX; intros k Hk; apply HC2; auto]]). }
    assert (RUN : runnable inp (l1 ++ [snd (direct_step sd c)])).
    { apply runnable_snoc. split; auto. destruct c as [n st|u v|n m s t|n d|n d|n g|n d|]; simpl in *.
      - destruct HC as [C1 C2]. split; auto. intros K. apply C2. apply (Forall2_shape_prepared l l1 n A); auto.
      - destruct HC; auto.
      - destruct HC as [C1 C2].
        assert (Es := EX s (fun k H => C2 k (or_introl H))). assert (Et := EX t (fun k H => C2 k (or_intror H))).
        destruct (snd (to_bloch m)); destruct (is_empty _); simpl; split; auto; intros k; rewrite ?mem_empty, ?mem_sxor;
          intros [K|K]; auto; try discriminate.
        destruct (mem k (expand_domain sd t)) eqn:K1; auto. destruct (mem k (expand_domain sd s)) eqn:K2; auto. discriminate.
      - destruct HC as [C1 C2]. split; auto. intros k Hk. apply MS. eapply EX; eauto.
      - destruct HC as [C1 C2]. split; auto. intros k Hk. apply MS. eapply EX; eauto.
      - auto. - auto. - auto. }
    split; auto; rewrite ?HP; cbn [fst snd]; auto.
    + (* keys *) intros n Hn. rewrite measured_app. destruct KEY as [E|(n0 & m & s & t & d & -> & E & Hd)]; rewrite E in Hn; auto.
      apply dkeys_dset in Hn. destruct Hn as [->|Hn]; auto. right. apply measured_one; eauto.
    + intros n k Hk. rewrite measured_app. left. destruct KEY as [E|(n0 & m & s & t & d & -> & E & Hd)]; rewrite E in Hk; eauto.
      rewrite sget_dset in Hk. destruct (n0 =? n)%nat; eauto.
    + intros o. rewrite !seq_ops_app.
      assert (E1 : seq_ops (shift_outcomes o (fst (direct_step sd c))) l = seq_ops (shift_outcomes o sd) l).
      { apply (seq_ops_ext inp l); auto. intros k Hk. rewrite !shift_outcomes_xor. do 2 f_equal.
        destruct KEY as [-> |(n0 & m & s & t & d & -> & -> & Hd)]; auto. rewrite sget_dset.
        destruct (Nat.eqb_spec n0 k); auto. subst. exfalso. destruct HC as [[_ HC] _]. auto. }
      rewrite E1, (Q o). apply leq_app_l.
      destruct c as [n st|u v|n m s t|n d|n d|n g|n d|]; try reflexivity.
      2,3: simpl; rewrite parity_expand; reflexivity.
      assert (NK : sget sd n = sempty). { apply sget_none. intros K. apply B in K. destruct HC as [[_ HC] _]. auto. }
      destruct HC as [[_ NM] C2]. simpl in *.
      assert (PS : forall d' x, (forall k, mem k x = true -> measured_in l k) ->
         parity (shift_outcomes o (dset sd n d')) x = parity o (expand_domain sd x)).
      { intros d' x Hx. rewrite parity_expand. apply parity_ext. intros k Hk. rewrite !shift_outcomes_xor, sget_dset.
        destruct (Nat.eqb_spec n k); auto. subst. exfalso; auto. }
      assert (NV : forall d', xorb (shift_outcomes o (dset sd n d') n) (o n) = parity o d').
      { intros. rewrite shift_outcomes_xor, sget_dset, Nat.eqb_refl. destruct (o n), (parity o d'); auto. }
      assert (NV0 : xorb (shift_outcomes o sd n) (o n) = false).
      { intros. rewrite shift_outcomes_xor, NK, parity_empty. destruct (o n); auto. }
      assert (Cs : forall k, mem k s = true -> measured_in l k) by auto.
      assert (Ct : forall k, mem k t = true -> measured_in l k) by auto.
      destruct (snd (to_bloch m)) eqn:EP.
      * destruct (is_empty (expand_domain sd t)) eqn:Z; cbn [fst snd]; eapply meas_extract; rewrite ?EP; cbn [extract_bool fst snd]; try reflexivity.
        -- rewrite NV0, <- !parity_expand. apply is_empty_spec in Z. rewrite Z, parity_empty. reflexivity.
        -- rewrite NV, !PS by auto. rewrite parity_empty. reflexivity.
      * destruct (is_empty (expand_domain sd s)) eqn:Z; cbn [fst snd]; eapply meas_extract; rewrite ?EP; cbn [extract_bool fst snd]; try reflexivity.
        -- rewrite NV0, <- !parity_expand. apply is_empty_spec in Z. rewrite Z, parity_empty. reflexivity.
        -- rewrite NV, !PS by auto. rewrite parity_empty. reflexivity.
      * destruct (is_empty (expand_domain sd s)) eqn:Z; cbn [fst snd]; eapply meas_extract; rewrite ?EP; cbn [extract_bool fst snd]; try reflexivity.
        -- rewrite NV0, <- !parity_expand. apply is_empty_spec in Z. rewrite Z, parity_empty, xorb_false_l. reflexivity.
        -- rewrite NV, !PS by auto. rewrite parity_empty, parity_sxor, xorb_comm. reflexivity.
Qed.

(** after the direct method no measurement carries a signal, and shifting is a
    bijection on the outcomes of the measured nodes *)
Definition no_signal (c : cmd) : Prop :=
  match c with CM _ m s t => snd (extract_signal (snd (to_bloch m)) s t) = sempty | _ => True end.
Lemma direct_no_signal l : Forall no_signal (snd (direct_seq l)).
Proof.
  induction l as [|c l IH] using rev_ind; [constructor|]. rewrite direct_snoc; simpl. apply Forall_app. split; auto.
  constructor; auto. destruct c; simpl; auto.
  destruct (snd (to_bloch m)) eqn:E; destruct (is_empty _) eqn:Z; simpl; rewrite E; simpl; auto; apply is_empty_spec in Z; auto.
Qed.

(** * The measurement-calculus method *)
(** running a sequence in which S commands re-label outcomes: the state carries
    the current reading of the outcomes *)
Fixpoint env_s (o : nat -> bool) (l : list cmd) : nat -> bool :=
  match l with
  | [] => o
  | CS n d :: l' => env_s (fun k => if (k =? n)%nat then xorb (o n) (parity o d) else o k) l'
  | _ :: l' => env_s o l'
  end.
Fixpoint ops_s (o : nat -> bool) (l : list cmd) : list op :=
  match l with
  | [] => []
  | CS n d :: l' => ops_s (fun k => if (k =? n)%nat then xorb (o n) (parity o d) else o k) l'
  | c :: l' => cmd_ops o c ++ ops_s o l'
  end.
Lemma ops_s_app o l1 l2 : ops_s o (l1 ++ l2) = ops_s o l1 ++ ops_s (env_s o l1) l2.
Proof.
  revert o; induction l1 as [|c l1 IH]; intros o; auto. destruct c; cbn [app ops_s env_s]; rewrite ?IH, <- ?app_assoc; auto.
Qed.
Lemma env_s_app o l1 l2 : env_s o (l1 ++ l2) = env_s (env_s o l1) l2.
Proof. revert o; induction l1 as [|c l1 IH]; intros o; auto. destruct c; simpl; auto. Qed.
Definition no_S (l : list cmd) : Prop := forall n d, ~ In (CS n d) l.
Lemma ops_s_no_S o l : no_S l -> ops_s o l = seq_ops o l.
Proof.
  induction l as [|c l IH]; auto. intros H. assert (H' : no_S l) by (intros n d K; apply (H n d); simpl; auto).
  destruct c; cbn [ops_s]; try (rewrite IH by auto; reflexivity). exfalso. apply (H n d); simpl; auto.
Qed.
Lemma find_last_s_some l pre n d post : find_last_s l = Some (pre, n, d, post) -> l = pre ++ CS n d :: post /\ no_S post.
Proof.
  revert pre; induction l as [|c l IH]; simpl; intros pre; [discriminate|].
  destruct (find_last_s l) as [[[[pre' n'] d'] post']|] eqn:E.
  - intros [= <- -> -> ->]. destruct (IH _ eq_refl) as [-> K]. split; auto.
  - assert (NL : no_S l).
    { clear IH. revert E. clear. induction l as [|c l IH]; simpl; intros E n d; [intros []|].
      destruct (find_last_s l) as [[[[? ?] ?] ?]|]; [discriminate|]. specialize (IH eq_refl).
      intros [->|K]; [discriminate|]. eapply IH; eauto. }
    destruct c; try discriminate. intros [= <- -> -> ->]. split; auto.
Qed.
Lemma find_last_s_none l : find_last_s l = None -> no_S l.
Proof.
  induction l as [|c l IH]; simpl; intros E n d; [intros []|].
  destruct (find_last_s l) as [[[[? ?] ?] ?]|]; [discriminate|]. specialize (IH eq_refl).
  intros [->|K]; [discriminate|]. eapply IH; eauto.
Qed.
Lemma parity_sub o n d x :
  parity (fun k => if (k =? n)%nat then xorb (o n) (parity o d) else o k) x = parity o (if mem n x then sxor x d else x).
Proof.
  destruct (parity o d) eqn:P.
  - transitivity (parity (fun m => xorb (o m) (m =? n)%nat) x).
    + apply parity_ext. intros k _. destruct (Nat.eqb_spec k n); subst; auto. rewrite xorb_false_r; auto.
    + rewrite parity_flip. destruct (mem n x); [rewrite parity_sxor, P; auto|rewrite xorb_false_r; auto].
  - transitivity (parity o x).
    + apply parity_ext. intros k _. destruct (Nat.eqb_spec k n); subst; auto. rewrite xorb_false_r; auto.
    + destruct (mem n x); auto. rewrite parity_sxor, P, xorb_false_r; auto.
Qed.
Lemma bubble_ops o n d l : no_S l -> ~ measured_in l n ->
  ops_s (fun k => if (k =? n)%nat then xorb (o n) (parity o d) else o k) l = ops_s o (bubble n d l).
Proof.
  induction l as [|c l IH]; auto. intros NS NM.
  assert (H' : no_S l) by (intros a b K; apply (NS a b); simpl; auto).
  assert (NM' : ~ measured_in l n) by (intros K; apply NM; apply (measured_app [c] l); auto).
  assert (NMc : ~ measured_in [c] n) by (intros K; apply NM; apply (measured_app [c] l); auto).
  specialize (IH H' NM').
  destruct c as [k st|u v|k m s t|k x|k x|k g|k x|]; cbn [bubble commute_s ops_s]; try (rewrite IH; reflexivity).
  - rewrite IH. f_equal. simpl. unfold describe_measurement. rewrite !parity_sub.
    destruct (Nat.eqb_spec k n); auto. subst. exfalso. apply NMc. apply measured_one; eauto.
  - rewrite IH. f_equal. simpl. rewrite parity_sub. reflexivity.
  - rewrite IH. f_equal. simpl. rewrite parity_sub. reflexivity.
  - exfalso. apply (NS k x); simpl; auto.
Qed.
Lemma bubble_no_S n d l : no_S l -> no_S (bubble n d l).
Proof.
  intros H a b K. induction l as [|c l IH]; simpl in K; auto. assert (H' : no_S l) by (intros a' b' K'; apply (H a' b'); simpl; auto).
  destruct K as [K|K]; [|auto]. destruct c; simpl in K; try discriminate. apply (H n0 d0); simpl; auto.
Qed.
Lemma bubble_shape n d l : Forall2 same_shape l (bubble n d l).
Proof. induction l as [|c l IH]; simpl; constructor; auto. destruct c; simpl; auto. Qed.
Lemma same_shape_refl c : same_shape c c.
Proof. destruct c; simpl; auto. Qed.
Lemma same_shape_trans a b c : same_shape a b -> same_shape b c -> same_shape a c.
Proof.
  destruct a, b; simpl; try discriminate; intros H; try (rewrite H); auto;
    try (destruct c; simpl; try discriminate; try tauto; try congruence; intuition congruence).
Qed.
(** S commands only follow the measurement of their node *)
Definition S_after (l : list cmd) : Prop :=
  forall pre n d post, l = pre ++ CS n d :: post -> ~ measured_in post n.
Fixpoint drop_S (l : list cmd) : list cmd :=
  match l with [] => [] | CS _ _ :: l' => drop_S l' | c :: l' => c :: drop_S l' end.
Lemma drop_S_app a b : drop_S (a ++ b) = drop_S a ++ drop_S b.
Proof. induction a as [|c a IH]; simpl; auto. destruct c; simpl; rewrite ?IH; auto. Qed.
Lemma drop_S_no_S l : no_S l -> drop_S l = l.
Proof.
  induction l as [|c l IH]; simpl; auto. intros H. assert (H' : no_S l) by (intros a b K; apply (H a b); simpl; auto).
  destruct c; rewrite ?IH; auto. exfalso. apply (H n d); simpl; auto.
Qed.
Lemma count_S_app a b : count_S (a ++ b) = count_S a + count_S b.
Proof. unfold count_S. rewrite filter_app, app_length; auto. Qed.
Lemma count_S_no_S l : no_S l -> count_S l = 0.
Proof.
  unfold count_S. intros H. induction l as [|c l IH]; auto. assert (H' : no_S l) by (intros a b K; apply (H a b); simpl; auto).
  destruct c; simpl; auto. exfalso. apply (H n d); simpl; auto.
Qed.
Lemma Forall2_refl_shape l : Forall2 same_shape l l.
Proof. induction l; constructor; auto using same_shape_refl. Qed.
Lemma mc_loop_spec fuel l : S_after l -> count_S l <= fuel ->
  exists l', mc_loop fuel l = Some l' /\ no_S l' /\ Forall2 same_shape (drop_S l) l' /\ forall o, ops_s o l = seq_ops o l'.
Proof.
  revert l; induction fuel as [|f IH]; intros l HA HC.
  - simpl. destruct (find_last_s l) as [[[[pre n] d] post]|] eqn:E.
    + apply find_last_s_some in E. destruct E as [-> _]. rewrite count_S_app in HC. unfold count_S in HC. simpl in HC. lia.
    + apply find_last_s_none in E. exists l. rewrite drop_S_no_S by auto. split; [auto|]. split; auto. split; [apply Forall2_refl_shape|].
      intros; apply ops_s_no_S; auto.
  - simpl. destruct (find_last_s l) as [[[[pre n] d] post]|] eqn:E.
    + apply find_last_s_some in E. destruct E as [-> NP].
      assert (NM : ~ measured_in post n) by (eapply HA; eauto).
      destruct (IH (pre ++ bubble n d post)) as (l' & E' & N' & SH & Q).
      * intros p' a b q E. intros K.
        (* the S command is in the prefix, its suffix extends the old one up to shape *)
        assert (PR : exists r, pre = p' ++ CS a b :: r /\ q = r ++ bubble n d post).
        { clear -E NP. pose proof (bubble_no_S n d post NP) as NB. revert p' E. induction pre as [|x pre IHp]; simpl; intros p' E.
          - exfalso. apply (NB a b). rewrite E. apply in_or_app. simpl; auto.
          - destruct p' as [|y p']; simpl in E; injection E as -> E.
            + exists pre. auto.
            + destruct (IHp _ E) as (r & -> & ->). exists r; auto. }
        destruct PR as (r & -> & ->). apply (HA p' a b (r ++ CS n d :: post)).
        { rewrite <- app_assoc. reflexivity. }
        apply measured_app in K. apply measured_app. destruct K as [K|K]; auto. right.
        apply (measured_app [CS n d] post). right.
        exact (proj1 (Forall2_shape_measured post (bubble n d post) a (bubble_shape n d post)) K).
      * rewrite count_S_app in *. rewrite (count_S_no_S _ (bubble_no_S n d post NP)).
        change (CS n d :: post) with ([CS n d] ++ post) in HC. rewrite count_S_app in HC. unfold count_S at 2 in HC. simpl in HC. lia.
      * exists l'. split; auto. split; auto. split.
        -- rewrite drop_S_app in *. simpl. rewrite (drop_S_no_S _ (bubble_no_S n d post NP)) in SH. rewrite (drop_S_no_S post NP).
           apply Forall2_app_inv_l in SH. destruct SH as (a & b & F1 & F2 & ->). apply Forall2_app; auto.
           clear -F2. revert b F2. induction post as [|c post IH]; simpl; intros b F; inversion F; subst; constructor; auto.
           eapply same_shape_trans; [|eauto]. destruct c; simpl; auto.
        -- intros o. rewrite <- Q, !ops_s_app. f_equal. cbn [ops_s]. apply bubble_ops; auto.
    + apply find_last_s_none in E. exists l. rewrite drop_S_no_S by auto. split; [auto|]. split; auto. split; [apply Forall2_refl_shape|].
      intros; apply ops_s_no_S; auto.
Qed.

Lemma signals_snoc l c : signals (l ++ [c]) =
  (fst (signals_step (fst (signals l)) c), snd (signals l) ++ snd (signals_step (fst (signals l)) c)).
Proof.
  unfold signals, signals_fold. rewrite fold_left_app; simpl.
  match goal with |- context [signals_step ?a c] => destruct (signals_step a c); reflexivity end.
Qed.
Record mc_inv (inp : list nat) (l : list cmd) : Prop := {
  mi_shape : Forall2 same_shape l (drop_S (snd (signals l)));
  mi_keys : forall n, In n (dkeys (fst (signals l))) -> measured_in l n;
  mi_vals : forall n k, mem k (sget (fst (signals l)) n) = true -> measured_in l k;
  mi_after : S_after (snd (signals l));
  mi_ms : forall n, measured_in (snd (signals l)) n <-> measured_in l n;
  mi_env : forall o sd', (forall n, measured_in l n -> sget sd' n = sget (fst (signals l)) n) ->
    forall n, env_s (shift_outcomes o sd') (snd (signals l)) n = if existsb (fun c => match c with CM k _ _ _ => (k =? n)%nat | _ => false end) l then o n else shift_outcomes o sd' n;
  mi_sem : forall o sd', (forall n, measured_in l n -> sget sd' n = sget (fst (signals l)) n) ->
    seq_ops o l ≈ ops_s (shift_outcomes o sd') (snd (signals l))
}.
Lemma existsb_measured l n : existsb (fun c => match c with CM k _ _ _ => (k =? n)%nat | _ => false end) l = true <-> measured_in l n.
Proof.
  rewrite existsb_exists. split.
  - intros (c & Hc & E). destruct c; try discriminate. apply Nat.eqb_eq in E. subst. exists m, s, t; auto.
  - intros (m & s & t & H). exists (CM n m s t). split; auto. apply Nat.eqb_refl.
Qed.

Lemma S_after_snoc l cs : S_after l -> S_after cs -> (forall n d, In (CS n d) l -> ~ measured_in cs n) -> S_after (l ++ cs).
Proof.
  intros H1 H2 H pre n d post E. revert l H1 H E. induction pre as [|x pre IH]; intros l H1 H E; destruct l as [|y l]; simpl in E.
  - apply (H2 [] n d post); auto.
  - injection E as -> <-. rewrite measured_app. intros [K|K]; [apply (H1 [] n d l eq_refl); auto|apply (H n d); simpl; auto].
  - apply (H2 (x :: pre) n d post); auto.
  - injection E as <- E. apply (IH l); auto.
    + intros p' a b q E'. apply (H1 (y :: p') a b q). rewrite E'; auto.
    + intros a b K. apply (H a b); simpl; auto.
Qed.
Lemma signals_S l n d : In (CS n d) (snd (signals l)) -> no_S l -> measured_in l n.
Proof.
  induction l as [|c l IH] using rev_ind; [intros []|]. rewrite signals_snoc; simpl. rewrite in_app_iff. intros [H|H] NS.
  - apply measured_app. left. apply IH; auto. intros a b K. apply (NS a b), in_or_app; auto.
  - assert (NC : forall a b, c <> CS a b) by (intros a b ->; apply (NS a b), in_or_app; simpl; auto).
    destruct c; simpl in H; try (destruct H as [H|[]]; try discriminate H; exfalso; eapply NC; eauto).
    destruct (extract_signal (snd (to_bloch m)) s t) as [[s' t'] g]. simpl in H.
    apply measured_app. right. apply measured_one. destruct (is_empty g); simpl in H.
    + destruct H as [H|[]]; discriminate.
    + destruct H as [H|[H|[]]]; [discriminate|]. injection H as -> ->. eauto.
Qed.
Lemma sem_ok_no_S l : sem_ok l = true -> no_S l.
Proof. unfold sem_ok. rewrite forallb_forall. intros H n d K. apply H in K. discriminate. Qed.

Lemma mc_inv_all inp l : runnable inp l -> sem_ok l = true -> mc_inv inp l.
Proof.
  induction l as [|c l IH] using rev_ind; intros HR HS.
  - split.
    + constructor.
    + simpl; tauto.
    + cbn [fst snd signals signals_fold fold_left]. intros n k H. rewrite sget_none in H by (simpl; auto). rewrite mem_empty in H. discriminate.
    + intros [|? ?] ? ? ? E; discriminate.
    + simpl; tauto.
    + reflexivity.
    + intros; reflexivity.
  - pose proof HS as HS0. apply runnable_snoc in HR. destruct HR as [HR HC].
    unfold sem_ok in HS. rewrite forallb_app in HS. apply andb_true_iff in HS. destruct HS as [S1 S2]. simpl in S2.
    rewrite andb_true_r in S2. destruct (IH HR S1) as [A B D AF MS EV Q]. clear IH.
    assert (HP := signals_snoc l c).
    set (sd := fst (signals l)) in *. set (l1 := snd (signals l)) in *.
    assert (NS : no_S l) by (apply sem_ok_no_S; auto).
    assert (GEN : signals (l ++ [c]) = (sd, l1 ++ [c]) -> (forall k, ~ measured_in [c] k) -> drop_S [c] = [c] ->
       (forall o, env_s o [c] = o) -> mc_inv inp (l ++ [c])).
    { clear HP. intros HP MC DC ENV.
      assert (MSl : forall k, measured_in (l ++ [c]) k <-> measured_in l k) by (intros k; rewrite measured_app; split; auto; intros [K|K]; auto; destruct (MC _ K)).
      split; rewrite ?HP; cbn [fst snd].
      - rewrite drop_S_app, DC. apply Forall2_app; auto. constructor; auto. apply same_shape_refl.
      - intros k K. apply MSl; auto.
      - intros k j K. apply MSl; eauto.
      - apply S_after_snoc; auto.
        intros [|x pre] a b post E; simpl in E.
        + injection E as -> <-. discriminate S2.
        + injection E as <- E. destruct pre; discriminate.
      - intros k. rewrite !measured_app, MS. tauto.
      - intros o sd' H k. rewrite env_s_app, ENV, existsb_app, EV; [|intros; apply H, MSl; auto]. cbn [existsb].
        replace (match c with CM k0 _ _ _ => (k0 =? k)%nat | _ => false end) with false; [rewrite !orb_false_r; auto|].
        destruct c; auto. exfalso. apply (MC n). apply measured_one; eauto.
      - intros o sd' H. assert (H' : forall k, measured_in l k -> sget sd' k = sget sd k) by (intros; apply H, MSl; auto).
        rewrite seq_ops_app, ops_s_app, (Q o sd') by auto. apply leq_app_l.
        set (e := env_s (shift_outcomes o sd') l1) in *.
        assert (EE : forall k, measured_in l k -> e k = o k).
        { intros k Hk. unfold e. rewrite EV by auto. apply existsb_measured in Hk. rewrite Hk; auto. }
        transitivity (cmd_ops e c).
        + simpl. rewrite app_nil_r. apply leq_eq. eapply cmd_ops_ext; eauto. intros k Hk. symmetry. apply EE, MSl; auto.
        + destruct c; cbn [ops_s]; rewrite ?app_nil_r; try reflexivity. }
    destruct c as [n st|u v|n m s t|n d|n d|n g0|n d|]; cbn [signals_step fst snd] in HP; [| | |..].
    3:{ (* M *) clear GEN.
      destruct HC as [[HL NM] C2].
      destruct (extract_signal (snd (to_bloch m)) s t) as [[s' t'] g] eqn:EG. cbn [fst snd] in HP.
      assert (SUB : forall k, mem k s' = true \/ mem k t' = true \/ mem k g = true -> measured_in l k).
      { intros k. unfold extract_signal in EG. destruct (snd (to_bloch m)); injection EG as <- <- <-; rewrite ?mem_empty, ?mem_sxor;
          intros K; apply C2; destruct (mem k s), (mem k t); simpl in K; auto; intuition discriminate. }
      assert (SG : forall sd', (forall k, measured_in (l ++ [CM n m s t]) k -> sget sd' k = sget (dset sd n g) k) ->
         (forall k, measured_in l k -> sget sd' k = sget sd k) /\ sget sd' n = g).
      { intros sd' H. split.
        - intros k Hk. rewrite H by (apply measured_app; auto). rewrite sget_dset.
          destruct (Nat.eqb_spec n k); auto. subst; contradiction.
        - rewrite H by (apply measured_app; right; apply measured_one; eauto). rewrite sget_dset, Nat.eqb_refl; auto. }
      assert (EO : forall o sd', (forall k, measured_in (l ++ [CM n m s t]) k -> sget sd' k = sget (dset sd n g) k) ->
         let e := env_s (shift_outcomes o sd') l1 in
         (forall k, measured_in l k -> e k = o k) /\ e n = xorb (o n) (parity o g)
         /\ (forall k, ~ measured_in l k -> e k = shift_outcomes o sd' k)).
      { intros o sd' H e. destruct (SG sd' H) as [H1 H2]. unfold e. split; [|split]; intros; rewrite EV by auto.
        - apply existsb_measured in H0. rewrite H0; auto.
        - replace (existsb _ l) with false; [rewrite shift_outcomes_xor, H2; auto|]. symmetry.
          apply not_true_iff_false. rewrite existsb_measured. auto.
        - replace (existsb _ l) with false; auto. symmetry. apply not_true_iff_false. rewrite existsb_measured. auto. }
      assert (CS2 : S_after [CM n m s' t'; CS n g] /\ S_after [CM n m s t]).
      { split; intros [|x pre] a b post E; simpl in E; try discriminate E.
        - injection E as <- E. destruct pre as [|y [|z pre]]; simpl in E; try discriminate. injection E as <- <- <-.
          intros (? & ? & ? & []).
        - injection E as <- E. destruct pre; discriminate. }
      assert (NC : forall a b, In (CS a b) l1 -> a <> n).
      { intros a b K ->. apply NM. eapply signals_S; eauto. }
      assert (MSo : forall cs k, (cs = [CM n m s t] \/ cs = [CM n m s' t'; CS n g]) -> (measured_in cs k <-> k = n)).
      { intros cs k [-> | ->].
        - rewrite measured_one. split; [intros (? & ? & ? & [=]); auto|intros ->; eauto].
        - change [CM n m s' t'; CS n g] with ([CM n m s' t'] ++ [CS n g]). rewrite measured_app, !measured_one.
          split; [intros [(? & ? & ? & [=])|(? & ? & ? & [=])]; auto|intros ->; eauto]. }
      set (cs := if is_empty g then [CM n m s t] else [CM n m s' t'; CS n g]) in *.
      assert (Ccs : cs = [CM n m s t] \/ cs = [CM n m s' t'; CS n g]) by (unfold cs; destruct (is_empty g); auto).
      split; rewrite ?HP; cbn [fst snd].
      - rewrite drop_S_app. apply Forall2_app; auto. unfold cs. destruct (is_empty g); simpl; repeat constructor.
      - intros k K. apply dkeys_dset in K. rewrite measured_app. destruct K as [->|K]; auto. right. apply measured_one; eauto.
      - intros k j. rewrite sget_dset, measured_app. destruct (n =? k)%nat; eauto.
      - apply S_after_snoc; auto.
        + destruct Ccs as [-> | ->]; tauto.
        + intros a b K K'. apply (MSo cs a Ccs) in K'. eapply NC; eauto.
      - intros k. rewrite !measured_app, MS, (MSo cs k Ccs), (MSo [CM n m s t] k) by auto. tauto.
      - intros o sd' H k. destruct (EO o sd' H) as (E1 & E2 & E3). destruct (SG sd' H) as [G1 G2].
        rewrite env_s_app, existsb_app. cbn [existsb]. rewrite orb_false_r.
        set (e := env_s (shift_outcomes o sd') l1) in *.
        assert (EK : e k = if existsb (fun c => match c with CM k0 _ _ _ => (k0 =? k)%nat | _ => false end) l then o k else shift_outcomes o sd' k) by (apply EV; auto).
        unfold cs. destruct (is_empty g) eqn:Z; cbn [env_s].
        + destruct (Nat.eqb_spec n k); [|rewrite orb_false_r; auto]. subst k. rewrite orb_true_r, E2.
          apply is_empty_spec in Z. rewrite Z, parity_empty, xorb_false_r; auto.
        + rewrite (Nat.eqb_sym k n). destruct (Nat.eqb_spec n k); [|rewrite orb_false_r; auto]. subst k. rewrite orb_true_r, E2.
          replace (parity e g) with (parity o g); [destruct (o n), (parity o g); auto|].
          apply parity_ext. intros k Hk. symmetry. apply E1, SUB; auto.
      - intros o sd' H. destruct (EO o sd' H) as (E1 & E2 & E3). destruct (SG sd' H) as [G1 G2].
        rewrite seq_ops_app, ops_s_app, (Q o sd') by auto. apply leq_app_l.
        set (e := env_s (shift_outcomes o sd') l1) in *.
        assert (PE : forall x, (forall k, mem k x = true -> measured_in l k) -> parity e x = parity o x).
        { intros x Hx. apply parity_ext. auto. }
        transitivity (seq_ops e [CM n m s' t']).
        + eapply meas_extract; [|reflexivity]. rewrite E2, !PE by auto.
          replace (xorb (o n) (xorb (o n) (parity o g))) with (parity o g) by (destruct (o n), (parity o g); auto).
          unfold extract_signal in EG. destruct (snd (to_bloch m)); injection EG as <- <- <-; simpl; rewrite ?parity_sxor; reflexivity.
        + unfold cs. destruct (is_empty g) eqn:Z; cbn [ops_s]; [|reflexivity].
          apply is_empty_spec in Z. subst g. unfold extract_signal in EG.
          destruct (snd (to_bloch m)); injection EG as <- <- ->; rewrite ?sxor_0_l; reflexivity. }
    all: try discriminate S2.
    all: apply GEN; [exact HP|intros k; rewrite measured_one; intros (? & ? & ? & K); discriminate|reflexivity|
      intros o; reflexivity].
Qed.

(** ** Runnability of the result of the mc method *)
Definition cmd_ok_s (inp : list nat) (pre : list cmd) (c : cmd) : Prop :=
  match c with CS _ d => forall k, mem k d = true -> measured_in pre k | _ => cmd_ok inp pre c end.
Definition runnable_s (inp : list nat) (l : list cmd) : Prop :=
  forall pre c post, l = pre ++ c :: post -> cmd_ok_s inp pre c.
Lemma runnable_s_no_S inp l : no_S l -> runnable_s inp l -> runnable inp l.
Proof.
  intros NS H pre c post E. specialize (H pre c post E). destruct c; auto; try exact I.
Qed.
Lemma cmd_ok_s_mono inp pre pre' c : (forall n, measured_in pre' n <-> measured_in pre n) ->
  (forall n, prepared_in pre' n <-> prepared_in pre n) -> cmd_ok_s inp pre c -> cmd_ok_s inp pre' c.
Proof.
  intros HM HP. assert (LV : forall n, live inp pre n -> live inp pre' n) by (intros n; unfold live; rewrite HM, HP; auto).
  destruct c as [n st|u v|n m s t|n d|n d|n g|n d|]; simpl; auto.
  - rewrite HP. auto.
  - intros [A B]; auto.
  - intros [A B]; split; auto. intros k K. apply HM; auto.
  - intros [A B]; split; auto. intros k K. apply HM; auto.
  - intros [A B]; split; auto. intros k K. apply HM; auto.
  - intros B k K. apply HM; auto.
Qed.
Lemma commute_s_ok inp pre n d c : cmd_ok_s inp pre c -> (forall k, mem k d = true -> measured_in pre k) -> cmd_ok_s inp pre (commute_s n d c).
Proof.
  intros HC HD.
  assert (G : forall x, (forall k, mem k x = true -> measured_in pre k) -> forall k, mem k (if mem n x then sxor x d else x) = true -> measured_in pre k).
  { intros x Hx k. destruct (mem n x); auto. rewrite mem_sxor. destruct (mem k x) eqn:E1; auto. destruct (mem k d) eqn:E2; auto. simpl; discriminate. }
  destruct c as [k st|u v|k m s t|k x|k x|k g|k x|]; simpl in *; auto.
  - destruct HC as [A B]. split; auto. intros j [K|K]; [eapply (G s)|eapply (G t)]; eauto.
  - destruct HC as [A B]. split; auto. apply G; auto.
  - destruct HC as [A B]. split; auto. apply G; auto.
  - apply G; auto.
Qed.
Lemma runnable_s_app inp a b : runnable_s inp (a ++ b) <->
  runnable_s inp a /\ forall pre c post, b = pre ++ c :: post -> cmd_ok_s inp (a ++ pre) c.
Proof.
  split.
  - intros H. split.
    + intros pre c post E. apply (H pre c (post ++ b)). rewrite E, <- app_assoc; auto.
    + intros pre c post E. apply (H (a ++ pre) c post). rewrite E, <- app_assoc; auto.
  - intros [H1 H2] pre c post E. revert pre E. 
    assert (G : forall a' pre, a = pre ++ a' -> forall q, a' ++ b = q ++ c :: post -> cmd_ok_s inp (pre ++ q) c).
    { induction a' as [|x a' IH]; intros pre Ea q E.
      - simpl in E. rewrite app_nil_r in Ea. subst pre. eauto.
      - destruct q as [|y q]; simpl in E; injection E as -> E.
        + rewrite app_nil_r. eapply H1; eauto.
        + replace (pre ++ y :: q) with ((pre ++ [y]) ++ q) by (rewrite <- app_assoc; auto). apply IH; auto.
          rewrite <- app_assoc; auto. }
    intros pre E. apply (G a [] eq_refl pre E).
Qed.
Lemma bubble_run inp pre n d post : runnable_s inp (pre ++ CS n d :: post) -> runnable_s inp (pre ++ bubble n d post).
Proof.
  rewrite !runnable_s_app. intros [H1 H2]. split; auto. intros q c r E.
  assert (HD : forall k, mem k d = true -> measured_in pre k).
  { intros k K. pose proof (H2 [] (CS n d) post eq_refl) as Q. simpl in Q. rewrite app_nil_r in Q. auto. }
  assert (G : forall post q, bubble n d post = q ++ c :: r -> exists q0 c0 r0, post = q0 ++ c0 :: r0 /\ c = commute_s n d c0 /\ Forall2 same_shape q0 q).
  { clear. induction post as [|x post IH]; intros q E; simpl in E; [destruct q; discriminate|].
    destruct q as [|y q]; simpl in E; injection E as <- E.
    - exists [], x, post. auto.
    - destruct (IH _ E) as (q0 & c0 & r0 & -> & -> & F). exists (x :: q0), c0, r0. split; auto. split; auto. constructor; auto.
      destruct x; simpl; auto. }
  destruct (G _ _ E) as (q0 & c0 & r0 & E0 & -> & F).
  apply commute_s_ok.
  - eapply cmd_ok_s_mono; [| |apply (H2 (CS n d :: q0) c0 r0)]; [| |simpl; rewrite E0; auto].
    + intros k. rewrite !measured_app. rewrite (Forall2_shape_measured _ _ k F).
      change (CS n d :: q0) with ([CS n d] ++ q0). rewrite measured_app, measured_one. split; [tauto|].
      intros [?|[(? & ? & ? & K)|?]]; auto. discriminate.
    + intros k. rewrite !prepared_app. rewrite (Forall2_shape_prepared _ _ k F).
      change (CS n d :: q0) with ([CS n d] ++ q0). rewrite prepared_app, prepared_one. split; [tauto|].
      intros [?|[(? & K)|?]]; auto. discriminate.
  - intros k K. apply measured_app. auto.
Qed.
Lemma mc_loop_run inp fuel l l' : runnable_s inp l -> mc_loop fuel l = Some l' -> runnable_s inp l'.
Proof.
  revert l; induction fuel as [|f IH]; intros l H; simpl; destruct (find_last_s l) as [[[[pre n] d] post]|] eqn:E.
  1: discriminate. 1,3: intros K; injection K as <-; exact H.
  apply find_last_s_some in E. destruct E as [-> _]. apply IH, bubble_run; auto.
Qed.
Lemma signals_run inp l : runnable inp l -> sem_ok l = true -> runnable_s inp (snd (signals l)).
Proof.
  induction l as [|c l IH] using rev_ind; intros HR HS.
  - intros [|? ?] ? ? E; discriminate.
  - pose proof HR as HR0. apply runnable_snoc in HR. destruct HR as [HR HC].
    pose proof HS as HS0. unfold sem_ok in HS. rewrite forallb_app in HS. apply andb_true_iff in HS. destruct HS as [S1 S2].
    rewrite signals_snoc; cbn [snd]. apply runnable_s_app. split; [auto|].
    destruct (mc_inv_all inp l HR S1) as [A _ _ _ MS _ _].
    set (l1 := snd (signals l)) in *.
    assert (PR : forall k, prepared_in l1 k <-> prepared_in l k).
    { intros k. rewrite <- (Forall2_shape_prepared _ _ k A). clear. induction l1 as [|c l1 IH]; [tauto|].
      change (c :: l1) with ([c] ++ l1). rewrite drop_S_app, !prepared_app, IH.
      destruct c; simpl; try tauto. unfold prepared_in; simpl. split; [intros [(? & [?|[]])|?]; [discriminate|auto]|intros [(? & [])|?]; auto]. }
    assert (OK : cmd_ok_s inp l1 c).
    { eapply cmd_ok_s_mono; [exact MS|exact PR|]. destruct c; auto; try exact I. simpl in S2. discriminate. }
    intros pre c' post E. destruct c as [n st|u v|n m s t|n d|n d|n g0|n d|]; cbn [signals_step snd] in E;
      try (destruct pre as [|? [|? ?]]; simpl in E; try discriminate E; injection E as <- <-; rewrite app_nil_r; exact OK).
    destruct (extract_signal (snd (to_bloch m)) s t) as [[s' t'] g] eqn:EG. cbn [snd] in E.
    destruct OK as [OK1 OK2].
    assert (SUB : forall k, mem k s' = true \/ mem k t' = true \/ mem k g = true -> measured_in l1 k).
    { intros k. unfold extract_signal in EG. destruct (snd (to_bloch m)); injection EG as <- <- <-; rewrite ?mem_empty, ?mem_sxor;
        intros K; apply OK2; destruct (mem k s), (mem k t); simpl in K; auto; intuition discriminate. }
    destruct (is_empty g).
    + destruct pre as [|? [|? ?]]; simpl in E; try discriminate E. injection E as <- <-. rewrite app_nil_r. split; auto.
    + destruct pre as [|? [|? [|? ?]]]; simpl in E; try discriminate E.
      * injection E as <- <-. rewrite app_nil_r. split; auto. intros k [K|K]; auto.
      * injection E as <- <- <-. simpl. intros k K. apply measured_app. auto.
Qed.

(** ** Summary *)
Lemma shift_direct_spec p : runnable (p_in p) (p_seq p) -> sem_ok (p_seq p) = true ->
  exists l sd, shift_direct p = Ok (Pat (p_in p) l (p_out p) (p_n p), sd)
    /\ Forall2 same_shape (p_seq p) l /\ Forall no_signal l /\ runnable (p_in p) l
    /\ forall o, seq_ops (shift_outcomes o sd) (p_seq p) ≈ seq_ops o l.
Proof.
  intros HR HS. destruct (direct_inv_all _ _ HR HS) as [A B D R Q].
  exists (snd (direct_seq (p_seq p))), (fst (direct_seq (p_seq p))).
  split. { unfold shift_direct. rewrite (proj2 (check_runnability_spec p) HR). simpl. destruct (direct_seq (p_seq p)); reflexivity. }
  split; auto. split; [apply direct_no_signal|]. auto.
Qed.
Lemma shift_mc_spec p : runnable (p_in p) (p_seq p) -> sem_ok (p_seq p) = true ->
  exists l sd, shift_mc p = Ok (Pat (p_in p) l (p_out p) (p_n p), sd)
    /\ Forall2 same_shape (p_seq p) l /\ runnable (p_in p) l
    /\ forall o, seq_ops o (p_seq p) ≈ seq_ops (shift_outcomes o sd) l.
Proof.
  intros HR HS. destruct (mc_inv_all _ _ HR HS) as [A B D AF MS EV Q].
  destruct (mc_loop_spec (count_S (snd (signals (p_seq p)))) (snd (signals (p_seq p))) AF (le_n _)) as (l' & E & NS & SH & SEM).
  exists l', (fst (signals (p_seq p))).
  split. { unfold shift_mc. rewrite (proj2 (check_runnability_spec p) HR). simpl. destruct (signals (p_seq p)) as [sd l]; simpl in *. rewrite E; auto. }
  split. { clear -A SH. revert l' SH. induction A; intros l2 F; inversion F; subst; constructor; eauto using same_shape_trans. }
  split. { apply runnable_s_no_S; auto. eapply mc_loop_run; eauto. apply signals_run; auto. }
  intros o. rewrite (Q o (fst (signals (p_seq p)))) by auto. rewrite SEM. reflexivity.
Qed.

(** ** The direct dictionary relates outcomes bijectively *)
Lemma parity_upd_notin o n b x : mem n x = false -> parity (fun k => if (k =? n)%nat then b else o k) x = parity o x.
Proof. intros H. apply parity_ext. intros k Hk. destruct (Nat.eqb_spec k n); auto. subst; congruence. Qed.
Lemma direct_key inp l c : runnable inp (l ++ [c]) -> sem_ok (l ++ [c]) = true ->
  fst (direct_seq (l ++ [c])) = fst (direct_seq l) \/
  exists n d, fst (direct_seq (l ++ [c])) = dset (fst (direct_seq l)) n d /\ ~ measured_in l n /\ (forall k, mem k d = true -> measured_in l k).
Proof.
  intros HR HS. rewrite direct_snoc; cbn [fst]. apply runnable_snoc in HR. destruct HR as [HR HC].
  unfold sem_ok in HS. rewrite forallb_app in HS. apply andb_true_iff in HS. destruct HS as [S1 _].
  destruct (direct_inv_all _ _ HR S1) as [A B D R Q].
  destruct c as [n st|u v|n m s t|n d|n d|n g|n d|]; simpl; auto. destruct HC as [[_ HC1] HC2].
  assert (EX : forall d, (forall k, mem k d = true -> measured_in l k) -> forall k, mem k (expand_domain (fst (direct_seq l)) d) = true -> measured_in l k).
  { intros d Hd k Hk. apply mem_expand in Hk. destruct Hk as [Hk|(n0 & Hn & Hk)]; auto. eapply D; eauto. }
  destruct (snd (to_bloch m)); destruct (is_empty _); simpl; auto; right; exists n; eexists;
    (split; [reflexivity|split; [auto|apply EX; intros k Hk; apply HC2; auto]]).
Qed.
Lemma direct_surj inp l : runnable inp l -> sem_ok l = true ->
  forall o, exists o', forall n, shift_outcomes o' (fst (direct_seq l)) n = o n.
Proof.
  induction l as [|c l IH] using rev_ind; intros HR HS o.
  - exists o. intros n. rewrite shift_outcomes_xor, sget_none by (simpl; auto). rewrite parity_empty, xorb_false_r; auto.
  - pose proof (direct_key _ _ _ HR HS) as K. apply runnable_snoc in HR. destruct HR as [HR HC].
    unfold sem_ok in HS. rewrite forallb_app in HS. apply andb_true_iff in HS. destruct HS as [S1 _].
    destruct (direct_inv_all _ _ HR S1) as [A B D R Q]. destruct (IH HR S1 o) as (o0 & H0).
    destruct K as [-> |(n & d & -> & NM & Hd)]; [eauto|].
    assert (ND : forall x, (forall k, mem k x = true -> measured_in l k) -> mem n x = false).
    { intros x Hx. destruct (mem n x) eqn:E; auto. apply Hx in E; contradiction. }
    exists (fun k => if (k =? n)%nat then xorb (o n) (parity o0 d) else o0 k). intros k.
    rewrite shift_outcomes_xor, sget_dset, Nat.eqb_sym. destruct (Nat.eqb_spec n k).
    + subst k. rewrite parity_upd_notin by auto. destruct (o n), (parity o0 d); auto.
    + rewrite parity_upd_notin by (apply ND; intros j Hj; eapply D; eauto). rewrite <- H0, shift_outcomes_xor; auto.
Qed.
Lemma direct_inj inp l : runnable inp l -> sem_ok l = true ->
  forall o1 o2, (forall n, shift_outcomes o1 (fst (direct_seq l)) n = shift_outcomes o2 (fst (direct_seq l)) n) -> forall n, o1 n = o2 n.
Proof.
  induction l as [|c l IH] using rev_ind; intros HR HS o1 o2.
  - intros H n. specialize (H n). rewrite !shift_outcomes_xor, sget_none in H by (simpl; auto). rewrite !parity_empty, !xorb_false_r in H; auto.
  - pose proof (direct_key _ _ _ HR HS) as K. apply runnable_snoc in HR. destruct HR as [HR HC].
    unfold sem_ok in HS. rewrite forallb_app in HS. apply andb_true_iff in HS. destruct HS as [S1 _].
    destruct (direct_inv_all _ _ HR S1) as [A B D R Q].
    destruct K as [-> |(n & d & -> & NM & Hd)]; [eauto|]. intros H.
    assert (ND : forall x, (forall k, mem k x = true -> measured_in l k) -> mem n x = false).
    { intros x Hx. destruct (mem n x) eqn:E; auto. apply Hx in E; contradiction. }
    set (p1 := fun k => if (k =? n)%nat then false else o1 k). set (p2 := fun k => if (k =? n)%nat then false else o2 k).
    assert (NK : sget (fst (direct_seq l)) n = sempty) by (apply sget_none; intros K; apply B in K; auto).
    assert (E : forall k, p1 k = p2 k).
    { apply (IH HR S1). intros k. rewrite !shift_outcomes_xor. unfold p1, p2.
      rewrite !parity_upd_notin by (apply ND; intros j Hj; eapply D; eauto).
      destruct (Nat.eqb_spec k n); [subst; rewrite NK; auto|].
      specialize (H k). rewrite !shift_outcomes_xor, sget_dset in H. destruct (Nat.eqb_spec n k); [subst; congruence|auto]. }
    assert (E' : forall k, k <> n -> o1 k = o2 k).
    { intros k Hk. specialize (E k). unfold p1, p2 in E. destruct (Nat.eqb_spec k n); auto; contradiction. }
    intros k. destruct (Nat.eq_dec k n); auto. subst k. specialize (H n). rewrite !shift_outcomes_xor, sget_dset, Nat.eqb_refl in H.
    replace (parity o2 d) with (parity o1 d) in H.
    + destruct (o1 n), (o2 n), (parity o1 d); auto; discriminate.
    + apply parity_ext. intros j Hj. apply E'. intros ->. apply NM; auto.
Qed.
