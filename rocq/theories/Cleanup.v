(** Model of remove_useless_domains and single_qubit_domains
    (graphix/optimization.py:554-610). *)
From Coq Require Import Reals Lra Arith List Bool Lia Permutation.
From Verif Require Import Cplx Mat2 Fundamentals CliffordDb Clifford NSet Measure QState Pattern Layer Standardize Shift.
Import ListNotations.

(** * Command-wise rewriting *)
Inductive rwl (R : cmd -> list cmd -> Prop) : list cmd -> list cmd -> Prop :=
| rw_nil : rwl R [] []
| rw_cons c cs l l' : R c cs -> rwl R l l' -> rwl R (c :: l) (cs ++ l').
Record rw_good (c : cmd) (cs : list cmd) : Prop := {
  rg_ops : forall o, seq_ops o [c] ≈ seq_ops o cs;
  rg_m : forall n, measured_in cs n <-> measured_in [c] n;
  rg_p : forall n, prepared_in cs n <-> prepared_in [c] n;
  rg_o : forall os, outs_of os cs = outs_of os [c];
  rg_r : forall inp pre, cmd_ok inp pre c -> forall p x q, cs = p ++ x :: q -> cmd_ok inp (pre ++ p) x
}.
Section Rw.
  Variable R : cmd -> list cmd -> Prop.
  Hypothesis RG : forall c cs, R c cs -> rw_good c cs.
  Lemma rwl_ops l l' o : rwl R l l' -> same_branch o l l'.
  Proof.
    unfold same_branch. induction 1 as [|c cs l l' H F IH]; [reflexivity|].
    change (c :: l) with ([c] ++ l). rewrite !seq_ops_app, IH, (rg_ops _ _ (RG _ _ H) o). reflexivity.
  Qed.
  Lemma rwl_m l l' n : rwl R l l' -> (measured_in l' n <-> measured_in l n).
  Proof.
    induction 1 as [|c cs l l' H F IH]; [tauto|].
    change (c :: l) with ([c] ++ l). rewrite !measured_app, IH, (rg_m _ _ (RG _ _ H)). tauto.
  Qed.
  Lemma rwl_p l l' n : rwl R l l' -> (prepared_in l' n <-> prepared_in l n).
  Proof.
    induction 1 as [|c cs l l' H F IH]; [tauto|].
    change (c :: l) with ([c] ++ l). rewrite !prepared_app, IH, (rg_p _ _ (RG _ _ H)). tauto.
  Qed.
  Lemma rwl_outs l l' os : rwl R l l' -> outs_of os l' = outs_of os l.
  Proof.
    intros F; revert os; induction F as [|c cs l l' H F IH]; intros os; auto.
    change (c :: l) with ([c] ++ l). rewrite !outs_of_app, IH, (rg_o _ _ (RG _ _ H)). reflexivity.
  Qed.
  Lemma rwl_snoc_inv l c l' : rwl R (l ++ [c]) l' -> exists l1 cs, l' = l1 ++ cs /\ rwl R l l1 /\ R c cs.
  Proof.
    revert l'; induction l as [|x l IH]; simpl; intros l' H; inversion H as [|? cs ? l1 H1 H2]; subst.
    - inversion H2; subst. exists [], cs. rewrite app_nil_r. repeat split; try constructor; assumption.
    - destruct (IH _ H2) as (l2 & cs2 & -> & F & HR). exists (cs ++ l2), cs2. rewrite app_assoc. split; auto. split; auto.
      apply rw_cons; auto.
  Qed.
  Lemma cmd_ok_mono inp pre pre' c : (forall n, measured_in pre' n <-> measured_in pre n) ->
    (forall n, prepared_in pre' n <-> prepared_in pre n) -> cmd_ok inp pre c -> cmd_ok inp pre' c.
  Proof.
    intros HM HP. assert (LV : forall n, live inp pre n -> live inp pre' n) by (intros n; unfold live; rewrite HM, HP; auto).
    destruct c as [n st|u v|n m s t|n d|n d|n g|n d|]; simpl; auto.
    - rewrite HP. auto.
    - intros [A B]; auto.
    - intros [A B]; split; auto. intros k K. apply HM; auto.
    - intros [A B]; split; auto. intros k K. apply HM; auto.
    - intros [A B]; split; auto. intros k K. apply HM; auto.
  Qed.
  Lemma rwl_run inp l l' : rwl R l l' -> runnable inp l -> runnable inp l'.
  Proof.
    revert l'; induction l as [|c l IH] using rev_ind; intros l' F HR.
    - inversion F; subst. apply runnable_nil.
    - apply rwl_snoc_inv in F. destruct F as (l1 & cs & -> & F & HRc). apply runnable_snoc in HR. destruct HR as [HR HC].
      apply runnable_app. split; [auto|]. intros p x q E. apply (rg_r _ _ (RG _ _ HRc) inp l1) with (q := q); auto.
      eapply cmd_ok_mono; [| |exact HC]; intros n; [apply rwl_m|apply rwl_p]; auto.
  Qed.
  (** building the new pattern and reordering its outputs as in [p] succeeds *)
  Lemma rwl_make p l' : pat_ok p -> runnable (p_in p) (p_seq p) -> rwl R (p_seq p) l' ->
    exists p', pat_make (p_in p) l' (Some (p_out p)) = Ok p' /\ p_in p' = p_in p /\ p_out p' = p_out p /\ p_seq p' = l'
      /\ check_runnability p' = Ok tt.
  Proof.
    intros [NI WF] HR F. destruct (pat_extend_fields (pat_new (p_in p)) l') as (F1 & F2 & F3).
    unfold pat_make, reorder_output_nodes. 
    assert (AP : assert_permutation (p_out (pat_extend (pat_new (p_in p)) l')) (p_out p) = Ok tt).
    { apply assert_permutation_spec. rewrite F3; simpl. rewrite (rwl_outs _ _ _ F).
      destruct (outs_of_live _ _ NI HR) as [ND _]. split.
      - eapply Permutation_NoDup; [apply Permutation_sym; exact WF|auto].
      - intros n; split; apply Permutation_in; [exact WF|apply Permutation_sym; exact WF]. }
    rewrite AP. set (q := pat_extend (pat_new (p_in p)) l') in *. exists (Pat (p_in q) (p_seq q) (p_out p) (p_n q)). split; [reflexivity|]. cbn [p_in p_out p_seq]. rewrite F1, F2. cbn [p_in p_out p_seq pat_new app]. do 3 (split; [reflexivity|]).
    apply check_runnability_spec. cbn [p_in p_out p_seq pat_new app]. eapply rwl_run; eauto.
  Qed.
End Rw.

(** * remove_useless_domains *)
(** optimization.py:560-569 the replacement of one command *)
Definition rud_cmd (c : cmd) : cmd :=
  match c with
  | CM n (MPauli AX Plus) s t => CM n (MPauli AX Plus) sempty t
  | CM n (MPauli AZ Plus) s t => CM n (MPauli AZ Plus) s sempty
  | _ => c
  end.
(** optimization.py:554-572 *)
Definition remove_useless_domains (p : pattern) : res pattern :=
  pat_make (p_in p) (map rud_cmd (p_seq p)) (Some (p_out p)).

(** a Pauli operator leaves its own eigenvectors unchanged up to a phase *)
Lemma mvec_X r s : vmul (mpow mX s) (mvec (MPauli AX Plus) r) ~v mvec (MPauli AX Plus) r.
Proof.
  destruct s; simpl; [|rewrite vmul_1; apply veqp_refl].
  apply veqp_sym, vouter_inj_phase; [apply mvec_norm|].
  transitivity (mmul (mmul mX (vouter (mvec (MPauli AX Plus) r) (mvec (MPauli AX Plus) r))) (mdag mX)).
  - rewrite !mvec_proj, to_bloch_pauli. meq; ceq; field.
  - rewrite vouter_mul, mdag_dag. reflexivity.
Qed.
Lemma mvec_Z r s : vmul (mpow mZ s) (mvec (MPauli AZ Plus) r) ~v mvec (MPauli AZ Plus) r.
Proof.
  destruct s; simpl; [|rewrite vmul_1; apply veqp_refl].
  apply veqp_sym, vouter_inj_phase; [apply mvec_norm|].
  transitivity (mmul (mmul mZ (vouter (mvec (MPauli AZ Plus) r) (mvec (MPauli AZ Plus) r))) (mdag mZ)).
  - rewrite !mvec_proj, to_bloch_pauli. meq; ceq; field.
  - rewrite vouter_mul, mdag_dag. reflexivity.
Qed.
Lemma mXZ_dag s t : mdag (mXZ s t) = mmul (mpow mZ t) (mpow mX s).
Proof. unfold mXZ. destruct s, t; simpl; meq; ceq; ring. Qed.
Lemma mXZ_comm s t : mmul (mpow mZ t) (mpow mX s) ~= mmul (mpow mX s) (mpow mZ t).
Proof.
  exists (if s && t then - C1 else C1)%C. split; [destruct s, t; unfold phase, Cnorm2; simpl; ring|].
  destruct s, t; meq; ceq; ring.
Qed.

Lemma rud_good c : rw_good c [rud_cmd c].
Proof.
  split.
  - intros o. destruct c as [n st|u v|n m s t|n d|n d|n g|n d|]; try reflexivity.
    destruct m as [a pl|[] []]; try reflexivity; cbn [rud_cmd]; rewrite !meas_ops_XZ, !app1_meas; apply meas_veqp; rewrite !mXZ_dag, !parity_empty.
    + rewrite <- !vmul_mmul. apply veqp_vmul; [apply meqp_refl|]. cbn [mpow]. rewrite vmul_1. apply mvec_X.
    + eapply veqp_trans; [apply veqp_vmul; [apply mXZ_comm|apply veqp_refl]|].
      eapply veqp_trans; [|apply veqp_vmul; [apply meqp_sym, mXZ_comm|apply veqp_refl]].
      rewrite <- !vmul_mmul. apply veqp_vmul; [apply meqp_refl|]. cbn [mpow]. rewrite vmul_1. apply mvec_Z.
  - intros n. apply same_shape_measured. destruct c as [? ?|? ?|? [? ?|[] []] ? ?|? ?|? ?|? ?|? ?|]; simpl; auto.
  - intros n. apply same_shape_prepared. destruct c as [? ?|? ?|? [? ?|[] []] ? ?|? ?|? ?|? ?|? ?|]; simpl; auto.
  - intros os. destruct c as [? ?|? ?|? [? ?|[] []] ? ?|? ?|? ?|? ?|? ?|]; simpl; auto.
  - intros inp pre HC p x q E. destruct p as [|y [|z p]]; simpl in E; try discriminate E. injection E as <- <-. rewrite app_nil_r.
    destruct c as [? ?|? ?|? [? ?|[] []] s t|? ?|? ?|? ?|? ?|]; simpl in *; auto.
    + destruct HC as [A B]. split; auto. intros k [K|K]; [rewrite mem_empty in K; discriminate|auto].
    + destruct HC as [A B]. split; auto. intros k [K|K]; [auto|rewrite mem_empty in K; discriminate].
Qed.
Lemma rud_rwl l : rwl (fun c cs => cs = [rud_cmd c]) l (map rud_cmd l).
Proof. induction l as [|c l IH]; simpl; [constructor|]. apply (rw_cons _ c [rud_cmd c]); auto. Qed.

(** * single_qubit_domains *)
(** optimization.py:581-588 decompose_domain: [None] stands for the result
    False; the iteration order over the set is arbitrary *)
Definition decompose (mk : nat -> nset -> cmd) (n : nat) (d : nset) (r : option (list cmd)) : Prop :=
  if (length (elems d) <=? 1)%nat then r = None
  else exists es, Permutation es (elems d) /\ r = Some (map (fun src => mk n (sing src)) es).
Definition olist {A} (r : option (list A)) : list A := match r with Some l => l | None => [] end.
(** optimization.py:592-607 one iteration of the loop *)
Definition sqd_cmd (c : cmd) (cs : list cmd) : Prop :=
  match c with
  | CM n m s t => exists rs rt, decompose CX n s rs /\ decompose CZ n t rt /\
      cs = olist rs ++ olist rt ++ [CM n m (match rs with Some _ => sempty | None => s end) (match rt with Some _ => sempty | None => t end)]
  | CX n d => exists r, decompose CX n d r /\ cs = match r with Some l => l | None => [c] end
  | CZ n d => exists r, decompose CZ n d r /\ cs = match r with Some l => l | None => [c] end
  | _ => cs = [c]
  end.
(** optimization.py:575-610 *)
Definition single_qubit_domains (p : pattern) (r : res pattern) : Prop :=
  exists l', rwl sqd_cmd (p_seq p) l' /\ r = pat_make (p_in p) l' (Some (p_out p)).

Lemma parity_enum o d es : Permutation es (elems d) -> xorsum es o = parity o d.
Proof. intros P. unfold parity. apply xorsum_perm; auto. Qed.
Lemma corr_fuse (U : mat2) n a b : mmul U U = mid ->
  (if a : bool then [OApp1 U n] else []) ++ (if b : bool then [OApp1 U n] else []) ≈ (if xorb a b then [OApp1 U n] else []).
Proof.
  intros HU. destruct a, b; simpl; try reflexivity. rewrite app1_fuse, HU. apply app1_id.
Qed.
Lemma decomp_ops (U : mat2) mk n es o : mmul U U = mid ->
  (forall d, cmd_ops o (mk n d) = if parity o d then [OApp1 U n] else []) ->
  seq_ops o (map (fun src => mk n (sing src)) es) ≈ (if xorsum es o then [OApp1 U n] else []).
Proof.
  intros HU Hmk. induction es as [|e es IH]; [reflexivity|].
  change (seq_ops o (map _ (e :: es))) with (cmd_ops o (mk n (sing e)) ++ seq_ops o (map (fun src => mk n (sing src)) es)).
  rewrite IH, Hmk, parity_sing. apply corr_fuse; auto.
Qed.
Lemma not_meas_list (cs : list cmd) : (forall c, In c cs -> exists n d, c = CX n d \/ c = CZ n d) ->
  (forall n, ~ measured_in cs n) /\ (forall n, ~ prepared_in cs n) /\ (forall os, outs_of os cs = os).
Proof.
  intros H. split; [|split].
  - intros n (m & s & t & K). destruct (H _ K) as (? & ? & [?|?]); discriminate.
  - intros n (s & K). destruct (H _ K) as (? & ? & [?|?]); discriminate.
  - induction cs as [|c cs IH]; auto. intros os. destruct (H c) as (n & d & [->| ->]); simpl; auto; apply IH; intros; apply H; simpl; auto.
Qed.
Lemma decompose_list mk n d r : (forall k x, exists n d, mk k x = CX n d \/ mk k x = CZ n d) -> decompose mk n d r ->
  forall c, In c (olist r) -> exists src, c = mk n (sing src) /\ mem src d = true.
Proof.
  intros Hmk H c. unfold decompose in H. destruct (_ <=? 1)%nat; [subst; intros []|].
  destruct H as (es & P & ->). simpl. rewrite in_map_iff. intros (src & <- & K). exists src. split; auto.
  apply elems_spec. eapply Permutation_in; eauto.
Qed.
Lemma decompose_ops (U : mat2) mk n d r o : mmul U U = mid ->
  (forall d, cmd_ops o (mk n d) = if parity o d then [OApp1 U n] else []) -> decompose mk n d r ->
  match r with Some l => seq_ops o l ≈ (if parity o d then [OApp1 U n] else []) | None => True end.
Proof.
  intros HU Hmk H. unfold decompose in H. destruct (_ <=? 1)%nat; [subst; auto|].
  destruct H as (es & P & ->). rewrite (decomp_ops U), (parity_enum o d es P) by auto. reflexivity.
Qed.
Lemma pow_op (U : mat2) n b : (if b : bool then [OApp1 U n] else []) ≈ [OApp1 (mpow U b) n].
Proof. destruct b; simpl; [reflexivity|]. symmetry. apply app1_id. Qed.
Lemma runnable_app_ok inp pre cs : (forall c, In c cs -> exists n d, (c = CX n d \/ c = CZ n d) /\ live inp pre n /\ forall k, mem k d = true -> measured_in pre k) ->
  forall p x q, cs = p ++ x :: q -> cmd_ok inp (pre ++ p) x.
Proof.
  intros H p x q ->.
  assert (NM : (forall n, ~ measured_in p n) /\ (forall n, ~ prepared_in p n) /\ (forall os, outs_of os p = os)).
  { apply not_meas_list. intros c Hc. destruct (H c) as (n & d & E & _); [apply in_or_app; auto|]. eauto. }
  destruct NM as (N1 & N2 & _).
  destruct (H x) as (n & d & E & L & D); [apply in_or_app; simpl; auto|].
  assert (OK : cmd_ok inp pre x) by (destruct E as [->| ->]; split; auto).
  eapply cmd_ok_mono; [| |exact OK].
  - intros k. rewrite measured_app. split; auto. intros [?|K]; auto. destruct (N1 _ K).
  - intros k. rewrite prepared_app. split; auto. intros [?|K]; auto. destruct (N2 _ K).
Qed.
Lemma mk_X : forall k x, exists n d, CX k x = CX n d \/ CX k x = CZ n d. Proof. eauto. Qed.
Lemma mk_Z : forall k x, exists n d, CZ k x = CX n d \/ CZ k x = CZ n d. Proof. eauto. Qed.

Lemma sqd_good c cs : sqd_cmd c cs -> rw_good c cs.
Proof.
  intros H. destruct c as [n st|u v|n m s t|n d|n d|n g|n d|]; cbn [sqd_cmd] in H.
  1,2,6,7,8: subst cs; split; try tauto; try reflexivity;
    intros inp pre HC p x q E; (destruct p as [|? [|? ?]]; simpl in E; try discriminate E; injection E as <- <-; rewrite app_nil_r; auto).
  - destruct H as (rs & rt & Ds & Dt & ->).
    set (s' := match rs with Some _ => sempty | None => s end). set (t' := match rt with Some _ => sempty | None => t end).
    pose proof (decompose_list CX n s rs mk_X Ds) as Ls. pose proof (decompose_list CZ n t rt mk_Z Dt) as Lt.
    assert (NL : (forall k, ~ measured_in (olist rs ++ olist rt) k) /\ (forall k, ~ prepared_in (olist rs ++ olist rt) k) /\ (forall os, outs_of os (olist rs ++ olist rt) = os)).
    { apply not_meas_list. intros c Hc. apply in_app_or in Hc. destruct Hc as [K|K]; [apply Ls in K|apply Lt in K]; destruct K as (src & -> & _); eauto. }
    destruct NL as (N1 & N2 & N3).
    assert (CN1 : forall k, measured_in [CM n m s' t'] k <-> measured_in [CM n m s t] k) by (intros k; apply same_shape_measured; simpl; auto).
    split.
    + intros o. rewrite !seq_ops_app, !meas_ops_XZ.
      assert (S1 : seq_ops o (olist rs) ≈ [OApp1 (mpow mX (xorb (parity o s) (parity o s'))) n]).
      { pose proof (decompose_ops mX CX n s rs o mX_sq (fun d => eq_refl) Ds) as Q. unfold s'. destruct rs as [l|].
        - cbn [olist]. rewrite Q, parity_empty, xorb_false_r. apply pow_op.
        - rewrite xorb_nilpotent. cbn [olist seq_ops flat_map mpow]. symmetry; apply app1_id. }
      assert (T1 : seq_ops o (olist rt) ≈ [OApp1 (mpow mZ (xorb (parity o t) (parity o t'))) n]).
      { pose proof (decompose_ops mZ CZ n t rt o mZ_sq (fun d => eq_refl) Dt) as Q. unfold t'. destruct rt as [l|].
        - cbn [olist]. rewrite Q, parity_empty, xorb_false_r. apply pow_op.
        - rewrite xorb_nilpotent. cbn [olist seq_ops flat_map mpow]. symmetry; apply app1_id. }
      rewrite S1, T1.
      change ([OApp1 (mpow mX (xorb (parity o s) (parity o s'))) n] ++ [OApp1 (mpow mZ (xorb (parity o t) (parity o t'))) n] ++
         [OApp1 (mXZ (parity o s') (parity o t')) n; OMeas (mvec m (o n)) n]) with
        ([OApp1 (mpow mX (xorb (parity o s) (parity o s'))) n; OApp1 (mpow mZ (xorb (parity o t) (parity o t'))) n] ++
         [OApp1 (mXZ (parity o s') (parity o t')) n] ++ [OMeas (mvec m (o n)) n]).
      change ([OApp1 (mXZ (parity o s) (parity o t)) n; OMeas (mvec m (o n)) n]) with
        ([OApp1 (mXZ (parity o s) (parity o t)) n] ++ [OMeas (mvec m (o n)) n]).
      rewrite app_assoc. apply leq_app_r. rewrite app1_fuse. cbn [app]. rewrite app1_fuse. apply app1_meqp.
      apply meqp_sym. eapply meqp_trans; [apply meqp_mul; [apply meqp_refl|apply mXZ_comm]|].
      change (mmul (mpow mX ?a) (mpow mZ ?b)) with (mXZ a b).
      eapply meqp_trans; [apply mXZ_mul|].
      replace (xorb (parity o s') (xorb (parity o s) (parity o s'))) with (parity o s) by (destruct (parity o s), (parity o s'); auto).
      replace (xorb (parity o t') (xorb (parity o t) (parity o t'))) with (parity o t) by (destruct (parity o t), (parity o t'); auto).
      apply meqp_refl.
    + intros k. rewrite app_assoc, measured_app, CN1. split; auto. intros [K|K]; auto. destruct (N1 _ K).
    + intros k. rewrite app_assoc, prepared_app. split.
      * intros [K|K]; [destruct (N2 _ K)|]. destruct K as (? & [K|[]]); discriminate.
      * intros (? & [K|[]]); discriminate.
    + intros os. rewrite app_assoc, outs_of_app, N3. reflexivity.
    + intros inp pre [HL HD] p x q E.
      assert (AC : forall c, In c (olist rs ++ olist rt) -> exists n d, (c = CX n d \/ c = CZ n d) /\ live inp pre n /\ forall k, mem k d = true -> measured_in pre k).
      { intros c Hc. apply in_app_or in Hc. destruct Hc as [K|K]; [apply Ls in K|apply Lt in K]; destruct K as (src & -> & HM); exists n, (sing src); split; auto; split; auto; intros k HK; rewrite mem_sing, Nat.eqb_eq in HK; subst k; apply HD; auto. }
      rewrite app_assoc in E.
      destruct q as [|y q] using rev_ind.
      * apply app_inj_tail in E. destruct E as [<- <-].
        eapply cmd_ok_mono; [| |split; [exact HL|]].
        -- intros k. rewrite measured_app. split; auto. intros [?|K]; auto. destruct (N1 _ K).
        -- intros k. rewrite prepared_app. split; auto. intros [?|K]; auto. destruct (N2 _ K).
        -- intros k [K|K]; apply HD.
           ++ left. unfold s' in K. destruct rs; auto. rewrite mem_empty in K; discriminate.
           ++ right. unfold t' in K. destruct rt; auto. rewrite mem_empty in K; discriminate.
      * rewrite app_comm_cons, app_assoc in E. apply app_inj_tail in E. destruct E as [E _].
        eapply runnable_app_ok; eauto.
  - destruct H as (r & D & ->). pose proof (decompose_list CX n d r mk_X D) as L.
    pose proof (fun o => decompose_ops mX CX n d r o mX_sq (fun d => eq_refl) D) as Q.
    destruct r as [l|]; [|split; try tauto; try reflexivity;
    intros inp pre HC p x q E; (destruct p as [|? [|? ?]]; simpl in E; try discriminate E; injection E as <- <-; rewrite app_nil_r; auto)].
    assert (NL : (forall k, ~ measured_in l k) /\ (forall k, ~ prepared_in l k) /\ (forall os, outs_of os l = os)).
    { apply not_meas_list. intros c Hc. apply L in Hc. destruct Hc as (src & -> & _); eauto. }
    destruct NL as (N1 & N2 & N3). split.
    + intros o. rewrite (Q o). cbn [seq_ops flat_map cmd_ops]. rewrite app_nil_r. reflexivity.
    + intros k. split; [intros K; destruct (N1 _ K)|]. intros (? & ? & ? & [K|[]]); discriminate.
    + intros k. split; [intros K; destruct (N2 _ K)|]. intros (? & [K|[]]); discriminate.
    + intros os. rewrite N3. reflexivity.
    + intros inp pre [HL HD]. apply runnable_app_ok. intros c Hc. apply L in Hc. destruct Hc as (src & -> & HM).
      exists n, (sing src). split; auto. split; auto. intros k HK; rewrite mem_sing, Nat.eqb_eq in HK; subst k; apply HD; auto.
  - destruct H as (r & D & ->). pose proof (decompose_list CZ n d r mk_Z D) as L.
    pose proof (fun o => decompose_ops mZ CZ n d r o mZ_sq (fun d => eq_refl) D) as Q.
    destruct r as [l|]; [|split; try tauto; try reflexivity;
    intros inp pre HC p x q E; (destruct p as [|? [|? ?]]; simpl in E; try discriminate E; injection E as <- <-; rewrite app_nil_r; auto)].
    assert (NL : (forall k, ~ measured_in l k) /\ (forall k, ~ prepared_in l k) /\ (forall os, outs_of os l = os)).
    { apply not_meas_list. intros c Hc. apply L in Hc. destruct Hc as (src & -> & _); eauto. }
    destruct NL as (N1 & N2 & N3). split.
    + intros o. rewrite (Q o). cbn [seq_ops flat_map cmd_ops]. rewrite app_nil_r. reflexivity.
    + intros k. split; [intros K; destruct (N1 _ K)|]. intros (? & ? & ? & [K|[]]); discriminate.
    + intros k. split; [intros K; destruct (N2 _ K)|]. intros (? & [K|[]]); discriminate.
    + intros os. rewrite N3. reflexivity.
    + intros inp pre [HL HD]. apply runnable_app_ok. intros c Hc. apply L in Hc. destruct Hc as (src & -> & HM).
      exists n, (sing src). split; auto. split; auto. intros k HK; rewrite mem_sing, Nat.eqb_eq in HK; subst k; apply HD; auto.
Qed.
(** every domain of the produced commands has at most one node *)
Definition small (d : nset) := length (elems d) <= 1.
Definition small_cmd (c : cmd) : Prop :=
  match c with
  | CM _ _ s t => small s /\ small t
  | CX _ d | CZ _ d => small d
  | _ => True
  end.
Lemma small_empty : small sempty.
Proof. unfold small. simpl. lia. Qed.
Lemma small_sing k : small (sing k).
Proof.
  unfold small. assert (P : Permutation (elems (sing k)) [k]).
  { apply NoDup_Permutation; [apply elems_NoDup|repeat constructor; auto|]. intros x. rewrite elems_spec, mem_sing, Nat.eqb_eq. simpl. intuition. }
  apply Permutation_length in P. rewrite P. simpl; lia.
Qed.
Lemma decompose_small mk n d r : decompose mk n d r -> r = None -> small d.
Proof. unfold decompose, small. destruct (_ <=? 1)%nat eqn:E; intros H ->; [apply Nat.leb_le; auto|]. destruct H as (? & _ & ?). discriminate. Qed.
Lemma sqd_small c cs : sqd_cmd c cs -> forall x, In x cs -> small_cmd x.
Proof.
  intros H. destruct c as [n st|u v|n m s t|n d|n d|n g|n d|]; cbn [sqd_cmd] in H.
  1,2,6,7,8: subst cs; intros x [<-|[]]; exact I.
  - destruct H as (rs & rt & Ds & Dt & ->). intros x Hx. apply in_app_or in Hx. destruct Hx as [K|Hx]; [|apply in_app_or in Hx; destruct Hx as [K|[<-|[]]]].
    + apply (decompose_list CX n s rs mk_X Ds) in K. destruct K as (? & -> & _). apply small_sing.
    + apply (decompose_list CZ n t rt mk_Z Dt) in K. destruct K as (? & -> & _). apply small_sing.
    + simpl. split; [destruct rs|destruct rt]; try apply small_empty; eapply decompose_small; eauto.
  - destruct H as (r & D & ->). destruct r as [l|].
    + intros x K. apply (decompose_list CX n d _ mk_X D) in K. destruct K as (? & -> & _). apply small_sing.
    + intros x [<-|[]]. simpl. eapply decompose_small; eauto.
  - destruct H as (r & D & ->). destruct r as [l|].
    + intros x K. apply (decompose_list CZ n d _ mk_Z D) in K. destruct K as (? & -> & _). apply small_sing.
    + intros x [<-|[]]. simpl. eapply decompose_small; eauto.
Qed.
Lemma rwl_all (R : cmd -> list cmd -> Prop) (P : cmd -> Prop) l l' : (forall c cs, R c cs -> forall x, In x cs -> P x) -> rwl R l l' -> forall x, In x l' -> P x.
Proof. intros H F. induction F as [|c cs l l' HR F IH]; intros x K; [destruct K|]. apply in_app_or in K. destruct K; eauto. Qed.
