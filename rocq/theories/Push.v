(** Model of graphix/remove_pauli_measurements.py PauliPushingCut: Pauli
    measurements are moved in front of the others, with empty domains. *)
From Coq Require Import Reals Lra Arith List Bool Lia Permutation Setoid Morphisms.
From Verif Require Import Cplx Mat2 Fundamentals CliffordDb Clifford NSet Measure QState Pattern Layer Standardize Shift FlowSem.
Import ListNotations.

(** * The model *)
(** remove_pauli_measurements.py:176-190 _expand_domain is the same loop as
    [expand_domain] (pattern.py:687-697) *)
(** remove_pauli_measurements.py:53-68: the Pauli measurements, the others, the
    shifted domains *)
Record cut := Cut { ct_pauli : list mcmd; ct_rest : list mcmd; ct_sd : sdict }.
(** remove_pauli_measurements.py:129-157: the signal of a Pauli measurement *)
Definition pauli_signal (a : axis) (s t : nset) : nset :=
  match a with AX => t | AY => sxor s t | AZ => s end.
(** remove_pauli_measurements.py:120-158: one iteration; [leave] is the set
    leave_nodes, None being the empty set *)
Definition push_step (leave : nset) (c : cut) (m : mcmd) : cut :=
  let s := expand_domain (ct_sd c) (mc_s m) in
  let t := expand_domain (ct_sd c) (mc_t m) in
  match mc_meas m with
  | MPauli a _ =>
      if mem (mc_node m) leave then Cut (ct_pauli c) (ct_rest c ++ [MC (mc_node m) (mc_meas m) s t]) (ct_sd c)
      else Cut (ct_pauli c ++ [MC (mc_node m) (mc_meas m) sempty sempty]) (ct_rest c) (dset (ct_sd c) (mc_node m) (pauli_signal a s t))
  | _ => Cut (ct_pauli c) (ct_rest c ++ [MC (mc_node m) (mc_meas m) s t]) (ct_sd c)
  end.
(** remove_pauli_measurements.py:75-160 from_standardizedpattern (without the
    warnings) *)
Definition push_cut (leave : nset) (st : stdp) : cut := fold_left (push_step leave) (sp_m st) (Cut [] [] []).
(** remove_pauli_measurements.py:192-195 _expand_corrections *)
Definition expand_corrections (sd : sdict) (d : dict nset) : dict nset := map (fun p => (fst p, expand_domain sd (snd p))) d.
(** remove_pauli_measurements.py:162-173 to_standardizedpattern *)
Definition cut_std (st : stdp) (c : cut) : stdp :=
  Std (sp_in st) (sp_out st) (sp_n st) (sp_e st) (ct_pauli c ++ ct_rest c)
      (expand_corrections (ct_sd c) (sp_z st)) (expand_corrections (ct_sd c) (sp_x st)) (sp_c st).
(** optimization.py:239-267 StandardizedPattern.perform_pauli_pushing *)
Definition pauli_push (leave : nset) (st : stdp) : stdp := cut_std st (push_cut leave st).

(** * A Pauli measurement turns its domains into a signal *)
Definition pauli_flip (a : axis) (s t : bool) : bool := match a with AX => t | AY => xorb s t | AZ => s end.
Lemma mvec_pauli a sg r s t : vmul (mdag (mXZ s t)) (mvec (MPauli a sg) r) ~v mvec (MPauli a sg) (xorb r (pauli_flip a s t)).
Proof.
  apply veqp_sym, vouter_inj_phase; [apply mvec_norm|]. rewrite vouter_vmul, !mvec_proj, !to_bloch_pauli.
  destruct a, sg, r, s, t; cbn [pauli_flip xorb]; unfold mXZ, mpow, rsign, sign_C, sign_R, axis_mat; meq; apply C_eq; cbn; ring.
Qed.
(** measurement [m] in branch [o], written with the parities of its domains *)
Lemma pauli_ops o o' n a sg s t : o' n = xorb (o n) (pauli_flip a (parity o s) (parity o t)) ->
  seq_ops o [CM n (MPauli a sg) s t] ≈ seq_ops o' [CM n (MPauli a sg) sempty sempty].
Proof.
  intros H. rewrite !meas_ops_XZ, !app1_meas. apply meas_veqp. eapply veqp_trans; [apply mvec_pauli|]. apply veqp_sym.
  eapply veqp_trans; [apply mvec_pauli|]. rewrite !parity_empty. rewrite H. destruct a; cbn [pauli_flip xorb]; rewrite xorb_false_r; apply veqp_refl.
Qed.
Lemma rest_ops o o' n m s t s' t' : o' n = o n -> parity o' s' = parity o s -> parity o' t' = parity o t ->
  seq_ops o [CM n m s t] ≈ seq_ops o' [CM n m s' t'].
Proof. intros H1 H2 H3. rewrite !meas_ops_XZ. rewrite H1, H2, H3. reflexivity. Qed.

(** * The loop *)
Definition cpush (leave : nset) (ms : list mcmd) : cut := fold_left (push_step leave) ms (Cut [] [] []).
Lemma cpush_snoc leave ms m : cpush leave (ms ++ [m]) = push_step leave (cpush leave ms) m.
Proof. unfold cpush. rewrite fold_left_app. reflexivity. Qed.
(** is the measurement moved? *)
Definition moved (leave : nset) (m : mcmd) : bool := match mc_meas m with MPauli _ _ => negb (mem (mc_node m) leave) | _ => false end.
Lemma push_step_cases leave c m :
  let s := expand_domain (ct_sd c) (mc_s m) in let t := expand_domain (ct_sd c) (mc_t m) in
  (moved leave m = false /\ push_step leave c m = Cut (ct_pauli c) (ct_rest c ++ [MC (mc_node m) (mc_meas m) s t]) (ct_sd c)) \/
  (moved leave m = true /\ exists a sg, mc_meas m = MPauli a sg /\
    push_step leave c m = Cut (ct_pauli c ++ [MC (mc_node m) (mc_meas m) sempty sempty]) (ct_rest c) (dset (ct_sd c) (mc_node m) (pauli_signal a s t))).
Proof.
  intros s t. unfold push_step, moved. fold s t. destruct (mc_meas m) as [a p|a sg] eqn:E; [left; auto|]. destruct (mem (mc_node m) leave) eqn:M; cbn [negb]; [left; auto|].
  right. split; auto. exists a, sg. auto.
Qed.
Record cut_inv (leave : nset) (ms : list mcmd) (c : cut) : Prop := {
  ci_p : map (fun m => (mc_node m, mc_meas m)) (ct_pauli c) = map (fun m => (mc_node m, mc_meas m)) (filter (moved leave) ms);
  ci_q : map (fun m => (mc_node m, mc_meas m)) (ct_rest c) = map (fun m => (mc_node m, mc_meas m)) (filter (fun m => negb (moved leave m)) ms);
  ci_e : forall m, In m (ct_pauli c) -> mc_s m = sempty /\ mc_t m = sempty;
  ci_k : forall n, In n (dkeys (ct_sd c)) <-> In n (map mc_node (filter (moved leave) ms));
  ci_d : forall n k, mem k (sget (ct_sd c) n) = true -> In k (map mc_node ms);
  ci_o : ms_ordered (ct_pauli c ++ ct_rest c) }.
Lemma nm_nodes l l' : map (fun m => (mc_node m, mc_meas m)) l = map (fun m => (mc_node m, mc_meas m)) l' -> map mc_node l = map mc_node l'.
Proof. intros H. assert (K := f_equal (map fst) H). rewrite !map_map in K. cbn [fst] in K. exact K. Qed.
Lemma filter_perm {A} (f : A -> bool) l : Permutation l (filter f l ++ filter (fun a => negb (f a)) l).
Proof.
  induction l as [|a l IH]; [constructor|]. simpl. destruct (f a); simpl.
  - constructor. auto.
  - eapply Permutation_trans; [apply perm_skip, IH|]. apply Permutation_middle.
Qed.
Lemma cut_nodes leave ms c : cut_inv leave ms c -> Permutation (map mc_node ms) (map mc_node (ct_pauli c ++ ct_rest c)).
Proof.
  intros [P Q _ _ _ _]. rewrite map_app, (nm_nodes _ _ P), (nm_nodes _ _ Q), <- map_app. apply Permutation_map, filter_perm.
Qed.
Lemma ms_ordered_pre ms m : ms_ordered (ms ++ [m]) -> ms_ordered ms /\ forall k, mem k (mc_s m) = true \/ mem k (mc_t m) = true -> In k (map mc_node ms).
Proof.
  intros H. split; [|intros k Hk; eapply H; eauto].
  intros pre x post E k Hk. eapply H; [|exact Hk]. rewrite E, <- app_assoc. reflexivity.
Qed.
Lemma ms_ordered_add_rest ms m : ms_ordered ms -> (forall k, mem k (mc_s m) = true \/ mem k (mc_t m) = true -> In k (map mc_node ms)) -> ms_ordered (ms ++ [m]).
Proof.
  intros H Hm pre x post E k Hk. destruct (list_eq_dec Nat.eq_dec [] (map mc_node post)) as [EE|NE].
  - destruct post; [|discriminate]. apply app_inj_tail in E. destruct E as [<- <-]. auto.
  - destruct (exists_last (l := post)) as (p' & z & ->); [intros ->; apply NE; auto|]. rewrite app_comm_cons, app_assoc in E. apply app_inj_tail in E. destruct E as [E _]. eapply H; eauto.
Qed.
Lemma ms_ordered_add_pauli P Q m : ms_ordered (P ++ Q) -> (forall x, In x P -> mc_s x = sempty /\ mc_t x = sempty) -> mc_s m = sempty -> mc_t m = sempty -> ms_ordered ((P ++ [m]) ++ Q).
Proof.
  intros H HP S T pre x post E k Hk.
  assert (HE : forall y, In y (P ++ [m]) -> mc_s y = sempty /\ mc_t y = sempty). { intros y Hy. apply in_app_or in Hy. destruct Hy as [Hy|[<-|[]]]; auto. }
  apply app_eq_app in E. destruct E as (l & [[E1 E2]|[E1 E2]]).
  - destruct l as [|y l].
    + rewrite app_nil_r in E1. cbn [app] in E2. subst pre. assert (E3 : P ++ Q = P ++ x :: post) by congruence. specialize (H P x post E3 k Hk). rewrite map_app, in_app_iff. auto.
    + exfalso. cbn [app] in E2. injection E2 as -> ->. destruct (HE y) as [A B]. { rewrite E1. apply in_or_app. simpl. auto. } rewrite A, B in Hk. rewrite mem_empty in Hk. destruct Hk; discriminate.
  - subst. assert (E3 : P ++ l ++ x :: post = (P ++ l) ++ x :: post) by apply app_assoc. specialize (H (P ++ l) x post E3 k Hk).
    rewrite !map_app, !in_app_iff in *. tauto.
Qed.
Lemma cut_inv_all leave ms : ms_ordered ms -> cut_inv leave ms (cpush leave ms).
Proof.
  induction ms as [|m ms IH] using rev_ind; intros HO.
  - constructor; try reflexivity.
    + intros m [].
    + intros n k. unfold sget. cbn [cpush fold_left ct_sd dget]. rewrite mem_empty. discriminate.
    + intros pre x post E. destruct pre; discriminate.
  - apply ms_ordered_pre in HO. destruct HO as [HO HD]. specialize (IH HO). pose proof (cut_nodes _ _ _ IH) as PN. destruct IH as [P Q E K D O]. rewrite cpush_snoc.
    set (c := cpush leave ms) in *.
    assert (EX : forall d, (forall k, mem k d = true -> In k (map mc_node ms)) -> forall k, mem k (expand_domain (ct_sd c) d) = true -> In k (map mc_node ms)).
    { intros d Hd k Hk. apply mem_expand in Hk. destruct Hk as [Hk|(n0 & Hn & Hk)]; [auto|]. eapply D; eauto. }
    assert (INP : forall k, In k (map mc_node ms) -> In k (map mc_node (ct_pauli c ++ ct_rest c))) by (intros k; apply Permutation_in; auto).
    assert (INC : forall k, In k (map mc_node ms) -> In k (map mc_node (ms ++ [m]))) by (intros k; rewrite map_app, in_app_iff; auto).
    destruct (push_step_cases leave c m) as [[Mv ->]|[Mv (a & sg & Em & ->)]]; constructor; cbn [ct_pauli ct_rest ct_sd]; rewrite ?filter_app; cbn [filter]; rewrite ?Mv; cbn [negb]; rewrite ?app_nil_r, ?map_app; auto.
    + rewrite Q. reflexivity.
    + intros n k Hk. rewrite in_app_iff. left. eapply D; eauto.
    + rewrite app_assoc. apply ms_ordered_add_rest; auto. cbn [mc_s mc_t]. intros k Hk. apply INP. destruct Hk as [Hk|Hk]; (eapply EX; [|exact Hk]; intros; apply HD; auto).
    + rewrite P. reflexivity.
    + intros x Hx. apply in_app_or in Hx. destruct Hx as [Hx|[<-|[]]]; auto.
    + intros n. rewrite dkeys_dset, K, in_app_iff. cbn [map In]. intuition.
    + intros n k. rewrite sget_dset, in_app_iff. destruct (Nat.eqb_spec (mc_node m) n) as [<-|N]; [|intros; left; eapply D; eauto].
      intros Hk. left. unfold pauli_signal in Hk. destruct a.
      * eapply EX; [|exact Hk]. intros; apply HD; auto.
      * rewrite mem_sxor in Hk. destruct (mem k (expand_domain (ct_sd c) (mc_s m))) eqn:E1; [eapply EX; [|exact E1]; intros; apply HD; auto|].
        destruct (mem k (expand_domain (ct_sd c) (mc_t m))) eqn:E2; [eapply EX; [|exact E2]; intros; apply HD; auto|discriminate].
      * eapply EX; [|exact Hk]. intros; apply HD; auto.
    + apply ms_ordered_add_pauli; auto.
Qed.
(** ** Semantics of the loop *)
Lemma m_ops_app o a b : m_ops o (a ++ b) = m_ops o a ++ m_ops o b.
Proof. unfold m_ops. rewrite map_app. apply seq_ops_app. Qed.
Lemma m_ops_ext o o' ms : ms_ordered ms -> (forall n, In n (map mc_node ms) -> o n = o' n) -> m_ops o ms = m_ops o' ms.
Proof.
  induction ms as [|m ms IH] using rev_ind; intros HO H; auto. apply ms_ordered_pre in HO. destruct HO as [HO HD]. rewrite !m_ops_app. f_equal.
  - apply IH; auto. intros n Hn. apply H. rewrite map_app, in_app_iff. auto.
  - assert (PE : forall d, (forall k, mem k d = true -> In k (map mc_node ms)) -> parity o d = parity o' d).
    { intros d Hd. apply parity_ext. intros k Hk. apply H. rewrite map_app, in_app_iff. auto. }
    unfold m_ops. cbn. unfold describe_measurement. rewrite (PE (mc_s m)), (PE (mc_t m)), (H (mc_node m)); auto. rewrite map_app, in_app_iff. simpl. auto.
Qed.
Lemma cut_sem leave ms : ms_ordered ms -> NoDup (map mc_node ms) -> forall o', let c := cpush leave ms in
  m_ops (shift_outcomes o' (ct_sd c)) ms ≈ m_ops o' (ct_pauli c ++ ct_rest c).
Proof.
  induction ms as [|m ms IH] using rev_ind; intros HO ND o'; [reflexivity|]. cbv zeta. rewrite cpush_snoc. pose proof (cut_inv_all _ _ (proj1 (ms_ordered_pre _ _ HO)) : cut_inv leave ms (cpush leave ms)) as CI.
  apply ms_ordered_pre in HO. destruct HO as [HO HD]. rewrite map_app in ND. cbn [map] in ND. apply NoDup_remove in ND. rewrite app_nil_r in ND. destruct ND as [ND NM].
  specialize (IH HO ND o'). cbv zeta in IH. pose proof (cut_nodes _ _ _ CI) as PN. destruct CI as [P Q E K D O]. set (c := cpush leave ms) in *.
  assert (NK : ~ In (mc_node m) (dkeys (ct_sd c))).
  { rewrite K. intros H. apply NM. apply in_map_iff in H. destruct H as (x & <- & Hx). apply filter_In in Hx. apply in_map. tauto. }
  rewrite m_ops_app. destruct (push_step_cases leave c m) as [[Mv ->]|[Mv (a & sg & Em & ->)]]; cbn [ct_pauli ct_rest ct_sd].
  - rewrite IH, app_assoc, (m_ops_app o' (ct_pauli c ++ ct_rest c)). apply leq_app_l. unfold m_ops. cbn [map]. unfold mcmd_cmd. cbn [mc_node mc_meas mc_s mc_t]. apply rest_ops.
    + rewrite shift_outcomes_xor, sget_none, parity_empty, xorb_false_r; auto.
    + apply parity_expand.
    + apply parity_expand.
  - set (g := pauli_signal a _ _).
    assert (AG : forall n, In n (map mc_node ms) -> shift_outcomes o' (dset (ct_sd c) (mc_node m) g) n = shift_outcomes o' (ct_sd c) n).
    { intros n Hn. rewrite !shift_outcomes_xor, sget_dset. destruct (Nat.eqb_spec (mc_node m) n); [subst; contradiction|auto]. }
    rewrite (m_ops_ext _ (shift_outcomes o' (ct_sd c)) ms HO AG), IH.
    rewrite !m_ops_app, <- !app_assoc. apply leq_app_l.
    rewrite (comm_ll (m_ops o' [_]) (m_ops o' (ct_rest c))).
    + apply leq_app_l. unfold m_ops. cbn [map]. unfold mcmd_cmd. cbn [mc_node mc_meas mc_s mc_t]. rewrite Em. apply pauli_ops.
      rewrite shift_outcomes_xor, sget_dset, Nat.eqb_refl.
      assert (PS : forall d, (forall k, mem k d = true -> In k (map mc_node ms)) -> parity (shift_outcomes o' (dset (ct_sd c) (mc_node m) g)) d = parity o' (expand_domain (ct_sd c) d)).
      { intros d Hd. rewrite parity_expand. apply parity_ext. intros k Hk. apply AG; auto. }
      rewrite !PS by (intros; apply HD; auto). unfold g, pauli_signal, pauli_flip. destruct a; rewrite ?parity_sxor; destruct (o' (mc_node m)), (parity o' (expand_domain (ct_sd c) (mc_s m))), (parity o' (expand_domain (ct_sd c) (mc_t m))); auto.
    + intros p q Hp Hq n Hn1 Hn2. apply (m_ops_onodes _ _ _ n Hp) in Hn1. apply (m_ops_onodes _ _ _ n Hq) in Hn2. destruct Hn1 as [<-|[]]. apply NM. cbn [mc_node] in *.
      eapply Permutation_in; [apply Permutation_sym; exact PN|]. rewrite map_app, in_app_iff. auto.
Qed.

(** * The whole standardized pattern *)
Lemma exp_keys sd d : dkeys (expand_corrections sd d) = dkeys d.
Proof. unfold dkeys, expand_corrections. rewrite map_map. reflexivity. Qed.
Lemma exp_get sd d n : dget (expand_corrections sd d) n = option_map (expand_domain sd) (dget d n).
Proof. induction d as [|[k v] d IH]; auto. cbn. rewrite Nat.eqb_sym. destruct (Nat.eqb_spec n k) as [->|N]; rewrite ?Nat.eqb_refl; auto. Qed.
Lemma exp_mem sd d n k : mem k (dz (expand_corrections sd d) n) = true -> mem k (expand_domain sd (dz d n)) = true.
Proof. unfold dz. rewrite exp_get. destruct (dget d n); cbn [option_map]; [auto|]. intros H. rewrite mem_empty in H. discriminate. Qed.
Lemma exp_z_ops o' sd d : seq_ops (shift_outcomes o' sd) (map (fun p => CZ (fst p) (snd p)) d) = seq_ops o' (map (fun p => CZ (fst p) (snd p)) (expand_corrections sd d)).
Proof. unfold seq_ops, expand_corrections. induction d as [|p d IH]; auto. cbn [map flat_map]. rewrite IH. f_equal. cbn [cmd_ops fst snd]. rewrite parity_expand. reflexivity. Qed.
Lemma exp_x_ops o' sd d : seq_ops (shift_outcomes o' sd) (map (fun p => CX (fst p) (snd p)) d) = seq_ops o' (map (fun p => CX (fst p) (snd p)) (expand_corrections sd d)).
Proof. unfold seq_ops, expand_corrections. induction d as [|p d IH]; auto. cbn [map flat_map]. rewrite IH. f_equal. cbn [cmd_ops fst snd]. rewrite parity_expand. reflexivity. Qed.
Lemma seq_ops_C o o' d : seq_ops o (map (fun p => CC (fst p) (snd p)) d) = seq_ops o' (map (fun p : nat * clifford => CC (fst p) (snd p)) d).
Proof. unfold seq_ops. induction d as [|p d IH]; auto. cbn [map flat_map]. rewrite IH. auto. Qed.
Lemma seq_ops_N o o' d : seq_ops o (map (fun p : _ => CN (fst p) (snd p)) d) = seq_ops o' (map (fun p => CN (fst p) (snd p)) d).
Proof. unfold seq_ops. induction d as [|p d IH]; auto. cbn [map flat_map]. rewrite IH. auto. Qed.
Lemma seq_ops_E o o' (d : list (nat * nat)) : seq_ops o (map (fun p => CE (fst p) (snd p)) d) = seq_ops o' (map (fun p => CE (fst p) (snd p)) d).
Proof. unfold seq_ops. induction d as [|p d IH]; auto. cbn [map flat_map]. rewrite IH. auto. Qed.
Section Whole.
Context (leave : nset) (st : stdp).
Hypothesis (W : std_wf st).
Let c := push_cut leave st.
Lemma cut_whole : cut_inv leave (sp_m st) c.
Proof. apply cut_inv_all. apply W. Qed.
Lemma push_meas n : std_meas (pauli_push leave st) n <-> std_meas st n.
Proof.
  unfold std_meas, pauli_push. cbn [cut_std sp_m]. fold c. pose proof (cut_nodes _ _ _ cut_whole) as P. split; apply Permutation_in; auto. apply Permutation_sym; auto.
Qed.
Lemma push_wf : std_wf (pauli_push leave st).
Proof.
  pose proof cut_whole as CI. pose proof (cut_nodes _ _ _ CI) as P. pose proof push_meas as MM. destruct CI as [_ _ _ _ CD CO].
  assert (EX : forall d k, (forall j, mem j d = true -> std_meas st j) -> mem k (expand_domain (ct_sd c) d) = true -> std_meas st k).
  { intros d k Hd Hk. apply mem_expand in Hk. destruct Hk as [Hk|(n0 & Hn & Hk)]; [auto|]. eapply CD; eauto. }
  constructor; try (exact (sw_nN _ W) || exact (sw_nin _ W) || exact (sw_eN _ W) || exact (sw_e _ W) || exact (sw_cN _ W)).
  - eapply Permutation_NoDup; [exact P|apply W].
  - intros n Hn. apply MM in Hn. exact (sw_mn _ W n Hn).
  - exact CO.
  - cbn [pauli_push cut_std sp_z]. unfold pauli_push, cut_std. cbn [sp_z]. rewrite exp_keys. apply W.
  - unfold pauli_push, cut_std. cbn [sp_x]. rewrite exp_keys. apply W.
  - intros n. rewrite MM. unfold pauli_push, cut_std. cbn [sp_z]. rewrite exp_keys. exact (sw_zk _ W n).
  - intros n. rewrite MM. unfold pauli_push, cut_std. cbn [sp_x]. rewrite exp_keys. exact (sw_xk _ W n).
  - intros n. rewrite MM. exact (sw_ck _ W n).
  - intros n k Hk. apply MM. apply exp_mem in Hk. eapply EX; [|exact Hk]. intros j. apply (sw_zd _ W n).
  - intros n k Hk. apply MM. apply exp_mem in Hk. eapply EX; [|exact Hk]. intros j. apply (sw_xd _ W n).
Qed.
Lemma push_out_ok : std_out_ok st -> std_out_ok (pauli_push leave st).
Proof. intros [A B]. split; auto. intros n. rewrite push_meas. apply B. Qed.
Lemma push_sem es o' : seq_ops (shift_outcomes o' (ct_sd c)) (std_cmds st es) ≈ seq_ops o' (std_cmds (pauli_push leave st) es).
Proof.
  unfold std_cmds, pauli_push. cbn [cut_std sp_n sp_m sp_z sp_x sp_c]. fold c. rewrite !seq_ops_app.
  rewrite (seq_ops_N _ o'), (seq_ops_E _ o'), (seq_ops_C _ o'), exp_z_ops, exp_x_ops. apply leq_app_l, leq_app_l, leq_app_r.
  apply (cut_sem leave (sp_m st)); apply W.
Qed.
End Whole.

(** ** The translation of outcomes is a bijection *)
Lemma cut_key leave ms m : ms_ordered (ms ++ [m]) ->
  ct_sd (cpush leave (ms ++ [m])) = ct_sd (cpush leave ms) \/
  exists d, ct_sd (cpush leave (ms ++ [m])) = dset (ct_sd (cpush leave ms)) (mc_node m) d /\ (forall k, mem k d = true -> In k (map mc_node ms)).
Proof.
  intros HO. apply ms_ordered_pre in HO. destruct HO as [HO HD]. pose proof (cut_inv_all leave ms HO) as [P Q E K D O]. rewrite cpush_snoc. set (c := cpush leave ms) in *.
  assert (EX : forall d, (forall k, mem k d = true -> In k (map mc_node ms)) -> forall k, mem k (expand_domain (ct_sd c) d) = true -> In k (map mc_node ms)).
  { intros d Hd k Hk. apply mem_expand in Hk. destruct Hk as [Hk|(n0 & Hn & Hk)]; [auto|]. eapply D; eauto. }
  destruct (push_step_cases leave c m) as [[Mv ->]|[Mv (a & sg & Em & ->)]]; cbn [ct_sd]; [left; auto|]. right. eexists. split; [reflexivity|]. intros k Hk. unfold pauli_signal in Hk. destruct a.
  * eapply EX; [|exact Hk]. intros; apply HD; auto.
  * rewrite mem_sxor in Hk. destruct (mem k (expand_domain (ct_sd c) (mc_s m))) eqn:E1; [eapply EX; [|exact E1]; intros; apply HD; auto|].
    destruct (mem k (expand_domain (ct_sd c) (mc_t m))) eqn:E2; [eapply EX; [|exact E2]; intros; apply HD; auto|discriminate].
  * eapply EX; [|exact Hk]. intros; apply HD; auto.
Qed.
Lemma cut_surj leave ms : ms_ordered ms -> NoDup (map mc_node ms) ->
  forall o, exists o', forall n, shift_outcomes o' (ct_sd (cpush leave ms)) n = o n.
Proof.
  induction ms as [|m ms IH] using rev_ind; intros HO ND o.
  - exists o. intros n. rewrite shift_outcomes_xor, sget_none by (simpl; auto). rewrite parity_empty, xorb_false_r; auto.
  - pose proof (cut_key leave ms m HO) as K. apply ms_ordered_pre in HO. destruct HO as [HO _]. rewrite map_app in ND. cbn [map] in ND. apply NoDup_remove in ND. rewrite app_nil_r in ND. destruct ND as [ND NM].
    destruct (IH HO ND o) as (o0 & H0). pose proof (cut_inv_all leave ms HO) as [_ _ _ _ D _].
    destruct K as [-> |(d & -> & Hd)]; [eauto|]. set (n := mc_node m) in *.
    assert (NDm : forall x, (forall k, mem k x = true -> In k (map mc_node ms)) -> mem n x = false).
    { intros x Hx. destruct (mem n x) eqn:E; auto. apply Hx in E; contradiction. }
    exists (fun k => if (k =? n)%nat then xorb (o n) (parity o0 d) else o0 k). intros k.
    rewrite shift_outcomes_xor, sget_dset, Nat.eqb_sym. destruct (Nat.eqb_spec n k) as [E|E].
    + rewrite <- E. rewrite parity_upd_notin by auto. destruct (o n), (parity o0 d); auto.
    + rewrite parity_upd_notin by (apply NDm; intros j Hj; eapply D; eauto). rewrite <- H0, shift_outcomes_xor; auto.
Qed.
Lemma cut_inj leave ms : ms_ordered ms -> NoDup (map mc_node ms) ->
  forall o1 o2, (forall n, shift_outcomes o1 (ct_sd (cpush leave ms)) n = shift_outcomes o2 (ct_sd (cpush leave ms)) n) -> forall n, o1 n = o2 n.
Proof.
  induction ms as [|m ms IH] using rev_ind; intros HO ND o1 o2.
  - intros H n. specialize (H n). rewrite !shift_outcomes_xor, sget_none in H by (simpl; auto). rewrite !parity_empty, !xorb_false_r in H; auto.
  - pose proof (cut_key leave ms m HO) as K. apply ms_ordered_pre in HO. destruct HO as [HO _]. rewrite map_app in ND. cbn [map] in ND. apply NoDup_remove in ND. rewrite app_nil_r in ND. destruct ND as [ND NM].
    pose proof (cut_inv_all leave ms HO) as [_ _ _ B D _].
    destruct K as [-> |(d & -> & Hd)]; [eauto|]. intros H. set (n := mc_node m) in *. set (sd := ct_sd (cpush leave ms)) in *.
    assert (NDm : forall x, (forall k, mem k x = true -> In k (map mc_node ms)) -> mem n x = false).
    { intros x Hx. destruct (mem n x) eqn:E; auto. apply Hx in E; contradiction. }
    set (p1 := fun k => if (k =? n)%nat then false else o1 k). set (p2 := fun k => if (k =? n)%nat then false else o2 k).
    assert (NK : sget sd n = sempty).
    { apply sget_none; intros K; apply B in K. apply NM. apply in_map_iff in K. destruct K as (x & Ex & Hx). apply filter_In in Hx. rewrite <- Ex. apply in_map. tauto. }
    assert (E : forall k, p1 k = p2 k).
    { apply (IH HO ND). intros k. rewrite !shift_outcomes_xor. unfold p1, p2.
      rewrite !parity_upd_notin by (apply NDm; intros j Hj; eapply D; eauto).
      destruct (Nat.eqb_spec k n) as [Ek|Ek]; [rewrite Ek; fold sd; rewrite NK; auto|].
      specialize (H k). rewrite !shift_outcomes_xor, sget_dset in H. destruct (Nat.eqb_spec n k); [subst; congruence|auto]. }
    assert (E' : forall k, k <> n -> o1 k = o2 k).
    { intros k Hk. specialize (E k). unfold p1, p2 in E. destruct (Nat.eqb_spec k n); auto; contradiction. }
    intros k. destruct (Nat.eq_dec k n) as [->|Nk]; auto. specialize (H n). rewrite !shift_outcomes_xor, sget_dset, Nat.eqb_refl in H.
    replace (parity o2 d) with (parity o1 d) in H.
    + destruct (o1 n), (o2 n), (parity o1 d); auto; discriminate.
    + apply parity_ext. intros j Hj. apply E'. intros ->. apply NM; auto.
Qed.
