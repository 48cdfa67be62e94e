(** Property theorems: density-matrix simulation of a pattern, with or without
    noise (C48).

    Vocabulary (DMSim.v, DMRun.v): [dm_run close1 psdb user sel g u nm p d] runs
    the pattern [p] on the density-matrix backend with branch selector [sel],
    random values [g] (measurements) and [u] (readout errors), noise model [nm]
    and input [d].  [nden user o w l R0] is the (unnormalised) operator obtained
    from [R0] by the commands and noise channels [l] when the qubits are
    projected on the outcomes [w] and the recorded outcomes are [o];
    [dtr l R] is its trace over the nodes [l]. *)
From Coq Require Import Reals Lra Arith List Bool Lia Permutation FunctionalExtensionality.
From Verif Require Import Cplx Mat2 Fundamentals CliffordDb Clifford NSet Measure QState Pattern NodeIndex Statevec Density Simulator Noise PropNoise DMSim DMRun.
Import ListNotations.
Local Open Scope C_scope.

(** the sequence executed under a noise model *)
Definition run_seq (nm : option nmodel) (p : pattern) : res (list ncmd) :=
  match nm with None => Ok (map NC (p_seq p)) | Some m => noisy_seq m p true end.
(** the probabilities of the noise channels of a model *)
Definition probs_ok (nm : option nmodel) : Prop :=
  match nm with
  | None => True
  | Some m => forall lf pr, In lf (leaves m) -> In pr [np_prepare; np_x; np_z; np_ent; np_mchan] -> (0 <= pr (snd lf) <= 1)%R
  end.
(** patterns for which the backend applies every command: no signal, no
    entanglement of a node with itself, normalised preparation states *)
Definition dm_pattern (p : pattern) : Prop :=
  NoDup (p_in p) /\ pat_wf p /\ runnable (p_in p) (p_seq p) /\ forall c, In c (p_seq p) -> simple c.
Lemma nrunnable_map user inp l : runnable inp l -> (forall c, In c l -> simple c) -> nrunnable user inp (map NC l).
Proof.
  intros HR HS pre c post E. assert (ES := f_equal strip E). rewrite strip_map, strip_app in ES.
  assert (In c (map NC l)) by (rewrite E; apply in_or_app; simpl; auto). apply in_map_iff in H as (c0 & <- & Hc). simpl in ES. split; auto.
  eapply HR; eauto.
Qed.
Lemma run_seq_ok user nm p : dm_pattern p -> probs_ok nm -> exists l, run_seq nm p = Ok l /\ nrunnable user (p_in p) l /\ strip l = p_seq p.
Proof.
  intros (_ & _ & HR & HS) HP. destruct nm as [m|].
  - cbn [run_seq]. pose proof (C34_live m p true) as LV.
    assert (exists s, nm_transpile m (map NC (p_seq p)) = Ok s) as (s & Es).
    { rewrite C34_components; [eexists; reflexivity|]. unfold has_S. apply not_true_is_false. intros K. apply existsb_exists in K as (c & Hc & K).
      apply in_map_iff in Hc as (c0 & <- & Hc). specialize (HS _ Hc). destruct c0; auto; discriminate. }
    assert (EN : noisy_seq m p true = Ok (nm_input m (p_in p) ++ s)) by (unfold noisy_seq; rewrite Es; reflexivity).
    eexists. split; [exact EN|]. pose proof (C34_commands_kept _ _ _ _ EN) as ST. split; auto. intros pre c post E. destruct c as [c|a].
    + rewrite E, strip_app in ST. simpl in ST. split; [eapply HR; eauto|]. apply HS. rewrite <- ST. apply in_or_app; simpl; auto.
    + destruct (LV _ _ _ _ HR EN E) as (L1 & L2 & L3). split; auto.
      assert (NO : NoDup (an_nodes a) /\ noise_ok user (an_noise a)).
      { assert (I : In (NA a) (nm_input m (p_in p) ++ s)) by (rewrite E; apply in_or_app; simpl; auto).
        assert (D : forall lf pr n dm, In lf (leaves m) -> In pr [np_prepare; np_x; np_z; np_ent; np_mchan] -> a = AN (one lf pr) [n] dm -> NoDup (an_nodes a) /\ noise_ok user (an_noise a)).
        { intros lf pr n dm I1 I2 ->. cbn. split; [repeat constructor; auto|]. unfold one. destruct (fst lf); cbn; apply HP; auto. }
        apply in_app_or in I as [I|I].
        - rewrite C34_input_components in I. apply in_flat_map in I as (lf & I1 & I). apply in_map_iff in I as (n & EA & _). injection EA as <-.
          eapply D; [exact I1| |reflexivity]. simpl; auto.
        - rewrite nm_transpile_spec in Es. unfold spec_seq in Es. destruct (_ && _); [discriminate|]. injection Es as <-.
          apply in_flat_map in I as (c & Ic & I). apply in_map_iff in Ic as (c0 & <- & Hc). unfold around in I.
          apply in_app_or in I as [I|[I|I]]; [|discriminate|]; apply in_flat_map in I as (lf & Il & I).
          + destruct c0; simpl in I; try tauto. destruct I as [I|[]]. injection I as <-. eapply D; [exact Il| |reflexivity]. simpl; auto 8.
          + apply in_rev in Il. destruct c0; simpl in I; try tauto; destruct I as [I|[]]; injection I as <-.
            * eapply D; [exact Il| |reflexivity]. simpl; auto 8.
            * cbn. split; [specialize (HS _ Hc); simpl in HS; repeat constructor; simpl; intuition|]. unfold two. destruct (fst lf); cbn; apply (HP lf); simpl; auto 8.
            * eapply D; [exact Il| |reflexivity]. simpl; auto 8.
            * eapply D; [exact Il| |reflexivity]. simpl; auto 8. }
      destruct NO as [N1 N2]. split; auto. split; auto. split; auto. intros d k Hd Hk. apply (L3 d k Hd). apply elems_spec; auto.
  - eexists. split; [reflexivity|]. split; [apply nrunnable_map; auto|apply strip_map].
Qed.

(** The run either succeeds, and then the matrix returned is the operator of the
    noisy sequence for the outcomes selected, normalised, its qubits being the
    output nodes in order; or it fails at a measurement because the selector
    fails or selects an outcome of probability zero.  Every outcome is selected
    from its exact probability given the past. *)
Theorem C48_simulation : forall close1 psdb user sel g u nm p d,
  close1 1%R = true -> dm_pattern p -> probs_ok nm -> ddata_ok psdb d (length (p_in p)) ->
  exists l, run_seq nm p = Ok l /\
  match dm_run close1 psdb user sel g u nm p d with
  | Ok st => let o := outc (d_res st) in
      (forall k, (exists b, dget (d_res st) k = Some b) <-> measured_in (p_seq p) k) /\
      ni_list (d_ni st) = p_out p /\ dm_n (d_dm st) = length (p_out p) /\ dm_trace (length (p_out p)) (dm_rho (d_dm st)) = C1 /\
      exists w k, nselected user sel g u nm (p_in p) (dinput (p_in p) d) l o w (d_rng st) /\
        k * dtr (p_out p) (nden user o w l (dinput (p_in p) d)) = C1 /\
        forall f h, dm_rho (d_dm st) (idx (length (p_out p)) (pull (p_out p) f)) (idx (length (p_out p)) (pull (p_out p) h)) = k * nden user o w l (dinput (p_in p) d) f h
  | Err e => nfails user sel g u nm (p_in p) (dinput (p_in p) d) l e
  end.
Proof.
  intros close1 psdb user sel g u nm p d HC HP HN HD. destruct (run_seq_ok user nm p HP HN) as (l & El & HR & HS). exists l. split; auto.
  destruct HP as (ND & HW & HRp & _). unfold dm_run. change (match nm with None => Ok (map NC (p_seq p)) | Some m => noisy_seq m p true end) with (run_seq nm p).
  destruct (dm_exec_spec close1 psdb user sel g u nm (p_in p) d l (p_out p) ND HC HD HR) as (s0 & E0 & F); [rewrite HS; exact HW|].
  rewrite E0, El. cbn [rbind]. rewrite (proj2 (check_runnability_spec p) HRp). cbn [rbind].
  destruct (rfold _ l _) as [st1|e]; cbn [rbind]; auto. destruct F as (s & w & k & Ef & HI & SEL & N & T & K & L). rewrite Ef. cbn [d_dm d_ni d_res d_rng].
  split; [intros j; rewrite <- HS; apply (di_res _ _ _ _ _ _ HI)|]. split; [reflexivity|]. split; auto. split; auto. exists w, k. auto.
Qed.
Print Assumptions C48_simulation.

(** * Probabilities *)
Lemma mvec_sum m : madd (vouter (mvec m false) (mvec m false)) (vouter (mvec m true) (mvec m true)) = mid.
Proof.
  rewrite !mvec_proj. unfold meas_proj. destruct (to_bloch m) as [a p]. destruct (plane_polar p a) as [[vx vy] vz].
  apply mat2_eq; apply C_eq; cbn; field.
Qed.
Lemma meas_total m l n R : NoDup l -> ~ In n l -> dtr (l ++ [n]) R = dtr l (dapp (OMeas (mvec m false) n) R) + dtr l (dapp (OMeas (mvec m true) n) R).
Proof.
  intros ND HN. unfold dtr. rewrite asum_snoc. generalize (fun _ : nat => false). intros f0.
  assert (A : forall l F G f, asum l (fun f => F f + G f) f = asum l F f + asum l G f).
  { induction l0 as [|x l0 IH]; intros F G f; simpl; auto. rewrite !IH. ring. }
  rewrite <- A. apply asum_ext. intros f. cbn [dapp]. pose proof (mvec_sum m) as E.
  assert (E00 := f_equal m00 E). assert (E01 := f_equal m01 E). assert (E10 := f_equal m10 E). assert (E11 := f_equal m11 E). cbn in E00, E01, E10, E11.
  set (v := mvec m false) in *. set (v' := mvec m true) in *.
  transitivity ((v0 v * Cconj (v0 v) + v0 v' * Cconj (v0 v')) * R (upd f n false) (upd f n false)
    + (v1 v * Cconj (v0 v) + v1 v' * Cconj (v0 v')) * R (upd f n false) (upd f n true)
    + (v0 v * Cconj (v1 v) + v0 v' * Cconj (v1 v')) * R (upd f n true) (upd f n false)
    + (v1 v * Cconj (v1 v) + v1 v' * Cconj (v1 v')) * R (upd f n true) (upd f n true)); [rewrite E00, E01, E10, E11; ring|ring].
Qed.
(** At every measurement of the noisy sequence, for every past: the weights of
    the two outcomes are real and non-negative and sum to the weight of the
    past, so the probability used by the selector is in [0,1]. *)
Theorem C48_probabilities : forall psdb user nm p d l pre n m s t post o w,
  dm_pattern p -> probs_ok nm -> ddata_ok psdb d (length (p_in p)) -> run_seq nm p = Ok l -> l = pre ++ NC (CM n m s t) :: post ->
  let R0 := dinput (p_in p) d in
  let W b := dtr (outs_of (p_in p) (strip (pre ++ [NC (CM n m s t)]))) (nden user o (with_out w n b) (pre ++ [NC (CM n m s t)]) R0) in
  exists a b, (0 <= a)%R /\ (0 <= b)%R /\ W false = RtoC a /\ W true = RtoC b /\
    dtr (outs_of (p_in p) (strip pre)) (nden user o w pre R0) = RtoC (a + b) /\
    forall p0, dprob0 user (p_in p) R0 pre (NC (CM n m s t)) o w n p0 -> (a + b <> 0)%R -> (0 <= p0 <= 1)%R /\ p0 = (a / (a + b))%R.
Proof.
  intros psdb user nm p d l pre n m s t post o w HP HN HD El E R0 W.
  destruct (run_seq_ok user nm p HP HN) as (l' & El' & HR & HS). rewrite El in El'. injection El' as <-. subst l.
  assert (HRm : nrunnable user (p_in p) (pre ++ [NC (CM n m s t)])).
  { intros a x b Ex. apply (HR a x (b ++ post)). change (NC (CM n m s t) :: post) with ([NC (CM n m s t)] ++ post). rewrite app_assoc, Ex, <- app_assoc. reflexivity. }
  pose proof (nrunnable_snoc _ _ _ _ HRm) as [HRp HC]. pose proof (nrunnable_strip _ _ _ HRp) as HRs. destruct HP as (ND & _ & _ & _).
  assert (M0 : mixture R0) by (eapply dinput_mixture; eauto).
  assert (HL : live (p_in p) (strip pre) n) by apply HC.
  set (m' := describe_measurement o m s t).
  assert (DE : forall b, nden user o (with_out w n b) (pre ++ [NC (CM n m s t)]) R0 = dapp (OMeas (mvec m' b) n) (nden user o w pre R0)).
  { intros b. rewrite nden_app. rewrite (nden_ext user (p_in p) pre o o (with_out w n b) w R0 HRp); auto.
    - simpl. unfold with_out. rewrite Nat.eqb_refl. reflexivity.
    - intros j Hj. unfold with_out. destruct (Nat.eqb_spec n j); auto. subst. destruct HL. tauto. }
  destruct (outs_of_live (p_in p) (strip pre) ND HRs) as [NDo OL].
  assert (In n (outs_of (p_in p) (strip pre))) as IN by (apply OL; auto).
  assert (EO : outs_of (p_in p) (strip (pre ++ [NC (CM n m s t)])) = lremove n (outs_of (p_in p) (strip pre))) by (rewrite outs_snoc, outs_of_app; reflexivity).
  pose proof (lremove_perm n _ IN) as PR.
  assert (ND2 : NoDup (n :: lremove n (outs_of (p_in p) (strip pre)))) by (eapply Permutation_NoDup; [exact PR|auto]). inversion ND2 as [|? ? NI ND3]; subst.
  assert (TOT : dtr (outs_of (p_in p) (strip pre)) (nden user o w pre R0) = W false + W true).
  { unfold W. rewrite !DE, EO. rewrite <- meas_total by auto. apply dtr_perm; auto. eapply perm_trans; [exact PR|apply Permutation_cons_append]. }
  assert (MW : forall b, exists r, (0 <= r)%R /\ W b = RtoC r) by (intros b; apply mixture_dtr, mixture_nden; auto).
  destruct (MW false) as (a & Ha & Ea). destruct (MW true) as (b & Hb & Eb). exists a, b. rewrite TOT, Ea, Eb, RtoC_add. do 5 (split; [auto; fail|]).
  intros p0 HP0 NZ. unfold dprob0 in HP0. fold (W false) in HP0. rewrite TOT, Ea, Eb, <- RtoC_add in HP0. apply (f_equal re) in HP0. cbn in HP0.
  assert (p0 = a / (a + b))%R as ->. { apply Rmult_eq_reg_r with (a + b)%R; auto. field_simplify; auto. lra. }
  split; auto. assert (0 < a + b)%R by lra. split; [apply Rmult_le_pos; [lra|apply Rlt_le, Rinv_0_lt_compat; auto]|]. apply Rmult_le_reg_r with (a + b)%R; auto. field_simplify; lra.
Qed.
Print Assumptions C48_probabilities.

(** * Agreement with the state-vector simulation *)
Lemma sim_step_res ord close1 sel g st c st' : sim_step ord close1 sel g st c = Ok st' ->
  match c with CM n _ _ _ => exists b, s_res st' = dset (s_res st) n b | _ => s_res st' = s_res st end.
Proof.
  destruct c as [n s|a b|n m s t|n dom|n dom|n cl|n d|]; cbn [sim_step]; intros H.
  - destruct (bk_add_nodes _ _ _ _) in H; [|discriminate]. injection H as <-. auto.
  - destruct (bk_entangle _ _ _ _) in H; [|discriminate]. injection H as <-. auto.
  - destruct (res_parity (s_res st) s) in H; [|discriminate]. destruct (res_parity (s_res st) t) in H; [|discriminate]. cbn [rbind] in H.
    destruct (bk_measure _ _ _ _ _ _ _) as [[[b o] k]|] in H; [|discriminate]. injection H as <-. exists o. auto.
  - destruct (res_parity (s_res st) dom) as [[|]|] in H; cbn [rbind] in H; [|injection H as <-; auto|discriminate].
    destruct (bk_apply_single _ _ _ _) in H; [|discriminate]. injection H as <-. auto.
  - destruct (res_parity (s_res st) dom) as [[|]|] in H; cbn [rbind] in H; [|injection H as <-; auto|discriminate].
    destruct (bk_apply_single _ _ _ _) in H; [|discriminate]. injection H as <-. auto.
  - destruct (bk_apply_single _ _ _ _) in H; [|discriminate]. injection H as <-. auto.
  - discriminate.
  - injection H as <-. auto.
Qed.

Lemma outc_ext_dset r n b : outc (dset r n b) n = b.
Proof. rewrite outc_dset. unfold with_out. rewrite Nat.eqb_refl. auto. Qed.
Lemma wt_pos inp psi0 pre st : NoDup inp -> Inv inp psi0 pre st -> wt (outs_of inp pre) (den (seq_ops (outc (s_res st)) pre) psi0) <> 0%R.
Proof.
  intros ND [I1 I2 I3 I4 I5 (c & I6)] E. pose proof (wt_amp _ _ _ _ _ I3 (proj1 I1) I6) as W. rewrite I5 in W.
  rewrite (wt_perm _ _ _ (proj1 I1) I2), E in W. lra.
Qed.
Lemma lockstep ord close1 psdb user sel g u inp d st0 st0' w0 l :
  (forall t n, sched (ord t n) n) -> close1 1%R = true -> NoDup inp ->
  Inv inp (input_state inp d) [] st0 -> DInv user inp (dinput inp (DPure d)) [] w0 st0' -> s_res st0 = d_res st0' -> s_rng st0 = 0%nat -> d_rng st0' = 0%nat ->
  runnable inp l -> (forall c, In c l -> simple c) ->
  match rfold (sim_step ord close1 sel g) l st0 with
  | Ok st => exists st' w, rfold (dm_step close1 psdb user sel g u None) (map NC l) st0' = Ok st' /\ s_res st = d_res st' /\ s_rng st = d_rng st' /\
      Inv inp (input_state inp d) l st /\ DInv user inp (dinput inp (DPure d)) (map NC l) w st' /\ (forall n, measured_in l n -> w n = outc (d_res st') n)
  | Err _ => True
  end.
Proof.
  intros HO HC ND H0 H0' E0 K0 K0'. induction l as [|c l IH] using rev_ind; intros HR HS.
  - simpl. exists st0', w0. repeat split; auto; try congruence; try apply H0; try apply H0'. intros n (? & ? & ? & []).
  - pose proof HR as HR0. apply runnable_snoc in HR as [HR HCc].
    assert (HSl : forall c, In c l -> simple c) by (intros x Hx; apply HS, in_or_app; auto).
    assert (HSc : simple c) by (apply HS, in_or_app; simpl; auto).
    specialize (IH HR HSl). rewrite rfold_app. destruct (rfold (sim_step ord close1 sel g) l st0) as [st|e]; auto.
    destruct IH as (st' & w & E & ER & EK & HI & HD & HW). rewrite map_app, rfold_app, E. cbn [rfold map].
    pose proof (nrunnable_map user inp (l ++ [c]) HR0 HS) as HN. rewrite map_app in HN. cbn [map] in HN.
    pose proof (nrunnable_map user inp l HR HSl) as HNl.
    assert (HH : herm (dinput inp (DPure d))) by (apply mixture_herm, (outer_mixture (input_state inp d))).
    assert (NS : no_S [c] = true) by (destruct c; auto; destruct HSc).
    assert (PK : prep_ok [c]) by (intros n v [->|[]]; apply HSc).
    pose proof (sim_step_inv ord HO close1 sel g inp (input_state inp d) ND l c st HR0 NS PK HI) as S1.
    pose proof (dm_step_inv close1 psdb user sel g u None inp (dinput inp (DPure d)) ND HH (map NC l) w (NC c) st' HC HN HD) as S2.
    destruct (sim_step ord close1 sel g st c) as [st1|e] eqn:ES; auto. destruct S1 as (HI1 & HK1 & HG & HM).
    pose proof (sim_step_res _ _ _ _ _ _ _ ES) as SR.
    (* the probability is the same in both simulations *)
    assert (PE : forall n m s t x, c = CM n m s t ->
      nden user (outc (d_res st')) (with_out w n x) (map NC l ++ [NC c]) (dinput inp (DPure d)) = outer (den (seq_ops (with_out (outc (s_res st)) n x) (l ++ [c])) (input_state inp d))).
    { intros n m s t x ->. rewrite ER.
      assert (NM : ~ measured_in l n) by apply HCc.
      rewrite (nden_ext user inp (map NC l ++ [NC (CM n m s t)]) (outc (d_res st')) (outc (d_res st')) (with_out w n x) (with_out (outc (d_res st')) n x) _ HN); auto.
      - rewrite (nden_app user). rewrite (nden_ext user inp (map NC l) (outc (d_res st')) (with_out (outc (d_res st')) n x) (with_out (outc (d_res st')) n x) (with_out (outc (d_res st')) n x) _ HNl); auto.
        + change (dinput inp (DPure d)) with (outer (input_state inp d)). rewrite nden_pure by auto. rewrite seq_ops_app, den_app.
          cbn [nden fold_left nstep]. rewrite dapp_outer. simpl seq_ops. cbn [den]. f_equal. f_equal. f_equal.
          unfold describe_measurement. destruct HCc as [_ HDm]. rewrite !(parity_ext (outc (d_res st')) (with_out (outc (d_res st')) n x)); auto;
          intros j Hj; unfold with_out; destruct (Nat.eqb_spec n j); auto; subst; exfalso; apply NM, HDm; auto.
        + rewrite strip_map. intros j Hj. unfold with_out. destruct (Nat.eqb_spec n j); auto. subst; tauto.
      - rewrite strip_app, strip_map. simpl. intros j Hj. unfold with_out. destruct (Nat.eqb_spec n j); auto. apply HW. apply measured_app in Hj as [Hj|Hj]; auto.
        apply measured_one in Hj. destruct Hj as (? & ? & ? & Hj). congruence. }
    assert (OUTS : outs_of inp (strip (map NC l ++ [NC c])) = outs_of inp (l ++ [c])) by (rewrite strip_app, strip_map; reflexivity).
    assert (PP : forall n m s t p0 p1, c = CM n m s t -> prob0 inp (input_state inp d) l c (outc (s_res st)) n p0 -> dprob0 user inp (dinput inp (DPure d)) (map NC l) (NC c) (outc (d_res st')) w n p1 -> p0 = p1).
    { intros n m s t p0 p1 EC P0 P1. unfold prob0 in P0. unfold dprob0 in P1. rewrite (PE n m s t false EC), OUTS, strip_map in P1.
      change (dinput inp (DPure d)) with (outer (input_state inp d)) in P1. rewrite nden_pure in P1 by auto. rewrite <- ER in P1.
      rewrite !dtr_outer in P1; [|apply (outs_of_live inp (l ++ [c]) ND HR0)|apply (outs_of_live inp l ND HR)].
      apply (f_equal re) in P1. cbn in P1. rewrite <- P0 in P1. pose proof (wt_pos _ _ _ _ ND HI) as W.
      apply Rmult_eq_reg_r with (wt (outs_of inp l) (den (seq_ops (outc (s_res st)) l) (input_state inp d))); auto. lra. }
    destruct (dm_step close1 psdb user sel g u None st' (NC c)) as [st1'|e].
    + destruct S2 as [(N & HI' & E1 & E2)|(n & m & s & t & p1 & b & k1 & EC & P & M & HI' & E1 & E2)].
      * assert (ND' : forall n m s t, c <> CM n m s t) by (intros n m s t ->; apply (N n m s t); auto).
        assert (SRe : s_res st1 = s_res st) by (destruct c; auto; destruct (ND' _ _ _ _ eq_refl)).
        exists st1', w. split; auto. split; [congruence|]. split; [rewrite HG; congruence|]. split; auto. split; auto.
        intros n Hn. rewrite E1. apply HW. apply measured_app in Hn as [Hn|Hn]; auto. apply measured_one in Hn. destruct Hn as (? & ? & ? & Hn). congruence.
      * injection EC as EC. destruct (HM _ _ _ _ EC) as (p0 & P0 & M0). assert (p0 = p1) by (eapply PP; eauto). subst p1. rewrite <- EK in M. rewrite M in M0. injection M0 as E3 E4.
        rewrite EC in SR. destruct SR as (b' & SR). rewrite SR, outc_ext_dset in E3. subst b'. cbn [conf_opt fst snd] in E1, E2.
        exists st1', (with_out w n b). split; auto. split; [congruence|]. split; [congruence|]. split; auto. split; auto.
        intros j Hj. rewrite E1, outc_dset. unfold with_out. destruct (Nat.eqb_spec n j); auto. apply HW. apply measured_app in Hj as [Hj|Hj]; auto.
        rewrite EC in Hj. apply measured_one in Hj. destruct Hj as (? & ? & ? & Hj). congruence.
    + exfalso. destruct S2 as (n & m & s & t & p1 & EC & P & K). injection EC as EC. destruct (HM _ _ _ _ EC) as (p0 & P0 & M0). assert (p0 = p1) by (eapply PP; eauto). subst p1.
      rewrite <- EK in K. rewrite M0 in K. destruct K as [K|(_ & x & k' & K & Z)]; [discriminate|]. injection K as <- <-.
      rewrite (PE n m s t _ EC), OUTS in Z. rewrite dtr_outer in Z by apply (outs_of_live inp (l ++ [c]) ND HR0). apply (f_equal re) in Z. cbn in Z.
      rewrite EC in SR. destruct SR as (b' & SR). pose proof (wt_pos _ _ _ _ ND HI1) as W. rewrite SR in *. rewrite outc_ext_dset in Z. rewrite outc_dset in W. auto.
Qed.
(** Without noise model, whenever the state-vector simulation succeeds, the
    density-matrix simulation with the same selector and random values succeeds
    with the same outcomes, and returns |psi><psi|. *)
Theorem C48_agrees : forall ord close1 psdb user sel g u p d st,
  (forall t n, sched (ord t n) n) -> close1 1%R = true -> dm_pattern p -> data_ok d (length (p_in p)) ->
  sim_run ord close1 sel g p d = Ok st ->
  exists st', dm_run close1 psdb user sel g u None p (DPure d) = Ok st' /\
    d_res st' = s_res st /\ d_rng st' = s_rng st /\ ni_list (d_ni st') = p_out p /\ dm_n (d_dm st') = length (p_out p) /\
    forall i j, (i < 2 ^ length (p_out p))%nat -> (j < 2 ^ length (p_out p))%nat ->
      dm_rho (d_dm st') i j = sv_psi (b_sv (s_bk st)) i * Cconj (sv_psi (b_sv (s_bk st)) j).
Proof.
  intros ord close1 psdb user sel g u p d st HO HC HP HD HRun.
  destruct HP as (ND & HW & HR & HS).
  destruct (init_inv close1 (p_in p) d ND HC HD) as (b & Eb & HI).
  destruct (init_dinv close1 psdb user (p_in p) (DPure d) (fun _ => false) ND HC HD) as (s0 & E0 & HI0).
  pose proof (lockstep ord close1 psdb user sel g u (p_in p) d (Sim b [] 0) _ _ (p_seq p) HO HC ND HI HI0 eq_refl eq_refl eq_refl HR HS) as L.
  unfold sim_run in HRun. rewrite Eb in HRun. cbn [rbind] in HRun. rewrite (proj2 (check_runnability_spec p) HR) in HRun. cbn [rbind] in HRun.
  destruct (rfold (sim_step ord close1 sel g) (p_seq p) _) as [st1|e]; [|discriminate]. destruct L as (st1' & w & E & ER & EK & I & D & HWO). cbn [rbind] in HRun.
  pose proof I as [I1 I2 I3 I4 I5 (c & I6)]. pose proof D as [D1 D2 D3 D4 D5 (k & D6)]. rewrite strip_map in D2.
  assert (PM : Permutation (p_out p) (ni_list (b_ni (s_bk st1)))) by (eapply perm_trans; [exact HW|apply Permutation_sym; auto]).
  assert (PM' : Permutation (p_out p) (ni_list (d_ni st1'))) by (eapply perm_trans; [exact HW|apply Permutation_sym; auto]).
  destruct (finalize_ok (s_bk st1) (p_out p) I1 PM I3) as (b' & Ef & F1 & F2 & F3 & F4 & F5). rewrite Ef in HRun. cbn [rbind] in HRun. injection HRun as <-.
  destruct (dfinalize_ok st1' (p_out p) D1 PM' D3) as (s & Ef' & Nf & Lf).
  unfold dm_run. rewrite E0. cbn [rbind]. rewrite (proj2 (check_runnability_spec p) HR). cbn [rbind]. rewrite E. cbn [rbind]. rewrite Ef'.
  eexists. split; [reflexivity|]. cbn [d_dm d_ni d_res d_rng s_bk s_res s_rng]. do 4 (split; [auto; fail|]).
  assert (NDo : NoDup (p_out p)) by (eapply Permutation_NoDup; [apply Permutation_sym; exact PM|apply I1]).
  assert (EN : sv_n (b_sv b') = length (p_out p)) by (rewrite F3, I3; symmetry; apply Permutation_length; auto). rewrite EN in F4, F5.
  change (dinput (p_in p) (DPure d)) with (outer (input_state (p_in p) d)) in D6. rewrite nden_pure in D6 by auto. rewrite <- ER in D6.
  set (Psi := den (seq_ops (outc (s_res st1)) (p_seq p)) (input_state (p_in p) d)) in *.
  (* both are normalised *)
  assert (W1 : (Cnorm2 c * wt (p_out p) Psi = 1)%R).
  { rewrite (wt_perm _ _ _ NDo PM). rewrite <- (wt_amp _ _ _ _ _ I3 (proj1 I1) I6). auto. }
  assert (W2 : k * RtoC (wt (p_out p) Psi) = C1).
  { rewrite <- dtr_outer by auto. rewrite (dtr_perm _ _ _ NDo PM'). rewrite <- (trace_lift _ _ _ _ _ D3 (proj1 D1) D6). auto. }
  assert (EKc : k = RtoC (Cnorm2 c)).
  { transitivity (k * RtoC (wt (p_out p) Psi) * RtoC (Cnorm2 c)); [|rewrite W2; ring]. transitivity (k * RtoC (Cnorm2 c * wt (p_out p) Psi)); [rewrite W1; change (RtoC 1) with C1; ring|].
    rewrite RtoC_mul. ring. }
  intros i j Hi Hj. set (n := length (p_out p)) in *.
  assert (EI : forall i, (i < 2 ^ n)%nat -> i = idx n (pull (p_out p) (place (p_out p) (bits n i)))).
  { intros x Hx. rewrite <- (idx_bits n x Hx) at 1. apply idx_ext. intros q Hq. symmetry. apply pull_place; auto. }
  rewrite (EI i Hi), (EI j Hj). set (f := place (p_out p) (bits n i)). set (h := place (p_out p) (bits n j)).
  pose proof (Lf f h) as L1. rewrite D6 in L1. unfold drep in L1. rewrite L1.
  pose proof (F5 f) as L2. pose proof (F5 h) as L3. rewrite I6 in L2, L3. unfold rep in L2, L3. rewrite L2, L3, EKc, <- Cnorm2_mulconj. unfold outer. rewrite Cconj_mul. ring.
Qed.
Print Assumptions C48_agrees.

(** * Noise of probability zero *)
Lemma sq_0 : sq 0 = C0.
Proof. unfold sq. rewrite sqrt_0. reflexivity. Qed.
Lemma sq_1 : sq (1 - 0) = C1.
Proof. unfold sq. rewrite Rminus_0_r, sqrt_1. reflexivity. Qed.
Lemma sq_03 : sq (0 / 3) = C0.
Proof. unfold sq. replace (0 / 3)%R with 0%R by field. rewrite sqrt_0. reflexivity. Qed.
Lemma sq_015 : sq (0 / 15) = C0.
Proof. unfold sq. replace (0 / 15)%R with 0%R by field. rewrite sqrt_0. reflexivity. Qed.
Lemma ad_k1_0 : ad_k1 0 = mid.
Proof. unfold ad_k1. rewrite sq_1. reflexivity. Qed.
Lemma conj1_ad0 n R f h : conj1 (ad_k2 0) n R f h = C0.
Proof. unfold conj1, ad_k2. rewrite sq_0. destruct (f n), (h n); cbn; ring. Qed.
Lemma zero_channel a ns R : (match a with Dep1 p | Dep2 p | Damp1 p | Damp2 p => p = 0%R | NUser _ _ => False end) -> length ns = noise_nqubits a -> NoDup ns ->
  forall user, dchan (noise_data user a) ns R = R.
Proof.
  intros H L ND user. extensionality f. extensionality h. unfold dchan.
  assert (Z : forall (d : list (mat2 * mat2)) F, csum (map (fun UV => (C0, kronm (m2 (fst UV)) (snd UV))) d) (fun d => fst d * Cconj (fst d) * F d) = C0).
  { induction d as [|x d IH]; intros F; [reflexivity|]. cbn [map]. unfold csum in *. cbn [fst]. simpl. rewrite IH. ring. }
  destruct a as [p|p|p|p|]; [| | | |destruct H]; subst p; cbn [noise_data noise_nqubits] in *.
  - destruct ns as [|n [|]]; try discriminate. unfold depolarising. rewrite sq_1, sq_03. unfold csum. simpl. rewrite conjk_1, conj1_mid, Cconj_1. ring.
  - destruct ns as [|n [|n2 [|]]]; try discriminate. inversion ND as [|? ? N _]; subst. unfold two_qubit_depolarising. rewrite sq_1, sq_015.
    match goal with |- csum (?x :: ?l) ?F = _ => transitivity (F x + csum l F); [reflexivity|] end. rewrite (Z _ (fun d => conjk (snd d) [n; n2] R f h)).
    cbn [fst snd]. rewrite conjk_2, !conj1_mid, Cconj_1 by (intros ->; apply N; simpl; auto). ring.
  - destruct ns as [|n [|]]; try discriminate. unfold amplitude_damping. rewrite ad_k1_0. unfold csum. simpl. rewrite !conjk_1, conj1_mid, conj1_ad0, Cconj_1. ring.
  - destruct ns as [|n [|n2 [|]]]; try discriminate. inversion ND as [|? ? N _]; subst. assert (NE : n <> n2) by (intros ->; apply N; simpl; auto).
    unfold two_qubit_amplitude_damping. rewrite ad_k1_0. unfold csum. simpl. rewrite !conjk_2 by auto. rewrite !conj1_ad0, !conj1_mid, conj1_ad0, Cconj_1. ring.
Qed.
(** A noise model all of whose channel probabilities are zero does not change
    the operator of any branch. *)
Theorem C48_zero_noise : forall user m p l o w R0,
  dm_pattern p -> (forall lf pr, In lf (leaves m) -> In pr [np_prepare; np_x; np_z; np_ent; np_mchan] -> pr (snd lf) = 0%R) ->
  noisy_seq m p true = Ok l -> nden user o w l R0 = nden user o w (map NC (p_seq p)) R0.
Proof.
  intros user m p l o w R0 HP HZ El.
  assert (HN : probs_ok (Some m)) by (intros lf pr H1 H2; rewrite (HZ lf pr H1 H2); lra).
  destruct (run_seq_ok user (Some m) p HP HN) as (l' & E' & HR & HS). cbn [run_seq] in E'. rewrite El in E'. injection E' as <-.
  assert (NZ : forall a, In (NA a) l -> match an_noise a with Dep1 p | Dep2 p | Damp1 p | Damp2 p => p = 0%R | NUser _ _ => False end).
  { intros a I. unfold noisy_seq in El. rewrite nm_transpile_spec in El. unfold spec_seq in El. destruct (_ && _); [discriminate|]. cbn [rbind] in El. injection El as <-.
    assert (D : forall lf pr, In lf (leaves m) -> In pr [np_prepare; np_x; np_z; np_ent; np_mchan] -> an_noise a = one lf pr \/ an_noise a = two lf pr ->
      match an_noise a with Dep1 p | Dep2 p | Damp1 p | Damp2 p => p = 0%R | NUser _ _ => False end).
    { intros lf pr I1 I2 [->| ->]; unfold one, two; destruct (fst lf); apply HZ; auto. }
    apply in_app_or in I as [I|I].
    - rewrite C34_input_components in I. apply in_flat_map in I as (lf & I1 & I). apply in_map_iff in I as (n & EA & _). injection EA as <-. eapply D; [exact I1| |left; reflexivity]. simpl; auto.
    - apply in_flat_map in I as (c & Ic & I). apply in_map_iff in Ic as (c0 & <- & Hc). unfold around in I.
      apply in_app_or in I as [I|[I|I]]; [|discriminate|]; apply in_flat_map in I as (lf & Il & I).
      + destruct c0; simpl in I; try tauto. destruct I as [I|[]]. injection I as <-. eapply D; [exact Il| |left; reflexivity]. simpl; auto 8.
      + apply in_rev in Il. destruct c0; simpl in I; try tauto; destruct I as [I|[]]; injection I as <-.
        * eapply D; [exact Il| |left; reflexivity]. simpl; auto 8.
        * eapply D; [exact Il| |right; reflexivity]. simpl; auto 8.
        * eapply D; [exact Il| |left; reflexivity]. simpl; auto 8.
        * eapply D; [exact Il| |left; reflexivity]. simpl; auto 8. }
  rewrite <- HS. clear El HS. revert HR NZ. induction l as [|c l IH] using rev_ind; auto. intros HR NZ. apply nrunnable_snoc in HR as [HR HC].
  rewrite strip_app, map_app, !nden_app, IH by (auto; intros; apply NZ, in_or_app; auto). destruct c as [c|a]; [reflexivity|].
  cbn [strip flat_map app map nden fold_left nstep]. destruct (match an_dom a with None => true | Some d => parity o d end); auto.
  destruct HC as (_ & ND & L & _). apply zero_channel; auto. apply NZ, in_or_app; simpl; auto.
Qed.
Print Assumptions C48_zero_noise.

(** * Entangling a node with itself *)
(** The runnability check accepts E(n, n); the state-vector backend applies it
    (a Z on the node), the density-matrix backend raises ValueError. *)
Theorem C48_self_edge_refuted : forall ord close1 psdb user sel g u d,
  (forall t n, sched (ord t n) n) -> close1 1%R = true -> data_ok d 1 ->
  let p := Pat [0%nat] [CE 0 0] [0%nat] 1 in
  check_runnability p = Ok tt /\ (exists st, sim_run ord close1 sel g p d = Ok st) /\ dm_run close1 psdb user sel g u None p (DPure d) = Err EValue.
Proof.
  intros ord close1 psdb user sel g u d HO HC HD p.
  assert (HR : check_runnability p = Ok tt) by reflexivity. split; auto.
  assert (ND : NoDup (p_in p)) by (repeat constructor; auto).
  split.
  - pose proof (sim_run_spec ord close1 sel g p d HO HC ND) as S. destruct (sim_run ord close1 sel g p d) as [st|e]; eauto. exfalso.
    destruct S as (a & n & m & s & t & b & o & k & p0 & E & _); auto.
    + unfold pat_wf. simpl. auto.
    + apply (check_runnability_spec p); auto.
    + intros n v [H|[]]; discriminate.
    + destruct a as [|? [|]]; discriminate.
  - unfold dm_run. destruct (init_dinv close1 psdb user (p_in p) (DPure d) (fun _ => false) ND HC HD) as (s0 & E0 & [_ _ I3 _ _ _]). rewrite E0. cbn [rbind]. rewrite HR. cbn [rbind].
    simpl p_seq. cbn [map rfold dm_step d_ni]. simpl ni_index. cbn [rbind]. unfold dm_entangle, dm_evolve_chk, evolve_ok. cbn [d_dm] in *. simpl in I3. rewrite I3. reflexivity.
Qed.
Print Assumptions C48_self_edge_refuted.

(** a pattern with all kinds of commands, run under a composed noise model *)
Example C48_case : forall P Q m,
  (forall pr, In pr [np_prepare; np_x; np_z; np_ent; np_mchan] -> (0 <= pr P <= 1)%R /\ (0 <= pr Q <= 1)%R) ->
  let p := Pat [0%nat] [CN 1 SPlus; CE 0 1; CM 0 m sempty sempty; CX 1 (sing 0); CC 1 K1] [1%nat] 2 in
  dm_pattern p /\ probs_ok (Some (NMComp [NMDep P; NMComp [NMless; NMDamp Q]])) /\ ddata_ok (fun _ _ => true) (DPure (DState SPlus)) (length (p_in p)).
Proof.
  intros P Q m H p. split; [|split].
  - split; [repeat constructor; auto|]. split; [unfold pat_wf; simpl; auto|]. split; [apply (check_runnability_spec p); reflexivity|].
    intros c Hc. simpl in Hc. repeat (destruct Hc as [<-|Hc]; [simpl; auto; discriminate|]). destruct Hc.
  - intros lf pr [<-|[<-|[]]] I; apply H; auto.
  - apply vnorm2_plus.
Qed.
