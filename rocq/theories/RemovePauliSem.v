(** The pattern rebuilt after the removal of Pauli measurements. *)
From Coq Require Import Reals Lra Arith List Bool Lia Permutation Setoid Morphisms FunctionalExtensionality.
From Verif Require Import Cplx Mat2 Fundamentals CliffordDb Clifford NSet Measure QState Pattern Layer Standardize Shift OpenGraph FlowSem FlowWF GState GraphSimThm Push RemovePauli RemovePauliThm Reindex.
Import ListNotations.
Local Arguments app_op : simpl never.

Lemma clifford_mul_K0_l c : clifford_mul K0 c = c.
Proof. destruct c; reflexivity. Qed.
Lemma pauli_clifford_K0 a s : pauli_clifford a s K0 = (a, s).
Proof. destruct a, s; reflexivity. Qed.
Lemma pauli_at_In l n a s : pauli_at l n = Some (a, s) -> exists m, In m l /\ mc_node m = n /\ mc_meas m = MPauli a s.
Proof.
  induction l as [|m l IH]; [discriminate|]. cbn [pauli_at]. destruct (pauli_at l n) as [r|].
  - intros H. destruct (IH H) as (m' & A & B). exists m'. split; [right|]; auto.
  - destruct (Nat.eqb_spec (mc_node m) n) as [E|]; [|discriminate]. destruct (mc_meas m) eqn:M; [discriminate|]. intros [= <- <-]. exists m. split; [left|]; auto.
Qed.
Lemma pauli_at_get l m a s : NoDup (map mc_node l) -> In m l -> mc_meas m = MPauli a s -> pauli_at l (mc_node m) = Some (a, s).
Proof.
  induction l as [|m0 l IH]; [intros _ []|]. intros ND H E. inversion ND as [|? ? N1 N2]; subst. cbn [pauli_at]. destruct H as [->|H].
  - destruct (pauli_at l (mc_node m)) as [[a' s']|] eqn:Q.
    + exfalso. apply pauli_at_In in Q. destruct Q as (m' & A & B & _). apply N1. rewrite <- B. apply in_map; auto.
    + rewrite Nat.eqb_refl, E. auto.
  - rewrite (IH N2 H E). auto.
Qed.

Section Start.
Variables (it : iter) (IT : iter_ok it) (leave : nset) (st : stdp).
Hypotheses (W : std_wf st) (SO : std_out_ok st) (NI : NoDup (sp_in st)) (NLoop : forall e, In e (sp_e st) -> fst e <> snd e).
Let c := push_cut leave st.
Let st1 := pauli_push leave st.
Let inp := of_list (sp_in st).
Let L0 := std_nodes st.
Let P0 := pauli_at (ct_pauli c).
Let x0 := dz (sp_x st1).
Let z0 := dz (sp_z st1).
Lemma inp_mem n : mem n inp = true <-> In n (sp_in st).
Proof. apply mem_of_list. Qed.
Lemma L0_node n : In n L0 <-> std_node st n.
Proof. unfold L0, std_nodes, std_node. rewrite in_app_iff. tauto. Qed.
Lemma L0_N : NoDup L0.
Proof. unfold L0, std_nodes. apply NoDup_app; auto; [apply W|]. intros x A B. apply (sw_nin _ W x B A). Qed.
Lemma st1_wf : std_wf st1.
Proof. apply push_wf; auto. Qed.
Lemma pauli_meas m : In m (ct_pauli c) -> std_meas st1 (mc_node m).
Proof. intros H. unfold std_meas, st1, pauli_push, cut_std. cbn [sp_m]. rewrite map_app, in_app_iff. left. apply in_map; auto. Qed.
Lemma st1_node n : std_node st1 n <-> std_node st n.
Proof. reflexivity. Qed.
Lemma pauli_N : NoDup (map mc_node (ct_pauli c)).
Proof. pose proof (sw_mN _ st1_wf) as H. unfold st1, pauli_push, cut_std in H. cbn [sp_m] in H. rewrite map_app in H. fold c in H. clear - H. induction (map mc_node (ct_pauli c)) as [|a l IH]; [constructor|]. inversion H; subst. constructor; [|apply IH; auto]. intros K. apply H2. apply in_or_app; auto. Qed.
Lemma P0_ok n a s : P0 n = Some (a, s) -> In n L0 /\ ~ In n (sp_out st).
Proof.
  intros H. apply pauli_at_In in H. destruct H as (m & A & <- & _). pose proof (pauli_meas m A) as M. split; [apply L0_node, st1_node, (sw_mn _ st1_wf); auto|].
  intros K. assert (K' : In (mc_node m) (sp_out st1)) by exact K. apply (push_out_ok leave st W SO) in K'. tauto.
Qed.
Lemma E0_ok : es_ok (sp_e st).
Proof.
  split; auto. assert (E : map edge_norm (sp_e st) = sp_e st). { rewrite <- map_id. apply map_ext_in. intros e He. apply (sw_e _ W e He). } rewrite E. apply W.
Qed.
Lemma init_rinv : rinv inp L0 (sp_out st) P0 (cc st) x0 z0 (sp_e st) (fun _ => K0) (rp_init st c).
Proof.
  pose proof L0_N as LN. pose proof E0_ok as EO. assert (EI : es_in L0 (sp_e st)). { intros e He. rewrite !L0_node. destruct (sw_e _ W e He) as (A & B & _). auto. }
  constructor; cbn [rp_init rp_L rp_es rp_src rp_map rp_sets rp_out]; fold L0; auto.
  - intros a b H; exact H.
  - intros v Hv. apply inp_mem in Hv. unfold L0, std_nodes. apply in_or_app; auto.
  - intros n v. destruct (lmem n L0) eqn:E.
    + apply lmem_In in E. split; [intros [= <-]; auto|intros [_ ->]; auto].
    + split; [discriminate|]. intros [A <-]. apply lmem_In in A. congruence.
  - split; cbn [rp_init rp_L rp_src rp_sets rp_pm]; fold L0 inp P0.
    + intros w ax Hw Hi. apply eq_true_iff_eq. rewrite mem_of_list, filter_In, Hi. cbn [negb andb]. unfold has_ax. destruct (P0 w) as [[a s]|] eqn:E; [|split; [intros []; auto|discriminate]].
      split; [tauto|]. intros H. split; auto. apply pauli_at_In in E. destruct E as (m & A & <- & _). apply in_map; auto.
    + intros n ax H. rewrite mem_of_list, filter_In in H. destruct H as [H1 H2]. apply andb_true_iff in H2. destruct H2 as [H2 H3]. exists n. destruct (P0 n) as [[a s]|] eqn:E; [|discriminate]. apply P0_ok in E. apply negb_true_iff in H2. tauto.
  - intros v Hv. unfold nodeok, rspec. cbn [rp_init rp_cl rp_dom rp_pm fst snd]. split; [rewrite clifford_mul_K0_r; auto|]. split; [auto|]. split.
    + intros o. rewrite clifford_mat_I, mmul_1_l, mmul_1_r. apply meqp_refl.
    + fold P0. destruct (P0 v) as [[a s]|]; auto. rewrite pauli_clifford_K0. auto.
  - intros v. rewrite mem_of_list. split; [|tauto]. intros H. split; auto. apply L0_node. apply SO. auto.
  - intros n Hn. exists n. split; auto. apply L0_node. apply SO. auto.
  - rewrite map_id. auto.
Qed.
Lemma init_sinv : sinv inp L0 (sp_e st) P0 (sp_e st) (fun _ => K0) (rp_init st c) [] L0.
Proof.
  split; [apply Permutation_refl|]. split. { intros n. cbn [rp_init rp_L rp_src]. fold L0. split; [intros H; exists n; auto|intros (v & H & <-); auto]. } split; [intros k []|].
  cbn [kmeas map]. unfold gops. apply leq_on_app; [apply leq_on_refl|]. symmetry. unfold clayer. apply layer_id. intros; apply clifford_mat_I.
Qed.
Lemma init_inv : inv inp L0 (sp_out st) (sp_e st) P0 (cc st) x0 z0 (rp_init st c).
Proof. exists (sp_e st), (fun _ => K0), [], L0. split; [apply init_rinv|apply init_sinv]. Qed.
(** the loop, then the removal of isolated nodes *)
Definition rp_exit (r : rp) : Prop :=
  forall v a s, In v (rp_L r) -> mem v inp = false -> rp_pm r v = Some (a, s) -> a = AX /\ (exists w, mem w (nb (rp_es r) v) = true) /\ forall w, mem w (nb (rp_es r) v) = true -> mem w inp = true.
Lemma run_ok : exists r1 r2 eo D K J Lo, rp_loop it inp (2 * length L0 + 2) (rp_init st c) = Some r1 /\ remove_isolated inp r1 = Some r2 /\
  rinv inp L0 (sp_out st) P0 (cc st) x0 z0 eo D r2 /\ sfin inp L0 (sp_out st) (sp_e st) P0 eo D r2 K J Lo /\ rp_exit r2 /\ (isolated inp r1 = [] -> J = []).
Proof.
  destruct (loop_ok it IT inp L0 (sp_out st) (sp_e st) P0 (cc st) x0 z0 L0_N P0_ok (2 * length L0 + 2) (rp_init st c) init_inv) as (r1 & E1 & I1 & X1 & X2 & X3).
  { cbn [rp_init rp_L]. fold L0. destruct (is_empty _); lia. }
  pose proof (inv_sets _ _ _ _ _ _ _ _ r1 I1) as ((S1 & _) & HM & NL & EI). destruct I1 as (eo & D & K & Lo & I & S).
  destruct (remove_nodes_ok inp L0 (sp_out st) (sp_e st) P0 (cc st) x0 z0 L0_N (isolated inp r1)) with (eo := eo) (D := D) (r := r1) (K := K) (J := @nil nat) (Lo := Lo) as (r2 & eo' & J & Lo' & E2 & I2 & S2 & C1 & C2 & C3 & C4 & C5); auto.
  - unfold isolated. apply NoDup_filter; auto.
  - apply sinv_sfin. auto.
  - intros u Hu. unfold isolated in Hu. apply filter_In in Hu. destruct Hu as [A B]. rewrite !andb_true_iff, !negb_true_iff in B. tauto.
  - exists r1, r2, eo', D, K, J, Lo'. split; auto. split; auto. split; auto. split; auto. split; [|intros H; apply C2; auto].
    intros v a s Hv Hi HP. assert (HP1 : rp_pm r1 v = Some (a, s)). { pose proof (C4 v) as E. unfold rspec in E. congruence. } pose proof Hv as Hv'. apply C1 in Hv. destruct Hv as [Hv NIs].
    pose proof (S1 v a Hv Hi) as M. rewrite HP1 in M. cbn [has_ax] in M. rewrite axis_eqb_refl in M.
    assert (EA : a = AX). { destruct a; auto; [rewrite (is_empty_mem _ X1) in M|rewrite (is_empty_mem _ X2) in M]; discriminate. } subst a. split; auto.
    assert (HI : forall w, mem w (nb (rp_es r1) v) = true -> mem w inp = true) by (intros w Hw; apply (X3 (rp_src r1 v) v w M); auto; apply HM; auto).
    assert (NO : mem v (rp_out r1) = false). { destruct (mem v (rp_out r1)) eqn:Q; auto. apply (ri_out _ _ _ _ _ _ _ _ _ _ I) in Q. destruct Q as [_ Q]. exfalso. pose proof (pm_P0 _ _ _ _ _ _ _ _ _ _ _ I Hv) as Z. rewrite HP1 in Z. destruct (P0 (rp_src r1 v)) as [[a0 s0]|] eqn:Q0; [|discriminate]. apply P0_ok in Q0. tauto. }
    assert (NE : is_empty (nb (rp_es r1) v) = false). { destruct (is_empty (nb (rp_es r1) v)) eqn:Q; auto. exfalso. apply NIs. unfold isolated. apply filter_In. rewrite Q, Hi, NO. auto. }
    assert (EX : exists w, mem w (nb (rp_es r1) v) = true). { destruct (elems (nb (rp_es r1) v)) as [|w l] eqn:Q. - exfalso. assert (Z : is_empty (nb (rp_es r1) v) = true); [|congruence]. apply is_empty_spec, nset_ext. intros n. rewrite mem_empty. apply not_true_iff_false. rewrite <- elems_spec, Q. intros []. - exists w. apply elems_spec. rewrite Q. left; auto. }
    assert (INL : forall w, mem w inp = true -> In w (rp_L r2)) by apply (ri_inpL _ _ _ _ _ _ _ _ _ _ I2).
    split.
    + destruct EX as (w & Hw). exists w. rewrite C5; auto.
    + intros w Hw. apply HI. rewrite <- C5; auto. eapply nb_in; [apply (ri_ei _ _ _ _ _ _ _ _ _ _ I2)|eauto].
Qed.
End Start.
