(** The pattern rebuilt after the removal of Pauli measurements: well-formedness
    and semantics. *)
From Coq Require Import Reals Lra Arith List Bool Lia Permutation Setoid Morphisms FunctionalExtensionality.
From Verif Require Import Cplx Mat2 Fundamentals CliffordDb Clifford NSet Measure QState Pattern Layer Standardize Shift OpenGraph FlowSem FlowWF OGMap GState GraphSimThm Push RemovePauli RemovePauliThm RemovePauliSem Reindex RunBranch.
Import ListNotations.
Local Arguments app_op : simpl never.

(** * Generic lemmas *)
Definition mv (o : nat -> bool) (m : mcmd) : vec2 := mvec (describe_measurement o (mc_meas m) (mc_s m) (mc_t m)) (o (mc_node m)).
Lemma m_ops_mv o ms : m_ops o ms = map (fun m => OMeas (mv o m) (mc_node m)) ms.
Proof. unfold m_ops, seq_ops. induction ms as [|m ms IH]; auto. cbn [map flat_map]. rewrite IH. destruct m; reflexivity. Qed.
Lemma m_ops_perm o ms ms' : NoDup (map mc_node ms) -> Permutation ms ms' -> m_ops o ms ≈ m_ops o ms'.
Proof. intros N P. rewrite !m_ops_mv. apply (meas_ops_perm (mv o) mc_node); auto. Qed.
Lemma m_ops_app o a b : m_ops o (a ++ b) = m_ops o a ++ m_ops o b.
Proof. unfold m_ops. rewrite map_app, seq_ops_app. auto. Qed.
Lemma meas_as_nodes V o ms K : NoDup (map mc_node ms) -> NoDup K -> (forall k, In k K <-> In k (map mc_node ms)) -> (forall m, In m ms -> mv o m ~v V (mc_node m)) ->
  m_ops o ms ≈ map (fun k => OMeas (V k) k) K.
Proof.
  intros N NK H HV. transitivity (map (fun k => OMeas (V k) k) (map mc_node ms)).
  - rewrite m_ops_mv, map_map. clear - HV. induction ms as [|m ms IH]; [reflexivity|]. cbn [map]. rewrite IH by (intros; apply HV; right; auto).
    apply (leq_app_r [_] [_]). apply meas_veqp, HV. left; auto.
  - apply (meas_ops_perm V (fun k => k)); [rewrite map_id; auto|]. apply NoDup_Permutation; auto. intros k. rewrite H. tauto.
Qed.
Lemma dcomp_get {A} (keep : A -> bool) f l n : dget (dcomp keep f l) n = if lmem n l && keep (f n) then Some (f n) else None.
Proof.
  induction l as [|a l IH]; auto. unfold dcomp in *. cbn [flat_map]. unfold lmem. cbn [existsb]. fold (lmem n l). destruct (keep (f a)) eqn:K; cbn [app dget].
  - rewrite (Nat.eqb_sym n a). destruct (Nat.eqb_spec a n) as [->|]; [rewrite K; auto|]. rewrite IH. auto.
  - rewrite IH. destruct (Nat.eqb_spec n a) as [->|]; auto. rewrite K, !andb_false_r. auto.
Qed.
Lemma dcomp_keys {A} (keep : A -> bool) f l n : In n (dkeys (dcomp keep f l)) -> In n l.
Proof.
  unfold dkeys, dcomp. rewrite in_map_iff. intros ([k a] & E & H). cbn in E. subst k. apply in_flat_map in H. destruct H as (x & Hx & H). destruct (keep (f x)); [|destruct H]. destruct H as [H|[]]. congruence.
Qed.
Lemma dcomp_N {A} (keep : A -> bool) f l : NoDup l -> NoDup (dkeys (dcomp keep f l)).
Proof.
  induction l as [|a l IH]; intros N; [constructor|]. inversion N; subst. unfold dcomp, dkeys in *. cbn [flat_map]. destruct (keep (f a)); cbn [app map]; auto. constructor; auto.
  intros K. apply (dcomp_keys keep f l) in K. auto.
Qed.
Lemma map_domain_In nm d v : mem v (map_domain nm d) = true <-> exists n, mem n d = true /\ nm n = Some v.
Proof.
  unfold map_domain. rewrite mem_of_list, in_flat_map. split; intros (n & A & B); exists n; rewrite elems_spec in *; (split; [auto|]).
  - destruct (nm n); [|destruct B]. destruct B as [->|[]]. auto.
  - rewrite B. left; auto.
Qed.
Lemma map_domain_parity nm o' d : (forall a b v, nm a = Some v -> nm b = Some v -> a = b) ->
  parity o' (map_domain nm d) = parity (fun n => match nm n with Some v => o' v | None => false end) d.
Proof.
  intros HI. unfold parity. set (fl := fun l => flat_map (fun n => match nm n with Some v => [v] | None => [] end) l).
  assert (P : Permutation (elems (map_domain nm d)) (fl (elems d))).
  { apply NoDup_Permutation; [apply elems_NoDup| |].
    - pose proof (elems_NoDup d) as N. induction (elems d) as [|a l IH]; [constructor|]. inversion N; subst. unfold fl in *. cbn [flat_map]. destruct (nm a) as [v|] eqn:E; cbn [app]; auto.
      constructor; auto. rewrite in_flat_map. intros (b & Hb & K). destruct (nm b) as [w|] eqn:E'; [|destruct K]. destruct K as [->|[]]. assert (E2 : a = b) by (eapply HI; eauto). subst b. auto.
    - intros n. rewrite elems_spec. unfold map_domain. rewrite mem_of_list. reflexivity. }
  rewrite (xorsum_perm _ _ _ P). clear P. induction (elems d) as [|a l IH]; auto. unfold fl in *. cbn [flat_map]. rewrite xorsum_app, IH. cbn [xorsum fold_right]. destruct (nm a); cbn [xorsum fold_right]; rewrite ?xorb_false_r, ?xorb_false_l; auto.
Qed.
Lemma map_all_spec nm l : (forall n, In n l -> nm n <> None) -> exists l', map_all nm l = Some l' /\ Forall2 (fun n v => nm n = Some v) l l'.
Proof.
  induction l as [|a l IH]; intros H; [exists []; auto|]. destruct IH as (l' & E & F); [intros; apply H; right; auto|]. cbn [map_all]. destruct (nm a) as [v|] eqn:Ea; [|exfalso; apply (H a); simpl; auto]. rewrite E. eauto.
Qed.
Lemma Forall2_In_l {A B} (R : A -> B -> Prop) l l' a : Forall2 R l l' -> In a l -> exists b, In b l' /\ R a b.
Proof. induction 1; intros []; subst; [eexists; split; [left|]; eauto|]. destruct IHForall2 as (b & ? & ?); auto. exists b. split; [right|]; auto. Qed.
Lemma Forall2_In_r {A B} (R : A -> B -> Prop) l l' b : Forall2 R l l' -> In b l' -> exists a, In a l /\ R a b.
Proof. induction 1; intros []; subst; [eexists; split; [left|]; eauto|]. destruct IHForall2 as (a & ? & ?); auto. exists a. split; [right|]; auto. Qed.
(** a state that does not depend on the nodes of [L] *)
Lemma indep_agree (psi : state) L : (forall n, In n L -> indep n psi) -> forall f g, (forall n, ~ In n L -> f n = g n) -> psi f = psi g.
Proof.
  induction L as [|a L IH]; intros HI f g H.
  - f_equal. extensionality n. apply H. intros [].
  - rewrite <- (HI a (or_introl eq_refl) g (f a)). apply IH; [intros; apply HI; right; auto|]. intros n Hn. unfold upd. destruct (Nat.eqb_spec n a) as [->|]; auto. apply H. intros [E|E]; auto.
Qed.
Lemma preps_plus (ns : list (nat * nstate)) psi : (forall p, In p ns -> snd p = SPlus) -> den (prep_ops ns) psi = cscale (hk (length ns)) psi.
Proof.
  revert psi. induction ns as [|[n s] ns IH]; intros psi H; [cbn; symmetry; apply cscale_1|]. unfold prep_ops in *. cbn [map den length hk fst snd].
  assert (E : app_op (OPrep (nstate_vec s) n) psi = cscale (RtoC (/ sqrt 2)) psi).
  { assert (ES : s = SPlus) by (apply (H (n, s)); left; auto). subst s. extensionality f. unfold app_op, cscale. cbn [nstate_vec]. unfold plus_state, planar_state. assert (E0 : cis 0 = C1) by (unfold cis; rewrite Rmult_0_l, cos_0, sin_0; reflexivity). rewrite E0. destruct (f n); cbn [vget v0 v1]; ring. }
  rewrite E, IH by (intros; apply H; right; auto). rewrite cscale_cscale. f_equal. ring.
Qed.
Lemma layer_app A B U : layer (A ++ B) U = layer A U ++ layer B U.
Proof. apply map_app. Qed.
Lemma layer_meas_comm L U ms o : (forall m, In m ms -> ~ In (mc_node m) L) -> layer L U ++ m_ops o ms ≈ m_ops o ms ++ layer L U.
Proof.
  intros H. rewrite m_ops_mv. induction ms as [|m ms IH]; cbn [map]; [rewrite app_nil_r; reflexivity|].
  change (OMeas (mv o m) (mc_node m) :: map (fun m => OMeas (mv o m) (mc_node m)) ms) with ([OMeas (mv o m) (mc_node m)] ++ map (fun m => OMeas (mv o m) (mc_node m)) ms).
  rewrite app_assoc, <- (layer_comm_notin L U (OMeas (mv o m) (mc_node m))).
  - cbn [app]. apply leq_cons. apply IH. intros; apply H; right; auto.
  - intros n [<-|[]]. apply H. left; auto.
Qed.
Lemma clayer_meas o (D : nat -> clifford) ms : NoDup (map mc_node ms) ->
  clayer (map mc_node ms) D ++ m_ops o ms ≈ m_ops o (map (fun m => mcmd_clifford m (D (mc_node m))) ms).
Proof.
  induction ms as [|m ms IH]; intros N; [reflexivity|]. inversion N as [|? ? N1 N2]; subst. cbn [map].
  change (m :: ms) with ([m] ++ ms). change (?a :: map ?f ms) with ([a] ++ map f ms) at 2. rewrite !m_ops_app, <- IH by auto.
  unfold clayer at 1. cbn [layer map]. change (map (fun n => OApp1 (clifford_mat (D n)) n) (map mc_node ms)) with (clayer (map mc_node ms) D).
  transitivity ([OApp1 (clifford_mat (D (mc_node m))) (mc_node m)] ++ (clayer (map mc_node ms) D ++ m_ops o [m]) ++ m_ops o ms); [rewrite <- app_assoc; reflexivity|].
  unfold clayer. rewrite layer_meas_comm by (intros m' [<-|[]]; auto). rewrite <- !app_assoc, (app_assoc [_] (m_ops o [m])). apply leq_app_r.
  destruct m as [n me s t]. unfold m_ops. cbn [map mcmd_cmd mc_node mc_meas mc_s mc_t]. destruct (mcmd_clifford_ops o n me s t (D n) _ eq_refl) as [E _]. exact E.
Qed.

Lemma Classical_C (z : C) : z = C0 \/ z <> C0.
Proof. destruct z as [a b]. destruct (Req_dec a 0) as [->|N]; [destruct (Req_dec b 0) as [->|N]|]; [left; reflexivity|right; intros E; injection E; auto|right; intros E; injection E; auto]. Qed.
Lemma den_zero l : den l zero_state = zero_state.
Proof. assert (E : zero_state = cscale C0 zero_state) by (extensionality f; unfold cscale, zero_state; ring). rewrite E, den_scale. extensionality f. unfold cscale, zero_state. ring. Qed.
(** the projection of a qubit in state |+> on the other vector of its axis *)
Lemma minus_vec s : (Cconj (v0 (mvec (MPauli AX s) (sign_eqb s Plus))) + Cconj (v1 (mvec (MPauli AX s) (sign_eqb s Plus))) = C0)%C.
Proof.
  set (w := mvec (MPauli AX s) (sign_eqb s Plus)). assert (P : vouter w w = meas_proj (MPauli AX s) (sign_eqb s Plus)) by apply mvec_proj.
  assert (N : Cnorm2 (v0 w + v1 w) = re (m00 (vouter w w) + m01 (vouter w w) + m10 (vouter w w) + m11 (vouter w w))). { destruct w as [[a b] [c d]]. unfold Cnorm2. cbn. ring. }
  rewrite P in N. assert (Z : Cnorm2 (v0 w + v1 w) = 0%R).
  { rewrite N, to_bloch_pauli. destruct s; unfold sign_C; cbn; field. }
  apply Cnorm2_0 in Z. rewrite <- Cconj_add, Z. apply C_eq; cbn; ring.
Qed.

Section Fin.
Variables (leave : nset) (st : stdp).
Hypotheses (W : std_wf st) (SO : std_out_ok st) (NI : NoDup (sp_in st)) (NLoop : forall e, In e (sp_e st) -> fst e <> snd e).
Let c := push_cut leave st.
Let st1 := pauli_push leave st.
Let inp := of_list (sp_in st).
Let L0 := std_nodes st.
Let P0 := pauli_at (ct_pauli c).
Let x0 := dz (sp_x st1).
Let z0 := dz (sp_z st1).
Variables (eo : list (nat * nat)) (D : nat -> clifford) (r : rp).
Hypothesis I : rinv inp L0 (sp_out st) P0 (cc st) x0 z0 eo D r.
Let nm := rp_map r.
Let G := rp_src r.

Lemma W1 : std_wf st1.
Proof. apply push_wf; auto. Qed.
Lemma nm_spec n v : nm n = Some v <-> In v (rp_L r) /\ G v = n.
Proof. apply (ri_map _ _ _ _ _ _ _ _ _ _ I). Qed.
Lemma nm_inj a b v : nm a = Some v -> nm b = Some v -> a = b.
Proof. rewrite !nm_spec. intros [_ <-] [_ <-]. auto. Qed.
Lemma nm_fun n a b : In a (rp_L r) -> In b (rp_L r) -> G a = n -> G b = n -> a = b.
Proof. intros _ _ <- E. symmetry. apply (ri_inj _ _ _ _ _ _ _ _ _ _ I). auto. Qed.
Lemma outs_map : exists outs, map_all nm (sp_out st) = Some outs /\ Forall2 (fun n v => nm n = Some v) (sp_out st) outs.
Proof.
  apply map_all_spec. intros n Hn E. destruct (ri_outs _ _ _ _ _ _ _ _ _ _ I n Hn) as (v & A & B). assert (K : nm n = Some v) by (apply nm_spec; auto). congruence.
Qed.
Variable outs : list nat.
Hypothesis HO : Forall2 (fun n v => nm n = Some v) (sp_out st) outs.
Definition new_std : stdp :=
  Std (sp_in st) outs (filter (fun p => lmem (fst p) (rp_L r)) (sp_n st)) (map edge_norm (rp_es r))
        (flat_map (create_new_m r) (ct_pauli c ++ ct_rest c))
        (dcomp (fun d => negb (is_empty d)) (fun v => map_domain (rp_map r) (snd (rp_dom r v))) outs)
        (dcomp (fun d => negb (is_empty d)) (fun v => map_domain (rp_map r) (fst (rp_dom r v))) outs)
        (dcomp (fun g => negb (clifford_eqb g K0)) (rp_cl r) outs).
Lemma new_std_eq : rp_to_std st c r = Some new_std.
Proof.
  unfold rp_to_std. assert (E : map_all (rp_map r) (sp_out st) = Some outs); [|rewrite E; reflexivity]. fold nm. generalize HO. generalize (sp_out st) outs. clear. intros l l' H. induction H as [|a b l l' H F IH]; [reflexivity|]. cbn [map_all]. rewrite H, IH. reflexivity.
Qed.
Lemma outs_In v : In v outs <-> In v (rp_L r) /\ In (G v) (sp_out st).
Proof.
  split.
  - intros H. destruct (Forall2_In_r _ _ _ _ HO H) as (n & A & B). apply nm_spec in B. destruct B as [B <-]. auto.
  - intros [A B]. destruct (Forall2_In_l _ _ _ _ HO B) as (w & Hw & E). apply nm_spec in E. destruct E as [E1 E2]. apply (ri_inj _ _ _ _ _ _ _ _ _ _ I) in E2. subst; auto.
Qed.
Lemma outs_N : NoDup outs.
Proof.
  destruct SO as [N _]. revert N. generalize HO. generalize (sp_out st). clear HO. intros l H. induction H as [|a b l l' E F IH]; intros N; [constructor|]. inversion N; subst. constructor; auto.
  intros K. destruct (Forall2_In_r _ _ _ _ F K) as (a' & A & B). rewrite (nm_inj a a' b) in *; auto.
Qed.
Lemma new_node v : std_node new_std v <-> In v (rp_L r).
Proof.
  unfold std_node. cbn [new_std sp_in sp_n]. split.
  - intros [H|H]; [apply (ri_inpL _ _ _ _ _ _ _ _ _ _ I), inp_mem; auto|]. apply in_map_iff in H. destruct H as ([k s] & E & H). apply filter_In in H. cbn in E. subst k. cbn [fst] in H. apply lmem_In. tauto.
  - intros H. pose proof (ri_sub _ _ _ _ _ _ _ _ _ _ I v H) as K. unfold L0, std_nodes in K. apply in_app_or in K. destruct K as [K|K]; auto. right. apply in_map_iff in K. destruct K as ([k s] & E & K). cbn in E. subst k.
    apply in_map_iff. exists (v, s). split; auto. apply filter_In. split; auto. apply lmem_In; auto.
Qed.
Definition surv (m : mcmd) : bool := match nm (mc_node m) with Some _ => true | None => false end.
Definition new_m (m : mcmd) : mcmd :=
  let v := match nm (mc_node m) with Some v => v | None => 0 end in
  let m' := mcmd_clifford m (rp_cl r v) in MC v (mc_meas m') (map_domain nm (mc_s m')) (map_domain nm (mc_t m')).
Lemma new_ms_eq l : flat_map (create_new_m r) l = map new_m (filter surv l).
Proof.
  induction l as [|m l IH]; auto. cbn [flat_map filter]. rewrite IH. unfold create_new_m at 1, surv at 2. fold nm. destruct (nm (mc_node m)) as [v|] eqn:E; [|reflexivity]. cbn [app map]. unfold new_m at 2. rewrite E. reflexivity.
Qed.
Lemma new_m_node l v : In v (map mc_node (flat_map (create_new_m r) l)) <-> exists n, In n (map mc_node l) /\ nm n = Some v.
Proof.
  rewrite new_ms_eq, map_map, in_map_iff. split.
  - intros (m & E & H). apply filter_In in H. destruct H as [H S]. exists (mc_node m). split; [apply in_map; auto|]. unfold surv in S. unfold new_m in E. destruct (nm (mc_node m)); [|discriminate]. cbn in E. congruence.
  - intros (n & H & E). apply in_map_iff in H. destruct H as (m & <- & H). exists m. unfold new_m, surv. rewrite E. cbn. split; auto. apply filter_In. rewrite E. auto.
Qed.
Lemma ms1_eq : sp_m st1 = ct_pauli c ++ ct_rest c.
Proof. reflexivity. Qed.
Lemma new_meas v : std_meas new_std v <-> exists n, std_meas st1 n /\ nm n = Some v.
Proof. unfold std_meas. cbn [new_std sp_m]. rewrite new_m_node, <- ms1_eq. reflexivity. Qed.
Lemma new_meas' v : std_meas new_std v <-> In v (rp_L r) /\ ~ In v outs.
Proof.
  rewrite new_meas, outs_In. split.
  - intros (n & A & B). apply nm_spec in B. destruct B as [B <-]. split; auto. intros [_ C]. apply (push_out_ok leave st W SO) in C. tauto.
  - intros [A B]. exists (G v). split; [|apply nm_spec; auto]. assert (K : In (G v) L0) by (apply (ri_srcL _ _ _ _ _ _ _ _ _ _ I), (ri_sub _ _ _ _ _ _ _ _ _ _ I); auto).
    apply (L0_node leave) in K. destruct (in_dec Nat.eq_dec (G v) (map mc_node (sp_m st1))) as [Z|Z]; auto. exfalso. apply B. split; auto. apply (push_out_ok leave st W SO). split; [exact K|exact Z].
Qed.
Lemma new_wf : std_wf new_std.
Proof.
  pose proof W1 as V. constructor.
  - cbn [new_std sp_n]. pose proof (sw_nN _ W) as N. revert N. generalize (sp_n st). clear. induction l as [|a l IH]; intros N; cbn [filter]; [constructor|]. inversion N; subst. destruct (lmem (fst a) (rp_L r)); cbn [map]; auto. constructor; auto. intros K. apply H1. apply in_map_iff in K. destruct K as (x & <- & K). apply filter_In in K. apply in_map. tauto.
  - intros n H. apply (sw_nin _ W). cbn [new_std sp_n] in H. apply in_map_iff in H. destruct H as (x & <- & H). apply filter_In in H. apply in_map. tauto.
  - apply (ri_es _ _ _ _ _ _ _ _ _ _ I).
  - intros e He. cbn [new_std sp_e] in He. apply in_map_iff in He. destruct He as (e' & <- & He). rewrite !new_node. destruct (ri_ei _ _ _ _ _ _ _ _ _ _ I e' He) as [A B]. destruct (edge_norm_cases e') as [Q|Q]; rewrite Q; cbn [fst snd]; (split; [auto|split; [auto|]]).
    + rewrite <- Q. rewrite Q; auto.
    + rewrite <- Q. unfold edge_norm. cbn [fst snd]. f_equal; lia.
  - cbn [new_std sp_m]. rewrite new_ms_eq. pose proof (sw_mN _ V) as N. rewrite ms1_eq in N. revert N. generalize (ct_pauli c ++ ct_rest c). intros l N. induction l as [|m l IH]; [constructor|]. inversion N as [|? ? N1 N2]; subst. cbn [filter]. destruct (surv m) eqn:E; auto. cbn [map]. constructor; auto.
    intros K. apply N1. unfold surv in E. destruct (nm (mc_node m)) as [v|] eqn:Ev; [|discriminate]. assert (K' : In v (map mc_node (flat_map (create_new_m r) l))). { rewrite new_ms_eq. unfold new_m in K at 1. rewrite Ev in K. exact K. }
    apply new_m_node in K'. destruct K' as (n & A & B). rewrite (nm_inj _ _ _ Ev B). auto.
  - intros n H. apply new_node. apply new_meas' in H. tauto.
  - cbn [new_std sp_m]. rewrite <- ms1_eq. intros pre m post E k Hk. rewrite new_ms_eq in E.
    assert (SP : exists p1 m1 q1, sp_m st1 = p1 ++ m1 :: q1 /\ pre = map new_m (filter surv p1) /\ m = new_m m1).
    { clear - E. revert pre E. induction (sp_m st1) as [|a l IH]; intros pre E; [destruct pre; discriminate|]. cbn [filter] in E. destruct (surv a) eqn:S.
      - destruct pre as [|b pre]; cbn [map app] in E.
        + injection E as E1 E2. exists [], a, l. auto.
        + injection E as E1 E2. destruct (IH _ E2) as (p1 & m1 & q1 & A & B & C). exists (a :: p1), m1, q1. rewrite A. cbn [filter]. rewrite S. cbn [map app]. rewrite E1, B. auto.
      - destruct (IH _ E) as (p1 & m1 & q1 & A & B & C). exists (a :: p1), m1, q1. rewrite A. cbn [filter]. rewrite S. auto. }
    destruct SP as (p1 & m1 & q1 & E1 & -> & ->). rewrite <- new_ms_eq. apply new_m_node. unfold new_m in Hk. cbn [mc_s mc_t] in Hk. rewrite !map_domain_In in Hk.
    assert (HK : exists n, nm n = Some k /\ (mem n (mc_s m1) = true \/ mem n (mc_t m1) = true)).
    { unfold mcmd_clifford in Hk. destruct (commute_domains _ (mc_s m1) (mc_t m1)) as [s' t'] eqn:Q. cbn [mc_s mc_t] in Hk. destruct Hk as [(n & A & B)|(n & A & B)]; exists n; (split; [auto|]); eapply commute_domains_sub; eauto. }
    destruct HK as (n & A & B). exists n. split; auto. eapply (sw_ord _ V); eauto.
  - apply dcomp_N, outs_N.
  - apply dcomp_N, outs_N.
  - apply dcomp_N, outs_N.
  - intros n H. apply dcomp_keys in H. rewrite new_node, new_meas'. rewrite outs_In in H. rewrite outs_In. tauto.
  - intros n H. apply dcomp_keys in H. rewrite new_node, new_meas'. rewrite outs_In in H. rewrite outs_In. tauto.
  - intros n H. apply dcomp_keys in H. rewrite new_node, new_meas'. rewrite outs_In in H. rewrite outs_In. tauto.
  - intros n k. unfold dz. cbn [new_std sp_z]. rewrite dcomp_get. destruct (lmem n outs && _) eqn:E; [|rewrite mem_empty; discriminate]. apply andb_true_iff in E. destruct E as [E _]. apply lmem_In, outs_In in E. destruct E as [E _].
    rewrite map_domain_In. intros (j & A & B). apply new_meas. exists j. split; auto. pose proof (ri_spec _ _ _ _ _ _ _ _ _ _ I n E) as S. unfold nodeok, rspec in S. destruct S as (_ & S & _).
    destruct (S j (or_intror A)) as [K|K]; [apply (sw_xd _ V) in K|apply (sw_zd _ V) in K]; auto.
  - intros n k. unfold dz. cbn [new_std sp_x]. rewrite dcomp_get. destruct (lmem n outs && _) eqn:E; [|rewrite mem_empty; discriminate]. apply andb_true_iff in E. destruct E as [E _]. apply lmem_In, outs_In in E. destruct E as [E _].
    rewrite map_domain_In. intros (j & A & B). apply new_meas. exists j. split; auto. pose proof (ri_spec _ _ _ _ _ _ _ _ _ _ I n E) as S. unfold nodeok, rspec in S. destruct S as (_ & S & _).
    destruct (S j (or_introl A)) as [K|K]; [apply (sw_xd _ V) in K|apply (sw_zd _ V) in K]; auto.
Qed.
Lemma new_out_ok : std_out_ok new_std.
Proof. split; [apply outs_N|]. intros n. rewrite new_node, new_meas'. cbn [new_std sp_out]. rewrite outs_In. destruct (in_dec Nat.eq_dec (G n) (sp_out st)); tauto. Qed.
Lemma new_loops e : In e (sp_e new_std) -> fst e <> snd e.
Proof.
  cbn [new_std sp_e]. intros H. apply in_map_iff in H. destruct H as (e' & <- & H). apply (ri_es _ _ _ _ _ _ _ _ _ _ I) in H. destruct (edge_norm_cases e') as [Q|Q]; rewrite Q; cbn [fst snd]; auto.
Qed.

(** * Semantics *)
Definition F (n : nat) : nat := match find (fun v => (G v =? n)%nat) L0 with Some v => v | None => n end.
Lemma L0N : NoDup L0.
Proof. apply L0_N; auto. Qed.
Lemma G_surj n : In n L0 -> exists v, In v L0 /\ G v = n.
Proof.
  intros H. assert (P : Permutation (map G L0) L0).
  { apply NoDup_Permutation_bis.
    - apply FinFun.Injective_map_NoDup; [exact (ri_inj _ _ _ _ _ _ _ _ _ _ I)|apply L0N].
    - rewrite map_length. lia.
    - intros x Hx. apply in_map_iff in Hx. destruct Hx as (v & <- & Hv). apply (ri_srcL _ _ _ _ _ _ _ _ _ _ I); auto. }
  apply (Permutation_in _ (Permutation_sym P)) in H. apply in_map_iff in H. destruct H as (v & A & B). eauto.
Qed.
Lemma FG : inverses F G.
Proof.
  assert (A : forall n, G (F n) = n).
  { intros n. unfold F. destruct (find _ L0) as [v|] eqn:E.
    - apply find_some in E. apply Nat.eqb_eq. tauto.
    - apply (ri_src0 _ _ _ _ _ _ _ _ _ _ I). intros H. destruct (G_surj n H) as (v & Hv & Q). pose proof (find_none _ _ E v Hv) as Z. cbn in Z. rewrite Q, Nat.eqb_refl in Z. discriminate. }
  split; auto. intros n. apply (ri_inj _ _ _ _ _ _ _ _ _ _ I). apply A.
Qed.
Lemma F_nm n v : nm n = Some v -> F n = v.
Proof. intros H. apply nm_spec in H. destruct H as [_ <-]. apply FG. Qed.
Lemma outs_F : outs = map F (sp_out st).
Proof. generalize HO. generalize (sp_out st) outs. intros l l' H. induction H as [|a b l l' H _ IH]; auto. cbn [map]. rewrite (F_nm _ _ H), IH. auto. Qed.
Lemma G_fix n : mem n inp = true -> G n = n.
Proof. apply (ri_inp _ _ _ _ _ _ _ _ _ _ I). Qed.
Lemma relab_in psi : Pin inp L0 psi -> relab G psi = psi.
Proof.
  intros H. extensionality g. unfold relab. apply (indep_agree psi (filter (fun n => negb (mem n inp)) L0)).
  - intros n Hn. apply filter_In in Hn. destruct Hn as [A B]. apply negb_true_iff in B. apply H; auto.
  - intros n Hn. rewrite filter_In in Hn. f_equal. destruct (mem n inp) eqn:E; [apply G_fix; auto|]. apply (ri_src0 _ _ _ _ _ _ _ _ _ _ I). intros K. apply Hn. auto.
Qed.
Variables (K J Lo : list nat).
Hypothesis S : sfin inp L0 (sp_out st) (sp_e st) P0 eo D r K J Lo.
Variable o' : nat -> bool.
(** the corresponding branch of the original pattern *)
Definition old_branch (n : nat) : bool := match nm n with Some v => o' v | None => false end.
Let o := old_branch.
Lemma KJLo_N : NoDup (K ++ J ++ Lo).
Proof. destruct S as (P & _). eapply Permutation_NoDup; [apply Permutation_sym; eauto|apply L0N]. Qed.
Lemma Lo_nm n : In n Lo <-> nm n <> None.
Proof.
  destruct S as (_ & H & _). rewrite H. split.
  - intros (v & A & B) E. assert (Q : nm n = Some v) by (apply nm_spec; auto). congruence.
  - intros E. destruct (nm n) as [v|] eqn:Q; [|congruence]. apply nm_spec in Q. eauto.
Qed.
Definition KM := filter (fun m => lmem (mc_node m) K) (sp_m st1).
Definition JM := filter (fun m => lmem (mc_node m) J) (sp_m st1).
Definition RM := filter surv (sp_m st1).
Lemma surv_Lo m : surv m = true <-> In (mc_node m) Lo.
Proof. unfold surv. rewrite Lo_nm. destruct (nm (mc_node m)); split; congruence. Qed.
Lemma ms_node m : In m (sp_m st1) -> In (mc_node m) L0.
Proof. intros H. apply (L0_node leave). apply (sw_mn _ W1). apply in_map; auto. Qed.
Lemma ms1_N : NoDup (map mc_node (sp_m st1)).
Proof. apply W1. Qed.
Lemma NoDup_map_sub (f : mcmd -> bool) l : NoDup (map mc_node l) -> NoDup (map mc_node (filter f l)).
Proof.
  induction l as [|a l IH]; intros N; cbn [filter]; [constructor|]. inversion N; subst. destruct (f a); cbn [map]; auto. constructor; auto. intros Q. apply H1. apply in_map_iff in Q. destruct Q as (x & <- & Q). apply filter_In in Q. apply in_map. tauto.
Qed.

Lemma app_N {A} (a b : list A) : NoDup (a ++ b) -> NoDup a /\ NoDup b /\ forall x, In x a -> ~ In x b.
Proof.
  induction a as [|x a IH]; intros N; [split; [constructor|split; [auto|intros x []]]|]. inversion N; subst. destruct IH as (A1 & A2 & A3); auto. rewrite in_app_iff in H1. split; [constructor; tauto|]. split; auto. intros y [<-|Hy]; auto.
Qed.
Lemma three_perm {A} (f g h : A -> bool) l : (forall x, In x l -> (f x = true /\ g x = false /\ h x = false) \/ (f x = false /\ g x = true /\ h x = false) \/ (f x = false /\ g x = false /\ h x = true)) ->
  Permutation l (filter f l ++ filter g l ++ filter h l).
Proof.
  induction l as [|a l IH]; intros H; [constructor|]. specialize (IH (fun x Hx => H x (or_intror Hx))). cbn [filter]. destruct (H a (or_introl eq_refl)) as [(-> & -> & ->)|[(-> & -> & ->)|(-> & -> & ->)]].
  - cbn [app]. constructor; auto.
  - cbn [app]. rewrite <- Permutation_middle. constructor; auto.
  - rewrite app_assoc, <- Permutation_middle, <- app_assoc. constructor; auto.
Qed.
Lemma split_ms : Permutation (sp_m st1) (KM ++ JM ++ RM).
Proof.
  apply three_perm. intros m Hm. apply ms_node in Hm. destruct S as (P & _). apply (Permutation_in _ (Permutation_sym P)) in Hm. destruct (app_N _ _ KJLo_N) as (_ & N2 & D1). destruct (app_N _ _ N2) as (_ & _ & D2).
  assert (B : forall l, lmem (mc_node m) l = true <-> In (mc_node m) l) by (intros; apply lmem_In). assert (B' : forall b : bool, b = false <-> ~ b = true) by (intros []; intuition congruence).
  rewrite !B', !B, surv_Lo. specialize (D1 (mc_node m)). specialize (D2 (mc_node m)). rewrite !in_app_iff in *. tauto.
Qed.
(** the vectors of the isolated nodes *)
Definition WJ (n : nat) : vec2 := match find (fun m => (mc_node m =? n)%nat) (sp_m st1) with Some m => mv o m | None => mvec (MPauli AZ Plus) false end.
Lemma find_m m : In m (sp_m st1) -> find (fun x => (mc_node x =? mc_node m)%nat) (sp_m st1) = Some m.
Proof.
  pose proof ms1_N as N. revert N. generalize (sp_m st1). intros l N H. induction l as [|a l IH]; [destruct H|]. inversion N; subst. cbn [find]. destruct H as [->|H]; [rewrite Nat.eqb_refl; auto|].
  destruct (Nat.eqb_spec (mc_node a) (mc_node m)) as [E|]; auto. exfalso. apply H2. rewrite E. apply in_map; auto.
Qed.
Lemma meas_split : m_ops o (sp_m st1) ≈ kmeas P0 K ++ jmeas WJ J ++ m_ops o RM.
Proof.
  rewrite (m_ops_perm o _ _ ms1_N split_ms), !m_ops_app. destruct S as (P & _ & HK & HJ & _). destruct (app_N _ _ KJLo_N) as (NK & N2 & D1). destruct (app_N _ _ N2) as (NJ & _ & D2).
  assert (HM : forall l n, (forall n, In n l -> In n (map mc_node (sp_m st1))) -> In n l <-> In n (map mc_node (filter (fun m => lmem (mc_node m) l) (sp_m st1)))).
  { intros l n H. rewrite in_map_iff. split.
    - intros Hn. pose proof (H n Hn) as M. apply in_map_iff in M. destruct M as (m & E & M). exists m. split; auto. apply filter_In. split; auto. apply lmem_In. rewrite E. auto.
    - intros (m & <- & M). apply filter_In in M. apply lmem_In. tauto. }
  apply leq_app; [|apply leq_app_r].
  - unfold kmeas. apply meas_as_nodes; auto; [apply NoDup_map_sub, ms1_N| |].
    + intros k. apply HM. intros n Hn. destruct (HK n Hn) as [_ Q]. destruct (P0 n) as [[a s]|] eqn:E; [|congruence]. apply pauli_at_In in E. destruct E as (m & M & <- & _). apply in_map. rewrite ms1_eq. apply in_or_app; auto.
    + intros m Hm. apply filter_In in Hm. destruct Hm as [Hm Q]. apply lmem_In in Q. destruct (HK _ Q) as [_ Q1]. unfold w0. destruct (P0 (mc_node m)) as [[a s]|] eqn:E; [|congruence].
      apply pauli_at_In in E. destruct E as (m' & M & E1 & E2). assert (m' = m). { assert (M' : In m' (sp_m st1)) by (rewrite ms1_eq; apply in_or_app; auto). pose proof (find_m m Hm) as F1. pose proof (find_m m' M') as F2. rewrite E1 in F2. congruence. } subst m'.
      destruct (ci_e _ _ _ (cut_whole leave st W) m M) as [Es Et]. unfold mv. rewrite Es, Et, E2.
      assert (Eo : o (mc_node m) = false). { unfold o, old_branch. destruct (nm (mc_node m)) eqn:Z; auto. exfalso. apply (D1 (mc_node m) Q). apply in_or_app. right. apply Lo_nm. congruence. }
      rewrite Eo. unfold describe_measurement. rewrite !parity_empty. cbn. apply veqp_refl.
  - unfold jmeas. apply meas_as_nodes; auto; [apply NoDup_map_sub, ms1_N| |].
    + intros k. apply HM. intros n Hn. destruct (HJ n Hn) as [_ Q]. assert (Z : In n L0). { apply (Permutation_in _ P). rewrite !in_app_iff. auto. } apply (L0_node leave) in Z.
      destruct (in_dec Nat.eq_dec n (map mc_node (sp_m st1))) as [Y|Y]; auto. exfalso. apply Q. apply (push_out_ok leave st W SO). split; [exact Z|exact Y].
    + intros m Hm. apply filter_In in Hm. destruct Hm as [Hm _]. unfold WJ. rewrite (find_m m Hm). apply veqp_refl.
Qed.
(** the common form of both patterns, with the original labels *)
Definition RM' : list mcmd := map (fun m => mcmd_clifford m (D (mc_node m))) RM.
Definition Q (n : nat) : mat2 := mmul (pend o st1 n) (clifford_mat (D n)).
Definition X : list op := cz_ops eo ++ m_ops o RM' ++ layer (sp_out st) Q.
Lemma RM_nodes n : In n (map mc_node RM) <-> In n Lo /\ ~ In n (sp_out st).
Proof.
  unfold RM. rewrite in_map_iff. split.
  - intros (m & <- & H). apply filter_In in H. destruct H as [H M]. apply surv_Lo in M. split; auto. intros Z. apply (push_out_ok leave st W SO) in Z. apply Z. apply in_map; auto.
  - intros [A B]. assert (Z : In n L0). { destruct S as (P & _). apply (Permutation_in _ P). rewrite !in_app_iff. auto. } apply (L0_node leave) in Z.
    destruct (in_dec Nat.eq_dec n (map mc_node (sp_m st1))) as [Y|Y]; [|exfalso; apply B, (push_out_ok leave st W SO); split; [exact Z|exact Y]].
    apply in_map_iff in Y. destruct Y as (m & <- & Y). exists m. split; auto. apply filter_In. split; auto. apply surv_Lo; auto.
Qed.
Lemma outs_Lo n : In n (sp_out st) -> In n Lo.
Proof. intros H. destruct S as (_ & E & _). apply E. apply (ri_outs _ _ _ _ _ _ _ _ _ _ I n H). Qed.
Lemma Lo_split : Permutation Lo (map mc_node RM ++ sp_out st).
Proof.
  destruct (app_N _ _ KJLo_N) as (_ & N2 & _). destruct (app_N _ _ N2) as (_ & N3 & _). apply NoDup_Permutation; auto.
  - apply NoDup_app; [apply NoDup_map_sub, ms1_N|apply SO|]. intros x A. apply RM_nodes in A. tauto.
  - intros n. rewrite in_app_iff, RM_nodes. pose proof (outs_Lo n). destruct (in_dec Nat.eq_dec n (sp_out st)); tauto.
Qed.
Lemma pend_meas n : ~ In n (sp_out st) -> pend o st1 n = mid.
Proof.
  intros H. apply pend_id; intros Z; apply H; apply (push_out_ok leave st W SO); [apply (sw_zk _ W1)|apply (sw_xk _ W1)|apply (sw_ck _ W1)]; auto.
Qed.
Lemma X_eq : gops Lo eo D ++ m_ops o RM ++ layer L0 (pend o st1) ≈ X.
Proof.
  destruct (app_N _ _ KJLo_N) as (_ & N2 & _). destruct (app_N _ _ N2) as (_ & N3 & _). unfold gops, X. rewrite <- app_assoc. apply leq_app_l.
  assert (E : clayer Lo D ≈ clayer (sp_out st) D ++ clayer (map mc_node RM) D).
  { unfold clayer. rewrite <- layer_app. apply layer_perm; auto. rewrite Lo_split. apply Permutation_app_comm. }
  rewrite E, <- app_assoc, (app_assoc (clayer (map mc_node RM) D)), clayer_meas by (apply NoDup_map_sub, ms1_N). fold RM'.
  rewrite app_assoc. unfold clayer. rewrite layer_meas_comm.
  - rewrite <- app_assoc. apply leq_app_l. rewrite <- (layer_weaken (sp_out st) L0 (pend o st1)).
    + rewrite layer_fuse by apply SO. reflexivity.
    + apply SO. + apply L0N.
    + intros n Hn. apply (L0_node leave). apply SO; auto.
    + intros n _ Hn. apply pend_meas; auto.
  - intros m Hm Z. unfold RM' in Hm. apply in_map_iff in Hm. destruct Hm as (m' & <- & Hm). assert (EN : mc_node (mcmd_clifford m' (D (mc_node m'))) = mc_node m'). { unfold mcmd_clifford. destruct (commute_domains _ _ _); auto. } rewrite EN in Z.
    assert (Y : In (mc_node m') (map mc_node RM)) by (apply in_map; auto). apply RM_nodes in Y. tauto.
Qed.
Hypothesis PL : forall p, In p (sp_n st) -> snd p = SPlus.
Lemma old_X es : edge_enum st es -> exists c, (J = [] -> c <> C0) /\ forall psi, Pin inp L0 psi -> den (seq_ops o (std_cmds st1 es)) psi = cscale c (den X psi).
Proof.
  intros HE. assert (HE1 : edge_enum st1 es) by exact HE. assert (Z : seq_ops o (std_cmds st1 es) ≈ prep_ops (sp_n st) ++ ((cz_ops (sp_e st) ++ kmeas P0 K ++ jmeas WJ J) ++ m_ops o RM ++ layer L0 (pend o st1))).
  { rewrite (std_cmds_ops o st1 es L0 W1 HE1 L0N); [|intros n Hn; apply (L0_node leave); exact Hn]. unfold std_ops. rewrite meas_split. rewrite <- !app_assoc. reflexivity. }
  destruct Z as (a & Ha & Z). destruct X_eq as (b & Hb & Y). destruct S as (_ & _ & _ & _ & V). destruct (V WJ) as (d & Hd & U).
  exists (a * (hk (length (sp_n st)) * (d * b)))%C. split.
  - intros HJ. assert (PN : forall z, phase z -> z <> C0). { intros z Hz E. rewrite E in Hz. unfold phase, Cnorm2 in Hz. cbn in Hz. lra. }
    assert (CM : forall u v : C, u <> C0 -> v <> C0 -> (u * v)%C <> C0). { intros u v Hu Hv E. assert (N : Cnorm2 (u * v) = 0%R) by (rewrite E; unfold Cnorm2; cbn; ring). rewrite Cnorm2_mul in N. apply Rmult_integral in N. destruct N as [N|N]; [apply Hu|apply Hv]; apply Cnorm2_0; auto. }
    repeat apply CM; auto using hk_norm.
  - intros psi Hp. rewrite Z, den_app, (preps_plus _ _ PL), den_scale. rewrite (den_app (cz_ops (sp_e st) ++ _)), (U psi Hp), den_scale, <- den_app, Y. rewrite !cscale_cscale. f_equal. ring.
Qed.
(** the new pattern *)
Lemma cl_meas m v : In m (sp_m st1) -> nm (mc_node m) = Some v -> rp_cl r v = D (mc_node m).
Proof.
  intros Hm Hv. apply nm_spec in Hv. destruct Hv as [Hv E]. pose proof (ri_spec _ _ _ _ _ _ _ _ _ _ I v Hv) as N. unfold nodeok, rspec in N. destruct N as (N & _). fold G in N. rewrite E in N. rewrite N.
  assert (EC : cc st (mc_node m) = K0). { unfold cc. destruct (dget (sp_c st) (mc_node m)) eqn:Z; auto. exfalso. assert (Z' : In (mc_node m) (dkeys (sp_c st1))) by (apply dget_In in Z; exact (in_map fst _ _ Z)). apply (sw_ck _ W1) in Z'. apply (proj2 Z'). apply in_map; auto. }
  rewrite EC. apply clifford_mul_K0_l.
Qed.
Lemma new_meas_ops : m_ops o' (map new_m RM) = map (op_reindex F) (m_ops o RM').
Proof.
  unfold RM'. rewrite !m_ops_mv, !map_map. apply map_ext_in. intros m Hm. unfold RM in Hm. apply filter_In in Hm. destruct Hm as [Hm SV]. unfold surv in SV. destruct (nm (mc_node m)) as [v|] eqn:E; [|discriminate]. cbn [op_reindex].
  assert (EN : forall g, mc_node (mcmd_clifford m g) = mc_node m). { intros g. unfold mcmd_clifford. destruct (commute_domains _ _ _); auto. }
  unfold new_m. rewrite E. rewrite (cl_meas m v Hm E). rewrite EN, (F_nm _ _ E). f_equal. unfold mv. cbn [mc_node mc_meas mc_s mc_t]. unfold describe_measurement. rewrite !(map_domain_parity nm o' _ nm_inj). fold old_branch. fold o. rewrite EN. assert (Eo : o (mc_node m) = o' v) by (unfold o, old_branch; rewrite E; auto). rewrite Eo. reflexivity.
Qed.
Lemma reindex_layer L U : map (op_reindex F) (layer L U) = layer (map F L) (fun v => U (G v)).
Proof. unfold layer. rewrite !map_map. apply map_ext. intros n. cbn [op_reindex]. rewrite (proj1 FG). reflexivity. Qed.
Lemma ein_nb es a b : ein (a, b) es = mem b (nb es a).
Proof. apply (ein_adj []). Qed.
Definition Fe (e : nat * nat) : nat * nat := (F (fst e), F (snd e)).
Lemma Fe_inj a b : edge_norm (Fe a) = edge_norm (Fe b) -> edge_norm a = edge_norm b.
Proof.
  intros E. apply edge_norm_inj in E. destruct a as [a1 a2], b as [b1 b2]. unfold Fe in E. cbn [fst snd] in E. pose proof (F_inj F G FG) as FI. destruct E as [E|E]; injection E as E1 E2; apply FI in E1; apply FI in E2; subst; auto. apply edge_norm_swap.
Qed.
Lemma new_cz psi : den (cz_ops (map edge_norm (rp_es r))) psi = den (map (op_reindex F) (cz_ops eo)) psi.
Proof.
  assert (E : map (op_reindex F) (cz_ops eo) = cz_ops (map Fe eo)). { unfold cz_ops. rewrite !map_map. reflexivity. }
  assert (NN : forall e, edge_norm (edge_norm e) = edge_norm e). { intros [a b]. unfold edge_norm. cbn [fst snd]. f_equal; lia. }
  assert (E1 : map edge_norm (map edge_norm (rp_es r)) = map edge_norm (rp_es r)) by (rewrite map_map; apply map_ext; apply NN).
  rewrite E, !den_cz. extensionality f. f_equal. f_equal. apply Qf_same.
  - rewrite E1. apply (ri_es _ _ _ _ _ _ _ _ _ _ I).
  - pose proof (proj1 (ri_eo _ _ _ _ _ _ _ _ _ _ I)) as N. revert N. generalize eo. intros l N. rewrite map_map. induction l as [|a l IH]; cbn [map] in *; [constructor|]. inversion N; subst. constructor; auto. intros Z. apply H1. apply in_map_iff in Z. destruct Z as (b & Eb & Z). apply Fe_inj in Eb. rewrite <- Eb. apply in_map; auto.
  - intros [a b]. rewrite (eq_true_iff_eq (ein (a, b) (map edge_norm (rp_es r))) (ein (a, b) (rp_es r))) by (rewrite !ein_spec, E1; tauto). rewrite ein_nb, <- (ri_nb _ _ _ _ _ _ _ _ _ _ I). fold G. rewrite <- ein_nb.
    apply eq_true_iff_eq. rewrite !ein_spec, !in_map_iff. split.
    + intros (e & A & B). exists (Fe e). split; [|apply in_map; auto]. apply edge_norm_inj in A. destruct e as [e1 e2]. unfold Fe. cbn [fst snd] in *. destruct A as [A|A]; injection A as -> ->; rewrite !(proj2 FG); auto. apply edge_norm_swap.
    + intros (e' & A & B). apply in_map_iff in B. destruct B as (e & <- & B). exists e. split; auto. apply Fe_inj. rewrite A. unfold Fe. cbn [fst snd]. rewrite !(proj2 FG). auto.
Qed.
Lemma pend_new v : In v outs -> pend o' new_std v ~= Q (G v).
Proof.
  intros Hv. pose proof Hv as Hv'. apply outs_In in Hv'. destruct Hv' as [HL _]. unfold pend, Q, pend.
  assert (D1 : forall f, dz (dcomp (fun d => negb (is_empty d)) (fun v => map_domain (rp_map r) (f v)) outs) v = map_domain nm (f v)).
  { intros f. unfold dz. rewrite dcomp_get. assert (L : lmem v outs = true) by (apply lmem_In; auto). rewrite L. cbn [andb]. fold nm. destruct (is_empty (map_domain nm (f v))) eqn:Z; cbn [negb]; auto. symmetry. apply is_empty_spec; auto. }
  cbn [new_std sp_x sp_z]. rewrite (D1 (fun v => fst (rp_dom r v))), (D1 (fun v => snd (rp_dom r v))). rewrite !(map_domain_parity nm o' _ nm_inj). fold old_branch. fold o.
  assert (C : cc new_std v = rp_cl r v). { unfold cc. cbn [new_std sp_c]. rewrite dcomp_get. assert (L : lmem v outs = true) by (apply lmem_In; auto). rewrite L. cbn [andb]. destruct (clifford_eqb (rp_cl r v) K0) eqn:Z; cbn [negb]; auto. symmetry. apply clifford_eqb_eq; auto. }
  rewrite C. pose proof (ri_spec _ _ _ _ _ _ _ _ _ _ I v HL) as N. unfold nodeok, rspec in N. fold G in N. destruct N as (N1 & _ & N3 & _). rewrite N1. specialize (N3 o). unfold x0, z0 in N3.
  change (cc st1 (G v)) with (cc st (G v)). rewrite <- mmul_assoc. apply meqp_sym. eapply meqp_trans; [apply meqp_mul; [apply meqp_refl|apply N3]|]. rewrite mmul_assoc. apply meqp_mul; [apply clifford_mul_mat|apply meqp_refl].
Qed.
Lemma new_X es : edge_enum new_std es -> exists a, a <> C0 /\ forall psi, Pin inp L0 psi -> den (seq_ops o' (std_cmds new_std es)) psi = cscale a (relab F (den X psi)).
Proof.
  intros HE. assert (NL : NoDup (rp_L r)) by apply (ri_N _ _ _ _ _ _ _ _ _ _ I).
  assert (Z : seq_ops o' (std_cmds new_std es) ≈ prep_ops (sp_n new_std) ++ cz_ops (map edge_norm (rp_es r)) ++ map (op_reindex F) (m_ops o RM' ++ layer (sp_out st) Q)).
  { rewrite (std_cmds_ops o' new_std es (rp_L r) new_wf HE NL); [|intros n; apply new_node]. unfold std_ops. cbn [new_std sp_e]. do 2 apply leq_app_l. rewrite map_app, <- new_meas_ops. cbn [new_std sp_m]. rewrite new_ms_eq, <- ms1_eq. fold RM. apply leq_app_l.
    rewrite reindex_layer, <- outs_F. rewrite <- (layer_weaken outs (rp_L r) (pend o' new_std)).
    - apply layer_ext. intros n Hn. apply pend_new; auto.
    - apply outs_N. - auto.
    - intros n Hn. apply outs_In in Hn. tauto.
    - intros n _ Hn. apply pend_id; intros Y; apply Hn; eapply dcomp_keys; apply Y. }
  destruct Z as (b & Hb & Z). exists (b * hk (length (sp_n new_std)))%C. split.
  - intros E. assert (N : Cnorm2 (b * hk (length (sp_n new_std))) = 0%R) by (rewrite E; unfold Cnorm2; cbn; ring). rewrite Cnorm2_mul in N. unfold phase in Hb. rewrite Hb, Rmult_1_l in N. apply Cnorm2_0 in N. revert N. apply hk_norm.
  - intros psi Hp. rewrite Z, den_app, preps_plus.
    + rewrite den_scale, den_app, new_cz, <- den_app, <- map_app. fold X. rewrite cscale_cscale. f_equal.
      assert (E : relab F psi = psi). { rewrite <- (relab_in psi Hp) at 1. apply relab_GF. apply FG. }
      rewrite <- E at 1. apply (den_relab F G FG).
    + intros p Hpp. cbn [new_std sp_n] in Hpp. apply filter_In in Hpp. apply PL. tauto.
Qed.
Lemma X_indep psi n : Pin inp L0 psi -> In n L0 -> ~ In n (sp_out st) -> indep n (den X psi).
Proof.
  intros Hp Hn NO. unfold X. rewrite app_assoc, den_app. apply indep_den.
  - intros p Hpp Z. apply NO. eapply layer_onodes; eauto.
  - rewrite den_app, m_ops_mv. destruct (in_dec Nat.eq_dec n Lo) as [HL|HL].
    + assert (HR : In n (map mc_node RM)) by (apply RM_nodes; auto). assert (HR' : In n (map mc_node RM')). { unfold RM'. rewrite map_map. apply in_map_iff in HR. destruct HR as (m & <- & HR). apply in_map_iff. exists m. split; auto. unfold mcmd_clifford. destruct (commute_domains _ _ _); auto. }
      revert HR'. generalize (den (cz_ops eo) psi). generalize RM'. intros l. induction l as [|m l IH]; intros phi H; [destruct H|]. cbn [map den]. destruct (in_dec Nat.eq_dec n (map mc_node l)) as [Z|Z]; [apply IH; auto|]. destruct H as [H|H]; [|tauto]. rewrite H.
      apply indep_den; [|apply meas_indep]. intros p Hpp E. apply in_map_iff in Hpp. destruct Hpp as (m' & <- & Hm). destruct E as [E|[]]. apply Z. rewrite <- E. apply in_map; auto.
    + apply indep_den.
      * intros p Hpp E. apply in_map_iff in Hpp. destruct Hpp as (m & <- & Hm). destruct E as [E|[]]. apply HL. unfold RM' in Hm. apply in_map_iff in Hm. destruct Hm as (m' & <- & Hm).
        assert (EN : mc_node (mcmd_clifford m' (D (mc_node m'))) = mc_node m'). { unfold mcmd_clifford. destruct (commute_domains _ _ _); auto. } rewrite EN in E. assert (Y : In (mc_node m') (map mc_node RM)) by (apply in_map; auto). apply RM_nodes in Y. rewrite <- E. tauto.
      * apply indep_den.
        -- intros p Hpp E. apply cz_onodes with (n := n) in Hpp; auto. destruct Hpp as (e & He & Q'). apply HL. destruct (ri_eoi _ _ _ _ _ _ _ _ _ _ I e He) as [A B]. destruct S as (_ & SL & _). apply SL. apply in_map_iff in A. apply in_map_iff in B. destruct A as (a & A1 & A2), B as (b & B1 & B2). destruct Q' as [-> | ->]; eauto.
        -- apply Hp; auto. destruct (mem n inp) eqn:E; auto. exfalso. apply HL. destruct S as (_ & SL & _). apply SL. exists n. split; [apply (ri_inpL _ _ _ _ _ _ _ _ _ _ I); auto|apply G_fix; auto].
Qed.
(** a remaining X measurement whose neighbours are inputs excludes a branch *)
Lemma x_zero v s psi : In v (rp_L r) -> mem v inp = false -> rp_pm r v = Some (AX, s) -> (forall w, mem w (nb (rp_es r) v) = true -> mem w inp = true) -> o' v = sign_eqb s Plus ->
  Pin inp L0 psi -> (forall f, psi f <> C0 -> forall n, mem n inp = true -> f n = false) -> den X psi = zero_state.
Proof.
  intros Hv Hi HP HN Ho Hpsi H0. set (n := G v). assert (Env : nm n = Some v) by (apply nm_spec; auto). pose proof (pm_P0 _ _ _ _ _ _ _ _ _ _ _ I Hv) as E. fold n in E. rewrite HP in E. fold G in E. fold n in E.
  destruct (P0 n) as [[a0 s0]|] eqn:EP; [|discriminate]. assert (E1 : (AX, s) = pauli_clifford a0 s0 (D n)) by congruence. clear E. apply pauli_at_In in EP. destruct EP as (m & Hm & Em & Mm).
  destruct (ci_e _ _ _ (cut_whole leave st W) m Hm) as [Es Et]. assert (Hm1 : In m (sp_m st1)) by (rewrite ms1_eq; apply in_or_app; auto).
  assert (Hr : In m RM). { unfold RM. apply filter_In. split; auto. unfold surv. rewrite Em, Env. auto. }
  set (m' := mcmd_clifford m (D n)). assert (Hr' : In m' RM'). { unfold RM'. apply in_map_iff. exists m. rewrite Em. auto. }
  assert (V : mv o m' = mvec (MPauli AX s) (sign_eqb s Plus) /\ mc_node m' = n).
  { unfold m', mcmd_clifford. rewrite Es, Et, Mm, Em. destruct (commute_domains (D n) sempty sempty) as [s' t'] eqn:Q'. assert (Z : forall k, mem k s' = false /\ mem k t' = false).
    { intros k. assert (Y : ~ (mem k s' = true \/ mem k t' = true)). { intros Y. apply (commute_domains_sub _ _ _ _ _ _ Q') in Y. rewrite mem_empty in Y. destruct Y; discriminate. } destruct (mem k s'), (mem k t'); auto; exfalso; apply Y; auto. }
    assert (s' = sempty) as -> by (apply nset_ext; intros k; rewrite mem_empty; apply Z). assert (t' = sempty) as -> by (apply nset_ext; intros k; rewrite mem_empty; apply Z).
    split; [|reflexivity]. unfold mv, describe_measurement. cbn [mc_meas mc_s mc_t mc_node]. rewrite !parity_empty. unfold meas_clifford. rewrite <- E1. f_equal. unfold o, old_branch. rewrite Env. auto. }
  destruct V as [V En]. apply in_split in Hr'. destruct Hr' as (l1 & l2 & Hl).
  assert (NR : NoDup (map mc_node RM')). { unfold RM'. rewrite map_map. rewrite (map_ext _ mc_node); [apply NoDup_map_sub, ms1_N|]. intros x. unfold mcmd_clifford. destruct (commute_domains _ _ _); auto. }
  assert (Q' : X ≈ (cz_ops eo ++ [OMeas (mvec (MPauli AX s) (sign_eqb s Plus)) n]) ++ m_ops o (l1 ++ l2) ++ layer (sp_out st) Q).
  { unfold X. rewrite <- app_assoc. apply leq_app_l. rewrite app_assoc. apply leq_app_r. rewrite (m_ops_perm o RM' (m' :: l1 ++ l2) NR); [|rewrite Hl; symmetry; apply Permutation_middle].
    rewrite !m_ops_mv. cbn [map]. rewrite V, En. reflexivity. }
  destruct Q' as (c' & Hc' & Q'). rewrite Q', (den_app (cz_ops eo ++ _)). assert (Z : den (cz_ops eo ++ [OMeas (mvec (MPauli AX s) (sign_eqb s Plus)) n]) psi = zero_state).
  { rewrite den_app, den_cz. cbn [den]. extensionality f. unfold app_op, zero_state. assert (Ip : indep n psi). { apply Hpsi; [apply (ri_srcL _ _ _ _ _ _ _ _ _ _ I), (ri_sub _ _ _ _ _ _ _ _ _ _ I); auto|apply (ri_noninp _ _ _ _ _ _ _ _ _ _ _ I); auto]. }
    rewrite !Ip, (Qf_upd eo f n true), (oddp_nbh [] eo f n) by apply (ri_eo _ _ _ _ _ _ _ _ _ _ I).
    destruct (Classical_C (psi f)) as [Y|Y]; [rewrite Y; ring|].
    assert (O : parity f (nbh (Graph [] eo) n) = false).
    { unfold parity. apply xorsum_false. intros k Hk. apply elems_spec in Hk. apply (H0 f Y). change (mem k (nb eo n) = true) in Hk. pose proof (ri_nb _ _ _ _ _ _ _ _ _ _ I v (F k)) as RN. fold G in RN. rewrite (proj1 FG k) in RN. fold n in RN. rewrite Hk in RN. symmetry in RN. apply HN in RN. rewrite <- (G_fix (F k) RN), (proj1 FG) in RN. exact RN. }
    rewrite O. cbn [andb]. rewrite xorb_false_r. pose proof (minus_vec s) as MV. transitivity ((Cconj (v0 (mvec (MPauli AX s) (sign_eqb s Plus))) + Cconj (v1 (mvec (MPauli AX s) (sign_eqb s Plus)))) * (sgn (Qf eo (upd f n false)) * psi f))%C; [ring|]. rewrite MV. ring. }
  rewrite Z, den_zero. extensionality f. unfold cscale, zero_state. ring.
Qed.
(** old branch and new branch *)
Lemma old_new es es' : edge_enum st es -> edge_enum new_std es' -> exists c, (J = [] -> c <> C0) /\ forall psi, Pin inp L0 psi ->
  forall f f', Forall2 (fun n v => f n = f' v) (sp_out st) outs -> (forall n, ~ In n L0 -> f n = f' n) ->
  den (seq_ops o (std_cmds st1 es)) psi f = (c * den (seq_ops o' (std_cmds new_std es')) psi f')%C.
Proof.
  intros H1 H2. destruct (old_X es H1) as (a & Ha & A). destruct (new_X es' H2) as (b & Hb & B).
  assert (IV : exists b', b' <> C0 /\ (b' * b = C1)%C).
  { exists (RtoC (/ Cnorm2 b) * Cconj b)%C. assert (N : Cnorm2 b <> 0%R) by (intros E; apply Hb, Cnorm2_0; auto). assert (E : (RtoC (/ Cnorm2 b) * Cconj b * b = C1)%C).
    { transitivity (RtoC (/ Cnorm2 b) * (b * Cconj b))%C; [ring|]. rewrite Cnorm2_mulconj. apply C_eq; cbn; field; auto. }
    split; auto. intros Z. rewrite Z in E. assert (E2 := f_equal re E). cbn in E2. lra. }
  destruct IV as (b' & Hb' & E). exists (a * b')%C. split.
  - intros HJ Z. assert (N : Cnorm2 (a * b') = 0%R) by (rewrite Z; unfold Cnorm2; cbn; ring). rewrite Cnorm2_mul in N. apply Rmult_integral in N. destruct N as [N|N]; apply Cnorm2_0 in N; [apply (Ha HJ); auto|auto].
  - intros psi Hp f f' HF HN. rewrite (A psi Hp), (B psi Hp). unfold cscale, relab.
    assert (Q1 : den X psi f = den X psi (fun n => f' (F n))).
    { apply (indep_agree (den X psi) (filter (fun n => negb (lmem n (sp_out st))) L0)).
      - intros n Hn. apply filter_In in Hn. destruct Hn as [Hn Z]. apply negb_true_iff in Z. apply X_indep; auto. rewrite <- lmem_In. congruence.
      - intros n Hn. rewrite filter_In in Hn. destruct (lmem n (sp_out st)) eqn:Z.
        + apply lmem_In in Z. revert Z HF. rewrite outs_F. generalize (sp_out st). intros l Z HF. induction l as [|x l IH]; [destruct Z|]. cbn [map] in HF. inversion HF; subst. destruct Z as [<-|Z]; auto.
        + assert (NL : ~ In n L0) by tauto. assert (EF : F n = n). { rewrite <- (ri_src0 _ _ _ _ _ _ _ _ _ _ I n NL) at 1. apply FG. } rewrite EF. apply HN; auto. }
    rewrite Q1. transitivity (a * (b' * b) * den X psi (fun n => f' (F n)))%C; [rewrite E; ring|ring].
Qed.
End Fin.
