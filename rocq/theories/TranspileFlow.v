(** The open graph and the corrections built by the transpiler form a causal flow. *)
From Coq Require Import Reals Lra Arith ZArith List Bool Lia Permutation Relations.
From Verif Require Import Cplx Mat2 NSet QState Fundamentals CliffordDb Clifford Measure Layer Pattern Standardize Statevec Density Circuit Swaps
  FlowSem FlowDet OpenGraph FlowSpec Flow FlowWF FlowPat TopGen Corr Space SpaceMin SpaceHeur OGMap Transpile.
Import ListNotations.

Lemma sing_inj j k : sing j = sing k -> j = k.
Proof. intros E. assert (Q : mem j (sing k) = true) by (rewrite <- E, mem_sing; apply Nat.eqb_refl). rewrite mem_sing in Q. apply Nat.eqb_eq in Q. auto. Qed.
Lemma t_outs_In idx n : In n (t_outs idx) <-> exists q, at_ idx q n.
Proof.
  unfold t_outs, at_. rewrite in_flat_map. split.
  - intros (o & Ho & H). destruct o as [m|]; [|destruct H]. destruct H as [->|[]]. apply In_nth_error in Ho. destruct Ho as (q & Ho). eauto.
  - intros (q & H). exists (Some n). split; [eapply nth_error_In; eauto|left; auto].
Qed.
Lemma t_outs_NoDup idx : (forall q q' n, at_ idx q n -> at_ idx q' n -> q = q') -> NoDup (t_outs idx).
Proof.
  unfold t_outs. induction idx as [|o idx IH]; intros H; cbn [flat_map]; [constructor|].
  assert (I2 : NoDup (flat_map (fun o => match o with Some n => [n] | None => [] end) idx)).
  { apply IH. intros q q' n A B. assert (S q = S q') by (apply (H (S q) (S q') n); auto). lia. }
  destruct o as [m|]; auto. constructor; auto. intros K. apply t_outs_In in K. destruct K as (q & K).
  assert (0 = S q) by (apply (H 0 (S q) m); auto; reflexivity). discriminate.
Qed.
Lemma enum_edges en es : enum_ok en -> (forall e, In e es -> edge_norm e = e) -> forall u v, In (u, v) (en es) \/ In (v, u) (en es) <-> In (edge_norm (u, v)) es.
Proof.
  intros HE HN u v. specialize (HE es).
  assert (E : map edge_norm es = es) by (clear HE; induction es as [|e es IH]; auto; cbn [map]; rewrite HN by (left; auto); rewrite IH; [auto|intros; apply HN; right; auto]).
  rewrite E in HE. split.
  - intros [K|K]; apply (in_map edge_norm) in K; [|rewrite edge_norm_swap in K]; eapply Permutation_in; eauto.
  - intros K. apply (Permutation_in _ (Permutation_sym HE)) in K. apply in_map_iff in K. destruct K as ([a b] & K1 & K2). apply enorm_eq in K1.
    destruct K1 as [[-> ->]|[-> ->]]; auto.
Qed.

Section TFlow.
Context (w : nat) (act : nset) (st : tst) (en : enumerator) (I : tinv w act st) (HE : enum_ok en).
Definition t_og : opengraph := OG (Graph (t_ns st) (en (t_es st))) (range w) (t_outs (t_idx st) ++ dkeys (t_cl st)) (t_ms st) [].
Notation og := t_og.
Lemma t_adj u v : adjacent (og_graph og) u v <-> In (edge_norm (u, v)) (t_es st).
Proof. apply (enum_edges en (t_es st)); auto. intros e He. apply (ti_es _ _ _ I); auto. Qed.
Lemma t_og_ok : og_ok og.
Proof.
  destruct (ti_es _ _ _ I) as [EN EB].
  assert (EE : forall e, In e (en (t_es st)) -> fst e < t_n st /\ snd e < t_n st).
  { intros [a b] H. assert (K : In (edge_norm (a, b)) (t_es st)) by (apply t_adj; left; auto). apply EB in K. cbn [fst snd]. apply enorm_snd_lt. lia. }
  constructor; cbn [og_graph og_in og_out og_meas og_cliff t_og].
  - split; [|split]; cbn [g_nodes g_edges].
    + rewrite (ti_ns _ _ _ I). apply seq_NoDup.
    + eapply Permutation_NoDup; [apply Permutation_sym, HE|]. erewrite map_ext_in; [rewrite map_id; auto|]. intros e He. apply EB; auto.
    + intros e He. rewrite (ti_ns _ _ _ I), !range_In. apply EE; auto.
  - split; [apply seq_NoDup|]. intros n. cbn [g_nodes]. rewrite (ti_ns _ _ _ I), !range_In. pose proof (ti_w _ _ _ I). lia.
  - split.
    + apply NoDup_app; [apply t_outs_NoDup, (ti_inj _ _ _ I)|apply (ti_clN _ _ _ I)|]. intros n A B. apply t_outs_In in A. destruct A as (q & A). apply (ti_live _ _ _ I) in A. tauto.
    + intros n. cbn [g_nodes]. rewrite in_app_iff, (ti_ns _ _ _ I), range_In, t_outs_In. intros [(q & A)|A]; [apply (ti_live _ _ _ I) in A; tauto|apply (ti_cln _ _ _ I); auto].
  - split; [apply (ti_msN _ _ _ I)|]. intros n. cbn [g_nodes]. rewrite in_app_iff, (ti_ns _ _ _ I), range_In, t_outs_In. split.
    + intros A. destruct (ti_msn _ _ _ I n A) as [B C]. split; auto. intros [(q & D)|D]; auto. apply (ti_live _ _ _ I) in D. tauto.
    + intros [A B]. destruct (ti_cov _ _ _ I n A) as [C|[C|C]]; auto; exfalso; apply B; auto.
  - split; [constructor|intros n []].
Qed.
Lemma t_og_make : og_make (Graph (t_ns st) (en (t_es st))) (range w) (t_outs (t_idx st) ++ dkeys (t_cl st)) (t_ms st) [] = Ok og.
Proof.
  pose proof t_og_ok as H. destruct (og_make_spec (Graph (t_ns st) (en (t_es st))) (range w) (t_outs (t_idx st) ++ dkeys (t_cl st)) (t_ms st) []) as [[_ K]|[K _]]; auto; [apply (ok_graph _ H)|apply (ok_meas _ H)|constructor|elim K; auto].
Qed.
Lemma t_simple : simple (og_graph og).
Proof. intros [a b] H. assert (K : In (edge_norm (a, b)) (t_es st)) by (apply t_adj; left; auto). apply (ti_es _ _ _ I) in K. cbn [fst snd]. intros ->. unfold edge_norm in K. cbn in K. lia. Qed.
Lemma t_planar : planar og.
Proof. intros n m H. apply (ti_xy _ _ _ I) in H. destruct H as (a & ->). eauto. Qed.
Lemma t_x_ND : NoDup (dkeys (t_x st)).
Proof. rewrite (ti_x _ _ _ I). apply (ti_msN _ _ _ I). Qed.
(** the Z corrections *)
Lemma t_z : exists z, t_zcorr og (t_x st) = Ok z /\ NoDup (dkeys z) /\ (forall k, In k (dkeys z) -> In k (dkeys (t_x st))) /\
  forall t k, mem k (dgets z t) = true <-> exists s j, dget (t_x st) t = Some s /\ s = sing j /\ k <> t /\ adjacent (og_graph og) j k.
Proof.
  unfold t_zcorr. pose proof t_x_ND as ND. assert (KV : forall t s, In (t, s) (t_x st) -> exists j, s = sing j /\ In j (g_nodes (og_graph og))).
  { intros t s H. apply In_dget in H; auto. destruct (ti_flow _ _ _ I t s H) as (j & E & B & _). exists j. split; auto. cbn. rewrite (ti_ns _ _ _ I), range_In. lia. }
  assert (G : forall l z0, NoDup (dkeys l) -> (forall t s, In (t, s) l -> exists j, s = sing j /\ In j (g_nodes (og_graph og))) -> NoDup (dkeys z0) ->
    (forall k, In k (dkeys l) -> dgets z0 k = sempty) ->
    exists z, rfold (fun z p => do nb <- og_neighbors og (snd p); Ok (dset_ne z (fst p) (sremove (fst p) nb))) l z0 = Ok z /\ NoDup (dkeys z) /\ (forall k, In k (dkeys z) -> In k (dkeys l) \/ In k (dkeys z0)) /\
      forall t k, mem k (dgets z t) = true <-> (~ In t (dkeys l) /\ mem k (dgets z0 t) = true) \/ exists s j, dget l t = Some s /\ s = sing j /\ k <> t /\ adjacent (og_graph og) j k).
  { induction l as [|[t s] l IH]; intros z0 N1 N2 N3 N4.
    - exists z0. split; auto. split; auto. split; auto. intros t k. cbn. split; [auto|]. intros [[_ H]|(s & j & K & _)]; [auto|discriminate].
    - cbn [rfold fst snd]. destruct (N2 t s (or_introl eq_refl)) as (j & -> & Hj). cbn in N1. inversion N1; subst.
      destruct (og_neighbors_spec og (sing j)) as (nb & E & HN); [intros k Hk; rewrite mem_sing in Hk; apply Nat.eqb_eq in Hk; subst; auto|]. rewrite E. cbn [rbind].
      destruct (IH (dset_ne z0 t (sremove t nb))) as (z & Z1 & Z2 & Z4 & Z3); auto.
      + intros t' s' K'; apply (N2 t' s'); right; auto.
      + unfold dset_ne. destruct (is_empty _); auto. apply dset_NoDup; auto.
      + intros k Hk. rewrite dgets_ne' by (apply N4; left; auto). replace (t =? k)%nat with false; [apply N4; right; auto|]. symmetry. apply Nat.eqb_neq. intros ->; auto.
      + exists z. split; auto. split; auto. split.
        { intros k Hk. apply Z4 in Hk. cbn [dkeys map fst In]. destruct Hk as [Hk|Hk]; auto. unfold dset_ne in Hk. destruct (is_empty _); auto. apply dkeys_dset in Hk. destruct Hk as [->|Hk]; auto. }
        intros u k. rewrite Z3. cbn [dkeys map fst In dget]. rewrite dgets_ne' by (apply N4; left; auto).
        destruct (Nat.eqb_spec t u) as [<-|Ne].
        * split.
          -- intros [[_ K]|(s & j' & K & _)]; [|apply dget_is_key in K; tauto].
             right. apply mem_sremove_iff in K. destruct K as [K1 K2]. apply HN in K1. destruct K1 as (x & X1 & X2). rewrite mem_sing in X1; apply Nat.eqb_eq in X1. subst x. eauto 8.
          -- intros [[K _]|(s & j' & K & Ks & K2 & K3)]; [elim K; auto|]. injection K as <-. left. split; auto. apply mem_sremove_iff. split; auto. apply HN. exists j.
             split; [rewrite mem_sing; apply Nat.eqb_refl|]. apply sing_inj in Ks. subst; auto.
        * split; intros [[K1 K2]|K]; auto; left; split; auto; tauto. }
  destruct (G (t_x st) [] ND KV) as (z & A & B & D & C); [constructor|auto|]. exists z. split; auto. split; auto. split; [intros k Hk; apply D in Hk; destruct Hk as [|[]]; auto|]. intros t k. rewrite C. split; [|auto]. intros [[_ K]|K]; auto. unfold dgets in K. cbn in K. rewrite mem_empty in K. discriminate.
Qed.
Lemma t_corrects z : (forall t k, mem k (dgets z t) = true <-> exists s j, dget (t_x st) t = Some s /\ s = sing j /\ k <> t /\ adjacent (og_graph og) j k) ->
  forall u v, corrects (t_x st) z u v <-> exists j, dget (t_x st) u = Some (sing j) /\ (v = j \/ (v <> u /\ adjacent (og_graph og) j v)).
Proof.
  intros HZ u v. rewrite corrects_dgets, HZ. unfold dgets. split.
  - intros [K|(s & j & K & -> & K2 & K3)]; [|eauto]. destruct (dget (t_x st) u) as [s|] eqn:E; [|rewrite mem_empty in K; discriminate].
    destruct (ti_flow _ _ _ I u s E) as (j & -> & _). exists j. split; auto. rewrite mem_sing in K. apply Nat.eqb_eq in K. auto.
  - intros (j & K & [->|[K1 K2]]); [left; rewrite K, mem_sing; apply Nat.eqb_refl|right; eauto 8].
Qed.
Lemma t_corr_pos z : (forall t k, mem k (dgets z t) = true <-> exists s j, dget (t_x st) t = Some s /\ s = sing j /\ k <> t /\ adjacent (og_graph og) j k) ->
  forall u v, corrects (t_x st) z u v -> pos (dkeys (t_ms st)) u < pos (dkeys (t_ms st)) v.
Proof.
  intros HZ u v H. apply (t_corrects z HZ) in H. destruct H as (j & K & H). destruct (ti_flow _ _ _ I u _ K) as (j' & E & _ & _ & P1 & P2).
  apply sing_inj in E. subst j'.
  destruct H as [->|[H1 H2]]; auto. apply P2; auto. apply t_adj. apply adjacent_sym; auto.
Qed.
Lemma t_key u : In u (dkeys (t_x st)) <-> In u (g_nodes (og_graph og)) /\ ~ In u (og_out og).
Proof. rewrite (ti_x _ _ _ I). apply (ok_meas _ t_og_ok). Qed.
Lemma t_layers it : iter_ok it -> exists z ls, t_zcorr og (t_x st) = Ok z /\ corr_layers it og (t_x st) z = Ok ls /\ causal_flow og (t_x st) ls.
Proof.
  intros Hit. destruct t_z as (z & Z1 & Z2 & Z4 & Z3). exists z.
  assert (CO : corr_ok og (t_x st) z).
  { constructor.
    - intros u [K|K]; apply t_key; auto.
    - intros u v H. apply (t_corrects z Z3) in H. destruct H as (j & K & [->|[_ H]]); [|apply adjacent_nodes in H; [tauto|apply (ok_graph _ t_og_ok)]].
      destruct (ti_flow _ _ _ I u _ K) as (j' & E & B & _). apply sing_inj in E. subst j'.
      cbn. rewrite (ti_ns _ _ _ I), range_In. lia.
    - intros u H. assert (P : forall a b, clos_trans nat (corrects (t_x st) z) a b -> pos (dkeys (t_ms st)) a < pos (dkeys (t_ms st)) b).
      { intros a b K. induction K; [apply (t_corr_pos z Z3); auto|lia]. }
      apply P in H. lia. }
  destruct (from_layers_ok it og (t_x st) z Hit t_og_ok t_x_ND Z2) as [(ls & E & _ & Ho & HO)|[_ K]]; [apply CO| |elim K; auto].
  exists ls. split; auto. split; auto. pose proof (t_corrects z Z3) as TC. constructor; auto.
  - constructor.
    + intros i. rewrite <- t_key. split; [intros (s & K); eapply dget_is_key; eauto|apply dget_keys].
    + intros i s j K M. destruct (ti_flow _ _ _ I i s K) as (j' & -> & B & _). rewrite mem_sing in M. apply Nat.eqb_eq in M. subst j'. cbn. rewrite (ti_ns _ _ _ I), !range_In. lia.
  - intros i s K. apply dget_is_key in K. rewrite (ti_x _ _ _ I) in K. apply dget_keys in K. destruct K as (m & K). destruct (ti_xy _ _ _ I i m K) as (a & ->). exists (MBloch a PXY). auto.
  - intros i s K. destruct (ti_flow _ _ _ I i s K) as (j & -> & B & F & _). exists j. split; [|split; [|split]].
    + intros k. rewrite mem_sing. apply Nat.eqb_eq.
    + apply t_adj; auto.
    + apply HO, TC. eauto.
    + intros k A Ne. apply HO, TC. eauto.
Qed.
End TFlow.
