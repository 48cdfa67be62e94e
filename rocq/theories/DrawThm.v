(** Proofs about the layout of causal flows: the invariants of the loops of
    [cf_positions]. *)
From Coq Require Import Reals Lra Arith List Bool Lia Permutation.
From Verif Require Import NSet Fundamentals Measure Pattern OpenGraph FlowSpec Flow Draw.
Import ListNotations.

Lemma iter_In it s n : iter_ok it -> In n (it s) <-> mem n s = true.
Proof. intros H. rewrite <- elems_spec. split; apply Permutation_in; [|symmetry]; apply H. Qed.
Lemma iter_NoDup it s : iter_ok it -> NoDup (it s).
Proof. intros H. eapply Permutation_NoDup; [symmetry; apply H|apply elems_NoDup]. Qed.

(** [m] is the image of [n] *)
Definition cstep (cf : dict nset) (n m : nat) : Prop := exists s, dget cf n = Some s /\ mem m s = true.
Inductive on_chain (cf : dict nset) (k : nat) : nat -> nat -> Prop :=
| oc_0 : on_chain cf k 0 k
| oc_S a n m : on_chain cf k a n -> cstep cf n m -> on_chain cf k (S a) m.

Section Causal.
  Context (it : iter) (Hit : iter_ok it) (og : opengraph) (cf : dict nset) (ls : list nset).
  Context (CF : causal_flow og cf ls) (GOK : graph_ok (og_graph og)).

  Lemma prec_lt u v i j : prec ls u v -> in_layer ls i u -> in_layer ls j v -> j < i.
  Proof.
    intros (a & b & Ha & Hb & L) Hi Hj. pose proof (cfl_order _ _ _ CF) as O.
    rewrite (ord_disj _ _ O _ _ _ Hi Ha), (ord_disj _ _ O _ _ _ Hj Hb). auto.
  Qed.
  Lemma prec_irr u v : prec ls u v -> prec ls v u -> False.
  Proof. intros H (a & b & Ha & Hb & L). pose proof (prec_lt _ _ _ _ H Hb Ha). lia. Qed.
  Lemma cstep_prec n m : cstep cf n m -> prec ls n m.
  Proof.
    intros (s & E & M). destruct (cfl_all _ _ _ CF _ _ E) as (j & Hj & _ & P & _). apply Hj in M; subst; auto.
  Qed.
  Lemma cstep_fun n m m' : cstep cf n m -> cstep cf n m' -> m = m'.
  Proof.
    intros (s & E & M) (s' & E' & M'). rewrite E in E'; injection E' as <-.
    destruct (cfl_all _ _ _ CF _ _ E) as (j & Hj & _). apply Hj in M, M'. congruence.
  Qed.
  Lemma cstep_inj n n' m : cstep cf n m -> cstep cf n' m -> n = n'.
  Proof.
    intros (s & E & M) (s' & E' & M').
    destruct (cfl_all _ _ _ CF _ _ E) as (j & Hj & A & _ & Q). destruct (cfl_all _ _ _ CF _ _ E') as (j' & Hj' & A' & _ & Q').
    apply Hj in M; apply Hj' in M'; subst j j'.
    destruct (Nat.eq_dec n n'); auto. exfalso.
    apply (prec_irr n n'); [apply Q|apply Q']; auto; apply adjacent_sym; auto.
  Qed.
  Lemma cstep_node n m : cstep cf n m -> In m (g_nodes (og_graph og)).
  Proof. intros (s & E & M). eapply cf_img; eauto. apply (cfl_cf _ _ _ CF). Qed.
  Lemma node_layer n : In n (g_nodes (og_graph og)) <-> exists i, in_layer ls i n.
  Proof. apply (ord_cover _ _ (cfl_order _ _ _ CF)). Qed.
  Lemma prec_nodes u v : prec ls u v -> In u (g_nodes (og_graph og)) /\ In v (g_nodes (og_graph og)).
  Proof. intros (i & j & H & H' & _). split; apply node_layer; eauto. Qed.
  Lemma on_chain_node k a n : In k (g_nodes (og_graph og)) -> on_chain cf k a n -> In n (g_nodes (og_graph og)).
  Proof. intros H C. destruct C; auto. eapply cstep_node; eauto. Qed.
  Lemma on_chain_front k m a n : cstep cf k m -> on_chain cf m a n -> on_chain cf k (S a) n.
  Proof. intros S C. induction C; [econstructor; [constructor|auto]|econstructor; eauto]. Qed.
  Lemma on_chain_inv k m a n : cstep cf k m -> on_chain cf k (S a) n -> on_chain cf m a n.
  Proof.
    intros S. revert n. induction a; intros n C.
    - inversion C; subst. inversion H0; subst. rewrite (cstep_fun _ _ _ S H1). constructor.
    - inversion C; subst. econstructor; [apply IHa; eauto|auto].
  Qed.
  Lemma on_chain_len k a n i j : on_chain cf k a n -> in_layer ls i k -> in_layer ls j n -> j + a <= i.
  Proof.
    intros C. revert j. induction C as [|a n m C IH S]; intros j Hi Hj.
    - rewrite (ord_disj _ _ (cfl_order _ _ _ CF) _ _ _ Hi Hj). lia.
    - pose proof (cstep_prec _ _ S) as P. destruct (prec_nodes _ _ P) as [Nn _]. apply node_layer in Nn as [b Hb].
      specialize (IH b Hi Hb). pose proof (prec_lt _ _ _ _ P Hb Hj). lia.
  Qed.
  (** two chains from starting nodes that meet are the same *)
  Lemma on_chain_start k k' a b n : (forall m, ~ cstep cf m k) -> (forall m, ~ cstep cf m k') ->
    on_chain cf k a n -> on_chain cf k' b n -> k = k' /\ a = b.
  Proof.
    intros Sk Sk' C. revert b. induction C as [|a n m C IH S]; intros b D.
    - inversion D; subst; auto. exfalso; eapply Sk; eauto.
    - inversion D; subst; [exfalso; eapply Sk'; eauto|].
      rewrite (cstep_inj _ _ _ S H0) in *. destruct (IH _ H); subst; auto.
  Qed.
  Lemma on_chain_fun k a n m : on_chain cf k a n -> on_chain cf k a m -> n = m.
  Proof.
    intros C. revert m. induction C as [|a n p C IH S]; intros m D; inversion D; subst; auto.
    rewrite (IH _ H0) in S. eapply cstep_fun; eauto.
  Qed.
  Lemma on_chain_pos k a b n : on_chain cf k a n -> on_chain cf k b n -> In k (g_nodes (og_graph og)) -> a = b.
  Proof.
    revert a n. assert (K : forall a b n, on_chain cf k a n -> on_chain cf k b n -> a <= b -> In k (g_nodes (og_graph og)) -> a = b).
    { intros a b' n C. revert b'. induction C as [|a n m C IH S]; intros b' D L Nk.
      - inversion D; subst; auto. exfalso. apply node_layer in Nk as [i Hi].
        pose proof (on_chain_len _ _ _ _ _ D Hi Hi). lia.
      - inversion D; subst; [lia|]. rewrite (cstep_inj _ _ _ S H0) in *. f_equal. apply IH; auto. lia. }
    intros a n C D Nk. destruct (Nat.le_ge_cases a b); [|symmetry]; eapply K; eauto.
  Qed.
  (** every node is on the chain of a starting node *)
  Lemma chain_cover n : In n (g_nodes (og_graph og)) ->
    exists k a, In k (g_nodes (og_graph og)) /\ (forall m, ~ cstep cf m k) /\ on_chain cf k a n.
  Proof.
    intros Nn. pose proof Nn as H. apply node_layer in H as [i Hi].
    assert (K : forall d i n, length ls - i <= d -> in_layer ls i n ->
       exists k a, In k (g_nodes (og_graph og)) /\ (forall m, ~ cstep cf m k) /\ on_chain cf k a n).
    { induction d; intros j m L Hj.
      - destruct Hj as (l & E & _). assert (j < length ls) by (apply nth_error_Some; congruence). lia.
      - destruct (in_dec Nat.eq_dec m (flat_map (fun kv => elems (snd kv)) (filter (fun kv => match dget cf (fst kv) with Some s => N.eqb s (snd kv) | None => false end) cf))) as [I|NI].
        + apply in_flat_map in I as ((p & s) & I & M). apply filter_In in I as [I E]. cbn in *. apply elems_spec in M.
          destruct (dget cf p) as [s'|] eqn:Ep; [|discriminate]. apply N.eqb_eq in E; subst s'.
          assert (S : cstep cf p m) by (exists s; auto).
          pose proof (cstep_prec _ _ S) as P. destruct (prec_nodes _ _ P) as [Np _]. apply node_layer in Np as [b Hb].
          pose proof (prec_lt _ _ _ _ P Hb Hj).
          assert (b < length ls) by (destruct Hb as (l & E & _); apply nth_error_Some; congruence).
          destruct (IHd b p ltac:(lia) Hb) as (k & a & K1 & K2 & K3). exists k, (Datatypes.S a). repeat split; auto. econstructor; eauto.
        + exists m, 0. split; [apply node_layer; eauto|]. split; [|constructor].
          intros p (s & E & M). apply NI. apply in_flat_map. exists (p, s). split; [|cbn; apply elems_spec; auto].
          apply filter_In. split; [apply dget_In; auto|]. cbn. rewrite E. apply N.eqb_refl. }
    eapply K; eauto.
  Qed.

  (** the inner loop writes row [i] at the nodes after [n] on its chain *)
  Lemma chain_loop_spec fuel i : forall b n d, in_layer ls b n -> b <= fuel -> (forall m, In m (g_nodes (og_graph og)) -> dget d m <> None) ->
    exists d', chain_loop it cf fuel i n d = Ok d' /\
      (forall m, (exists a, on_chain cf n (S a) m) -> exists x y, dget d m = Some (x, y) /\ dget d' m = Some (x, i)) /\
      (forall m, (forall a, ~ on_chain cf n (S a) m) -> dget d' m = dget d m).
  Proof.
    induction fuel; intros b n d Hb L D; cbn [chain_loop].
    - destruct (dget cf n) as [s|] eqn:E.
      + exfalso. destruct (cfl_all _ _ _ CF _ _ E) as (j & _ & _ & P & _).
        destruct (prec_nodes _ _ P) as [_ Nj]. apply node_layer in Nj as [c Hc]. pose proof (prec_lt _ _ _ _ P Hb Hc). lia.
      + exists d. repeat split; auto. intros m (a & C). exfalso.
        assert (K : forall a m, on_chain cf n (S a) m -> False).
        { induction a0; intros m' C'; inversion C'; subst; eauto. inversion H0; subst. destruct H1 as (s & E' & _). congruence. }
        eapply K; eauto.
    - destruct (dget cf n) as [s|] eqn:E.
      + destruct (cfl_all _ _ _ CF _ _ E) as (j & Hj & _ & P & _).
        destruct (prec_nodes _ _ P) as [_ Nj]. pose proof Nj as Nj'. apply node_layer in Nj' as [c Hc]. pose proof (prec_lt _ _ _ _ P Hb Hc).
        assert (Mj : mem j s = true) by (apply Hj; auto).
        assert (S : cstep cf n j) by (exists s; auto).
        destruct (it s) as [|m r] eqn:Ei; [exfalso; apply (iter_In it s j Hit) in Mj; rewrite Ei in Mj; auto|].
        assert (m = j) by (apply Hj; apply (iter_In it s m Hit); rewrite Ei; left; auto). subst m.
        unfold set_y. destruct (dget d j) as [[x y]|] eqn:Dj; [|exfalso; apply (D j); auto]. cbn [rbind].
        destruct (IHfuel c j (dset d j (x, i)) Hc ltac:(lia)) as (d' & R & R1 & R2).
        { intros m Nm. rewrite dget_dset. destruct (Nat.eqb_spec j m); [discriminate|apply D; auto]. }
        exists d'. split; auto.
        assert (NSelf : forall a, ~ on_chain cf j (Datatypes.S a) j).
        { intros a C. pose proof (on_chain_len _ _ _ _ _ C Hc Hc). lia. }
        split.
        * intros m (a & C). apply (on_chain_inv _ _ _ _ S) in C. destruct a.
          -- inversion C; subst. exists x, y. split; auto. rewrite R2, dget_dset, Nat.eqb_refl; auto.
          -- destruct (R1 m) as (x' & y' & F & G); eauto. rewrite dget_dset in F. destruct (Nat.eqb_spec j m).
             ++ subst. exfalso; eapply NSelf; eauto.
             ++ eauto.
        * intros m C. rewrite R2, dget_dset.
          -- destruct (Nat.eqb_spec j m); auto. subst. exfalso. apply (C 0). eapply on_chain_front; eauto. constructor.
          -- intros a C'. apply (C (Datatypes.S a)). eapply on_chain_front; eauto.
      + exists d. repeat split; auto. intros m (a & C). exfalso.
        assert (K : forall a m, on_chain cf n (S a) m -> False).
        { induction a0; intros m' C'; inversion C'; subst; eauto. inversion H0; subst. destruct H1 as (s & E' & _). congruence. }
        eapply K; eauto.
  Qed.

  (** the outer loop: node [m] of the chain of the [r]-th starting node gets row [i + r] *)
  Lemma chains_loop_spec fuel ks : length ls <= fuel -> NoDup ks -> (forall k, In k ks -> In k (g_nodes (og_graph og)) /\ forall m, ~ cstep cf m k) ->
    forall i d, (forall m, In m (g_nodes (og_graph og)) -> dget d m <> None) ->
    exists d', chains_loop it cf fuel i ks d = Ok d' /\ (forall m, dget d m = None <-> dget d' m = None) /\
      (forall r k a m, nth_error ks r = Some k -> on_chain cf k a m -> exists x, dget d' m = Some (x, i + r)) /\
      (forall m, (forall k a, In k ks -> ~ on_chain cf k a m) -> dget d' m = dget d m).
  Proof.
    intros Lf. induction ks as [|k ks IH]; intros ND SK i d D; cbn [chains_loop].
    - exists d. repeat split; auto. intros [|r] k a m E; discriminate.
    - inversion ND as [|? ? NI ND']; subst. destruct (SK k (or_introl eq_refl)) as [Nk Sk].
      unfold set_y. destruct (dget d k) as [[x y]|] eqn:Dk; [|exfalso; apply (D k); auto]. cbn [rbind].
      pose proof Nk as Nk'. apply node_layer in Nk' as [b Hb].
      assert (b < length ls) by (destruct Hb as (l & E & _); apply nth_error_Some; congruence).
      assert (D1 : forall m, In m (g_nodes (og_graph og)) -> dget (dset d k (x, i)) m <> None).
      { intros m Nm. rewrite dget_dset. destruct (Nat.eqb_spec k m); [discriminate|apply D; auto]. }
      destruct (chain_loop_spec fuel i b k (dset d k (x, i)) Hb ltac:(lia) D1) as (d1 & R & R1 & R2). rewrite R; cbn [rbind].
      assert (Dom1 : forall m, dget d m = None <-> dget d1 m = None).
      { intros m. destruct (in_dec Nat.eq_dec m (g_nodes (og_graph og))) as [I|I].
        - split; intros E; exfalso; [apply (D m); auto|].
          destruct (dget (dset d k (x, i)) m) as [[x' y']|] eqn:F; [|apply (D1 m); auto].
          destruct (chain_cover m I) as (k0 & a & Nk0 & Sk0 & C). destruct (Nat.eq_dec k0 k) as [->|Ne].
          + destruct a as [|a].
            * inversion C; subst. rewrite (R2 m) in E; [|intros a C'; pose proof (on_chain_len _ _ _ _ _ C' Hb Hb); lia]. congruence.
            * destruct (R1 m) as (? & ? & _ & G); eauto. congruence.
          + rewrite (R2 m) in E; [congruence|]. intros a' C'. destruct (on_chain_start _ _ _ _ _ Sk0 Sk C C'); congruence.
        - rewrite (R2 m), dget_dset.
          + destruct (Nat.eqb_spec k m); [subst; contradiction|tauto].
          + intros a C'. apply I. eapply on_chain_node; eauto. }
      destruct (IH ND' (fun k' Hk' => SK k' (or_intror Hk')) (S i) d1) as (d' & Q & Q0 & Q1 & Q2).
      { intros m Nm E. apply Dom1 in E. apply (D m); auto. }
      exists d'. split; auto. split; [|split].
      + intros m. rewrite Dom1. apply Q0.
      + intros [|r] k' a m E C; cbn in E.
        * injection E as <-. rewrite Nat.add_0_r.
          assert (F : dget d' m = dget d1 m).
          { apply Q2. intros k' a' I' C'. destruct (SK k' (or_intror I')) as [_ Sk']. destruct (on_chain_start _ _ _ _ _ Sk Sk' C C'); subst; auto. }
          rewrite F. destruct a as [|a].
          -- inversion C; subst. rewrite R2, dget_dset, Nat.eqb_refl; eauto. intros a C'; pose proof (on_chain_len _ _ _ _ _ C' Hb Hb); lia.
          -- destruct (R1 m) as (x' & ? & _ & G); eauto.
        * destruct (Q1 r k' a m E C) as (x' & F). exists x'. rewrite F. f_equal. f_equal. lia.
      + intros m N. rewrite Q2, R2, dget_dset.
        * destruct (Nat.eqb_spec k m); auto. subst. exfalso. apply (N m 0); [left; auto|constructor].
        * intros a C. apply (N k (S a)); auto. left; auto.
        * intros k' a I C. apply (N k' a); auto. right; auto.
  Qed.

  (** the columns *)
  Lemma column_spec x l d : NoDup l -> (forall m, In m l -> dget d m <> None) ->
    exists d', rfold (fun d n => set_x d n x) l d = Ok d' /\
      (forall m y0 y, In m l -> dget d m = Some (y0, y) -> dget d' m = Some (x, y)) /\ (forall m, ~ In m l -> dget d' m = dget d m).
  Proof.
    revert d. induction l as [|n l IH]; intros d ND D; cbn [rfold].
    - exists d. repeat split; auto. intros m y0 y [].
    - inversion ND; subst. destruct (dget d n) as [[x0 y0]|] eqn:Dn; [|exfalso; apply (D n); auto; left; auto].
      assert (Ex : set_x d n x = Ok (dset d n (x, y0))) by (unfold set_x; rewrite Dn; auto). rewrite Ex.
      destruct (IH (dset d n (x, y0)) H2) as (d' & R & R1 & R2).
      { intros m I. rewrite dget_dset. destruct (Nat.eqb_spec n m); [discriminate|]. apply D; right; auto. }
      exists d'. split; auto. split.
      + intros m z y [<-|I] E.
        * rewrite E in Dn; injection Dn as <- <-. rewrite R2, dget_dset, Nat.eqb_refl; auto.
        * assert (n <> m) by congruence. eapply (R1 m z); auto. rewrite dget_dset. destruct (Nat.eqb_spec n m); [contradiction|auto].
      + intros m I. rewrite R2, dget_dset; [|intros J; apply I; right; auto]. destruct (Nat.eqb_spec n m); auto. subst. exfalso; apply I; left; auto.
  Qed.
  Lemma columns_spec lmax : forall rest i d, (forall j, nth_error rest j = nth_error ls (i + j)) -> i + length rest = length ls ->
    (forall m, In m (g_nodes (og_graph og)) -> dget d m <> None) ->
    exists d', columns_loop it lmax i rest d = Ok d' /\ (forall m, dget d m = None <-> dget d' m = None) /\
      (forall j m y0 y, i <= j -> in_layer ls j m -> dget d m = Some (y0, y) -> dget d' m = Some (lmax - j, y)) /\
      (forall j m, j < i -> in_layer ls j m -> dget d' m = dget d m).
  Proof.
    induction rest as [|l rest IH]; intros i d E L D; cbn [columns_loop].
    - exists d. split; auto. split; [tauto|]. split; auto. intros j m y0 y Lj (l & En & _). exfalso.
      cbn in L. assert (j < length ls) by (apply nth_error_Some; congruence). lia.
    - pose proof (E 0) as E0. cbn in E0. rewrite Nat.add_0_r in E0.
      destruct (column_spec (lmax - i) (it l) d (iter_NoDup it l Hit)) as (d1 & R & R1 & R2).
      { intros m I. apply D. apply node_layer. exists i, l. split; auto. apply (iter_In it l m Hit); auto. }
      rewrite R; cbn [rbind].
      assert (LI : forall m, In m (it l) <-> in_layer ls i m).
      { intros m. rewrite (iter_In it l m Hit). split; [intros M; exists l; auto|intros (l' & E' & M)]. rewrite <- E0 in E'. injection E' as <-; auto. }
      assert (Dom1 : forall m, dget d m = None <-> dget d1 m = None).
      { intros m. destruct (in_dec Nat.eq_dec m (it l)) as [I|I]; [|rewrite R2; tauto].
        destruct (dget d m) as [[y0 y]|] eqn:F; [rewrite (R1 m y0 y I F); split; discriminate|].
        exfalso. apply (D m); auto. apply node_layer. exists i. apply LI; auto. }
      destruct (IH (S i) d1) as (d' & Q & Q0 & Q1 & Q2).
      { intros j. specialize (E (S j)). cbn in E. rewrite E. f_equal. lia. }
      { cbn in L; lia. }
      { intros m Nm F. apply Dom1 in F. apply (D m); auto. }
      exists d'. split; auto. split; [intros m; rewrite Dom1; apply Q0|]. split.
      + intros j m y0 y Lj Hj F. destruct (Nat.eq_dec i j) as [<-|Ne].
        * rewrite (Q2 i m); auto. apply (R1 m y0); auto. apply LI; auto.
        * apply (Q1 j m y0 y); auto; [lia|]. rewrite R2; auto. intros I. apply LI in I.
          apply Ne. apply (ord_disj _ _ (cfl_order _ _ _ CF) _ _ _ I Hj).
      + intros j m Lj Hj. rewrite (Q2 j m); auto. apply R2. intros I. apply LI in I.
        pose proof (ord_disj _ _ (cfl_order _ _ _ CF) _ _ _ I Hj). lia.
  Qed.
End Causal.

Lemma mem_fold_union (l : dict nset) n : mem n (fold_right (fun p s => sunion (snd p) s) sempty l) = true <-> exists p, In p l /\ mem n (snd p) = true.
Proof.
  induction l as [|p l IH]; cbn [fold_right]; [rewrite mem_empty; split; [discriminate|intros (? & [] & _)]|].
  rewrite mem_sunion, orb_true_iff, IH. split.
  - intros [H|(q & I & H)]; [exists p|exists q]; cbn; auto.
  - intros (q & [<-|I] & H); [left|right; exists q]; auto.
Qed.

(** the layout of a causal flow: column [length layers - 1 - layer], row the
    index of the starting node of the chain *)
Lemma cf_positions_spec it f fuel : iter_ok it -> graph_ok (og_graph (pf_og f)) -> NoDup (dkeys (pf_cf f)) ->
  causal_flow (pf_og f) (pf_cf f) (pf_layers f) -> length (pf_layers f) <= fuel ->
  exists d, cf_positions it fuel f = Ok d /\
    (forall n, dget d n <> None <-> In n (g_nodes (og_graph (pf_og f)))) /\
    (forall n i, in_layer (pf_layers f) i n ->
       exists r k a, nth_error (it (start_nodes f)) r = Some k /\ on_chain (pf_cf f) k a n /\
                     dget d n = Some (length (pf_layers f) - 1 - i, r)).
Proof.
  intros Hit GOK ND CF Lf. unfold cf_positions. set (og := pf_og f) in *. set (cf := pf_cf f) in *. set (ls := pf_layers f) in *.
  set (d0 := map (fun n => (n, (0, 0))) (g_nodes (og_graph og))).
  assert (G0 : forall n, dget d0 n <> None <-> In n (g_nodes (og_graph og))).
  { intros n. rewrite dget_None. unfold d0, dkeys. rewrite map_map; cbn [fst]. rewrite map_id.
    destruct (in_dec Nat.eq_dec n (g_nodes (og_graph og))); tauto. }
  assert (ST : forall k, In k (it (start_nodes f)) <-> In k (g_nodes (og_graph og)) /\ forall m, ~ cstep cf m k).
  { intros k. rewrite (iter_In it _ k Hit). unfold start_nodes. fold og cf.
    rewrite mem_sdiff, andb_true_iff, negb_true_iff. unfold og_nodes. rewrite mem_of_list.
    split; intros [A B]; split; auto.
    - intros m (s & E & M). apply Bool.not_true_iff_false in B. apply B. apply mem_fold_union. exists (m, s). split; auto. apply dget_In; auto.
    - apply Bool.not_true_iff_false. intros H. apply mem_fold_union in H as ((m & s) & I & M). apply (B m). exists s. split; auto. apply In_dget; auto. }
  destruct (chains_loop_spec it Hit og cf ls CF fuel (it (start_nodes f)) Lf (iter_NoDup it _ Hit) (fun k H => proj1 (ST k) H) 0 d0) as (d1 & R & R0 & R1 & _).
  { intros m Nm. apply G0; auto. }
  rewrite R; cbn [rbind].
  destruct (columns_spec it Hit og cf ls CF (length ls - 1) ls 0 d1) as (d & Q & Q0 & Q1 & _); auto.
  { intros m Nm E. apply R0 in E. apply G0 in Nm. auto. }
  exists d. split; auto. split.
  - intros n. rewrite <- Q0, <- R0. apply G0.
  - intros n i Hi. assert (Nn : In n (g_nodes (og_graph og))) by (apply (node_layer og cf ls CF); eauto).
    destruct (chain_cover og cf ls CF n Nn) as (k & a & Nk & Sk & C).
    assert (I : In k (it (start_nodes f))) by (apply ST; auto). apply In_nth_error in I as [r Er].
    destruct (R1 r k a n Er C) as (x & F). cbn in F.
    exists r, k, a. split; auto. split; auto. eapply Q1; eauto. lia.
Qed.
