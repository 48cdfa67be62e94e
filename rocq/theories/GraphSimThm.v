(** Proofs about graphix/graphsim.py (model in GraphSim.v). *)
From Coq Require Import Reals Lra Arith List Bool Lia Permutation Setoid Morphisms FunctionalExtensionality.
From Verif Require Import Cplx Mat2 Fundamentals CliffordDb Clifford NSet Measure QState Pattern Layer Standardize OpenGraph FlowSem FlowWF GState GraphSim.
Import ListNotations.
Local Arguments app_op : simpl never.

(** * Loops over the neighbours *)
Definition lm (n : nat) (l : list nat) : bool := existsb (Nat.eqb n) l.
Lemma lm_In n l : lm n l = true <-> In n l.
Proof. unfold lm. rewrite existsb_exists. split; [intros (x & H & E); apply Nat.eqb_eq in E; subst; auto|]. intros H. exists n. rewrite Nat.eqb_refl. auto. Qed.
Lemma lm_set l s : (forall n, In n l <-> mem n s = true) -> forall n, lm n l = mem n s.
Proof. intros H n. apply eq_true_iff_eq. rewrite lm_In. apply H. Qed.
Lemma fold_flip l : forall g, NoDup l -> exists s', fold_left flip_sign l g = GS (gs_nodes g) (gs_edges g) s' (gs_loop g) (gs_hollow g) /\ forall n, mem n s' = xorb (mem n (gs_sign g)) (lm n l).
Proof.
  induction l as [|a l IH]; intros g ND.
  - exists (gs_sign g). split; [destruct g; auto|]. intros n. cbn. destruct (mem n (gs_sign g)); auto.
  - inversion ND; subst. cbn [fold_left]. destruct (IH (flip_sign g a) H2) as (s' & E & K). exists s'. split; [exact E|]. intros n. rewrite K. cbn [gs_sign flip_sign]. unfold flip. rewrite mem_sxor, mem_sing. cbn [lm existsb]. fold (lm n l).
    destruct (Nat.eqb_spec n a) as [->|]; cbn [orb]; [|destruct (mem n (gs_sign g)); auto]. assert (lm a l = false) as -> by (apply not_true_iff_false; rewrite lm_In; auto). destruct (mem a (gs_sign g)); auto.
Qed.
Lemma fold_advance l : forall g, NoDup l -> exists s' l', fold_left advance l g = GS (gs_nodes g) (gs_edges g) s' l' (gs_hollow g) /\
  (forall n, mem n s' = xorb (mem n (gs_sign g)) (lm n l && mem n (gs_loop g))) /\ (forall n, mem n l' = xorb (mem n (gs_loop g)) (lm n l)).
Proof.
  induction l as [|a l IH]; intros g ND.
  - exists (gs_sign g), (gs_loop g). split; [destruct g; auto|]. split; intros n; cbn; [destruct (mem n (gs_sign g))|destruct (mem n (gs_loop g))]; auto.
  - inversion ND; subst. cbn [fold_left]. destruct (IH (advance g a) H2) as (s' & l' & E & K1 & K2). exists s', l'. split.
    { rewrite E. unfold advance. destruct (mem a (gs_loop g)); auto. }
    assert (Na : lm a l = false) by (apply not_true_iff_false; rewrite lm_In; auto).
    split; intros n; [rewrite K1|rewrite K2]; cbn [lm existsb]; fold (lm n l); unfold advance; destruct (mem a (gs_loop g)) eqn:M; cbn [gs_sign gs_loop flip_sign]; unfold flip; rewrite ?mem_sxor, ?mem_sing, ?mem_sremove, ?mem_sadd;
     destruct (Nat.eqb_spec n a) as [->|]; cbn [orb andb negb]; rewrite ?Na, ?M, ?andb_false_r, ?xorb_false_r, ?andb_true_r; auto; try (destruct (mem n (gs_sign g)); auto; fail); try (destruct (mem a (gs_sign g)); auto; fail).
Qed.
Lemma gs_eq a b s l h s' l' h' : (forall n, mem n s = mem n s') -> (forall n, mem n l = mem n l') -> (forall n, mem n h = mem n h') -> GS a b s l h = GS a b s' l' h'.
Proof. intros A B D. f_equal; apply nset_ext; auto. Qed.
Section It.
Variable it : iter.
Hypothesis IT : iter_ok it.
Lemma for_flip_set g s : fold_left flip_sign (it s) g = GS (gs_nodes g) (gs_edges g) (sxor (gs_sign g) s) (gs_loop g) (gs_hollow g).
Proof.
  destruct (fold_flip (it s) g (iter_NoDup it s IT)) as (s' & E & K). rewrite E. apply gs_eq; auto. intros n. rewrite K, mem_sxor. f_equal. apply lm_set. intros; apply iter_In; auto.
Qed.
Lemma for_flip g u : for_nb it flip_sign g u = GS (gs_nodes g) (gs_edges g) (sxor (gs_sign g) (nb (gs_edges g) u)) (gs_loop g) (gs_hollow g).
Proof. apply for_flip_set. Qed.
Lemma for_advance g u : for_nb it advance g u = GS (gs_nodes g) (gs_edges g) (sxor (gs_sign g) (sinter (nb (gs_edges g) u) (gs_loop g))) (sxor (gs_loop g) (nb (gs_edges g) u)) (gs_hollow g).
Proof.
  unfold for_nb, gs_nb. set (s := nb (gs_edges g) u). destruct (fold_advance (it s) g (iter_NoDup it s IT)) as (s' & l' & E & K1 & K2). rewrite E.
  assert (M : forall n, lm n (it s) = mem n s) by (apply lm_set; intros; apply iter_In; auto).
  apply gs_eq; auto; intros n; [rewrite K1|rewrite K2]; rewrite mem_sxor, ?mem_sinter, M; auto.
Qed.
End It.

(** * Local Clifford equivalence *)
Definition Pall (psi : state) : Prop := forall n, indep n psi.
Definition geq (L : list nat) (es : list (nat * nat)) (V : nat -> clifford) (es' : list (nat * nat)) (V' : nat -> clifford) : Prop := leq_on Pall (gops L es V) (gops L es' V').
Lemma leq_on_weaken (P Q : state -> Prop) a b : (forall psi, Q psi -> P psi) -> leq_on P a b -> leq_on Q a b.
Proof. intros H (c & Hc & K). exists c. auto. Qed.
Lemma geq_trans L es V es' V' es'' V'' : geq L es V es' V' -> geq L es' V' es'' V'' -> geq L es V es'' V''.
Proof. apply leq_on_trans. Qed.
Lemma geq_ext L es V V' : (forall n, In n L -> V n = V' n) -> geq L es V es V'.
Proof. intros H. unfold geq. rewrite (gops_ext L es V V'); auto. apply leq_on_refl. Qed.
Definition bstab (b : bool) (u : nat) (N : nset) : nat -> clifford := if b then dvec u N K1 K3 else fun _ => K0.
Lemma clifford_mul_K0_r c : clifford_mul c K0 = c.
Proof. destruct c; reflexivity. Qed.
Lemma bstab_spec b u N n : bstab b u N n = if b then (if (n =? u)%nat then K1 else if mem n N then K3 else K0) else K0.
Proof. destruct b; auto. Qed.
Section Steps.
Variables (L : list nat) (NL : NoDup L).
Lemma geq_lc es V u : es_in L es -> es_ok es -> In u L -> geq L es V (lc es u) (vmulc V (dvec u (nb es u) sqx K4)).
Proof. intros A B D. eapply leq_on_weaken; [|apply lc_ops; auto]. intros psi H; apply H. Qed.
Lemma geq_stab es V u b : es_in L es -> es_ok es -> In u L -> geq L es V es (vmulc V (bstab b u (nb es u))).
Proof.
  intros A B D. destruct b; [|apply geq_ext; intros; unfold vmulc; cbn; rewrite clifford_mul_K0_r; auto]. eapply leq_on_weaken; [|apply stab_ops; auto]. intros psi H; apply H.
Qed.
Definition cupd (V : nat -> clifford) (u : nat) (c : clifford) : nat -> clifford := fun n => if (n =? u)%nat then clifford_mul c (V n) else V n.
Lemma gops_gate es V u c : In u L -> gops L es V ++ [OApp1 (clifford_mat c) u] ≈ gops L es (cupd V u c).
Proof.
  intros Hu. unfold gops, clayer. rewrite <- app_assoc. apply leq_app_l. rewrite layer_absorb_r by auto. apply layer_ext. intros n Hn. unfold fupd, cupd. destruct (Nat.eqb_spec n u) as [->|]; [apply clifford_mul_mat|apply meqp_refl].
Qed.
End Steps.

(** * Well-formed decorated graphs *)
Definition gs_ok (g : gs) : Prop := NoDup (gs_nodes g) /\ es_in (gs_nodes g) (gs_edges g) /\ es_ok (gs_edges g).
Definition vop3 (s l h : bool) : clifford :=
  let v := if s then clifford_mul K3 K0 else K0 in let v := if l then clifford_mul K4 v else v in if h then clifford_mul K6 v else v.
Lemma gs_vop3 g n : gs_vop g n = vop3 (mem n (gs_sign g)) (mem n (gs_loop g)) (mem n (gs_hollow g)).
Proof. reflexivity. Qed.
(** the gate [c] on [u] *)
Definition gate_ok (g : gs) (u : nat) (c : clifford) (g' : gs) : Prop :=
  gs_nodes g' = gs_nodes g /\ gs_ok g' /\ leq_on Pall (gops (gs_nodes g) (gs_edges g) (gs_vop g) ++ [OApp1 (clifford_mat c) u]) (gops (gs_nodes g') (gs_edges g') (gs_vop g')).
Definition same_ok (g g' : gs) : Prop :=
  gs_nodes g' = gs_nodes g /\ gs_ok g' /\ leq_on Pall (gops (gs_nodes g) (gs_edges g) (gs_vop g)) (gops (gs_nodes g') (gs_edges g') (gs_vop g')).
Lemma gate_of g u c g' : gs_ok g -> In u (gs_nodes g) -> gs_nodes g' = gs_nodes g -> gs_ok g' -> geq (gs_nodes g) (gs_edges g) (cupd (gs_vop g) u c) (gs_edges g') (gs_vop g') -> gate_ok g u c g'.
Proof.
  intros (A & B & D) Hu E O H. split; auto. split; auto. rewrite E. eapply leq_on_trans; [apply leq_leq_on, gops_gate; auto|exact H].
Qed.
Lemma gate_trans g u c g' d g'' : gate_ok g u c g' -> gate_ok g' u d g'' -> gate_ok g u (clifford_mul d c) g''.
Proof.
  intros (A & B & D) (A' & B' & D'). split; [congruence|]. split; auto. eapply leq_on_trans; [|exact D']. eapply leq_on_trans; [|apply leq_on_app; [exact D|reflexivity]]. rewrite <- app_assoc. apply leq_leq_on, leq_app_l. cbn [app].
  etransitivity; [|symmetry; apply app1_fuse]. apply app1_meqp, meqp_sym, clifford_mul_mat.
Qed.
(** * The gates *)
Ltac memr := cbn [gs_sign gs_loop gs_hollow gs_nodes gs_edges flip_fill flip_sign]; unfold flip; rewrite ?mem_sxor, ?mem_sinter, ?mem_sing, ?mem_sremove, ?mem_sadd.
Lemma ok_attr a b s l h s' l' h' : gs_ok (GS a b s l h) -> gs_ok (GS a b s' l' h').
Proof. auto. Qed.
Lemma ok_lc g u s l h : gs_ok g -> gs_ok (GS (gs_nodes g) (lc (gs_edges g) u) s l h).
Proof. intros (A & B & D). split; auto. split; [apply lc_in; auto|apply lc_ok; auto]. Qed.
Lemma nb_lc_u es u : es_ok es -> nb (lc es u) u = nb es u.
Proof. intros H. apply nset_ext. intros n. rewrite nb_lc, nb_self by auto. cbn. apply xorb_false_r. Qed.
Lemma h_ok g u : gs_ok g -> In u (gs_nodes g) -> gate_ok g u K6 (g_h g u).
Proof.
  intros O Hu. apply gate_of; auto. cbn [g_h flip_fill gs_edges]. apply geq_ext. intros n _. unfold cupd. rewrite !gs_vop3. unfold g_h. memr.
  destruct (n =? u)%nat, (mem n (gs_sign g)), (mem n (gs_loop g)), (mem n (gs_hollow g)); reflexivity.
Qed.
Section Gates.
Variables (it : iter) (IT : iter_ok it).
Lemma z_ok g u : gs_ok g -> In u (gs_nodes g) -> gate_ok g u K3 (g_z it g u).
Proof.
  intros O Hu. pose proof O as (A & B & D). unfold g_z. rewrite !for_flip by auto. pose proof (nb_self _ u D) as Ns.
  destruct (mem u (gs_hollow g)) eqn:Eh.
  - assert (K : forall g', gs_nodes g' = gs_nodes g -> gs_edges g' = gs_edges g -> (forall n, vmulc (cupd (gs_vop g) u K3) (dvec u (nb (gs_edges g) u) K1 K3) n = gs_vop g' n) -> gate_ok g u K3 g').
    { intros g' E1 E2 H. apply gate_of; auto. { unfold gs_ok. rewrite E1, E2. exact O. } rewrite E2. eapply geq_trans; [apply (geq_stab _ A _ _ u true); auto|]. apply geq_ext. intros n _. apply H. }
    cbn [gs_loop]. destruct (mem u (gs_loop g)) eqn:El; apply K; auto; intros n; unfold vmulc, cupd, dvec; rewrite !gs_vop3; memr;
    (destruct (Nat.eqb_spec n u) as [->|]; [rewrite Eh, El, Ns; destruct (mem u (gs_sign g)); reflexivity|]); destruct (mem n (nb (gs_edges g) u)), (mem n (gs_sign g)), (mem n (gs_loop g)), (mem n (gs_hollow g)); reflexivity.
  - apply gate_of; auto. apply geq_ext. intros n _. unfold cupd. rewrite !gs_vop3. memr.
    destruct (Nat.eqb_spec n u) as [->|]; [rewrite Eh; destruct (mem u (gs_sign g)), (mem u (gs_loop g)); reflexivity|]. destruct (mem n (gs_sign g)), (mem n (gs_loop g)), (mem n (gs_hollow g)); reflexivity.
Qed.
(** the gate [s] really applies *)
Definition s_bug (g : gs) (u : nat) : bool := mem u (gs_hollow g) && mem u (gs_loop g) && negb (mem u (gs_sign g)).
Lemma s_ok_gen g u : gs_ok g -> In u (gs_nodes g) -> gate_ok g u (if s_bug g u then clifford_mul K1 K4 else K4) (g_s it g u).
Proof.
  intros O Hu. pose proof O as (A & B & D). unfold g_s, s_bug. pose proof (nb_self _ u D) as Ns.
  assert (K : forall c b g', gs_nodes g' = gs_nodes g -> gs_edges g' = lc (gs_edges g) u -> (forall n, vmulc (vmulc (cupd (gs_vop g) u c) (dvec u (nb (gs_edges g) u) sqx K4)) (bstab b u (nb (gs_edges g) u)) n = gs_vop g' n) -> gate_ok g u c g').
  { intros c b g' E1 E2 H. apply gate_of; auto. { unfold gs_ok. rewrite E1, E2. apply (ok_lc g u sempty sempty sempty O). } rewrite E2. eapply geq_trans; [apply (geq_lc _ A _ _ u); auto|]. eapply geq_trans; [apply (geq_stab _ A _ _ u b); auto using lc_in, lc_ok|].
    rewrite nb_lc_u by auto. apply geq_ext. intros n _. apply H. }
  destruct (mem u (gs_hollow g)) eqn:Eh; cbn [andb].
  - destruct (mem u (gs_loop g)) eqn:El; cbn [andb].
    + cbn zeta. rewrite for_advance by auto. cbn [local_complement flip_fill gs_nodes gs_edges gs_sign gs_loop gs_hollow].
      rewrite nb_lc_u by auto. apply (K _ false); auto. intros n. unfold vmulc, cupd, dvec. rewrite bstab_spec, !gs_vop3. memr.
      destruct (Nat.eqb_spec n u) as [->|]; [rewrite Eh, El, Ns; destruct (mem u (gs_sign g)); reflexivity|]; destruct (mem n (nb (gs_edges g) u)), (mem n (gs_sign g)), (mem n (gs_loop g)), (mem n (gs_hollow g)); reflexivity.
    + cbn zeta. rewrite for_advance by auto. cbn [local_complement flip_fill gs_nodes gs_edges gs_sign gs_loop gs_hollow]. rewrite nb_lc_u by auto. rewrite mem_sxor, mem_sinter, Ns. cbn [andb]. rewrite xorb_false_r.
      destruct (mem u (gs_sign g)) eqn:Es.
      * rewrite for_flip by auto. cbn [gs_nodes gs_edges gs_sign gs_loop gs_hollow]. rewrite nb_lc_u by auto. apply (K _ true); auto. intros n. unfold vmulc, cupd, dvec. rewrite bstab_spec, !gs_vop3. memr.
        destruct (Nat.eqb_spec n u) as [->|]; [rewrite Eh, El, Ns, Es; reflexivity|]; destruct (mem n (nb (gs_edges g) u)), (mem n (gs_sign g)), (mem n (gs_loop g)), (mem n (gs_hollow g)); reflexivity.
      * apply (K _ false); auto. intros n. unfold vmulc, cupd, dvec. rewrite bstab_spec, !gs_vop3. memr.
        destruct (Nat.eqb_spec n u) as [->|]; [rewrite Eh, El, Ns, Es; reflexivity|]; destruct (mem n (nb (gs_edges g) u)), (mem n (gs_sign g)), (mem n (gs_loop g)), (mem n (gs_hollow g)); reflexivity.
  - unfold advance. destruct (mem u (gs_loop g)) eqn:El; (apply gate_of; auto; apply geq_ext; intros n _; unfold cupd; rewrite !gs_vop3; memr;
    (destruct (Nat.eqb_spec n u) as [->|]; [rewrite Eh, ?El; destruct (mem u (gs_sign g)); reflexivity|]); destruct (mem n (gs_sign g)), (mem n (gs_loop g)), (mem n (gs_hollow g)); reflexivity).
Qed.
Lemma is_empty_nb s : is_empty s = true -> forall n, mem n s = false.
Proof. apply is_empty_mem. Qed.
(** without neighbours, X on [u] is a stabiliser of the bare graph: [s] is right *)
Lemma s_ok g u : gs_ok g -> In u (gs_nodes g) -> s_bug g u = false \/ is_empty (gs_nb g u) = true -> gate_ok g u K4 (g_s it g u).
Proof.
  intros O Hu [H|H]; [pose proof (s_ok_gen g u O Hu) as K; rewrite H in K; exact K|]. pose proof (s_ok_gen g u O Hu) as K. destruct (s_bug g u) eqn:Eb; auto. destruct K as (K1 & K2 & K3). split; auto. split; auto.
  pose proof O as (A & B & D). unfold s_bug in Eb. apply andb_true_iff in Eb. destruct Eb as [Eb Es]. apply andb_true_iff in Eb. destruct Eb as [Eh El]. apply negb_true_iff in Es.
  eapply leq_on_trans; [|exact K3]. eapply leq_on_trans; [apply leq_leq_on, gops_gate; auto|]. eapply leq_on_trans; [|apply leq_on_sym, leq_leq_on, gops_gate; auto].
  eapply leq_on_trans; [apply (geq_stab _ A _ _ u true); auto|]. apply geq_ext. intros n _. unfold vmulc, cupd. rewrite bstab_spec, gs_vop3. unfold gs_nb in H. rewrite (is_empty_mem _ H). rewrite (Nat.eqb_sym n u). destruct (Nat.eqb_spec u n) as [<-|]; [|apply clifford_mul_K0_r]. rewrite Eh, El, Es. reflexivity.
Qed.
End Gates.

(** * Equivalent graphs *)
Lemma same_of g g' : gs_nodes g' = gs_nodes g -> gs_ok g' -> geq (gs_nodes g) (gs_edges g) (gs_vop g) (gs_edges g') (gs_vop g') -> same_ok g g'.
Proof. intros E O H. split; auto. split; auto. rewrite E. exact H. Qed.
Lemma same_refl g : gs_ok g -> same_ok g g.
Proof. intros. split; auto. split; auto. apply leq_on_refl. Qed.
Lemma same_trans g g' g'' : same_ok g g' -> same_ok g' g'' -> same_ok g g''.
Proof. intros (A & B & D) (A' & B' & D'). split; [congruence|]. split; auto. eapply leq_on_trans; eauto. Qed.
Lemma has_In g n : has g n = true <-> In n (gs_nodes g).
Proof. apply lm_In. Qed.
Section Equiv.
Variables (it : iter) (IT : iter_ok it).
Lemma e1_ok g u : gs_ok g -> In u (gs_nodes g) -> mem u (gs_loop g) = true -> exists g', g_e1 it g u = Ok g' /\ same_ok g g' /\
  gs_edges g' = lc (gs_edges g) u /\ (forall n, mem n (gs_hollow g') = xorb (mem n (gs_hollow g)) (n =? u)%nat) /\ (forall n, mem n (gs_loop g') = xorb (mem n (gs_loop g)) (mem n (nb (gs_edges g) u))).
Proof.
  intros O Hu El. pose proof O as (A & B & D). unfold g_e1, at_node. rewrite (proj2 (has_In g u)) by auto. rewrite El. cbn [negb]. cbn zeta. pose proof (nb_self _ u D) as Ns.
  rewrite for_advance by auto. cbn [local_complement flip_fill flip_sign gs_nodes gs_edges gs_sign gs_loop gs_hollow]. rewrite for_flip by auto. cbn [gs_nodes gs_edges gs_sign gs_loop gs_hollow]. rewrite nb_lc_u by auto.
  assert (K : forall b g', gs_nodes g' = gs_nodes g -> gs_edges g' = lc (gs_edges g) u -> (forall n, vmulc (vmulc (gs_vop g) (dvec u (nb (gs_edges g) u) sqx K4)) (bstab b u (nb (gs_edges g) u)) n = gs_vop g' n) -> same_ok g g').
  { intros b g' E1 E2 H. apply same_of; auto. { unfold gs_ok. rewrite E1, E2. apply (ok_lc g u sempty sempty sempty O). } rewrite E2. eapply geq_trans; [apply (geq_lc _ A _ _ u); auto|]. eapply geq_trans; [apply (geq_stab _ A _ _ u b); auto using lc_in, lc_ok|].
    rewrite nb_lc_u by auto. apply geq_ext. intros n _. apply H. }
  unfold flip at 1. rewrite !mem_sxor, mem_sinter, mem_sing, Nat.eqb_refl, Ns. cbn [andb]. rewrite xorb_false_r, xorb_true_r.
  eexists. split; [reflexivity|]. destruct (mem u (gs_sign g)) eqn:Es; cbn [negb]; (split; [|split; [reflexivity|split; intros n; memr; reflexivity]]).
  - apply (K false); auto. intros n. unfold vmulc, dvec. rewrite bstab_spec, !gs_vop3. memr.
    destruct (Nat.eqb_spec n u) as [->|]; [rewrite El, Ns, Es; destruct (mem u (gs_hollow g)); reflexivity|]; destruct (mem n (nb (gs_edges g) u)), (mem n (gs_sign g)), (mem n (gs_loop g)), (mem n (gs_hollow g)); reflexivity.
  - apply (K true); auto. intros n. unfold vmulc, dvec. rewrite bstab_spec, !gs_vop3. memr. rewrite ?nb_lc_u by auto.
    destruct (Nat.eqb_spec n u) as [->|]; [rewrite El, Ns, Es; destruct (mem u (gs_hollow g)); reflexivity|]; destruct (mem n (nb (gs_edges g) u)), (mem n (gs_sign g)), (mem n (gs_loop g)), (mem n (gs_hollow g)); reflexivity.
Qed.
Definition lc3 (es : list (nat * nat)) (u v : nat) := lc (lc (lc es u) v) u.
Lemma nb_lc3 es u v n : es_ok es -> mem v (nb es u) = true ->
  mem n (nb (lc es u) v) = (if (n =? v)%nat then false else if (n =? u)%nat then true else xorb (mem n (nb es v)) (mem n (nb es u))) /\
  mem n (nb (lc (lc es u) v) u) = (if (n =? u)%nat then false else if (n =? v)%nat then true else mem n (nb es v)) /\
  mem n (nb (lc3 es u v) u) = (if (n =? u)%nat then false else if (n =? v)%nat then true else mem n (nb es v)) /\
  mem n (nb (lc3 es u v) v) = (if (n =? v)%nat then false else if (n =? u)%nat then true else mem n (nb es u)).
Proof.
  intros O Huv. assert (Huv' : mem u (nb es v) = true) by (rewrite nb_sym; auto). pose proof (nb_self es u O) as Su. pose proof (nb_self es v O) as Sv.
  assert (O1 := lc_ok es u O). assert (O2 := lc_ok _ v O1). assert (UV : u <> v) by (intros ->; congruence).
  assert (A : forall n, mem n (nb (lc es u) v) = (if (n =? v)%nat then false else if (n =? u)%nat then true else xorb (mem n (nb es v)) (mem n (nb es u)))).
  { intros m. rewrite nb_lc by auto. rewrite Huv, (Nat.eqb_sym v m). cbn [andb]. destruct (Nat.eqb_spec m v) as [->|]; [rewrite Sv, andb_false_r; auto|]. cbn [negb]. rewrite andb_true_r. destruct (Nat.eqb_spec m u) as [->|]; [rewrite Su, Huv'; auto|]. auto. }
  assert (B : forall n, mem n (nb (lc (lc es u) v) u) = (if (n =? u)%nat then false else if (n =? v)%nat then true else mem n (nb es v))).
  { intros m. rewrite nb_lc by auto. rewrite nb_lc_u by auto. rewrite !A. rewrite Nat.eqb_refl, (proj2 (Nat.eqb_neq u v)) by auto. cbn [andb]. rewrite (Nat.eqb_sym u m). destruct (Nat.eqb_spec m u) as [->|]; [rewrite Su, andb_false_r; auto|]. cbn [negb]. rewrite andb_true_r.
    destruct (Nat.eqb_spec m v) as [->|]; [rewrite Huv; auto|]. destruct (mem m (nb es u)), (mem m (nb es v)); auto. }
  assert (C : mem n (nb (lc3 es u v) u) = (if (n =? u)%nat then false else if (n =? v)%nat then true else mem n (nb es v))) by (unfold lc3; rewrite nb_lc_u by auto; apply B).
  split; [apply A|]. split; [apply B|]. split; [exact C|].
  unfold lc3. rewrite nb_lc by auto. rewrite !B. rewrite nb_lc_u by auto. rewrite A, Nat.eqb_refl, (Nat.eqb_sym v u), (proj2 (Nat.eqb_neq u v)) by auto. cbn [andb]. rewrite (Nat.eqb_sym v n).
  destruct (Nat.eqb_spec n v) as [->|]; [rewrite andb_false_r; auto|]. cbn [negb]. rewrite andb_true_r. destruct (Nat.eqb_spec n u) as [->|]; auto. destruct (mem n (nb es u)), (mem n (nb es v)); auto.
Qed.
Lemma e2_ok g u v : gs_ok g -> In u (gs_nodes g) -> mem v (gs_nb g u) = true -> mem u (gs_loop g) = false -> mem v (gs_loop g) = false -> exists g', g_e2 it g u v = Ok g' /\ same_ok g g' /\
  gs_edges g' = lc3 (gs_edges g) u v /\ (forall n, mem n (gs_hollow g') = xorb (mem n (gs_hollow g)) ((n =? u)%nat || (n =? v)%nat)) /\ gs_loop g' = gs_loop g.
Proof.
  intros O Hu Huv Eu Ev. pose proof O as (A & B & D). unfold g_e2. rewrite Huv, Eu, Ev. cbn [negb orb]. cbn zeta. unfold gs_nb in Huv.
  assert (Hv : In v (gs_nodes g)) by (eapply nb_in; eauto). pose proof (nb_self _ u D) as Su. pose proof (nb_self _ v D) as Sv. assert (UV : u <> v) by (intros ->; congruence).
  pose proof (fun n => nb_lc3 (gs_edges g) u v n D Huv) as NB.
  rewrite for_flip_set by auto. cbn [local_complement flip_fill flip_sign gs_nodes gs_edges gs_sign gs_loop gs_hollow]. fold (lc3 (gs_edges g) u v). set (es3 := lc3 (gs_edges g) u v) in *.
  rewrite !for_flip by auto. unfold gs_nb. cbn [local_complement flip_fill flip_sign gs_nodes gs_edges gs_sign gs_loop gs_hollow]. fold (lc3 (gs_edges g) u v). fold es3.
  assert (K : forall b1 b2 g', gs_nodes g' = gs_nodes g -> gs_edges g' = es3 ->
    (forall n, vmulc (vmulc (vmulc (vmulc (vmulc (gs_vop g) (dvec u (nb (gs_edges g) u) sqx K4)) (dvec v (nb (lc (gs_edges g) u) v) sqx K4)) (dvec u (nb (lc (lc (gs_edges g) u) v) u) sqx K4)) (bstab b1 u (nb es3 u))) (bstab b2 v (nb es3 v)) n = gs_vop g' n) -> same_ok g g').
  { intros b1 b2 g' E1 E2 H.
    assert (I1 := lc_in _ _ u B). assert (I2 := lc_in _ _ v I1). assert (I3 := lc_in _ _ u I2). assert (O1 := lc_ok _ u D). assert (O2 := lc_ok _ v O1). assert (O3 := lc_ok _ u O2).
    apply same_of; auto. { unfold gs_ok. rewrite E1, E2. split; auto. } rewrite E2.
    eapply geq_trans; [apply (geq_lc _ A _ _ u); auto|]. eapply geq_trans; [apply (geq_lc _ A _ _ v); auto|]. eapply geq_trans; [apply (geq_lc _ A _ _ u); auto|]. fold (lc3 (gs_edges g) u v). fold es3.
    eapply geq_trans; [apply (geq_stab _ A _ _ u b1); auto|]. eapply geq_trans; [apply (geq_stab _ A _ _ v b2); auto|]. apply geq_ext. intros n _. apply H. }
  assert (Z : forall g', gs_nodes g' = gs_nodes g -> gs_edges g' = es3 -> gs_loop g' = gs_loop g -> (forall n, mem n (gs_hollow g') = xorb (mem n (gs_hollow g)) ((n =? u)%nat || (n =? v)%nat)) ->
    (forall n, mem n (gs_sign g') = xorb (mem n (gs_sign g)) (xorb (mem n (nb es3 u) && mem n (nb es3 v)) (xorb (mem u (gs_sign g) && ((n =? u)%nat || mem n (nb es3 u))) (mem v (gs_sign g) && ((n =? v)%nat || mem n (nb es3 v)))))) -> same_ok g g').
  { intros g' E1 E2 E3 E4 E5. apply (K (negb (mem u (gs_sign g))) (negb (mem v (gs_sign g))) g' E1 E2). intros n. unfold vmulc, dvec. rewrite !bstab_spec, !gs_vop3, E3, E4, E5. destruct (NB n) as (N1 & N2 & N3 & N4). rewrite N1, N2, N3, N4.
    destruct (Nat.eqb_spec n u) as [Enu|Nu].
    - subst n. rewrite (proj2 (Nat.eqb_neq u v)) by auto. cbn [orb]. rewrite Eu. destruct (mem u (gs_sign g)), (mem v (gs_sign g)), (mem u (gs_hollow g)); reflexivity.
    - destruct (Nat.eqb_spec n v) as [Env|Nv].
      + subst n. rewrite Ev, Huv. cbn [orb]. destruct (mem u (gs_sign g)), (mem v (gs_sign g)), (mem v (gs_hollow g)); reflexivity.
      + cbn [orb]. destruct (mem n (nb (gs_edges g) u)), (mem n (nb (gs_edges g) v)), (mem u (gs_sign g)), (mem v (gs_sign g)), (mem n (gs_sign g)), (mem n (gs_loop g)), (mem n (gs_hollow g)); reflexivity. }
  eexists. split; [reflexivity|].
  assert (FH : forall n, mem n (flip v (flip u (gs_hollow g))) = xorb (mem n (gs_hollow g)) ((n =? u)%nat || (n =? v)%nat)).
  { intros n. unfold flip. rewrite !mem_sxor, !mem_sing. destruct (Nat.eqb_spec n u) as [E|]; [rewrite E, (proj2 (Nat.eqb_neq u v)) by auto; destruct (mem u (gs_hollow g)); auto|]. destruct (n =? v)%nat, (mem n (gs_hollow g)); cbn; auto. }
  split; [|destruct (mem u (gs_sign g)), (mem v (gs_sign g)); (split; [reflexivity|split; [exact FH|reflexivity]])].
  assert (Su3 : mem u (nb es3 u) = false) by (destruct (NB u) as (_ & _ & N3 & _); rewrite N3, Nat.eqb_refl; auto).
  assert (Sv3 : mem v (nb es3 v) = false) by (destruct (NB v) as (_ & _ & _ & N4); rewrite N4, Nat.eqb_refl; auto).
  destruct (mem u (gs_sign g)) eqn:Gu, (mem v (gs_sign g)) eqn:Gv; apply Z; auto; intros n; memr; cbn [andb]; rewrite ?xorb_false_r; try reflexivity;
   (destruct (Nat.eqb_spec n u) as [E|]; [subst n; rewrite ?Su3, ?Gu, ?(proj2 (Nat.eqb_neq u v)) by auto; cbn [orb andb xorb]; try (destruct (mem u (nb es3 v))); reflexivity|]);
   (destruct (Nat.eqb_spec n v) as [E|]; [subst n; rewrite ?Sv3, ?Gv by auto; cbn [orb andb xorb]; try (destruct (mem v (nb es3 u))); reflexivity|]);
   destruct (mem n (nb es3 u)), (mem n (nb es3 v)), (mem n (gs_sign g)); reflexivity.
Qed.
End Equiv.

(** * Filling a node *)
Section Fill.
Variables (it : iter) (IT : iter_ok it).
Lemma it_nil s : it s = [] <-> is_empty s = true.
Proof.
  split; intros H.
  - apply is_empty_spec, nset_ext. intros n. rewrite mem_empty. apply not_true_iff_false. rewrite <- (iter_In it) by auto. rewrite H. intros [].
  - destruct (it s) as [|a l] eqn:E; auto. exfalso. assert (In a (it s)) by (rewrite E; left; auto). rewrite (iter_In it) in H0 by auto. rewrite (is_empty_mem _ H) in H0. discriminate.
Qed.
Lemma fill_ok g u : gs_ok g -> In u (gs_nodes g) -> exists g' r, g_fill it g u = Ok (g', r) /\ same_ok g g' /\
  ((r = 0 /\ mem u (gs_hollow g') = false /\ (mem u (gs_hollow g) = false -> g' = g /\ is_empty (gs_nb g u) = false)) \/
   (r = 1 /\ g' = g /\ mem u (gs_hollow g) = true /\ mem u (gs_loop g) = false /\ is_empty (gs_nb g u) = true) \/
   (r = 2 /\ g' = g /\ mem u (gs_hollow g) = false /\ is_empty (gs_nb g u) = true)).
Proof.
  intros O Hu. unfold g_fill, at_node. rewrite (proj2 (has_In g u)) by auto. destruct (mem u (gs_hollow g)) eqn:Eh.
  - destruct (mem u (gs_loop g)) eqn:El.
    + destruct (e1_ok it IT g u O Hu El) as (g' & E & S & _ & H & _). rewrite E. cbn [rbind]. exists g', 0%nat. split; auto. split; auto. left. split; auto. split; [|congruence]. rewrite H, Eh, Nat.eqb_refl. auto.
    + destruct (it (gs_nb g u)) as [|i0 l] eqn:Ei.
      * exists g, 1%nat. split; auto. split; [apply same_refl; auto|]. right; left. split; auto. split; auto. split; auto. split; auto. apply it_nil; auto.
      * rewrite <- Ei. destruct (find (fun i => negb (mem i (gs_loop g))) (it (gs_nb g u))) as [i|] eqn:Ef.
        -- apply find_some in Ef. destruct Ef as [Hi Li]. rewrite (iter_In it) in Hi by auto. apply negb_true_iff in Li.
           destruct (e2_ok it IT g u i O Hu Hi El Li) as (g' & E & S & _ & H & _). rewrite E. cbn [rbind]. exists g', 0%nat. split; auto. split; auto. left. split; auto. split; [|congruence]. rewrite H, Eh, Nat.eqb_refl. auto.
        -- pose proof (find_none _ _ Ef) as Hl. assert (H0 : In i0 (it (gs_nb g u))) by (rewrite Ei; left; auto). pose proof (Hl i0 H0) as L0. apply negb_false_iff in L0. rewrite (iter_In it) in H0 by auto.
           pose proof O as (A & B & D). assert (I0 : In i0 (gs_nodes g)) by (eapply nb_in; eauto).
           destruct (e1_ok it IT g i0 O I0 L0) as (g1 & E1 & S1 & _ & H1 & K1). rewrite E1. cbn [rbind].
           assert (U0 : u <> i0) by (intros <-; unfold gs_nb in H0; rewrite nb_self in H0 by auto; discriminate).
           destruct (e1_ok it IT g1 u) as (g2 & E2 & S2 & _ & H2 & _).
           ++ apply S1.
           ++ rewrite (proj1 S1). auto.
           ++ rewrite K1, El. unfold gs_nb in H0. rewrite nb_sym, H0. auto.
           ++ rewrite E2. cbn [rbind]. exists g2, 0%nat. split; auto. split; [eapply same_trans; eauto|]. left. split; auto. split; [|congruence]. rewrite H2, H1, Eh, Nat.eqb_refl, (proj2 (Nat.eqb_neq u i0)) by auto. auto.
  - destruct (is_empty (gs_nb g u)) eqn:Ee.
    + exists g, 2%nat. split; auto. split; [apply same_refl; auto|]. right; right. auto.
    + exists g, 0%nat. split; auto. split; [apply same_refl; auto|]. left. auto.
Qed.
End Fill.
(** * Measurements *)
Lemma pvec_sign ax s r : mvec (MPauli ax s) r ~v mvec (MPauli ax Plus) (xorb r (sign_eqb s Minus)).
Proof.
  apply vouter_inj_phase; [apply mvec_norm|]. rewrite !mvec_proj, !to_bloch_pauli. do 2 f_equal. rewrite !mscale_mscale. f_equal. destruct s, r; unfold sign_C; cbn; apply C_eq; cbn; ring.
Qed.
Lemma pvec_bvec r : mvec (MPauli AZ Plus) r ~v bvec r.
Proof.
  apply vouter_inj_phase; [apply mvec_norm|]. rewrite !mvec_proj, !to_bloch_pauli. destruct r; unfold bvec, sign_C; meq; ceq; cbn; field.
Qed.
Lemma pvec_clifford ax r c : vmul (mdag (clifford_mat c)) (mvec (MPauli ax Plus) r) ~v mvec (MPauli (fst (pauli_clifford ax Plus c)) Plus) (xorb r (sign_eqb (snd (pauli_clifford ax Plus c)) Minus)).
Proof.
  eapply veqp_trans; [apply veqp_sym, mvec_clifford|]. cbn [meas_clifford]. destruct (pauli_clifford ax Plus c) as [b s]. apply pvec_sign.
Qed.
(** the squared modulus of <w|+> sqrt 2 *)
Definition amp (w : vec2) : C := (Cconj (v0 w) + Cconj (v1 w))%C.
Lemma amp_pauli ax r : Cnorm2 (amp (mvec (MPauli ax Plus) r)) = match ax with AX => if r then 0%R else 2%R | _ => 1%R end.
Proof.
  set (w := mvec (MPauli ax Plus) r). assert (E : Cnorm2 (amp w) = re (m00 (vouter w w) + m01 (vouter w w) + m10 (vouter w w) + m11 (vouter w w))%C).
  { unfold amp, vouter. cbn. unfold Cnorm2. destruct w as [[a b] [c d]]. cbn. ring. }
  rewrite E. unfold w. rewrite mvec_proj, to_bloch_pauli. destruct ax, r; unfold sign_C; cbn; field.
Qed.
Lemma amp_veqp w w' : w ~v w' -> Cnorm2 (amp w) = Cnorm2 (amp w').
Proof.
  intros (c & Hc & ->). unfold amp. cbn. rewrite !Cconj_mul. transitivity (Cnorm2 (Cconj c * (Cconj (v0 w') + Cconj (v1 w')))%C); [f_equal; ring|]. rewrite Cnorm2_mul, (phase_conj c Hc). ring.
Qed.
(** measuring [u] with result [r] along [ax] leaves [g'], with a scalar of squared modulus [q] on unnormalised states *)
Definition meas_ok (q : R) (g : gs) (u : nat) (w : vec2) (g' : gs) : Prop :=
  gs_nodes g' = lrem u (gs_nodes g) /\ gs_ok g' /\ exists c, Cnorm2 c = q /\
  forall psi, Pall psi -> den (gops (gs_nodes g) (gs_edges g) (gs_vop g) ++ [OMeas w u]) psi = cscale c (den (gops (gs_nodes g') (gs_edges g') (gs_vop g')) psi).
Lemma leq_on_meas P a b w u : leq_on P a b -> leq_on P (a ++ [OMeas w u]) (b ++ [OMeas w u]).
Proof. intros H. apply leq_on_app; auto. reflexivity. Qed.
Lemma meas_via q g u w g1 w1 g' l : gs_nodes g1 = gs_nodes g -> l ++ [OMeas w1 u] ≈ [OMeas w u] ->
  leq_on Pall (gops (gs_nodes g) (gs_edges g) (gs_vop g) ++ l) (gops (gs_nodes g1) (gs_edges g1) (gs_vop g1)) -> meas_ok q g1 u w1 g' -> meas_ok q g u w g'.
Proof.
  intros E Hl H (A & B & c & Hc & K). split; [congruence|]. split; auto.
  assert (G : leq_on Pall (gops (gs_nodes g) (gs_edges g) (gs_vop g) ++ [OMeas w u]) (gops (gs_nodes g1) (gs_edges g1) (gs_vop g1) ++ [OMeas w1 u])).
  { eapply leq_on_trans; [|apply leq_on_meas, H]. rewrite <- app_assoc. apply leq_leq_on, leq_app_l. symmetry. exact Hl. }
  destruct G as (d & Hd & G). exists (d * c)%C. split; [rewrite Cnorm2_mul, Hd, Hc; ring|]. intros psi Hp. rewrite (G psi Hp), (K psi Hp), cscale_cscale. auto.
Qed.
Lemma meas_same q g u w g1 g' : same_ok g g1 -> meas_ok q g1 u w g' -> meas_ok q g u w g'.
Proof. intros (A & B & D) H. apply (meas_via q g u w g1 w g' []); auto; [reflexivity|]. rewrite app_nil_r. auto. Qed.
Lemma meas_gate q g u c ax r ax' r' g1 g' : gate_ok g u c g1 -> fst (pauli_clifford ax' Plus c) = ax -> xorb r' (sign_eqb (snd (pauli_clifford ax' Plus c)) Minus) = r ->
  meas_ok q g1 u (mvec (MPauli ax' Plus) r') g' -> meas_ok q g u (mvec (MPauli ax Plus) r) g'.
Proof.
  intros (A & B & D) E1 E2 H. refine (meas_via q g u _ g1 _ g' _ A _ D H). cbn [app]. rewrite app1_meas. apply meas_veqp. rewrite <- E1, <- E2. apply pvec_clifford.
Qed.
(** removal after a computational-basis measurement of a filled node *)
Lemma meas_solid g u b g' : gs_ok g -> In u (gs_nodes g) -> mem u (gs_hollow g) = false -> gs_nodes g' = lrem u (gs_nodes g) -> gs_edges g' = del (gs_edges g) u -> gs_loop g' = gs_loop g -> gs_hollow g' = gs_hollow g ->
  (forall n, mem n (gs_sign g') = xorb (mem n (gs_sign g)) (b && mem n (gs_nb g u))) -> meas_ok 1 g u (mvec (MPauli AZ Plus) b) g'.
Proof.
  intros O Hu Eh E1 E2 E3 E4 E5. pose proof O as (A & B & D). split; auto. split; [unfold gs_ok; rewrite E1, E2; split; [apply lrem_NoDup; auto|]; split; [apply del_es_in; auto|apply del_ok; auto]|].
  assert (Q : vmul (mdag (clifford_mat (gs_vop g u))) (mvec (MPauli AZ Plus) b) ~v bvec b).
  { eapply veqp_trans; [apply pvec_clifford|]. rewrite gs_vop3, Eh.
    assert (F : pauli_clifford AZ Plus (vop3 (mem u (gs_sign g)) (mem u (gs_loop g)) false) = (AZ, Plus)) by (destruct (mem u (gs_sign g)), (mem u (gs_loop g)); reflexivity). rewrite F. cbn [fst snd sign_eqb]. rewrite xorb_false_r. apply pvec_bvec. }
  pose proof (remove_ops (gs_nodes g) (gs_edges g) u (gs_vop g) _ b A B D Hu Q) as (c & Hc & K). exists c. split; [exact Hc|]. intros psi Hp. rewrite (K psi (Hp u)). f_equal. rewrite E1, E2. f_equal. apply gops_ext. intros n Hn. apply lrem_in in Hn. destruct Hn as [_ Hn].
  unfold vmulc, dvec. rewrite (proj2 (Nat.eqb_neq n u)) by auto. rewrite !gs_vop3, E3, E4, E5. unfold gs_nb. destruct b, (mem n (nb (gs_edges g) u)), (mem n (gs_sign g)), (mem n (gs_loop g)), (mem n (gs_hollow g)); reflexivity.
Qed.
Lemma iso_base es u psi : es_ok es -> indep u psi -> is_empty (nb es u) = true -> den (cz_ops es) psi = den (cz_ops (del es u)) psi /\ indep u (den (cz_ops es) psi).
Proof.
  intros O I E. assert (Q : forall f b, Qf es (upd f u b) = Qf es (upd f u false)).
  { intros f b. rewrite Qf_upd, (oddp_nbh [] es f u O) by auto. fold (nb es u). apply is_empty_spec in E. rewrite E, parity_empty, andb_false_r, xorb_false_r. auto. }
  split.
  - rewrite !den_cz. extensionality f. rewrite Qf_del, <- (Q f (f u)), upd_id. auto.
  - rewrite den_cz. intros f b. rewrite Q, I. rewrite <- (Q f (f u)), upd_id. auto.
Qed.
Lemma meas_iso g u w : gs_ok g -> In u (gs_nodes g) -> is_empty (gs_nb g u) = true -> meas_ok (Cnorm2 (amp (vmul (mdag (clifford_mat (gs_vop g u))) w))) g u w (remove_node g u).
Proof.
  intros O Hu E. pose proof O as (A & B & D). split; auto. split; [unfold gs_ok; cbn; split; [apply lrem_NoDup; auto|]; split; [apply del_es_in; auto|apply del_ok; auto]|].
  set (w1 := vmul (mdag (clifford_mat (gs_vop g u))) w). set (F := fun n => clifford_mat (gs_vop g n)).
  assert (S1 : gops (gs_nodes g) (gs_edges g) (gs_vop g) ++ [OMeas w u] ≈ (cz_ops (gs_edges g) ++ [OMeas w1 u]) ++ layer (gs_nodes g) (fupd F u mid)).
  { unfold gops, clayer. fold F. rewrite (layer_split_r _ F u A Hu). rewrite <- !app_assoc. apply leq_app_l. cbn [app].
    transitivity (layer (gs_nodes g) (fupd F u mid) ++ [OMeas w1 u]); [apply leq_app_l; apply (app1_meas (F u) w u)|]. symmetry. apply layer_comm. intros k _ [<-|[]]. apply fupd_same. }
  assert (S2 : layer (gs_nodes g) (fupd F u mid) ≈ clayer (lrem u (gs_nodes g)) (gs_vop g)).
  { rewrite <- (layer_weaken (lrem u (gs_nodes g)) (gs_nodes g) (fupd F u mid)); auto using lrem_NoDup.
    - unfold clayer. apply layer_ext. intros n Hn. apply lrem_in in Hn. rewrite fupd_other by tauto. apply meqp_refl.
    - intros n Hn. apply lrem_in in Hn. tauto.
    - intros n Hn Hn'. rewrite lrem_in in Hn'. assert (n = u) as -> by (destruct (Nat.eq_dec n u); tauto). apply fupd_same. }
  rewrite S2 in S1. destruct S1 as (d & Hd & S1). exists (d * amp w1)%C. split; [rewrite Cnorm2_mul, Hd; ring|]. intros psi Hp. rewrite S1. unfold gops. rewrite !den_app. cbn [remove_node gs_nodes gs_edges].
  destruct (iso_base (gs_edges g) u psi D (Hp u) E) as [I1 I2]. change (clayer (lrem u (gs_nodes g)) (gs_vop (remove_node g u))) with (clayer (lrem u (gs_nodes g)) (gs_vop g)).
  assert (I3 : den [OMeas w1 u] (den (cz_ops (gs_edges g)) psi) = cscale (amp w1) (den (cz_ops (del (gs_edges g) u)) psi)).
  { rewrite <- I1. cbn [den]. extensionality f. unfold app_op, cscale, amp. rewrite !I2. ring. }
  rewrite I3, den_scale, cscale_cscale. auto.
Qed.
Lemma amp_iso g u ax r : Cnorm2 (amp (vmul (mdag (clifford_mat (gs_vop g u))) (mvec (MPauli ax Plus) r))) =
  match fst (pauli_clifford ax Plus (gs_vop g u)) with AX => if xorb r (sign_eqb (snd (pauli_clifford ax Plus (gs_vop g u))) Minus) then 0%R else 2%R | _ => 1%R end.
Proof. rewrite (amp_veqp _ _ (pvec_clifford ax r (gs_vop g u))). apply amp_pauli. Qed.
Section MeasThm.
Variables (it : iter) (IT : iter_ok it).
Lemma mz_ok g u choice : gs_ok g -> In u (gs_nodes g) -> exists g' r q, measure_z it g u choice = Ok (g', r) /\ meas_ok q g u (mvec (MPauli AZ Plus) r) g' /\
  (q = 1%R \/ q = 2%R) /\ (is_empty (gs_nb g u) = false -> r = choice /\ q = 1%R).
Proof.
  intros O Hu. unfold measure_z. destruct (fill_ok it IT g u O Hu) as (g1 & i & E & S & Hi). rewrite E. cbn [rbind].
  pose proof S as (S1 & S2 & _). assert (Hu1 : In u (gs_nodes g1)) by (rewrite S1; auto). rewrite for_flip by auto.
  destruct Hi as [(-> & Hh & _)|[(-> & -> & Hh & Hl & He)|(-> & -> & Hh & He)]]; cbn [Nat.eqb].
  - do 3 eexists. split; [reflexivity|]. split; [|split; [left; reflexivity|auto]]. eapply meas_same; [exact S|]. apply meas_solid; auto; destruct choice; try reflexivity; intros n; cbn [remove_node gs_sign]; rewrite ?mem_sxor; cbn [andb]; rewrite ?xorb_false_r; auto.
  - assert (E0 : forall b : bool, (if b then GS (gs_nodes g) (gs_edges g) (sxor (gs_sign g) (nb (gs_edges g) u)) (gs_loop g) (gs_hollow g) else g) = g).
    { intros [|]; auto. destruct g as [ns es sg lp hl]. cbn. f_equal. unfold gs_nb in He. cbn in He. apply is_empty_spec in He. rewrite He. apply nset_ext. intros n. rewrite mem_sxor, mem_empty, xorb_false_r. auto. }
    rewrite E0. do 3 eexists. split; [reflexivity|]. split; [apply meas_iso; auto|]. split; [|rewrite He; discriminate]. right. rewrite amp_iso, gs_vop3, Hh, Hl. destruct (mem u (gs_sign g)); reflexivity.
  - assert (E0 : forall b : bool, (if b then GS (gs_nodes g) (gs_edges g) (sxor (gs_sign g) (nb (gs_edges g) u)) (gs_loop g) (gs_hollow g) else g) = g).
    { intros [|]; auto. destruct g as [ns es sg lp hl]. cbn. f_equal. unfold gs_nb in He. cbn in He. apply is_empty_spec in He. rewrite He. apply nset_ext. intros n. rewrite mem_sxor, mem_empty, xorb_false_r. auto. }
    rewrite E0. do 3 eexists. split; [reflexivity|]. split; [apply meas_solid; auto|split; [left; reflexivity|rewrite He; discriminate]]. intros n. cbn [remove_node gs_sign]. rewrite (is_empty_mem _ He), andb_false_r, xorb_false_r. auto.
Qed.
Lemma mx_ok g u choice : gs_ok g -> In u (gs_nodes g) -> exists g' r q, measure_x it g u choice = Ok (g', r) /\ meas_ok q g u (mvec (MPauli AX Plus) r) g' /\
  (q = 1%R \/ q = 2%R) /\ (is_empty (gs_nb g u) = false -> q = 1%R) /\ (q = 1%R -> r = choice).
Proof.
  intros O Hu. unfold measure_x. rewrite (proj2 (has_In g u)) by auto. cbn [negb]. destruct (is_empty (gs_nb g u)) eqn:He.
  - do 3 eexists. split; [reflexivity|]. split; [apply meas_iso; auto|]. rewrite amp_iso, gs_vop3. split; [|split; [discriminate|]]; destruct (mem u (gs_hollow g)), (mem u (gs_loop g)), (mem u (gs_sign g)), choice; cbn; auto; intros; lra.
  - pose proof (h_ok g u O Hu) as G. destruct (mz_ok (g_h g u) u choice) as (g' & r & q & E & M & Q & R).
    + apply G.
    + rewrite (proj1 G). auto.
    + destruct R as [R1 R2]; [exact He|]. exists g', r, q. split; auto. split; [|auto]. eapply meas_gate; [exact G| | |exact M]; [reflexivity|]. cbn. apply xorb_false_r.
Qed.
Lemma lc_empty es u : es_ok es -> is_empty (nb (lc es u) u) = is_empty (nb es u).
Proof. intros H. rewrite nb_lc_u; auto. Qed.
Lemma s_empty g u : gs_ok g -> is_empty (gs_nb (g_s it g u) u) = is_empty (gs_nb g u).
Proof.
  intros (A & B & D). unfold g_s. rewrite !for_advance by auto. cbn zeta. unfold gs_nb. destruct (mem u (gs_hollow g)); [destruct (mem u (gs_loop g))|].
  - cbn [local_complement flip_fill gs_nodes gs_edges gs_sign gs_loop gs_hollow]. apply lc_empty; auto.
  - cbn [local_complement flip_fill gs_nodes gs_edges gs_sign gs_loop gs_hollow]. destruct (mem u _); [rewrite for_flip by auto|]; cbn; apply lc_empty; auto.
  - unfold advance. destruct (mem u (gs_loop g)); auto.
Qed.
Lemma z_edges g u : gs_edges (g_z it g u) = gs_edges g.
Proof. unfold g_z. rewrite !for_flip by auto. cbn. destruct (mem u (gs_hollow g)); auto. destruct (mem u (gs_loop g)); auto. Qed.
Lemma my_ok g u choice : gs_ok g -> In u (gs_nodes g) -> exists g' r q, measure_y it g u choice = Ok (g', r) /\ meas_ok q g u (mvec (MPauli AY Plus) r) g' /\
  (q = 1%R \/ q = 2%R) /\ (is_empty (gs_nb g u) = false -> r = choice /\ q = 1%R).
Proof.
  intros O Hu. unfold measure_y, at_node. rewrite (proj2 (has_In g u)) by auto.
  pose proof (s_ok_gen it IT g u O Hu) as G1. set (g1 := g_s it g u) in *. assert (O1 : gs_ok g1) by apply G1. assert (H1 : In u (gs_nodes g1)) by (rewrite (proj1 G1); auto).
  pose proof (z_ok it IT g1 u O1 H1) as G2. set (g2 := g_z it g1 u) in *. assert (O2 : gs_ok g2) by apply G2. assert (H2 : In u (gs_nodes g2)) by (rewrite (proj1 G2); auto).
  pose proof (h_ok g2 u O2 H2) as G3. set (g3 := g_h g2 u) in *.
  destruct (mz_ok g3 u choice) as (g' & r & q & E & M & Q & R).
  - apply G3.
  - rewrite (proj1 G3). auto.
  - exists g', r, q. split; auto. split; [|split; auto].
    + eapply meas_gate; [exact (gate_trans _ _ _ _ _ _ (gate_trans _ _ _ _ _ _ G1 G2) G3)| | |exact M]; destruct (s_bug g u); try reflexivity; cbn; apply xorb_false_r.
    + intros He. apply R. unfold gs_nb, g3, g_h. cbn [flip_fill gs_edges]. unfold g2. rewrite z_edges. fold (gs_nb g1 u). unfold g1. rewrite s_empty; auto.
Qed.
End MeasThm.
(** * State vectors *)
Definition gstate (g : gs) : state := den (gs_ops g) (fun _ => C1).
Fixpoint hk (n : nat) : C := match n with O => C1 | S n => (RtoC (/ sqrt 2) * hk n)%C end.
Lemma hk_norm n : hk n <> C0.
Proof.
  assert (H : (0 < / sqrt 2)%R) by (apply Rinv_0_lt_compat, sqrt_lt_R0; lra). assert (K : forall n, (0 < re (hk n))%R /\ im (hk n) = 0%R).
  { induction n0 as [|m [I1 I2]]; cbn [hk]; [cbn; lra|]. cbn. rewrite I2. split; [nra|ring]. }
  intros E. pose proof (proj1 (K n)) as P. rewrite E in P. cbn in P. lra.
Qed.
Lemma preps_const L c : den (map (fun n => OPrep plus_state n) L) (fun _ => c) = fun _ => (hk (length L) * c)%C.
Proof.
  revert c. induction L as [|n L IH]; intros c; [cbn; extensionality f; ring|]. cbn [map den length hk].
  assert (E : app_op (OPrep plus_state n) (fun _ => c) = fun _ => (RtoC (/ sqrt 2) * c)%C).
  { extensionality f. unfold app_op, plus_state, planar_state. assert (E0 : cis 0 = C1) by (unfold cis; rewrite Rmult_0_l, cos_0, sin_0; reflexivity). rewrite E0. destruct (f n); cbn [vget v0 v1]; ring. }
  rewrite E, IH. extensionality f. ring.
Qed.
Lemma opt_layer L (s : nset) U : NoDup L -> map (fun n => OApp1 U n) (filter (fun n => mem n s) L) ≈ layer L (fun n => if mem n s then U else mid).
Proof.
  intros ND. assert (E : map (fun n => OApp1 U n) (filter (fun n => mem n s) L) = layer (filter (fun n => mem n s) L) (fun n => if mem n s then U else mid)).
  { unfold layer. apply map_ext_in. intros n Hn. apply filter_In in Hn. rewrite (proj2 Hn). auto. }
  rewrite E. apply layer_weaken; auto using NoDup_filter.
  - intros n Hn. apply filter_In in Hn. tauto.
  - intros n Hn Hn'. rewrite filter_In in Hn'. destruct (mem n s); tauto.
Qed.
Lemma gs_ops_gops g : gs_ok g -> gs_ops g ≈ map (fun n => OPrep plus_state n) (gs_nodes g) ++ gops (gs_nodes g) (gs_edges g) (gs_vop g).
Proof.
  intros (A & _). unfold gs_ops, gops. do 2 apply leq_app_l. rewrite !opt_layer by auto. rewrite !layer_fuse by auto. apply layer_ext. intros n _. unfold gs_vop.
  assert (M : forall b U c V, clifford_mat c = U -> clifford_mat V ~= clifford_mat V -> forall W, clifford_mat V ~= W -> mmul (if b : bool then U else mid) W ~= clifford_mat (if b then clifford_mul c V else V)).
  { intros b U c V EU _ W HW. destruct b; [|rewrite mmul_1_l; apply meqp_sym; auto]. subst U. eapply meqp_trans; [|apply clifford_mul_mat]. apply meqp_mul; [apply meqp_refl|apply meqp_sym; auto]. }
  assert (Z0 : forall b : bool, clifford_mat (if b then clifford_mul K3 K0 else K0) ~= (if b then mZ else mid)).
  { intros [|]; [rewrite <- clifford_mat_Z; apply meqp_refl|rewrite clifford_mat_I; apply meqp_refl]. }
  rewrite <- ?mmul_assoc. apply M; [apply clifford_mat_H|apply meqp_refl|]. apply meqp_sym, M; [apply clifford_mat_S|apply meqp_refl|]. apply Z0.
Qed.
Lemma gstate_gops g : gs_ok g -> exists c, phase c /\ gstate g = cscale (c * hk (length (gs_nodes g))) (den (gops (gs_nodes g) (gs_edges g) (gs_vop g)) (fun _ => C1)).
Proof.
  intros O. destruct (gs_ops_gops g O) as (c & Hc & K). exists c. split; auto. unfold gstate. rewrite K, den_app, preps_const. rewrite <- cscale_cscale. f_equal.
  rewrite <- den_scale. f_equal.
Qed.
Lemma Pall_1 : Pall (fun _ => C1).
Proof. intros n f b. auto. Qed.
(** equality of states up to a global phase *)
Definition eqst (a b : state) : Prop := exists c, phase c /\ a = cscale c b.
Lemma gate_state g u c g' : gs_ok g -> gate_ok g u c g' -> eqst (gstate g') (app_op (OApp1 (clifford_mat c) u) (gstate g)).
Proof.
  intros O (A & B & D). destruct (gstate_gops g O) as (a & Ha & E). destruct (gstate_gops g' B) as (b & Hb & E'). apply leq_on_sym in D. destruct D as (d & Hd & D). rewrite E, E', A, app_op_scale.
  rewrite A in D. rewrite (D _ Pall_1), den_app. cbn [den]. exists (b * d * Cconj a)%C. split; [repeat apply phase_mul; auto; apply phase_conj; auto|]. rewrite !cscale_cscale. f_equal. transitivity (b * d * hk (length (gs_nodes g)) * (Cconj a * a))%C; [rewrite phase_inv' by auto; ring|ring].
Qed.
Lemma same_state g g' : gs_ok g -> same_ok g g' -> eqst (gstate g') (gstate g).
Proof.
  intros O (A & B & D). destruct (gstate_gops g O) as (a & Ha & E). destruct (gstate_gops g' B) as (b & Hb & E'). apply leq_on_sym in D. destruct D as (d & Hd & D). rewrite E, E', A.
  rewrite A in D. rewrite (D _ Pall_1). exists (b * d * Cconj a)%C. split; [repeat apply phase_mul; auto; apply phase_conj; auto|]. rewrite !cscale_cscale. f_equal. transitivity (b * d * hk (length (gs_nodes g)) * (Cconj a * a))%C; [rewrite phase_inv' by auto; ring|ring].
Qed.
Lemma lrem_notin u L : ~ In u L -> lrem u L = L.
Proof. intros H. unfold lrem. induction L as [|a L IH]; auto. cbn. destruct (Nat.eqb_spec a u) as [->|]; [exfalso; apply H; left; auto|]. cbn. f_equal. apply IH. intros K; apply H; right; auto. Qed.
Lemma lrem_length u L : NoDup L -> In u L -> length L = S (length (lrem u L)).
Proof.
  induction L as [|a L IH]; intros ND Hu; [destruct Hu|]. inversion ND; subst. unfold lrem. cbn [filter]. fold (lrem u L). destruct (Nat.eqb_spec a u) as [->|]; cbn [negb length].
  - rewrite lrem_notin; auto.
  - destruct Hu; [congruence|]. rewrite <- IH; auto.
Qed.
(** measuring [u] gives [g'] with probability [pr] *)
Lemma meas_state q g u w g' : gs_ok g -> In u (gs_nodes g) -> meas_ok q g u w g' -> exists c, Cnorm2 c = (q / 2)%R /\ app_op (OMeas w u) (gstate g) = cscale c (gstate g').
Proof.
  intros O Hu (A & B & d & Hd & D). destruct (gstate_gops g O) as (a & Ha & E). destruct (gstate_gops g' B) as (b & Hb & E'). specialize (D _ Pall_1). rewrite den_app in D. cbn [den] in D.
  exists (a * Cconj b * RtoC (/ sqrt 2) * d)%C. split.
  - rewrite !Cnorm2_mul, Ha, (phase_conj b Hb), Hd. assert (Q : Cnorm2 (RtoC (/ sqrt 2)) = (/ 2)%R) by (unfold Cnorm2; cbn; rewrite sqrt_mul_inv by lra; ring). rewrite Q. field.
  - rewrite E, E', app_op_scale, D, !cscale_cscale, A. f_equal. rewrite (lrem_length u (gs_nodes g)) by (apply O || auto). cbn [hk]. transitivity (a * RtoC (/ sqrt 2) * d * hk (length (lrem u (gs_nodes g))) * (Cconj b * b))%C; [rewrite phase_inv' by auto; ring|ring].
Qed.
