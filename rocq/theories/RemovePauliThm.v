(** Invariants of the removal of Pauli measurements. *)
From Coq Require Import Reals Lra Arith List Bool Lia Permutation Setoid Morphisms FunctionalExtensionality.
From Verif Require Import Cplx Mat2 Fundamentals CliffordDb Clifford NSet Measure QState Pattern Layer Standardize Shift OpenGraph FlowSem FlowWF GState GraphSimThm Push RemovePauli.
Import ListNotations.
Local Arguments app_op : simpl never.

(** * Sets of edges *)
Lemma nb_toggle es P a b : mem b (nb (toggle_edges es P) a) = xorb (mem b (nb es a)) (ein (a, b) P).
Proof. unfold nb. rewrite <- !(ein_adj []), ein_toggle. auto. Qed.
Lemma ein_prod s t a b : ein (a, b) (list_prod s t) = true <-> (In a s /\ In b t) \/ (In b s /\ In a t).
Proof.
  rewrite ein_spec, in_map_iff. split.
  - intros ((x & y) & E & H). apply in_prod_iff in H. symmetry in E. apply edge_norm_inj in E. destruct E as [E|E]; injection E as -> ->; auto.
  - intros [[A B]|[A B]]; [exists (a, b)|exists (b, a)]; (split; [auto using edge_norm_swap|apply in_prod; auto]).
Qed.
Lemma prod_ok s t : NoDup s -> NoDup t -> (forall x, In x s -> ~ In x t) -> es_ok (list_prod s t).
Proof.
  intros NS NT D. split.
  - induction s as [|a s IH]; [constructor|]. inversion NS; subst. cbn [list_prod]. rewrite map_app, map_map. apply NoDup_app.
    + assert (Ha : ~ In a t) by (apply D; left; auto). clear - NT Ha. induction t as [|b t IH]; [constructor|]. inversion NT; subst. cbn [map]. constructor.
      * intros K. apply in_map_iff in K. destruct K as (c & E & K). apply edge_norm_inj in E. destruct E as [E|E]; [injection E as ->; auto|]. cbn in E. injection E as -> ->. apply Ha. left; auto.
      * apply IH; auto. intros K. apply Ha. right; auto.
    + apply IH; auto. intros x Hx. apply D. right; auto.
    + intros x K K'. apply in_map_iff in K. destruct K as (b & <- & K). apply in_map_iff in K'. destruct K' as ((c & d) & E & K'). apply in_prod_iff in K'. apply edge_norm_inj in E.
      destruct E as [E|E]; [injection E as -> ->; tauto|]. cbn in E. injection E as -> ->. apply (D b); [right; tauto|auto].
  - intros [a b] H. apply in_prod_iff in H. cbn. intros ->. apply (D b); tauto.
Qed.

Lemma lrem_notin x l : ~ In x l -> lrem x l = l.
Proof. induction l as [|a l IH]; auto. intros H. cbn [lrem filter]. fold (lrem x l). rewrite (proj2 (Nat.eqb_neq a x)) by (intros ->; apply H; left; auto). cbn [negb]. f_equal. apply IH. intros K. apply H. right; auto. Qed.
Lemma lrem_perm x l : NoDup l -> In x l -> Permutation (x :: lrem x l) l.
Proof.
  induction l as [|a l IH]; [intros _ []|]. intros N HX. inversion N; subst. cbn [lrem filter]. fold (lrem x l). destruct (Nat.eqb_spec a x) as [->|NE]; cbn [negb].
  - rewrite lrem_notin by auto. auto.
  - eapply Permutation_trans; [apply perm_swap|]. apply perm_skip. apply IH; auto. destruct HX; [congruence|auto].
Qed.

(** * One annotation *)
Definition nspec : Type := clifford * (nset * nset) * option (axis * sign).
Definition spec_apply (g : clifford) (s : nspec) : nspec :=
  let '(c, d, p) := s in
  (clifford_mul c g, commute_domains g (fst d) (snd d), match p with Some (a, sg) => Some (pauli_clifford a sg g) | None => None end).
Definition rspec (r : rp) (v : nat) : nspec := (rp_cl r v, rp_dom r v, rp_pm r v).
Definition has_ax (p : option (axis * sign)) (ax : axis) : bool := match p with Some (a, _) => axis_eqb a ax | None => false end.
Lemma pset_eq {A} (f : nat -> A) k a n : pset f k a n = if (n =? k)%nat then a else f n.
Proof. reflexivity. Qed.
Lemma axis_eqb_refl a : axis_eqb a a = true.
Proof. destruct a; auto. Qed.
Definition all_cl : list clifford := [K0; K1; K2; K3; K4; K5; K6; K7; K8; K9; K10; K11; K12; K13; K14; K15; K16; K17; K18; K19; K20; K21; K22; K23].
Lemma all_cl_In g : In g all_cl.
Proof. unfold all_cl. destruct g; cbn; tauto. Qed.
Definition psg_eqb (x y : axis * sign) : bool := axis_eqb (fst x) (fst y) && sign_eqb (snd x) (snd y).
Lemma psg_eqb_eq x y : psg_eqb x y = true -> x = y.
Proof. destruct x as [[] []], y as [[] []]; cbn; congruence. Qed.
Lemma pauli_clifford_comp a s c g : (let '(a', s') := pauli_clifford a s c in pauli_clifford a' s' g) = pauli_clifford a s (clifford_mul c g).
Proof.
  apply psg_eqb_eq. assert (H : forallb (fun a => forallb (fun s => forallb (fun c => forallb (fun g => psg_eqb (let '(a', s') := pauli_clifford a s c in pauli_clifford a' s' g) (pauli_clifford a s (clifford_mul c g))) all_cl) all_cl) [Plus; Minus]) [AX; AY; AZ] = true) by (vm_compute; reflexivity).
  rewrite forallb_forall in H. specialize (H a). rewrite forallb_forall in H. assert (Ha : In a [AX; AY; AZ]) by (destruct a; cbn; auto). specialize (H Ha s). rewrite forallb_forall in H. assert (Hs : In s [Plus; Minus]) by (destruct s; cbn; auto).
  specialize (H Hs c (all_cl_In c)). rewrite forallb_forall in H. apply H. apply all_cl_In.
Qed.
Lemma clifford_mul_assoc a b c : clifford_mul a (clifford_mul b c) = clifford_mul (clifford_mul a b) c.
Proof.
  apply clifford_eqb_eq. assert (H : forallb (fun a => forallb (fun b => forallb (fun c => clifford_eqb (clifford_mul a (clifford_mul b c)) (clifford_mul (clifford_mul a b) c)) all_cl) all_cl) all_cl = true) by (vm_compute; reflexivity).
  rewrite forallb_forall in H. specialize (H a (all_cl_In a)). rewrite forallb_forall in H. specialize (H b (all_cl_In b)). rewrite forallb_forall in H. apply H, all_cl_In.
Qed.

Section Inv.
Variables (it : iter) (IT : iter_ok it) (inp : nset) (L0 : list nat) (out0 : list nat) (E0 : list (nat * nat)).
Variables (P0 : nat -> option (axis * sign)) (c0 : nat -> clifford) (x0 z0 : nat -> nset).

Definition nodeok (n : nat) (D : clifford) (s : nspec) : Prop :=
  let '(c, d, p) := s in
  c = clifford_mul (c0 n) D /\
  (forall k, mem k (fst d) = true \/ mem k (snd d) = true -> mem k (x0 n) = true \/ mem k (z0 n) = true) /\
  (forall o, mmul (mXZ (parity o (x0 n)) (parity o (z0 n))) (clifford_mat D) ~= mmul (clifford_mat D) (mXZ (parity o (fst d)) (parity o (snd d)))) /\
  p = match P0 n with Some (a, s) => Some (pauli_clifford a s D) | None => None end.
Lemma nodeok_step n D s g : nodeok n D s -> nodeok n (clifford_mul D g) (spec_apply g s).
Proof.
  destruct s as [[c d] p]. intros (A & B & M & P). destruct d as [s t]. cbn [fst snd] in *. unfold spec_apply, nodeok. cbn [fst snd]. destruct (commute_domains g s t) as [s' t'] eqn:E. cbn [fst snd].
  split; [|split; [|split]].
  - rewrite A. symmetry. apply clifford_mul_assoc.
  - intros k Hk. apply B. eapply commute_domains_sub; eauto.
  - intros o. eapply meqp_trans; [apply meqp_mul; [apply meqp_refl|apply meqp_sym, clifford_mul_mat]|]. rewrite mmul_assoc.
    eapply meqp_trans; [apply meqp_mul; [apply M|apply meqp_refl]|]. rewrite <- mmul_assoc. eapply meqp_trans; [apply meqp_mul; [apply meqp_refl|apply (commute_domains_mat _ _ _ _ _ o E)]|].
    rewrite mmul_assoc. apply meqp_mul; [apply clifford_mul_mat|apply meqp_refl].
  - rewrite P. destruct (P0 n) as [[a sg]|]; auto. f_equal. rewrite <- pauli_clifford_comp. destruct (pauli_clifford a sg D); auto.
Qed.

(** * The sets of Pauli measurements *)
Definition sets_ok (r : rp) : Prop :=
  (forall w ax, In w (rp_L r) -> mem w inp = false -> mem (rp_src r w) (rp_sets r ax) = has_ax (rp_pm r w) ax) /\
  (forall n ax, mem n (rp_sets r ax) = true -> exists w, In w (rp_L r) /\ mem w inp = false /\ rp_src r w = n).
Definition rsame (r r' : rp) : Prop :=
  rp_L r' = rp_L r /\ rp_es r' = rp_es r /\ rp_src r' = rp_src r /\ rp_map r' = rp_map r /\ rp_out r' = rp_out r.
Lemma rsame_refl r : rsame r r.
Proof. unfold rsame. tauto. Qed.
Lemma rsame_trans a b c : rsame a b -> rsame b c -> rsame a c.
Proof. unfold rsame. intuition congruence. Qed.
Definition inj (f : nat -> nat) : Prop := forall a b, f a = f b -> a = b.
Lemma apply_ok r v g : sets_ok r -> inj (rp_src r) -> In v (rp_L r) -> exists r', apply_clifford inp r v g = Some r' /\ rsame r r' /\ sets_ok r' /\
  forall w, rspec r' w = if (w =? v)%nat then spec_apply g (rspec r v) else rspec r w.
Proof.
  intros [S1 S2] HI Hv. unfold apply_clifford. destruct (rp_pm r v) as [[a s]|] eqn:EP.
  - set (new := pauli_clifford a s g).
    assert (SP : forall sets w, rspec (RP (rp_L r) (rp_es r) (rp_src r) (pset (rp_dom r) v (commute_domains g (fst (rp_dom r v)) (snd (rp_dom r v)))) (pset (rp_cl r) v (clifford_mul (rp_cl r v) g)) (pset (rp_pm r) v (Some new)) (rp_map r) sets (rp_out r)) w = if (w =? v)%nat then spec_apply g (rspec r v) else rspec r w).
    { intros sets w. unfold rspec. cbn [rp_cl rp_dom rp_pm]. rewrite !pset_eq. destruct (w =? v)%nat; auto. unfold spec_apply. rewrite EP. auto. }
    destruct (mem v inp) eqn:EI; [|destruct (axis_eqb (fst new) a) eqn:EA; [|]].
    + eexists. split; [reflexivity|]. split; [unfold rsame; cbn; tauto|]. split; [|apply SP]. split; cbn [rp_L rp_src rp_sets rp_pm]; [|exact S2].
      intros w ax Hw Hi. rewrite pset_eq. destruct (Nat.eqb_spec w v) as [->|]; [congruence|]. auto.
    + eexists. split; [reflexivity|]. split; [unfold rsame; cbn; tauto|]. split; [|apply SP]. split; cbn [rp_L rp_src rp_sets rp_pm]; [|exact S2].
      intros w ax Hw Hi. rewrite pset_eq. destruct (Nat.eqb_spec w v) as [->|]; [|auto]. rewrite S1, EP by auto. cbn [has_ax]. destruct (axis_eqb_spec (fst new) a) as [E|]; [|discriminate]. destruct new as [a' s']. cbn in E. subst. auto.
    + rewrite (S1 v a Hv EI), EP. cbn [has_ax]. rewrite axis_eqb_refl. eexists. split; [reflexivity|]. split; [unfold rsame; cbn; tauto|]. split; [|apply SP]. destruct new as [a' s']. cbn [fst] in *.
      split; cbn [rp_L rp_src rp_sets rp_pm]; unfold aset.
      * intros w ax Hw Hi. rewrite pset_eq. destruct (Nat.eqb_spec w v) as [->|NE].
        -- cbn [has_ax]. destruct (axis_eqb_spec ax a') as [->|N1]; [rewrite axis_eqb_refl, mem_sadd, Nat.eqb_refl; auto|].
           destruct (axis_eqb_spec a' ax); [congruence|]. destruct (axis_eqb_spec ax a) as [->|N2]; [rewrite mem_sremove, Nat.eqb_refl, andb_false_r; auto|]. rewrite S1, EP by auto. cbn. destruct (axis_eqb_spec a ax); congruence.
        -- assert (NS : (rp_src r w =? rp_src r v)%nat = false) by (apply Nat.eqb_neq; intros E; apply NE, HI; auto). rewrite <- (S1 w ax Hw Hi).
           destruct (axis_eqb_spec ax a') as [->|N1].
           ++ rewrite mem_sadd, NS. cbn [orb]. rewrite EA. auto.
           ++ destruct (axis_eqb_spec ax a) as [->|N2]; auto. rewrite mem_sremove, NS, andb_true_r. auto.
      * intros n ax. destruct (axis_eqb_spec ax a') as [->|N1].
        -- rewrite mem_sadd, EA. intros H. apply orb_true_iff in H. destruct H as [H|H]; [apply Nat.eqb_eq in H; subst; eauto|eauto].
        -- destruct (axis_eqb_spec ax a) as [->|N2]; [|eauto]. rewrite mem_sremove. intros H. apply andb_true_iff in H. destruct H. eauto.
  - eexists. split; [reflexivity|]. split; [unfold rsame; cbn; tauto|]. split; [split; auto|]. intros w. unfold rspec. cbn [rp_cl rp_dom rp_pm]. rewrite !pset_eq. destruct (Nat.eqb_spec w v) as [->|]; auto. unfold spec_apply. rewrite EP. auto.
Qed.
Lemma apply_all_ok g l : NoDup l -> forall r, sets_ok r -> inj (rp_src r) -> (forall v, In v l -> In v (rp_L r)) -> exists r', apply_all inp r l g = Some r' /\ rsame r r' /\ sets_ok r' /\
  forall w, rspec r' w = if lmem w l then spec_apply g (rspec r w) else rspec r w.
Proof.
  induction l as [|v l IH]; intros ND r S I H.
  - exists r. split; auto. split; [apply rsame_refl|]. split; auto.
  - inversion ND as [|? ? N1 N2]; subst. cbn [apply_all]. destruct (apply_ok r v g S I) as (r1 & E & R & S1 & K); [apply H; left; auto|]. rewrite E. pose proof R as (R1 & _ & R3 & _).
    destruct (IH N2 r1 S1) as (r2 & E2 & Q & S2 & K2). { rewrite R3; auto. } { intros w Hw. rewrite R1. apply H. right; auto. }
    exists r2. split; auto. split; [eapply rsame_trans; eauto|]. split; auto. intros w. rewrite K2, !K. cbn [lmem existsb]. fold (lmem w l). rewrite (Nat.eqb_sym v w) || idtac. destruct (Nat.eqb_spec w v) as [->|NE]; cbn [orb]; auto.
    destruct (lmem v l) eqn:M; auto. apply lmem_In in M. contradiction.
Qed.

(** * The invariant *)
(** [eo], [D]: the graph and the Clifford gates, with the original labels *)
Record rinv (eo : list (nat * nat)) (D : nat -> clifford) (r : rp) : Prop := {
  ri_N : NoDup (rp_L r); ri_sub : forall v, In v (rp_L r) -> In v L0;
  ri_inj : inj (rp_src r);
  ri_src0 : forall v, ~ In v L0 -> rp_src r v = v; ri_srcL : forall v, In v L0 -> In (rp_src r v) L0;
  ri_inp : forall v, mem v inp = true -> rp_src r v = v; ri_inpL : forall v, mem v inp = true -> In v (rp_L r);
  ri_map : forall n v, rp_map r n = Some v <-> In v (rp_L r) /\ rp_src r v = n;
  ri_sets : sets_ok r;
  ri_spec : forall v, In v (rp_L r) -> nodeok (rp_src r v) (D (rp_src r v)) (rspec r v);
  ri_out : forall v, mem v (rp_out r) = true <-> In v (rp_L r) /\ In (rp_src r v) out0;
  ri_outs : forall n, In n out0 -> exists v, In v (rp_L r) /\ rp_src r v = n;
  ri_es : es_ok (rp_es r); ri_ei : es_in (rp_L r) (rp_es r);
  ri_eo : es_ok eo; ri_eoi : es_in (map (rp_src r) (rp_L r)) eo;
  ri_nb : forall a b, mem (rp_src r b) (nb eo (rp_src r a)) = mem b (nb (rp_es r) a) }.
Lemma ri_noninp eo D r v : rinv eo D r -> mem v inp = false -> mem (rp_src r v) inp = false.
Proof. intros I H. destruct (mem (rp_src r v) inp) eqn:E; auto. pose proof (ri_inp _ _ _ I _ E) as K. apply (ri_inj _ _ _ I) in K. congruence. Qed.
Lemma src_eqb r a b : inj (rp_src r) -> (rp_src r a =? rp_src r b)%nat = (a =? b)%nat.
Proof. intros I. destruct (Nat.eqb_spec a b) as [->|N]; [apply Nat.eqb_refl|]. apply Nat.eqb_neq. intros E. apply N, I; auto. Qed.

(** local complementation *)
Lemma lc_step eo D r u : rinv eo D r -> In u (rp_L r) ->
  exists r', rp_lc it inp r u = Some r' /\ rinv (lc eo (rp_src r u)) (vmulc D (dvec (rp_src r u) (nb eo (rp_src r u)) sqx K4)) r' /\
    rp_L r' = rp_L r /\ rp_src r' = rp_src r /\ rspec r' u = spec_apply sqx (rspec r u).
Proof.
  intros I Hu. unfold rp_lc. set (N := it (nb (rp_es r) u)). set (es' := toggle_edges (rp_es r) (pairs N)).
  assert (NN : NoDup N) by (apply iter_NoDup; auto). assert (HN : forall n, In n N <-> mem n (nb (rp_es r) u) = true) by (intros; apply iter_In; auto).
  assert (NL : forall n, In n N -> In n (rp_L r)) by (intros n Hn; eapply nb_in; [apply (ri_ei _ _ _ I)|apply HN; eauto]).
  assert (Nu : lmem u N = false). { destruct (lmem u N) eqn:E; auto. apply lmem_In, HN in E. rewrite nb_self in E by apply (ri_es _ _ _ I). discriminate. }
  assert (LN : forall w, lmem w N = mem w (nb (rp_es r) u)). { intros w. apply eq_true_iff_eq. rewrite lmem_In, HN. tauto. }
  destruct (apply_ok (set_edges r es') u sqx) as (r1 & E1 & (A1 & A2 & A3 & A4 & A5) & S1 & K1). { exact (ri_sets _ _ _ I). } { exact (ri_inj _ _ _ I). } { exact Hu. }
  cbn [set_edges rp_L rp_es rp_src rp_map rp_out] in A1, A2, A3, A4, A5. fold sqx. rewrite E1. destruct (apply_all_ok K4 N NN r1 S1) as (r2 & E2 & (B1 & B2 & B3 & B4 & B5) & S2 & K2).
  { rewrite A3. apply I. } { rewrite A1. exact NL. }
  rewrite E2. exists r2. split; auto.
  assert (SP : forall w, rspec r2 w = if (w =? u)%nat then spec_apply sqx (rspec r u) else if mem w (nb (rp_es r) u) then spec_apply K4 (rspec r w) else rspec r w).
  { intros w. rewrite K2, K1, LN. unfold rspec in *. cbn [set_edges rp_cl rp_dom rp_pm] in *. destruct (Nat.eqb_spec w u) as [->|]; auto. rewrite nb_self by apply I. auto. }
  assert (EL : rp_L r2 = rp_L r) by congruence. assert (ES : rp_src r2 = rp_src r) by congruence. assert (EE : rp_es r2 = es') by congruence. assert (EM : rp_map r2 = rp_map r) by congruence. assert (EO : rp_out r2 = rp_out r) by congruence.
  split; [|split; auto; split; auto; rewrite SP, Nat.eqb_refl; auto].
  destruct I as [I1 I2 I3 I4 I5 I6 I7 I8 I9 I10 I11 I12 I13 I14 I15 I16 I17].
  constructor; rewrite ?EL, ?ES, ?EE, ?EM, ?EO; auto.
  - intros v Hv. rewrite SP. unfold vmulc, dvec. rewrite src_eqb, I17 by auto. destruct (Nat.eqb_spec v u) as [->|]; [apply nodeok_step; auto|]. destruct (mem v (nb (rp_es r) u)); [apply nodeok_step; auto|]. rewrite clifford_mul_K0_r. auto.
  - apply toggle_ok; auto. apply pairs_ok; auto.
  - intros e He. apply toggle_in in He. destruct He as [He|He]; auto. apply pairs_in in He; auto. split; apply NL; tauto.
  - apply lc_ok; auto.
  - apply lc_in; auto.
  - intros a b. rewrite nb_lc by auto. unfold es'. rewrite nb_toggle, !I17, src_eqb by auto. f_equal. apply eq_true_iff_eq. rewrite pairs_ein by auto. rewrite !HN, !andb_true_iff, negb_true_iff, Nat.eqb_neq. tauto.
Qed.

(** removal of a node *)
Lemma remove_node_ok eo D r u : rinv eo D r -> In u (rp_L r) -> mem u inp = false -> ~ In (rp_src r u) out0 ->
  exists r', remove_node r u = Some r' /\ rinv (del eo (rp_src r u)) D r' /\ rp_L r' = lrem u (rp_L r) /\ rp_src r' = rp_src r /\ (forall w, rspec r' w = rspec r w) /\ rp_out r' = rp_out r /\ rp_es r' = del (rp_es r) u.
Proof.
  intros I Hu NI NO. set (x := rp_src r u).
  assert (HM : rp_map r x = Some u) by (apply (ri_map _ _ _ I); auto).
  assert (K : exists sets, remove_node r u = Some (RP (lrem u (rp_L r)) (del (rp_es r) u) (rp_src r) (rp_dom r) (rp_cl r) (rp_pm r) (pset (rp_map r) x None) sets (rp_out r)) /\
     (forall w ax, w <> u -> mem (rp_src r w) (sets ax) = mem (rp_src r w) (rp_sets r ax)) /\ (forall n ax, mem n (sets ax) = true -> mem n (rp_sets r ax) = true /\ n <> x)).
  { pose proof (ri_sets _ _ _ I) as [S1 S2]. unfold remove_node. fold x. rewrite HM. destruct (rp_pm r u) as [[a s]|] eqn:EP.
    - unfold x. rewrite S1, EP by auto. cbn [has_ax]. rewrite axis_eqb_refl. fold x. eexists. split; [reflexivity|]. unfold aset. split.
      + intros w ax NE. destruct (axis_eqb_spec ax a) as [->|]; auto. rewrite mem_sremove. unfold x. rewrite src_eqb by apply I. rewrite (proj2 (Nat.eqb_neq w u)) by auto. apply andb_true_r.
      + intros n ax. destruct (axis_eqb_spec ax a) as [->|NE].
        * rewrite mem_sremove, andb_true_iff, negb_true_iff, Nat.eqb_neq. auto.
        * intros H. split; auto. intros ->. unfold x in H. rewrite S1, EP in H by auto. cbn in H. destruct (axis_eqb_spec a ax); congruence.
    - eexists. split; [reflexivity|]. split; auto. intros n ax H. split; auto. intros ->. unfold x in H. rewrite S1, EP in H by auto. discriminate. }
  destruct K as (sets & E & H1 & H2). rewrite E. eexists. split; [reflexivity|]. split; [|cbn; repeat split; auto].
  pose proof (ri_sets _ _ _ I) as [S1 S2]. destruct I as [I1 I2 I3 I4 I5 I6 I7 I8 I9 I10 I11 I12 I13 I14 I15 I16 I17].
  constructor; cbn [rp_L rp_es rp_src rp_map rp_sets rp_out]; auto.
  - apply lrem_NoDup; auto.
  - intros v Hv. apply lrem_in in Hv. apply I2. tauto.
  - intros v Hv. apply lrem_in. split; auto. intros ->. congruence.
  - intros n v. rewrite pset_eq. destruct (Nat.eqb_spec n x) as [->|NE].
    + split; [discriminate|]. intros [A B]. apply lrem_in in A. apply I3 in B. tauto.
    + rewrite I8, lrem_in. split; [|tauto]. intros [A B]. split; auto. split; auto. intros ->. auto.
  - split; cbn [rp_L rp_src rp_sets rp_pm].
    + intros w ax Hw Hi. apply lrem_in in Hw. rewrite H1 by tauto. apply S1; tauto.
    + intros n ax H. apply H2 in H. destruct H as [H NE]. destruct (S2 n ax H) as (w & A & B & C). exists w. rewrite lrem_in. split; auto. split; auto. intros ->. auto.
  - intros v Hv. apply lrem_in in Hv. apply (I10 v). tauto.
  - intros v. rewrite I11, lrem_in. split; [|tauto]. intros [A B]. split; auto. split; auto. intros ->. auto.
  - intros n Hn. destruct (I12 n Hn) as (v & A & B). exists v. rewrite lrem_in. split; auto. split; auto. intros ->. unfold x in *. congruence.
  - apply del_ok; auto.
  - apply del_es_in; auto.
  - apply del_ok; auto.
  - intros e He. apply del_in in He. destruct He as (A & B & C). apply I16 in A. rewrite !in_map_iff in *. destruct A as [(a & A1 & A2) (b & B1 & B2)]. split; [exists a|exists b]; rewrite lrem_in; split; auto; split; auto; intros ->; auto.
  - intros a b. rewrite !nb_del, I17. unfold x. rewrite !src_eqb by auto. auto.
Qed.
Lemma map_lrem r u l : inj (rp_src r) -> map (rp_src r) (lrem u l) = lrem (rp_src r u) (map (rp_src r) l).
Proof. intros HI. induction l as [|a l IH]; auto. cbn [lrem filter map]. fold (lrem u l) (lrem (rp_src r u) (map (rp_src r) l)). rewrite src_eqb by auto. destruct (negb (a =? u)%nat); cbn [map]; rewrite IH; auto. Qed.

(** the sign of a Z measurement on the neighbours *)
Lemma zs_step eo D r u s : rinv eo D r -> In u (rp_L r) ->
  exists r', (match s with Minus => apply_all inp r (it (nb (rp_es r) u)) K3 | Plus => Some r end) = Some r' /\
    rinv eo (vmulc D (dvec (rp_src r u) (nb eo (rp_src r u)) K0 (if sign_eqb s Minus then K3 else K0))) r' /\ rsame r r' /\ rspec r' u = rspec r u.
Proof.
  intros I Hu. destruct s; cbn [sign_eqb].
  - exists r. split; auto. split; [|split; [apply rsame_refl|auto]]. destruct I as [I1 I2 I3 I4 I5 I6 I7 I8 I9 I10 I11 I12 I13 I14 I15 I16 I17]. constructor; auto.
    intros v Hv. unfold vmulc, dvec. destruct (_ =? _)%nat; [|destruct (mem _ _)]; rewrite clifford_mul_K0_r; auto.
  - set (N := it (nb (rp_es r) u)). assert (HN : forall n, In n N <-> mem n (nb (rp_es r) u) = true) by (intros; apply iter_In; auto).
    destruct (apply_all_ok K3 N) with (r := r) as (r2 & E2 & R & S2 & K2); try apply I.
    { apply iter_NoDup; auto. } { intros v Hv. eapply nb_in; [apply (ri_ei _ _ _ I)|apply HN; eauto]. }
    exists r2. split; auto. assert (LN : forall w, lmem w N = mem w (nb (rp_es r) u)). { intros w. apply eq_true_iff_eq. rewrite lmem_In, HN. tauto. }
    pose proof R as (EL & EE & ES & EM & EO). split; [|split; auto; rewrite K2, LN, nb_self by apply I; auto].
    destruct I as [I1 I2 I3 I4 I5 I6 I7 I8 I9 I10 I11 I12 I13 I14 I15 I16 I17]. constructor; rewrite ?EL, ?ES, ?EE, ?EM, ?EO; auto.
    intros v Hv. rewrite K2, LN. unfold vmulc, dvec. rewrite src_eqb, I17 by auto. destruct (Nat.eqb_spec v u) as [->|]; [rewrite nb_self, clifford_mul_K0_r by auto; auto|]. destruct (mem v (nb (rp_es r) u)); [apply nodeok_step; auto|]. rewrite clifford_mul_K0_r; auto.
Qed.
Lemma remove_z_ok eo D r u s : rinv eo D r -> In u (rp_L r) -> mem u inp = false -> ~ In (rp_src r u) out0 ->
  exists r', remove_z it inp r u s = Some r' /\ rinv (del eo (rp_src r u)) (vmulc D (dvec (rp_src r u) (nb eo (rp_src r u)) K0 (if sign_eqb s Minus then K3 else K0))) r' /\
    rp_L r' = lrem u (rp_L r) /\ rp_src r' = rp_src r.
Proof.
  intros I Hu NI NO. destruct (zs_step eo D r u s I Hu) as (r1 & E1 & I1 & (R1 & R2 & R3 & R4 & R5) & K). unfold remove_z. rewrite E1.
  destruct (remove_node_ok _ _ r1 u I1) as (r2 & E2 & I2 & A & B & _); try rewrite ?R1, ?R3; auto. rewrite R3 in I2. exists r2. rewrite A, B, R1, R3. auto.
Qed.

(** pivoting, with the original labels *)
Definition pvc (x y : nat) (Nx Ny : nset) : nat -> clifford := fun n => if (n =? x)%nat || (n =? y)%nat then K6 else if mem n Nx && mem n Ny then K3 else K0.
Lemma pivot_ops L es V x y : NoDup L -> es_in L es -> es_ok es -> In x L -> mem y (nb es x) = true ->
  leq_on (fun psi => indep x psi /\ indep y psi) (gops L es V) (gops L (lc3 es x y) (vmulc V (pvc x y (nb es x) (nb es y)))).
Proof.
  intros NL I O Hx Hxy. assert (Hy : In y L) by (eapply nb_in; eauto). assert (XY : x <> y) by (intros <-; rewrite nb_self in Hxy by auto; discriminate).
  assert (Hxy' : mem x (nb es y) = true) by (rewrite nb_sym; auto). pose proof (nb_self es x O) as Sx. pose proof (nb_self es y O) as Sy.
  assert (I1 := lc_in _ _ x I). assert (I2 := lc_in _ _ y I1). assert (I3 := lc_in _ _ x I2). assert (O1 := lc_ok _ x O). assert (O2 := lc_ok _ y O1). assert (O3 := lc_ok _ x O2). fold (lc3 es x y) in I3, O3.
  pose proof (fun n => nb_lc3 es x y n O Hxy) as NB. set (P := fun psi => indep x psi /\ indep y psi). assert (PX : forall psi, P psi -> indep x psi) by (unfold P; tauto). assert (PY : forall psi, P psi -> indep y psi) by (unfold P; tauto).
  eapply leq_on_trans; [apply (leq_on_weaken _ P _ _ PX (lc_ops L es NL I O x V Hx))|]. eapply leq_on_trans; [apply (leq_on_weaken _ P _ _ PY (lc_ops L _ NL I1 O1 y _ Hy))|].
  eapply leq_on_trans; [apply (leq_on_weaken _ P _ _ PX (lc_ops L _ NL I2 O2 x _ Hx))|]. fold (lc3 es x y).
  eapply leq_on_trans; [apply (leq_on_weaken _ P _ _ PX (stab_ops L _ NL I3 O3 x _ Hx))|]. eapply leq_on_trans; [apply (leq_on_weaken _ P _ _ PY (stab_ops L _ NL I3 O3 y _ Hy))|].
  rewrite (gops_ext L (lc3 es x y) _ (vmulc V (pvc x y (nb es x) (nb es y)))); [apply leq_on_refl|]. intros n _. unfold vmulc, dvec, pvc. destruct (NB n) as (B1 & B2 & B3 & B4). rewrite B1, B2, B3, B4.
  rewrite <- !clifford_mul_assoc. f_equal.
  clear B1 B2 B3 B4. destruct (Nat.eqb_spec n x) as [E|Nx]; [subst n; rewrite (proj2 (Nat.eqb_neq x y)) by auto; reflexivity|]. destruct (Nat.eqb_spec n y) as [E|Ny]; [subst n; rewrite Hxy; reflexivity|].
  cbn [orb]. destruct (mem n (nb es x)), (mem n (nb es y)); reflexivity.
Qed.
Definition swp (u v n : nat) : nat := if (n =? u)%nat then v else if (n =? v)%nat then u else n.
Lemma swp_inv u v n : swp u v (swp u v n) = n.
Proof.
  unfold swp. destruct (Nat.eqb_spec n u) as [E|N]; [subst n; destruct (Nat.eqb_spec v u); [auto|rewrite Nat.eqb_refl; auto]|]. destruct (Nat.eqb_spec n v) as [E|N']; [subst n; rewrite Nat.eqb_refl; auto|].
  rewrite (proj2 (Nat.eqb_neq n u)), (proj2 (Nat.eqb_neq n v)) by auto. auto.
Qed.
Lemma swp_inj u v : inj (swp u v).
Proof. intros a b E. rewrite <- (swp_inv u v a), E. apply swp_inv. Qed.
Lemma pset_sw {A} (f : nat -> A) u v n : pset (pset f v (f u)) u (f v) n = f (swp u v n).
Proof. unfold pset, swp. destruct (n =? u)%nat; auto. destruct (n =? v)%nat; auto. Qed.
Lemma ein_prod_b s t a b : ein (a, b) (list_prod (it s) (it t)) = (mem a s && mem b t) || (mem b s && mem a t).
Proof. apply eq_true_iff_eq. rewrite ein_prod, !(iter_In it) by auto. rewrite orb_true_iff, !andb_true_iff. tauto. Qed.
Lemma nb_lc3_all es x y a b : es_ok es -> mem y (nb es x) = true ->
  mem b (nb (lc3 es x y) a) = xorb (xorb (xorb (mem b (nb es a)) (mem a (nb es x) && mem b (nb es x) && negb (a =? b)%nat))
    (mem a (nb (lc es x) y) && mem b (nb (lc es x) y) && negb (a =? b)%nat)) (mem a (nb (lc (lc es x) y) x) && mem b (nb (lc (lc es x) y) x) && negb (a =? b)%nat).
Proof. intros O H. assert (O1 := lc_ok _ x O). assert (O2 := lc_ok _ y O1). unfold lc3. rewrite nb_lc by auto. rewrite (nb_lc (lc es x)) by auto. rewrite (nb_lc es) by auto. auto. Qed.
Definition pivot_edges (es : list (nat * nat)) (u v : nat) : list (nat * nat) :=
  let n_u := nb es u in
  let n_v := nb es v in
  let inter := sinter n_u n_v in
  let only_u := sremove v (sdiff n_u inter) in
  let only_v := sremove u (sdiff n_v inter) in
  complement_edges it (complement_edges it (complement_edges it es only_u only_v) only_u inter) only_v inter.
Lemma pivot_graph es u v a b : es_ok es -> mem v (nb es u) = true ->
  mem (swp u v b) (nb (lc3 es u v) (swp u v a)) = mem b (nb (pivot_edges es u v) a).
Proof.
  intros O H. assert (UV : u <> v) by (intros <-; rewrite nb_self in H by auto; discriminate). assert (H' : mem u (nb es v) = true) by (rewrite nb_sym; auto).
  pose proof (nb_self es u O) as Su. pose proof (nb_self es v O) as Sv.
  rewrite nb_lc3_all by auto. destruct (nb_lc3 es u v (swp u v a) O H) as (A1 & A2 & _). destruct (nb_lc3 es u v (swp u v b) O H) as (B1 & B2 & _). rewrite A1, A2, B1, B2.
  unfold pivot_edges, complement_edges. rewrite !nb_toggle, !ein_prod_b, !mem_sremove, !mem_sdiff, !mem_sinter.
  pose proof (nb_sym es a u) as Yau. pose proof (nb_sym es a v) as Yav. pose proof (nb_sym es b u) as Ybu. pose proof (nb_sym es b v) as Ybv.
  assert (E2 : (v =? u)%nat = false) by (apply Nat.eqb_neq; auto). assert (E1 : (u =? v)%nat = false) by (apply Nat.eqb_neq; auto).
  clear A1 A2 B1 B2. unfold swp. destruct (Nat.eqb_spec a u) as [Ea|Na].
  - subst a. destruct (Nat.eqb_spec b u) as [Eb|Nb]; [subst b|destruct (Nat.eqb_spec b v) as [Eb|Nb']; [subst b|]].
    + rewrite ?Nat.eqb_refl, ?E1, ?E2, ?H, ?H', ?Su, ?Sv. reflexivity.
    + rewrite ?Nat.eqb_refl, ?E1, ?E2, ?H, ?H', ?Su, ?Sv. reflexivity.
    + rewrite ?(proj2 (Nat.eqb_neq b u)), ?(proj2 (Nat.eqb_neq b v)), ?(proj2 (Nat.eqb_neq v b)), ?(proj2 (Nat.eqb_neq u b)) by auto. rewrite ?Nat.eqb_refl, ?E1, ?E2, ?H, ?H', ?Su, ?Sv. destruct (mem b (nb es u)), (mem b (nb es v)); reflexivity.
  - destruct (Nat.eqb_spec a v) as [Ea|Na'].
    + subst a. destruct (Nat.eqb_spec b u) as [Eb|Nb]; [subst b|destruct (Nat.eqb_spec b v) as [Eb|Nb']; [subst b|]].
      * rewrite ?Nat.eqb_refl, ?E1, ?E2, ?H, ?H', ?Su, ?Sv. reflexivity.
      * rewrite ?Nat.eqb_refl, ?E1, ?E2, ?H, ?H', ?Su, ?Sv. reflexivity.
      * rewrite ?(proj2 (Nat.eqb_neq b u)), ?(proj2 (Nat.eqb_neq b v)), ?(proj2 (Nat.eqb_neq v b)), ?(proj2 (Nat.eqb_neq u b)) by auto. rewrite ?Nat.eqb_refl, ?E1, ?E2, ?H, ?H', ?Su, ?Sv. destruct (mem b (nb es u)), (mem b (nb es v)); reflexivity.
    + destruct (Nat.eqb_spec b u) as [Eb|Nb]; [subst b|destruct (Nat.eqb_spec b v) as [Eb|Nb']; [subst b|]].
      * rewrite ?(proj2 (Nat.eqb_neq a u)), ?(proj2 (Nat.eqb_neq a v)), ?(proj2 (Nat.eqb_neq v a)), ?(proj2 (Nat.eqb_neq u a)) by auto. rewrite <- ?Yau, <- ?Yav. rewrite ?Nat.eqb_refl, ?E1, ?E2, ?H, ?H', ?Su, ?Sv. destruct (mem a (nb es u)), (mem a (nb es v)); reflexivity.
      * rewrite ?(proj2 (Nat.eqb_neq a u)), ?(proj2 (Nat.eqb_neq a v)), ?(proj2 (Nat.eqb_neq v a)), ?(proj2 (Nat.eqb_neq u a)) by auto. rewrite <- ?Yau, <- ?Yav. rewrite ?Nat.eqb_refl, ?E1, ?E2, ?H, ?H', ?Su, ?Sv. destruct (mem a (nb es u)), (mem a (nb es v)); reflexivity.
      * rewrite ?(proj2 (Nat.eqb_neq a u)), ?(proj2 (Nat.eqb_neq a v)), ?(proj2 (Nat.eqb_neq b u)), ?(proj2 (Nat.eqb_neq b v)) by auto. destruct (Nat.eqb_spec a b) as [Eb|].
        -- subst b. rewrite (nb_self es a) by auto. destruct (mem a (nb es u)), (mem a (nb es v)); reflexivity.
        -- destruct (mem b (nb es a)), (mem a (nb es u)), (mem a (nb es v)), (mem b (nb es u)), (mem b (nb es v)); reflexivity.
Qed.
Lemma complement_ok es s t : es_ok es -> (forall n, mem n s = true -> mem n t = false) -> es_ok (complement_edges it es s t).
Proof.
  intros O D. apply toggle_ok; auto. apply prod_ok; try (apply iter_NoDup; auto). intros x Hx Hy. rewrite (iter_In it) in Hx, Hy by auto. rewrite D in Hy by auto. discriminate.
Qed.
Lemma complement_in L es s t : es_in L es -> (forall n, mem n s = true -> In n L) -> (forall n, mem n t = true -> In n L) -> es_in L (complement_edges it es s t).
Proof.
  intros I HS HT e He. apply toggle_in in He. destruct He as [He|He]; auto. destruct e as [a b]. apply in_prod_iff in He. rewrite !(iter_In it) in He by auto. cbn. destruct He; auto.
Qed.
Lemma swp_L u v (P : nat -> Prop) n : P u -> P v -> (P (swp u v n) <-> P n).
Proof. intros A B. unfold swp. destruct (Nat.eqb_spec n u) as [E|]; [subst; tauto|]. destruct (Nat.eqb_spec n v) as [E|]; [subst; tauto|]. tauto. Qed.
Lemma pivot_step eo D r u v : rinv eo D r -> In u (rp_L r) -> mem u inp = false -> mem v inp = false -> mem v (nb (rp_es r) u) = true ->
  exists r', pivot_edge it inp r u v = Some r' /\ rinv (lc3 eo (rp_src r u) (rp_src r v)) (vmulc D (pvc (rp_src r u) (rp_src r v) (nb eo (rp_src r u)) (nb eo (rp_src r v)))) r' /\
    rp_L r' = rp_L r /\ (forall n, rp_src r' n = rp_src r (swp u v n)) /\ rspec r' u = spec_apply K6 (rspec r v) /\ rspec r' v = spec_apply K6 (rspec r u).
Proof.
  intros I Hu Iu Iv Huv. set (x := rp_src r u). set (y := rp_src r v). set (r0 := pivot_swap it r u v).
  pose proof I as [I1 I2 I3 I4 I5 I6 I7 I8 I9 I10 I11 I12 I13 I14 I15 I16 I17].
  assert (Hv : In v (rp_L r)) by (eapply nb_in; eauto). assert (UV : u <> v) by (intros <-; rewrite nb_self in Huv by auto; discriminate).
  assert (Hxy : mem y (nb eo x) = true) by (unfold x, y; rewrite I17; auto).
  assert (F1 : rp_L r0 = rp_L r) by reflexivity. assert (F2 : rp_es r0 = pivot_edges (rp_es r) u v) by reflexivity.
  assert (F3 : forall n, rp_src r0 n = rp_src r (swp u v n)) by (intros; apply pset_sw).
  assert (F4 : forall n, rspec r0 n = rspec r (swp u v n)). { intros n. unfold rspec, r0, pivot_swap. cbn [rp_cl rp_dom rp_pm]. rewrite !pset_sw. auto. }
  assert (F5 : rp_sets r0 = rp_sets r) by reflexivity.
  assert (F6 : forall n, rp_map r0 n = if (n =? y)%nat then Some u else if (n =? x)%nat then Some v else rp_map r n) by reflexivity.
  assert (LSW : forall n, In (swp u v n) (rp_L r) <-> In n (rp_L r)) by (intros; apply (swp_L u v (fun n => In n (rp_L r))); auto).
  assert (ISW : forall n, mem (swp u v n) inp = mem n inp). { intros n. unfold swp. destruct (Nat.eqb_spec n u) as [E|]; [subst; congruence|]. destruct (Nat.eqb_spec n v) as [E|]; [subst; congruence|]. auto. }
  assert (J0 : inj (rp_src r0)). { intros a b. rewrite !F3. intros E. apply I3 in E. apply swp_inj in E. auto. }
  assert (S0 : sets_ok r0).
  { destruct I9 as [S1 S2]. split; rewrite F5, F1.
    - intros w ax Hw Hi. rewrite F3, S1 by (try rewrite LSW; try rewrite ISW; auto). f_equal. symmetry. apply (pset_sw (rp_pm r)).
    - intros n ax H. destruct (S2 n ax H) as (w & A & B & C). exists (swp u v w). rewrite LSW, ISW, F3, swp_inv. auto. }
  unfold pivot_edge. fold r0. destruct (apply_ok r0 u K6 S0 J0) as (r1 & E1 & R1 & S1 & K1); [rewrite F1; auto|]. rewrite E1. pose proof R1 as (A1 & A2 & A3 & A4 & A5).
  destruct (apply_ok r1 v K6 S1) as (r2 & E2 & R2 & S2 & K2); [rewrite A3; auto|rewrite A1, F1; auto|]. rewrite E2.
  pose proof (rsame_trans _ _ _ R1 R2) as (B1 & B2 & B3 & B4 & B5). set (inter := sinter (nb (rp_es r) u) (nb (rp_es r) v)).
  assert (LI : forall n, lmem n (it inter) = mem n (nb (rp_es r) u) && mem n (nb (rp_es r) v)). { intros n. apply eq_true_iff_eq. rewrite lmem_In, (iter_In it) by auto. unfold inter. rewrite mem_sinter. tauto. }
  destruct (apply_all_ok K3 (it inter)) with (r := r2) as (r3 & E3 & R3 & S3 & K3'); auto. { apply iter_NoDup; auto. } { rewrite B3; auto. }
  { intros n Hn. rewrite B1, F1. apply lmem_In in Hn. rewrite LI in Hn. apply andb_true_iff in Hn. eapply nb_in; [exact I14|]. apply Hn. }
  rewrite E3. exists r3. split; auto. pose proof (rsame_trans _ _ _ (rsame_trans _ _ _ R1 R2) R3) as (C1 & C2 & C3 & C4 & C5).
  assert (Su : mem u (nb (rp_es r) u) = false) by (apply nb_self; auto). assert (Sv : mem v (nb (rp_es r) v) = false) by (apply nb_self; auto).
  assert (SPu : rspec r3 u = spec_apply K6 (rspec r v)). { rewrite K3', LI, Su. cbn [andb]. rewrite K2, (proj2 (Nat.eqb_neq u v)), K1, Nat.eqb_refl, F4 by auto. unfold swp. rewrite Nat.eqb_refl. auto. }
  assert (SPv : rspec r3 v = spec_apply K6 (rspec r u)). { rewrite K3', LI, Sv, andb_false_r. rewrite K2, Nat.eqb_refl, K1, (proj2 (Nat.eqb_neq v u)), F4 by auto. unfold swp. rewrite (proj2 (Nat.eqb_neq v u)), Nat.eqb_refl by auto. auto. }
  assert (SPn : forall n, n <> u -> n <> v -> rspec r3 n = if mem n (nb (rp_es r) u) && mem n (nb (rp_es r) v) then spec_apply K3 (rspec r n) else rspec r n).
  { intros n N1 N2. assert (E : swp u v n = n). { unfold swp. rewrite (proj2 (Nat.eqb_neq n u)), (proj2 (Nat.eqb_neq n v)) by auto. auto. } rewrite K3', LI, K2, (proj2 (Nat.eqb_neq n v)), K1, (proj2 (Nat.eqb_neq n u)), F4, E by auto. auto. }
  assert (ES : forall n, rp_src r3 n = rp_src r (swp u v n)) by (intros n; rewrite C3; apply F3).
  split; [|split; [congruence|auto]].
  assert (LU : In u L0) by auto. assert (LV : In v L0) by auto. assert (EL : rp_L r3 = rp_L r) by congruence. assert (MSW : forall n, In n (map (rp_src r3) (rp_L r3)) <-> In n (map (rp_src r) (rp_L r))).
  { intros n. rewrite !in_map_iff, EL. split; intros (w & A & B); exists (swp u v w); [rewrite <- ES|rewrite ES, swp_inv]; rewrite LSW; auto. }
  constructor.
  - rewrite EL; auto.
  - intros n. rewrite EL. auto.
  - intros a b. rewrite !ES. intros E. apply I3 in E. apply swp_inj in E. auto.
  - intros n Hn. rewrite ES. unfold swp. destruct (Nat.eqb_spec n u) as [E|]; [subst; contradiction|]. destruct (Nat.eqb_spec n v) as [E|]; [subst; contradiction|]. auto.
  - intros n Hn. rewrite ES. apply I5. apply (swp_L u v (fun n => In n L0)); auto.
  - intros n Hn. rewrite ES. unfold swp. destruct (Nat.eqb_spec n u) as [E|]; [subst; congruence|]. destruct (Nat.eqb_spec n v) as [E|]; [subst; congruence|]. auto.
  - intros n Hn. rewrite EL. auto.
  - intros n w. rewrite C4, F6, EL, ES. destruct (Nat.eqb_spec n y) as [->|N1]; [|destruct (Nat.eqb_spec n x) as [->|N2]].
    + split; [intros [= <-]; split; auto; unfold swp; rewrite Nat.eqb_refl; auto|]. intros [A B]. apply I3 in B. f_equal. rewrite <- (swp_inv u v w), B. unfold swp. rewrite (proj2 (Nat.eqb_neq v u)), Nat.eqb_refl by auto. auto.
    + split; [intros [= <-]; split; auto; unfold swp; rewrite (proj2 (Nat.eqb_neq v u)), Nat.eqb_refl by auto; auto|]. intros [A B]. apply I3 in B. f_equal. rewrite <- (swp_inv u v w), B. unfold swp. rewrite Nat.eqb_refl. auto.
    + rewrite I8. unfold swp. destruct (Nat.eqb_spec w u) as [E|]; [subst w; split; intros [A B]; unfold x, y in *; congruence|]. destruct (Nat.eqb_spec w v) as [E|]; [subst w; split; intros [A B]; unfold x, y in *; congruence|]. tauto.
  - exact S3.
  - intros n. rewrite EL, ES. intros Hn. unfold vmulc, pvc, x, y. rewrite (src_eqb r _ u), (src_eqb r _ v) by auto. destruct (Nat.eqb_spec n u) as [E|N1]; [|destruct (Nat.eqb_spec n v) as [E|N2]].
    + subst n. replace (swp u v u) with v by (unfold swp; rewrite Nat.eqb_refl; auto). rewrite Nat.eqb_refl, orb_true_r, SPu. apply nodeok_step. auto.
    + subst n. replace (swp u v v) with u by (unfold swp; rewrite (proj2 (Nat.eqb_neq v u)), Nat.eqb_refl by auto; auto). rewrite Nat.eqb_refl. cbn [orb]. rewrite SPv. apply nodeok_step. auto.
    + replace (swp u v n) with n by (unfold swp; rewrite (proj2 (Nat.eqb_neq n u)), (proj2 (Nat.eqb_neq n v)) by auto; auto). rewrite (proj2 (Nat.eqb_neq n u)), (proj2 (Nat.eqb_neq n v)) by auto. cbn [orb]. rewrite SPn, !I17 by auto.
      destruct (_ && _); [apply nodeok_step; auto|]. rewrite clifford_mul_K0_r. auto.
  - intros n. rewrite C5, EL, ES. assert (G : mem n (rp_out r0) = mem (swp u v n) (rp_out r)).
    { unfold r0, pivot_swap. cbn [rp_out]. unfold swp. destruct (mem u (rp_out r)) eqn:Mu, (mem v (rp_out r)) eqn:Mv; cbn [eqb].
      - destruct (Nat.eqb_spec n u) as [E|]; [subst; congruence|]. destruct (Nat.eqb_spec n v) as [E|]; [subst; congruence|]. auto.
      - rewrite mem_sadd, mem_sremove. destruct (Nat.eqb_spec n u) as [E|]; [subst; rewrite (proj2 (Nat.eqb_neq u v)), andb_false_r by auto; auto|]. destruct (Nat.eqb_spec n v) as [E|]; auto. cbn [orb negb]. rewrite andb_true_r; auto.
      - rewrite mem_sadd, mem_sremove. destruct (Nat.eqb_spec n u) as [E|]; auto. destruct (Nat.eqb_spec n v) as [E|]; [subst; rewrite andb_false_r; auto|]. cbn [orb negb]. rewrite andb_true_r; auto.
      - destruct (Nat.eqb_spec n u) as [E|]; [subst; congruence|]. destruct (Nat.eqb_spec n v) as [E|]; [subst; congruence|]. auto. }
    rewrite G, I11, LSW. tauto.
  - intros n Hn. destruct (I12 n Hn) as (w & A & B). exists (swp u v w). rewrite EL, ES, LSW, swp_inv. auto.
  - rewrite C2, F2. unfold pivot_edges. apply complement_ok; [apply complement_ok; [apply complement_ok; auto|]|]; intros n; rewrite ?mem_sremove, ?mem_sdiff, ?mem_sinter; destruct (mem n (nb (rp_es r) u)), (mem n (nb (rp_es r) v)); cbn; auto; discriminate.
  - rewrite C2, F2, EL. unfold pivot_edges. repeat apply complement_in; auto; intros n; rewrite ?mem_sremove, ?mem_sdiff, ?mem_sinter; intros H; rewrite !andb_true_iff in H; eapply nb_in; try exact I14; apply H.
  - unfold lc3. auto using lc_ok.
  - intros e He. rewrite !MSW. revert e He. unfold lc3. do 3 apply lc_in. auto.
  - intros a b. rewrite !ES, C2, F2, <- pivot_graph by auto. unfold x, y. rewrite !nb_lc3_all by auto. rewrite !nb_lc by auto using lc_ok. rewrite !src_eqb by auto. rewrite !I17. reflexivity.
Qed.

(** * The state *)
Hypothesis L0N : NoDup L0.
Hypothesis P0ok : forall n a s, P0 n = Some (a, s) -> In n L0 /\ ~ In n out0.
(** the vector of the original measurement of [n], outcome 0 *)
Definition w0 (n : nat) : vec2 := match P0 n with Some (a, s) => mvec (MPauli a s) false | None => mvec (MPauli AZ Plus) false end.
Definition Pin (psi : state) : Prop := forall n, In n L0 -> mem n inp = false -> indep n psi.
Definition kmeas (K : list nat) : list op := map (fun k => OMeas (w0 k) k) K.
Definition sinv (eo : list (nat * nat)) (D : nat -> clifford) (r : rp) (K Lo : list nat) : Prop :=
  Permutation (K ++ Lo) L0 /\ (forall n, In n Lo <-> exists v, In v (rp_L r) /\ rp_src r v = n) /\ (forall k, In k K -> mem k inp = false /\ P0 k <> None) /\
  leq_on Pin (cz_ops E0 ++ kmeas K) (gops Lo eo D).
Definition inv (r : rp) : Prop := exists eo D K Lo, rinv eo D r /\ sinv eo D r K Lo.
Lemma sinv_facts eo D r K Lo : rinv eo D r -> sinv eo D r K Lo -> NoDup Lo /\ es_in Lo eo /\ (forall v, In v (rp_L r) -> In (rp_src r v) Lo).
Proof.
  intros I (P & HL & _). split; [|split].
  - assert (N : NoDup (K ++ Lo)) by (eapply Permutation_NoDup; [apply Permutation_sym; eauto|auto]). clear - N. induction K as [|k K IH]; auto. inversion N; auto.
  - intros e He. apply (ri_eoi _ _ _ I) in He. rewrite !in_map_iff in He. rewrite !HL. destruct He as [(a & <- & A) (b & <- & B)]. split; eauto.
  - intros v Hv. apply HL. eauto.
Qed.
Lemma inv_lc r u : inv r -> In u (rp_L r) -> mem u inp = false ->
  exists r', rp_lc it inp r u = Some r' /\ inv r' /\ rp_L r' = rp_L r /\ rp_src r' = rp_src r /\ rspec r' u = spec_apply sqx (rspec r u).
Proof.
  intros (eo & D & K & Lo & I & S) Hu Iu. destruct (sinv_facts _ _ _ _ _ I S) as (NL & EI & HL). destruct (lc_step eo D r u I Hu) as (r' & E & I' & A & B & C).
  exists r'. split; auto. split; [|auto]. do 4 eexists. split; [exact I'|]. destruct S as (P & H1 & H2 & Q). split; [exact P|]. rewrite A, B. split; [exact H1|]. split; [exact H2|].
  eapply leq_on_trans; [exact Q|]. eapply leq_on_weaken; [|apply lc_ops; auto; apply I]. intros psi Hp. apply Hp; [apply (ri_srcL _ _ _ I), (ri_sub _ _ _ I), Hu|eapply ri_noninp; eauto].
Qed.
Lemma inv_pivot r u v : inv r -> In u (rp_L r) -> mem u inp = false -> mem v inp = false -> mem v (nb (rp_es r) u) = true ->
  exists r', pivot_edge it inp r u v = Some r' /\ inv r' /\ rp_L r' = rp_L r /\ (forall n, rp_src r' n = rp_src r (swp u v n)) /\ rspec r' u = spec_apply K6 (rspec r v) /\ rspec r' v = spec_apply K6 (rspec r u).
Proof.
  intros (eo & D & K & Lo & I & S) Hu Iu Iv Huv. destruct (sinv_facts _ _ _ _ _ I S) as (NL & EI & HL). destruct (pivot_step eo D r u v I Hu Iu Iv Huv) as (r' & E & I' & A & B & C).
  assert (Hv : In v (rp_L r)) by (eapply nb_in; [apply I|eauto]). exists r'. split; auto. split; [|auto]. do 4 eexists. split; [exact I'|]. destruct S as (P & H1 & H2 & Q). split; [exact P|]. split; [|split; [exact H2|]].
  - intros n. rewrite H1, A. assert (LSW : forall n, In (swp u v n) (rp_L r) <-> In n (rp_L r)) by (intros m; apply (swp_L u v (fun n => In n (rp_L r))); auto).
    split; intros (w & W1 & W2); exists (swp u v w); rewrite LSW; split; auto; [rewrite B, swp_inv; auto|rewrite <- B; auto].
  - eapply leq_on_trans; [exact Q|]. eapply leq_on_weaken; [|apply pivot_ops; auto; [apply I|rewrite (ri_nb _ _ _ I); auto]].
    intros psi Hp. split; apply Hp; try (apply (ri_srcL _ _ _ I), (ri_sub _ _ _ I); auto); eapply ri_noninp; eauto.
Qed.
Lemma pm_P0 eo D r u : rinv eo D r -> In u (rp_L r) -> rp_pm r u = match P0 (rp_src r u) with Some (a, s) => Some (pauli_clifford a s (D (rp_src r u))) | None => None end.
Proof. intros I Hu. pose proof (ri_spec _ _ _ I u Hu) as (_ & _ & _ & H). exact H. Qed.
Lemma z_vec s : mvec (MPauli AZ s) false ~v bvec (sign_eqb s Minus).
Proof. eapply veqp_trans; [apply pvec_sign|]. cbn [xorb]. destruct (sign_eqb s Minus); apply pvec_bvec. Qed.
Lemma inv_remove_z r u s : inv r -> In u (rp_L r) -> mem u inp = false -> rp_pm r u = Some (AZ, s) ->
  exists r', remove_z it inp r u s = Some r' /\ inv r' /\ rp_L r' = lrem u (rp_L r) /\ rp_src r' = rp_src r.
Proof.
  intros (eo & D & K & Lo & I & S) Hu Iu HP. destruct (sinv_facts _ _ _ _ _ I S) as (NL & EI & HL). pose proof (pm_P0 _ _ _ _ I Hu) as E. rewrite HP in E. set (x := rp_src r u) in *.
  destruct (P0 x) as [[a0 s0]|] eqn:EP; [|discriminate]. assert (EC : pauli_clifford a0 s0 (D x) = (AZ, s)) by congruence. destruct (P0ok x a0 s0 EP) as [X1 X2].
  destruct (remove_z_ok eo D r u s I Hu Iu X2) as (r' & E' & I' & A & B). fold x in I'. exists r'. split; auto. split; [|auto]. exists (del eo x), (vmulc D (dvec x (nb eo x) K0 (if sign_eqb s Minus then K3 else K0))), (K ++ [x]), (lrem x Lo). split; [exact I'|].
  destruct S as (P & H1 & H2 & Q). split; [|split; [|split]].
  - rewrite <- app_assoc. eapply Permutation_trans; [|exact P]. apply Permutation_app_head. cbn [app]. apply lrem_perm; [auto|apply HL; auto].
  - intros n. rewrite lrem_in, H1, A, B. split.
    + intros [(v & V1 & V2) N]. exists v. rewrite lrem_in. split; auto. split; auto. intros ->. auto.
    + intros (v & V1 & V2). apply lrem_in in V1. split; [exists v; tauto|]. intros ->. apply (ri_inj _ _ _ I) in V2. tauto.
  - intros k Hk. apply in_app_or in Hk. destruct Hk as [Hk|[<-|[]]]; auto. split; [eapply ri_noninp; eauto|]. congruence.
  - unfold kmeas. rewrite map_app, app_assoc. eapply leq_on_trans; [apply leq_on_app; [exact Q|reflexivity]|]. cbn [map]. eapply leq_on_weaken; [|apply remove_ops; auto; try apply I].
    + intros psi Hp. apply Hp; auto. eapply ri_noninp; eauto.
    + unfold x. auto.
    + unfold w0. rewrite EP. pose proof (mvec_clifford (MPauli a0 s0) (D x) false) as M. cbn [meas_clifford] in M. rewrite EC in M.
      eapply veqp_trans; [apply veqp_sym, M|]. apply z_vec.
Qed.
(** Z gates and removals do not put nodes in the sets *)
Lemma apply_z_sets r v r' ax : apply_clifford inp r v K3 = Some r' -> rp_sets r' ax = rp_sets r ax.
Proof.
  unfold apply_clifford. destruct (rp_pm r v) as [[a s]|]; [|intros [= <-]; auto]. destruct (mem v inp); [intros [= <-]; auto|].
  assert (E : axis_eqb (fst (pauli_clifford a s K3)) a = true) by (destruct a, s; reflexivity). rewrite E. intros [= <-]; auto.
Qed.
Lemma apply_all_z_sets l : forall r r' ax, apply_all inp r l K3 = Some r' -> rp_sets r' ax = rp_sets r ax.
Proof.
  induction l as [|v l IH]; intros r r' ax; cbn [apply_all]; [intros [= <-]; auto|]. destruct (apply_clifford inp r v K3) as [r1|] eqn:E; [|discriminate]. intros H. rewrite (IH _ _ ax H). eapply apply_z_sets; eauto.
Qed.
Lemma remove_node_sets r u r' ax n : remove_node r u = Some r' -> mem n (rp_sets r' ax) = true -> mem n (rp_sets r ax) = true.
Proof.
  unfold remove_node. destruct (rp_pm r u) as [[a s]|].
  - destruct (mem (rp_src r u) (rp_sets r a)); [|discriminate]. destruct (rp_map r (rp_src r u)); [|discriminate]. intros [= <-]. cbn [rp_sets]. unfold aset. destruct (axis_eqb_spec ax a) as [->|]; auto. rewrite mem_sremove, andb_true_iff. tauto.
  - destruct (rp_map r (rp_src r u)); [|discriminate]. intros [= <-]. auto.
Qed.
Lemma remove_z_sets r u s r' ax n : remove_z it inp r u s = Some r' -> mem n (rp_sets r' ax) = true -> mem n (rp_sets r ax) = true.
Proof.
  unfold remove_z. destruct s.
  - apply remove_node_sets.
  - destruct (apply_all inp r (it (nb (rp_es r) u)) K3) as [r1|] eqn:E; [|discriminate]. intros H K. rewrite <- (apply_all_z_sets _ _ _ ax E). eapply remove_node_sets; eauto.
Qed.
Lemma inv_sets r : inv r -> sets_ok r /\ (forall n v, rp_map r n = Some v <-> In v (rp_L r) /\ rp_src r v = n) /\ NoDup (rp_L r) /\ es_in (rp_L r) (rp_es r).
Proof. intros (eo & D & K & Lo & I & S). split; [apply I|]. split; [apply I|]. split; apply I. Qed.
(** a member of a set *)
Lemma set_node r n ax : inv r -> mem n (rp_sets r ax) = true -> exists v s, rp_map r n = Some v /\ In v (rp_L r) /\ mem v inp = false /\ rp_src r v = n /\ rp_pm r v = Some (ax, s).
Proof.
  intros H M. destruct (inv_sets r H) as ([S1 S2] & HM & _). destruct (S2 n ax M) as (w & A & B & C). pose proof (S1 w ax A B) as E. rewrite C, M in E. unfold has_ax in E. destruct (rp_pm r w) as [[a s]|] eqn:EP; [|discriminate].
  destruct (axis_eqb_spec a ax) as [->|]; [|discriminate]. exists w, s. split; [apply HM; auto|auto].
Qed.
Lemma lrem_shorter u l : NoDup l -> In u l -> length (lrem u l) < length l.
Proof. intros N H. apply lrem_perm in H; auto. apply Permutation_length in H. cbn in H. lia. Qed.
Lemma spec_pm r r' u v g : rspec r' u = spec_apply g (rspec r v) -> rp_pm r' u = match rp_pm r v with Some (a, s) => Some (pauli_clifford a s g) | None => None end.
Proof. unfold rspec, spec_apply. intros [= _ _ E]. auto. Qed.
Definition good_remove (remove : rp -> nat -> sign -> option rp) (a : axis) : Prop :=
  forall r u s, inv r -> In u (rp_L r) -> mem u inp = false -> rp_pm r u = Some (a, s) -> exists r', remove r u s = Some r' /\ inv r' /\ length (rp_L r') < length (rp_L r).
Lemma good_z : good_remove (remove_z it inp) AZ.
Proof. intros r u s I Hu Iu HP. destruct (inv_remove_z r u s I Hu Iu HP) as (r' & E & I' & A & B). exists r'. split; auto. split; auto. rewrite A. apply lrem_shorter; auto. apply (inv_sets r I). Qed.
Lemma good_y : good_remove (remove_y it inp) AY.
Proof.
  intros r u s I Hu Iu HP. destruct (inv_lc r u I Hu Iu) as (r1 & E1 & I1 & A & B & C). unfold remove_y. rewrite E1. destruct (good_z r1 u s I1) as (r' & E & I' & H); auto.
  - rewrite A; auto.
  - rewrite (spec_pm _ _ _ _ _ C), HP. destruct s; reflexivity.
  - exists r'. rewrite A in H. auto.
Qed.
Lemma remove_x_ok r u v s : inv r -> In u (rp_L r) -> mem u inp = false -> mem v inp = false -> mem v (nb (rp_es r) u) = true -> rp_pm r u = Some (AX, s) ->
  exists r', remove_x it inp r u v s = Some r' /\ inv r' /\ length (rp_L r') < length (rp_L r).
Proof.
  intros I Hu Iu Iv Huv HP. destruct (inv_pivot r u v I Hu Iu Iv Huv) as (r1 & E1 & I1 & A & B & C1 & C2). unfold remove_x. rewrite E1. destruct (good_z r1 v s I1) as (r' & E & I' & H); auto.
  - rewrite A. eapply nb_in; [apply (inv_sets r I)|eauto].
  - rewrite (spec_pm _ _ _ _ _ C2), HP. destruct s; reflexivity.
  - exists r'. rewrite A in H. auto.
Qed.
Lemma drain_ok remove a : good_remove remove a -> forall k r, inv r -> length (rp_L r) <= k -> exists r', drain it remove a k r = Some r' /\ inv r' /\
  length (rp_L r') <= length (rp_L r) /\ is_empty (rp_sets r' a) = true /\ (r' = r \/ length (rp_L r') < length (rp_L r)).
Proof.
  intros G. induction k as [|k IH]; intros r I HK.
  - destruct (it (rp_sets r a)) as [|n l] eqn:EI.
    + exists r. cbn [drain]. rewrite EI. split; auto. split; auto. split; auto. split; auto. apply it_nil with (it := it); auto.
    + exfalso. assert (M : mem n (rp_sets r a) = true) by (apply (iter_In it); auto; rewrite EI; left; auto). destruct (set_node r n a I M) as (v & s & _ & Hv & _). destruct (rp_L r); [destruct Hv|cbn in HK; lia].
  - cbn [drain]. destruct (it (rp_sets r a)) as [|n l] eqn:EI.
    + exists r. split; auto. split; auto. split; auto. split; auto. apply it_nil with (it := it); auto.
    + assert (M : mem n (rp_sets r a) = true) by (apply (iter_In it); auto; rewrite EI; left; auto). destruct (set_node r n a I M) as (v & s & E1 & Hv & Iv & _ & HP). rewrite E1, HP.
      destruct (G r v s I Hv Iv HP) as (r1 & E & I1 & HL). rewrite E. destruct (IH r1 I1) as (r' & E' & I' & H1 & H2 & H3); [lia|]. exists r'. split; auto. split; auto. split; [lia|]. split; auto. right. lia.
Qed.
Lemma drain_z_y k : forall r r', drain it (remove_z it inp) AZ k r = Some r' -> forall n, mem n (rp_sets r' AY) = true -> mem n (rp_sets r AY) = true.
Proof.
  induction k as [|k IH]; intros r r'; cbn [drain]; destruct (it (rp_sets r AZ)) as [|n0 l]; try (intros [= <-]; auto); try discriminate.
  destruct (rp_map r n0) as [v|]; [|discriminate]. destruct (rp_pm r v) as [[a s]|]; [|discriminate]. destruct (remove_z it inp r v s) as [r1|] eqn:E; [|discriminate]. intros H n Hn. eapply remove_z_sets; eauto.
Qed.
Lemma yz_ok r : inv r -> exists r', remove_all_yz it inp (length (rp_L r)) r = Some r' /\ inv r' /\ length (rp_L r') <= length (rp_L r) /\ is_empty (rp_sets r' AY) = true /\ is_empty (rp_sets r' AZ) = true /\
  (is_empty (rp_sets r AZ) = true \/ length (rp_L r') < length (rp_L r)).
Proof.
  intros I. destruct (drain_ok _ AY good_y (length (rp_L r)) r I) as (r1 & E1 & I1 & A1 & B1 & C1); auto. destruct (drain_ok _ AZ good_z (length (rp_L r)) r1 I1 A1) as (r2 & E2 & I2 & A2 & B2 & C2).
  exists r2. unfold remove_all_yz. rewrite E1. split; auto. split; auto. split; [lia|]. split; [|split; auto].
  - apply is_empty_spec. apply nset_ext. intros n. rewrite mem_empty. destruct (mem n (rp_sets r2 AY)) eqn:M; auto. apply (drain_z_y _ _ _ E2) in M. rewrite (is_empty_mem _ B1) in M. discriminate.
  - destruct C1 as [->|C1]; [|right; lia]. destruct C2 as [->|C2]; [left; auto|right; lia].
Qed.
(** what try_x and try_pivot find *)
Lemma try_x_ok r : inv r -> forall l, (forall n, In n l -> mem n (rp_sets r AX) = true) -> exists r' b, try_x it inp r l = Some (r', b) /\ inv r' /\
  if b then length (rp_L r') < length (rp_L r) else r' = r /\ forall n v w, In n l -> rp_map r n = Some v -> mem w (nb (rp_es r) v) = true -> mem w inp = true \/ mem w (rp_out r) = true.
Proof.
  intros I. induction l as [|n l IH]; intros H.
  - exists r, false. do 2 (split; [auto|]). split; [auto|intros n v w []].
  - cbn [try_x]. destruct (set_node r n AX I (H n (or_introl eq_refl))) as (v & s & E1 & Hv & Iv & _ & HP). rewrite E1. set (N := sdiff (sdiff (nb (rp_es r) v) inp) (rp_out r)). destruct (it N) as [|w l'] eqn:EI.
    + destruct IH as (r' & b & E & I' & HB); [intros; apply H; right; auto|]. exists r', b. split; auto. split; auto. destruct b; auto. destruct HB as [-> HB]. split; auto. intros m x w [<-|Hm] Hx Hw; [|eauto].
      rewrite E1 in Hx. injection Hx as <-. assert (M : mem w N = false) by (apply is_empty_mem; apply it_nil with (it := it); auto). unfold N in M. rewrite !mem_sdiff, Hw in M. destruct (mem w inp), (mem w (rp_out r)); auto; discriminate.
    + assert (M : mem w N = true) by (apply (iter_In it); auto; rewrite EI; left; auto). unfold N in M. rewrite !mem_sdiff in M. rewrite HP. destruct (mem w (nb (rp_es r) v)) eqn:M1, (mem w inp) eqn:M2; try discriminate.
      destruct (remove_x_ok r v w s I Hv Iv M2 M1 HP) as (r' & E & I' & HL). rewrite E. exists r', true. auto.
Qed.
Lemma try_pivot_ok r : inv r -> forall l, (forall n, In n l -> mem n (rp_sets r AX) = true) -> exists r' b, try_pivot it inp r l = Some (r', b) /\ inv r' /\
  if b then length (rp_L r') = length (rp_L r) /\ is_empty (rp_sets r' AZ) = false else r' = r /\ forall n v w, In n l -> rp_map r n = Some v -> mem w (nb (rp_es r) v) = true -> mem w (rp_out r) = true -> mem w inp = true.
Proof.
  intros I. induction l as [|n l IH]; intros H.
  - exists r, false. do 2 (split; [auto|]). split; [auto|intros n v w []].
  - cbn [try_pivot]. destruct (set_node r n AX I (H n (or_introl eq_refl))) as (v & s & E1 & Hv & Iv & ES & HP). rewrite E1. set (N := sinter (nb (rp_es r) v) (sdiff (rp_out r) inp)). destruct (it N) as [|w l'] eqn:EI.
    + destruct IH as (r' & b & E & I' & HB); [intros; apply H; right; auto|]. exists r', b. split; auto. split; auto. destruct b; auto. destruct HB as [-> HB]. split; auto. intros m x w [<-|Hm] Hx Hw Ho; [|eauto].
      rewrite E1 in Hx. injection Hx as <-. assert (M : mem w N = false) by (apply is_empty_mem; apply it_nil with (it := it); auto). unfold N in M. rewrite mem_sinter, mem_sdiff, Hw, Ho in M. destruct (mem w inp); auto; discriminate.
    + assert (M : mem w N = true) by (apply (iter_In it); auto; rewrite EI; left; auto). unfold N in M. rewrite mem_sinter, mem_sdiff in M. destruct (mem w (nb (rp_es r) v)) eqn:M1, (mem w (rp_out r)), (mem w inp) eqn:M2; try discriminate.
      destruct (inv_pivot r v w I Hv Iv M2 M1) as (r' & E & I' & A & B & C1 & C2). rewrite E. exists r', true. split; auto. split; auto. split; [congruence|].
      destruct (is_empty (rp_sets r' AZ)) eqn:EE; auto. exfalso. destruct (inv_sets r' I') as ([S1 _] & _). specialize (S1 w AZ). rewrite (is_empty_mem _ EE) in S1. rewrite (spec_pm _ _ _ _ _ C2), HP in S1. destruct s; cbn in S1; symmetry in S1; apply diff_true_false; apply S1; auto; rewrite A; eapply nb_in; try apply (inv_sets r I); eauto.
Qed.
(** the state at the exit of the loop *)
Definition loop_exit (r : rp) : Prop := is_empty (rp_sets r AY) = true /\ is_empty (rp_sets r AZ) = true /\
  forall n v w, mem n (rp_sets r AX) = true -> rp_map r n = Some v -> mem w (nb (rp_es r) v) = true -> mem w inp = true.
Lemma loop_ok k : forall r, inv r -> 2 * length (rp_L r) + (if is_empty (rp_sets r AZ) then 1 else 0) < k -> exists r', rp_loop it inp k r = Some r' /\ inv r' /\ loop_exit r'.
Proof.
  induction k as [|k IH]; intros r I HK; [lia|]. cbn [rp_loop]. destruct (yz_ok r I) as (r1 & E1 & I1 & A1 & Y1 & Z1 & C1). rewrite E1.
  destruct (try_x_ok r1 I1 (it (rp_sets r1 AX))) as (r2 & b2 & E2 & I2 & H2); [intros n Hn; apply (iter_In it) in Hn; auto|]. rewrite E2. destruct b2.
  - apply IH; auto. destruct (is_empty (rp_sets r2 AZ)), (is_empty (rp_sets r AZ)); lia.
  - destruct H2 as [-> H2]. destruct (try_pivot_ok r1 I1 (it (rp_sets r1 AX))) as (r3 & b3 & E3 & I3 & H3); [intros n Hn; apply (iter_In it) in Hn; auto|]. rewrite E3. destruct b3.
    + destruct H3 as [H3 H4]. apply IH; auto. rewrite H3, H4. destruct (is_empty (rp_sets r AZ)); [lia|]. destruct C1 as [C1|C1]; [discriminate|lia].
    + destruct H3 as [-> H3]. exists r1. split; auto. split; auto. split; auto. split; auto. intros n v w Hn Hv Hw. assert (Hn' : In n (it (rp_sets r1 AX))) by (apply (iter_In it); auto). destruct (H2 n v w Hn' Hv Hw); eauto.
Qed.

(** * Isolated nodes *)
Lemma iso_ops L es u V w : NoDup L -> es_in L es -> es_ok es -> In u L -> is_empty (nb es u) = true -> exists c, forall psi, indep u psi ->
  den (gops L es V ++ [OMeas w u]) psi = cscale c (den (gops (lrem u L) (del es u) V) psi).
Proof.
  intros NL EI EO Hu E. set (w1 := vmul (mdag (clifford_mat (V u))) w). set (F := fun n => clifford_mat (V n)).
  assert (S1 : gops L es V ++ [OMeas w u] ≈ (cz_ops es ++ [OMeas w1 u]) ++ layer L (fupd F u mid)).
  { unfold gops, clayer. fold F. rewrite (layer_split_r _ F u NL Hu). rewrite <- !app_assoc. apply leq_app_l. cbn [app].
    transitivity (layer L (fupd F u mid) ++ [OMeas w1 u]); [apply leq_app_l; apply (app1_meas (F u) w u)|]. symmetry. apply layer_comm. intros k _ [<-|[]]. apply fupd_same. }
  assert (S2 : layer L (fupd F u mid) ≈ clayer (lrem u L) V).
  { rewrite <- (layer_weaken (lrem u L) L (fupd F u mid)); auto using lrem_NoDup.
    - unfold clayer. apply layer_ext. intros n Hn. apply lrem_in in Hn. rewrite fupd_other by tauto. apply meqp_refl.
    - intros n Hn. apply lrem_in in Hn. tauto.
    - intros n Hn Hn'. rewrite lrem_in in Hn'. assert (n = u) as -> by (destruct (Nat.eq_dec n u); tauto). apply fupd_same. }
  rewrite S2 in S1. destruct S1 as (c & Hc & S1). exists (c * amp w1)%C. intros psi Hp. rewrite S1. unfold gops. rewrite !den_app.
  destruct (iso_base es u psi EO Hp E) as [I1 I2].
  assert (I3 : den [OMeas w1 u] (den (cz_ops es) psi) = cscale (amp w1) (den (cz_ops (del es u)) psi)).
  { rewrite <- I1. cbn [den]. extensionality f. unfold app_op, cscale, amp. rewrite !I2. ring. }
  rewrite I3, den_scale, cscale_cscale. auto.
Qed.
(** the final invariant: [J] are the isolated nodes that have been removed *)
Definition jmeas (w : nat -> vec2) (J : list nat) : list op := map (fun j => OMeas (w j) j) J.
Definition sfin (eo : list (nat * nat)) (D : nat -> clifford) (r : rp) (K J Lo : list nat) : Prop :=
  Permutation (K ++ J ++ Lo) L0 /\ (forall n, In n Lo <-> exists v, In v (rp_L r) /\ rp_src r v = n) /\ (forall k, In k K -> mem k inp = false /\ P0 k <> None) /\ (forall j, In j J -> mem j inp = false /\ ~ In j out0) /\
  forall w, exists c, (J = [] -> c <> C0) /\ forall psi, Pin psi -> den (cz_ops E0 ++ kmeas K ++ jmeas w J) psi = cscale c (den (gops Lo eo D) psi).
Lemma sinv_sfin eo D r K Lo : sinv eo D r K Lo -> sfin eo D r K [] Lo.
Proof.
  intros (P & H1 & H2 & (c & Hc & Q)). split; [exact P|]. split; auto. split; auto. split; [intros j []|]. intros w. exists c. split; [intros _ E; rewrite E in Hc; unfold phase in Hc; cbn in Hc; unfold Cnorm2 in Hc; cbn in Hc; lra|].
  intros psi Hp. cbn [jmeas map]. rewrite app_nil_r. auto.
Qed.
Lemma remove_isolated_one eo D r K J Lo u : rinv eo D r -> sfin eo D r K J Lo -> In u (rp_L r) -> mem u inp = false -> mem u (rp_out r) = false -> is_empty (nb (rp_es r) u) = true ->
  exists r', remove_node r u = Some r' /\ rinv (del eo (rp_src r u)) D r' /\ sfin (del eo (rp_src r u)) D r' K (J ++ [rp_src r u]) (lrem (rp_src r u) Lo) /\
    rp_L r' = lrem u (rp_L r) /\ rp_out r' = rp_out r /\ rp_es r' = del (rp_es r) u /\ rp_src r' = rp_src r /\ forall w, rspec r' w = rspec r w.
Proof.
  intros I (P & H1 & H2 & H3 & Q) Hu Iu Ou Eu. set (x := rp_src r u).
  assert (NO : ~ In x out0). { intros H. assert (M : mem u (rp_out r) = true) by (apply (ri_out _ _ _ I); auto). congruence. }
  destruct (remove_node_ok eo D r u I Hu Iu NO) as (r' & E & I' & A & B & C & F & G). exists r'. split; auto. split; auto. split; [|do 4 (split; [auto|]); auto].
  assert (NLo : NoDup Lo). { assert (N : NoDup (K ++ J ++ Lo)) by (eapply Permutation_NoDup; [apply Permutation_sym; eauto|auto]). rewrite app_assoc in N. clear - N. induction (K ++ J) as [|k l IH]; auto. inversion N; auto. }
  assert (EI : es_in Lo eo). { intros e He. apply (ri_eoi _ _ _ I) in He. rewrite !in_map_iff in He. rewrite !H1. destruct He as [(a & <- & Ha) (b & <- & Hb)]. split; eauto. }
  assert (HX : In x Lo) by (apply H1; unfold x; eauto). assert (Ix : mem x inp = false) by (eapply ri_noninp; eauto).
  assert (Ex : is_empty (nb eo x) = true).
  { apply is_empty_spec, nset_ext. intros n. rewrite mem_empty. destruct (mem n (nb eo x)) eqn:M; auto. assert (Hn : In n Lo) by (eapply nb_in; eauto). apply H1 in Hn. destruct Hn as (v & Hv & <-). unfold x in M. rewrite (ri_nb _ _ _ I) in M. rewrite (is_empty_mem _ Eu) in M. discriminate. }
  split; [|split; [|split; [auto|split]]].
  - rewrite <- app_assoc. eapply Permutation_trans; [|exact P]. do 2 apply Permutation_app_head. cbn [app]. apply lrem_perm; auto.
  - intros n. rewrite lrem_in, H1, A, B. split.
    + intros [(v & V1 & V2) N]. exists v. rewrite lrem_in. split; auto. split; auto. intros ->. auto.
    + intros (v & V1 & V2). apply lrem_in in V1. split; [exists v; tauto|]. intros ->. apply (ri_inj _ _ _ I) in V2. tauto.
  - intros j Hj. apply in_app_or in Hj. destruct Hj as [Hj|[<-|[]]]; auto.
  - intros w. destruct (Q w) as (c & _ & Qw). destruct (iso_ops Lo eo x D (w x) NLo EI (ri_eo _ _ _ I) HX Ex) as (c' & Q').
    exists (c * c')%C. split; [intros EJ; destruct J; discriminate|]. intros psi Hp. unfold jmeas. rewrite map_app. cbn [map]. rewrite !app_assoc, den_app. fold (jmeas w J). rewrite <- app_assoc. rewrite Qw by auto. rewrite den_scale, <- den_app. rewrite Q', cscale_cscale; auto.
    apply Hp; auto. unfold x. apply (ri_srcL _ _ _ I), (ri_sub _ _ _ I), Hu.
Qed.
Lemma remove_nodes_ok l : NoDup l -> forall eo D r K J Lo, rinv eo D r -> sfin eo D r K J Lo -> (forall u, In u l -> In u (rp_L r) /\ mem u inp = false /\ mem u (rp_out r) = false /\ is_empty (nb (rp_es r) u) = true) ->
  exists r' eo' J' Lo', remove_nodes r l = Some r' /\ rinv eo' D r' /\ sfin eo' D r' K J' Lo' /\ (forall n, In n (rp_L r') <-> In n (rp_L r) /\ ~ In n l) /\ (l = [] -> r' = r /\ J' = J) /\ rp_src r' = rp_src r /\
    (forall w, rspec r' w = rspec r w) /\ (forall a b, In a (rp_L r') -> In b (rp_L r') -> mem b (nb (rp_es r') a) = mem b (nb (rp_es r) a)).
Proof.
  induction l as [|u l IH]; intros ND eo D r K J Lo I S H.
  - exists r, eo, J, Lo. cbn [remove_nodes]. do 3 (split; [auto|]). split; [cbn; tauto|]. auto.
  - inversion ND as [|? ? N1 N2]; subst. destruct (H u) as (A1 & A2 & A3 & A4); [left; auto|]. cbn [remove_nodes]. destruct (remove_isolated_one eo D r K J Lo u I S A1 A2 A3 A4) as (r1 & E & I1 & S1 & B1 & B2 & B3 & B4 & B5). rewrite E.
    destruct (IH N2 _ _ _ _ _ _ I1 S1) as (r' & eo' & J' & Lo' & E' & I' & S' & C1 & C2 & C3 & C4 & C5).
    { intros w Hw. destruct (H w) as (X1 & X2 & X3 & X4); [right; auto|]. rewrite B1, B2, B3, lrem_in. split; [split; auto; intros ->; auto|]. split; auto. split; auto. apply is_empty_spec, nset_ext. intros n. rewrite mem_empty, nb_del, (is_empty_mem _ X4). auto. }
    exists r', eo', J', Lo'. split; auto. split; auto. split; auto. split; [|split; [discriminate|split; [congruence|split]]].
    + intros n. rewrite C1, B1, lrem_in. cbn [In]. split; [intros [[X Y] Z]; split; auto; intros [->|K1]; auto|]. intros [X Y]. split; [split; auto|auto]; intros Z; apply Y; auto.
    + intros w. rewrite C4, B5. auto.
    + intros a b Ha Hb. rewrite C5 by auto. rewrite B3, nb_del. apply C1 in Ha, Hb. rewrite B1 in Ha, Hb. destruct Ha as [Ha _], Hb as [Hb _]. apply lrem_in in Ha, Hb. rewrite !(proj2 (Nat.eqb_neq _ u)) by tauto. rewrite !andb_true_r. auto.
Qed.
End Inv.
