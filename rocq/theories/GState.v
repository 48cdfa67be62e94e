(** Graph states as amplitude functions: stabilisers, local complementation,
    pivoting and removal of a node (used for graphsim.py and
    remove_pauli_measurements.py). *)
From Coq Require Import Reals Lra Arith List Bool Lia Permutation Setoid Morphisms FunctionalExtensionality.
From Verif Require Import Cplx Mat2 Fundamentals CliffordDb Clifford NSet Measure QState Pattern Layer Standardize OpenGraph FlowSem FlowWF.
Import ListNotations.
Local Arguments app_op : simpl never.

(** * Sets of edges *)
Definition ein (e : nat * nat) (l : list (nat * nat)) : bool := existsb (fun x => edge_eqb (edge_norm e) (edge_norm x)) l.
Lemma ein_spec e l : ein e l = true <-> In (edge_norm e) (map edge_norm l).
Proof.
  unfold ein. rewrite existsb_exists, in_map_iff. split; intros (x & A & B); exists x.
  - rewrite edge_eqb_eq in B. auto.
  - rewrite edge_eqb_eq. auto.
Qed.
Lemma edge_norm_inj e x : edge_norm e = edge_norm x -> e = x \/ e = (snd x, fst x).
Proof. destruct e as [a b], x as [c d]. unfold edge_norm. cbn. intros [= H1 H2]. assert (a = c /\ b = d \/ a = d /\ b = c) as [[-> ->]|[-> ->]] by lia; auto. Qed.
Lemma ein_adj V es u v : ein (u, v) es = mem v (nbh (Graph V es) u).
Proof.
  apply eq_true_iff_eq. rewrite ein_spec, mem_nbh, in_map_iff. unfold adjacent. cbn [g_edges]. split.
  - intros (x & E & H). symmetry in E. apply edge_norm_inj in E. destruct E as [-> |E]; auto. right. destruct x as [c d]. cbn in E. injection E as -> ->. auto.
  - intros [H|H]; eexists; (split; [|exact H]); auto. apply edge_norm_swap.
Qed.
(** symmetric difference of two sets of edges: [remove_edges_from(existing)]
    then [add_edges_from(all_pairs - existing)] *)
Definition toggle_edges (es P : list (nat * nat)) : list (nat * nat) :=
  filter (fun e => negb (ein e P)) es ++ filter (fun p => negb (ein p es)) P.
Lemma ein_app e a b : ein e (a ++ b) = ein e a || ein e b.
Proof. apply existsb_app. Qed.
Lemma ein_norm e e' l : edge_norm e = edge_norm e' -> ein e l = ein e' l.
Proof. unfold ein. intros ->. auto. Qed.
Lemma ein_filter f e l : (forall a b, edge_norm a = edge_norm b -> f a = f b) -> ein e (filter f l) = f e && ein e l.
Proof.
  intros H. apply eq_true_iff_eq. rewrite andb_true_iff, !ein_spec, !in_map_iff. split.
  - intros (x & E & K). apply filter_In in K. split; [rewrite <- (H x e E); tauto|]. exists x. tauto.
  - intros [A (x & E & K)]. exists x. rewrite filter_In. split; auto. split; auto. rewrite (H x e E). auto.
Qed.
Lemma ein_toggle e es P : ein e (toggle_edges es P) = xorb (ein e es) (ein e P).
Proof.
  unfold toggle_edges. rewrite ein_app, !ein_filter by (intros a b E; f_equal; apply ein_norm; auto). destruct (ein e es), (ein e P); auto.
Qed.
Lemma NoDup_filter_map {A B} (g : A -> B) f l : NoDup (map g l) -> NoDup (map g (filter f l)).
Proof.
  induction l as [|a l IH]; simpl; auto. intros H. inversion H; subst. destruct (f a); simpl; auto. constructor; auto. intros K. apply in_map_iff in K. destruct K as (x & E & K). apply filter_In in K.
  apply H2. rewrite <- E. apply in_map. tauto.
Qed.
Definition es_ok (es : list (nat * nat)) : Prop := NoDup (map edge_norm es) /\ forall e, In e es -> fst e <> snd e.
Lemma toggle_ok es P : es_ok es -> es_ok P -> es_ok (toggle_edges es P).
Proof.
  intros [A B] [C D]. unfold toggle_edges. split.
  - rewrite map_app. apply NoDup_app; try apply NoDup_filter_map; auto. intros x H K. apply in_map_iff in H, K. destruct H as (a & <- & H), K as (b & E & K).
    apply filter_In in H, K. destruct H as [_ H]. apply negb_true_iff, not_true_iff_false in H. apply H. apply ein_spec. rewrite <- E. apply in_map. tauto.
  - intros e H. apply in_app_or in H. destruct H as [H|H]; apply filter_In in H; [apply B|apply D]; tauto.
Qed.
Lemma toggle_in es P e : In e (toggle_edges es P) -> In e es \/ In e P.
Proof. unfold toggle_edges. rewrite in_app_iff, !filter_In. tauto. Qed.

(** * The phase of a graph *)
Definition gx {A} (g : A -> bool) (l : list A) : bool := fold_right (fun a b => xorb (g a) b) false l.
Lemma gx_app {A} (g : A -> bool) a b : gx g (a ++ b) = xorb (gx g a) (gx g b).
Proof. induction a as [|x a IH]; simpl; [destruct (gx g b); auto|]. rewrite IH. destruct (g x), (gx g a), (gx g b); auto. Qed.
Lemma gx_perm {A} (g : A -> bool) l l' : Permutation l l' -> gx g l = gx g l'.
Proof. induction 1 as [| |x y l|]; simpl; try congruence. destruct (g x), (g y), (gx g l); auto. Qed.
Lemma gx_map {A B} (g : B -> bool) (h : A -> B) l : gx g (map h l) = gx (fun a => g (h a)) l.
Proof. induction l; simpl; auto. rewrite IHl; auto. Qed.
Lemma gx_ext {A} (g h : A -> bool) l : (forall a, In a l -> g a = h a) -> gx g l = gx h l.
Proof. induction l; simpl; auto. intros H. rewrite H, IHl; auto. Qed.
Lemma gx_filter {A} (g f : A -> bool) l : gx g l = xorb (gx g (filter f l)) (gx g (filter (fun a => negb (f a)) l)).
Proof. induction l as [|a l IH]; auto. simpl. destruct (f a); simpl; rewrite IH; destruct (g a), (gx g (filter f l)), (gx g (filter (fun a => negb (f a)) l)); auto. Qed.
Definition eb (f : asg) (e : nat * nat) : bool := f (fst e) && f (snd e).
Definition Qf (es : list (nat * nat)) (f : asg) : bool := gx (eb f) es.
Lemma eb_norm f e : eb f (edge_norm e) = eb f e.
Proof. destruct e as [a b]. unfold eb, edge_norm. cbn. destruct (Nat.le_ge_cases a b); [rewrite Nat.min_l, Nat.max_r by lia; auto|]. rewrite Nat.min_r, Nat.max_l by lia. apply andb_comm. Qed.
Lemma Qf_norm es f : Qf es f = gx (eb f) (map edge_norm es).
Proof. unfold Qf. rewrite gx_map. apply gx_ext. intros; rewrite eb_norm; auto. Qed.
Lemma Qf_same es es' f : NoDup (map edge_norm es) -> NoDup (map edge_norm es') -> (forall e, ein e es = ein e es') -> Qf es f = Qf es' f.
Proof.
  intros A B H. rewrite !Qf_norm. apply gx_perm. apply NoDup_Permutation; auto. intros x.
  assert (K : forall l, In x (map edge_norm l) <-> x = edge_norm x /\ ein x l = true).
  { intros l. rewrite ein_spec. split.
    - intros K. apply in_map_iff in K. destruct K as (y & <- & K). assert (E : edge_norm (edge_norm y) = edge_norm y) by (unfold edge_norm; cbn; f_equal; lia). rewrite E. split; auto. apply in_map; auto.
    - intros [E K]. rewrite <- E in K. auto. }
  rewrite !K, H. tauto.
Qed.
Lemma Qf_toggle es P f : NoDup (map edge_norm es) -> NoDup (map edge_norm P) -> Qf (toggle_edges es P) f = xorb (Qf es f) (Qf P f).
Proof.
  intros A B. unfold toggle_edges, Qf. rewrite gx_app, (gx_filter (eb f) (fun e => ein e P) es), (gx_filter (eb f) (fun p => ein p es) P).
  fold (Qf (filter (fun e => ein e P) es) f) (Qf (filter (fun p => ein p es) P) f). rewrite (Qf_same (filter (fun e => ein e P) es) (filter (fun p => ein p es) P) f).
  - set (q := Qf _ _). destruct q, (gx (eb f) _), (gx (eb f) _); auto.
  - apply NoDup_filter_map; auto.
  - apply NoDup_filter_map; auto.
  - intros e. rewrite !ein_filter by (intros; apply ein_norm; auto). apply andb_comm.
Qed.
Lemma den_cz es psi : den (cz_ops es) psi = fun f => (sgn (Qf es f) * psi f)%C.
Proof.
  revert psi. induction es as [|e es IH]; intros psi; extensionality f.
  - cbn. ring.
  - cbn [cz_ops map den]. fold (cz_ops es). rewrite IH. unfold app_op, Qf. cbn [gx fold_right]. fold (gx (eb f) es). unfold eb at 2.
    destruct (f (fst e) && f (snd e)), (gx (eb f) es); cbn; ring.
Qed.
(** dependence on one node *)
Lemma oddp_nbh V es f u : es_ok es -> oddp es f u = parity f (nbh (Graph V es) u).
Proof.
  intros [ND HS]. induction es as [|[a b] es IH].
  - cbn. symmetry. apply (parity_empty f).
  - inversion ND; subst. cbn [oddp fold_right fst snd]. fold (oddp es f u). rewrite IH; auto; [|intros; apply HS; right; auto].
    assert (AB : a <> b) by (apply (HS (a, b)); left; auto).
    assert (E : nbh (Graph V ((a, b) :: es)) u = sxor (sxor (if (u =? b)%nat then sing a else sempty) (if (u =? a)%nat then sing b else sempty)) (nbh (Graph V es) u)).
    { apply nset_ext. intros n. rewrite nbh_cons by auto. rewrite !mem_sxor. destruct (u =? b)%nat, (u =? a)%nat; rewrite ?mem_sing, ?mem_empty, ?andb_true_r, ?andb_false_r; auto. }
    rewrite E, !parity_sxor. f_equal. unfold czz. destruct (u =? b)%nat, (u =? a)%nat; rewrite ?parity_sing, ?parity_empty, ?xorb_false_l, ?xorb_false_r; cbn; auto. all: try (destruct (f a); auto); try (destruct (f b); auto).
Qed.
Lemma Qf_upd es f u b : es_ok es -> Qf es (upd f u b) = xorb (Qf es (upd f u false)) (b && oddp es f u).
Proof.
  intros [_ HS]. induction es as [|[c d] es IH]; [cbn; destruct b; auto|]. unfold Qf in *. cbn [gx fold_right oddp fst snd]. fold (gx (eb (upd f u b)) es) (gx (eb (upd f u false)) es) (oddp es f u).
  rewrite IH by (intros; apply HS; right; auto). assert (CD : c <> d) by (apply (HS (c, d)); left; auto). generalize (gx (eb (upd f u false)) es), (oddp es f u). intros G0 G1. unfold eb, czz. cbn [fst snd].
  destruct (Nat.eqb_spec u c) as [E1|E1], (Nat.eqb_spec u d) as [E2|E2]; subst; try congruence; rewrite ?upd_same, ?(upd_other f _ _ c), ?(upd_other f _ _ d) by congruence; cbn;
   destruct b, G0, G1; cbn; try (destruct (f c)); try (destruct (f d)); try reflexivity.
Qed.

(** * Diagonal layers *)
Definition sph (l : list nat) (f : asg) : C := fold_right (fun n c => Cmul (if f n then Ci else C1) c) C1 l.
Lemma den_layer_diag l D psi : (forall n, In n l -> diagonal (D n)) ->
  den (layer l D) psi = fun f => (fold_right (fun n c => Cmul (mget (D n) (f n) (f n)) c) C1 l * psi f)%C.
Proof.
  revert psi. induction l as [|n l IH]; intros psi H; extensionality f; [cbn; ring|]. cbn [layer map den fold_right]. fold (layer l D). rewrite IH by (intros; apply H; right; auto). unfold app_op.
  destruct (H n) as [A B]; [left; auto|]. destruct (f n) eqn:E; cbn [mget]; rewrite ?A, ?B.
  - rewrite <- E at 1. rewrite upd_id. ring.
  - rewrite <- E at 1. rewrite upd_id. ring.
Qed.
Lemma den_layer_S l psi : den (layer l (fun _ => mS)) psi = fun f => (sph l f * psi f)%C.
Proof.
  rewrite den_layer_diag by (intros; split; reflexivity). extensionality f. f_equal. unfold sph. induction l as [|n l IH]; auto. cbn [fold_right]. rewrite IH. f_equal. destruct (f n); reflexivity.
Qed.
Lemma den_layer_Z l psi : den (layer l (fun _ => mZ)) psi = fun f => (sgn (xorsum l f) * psi f)%C.
Proof.
  rewrite den_layer_diag by (intros; split; reflexivity). extensionality f. f_equal. induction l as [|n l IH]; auto. cbn [fold_right xorsum]. rewrite IH. fold (xorsum l f). destruct (f n), (xorsum l f); cbn; ring.
Qed.
(** itertools.combinations(l, 2) *)
Fixpoint pairs (l : list nat) : list (nat * nat) := match l with [] => [] | a :: l' => map (fun b => (a, b)) l' ++ pairs l' end.
Lemma pairs_in l e : NoDup l -> In e (pairs l) -> In (fst e) l /\ In (snd e) l /\ fst e <> snd e.
Proof.
  induction l as [|a l IH]; [intros _ []|]. intros ND. inversion ND; subst. simpl. rewrite in_app_iff, in_map_iff. intros [(b & <- & H)|H].
  - cbn. split; auto. split; auto. intros ->. auto.
  - destruct (IH H2 H) as (A & B & D). auto.
Qed.
Lemma pairs_ein l u v : NoDup l -> ein (u, v) (pairs l) = true <-> In u l /\ In v l /\ u <> v.
Proof.
  intros ND. rewrite ein_spec, in_map_iff. split.
  - intros (x & E & H). apply pairs_in in H; auto. symmetry in E. apply edge_norm_inj in E. destruct E as [<-|E]; [cbn in H; tauto|]. destruct x as [c d]. cbn in E, H. injection E as -> ->. intuition.
  - intros (A & B & D). induction l as [|a l IH]; [destruct A|]. inversion ND; subst. destruct A as [->|A], B as [->|B]; [congruence| | |].
    + exists (u, v). split; auto. simpl. apply in_or_app. left. apply in_map_iff. eauto.
    + exists (v, u). split; [apply edge_norm_swap|]. simpl. apply in_or_app. left. apply in_map_iff. eauto.
    + destruct IH as (x & E & H); auto. exists x. split; auto. simpl. apply in_or_app; auto.
Qed.
Lemma pairs_ok l : NoDup l -> es_ok (pairs l).
Proof.
  intros ND. split; [|intros e H; apply (pairs_in l e ND) in H; tauto]. induction l as [|a l IH]; [constructor|]. inversion ND; subst. simpl. rewrite map_app, map_map. apply NoDup_app; auto.
  - clear IH. assert (G : forall l0, NoDup l0 -> ~ In a l0 -> NoDup (map (fun b => edge_norm (a, b)) l0)).
    { induction l0 as [|b l0 IH0]; [constructor|]. intros N0 N1. inversion N0; subst. constructor; [|apply IH0; auto; intros K; apply N1; right; auto]. intros K. apply in_map_iff in K. destruct K as (c & E & K). apply edge_norm_inj in E.
      destruct E as [E|E]; [injection E as ->; auto|]. cbn in E. injection E as <- <-. apply N1. left; auto. }
    auto.
  - intros x K K'. apply in_map_iff in K. destruct K as (b & <- & K). apply in_map_iff in K'. destruct K' as (e & E & K'). apply pairs_in in K'; auto. apply edge_norm_inj in E. destruct E as [->|E]; [cbn in K'; tauto|]. destruct e; cbn in *. injection E as -> ->. tauto.
Qed.
Lemma pairs_phase l f : (sgn (Qf (pairs l) f) * sph l f)%C = if xorsum l f then Ci else C1.
Proof.
  induction l as [|a l IH]; [cbn; ring|]. unfold Qf in *. cbn [pairs sph fold_right xorsum]. fold (sph l f) (xorsum l f). rewrite gx_app, gx_map.
  assert (E : gx (fun b => eb f (a, b)) l = f a && xorsum l f).
  { clear IH. induction l as [|b l IH]; [cbn; rewrite andb_false_r; auto|]. cbn [gx fold_right xorsum]. fold (gx (fun b => eb f (a, b)) l) (xorsum l f). rewrite IH. unfold eb. cbn [fst snd]. destruct (f a), (f b); auto. }
  rewrite E. destruct (f a); cbn [andb xorb].
  - transitivity ((sgn (xorsum l f) * Ci) * (sgn (gx (eb f) (pairs l)) * sph l f))%C; [destruct (xorsum l f), (gx (eb f) (pairs l)); cbn [sgn xorb]; ring|]. rewrite IH. destruct (xorsum l f); cbn [sgn negb]; [|ring]. transitivity (- (Ci * Ci))%C; [ring|]. rewrite Ci_sq. ring.
  - transitivity (sgn (gx (eb f) (pairs l)) * sph l f)%C; [destruct (gx (eb f) (pairs l)); ring|]. rewrite IH. destruct (xorsum l f); auto.
Qed.
Lemma Qf_upd_notin es f u b : (forall e, In e es -> fst e <> u /\ snd e <> u) -> Qf es (upd f u b) = Qf es f.
Proof. intros H. unfold Qf. apply gx_ext. intros e He. unfold eb. destruct (H e He). rewrite !upd_other; auto. Qed.
Lemma sph_upd l f u b : ~ In u l -> sph l (upd f u b) = sph l f.
Proof. intros H. unfold sph. induction l as [|a l IH]; auto. cbn [fold_right]. rewrite IH by (intros K; apply H; right; auto). rewrite upd_other; auto. intros ->. apply H; left; auto. Qed.
Lemma xorsum_upd l f u b : ~ In u l -> xorsum l (upd f u b) = xorsum l f.
Proof. intros H. apply xorsum_ext. intros n Hn. apply upd_other. intros ->. auto. Qed.
Lemma sgn_xor a b : sgn (xorb a b) = (sgn a * sgn b)%C.
Proof. destruct a, b; cbn; ring. Qed.

(** * Identities *)
Section Ident.
Variables (es : list (nat * nat)) (u : nat) (N : list nat) (psi : state).
Hypotheses (EO : es_ok es) (IU : indep u psi) (NN : NoDup N) (HN : forall n, In n N <-> mem n (nbh (Graph [] es) u) = true).
Lemma N_odd f : oddp es f u = xorsum N f.
Proof.
  rewrite (oddp_nbh [] es f u EO). unfold parity. apply xorsum_perm. apply NoDup_Permutation; auto using elems_NoDup. intros x. rewrite elems_spec, HN. tauto.
Qed.
Lemma N_not : ~ In u N.
Proof. rewrite HN, mem_nbh. unfold adjacent. cbn [g_edges]. intros [H|H]; apply (proj2 EO) in H; cbn in H; auto. Qed.
Lemma graph_at f b : den (cz_ops es) psi (upd f u b) = (sgn (Qf es (upd f u false)) * sgn (b && xorsum N f) * psi f)%C.
Proof. rewrite den_cz, Qf_upd, N_odd, sgn_xor, IU by auto. auto. Qed.
Lemma graph_self f : den (cz_ops es) psi f = (sgn (Qf es (upd f u false)) * sgn (f u && xorsum N f) * psi f)%C.
Proof. rewrite <- (upd_id f u) at 1. apply graph_at. Qed.
(** the stabiliser of node [u] *)
Lemma stab_base : den (cz_ops es) psi = app_op (OApp1 mX u) (den (layer N (fun _ => mZ)) (den (cz_ops es) psi)).
Proof.
  rewrite den_layer_Z. extensionality f. unfold app_op. rewrite graph_self, !graph_at, !xorsum_upd by apply N_not. destruct (f u), (xorsum N f); cbn; ring.
Qed.
(** local complementation about [u] *)
Lemma lc_base : den (cz_ops es) psi =
  app_op (OApp1 (mmul mH (mmul mSdg mH)) u) (den (layer N (fun _ => mS)) (den (cz_ops (toggle_edges es (pairs N))) psi)).
Proof.
  rewrite den_layer_S. extensionality f. pose proof (pairs_ok N NN) as PO.
  assert (Q : forall b, den (cz_ops (toggle_edges es (pairs N))) psi (upd f u b) = (sgn (Qf (pairs N) f) * den (cz_ops es) psi (upd f u b))%C).
  { intros b. rewrite !den_cz, Qf_toggle by (apply EO || apply PO). rewrite sgn_xor, (Qf_upd_notin (pairs N)); [ring|]. intros e He. apply pairs_in in He; auto. pose proof N_not. split; intros E; rewrite E in He; tauto. }
  unfold app_op. rewrite !Q, !sph_upd by apply N_not. rewrite graph_self, !graph_at.
  replace (mget (mmul mH (mmul mSdg mH)) (f u) false) with (mkC (1/2) (if f u then 1/2 else -1/2)). 2:{ assert (S2 : (/ sqrt 2 * / sqrt 2 = / 2)%R) by (apply sqrt_mul_inv; lra). destruct (f u); unfold mH, mSdg; apply C_eq; cbn; nra. }
  replace (mget (mmul mH (mmul mSdg mH)) (f u) true) with (mkC (1/2) (if f u then -1/2 else 1/2)). 2:{ assert (S2 : (/ sqrt 2 * / sqrt 2 = / 2)%R) by (apply sqrt_mul_inv; lra). destruct (f u); unfold mH, mSdg; apply C_eq; cbn; nra. }
  set (q := sgn (Qf es (upd f u false))). pose proof (pairs_phase N f) as PP.
  transitivity ((sgn (Qf (pairs N) f) * sph N f) * q * psi f * (mkC (1 / 2) (if f u then 1 / 2 else -1 / 2) + mkC (1 / 2) (if f u then -1 / 2 else 1 / 2) * sgn (xorsum N f)))%C.
  2:{ destruct (xorsum N f); cbn [andb sgn]; ring. }
  rewrite PP. transitivity (q * psi f * sgn (f u && xorsum N f))%C; [ring|].
  assert (K : sgn (f u && xorsum N f) = ((if xorsum N f then Ci else C1) * (mkC (1 / 2) (if f u then 1 / 2 else -1 / 2) + mkC (1 / 2) (if f u then -1 / 2 else 1 / 2) * sgn (xorsum N f)))%C).
  { destruct (f u), (xorsum N f); cbn [andb sgn]; apply C_eq; cbn; field. }
  rewrite K. ring.
Qed.
End Ident.

(** * Decorated graph states *)
(** the graph with edges [es], then the Clifford gate [V n] on every node of [L] *)
Definition clayer (L : list nat) (V : nat -> clifford) : list op := layer L (fun n => clifford_mat (V n)).
Definition gops (L : list nat) (es : list (nat * nat)) (V : nat -> clifford) : list op := cz_ops es ++ clayer L V.
Definition vmulc (V D : nat -> clifford) : nat -> clifford := fun n => clifford_mul (V n) (D n).
(** [b] on [u], [a] on the nodes of [N] *)
Definition dvec (u : nat) (N : nset) (b a : clifford) : nat -> clifford := fun n => if (n =? u)%nat then b else if mem n N then a else K0.
Lemma clayer_fuse L V D : NoDup L -> clayer L D ++ clayer L V ≈ clayer L (vmulc V D).
Proof. intros H. unfold clayer. rewrite layer_fuse by auto. apply layer_ext. intros n _. apply clifford_mul_mat. Qed.
Lemma clayer_ext L V V' : (forall n, In n L -> V n = V' n) -> clayer L V = clayer L V'.
Proof. intros H. apply layer_eq. intros n Hn. rewrite H; auto. Qed.
Lemma gops_ext L es V V' : (forall n, In n L -> V n = V' n) -> gops L es V = gops L es V'.
Proof. intros H. unfold gops. rewrite (clayer_ext L V V'); auto. Qed.
Lemma gops_of P L es es' V D : NoDup L -> leq_on P (cz_ops es) (cz_ops es' ++ clayer L D) -> leq_on P (gops L es V) (gops L es' (vmulc V D)).
Proof.
  intros ND H. unfold gops. eapply leq_on_trans; [apply leq_on_app; [exact H|reflexivity]|]. apply leq_leq_on. rewrite <- app_assoc. apply leq_app_l, clayer_fuse; auto.
Qed.
Lemma dvec_ops L u Ns N a b U : NoDup L -> In u L -> NoDup N -> (forall n, In n N <-> mem n Ns = true) -> (forall n, In n N -> In n L) -> ~ In u N -> clifford_mat b ~= U ->
  layer N (fun _ => clifford_mat a) ++ [OApp1 U u] ≈ clayer L (dvec u Ns b a).
Proof.
  intros NL Hu NN HN NsL Nu E. set (F := fun n => if mem n Ns then clifford_mat a else mid).
  assert (E1 : layer N (fun _ => clifford_mat a) = layer N F). { apply layer_eq. intros n Hn. unfold F. apply HN in Hn. rewrite Hn. auto. }
  rewrite E1, (layer_weaken N L F); auto.
  - rewrite layer_absorb_r by auto. apply layer_ext. intros n Hn. unfold fupd, dvec, F. destruct (Nat.eqb_spec n u) as [->|Q].
    + destruct (mem u Ns) eqn:M; [exfalso; apply Nu, HN; auto|]. rewrite mmul_1_r. apply meqp_sym; auto.
    + destruct (mem n Ns); [apply meqp_refl|]. rewrite clifford_mat_I. apply meqp_refl.
  - intros n Hn Hn'. unfold F. destruct (mem n Ns) eqn:M; auto. exfalso. apply Hn', HN; auto.
Qed.
Definition nb (es : list (nat * nat)) (u : nat) : nset := nbh (Graph [] es) u.
Definition es_in (L : list nat) (es : list (nat * nat)) : Prop := forall e, In e es -> In (fst e) L /\ In (snd e) L.
Lemma nb_in L es u n : es_in L es -> mem n (nb es u) = true -> In n L.
Proof. intros H K. unfold nb in K. apply mem_nbh in K. destruct K as [K|K]; apply H in K; tauto. Qed.
Lemma nb_self es u : es_ok es -> mem u (nb es u) = false.
Proof. intros [_ H]. apply not_true_iff_false. intros K. apply mem_nbh in K. destruct K as [K|K]; apply H in K; cbn in K; auto. Qed.
Lemma nb_sym es u v : mem u (nb es v) = mem v (nb es u).
Proof. unfold nb. rewrite <- !(ein_adj []). unfold ein. rewrite edge_norm_swap. auto. Qed.
(** graphsim.py:113-118 local_complement; remove_pauli_measurements.py:300-312 *)
Definition lc (es : list (nat * nat)) (u : nat) : list (nat * nat) := toggle_edges es (pairs (elems (nb es u))).
Lemma lc_ok es u : es_ok es -> es_ok (lc es u).
Proof. intros H. apply toggle_ok; auto. apply pairs_ok, elems_NoDup. Qed.
Lemma lc_in L es u : es_in L es -> es_in L (lc es u).
Proof.
  intros H e He. apply toggle_in in He. destruct He as [He|He]; auto. apply pairs_in in He; [|apply elems_NoDup]. rewrite !elems_spec in He. destruct He as (A & B & _). split; eapply nb_in; eauto.
Qed.
Lemma nb_lc es u a b : es_ok es -> mem b (nb (lc es u) a) = xorb (mem b (nb es a)) (mem a (nb es u) && mem b (nb es u) && negb (a =? b)%nat).
Proof.
  intros H. unfold nb at 1. rewrite <- (ein_adj []). unfold lc. rewrite ein_toggle, (ein_adj []). fold (nb es a). f_equal. apply eq_true_iff_eq. rewrite pairs_ein by apply elems_NoDup. rewrite !elems_spec, !andb_true_iff, negb_true_iff, Nat.eqb_neq. tauto.
Qed.
Definition sqx : clifford := clifford_mul K6 (clifford_mul K5 K6).
Lemma sqx_mat : clifford_mat sqx ~= mmul mH (mmul mSdg mH).
Proof.
  unfold sqx. apply meqp_sym. rewrite <- clifford_mat_H, <- clifford_mat_Sdg. eapply meqp_trans; [|apply clifford_mul_mat]. apply meqp_mul; [apply meqp_refl|apply clifford_mul_mat].
Qed.
Section GOps.
Variables (L : list nat) (es : list (nat * nat)).
Hypotheses (NL : NoDup L) (EI : es_in L es) (EO : es_ok es).
Lemma lc_ops u V : In u L -> leq_on (indep u) (gops L es V) (gops L (lc es u) (vmulc V (dvec u (nb es u) sqx K4))).
Proof.
  intros Hu. apply gops_of; auto. assert (HN : forall n, In n (elems (nb es u)) <-> mem n (nb es u) = true) by (intros; apply elems_spec).
  assert (Q : cz_ops (lc es u) ++ layer (elems (nb es u)) (fun _ => clifford_mat K4) ++ [OApp1 (mmul mH (mmul mSdg mH)) u] ≈ cz_ops (lc es u) ++ clayer L (dvec u (nb es u) sqx K4)).
  { apply leq_app_l. apply dvec_ops; auto using elems_NoDup.
    - intros n Hn. apply HN in Hn. eapply nb_in; eauto.
    - rewrite HN, nb_self by auto. discriminate.
    - apply sqx_mat. }
  eapply leq_on_trans; [|apply leq_leq_on, Q]. exists C1. split; [apply phase_1|]. intros psi Hpsi. rewrite cscale_1, !den_app, clifford_mat_S. cbn [den]. apply lc_base; auto using elems_NoDup.
Qed.
Lemma stab_ops u V : In u L -> leq_on (indep u) (gops L es V) (gops L es (vmulc V (dvec u (nb es u) K1 K3))).
Proof.
  intros Hu. apply gops_of; auto. assert (HN : forall n, In n (elems (nb es u)) <-> mem n (nb es u) = true) by (intros; apply elems_spec).
  assert (Q : cz_ops es ++ layer (elems (nb es u)) (fun _ => clifford_mat K3) ++ [OApp1 mX u] ≈ cz_ops es ++ clayer L (dvec u (nb es u) K1 K3)).
  { apply leq_app_l. apply dvec_ops; auto using elems_NoDup.
    - intros n Hn. apply HN in Hn. eapply nb_in; eauto.
    - rewrite HN, nb_self by auto. discriminate.
    - rewrite clifford_mat_X. apply meqp_refl. }
  eapply leq_on_trans; [|apply leq_leq_on, Q]. exists C1. split; [apply phase_1|]. intros psi Hpsi. rewrite cscale_1, !den_app, clifford_mat_Z. cbn [den]. apply stab_base; auto using elems_NoDup.
Qed.
End GOps.

(** * Removal of a node measured in the computational basis *)
Definition bvec (b : bool) : vec2 := if b then Vec2 C0 C1 else Vec2 C1 C0.
Definition del (es : list (nat * nat)) (u : nat) : list (nat * nat) := filter (fun e => negb (fst e =? u)%nat && negb (snd e =? u)%nat) es.
Definition lrem (u : nat) (L : list nat) : list nat := filter (fun n => negb (n =? u)%nat) L.
Lemma lrem_in u L n : In n (lrem u L) <-> In n L /\ n <> u.
Proof. unfold lrem. rewrite filter_In, negb_true_iff, Nat.eqb_neq. tauto. Qed.
Lemma lrem_NoDup u L : NoDup L -> NoDup (lrem u L).
Proof. apply NoDup_filter. Qed.
Lemma del_in es u e : In e (del es u) <-> In e es /\ fst e <> u /\ snd e <> u.
Proof. unfold del. rewrite filter_In, andb_true_iff, !negb_true_iff, !Nat.eqb_neq. tauto. Qed.
Lemma del_ok es u : es_ok es -> es_ok (del es u).
Proof. intros [A B]. split; [apply NoDup_filter_map; auto|]. intros e He. apply del_in in He. apply B; tauto. Qed.
Lemma del_es_in L es u : es_in L es -> es_in (lrem u L) (del es u).
Proof. intros H e He. apply del_in in He. destruct He as (A & B & D). apply H in A. rewrite !lrem_in. tauto. Qed.
Lemma nb_del es u a b : mem b (nb (del es u) a) = mem b (nb es a) && negb (a =? u)%nat && negb (b =? u)%nat.
Proof.
  unfold nb. rewrite <- !(ein_adj []). unfold del. rewrite ein_filter.
  - cbn [fst snd]. destruct (ein (a, b) es); rewrite ?andb_true_r, ?andb_false_r; auto.
  - intros x y E. apply edge_norm_inj in E. destruct E as [-> | ->]; auto. cbn. apply andb_comm.
Qed.
Lemma Qf_del es u f : Qf (del es u) f = Qf es (upd f u false).
Proof.
  unfold Qf. induction es as [|e es IH]; auto. cbn [del filter gx fold_right]. fold (del es u) (gx (eb (upd f u false)) es). rewrite <- IH.
  assert (E : eb (upd f u false) e = if negb (fst e =? u)%nat && negb (snd e =? u)%nat then eb f e else false).
  { unfold eb, upd. destruct (fst e =? u)%nat, (snd e =? u)%nat; auto. cbn. apply andb_false_r. }
  rewrite E. destruct (negb (fst e =? u)%nat && negb (snd e =? u)%nat); cbn [gx fold_right]; [reflexivity|]. fold (gx (eb f) (del es u)). destruct (gx (eb f) (del es u)); auto.
Qed.
Lemma remove_base es u N psi b : es_ok es -> indep u psi -> NoDup N -> (forall n, In n N <-> mem n (nb es u) = true) ->
  app_op (OMeas (bvec b) u) (den (cz_ops es) psi) = den (layer N (fun _ => clifford_mat (if b then K3 else K0))) (den (cz_ops (del es u)) psi).
Proof.
  intros EO IU NN HN.
  assert (E : forall phi, den (layer N (fun _ => clifford_mat (if b then K3 else K0))) phi = fun f => (sgn (b && xorsum N f) * phi f)%C).
  { intros phi. destruct b; [rewrite clifford_mat_Z; apply den_layer_Z|]. rewrite clifford_mat_I, den_layer_diag by (intros; split; reflexivity). extensionality f. f_equal. cbn [andb sgn].
    clear. induction N as [|n N IH]; auto. cbn [fold_right]. rewrite IH. destruct (f n); cbn; ring. }
  rewrite E. extensionality f. rewrite (den_cz (del es u)), Qf_del. unfold app_op. rewrite !(graph_at es u N psi EO IU NN HN). destruct b; cbn [bvec v0 v1 andb sgn]; apply C_eq; cbn; ring.
Qed.
Lemma remove_ops L es u V w b : NoDup L -> es_in L es -> es_ok es -> In u L -> vmul (mdag (clifford_mat (V u))) w ~v bvec b ->
  leq_on (indep u) (gops L es V ++ [OMeas w u]) (gops (lrem u L) (del es u) (vmulc V (dvec u (nb es u) K0 (if b then K3 else K0)))).
Proof.
  intros NL EI EO Hu Hw. set (F := fun n => clifford_mat (V n)). set (N := elems (nb es u)). set (a := if b then K3 else K0).
  assert (HN : forall n, In n N <-> mem n (nb es u) = true) by (intros; apply elems_spec).
  assert (S1 : gops L es V ++ [OMeas w u] ≈ (cz_ops es ++ [OMeas (bvec b) u]) ++ layer L (fupd F u mid)).
  { unfold gops, clayer. fold F. rewrite (layer_split_r L F u NL Hu). rewrite <- !app_assoc. apply leq_app_l. cbn [app].
    transitivity (layer L (fupd F u mid) ++ [OMeas (bvec b) u]); [apply leq_app_l; rewrite (app1_meas (F u) w u); apply meas_veqp; exact Hw|]. symmetry. apply layer_comm. intros k _ [<-|[]]. apply fupd_same. }
  eapply leq_on_trans; [apply leq_leq_on, S1|].
  assert (S2 : leq_on (indep u) (cz_ops es ++ [OMeas (bvec b) u]) (cz_ops (del es u) ++ layer N (fun _ => clifford_mat a))).
  { exists C1. split; [apply phase_1|]. intros psi Hpsi. rewrite cscale_1, !den_app. cbn [den]. apply remove_base; auto. apply elems_NoDup. }
  eapply leq_on_trans; [apply leq_on_app; [exact S2|reflexivity]|]. apply leq_leq_on. unfold gops. rewrite <- app_assoc. apply leq_app_l.
  set (G := fun n => if mem n (nb es u) then clifford_mat a else mid).
  assert (NS : mem u (nb es u) = false) by (apply nb_self; auto).
  assert (E1 : layer N (fun _ => clifford_mat a) = layer N G). { apply layer_eq. intros n Hn. unfold G. apply HN in Hn. rewrite Hn. auto. }
  rewrite E1, (layer_weaken N (lrem u L) G).
  - rewrite <- (layer_weaken (lrem u L) L (fupd F u mid)); auto using lrem_NoDup.
    + rewrite layer_fuse by (apply lrem_NoDup; auto). apply layer_ext. intros n Hn. apply lrem_in in Hn. rewrite fupd_other by tauto. unfold F, G, vmulc, dvec. destruct (Nat.eqb_spec n u) as [->|Q]; [tauto|].
      destruct (mem n (nb es u)); [apply clifford_mul_mat|]. rewrite <- clifford_mat_I. apply clifford_mul_mat.
    + intros n Hn. apply lrem_in in Hn. tauto.
    + intros n Hn Hn'. rewrite lrem_in in Hn'. assert (n = u) as -> by (destruct (Nat.eq_dec n u); tauto). apply fupd_same.
  - apply elems_NoDup.
  - apply lrem_NoDup; auto.
  - intros n Hn. apply HN in Hn. rewrite lrem_in. split; [eapply nb_in; eauto|]. intros ->. congruence.
  - intros n _ Hn. unfold G. destruct (mem n (nb es u)) eqn:M; auto. exfalso. apply Hn, HN; auto.
Qed.
