(** The map of an open graph with a focused Pauli flow: Pauli exponentials after
    a Clifford map.  Proof infrastructure for C50. *)
From Coq Require Import Reals Lra Arith List Bool Lia Permutation FunctionalExtensionality.
From Verif Require Import Cplx Mat2 NSet QState Fundamentals Clifford Measure Layer Pattern Standardize NodeIndex OpenGraph FlowSpec Flow FlowWF FlowPat OGMap Focus FlowSem GState GraphSimThm Circuit Swaps PauliStr PauliOp Berg Ladder PropCircExt FlowCirc FlowCircSem FlowCircStr FlowCircLoad.
Import ListNotations.
Local Open Scope list_scope.
Local Arguments app_op : simpl never.

Lemma preps_scale l psi : den (map (fun n => OPrep plus_state n) l) psi = cscale (hk (length l)) psi.
Proof.
  revert psi. induction l as [|n l IH]; intros psi; [cbn; rewrite cscale_1; auto|]. cbn [map den length hk].
  assert (E : app_op (OPrep plus_state n) psi = cscale (RtoC (/ sqrt 2)) psi).
  { extensionality f. unfold app_op, plus_state, planar_state, cscale. assert (E0 : cis 0 = C1) by (unfold cis; rewrite Rmult_0_l, cos_0, sin_0; reflexivity). rewrite E0. destruct (f n); cbn [vget v0 v1]; ring. }
  rewrite E, IH, cscale_cscale. f_equal. ring.
Qed.
Lemma cz_Z es i psi : den (cz_ops es) (app_op (OApp1 mZ i) psi) = app_op (OApp1 mZ i) (den (cz_ops es) psi).
Proof.
  extensionality f. rewrite den_cz. change mZ with (pm false true). rewrite !pm_at, den_cz. cbn [andb]. rewrite xorb_false_r, upd_id. ring.
Qed.

Section Map.
Variable og : opengraph.
Hypothesis OK : og_ok og.
Hypothesis SI : simple (og_graph og).
Local Notation L := (g_nodes (og_graph og)).
Local Notation ml := (dkeys (og_meas og)).
Local Notation O := (og_out og).
Local Notation es := (g_edges (og_graph og)).
Definition measf (n : nat) : measurement := match dget (og_meas og) n with Some m => m | None => MBloch 0 PXY end.
(** the map of the graph, with the planar angles kept on [T] only *)
Definition GT (T : list nat) (psi : state) : state := den (mops (muT measf T) ml) (den (cz_ops es) psi).
Lemma part_perm : Permutation L (ml ++ O).
Proof.
  destruct (ok_meas _ OK) as [NM HM]. destruct (ok_out _ OK) as [NO HO]. apply NoDup_Permutation; [apply OK| |].
  - apply Layer.NoDup_app; auto. intros n A B. apply HM in A. tauto.
  - intros n. rewrite in_app_iff, HM. split; [|intros [H|H]; [tauto|auto]]. intros H. destruct (in_dec Nat.eq_dec n O); auto.
Qed.
Lemma L_nodup : NoDup L.
Proof. apply OK. Qed.
Lemma es_in : forall e, In e es -> In (fst e) L /\ In (snd e) L.
Proof. apply OK. Qed.
Lemma graph_ops_GT : og_cliff og = [] -> exists k, k <> C0 /\ forall psi, den (graph_ops og) psi = cscale k (GT ml psi).
Proof.
  intros EC. exists (hk (length (og_prepared og))). split; [apply hk_norm|]. intros psi. unfold graph_ops. rewrite EC. cbn [map]. rewrite app_nil_r, !den_app, preps_scale.
  fold (cz_ops es). rewrite !den_scale. f_equal. unfold GT. f_equal. unfold mops, dkeys. rewrite map_map. apply map_ext_in. intros [n m] Hn. cbn [fst snd]. f_equal.
  unfold muT. rewrite (proj2 (lmem_In n _)) by (apply in_map_iff; exists (n, m); auto). unfold measf. rewrite (In_dget _ _ _ (proj1 (ok_meas _ OK)) Hn). auto.
Qed.
(** * Signs *)
Definition esign (S : nset) : bool := xorb (Qf es (sx S)) (Nat.odd (ycount L (sx S) (sz og S) / 2)).
Definition msum (S : nset) : bool := gx (fun n => (sx S n || sz og S n) && minus_at og n) L.
Lemma str_sign_eq v S : str_sign og v S = xorb (xorb (esign S) (msum S)) (yz_at og v).
Proof. reflexivity. Qed.
Lemma minus_measf n : minus_at og n = is_minus (measf n).
Proof. unfold minus_at, measf. destruct (dget (og_meas og) n) as [[|? []]|]; auto. Qed.
Lemma msum_ml S : msum S = gx (fun n => is_minus (measf n) && (sx S n || sz og S n)) ml.
Proof.
  unfold msum. rewrite (gx_perm _ _ _ part_perm). assert (G : forall l, (forall n, In n l -> minus_at og n = false) -> gx (fun n => (sx S n || sz og S n) && minus_at og n) l = false).
  { intros l H. transitivity (gx (fun _ : nat => false) l); [|apply gx_none]. apply gx_ext. intros n Hn. rewrite H by auto. apply andb_false_r. }
  assert (A : forall f (l l' : list nat), gx f (l ++ l') = xorb (gx f l) (gx f l')).
  { intros f l l'. induction l as [|a l IH]; [symmetry; apply xorb_false_l|]. cbn [app gx fold_right]. fold (gx f (l ++ l')) (gx f l). rewrite IH, xorb_assoc. auto. }
  rewrite A, (G O), xorb_false_r. { apply gx_ext. intros n Hn. rewrite minus_measf. apply andb_comm. }
  intros n Hn. unfold minus_at. assert (dget (og_meas og) n = None) as ->; auto. apply dget_None. intros K. apply (ok_meas _ OK) in K. tauto.
Qed.
Lemma msum_but v S : minus_at og v = false -> msum S = msign ml measf v (sx S) (sz og S).
Proof.
  intros H. rewrite msum_ml. unfold msign. apply gx_ext. intros n Hn. destruct (Nat.eqb_spec n v) as [->|]; [|reflexivity]. rewrite <- minus_measf, H. auto.
Qed.
(** * Stabilisers *)
Definition onins (psi : state) : Prop := forall n, In n L -> ~ In n (og_in og) -> indep n psi.
Lemma stab S psi : (forall n, mem n S = true -> In n L /\ ~ In n (og_in og)) -> onins psi ->
  pprod L (sx S) (sz og S) (den (cz_ops es) psi) = cscale (sgn (esign S)) (den (cz_ops es) psi).
Proof.
  intros HS HI. unfold sz. rewrite graph_pauli; [|apply L_nodup|apply es_in|intros n Hn; apply HS; auto]. rewrite pprod_X_none; [reflexivity|].
  intros n Hn Hx. apply HI; auto. apply HS; auto.
Qed.
Lemma stab_in S i psi : (forall n, mem n S = true -> In n L /\ (n = i \/ ~ In n (og_in og))) -> mem i S = true -> onins psi ->
  pprod L (sx S) (sz og S) (den (cz_ops es) psi) = cscale (sgn (esign S)) (den (cz_ops es) (app_op (OApp1 mX i) psi)).
Proof.
  intros HS Hi HI. unfold sz. rewrite graph_pauli; [|apply L_nodup|apply es_in|intros n Hn; apply HS; auto]. rewrite (pprod_X_one L (sx S) i); [reflexivity|apply L_nodup|apply HS; auto|auto|].
  intros n Hn Hx N. apply HI; auto. destruct (HS n Hx) as [_ [K|K]]; [congruence|auto].
Qed.
Lemma sgn_sgn b : (sgn b * sgn b = C1)%C.
Proof. destruct b; cbn; ring. Qed.
(** X on an input *)
Lemma map_X S i psi : (forall n, mem n S = true -> In n L /\ (n = i \/ ~ In n (og_in og))) -> mem i S = true -> (forall n, In n ml -> fits (measf n) (sx S n) (sz og S n) = true) -> onins psi ->
  GT [] (app_op (OApp1 mX i) psi) = sgnop (xorb (esign S) (msum S)) (pprod O (sx S) (sz og S)) (GT [] psi).
Proof.
  intros HS Hi HF HI. pose proof (stab_in S i psi HS Hi HI) as E. apply (f_equal (den (mops (muT measf []) ml))) in E.
  rewrite (absorb_all (muT measf []) ml O L _ _ (fun n => is_minus (measf n) && (sx S n || sz og S n))) in E; [|apply part_perm|apply L_nodup|].
  2:{ intros n Hn. unfold muT. cbn [lmem existsb]. apply zm_absorb. auto. }
  rewrite mops_scale in E. apply (f_equal (cscale (sgn (esign S)))) in E. rewrite !cscale_cscale, sgn_sgn, cscale_1 in E. unfold GT, sgnop. rewrite <- E, sgn_xor, msum_ml. auto.
Qed.
(** Z on a measured input *)
Lemma map_Z S i psi : (forall n, mem n S = true -> In n L /\ ~ In n (og_in og)) -> In i ml -> minus_at og i = false -> sx S i = false -> sz og S i = true ->
  (forall n, In n ml -> n <> i -> fits (measf n) (sx S n) (sz og S n) = true) -> onins psi ->
  GT [] (app_op (OApp1 mZ i) psi) = sgnop (xorb (esign S) (msum S)) (pprod O (sx S) (sz og S)) (GT [] psi).
Proof.
  intros HS Hi HM Hx Hz HF HI. pose proof (stab S psi HS HI) as E. apply (f_equal (den (mops (muT measf []) ml))) in E.
  rewrite (move_pauli ml O L measf part_perm L_nodup [] i) in E; [|auto|]. 2:{ intros n Hn Nn. split; [auto|]. discriminate. }
  rewrite Hx, Hz, mops_scale, <- msum_but in E by auto. cbn [pm] in E. apply (f_equal (fun s => cscale (sgn (msum S)) (pprod O (sx S) (sz og S) s))) in E.
  rewrite !pprod_scale, Berg.pprod_sq, !cscale_cscale, sgn_sgn, cscale_1 in E by apply (ok_out _ OK). unfold GT, sgnop. rewrite cz_Z, E, sgn_xor. f_equal. ring.
Qed.
(** Z on an input that is an output *)
Lemma map_Z_out i psi : In i O -> GT [] (app_op (OApp1 mZ i) psi) = app_op (OApp1 mZ i) (GT [] psi).
Proof. intros H. unfold GT. rewrite cz_Z, mops_app1; auto. intros K. apply (ok_meas _ OK) in K. tauto. Qed.
End Map.

(** * Focused correction sets fit the measurements *)
Definition fit_set (og : opengraph) (v : nat) (S : nset) : Prop := forall j m, j <> v -> dget (og_meas og) j = Some m -> fits m (sx S j) (sz og S j) = true.
Lemma sz_odd og S n : og_ok og -> simple (og_graph og) -> sz og S n = true <-> odd_nb (og_graph og) S n.
Proof. intros OK SI. unfold sz, sx. apply oddp_odd_nb; auto. apply OK. Qed.
Lemma focused_fit og cf v S : og_ok og -> simple (og_graph og) -> focused og cf -> dget cf v = Some S -> fit_set og v S.
Proof.
  intros OK SI [F1 F2 F3] ES j m N Ej. assert (LB : labelled og j (mlabel m)) by (exists m; auto).
  assert (K1 : sx S j = true -> mlabel m = LPlane PXY \/ mlabel m = LAxis AX \/ mlabel m = LAxis AY) by (intros H; apply (F1 v S j); auto).
  assert (K2 : sz og S j = true -> mlabel m = LPlane PXZ \/ mlabel m = LPlane PYZ \/ mlabel m = LAxis AY \/ mlabel m = LAxis AZ) by (intros H; apply (F2 v S j); auto; apply sz_odd; auto).
  assert (K3 : mlabel m = LAxis AY -> (sx S j = true <-> sz og S j = true)). { intros H. rewrite H in LB. rewrite sz_odd by auto. apply (F3 v S j); auto. }
  destruct (sx S j), (sz og S j), m as [a [| |]|[| |] s]; cbn [mlabel fits negb eqb] in *; auto; exfalso.
  all: repeat match goal with H : true = true -> _ |- _ => specialize (H eq_refl) end.
  all: try (destruct K1 as [K|[K|K]]; discriminate); try (destruct K2 as [K|[K|[K|K]]]; discriminate).
  all: destruct (K3 eq_refl) as [A B]; first [discriminate (A eq_refl)|discriminate (B eq_refl)].
Qed.

(** * Order of the exponentials *)
Lemma flat_before (it : iter) (A : list nset) : forall pre v post n, flat_map it A = pre ++ v :: post -> In n pre ->
  exists a b sa sb, nth_error A a = Some sa /\ In n (it sa) /\ nth_error A b = Some sb /\ In v (it sb) /\ (a <= b)%nat.
Proof.
  induction A as [|s A IH]; intros pre v post n E Hn.
  - destruct pre; discriminate.
  - cbn [flat_map] in E. destruct (app_eq_app _ _ _ _ E) as (l & [[E1 E2]|[E1 E2]]).
    + destruct l as [|u l].
      * rewrite app_nil_r in E1. cbn in E2. assert (In v (flat_map it A)) as K by (rewrite <- E2; left; auto). apply in_flat_map in K. destruct K as (sb & K1 & K2).
        apply In_nth_error in K1. destruct K1 as (b & K1). exists 0%nat, (S b), s, sb. rewrite E1. cbn. repeat split; auto. lia.
      * injection E2 as <- E2. exists 0%nat, 0%nat, s, s. rewrite E1. repeat split; auto; apply in_or_app; [left|right; left]; auto.
    + rewrite E1 in Hn. apply in_app_or in Hn. destruct Hn as [Hn|Hn].
      * assert (In v (flat_map it A)) as K by (rewrite E2; apply in_or_app; right; left; auto). apply in_flat_map in K. destruct K as (sb & K1 & K2).
        apply In_nth_error in K1. destruct K1 as (b & K1). exists 0%nat, (S b), s, sb. cbn. repeat split; auto. lia.
      * destruct (IH l v post n E2 Hn) as (a & b & sa & sb & H1 & H2 & H3 & H4 & H5). exists (S a), (S b), sa, sb. cbn. repeat split; auto. lia.
Qed.
Lemma nth_tl {A} (l : list A) i : nth_error (tl l) i = nth_error l (S i).
Proof. destruct l; auto. destruct i; auto. Qed.
Definition order_of (it : iter) (ls : list nset) : list nat := flat_map it (rev (tl ls)).
Lemma order_before it ls pre v post n i j : iter_ok it -> (forall i j n, in_layer ls i n -> in_layer ls j n -> i = j) ->
  order_of it ls = pre ++ v :: post -> In n pre -> in_layer ls i v -> in_layer ls j n -> (i <= j)%nat.
Proof.
  intros Hit DJ E Hn Hi Hj. destruct (flat_before it _ _ _ _ _ E Hn) as (a & b & sa & sb & H1 & H2 & H3 & H4 & H5).
  assert (La : (a < length (tl ls))%nat) by (rewrite <- rev_length; apply nth_error_Some; congruence). assert (Lb : (b < length (tl ls))%nat) by (rewrite <- rev_length; apply nth_error_Some; congruence).
  rewrite nth_error_rev, nth_tl in H1, H3 by auto. rewrite iter_In in H2, H4 by auto.
  assert (j = S (length (tl ls) - S a)) by (apply (DJ _ _ n); [auto|exists sa; auto]). assert (i = S (length (tl ls) - S b)) by (apply (DJ _ _ v); [auto|exists sb; auto]). lia.
Qed.
Lemma order_in (it : iter) ls v : iter_ok it -> In v (order_of it ls) <-> exists i, in_layer ls (S i) v.
Proof.
  intros Hit. unfold order_of. rewrite in_flat_map. split.
  - intros (s & A & B). rewrite <- in_rev in A. apply In_nth_error in A. destruct A as (i & A). rewrite nth_tl in A. rewrite iter_In in B by auto. exists i, s. auto.
  - intros (i & s & A & B). rewrite <- nth_tl in A. exists s. rewrite <- in_rev, iter_In by auto. split; auto. eapply nth_error_In; eauto.
Qed.
Lemma flat_nodup (it : iter) (A : list nset) : iter_ok it -> (forall i j s s' n, nth_error A i = Some s -> nth_error A j = Some s' -> mem n s = true -> mem n s' = true -> i = j) -> NoDup (flat_map it A).
Proof.
  intros Hit. induction A as [|s A IH]; intros H; [constructor|]. cbn [flat_map]. apply Layer.NoDup_app.
  - apply iter_NoDup; auto.
  - apply IH. intros i j t t' n H1 H2 H3 H4. assert (S i = S j) as K by (apply (H (S i) (S j) t t' n); auto). lia.
  - intros n Hn K. apply in_flat_map in K. destruct K as (t & K1 & K2). apply In_nth_error in K1. destruct K1 as (j & K1). rewrite iter_In in Hn, K2 by auto. discriminate (H 0%nat (S j) s t n eq_refl K1 Hn K2).
Qed.
Lemma order_nodup it ls : iter_ok it -> (forall i j n, in_layer ls i n -> in_layer ls j n -> i = j) -> NoDup (order_of it ls).
Proof.
  intros Hit DJ. apply flat_nodup; auto. intros i j s s' n H1 H2 H3 H4.
  assert (La : (i < length (tl ls))%nat) by (rewrite <- rev_length; apply nth_error_Some; congruence). assert (Lb : (j < length (tl ls))%nat) by (rewrite <- rev_length; apply nth_error_Some; congruence).
  rewrite nth_error_rev, nth_tl in H1, H2 by auto.
  assert (S (length (tl ls) - S i) = S (length (tl ls) - S j)) by (apply (DJ _ _ n); [exists s|exists s']; auto). lia.
Qed.

Lemma dget_key {A} (d : dict A) k v : dget d k = Some v -> In k (dkeys d).
Proof. intros E. apply dget_In in E. apply in_map_iff. exists (k, v). auto. Qed.
Section Flow.
Variables (it : iter) (og : opengraph) (cf : dict nset) (ls : list nset).
Hypothesis Hit : iter_ok it.
Hypothesis OK : og_ok og.
Hypothesis SI : simple (og_graph og).
Hypothesis PF : pauli_flow og cf ls.
Hypothesis FO : focused og cf.
Hypothesis NE : og_out og <> [].
Definition cfs (v : nat) : nset := match dget cf v with Some s => s | None => sempty end.
Definition angf (v : nat) : R := match measf og v with MBloch a _ => (a / 2)%R | MPauli _ _ => 0%R end.
Definition nexp (v : nat) (chi : state) : state := exp_op (angf v) (sgnop (str_sign og v (cfs v)) (pprod (og_out og) (sx (cfs v)) (sz og (cfs v)))) chi.
Lemma meas_cf v m : dget (og_meas og) v = Some m -> dget cf v = Some (cfs v).
Proof.
  intros E. destruct (proj2 (cf_dom _ _ (pfl_cf _ _ _ PF) v)) as (s & Es). { apply (ok_meas _ OK). apply dget_key in E. auto. } unfold cfs. rewrite Es. auto.
Qed.
Lemma cfs_in v n : mem n (cfs v) = true -> In n (g_nodes (og_graph og)) /\ ~ In n (og_in og).
Proof. unfold cfs. destruct (dget cf v) as [s|] eqn:E; [|rewrite mem_empty; discriminate]. apply (cf_img _ _ (pfl_cf _ _ _ PF) v s n E). Qed.
Lemma meas_layer v m : dget (og_meas og) v = Some m -> exists i, in_layer ls (S i) v.
Proof.
  intros E. apply dget_key in E. apply (ok_meas _ OK) in E. destruct E as [A B]. destruct (proj1 (ord_cover _ _ (pfl_order _ _ _ PF) v) A) as (i & Hi).
  destruct i as [|i]; [|eauto]. exfalso. apply B. apply (ord_first _ _ (pfl_order _ _ _ PF) NE). auto.
Qed.
Lemma layer_meas v i : in_layer ls (S i) v -> exists m, dget (og_meas og) v = Some m.
Proof.
  intros H. destruct (dget (og_meas og) v) as [m|] eqn:E; eauto. exfalso. apply dget_None in E. apply E, (ok_meas _ OK). split; [apply (ord_cover _ _ (pfl_order _ _ _ PF)); eauto|].
  intros K. apply (ord_first _ _ (pfl_order _ _ _ PF) NE) in K. discriminate (ord_disj _ _ (pfl_order _ _ _ PF) _ _ _ H K).
Qed.
Lemma own_bits v a p : dget (og_meas og) v = Some (MBloch a p) -> sx (cfs v) v = px p /\ sz og (cfs v) v = pz p.
Proof.
  intros E. pose proof (meas_cf v _ E) as Es. assert (LB : labelled og v (LPlane p)) by (exists (MBloch a p); auto).
  destruct p; cbn [px pz].
  - destruct (pfl_4 _ _ _ PF v _ Es LB) as [A B]. split; auto. apply sz_odd; auto.
  - destruct (pfl_6 _ _ _ PF v _ Es LB) as [A B]. split; auto. apply not_true_iff_false. intros K. apply B, sz_odd; auto.
  - destruct (pfl_5 _ _ _ PF v _ Es LB) as [A B]. split; auto. apply sz_odd; auto.
Qed.
Lemma pre_fits pre v post : order_of it ls = pre ++ v :: post -> fits_but (dkeys (og_meas og)) (measf og) pre v (sx (cfs v)) (sz og (cfs v)).
Proof.
  intros E n Hn N. destruct (dget (og_meas og) n) as [m|] eqn:En; [|apply dget_None in En; tauto]. assert (EM : measf og n = m) by (unfold measf; rewrite En; auto). rewrite EM.
  assert (HV : exists i, in_layer ls (S i) v) by (apply (order_in it); auto; rewrite E; apply in_or_app; right; left; auto). destruct HV as (i & Hi).
  destruct (layer_meas v i Hi) as (mv & Emv). pose proof (meas_cf v _ Emv) as Es. split; [apply (focused_fit og cf v (cfs v)); auto|].
  intros HP (a & p & Em). subst m. rewrite Em in En. apply lmem_In in HP. destruct (meas_layer n _ En) as (j & Hj).
  assert (IJ : (S i <= S j)%nat) by (eapply order_before; eauto; apply (ord_disj _ _ (pfl_order _ _ _ PF))).
  assert (NP : ~ prec ls v n). { intros (a' & b' & A & B & C). rewrite (ord_disj _ _ (pfl_order _ _ _ PF) _ _ _ A Hi), (ord_disj _ _ (pfl_order _ _ _ PF) _ _ _ B Hj) in C. lia. }
  assert (LB : labelled og n (LPlane p)) by (exists (MBloch a p); auto). split; apply not_true_iff_false; intros K; apply NP.
  - apply (pfl_1 _ _ _ PF v (cfs v) n (LPlane p)); auto; discriminate.
  - apply (pfl_2 _ _ _ PF v (cfs v) n (LPlane p)); auto; try discriminate. apply sz_odd; auto.
Qed.
Lemma exp0 F chi : exp_op 0 F chi = chi.
Proof. unfold exp_op. rewrite Rmult_0_l, cos_0, sin_0. extensionality f. unfold sadd_st, cscale. apply C_eq; cbn; ring. Qed.
Lemma exp_scale a F c chi : (forall c chi, F (cscale c chi) = cscale c (F chi)) -> exp_op a F (cscale c chi) = cscale c (exp_op a F chi).
Proof. intros H. unfold exp_op. rewrite H. extensionality f. unfold sadd_st, cscale. ring. Qed.
Lemma nexp_scale v c chi : nexp v (cscale c chi) = cscale c (nexp v chi).
Proof. apply exp_scale. intros. unfold sgnop. rewrite pprod_scale, !cscale_cscale. f_equal. ring. Qed.
(** the map of the graph is the exponentials after the map at angle 0 *)
Lemma rotations pre : forall post, order_of it ls = pre ++ post -> exists c, phase c /\ forall psi, onins og psi ->
  GT og pre psi = cscale c (fold_left (fun chi v => nexp v chi) pre (GT og [] psi)).
Proof.
  induction pre as [|v pre IH] using rev_ind; intros post E.
  - exists C1. split; [apply phase_1|]. intros. cbn [fold_left]. rewrite cscale_1. auto.
  - rewrite <- app_assoc in E. cbn [app] in E. destruct (IH _ E) as (c & Hc & H).
    assert (HV : exists i, in_layer ls (S i) v) by (apply (order_in it); auto; rewrite E; apply in_or_app; right; left; auto). destruct HV as (i & Hi).
    destruct (layer_meas v i Hi) as (mv & Emv). assert (EM : measf og v = mv) by (unfold measf; rewrite Emv; auto). pose proof (meas_cf v _ Emv) as Es.
    assert (Hv : In v (dkeys (og_meas og))) by (apply dget_key in Emv; auto).
    assert (NV : ~ In v pre). { pose proof (order_nodup it ls Hit (ord_disj _ _ (pfl_order _ _ _ PF))) as ND. rewrite E in ND. apply NoDup_remove_2 in ND. intros K. apply ND, in_or_app; auto. }
    destruct mv as [a p|ax s].
    + destruct (own_bits v a p Emv) as [OX OZ].
      destruct (rot_step (dkeys (og_meas og)) (og_out og) (g_nodes (og_graph og)) (measf og) (part_perm og OK) (L_nodup og OK) pre v a p (sx (cfs v)) (sz og (cfs v)) (esign og (cfs v)) Hv EM NV OX OZ (pre_fits _ _ _ E)) as (d & Hd & RS).
      exists (d * c)%C. split; [apply phase_mul; auto|]. intros psi HI. rewrite fold_left_app. cbn [fold_left]. unfold GT at 1. rewrite (RS (den (cz_ops (g_edges (og_graph og))) psi)).
      2:{ apply stab; auto. intros n Hn. apply (cfs_in v); auto. }
      fold (GT og pre psi). rewrite <- cscale_cscale. f_equal. rewrite H by auto. rewrite <- nexp_scale. unfold nexp. unfold angf. rewrite EM. f_equal.
      unfold sgnop. extensionality chi. f_equal. f_equal. rewrite str_sign_eq. f_equal; [f_equal|].
      * symmetry. apply msum_but; auto. unfold minus_at. rewrite Emv. auto.
      * unfold yz_at. rewrite Emv. destruct p; auto.
    + exists c. split; auto. intros psi HI. rewrite fold_left_app. cbn [fold_left]. unfold nexp at 1, angf. rewrite EM, exp0. rewrite <- H by auto. unfold GT. f_equal. apply mops_ext. intros n Hn. unfold muT.
      destruct (Nat.eq_dec n v) as [->|N].
      * rewrite EM. destruct (lmem v (pre ++ [v])), (lmem v pre); auto.
      * replace (lmem n (pre ++ [v])) with (lmem n pre); auto. apply eq_true_iff_eq. rewrite !lmem_In, in_app_iff. split; auto. intros [K|[<-|[]]]; [auto|congruence].
Qed.
Lemma full_map : exists c, phase c /\ forall psi, onins og psi -> GT og (dkeys (og_meas og)) psi = cscale c (fold_left (fun chi v => nexp v chi) (order_of it ls) (GT og [] psi)).
Proof.
  destruct (rotations (order_of it ls) []) as (c & Hc & H); [rewrite app_nil_r; auto|]. exists c. split; auto. intros psi HI. rewrite <- H by auto. unfold GT. f_equal. apply mops_ext. intros n Hn. unfold muT.
  rewrite (proj2 (lmem_In n _) Hn). rewrite (proj2 (lmem_In n (order_of it ls))); auto. apply order_in; auto. destruct (dget (og_meas og) n) as [m|] eqn:En; [|apply dget_None in En; tauto]. eapply meas_layer; eauto.
Qed.
(** the input corrections are Z on the input *)
Lemma input_bits i m : In i (og_in og) -> dget (og_meas og) i = Some m -> sx (cfs i) i = false /\ sz og (cfs i) i = true.
Proof.
  intros Hi E. pose proof (meas_cf i _ E) as Es. assert (X : sx (cfs i) i = false). { apply not_true_iff_false. intros K. apply (cfs_in i i K). auto. } split; auto.
  assert (LB : labelled og i (mlabel m)) by (exists m; auto). apply sz_odd; auto. unfold sx in X. destruct m as [a [| |]|[| |] s]; cbn [mlabel] in LB.
  - apply (pfl_4 _ _ _ PF i _ Es LB).
  - destruct (pfl_6 _ _ _ PF i _ Es LB). congruence.
  - apply (pfl_5 _ _ _ PF i _ Es LB).
  - apply (pfl_7 _ _ _ PF i _ Es LB).
  - destruct (pfl_9 _ _ _ PF i _ Es LB) as [[A _]|[_ B]]; [congruence|auto].
  - pose proof (pfl_8 _ _ _ PF i _ Es LB). congruence.
Qed.
End Flow.
