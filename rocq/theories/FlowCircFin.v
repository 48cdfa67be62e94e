(** The circuit extracted from a focused Pauli flow implements the map of the
    graph.  Proof infrastructure for C50. *)
From Coq Require Import Reals Lra Arith List Bool Lia Permutation FunctionalExtensionality.
From Verif Require Import Cplx Mat2 NSet QState Fundamentals Clifford Measure Layer Pattern Standardize NodeIndex OpenGraph FlowDet FlowSpec Flow FlowWF FlowPat OGMap PropFlow TranspilePat RunBranch PropRemovePauli Focus FlowSem GState GraphSimThm Statevec Density Circuit Swaps PauliStr PauliOp Berg Ladder PropCircExt FlowCirc FlowCircSem FlowCircStr FlowCircLoad FlowCircMap FlowCircExt.
Import ListNotations.
Local Open Scope list_scope.
Local Arguments app_op : simpl never.

(** * The map of a graph with a flow is injective *)
Lemma map_nonzero it f psi : let og := pf_og f in iter_ok it -> og_ok og -> simple (og_graph og) -> pauli_flow og (pf_cf f) (pf_layers f) -> og_cliff og = [] ->
  onins og psi -> GT og (dkeys (og_meas og)) psi = zero_state -> psi = zero_state.
Proof.
  intros og Hit OK SI PF HC HI HZ. destruct (pf_to_xz_corr it Hit f (pfl_order _ _ _ PF) (pfl_cf _ _ _ PF)) as (xz & Ex & XC).
  destruct (det_yields it og _ _ xz Hit OK SI PF XC) as ((p & Ep) & _ & Q). destruct (Q _ _ Ep) as (_ & _ & _ & _ & IM).
  pose proof (corr_respects og OK _ _ PF xz XC) as HR. pose proof XC as (E1 & E2 & K). fold og in E1. assert (Ho : order_ok og (pf_layers f)) by apply PF.
  destruct (xz_pattern_inv it Hit xz) with (order := @None (list nat)) (p := p) as (ord & OC & _ & A & B & D & R); rewrite ?E1, ?E2; auto. rewrite E1 in *.
  apply (all_zero (p_in p) (p_seq p)); auto.
  - rewrite D. apply xz_cmds_sem. rewrite E1. auto.
  - intros n s Hn. rewrite D in Hn. unfold xz_cmds in Hn. rewrite E1, HC in Hn. cbn [map] in Hn. rewrite app_nil_r in Hn. apply in_app_or in Hn. destruct Hn as [Hn|Hn].
    + apply in_map_iff in Hn. destruct Hn as (k & [= <- <-] & _). exists false. cbn. intros Y. apply (f_equal re) in Y. cbn in Y. pose proof sqrt2_neq_0. pose proof (Rinv_neq_0_compat _ H). unfold Rdiv in Y. lra.
    + apply in_app_or in Hn. destruct Hn as [Hn|Hn]; [apply in_map_iff in Hn; destruct Hn as (? & Hn & _); discriminate|]. exfalso.
      unfold flow_seq in Hn. apply in_flat_map in Hn. destruct Hn as (u & _ & [H|H]); [discriminate|]. unfold corr_cmds in H. apply in_app_or in H.
      destruct H as [H|H]; apply in_map_iff in H; destruct H as (? & H & _); discriminate.
  - intros n (s & Hn). rewrite D in Hn. unfold xz_cmds in Hn. rewrite E1, HC in Hn. cbn [map] in Hn. rewrite app_nil_r in Hn. apply in_app_or in Hn. destruct Hn as [Hn|Hn].
    + apply in_map_iff in Hn. destruct Hn as (k & [= <- <-] & H). rewrite iter_In in H by auto. unfold og_nodes in H. rewrite mem_sdiff, andb_true_iff, negb_true_iff, <- not_true_iff_false, !mem_of_list in H. apply HI; tauto.
    + apply in_app_or in Hn. destruct Hn as [Hn|Hn]; [apply in_map_iff in Hn; destruct Hn as (? & Hn & _); discriminate|]. exfalso.
      unfold flow_seq in Hn. apply in_flat_map in Hn. destruct Hn as (u & _ & [H|H]); [discriminate|]. unfold corr_cmds in H. apply in_app_or in H.
      destruct H as [H|H]; apply in_map_iff in H; destruct H as (? & H & _); discriminate.
  - intros o. destruct (IM o) as (c & _ & Z). rewrite Z by exact HI. destruct (graph_ops_GT og OK HC) as (k & _ & G). rewrite G, HZ. extensionality g. unfold cscale, zero_state. ring.
Qed.

(** * Commutation of Pauli strings *)
Definition dots (l : list nat) (x z x' z' : nat -> bool) : bool := gx (fun q => xorb (x q && z' q) (z q && x' q)) l.
Lemma pprod_comm l x z x' z' psi : NoDup l -> pprod l x z (pprod l x' z' psi) = cscale (sgn (dots l x z x' z')) (pprod l x' z' (pprod l x z psi)).
Proof.
  revert psi. induction l as [|q l IH]; intros psi ND; [cbn; rewrite cscale_1; auto|]. inversion ND as [|? ? N1 N2]; subst.
  change (pprod (q :: l) x z ?p) with (app_op (OApp1 (pm (x q) (z q)) q) (pprod l x z p)). change (pprod (q :: l) x' z' ?p) with (app_op (OApp1 (pm (x' q) (z' q)) q) (pprod l x' z' p)).
  rewrite (pprod_app1 l x z), (pprod_app1 l x' z'), IH by auto. rewrite !app1_app1, pm_conj, app1_sgn, app_op_scale, cscale_cscale. f_equal. unfold dots. cbn [gx fold_right]. fold (gx (fun q => xorb (x q && z' q) (z q && x' q)) l). rewrite !sgn_xor. auto.
Qed.
Lemma ps_op_scale p c psi : ps_op p (cscale c psi) = cscale c (ps_op p psi).
Proof. unfold ps_op. rewrite axes_op_scale, !cscale_cscale. f_equal. ring. Qed.
Lemma ps_op_sq p psi : ps_ok p -> ps_op p (ps_op p psi) = psi.
Proof. intros OK. rewrite !ps_op_pprod by auto. unfold sgnop. rewrite pprod_scale, Berg.pprod_sq, cscale_cscale, sgn_sgn, cscale_1 by apply seq_NoDup. auto. Qed.
Lemma ps_comm p p' : ps_ok p -> ps_ok p' -> ps_dim p = ps_dim p' -> exists b, forall psi, ps_op p (ps_op p' psi) = cscale (sgn b) (ps_op p' (ps_op p psi)).
Proof.
  intros A B E. exists (dots (range (ps_dim p)) (ps_x p) (ps_z p) (ps_x p') (ps_z p')). intros psi. rewrite !ps_op_pprod by auto. rewrite <- E. unfold sgnop. rewrite !pprod_scale, pprod_comm by apply seq_NoDup. rewrite !cscale_cscale. f_equal. ring.
Qed.
Lemma cscale_zero c : cscale c zero_state = zero_state.
Proof. extensionality g. unfold cscale, zero_state. ring. Qed.
Lemma neg_zero psi : psi = cscale (- C1)%C psi -> psi = zero_state.
Proof.
  intros E. extensionality g. apply (f_equal (fun s => s g)) in E. unfold cscale, zero_state in *. destruct (psi g) as [a b]. pose proof (f_equal re E) as E1. pose proof (f_equal im E) as E2. cbn in E1, E2. apply C_eq; cbn; lra.
Qed.
Lemma ps_op_zero p psi : ps_ok p -> ps_op p psi = zero_state -> psi = zero_state.
Proof. intros OK E. rewrite <- (ps_op_sq p psi OK), E. transitivity (ps_op p (cscale C0 zero_state)); [f_equal; symmetry; apply cscale_zero|]. rewrite ps_op_scale. extensionality g. unfold cscale, zero_state. ring. Qed.
(** the sign is decided by one non-zero state *)
Lemma ps_comm_at p p' s chi : ps_ok p -> ps_ok p' -> ps_dim p = ps_dim p' -> chi <> zero_state -> ps_op p (ps_op p' chi) = cscale (sgn s) (ps_op p' (ps_op p chi)) ->
  forall psi, ps_op p (ps_op p' psi) = cscale (sgn s) (ps_op p' (ps_op p psi)).
Proof.
  intros A B E NZ H. destruct (ps_comm p p' A B E) as (b & HB). destruct (bool_dec b s) as [<-|N]; auto. exfalso. apply NZ. rewrite HB in H. apply (ps_op_zero p); auto. apply (ps_op_zero p'); auto.
  apply neg_zero. destruct b, s; try congruence; cbn [sgn] in H; rewrite cscale_1 in H; auto.
Qed.

(** * A linear map that sends the generators to Pauli strings is a Clifford *)
Section Clif.
Variables (n : nat) (t : state -> state) (cm : cmap) (phi0 : state).
Hypothesis T1 : linear t.
Hypothesis T2 : forall phi, on_register n (t phi).
Hypothesis T3 : on_register n phi0 /\ t phi0 <> zero_state.
Hypothesis HX : forall i phi, (i < n)%nat -> t (app_op (OApp1 mX i) phi) = ps_op (nth i (cm_x cm) ps0) (t phi).
Hypothesis HZ : forall i phi, (i < n)%nat -> t (app_op (OApp1 mZ i) phi) = ps_op (nth i (cm_z cm) ps0) (t phi).
Hypothesis L1 : length (cm_x cm) = n.
Hypothesis L2 : length (cm_z cm) = n.
Hypothesis L3 : length (cm_in cm) = n.
Hypothesis L4 : length (cm_out cm) = n.
Hypothesis HP : forall p, In p (cm_x cm ++ cm_z cm) -> ps_ok p /\ ps_dim p = n.
Lemma x_at i : (i < n)%nat -> ps_ok (nth i (cm_x cm) ps0) /\ ps_dim (nth i (cm_x cm) ps0) = n.
Proof. intros H. apply HP, in_or_app. left. apply nth_In. lia. Qed.
Lemma z_at i : (i < n)%nat -> ps_ok (nth i (cm_z cm) ps0) /\ ps_dim (nth i (cm_z cm) ps0) = n.
Proof. intros H. apply HP, in_or_app. right. apply nth_In. lia. Qed.
Lemma t_inj c phi : t (cscale c phi) = cscale c (t phi).
Proof. apply T1. Qed.
Lemma clif_valid : cm_valid n cm.
Proof.
  split; [auto|]. split; [auto|]. split; [auto|]. split; [auto|]. split; [auto|]. intros i j Hi Hj.
  destruct (x_at i Hi) as [A1 A2], (x_at j Hj) as [B1 B2], (z_at i Hi) as [C1' C2], (z_at j Hj) as [D1 D2]. destruct T3 as [_ NZ].
  assert (CX : forall U V (s : bool), (i = j -> mmul U V = mscale (sgn s) (mmul V U)) -> (i <> j -> s = false) ->
    app_op (OApp1 U i) (app_op (OApp1 V j) phi0) = cscale (sgn s) (app_op (OApp1 V j) (app_op (OApp1 U i) phi0))).
  { intros U V s E1 E2. destruct (Nat.eq_dec i j) as [<-|N]; [rewrite !app1_app1, E1, app1_sgn; auto|]. rewrite E2 by auto. cbn [sgn]. rewrite cscale_1. apply app1_comm; auto. }
  split; [|split].
  - intros psi. rewrite (ps_comm_at _ _ false (t phi0)); [cbn [sgn]; rewrite cscale_1; auto|auto|auto|congruence|auto|].
    rewrite <- !HX, <- t_inj by auto. f_equal. apply CX; [intros ->; cbn [sgn]; meq; ring|auto].
  - intros psi. rewrite (ps_comm_at _ _ false (t phi0)); [cbn [sgn]; rewrite cscale_1; auto|auto|auto|congruence|auto|].
    rewrite <- !HZ, <- t_inj by auto. f_equal. apply CX; [intros ->; cbn [sgn]; meq; ring|auto].
  - assert (G : forall psi, ps_op (nth i (cm_x cm) ps0) (ps_op (nth j (cm_z cm) ps0) psi) = cscale (sgn (i =? j)%nat) (ps_op (nth j (cm_z cm) ps0) (ps_op (nth i (cm_x cm) ps0) psi))).
    { apply (ps_comm_at _ _ _ (t phi0)); auto; [congruence|]. rewrite <- HZ, <- HX, <- HX, <- HZ, <- t_inj by auto. f_equal.
      apply CX; [intros ->; rewrite Nat.eqb_refl; unfold mX, mZ; cbn [sgn]; meq; ring|]. intros N. apply Nat.eqb_neq; auto. }
    destruct (i =? j)%nat; intros psi; rewrite G; cbn [sgn]; auto. rewrite cscale_1. auto.
Qed.
Lemma clif_sem l : (forall i, In i l -> berg_gate i /\ NoDup (iqubits i) /\ forall q, In q (iqubits i) -> (q < n)%nat) -> realises n cm (gates l) ->
  exists c, c <> C0 /\ forall phi, on_register n phi -> t phi = cscale c (gates l phi).
Proof.
  intros HL HR. destruct (gates_inv n l HL) as (V & V1 & V2 & V3 & V4).
  destruct (schur n (fun phi => V (t phi))) as (c & Hc).
  - apply (linear_comp V t); auto.
  - intros phi _. auto.
  - intros i phi Hi. cbn beta. rewrite HX by auto. rewrite <- (V2 (t phi)) at 1. rewrite <- (proj1 (HR i Hi _)), V1. auto.
  - intros i phi Hi. cbn beta. rewrite HZ by auto. rewrite <- (V2 (t phi)) at 1. rewrite <- (proj2 (HR i Hi _)), V1. auto.
  - assert (E : forall phi, on_register n phi -> t phi = cscale c (gates l phi)). { intros phi Hp. rewrite <- gates_scale, <- Hc, V2; auto. }
    exists c. split; auto. intros ->. destruct T3 as [A B]. apply B. rewrite E by auto. extensionality g. unfold cscale, zero_state. ring.
Qed.
End Clif.

(** * The Pauli strings and the exponentials of a focused flow *)
Lemma rmap_map {A B D} (h : A -> B) (g : B -> res D) l : rmap (fun a => g (h a)) l = rmap g (map h l).
Proof. induction l as [|a l IH]; auto. cbn [rmap map]. destruct (g (h a)); cbn [rbind]; auto. rewrite IH. auto. Qed.
Lemma rmap_pair_keys {B} (f : nat -> res B) l d : rmap (fun n => do s <- f n; Ok (n, s)) l = Ok d -> dkeys d = l.
Proof.
  revert d. induction l as [|a l IH]; intros d; cbn [rmap]; [intros [= <-]; auto|]. destruct (f a) as [b|]; cbn [rbind]; [|discriminate]. destruct (rmap _ l) as [d'|]; cbn [rbind]; [|discriminate].
  intros [= <-]. cbn [dkeys map fst]. f_equal. apply IH. auto.
Qed.
Section Fin.
Variables (it : iter) (f : pflow).
Local Notation og := (pf_og f).
Local Notation cf := (pf_cf f).
Local Notation ls := (pf_layers f).
Hypothesis Hit : iter_ok it.
Hypothesis OK : og_ok og.
Hypothesis SI : simple (og_graph og).
Hypothesis ND : NoDup (dkeys cf).
Hypothesis PF : pauli_flow og cf ls.
Hypothesis FO : focused og cf.
Hypothesis NE : og_out og <> [].
Lemma cf_keys v : In v (dkeys cf) <-> exists m, dget (og_meas og) v = Some m.
Proof.
  rewrite key_get. split.
  - intros H. apply (cf_dom _ _ (pfl_cf _ _ _ PF)) in H. apply (ok_meas _ OK) in H. apply key_get in H. auto.
  - intros (m & E). exists (cfs cf v). eapply meas_cf; eauto.
Qed.
Definition str_ok (v : nat) (p : pstring) : Prop := ps_ok p /\ ps_dim p = length (og_out og) /\
  (forall q n, nth_error (og_out og) q = Some n -> ps_x p q = sx (cfs cf v) n /\ ps_z p q = sz og (cfs cf v) n) /\ ps_s p = str_sign og v (cfs cf v).
Lemma strs_spec : exists strs, extraction_strings it f = Ok strs /\ forall v m, dget (og_meas og) v = Some m -> exists p, dget strs v = Some p /\ str_ok v p.
Proof.
  unfold extraction_strings. destruct (is_focused_decides f) as [[-> _]|[_ K]]; [apply (ok_meas _ OK)|auto|intros i s n E H; apply (cf_img _ _ (pfl_cf _ _ _ PF) i s n E H)| |tauto]. cbn [rbind].
  rewrite (rmap_map fst (fun n => do s <- extraction_ps it f n; Ok (n, s))). fold (dkeys cf).
  assert (SP : forall v, In v (dkeys cf) -> exists p, extraction_ps it f v = Ok p /\ str_ok v p).
  { intros v Hv. apply cf_keys in Hv. destruct Hv as (m & Em). pose proof (meas_cf og cf ls OK PF v m Em) as Es. destruct (extraction_ps_spec it f v (cfs cf v)) as (p & E & A & B & C & D); auto.
    - intros n Hn. apply (cfs_in og cf ls PF v n Hn).
    - eapply dget_is_key; eauto.
    - exists p. split; auto. split; auto. }
  destruct (rmap_pair (extraction_ps it f) (dkeys cf)) as (d & Ed & Hd); auto. { intros v Hv. destruct (SP v Hv) as (p & E & _). eauto. }
  exists d. split; [exact Ed|]. intros v m Em. assert (Hv : In v (dkeys cf)) by (apply cf_keys; eauto). destruct (SP v Hv) as (p & E & H). destruct (Hd v Hv) as (b & Eb & G). exists p. split; [congruence|auto].
Qed.
Definition exp_ok (v : nat) (e : pexp) : Prop := pe_angle e = angf og v /\ str_ok v (pe_ps e).
Lemma dag_spec strs : (forall v m, dget (og_meas og) v = Some m -> exists p, dget strs v = Some p /\ str_ok v p) ->
  exists d, dag_from_flow f strs = Ok (PDag d ls (og_out og)) /\ (forall v m, dget (og_meas og) v = Some m -> exists e, dget d v = Some e /\ exp_ok v e) /\ dkeys d = dkeys cf.
Proof.
  intros HS. unfold dag_from_flow. rewrite (rmap_map fst (fun n => do e <- pexp_node f strs n; Ok (n, e))). fold (dkeys cf).
  assert (SP : forall v, In v (dkeys cf) -> exists e, pexp_node f strs v = Ok e /\ exp_ok v e).
  { intros v Hv. apply cf_keys in Hv. destruct Hv as (m & Em). destruct (HS v m Em) as (p & Ep & Hp). unfold pexp_node. rewrite Ep, Em. cbn [of_opt rbind]. eexists. split; [reflexivity|]. split; [|exact Hp].
    cbn [pe_angle]. unfold angf, FlowCircMap.measf. rewrite Em. auto. }
  destruct (rmap_pair (pexp_node f strs) (dkeys cf)) as (d & Ed & Hd); auto. { intros v Hv. destruct (SP v Hv) as (e & E & _). eauto. }
  exists d. rewrite Ed. cbn [rbind]. split; [auto|]. split; [|eapply rmap_pair_keys; eauto].
  intros v m Em. assert (Hv : In v (dkeys cf)) by (apply cf_keys; eauto). destruct (SP v Hv) as (p & E & H). destruct (Hd v Hv) as (b & Eb & G). exists p. split; [congruence|auto].
Qed.
Lemma dag_is_ok d : (forall v m, dget (og_meas og) v = Some m -> exists e, dget d v = Some e /\ exp_ok v e) -> dkeys d = dkeys cf -> dag_ok (length (og_out og)) (PDag d ls (og_out og)).
Proof.
  intros HD HK. split.
  - cbn [pd_layers pd_exp]. intros s v Hs Hv. apply In_nth_error in Hs. destruct Hs as (i & Hs). rewrite nth_tl in Hs. assert (IL : in_layer ls (S i) v) by (exists s; auto).
    destruct (layer_meas og cf ls OK PF NE v i IL) as (m & Em). destruct (HD v m Em) as (e & E & _). eauto.
  - cbn [pd_exp]. intros v e E. assert (Hv : In v (dkeys cf)) by (rewrite <- HK; eapply dget_is_key; eauto). apply cf_keys in Hv. destruct Hv as (m & Em). destruct (HD v m Em) as (e' & E' & _ & A & B & _). assert (e = e') by congruence. subst. auto.
Qed.
Lemma str_op v p chi : str_ok v p -> ps_op p (unload (og_out og) chi) = unload (og_out og) (sgnop (str_sign og v (cfs cf v)) (pprod (og_out og) (sx (cfs cf v)) (sz og (cfs cf v))) chi).
Proof.
  intros (A & B & C & D). rewrite ps_op_pprod by auto. rewrite B, D. unfold sgnop. rewrite unload_scale. f_equal. symmetry. apply unload_pprod; [apply (ok_out _ OK)|auto].
Qed.
Lemma exp_unload v e chi : exp_ok v e -> pexp_op e (unload (og_out og) chi) = unload (og_out og) (nexp og cf v chi).
Proof. intros [A B]. unfold pexp_op, nexp, exp_op. rewrite (str_op v) by auto. rewrite A, unload_add, !unload_scale. auto. Qed.
Lemma exps_unload d : (forall v m, dget (og_meas og) v = Some m -> exists e, dget d v = Some e /\ exp_ok v e) ->
  forall chi, exps (dag_ops it (PDag d ls (og_out og))) (unload (og_out og) chi) = unload (og_out og) (fold_left (fun chi v => nexp og cf v chi) (order_of it ls) chi).
Proof.
  intros HD. unfold dag_ops. change (dag_order it (PDag d ls (og_out og))) with (order_of it ls).
  assert (IN : forall v, In v (order_of it ls) -> exists e, dget d v = Some e /\ exp_ok v e).
  { intros v Hv. apply order_in in Hv; auto. destruct Hv as (i & Hi). destruct (layer_meas og cf ls OK PF NE v i Hi) as (m & Em). eauto. }
  induction (order_of it ls) as [|v l IH]; intros chi; auto. cbn [flat_map pd_exp fold_left]. destruct (IN v) as (e & -> & He); [left; auto|]. cbn [app]. unfold exps. cbn [fold_left]. rewrite (exp_unload v) by auto.
  apply IH. intros; apply IN; right; auto.
Qed.

(** * The Clifford map *)
Hypothesis HC : og_cliff og = [].
Hypothesis HM : forall i s, In i (og_in og) -> forall ax, dget (og_meas og) i = Some (MPauli ax s) -> s = Plus.
Lemma load_onins ph : onins og (load (og_in og) ph).
Proof. intros n Hn Ni. intros g b. apply load_dep. intros k Hk. unfold upd. destruct (Nat.eqb_spec k n) as [->|]; [tauto|auto]. Qed.
Definition tmap (ph : state) : state := unload (og_out og) (GT og [] (load (og_in og) ph)).
Lemma tmap_linear : linear tmap.
Proof.
  split.
  - intros c ph. unfold tmap, GT. rewrite load_scale, !den_scale, unload_scale. auto.
  - intros a b. unfold tmap, GT. rewrite load_add, !den_add, unload_add. auto.
Qed.
Lemma tmap_reg ph : on_register (length (og_out og)) (tmap ph).
Proof. apply unload_reg, OK. Qed.
Lemma nexp_zero l : fold_left (fun chi v => nexp og cf v chi) l zero_state = zero_state.
Proof.
  assert (E : forall v, nexp og cf v zero_state = zero_state). { intros v. rewrite <- (cscale_zero C0) at 1. rewrite nexp_scale. extensionality g. unfold cscale, zero_state. ring. }
  induction l as [|v l IH]; auto. cbn [fold_left]. rewrite E. auto.
Qed.
Lemma GT_dep ph T : dep (og_out og) (GT og T (load (og_in og) ph)).
Proof.
  unfold GT. apply dep_mops. assert (I : forall n, In n (g_nodes (og_graph og)) -> In n (dkeys (og_meas og) ++ og_out og)) by (intros n; apply Permutation_in, part_perm; auto).
  apply dep_den.
  - intros p Hp n Hn. unfold cz_ops in Hp. apply in_map_iff in Hp. destruct Hp as (e & <- & He). destruct (es_in og OK e He). cbn [onodes] in Hn. apply I. destruct Hn as [<-|[<-|[]]]; auto.
  - eapply dep_sub; [|apply load_dep]. intros n Hn. apply I. apply (ok_in _ OK); auto.
Qed.
Definition ones : state := fun _ => C1.
Lemma tmap_nz : on_register (length (og_out og)) ones /\ tmap ones <> zero_state.
Proof.
  split; [intros g g' _; auto|]. intros E.
  assert (Z : GT og [] (load (og_in og) ones) = zero_state). { rewrite <- (load_unload (og_out og) (GT og [] _)); [|apply (ok_out _ OK)|apply GT_dep]. unfold tmap in E. rewrite E. reflexivity. }
  destruct (full_map it og cf ls Hit OK SI PF FO NE) as (c & _ & FM). specialize (FM _ (load_onins ones)). rewrite Z, nexp_zero, cscale_zero in FM.
  apply (map_nonzero it f) in FM; auto; [|apply load_onins]. apply (f_equal (fun s => s (fun _ => false))) in FM. unfold load, ones, zero_state in FM. apply (f_equal re) in FM. cbn in FM. lra.
Qed.
Definition zx_ok (U : mat2) (k : nat) (p : pstring) : Prop := ps_ok p /\ ps_dim p = length (og_out og) /\ forall ph, tmap (app_op (OApp1 U k) ph) = ps_op p (tmap ph).
Lemma op_of (S : nset) s p : ps_ok p -> ps_dim p = length (og_out og) -> (forall q n, nth_error (og_out og) q = Some n -> ps_x p q = sx S n /\ ps_z p q = sz og S n) -> ps_s p = s ->
  forall chi, ps_op p (unload (og_out og) chi) = unload (og_out og) (sgnop s (pprod (og_out og) (sx S) (sz og S)) chi).
Proof.
  intros A B C D chi. rewrite ps_op_pprod by auto. rewrite B, D. unfold sgnop. rewrite unload_scale. f_equal. symmetry. apply unload_pprod; [apply (ok_out _ OK)|auto].
Qed.
Lemma xs_spec : og_in og <> [] -> exists xs, x_map_from_flow it f = Ok xs /\ length xs = length (og_in og) /\ forall k, (k < length (og_in og))%nat -> zx_ok mX k (nth k xs ps0).
Proof.
  intros NI. destruct (x_map_spec it f Hit OK SI PF NI) as (xs & E & F). exists xs. split; auto. split; [symmetry; eapply Forall2_len; eauto|]. intros k Hk.
  destruct (Forall2_nth _ _ _ 0%nat ps0 k F Hk) as (S & A1 & A2 & A3 & A4 & A5 & A6 & A7). split; [auto|]. split; [auto|]. intros ph. unfold tmap.
  rewrite (load_app1 (og_in og) mX k (nth k (og_in og) 0%nat)); [|apply (ok_in _ OK)|apply nth_error_nth'; auto].
  rewrite (map_X og OK S) by (auto; apply load_onins). symmetry. apply op_of; auto.
Qed.
Lemma zs_spec strs : (forall v m, dget (og_meas og) v = Some m -> exists p, dget strs v = Some p /\ str_ok v p) ->
  exists zs, z_map_from_flow f strs = Ok zs /\ length zs = length (og_in og) /\ forall k, (k < length (og_in og))%nat -> zx_ok mZ k (nth k zs ps0).
Proof.
  intros HS. unfold z_map_from_flow. pose proof (proj1 (ok_out _ OK)) as NO.
  assert (OUT : forall i, In i (og_in og) -> dget (og_meas og) i = None -> exists q, nth_error (og_out og) q = Some i).
  { intros i Hi E. apply In_nth_error. destruct (in_dec Nat.eq_dec i (og_out og)); auto. exfalso. apply dget_None in E. apply E. apply (ok_meas _ OK). split; auto. apply (ok_in _ OK); auto. }
  match goal with |- context [rmap ?F ?l] => destruct (rmap_ok F l) as (zs & E & FF) end.
  { intros i Hi. destruct (dget (og_meas og) i) as [m|] eqn:Em.
    - destruct (HS i m Em) as (p & -> & _). cbn. eauto.
    - destruct (OUT i Hi Em) as (q & Hq). rewrite (proj1 (out_index _ q i NO) Hq). cbn. eauto. }
  exists zs. split; [exact E|]. split; [symmetry; eapply Forall2_len; eauto|]. intros k Hk. pose proof (Forall2_nth _ _ _ 0%nat ps0 k FF Hk) as H. cbn beta in H.
  assert (Hi : In (nth k (og_in og) 0%nat) (og_in og)) by (apply nth_In; auto). assert (Ek : nth_error (og_in og) k = Some (nth k (og_in og) 0%nat)) by (apply nth_error_nth'; auto).
  set (i := nth k (og_in og) 0%nat) in *. destruct (dget (og_meas og) i) as [m|] eqn:Em.
  - destruct (HS i m Em) as (p & Ep & Hp). rewrite Ep in H. cbn in H. injection H as <-. pose proof Hp as (A & B & C & D). split; auto. split; auto. intros ph. unfold tmap.
    rewrite (load_app1 (og_in og) mZ k i) by (auto; apply (ok_in _ OK)). destruct (input_bits og cf ls OK SI PF i m Hi Em) as [BX BZ].
    rewrite (map_Z og OK (cfs cf i)); [| |eapply dget_is_key; eauto| |auto|auto| |apply load_onins].
    + symmetry. rewrite (str_op i) by auto. f_equal. f_equal. rewrite str_sign_eq. assert (yz_at og i = false) as ->; [|apply xorb_false_r]. unfold yz_at. rewrite Em. destruct m as [a [| |]|]; auto.
      exfalso. assert (LB : labelled og i (LPlane PYZ)) by (exists (MBloch a PYZ); auto). pose proof (meas_cf og cf ls OK PF i _ Em) as Es. destruct (pfl_6 _ _ _ PF i _ Es LB) as [K _]. unfold sx in BX. congruence.
    + intros n Hn. apply (cfs_in og cf ls PF i n Hn).
    + unfold minus_at. rewrite Em. destruct m as [|ax s]; auto. rewrite (HM i s Hi ax Em). auto.
    + intros n Hn Nn. apply key_get in Hn. destruct Hn as (m' & Em'). replace (FlowCircMap.measf og n) with m' by (unfold FlowCircMap.measf; rewrite Em'; auto).
      apply (focused_fit og cf i (cfs cf i) OK SI FO (meas_cf og cf ls OK PF i _ Em) n m'); auto.
  - destruct (OUT i Hi Em) as (q & Hq). rewrite (proj1 (out_index _ q i NO) Hq) in H. cbn in H. injection H as <-.
    assert (Lq : (q < length (og_out og))%nat) by (apply nth_error_Some; congruence).
    split; [split; cbn; [repeat constructor; intros []|intros j [<-|[]]; auto]|]. split; [auto|]. intros ph. unfold tmap.
    rewrite (load_app1 (og_in og) mZ k i) by (auto; apply (ok_in _ OK)). rewrite map_Z_out by (auto; eapply nth_error_In; eauto). rewrite (unload_app1 _ mZ q i) by auto.
    unfold ps_op. cbn [ps_sign ps_axes axes_op sign_C]. change (axes_op [(q, AZ)] ?p) with (app_op (OApp1 (axis_mat AZ) q) p). symmetry. change (sign_C Plus) with (RtoC 1). replace (RtoC 1) with C1 by (apply C_eq; cbn; ring). rewrite cscale_1. auto.
Qed.
Theorem extract_sem : length (og_in og) = length (og_out og) -> exists c, extracted_circuit it f = Ok c /\ c_width c = length (og_out og) /\
  (forall i, In i (c_instr c) -> is_meas i = false) /\
  exists z, z <> C0 /\ forall o k ph, on_register (length (og_out og)) ph -> den (graph_ops og) (load (og_in og) ph) = cscale z (load (og_out og) (csem o k (c_instr c) ph)).
Proof.
  intros LEN. assert (Hn : (0 < length (og_out og))%nat) by (destruct (og_out og); [congruence|cbn; lia]). set (n := length (og_out og)) in *.
  assert (NI : og_in og <> []) by (intros K; rewrite K in LEN; cbn in LEN; lia).
  destruct strs_spec as (strs & ES & HS). destruct (dag_spec strs HS) as (d & ED & HD & HK). destruct (zs_spec strs HS) as (zs & EZ & LZ & HZ). destruct (xs_spec NI) as (xs & EX & LX & HX).
  set (cm := CMap xs zs (og_in og) (og_out og)). set (dag := PDag d ls (og_out og)) in *.
  assert (DO : dag_ok n dag) by (apply dag_is_ok; auto).
  assert (VX : forall i ph, (i < n)%nat -> tmap (app_op (OApp1 mX i) ph) = ps_op (nth i (cm_x cm) ps0) (tmap ph)) by (intros i ph Hi; apply HX; lia).
  assert (VZ : forall i ph, (i < n)%nat -> tmap (app_op (OApp1 mZ i) ph) = ps_op (nth i (cm_z cm) ps0) (tmap ph)) by (intros i ph Hi; apply HZ; lia).
  assert (HP : forall p, In p (cm_x cm ++ cm_z cm) -> ps_ok p /\ ps_dim p = n).
  { intros p Hp. apply in_app_or in Hp. cbn [cm cm_x cm_z] in Hp. destruct Hp as [Hp|Hp]; apply (In_nth _ _ ps0) in Hp; destruct Hp as (k & Hk & <-); [destruct (HX k) as (A & B & _); [lia|auto]|destruct (HZ k) as (A & B & _); [lia|auto]]. }
  assert (CV : cm_valid n cm). { apply (clif_valid n tmap cm ones tmap_linear tmap_nz VX VZ); auto; cbn [cm cm_x cm_z cm_in cm_out]; lia. }
  destruct (berg_correct n cm Hn CV) as (lc & EL & OKL & R). destruct (dag_ladder it n dag Hit DO) as (le & EE & OKE & z1 & P1 & SE).
  assert (EG : forall o k ph, csem o k lc ph = gates lc ph) by (intros; apply csem_gates; intros i Hi; apply OKL; auto).
  destruct (clif_sem n tmap cm ones tmap_linear tmap_reg tmap_nz VX VZ) with (l := lc) as (z2 & P2 & SC).
  { intros i Hi. split; [eapply berg_gates_ok; eauto|]. apply OKL in Hi. destruct Hi as (_ & H). auto. }
  { intros i Hi psi. pose proof (R (fun _ => false) 0%nat i Hi psi) as Q. rewrite !EG in Q. auto. }
  exists (Circ n (lc ++ le) (of_list (range n))). split; [|split; [auto|split]].
  - unfold extracted_circuit, extract_circuit. rewrite HC, ES. cbn [rbind]. rewrite ED. cbn [rbind]. unfold cmap_from_flow. rewrite EZ. cbn [rbind]. rewrite EX. cbn [rbind]. fold cm dag.
    unfold er_to_circuit. cbn [dag pd_out cm cm_out]. destruct (list_eq_dec Nat.eq_dec (og_out og) (og_out og)); [|congruence]. fold n.
    unfold cm_berg_pass. fold cm dag. rewrite EL. cbn [rbind]. rewrite (circ_extend_ok n lc OKL) by auto. cbn [rbind]. unfold pexp_ladder_pass. rewrite EE. cbn [rbind].
    rewrite (circ_extend_ok n le OKE) by auto. cbn [c_instr circ_new app]. auto.
  - cbn [c_instr]. intros i Hi. apply in_app_or in Hi. destruct Hi as [Hi|Hi]; [apply OKL in Hi|apply OKE in Hi]; apply Hi.
  - destruct (graph_ops_GT og OK HC) as (k1 & NK & G). destruct (full_map it og cf ls Hit OK SI PF FO NE) as (c & Pc & FM).
    assert (NZ1 := phase_nz _ P1). assert (NZc := phase_nz _ Pc).
    exists (k1 * c * z2 * Cconj z1)%C. split.
    { intros Z. apply Cmul_zero in Z. destruct Z as [Z|Z]; [apply Cmul_zero in Z; destruct Z as [Z|Z]; [apply Cmul_zero in Z; destruct Z; auto|auto]|]. apply (phase_nz _ (phase_conj _ P1) Z). }
    intros o k ph Hph. cbn [c_instr]. rewrite G. rewrite <- (load_unload (og_out og) (GT og _ _)) by (try apply (ok_out _ OK); apply GT_dep).
    rewrite FM by apply load_onins. rewrite unload_scale, <- (exps_unload d HD). fold dag. change (unload (og_out og) (GT og [] (load (og_in og) ph))) with (tmap ph). rewrite SC by auto.
    rewrite csem_app, SE, EG, exps_scale, !load_scale, !cscale_cscale. f_equal. transitivity (k1 * c * z2 * (z1 * Cconj z1))%C; [rewrite (phase_inv _ P1)|]; ring.
Qed.
End Fin.
