(** Extraction of corrections and flows from patterns: the branch maps of a
    standardized pattern and of the pattern regenerated from its
    XZ-corrections. *)
From Coq Require Import Reals Lra Arith ZArith List Bool Lia Permutation FunctionalExtensionality.
From Verif Require Import Cplx Mat2 NSet QState Fundamentals CliffordDb Clifford Measure Layer Pattern Standardize PropStd
  FlowSem FlowDet OpenGraph FlowSpec Flow FlowWF FlowPat OGMap PropFlow TopGen Corr Space SpaceMin SpaceHeur PropSpace TranspilePat.
Import ListNotations.

(** * Normal form of a branch of a standardized pattern *)
Definition mcx (o : nat -> bool) (m : mcmd) : bool := xorb (parity o (mc_s m)) (o (mc_node m) && sigx (mc_meas m)).
Definition mcz (o : nat -> bool) (m : mcmd) : bool := xorb (parity o (mc_t m)) (o (mc_node m) && sigz (mc_meas m)).
Definition mex (o : nat -> bool) (ms : list mcmd) (v : nat) : bool := fold_right (fun m b => xorb ((v =? mc_node m)%nat && mcx o m) b) false ms.
Definition mez (o : nat -> bool) (ms : list mcmd) (v : nat) : bool := fold_right (fun m b => xorb ((v =? mc_node m)%nat && mcz o m) b) false ms.
Definition mc0 (m : mcmd) : op := OMeas (mvec (mc_meas m) false) (mc_node m).
Lemma m_op o m : seq_ops o [mcmd_cmd m] ≈ [OApp1 (mXZ (mcx o m) (mcz o m)) (mc_node m); mc0 m].
Proof.
  unfold mcmd_cmd. cbn [seq_ops flat_map cmd_ops app].
  rewrite (meas_veqp _ _ (mc_node m) (describe_vec o (mc_meas m) (mc_s m) (mc_t m) (o (mc_node m)))), <- app1_meas.
  change [?a; ?b] with ([a] ++ [b]). rewrite meas_flip. cbn [app]. change (?a :: ?b :: ?l) with ([a; b] ++ l). rewrite app1_fuse. cbn [app]. unfold mc0.
  apply (leq_app [_] [_] [_] [_]); [|reflexivity]. apply app1_meqp. unfold mcx, mcz.
  rewrite (xorb_comm (parity o (mc_s m))), (xorb_comm (parity o (mc_t m))). apply mXZ_mul.
Qed.
Lemma mex_notin o ms v : ~ In v (map mc_node ms) -> mex o ms v = false /\ mez o ms v = false.
Proof.
  induction ms as [|m ms IH]; intros H; auto. cbn [map In] in H. destruct IH as [I1 I2]; [tauto|]. cbn [mex mez fold_right]. fold (mex o ms v) (mez o ms v). rewrite I1, I2.
  destruct (Nat.eqb_spec v (mc_node m)); [subst; tauto|]. auto.
Qed.
Lemma mex_in o ms m : NoDup (map mc_node ms) -> In m ms -> mex o ms (mc_node m) = mcx o m /\ mez o ms (mc_node m) = mcz o m.
Proof.
  induction ms as [|k ms IH]; intros ND H; [destruct H|]. cbn [map] in ND. inversion ND as [|? ? K1 K2]; subst. cbn [mex mez fold_right]. fold (mex o ms (mc_node m)) (mez o ms (mc_node m)).
  destruct H as [->|H].
  - rewrite Nat.eqb_refl. destruct (mex_notin o ms (mc_node m) K1) as [-> ->]. cbn [andb]. rewrite !xorb_false_r. auto.
  - destruct (IH K2 H) as [-> ->]. destruct (Nat.eqb_spec (mc_node m) (mc_node k)) as [E|E]; [exfalso; apply K1; rewrite <- E; apply in_map; auto|]. cbn [andb]. rewrite !xorb_false_l. auto.
Qed.
Lemma m_ops_norm o L ms : NoDup L -> NoDup (map mc_node ms) -> (forall n, In n (map mc_node ms) -> In n L) ->
  m_ops o ms ≈ player L (mex o ms) (mez o ms) ++ map mc0 ms.
Proof.
  intros NL. induction ms as [|m ms IH]; intros ND HL.
  - cbn. rewrite app_nil_r. symmetry. apply player_id; auto.
  - cbn [map] in ND, HL. inversion ND as [|? ? K1 K2]; subst. unfold m_ops. cbn [map]. change (mcmd_cmd m :: ?l) with ([mcmd_cmd m] ++ l). rewrite seq_ops_app. fold (m_ops o ms).
    rewrite m_op, IH by (auto; intros; apply HL; right; auto).
    assert (C1 : [mc0 m] ++ player L (mex o ms) (mez o ms) ≈ player L (mex o ms) (mez o ms) ++ [mc0 m]).
    { apply layer_comm. intros k _ [<-|[]]. destruct (mex_notin o ms (mc_node m) K1) as [-> ->]. unfold mXZ; cbn [mpow]. apply mmul_1_l. }
    change ([OApp1 ?a ?b; ?c] ++ ?r) with ([OApp1 a b] ++ ([c] ++ r)). rewrite (app_assoc [mc0 m]), C1, <- app_assoc, app_assoc. cbn [map app].
    change (mc0 m :: map mc0 ms) with ([mc0 m] ++ map mc0 ms). change (OApp1 ?a ?b :: ?r) with ([OApp1 a b] ++ r). rewrite (app_assoc [OApp1 _ _]). apply leq_app_r.
    assert (Hn : In (mc_node m) L) by (apply HL; left; auto).
    assert (X : [OApp1 (mXZ (mcx o m) (mcz o m)) (mc_node m)] ≈ player L (fun v => (v =? mc_node m)%nat && mcx o m) (fun v => (v =? mc_node m)%nat && mcz o m)).
    { transitivity (player L (fun _ => false) (fun _ => false) ++ [OApp1 (mXZ (mcx o m) (mcz o m)) (mc_node m)]).
      - rewrite (player_id L (fun _ => false) (fun _ => false)) by auto. reflexivity.
      - rewrite app1_player by auto. apply leq_eq, player_ext; intros; apply xorb_false_l. }
    rewrite X, !player_fuse by auto. apply leq_eq, player_ext; intros n _; reflexivity.
Qed.
Section StdBranch.
Context (o : nat -> bool) (st : stdp) (es : list (nat * nat)) (L : list nat).
Hypotheses (W : std_wf st) (HE : edge_enum st es) (NL : NoDup L) (HL : forall n, std_node st n -> In n L).
Let px v := parity o (dz (sp_x st) v).
Let pz v := parity o (dz (sp_z st) v).
Lemma std_branch : seq_ops o (std_cmds st es) ≈
  prep_ops (sp_n st) ++ cz_ops es ++ player L (fun v => xorb (mex o (sp_m st) v) (px v)) (fun v => xorb (mez o (sp_m st) v) (pz v))
    ++ map mc0 (sp_m st) ++ map (fun p => OApp1 (clifford_mat (snd p)) (fst p)) (sp_c st).
Proof.
  unfold std_cmds. rewrite !seq_ops_app, seq_ops_prep, seq_ops_cz. apply leq_app_l, leq_app_l. fold (m_ops o (sp_m st)).
  rewrite (corr_layer o st L); try (destruct W; auto; fail).
  2:{ intros n Hn. apply HL, (sw_zk _ W n Hn). } 2:{ intros n Hn. apply HL, (sw_xk _ W n Hn). } 2:{ intros n Hn. apply HL, (sw_ck _ W n Hn). }
  assert (E : layer L (pend o st) ≈ player L px pz ++ layer L (fun n => clifford_mat (cc st n))).
  { unfold player. rewrite layer_fuse by auto. reflexivity. }
  assert (F : layer L (fun n => clifford_mat (cc st n)) ≈ map (fun p => OApp1 (clifford_mat (snd p)) (fst p)) (sp_c st)).
  { change (map (fun p => OApp1 (clifford_mat (snd p)) (fst p)) (sp_c st)) with (dops clifford_mat (sp_c st)).
    rewrite (dops_layer _ (sp_c st) L); auto; [|apply W|intros n Hn; apply HL, (sw_ck _ W n Hn)]. apply leq_eq, layer_eq. intros n _. unfold cc, dval. destruct (dget (sp_c st) n); auto. apply clifford_mat_I. }
  rewrite E, F, (m_ops_norm o L) by (try apply W; auto; intros n Hn; apply HL, (sw_mn _ W); auto).
  rewrite !app_assoc. apply leq_app_r. rewrite <- app_assoc.
  assert (C1 : map mc0 (sp_m st) ++ player L px pz ≈ player L px pz ++ map mc0 (sp_m st)).
  { assert (G : forall ms, (forall m, In m ms -> In m (sp_m st)) -> map mc0 ms ++ player L px pz ≈ player L px pz ++ map mc0 ms).
    { induction ms as [|m ms IH]; intros Hm; [cbn; rewrite app_nil_r; reflexivity|]. cbn [map]. change (?a :: map mc0 ms) with ([a] ++ map mc0 ms). rewrite <- app_assoc, IH by (intros; apply Hm; right; auto).
      rewrite !app_assoc. apply leq_app_r. apply layer_comm. intros k _ [<-|[]].
      assert (Hk : std_meas st (mc_node m)) by (apply in_map, Hm; left; auto).
      assert (Z1 : dz (sp_x st) (mc_node m) = sempty). { unfold dz. destruct (dget (sp_x st) (mc_node m)) eqn:Q; auto. exfalso. apply dget_In in Q. apply (sw_xk _ W (mc_node m)); auto. apply (in_map fst _ _ Q). }
      assert (Z2 : dz (sp_z st) (mc_node m) = sempty). { unfold dz. destruct (dget (sp_z st) (mc_node m)) eqn:Q; auto. exfalso. apply dget_In in Q. apply (sw_zk _ W (mc_node m)); auto. apply (in_map fst _ _ Q). }
      unfold px, pz. rewrite Z1, Z2, !parity_empty. unfold mXZ; cbn [mpow]. apply mmul_1_l. }
    apply G; auto. }
  rewrite C1, app_assoc, player_fuse by auto. reflexivity.
Qed.
End StdBranch.

(** * Normal form of a branch of the pattern generated from corrections *)
Lemma xz_branch it xz order o : iter_ok it -> og_ok (xz_og xz) -> order_ok (xz_og xz) (xz_layers xz) -> xz_respects xz ->
  order_compat (xz_og xz) (xz_layers xz) order ->
  (forall u v, In u order -> mem v (dgets (xz_x xz) u) = true \/ mem v (dgets (xz_z xz) u) = true -> In v (g_nodes (og_graph (xz_og xz)))) ->
  seq_ops o (xz_cmds it xz order) ≈
  prep_ops (map (fun n => (n, SPlus)) (it (sdiff (og_nodes (xz_og xz)) (of_list (og_in (xz_og xz)))))) ++ cz_ops (g_edges (og_graph (xz_og xz))) ++
  player (g_nodes (og_graph (xz_og xz))) (accx (measf (xz_og xz)) (fun u => it (dgets (xz_x xz) u)) o order) (accz (measf (xz_og xz)) (fun u => it (dgets (xz_z xz) u)) o order) ++
  map (m0 (measf (xz_og xz))) order ++ map (fun p => OApp1 (clifford_mat (snd p)) (fst p)) (og_cliff (xz_og xz)).
Proof.
  intros Hit Hog Ho HR OC HT. pose proof (compat_ord it Hit xz Hog Ho HR order OC) as ORD. destruct OC as (ND & HM & _).
  unfold xz_cmds. rewrite !seq_ops_app, seq_N, seq_E, seq_C_ops. apply leq_app_l, leq_app_l. rewrite app_assoc. apply leq_app_r.
  set (L := g_nodes (og_graph (xz_og xz))). assert (NL : NoDup L) by apply (ok_graph _ Hog).
  pose proof (flow_norm (measf (xz_og xz)) (fun u => it (dgets (xz_x xz) u)) (fun u => it (dgets (xz_z xz) u)) o L order NL [] (fun _ => false) (fun _ => false) ND) as F.
  rewrite (player_id L (fun _ => false) (fun _ => false)) in F by auto. cbn [app] in F. rewrite F; auto.
  - apply leq_app_r. apply leq_eq, player_ext; intros; apply xorb_false_l.
  - intros u Hu. apply HM in Hu. apply Hu.
  - intros u Hu. split; [apply iter_NoDup; auto|]. split; [apply iter_NoDup; auto|]. intros v Hv. apply (HT u v Hu). destruct Hv as [Hv|Hv]; apply iter_In in Hv; auto.
Qed.
(** the accumulated exponents, as parities *)
Lemma acc_parity {A} (sig : nat -> bool) (c : nat -> list nat) o (order : list nat) v (D : nset) (a : A) :
  NoDup order -> (forall u, In u order -> lmem v (c u) = mem u D) -> (forall u, mem u D = true -> In u order) ->
  fold_right (fun u b => xorb (xorb (o u && lmem v (c u)) ((v =? u)%nat && o u && sig u)) b) false order = xorb (parity o D) (lmem v order && (o v && sig v)).
Proof.
  intros ND HC HD.
  assert (E : fold_right (fun u b => xorb (xorb (o u && lmem v (c u)) ((v =? u)%nat && o u && sig u)) b) false order
     = xorb (xorsum order (fun u => mem u D && o u)) (xorsum order (fun u => (v =? u)%nat && o u && sig u))).
  { rewrite <- xorsum_xorb. unfold xorsum. clear HD ND. induction order as [|u l IH]; cbn [fold_right]; auto. rewrite IH by (intros; apply HC; right; auto). rewrite (HC u) by (left; auto). rewrite (andb_comm (o u)). auto. }
  rewrite E. f_equal.
  - rewrite <- xorsum_filter. unfold parity. apply xorsum_perm, NoDup_Permutation; [apply NoDup_filter; auto|apply elems_NoDup|].
    intros u. rewrite filter_In, elems_spec. split; [tauto|]. intros K; auto.
  - clear E HC HD. induction order as [|u l IH]; auto. inversion ND as [|? ? K1 K2]; subst. cbn [xorsum fold_right]. fold (xorsum l (fun u => (v =? u)%nat && o u && sig u)). rewrite IH by auto.
    unfold lmem at 2. cbn [existsb]. fold (lmem v l). destruct (Nat.eqb_spec v u) as [->|N]; cbn [andb orb].
    + replace (lmem u l) with false; [cbn [andb]; apply xorb_false_r|]. symmetry. apply not_true_iff_false. rewrite lmem_In. auto.
    + apply xorb_false_l.
Qed.

(** * The extracted corrections regenerate the pattern *)
Section Round.
Variables (it : iter) (st : stdp) (es : list (nat * nat)).
Hypotheses (Hit : iter_ok it) (W : std_wf st) (SO : std_out_ok st) (NI : NoDup (sp_in st)) (HE : edge_enum st es) (HL : has_loop st = false).
Hypothesis HP : forall p, In p (sp_n st) -> snd p = SPlus.
Lemma z_get u v : mem v (dgets (fold_left (update_corrections it) (map (fun m => (mc_node m, mc_t m)) (sp_m st) ++ sp_z st) []) u) = true <->
  (exists m, In m (sp_m st) /\ mc_node m = v /\ mem u (mc_t m) = true) \/ exists D, In (v, D) (sp_z st) /\ mem u D = true.
Proof.
  destruct (corr_fold it (map (fun m => (mc_node m, mc_t m)) (sp_m st) ++ sp_z st) Hit [] (NoDup_nil _)) as (_ & A & _).
  rewrite A. unfold dgets at 1. cbn [dget]. rewrite mem_empty. setoid_rewrite in_app_iff. setoid_rewrite in_map_iff. split.
  - intros [K|(D & [(m & [= <- <-] & K1)|K1] & K2)]; [discriminate|eauto 6|eauto].
  - intros [(m & K1 & <- & K2)|(D & K1 & K2)]; eauto 8.
Qed.
Definition dom_of (proj : mcmd -> nset) (d : dict nset) (v : nat) : nset :=
  match find (fun m => (mc_node m =? v)%nat) (sp_m st) with Some m => proj m | None => dz d v end.
Lemma find_meas v m : In m (sp_m st) -> mc_node m = v -> find (fun m => (mc_node m =? v)%nat) (sp_m st) = Some m.
Proof.
  intros H E. pose proof (sw_mN _ W) as ND. revert H ND. induction (sp_m st) as [|k l IH]; intros H ND; [destruct H|]. cbn [map] in ND. inversion ND as [|? ? K1 K2]; subst. cbn [find].
  destruct H as [->|H]; [rewrite Nat.eqb_refl; auto|]. destruct (Nat.eqb_spec (mc_node k) (mc_node m)) as [Q|Q]; [exfalso; apply K1; rewrite Q; apply in_map; auto|]. auto.
Qed.
Lemma find_not v : ~ std_meas st v -> find (fun m => (mc_node m =? v)%nat) (sp_m st) = None.
Proof.
  intros H. destruct (find _ (sp_m st)) as [m|] eqn:E; auto. apply find_some in E. destruct E as [E1 E2]. apply Nat.eqb_eq in E2. subst v. elim H. apply in_map; auto.
Qed.
Lemma dom_spec (proj : mcmd -> nset) (d : dict nset) : NoDup (dkeys d) -> (forall n, In n (dkeys d) -> ~ std_meas st n) -> forall u v,
  mem u (dom_of proj d v) = true <-> (exists m, In m (sp_m st) /\ mc_node m = v /\ mem u (proj m) = true) \/ exists D, In (v, D) d /\ mem u D = true.
Proof.
  intros ND HK u v. unfold dom_of. destruct (in_dec Nat.eq_dec v (map mc_node (sp_m st))) as [I|I].
  - apply in_map_iff in I. destruct I as (m & E & I). rewrite (find_meas v m I E). split; [eauto|]. intros [(m' & I' & E' & K)|(D & K & _)].
    + assert (m' = m); [|subst; auto]. pose proof (find_meas v m I E) as F1. rewrite (find_meas v m' I' E') in F1. congruence.
    + exfalso. apply (HK v); [apply (in_map fst _ _ K)|]. rewrite <- E. apply in_map; auto.
  - rewrite find_not by auto. unfold dz. split.
    + intros K. right. destruct (dget d v) as [D|] eqn:Q; [|rewrite mem_empty in K; discriminate]. exists D. split; auto. apply dget_In; auto.
    + intros [(m & I' & E' & _)|(D & K & K')]; [exfalso; apply I; rewrite <- E'; apply in_map; auto|]. rewrite (In_dget d v D ND K). auto.
Qed.
Let x := fold_left (update_corrections it) (map (fun m => (mc_node m, mc_s m)) (sp_m st) ++ sp_x st) [].
Let z := fold_left (update_corrections it) (map (fun m => (mc_node m, mc_t m)) (sp_m st) ++ sp_z st) [].
Let og := OG (std_graph st es) (sp_in st) (sp_out st) (fold_left (fun d m => dset d (mc_node m) (mc_meas m)) (sp_m st) []) (sp_c st).
Lemma measf_std m : In m (sp_m st) -> measf og (mc_node m) = mc_meas m.
Proof.
  intros H. destruct (meas_dict (sp_m st) [] (sw_mN _ W) (NoDup_nil _)) as (_ & _ & C & _). unfold measf, og. cbn [og_meas]. rewrite (C m H). auto.
Qed.
Theorem std_xz_round ls order : order_ok og ls -> corr_ordered x z ls -> order_compat og ls order ->
  forall o, seq_ops o (xz_cmds it (XZ og x z ls) order) ≈ seq_ops o (std_cmds st es).
Proof.
  intros Ho CO OC o. pose proof (sog_ok st es W SO NI HE) as OG. fold og in OG.
  assert (CD : forall u v, corrects x z u v -> std_meas st u /\ std_node st v).
  { intros u v H. apply (corrects_depends it st Hit) in H. apply (depends_meas st W) in H. auto. }
  assert (HR : xz_respects (XZ og x z ls)).
  { intros u v _ H. cbn [xz_x xz_z xz_layers] in *. apply CO, corrects_dgets. auto. }
  assert (NE : forall n, In n order <-> std_meas st n).
  { intros n. destruct OC as (_ & HM & _). rewrite HM. cbn [og og_graph og_out]. rewrite (sg_nodes st es W). rewrite (proj2 SO). split.
    - intros [K1 K2]. destruct (in_dec Nat.eq_dec n (map mc_node (sp_m st))); auto. exfalso. apply K2. split; auto.
    - intros K. split; [apply (sw_mn _ W); auto|]. tauto. }
  rewrite (xz_branch it (XZ og x z ls) order o Hit OG Ho HR OC).
  2:{ intros u v Hu K. cbn [xz_x xz_z xz_og] in *. apply corrects_dgets in K. apply CD in K. apply sg_nodes; auto. tauto. }
  cbn [xz_og xz_x xz_z]. set (L := g_nodes (og_graph og)). assert (NL : NoDup L) by apply (ok_graph _ OG).
  rewrite (std_branch o st es L W NL) by (intros n Hn; unfold L; cbn [og og_graph]; apply sg_nodes; auto).
  apply leq_app; [|apply leq_app; [reflexivity|apply leq_app; [|apply leq_app; [|reflexivity]]]].
  - assert (EN : sp_n st = map (fun n => (n, SPlus)) (map fst (sp_n st))).
    { rewrite map_map. rewrite <- (map_id (sp_n st)) at 1. apply map_ext_in. intros [n s] H. specialize (HP _ H). cbn in HP |- *. rewrite HP. auto. }
    rewrite EN. apply prep_ops_perm; [rewrite map_map; cbn [fst]; rewrite map_id; apply iter_NoDup; auto|]. apply Permutation_map, NoDup_Permutation; [apply iter_NoDup; auto|apply W|].
    intros n. rewrite iter_In by auto. unfold og_nodes. rewrite mem_sdiff, andb_true_iff, negb_true_iff, <- not_true_iff_false, !mem_of_list. unfold og. cbn [og_graph og_in]. rewrite (sg_nodes st es W). split.
    + intros [[K|K] K']; [tauto|auto].
    + intros K. split; [right; auto|]. apply (sw_nin _ W); auto.
  - apply leq_eq. destruct OC as (ND & _ & _). apply player_ext; intros v Hv; cbn [xz_x xz_z].
    + unfold accx. rewrite (acc_parity (fun u => sigx (measf og u)) (fun u => it (dgets x u)) o order v (dom_of mc_s (sp_x st) v) tt ND).
      * destruct (in_dec Nat.eq_dec v (map mc_node (sp_m st))) as [I|I].
        -- replace (lmem v order) with true by (symmetry; apply lmem_In, NE; auto). apply in_map_iff in I. destruct I as (m & <- & I). rewrite (proj1 (mex_in o (sp_m st) m (sw_mN _ W) I)).
           unfold dom_of. rewrite (find_meas _ m I eq_refl), measf_std by auto. unfold mcx. cbn [andb].
           assert (Z1 : dz (sp_x st) (mc_node m) = sempty). { unfold dz. destruct (dget (sp_x st) (mc_node m)) eqn:Q; auto. exfalso. apply dget_In in Q. apply (sw_xk _ W (mc_node m) (in_map fst _ _ Q)). apply in_map; auto. }
           rewrite Z1, parity_empty, xorb_false_r. auto.
        -- replace (lmem v order) with false by (symmetry; apply not_true_iff_false; rewrite lmem_In, NE; auto). rewrite (proj1 (mex_notin o _ v I)). unfold dom_of. rewrite find_not by auto. cbn [andb]. rewrite xorb_false_l, xorb_false_r. auto.
      * intros u Hu. apply eq_true_iff_eq. rewrite lmem_In, iter_In by auto. rewrite (dom_spec mc_s (sp_x st)); [apply (x_get it st Hit)|apply W|intros n Hn; apply (sw_xk _ W n Hn)].
      * intros u Hu. apply NE. apply (dom_spec mc_s (sp_x st)) in Hu; [|apply W|intros n Hn; apply (sw_xk _ W n Hn)]. apply (x_get it st Hit) in Hu. assert (K : corrects x z u v) by (apply corrects_dgets; auto). apply CD in K. tauto.
    + unfold accz. rewrite (acc_parity (fun u => sigz (measf og u)) (fun u => it (dgets z u)) o order v (dom_of mc_t (sp_z st) v) tt ND).
      * destruct (in_dec Nat.eq_dec v (map mc_node (sp_m st))) as [I|I].
        -- replace (lmem v order) with true by (symmetry; apply lmem_In, NE; auto). apply in_map_iff in I. destruct I as (m & <- & I). rewrite (proj2 (mex_in o (sp_m st) m (sw_mN _ W) I)).
           unfold dom_of. rewrite (find_meas _ m I eq_refl), measf_std by auto. unfold mcz. cbn [andb].
           assert (Z1 : dz (sp_z st) (mc_node m) = sempty). { unfold dz. destruct (dget (sp_z st) (mc_node m)) eqn:Q; auto. exfalso. apply dget_In in Q. apply (sw_zk _ W (mc_node m) (in_map fst _ _ Q)). apply in_map; auto. }
           rewrite Z1, parity_empty, xorb_false_r. auto.
        -- replace (lmem v order) with false by (symmetry; apply not_true_iff_false; rewrite lmem_In, NE; auto). rewrite (proj2 (mex_notin o _ v I)). unfold dom_of. rewrite find_not by auto. cbn [andb]. rewrite xorb_false_l, xorb_false_r. auto.
      * intros u Hu. apply eq_true_iff_eq. rewrite lmem_In, iter_In by auto. rewrite (dom_spec mc_t (sp_z st)); [apply z_get|apply W|intros n Hn; apply (sw_zk _ W n Hn)].
      * intros u Hu. apply NE. apply (dom_spec mc_t (sp_z st)) in Hu; [|apply W|intros n Hn; apply (sw_zk _ W n Hn)]. apply z_get in Hu. assert (K : corrects x z u v) by (apply corrects_dgets; auto). apply CD in K. tauto.
  - destruct OC as (ND & _ & _). transitivity (map (m0 (measf og)) (map mc_node (sp_m st))).
    + apply (meas_ops_perm (fun u => mvec (measf og u) false) (fun u => u)); [rewrite map_id; auto|apply NoDup_Permutation; [auto|apply (sw_mN _ W)|apply NE]].
    + rewrite map_map. apply leq_eq, map_ext_in. intros m Hm. unfold m0, mc0. rewrite measf_std; auto.
Qed.
End Round.
