(** Model of Clifford.to_opengraph (clifford.py:185-196), of the table
    CLIFFORD_PAULI_DECOMPOSITION (_db.py:231-256) and of
    optimization.remove_local_clifford_commands (optimization.py:613-650). *)
From Coq Require Import Reals Lra Arith List Bool Lia Permutation FunctionalExtensionality.
From Verif Require Import Cplx Mat2 NSet Fundamentals CliffordDb Clifford Measure QState Layer Pattern Standardize FlowSem FlowDet
  OpenGraph FlowSpec Flow FlowWF FlowPat OGMap PropFlow CFlow PropFind GPFlow PropGPFlow PropExtract TranspilePat Extract PropSpace Space SpaceMin SpaceHeur Compose Reindex GraphSimThm RunBranch RemovePauliFin Simulator.
Import ListNotations.

(** * The code *)
Definition pX := MPauli AX Plus.
Definition nX := MPauli AX Minus.
Definition pY := MPauli AY Plus.
Definition nY := MPauli AY Minus.
(** _db.py:231-256 CLIFFORD_PAULI_DECOMPOSITION *)
Definition clifford_decomp (c : clifford) : list measurement :=
  match c with
  | K0 => []
  | K1 => [pX; nX]
  | K2 => [nX; nX]
  | K3 => [nX; pX]
  | K4 => [nY; pX]
  | K5 => [pY; pX]
  | K6 => [pX]
  | K7 => [pX; nY]
  | K8 => [nX]
  | K9 => [nY; nX]
  | K10 => [pY; nX]
  | K11 => [pX; nX; nX]
  | K12 => [pX; nX; pX]
  | K13 => [nX; nY]
  | K14 => [nX; pY]
  | K15 => [pX; pY]
  | K16 => [pY]
  | K17 => [pX; nX; pY]
  | K18 => [pX; nX; nY]
  | K19 => [nY]
  | K20 => [pY; pY]
  | K21 => [nY; nY]
  | K22 => [pY; nY]
  | K23 => [nY; pY]
  end.
(** networkx.path_graph(n) *)
Definition path_graph (n : nat) : graph := Graph (seq 0 n) (map (fun i => (i, S i)) (seq 0 (pred n))).
(** clifford.py:185-196 to_opengraph *)
Definition clifford_to_og (c : clifford) : res opengraph :=
  let d := clifford_decomp c in
  let n := length d in
  og_make (path_graph (S n)) [0] [n] (combine (seq 0 n) d) [].
(** optimization.py:632-646 one iteration of the loop; the state is
    (new_pattern, max_node, mapping).  [(output_node,) = ...] raises ValueError
    if there is not exactly one output *)
Definition lcf_step (it : iter) (st : pattern * nat * dict nat) (c : cmd) : res (pattern * nat * dict nat) :=
  let '(np, mx, mp) := st in
  match c with
  | CC n cl =>
      let u := rl mp n in
      do og <- clifford_to_og cl;
      do q <- og_to_pattern it og;
      match p_out q with
      | [out] =>
          do q' <- reindex (fun k => if (k =? 0)%nat then u else k + mx) q;
          Ok (pat_extend np (p_seq q'), mx + out, dset mp n (mx + out))
      | _ => Err EValue
      end
  | _ => Ok (pat_add np (cmd_reindex (rl mp) c), mx, mp)
  end.
(** optimization.py:613-650 remove_local_clifford_commands *)
Definition remove_local_clifford (it : iter) (p : pattern) : res pattern :=
  if is_empty (pat_nodes p) then Ok p
  else
    do mx <- rmax (elems (pat_nodes p));
    do st <- rfold (lcf_step it) (p_seq p) (pat_new (p_in p), mx, []);
    let '(np, _, mp) := st in
    reorder_output_nodes np (map (rl mp) (p_out p)).

(** * The gadgets *)
Definition tr (u v n : nat) : nat := if (n =? u)%nat then v else if (n =? v)%nat then u else n.
Ltac tr_tac := unfold tr; repeat match goal with |- context[(?a =? ?b)%nat] => lazymatch a with context[Nat.eqb] => fail | _ => lazymatch b with context[Nat.eqb] => fail | _ => destruct (Nat.eqb_spec a b) end end end; try lia.
Lemma tr_tr u v n : tr u v (tr u v n) = n.
Proof. tr_tac. Qed.
Lemma tr_inv u v : inverses (tr u v) (tr u v).
Proof. split; intros; apply tr_tr. Qed.
Lemma tr_l u v : tr u v u = v.
Proof. tr_tac. Qed.
Lemma tr_r u v : tr u v v = u.
Proof. tr_tac. Qed.
Lemma tr_o u v n : n <> u -> n <> v -> tr u v n = n.
Proof. tr_tac. Qed.
Lemma relab_relab F G psi : relab F (relab G psi) = relab (fun n => F (G n)) psi.
Proof. reflexivity. Qed.
Lemma relab_scale F c psi : relab F (cscale c psi) = cscale c (relab F psi).
Proof. reflexivity. Qed.
Lemma relab_indep F G n psi : inverses F G -> indep (G n) psi -> indep n (relab F psi).
Proof.
  intros H I f b. unfold relab. replace (fun k => upd f n b (F k)) with (upd (fun k => f (F k)) (G n) b); [apply I|].
  extensionality k. rewrite <- (relab_upd F G H). f_equal. rewrite (proj2 H). auto.
Qed.
Lemma app1_scale A B c q psi : A = mscale c B -> app_op (OApp1 A q) psi = cscale c (app_op (OApp1 B q) psi).
Proof. intros ->. extensionality f. unfold cscale. simpl. destruct (f q); simpl; ring. Qed.
(** teleportation of one qubit: the matrix implemented by a measurement of [v] *)
Definition jmat (v : vec2) : mat2 := Mat2 (Cconj (v0 v)) (Cconj (v1 v)) (Cconj (v0 v)) (- Cconj (v1 v))%C.
Lemma plus_bits b : vget plus_state b = RtoC (/ sqrt 2).
Proof.
  unfold plus_state, planar_state. assert (E0 : cis 0 = C1) by (unfold cis; rewrite Rmult_0_l, cos_0, sin_0; reflexivity). rewrite E0. destruct b; cbn [vget v0 v1]; ring.
Qed.
Lemma tele v i j psi : i <> j -> indep j psi ->
  den [OPrep plus_state j; OCz i j; OMeas v i] psi = cscale (RtoC (/ sqrt 2)) (relab (tr i j) (app_op (OApp1 (jmat v) i) psi)).
Proof.
  intros N I. extensionality f. cbn [den]. unfold app_op, cscale, relab. rewrite !plus_bits, !upd_same, !(upd_other f i _ j) by auto. rewrite tr_l.
  assert (E : forall b, psi (upd (fun n => f (tr i j n)) i b) = psi (upd f i b)).
  { intros b. apply (indep_agree psi [j]); [intros n [<-|[]]; auto|]. intros n Hn. unfold upd. destruct (Nat.eqb_spec n i); auto. rewrite tr_o; auto. intros ->. apply Hn; left; auto. }
  rewrite !E. destruct (f j); cbn [mget jmat m00 m01 m10 m11 andb sgn]; ring.
Qed.
(** the Clifford gate implemented by a Pauli measurement *)
Definition jdiag (m : measurement) : clifford :=
  match m with MPauli AX Plus => K0 | MPauli AX Minus => K3 | MPauli AY Plus => K5 | MPauli AY Minus => K4 | _ => K0 end.
Definition is_xy (m : measurement) : Prop := m = pX \/ m = nX \/ m = pY \/ m = nY.
Lemma jmat_X : jmat (mvec pX false) = clifford_mat K6.
Proof.
  rewrite clifford_mat_H. unfold jmat, mvec, pX, to_bloch, mH, planar_state, b2R. replace (0 + 0)%R with 0%R by ring.
  assert (E0 : cis 0 = C1) by (unfold cis; rewrite Rmult_0_l, cos_0, sin_0; reflexivity). rewrite E0. meq; ceq; ring.
Qed.
Lemma jmat_diag m : is_xy m -> jmat (mvec m false) ~= clifford_mat (clifford_mul K6 (jdiag m)).
Proof.
  intros H. eapply meqp_trans; [|apply clifford_mul_mat]. rewrite <- jmat_X.
  assert (E : meas_clifford pX (jdiag m) = m) by (destruct H as [ -> | [ -> | [ -> | -> ]]]; reflexivity).
  rewrite <- E at 1. destruct (mvec_clifford pX (jdiag m) false) as (c & Hc & ->).
  exists (Cconj c). split; [apply phase_conj; auto|].
  assert (D : exists d, clifford_mat (jdiag m) = Mat2 C1 C0 C0 d).
  { destruct H as [ -> | [ -> | [ -> | -> ]]]; cbn [jdiag pX nX pY nY];
    [rewrite clifford_mat_I|rewrite clifford_mat_Z|rewrite clifford_mat_Sdg|rewrite clifford_mat_S]; eexists; reflexivity. }
  destruct D as (d & ->). destruct (mvec pX false) as [a b]. unfold jmat. cbn [v0 v1 vscale vmul mdag m00 m01 m10 m11].
  unfold mmul, mscale. cbn [m00 m01 m10 m11 v0 v1]. rewrite !Cconj_mul, !Cconj_add, !Cconj_mul, !Cconj_inv. apply mat2_eq; cbn [m00 m01 m10 m11]; rewrite ?Cconj_inv; ceq; ring.
Qed.
(** the operations of a line of measured nodes starting at node [i] *)
Definition line_ops (i : nat) (d : list measurement) : list op :=
  map (fun j => OPrep plus_state j) (seq (S i) (length d)) ++ map (fun j => OCz j (S j)) (seq i (length d))
  ++ map (fun p => OMeas (mvec (snd p) false) (fst p)) (combine (seq i (length d)) d).
Fixpoint line_cliff (d : list measurement) : clifford :=
  match d with [] => K0 | m :: d => clifford_mul (line_cliff d) (clifford_mul K6 (jdiag m)) end.
Lemma den_front A q B psi : (forall p, In p A -> odisj p q) -> den (A ++ q :: B) psi = den (q :: A ++ B) psi.
Proof.
  revert psi. induction A as [|p A IH]; intros psi H; auto. cbn [app den]. rewrite IH by (intros; apply H; right; auto). cbn [den]. rewrite (op_comm p q); auto. apply H; left; auto.
Qed.
Lemma line_step i m d psi : den (line_ops i (m :: d)) psi = den (line_ops (S i) d) (den [OPrep plus_state (S i); OCz i (S i); OMeas (mvec m false) i] psi).
Proof.
  unfold line_ops. cbn [length seq map combine app fst snd]. cbn [den]. rewrite den_front.
  2:{ intros p Hp. apply in_map_iff in Hp. destruct Hp as (j & <- & Hj). apply in_seq in Hj. intros n [<-|[]] [E|[E|[]]]; lia. }
  cbn [den]. rewrite app_assoc, den_front.
  2:{ intros p Hp. apply in_app_or in Hp. destruct Hp as [Hp|Hp]; apply in_map_iff in Hp; destruct Hp as (j & <- & Hj); apply in_seq in Hj.
      - intros n [<-|[]] [E|[]]; lia.
      - intros n [<-|[<-|[]]] [E|[]]; lia. }
  cbn [den]. rewrite app_assoc. auto.
Qed.
Lemma line_sem d : (forall m, In m d -> is_xy m) -> forall i, exists z, phase z /\ forall psi, (forall j, i < j <= i + length d -> indep j psi) ->
  den (line_ops i d) psi = cscale (z * hk (length d))%C (relab (tr i (i + length d)) (app_op (OApp1 (clifford_mat (line_cliff d)) i) psi)).
Proof.
  induction d as [|m d IH]; intros HX i.
  - exists C1. split; [apply phase_1|]. intros psi _. cbn [length line_cliff hk]. rewrite clifford_mat_I. change (den (line_ops i []) psi) with psi.
    extensionality f. unfold cscale, relab. replace (fun n => f (tr i (i + 0) n)) with f by (extensionality n; f_equal; tr_tac).
    pose proof (app1_id i) as (c & _ & _). unfold app_op. cbn [mget mid m00 m01 m10 m11]. destruct (f i) eqn:E; cbn [mget mid m00 m01 m10 m11]; rewrite <- E, upd_id; ring.
  - destruct (jmat_diag m (HX m (or_introl eq_refl))) as (c1 & P1 & E1).
    destruct (IH (fun m' H => HX m' (or_intror H)) (S i)) as (z & Pz & Z).
    destruct (clifford_mul_mat (line_cliff d) (clifford_mul K6 (jdiag m))) as (c2 & P2 & E2).
    exists (z * c1 * c2)%C. split; [auto using phase_mul|]. intros psi HI. cbn [length] in *. rewrite line_step, tele; [|lia|apply HI; lia].
    rewrite (app1_scale _ _ _ i psi E1), relab_scale, cscale_cscale, den_scale.
    set (J := clifford_mat (clifford_mul K6 (jdiag m))) in *. set (X := app_op (OApp1 J i) psi).
    assert (IX : forall j, i < j <= i + S (length d) -> indep j X). { intros j Hj. apply indep_op; [intros [E|[]]; lia|]. apply HI; auto. }
    rewrite Z.
    2:{ intros j Hj. apply (relab_indep _ (tr i (S i)) j X (tr_inv _ _)). rewrite tr_o by lia. apply IX. lia. }
    change (OApp1 (clifford_mat (line_cliff d)) (S i)) with (OApp1 (clifford_mat (line_cliff d)) (S i)).
    assert (RA : app_op (OApp1 (clifford_mat (line_cliff d)) (S i)) (relab (tr i (S i)) X) = relab (tr i (S i)) (app_op (OApp1 (clifford_mat (line_cliff d)) i) X)).
    { rewrite <- (app_relab (tr i (S i)) (tr i (S i)) (tr_inv _ _)). cbn [op_reindex]. rewrite tr_l. auto. }
    rewrite RA. unfold X. rewrite app1_app1. rewrite (app1_scale _ _ _ i psi E2). cbn [line_cliff]. fold J in E2.
    set (Y := app_op (OApp1 (clifford_mat (clifford_mul (line_cliff d) (clifford_mul K6 (jdiag m)))) i) psi).
    assert (IY : forall j, i < j <= i + S (length d) -> indep j Y). { intros j Hj. apply indep_op; [intros [E|[]]; lia|]. apply HI; auto. }
    rewrite !relab_scale, !cscale_cscale, relab_relab.
    assert (EQ : relab (fun n => tr (S i) (S i + length d) (tr i (S i) n)) Y = relab (tr i (i + S (length d))) Y).
    { extensionality f. unfold relab. apply (indep_agree Y [S i; i + S (length d)]).
      - intros n [<-|[<-|[]]]; apply IY; lia.
      - intros n Hn. f_equal. assert (n <> S i /\ n <> i + S (length d)) by (split; intros ->; apply Hn; simpl; auto). tr_tac. }
    rewrite EQ. f_equal. cbn [hk]. ring.
Qed.
Lemma decomp_xy c m : In m (clifford_decomp c) -> is_xy m.
Proof. unfold is_xy. destruct c; cbn; intros H; repeat (destruct H as [H|H]; [subst m; auto|]); destruct H. Qed.
(** CLIFFORD_PAULI_DECOMPOSITION is correct *)
Lemma decomp_cliff c : line_cliff (clifford_decomp c) = c.
Proof. destruct c; vm_compute; reflexivity. Qed.
Fixpoint ndpb (l : list (nat * nat)) : bool := match l with [] => true | x :: l => negb (existsb (edge_eqb x) l) && ndpb l end.
Lemma ndb_pairs l : ndpb l = true -> NoDup l.
Proof.
  induction l as [|x l IH]; cbn; [constructor|]. rewrite andb_true_iff, negb_true_iff. intros [A B]. constructor; auto. intros H. apply not_true_iff_false in A. apply A, existsb_exists. exists x. split; auto. apply edge_eqb_eq. auto.
Qed.
Definition clifford_og (c : clifford) : opengraph :=
  let d := clifford_decomp c in OG (path_graph (S (length d))) [0] [length d] (combine (seq 0 (length d)) d) [].
Lemma clifford_og_ok c : clifford_to_og c = Ok (clifford_og c) /\ og_ok (clifford_og c) /\ simple (og_graph (clifford_og c)).
Proof.
  assert (E : clifford_to_og c = Ok (clifford_og c)) by (destruct c; vm_compute; reflexivity).
  split; auto. split.
  - apply og_ok_dec; [|destruct c; reflexivity|reflexivity|exact E]. apply graph_ok_dec; [destruct c; reflexivity| |destruct c; reflexivity].
    apply ndb_pairs. destruct c; reflexivity.
  - intros e He. unfold clifford_og in He. cbn [og_graph path_graph g_edges] in He. apply in_map_iff in He. destruct He as (j & <- & _). cbn. lia.
Qed.
Lemma clifford_og_ops c : graph_ops (clifford_og c) = line_ops 0 (clifford_decomp c).
Proof.
  unfold graph_ops, line_ops, clifford_og. cbn [og_graph og_meas og_cliff map]. rewrite app_nil_r. f_equal; [|f_equal].
  - destruct c; reflexivity.
  - unfold path_graph. cbn [g_edges pred]. rewrite map_map. cbn [fst snd]. reflexivity.
Qed.
Lemma clifford_og_pattern c : exists q, og_to_pattern elems (clifford_og c) = Ok q.
Proof. destruct c; eexists; vm_compute; reflexivity. Qed.
Lemma og_pattern_shape it og p : iter_ok it -> og_ok og -> simple (og_graph og) -> og_to_pattern it og = Ok p ->
  exists xz ord, xz_og xz = og /\ xz_to_pattern it xz None = Ok p /\ p_seq p = xz_cmds it xz ord.
Proof.
  intros H1 H2 H3 E.
  assert (Q : forall cf ls xz, pauli_flow og cf ls -> flow_corr og cf ls xz -> xz_to_pattern it xz None = Ok p ->
    exists xz ord, xz_og xz = og /\ xz_to_pattern it xz None = Ok p /\ p_seq p = xz_cmds it xz ord).
  { intros cf ls xz PF XC Ep. pose proof (corr_respects og H2 cf ls PF xz XC) as HR. pose proof XC as (E1 & E2 & K).
    assert (Ho : order_ok og ls) by apply PF.
    destruct (xz_pattern_inv it H1 xz) with (order := @None (list nat)) (p := p) as (ord & OC & _ & A & B & D & R); rewrite ?E1, ?E2; auto. exists xz, ord. auto. }
  unfold og_to_pattern in E.
  assert (G : (exists f, (if forallb (fun p => is_bloch (snd p)) (og_meas og) then find_cflow it og else Ok None) = Ok (Some f) /\ planar og /\ find_cflow it og = Ok (Some f)) \/
     (if forallb (fun p => is_bloch (snd p)) (og_meas og) then find_cflow it og else Ok None) = Ok None).
  { destruct (forallb _ (og_meas og)) eqn:B; auto. pose proof (bloch_planar og H2 B) as P. destruct (find_cflow_correct it og H1 H2 P) as [(f & E' & _)|[E' _]]; eauto. }
  destruct G as [(f & G & P & Ef)|G]; rewrite G in E; cbn [rbind] in E.
  - destruct (find_cflow_correct it og H1 H2 P) as [(f' & Ef' & A & N & C & _)|[E' _]]; [|congruence].
    assert (f' = f) by congruence. subst f'. subst og. destruct (cf_to_xz_corr f N C) as (xz & Ex & XC). rewrite Ex in E. cbn [rbind] in E.
    eapply Q; eauto. apply (gflow_pauli f); auto. apply (causal_gflow f); auto.
  - destruct (find_pauliflow_correct it og H1 H2 H3) as [(f & Ef & A & N & B & _)|[Ef _]]; rewrite Ef in E; cbn [rbind] in E; [|discriminate].
    subst og. destruct (pf_to_xz_corr it H1 f) as (xz & Ex & XC); try apply B. rewrite Ex in E. cbn [rbind] in E. eapply Q; eauto.
Qed.
Lemma reorder_wf inp l outs p : NoDup inp -> reorder_output_nodes (pat_extend (pat_new inp) l) outs = Ok p -> runnable inp l ->
  p_in p = inp /\ p_seq p = l /\ p_out p = outs /\ pat_wf p.
Proof.
  intros ND E HR. unfold reorder_output_nodes in E. destruct (pat_extend_new inp l) as (X1 & X2 & X3). rewrite X1, X2, X3 in E.
  destruct (assert_permutation _ outs) as [[]|] eqn:A; [|discriminate]. injection E as <-. cbn [p_in p_seq p_out]. do 3 (split; [auto|]).
  unfold pat_wf. cbn [p_in p_seq p_out]. apply assert_permutation_spec in A. destruct A as [A1 A2]. apply NoDup_Permutation; auto. apply outs_of_live; auto.
Qed.
(** what the loop uses of the pattern of a Clifford gate *)
Definition no_C (l : list cmd) : Prop := forall n c, ~ In (CC n c) l.
Lemma gadget it c : iter_ok it -> exists q, og_to_pattern it (clifford_og c) = Ok q /\
  p_in q = [0] /\ p_out q = [length (clifford_decomp c)] /\ runnable [0] (p_seq q) /\ pat_wf q /\ has_no_S (p_seq q) /\ no_C (p_seq q) /\
  (forall k, prepared_in (p_seq q) k <-> 1 <= k <= length (clifford_decomp c)) /\
  count_N (p_seq q) = length (clifford_decomp c) /\
  forall o, exists z, phase z /\ forall psi, (forall j, 0 < j <= length (clifford_decomp c) -> indep j psi) ->
    den (seq_ops o (p_seq q)) psi = cscale (z * hk (length (clifford_decomp c)))%C (relab (tr 0 (length (clifford_decomp c))) (app_op (OApp1 (clifford_mat c) 0) psi)).
Proof.
  intros Hit. destruct (clifford_og_ok c) as (_ & OK & SI). destruct (clifford_og_pattern c) as (q0 & E0).
  assert (IE : iter_ok elems) by apply iter_elems.
  assert (PF : exists cf ls, pauli_flow (clifford_og c) cf ls). { destruct (C44_to_pattern elems _ IE OK SI) as [(q1 & _ & H & _)|[K _]]; [auto|congruence]. }
  destruct (C44_to_pattern it _ Hit OK SI) as [(q & E & _ & I & O & R & _ & IM)|[_ K]]; [|destruct PF as (cf & ls & PF); destruct (K cf ls PF)].
  exists q. destruct (og_pattern_shape it _ q Hit OK SI E) as (xz & ord & EO & EX & ES).
  apply check_runnability_spec in R. rewrite I in R. split; auto. split; [exact I|]. split; [exact O|]. split; [exact R|].
  assert (HC : og_cliff (xz_og xz) = []) by (rewrite EO; reflexivity).
  assert (SH : forall c0, In c0 (p_seq q) -> is_C c0 = false /\ match c0 with CS _ _ => false | _ => true end = true).
  { intros c0 H. rewrite ES in H. unfold xz_cmds in H. rewrite HC in H. cbn [map] in H. rewrite app_nil_r in H.
    apply in_app_or in H. destruct H as [H|H]; [apply in_map_iff in H; destruct H as (? & <- & _); split; reflexivity|].
    apply in_app_or in H. destruct H as [H|H]; [apply in_map_iff in H; destruct H as (? & <- & _); split; reflexivity|].
    apply flow_seq_shape in H. destruct H as (A1 & _ & A2). split; auto. destruct c0; auto. }
  assert (NF : forall k st me xc zc os, ~ In (CN k st) (flow_seq me xc zc os)).
  { intros k st me xc zc os H. unfold flow_seq in H. apply in_flat_map in H. destruct H as (u & _ & [H|H]); [discriminate|]. unfold corr_cmds in H. apply in_app_or in H.
    destruct H as [H|H]; apply in_map_iff in H; destruct H as (? & H & _); discriminate. }
  assert (NI : forall k, In k (it (sdiff (og_nodes (xz_og xz)) (of_list (og_in (xz_og xz))))) <-> 1 <= k <= length (clifford_decomp c)).
  { intros k. rewrite EO, iter_In by auto. unfold og_nodes, clifford_og. cbn [og_graph og_in path_graph g_nodes].
    rewrite mem_sdiff, andb_true_iff, negb_true_iff, <- not_true_iff_false, !mem_of_list, in_seq. cbn [In]. lia. }
  split. { unfold xz_to_pattern in EX. destruct (total_order it xz) as [or|]; [|discriminate]. cbn [rbind] in EX. destruct (rmap _ or) as [ms|]; [|discriminate]. cbn [rbind] in EX.
    rewrite EO in EX. match type of EX with reorder_output_nodes (pat_extend _ ?l) _ = _ => set (cs := l) in EX end.
    assert (CS : p_seq q = cs). { unfold reorder_output_nodes in EX. destruct (pat_extend_new (og_in (clifford_og c)) cs) as (X1 & X2 & X3). rewrite X1, X2 in EX. destruct (assert_permutation _ _); [|discriminate]. injection EX as <-. reflexivity. }
    apply (reorder_wf [0] cs [length (clifford_decomp c)]); auto; [repeat constructor; intros []|rewrite <- CS; auto]. }
  split. { intros n d H. apply SH in H. destruct H as [_ H]. discriminate. }
  split. { intros n c0 H. apply SH in H. destruct H as [H _]. discriminate. }
  split. { intros k. rewrite <- NI. unfold prepared_in. rewrite ES. unfold xz_cmds. split.
    - intros (st & H). rewrite HC in H. cbn [map] in H. rewrite app_nil_r in H. apply in_app_or in H. destruct H as [H|H].
      + apply in_map_iff in H. destruct H as (j & E' & H). injection E' as -> _. auto.
      + apply in_app_or in H. destruct H as [H|H]; [apply in_map_iff in H; destruct H as (? & H & _); discriminate|]. destruct (NF _ _ _ _ _ _ H).
    - intros H. exists SPlus. apply in_or_app. left. apply in_map_iff. eauto. }
  split. { rewrite ES. unfold xz_cmds, count_N. rewrite HC. cbn [map]. rewrite app_nil_r, !filter_app, !app_length.
    assert (F0 : forall l, (forall k st, ~ In (CN k st) l) -> length (filter (fun c => match c with CN _ _ => true | _ => false end) l) = 0).
    { induction l as [|a l IH]; intros H; auto. cbn [filter]. destruct a; try (apply IH; intros k st' Hk; apply (H k st'); right; auto). exfalso. eapply H; left; eauto. }
    rewrite (F0 (flow_seq _ _ _ _)) by (intros k st; apply NF).
    rewrite (F0 (map (fun e => CE (fst e) (snd e)) _)) by (intros k st H; apply in_map_iff in H; destruct H as (? & H & _); discriminate).
    assert (F1 : forall l, length (filter (fun c => match c with CN _ _ => true | _ => false end) (map (fun n => CN n SPlus) l)) = length l) by (induction l; cbn; auto).
    rewrite F1. rewrite !Nat.add_0_r. rewrite <- (seq_length (length (clifford_decomp c)) 1). apply Permutation_length. apply NoDup_Permutation; [apply iter_NoDup; auto|apply seq_NoDup|].
    intros k. rewrite NI, in_seq. lia. }
  intros o. destruct (IM o) as (z & Pz & Z). destruct (line_sem (clifford_decomp c) (decomp_xy c) 0) as (z' & Pz' & Z'). exists (z * z')%C. split; [apply phase_mul; auto|].
  intros psi HI. rewrite Z.
  - rewrite clifford_og_ops, Z' by (intros; apply HI; lia). rewrite decomp_cliff, cscale_cscale. cbn [Nat.add]. f_equal. ring.
  - intros n Hn Ni. unfold clifford_og in Hn, Ni. cbn [og_graph og_in path_graph g_nodes] in Hn, Ni. apply in_seq in Hn. apply HI. cbn in Ni. lia.
Qed.

(** * The loop *)
Lemma live_snoc inp l c n : live inp (l ++ [c]) n <-> ((In n inp \/ prepared_in l n) \/ exists st, c = CN n st) /\ ~ measured_in l n /\ ~ exists m s t, c = CM n m s t.
Proof. unfold live. rewrite prepared_app, measured_app, prepared_one, measured_one. tauto. Qed.
Lemma count_N_app l1 l2 : count_N (l1 ++ l2) = count_N l1 + count_N l2.
Proof. unfold count_N. rewrite filter_app, app_length. auto. Qed.
Lemma count_N_reindex f l : count_N (map (cmd_reindex f) l) = count_N l.
Proof. unfold count_N. induction l as [|c l IH]; auto. destruct c; cbn; auto. Qed.
Record linv (inp : list nat) (m0 : nat) (pre : list cmd) (np : pattern) (mx : nat) (mp : dict nat) (F G : nat -> nat) (l' : list cmd) : Prop := {
  li_np : np = pat_extend (pat_new inp) l';
  li_bij : inverses F G;
  li_mx : m0 <= mx;
  li_F : forall n, n <= m0 -> F n = rl mp n;
  li_hi : forall n, mx < n -> F n = n;
  li_new : forall n, n <= m0 -> F n = n \/ m0 < F n <= mx;
  li_same : forall n, n <= m0 -> (forall c, ~ In (CC n c) pre) -> F n = n;
  li_key : forall n v, dget mp n = Some v -> In n inp \/ prepared_in pre n;
  li_run : runnable inp l';
  li_S : has_no_S l';
  li_C : no_C l';
  li_live : forall n, live inp l' (F n) <-> live inp pre n;
  li_meas : forall n, measured_in pre n -> measured_in l' (F n);
  li_node : forall n, In n inp \/ prepared_in l' n <-> (In n inp \/ prepared_in pre n) \/ m0 < n <= mx;
  li_count : count_N l' = count_N pre + (mx - m0);
  li_sem : forall o, exists z, phase z /\ forall psi, (forall n, m0 < n <= mx -> indep n psi) ->
    den (seq_ops o l') psi = cscale (z * hk (mx - m0))%C (relab F (den (seq_ops (fun n => o (F n)) pre) psi)) }.
Section Loop.
  Variable it : iter.
  Hypothesis Hit : iter_ok it.
  Variables (inp : list nat) (m0 : nat).
  Hypothesis NDI : NoDup inp.
  Lemma linv_nil : linv inp m0 [] (pat_new inp) m0 [] (fun n => n) (fun n => n) [].
  Proof.
    constructor; auto; try tauto.
    - split; auto.
    - intros n v H; discriminate.
    - apply runnable_nil.
    - intros n d [].
    - intros n d [].
    - intros n. split; [tauto|]. intros [H|H]; [auto|lia].
    - cbn. lia.
    - intros o. exists C1. split; [apply phase_1|]. intros psi _. rewrite Nat.sub_diag. cbn [hk]. extensionality f. unfold cscale, relab, seq_ops. cbn [flat_map den]. change (fun n => f n) with f. ring.
  Qed.
  (** the labels of the nodes *)
  Lemma li_le pre np mx mp F G l' n : linv inp m0 pre np mx mp F G l' -> n <= m0 -> F n <= mx.
  Proof. intros I H. destruct (li_new _ _ _ _ _ _ _ _ _ I n H); pose proof (li_mx _ _ _ _ _ _ _ _ _ I); lia. Qed.
  Lemma linv_other pre c np mx mp F G l' : linv inp m0 pre np mx mp F G l' -> runnable inp (pre ++ [c]) -> has_no_S [c] -> (forall n, In n inp \/ prepared_in (pre ++ [c]) n -> n <= m0) ->
    is_C c = false -> linv inp m0 (pre ++ [c]) (pat_add np (cmd_reindex (rl mp) c)) mx mp F G (l' ++ [cmd_reindex (rl mp) c]).
  Proof.
    intros I HR HS HM HC. pose proof (li_bij _ _ _ _ _ _ _ _ _ I) as FG. pose proof (F_inj F G FG) as FI. apply runnable_snoc in HR. destruct HR as [HR OK].
    assert (HMp : forall n, In n inp \/ prepared_in pre n -> n <= m0). { intros n H. apply HM. rewrite prepared_app. tauto. }
    assert (LL : forall n, live inp pre n -> rl mp n = F n). { intros n [H _]. symmetry. apply (li_F _ _ _ _ _ _ _ _ _ I). auto. }
    assert (LM : forall n, measured_in pre n -> rl mp n = F n). { intros n H. symmetry. apply (li_F _ _ _ _ _ _ _ _ _ I). apply HMp. eapply runnable_measured; eauto. }
    assert (EC : cmd_reindex (rl mp) c = cmd_reindex F c).
    { destruct c as [n st|u v|n me s t|n d|n d|n c|n d|]; cbn [cmd_reindex cmd_ok] in *; auto.
      - rewrite (li_F _ _ _ _ _ _ _ _ _ I); auto. apply HM. rewrite prepared_app. right; right. exists st. left; auto.
      - destruct OK. f_equal; auto.
      - destruct OK as [O1 O2]. f_equal; [auto|apply rx_set_ext|apply rx_set_ext]; auto.
      - destruct OK as [O1 O2]. f_equal; [auto|apply rx_set_ext]; auto.
      - destruct OK as [O1 O2]. f_equal; [auto|apply rx_set_ext]; auto.
      - discriminate.
      - exfalso. apply (HS n d). left; auto. }
    rewrite EC.
    assert (FN : forall n st, c = CN n st -> F n = n /\ n <= m0 /\ ~ In n inp /\ ~ prepared_in pre n).
    { intros n st E. subst c. cbn [cmd_ok] in OK. destruct OK as [A B]. assert (Ln : n <= m0) by (apply HM; rewrite prepared_app; right; right; exists st; left; auto).
      split; auto. rewrite (li_F _ _ _ _ _ _ _ _ _ I) by auto. unfold rl. destruct (dget mp n) eqn:E; auto. apply (li_key _ _ _ _ _ _ _ _ _ I) in E. tauto. }
    assert (PC : forall n, (exists st, cmd_reindex F c = CN (F n) st) <-> exists st, c = CN n st).
    { intros n. split; intros (st & E); exists st; [|subst c; auto]. destruct c; try discriminate. cbn in E. injection E as E ->. apply FI in E. subst; auto. }
    assert (MC : forall n, (exists m s t, cmd_reindex F c = CM (F n) m s t) <-> exists m s t, c = CM n m s t).
    { intros n. split; intros (m & s & t & E); [|subst c; cbn; eauto]. destruct c; try discriminate. cbn in E. injection E as E _ _ _. apply FI in E. subst; eauto. }
    assert (NR : forall n, measured_in l' n -> In n inp \/ prepared_in l' n) by (intros n; apply runnable_measured, (li_run _ _ _ _ _ _ _ _ _ I)).
    constructor.
    - rewrite (li_np _ _ _ _ _ _ _ _ _ I). unfold pat_extend. rewrite fold_left_app. reflexivity.
    - auto.
    - apply I.
    - apply I.
    - apply I.
    - apply I.
    - intros n Hn Hc. apply (li_same _ _ _ _ _ _ _ _ _ I); auto. intros c0 H. apply (Hc c0). apply in_or_app; auto.
    - intros n v H. apply (li_key _ _ _ _ _ _ _ _ _ I) in H. rewrite prepared_app. tauto.
    - apply runnable_snoc. split; [apply I|]. pose proof (li_live _ _ _ _ _ _ _ _ _ I) as LV. pose proof (li_meas _ _ _ _ _ _ _ _ _ I) as LME.
      assert (HD : forall d, (forall k, mem k d = true -> measured_in pre k) -> forall k, mem k (rx_set F d) = true -> measured_in l' k).
      { intros d H k Hk. apply mem_rx_set in Hk. destruct Hk as (j & Hj & ->). auto. }
      destruct c as [n st|u v|n me s t|n d|n d|n c|n d|]; cbn [cmd_reindex cmd_ok] in *; auto.
      + destruct (FN n st eq_refl) as (E & Ln & N1 & N2). rewrite E. split; auto. intros H.
        assert (X : In n inp \/ prepared_in l' n) by auto. apply (li_node _ _ _ _ _ _ _ _ _ I) in X. destruct X as [X|X]; [tauto|lia].
      + rewrite !LV. auto.
      + destruct OK as [O1 O2]. split; [apply LV; auto|]. intros k [K|K]; [apply (HD s)|apply (HD t)]; auto.
      + destruct OK as [O1 O2]. split; [apply LV; auto|]. apply HD; auto.
      + destruct OK as [O1 O2]. split; [apply LV; auto|]. apply HD; auto.
      + apply LV; auto.
    - intros n d H. apply in_app_or in H. destruct H as [H|[H|[]]]; [eapply (li_S _ _ _ _ _ _ _ _ _ I); eauto|]. destruct c; try discriminate. eapply HS; left; eauto.
    - intros n d H. apply in_app_or in H. destruct H as [H|[H|[]]]; [eapply (li_C _ _ _ _ _ _ _ _ _ I); eauto|]. destruct c; discriminate.
    - intros n. rewrite !live_snoc, PC, MC. pose proof (li_live _ _ _ _ _ _ _ _ _ I n) as LV. unfold live in LV.
      split; intros (A & B & D); (split; [|split; [|auto]]).
      + destruct A as [A|A]; [|auto]. left. tauto.
      + destruct A as [A|(st & A)]; [tauto|]. destruct (FN n st A) as (_ & _ & N1 & N2). intros K. apply (runnable_measured inp) in K; auto. tauto.
      + destruct A as [A|A]; [|auto]. left. tauto.
      + destruct A as [A|(st & A)]; [tauto|]. destruct (FN n st A) as (E & Ln & N1 & N2). rewrite E. intros K. apply NR in K. apply (li_node _ _ _ _ _ _ _ _ _ I) in K. destruct K as [K|K]; [tauto|lia].
    - intros n. rewrite !measured_app, !measured_one, MC. intros [H|H]; auto. left. apply (li_meas _ _ _ _ _ _ _ _ _ I); auto.
    - intros n. rewrite !prepared_app, !prepared_one. pose proof (li_node _ _ _ _ _ _ _ _ _ I n) as LN.
      assert (Q : (exists st, cmd_reindex F c = CN n st) <-> exists st, c = CN n st).
      { split; intros (st & E).
        - destruct c as [k st'| | | | | | |]; try discriminate. cbn in E. injection E as E ->. destruct (FN k st eq_refl) as (E' & _). rewrite E' in E. subst; eauto.
        - destruct (FN n st E) as (E' & _). subst c. cbn. rewrite E'. eauto. }
      rewrite Q. tauto.
    - rewrite !count_N_app, (li_count _ _ _ _ _ _ _ _ _ I). assert (E : count_N [cmd_reindex F c] = count_N [c]) by apply (count_N_reindex F [c]). lia.
    - intros o. destruct (li_sem _ _ _ _ _ _ _ _ _ I o) as (z & Pz & Z). exists z. split; auto. intros psi HI. rewrite !seq_ops_app, !den_app, Z, den_scale by auto. f_equal.
      change [cmd_reindex F c] with (map (cmd_reindex F) [c]). rewrite (seq_ops_reindex F G FG), (den_relab F G FG). auto.
  Qed.
  Lemma linv_C pre n cl np mx mp F G l' : linv inp m0 pre np mx mp F G l' -> runnable inp (pre ++ [CC n cl]) -> (forall n, In n inp \/ prepared_in pre n -> n <= m0) -> cl <> K0 ->
    exists np' mx' mp' F' G' l'', lcf_step it (np, mx, mp) (CC n cl) = Ok (np', mx', mp') /\ linv inp m0 (pre ++ [CC n cl]) np' mx' mp' F' G' l''.
  Proof.
    intros I HR HM HC. pose proof (li_bij _ _ _ _ _ _ _ _ _ I) as FG. pose proof (F_inj F G FG) as FI. apply runnable_snoc in HR. destruct HR as [HR OK]. cbn [cmd_ok] in OK.
    set (N := length (clifford_decomp cl)). assert (N1 : 1 <= N) by (unfold N; destruct cl; cbn; try lia; congruence).
    pose proof (li_mx _ _ _ _ _ _ _ _ _ I) as MX. pose proof (li_live _ _ _ _ _ _ _ _ _ I) as LV.
    assert (Ln : n <= m0) by (apply HM, OK). set (u := rl mp n). assert (EU : F n = u) by (apply (li_F _ _ _ _ _ _ _ _ _ I); auto).
    assert (Lu : u <= mx) by (rewrite <- EU; eapply li_le; eauto).
    destruct (gadget it cl Hit) as (q & Eq & QI & QO & QR & QW & QS & QC & QP & QN & QD). fold N in QO, QP, QN, QD.
    set (f := fun k => if (k =? 0)%nat then u else k + mx).
    assert (NQ : forall k, node_of q k <-> k <= N). { intros k. unfold node_of. rewrite QI, QP. cbn [In]. lia. }
    assert (FJ : forall a b, node_of q a -> node_of q b -> f a = f b -> a = b).
    { intros a b _ _. unfold f. destruct (Nat.eqb_spec a 0), (Nat.eqb_spec b 0); lia. }
    rewrite <- QI in QR. assert (NDq : NoDup (p_in q)) by (rewrite QI; repeat constructor; intros []).
    destruct (reindex_spec q f NDq QR QW QS FJ) as (q' & Eq' & I' & S' & O' & _ & ND' & R' & W' & NO' & SS').
    assert (fN : f N = N + mx) by (unfold f; destruct (Nat.eqb_spec N 0); lia).
    rewrite QI in I'. rewrite QO in O'. cbn [map] in I', O'. rewrite fN in O'. change (f 0) with u in I'.
    assert (NQ' : forall k, In k [u] \/ prepared_in (p_seq q') k <-> k = u \/ mx < k <= mx + N).
    { intros k. rewrite <- I'. change (In k (p_in q') \/ prepared_in (p_seq q') k) with (node_of q' k). rewrite NO'. split.
      - intros (j & Hj & ->). apply NQ in Hj. unfold f. destruct (Nat.eqb_spec j 0); lia.
      - intros [->|H]; [exists 0; split; [apply NQ; lia|reflexivity]|]. exists (k - mx). split; [apply NQ; lia|]. unfold f. destruct (Nat.eqb_spec (k - mx) 0); lia. }
    assert (NL : forall k, In k inp \/ prepared_in l' k -> k <= mx). { intros k H. apply (li_node _ _ _ _ _ _ _ _ _ I) in H. destruct H as [H|H]; [apply HM in H; lia|lia]. }
    assert (LU : live inp l' u) by (rewrite <- EU; apply LV; auto).
    assert (HSH : forall k, In k inp \/ prepared_in l' k -> In k [u] \/ prepared_in (p_seq q') k -> live inp l' k /\ In k [u]).
    { intros k H1 H2. apply NL in H1. apply NQ' in H2. assert (k = u) by lia. subst k. split; auto. left; auto. }
    assert (HE : forall k, In k (@nil nat) <-> In k [u] /\ ~ (In k inp \/ prepared_in l' k)).
    { intros k. split; [intros []|]. intros [[<-|[]] H]. apply H, LU. }
    rewrite I' in R'. pose proof (li_run _ _ _ _ _ _ _ _ _ I) as RL.
    assert (RN : runnable inp (l' ++ p_seq q')). { pose proof (join_runnable inp l' [u] (p_seq q') RL R' HSH [] HE) as X. rewrite app_nil_r in X. exact X. }
    assert (LN : forall k, live inp (l' ++ p_seq q') k <-> (live inp l' k /\ k <> u /\ ~ mx < k <= mx + N) \/ k = mx + N).
    { intros k. pose proof (join_live_iff inp l' [u] (p_seq q') RL R' HSH [] HE k) as X. rewrite app_nil_r in X. rewrite X, NQ'.
      rewrite <- I' in R'. destruct (wf_outs q' ND' R' W') as [_ WO]. rewrite I' in WO. rewrite <- WO, O'. cbn [In]. assert (k <> u \/ k = u) by lia. intuition lia. }
    set (u' := mx + N). assert (FU : forall k, k <= m0 -> k <> n -> tr u u' (F k) = F k).
    { intros k Hk Ne. apply tr_o; [rewrite <- EU; intros E; apply FI in E; auto|]. pose proof (li_le _ _ _ _ _ _ _ k I Hk). unfold u'. lia. }
    assert (Ev : forall k, measured_in pre k -> tr u u' (F k) = F k).
    { intros k Hk. apply FU; [apply HM; eapply runnable_measured; eauto|]. intros ->. apply OK; auto. }
    exists (pat_extend np (p_seq q')), u', (dset mp n u'), (fun k => tr u u' (F k)), (fun k => G (tr u u' k)), (l' ++ p_seq q'). split.
    { unfold lcf_step. fold u. destruct (clifford_og_ok cl) as (-> & _). cbn [rbind]. rewrite Eq. cbn [rbind]. rewrite QO. fold f. rewrite Eq'. reflexivity. }
    assert (FG' : inverses (fun k => tr u u' (F k)) (fun k => G (tr u u' k))). { destruct FG as [FG1 FG2]. split; intros k; [rewrite tr_tr; auto|rewrite FG2; apply tr_tr]. }
    constructor.
    - rewrite (li_np _ _ _ _ _ _ _ _ _ I). unfold pat_extend. rewrite fold_left_app. reflexivity.
    - exact FG'.
    - unfold u'; lia.
    - intros k Hk. unfold rl. rewrite dget_dset. destruct (Nat.eqb_spec n k) as [E|E].
      + subst k. rewrite EU. apply tr_l.
      + rewrite FU by auto. apply (li_F _ _ _ _ _ _ _ _ _ I); auto.
    - intros k Hk. unfold u' in *. rewrite (li_hi _ _ _ _ _ _ _ _ _ I) by lia. apply tr_o; lia.
    - intros k Hk. destruct (Nat.eq_dec k n) as [->|Ne].
      + right. rewrite EU, tr_l. unfold u'. lia.
      + rewrite FU by auto. destruct (li_new _ _ _ _ _ _ _ _ _ I k Hk); [auto|right]. unfold u'. lia.
    - intros k Hk Hc. assert (Ne : k <> n) by (intros ->; apply (Hc cl), in_or_app; right; left; auto). rewrite FU by auto. apply (li_same _ _ _ _ _ _ _ _ _ I); auto.
      intros c H. apply (Hc c), in_or_app; auto.
    - intros k v. rewrite dget_dset, prepared_app. destruct (Nat.eqb_spec n k) as [E|E].
      + intros _. subst k. destruct OK as [K _]. tauto.
      + intros H. apply (li_key _ _ _ _ _ _ _ _ _ I) in H. tauto.
    - exact RN.
    - intros k d H. apply in_app_or in H. destruct H as [H|H]; [eapply (li_S _ _ _ _ _ _ _ _ _ I); eauto|]. eapply SS'; eauto.
    - intros k d H. apply in_app_or in H. destruct H as [H|H]; [eapply (li_C _ _ _ _ _ _ _ _ _ I); eauto|]. rewrite S' in H. apply in_map_iff in H. destruct H as (c & E & H). destruct c; try discriminate. eapply QC; eauto.
    - intros k. rewrite LN. fold u'. assert (X : live inp (pre ++ [CC n cl]) k <-> live inp pre k).
      { rewrite live_snoc. unfold live. assert (~ exists m s t, CC n cl = CM k m s t) by (intros (? & ? & ? & ?); discriminate). assert (~ exists st, CC n cl = CN k st) by (intros (? & ?); discriminate). tauto. }
      rewrite X. clear X. destruct (Nat.eq_dec k n) as [->|Ne]; [rewrite EU, tr_l; tauto|].
      assert (Fne : F k <> u) by (rewrite <- EU; intros E; apply FI in E; auto).
      assert (HK : live inp pre k -> k <= m0) by (intros [H _]; auto).
      destruct (Nat.eq_dec (F k) u') as [E|E].
      + assert (k = u'). { apply FI. rewrite E. symmetry. apply (li_hi _ _ _ _ _ _ _ _ _ I). unfold u'; lia. }
        rewrite E, tr_r. unfold u' in *. split; [intros [(_ & B & _)|B]; [tauto|lia]|intros HL0; apply HK in HL0; lia].
      + rewrite tr_o by auto. rewrite <- LV. unfold u' in *. split; [intros [(A & _)|B]; [auto|congruence]|]. intros A. left. split; auto. split; auto. intros R.
        assert (F (F k) = F k) by (apply (li_hi _ _ _ _ _ _ _ _ _ I); lia). assert (F k = k) by (apply FI; auto). apply LV in A. apply HK in A. lia.
    - intros k. rewrite !measured_app. intros [H|H]; [|apply measured_one in H; destruct H as (? & ? & ? & ?); discriminate]. rewrite (Ev k H). left. apply (li_meas _ _ _ _ _ _ _ _ _ I); auto.
    - intros k. pose proof (join_node inp l' [u] (p_seq q') RL [] HE k) as X. rewrite app_nil_r in X. rewrite X, NQ'. rewrite (li_node _ _ _ _ _ _ _ _ _ I k), prepared_app, prepared_one. unfold u'.
      assert (~ exists st, CC n cl = CN k st) by (intros (? & ?); discriminate). split.
      + intros [[A|A]|[A|A]]; try tauto; try (right; lia). subst k. destruct LU as [LU _]. apply (li_node _ _ _ _ _ _ _ _ _ I) in LU. destruct LU; [tauto|right; lia].
      + intros [A|A]; [tauto|]. assert (m0 < k <= mx \/ mx < k <= mx + N) by lia. tauto.
    - rewrite !count_N_app, S', count_N_reindex, QN, (li_count _ _ _ _ _ _ _ _ _ I). cbn. unfold u'. lia.
    - intros o. destruct (node_bij q f FJ) as (Fb & Gb & FGb & HFb).
      destruct (li_sem _ _ _ _ _ _ _ _ _ I o) as (z & Pz & Z). destruct (QD (fun k => o (Fb k))) as (w & Pw & WW). exists (z * w)%C. split; [apply phase_mul; auto|]. intros psi HI.
      rewrite !seq_ops_app, !den_app, Z, den_scale by (intros; apply HI; unfold u'; lia).
      set (X := den (seq_ops (fun k => o (F k)) pre) psi).
      assert (EX : seq_ops (fun k => o (tr u u' (F k))) pre = seq_ops (fun k => o (F k)) pre). { apply (seq_ops_ext' inp); [exact HR|intros k Hk; rewrite Ev; auto]. }
      rewrite EX. fold X. cbn [seq_ops flat_map cmd_ops app den]. rewrite S'. rewrite (reindex_ext f Fb q QR QS) by (intros k Hk; symmetry; auto).
      assert (IX : forall k, mx < k <= mx + N -> indep k X).
      { intros k Hk. apply indep_den; [|apply HI; unfold u'; lia]. intros p Hp Hn. destruct (seq_onodes inp pre (fun j => o (F j)) k HR) as [A|A]; eauto; [assert (k <= m0) by (apply HM; auto); lia|assert (k <= m0) by (apply HM; auto); lia]. }
      assert (GK : forall k, mx < k -> G k = k). { intros k Hk. rewrite <- (li_hi _ _ _ _ _ _ _ _ _ I k Hk) at 1. apply FG. }
      assert (IF : forall k, mx < k <= mx + N -> indep k (relab F X)). { intros k Hk. apply (relab_indep F G k X FG). rewrite GK by lia. auto. }
      assert (F0 : Fb 0 = u) by (rewrite HFb; [reflexivity|apply NQ; lia]).
      assert (Fj : forall j, 0 < j <= N -> Fb j = j + mx). { intros j Hj. rewrite HFb by (apply NQ; lia). unfold f. destruct (Nat.eqb_spec j 0); lia. }
      rewrite (den_reindex Fb Gb FGb), WW.
      2:{ intros j Hj. apply (relab_indep Gb Fb); [destruct FGb; split; auto|]. rewrite Fj by lia. apply IF. lia. }
      assert (RA : app_op (OApp1 (clifford_mat cl) 0) (relab Gb (relab F X)) = relab Gb (relab F (app_op (OApp1 (clifford_mat cl) n) X))).
      { assert (GF : inverses Gb Fb) by (destruct FGb; split; auto). rewrite <- (app_relab F G FG), <- (app_relab Gb Fb GF). cbn [op_reindex]. rewrite EU, <- F0, (proj1 FGb). auto. }
      rewrite RA, !relab_scale, !relab_relab, cscale_cscale.
      assert (TR : (fun k => Fb (tr 0 N (Gb (F k)))) = (fun k => tr u u' (F k))).
      { extensionality k. generalize (F k). intros j. unfold u'. destruct (Nat.eq_dec j u) as [->|A].
        - rewrite <- F0 at 1. rewrite (proj1 FGb), !tr_l, Fj; lia.
        - destruct (Nat.eq_dec j (mx + N)) as [->|B].
          + rewrite tr_r. replace (mx + N) with (Fb N) by (rewrite Fj; lia). rewrite (proj1 FGb), tr_r. auto.
          + rewrite (tr_o u) by auto. rewrite tr_o; [apply FGb| |]; intros E; [apply A; rewrite <- F0, <- E, (proj2 FGb); auto|apply B].
            rewrite <- (proj2 FGb j), E, Fj; lia. }
      rewrite TR. f_equal. unfold u'. replace (mx + N - m0) with ((mx - m0) + N) by lia.
      assert (HH : forall a b, hk (a + b) = (hk a * hk b)%C) by (clear; induction a as [|a IH]; intros b; cbn [Nat.add hk]; [ring|rewrite IH; ring]).
      rewrite HH. ring.
  Qed.
  Lemma lcf_loop l : runnable inp l -> has_no_S l -> (forall n, ~ In (CC n K0) l) -> (forall n, In n inp \/ prepared_in l n -> n <= m0) ->
    exists np mx mp F G l', rfold (lcf_step it) l (pat_new inp, m0, []) = Ok (np, mx, mp) /\ linv inp m0 l np mx mp F G l'.
  Proof.
    induction l as [|c l IH] using rev_ind; intros HR HS HC HM.
    - exists (pat_new inp), m0, [], (fun n => n), (fun n => n), []. split; [reflexivity|apply linv_nil].
    - pose proof HR as HR'. apply runnable_snoc in HR'. destruct HR' as [HR' OK].
      destruct IH as (np & mx & mp & F & G & l' & E & I); auto.
      { intros n d H. apply (HS n d). apply in_or_app; auto. } { intros n H. apply (HC n). apply in_or_app; auto. } { intros n H. apply HM. rewrite prepared_app. tauto. }
      rewrite rfold_app, E. cbn [rfold]. destruct (is_C c) eqn:EC.
      + destruct c as [| | | | |n cl| |]; try discriminate. destruct (linv_C l n cl np mx mp F G l' I HR) as (np' & mx' & mp' & F' & G' & l'' & E' & I').
        * intros k H. apply HM. rewrite prepared_app. tauto.
        * intros ->. apply (HC n). apply in_or_app; right; left; auto.
        * rewrite E'. exists np', mx', mp', F', G', l''. auto.
      + assert (HS1 : has_no_S [c]) by (intros n d [->|[]]; apply (HS n d); apply in_or_app; right; left; auto).
        pose proof (linv_other l c np mx mp F G l' I HR HS1 HM EC) as I'.
        exists (pat_add np (cmd_reindex (rl mp) c)), mx, mp, F, G, (l' ++ [cmd_reindex (rl mp) c]). split; auto. destruct c; try discriminate; reflexivity.
  Qed.
End Loop.
