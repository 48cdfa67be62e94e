(** The well-formedness checks of flow/core.py decide the flow axioms. *)
From Coq Require Import Reals Arith List Bool Lia Permutation Setoid Morphisms.
From Verif Require Import Cplx Mat2 NSet Fundamentals CliffordDb Clifford Measure QState Layer Pattern Standardize FlowSem FlowDet OpenGraph FlowSpec Flow.
Import ListNotations.

(** * Odd neighbourhoods *)
Lemma xorsum_odd l f : xorsum l f = Nat.odd (length (filter f l)).
Proof.
  induction l as [|x l IH]; auto. cbn [xorsum fold_right filter]. fold (xorsum l f). rewrite IH.
  destruct (f x); cbn [length]; [|apply xorb_false_l]. rewrite Nat.odd_succ, <- Nat.negb_odd. reflexivity.
Qed.
Lemma odd_nb_spec g s v : odd_nb g s v <-> xorsum (elems s) (fun u => mem v (nbh g u)) = true.
Proof.
  rewrite xorsum_odd. set (l := filter _ _).
  assert (ND : NoDup l) by (apply NoDup_filter, elems_NoDup).
  assert (I : forall u, In u l <-> mem u s = true /\ adjacent g u v).
  { intros u. unfold l. rewrite filter_In, elems_spec, mem_nbh. tauto. }
  split; [|intros H; exists l; auto]. intros (l' & N' & I' & H).
  replace (length l) with (length l'); auto. apply Permutation_length, NoDup_Permutation; auto. intros u. rewrite I, I'. tauto.
Qed.
Lemma og_odd_nb og s : (forall n, mem n s = true -> In n (g_nodes (og_graph og))) ->
  exists r, og_odd og s = Ok r /\ forall v, mem v r = true <-> odd_nb (og_graph og) s v.
Proof.
  intros H. destruct (og_odd_spec og s H) as (r & E & K). exists r. split; auto. intros v. rewrite odd_nb_spec, K. tauto.
Qed.
Lemma xorsum_eqb l b : NoDup l -> xorsum l (fun u => (u =? b)%nat) = lmem b l.
Proof.
  induction l as [|x l IH]; auto. intros ND. inversion ND; subst. cbn [xorsum fold_right]. fold (xorsum l (fun u => (u =? b)%nat)). rewrite IH by auto.
  unfold lmem. cbn [existsb]. fold (lmem b l). rewrite (Nat.eqb_sym b x). destruct (Nat.eqb_spec x b) as [->|]; [|apply xorb_false_l].
  destruct (lmem b l) eqn:E; auto. apply lmem_In in E; tauto.
Qed.
Lemma lmem_elems b s : lmem b (elems s) = mem b s.
Proof. apply eq_true_iff_eq. rewrite lmem_In, elems_spec. tauto. Qed.
Lemma xorsum_andl l b f : xorsum l (fun u => b && f u) = b && xorsum l f.
Proof. destruct b; cbn [andb]; auto. apply xorsum_false; auto. Qed.
Lemma nbh_cons V a b es n u : a <> b -> ~ In (edge_norm (a, b)) (map edge_norm es) ->
  mem n (nbh (Graph V ((a, b) :: es)) u) = xorb (xorb ((n =? a)%nat && (u =? b)%nat) ((n =? b)%nat && (u =? a)%nat)) (mem n (nbh (Graph V es) u)).
Proof.
  intros Hab Hn. apply eq_true_iff_eq. rewrite mem_nbh. unfold adjacent. cbn [g_edges In].
  assert (X : mem n (nbh (Graph V es) u) = true <-> In (u, n) es \/ In (n, u) es) by (rewrite mem_nbh; unfold adjacent; reflexivity).
  assert (Y : forall x y, edge_norm (x, y) = edge_norm (a, b) -> ~ (In (x, y) es)).
  { intros x y E K. apply Hn. rewrite <- E. apply in_map; auto. }
  assert (S1 : edge_norm (b, a) = edge_norm (a, b)).
  { unfold edge_norm. cbn [fst snd]. f_equal; lia. }
  destruct (mem n (nbh (Graph V es) u)) eqn:E.
  - destruct X as [X _]. specialize (X eq_refl). rewrite xorb_true_r, negb_true_iff.
    split; [intros _|tauto].
    destruct (Nat.eqb_spec n a) as [E1|E1], (Nat.eqb_spec u b) as [E2|E2], (Nat.eqb_spec n b) as [E3|E3], (Nat.eqb_spec u a) as [E4|E4]; cbn; auto; try congruence;
    exfalso; subst; destruct X as [X|X]; revert X; apply Y; auto.
  - rewrite xorb_false_r. destruct X as [_ X]. assert (X' : ~ (In (u, n) es \/ In (n, u) es)) by (intros K; apply X in K; discriminate).
    destruct (Nat.eqb_spec n a) as [E1|E1], (Nat.eqb_spec u b) as [E2|E2], (Nat.eqb_spec n b) as [E3|E3], (Nat.eqb_spec u a) as [E4|E4]; cbn; subst; try congruence; split; auto; try discriminate;
    intros [[K|K]|[K|K]]; try (injection K; congruence); exfalso; tauto.
Qed.
Lemma oddp_odd V es s n : (forall e, In e es -> fst e <> snd e) -> NoDup (map edge_norm es) ->
  oddp es (fun k => mem k s) n = xorsum (elems s) (fun u => mem n (nbh (Graph V es) u)).
Proof.
  induction es as [|[a b] es IH]; intros HS ND.
  - cbn. symmetry. apply xorsum_false. intros; apply mem_empty.
  - inversion ND; subst. cbn [oddp fold_right fst snd]. fold (oddp es (fun k => mem k s) n).
    rewrite IH; auto; [|intros; apply HS; right; auto].
    rewrite (xorsum_ext (elems s) (fun u => mem n (nbh (Graph V ((a, b) :: es)) u)) _) by (intros u _; apply nbh_cons; auto; apply (HS (a, b)); left; auto).
    rewrite !xorsum_xorb, !xorsum_andl, !xorsum_eqb, !lmem_elems by apply elems_NoDup. reflexivity.
Qed.
Lemma oddp_odd_nb g s n : graph_ok g -> simple g -> oddp (g_edges g) (fun k => mem k s) n = true <-> odd_nb g s n.
Proof.
  intros (_ & ND & _) HS. rewrite odd_nb_spec. destruct g as [V es]. cbn [g_edges] in *. rewrite (oddp_odd V) by auto. tauto.
Qed.

(** * Results that decide a proposition *)
Definition decides (r : res unit) (P : Prop) : Prop := (r = Ok tt /\ P) \/ (r = Err EFlow /\ ~ P).
Lemma dec_iff r P Q : decides r P -> (P <-> Q) -> decides r Q.
Proof. unfold decides. tauto. Qed.
Lemma dec_guard b : decides (guard b) (b = true).
Proof. destruct b; [left; auto|right; split; auto; discriminate]. Qed.
Lemma dec_guardP b P : (b = true <-> P) -> decides (guard b) P.
Proof. intros H. eapply dec_iff; [apply dec_guard|auto]. Qed.
Lemma dec_bind r k P Q : decides r P -> (P -> decides k Q) -> decides (do _ <- r; k) (P /\ Q).
Proof. unfold decides. intros [[-> H]|[-> H]] K; cbn [rbind]; [|tauto]. destruct (K H) as [[]|[]]; tauto. Qed.
Lemma dec_rall f l P : (forall n, In n l -> decides (f n) (P n)) -> decides (rall f l) (forall n, In n l -> P n).
Proof.
  unfold rall. generalize tt. induction l as [|x l IH]; intros u H; cbn [rfold].
  - left. destruct u. split; auto. intros n [].
  - destruct (H x (or_introl eq_refl)) as [[-> Hx]|[-> Hx]]; cbn [rbind].
    + eapply dec_iff; [apply IH; intros; apply H; right; auto|]. split; [|intros K n Hn; apply K; right; auto]. intros K n [->|Hn]; auto.
    + right. split; auto. intros K. apply Hx, K. left; auto.
Qed.

(** * Layers *)
Definition unions (ls : list nset) : nset := fold_right sunion sempty ls.
Lemma mem_unions n ls : mem n (unions ls) = true <-> exists j, in_layer ls j n.
Proof.
  unfold in_layer. induction ls as [|l ls IH]; cbn [unions fold_right].
  - rewrite mem_empty. split; [discriminate|]. intros (j & l & H & _). destruct j; discriminate.
  - fold (unions ls). rewrite mem_sunion, orb_true_iff, IH. split.
    + intros [H|(j & H)]; [exists 0, l; auto|exists (S j); auto].
    + intros ([|j] & x & H & K); cbn in H; [injection H as ->; auto|right; exists j, x; auto].
Qed.
Lemma mem_unions_skipn n i ls : mem n (unions (skipn i ls)) = true <-> exists j, i <= j /\ in_layer ls j n.
Proof.
  rewrite mem_unions. unfold in_layer. split.
  - intros (j & l & H & K). exists (i + j). split; [lia|]. exists l. split; auto. rewrite <- H. clear. revert ls. induction i as [|i IH]; intros ls; auto. destruct ls; cbn; [destruct j; auto|apply IH].
  - intros (j & Hj & l & H & K). exists (j - i), l. split; auto. rewrite <- H. replace j with (i + (j - i)) at 2 by lia. generalize (j - i). clear. revert ls. induction i as [|i IH]; intros ls n; auto. destruct ls; cbn; [destruct n; auto|apply IH].
Qed.
Section Layers.
Context (og : opengraph) (Q : nset -> nat -> Prop).
Fixpoint good (past : nset) (ms : list nset) : Prop :=
  match ms with
  | [] => True
  | l :: ms => (layer_ok og past l = true /\ forall n, mem n l = true -> Q (sunion past l) n) /\ good (sunion past l) ms
  end.
Lemma sunion_assoc a b c : sunion (sunion a b) c = sunion a (sunion b c).
Proof. apply nset_ext. intros n. rewrite !mem_sunion, orb_assoc; auto. Qed.
Lemma sunion_comm a b : sunion a b = sunion b a.
Proof. apply nset_ext. intros n. rewrite !mem_sunion, orb_comm; auto. Qed.
Lemma sunion_e a : sunion a sempty = a.
Proof. apply nset_ext. intros n. rewrite !mem_sunion, mem_empty, orb_false_r; auto. Qed.
Lemma sunion_0_l a : sunion sempty a = a.
Proof. rewrite sunion_comm. apply sunion_e. Qed.
Lemma good_app past a b : good past (a ++ b) <-> good past a /\ good (sunion past (unions a)) b.
Proof.
  revert past. induction a as [|l a IH]; intros past; cbn [app good unions fold_right].
  - rewrite sunion_e. tauto.
  - fold (unions a). rewrite IH, sunion_assoc. tauto.
Qed.
Lemma unions_cons l ls : unions (l :: ls) = sunion l (unions ls).
Proof. reflexivity. Qed.
Lemma unions_app a b : unions (a ++ b) = sunion (unions a) (unions b).
Proof.
  induction a as [|x a IH]; [cbn [app]; rewrite (sunion_comm (unions [])); symmetry; apply sunion_e|].
  cbn [app]. rewrite !unions_cons, IH, sunion_assoc. reflexivity.
Qed.
Lemma unions_rev ls : unions (rev ls) = unions ls.
Proof.
  induction ls as [|l ls IH]; auto. cbn [rev]. rewrite unions_app, IH, !unions_cons. replace (unions []) with sempty by reflexivity. rewrite sunion_e. apply sunion_comm.
Qed.
Lemma good_rev ls : good sempty (rev ls) <->
  forall i l, nth_error ls i = Some l -> layer_ok og (unions (skipn (S i) ls)) l = true /\ forall n, mem n l = true -> Q (unions (skipn i ls)) n.
Proof.
  induction ls as [|l ls IH]; cbn [rev].
  - split; [intros _ [|i] l H; discriminate|intros; exact I].
  - rewrite good_app, IH. cbn [good]. rewrite unions_rev. replace (sunion sempty (unions ls)) with (unions ls) by (rewrite sunion_comm, sunion_e; auto).
    replace (sunion (unions ls) l) with (unions (l :: ls)) by (cbn; apply sunion_comm). split.
    + intros (A & B & _) [|i] x H; cbn in H; [injection H as <-; auto|apply A; auto].
    + intros H. split; [intros i x Hx; apply (H (S i) x Hx)|]. split; auto. apply (H 0 l eq_refl).
Qed.
Context (it : iter) (Hit : iter_ok it) (f : pflow) (Hf : pf_og f = og) (chk : pflow -> nset -> nat -> res unit).
Hypothesis Hchk : forall past n, mem n past = true -> (forall k, mem k past = true -> In k (dkeys (og_meas og))) -> decides (chk f past n) (Q past n).
Lemma walk_dec F past ms : (forall k, mem k past = true -> In k (dkeys (og_meas og))) ->
  decides (do p <- rfold (gen_check_layer it chk f) ms past; guard (F p)) (good past ms /\ F (sunion past (unions ms)) = true).
Proof.
  revert past. induction ms as [|l ms IH]; intros past Hp; cbn [rfold good unions fold_right].
  - cbn [rbind]. rewrite sunion_e. eapply dec_iff; [apply dec_guard|tauto].
  - fold (unions ms). unfold gen_check_layer at 1. rewrite Hf.
    destruct (layer_ok og past l) eqn:E; cbn [guard rbind].
    + assert (Hl : forall k, mem k (sunion past l) = true -> In k (dkeys (og_meas og))).
      { intros k. rewrite mem_sunion, orb_true_iff. intros [K|K]; auto. unfold layer_ok in E. apply andb_prop in E. destruct E as [E _]. apply andb_prop in E. destruct E as [E _].
        apply mem_of_list. apply (proj1 (ssub_spec _ _) E); auto. }
      assert (D : decides (rall (chk f (sunion past l)) (it l)) (forall n, In n (it l) -> Q (sunion past l) n)).
      { apply dec_rall. intros n Hn. apply Hchk; auto. rewrite mem_sunion. apply iter_In in Hn; auto. rewrite Hn. apply orb_true_r. }
      destruct D as [[-> D]|[-> D]]; cbn [rbind].
      * eapply dec_iff; [apply IH; auto|]. rewrite sunion_assoc. split; [|tauto]. intros [A B]. repeat split; auto. intros n Hn. apply D. apply iter_In; auto.
      * right. split; auto. intros [[[_ A] _] _]. apply D. intros n Hn. apply A. apply iter_In in Hn; auto.
    + right. split; auto. intros [[[A _] _] _]. discriminate.
Qed.
End Layers.

(** * General properties *)
Lemma not_true_false b : b <> true <-> b = false.
Proof. apply not_true_iff_false. Qed.
Definition first_ok (og : opengraph) (ls : list nset) : Prop :=
  match ls with
  | [] => g_nodes (og_graph og) = []
  | l :: _ => og_out og <> [] -> forall n, mem n l = true <-> In n (og_out og)
  end.
Lemma mem_fold_values (cf : dict nset) n : mem n (fold_right (fun p s => sunion (snd p) s) sempty cf) = true <-> exists k s, In (k, s) cf /\ mem n s = true.
Proof.
  induction cf as [|[k s] cf IH]; cbn [fold_right snd].
  - rewrite mem_empty. split; [discriminate|intros (? & ? & [] & _)].
  - rewrite mem_sunion, orb_true_iff, IH. split.
    + intros [H|(k' & s' & A & B)]; [exists k, s; split; auto; left; auto|exists k', s'; split; auto; right; auto].
    + intros (k' & s' & [A|A] & B); [injection A as <- <-; auto|right; eauto].
Qed.
Lemma mem_non_outputs og n : mem n (non_outputs og) = true <-> In n (g_nodes (og_graph og)) /\ ~ In n (og_out og).
Proof. unfold non_outputs, og_nodes. rewrite mem_sdiff, andb_true_iff, negb_true_iff, <- not_true_iff_false, !mem_of_list. tauto. Qed.
Lemma check_general_dec f : NoDup (dkeys (pf_cf f)) ->
  decides (check_general f) (corrf_ok (pf_og f) (pf_cf f) /\ first_ok (pf_og f) (pf_layers f)).
Proof.
  intros ND. unfold check_general.
  assert (KD : forall i, In i (dkeys (pf_cf f)) <-> exists s, dget (pf_cf f) i = Some s).
  { intros i. split; [apply dget_keys|]. intros (s & H). eapply dget_is_key; eauto. }
  destruct (seqb (of_list (dkeys (pf_cf f))) (non_outputs (pf_og f))) eqn:E1; cbn [negb].
  2:{ right. split; auto. intros [[A _] _]. apply not_true_iff_false in E1. apply E1, seqb_spec. intros n. apply eq_true_iff_eq.
      rewrite mem_of_list, mem_non_outputs, KD. apply A. }
  match goal with |- context [ssub ?a ?b] => destruct (ssub a b) eqn:E2 end; cbn [negb].
  2:{ right. split; auto. intros [[_ A] _]. apply not_true_iff_false in E2. apply E2, ssub_spec. intros n Hn. apply mem_fold_values in Hn. destruct Hn as (k & s & H & K).
      apply In_dget in H; auto. destruct (A k s n H K). unfold og_nodes. rewrite mem_sdiff, andb_true_iff, negb_true_iff, <- not_true_iff_false, !mem_of_list. tauto. }
  assert (CO : corrf_ok (pf_og f) (pf_cf f)).
  { constructor.
    - intros i. rewrite <- KD, <- mem_of_list, (proj1 (seqb_spec _ _) E1 i). apply mem_non_outputs.
    - intros i s j H K. apply dget_In in H. assert (X : mem j (fold_right (fun p s => sunion (snd p) s) sempty (pf_cf f)) = true) by (apply mem_fold_values; eauto).
      apply (proj1 (ssub_spec _ _) E2) in X. unfold og_nodes in X. rewrite mem_sdiff, andb_true_iff, negb_true_iff, <- not_true_iff_false, !mem_of_list in X. auto. }
  unfold first_ok. destruct (pf_layers f) as [|l ls].
  - destruct (g_nodes (og_graph (pf_og f))); [left; auto|right; split; auto; intros [_ K]; discriminate].
  - destruct (og_out (pf_og f)) as [|x outs] eqn:EO; [left; split; auto; split; auto; congruence|].
    destruct (seqb l (of_list (x :: outs))) eqn:E3.
    + left. split; auto. split; auto. intros _ n. rewrite (proj1 (seqb_spec _ _) E3 n), mem_of_list. tauto.
    + right. split; auto. intros [_ K]. apply not_true_iff_false in E3. apply E3, seqb_spec. intros n. apply eq_true_iff_eq. rewrite mem_of_list. apply K. discriminate.
Qed.

(** index shift between all layers and measured layers *)
Definition shift (og : opengraph) : nat := match og_out og with [] => 0 | _ => 1 end.
Lemma in_layer_skipn k ls j n : in_layer (skipn k ls) j n <-> in_layer ls (k + j) n.
Proof.
  unfold in_layer. assert (E : nth_error (skipn k ls) j = nth_error ls (k + j)).
  { revert ls. induction k as [|k IH]; intros ls; auto. destruct ls; cbn; [destruct j; auto|apply IH]. }
  rewrite E. tauto.
Qed.
Section Order.
Context (og : opengraph) (ls : list nset) (Hog : og_ok og).
Let ls' := skipn (shift og) ls.
Lemma meas_iff n : In n (dkeys (og_meas og)) <-> In n (g_nodes (og_graph og)) /\ ~ In n (og_out og).
Proof. apply (ok_meas _ Hog). Qed.
Lemma ord_measured (Ho : order_ok og ls) n : In n (dkeys (og_meas og)) <-> exists j, in_layer ls' j n.
Proof.
  rewrite meas_iff, (ord_cover _ _ Ho). split.
  - intros [(i & Hi) K]. unfold ls'. destruct (og_out og) as [|x os] eqn:E.
    + exists i. apply in_layer_skipn. unfold shift. rewrite E. auto.
    + destruct i as [|i]; [exfalso; apply K; rewrite <- E; apply (ord_first _ _ Ho); [congruence|auto]|].
      exists i. apply in_layer_skipn. unfold shift. rewrite E. auto.
  - intros (j & Hj). apply in_layer_skipn in Hj. split; [eauto|]. intros K. unfold shift in Hj. destruct (og_out og) as [|x os] eqn:E; [destruct K|].
    rewrite <- E in K. apply (ord_first _ _ Ho) in K; [|congruence]. pose proof (ord_disj _ _ Ho _ _ _ Hj K). discriminate.
Qed.
Lemma ord_down (Ho : order_ok og ls) a i k : in_layer ls' a i ->
  (mem k (unions (skipn a ls')) = true <-> In k (dkeys (og_meas og)) /\ ~ prec ls i k).
Proof.
  intros Ha. rewrite mem_unions_skipn, (ord_measured Ho). split.
  - intros (j & Hj & K). split; [eauto|]. intros (i' & j' & A & B & D). apply in_layer_skipn in Ha, K.
    pose proof (ord_disj _ _ Ho _ _ _ Ha A). pose proof (ord_disj _ _ Ho _ _ _ K B). lia.
  - intros [(j & K) NP]. exists j. split; auto. destruct (le_lt_dec a j); auto. exfalso. apply NP.
    apply in_layer_skipn in Ha, K. exists (shift og + a), (shift og + j). repeat split; auto. lia.
Qed.
Lemma order_iff (Q : nset -> nat -> Prop) cf : corrf_ok og cf -> first_ok og ls ->
  (good og Q sempty (rev ls') /\ seqb (sunion (of_list (og_out og)) (unions (rev ls'))) (og_nodes og) = true) <->
  (order_ok og ls /\ forall i s P, dget cf i = Some s -> (forall k, mem k P = true <-> In k (dkeys (og_meas og)) /\ ~ prec ls i k) -> Q P i).
Proof.
  intros HC HF. rewrite good_rev, unions_rev. split.
  - intros [G F]. rewrite seqb_spec in F.
    assert (FM : forall n, In n (g_nodes (og_graph og)) <-> In n (og_out og) \/ exists j, in_layer ls' j n).
    { intros n. rewrite <- mem_unions, <- !mem_of_list, <- orb_true_iff, <- mem_sunion, F. unfold og_nodes. tauto. }
    assert (LO : forall j n, in_layer ls' j n -> In n (dkeys (og_meas og)) /\ forall j', j < j' -> ~ in_layer ls' j' n).
    { intros j n (l & Hl & Hn). destruct (G j l Hl) as [L _]. unfold layer_ok in L. apply andb_prop in L. destruct L as [L1 L2]. apply andb_prop in L1. destruct L1 as [L1 L3].
      split; [apply mem_of_list, (proj1 (ssub_spec _ _) L1); auto|]. intros j' Hj Hj'. apply (proj1 (sinter_empty _ _) L2 n); auto.
      apply mem_unions_skipn. exists j'. split; [lia|auto]. }
    assert (O1 : og_out og <> [] -> forall n, In n (og_out og) <-> in_layer ls 0 n).
    { intros K n. unfold first_ok in HF. destruct ls as [|l r].
      - destruct (og_out og) as [|x os] eqn:E; [congruence|]. pose proof (proj2 (ok_out _ Hog) x). rewrite E, HF in H. destruct H; left; auto.
      - rewrite <- HF by auto. unfold in_layer. cbn. split; [exists l; auto|]. intros (l0 & [= <-] & ?); auto. }
    assert (CASE : forall i n, in_layer ls i n -> (i = 0 /\ In n (og_out og)) \/ exists j, i = shift og + j /\ in_layer ls' j n).
    { intros i n Hi. unfold ls', shift. destruct (og_out og) as [|x os] eqn:E.
      - right. exists i. split; auto.
      - destruct i as [|i]; [left; split; auto; apply O1; [congruence|auto]|]. right. exists i. split; auto. apply in_layer_skipn; auto. }
    assert (Ho : order_ok og ls).
    { constructor.
      - intros n. rewrite FM. split.
        + intros [K|(j & K)]; [|apply in_layer_skipn in K; eauto]. exists 0. apply O1; auto. intros E. rewrite E in K. destruct K.
        + intros (i & Hi). destruct (CASE _ _ Hi) as [[_ K]|(j & _ & K)]; eauto.
      - intros i j n Hi Hj. destruct (CASE _ _ Hi) as [[-> K]|(i' & -> & K)], (CASE _ _ Hj) as [[-> K']|(j' & -> & K')]; auto.
        + apply LO in K'. destruct K' as [K' _]. apply meas_iff in K'. tauto.
        + apply LO in K. destruct K as [K _]. apply meas_iff in K. tauto.
        + destruct (lt_eq_lt_dec i' j') as [[L| ->]|L]; auto; exfalso; [apply (proj2 (LO _ _ K) _ L K')|apply (proj2 (LO _ _ K') _ L K)].
      - intros i l Hl. destruct (le_lt_dec (shift og) i) as [L|L].
        + replace i with (shift og + (i - shift og)) in Hl by lia.
          assert (X : nth_error ls' (i - shift og) = Some l).
          { rewrite <- Hl. unfold ls'. generalize (shift og), (i - shift og). clear. intros k. revert ls. induction k as [|k IH]; intros ls m; auto. destruct ls; cbn; [destruct m; auto|apply IH]. }
          destruct (G _ _ X) as [Y _]. unfold layer_ok in Y. apply andb_prop in Y. destruct Y as [Y _]. apply andb_prop in Y. destruct Y as [_ Y].
          apply negb_true_iff in Y. destruct (elems l) as [|x e] eqn:El; [|exists x; apply elems_spec; rewrite El; left; auto].
          exfalso. apply is_empty_false in Y. apply Y, nset_ext. intros n. rewrite mem_empty. apply not_true_iff_false. intros K. apply elems_spec in K. rewrite El in K. destruct K.
        + unfold shift in L. destruct (og_out og) as [|x os] eqn:E; [lia|]. replace i with 0 in Hl by lia.
          assert (K : in_layer ls 0 x) by (apply O1; [congruence|left; auto]). destruct K as (l' & K1 & K2). exists x. congruence.
      - auto. }
    split; auto. intros i s P Hs HP. assert (Hi : In i (dkeys (og_meas og))) by (apply meas_iff, (cf_dom _ _ HC); eauto).
    apply (ord_measured Ho) in Hi. destruct Hi as (a & Ha). pose proof Ha as (l & Hl & Hn). destruct (G a l Hl) as [_ HQ].
    replace P with (unions (skipn a ls')); auto. apply nset_ext. intros k. apply eq_true_iff_eq. rewrite HP. apply (ord_down Ho); auto.
  - intros [Ho HQ]. split.
    + intros i l Hl. split.
      * unfold layer_ok. rewrite !andb_true_iff. repeat split.
        -- apply ssub_spec. intros n Hn. apply mem_of_list, (ord_measured Ho). exists i, l. auto.
        -- apply negb_true_iff, not_true_iff_false. intros K. apply is_empty_spec in K.
           assert (X : nth_error ls (shift og + i) = Some l).
           { rewrite <- Hl. unfold ls'. generalize (shift og). clear. intros k. revert ls. induction k as [|k IH]; intros ls; auto. destruct ls; cbn; [destruct i; auto|apply IH]. }
           destruct (ord_ne _ _ Ho _ _ X) as (n & Hn). rewrite K, mem_empty in Hn. discriminate.
        -- apply sinter_empty. intros n A B. apply mem_unions_skipn in B. destruct B as (j & Hj & B). apply in_layer_skipn in B.
           assert (A' : in_layer ls' i n) by (exists l; auto). apply in_layer_skipn in A'. pose proof (ord_disj _ _ Ho _ _ _ A' B). lia.
      * intros n Hn. assert (A : in_layer ls' i n) by (exists l; auto). assert (B : In n (dkeys (og_meas og))) by (apply (ord_measured Ho); eauto).
        apply meas_iff, (cf_dom _ _ HC) in B. destruct B as (s & B). apply (HQ n s); auto. intros k. apply (ord_down Ho); auto.
    + apply seqb_spec. intros n. apply eq_true_iff_eq. unfold og_nodes. rewrite mem_sunion, orb_true_iff, !mem_of_list, mem_unions.
      rewrite <- (ord_measured Ho), meas_iff. split; [|intros K; destruct (in_dec Nat.eq_dec n (og_out og)); tauto].
      intros [K|K]; [apply (proj2 (ok_out _ Hog)); auto|tauto].
Qed.
End Order.
Lemma gen_check_dec og (Hog : og_ok og) (Q : nset -> nat -> Prop) it f chk : iter_ok it -> pf_og f = og -> NoDup (dkeys (pf_cf f)) ->
  (corrf_ok og (pf_cf f) -> forall past n, mem n past = true -> (forall k, mem k past = true -> In k (dkeys (og_meas og))) -> decides (chk f past n) (Q past n)) ->
  decides (gen_check it chk f) (corrf_ok og (pf_cf f) /\ order_ok og (pf_layers f) /\
    forall i s P, dget (pf_cf f) i = Some s -> (forall k, mem k P = true <-> In k (dkeys (og_meas og)) /\ ~ prec (pf_layers f) i k) -> Q P i).
Proof.
  intros Hit Hf ND Hchk. unfold gen_check. eapply dec_iff; [apply dec_bind; [apply check_general_dec; auto|]|].
  - rewrite Hf. intros [HC HF].
    pose proof (walk_dec og Q it Hit f Hf chk (Hchk HC) (fun past => seqb (sunion (of_list (og_out (pf_og f))) past) (og_nodes (pf_og f))) sempty (measured_layers og (pf_layers f))) as W.
    cbv beta in W. rewrite Hf in W. rewrite sunion_0_l in W.
    apply W. intros k. rewrite mem_empty. discriminate.
  - rewrite Hf. split.
    + intros [[HC HF] H]. split; auto. apply (order_iff og (pf_layers f) Hog Q (pf_cf f) HC HF). unfold measured_layers in H. apply H.
    + intros (HC & Ho & H). assert (HF : first_ok og (pf_layers f)).
      { unfold first_ok. destruct (pf_layers f) as [|l r] eqn:E.
        - destruct (g_nodes (og_graph og)) as [|x r] eqn:G; auto. destruct (proj1 (ord_cover _ _ Ho x)) as (i & l & K & _); [rewrite G; left; auto|]. destruct i; discriminate.
        - intros K n. rewrite (ord_first _ _ Ho K). unfold in_layer. cbn. split; [exists l; auto|]. intros (l0 & [= <-] & ?); auto. }
      split; auto. pose proof (proj2 (order_iff og (pf_layers f) Hog Q (pf_cf f) HC HF) (conj Ho H)) as R.
      unfold measured_layers. apply R.
Qed.

(** * The three checks *)
Section Checks.
Context (it : iter) (Hit : iter_ok it) (f : pflow) (Hog : og_ok (pf_og f)) (ND : NoDup (dkeys (pf_cf f))).
Notation og := (pf_og f).
Notation cf := (pf_cf f).
Notation ls := (pf_layers f).
Notation odd := (odd_nb (og_graph og)).

Lemma meas_get n : In n (dkeys (og_meas og)) <-> exists m, dget (og_meas og) n = Some m.
Proof. split; [apply dget_keys|]. intros (m & H). eapply dget_is_key; eauto. Qed.
Lemma node_data (HC : corrf_ok og cf) n : In n (dkeys (og_meas og)) ->
  exists s r m, dget cf n = Some s /\ og_odd og s = Ok r /\ (forall v, mem v r = true <-> odd s v) /\ dget (og_meas og) n = Some m.
Proof.
  intros Hn. pose proof Hn as Hm. apply meas_get in Hm. destruct Hm as (m & Hm). apply (meas_iff og Hog) in Hn. apply (cf_dom _ _ HC) in Hn. destruct Hn as (s & Hs).
  destruct (og_odd_nb og s) as (r & E & K); [intros k Hk; apply (cf_img _ _ HC n s k Hs Hk)|]. exists s, r, m. auto.
Qed.
Lemma empty_past s P n : is_empty (sinter (sremove n s) P) = true <-> forall j, mem j s = true -> n <> j -> mem j P = true -> False.
Proof.
  rewrite sinter_empty. split; intros H j.
  - intros A B D. apply (H j); auto. rewrite mem_sremove, A. cbn. apply negb_true_iff, Nat.eqb_neq. auto.
  - rewrite mem_sremove, andb_true_iff, negb_true_iff, Nat.eqb_neq. intros [A B]. apply H; auto.
Qed.
(** gflow *)
Definition gQ (P : nset) (n : nat) : Prop := forall s, dget cf n = Some s ->
  (forall j, mem j s = true -> n <> j -> mem j P = true -> False) /\
  (forall j, odd s j -> n <> j -> mem j P = true -> False) /\
  (labelled og n (LPlane PXY) -> mem n s = false /\ odd s n) /\
  (labelled og n (LPlane PXZ) -> mem n s = true /\ odd s n) /\
  (labelled og n (LPlane PYZ) -> mem n s = true /\ ~ odd s n).
Lemma gf_node_dec (HP : planar og) (HC : corrf_ok og cf) P n : In n (dkeys (og_meas og)) -> decides (gf_check_node f P n) (gQ P n).
Proof.
  intros Hn. destruct (node_data HC n Hn) as (s & r & m & E1 & E2 & E3 & E4). unfold gf_check_node. rewrite E1. cbn [of_opt rbind].
  destruct (HP n m E4) as (a & p & ->).
  eapply dec_iff; [apply dec_bind; [apply dec_guardP, empty_past|intros _]|].
  { rewrite E2. cbn [rbind]. apply dec_bind; [apply dec_guardP, empty_past|intros _]. rewrite E4. cbn [of_opt rbind mplane].
    assert (SD : decides (match p with PXY => guard (negb (mem n s) && mem n r) | PXZ => guard (mem n s && mem n r) | PYZ => guard (mem n s && negb (mem n r)) end)
      (match p with PXY => mem n s = false /\ odd s n | PXZ => mem n s = true /\ odd s n | PYZ => mem n s = true /\ ~ odd s n end)).
    { destruct p; apply dec_guardP; rewrite andb_true_iff, ?negb_true_iff, <- ?not_true_iff_false, E3; tauto. }
    exact SD. }
  unfold gQ. rewrite E1.
  assert (L : forall l, labelled og n l <-> l = LPlane p).
  { intros l. unfold labelled. rewrite E4. split; [intros (m & [= <-] & K); auto|]. intros ->. eexists; split; eauto. }
  setoid_rewrite L. split.
  - intros (A & B & D) s' [= <-]. split; auto. split; [intros j Hj; apply (B j), E3; auto|]. split; [|split]; intros Q; injection Q as <-; auto.
  - intros H. destruct (H s eq_refl) as (A & B & D1 & D2 & D3). split; auto. split; [intros j Hj; apply E3 in Hj; apply B; auto|]. destruct p; auto.
Qed.
Lemma prec_dec_past P i j : (forall k, mem k P = true <-> In k (dkeys (og_meas og)) /\ ~ prec ls i k) ->
  order_ok og ls -> In i (dkeys (og_meas og)) -> In j (g_nodes (og_graph og)) -> (mem j P = true -> False) <-> prec ls i j.
Proof.
  intros HP Ho Hi Hj. rewrite HP. split.
  - intros K. apply (ord_cover _ _ Ho) in Hj. destruct Hj as (b & Hj). pose proof Hi as Hi'. apply (ord_measured og ls Hog Ho) in Hi'. destruct Hi' as (a & Ha). apply in_layer_skipn in Ha.
    destruct (le_lt_dec (shift og + a) b) as [L|L]; [|exists (shift og + a), b; auto].
    exfalso. apply K. split.
    + apply (ord_measured og ls Hog Ho). exists (b - shift og). apply in_layer_skipn. replace (shift og + (b - shift og)) with b by lia. auto.
    + intros (i' & j' & A & B & D). pose proof (ord_disj _ _ Ho _ _ _ A Ha). pose proof (ord_disj _ _ Ho _ _ _ B Hj). lia.
  - tauto.
Qed.
Lemma odd_node s j : odd s j -> In j (g_nodes (og_graph og)).
Proof.
  intros (l & _ & K & O). destruct l as [|u l]; [discriminate|]. destruct (K u) as [[_ A] _]; [left; auto|]. destruct (adjacent_nodes _ _ _ (ok_graph _ Hog) A). auto.
Qed.
Lemma down_ex (Ho : order_ok og ls) i : In i (dkeys (og_meas og)) -> exists P, forall k, mem k P = true <-> In k (dkeys (og_meas og)) /\ ~ prec ls i k.
Proof.
  intros Hi. apply (ord_measured og ls Hog Ho) in Hi. destruct Hi as (a & Ha). exists (unions (skipn a (skipn (shift og) ls))). intros k. apply ord_down; auto.
Qed.
Lemma gf_check_decides : planar og -> decides (gf_check it f) (gflow og cf ls).
Proof.
  intros HP. unfold gf_check. eapply dec_iff; [apply (gen_check_dec og Hog gQ it f gf_check_node Hit eq_refl ND)|].
  { intros HC past n A B. apply gf_node_dec; auto. }
  split.
  - intros (HC & Ho & H).
    assert (D : forall i s, dget cf i = Some s -> In i (dkeys (og_meas og)) /\ exists P, (forall k, mem k P = true <-> In k (dkeys (og_meas og)) /\ ~ prec ls i k) /\ gQ P i).
    { intros i s Hs. assert (Hi : In i (dkeys (og_meas og))) by (apply (meas_iff og Hog), (cf_dom _ _ HC); eauto). split; auto.
      destruct (down_ex Ho i Hi) as (P & HPP). exists P. split; eauto. }
    constructor; auto; intros i s; [intros j Hs|intros j Hs|intros Hs..]; destruct (D i s Hs) as (Hi & P & A & B); destruct (B s Hs) as (B1 & B2 & B3 & B4 & B5); auto.
    + intros Hj Hne. apply (proj1 (prec_dec_past P i j A Ho Hi (proj1 (cf_img _ _ HC i s j Hs Hj)))). apply B1; auto.
    + intros Hj Hne. apply (proj1 (prec_dec_past P i j A Ho Hi (odd_node _ _ Hj))). eauto.
  - intros [Ho HC G1 G2 G3 G4 G5]. split; auto. split; auto. intros i s P Hs HPP s' Hs'. rewrite Hs in Hs'. injection Hs' as <-.
    assert (Hi : In i (dkeys (og_meas og))) by (apply (meas_iff og Hog), (cf_dom _ _ HC); eauto).
    split; [|split; [|split; [|split]]]; eauto.
    + intros j Hj Hne. apply (proj2 (prec_dec_past P i j HPP Ho Hi (proj1 (cf_img _ _ HC i s j Hs Hj)))). eauto.
    + intros j Hj Hne. apply (proj2 (prec_dec_past P i j HPP Ho Hi (odd_node _ _ Hj))). eauto.
Qed.
(** causal flow *)
Definition cQ (P : nset) (n : nat) : Prop := forall s, dget cf n = Some s ->
  labelled og n (LPlane PXY) /\
  exists j, (forall k, mem k s = true <-> k = j) /\ adjacent (og_graph og) n j /\ mem j P = false /\
    forall k, adjacent (og_graph og) j k -> k <> n -> mem k P = false.
Lemma card1 s : (length (elems s) =? 1)%nat = true <-> exists j, forall k, mem k s = true <-> k = j.
Proof.
  rewrite Nat.eqb_eq. split.
  - intros H. destruct (elems s) as [|j [|]] eqn:E; try discriminate. exists j. intros k. rewrite <- elems_spec, E. cbn. split; [intros [|[]]; auto|auto].
  - intros (j & H). assert (Permutation (elems s) [j]).
    { apply NoDup_Permutation; [apply elems_NoDup|repeat constructor; auto|]. intros k. rewrite elems_spec, H. cbn. split; [auto|intros [|[]]; auto]. }
    apply Permutation_length in H0. auto.
Qed.
Lemma cf_node_dec (HP : planar og) (HC : corrf_ok og cf) P n : In n (dkeys (og_meas og)) -> decides (cf_check_node f P n) (cQ P n).
Proof.
  intros Hn. destruct (node_data HC n Hn) as (s & r & m & E1 & _ & _ & E4). unfold cf_check_node. rewrite E1. cbn [of_opt rbind].
  destruct (HP n m E4) as (a & p & ->).
  destruct (og_neighbors_spec og s) as (nb & EN & KN); [intros k Hk; apply (cf_img _ _ HC n s k E1 Hk)|].
  eapply dec_iff; [apply dec_bind; [apply dec_guardP, card1|intros _]|].
  { rewrite E4. cbn [of_opt rbind mplane]. apply dec_bind; [apply dec_guard|intros _]. rewrite EN. cbn [rbind].
    apply dec_bind; [apply dec_guard|intros _]. apply dec_bind; [apply dec_guardP, sinter_empty|intros _]. apply dec_guardP, empty_past. }
  unfold cQ. rewrite E1.
  assert (L : forall l, labelled og n l <-> l = LPlane p).
  { intros l. unfold labelled. rewrite E4. split; [intros (m & [= <-] & K); auto|]. intros ->. eexists; split; eauto. }
  setoid_rewrite L. split.
  - intros ((j & A) & B & D & F & G) s' [= <-]. split; [destruct p; auto; discriminate|]. exists j. split; auto.
    assert (NB : forall k, mem k nb = true <-> adjacent (og_graph og) j k).
    { intros k. rewrite KN. split; [intros (u & K1 & K2); apply A in K1; subst; auto|]. intros K. exists j. split; auto. apply A; auto. }
    split; [apply adjacent_sym, NB; auto|]. split; [apply not_true_iff_false; intros K; apply (F j); auto; apply A; auto|].
    intros k Hk Hne. apply not_true_iff_false. intros K. apply (G k); auto. apply NB; auto.
  - intros H. destruct (H s eq_refl) as (A & j & B & D & F & G).
    assert (NB : forall k, mem k nb = true <-> adjacent (og_graph og) j k).
    { intros k. rewrite KN. split; [intros (u & K1 & K2); apply B in K1; subst; auto|]. intros K. exists j. split; auto. apply B; auto. }
    split; [exists j; auto|]. split; [injection A as <-; auto|]. split; [apply NB, adjacent_sym; auto|].
    split; [intros k K1 K2; apply B in K1; subst; congruence|]. intros k K1 K2 K3. apply NB in K1. rewrite (G k) in K3; auto. discriminate.
Qed.
Lemma cf_check_decides : planar og -> decides (cf_check it f) (causal_flow og cf ls).
Proof.
  intros HP. unfold cf_check. eapply dec_iff; [apply (gen_check_dec og Hog cQ it f cf_check_node Hit eq_refl ND)|].
  { intros HC past n A B. apply cf_node_dec; auto. }
  assert (NT : forall b, b = false <-> (b = true -> False)) by (intros b; symmetry; apply not_true_iff_false).
  split.
  - intros (HC & Ho & H).
    assert (D : forall i s, dget cf i = Some s -> In i (dkeys (og_meas og)) /\ exists P, (forall k, mem k P = true <-> In k (dkeys (og_meas og)) /\ ~ prec ls i k) /\ cQ P i).
    { intros i s Hs. assert (Hi : In i (dkeys (og_meas og))) by (apply (meas_iff og Hog), (cf_dom _ _ HC); eauto). split; auto.
      destruct (down_ex Ho i Hi) as (P & HPP). exists P. split; eauto. }
    constructor; auto; intros i s Hs; destruct (D i s Hs) as (Hi & P & A & B); destruct (B s Hs) as (B1 & j & B2 & B3 & B4 & B5); auto.
    exists j. split; auto. split; auto. destruct (adjacent_nodes _ _ _ (ok_graph _ Hog) B3) as [_ Nj]. split.
    + apply (proj1 (prec_dec_past P i j A Ho Hi Nj)), NT; auto.
    + intros k Hk Hne. destruct (adjacent_nodes _ _ _ (ok_graph _ Hog) Hk) as [_ Nk]. apply (proj1 (prec_dec_past P i k A Ho Hi Nk)), NT; auto.
  - intros [Ho HC G1 G2]. split; auto. split; auto. intros i s P Hs HPP s' Hs'. rewrite Hs in Hs'. injection Hs' as <-.
    assert (Hi : In i (dkeys (og_meas og))) by (apply (meas_iff og Hog), (cf_dom _ _ HC); eauto).
    split; eauto. destruct (G2 i s Hs) as (j & A & B & D & F). exists j. split; auto. split; auto. destruct (adjacent_nodes _ _ _ (ok_graph _ Hog) B) as [_ Nj]. split.
    + apply NT, (proj2 (prec_dec_past P i j HPP Ho Hi Nj)); auto.
    + intros k Hk Hne. destruct (adjacent_nodes _ _ _ (ok_graph _ Hog) Hk) as [_ Nk]. apply NT, (proj2 (prec_dec_past P i k HPP Ho Hi Nk)); auto.
Qed.
(** Pauli flow *)
Definition ys (past : nset) : nset := of_list (filter (is_Y og) (elems past)).
Lemma mem_ys n past : mem n (ys past) = mem n past && is_Y og n.
Proof. apply eq_true_iff_eq. unfold ys. rewrite mem_of_list, filter_In, elems_spec, andb_true_iff. tauto. Qed.
Definition pf_chk (f : pflow) (past : nset) (n : nat) : res unit := pf_check_node it f past (of_list (filter (is_Y (pf_og f)) (elems past))) n.
Lemma pf_rfold ms past : rfold (pf_check_layer it f) ms (past, ys past) =
  (do p <- rfold (gen_check_layer it pf_chk f) ms past; Ok (p, ys p)).
Proof.
  revert past. induction ms as [|l ms IH]; intros past; cbn [rfold]; [reflexivity|]. unfold pf_check_layer at 1, gen_check_layer at 1.
  destruct (guard (layer_ok og past l)); cbn [rbind]; auto.
  assert (E : sunion (ys past) (of_list (filter (is_Y og) (it l))) = ys (sunion past l)).
  { apply nset_ext. intros n. rewrite mem_sunion, !mem_ys, mem_sunion. apply eq_true_iff_eq. rewrite orb_true_iff, !andb_true_iff, orb_true_iff, mem_of_list, filter_In, iter_In by auto. tauto. }
  rewrite E. unfold pf_chk at 1. fold (ys (sunion past l)).
  destruct (rall (pf_check_node it f (sunion past l) (ys (sunion past l))) (it l)); cbn [rbind]; auto.
Qed.
Lemma pf_check_gen : pf_check it f = gen_check it pf_chk f.
Proof.
  unfold pf_check, gen_check. destruct (check_general f); cbn [rbind]; auto.
  assert (E : ys sempty = sempty) by (apply nset_ext; intros n; rewrite mem_ys, mem_empty; auto).
  pose proof (pf_rfold (measured_layers og ls) sempty) as K. rewrite E in K. rewrite K.
  destruct (rfold (gen_check_layer it pf_chk f) _ sempty); reflexivity.
Qed.
Definition pQ (P : nset) (n : nat) : Prop := forall s, dget cf n = Some s ->
  (forall j l, mem j s = true -> n <> j -> mem j P = true -> labelled og j l -> lab_in_XY l = true) /\
  (forall j l, odd s j -> n <> j -> mem j P = true -> labelled og j l -> lab_in_YZ l = true) /\
  (forall j, mem j P = true -> n <> j -> labelled og j (LAxis AY) -> (mem j s = true <-> odd s j)) /\
  (labelled og n (LPlane PXY) -> mem n s = false /\ odd s n) /\
  (labelled og n (LPlane PXZ) -> mem n s = true /\ odd s n) /\
  (labelled og n (LPlane PYZ) -> mem n s = true /\ ~ odd s n) /\
  (labelled og n (LAxis AX) -> odd s n) /\
  (labelled og n (LAxis AZ) -> mem n s = true) /\
  (labelled og n (LAxis AY) -> (mem n s = true /\ ~ odd s n) \/ (mem n s = false /\ odd s n)).
Lemma is_Y_spec n : is_Y og n = true <-> labelled og n (LAxis AY).
Proof.
  unfold is_Y, labelled. destruct (dget (og_meas og) n) as [[a p|[] sg]|]; split; try discriminate; auto; try (intros (m & [= <-] & K); discriminate).
  - intros _. eexists; split; eauto.
Qed.
Lemma rall_lab_dec s P n tst : (forall k, mem k P = true -> In k (dkeys (og_meas og))) ->
  decides (rall (fun i => do l <- og_label og i; guard (tst l)) (it (sinter (sremove n s) P)))
    (forall j l, mem j s = true -> n <> j -> mem j P = true -> labelled og j l -> tst l = true).
Proof.
  intros HPm. eapply dec_iff; [apply (dec_rall _ _ (fun j => forall l, labelled og j l -> tst l = true))|].
  - intros j Hj. apply iter_In in Hj; auto. rewrite mem_sinter in Hj. apply andb_prop in Hj. destruct Hj as [_ Hj]. apply HPm, meas_get in Hj.
    destruct Hj as (m & Hm). unfold og_label. rewrite Hm. cbn [of_opt rbind]. apply dec_guardP. unfold labelled. rewrite Hm. split.
    + intros K l (m' & [= <-] & <-). auto.
    + intros K. apply K. eauto.
  - split.
    + intros H j l A B D. apply H. apply iter_In; auto. rewrite mem_sinter, mem_sremove, A, D. cbn. rewrite andb_true_r. apply negb_true_iff, Nat.eqb_neq; auto.
    + intros H j Hj l. apply iter_In in Hj; auto. rewrite mem_sinter, mem_sremove, !andb_true_iff, negb_true_iff, Nat.eqb_neq in Hj. apply H; tauto || (destruct Hj as [[_ K] _]; auto).
Qed.
Lemma pf_node_dec (HC : corrf_ok og cf) P n : mem n P = true -> (forall k, mem k P = true -> In k (dkeys (og_meas og))) -> decides (pf_chk f P n) (pQ P n).
Proof.
  intros Hp HPm. pose proof (HPm n Hp) as Hn. destruct (node_data HC n Hn) as (s & r & m & E1 & E2 & E3 & E4).
  unfold pf_chk, pf_check_node. fold (ys P). rewrite E1. cbn [of_opt rbind]. unfold og_label at 1. rewrite E4. cbn [of_opt rbind].
  set (cl := sdiff (sunion r s) (sinter r s)).
  assert (CL : forall k, mem k cl = xorb (mem k s) (mem k r)).
  { intros k. unfold cl. rewrite mem_sdiff, mem_sunion, mem_sinter. destruct (mem k r), (mem k s); reflexivity. }
  assert (O1 : forall k, mem k cl = true <-> (mem k s = true /\ ~ odd s k) \/ (mem k s = false /\ odd s k)).
  { intros k. rewrite CL, <- E3. destruct (mem k r), (mem k s); cbn; intuition discriminate. }
  eapply dec_iff; [apply dec_bind; [apply rall_lab_dec; auto|intros _]|].
  { rewrite E2. cbn [rbind]. apply dec_bind; [apply rall_lab_dec; auto|intros _]. apply dec_bind; [apply dec_guardP, empty_past|intros _].
    assert (SD : decides (match mlabel m with
      | LPlane PXY => guard (negb (mem n s) && mem n r) | LPlane PXZ => guard (mem n s && mem n r) | LPlane PYZ => guard (mem n s && negb (mem n r))
      | LAxis AX => guard (mem n r) | LAxis AY => guard (mem n cl) | LAxis AZ => guard (mem n s) end)
      (match mlabel m with
      | LPlane PXY => mem n s = false /\ odd s n | LPlane PXZ => mem n s = true /\ odd s n | LPlane PYZ => mem n s = true /\ ~ odd s n
      | LAxis AX => odd s n | LAxis AY => (mem n s = true /\ ~ odd s n) \/ (mem n s = false /\ odd s n) | LAxis AZ => mem n s = true end)).
    { destruct (mlabel m) as [[]|[]]; apply dec_guardP; auto; rewrite ?andb_true_iff, ?negb_true_iff, <- ?not_true_iff_false, ?E3; tauto. }
    exact SD. }
  unfold pQ. rewrite E1.
  assert (L : forall l, labelled og n l <-> l = mlabel m).
  { intros l. unfold labelled. rewrite E4. split; [intros (m' & [= <-] & K); auto|]. intros ->. eexists; split; eauto. }
  setoid_rewrite L. split.
  - intros (A & B & D & F) s' [= <-]. split; auto. split; [intros j l Hj; apply (B j l), E3; auto|]. split.
    + intros j Hj Hne Hl. assert (K : mem j cl <> true).
      { intros K. apply (D j); auto. rewrite mem_ys, Hj. apply is_Y_spec; auto. }
      rewrite CL in K. rewrite <- E3. destruct (mem j s), (mem j r); cbn in K; try tauto; split; congruence.
    + split; [|split; [|split; [|split; [|split]]]]; intros Q; rewrite <- Q in F; auto.
  - intros H. destruct (H s eq_refl) as (A & B & D & F). split; auto. split; [intros j l Hj; apply E3 in Hj; apply B; auto|]. split.
    + intros j Hj Hne Hc. rewrite mem_ys in Hj. apply andb_prop in Hj. destruct Hj as [Hj Hy]. apply is_Y_spec in Hy. specialize (D j Hj Hne Hy). apply O1 in Hc.
      destruct Hc as [[K1 K2]|[K1 K2]]; [tauto|]. apply D in K2. congruence.
    + destruct F as (F1 & F2 & F3 & F4 & F5 & F6). destruct (mlabel m) as [[]|[]]; auto.
Qed.
Lemma lab_XY l : lab_in_XY l = true <-> ~ (l <> LAxis AX /\ l <> LAxis AY).
Proof. destruct l as [p|[]]; cbn; split; try discriminate; try congruence; try tauto; intros K; exfalso; apply K; split; discriminate. Qed.
Lemma lab_YZ l : lab_in_YZ l = true <-> ~ (l <> LAxis AY /\ l <> LAxis AZ).
Proof. destruct l as [p|[]]; cbn; split; try discriminate; try congruence; try tauto; intros K; exfalso; apply K; split; discriminate. Qed.
Lemma pf_check_decides : decides (pf_check it f) (pauli_flow og cf ls).
Proof.
  rewrite pf_check_gen. eapply dec_iff; [apply (gen_check_dec og Hog pQ it f pf_chk Hit eq_refl ND)|].
  { intros HC past n A B. apply pf_node_dec; auto. }
  split.
  - intros (HC & Ho & H).
    assert (D : forall i s, dget cf i = Some s -> In i (dkeys (og_meas og)) /\ exists P, (forall k, mem k P = true <-> In k (dkeys (og_meas og)) /\ ~ prec ls i k) /\ pQ P i).
    { intros i s Hs. assert (Hi : In i (dkeys (og_meas og))) by (apply (meas_iff og Hog), (cf_dom _ _ HC); eauto). split; auto.
      destruct (down_ex Ho i Hi) as (P & HPP). exists P. split; eauto. }
    constructor; auto; intros i s; [intros j l Hs|intros j l Hs|intros j Hs|intros Hs..]; destruct (D i s Hs) as (Hi & P & A & B); destruct (B s Hs) as (B1 & B2 & B3 & B4 & B5 & B6 & B7 & B8 & B9); auto.
    + intros Hj Hne Hl L1 L2. apply (proj1 (prec_dec_past P i j A Ho Hi (proj1 (cf_img _ _ HC i s j Hs Hj)))).
      intros K. specialize (B1 j l Hj Hne K Hl). apply lab_XY in B1. tauto.
    + intros Hj Hne Hl L1 L2. apply (proj1 (prec_dec_past P i j A Ho Hi (odd_node _ _ Hj))).
      intros K. specialize (B2 j l Hj Hne K Hl). apply lab_YZ in B2. tauto.
    + intros Np Hne Hl. apply B3; auto. apply A. split; auto. destruct Hl as (m & K & _). apply meas_get. eauto.
  - intros [Ho HC G1 G2 G3 G4 G5 G6 G7 G8 G9]. split; auto. split; auto. intros i s P Hs HPP s' Hs'. rewrite Hs in Hs'. injection Hs' as <-.
    assert (Hi : In i (dkeys (og_meas og))) by (apply (meas_iff og Hog), (cf_dom _ _ HC); eauto).
    split; [|split; [|split; [|split; [|split; [|split; [|split; [|split]]]]]]]; eauto.
    + intros j l Hj Hne Hp Hl. apply lab_XY. intros [K1 K2]. apply HPP in Hp. apply (proj2 Hp). eauto.
    + intros j l Hj Hne Hp Hl. apply lab_YZ. intros [K1 K2]. apply HPP in Hp. apply (proj2 Hp). eauto.
    + intros j Hp Hne Hl. apply (G3 i); auto. apply HPP in Hp. tauto.
Qed.
End Checks.
