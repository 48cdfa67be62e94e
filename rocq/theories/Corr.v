(** Model of graphix/flow/core.py: building XZ-corrections from mappings, and
    XZCorrections.check_well_formed; correctness of both. *)
From Coq Require Import Reals Arith ZArith List Bool Lia Permutation Relations.
From Verif Require Import Cplx Mat2 NSet Fundamentals CliffordDb Clifford Measure QState Layer Pattern Standardize FlowSem FlowDet OpenGraph FlowSpec Flow FlowWF FlowPat TopGen.
Import ListNotations.

(** * The model *)
(** core.py:1379-1382 one corrected node *)
Definition cl_node (m : nat) (st : dict nset * dict Z) (v : nat) : res (dict nset * dict Z) :=
  if mem v (dgets (fst st) m) then Ok st
  else Ok (dset (fst st) m (sadd v (dgets (fst st) m)),
           dset (snd st) v ((match dget (snd st) v with Some k => k | None => 0 end) + 1)%Z).
(** core.py:1377-1382 one entry of a correction mapping *)
Definition cl_entry (it : iter) (oset : nset) (st : dict nset * dict Z) (p : nat * nset) : res (dict nset * dict Z) :=
  if mem (fst p) oset then Ok st else rfold (cl_node (fst p)) (it (sdiff (snd p) oset)) st.
(** core.py:1342-1406 _corrections_to_partial_order_layers *)
Definition corr_layers (it : iter) (og : opengraph) (x z : dict nset) : res (list nset) :=
  let oset := of_list (og_out og) in
  do st1 <- rfold (cl_entry it oset) x ([], []);
  do st <- rfold (cl_entry it oset) z st1;
  let zero := sdiff (sdiff (og_nodes og) oset) (of_list (dkeys (snd st))) in
  do g <- topological_generations it (fun u => Some (dgets (fst st) u)) (snd st) zero;
  match g with
  | None => Err EXZ
  | Some [] => Ok (if is_empty oset then [] else [oset])
  | Some g =>
      let ordered := unions g in
      if negb (ssub ordered (og_nodes og)) then Err EXZ
      else let unordered := sdiff (sdiff (og_nodes og) ordered) oset in
           let g := if is_empty unordered then g else removelast g ++ [sunion (last g sempty) unordered] in
           Ok (if is_empty oset then rev g else oset :: rev g)
  end.
(** core.py:102-147 from_measured_nodes_mapping.  [None] arguments are empty mappings *)
Definition from_mapping (it : iter) (og : opengraph) (x z : dict nset) : res xzcorr :=
  if negb (ssub (sunion (of_list (dkeys x)) (of_list (dkeys z))) (of_list (dkeys (og_meas og)))) then Err EXZ
  else do ls <- corr_layers it og x z; Ok (XZ og x z ls).

(** core.py:452-470 the tests on one node.  Flow and XZ-correction errors about
    layers are the same Python classes; [xz_err] renames the others *)
Definition xz_check_node (x z : dict nset) (_ : pflow) (past : nset) (n : nat) : res unit :=
  do _ <- guard (is_empty (sinter (dgets x n) past)); guard (is_empty (sinter (dgets z n) past)).
Definition xz_err (r : res unit) : res unit := match r with Err EFlow => Err EXZ | r => r end.
(** core.py:408-475 check_well_formed *)
Definition xz_check (it : iter) (xz : xzcorr) : res unit :=
  let og := xz_og xz in
  match xz_layers xz with
  | [] => match g_nodes (og_graph og), xz_x xz, xz_z xz with [], [], [] => Ok tt | _, _, _ => Err EXZ end
  | first :: _ =>
      if negb (ssub (sunion (of_list (dkeys (xz_x xz))) (of_list (dkeys (xz_z xz)))) (of_list (dkeys (og_meas og)))) then Err EXZ
      else if match og_out og with [] => false | _ => negb (seqb first (of_list (og_out og))) end then Err EXZ
      else xz_err (do past <- rfold (gen_check_layer it (xz_check_node (xz_x xz) (xz_z xz)) (PF og [] (xz_layers xz)))
                                    (measured_layers og (xz_layers xz)) sempty;
                   guard (seqb (sunion (of_list (og_out og)) past) (og_nodes og)))
  end.

(** * Specification *)
(** the outcome of [u] conditions a correction on [v] *)
Definition corrects (x z : dict nset) (u v : nat) : Prop :=
  exists s, (dget x u = Some s \/ dget z u = Some s) /\ mem v s = true.
(** the mappings are keyed by measured nodes *)
Definition keys_measured (og : opengraph) (x z : dict nset) : Prop :=
  forall u, In u (dkeys x) \/ In u (dkeys z) -> In u (g_nodes (og_graph og)) /\ ~ In u (og_out og).
(** well-formed corrections, as documented: keys are measured nodes, corrected
    nodes are nodes of the graph, no closed loop *)
Record corr_ok (og : opengraph) (x z : dict nset) : Prop := {
  co_keys : keys_measured og x z;
  co_vals : forall u v, corrects x z u v -> In v (g_nodes (og_graph og));
  co_loop : forall u, ~ clos_trans nat (corrects x z) u u }.
(** what check_well_formed documents: keys are measured nodes, the layers are a
    partial order of the graph, corrections respect it.  (Corrections on nodes
    outside the graph are not excluded.) *)
Definition xz_wf (og : opengraph) (x z : dict nset) (ls : list nset) : Prop :=
  keys_measured og x z /\ order_ok og ls /\ (forall u v, corrects x z u v -> In v (g_nodes (og_graph og)) -> prec ls u v).
(** corrected nodes come after the node on which the correction depends *)
Definition corr_ordered (x z : dict nset) (ls : list nset) : Prop := forall u v, corrects x z u v -> prec ls u v.

(** * Correctness *)
Lemma dgets_mem d u v : mem v (dgets d u) = true <-> exists s, dget d u = Some s /\ mem v s = true.
Proof.
  unfold dgets. destruct (dget d u) as [s|].
  - split; [eauto|]. intros (s' & [= <-] & H); auto.
  - rewrite mem_empty. split; [discriminate|]. intros (s & H & _); discriminate.
Qed.
Lemma corrects_dgets x z u v : corrects x z u v <-> mem v (dgets x u) = true \/ mem v (dgets z u) = true.
Proof.
  rewrite !dgets_mem. unfold corrects. split.
  - intros (s & [H|H] & K); [left|right]; eauto.
  - intros [(s & H & K)|(s & H & K)]; exists s; auto.
Qed.
(** the state represents the edge relation [E] *)
Definition cinv (E : nat -> nat -> Prop) (st : dict nset * dict Z) : Prop :=
  (forall u v, mem v (dgets (fst st) u) = true <-> E u v) /\ NoDup (dkeys (snd st)) /\
  forall v k, dget (snd st) v = Some k <-> (0 < k)%Z /\ exists l, NoDup l /\ (forall u, In u l <-> E u v) /\ k = Z.of_nat (length l).
Lemma cinv_ext E E' st : (forall u v, E u v <-> E' u v) -> cinv E st -> cinv E' st.
Proof.
  intros H (A & B & C). split; [intros; rewrite A; auto|]. split; auto. intros v k. rewrite C. split; intros (K & l & L1 & L2 & L3); split; auto; exists l;
  (split; [auto|split; [intros u; rewrite L2; firstorder|auto]]).
Qed.
Lemma cl_node_ok m st v E : cinv E st -> exists st', cl_node m st v = Ok st' /\ cinv (fun a b => E a b \/ (a = m /\ b = v)) st'.
Proof.
  intros (A & B & C). unfold cl_node. destruct (mem v (dgets (fst st) m)) eqn:Em.
  - exists st. split; auto. apply A in Em. apply (cinv_ext E); [|split; auto]. intros a b. split; auto. intros [?|[-> ->]]; auto.
  - eexists. split; [reflexivity|]. assert (NE : ~ E m v) by (rewrite <- A, Em; discriminate).
    split; [|split]; cbn [fst snd].
    + intros a b. unfold dgets at 1. rewrite dget_dset. destruct (Nat.eqb_spec m a) as [Ea|Ea].
      * subst a. rewrite mem_sadd, orb_true_iff, Nat.eqb_eq, A. tauto.
      * fold (dgets (fst st) a). rewrite A. intuition congruence.
    + apply dset_NoDup; auto.
    + intros w k. rewrite dget_dset. destruct (Nat.eqb_spec v w) as [Ew|Ew].
      * subst w. assert (X : exists l, NoDup l /\ (forall u, In u l <-> E u v) /\ Z.of_nat (length l) = match dget (snd st) v with Some k => k | None => 0%Z end).
        { destruct (dget (snd st) v) as [k0|] eqn:Ek.
          - apply C in Ek. destruct Ek as (_ & l & L1 & L2 & ->). eauto.
          - exists []. split; [constructor|]. split; auto. intros u. split; [intros []|]. intros K. exfalso.
            pose (P := fun l : list nat => NoDup l /\ forall u, In u l <-> In u (dkeys (fst st)) /\ E u v).
            assert (HP : exists l, P l).
            { exists (nodup Nat.eq_dec (filter (fun u => mem v (dgets (fst st) u)) (dkeys (fst st)))). split; [apply NoDup_nodup|].
              intros a. rewrite nodup_In, filter_In, A. tauto. }
            destruct HP as (l & P1 & P2).
            assert (Hl : forall a, In a l <-> E a v).
            { intros a. rewrite P2. split; [tauto|]. intros H. split; auto. apply A in H. unfold dgets in H.
              destruct (dget (fst st) a) eqn:Q; [eapply dget_is_key; eauto|]. rewrite mem_empty in H. discriminate. }
            assert (Y : dget (snd st) v = Some (Z.of_nat (length l))).
            { apply C. split; [|eauto]. destruct l; [|simpl; lia]. apply Hl in K. destruct K. }
            congruence. }
        destruct X as (l & L1 & L2 & L3). rewrite <- L3. split.
        -- intros [= <-]. split; [lia|]. exists (m :: l). split; [constructor; auto; rewrite L2; auto|]. split; [|simpl; lia].
           intros u. simpl. rewrite L2. intuition.
        -- intros (_ & l' & L1' & L2' & ->). f_equal. assert (Permutation l' (m :: l)).
           { apply NoDup_Permutation; auto; [constructor; auto; rewrite L2; auto|]. intros u. rewrite L2'. simpl. rewrite L2. intuition. }
           apply Permutation_length in H. simpl in H. lia.
      * rewrite C. split; intros (K & l & L1 & L2 & L3); split; auto; exists l; (split; [auto|split; [|auto]]); intros u; rewrite L2; intuition congruence.
Qed.
Lemma cl_nodes_ok m l : forall st E, cinv E st -> exists st', rfold (cl_node m) l st = Ok st' /\ cinv (fun a b => E a b \/ (a = m /\ In b l)) st'.
Proof.
  induction l as [|v l IH]; intros st E H; cbn [rfold].
  - exists st. split; auto. eapply cinv_ext; [|exact H]. simpl. tauto.
  - destruct (cl_node_ok m st v E H) as (st1 & -> & H1). destruct (IH _ _ H1) as (st2 & E2 & H2). exists st2. split; auto.
    eapply cinv_ext; [|exact H2]. cbn. intros a b. simpl. intuition; subst; tauto.
Qed.
Lemma cl_entries_ok it oset : iter_ok it -> forall (l : dict nset) st E, cinv E st ->
  exists st', rfold (cl_entry it oset) l st = Ok st' /\
    cinv (fun a b => E a b \/ (mem a oset = false /\ mem b oset = false /\ exists s, In (a, s) l /\ mem b s = true)) st'.
Proof.
  intros Hit. induction l as [|[m s] l IH]; intros st E H; cbn [rfold].
  - exists st. split; auto. eapply cinv_ext; [|exact H]. intros a b. split; auto. intros [?|(_ & _ & s & [] & _)]; auto.
  - unfold cl_entry at 1. cbn [fst snd]. destruct (mem m oset) eqn:Em.
    + destruct (IH _ _ H) as (st2 & E2 & H2). exists st2. split; auto. eapply cinv_ext; [|exact H2].
      intros a b. cbn. split; (intros [K|(K1 & K2 & s' & K3 & K4)]; [auto|]); right.
      * repeat split; auto. exists s'. simpl. auto.
      * simpl in K3. destruct K3 as [K3|K3]; [injection K3 as <- <-; congruence|]. repeat split; auto. eauto.
    + destruct (cl_nodes_ok m (it (sdiff s oset)) st E H) as (st1 & -> & H1). destruct (IH _ _ H1) as (st2 & E2 & H2). exists st2. split; auto.
      eapply cinv_ext; [|exact H2]. intros a b. cbn. rewrite (iter_In _ _ _ Hit), mem_sdiff, andb_true_iff, negb_true_iff. split.
      * intros [[K|(-> & K1 & K2)]|(K1 & K2 & s' & K3 & K4)]; [auto| |]; right; (repeat split; auto); [exists s; simpl; auto|exists s'; simpl; auto].
      * intros [K|(K1 & K2 & s' & K3 & K4)]; [auto|]. simpl in K3. destruct K3 as [K3|K3]; [injection K3 as <- <-; auto|]. right. repeat split; auto. eauto.
Qed.


Section FromMap.
  Variables (it : iter) (og : opengraph) (x z : dict nset).
  Hypothesis Hit : iter_ok it.
  Hypothesis Hog : og_ok og.
  Hypothesis Nx : NoDup (dkeys x).
  Hypothesis Nz : NoDup (dkeys z).
  Let oset := of_list (og_out og).
  Definition cedge (u v : nat) : Prop := ~ In u (og_out og) /\ ~ In v (og_out og) /\ corrects x z u v.
  Lemma mem_oset n : mem n oset = true <-> In n (og_out og).
  Proof. apply mem_of_list. Qed.
  Lemma mem_oset_f n : mem n oset = false <-> ~ In n (og_out og).
  Proof. rewrite <- mem_oset. symmetry. apply not_true_iff_false. Qed.
  Lemma corr_fold : exists st, (do st1 <- rfold (cl_entry it oset) x ([], []); rfold (cl_entry it oset) z st1) = Ok st /\ cinv cedge st.
  Proof.
    assert (I0 : cinv (fun _ _ => False) (([], []) : dict nset * dict Z)).
    { split; [intros u v; cbn; rewrite mem_empty; intuition discriminate|]. split; [constructor|].
      intros v k. cbn. split; [discriminate|]. intros (K & l & _ & L & ->). destruct l as [|a l]; [simpl in K; lia|]. destruct (proj1 (L a)); left; auto. }
    destruct (cl_entries_ok it oset Hit x _ _ I0) as (st1 & -> & H1). cbn [rbind].
    destruct (cl_entries_ok it oset Hit z _ _ H1) as (st2 & -> & H2). exists st2. split; auto.
    eapply cinv_ext; [|exact H2]. intros a b. unfold cedge, corrects. cbn. rewrite !mem_oset_f. split.
    - intros [[[]|(K1 & K2 & s & K3 & K4)]|(K1 & K2 & s & K3 & K4)]; (repeat split; auto); exists s; split; auto; [left|right]; apply In_dget; auto.
    - intros (K1 & K2 & s & [K3|K3] & K4); apply dget_In in K3; [left; right|right]; repeat split; auto; eauto.
  Qed.
  Hypothesis HK : keys_measured og x z.
  Lemma corrects_src u v : corrects x z u v -> In u (g_nodes (og_graph og)) /\ ~ In u (og_out og).
  Proof. intros (s & [H|H] & _); apply HK; [left|right]; eapply dget_is_key; eauto. Qed.
  Lemma cyclic_corr st V : cinv cedge st -> (forall u v, cedge u v -> In u V /\ In v V) ->
    (cyclic V (fun u => Some (dgets (fst st) u)) <-> exists u, clos_trans nat (corrects x z) u u).
  Proof.
    intros (A & _) HV. set (R := fun u v : nat => In u V /\ In v V /\ edge (fun u => Some (dgets (fst st) u)) u v).
    assert (HR : forall u v, R u v <-> cedge u v).
    { intros u v. unfold R, edge. split.
      - intros (_ & _ & s & [= <-] & K). apply A; auto.
      - intros K. split; [apply (HV u v K)|]. split; [apply (HV u v K)|]. exists (dgets (fst st) u). split; auto. apply A; auto. }
    split; intros (u & C); exists u.
    - assert (X : forall a b, clos_trans nat R a b -> clos_trans nat (corrects x z) a b); [|apply X; exact C].
      intros a b Q. induction Q as [a b K|a b c _ IH1 _ IH2]; [apply HR in K; constructor; apply K|eapply t_trans; eauto].
    - change (clos_trans nat R u u). assert (Hu : ~ In u (og_out og)).
      { assert (X : forall a b, clos_trans nat (corrects x z) a b -> ~ In a (og_out og)) by (intros a b Q; induction Q as [a b K|]; auto; apply corrects_src in K; tauto). eapply X; eauto. }
      assert (X : forall a b, clos_trans nat (corrects x z) a b -> ~ In b (og_out og) -> clos_trans nat R a b).
      { clear u C Hu. intros a b C. apply clos_trans_tn1 in C. induction C as [b K|b c K C IH]; intros Hb.
        - constructor. apply HR. split; [apply corrects_src in K; tauto|auto].
        - pose proof (corrects_src b c K) as K2. apply t_trans with b; [apply IH; tauto|]. constructor. apply HR. split; [tauto|auto]. }
      apply X; auto.
  Qed.

  Lemma in_layer_cons l ls i n : in_layer (l :: ls) i n <-> match i with 0 => mem n l = true | S i => in_layer ls i n end.
  Proof.
    unfold in_layer. destruct i; cbn.
    - split; [intros (l0 & [= <-] & H); auto|eauto].
    - tauto.
  Qed.
  Lemma from_layers_ok :
    (exists ls, corr_layers it og x z = Ok ls /\ corr_ok og x z /\ order_ok og ls /\ corr_ordered x z ls) \/
    (corr_layers it og x z = Err EXZ /\ ~ corr_ok og x z).
  Proof.
    destruct corr_fold as (st & ES & CI). pose proof CI as (IA & IB & IC).
    unfold corr_layers. cbv zeta. fold oset.
    destruct (rfold (cl_entry it oset) x ([], [])) as [st1|e]; [|discriminate]. cbn [rbind] in *. rewrite ES. cbn [rbind].
    set (dag := fun u => Some (dgets (fst st) u)).
    set (zero := sdiff (sdiff (og_nodes og) oset) (of_list (dkeys (snd st)))).
    set (V := elems (sunion (sdiff (og_nodes og) oset) (of_list (dkeys (snd st))))).
    assert (HE : forall u v, edge dag u v <-> cedge u v).
    { intros u v. unfold edge, dag. rewrite <- IA. split; [intros (s & [= <-] & K); auto|eauto]. }
    assert (IK : forall v, In v (dkeys (snd st)) <-> exists u, cedge u v).
    { intros v. split.
      - intros K. apply dget_keys in K. destruct K as (k & K). apply IC in K. destruct K as (K & l & _ & L & ->).
        destruct l as [|a l]; [simpl in K; lia|]. exists a. apply L. left; auto.
      - intros (u & K). destruct (dget (snd st) v) eqn:Q; [eapply dget_is_key; eauto|].
        exfalso. set (l := nodup Nat.eq_dec (filter (fun u => mem v (dgets (fst st) u)) (dkeys (fst st)))).
        assert (Hl : forall a, In a l <-> cedge a v).
        { intros a. unfold l. rewrite nodup_In, filter_In, IA. split; [tauto|]. intros H. split; auto. apply IA in H. unfold dgets in H.
          destruct (dget (fst st) a) eqn:Q'; [eapply dget_is_key; eauto|]. rewrite mem_empty in H. discriminate. }
        assert (Y : dget (snd st) v = Some (Z.of_nat (length l))); [|congruence].
        apply IC. split; [|exists l; split; [apply NoDup_nodup|auto]]. apply Hl in K. destruct l; [destruct K|simpl; lia]. }
    assert (HV : forall n, In n V <-> (In n (g_nodes (og_graph og)) /\ ~ In n (og_out og)) \/ exists u, cedge u n).
    { intros n. unfold V. rewrite elems_spec, mem_sunion, mem_sdiff, orb_true_iff, andb_true_iff, negb_true_iff, mem_oset_f, mem_of_list, IK.
      unfold og_nodes. rewrite mem_of_list. tauto. }
    assert (TI : tg_input V dag (snd st) zero).
    { constructor.
      - apply elems_NoDup.
      - intros u Hu. exists (dgets (fst st) u). split; [reflexivity|]. intros v K. apply IA in K. apply HV. right; eauto.
      - exact IB.
      - intros v k. rewrite IC. split.
        + intros (K & l & L1 & L2 & ->). split.
          * apply HV. right. destruct l as [|a l]; [simpl in K; lia|]. exists a. apply L2; left; auto.
          * split; auto. exists l. split; auto. split; auto. intros u. rewrite L2, HE. split; [|tauto]. intros C. split; auto. apply HV. left. destruct C as (_ & _ & C). apply corrects_src in C; auto.
        + intros (_ & K & l & L1 & L2 & ->). split; auto. exists l. split; auto. split; auto. intros u. rewrite L2, HE. split; [tauto|]. intros C. split; auto. apply HV. left. destruct C as (_ & _ & C). apply corrects_src in C; auto.
      - intros v. unfold zero. rewrite mem_sdiff, mem_sdiff, !andb_true_iff, !negb_true_iff, mem_oset_f, HV, <- not_true_iff_false, mem_of_list, IK.
        unfold og_nodes. rewrite mem_of_list. split.
        + intros ((K1 & K2) & K3). split; auto. intros u Hu C. apply K3. exists u. apply HE; auto.
        + intros (K1 & K2). assert (K3 : ~ exists u, cedge u v).
          { intros (u & C). apply (K2 u); [|apply HE; auto]. apply HV. left. destruct C as (_ & _ & C). apply corrects_src in C; auto. }
          destruct K1; tauto. }
    assert (HC : forall u v, cedge u v -> In u V /\ In v V).
    { intros u v C. split; apply HV; [left|right; eauto]. destruct C as (_ & _ & C). apply corrects_src in C; auto. }
    destruct (tg_correct it V dag (snd st) zero Hit TI) as [[-> C]|(g & -> & G)]; cbn [rbind].
    { right. split; auto. intros [_ _ N]. apply (cyclic_corr st V CI HC) in C. destruct C as [u C]. apply (N u C). }
    assert (AC : forall u, ~ clos_trans nat (corrects x z) u u).
    { intros u C. apply (gens_acyclic V dag g G). apply (cyclic_corr st V CI HC). eauto. }
    assert (HVal : (forall n, In n V -> In n (g_nodes (og_graph og))) <-> forall u v, corrects x z u v -> In v (g_nodes (og_graph og))).
    { split.
      - intros K u v C. destruct (in_dec Nat.eq_dec v (og_out og)) as [O|O]; [apply (proj2 (ok_out _ Hog)); auto|].
        apply K, HV. right. exists u. split; [apply corrects_src in C; tauto|auto].
      - intros K n Hn. apply HV in Hn. destruct Hn as [[Hn _]|(u & _ & _ & C)]; eauto. }
    assert (FIN : (forall n, In n V -> In n (g_nodes (og_graph og))) -> corr_ok og x z /\ order_ok og (if is_empty oset then rev g else oset :: rev g) /\
                  corr_ordered x z (if is_empty oset then rev g else oset :: rev g)).
    { intros HN. split; [split; auto; apply HVal; auto|].
      assert (LV : forall n, In n V <-> In n (g_nodes (og_graph og)) /\ ~ In n (og_out og)).
      { intros n. rewrite HV. split; [|tauto]. intros [K|(u & K)]; auto. split; [apply HN, HV; right; eauto|]. apply K. }
      assert (LR : forall i n, in_layer (rev g) i n -> In n V).
      { intros i n K. apply in_layer_rev in K. destruct K as [_ K]. apply (go_cover _ _ _ G); eauto. }
      assert (LRc : forall n, In n V -> exists i, in_layer (rev g) i n).
      { intros n K. apply (go_cover _ _ _ G) in K. destruct K as [i K]. exists (length g - S i). pose proof (TopGen.in_layer_lt _ _ _ K).
        apply in_layer_rev. split; [lia|]. replace (length g - S (length g - S i)) with i by lia. auto. }
      assert (LRd : forall i j n, in_layer (rev g) i n -> in_layer (rev g) j n -> i = j).
      { intros i j n K1 K2. apply in_layer_rev in K1, K2. destruct K1 as [K1 K1'], K2 as [K2 K2']. pose proof (go_disj _ _ _ G _ _ _ K1' K2'). lia. }
      assert (LRp : forall u v i j, cedge u v -> in_layer (rev g) i u -> in_layer (rev g) j v -> j < i).
      { intros u v i j C K1 K2. apply in_layer_rev in K1, K2. destruct K1 as [K1 K1'], K2 as [K2 K2'].
        pose proof (go_edge _ _ _ G u v _ _ (proj1 (HC u v C)) (proj2 (HE u v) C) K1' K2'). lia. }
      assert (LRn : forall i l, nth_error (rev g) i = Some l -> exists n, mem n l = true).
      { intros i l K. assert (i < length g) by (rewrite <- rev_length; apply nth_error_Some; congruence). rewrite nth_error_rev in K by auto. eapply (go_ne _ _ _ G); eauto. }
      destruct (is_empty oset) eqn:EO.
      - assert (NO : og_out og = []).
        { assert (Q : forall a, ~ In a (og_out og)) by (intros a K; apply mem_oset in K; rewrite (is_empty_mem _ EO) in K; discriminate).
          clear -Q. destruct (og_out og) as [|a r]; auto. destruct (Q a). left; auto. }
        split.
        + constructor.
          * intros n. split; [intros K; apply LRc, LV; rewrite NO; auto|]. intros (i & K). apply LR, LV in K. tauto.
          * auto.
          * auto.
          * rewrite NO. congruence.
        + intros u v C. assert (CE : cedge u v) by (unfold cedge; rewrite NO; auto). destruct (HC u v CE) as [K1 K2].
          destruct (LRc u K1) as (i & Hi), (LRc v K2) as (j & Hj). exists i, j. split; auto. split; auto. eapply LRp; eauto.
      - split.
        + constructor.
          * intros n. split.
            -- intros K. destruct (in_dec Nat.eq_dec n (og_out og)) as [O|O]; [exists 0; apply in_layer_cons, mem_oset; auto|].
               destruct (LRc n) as (i & Hi); [apply LV; auto|]. exists (S i). apply in_layer_cons; auto.
            -- intros ([|i] & K); apply in_layer_cons in K; [apply mem_oset in K; apply (proj2 (ok_out _ Hog)); auto|]. apply LR, LV in K; tauto.
          * intros [|i] [|j] n K1 K2; apply in_layer_cons in K1, K2; auto.
            -- apply mem_oset in K1. apply LR, LV in K2. tauto.
            -- apply mem_oset in K2. apply LR, LV in K1. tauto.
            -- f_equal; eapply LRd; eauto.
          * intros [|i] l K; cbn in K; [|eapply LRn; eauto]. assert (EL : l = oset) by congruence. subst l. destruct (elems oset) as [|a r] eqn:Q; [|exists a; apply elems_spec; rewrite Q; left; auto].
            exfalso. apply is_empty_false in EO. apply EO, nset_ext. intros n. rewrite mem_empty. apply not_true_iff_false. rewrite <- elems_spec, Q. auto.
          * intros _ n. rewrite in_layer_cons, mem_oset. tauto.
        + intros u v C. destruct (corrects_src u v C) as [S1 S2]. destruct (LRc u) as (i & Hi); [apply LV; auto|].
          destruct (in_dec Nat.eq_dec v (og_out og)) as [O|O].
          * exists (S i), 0. split; [apply in_layer_cons; auto|]. split; [apply in_layer_cons, mem_oset; auto|lia].
          * assert (CE : cedge u v) by (split; auto). destruct (LRc v (proj2 (HC u v CE))) as (j & Hj). exists (S i), (S j).
            split; [apply in_layer_cons; auto|]. split; [apply in_layer_cons; auto|]. pose proof (LRp u v i j CE Hi Hj). lia. }
    assert (GU : forall n, mem n (unions g) = true <-> In n V).
    { intros n. rewrite mem_unions. symmetry. apply (go_cover _ _ _ G). }
    destruct g as [|g0 gr] eqn:Eg.
    - left. destruct FIN as (F1 & F2 & F3).
      { intros n Hn. apply (go_cover _ _ _ G) in Hn. destruct Hn as (i & l & K & _). destruct i; discriminate. }
      exists (if is_empty oset then [] else [oset]). split; [reflexivity|]. destruct (is_empty oset); auto.
    - rewrite <- Eg in *. clear Eg g0 gr. destruct (ssub (unions g) (og_nodes og)) eqn:ES2; cbn [negb].
      + left. rewrite ssub_spec in ES2. assert (HN : forall n, In n V -> In n (g_nodes (og_graph og))).
        { intros n Hn. apply GU, ES2 in Hn. unfold og_nodes in Hn. apply mem_of_list in Hn; auto. }
        destruct (FIN HN) as (F1 & F2 & F3).
        assert (EU : is_empty (sdiff (sdiff (og_nodes og) (unions g)) oset) = true).
        { apply is_empty_spec, nset_ext. intros n. rewrite mem_empty. apply not_true_iff_false. rewrite !mem_sdiff, !andb_true_iff, !negb_true_iff, mem_oset_f.
          intros ((K1 & K2) & K3). apply not_true_iff_false in K2. apply K2, GU, HV. left. split; auto. apply mem_of_list in K1; auto. }
        rewrite EU. eexists. split; [reflexivity|]. auto.
      + right. split; auto. intros [_ K _]. rewrite <- HVal in K. apply not_true_iff_false in ES2. apply ES2, ssub_spec. intros n Hn. apply mem_of_list, K, GU; auto.
  Qed.
End FromMap.

Lemma keys_check og x z : og_ok og -> ssub (sunion (of_list (dkeys x)) (of_list (dkeys z))) (of_list (dkeys (og_meas og))) = true <-> keys_measured og x z.
Proof.
  intros Hog. rewrite ssub_spec. unfold keys_measured. split; intros H n; specialize (H n).
  - rewrite mem_sunion, orb_true_iff, !mem_of_list in H. rewrite <- (proj2 (ok_meas _ Hog) n). auto.
  - rewrite mem_sunion, orb_true_iff, !mem_of_list. rewrite (proj2 (ok_meas _ Hog) n). auto.
Qed.
Lemma from_mapping_decides it og x z : iter_ok it -> og_ok og -> NoDup (dkeys x) -> NoDup (dkeys z) ->
  (exists ls, from_mapping it og x z = Ok (XZ og x z ls) /\ corr_ok og x z /\ order_ok og ls /\ corr_ordered x z ls) \/
  (from_mapping it og x z = Err EXZ /\ ~ corr_ok og x z).
Proof.
  intros Hit Hog Nx Nz. unfold from_mapping. pose proof (keys_check og x z Hog) as K.
  destruct (ssub _ _); cbn [negb].
  - destruct (from_layers_ok it og x z Hit Hog Nx Nz) as [(ls & -> & H)|[-> H]]; [apply K; auto| |].
    + left. exists ls. auto.
    + right. auto.
  - right. split; auto. intros [H _ _]. apply K in H. discriminate.
Qed.

(** check_well_formed *)
Definition xQ (x z : dict nset) (P : nset) (n : nat) : Prop := forall v, corrects x z n v -> mem v P = false.
Lemma xz_node_dec x z f P n : decides (xz_check_node x z f P n) (xQ x z P n).
Proof.
  unfold xz_check_node, xQ. eapply dec_iff; [apply dec_bind; [apply dec_guard|intros _; apply dec_guard]|].
  rewrite !sinter_empty. split.
  - intros [A B] v C. apply corrects_dgets in C. apply not_true_iff_false. intros K. destruct C; eauto.
  - intros H. split; intros v K1 K2; rewrite H in K2; try discriminate; apply corrects_dgets; auto.
Qed.
Lemma xz_check_decides it xz : iter_ok it -> og_ok (xz_og xz) ->
  (xz_check it xz = Ok tt /\ xz_wf (xz_og xz) (xz_x xz) (xz_z xz) (xz_layers xz)) \/
  (xz_check it xz = Err EXZ /\ ~ xz_wf (xz_og xz) (xz_x xz) (xz_z xz) (xz_layers xz)).
Proof.
  intros Hit Hog. destruct xz as [og x z ls]. cbn [xz_og xz_x xz_z xz_layers] in *. unfold xz_check. cbn [xz_og xz_x xz_z xz_layers].
  destruct ls as [|l0 ls0] eqn:EL.
  - destruct (g_nodes (og_graph og)) as [|n ns] eqn:EN.
    + assert (OO : order_ok og []).
      { assert (NO : forall i n, ~ in_layer [] i n) by (intros i n (l & K & _); destruct i; discriminate).
        constructor.
        - intros n. rewrite EN. split; [intros []|]. intros (i & K). destruct (NO _ _ K).
        - intros i j n K. destruct (NO _ _ K).
        - intros i l K. destruct i; discriminate.
        - intros K n. split; intros Q; [|destruct (NO _ _ Q)]. apply (proj2 (ok_out _ Hog)) in Q. rewrite EN in Q. destruct Q. }
      destruct x as [|[u s] x].
      * destruct z as [|[u s] z].
        -- left. split; auto. split; [intros u [[]|[]]|]. split; auto. intros u v (s & [K|K] & _); discriminate.
        -- right. split; auto. intros (K & _). destruct (K u) as [K1 _]; [right; left; auto|]. rewrite EN in K1. auto.
      * right. split; [destruct z; auto|]. intros (K & _). destruct (K u) as [K1 _]; [left; left; auto|]. rewrite EN in K1. auto.
    + right. split; auto. intros (_ & K & _). assert (Q : In n (g_nodes (og_graph og))) by (rewrite EN; left; auto).
      apply (ord_cover _ _ K) in Q. destruct Q as (i & l & Q & _). destruct i; discriminate.
  - rewrite <- EL in *. pose proof (keys_check og x z Hog) as KC. destruct (ssub _ _); cbn [negb].
    2:{ right. split; auto. intros (K & _). apply KC in K. discriminate. }
    assert (HK : keys_measured og x z) by (apply KC; auto).
    assert (FD : (match og_out og with [] => false | _ => negb (seqb l0 (of_list (og_out og))) end = false <-> first_ok og ls)).
    { unfold first_ok. rewrite EL. destruct (og_out og) as [|a r] eqn:EO; [split; auto; congruence|].
      rewrite negb_false_iff, seqb_spec. split.
      - intros K _ n. rewrite K, mem_of_list. tauto.
      - intros K n. apply eq_true_iff_eq. rewrite mem_of_list. apply K. discriminate. }
    destruct (match og_out og with [] => false | _ => negb (seqb l0 (of_list (og_out og))) end) eqn:EF.
    { right. split; auto. intros (_ & K & _). assert (X : first_ok og ls).
      { unfold first_ok. rewrite EL. intros K2 n. rewrite (ord_first _ _ K K2 n), EL, in_layer_cons. tauto. }
      apply FD in X. discriminate. }
    assert (HF : first_ok og ls) by (apply FD; auto).
    set (cf0 := map (fun n => (n, sempty)) (dkeys (og_meas og)) : dict nset).
    assert (G0 : forall i s, dget cf0 i = Some s <-> In i (dkeys (og_meas og)) /\ s = sempty).
    { intros i s. unfold cf0. induction (dkeys (og_meas og)) as [|k ks IH]; cbn; [split; [discriminate|tauto]|].
      destruct (Nat.eqb_spec k i) as [E|E]; [subst; split; [intros [= <-]; auto|intros [_ ->]; auto]|]. rewrite IH. intuition. }
    assert (C0 : corrf_ok og cf0).
    { constructor.
      - intros i. rewrite <- (proj2 (ok_meas _ Hog) i). split; [intros (s & K); apply G0 in K; tauto|]. intros K. exists sempty. apply G0; auto.
      - intros i s j K Q. apply G0 in K. destruct K as [_ ->]. rewrite mem_empty in Q. discriminate. }
    pose proof (walk_dec og (xQ x z) it Hit (PF og [] ls) eq_refl (xz_check_node x z) (fun P n _ _ => xz_node_dec x z (PF og [] ls) P n)
                  (fun past => seqb (sunion (of_list (og_out og)) past) (og_nodes og)) sempty (measured_layers og ls)) as W.
    pose proof (order_iff og ls Hog (xQ x z) cf0 C0 HF) as OI.
    assert (EM : measured_layers og ls = rev (skipn (shift og) ls)) by (unfold measured_layers, shift; destruct (og_out og); reflexivity).
    rewrite <- EM in OI. replace (sunion sempty (unions (measured_layers og ls))) with (unions (measured_layers og ls)) in W by (rewrite sunion_comm, sunion_e; auto).
    assert (OK : xz_wf og x z ls <-> (order_ok og ls /\ (forall i s P, dget cf0 i = Some s -> (forall k, mem k P = true <-> In k (dkeys (og_meas og)) /\ ~ prec ls i k) -> xQ x z P i))).
    { unfold xz_wf. split.
      - intros (_ & O & R). split; auto. intros i s P Hs HP v C. apply not_true_iff_false. intros Q. apply HP in Q. destruct Q as [Q1 Q2]. apply Q2, R; auto.
        apply (proj2 (ok_meas _ Hog)) in Q1. tauto.
      - intros (O & R). split; auto. split; auto. intros u v C Hv. destruct (corrects_src og x z HK u v C) as [S1 S2].
        assert (Mu : In u (dkeys (og_meas og))) by (apply (proj2 (ok_meas _ Hog)); auto).
        destruct (in_dec Nat.eq_dec v (og_out og)) as [Ov|Ov].
        + apply (ord_cover _ _ O) in S1. destruct S1 as (i & Hi). exists i, 0. split; auto.
          assert (NE : og_out og <> []) by (intros E; rewrite E in Ov; auto).
          split; [apply (ord_first _ _ O NE); auto|]. destruct i; [|lia]. exfalso. apply S2. apply (ord_first _ _ O NE); auto.
        + destruct (down_ex (PF og [] ls) Hog O u Mu) as (P & HP); cbn [pf_og pf_layers] in HP.
          specialize (R u sempty P (proj2 (G0 u sempty) (conj Mu eq_refl)) HP v C).
          apply not_true_iff_false in R. rewrite HP in R.
          assert (PD : prec ls u v \/ ~ prec ls u v).
          { apply (ord_cover _ _ O) in S1. destruct S1 as (i & Hi). pose proof Hv as Hv'. apply (ord_cover _ _ O) in Hv'. destruct Hv' as (j & Hj).
            destruct (lt_dec j i); [left; exists i, j; auto|]. right. intros (i' & j' & A1 & A2 & A3).
            pose proof (ord_disj _ _ O _ _ _ Hi A1). pose proof (ord_disj _ _ O _ _ _ Hj A2). lia. }
          destruct PD as [|PD]; auto. exfalso. apply R. split; auto. apply (proj2 (ok_meas _ Hog)); auto. }
    rewrite OK. rewrite <- OI. destruct W as [[-> W]|[-> W]].
    + intros k K. rewrite mem_empty in K; discriminate.
    + left. auto.
    + right. auto.
Qed.
