(** The algebraic flow finder is sound, complete and depth-optimal. *)
From Coq Require Import Reals Arith ZArith List Bool Lia Permutation Relations.
From Verif Require Import NSet Fundamentals Measure Layer Pattern OpenGraph FlowSpec Flow FlowWF FlowPat Focus TopGen Linalg LinalgThm GPFlow GPLin GPAlg GPLoop GPMat GPGraph.
Import ListNotations.

(** * The position of a node in a list of layers *)
Fixpoint idx (ls : list nset) (x : nat) : nat := match ls with [] => 0 | l :: ls' => if mem x l then 0 else S (idx ls' x) end.
Lemma idx_in ls i x : in_layer ls i x -> in_layer ls (idx ls x) x.
Proof.
  revert i; induction ls as [|l ls IH]; intros i (l' & E & H); [destruct i; discriminate|]. simpl. destruct (mem x l) eqn:El; [exists l; auto|].
  destruct i; [injection E as ->; congruence|]. destruct (IH i) as (l2 & E2 & H2); [exists l'; auto|]. exists l2; auto.
Qed.
Lemma in_layer_lt ls i x : in_layer ls i x -> i < length ls.
Proof. intros (l & E & _). apply nth_error_Some. congruence. Qed.

Section Find.
  Variables (it : iter) (og : opengraph) (lab : nat -> res label) (labf : nat -> label).
  Hypothesis Hit : iter_ok it.
  Hypothesis Hog : og_ok og.
  Hypothesis Hsimple : simple (og_graph og).
  Hypothesis Hlab : forall v, In v (non_outputs_l og) -> lab v = Ok (labf v).
  Hypothesis Hlabf : forall v l, labelled og v l -> labf v = l.
  Notation g := (og_graph og).
  Notation no := (non_outputs_l og).
  Notation ni := (non_inputs_l og).
  Notation m := (length (non_outputs_l og)).
  Notation n := (length (non_inputs_l og)).

  Lemma no_labelled v : In v no <-> exists l, labelled og v l.
  Proof.
    destruct Hog as [_ _ _ [HM1 HM2] _]. rewrite no_In. rewrite <- HM2. split.
    - intros H. destruct (dget (og_meas og) v) as [me|] eqn:E.
      + exists (mlabel me), me. auto.
      + exfalso. apply dget_None in E. auto.
    - intros (l & me & E & _). destruct (in_dec Nat.eq_dec v (dkeys (og_meas og))) as [|I]; auto. apply dget_None in I. congruence.
  Qed.

  Variables (M N : mat).
  Hypothesis EMN : og_matrices og lab = Ok (M, N).
  Notation correcting := (correcting m n (mdata M) (mdata N)).
  Lemma MN_shape : mrows M = m /\ mcols M = n /\ mrows N = m /\ mcols N = n /\ mat_ok M /\ mat_ok N.
  Proof. destruct (og_matrices_spec og lab labf Hlab) as (M' & N' & E & H). rewrite EMN in E. injection E as <- <-. tauto. Qed.

  (** ** The correction matrix *)
  Lemma correction_matrix_correct :
    (exists C, correction_matrix it og lab = Ok (Some C) /\ mrows C = n /\ mcols C = m /\ mat_ok C /\
       (forall u v, u < m -> v < m -> mv n (mdata M) (fun i => ent (mdata C) i v) u = delta u v) /\
       forall c l, correcting c l -> exists l', correcting (fun v i => ent (mdata C) i v) l' /\ forall v, v < m -> l' v <= l v) \/
    (correction_matrix it og lab = Ok None /\ forall c l, ~ correcting c l).
  Proof.
    destruct MN_shape as (Mr & Mc & Nr & Nc & HM & HN). assert (Hs := sizes og Hog). unfold correction_matrix. cbv zeta.
    assert (Hind : forall c l, correcting c l -> indep m n (mdata M)).
    { intros c l H. apply (right_inverse_indep m n (mdata M) (tab n (fun i => tab m (fun v => c v i)))). intros i k Hi Hk.
      destruct (H k Hk) as [A _]. rewrite <- A by auto. apply xsum_ext. intros j Hj. rewrite ent_tab; auto. }
    destruct (Nat.ltb_spec (length (og_out og)) (length (og_in og))).
    { right. split; auto. intros c l H'. assert (m <= n); [|lia]. apply (indep_le m n n (mdata M) (eye n)).
      - apply eye_shaped. - eapply Hind; eauto. - intros; apply eye_span. }
    rewrite EMN. cbn [rbind fst snd]. destruct (Nat.eqb_spec (length (og_in og)) (length (og_out og))) as [E|E].
    - assert (Hmn : m = n) by lia. assert (HR := right_inverse_correct M HM). destruct (right_inverse M) as [C|].
      + destruct HR as (C1 & C2 & C3 & C4). rewrite Mr, Mc in *. left. exists C. split; auto. split; auto. split; auto. split; auto.
        split; [intros u v Hu Hv; apply C4; auto|]. intros c l Hc.
        (* the kernel is trivial, so the right inverse is unique *)
        assert (Hu : forall v i, v < m -> i < n -> c v i = ent (mdata C) i v).
        { assert (Hnull : mrows (null_space M) = 0).
          { assert (X := nullity M (mdata C) HM). rewrite Mr, Mc in X. specialize (X C4). lia. }
          destruct (null_space_correct M HM) as (_ & _ & _ & K). cbv zeta in K. rewrite Hnull, Mr, Mc in K.
          intros v i Hv Hi. assert (X : in_kernel m n (mdata M) (fun i => xorb (c v i) (ent (mdata C) i v))).
          { intros u Hu. change (mv n (mdata M) (fun i => xorb (c v i) (ent (mdata C) i v)) u = false). rewrite mv_xor.
            destruct (Hc v Hv) as [A _]. rewrite A by auto. unfold mv. rewrite C4 by auto. apply xorb_nilpotent. }
          apply K in X. destruct X as [x Hx]. specialize (Hx i Hi). cbv beta in Hx. unfold comb in Hx. cbn [xsum] in Hx.
          destruct (c v i), (ent (mdata C) i v); auto; discriminate. }
        exists l. split; [|auto]. intros v Hv. destruct (Hc v Hv) as [A B]. split.
        * intros u Hu'. apply C4; auto.
        * intros u Hu' E'. apply B; auto. rewrite <- E'. apply mv_ext. intros; apply Hu; auto.
      + rewrite Mr, Mc in HR. right. split; auto. intros c l Hc. apply HR. eapply Hind; eauto.
    - destruct (correction_general_correct it og M N Hit (no_NoDup og) HM HN Mr Nr) as [(C & lay & H1 & H2 & H3 & H4 & H5 & H6)|[H1 H2]]; try (rewrite ?Mc in *; lia); try congruence.
      + rewrite Mc in *. left. exists C. split; auto. split; auto. split; auto. split; auto. split; [intros u v Hu Hv; apply (H5 v Hv); auto|].
        intros c l Hc. exists lay. split; auto. intros v Hv. eapply H6; eauto.
      + rewrite Mc in *. right. auto.
  Qed.

  (** ** From flows to matrices *)
  Notation shift := (match og_out og with [] => 0 | _ => 1 end).
  Lemma order_idx ls u v : order_ok og ls -> In u no -> In v no -> prec ls v u -> idx ls u - shift < idx ls v - shift.
  Proof.
    intros Ho Hu Hv (i & j & A & B & C).
    assert (Eu : idx ls u = j) by (eapply (ord_disj _ _ Ho); [eapply idx_in; eauto|auto]).
    assert (Ev : idx ls v = i) by (eapply (ord_disj _ _ Ho); [eapply idx_in; eauto|auto]).
    rewrite Eu, Ev. assert (shift <= j); [|lia]. destruct (og_out og) as [|o os] eqn:Eo; [lia|].
    destruct j; [|lia]. exfalso. apply no_In in Hu. destruct Hu as [_ Hu]. apply Hu. apply (ord_first _ _ Ho); [rewrite Eo; discriminate|auto].
  Qed.
  Lemma prec_dec ls u v : prec ls u v \/ ~ prec ls u v.
  Proof.
    assert (D : forall i x, {in_layer ls i x} + {~ in_layer ls i x}).
    { intros i x. unfold in_layer. destruct (nth_error ls i) as [l|] eqn:E.
      - destruct (mem x l) eqn:Em; [left; exists l; auto|right]. intros (l' & E' & H). congruence.
      - right. intros (l' & E' & _). congruence. }
    destruct (existsb (fun i => existsb (fun j => (if D i u then true else false) && (if D j v then true else false) && (j <? i)%nat) (seq 0 (length ls))) (seq 0 (length ls))) eqn:E.
    - left. apply existsb_exists in E. destruct E as (i & _ & E). apply existsb_exists in E. destruct E as (j & _ & E). rewrite !andb_true_iff, Nat.ltb_lt in E.
      destruct (D i u), (D j v); try (destruct E as [[? ?] ?]; discriminate). exists i, j. tauto.
    - right. intros (i & j & A & B & C). apply not_true_iff_false in E. apply E. apply existsb_exists. exists i. split; [apply in_seq; apply in_layer_lt in A; lia|].
      apply existsb_exists. exists j. split; [apply in_seq; apply in_layer_lt in B; lia|]. rewrite !andb_true_iff, Nat.ltb_lt. destruct (D i u), (D j v); tauto.
  Qed.
  Lemma flow_correcting cf ls : pauli_flow og cf ls -> exists c, correcting c (fun u => idx ls (nth u no 0) - shift).
  Proof.
    intros PF. assert (Ho := pfl_order _ _ _ PF). assert (Hc := pfl_cf _ _ _ PF).
    set (s := fun v => dgets cf (nth v no 0)).
    assert (Hs : forall v, v < m -> dget cf (nth v no 0) = Some (s v) /\ subni og (s v)).
    { intros v Hv. assert (I : In (nth v no 0) no) by (apply nth_In; auto). destruct (proj2 (cf_dom _ _ Hc (nth v no 0))) as [t Ht]; [apply no_In; auto|].
      assert (Es : s v = t) by (unfold s, dgets; rewrite Ht; auto). rewrite Es. split; auto. intros x Hx. apply ni_In. eapply (cf_img _ _ Hc); eauto. }
    assert (HL : forall v, v < m -> labelled og (nth v no 0) (labf (nth v no 0))).
    { intros v Hv. assert (I : In (nth v no 0) no) by (apply nth_In; auto). apply no_labelled in I. destruct I as [l I]. rewrite (Hlabf _ _ I). auto. }
    assert (Hval : forall u v, u < m -> v < m ->
      mv n (mdata M) (vec og (s v)) u = Mval (labf (nth u no 0)) (mem (nth u no 0) (s v)) (oddb og (s v) (nth u no 0)) /\
      mv n (mdata N) (vec og (s v)) u = Nval (labf (nth u no 0)) (mem (nth u no 0) (s v)) (oddb og (s v) (nth u no 0))).
    { intros u v Hu Hv. apply (mv_M og lab labf Hlab Hsimple M N); auto. apply Hs; auto. }
    assert (Hodd : forall t x, oddb og t x = false <-> ~ odd_nb g t x) by (intros; rewrite <- oddb_spec, not_true_iff_false; tauto).
    apply (focus m n (mdata M) (mdata N) (fun v => vec og (s v))).
    - intros v Hv. destruct (Hval v v Hv Hv) as [-> _]. destruct (Hs v Hv) as [Es _]. assert (L := HL v Hv).
      destruct (labf (nth v no 0)) as [[]|[]]; cbn [Mval].
      + apply (pfl_4 _ _ _ PF) in Es; auto. apply oddb_spec. tauto.
      + apply (pfl_6 _ _ _ PF) in Es; auto. tauto.
      + apply (pfl_5 _ _ _ PF) in Es; auto. tauto.
      + apply (pfl_7 _ _ _ PF) in Es; auto. apply oddb_spec. tauto.
      + apply (pfl_9 _ _ _ PF) in Es; auto. rewrite <- Hodd, <- oddb_spec in Es. destruct Es as [[-> ->]|[-> ->]]; auto.
      + apply (pfl_8 _ _ _ PF) in Es; auto.
    - intros u v Hu Hv Huv E. assert (Iu : In (nth u no 0) no) by (apply nth_In; auto). assert (Iv : In (nth v no 0) no) by (apply nth_In; auto).
      apply order_idx; auto. destruct (Hval u v Hu Hv) as [E1 _]. rewrite E1 in E. destruct (Hs v Hv) as [Es _]. assert (L := HL u Hu).
      assert (Hne : nth v no 0 <> nth u no 0). { intros K. apply Huv. rewrite <- (pos_nth no u 0 (no_NoDup og) Hu), <- (pos_nth no v 0 (no_NoDup og) Hv), K. auto. }
      destruct (labf (nth u no 0)) as [[]|[]] eqn:El; cbn [Mval] in E.
      + apply oddb_spec in E. eapply (pfl_2 _ _ _ PF); eauto; discriminate.
      + eapply (pfl_1 _ _ _ PF); eauto; discriminate.
      + eapply (pfl_1 _ _ _ PF); eauto; discriminate.
      + apply oddb_spec in E. eapply (pfl_2 _ _ _ PF); eauto; discriminate.
      + destruct (prec_dec ls (nth v no 0) (nth u no 0)) as [|Hn]; auto. exfalso.
        assert (K := pfl_3 _ _ _ PF _ _ _ Es Hn Hne L). rewrite <- oddb_spec in K. destruct (oddb og (s v) (nth u no 0)), (mem (nth u no 0) (s v)); try discriminate; intuition discriminate.
      + eapply (pfl_1 _ _ _ PF); eauto; discriminate.
    - intros u v Hu Hv E. assert (Iu : In (nth u no 0) no) by (apply nth_In; auto). assert (Iv : In (nth v no 0) no) by (apply nth_In; auto).
      destruct (Hval u v Hu Hv) as [_ E1]. rewrite E1 in E. destruct (Hs v Hv) as [Es _]. assert (L := HL u Hu).
      destruct (Nat.eq_dec u v) as [Euv|Huv].
      + exfalso. subst u. destruct (labf (nth v no 0)) as [[]|[]]; cbn [Nval] in E; try discriminate.
        * apply (pfl_4 _ _ _ PF) in Es; auto. destruct Es; congruence.
        * apply (pfl_6 _ _ _ PF) in Es; auto. apply oddb_spec in E. tauto.
        * apply (pfl_5 _ _ _ PF) in Es; auto. rewrite <- oddb_spec in Es. destruct Es as [Q1 Q2]. rewrite Q1, Q2 in E. discriminate.
      + apply order_idx; auto.
        assert (Hne : nth v no 0 <> nth u no 0). { intros K. apply Huv. rewrite <- (pos_nth no u 0 (no_NoDup og) Hu), <- (pos_nth no v 0 (no_NoDup og) Hv), K. auto. }
        destruct (labf (nth u no 0)) as [[]|[]] eqn:El; cbn [Nval] in E; try discriminate.
        * eapply (pfl_1 _ _ _ PF); eauto; discriminate.
        * apply oddb_spec in E. eapply (pfl_2 _ _ _ PF); eauto; discriminate.
        * destruct (oddb og (s v) (nth u no 0)) eqn:Eo.
          -- apply oddb_spec in Eo. eapply (pfl_2 _ _ _ PF); eauto; discriminate.
          -- destruct (mem (nth u no 0) (s v)) eqn:Em; [|discriminate]. eapply (pfl_1 _ _ _ PF); eauto; discriminate.
  Qed.

  (** ** From matrices to flows *)
  Section WithC.
    Variable C : mat.
    Hypothesis Cr : mrows C = n.
    Hypothesis Cc : mcols C = m.
    Hypothesis Cok : mat_ok C.
    Hypothesis MC : forall u v, u < m -> v < m -> mv n (mdata M) (fun i => ent (mdata C) i v) u = delta u v.
    Let A := mat_mul N C.
    Lemma A_spec : mrows A = m /\ mcols A = m /\ forall u v, u < m -> v < m -> ent (mdata A) u v = mv n (mdata N) (fun i => ent (mdata C) i v) u.
    Proof.
      destruct MN_shape as (Mr & Mc & Nr & Nc & HM & HN). destruct (mat_mul_correct N C HN Cok) as (A1 & A2 & A3 & A4); [congruence|].
      cbv zeta in *. fold A in A1, A2, A3, A4. rewrite Nr, Cc, ?Nc in *. split; auto.
    Qed.
    Let dag := fun j => if (j <? mcols A)%nat then Some (of_list (filter (fun i => ent (mdata A) i j) (seq 0 (mrows A)))) else None.
    Let parents := fun i => filter (fun j => ent (mdata A) i j) (seq 0 (mcols A)).
    Lemma dag_edge j i : edge dag j i <-> j < m /\ i < m /\ ent (mdata A) i j = true.
    Proof.
      destruct A_spec as (A1 & A2 & _). unfold edge, dag. rewrite A1, A2. destruct (Nat.ltb_spec j m).
      - split.
        + intros (s & [= <-] & K). apply mem_of_list, filter_In in K. rewrite in_seq in K. intuition lia.
        + intros (_ & K1 & K2). eexists. split; [reflexivity|]. apply mem_of_list, filter_In. rewrite in_seq. split; [lia|auto].
      - split; [intros (s & ? & _); discriminate|intros (? & _); lia].
    Qed.
    Lemma parents_In i j : i < m -> (In j (parents i) <-> In j (seq 0 m) /\ edge dag j i).
    Proof.
      intros Hi. destruct A_spec as (A1 & A2 & _). unfold parents. rewrite filter_In, A2, dag_edge, in_seq. intuition lia.
    Qed.
    Let indeg := flat_map (fun i => match parents i with [] => [] | l => [(i, Z.of_nat (length l))] end) (seq 0 (mrows A)).
    Lemma indeg_get v k : dget indeg v = Some k <-> v < m /\ parents v <> [] /\ k = Z.of_nat (length (parents v)).
    Proof.
      destruct A_spec as (A1 & A2 & _). unfold indeg. rewrite A1.
      assert (G : forall l, dget (flat_map (fun i => match parents i with [] => [] | l => [(i, Z.of_nat (length l))] end) l) v = Some k <-> In v l /\ parents v <> [] /\ k = Z.of_nat (length (parents v))).
      { induction l as [|a l IH]; cbn [flat_map]; [split; [discriminate|intros ([] & _)]|].
        destruct (parents a) as [|p ps] eqn:Ep; cbn [app].
        - rewrite IH. split; [intros (? & ?); split; [right; auto|auto]|]. intros ([->|H] & H1 & H2); [congruence|auto].
        - cbn [dget]. destruct (Nat.eqb_spec a v) as [->|Ne].
          + rewrite Ep. split; [intros [= <-]; split; [left; auto|split; [discriminate|auto]]|]. intros (_ & _ & ->). auto.
          + rewrite IH. split; [intros (? & ?); split; [right; auto|auto]|]. intros ([?|H] & H1); [congruence|auto]. }
      rewrite G, in_seq. intuition lia.
    Qed.
    Lemma indeg_keys : NoDup (dkeys indeg).
    Proof.
      unfold indeg. assert (G : forall l, NoDup l -> NoDup (dkeys (flat_map (fun i => match parents i with [] => [] | l => [(i, Z.of_nat (length l))] end) l)) /\
        forall x, In x (dkeys (flat_map (fun i => match parents i with [] => [] | l => [(i, Z.of_nat (length l))] end) l)) -> In x l).
      { induction l as [|a l IH]; intros ND; cbn [flat_map]; [split; [constructor|auto]|]. inversion ND; subst. destruct (IH H2) as [I1 I2].
        destruct (parents a); cbn [app]; [split; auto; intros; right; auto|]. unfold dkeys. cbn [map fst]. split.
        - constructor; auto.
        - intros x [->|Hx]; [left; auto|right; auto]. }
      apply G. apply seq_NoDup.
    Qed.
    Let zero := of_list (filter (fun i => match parents i with [] => true | _ => false end) (seq 0 (mrows A))).
    Lemma tg_in : tg_input (seq 0 m) dag indeg zero.
    Proof.
      destruct A_spec as (A1 & A2 & _). split.
      - apply seq_NoDup.
      - intros u Hu. apply in_seq in Hu. unfold dag. rewrite A2. destruct (Nat.ltb_spec u m); [|lia]. eexists. split; [reflexivity|].
        intros v Hv. apply mem_of_list, filter_In in Hv. rewrite A1 in Hv. tauto.
      - apply indeg_keys.
      - intros v k. rewrite indeg_get. split.
        + intros (H1 & H2 & H3). split; [apply in_seq; lia|]. split; [destruct (parents v); [congruence|cbn [length] in H3; lia]|].
          exists (parents v). split; [apply NoDup_filter, seq_NoDup|]. split; auto. intros u. apply parents_In; auto.
        + intros (H1 & H2 & l & L1 & L2 & L3). apply in_seq in H1. assert (Hv : v < m) by lia.
          assert (P : Permutation l (parents v)). { apply NoDup_Permutation; auto; [apply NoDup_filter, seq_NoDup|]. intros x. rewrite L2, parents_In by auto. tauto. }
          apply Permutation_length in P. split; auto. split; [|congruence]. intros E. rewrite E in P. cbn in P. lia.
      - intros v. unfold zero. rewrite mem_of_list, filter_In, A1. split.
        + intros (H1 & H2). split; auto. intros u Hu Ed. assert (I : In u (parents v)) by (apply parents_In; auto; apply in_seq in H1; lia).
          destruct (parents v); [destruct I|discriminate].
        + intros (H1 & H2). split; auto. destruct (parents v) as [|p ps] eqn:Ep; auto. exfalso. assert (I : In p (parents v)) by (rewrite Ep; left; auto).
          apply parents_In in I; [|apply in_seq in H1; lia]. destruct I as [I1 I2]. eapply H2; eauto.
    Qed.
    Lemma generations :
      (ordering_generations it A = Ok None /\ forall l, ~ correcting (fun v i => ent (mdata C) i v) l) \/
      (exists gens, ordering_generations it A = Ok (Some gens) /\ generations_ok (seq 0 m) dag gens).
    Proof.
      destruct A_spec as (A1 & A2 & A3). unfold ordering_generations. cbv zeta. fold dag. fold parents. fold indeg. fold zero.
      destruct (tg_correct it (seq 0 m) dag indeg zero Hit tg_in) as [[E Cy]|H]; [left|right; auto]. split; auto.
      intros l Hc. destruct Cy as (u & Hu).
      assert (G : forall x y, clos_trans nat (fun u v => In u (seq 0 m) /\ In v (seq 0 m) /\ edge dag u v) x y -> l y < l x).
      { intros x y H. induction H as [x y (_ & _ & H)|]; [|lia]. apply dag_edge in H. destruct H as (H1 & H2 & H3). rewrite A3 in H3 by auto. apply (Hc x H1); auto. }
      specialize (G u u Hu). lia.
    Qed.
    (** the correction sets *)
    Let cf := to_correction_function og C.
    Lemma cf_get v : dget cf v = if lmem v no then Some (of_list (map (fun j => nth j ni 0) (filter (fun j => ent (mdata C) j (pos v no)) (seq 0 (mrows C))))) else None.
    Proof.
      unfold cf, to_correction_function. set (F := fun v => of_list (map (fun j => nth j ni 0) (filter (fun j => ent (mdata C) j (pos v no)) (seq 0 (mrows C))))).
      assert (G : forall l, dget (map (fun v => (v, F v)) l) v = if lmem v l then Some (F v) else None).
      { unfold lmem. induction l as [|a l IH]; cbn [map dget existsb]; auto.
        rewrite (Nat.eqb_sym v a). destruct (Nat.eqb_spec a v) as [->|]; auto. }
      exact (G no).
    Qed.
    Lemma cf_keys : dkeys cf = no.
    Proof. unfold cf, to_correction_function, dkeys. rewrite map_map. cbn [fst]. apply map_id. Qed.
    Lemma cf_sets v s : dget cf v = Some s -> In v no /\ subni og s /\ forall j, j < n -> vec og s j = ent (mdata C) j (pos v no).
    Proof.
      rewrite cf_get. destruct (lmem v no) eqn:E; [|discriminate]. apply lmem_In in E. intros [= <-]. rewrite Cr. split; auto. split.
      - intros x Hx. apply mem_of_list, in_map_iff in Hx. destruct Hx as (j & <- & Hj). apply filter_In in Hj. rewrite in_seq in Hj. apply nth_In. lia.
      - intros j Hj. unfold vec. apply eq_true_iff_eq. rewrite mem_of_list, in_map_iff. split.
        + intros (j' & E' & Hj'). apply filter_In in Hj'. rewrite in_seq in Hj'. assert (j' = j); [|subst; tauto].
          rewrite <- (pos_nth ni j' 0 (ni_NoDup og)), <- (pos_nth ni j 0 (ni_NoDup og)) by lia. rewrite E'. auto.
        + intros H. exists j. split; auto. apply filter_In. rewrite in_seq. split; [lia|auto].
    Qed.
    (** layers *)
    Section WithGens.
      Variable gens : list nset.
      Hypothesis Hgens : generations_ok (seq 0 m) dag gens.
      Let layers := (match og_out og with [] => [] | _ => [of_list (og_out og)] end) ++ map (fun l => of_list (map (fun i => nth i no 0) (elems l))) (rev gens).
      Lemma gens_lt k i : in_layer gens k i -> i < m /\ k < length gens.
      Proof.
        intros H. split; [|eapply in_layer_lt; eauto]. assert (I : In i (seq 0 m)) by (apply (go_cover _ _ _ Hgens); eauto). apply in_seq in I. lia.
      Qed.
      Lemma layers_in a v : in_layer layers a v <-> (og_out og <> [] /\ a = 0 /\ In v (og_out og)) \/
        (exists k i, in_layer gens k i /\ v = nth i no 0 /\ a = shift + (length gens - 1 - k)).
      Proof.
        assert (R : forall b, in_layer (map (fun l => of_list (map (fun i => nth i no 0) (elems l))) (rev gens)) b v <->
          exists k i, in_layer gens k i /\ v = nth i no 0 /\ b = length gens - 1 - k).
        { intros b. split.
          - intros (l & E & H). assert (Hb : b < length gens) by (rewrite <- (rev_length gens), <- (map_length (fun l => of_list (map (fun i => nth i no 0) (elems l)))); apply nth_error_Some; congruence).
            rewrite nth_error_map in E. destruct (nth_error (rev gens) b) as [l0|] eqn:E0; [|discriminate]. injection E as <-.
            apply mem_of_list, in_map_iff in H. destruct H as (i & <- & Hi). apply elems_spec in Hi. exists (length gens - S b), i. split; [|split; [auto|lia]].
            exists l0. split; auto. rewrite <- E0. rewrite nth_error_rev by auto. auto.
          - intros (k & i & (l & E & H) & -> & ->). assert (Hk : k < length gens) by (apply nth_error_Some; congruence).
            exists (of_list (map (fun i => nth i no 0) (elems l))). split.
            + rewrite nth_error_map. rewrite nth_error_rev by lia. replace (length gens - S (length gens - 1 - k)) with k by lia. rewrite E. auto.
            + apply mem_of_list, in_map_iff. exists i. split; auto. apply elems_spec; auto. }
        unfold layers. destruct (og_out og) as [|o os] eqn:Eo.
        - cbn [app]. rewrite R. split; [auto|]. intros [(H & _)|H]; [congruence|auto].
        - destruct a.
          + split.
            * intros (l & E & H). cbn in E. injection E as <-. left. split; [discriminate|]. split; auto. apply (proj1 (mem_of_list v (o :: os))). auto.
            * intros [(_ & _ & H)|(k & i & H & _ & E)]; [|discriminate]. exists (of_list (o :: os)). split; auto. apply mem_of_list; auto.
          + change (in_layer (([of_list (o :: os)]) ++ map (fun l => of_list (map (fun i => nth i no 0) (elems l))) (rev gens)) (S a) v) with (in_layer (map (fun l => of_list (map (fun i => nth i no 0) (elems l))) (rev gens)) a v).
            rewrite R. split.
            * intros (k & i & H1 & H2 & H3). right. exists k, i. repeat split; auto.
            * intros [(_ & ? & _)|(k & i & H1 & H2 & H3)]; [discriminate|]. exists k, i. repeat split; auto.
      Qed.
      Lemma layers_order : order_ok og layers.
      Proof.
        assert (Hnode : forall k i, in_layer gens k i -> In (nth i no 0) (g_nodes g) /\ ~ In (nth i no 0) (og_out og)).
        { intros k i H. apply no_In. apply nth_In. apply (gens_lt k i H). }
        destruct Hog as [_ _ [_ O2] _ _].
        split.
        - intros v. split.
          + intros Hv. destruct (in_dec Nat.eq_dec v (og_out og)) as [I|I].
            * exists 0. apply layers_in. left. split; [destruct (og_out og); [destruct I|discriminate]|auto].
            * assert (Iv : In v no) by (apply no_In; auto). assert (P := pos_lt _ _ Iv).
              assert (X : In (pos v no) (seq 0 m)) by (apply in_seq; lia). apply (go_cover _ _ _ Hgens) in X. destruct X as [k Hk].
              exists (shift + (length gens - 1 - k)). apply layers_in. right. exists k, (pos v no). rewrite nth_pos by auto. auto.
          + intros (a & H). apply layers_in in H. destruct H as [(_ & _ & H)|(k & i & H & -> & _)]; [auto|]. apply (Hnode k i H).
        - intros a b v Ha Hb. apply layers_in in Ha, Hb. destruct Ha as [(_ & -> & Ha)|(k & i & Ha & -> & ->)], Hb as [(_ & Eb & Hb)|(k' & i' & Hb & Eb & Eb')]; auto.
          + exfalso. subst v. apply (Hnode k' i' Hb); auto.
          + exfalso. apply (Hnode k i Ha); auto.
          + assert (i = i'). { rewrite <- (pos_nth no i 0 (no_NoDup og)) by apply (gens_lt k i Ha). rewrite Eb. apply pos_nth; [apply no_NoDup|apply (gens_lt k' i' Hb)]. }
            subst i'. rewrite (go_disj _ _ _ Hgens k k' i Ha Hb) in *. auto.
        - intros a l E. unfold layers in E. assert (R : forall b l, nth_error (map (fun l => of_list (map (fun i => nth i no 0) (elems l))) (rev gens)) b = Some l -> exists v, mem v l = true).
          { intros b l' E'. rewrite nth_error_map in E'. destruct (nth_error (rev gens) b) as [l0|] eqn:E0; [|discriminate]. injection E' as <-.
            apply nth_error_In, in_rev, In_nth_error in E0. destruct E0 as [k E0]. destruct (go_ne _ _ _ Hgens _ _ E0) as [i Hi].
            exists (nth i no 0). apply mem_of_list, in_map_iff. exists i. split; auto. apply elems_spec; auto. }
          destruct (og_out og) as [|o os] eqn:Eo; [cbn [app] in E; eauto|]. destruct a; [|cbn [app nth_error] in E; eauto].
          cbn [app nth_error] in E. injection E as <-. exists o. apply (proj2 (mem_of_list o (o :: os))). left; auto.
        - intros Hne v. rewrite layers_in. split.
          + intros H. left. auto.
          + intros [(_ & _ & H)|(k & i & H & -> & E)]; [auto|]. exfalso. destruct (og_out og); [congruence|]. cbn in E. lia.
      Qed.
      Lemma layers_prec u v : u < m -> v < m -> ent (mdata A) u v = true -> prec layers (nth v no 0) (nth u no 0).
      Proof.
        intros Hu Hv E. assert (Ed : edge dag v u) by (apply dag_edge; auto).
        assert (Xu : In u (seq 0 m)) by (apply in_seq; lia). apply (go_cover _ _ _ Hgens) in Xu. destruct Xu as [ku Ku].
        assert (Xv : In v (seq 0 m)) by (apply in_seq; lia). assert (Xv' := Xv). apply (go_cover _ _ _ Hgens) in Xv. destruct Xv as [kv Kv].
        assert (Hlt := go_edge _ _ _ Hgens v u kv ku Xv' Ed Kv Ku). destruct (gens_lt _ _ Ku) as [_ Lu].
        exists (shift + (length gens - 1 - kv)), (shift + (length gens - 1 - ku)). split; [apply layers_in; right; eauto|]. split; [apply layers_in; right; eauto|]. lia.
      Qed.
      Lemma found_flow : pauli_flow og cf layers.
      Proof.
        destruct A_spec as (_ & _ & A3).
        (* values at a node u of the correction set of v *)
        assert (Hval : forall i s j, dget cf i = Some s -> In j no ->
          Mval (labf j) (mem j s) (oddb og s j) = (j =? i)%nat /\ (Nval (labf j) (mem j s) (oddb og s j) = true -> prec layers i j)).
        { intros i s j Hs Ij. destruct (cf_sets i s Hs) as (Ii & Sn & Vs). assert (Pi := pos_lt _ _ Ii). assert (Pj := pos_lt _ _ Ij).
          destruct (mv_M og lab labf Hlab Hsimple M N (pos j no) s EMN Pj Sn) as [E1 E2]. rewrite nth_pos in E1, E2 by auto.
          rewrite <- E1, <- E2. rewrite !(mv_ext n _ (vec og s) (fun k => ent (mdata C) k (pos i no))) by (intros; apply Vs; auto). split.
          - rewrite MC by auto. unfold delta. apply eq_true_iff_eq. rewrite !Nat.eqb_eq. split; [apply pos_inj; auto|intros ->; auto].
          - intros E. rewrite <- A3 in E by auto. apply layers_prec in E; auto. rewrite !nth_pos in E by auto. auto. }
        assert (HvalL : forall i s j l, dget cf i = Some s -> labelled og j l ->
          Mval l (mem j s) (oddb og s j) = (j =? i)%nat /\ (Nval l (mem j s) (oddb og s j) = true -> prec layers i j)).
        { intros i s j l Hs L. rewrite <- (Hlabf _ _ L). apply Hval; auto. apply no_labelled. eauto. }
        assert (Hirr : forall i, In i no -> ~ prec layers i i).
        { intros i Ii (a & b & Ha & Hb & Hab). rewrite (ord_disj _ _ layers_order a b i Ha Hb) in Hab. lia. }
        assert (Hodd : forall t x, oddb og t x = false <-> ~ odd_nb g t x) by (intros; rewrite <- oddb_spec, not_true_iff_false; tauto).
        assert (Hin : forall i s, dget cf i = Some s -> In i no) by (intros i s Hs; apply (cf_sets i s Hs)).
        split.
        - apply layers_order.
        - split.
          + intros i. rewrite cf_get, <- no_In, <- lmem_In. destruct (lmem i no); [split; eauto|]. split; [intros (? & ?); discriminate|discriminate].
          + intros i s j Hs Hj. apply ni_In. apply (cf_sets i s Hs); auto.
        - intros i s j l Hs Hj Hij L N1 N2. destruct (HvalL i s j l Hs L) as [V1 V2]. apply not_eq_sym, Nat.eqb_neq in Hij. rewrite Hij, Hj in *.
          destruct l as [[]|[]]; cbn [Mval Nval] in *; try congruence; auto.
        - intros i s j l Hs Hj Hij L N1 N2. apply oddb_spec in Hj. destruct (HvalL i s j l Hs L) as [V1 V2]. apply not_eq_sym, Nat.eqb_neq in Hij. rewrite Hij, Hj in *.
          destruct l as [[]|[]]; cbn [Mval Nval] in *; try congruence; auto. rewrite V1 in V2. auto.
        - intros i s j Hs _ Hij L. destruct (HvalL i s j _ Hs L) as [V1 _]. apply not_eq_sym, Nat.eqb_neq in Hij. rewrite Hij in *. cbn [Mval] in V1. rewrite <- oddb_spec.
          destruct (oddb og s j), (mem j s); try discriminate; tauto.
        - intros i s Hs L. destruct (HvalL i s i _ Hs L) as [V1 V2]. rewrite Nat.eqb_refl in V1. cbn [Mval Nval] in *. rewrite <- oddb_spec. split; auto.
          destruct (mem i s) eqn:E; auto. exfalso. apply (Hirr i (Hin _ _ Hs)). auto.
        - intros i s Hs L. destruct (HvalL i s i _ Hs L) as [V1 V2]. rewrite Nat.eqb_refl in V1. cbn [Mval Nval] in *. rewrite <- oddb_spec. split; auto.
          rewrite V1 in V2. destruct (oddb og s i) eqn:E; auto. exfalso. apply (Hirr i (Hin _ _ Hs)). auto.
        - intros i s Hs L. destruct (HvalL i s i _ Hs L) as [V1 V2]. rewrite Nat.eqb_refl in V1. cbn [Mval Nval] in *. rewrite <- Hodd. split; auto.
          destruct (oddb og s i) eqn:E; auto. exfalso. apply (Hirr i (Hin _ _ Hs)). auto.
        - intros i s Hs L. destruct (HvalL i s i _ Hs L) as [V1 V2]. rewrite Nat.eqb_refl in V1. cbn [Mval Nval] in *. apply oddb_spec; auto.
        - intros i s Hs L. destruct (HvalL i s i _ Hs L) as [V1 V2]. rewrite Nat.eqb_refl in V1. auto.
        - intros i s Hs L. destruct (HvalL i s i _ Hs L) as [V1 V2]. rewrite Nat.eqb_refl in V1. cbn [Mval Nval] in *. rewrite <- Hodd, <- oddb_spec.
          destruct (oddb og s i), (mem i s); try discriminate; tauto.
      Qed.
      Lemma found_focused : focused og cf.
      Proof.
        assert (HvalL : forall i s j l, dget cf i = Some s -> i <> j -> labelled og j l -> Mval l (mem j s) (oddb og s j) = false).
        { intros i s j l Hs Hij L. rewrite <- (Hlabf _ _ L). assert (Ij : In j no) by (apply no_labelled; eauto).
          destruct (cf_sets i s Hs) as (Ii & Sn & Vs). assert (Pi := pos_lt _ _ Ii). assert (Pj := pos_lt _ _ Ij).
          destruct (mv_M og lab labf Hlab Hsimple M N (pos j no) s EMN Pj Sn) as [E1 E2]. rewrite nth_pos in E1, E2 by auto.
          rewrite <- E1. rewrite (mv_ext n _ (vec og s) (fun k => ent (mdata C) k (pos i no))) by (intros; apply Vs; auto).
          rewrite MC by auto. unfold delta. apply Nat.eqb_neq. intros E. apply Hij. symmetry. eapply pos_inj; eauto. }
        split.
        - intros i s j l Hs Hij L Hm. specialize (HvalL i s j l Hs Hij L). rewrite Hm in HvalL. destruct l as [[]|[]]; cbn in HvalL; auto; discriminate.
        - intros i s j l Hs Hij L Hm. apply oddb_spec in Hm. specialize (HvalL i s j l Hs Hij L). rewrite Hm in HvalL. destruct l as [[]|[]]; cbn in HvalL; auto; discriminate.
        - intros i s j Hs Hij L. specialize (HvalL i s j _ Hs Hij L). cbn in HvalL. rewrite <- oddb_spec. destruct (oddb og s j), (mem j s); try discriminate; tauto.
      Qed.
      (** the depth is the length of a longest chain *)
      Lemma chain_lay l k i : correcting (fun v i => ent (mdata C) i v) l -> in_layer gens k i -> exists w, w < m /\ l i + k <= l w.
      Proof.
        intros Hc. destruct A_spec as (_ & _ & A3). revert i. induction k; intros i Hi.
        - exists i. split; [apply (gens_lt _ _ Hi)|lia].
        - destruct (go_early _ _ _ Hgens _ _ Hi) as (u & Hu & Hk). destruct (IHk u Hk) as (w & Hw & Hl). exists w. split; auto.
          apply dag_edge in Hu. destruct Hu as (H1 & H2 & H3). rewrite A3 in H3 by auto. apply (Hc u H1) in H3; auto. lia.
      Qed.
      Lemma layers_depth cf' ls : pauli_flow og cf' ls ->
        (forall c l, correcting c l -> exists l', correcting (fun v i => ent (mdata C) i v) l' /\ forall v, v < m -> l' v <= l v) -> length layers <= length ls.
      Proof.
        intros PF Hmin. destruct (flow_correcting cf' ls PF) as (c & Hc). destruct (Hmin _ _ Hc) as (l' & Hl' & Hle).
        assert (Ho := pfl_order _ _ _ PF).
        assert (El : length layers = shift + length gens). { unfold layers. rewrite app_length, map_length, rev_length. destruct (og_out og); auto. }
        rewrite El. destruct gens as [|g0 gr] eqn:Eg.
        - cbn [length]. destruct (og_out og) as [|o os] eqn:Eo; [lia|]. assert (I : in_layer ls 0 o) by (apply (ord_first _ _ Ho); rewrite Eo; [discriminate|left; auto]).
          apply in_layer_lt in I. lia.
        - rewrite <- Eg in *. assert (HG : 0 < length gens) by (rewrite Eg; cbn; lia).
          destruct (nth_error gens (length gens - 1)) as [gl|] eqn:En; [|apply nth_error_None in En; lia].
          destruct (go_ne _ _ _ Hgens _ _ En) as (i & Hi). destruct (chain_lay l' (length gens - 1) i Hl') as (w & Hw & Hlw); [exists gl; auto|].
          specialize (Hle w Hw). cbv beta in Hle. assert (I : In (nth w no 0) no) by (apply nth_In; auto). apply no_In in I. destruct I as [I1 I2].
          apply (ord_cover _ _ Ho) in I1. destruct I1 as [b Hb]. apply idx_in in Hb. assert (Hlt := in_layer_lt _ _ _ Hb).
          destruct (og_out og) as [|o os] eqn:Eo; [lia|].
          assert (idx ls (nth w no 0) <> 0); [|lia]. intros E0. rewrite E0 in Hb. apply (ord_first _ _ Ho) in Hb; [|rewrite Eo; discriminate]. rewrite Eo in Hb. auto.
      Qed.
    End WithGens.
  End WithC.

  Lemma find_gp_correct :
    (exists f, find_gp it og lab = Ok (Some f) /\ pf_og f = og /\ NoDup (dkeys (pf_cf f)) /\ pauli_flow og (pf_cf f) (pf_layers f) /\ focused og (pf_cf f) /\
       forall cf ls, pauli_flow og cf ls -> length (pf_layers f) <= length ls) \/
    (find_gp it og lab = Ok None /\ forall cf ls, ~ pauli_flow og cf ls).
  Proof.
    unfold find_gp. destruct correction_matrix_correct as [(C & E & C1 & C2 & C3 & C4 & C5)|[E Hno]]; rewrite E; cbn [rbind].
    2:{ right. split; auto. intros cf ls PF. destruct (flow_correcting cf ls PF) as (c & Hc). eapply Hno; eauto. }
    rewrite EMN. cbn [rbind fst snd]. unfold gp_layers. destruct (generations C C1 C2 C3) as [[Eg Hno]|(gens & Eg & Hg)]; rewrite Eg; cbn [rbind].
    - right. split; auto. intros cf ls PF. destruct (flow_correcting cf ls PF) as (c & Hc). destruct (C5 _ _ Hc) as (l' & Hl' & _). eapply Hno; eauto.
    - left. eexists. split; [reflexivity|]. cbn [pf_og pf_cf pf_layers]. split; auto. split; [rewrite cf_keys; apply no_NoDup|]. split.
      + apply found_flow; auto.
      + split; [apply found_focused; auto|]. intros cf ls PF. eapply layers_depth; eauto.
  Qed.
End Find.
