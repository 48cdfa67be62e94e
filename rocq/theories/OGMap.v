(** The linear map defined by an open graph, and the patterns that implement it. *)
From Coq Require Import Reals Arith List Bool Lia Permutation.
From Verif Require Import Cplx Mat2 NSet Fundamentals CliffordDb Clifford Measure QState Layer Pattern Standardize FlowSem FlowDet OpenGraph FlowSpec Flow FlowWF FlowPat Space.
Import ListNotations.

(** * Specification *)
Definition og_prepared (og : opengraph) : list nat := filter (fun n => negb (lmem n (og_in og))) (g_nodes (og_graph og)).
(** prepare the non-input nodes in |+>, apply CZ along every edge, project every
    measured node on the state of its measurement (outcome 0), apply the output
    Cliffords *)
Definition graph_ops (og : opengraph) : list op :=
  map (fun n => OPrep plus_state n) (og_prepared og) ++
  map (fun e => OCz (fst e) (snd e)) (g_edges (og_graph og)) ++
  map (fun p => OMeas (mvec (snd p) false) (fst p)) (og_meas og) ++
  map (fun p => OApp1 (clifford_mat (snd p)) (fst p)) (og_cliff og).
(** whatever the outcomes, the pattern computes the map of the graph, up to a
    global phase *)
Definition implements (p : pattern) (og : opengraph) : Prop := forall o, exists c, phase c /\ forall psi,
  (forall n, In n (g_nodes (og_graph og)) -> ~ In n (og_in og) -> indep n psi) ->
  den (seq_ops o (p_seq p)) psi = cscale c (den (graph_ops og) psi).

(** * Proof *)
Lemma meas_ops_perm {A} (f : A -> vec2) (g : A -> nat) l l' : NoDup (map g l) -> Permutation l l' ->
  map (fun a => OMeas (f a) (g a)) l ≈ map (fun a => OMeas (f a) (g a)) l'.
Proof.
  intros H P. revert H. induction P; intros H; cbn [map] in *.
  - reflexivity.
  - inversion H; subst. apply leq_cons, IHP; auto.
  - apply (leq_app_r [_; _] [_; _]). apply comm2. intros n [<-|[]] [E|[]]. inversion H as [|? ? K _]; subst. apply K. left; auto.
  - rewrite IHP1, IHP2; [reflexivity| |auto]. eapply Permutation_NoDup; [apply Permutation_map; eauto|auto].
Qed.
Lemma og_prepared_In og n : In n (og_prepared og) <-> In n (g_nodes (og_graph og)) /\ ~ In n (og_in og).
Proof. unfold og_prepared. rewrite filter_In, negb_true_iff, <- not_true_iff_false, lmem_In. tauto. Qed.
Lemma m0_meas (d : dict measurement) og : og_meas og = d -> NoDup (dkeys d) ->
  map (m0 (measf og)) (dkeys d) = map (fun p => OMeas (mvec (snd p) false) (fst p)) d.
Proof.
  intros E ND. unfold dkeys. rewrite map_map. apply map_ext_in. intros [n m] H. unfold m0, measf. cbn [fst snd]. rewrite E. rewrite (In_dget d n m) by auto. auto.
Qed.
Lemma graph_ops_eq it og order ls : iter_ok it -> og_ok og -> order_compat og ls order ->
  prep_ops (map (fun n => (n, SPlus)) (it (sdiff (og_nodes og) (of_list (og_in og))))) ++ cz_ops (g_edges (og_graph og))
    ++ map (m0 (measf og)) order ++ map (fun p => OApp1 (clifford_mat (snd p)) (fst p)) (og_cliff og) ≈ graph_ops og.
Proof.
  intros Hit Hog (ND & HM & _). unfold graph_ops. apply leq_app; [|apply leq_app; [reflexivity|apply leq_app; [|reflexivity]]].
  - transitivity (prep_ops (map (fun n => (n, SPlus)) (og_prepared og))).
    + assert (NI : NoDup (it (sdiff (og_nodes og) (of_list (og_in og))))) by (apply iter_NoDup; auto).
      apply prep_ops_perm; [rewrite map_map; cbn [fst]; rewrite map_id; auto|]. apply Permutation_map, NoDup_Permutation; auto.
      * apply NoDup_filter, (ok_graph _ Hog).
      * intros n. rewrite iter_In, og_prepared_In by auto. unfold og_nodes. rewrite mem_sdiff, andb_true_iff, negb_true_iff, <- not_true_iff_false, !mem_of_list. tauto.
    + unfold prep_ops. rewrite map_map. reflexivity.
  - transitivity (map (m0 (measf og)) (dkeys (og_meas og))); [|rewrite (m0_meas (og_meas og)); [reflexivity|auto|apply (ok_meas _ Hog)]].
    apply (meas_ops_perm (fun u => mvec (measf og u) false) (fun u => u)); [rewrite map_id; auto|]. apply NoDup_Permutation; auto; [apply (ok_meas _ Hog)|].
    intros n. rewrite HM. symmetry. apply (ok_meas _ Hog).
Qed.
Lemma flow_implements it og cf ls xz order p : iter_ok it -> og_ok og -> simple (og_graph og) -> pauli_flow og cf ls -> flow_corr og cf ls xz ->
  xz_to_pattern it xz order = Ok p -> implements p og.
Proof.
  intros Hit Hog HS PF XC E. pose proof (corr_respects og Hog cf ls PF xz XC) as HR. pose proof XC as (E1 & E2 & K).
  assert (Ho : order_ok og ls) by apply PF.
  destruct (xz_pattern_inv it Hit xz) with (order := order) (p := p) as (ord & OC & _ & A & B & D & R); rewrite ?E1, ?E2; auto.
  rewrite E1 in *. rewrite E2 in *. intros o. rewrite D.
  destruct (leq_on_trans _ _ _ _ (flow_pattern_map it Hit og Hog HS cf ls PF xz XC ord OC o) (leq_leq_on _ _ _ (graph_ops_eq it og ord ls Hit Hog OC))) as (c & Hc & H).
  exists c. split; auto. intros psi Hp. apply H. intros n Hn. apply iter_In in Hn; auto. unfold og_nodes in Hn.
  rewrite mem_sdiff, andb_true_iff, negb_true_iff, <- not_true_iff_false, !mem_of_list in Hn. apply Hp; tauto.
Qed.
