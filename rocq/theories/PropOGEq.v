(** Property theorems: comparing open graphs and mapping their measurements (C64). *)
From Coq Require Import Reals Lra Arith ZArith List Bool Lia Permutation.
From Verif Require Import Cplx Mat2 NSet Fundamentals CliffordDb Clifford Measure QState Layer Pattern Standardize Space FlowSem FlowDet OpenGraph FlowSpec Flow FlowWF FlowPat OGMap Compose PropCompose PropAngle PropPatInfo.
Import ListNotations.
Local Open Scope nat_scope.

(** ** Model *)
(** opengraph.py:331 nx.utils.graphs_equal: equal adjacency dictionaries and equal
    node views (the graphs carry no attribute) *)
Definition graphs_equal (g h : graph) : bool :=
  seqb (of_list (g_nodes g)) (of_list (g_nodes h)) && forallb (fun n => seqb (nbh g n) (nbh h n)) (g_nodes g).
(** [==] on lists of nodes *)
Fixpoint nodes_eqb (l l' : list nat) : bool :=
  match l, l' with [], [] => true | a :: l, b :: l' => (a =? b) && nodes_eqb l l' | _, _ => false end.
(** opengraph.py:334 [==] on dictionaries: as many keys, and every item of the first
    is in the second *)
Definition cliffs_equal (d d' : dict clifford) : bool :=
  (length d =? length d') && forallb (fun kv => match dget d' (fst kv) with Some g => clifford_eqb (snd kv) g | None => false end) d.
(** opengraph.py:310-336 is_equal_structurally (both graphs keep their nodes in
    sequences of the same type) *)
Definition og_structural (a b : opengraph) : bool :=
  graphs_equal (og_graph a) (og_graph b) && nodes_eqb (og_in a) (og_in b) && nodes_eqb (og_out a) (og_out b) && cliffs_equal (og_cliff a) (og_cliff b).
(** opengraph.py:305-308 the [all(...)] over the measurements of the first graph *)
Fixpoint all_close (rel abs : R) (other : dict measurement) (ms : dict measurement) : res bool :=
  match ms with
  | [] => Ok true
  | (n, m) :: ms => match dget other n with
                    | None => Err EKey
                    | Some m' => if meas_isclose rel abs m m' then all_close rel abs other ms else Ok false
                    end
  end.
(** opengraph.py:279-308 isclose; measurements with float angles *)
Definition og_isclose (rel abs : R) (a b : opengraph) : res bool :=
  if og_structural a b then all_close rel abs (og_meas b) (og_meas a) else Ok false.
(** opengraph.py:161-190 map: a new, validated, open graph *)
Definition og_map (f : measurement -> res measurement) (a : opengraph) : res opengraph :=
  do ms <- map_res (fun kv => do m <- f (snd kv); Ok (fst kv, m)) (og_meas a);
  og_make (og_graph a) (og_in a) (og_out a) ms (og_cliff a).
(** opengraph.py:192-207 to_bloch *)
Definition og_to_bloch : opengraph -> res opengraph := og_map m_to_bloch.
(** opengraph.py:209-236 downcast_bloch *)
Definition og_downcast : opengraph -> res opengraph := og_map m_downcast.
(** opengraph.py:238-277 infer_pauli_measurements *)
Definition og_infer (rel abs : R) : opengraph -> res opengraph := og_map (m_infer rel abs).

(** ** Specification *)
(** the same labelled graph, inputs and outputs in the same order, the same output
    Cliffords; nothing is said of the order in which nodes, edges and dictionary
    items are stored *)
Record same_structure (a b : opengraph) : Prop := {
  ss_nodes : forall n, In n (g_nodes (og_graph a)) <-> In n (g_nodes (og_graph b));
  ss_edges : forall u v, adjacent (og_graph a) u v <-> adjacent (og_graph b) u v;
  ss_in : og_in a = og_in b;
  ss_out : og_out a = og_out b;
  ss_cliff : forall n, dget (og_cliff a) n = dget (og_cliff b) n }.

(** ** Structural comparison *)
Lemma nodes_eqb_spec l : forall l', nodes_eqb l l' = true <-> l = l'.
Proof.
  induction l as [|a l IH]; intros [|b l']; cbn; try (split; congruence).
  rewrite andb_true_iff, Nat.eqb_eq, IH. split; [intros [-> ->]; auto|]. intros K; injection K; auto.
Qed.
Lemma graphs_equal_spec g h : graph_ok g -> graph_ok h -> (graphs_equal g h = true <->
  (forall n, In n (g_nodes g) <-> In n (g_nodes h)) /\ forall u v, adjacent g u v <-> adjacent h u v).
Proof.
  intros G H. unfold graphs_equal. rewrite andb_true_iff, seqb_spec, forallb_forall.
  assert (N : (forall n, mem n (of_list (g_nodes g)) = mem n (of_list (g_nodes h))) <-> forall n, In n (g_nodes g) <-> In n (g_nodes h)).
  { split; intros K n; specialize (K n); [rewrite <- !mem_of_list, K; tauto|]. apply eq_true_iff_eq. rewrite !mem_of_list. auto. }
  rewrite N. split; intros [A B]; split; auto.
  - intros u v. rewrite <- !mem_nbh. split; intros K.
    + assert (I : In u (g_nodes g)) by (apply mem_nbh in K; apply (adjacent_nodes g u v G K)). apply B in I. rewrite seqb_spec in I. rewrite <- I. auto.
    + assert (I : In u (g_nodes g)) by (apply A; apply mem_nbh in K; apply (adjacent_nodes h u v H K)). apply B in I. rewrite seqb_spec in I. rewrite I. auto.
  - intros u _. apply seqb_spec. intros v. apply eq_true_iff_eq. rewrite !mem_nbh. auto.
Qed.
Lemma same_dict_len {A} (d d' : dict A) : NoDup (dkeys d) -> NoDup (dkeys d') -> (forall n, dget d n = dget d' n) -> Permutation d d'.
Proof.
  intros N N' H. assert (ND : forall e : dict A, NoDup (dkeys e) -> NoDup e) by (intros e; apply NoDup_map_inv).
  apply NoDup_Permutation; auto. intros [k v]. split; intros K.
  - apply dget_In. rewrite <- H. apply In_dget; auto.
  - apply dget_In. rewrite H. apply In_dget; auto.
Qed.
Lemma cliffs_equal_spec d d' : NoDup (dkeys d) -> NoDup (dkeys d') -> (cliffs_equal d d' = true <-> forall n, dget d n = dget d' n).
Proof.
  intros N N'. unfold cliffs_equal. rewrite andb_true_iff, Nat.eqb_eq, forallb_forall. split.
  - intros [L K]. assert (I : forall k v, In (k, v) d -> In (k, v) d').
    { intros k v H. apply K in H. cbn [fst snd] in H. destruct (dget d' k) as [g|] eqn:E; [|discriminate]. apply clifford_eqb_eq in H. subst g. apply dget_In; auto. }
    assert (J : forall k v, In (k, v) d' -> In (k, v) d).
    { assert (ND : NoDup d) by (eapply NoDup_map_inv; exact N). intros k v. apply (NoDup_length_incl ND); [lia|]. intros [k' v']; apply I. }
    intros n. destruct (dget d n) as [v|] eqn:E.
    + symmetry. apply In_dget; auto. apply I, dget_In; auto.
    + destruct (dget d' n) as [v|] eqn:E'; auto. apply dget_In in E'. apply J in E'. apply (In_dget d n v N) in E'. congruence.
  - intros H. split; [apply Permutation_length, same_dict_len; auto|]. intros [k v] K. cbn [fst snd]. rewrite <- H, (In_dget d k v) by auto. apply clifford_eqb_eq. auto.
Qed.
(** the comparison says exactly that the structures are the same *)
Theorem C64_structural a b : og_ok a -> og_ok b -> (og_structural a b = true <-> same_structure a b).
Proof.
  intros A B. unfold og_structural. rewrite !andb_true_iff, !nodes_eqb_spec, graphs_equal_spec, cliffs_equal_spec by (apply A || apply B).
  split; [intros [[[[H1 H2] H3] H4] H5]; constructor; auto|]. intros [H1 H2 H3 H4 H5]. auto.
Qed.
Print Assumptions C64_structural.
(** it is an equivalence *)
Theorem C64_structural_equivalence a b c : og_ok a -> og_ok b -> og_ok c ->
  og_structural a a = true /\ og_structural a b = og_structural b a /\
  (og_structural a b = true -> og_structural b c = true -> og_structural a c = true).
Proof.
  intros A B C. split; [|split].
  - apply C64_structural; auto. constructor; tauto.
  - apply eq_true_iff_eq. rewrite !C64_structural by auto.
    split; intros [H1 H2 H3 H4 H5]; constructor; auto; intros; symmetry; auto.
  - rewrite !C64_structural by auto. intros [H1 H2 H3 H4 H5] [K1 K2 K3 K4 K5]. constructor; intros; try congruence.
    + rewrite H1. apply K1.
    + rewrite H2. apply K2.
Qed.
Print Assumptions C64_structural_equivalence.

(** ** Comparison up to tolerances *)
Lemma same_measured a b : og_ok a -> og_ok b -> same_structure a b -> forall n, In n (dkeys (og_meas a)) <-> In n (dkeys (og_meas b)).
Proof. intros A B S n. rewrite (proj2 (ok_meas _ A)), (proj2 (ok_meas _ B)), (ss_nodes _ _ S), (ss_out _ _ S). tauto. Qed.
Lemma all_close_spec rel abs other ms : (forall n, In n (dkeys ms) -> In n (dkeys other)) ->
  exists r, all_close rel abs other ms = Ok r /\ (r = true <-> forall n m m', In (n, m) ms -> dget other n = Some m' -> meas_isclose rel abs m m' = true).
Proof.
  induction ms as [|[n m] ms IH]; intros H; cbn [all_close].
  - exists true. split; auto. split; [intros _ ? ? ? []|auto].
  - destruct (dget_keys other n) as [m' E]; [apply H; left; auto|]. rewrite E. destruct (meas_isclose rel abs m m') eqn:Q.
    + destruct IH as (r & R1 & R2); [intros k K; apply H; right; auto|]. exists r. split; auto. rewrite R2. split.
      * intros K k x y [I|I] G; [injection I as <- <-; congruence|eauto].
      * intros K k x y I. apply K. right; auto.
    + exists false. split; auto. split; [discriminate|]. intros K. rewrite <- Q. apply (K n); [left|]; auto.
Qed.
(** on valid open graphs [isclose] always answers, and says that the structures are
    the same and that the measurements of every node are close *)
Theorem C64_isclose rel abs a b : og_ok a -> og_ok b -> exists r, og_isclose rel abs a b = Ok r /\
  (r = true <-> same_structure a b /\ forall n m m', dget (og_meas a) n = Some m -> dget (og_meas b) n = Some m' -> meas_isclose rel abs m m' = true).
Proof.
  intros A B. unfold og_isclose. destruct (og_structural a b) eqn:S.
  - apply C64_structural in S; [|auto|auto]. destruct (all_close_spec rel abs (og_meas b) (og_meas a) (fun n => proj1 (same_measured a b A B S n))) as (r & R1 & R2).
    exists r. split; auto. rewrite R2. split.
    + intros K. split; auto. intros n m m' H. apply K. apply dget_In; auto.
    + intros [_ K] n m m' H. apply K. apply In_dget; auto. apply A.
  - exists false. split; auto. split; [discriminate|]. intros [K _]. apply C64_structural in K; auto. congruence.
Qed.
Print Assumptions C64_isclose.
(** the order of the comparison is irrelevant, and an open graph is close to itself *)
Theorem C64_isclose_sym rel abs a b : (0 <= abs)%R -> og_ok a -> og_ok b ->
  og_isclose rel abs a b = og_isclose rel abs b a /\ og_isclose rel abs a a = Ok true.
Proof.
  intros P A B. split.
  - destruct (C64_isclose rel abs a b A B) as (r & -> & R), (C64_isclose rel abs b a B A) as (q & -> & Q). f_equal. apply eq_true_iff_eq. rewrite R, Q.
    assert (W : forall x y, (same_structure x y /\ forall n m m', dget (og_meas x) n = Some m -> dget (og_meas y) n = Some m' -> meas_isclose rel abs m m' = true) ->
      same_structure y x /\ forall n m m', dget (og_meas y) n = Some m -> dget (og_meas x) n = Some m' -> meas_isclose rel abs m m' = true).
    { intros x y [[H1 H2 H3 H4 H5] K]. split; [constructor; auto; intros; symmetry; auto|]. intros n m m' E E'.
      rewrite (proj1 (proj2 (C40_isclose rel abs m m' P))). eapply K; eauto. }
    split; apply W.
  - destruct (C64_isclose rel abs a a A A) as (r & -> & R). f_equal. apply R. split; [constructor; tauto|]. intros n m m' E E'. rewrite E in E'. injection E' as <-.
    apply (C40_isclose rel abs m m P).
Qed.
Print Assumptions C64_isclose_sym.
(** without tolerance: the same measurement at every node, hence the same linear map *)
Theorem C64_exact a b : og_ok a -> og_ok b ->
  (og_isclose 0 0 a b = Ok true <-> same_structure a b /\ forall n, dget (og_meas a) n = dget (og_meas b) n).
Proof.
  intros A B. destruct (C64_isclose 0 0 a b A B) as (r & -> & R).
  assert (Z : meas_isclose 0 0 = fun m m' => meas_isclose 0 0 m m') by auto.
  assert (EQ : forall m m', meas_isclose 0 0 m m' = true <-> m = m') by (intros m m'; apply (C40_isclose 0 0 m m'); lra).
  split.
  - intros H. injection H as ->. destruct (proj1 R eq_refl) as [S K]. split; auto. intros n. pose proof (same_measured a b A B S n) as M.
    destruct (dget (og_meas a) n) as [m|] eqn:E.
    + destruct (dget_keys (og_meas b) n) as [m' E']; [apply M, (dget_is_key _ _ m); auto|]. rewrite E'. f_equal. apply EQ. eapply K; eauto.
    + symmetry. apply dget_None. rewrite <- M. apply dget_None. auto.
  - intros [S K]. f_equal. apply R. split; auto. intros n m m' E E'. apply EQ. rewrite K in E. congruence.
Qed.
Print Assumptions C64_exact.
Lemma same_graph_ops a b : og_ok a -> og_ok b -> same_structure a b -> (forall n, dget (og_meas a) n = dget (og_meas b) n) -> graph_ops a ≈ graph_ops b.
Proof.
  intros A B S M. unfold graph_ops. apply leq_app; [|apply leq_app; [|apply leq_app]].
  - assert (P : Permutation (og_prepared a) (og_prepared b)).
    { apply NoDup_Permutation; [apply NoDup_filter, A|apply NoDup_filter, B|]. intros n. rewrite !og_prepared_In, (ss_nodes _ _ S), (ss_in _ _ S). tauto. }
    assert (Q : prep_ops (map (fun n => (n, SPlus)) (og_prepared a)) ≈ prep_ops (map (fun n => (n, SPlus)) (og_prepared b))).
    { apply prep_ops_perm; [rewrite map_map; cbn [fst]; rewrite map_id; apply NoDup_filter, A|]. apply Permutation_map. auto. }
    unfold prep_ops in Q. rewrite !map_map in Q. exact Q.
  - assert (P : Permutation (map edge_norm (g_edges (og_graph a))) (map edge_norm (g_edges (og_graph b)))).
    { apply NoDup_Permutation; [apply A|apply B|]. intros e. split; intros K; apply in_map_iff in K as ([u v] & <- & K).
      - apply adjacent_norm, (ss_edges _ _ S). left; auto.
      - apply adjacent_norm, (ss_edges _ _ S). left; auto. }
    change (cz_ops (g_edges (og_graph a)) ≈ cz_ops (g_edges (og_graph b))).
    etransitivity; [apply cz_ops_perm, P|]. symmetry. apply cz_ops_perm, Permutation_refl.
  - apply (meas_ops_perm (fun p => mvec (snd p) false) fst); [apply A|]. apply same_dict_len; auto; [apply A|apply B].
  - apply (app1_perm (fun p => clifford_mat (snd p)) fst); [apply A|]. apply same_dict_len; [apply A|apply B|]. apply S.
Qed.
(** open graphs that compare equal without tolerance define the same linear map, and
    the same patterns implement them *)
Lemma implements_leq a b p : graph_ops a ≈ graph_ops b -> (forall n, In n (g_nodes (og_graph a)) <-> In n (g_nodes (og_graph b))) -> og_in a = og_in b ->
  implements p a -> implements p b.
Proof.
  intros (c & Hc & E) N I H o. destruct (H o) as (d & Hd & K). exists (d * c)%C. split; [apply phase_mul; auto|]. intros psi J.
  rewrite K; [|intros n K1 K2; apply J; [apply N; auto|rewrite <- I; auto]]. rewrite E, cscale_cscale. auto.
Qed.
Theorem C64_exact_map a b : og_ok a -> og_ok b -> og_isclose 0 0 a b = Ok true ->
  graph_ops a ≈ graph_ops b /\ forall p, implements p a <-> implements p b.
Proof.
  intros A B H. apply C64_exact in H; auto. destruct H as [S M]. pose proof (same_graph_ops a b A B S M) as E. split; auto.
  intros p. split; apply implements_leq; auto; try apply S.
  - symmetry; auto.
  - intros n. symmetry. apply S.
  - symmetry. apply S.
Qed.
Print Assumptions C64_exact_map.

(** ** Mapping *)
Lemma map_dict (f : measurement -> res measurement) (d : dict measurement) :
  match map_res (fun kv => do m <- f (snd kv); Ok (fst kv, m)) d with
  | Ok d' => Forall2 (fun x y => fst y = fst x /\ f (snd x) = Ok (snd y)) d d'
  | Err e => exists pre n m post, d = pre ++ (n, m) :: post /\ f m = Err e /\ forall k x, In (k, x) pre -> exists y, f x = Ok y
  end.
Proof.
  induction d as [|[n m] d IH]; cbn [map_res]; [constructor|]. cbn [fst snd]. destruct (f m) as [m'|e] eqn:E; cbn [rbind].
  - destruct (map_res _ d) as [d'|e]; cbn [rbind]; [constructor; auto|]. destruct IH as (pre & k & x & post & -> & F & K).
    exists ((n, m) :: pre), k, x, post. split; auto. split; auto. intros j y [I|I]; [injection I as <- <-; eauto|eauto].
  - exists [], n, m, d. split; auto. split; auto. intros k x [].
Qed.
Lemma map_dkeys (f : measurement -> res measurement) (d d' : dict measurement) : Forall2 (fun x y => fst y = fst x /\ f (snd x) = Ok (snd y)) d d' -> dkeys d' = dkeys d.
Proof. unfold dkeys. induction 1 as [|x y d d' [E _] _ IH]; cbn; congruence. Qed.
Lemma map_dget (f : measurement -> res measurement) (d d' : dict measurement) : Forall2 (fun x y => fst y = fst x /\ f (snd x) = Ok (snd y)) d d' ->
  forall n, match dget d n, dget d' n with Some m, Some m' => f m = Ok m' | None, None => True | _, _ => False end.
Proof.
  induction 1 as [|[k x] [k' y] d d' [E F] _ IH]; intros n; cbn [dget]; auto. cbn [fst snd] in *. subst k'. destruct (k =? n); [exact F|apply IH].
Qed.
(** [map] on a valid open graph either returns a valid open graph on the same
    structure where the measurement of every node is the image of the old one, or
    raises what the function raised on the first measurement, in the order of the
    dictionary, on which it raised *)
Theorem C64_map (f : measurement -> res measurement) a : og_ok a ->
  match og_map f a with
  | Ok b => og_ok b /\ same_structure a b /\ og_structural a b = true /\
      forall n, match dget (og_meas a) n, dget (og_meas b) n with Some m, Some m' => f m = Ok m' | None, None => True | _, _ => False end
  | Err e => exists pre n m post, og_meas a = pre ++ (n, m) :: post /\ f m = Err e /\ forall k x, In (k, x) pre -> exists y, f x = Ok y
  end.
Proof.
  intros A. unfold og_map. pose proof (map_dict f (og_meas a)) as H. destruct (map_res _ _) as [ms|e]; cbn [rbind]; auto.
  pose proof (map_dkeys _ _ _ H) as K.
  assert (OK : og_ok (OG (og_graph a) (og_in a) (og_out a) ms (og_cliff a))).
  { destruct A as [A1 A2 A3 A4 A5]. constructor; cbn [og_graph og_in og_out og_meas og_cliff]; auto. rewrite K. auto. }
  destruct (og_make_spec (og_graph a) (og_in a) (og_out a) ms (og_cliff a)) as [[_ E]|[N _]]; [apply A|rewrite K; apply A|apply A| |contradiction].
  rewrite E. assert (S : same_structure a (OG (og_graph a) (og_in a) (og_out a) ms (og_cliff a))) by (constructor; cbn; tauto).
  split; auto. split; auto. split; [apply C64_structural; auto|]. apply map_dget. auto.
Qed.
Print Assumptions C64_map.
Lemma map_shape (f : measurement -> res measurement) a b : og_ok a -> og_map f a = Ok b -> og_ok b /\ og_graph b = og_graph a /\ og_in b = og_in a /\ og_out b = og_out a /\ og_cliff b = og_cliff a /\
  Forall2 (fun x y => fst y = fst x /\ f (snd x) = Ok (snd y)) (og_meas a) (og_meas b).
Proof.
  intros A H. pose proof (C64_map f a A) as T. rewrite H in T. split; [apply T|]. clear T. unfold og_map in H.
  pose proof (map_dict f (og_meas a)) as D. destruct (map_res _ _) as [ms|e]; cbn [rbind] in H; [|discriminate].
  destruct (og_make_spec (og_graph a) (og_in a) (og_out a) ms (og_cliff a)) as [[_ E]|[_ E]]; [apply A|rewrite (map_dkeys _ _ _ D); apply A|apply A| |congruence].
  rewrite E in H. injection H as <-. auto.
Qed.
(** a function that keeps the state every measurement projects on keeps the linear
    map, and the patterns that implement it *)
Theorem C64_map_same_computation (f : measurement -> res measurement) a b : og_ok a -> og_map f a = Ok b ->
  (forall n m m', dget (og_meas a) n = Some m -> f m = Ok m' -> meas_proj m' false = meas_proj m false) ->
  graph_ops a ≈ graph_ops b /\ forall p, implements p a <-> implements p b.
Proof.
  intros A H P. destruct (map_shape f a b A H) as (B & E1 & E2 & E3 & E4 & F).
  assert (E : graph_ops a ≈ graph_ops b).
  { unfold graph_ops, og_prepared. rewrite E1, E2, E4. apply leq_app_l, leq_app_l, leq_app_r.
    assert (P' : forall n m m', In (n, m) (og_meas a) -> f m = Ok m' -> meas_proj m' false = meas_proj m false).
    { intros n m m' I. apply (P n). apply In_dget; auto. apply A. }
    clear - F P'. induction F as [|[n m] [n' m'] l l' [G1 G2] F IH]; [apply leq_refl|]. cbn [fst snd] in *. subst n'. cbn [map fst snd].
    apply (leq_app [_] _ [_] _); [|apply IH; intros; eapply P'; [right|]; eauto].
    apply meas_veqp. apply vouter_inj_phase; [apply mvec_norm|]. rewrite !mvec_proj. symmetry. eapply P'; [left; reflexivity|exact G2]. }
  split; auto. intros p. split; apply implements_leq; rewrite ?E1, ?E2; auto; try tauto. symmetry; auto.
Qed.
Print Assumptions C64_map_same_computation.
Lemma map_all_ok (f : measurement -> res measurement) a : og_ok a -> (forall m, exists m', f m = Ok m') -> exists b, og_map f a = Ok b.
Proof.
  intros A H. pose proof (C64_map f a A) as T. destruct (og_map f a) as [b|e]; [eauto|]. destruct T as (pre & n & m & post & _ & F & _). destruct (H m). congruence.
Qed.
(** [to_bloch]: always succeeds, all measurements are Bloch measurements, same map *)
Theorem C64_to_bloch a : og_ok a -> exists b, og_to_bloch a = Ok b /\ og_ok b /\ same_structure a b /\
  (forall n m, dget (og_meas b) n = Some m -> exists x pl, m = MBloch x pl) /\
  graph_ops a ≈ graph_ops b /\ (forall p, implements p a <-> implements p b).
Proof.
  intros A. destruct (map_all_ok m_to_bloch a A) as [b E]. { intros m. unfold m_to_bloch. destruct (to_bloch m). eauto. }
  exists b. split; auto. pose proof (C64_map m_to_bloch a A) as T. rewrite E in T. destruct T as (B & S & _ & D). split; auto. split; auto. split.
  - intros n m' K. specialize (D n). rewrite K in D. destruct (dget (og_meas a) n) as [m|]; [|destruct D]. unfold m_to_bloch in D. destruct (to_bloch m) as [x pl]. injection D as <-. eauto.
  - apply (C64_map_same_computation _ _ _ A E). intros n m m' _ G. unfold m_to_bloch in G. destruct (to_bloch m) as [x pl] eqn:Q. injection G as <-. unfold meas_proj. rewrite Q. reflexivity.
Qed.
Print Assumptions C64_to_bloch.
(** [downcast_bloch]: TypeError exactly when there is a Pauli measurement, and
    otherwise an open graph that compares equal without tolerance *)
Theorem C64_downcast a : og_ok a ->
  match og_downcast a with
  | Ok b => (forall n m, dget (og_meas a) n = Some m -> exists x pl, m = MBloch x pl) /\ og_ok b /\ og_isclose 0 0 a b = Ok true
  | Err e => e = EType /\ exists n ax s, dget (og_meas a) n = Some (MPauli ax s)
  end.
Proof.
  intros A. unfold og_downcast. pose proof (C64_map m_downcast a A) as T. destruct (og_map m_downcast a) as [b|e].
  - destruct T as (B & S & _ & D). split; [|split; auto].
    + intros n m K. specialize (D n). rewrite K in D. destruct (dget (og_meas b) n) as [m'|]; [|destruct D]. destruct m; [eauto|discriminate D].
    + apply C64_exact; auto. split; auto. intros n. specialize (D n). destruct (dget (og_meas a) n) as [m|], (dget (og_meas b) n) as [m'|]; auto; try contradiction.
      destruct m; [|discriminate D]. injection D as <-. auto.
  - destruct T as (pre & n & m & post & Q & F & _). destruct m as [x pl|ax s]; [discriminate F|]. injection F as <-. split; auto. exists n, ax, s.
    apply In_dget; [apply A|]. rewrite Q. apply in_or_app. right. left. auto.
Qed.
Print Assumptions C64_downcast.
(** [infer_pauli_measurements]: always succeeds; the map is that of the open graph in
    which every recognised angle is replaced by the quarter turn it is within
    tolerance of; with zero tolerances it is the map of the given open graph *)
Definition snapped (rel abs : R) (m m' : measurement) : Prop :=
  m' = m \/ exists x pl (k : Z), m = MBloch x pl /\ m' = MBloch (IZR k / 2) pl /\
    (Rabs (2 * x - IZR k) <= Rmax (rel * Rmax (Rabs (2 * x)) (Rabs (IZR k))) abs)%R.
Theorem C64_infer rel abs a : og_ok a -> exists b c, og_infer rel abs a = Ok b /\ og_ok b /\ og_ok c /\ same_structure a b /\ same_structure a c /\
  (forall n, match dget (og_meas a) n, dget (og_meas c) n with Some m, Some m' => snapped rel abs m m' | None, None => True | _, _ => False end) /\
  graph_ops c ≈ graph_ops b /\ (forall p, implements p c <-> implements p b).
Proof.
  intros A. destruct (map_all_ok (m_infer rel abs) a A) as [b E]. { intros m. unfold m_infer. eauto. }
  assert (G : forall m, exists m0, snapped rel abs m m0 /\ meas_proj (to_pauli_or_bloch rel abs m) false = meas_proj m0 false).
  { intros m. destruct (C40_to_pauli_or_bloch rel abs m) as [Q|(x & pl & ax & sg & k & Q1 & Q2 & L & PR)].
    - rewrite Q. exists m. split; [left|]; auto.
    - exists (MBloch (IZR k / 2) pl). split; [right; exists x, pl, k; auto|]. apply PR. }
  destruct (map_shape _ _ _ A E) as (B & E1 & E2 & E3 & E4 & F).
  assert (W : exists d, Forall2 (fun x y => fst y = fst x /\ snapped rel abs (snd x) (snd y)) (og_meas a) d /\ Forall2 (fun x y => fst y = fst x /\ meas_proj (snd y) false = meas_proj (snd x) false) d (og_meas b)).
  { clear - F G. induction F as [|[n m] [n' m'] l l' [G1 G2] F IH]; [exists []; split; constructor|]. cbn [fst snd] in *. subst n'. injection G2 as <-.
    destruct IH as (d & D1 & D2). destruct (G m) as (m0 & S0 & P0). exists ((n, m0) :: d). split; constructor; auto. }
  destruct W as (d & D1 & D2).
  assert (KD : dkeys d = dkeys (og_meas a)). { clear - D1. unfold dkeys. induction D1 as [|x y l l' [Q _] _ IH]; cbn; congruence. }
  set (c := OG (og_graph a) (og_in a) (og_out a) d (og_cliff a)).
  assert (OK : og_ok c). { destruct A as [A1 A2 A3 A4 A5]. constructor; cbn [c og_graph og_in og_out og_meas og_cliff]; auto. rewrite KD. auto. }
  exists b, c. split; [exact E|]. split; auto. split; auto. split; [pose proof (C64_map (m_infer rel abs) a A) as T; rewrite E in T; apply T|]. split; [constructor; cbn; tauto|].
  split. { cbn [c og_meas]. clear - D1. intros n. induction D1 as [|[k x] [k' y] l l' [Q1 Q2] D1 IH]; cbn [dget]; auto. cbn [fst snd] in *. subst k'. destruct (k =? n); [exact Q2|exact IH]. }
  assert (EQ : graph_ops c ≈ graph_ops b).
  { unfold graph_ops, og_prepared. cbn [c og_graph og_in og_out og_meas og_cliff]. rewrite E1, E2, E4. apply leq_app_l, leq_app_l, leq_app_r.
    clear - D2. induction D2 as [|[n m] [n' m'] l l' [G1 G2] F IH]; [apply leq_refl|]. cbn [fst snd] in *. subst n'. cbn [map fst snd].
    apply (leq_app [_] _ [_] _); [|exact IH]. apply meas_veqp. apply vouter_inj_phase; [apply mvec_norm|]. rewrite !mvec_proj. auto. }
  split; auto. intros p. split; apply implements_leq; cbn [c og_graph og_in]; rewrite ?E1, ?E2; auto; try tauto. symmetry; auto.
Qed.
Print Assumptions C64_infer.
Theorem C64_infer_exact a : og_ok a -> exists b, og_infer 0 0 a = Ok b /\ graph_ops a ≈ graph_ops b /\ (forall p, implements p a <-> implements p b).
Proof.
  intros A. destruct (C64_infer 0 0 a A) as (b & c & E & B & C & _ & S & D & G & I). exists b. split; auto.
  assert (X : og_isclose 0 0 a c = Ok true).
  { apply C64_exact; auto. split; auto. intros n. specialize (D n). destruct (dget (og_meas a) n) as [m|], (dget (og_meas c) n) as [m'|]; auto; try contradiction.
    destruct D as [->|(x & pl & k & -> & -> & L)]; auto. rewrite Rmult_0_l, Rmax_left in L by lra. do 2 f_equal.
    destruct (Req_dec (2 * x - IZR k) 0) as [Q|Q]; [lra|]. apply Rabs_pos_lt in Q. lra. }
  destruct (C64_exact_map a c A C X) as [Y Z]. split; [etransitivity; eauto|]. intros p. rewrite Z. apply I.
Qed.
Print Assumptions C64_infer_exact.

(** ** Non-vacuity *)
Definition ex_a : opengraph := OG (Graph [0; 1; 2] [(0, 1); (1, 2)]) [0] [2] [(0, MBloch (1 / 2) PXY); (1, MPauli AZ Minus)] [(2, K4)].
(** the same open graph stored in another order *)
Definition ex_b : opengraph := OG (Graph [2; 1; 0] [(2, 1); (1, 0)]) [0] [2] [(1, MPauli AZ Minus); (0, MBloch (1 / 2) PXY)] [(2, K4)].
(** one edge is missing, another Clifford *)
Definition ex_c : opengraph := OG (Graph [0; 1; 2] [(0, 1)]) [0] [2] [(0, MBloch (1 / 2) PXY); (1, MPauli AZ Minus)] [(2, K4)].
Definition ex_d : opengraph := OG (Graph [0; 1; 2] [(0, 1); (1, 2)]) [0] [2] [(0, MBloch (1 / 2) PXY); (1, MPauli AZ Minus)] [].
Definition ex_ok (a : opengraph) : Prop := og_make (og_graph a) (og_in a) (og_out a) (og_meas a) (og_cliff a) = Ok a.
Lemma ex_og_ok a : ex_ok a -> graph_ok (og_graph a) -> NoDup (dkeys (og_meas a)) -> NoDup (dkeys (og_cliff a)) -> og_ok a.
Proof.
  intros H G M C. destruct (og_make_spec (og_graph a) (og_in a) (og_out a) (og_meas a) (og_cliff a) G M C) as [[K _]|[_ K]]; [destruct a; exact K|].
  unfold ex_ok in H. congruence.
Qed.
Ltac nodup := cbn; unfold edge_norm; cbn; repeat (constructor; [cbn; intuition congruence|]); constructor.
Ltac ex_valid := apply ex_og_ok; [reflexivity| |nodup|nodup];
  split; [|split]; [nodup|nodup|cbn; intros e K; repeat (destruct K as [<-|K]; [cbn; intuition|]); destruct K].
Example C64_ex_a : og_ok ex_a. Proof. ex_valid. Qed.
Example C64_ex_b : og_ok ex_b. Proof. ex_valid. Qed.
Example C64_ex_c : og_ok ex_c. Proof. ex_valid. Qed.
Example C64_ex_d : og_ok ex_d. Proof. ex_valid. Qed.
Example C64_ex_equal : ex_a <> ex_b /\ og_structural ex_a ex_b = true /\ og_isclose 0 0 ex_a ex_b = Ok true.
Proof.
  assert (S : og_structural ex_a ex_b = true) by reflexivity. split; [intros K; discriminate (f_equal (fun a => g_nodes (og_graph a)) K)|]. split; auto.
  apply C64_exact; [apply C64_ex_a|apply C64_ex_b|]. split; [apply C64_structural; auto using C64_ex_a, C64_ex_b|].
  intros [|[|n]]; reflexivity.
Qed.
Example C64_ex_differ : og_structural ex_a ex_c = false /\ og_structural ex_a ex_d = false /\ og_isclose 0 0 ex_a ex_c = Ok false.
Proof. repeat split; reflexivity. Qed.
(** without validity the comparison raises: the measured nodes differ *)
Example C64_ex_keyerror : og_isclose 0 0 ex_a (OG (og_graph ex_a) [0] [2] [] [(2, K4)]) = Err EKey.
Proof. reflexivity. Qed.
Example C64_ex_maps : og_downcast ex_a = Err EType /\
  og_to_bloch ex_a = Ok (OG (og_graph ex_a) [0] [2] [(0, MBloch (1 / 2) PXY); (1, MBloch 1 PYZ)] [(2, K4)]).
Proof. split; reflexivity. Qed.
