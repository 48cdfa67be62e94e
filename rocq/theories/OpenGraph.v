(** Model of graphix/opengraph.py: open graphs, their validation, (odd)
    neighbourhoods.

    Graphs labelled by [Plane]/[Axis] instead of [Measurement] are represented
    by any measurement with that label: only the label is used before a pattern
    is generated. *)
From Coq Require Import Reals Arith List Bool Lia Permutation.
From Verif Require Import Cplx Mat2 NSet Fundamentals CliffordDb Clifford Measure QState Pattern Standardize.
Import ListNotations.

(** Iteration order of a Python set: unspecified, so a parameter. *)
Definition iter := nset -> list nat.
Definition iter_ok (it : iter) : Prop := forall s, Permutation (it s) (elems s).
Lemma iter_elems : iter_ok elems.
Proof. intros s. apply Permutation_refl. Qed.
Lemma iter_In it s n : iter_ok it -> (In n (it s) <-> mem n s = true).
Proof.
  intros H. rewrite <- elems_spec. split; intros K.
  - eapply Permutation_in; [apply H|auto].
  - eapply Permutation_in; [apply Permutation_sym, H|auto].
Qed.
Lemma iter_NoDup it s : iter_ok it -> NoDup (it s).
Proof. intros H. eapply Permutation_NoDup; [apply Permutation_sym, H|]. apply elems_NoDup. Qed.

(** networkx.Graph: nodes in insertion order, every edge listed once *)
Record graph := Graph { g_nodes : list nat; g_edges : list (nat * nat) }.
(** what networkx guarantees about every Graph *)
Definition graph_ok (g : graph) : Prop :=
  NoDup (g_nodes g) /\ NoDup (map edge_norm (g_edges g)) /\
  forall e, In e (g_edges g) -> In (fst e) (g_nodes g) /\ In (snd e) (g_nodes g).
(** no self loop *)
Definition simple (g : graph) : Prop := forall e, In e (g_edges g) -> fst e <> snd e.
(** [u in set(graph.neighbors(n))]; NetworkXError if [n] is not a node *)
Definition nbh (g : graph) (n : nat) : nset :=
  fold_right (fun e s => let s := if (fst e =? n)%nat then sadd (snd e) s else s in
                         if (snd e =? n)%nat then sadd (fst e) s else s) sempty (g_edges g).
Definition adjacent (g : graph) (u v : nat) : Prop := In (u, v) (g_edges g) \/ In (v, u) (g_edges g).

(** opengraph.py:43-76 OpenGraph *)
Record opengraph := OG { og_graph : graph; og_in : list nat; og_out : list nat;
  og_meas : dict measurement; og_cliff : dict clifford }.
Definition og_nodes (og : opengraph) : nset := of_list (g_nodes (og_graph og)).
(** opengraph.py:83-104 __post_init__ *)
Definition og_make (g : graph) (ins outs : list nat) (ms : dict measurement) (cl : dict clifford) : res opengraph :=
  let all := of_list (g_nodes g) in
  let inputs := of_list ins in
  let outputs := of_list outs in
  let measured := of_list (dkeys ms) in
  if negb (ssub measured all) then Err EOpenGraph
  else if negb (ssub inputs all) then Err EOpenGraph
  else if negb (ssub outputs all) then Err EOpenGraph
  else if negb (is_empty (sinter outputs measured)) then Err EOpenGraph
  else if negb (seqb (sdiff all outputs) measured) then Err EOpenGraph
  else if negb (length (elems inputs) =? length ins)%nat then Err EOpenGraph
  else if negb (length (elems outputs) =? length outs)%nat then Err EOpenGraph
  else if negb (ssub (of_list (dkeys cl)) outputs) then Err EOpenGraph
  else Ok (OG g ins outs ms cl).

(** opengraph.py:339-356 neighbors; the order of union does not matter *)
Definition og_neighbors (og : opengraph) (s : nset) : res nset :=
  rfold (fun acc n => if mem n (og_nodes og) then Ok (sunion acc (nbh (og_graph og) n)) else Err ENetworkX) (elems s) sempty.
(** opengraph.py:357-373 odd_neighbors *)
Definition og_odd (og : opengraph) (s : nset) : res nset :=
  rfold (fun acc n => do nb <- og_neighbors og (sing n); Ok (sxor acc nb)) (elems s) sempty.

(** * Specification of a valid open graph *)
Record og_ok (og : opengraph) : Prop := {
  ok_graph : graph_ok (og_graph og);
  ok_in : NoDup (og_in og) /\ forall n, In n (og_in og) -> In n (g_nodes (og_graph og));
  ok_out : NoDup (og_out og) /\ forall n, In n (og_out og) -> In n (g_nodes (og_graph og));
  ok_meas : NoDup (dkeys (og_meas og)) /\
    forall n, In n (dkeys (og_meas og)) <-> In n (g_nodes (og_graph og)) /\ ~ In n (og_out og);
  ok_cliff : NoDup (dkeys (og_cliff og)) /\ forall n, In n (dkeys (og_cliff og)) -> In n (og_out og) }.

Lemma elems_of_list l : NoDup l -> Permutation (elems (of_list l)) l.
Proof.
  intros H. apply NoDup_Permutation; auto using elems_NoDup. intros x. rewrite elems_spec, mem_of_list. tauto.
Qed.
Lemma len_set l : length (elems (of_list l)) = length l <-> NoDup l.
Proof.
  split; [|intros H; apply Permutation_length, elems_of_list; auto].
  intros H. apply (@NoDup_incl_NoDup _ (elems (of_list l)) l); [apply elems_NoDup|lia|].
  intros x Hx. apply elems_spec, mem_of_list in Hx; auto.
Qed.
Lemma ssub_of_list a b : ssub (of_list a) (of_list b) = true <-> forall n, In n a -> In n b.
Proof. rewrite ssub_spec. split; intros H n; specialize (H n); rewrite !mem_of_list in *; auto. Qed.
Lemma sinter_empty a b : is_empty (sinter a b) = true <-> forall n, mem n a = true -> mem n b = true -> False.
Proof.
  rewrite is_empty_spec. split.
  - intros H n A B. assert (K : mem n (sinter a b) = false) by (rewrite H; apply mem_empty). rewrite mem_sinter, A, B in K. discriminate.
  - intros H. apply nset_ext. intros n. rewrite mem_sinter, mem_empty. specialize (H n). destruct (mem n a), (mem n b); auto. exfalso; auto.
Qed.
Lemma seqb_spec a b : seqb a b = true <-> forall n, mem n a = mem n b.
Proof. unfold seqb. rewrite N.eqb_eq. split; [intros ->; auto|apply nset_ext]. Qed.

Lemma og_make_spec g ins outs ms cl : graph_ok g -> NoDup (dkeys ms) -> NoDup (dkeys cl) ->
  (og_ok (OG g ins outs ms cl) /\ og_make g ins outs ms cl = Ok (OG g ins outs ms cl)) \/
  (~ og_ok (OG g ins outs ms cl) /\ og_make g ins outs ms cl = Err EOpenGraph).
Proof.
  intros HG HM HC. unfold og_make. cbv zeta.
  destruct (ssub (of_list (dkeys ms)) (of_list (g_nodes g))) eqn:E1; cbn [negb].
  2:{ right. split; auto. intros [_ _ _ [_ K] _]. cbn in K. apply not_true_iff_false in E1. apply E1, ssub_of_list. intros n Hn. apply K; auto. }
  destruct (ssub (of_list ins) (of_list (g_nodes g))) eqn:E2; cbn [negb].
  2:{ right. split; auto. intros [_ [_ K] _ _ _]. cbn in K. apply not_true_iff_false in E2. apply E2, ssub_of_list. auto. }
  destruct (ssub (of_list outs) (of_list (g_nodes g))) eqn:E3; cbn [negb].
  2:{ right. split; auto. intros [_ _ [_ K] _ _]. cbn in K. apply not_true_iff_false in E3. apply E3, ssub_of_list. auto. }
  destruct (is_empty (sinter (of_list outs) (of_list (dkeys ms)))) eqn:E4; cbn [negb].
  2:{ right. split; auto. intros [_ _ _ [_ K] _]. cbn in K. apply not_true_iff_false in E4. apply E4, sinter_empty. intros n A B.
      apply mem_of_list in A, B. apply K in B. tauto. }
  destruct (seqb (sdiff (of_list (g_nodes g)) (of_list outs)) (of_list (dkeys ms))) eqn:E5; cbn [negb].
  2:{ right. split; auto. intros [_ _ _ [_ K] _]. cbn in K. apply not_true_iff_false in E5. apply E5, seqb_spec. intros n.
      apply eq_true_iff_eq. rewrite mem_sdiff, andb_true_iff, negb_true_iff, <- not_true_iff_false, !mem_of_list. rewrite K. tauto. }
  destruct (length (elems (of_list ins)) =? length ins)%nat eqn:E6; cbn [negb].
  2:{ right. split; auto. intros [_ [K _] _ _ _]. cbn in K. apply Nat.eqb_neq in E6. apply E6, len_set; auto. }
  destruct (length (elems (of_list outs)) =? length outs)%nat eqn:E7; cbn [negb].
  2:{ right. split; auto. intros [_ _ [K _] _ _]. cbn in K. apply Nat.eqb_neq in E7. apply E7, len_set; auto. }
  destruct (ssub (of_list (dkeys cl)) (of_list outs)) eqn:E8; cbn [negb].
  2:{ right. split; auto. intros [_ _ _ _ [_ K]]. cbn in K. apply not_true_iff_false in E8. apply E8, ssub_of_list. auto. }
  left. split; auto. apply Nat.eqb_eq, len_set in E6, E7. rewrite ssub_of_list in E1, E2, E3, E8. rewrite sinter_empty in E4. rewrite seqb_spec in E5.
  constructor; cbn; auto. split; auto. intros n. specialize (E5 n). rewrite eq_iff_eq_true in E5.
  rewrite mem_sdiff, andb_true_iff, negb_true_iff, <- not_true_iff_false, !mem_of_list in E5. tauto.
Qed.

(** * Neighbourhoods *)
Lemma mem_nbh g u v : mem v (nbh g u) = true <-> adjacent g u v.
Proof.
  unfold nbh, adjacent. induction (g_edges g) as [|[a b] es IH]; cbn [fold_right fst snd In].
  - rewrite mem_empty. split; [discriminate|tauto].
  - set (s := fold_right _ _ es) in *. cbv zeta.
    destruct (Nat.eqb_spec a u) as [->|N1], (Nat.eqb_spec b u) as [->|N2]; rewrite ?mem_sadd, ?orb_true_iff, ?Nat.eqb_eq, IH.
    + split; [intros [->|[->|[|]]]; auto|]. intros [[K|K]|[K|K]]; auto; injection K; auto.
    + split; [intros [->|[|]]; auto|]. intros [[K|K]|[K|K]]; auto; injection K; auto; congruence.
    + split; [intros [->|[|]]; auto|]. intros [[K|K]|[K|K]]; auto; injection K; auto; congruence.
    + split; [intros [|]; auto|]. intros [[K|K]|[K|K]]; auto; injection K; congruence.
Qed.
Lemma adjacent_sym g u v : adjacent g u v -> adjacent g v u.
Proof. unfold adjacent; tauto. Qed.
Lemma adjacent_nodes g u v : graph_ok g -> adjacent g u v -> In u (g_nodes g) /\ In v (g_nodes g).
Proof. intros (_ & _ & H) [K|K]; apply H in K; cbn in K; tauto. Qed.

Lemma og_neighbors_gen og l acc : (forall n, In n l -> In n (g_nodes (og_graph og))) ->
  rfold (fun acc n => if mem n (og_nodes og) then Ok (sunion acc (nbh (og_graph og) n)) else Err ENetworkX) l acc
  = Ok (fold_left (fun acc n => sunion acc (nbh (og_graph og) n)) l acc).
Proof.
  revert acc. induction l as [|n l IH]; intros acc H; cbn [rfold fold_left]; auto.
  replace (mem n (og_nodes og)) with true; [apply IH; intros; apply H; right; auto|]. symmetry. apply mem_of_list, H. left; auto.
Qed.
Lemma mem_fold_union og l acc v : mem v (fold_left (fun acc n => sunion acc (nbh (og_graph og) n)) l acc) = true <->
  mem v acc = true \/ exists u, In u l /\ adjacent (og_graph og) u v.
Proof.
  revert acc. induction l as [|n l IH]; intros acc; cbn [fold_left].
  - split; auto. intros [|(u & [] & _)]; auto.
  - rewrite IH, mem_sunion, orb_true_iff, mem_nbh. split.
    + intros [[|]|(u & A & B)]; auto; right; [exists n; split; auto; left; auto|exists u; split; auto; right; auto].
    + intros [|(u & [->|A] & B)]; auto. right. exists u; auto.
Qed.
(** [neighbors(s)] is the set of nodes adjacent to a node of [s]; it fails iff
    [s] contains something that is not a node *)
Lemma og_neighbors_spec og s :
  (forall n, mem n s = true -> In n (g_nodes (og_graph og))) ->
  exists r, og_neighbors og s = Ok r /\ forall v, mem v r = true <-> exists u, mem u s = true /\ adjacent (og_graph og) u v.
Proof.
  intros H. unfold og_neighbors. rewrite og_neighbors_gen by (intros n Hn; apply H, elems_spec; auto).
  eexists. split; [reflexivity|]. intros v. rewrite mem_fold_union, mem_empty. split.
  - intros [|(u & A & B)]; [discriminate|]. exists u. split; auto. apply elems_spec; auto.
  - intros (u & A & B). right. exists u. split; auto. apply elems_spec; auto.
Qed.
Lemma og_neighbors_sing og n : In n (g_nodes (og_graph og)) -> og_neighbors og (sing n) = Ok (nbh (og_graph og) n).
Proof.
  intros H. destruct (og_neighbors_spec og (sing n)) as (r & E & K).
  { intros k. rewrite mem_sing. intros Q. apply Nat.eqb_eq in Q. subst; auto. }
  rewrite E. f_equal. apply nset_ext. intros v. apply eq_true_iff_eq. rewrite K, mem_nbh. split.
  - intros (u & A & B). rewrite mem_sing in A. apply Nat.eqb_eq in A. subst; auto.
  - intros A. exists n. rewrite mem_sing, Nat.eqb_refl. auto.
Qed.
Lemma og_odd_gen og l acc : (forall n, In n l -> In n (g_nodes (og_graph og))) ->
  rfold (fun acc n => do nb <- og_neighbors og (sing n); Ok (sxor acc nb)) l acc
  = Ok (fold_left (fun acc n => sxor acc (nbh (og_graph og) n)) l acc).
Proof.
  revert acc. induction l as [|n l IH]; intros acc H; cbn [rfold fold_left]; auto.
  rewrite og_neighbors_sing by (apply H; left; auto). cbn [rbind]. apply IH. intros; apply H; right; auto.
Qed.
Lemma mem_fold_xor g l acc v : mem v (fold_left (fun acc n => sxor acc (nbh g n)) l acc) = xorb (mem v acc) (xorsum l (fun u => mem v (nbh g u))).
Proof.
  revert acc. induction l as [|n l IH]; intros acc; cbn [fold_left xorsum fold_right]; [rewrite xorb_false_r; auto|].
  rewrite IH, mem_sxor, xorb_assoc. reflexivity.
Qed.
(** [odd_neighbors(s)] is the set of nodes with an odd number of neighbours in [s] *)
Lemma og_odd_spec og s :
  (forall n, mem n s = true -> In n (g_nodes (og_graph og))) ->
  exists r, og_odd og s = Ok r /\ forall v, mem v r = xorsum (elems s) (fun u => mem v (nbh (og_graph og) u)).
Proof.
  intros H. unfold og_odd. rewrite og_odd_gen by (intros n Hn; apply H, elems_spec; auto).
  eexists. split; [reflexivity|]. intros v. rewrite mem_fold_xor, mem_empty, xorb_false_l. reflexivity.
Qed.
