(** Property theorems: node relabelling (C49) and composition of patterns (C25). *)
From Coq Require Import Reals Arith List Bool Lia Permutation.
From Verif Require Import Cplx Mat2 Fundamentals NSet Measure QState Pattern OpenGraph Compose Statevec Reindex.
Import ListNotations.

(** a pattern as the API builds it: distinct inputs, runnable, outputs = the
    remaining nodes in some order *)
Definition good (p : pattern) : Prop := NoDup (p_in p) /\ check_runnability p = Ok tt /\ pat_wf p.
(** every input of [p2] is fed with an output of [p1], and [p2] has as many
    outputs as inputs *)
Definition feeds_all (p1 p2 : pattern) (mapping : dict nat) : Prop :=
  (forall k, In k (p_in p2) -> exists v, dget mapping k = Some v /\ In v (p_out p1)) /\ length (p_in p2) = length (p_out p2).

(** ** node_mapping *)
Theorem C49_node_mapping : forall p mapping start avoids preserves, NoDup (dkeys mapping) ->
  match node_mapping p mapping start avoids preserves with
  | Ok mc => ((forall k, In k (dkeys mapping) -> node_of p k) /\ NoDup (dvals mapping))
      /\ NoDup (dkeys mc)
      /\ (forall k v, dget mapping k = Some v -> dget mc k = Some v)
      /\ (forall n, In n (dkeys mc) <-> In n (dkeys mapping) \/ node_of p n /\ mem n preserves = false)
      /\ (forall a b v, dget mc a = Some v -> dget mc b = Some v -> a = b)
      /\ (forall n v, ~ In n (dkeys mapping) -> dget mc n = Some v -> start <= v /\ mem v avoids = false /\ mem v preserves = false /\ ~ In v (dvals mapping))
      /\ (forall a b va vb, ~ In a (dkeys mapping) -> ~ In b (dkeys mapping) -> dget mc a = Some va -> dget mc b = Some vb -> a < b -> va < vb)
  | Err e => e = EValue /\ ~ ((forall k, In k (dkeys mapping) -> node_of p k) /\ NoDup (dvals mapping))
  end.
Proof.
  intros p mapping start avoids preserves ND. pose proof (node_mapping_spec p mapping start avoids preserves ND) as H.
  destruct (node_mapping _ _ _ _ _); [|auto]. destruct H as (A & B & H). split; auto.
Qed.
Print Assumptions C49_node_mapping.

(** ** reindex with a function that is injective on the nodes *)
Theorem C49_reindex : forall p f, good p -> has_no_S (p_seq p) -> (forall a b, node_of p a -> node_of p b -> f a = f b -> a = b) ->
  exists q, reindex f p = Ok q /\ good q
    /\ p_in q = map f (p_in p) /\ p_out q = map f (p_out p)
    /\ (forall n, node_of q n <-> exists k, node_of p k /\ n = f k)
    /\ (exists F G, inverses F G /\ forall n, node_of p n -> F n = f n)
    /\ forall F G o psi, inverses F G -> (forall n, node_of p n -> F n = f n) ->
         den (seq_ops o (p_seq q)) psi = relab F (den (seq_ops (fun n => o (F n)) (p_seq p)) (relab G psi)).
Proof.
  intros p f (ND & HC & W) HS HI. apply check_runnability_spec in HC.
  destruct (reindex_spec p f ND HC W HS HI) as (q & E & Q1 & Q2 & Q3 & Q4 & Q5 & Q6 & Q7 & Q8 & Q9).
  exists q. split; [auto|]. split. { split; [auto|]. split; [apply check_runnability_spec; auto|auto]. }
  split; [auto|]. split; [auto|]. split; [auto|]. split; [apply node_bij; auto|].
  intros F G o psi HFG HF. rewrite Q2, (reindex_ext f F p HC HS) by (intros n Hn; symmetry; auto). apply den_reindex; auto.
Qed.
Print Assumptions C49_reindex.

(** ** compose *)
Lemma rfold_acc {A} (h : nat -> option A) l : (forall n, In n l -> h n <> None) -> forall acc, exists r,
  rfold (fun acc n => match h n with Some o => Ok (acc ++ [o]) | None => Err EKey end) l acc = Ok (acc ++ r) /\ Forall2 (fun n o => h n = Some o) l r.
Proof.
  induction l as [|n l IH]; intros H acc; cbn [rfold].
  - exists []. rewrite app_nil_r. split; auto.
  - destruct (h n) as [o|] eqn:E; [|exfalso; apply (H n); simpl; auto].
    destruct (IH (fun k Hk => H k (or_intror Hk)) (acc ++ [o])) as (r & R1 & R2). exists (o :: r). rewrite R1, <- app_assoc. split; auto.
Qed.
Lemma rfold_ext {A B} (f g : A -> B -> res A) l a : (forall a b, In b l -> f a b = g a b) -> rfold f l a = rfold g l a.
Proof. revert a; induction l as [|b l IH]; intros a H; cbn [rfold]; auto. rewrite H by (simpl; auto). destruct (g a b); auto. apply IH. intros; apply H; simpl; auto. Qed.
Lemma filter_all {A} (P : A -> bool) l : length (filter P l) = length l <-> forall x, In x l -> P x = true.
Proof.
  induction l as [|a l IH]; cbn [filter]; [split; [intros _ x []|auto]|]. assert (L : length (filter P l) <= length l) by (clear; induction l as [|b l IH]; cbn [filter length]; [lia|destruct (P b); cbn [length]; lia]).
  destruct (P a) eqn:E; cbn [length].
  - split.
    + intros H x [<-|Hx]; auto. apply IH; auto.
    + intros H. f_equal. apply IH. intros; apply H; simpl; auto.
  - split; [intros; lia|]. intros H. rewrite (H a) in E by (simpl; auto). discriminate.
Qed.
Lemma partition_perm {A} (P : A -> bool) l : Permutation l (filter (fun x => negb (P x)) l ++ filter P l).
Proof.
  induction l as [|a l IH]; cbn [filter]; auto. destruct (P a); cbn [negb app].
  - rewrite IH at 1. apply Permutation_middle.
  - apply perm_skip; auto.
Qed.
Lemma Forall2_Perm {A B} (R : A -> B -> Prop) l l' m : Permutation l l' -> Forall2 R l m -> exists m', Permutation m m' /\ Forall2 R l' m'.
Proof.
  intros P. revert m. induction P as [|x l l' P IH|x y l|l l' l'' P IH P' IH']; intros m H.
  - inversion H; subst. exists []. auto.
  - inversion H as [|? b ? m0 Hx Hl]; subst. destruct (IH m0 Hl) as (m' & A1 & A2). exists (b :: m'). split; [apply perm_skip; auto|constructor; auto].
  - inversion H as [|? b ? m0 Hx Hl]; subst. inversion Hl as [|? c ? m1 Hy Hl']; subst. exists (c :: b :: m1). split; [apply perm_swap|constructor; auto].
  - destruct (IH m H) as (m' & A1 & A2). destruct (IH' m' A2) as (m'' & B1 & B2). exists m''. split; [etransitivity; eauto|auto].
Qed.
Lemma Forall2_length {A B} (R : A -> B -> Prop) l m : Forall2 R l m -> length l = length m.
Proof. induction 1; cbn; auto. Qed.
Lemma Forall2_imp {A B} (R S : A -> B -> Prop) l m : (forall a b, R a b -> S a b) -> Forall2 R l m -> Forall2 S l m.
Proof. induction 2; constructor; auto. Qed.
Lemma combine_get (a b : list nat) k v : NoDup a -> length a = length b -> (dget (combine a b) k = Some v <-> exists i, nth_error a i = Some k /\ nth_error b i = Some v).
Proof.
  revert b. induction a as [|x a IH]; intros b ND L.
  - cbn. split; [discriminate|]. intros ([|i] & H & _); discriminate.
  - destruct b as [|y b]; [discriminate|]. inversion ND as [|? ? N1 N2]; subst. cbn [combine dget]. destruct (Nat.eqb_spec x k) as [->|N].
    + split.
      * intros H. injection H as ->. exists O. auto.
      * intros ([|i] & H1 & H2); cbn in *; [congruence|]. exfalso. apply N1. eapply nth_error_In; eauto.
    + rewrite IH by (auto; cbn in L; lia). split.
      * intros (i & H1 & H2). exists (S i). auto.
      * intros ([|i] & H1 & H2); cbn in *; [congruence|eauto].
Qed.
Lemma nth_error_ext' {A} (l m : list A) : (forall i, nth_error l i = nth_error m i) -> l = m.
Proof.
  revert m; induction l as [|a l IH]; intros [|b m] H; auto.
  - specialize (H 0); discriminate.
  - specialize (H 0); discriminate.
  - f_equal; [specialize (H 0); cbn in H; congruence|]. apply IH. intros i. apply (H (S i)).
Qed.

Theorem C25_compose : forall p1 p2 mapping preserve,
  good p1 -> good p2 -> has_no_S (p_seq p2) -> NoDup (dkeys mapping) -> mapping_ok p1 p2 mapping ->
  (exists n, node_of p1 n) \/ mapping <> [] ->
  exists p mc, pat_compose p1 p2 mapping preserve = Ok (p, mc) /\ good p
    (* the complete relabelling: injective, defined on the nodes of p2, extends the mapping *)
    /\ NoDup (dkeys mc) /\ (forall n, In n (dkeys mc) <-> node_of p2 n)
    /\ (forall k v, dget mapping k = Some v -> dget mc k = Some v)
    /\ (forall a b v, dget mc a = Some v -> dget mc b = Some v -> a = b)
    (* labels of the two patterns only collide on the nodes that are fed *)
    /\ (forall n v, dget mc n = Some v -> (node_of p1 v <-> fed p1 mapping v = true) /\ (node_of p1 v -> In v (p_out p1) /\ In n (p_in p2)))
    /\ (forall n, node_of p n <-> node_of p1 n \/ exists k, dget mc k = Some n)
    (* inputs and outputs *)
    /\ p_in p = p_in p1 ++ filter (fun n => negb (fed p1 mapping n)) (map (rl mc) (p_in p2))
    /\ (preserve = false \/ ~ feeds_all p1 p2 mapping -> p_out p = filter (fun n => negb (fed p1 mapping n)) (p_out p1) ++ map (rl mc) (p_out p2))
    /\ (preserve = true -> feeds_all p1 p2 mapping ->
          Forall2 (fun v w => if fed p1 mapping v then exists i k o, nth_error (p_in p2) i = Some k /\ dget mc k = Some v /\ nth_error (p_out p2) i = Some o /\ dget mc o = Some w
                              else w = v) (p_out p1) (p_out p))
    (* semantics: p1, then p2 on the relabelled nodes *)
    /\ (exists F G, inverses F G /\ forall n, node_of p2 n -> dget mc n = Some (F n))
    /\ forall F G o psi, inverses F G -> (forall n, node_of p2 n -> dget mc n = Some (F n)) ->
         den (seq_ops o (p_seq p)) psi = relab F (den (seq_ops (fun n => o (F n)) (p_seq p2)) (relab G (den (seq_ops o (p_seq p1)) psi))).
Proof.
  intros p1 p2 mapping preserve (ND1 & HC1 & W1) (ND2 & HC2 & W2) HS NDK (NDV & HM) NE.
  apply check_runnability_spec in HC1, HC2.
  destruct (wf_outs p1 ND1 HC1 W1) as [O1 O1L]. destruct (wf_outs p2 ND2 HC2 W2) as [O2 O2L].
  assert (OUTN : forall n, In n (p_out p1) -> node_of p1 n) by (intros n Hn; apply live_node, O1L; auto).
  assert (GETK : forall k, In k (dkeys mapping) -> exists v, dget mapping k = Some v) by (intros; apply dget_keys; auto).
  unfold pat_compose.
  assert (C1 : ssub (of_list (dkeys mapping)) (pat_nodes p2) = true).
  { apply ssub_spec. intros n Hn. apply mem_of_list in Hn. destruct (GETK n Hn) as (v & Hv). apply pat_nodes_spec. apply (HM n v); auto. }
  rewrite C1. cbn [negb]. rewrite (proj2 (vals_len mapping) NDV). cbn [negb].
  assert (C3 : is_empty (sinter (of_list (dvals mapping)) (sdiff (pat_nodes p1) (of_list (p_out p1)))) = true).
  { apply is_empty_spec, nset_ext. intros n. rewrite mem_empty, mem_sinter, mem_sdiff. destruct (mem n (of_list (dvals mapping))) eqn:A; auto.
    destruct (mem n (pat_nodes p1)) eqn:B; auto. apply mem_of_list, dvals_In in A. destruct A as (k & A). apply In_dget in A; auto.
    apply pat_nodes_spec in B. destruct (HM k n A) as [_ X]. destruct (X B) as [Y _]. apply mem_of_list in Y. rewrite Y. auto. }
  rewrite C3. cbn [negb].
  assert (C4 : existsb (fun kv => mem (snd kv) (of_list (p_out p1)) && negb (mem (fst kv) (of_list (p_in p2)))) mapping = false).
  { destruct (existsb _ mapping) eqn:A; auto. apply existsb_exists in A. destruct A as ([k v] & A & B). cbn in B. apply andb_true_iff in B. destruct B as [B1 B2].
    apply In_dget in A; auto. apply mem_of_list in B1. destruct (HM k v A) as [_ X]. destruct (X (OUTN v B1)) as [_ Y]. apply mem_of_list in Y. rewrite Y in B2. discriminate. }
  rewrite C4.
  destruct (rmax (elems (pat_nodes p1) ++ dvals mapping)) as [mx|e] eqn:EM.
  2:{ exfalso. destruct (elems (pat_nodes p1) ++ dvals mapping) as [|x l] eqn:EL; [|discriminate EM]. apply app_eq_nil in EL. destruct EL as [L1 L2].
      destruct NE as [(n & Hn)|Hn]; [apply pat_nodes_spec, elems_spec in Hn; rewrite L1 in Hn; destruct Hn|]. apply Hn. destruct mapping; auto. discriminate. }
  cbn [rbind].
  pose proof (node_mapping_spec p2 mapping (S mx) sempty sempty NDK) as HN. destruct (node_mapping p2 mapping (S mx) sempty sempty) as [mc|e].
  2:{ exfalso. apply HN. split; auto. intros k Hk. destruct (GETK k Hk) as (v & Hv). apply (HM k v); auto. }
  destruct HN as (_ & _ & M1 & M2 & M3 & M4 & M5 & _). cbn [rbind].
  assert (M3' : forall n, In n (dkeys mc) <-> node_of p2 n).
  { intros n. rewrite M3. split; [intros [H|[H _]]; auto|intros H; right; split; auto using mem_empty].
    destruct (GETK n H) as (v & Hv). apply (HM n v); auto. }
  assert (RL : forall n, node_of p2 n -> dget mc n = Some (rl mc n)).
  { intros n Hn. apply M3' in Hn. destruct (dget_keys _ _ Hn) as (v & Hv). unfold rl. rewrite Hv. auto. }
  assert (RLI : forall a b, node_of p2 a -> node_of p2 b -> rl mc a = rl mc b -> a = b).
  { intros a b Ha Hb E. apply (M4 a b (rl mc a)); [apply RL; auto|rewrite E; apply RL; auto]. }
  destruct (reindex_spec p2 (rl mc) ND2 HC2 W2 HS RLI) as (q & EQ & Q1 & Q2 & Q3 & Q4 & Q5 & Q6 & Q7 & Q8 & Q9).
  rewrite EQ. cbn [rbind].
  destruct (wf_outs q Q5 Q6 Q7) as [O3 O3L].
  set (merged := sinter (of_list (dvals mapping)) (of_list (p_out p1))).
  assert (FED : forall v, mem v merged = fed p1 mapping v).
  { intros v. unfold merged, fed. rewrite mem_sinter. f_equal; apply eq_true_iff_eq; rewrite mem_of_list, lmem_In; tauto. }
  assert (COLL : forall n v, dget mc n = Some v -> (node_of p1 v <-> fed p1 mapping v = true) /\ (node_of p1 v -> In v (p_out p1) /\ In n (p_in p2))).
  { intros n v Hn.
    assert (X : node_of p1 v -> In n (dkeys mapping) /\ In v (p_out p1) /\ In n (p_in p2)).
    { intros H. destruct (in_dec Nat.eq_dec n (dkeys mapping)) as [K|K].
      - destruct (GETK n K) as (v' & Hv'). rewrite (M2 n v' Hv') in Hn. injection Hn as <-. destruct (HM n v' Hv') as [_ X]. split; auto.
      - exfalso. destruct (M5 n v K Hn) as [L _]. apply pat_nodes_spec, elems_spec in H. pose proof (rmax_spec _ _ EM v (in_or_app _ _ _ (or_introl H))). lia. }
    split; [|intros H; apply X in H; tauto]. unfold fed. rewrite andb_true_iff, !lmem_In. split.
    - intros H. destruct (X H) as (A & B & _). split; auto. destruct (GETK n A) as (v' & Hv'). rewrite (M2 n v' Hv') in Hn. injection Hn as <-. apply dvals_In. exists n. apply dget_In; auto.
    - intros [_ H]; auto. }
  assert (FEDK : forall v, fed p1 mapping v = true -> exists k, dget mapping k = Some v /\ In v (p_out p1) /\ In k (p_in p2)).
  { intros v H. unfold fed in H. apply andb_true_iff in H. destruct H as [A B]. apply lmem_In in A, B. apply dvals_In in A. destruct A as (k & A). apply In_dget in A; auto.
    exists k. split; auto. split; auto. destruct (HM k v A) as [_ X]. apply X; auto. }
  assert (HSH : forall n, In n (p_in p1) \/ prepared_in (p_seq p1) n -> In n (p_in q) \/ prepared_in (p_seq q) n -> live (p_in p1) (p_seq p1) n /\ In n (p_in q)).
  { intros n H1 H2. apply Q8 in H2. destruct H2 as (k & Hk & ->). destruct (COLL k (rl mc k) (RL k Hk)) as [_ X]. destruct (X H1) as [A B].
    split; [apply O1L; auto|]. rewrite Q1. apply in_map; auto. }
  set (Ex := filter (fun n => negb (mem n merged)) (p_in q)).
  assert (HE : forall n, In n Ex <-> In n (p_in q) /\ ~ (In n (p_in p1) \/ prepared_in (p_seq p1) n)).
  { intros n. unfold Ex. rewrite filter_In, FED. split; intros [A B]; split; auto.
    - intros H. rewrite Q1 in A. apply in_map_iff in A. destruct A as (k & <- & A). destruct (COLL k (rl mc k)) as [X _]; [apply RL; left; auto|].
      apply X in H. rewrite H in B. discriminate.
    - destruct (fed p1 mapping n) eqn:F; auto. exfalso. apply B. destruct (FEDK n F) as (k & _ & K & _). apply OUTN in K. auto. }
  assert (RUN : runnable (p_in p1 ++ Ex) (p_seq p1 ++ p_seq q)) by (eapply join_runnable; eauto).
  assert (LIVE : forall n, live (p_in p1 ++ Ex) (p_seq p1 ++ p_seq q) n <-> (In n (p_out p1) /\ fed p1 mapping n = false) \/ In n (p_out q)).
  { intros n. rewrite (join_live_iff (p_in p1) (p_seq p1) (p_in q) (p_seq q) HC1 Q6 HSH Ex HE), O1L, O3L.
    assert (X : live (p_in p1) (p_seq p1) n -> (~ (In n (p_in q) \/ prepared_in (p_seq q) n) <-> fed p1 mapping n = false)).
    { intros L. split.
      - intros H. destruct (fed p1 mapping n) eqn:F; auto. exfalso. apply H. destruct (FEDK n F) as (k & K1 & K2 & K3). left. rewrite Q1. apply in_map_iff. exists k. split; auto.
        unfold rl. rewrite (M2 _ _ K1). auto.
      - intros F H. apply Q8 in H. destruct H as (k & Hk & E). destruct (COLL k n) as [Y _]. { rewrite E. apply RL; auto. }
        destruct L as [L _]. apply Y in L. congruence. }
    split; (intros [[A B]|A]; [left; split; [auto|apply X; auto]|right; auto]). }
  assert (NDI : NoDup (p_in p1 ++ Ex)).
  { apply NoDup_app'; auto; [apply NoDup_filter; auto|]. intros n A B. apply HE in B. tauto. }
  (* the outputs that the code computes are a permutation of these *)
  assert (BASE : NoDup (filter (fun n => negb (fed p1 mapping n)) (p_out p1) ++ p_out q)).
  { apply NoDup_app'; auto; [apply NoDup_filter; auto|]. intros n A B. apply filter_In in A. destruct A as [A1 A2]. rewrite Q3 in B. apply in_map_iff in B. destruct B as (k & <- & B).
    destruct (COLL k (rl mc k)) as [X _]. { apply RL, live_node, O2L; auto. } apply OUTN, X in A1. rewrite A1 in A2. discriminate. }
  assert (FIN : forall outs, Permutation outs (filter (fun n => negb (fed p1 mapping n)) (p_out p1) ++ p_out q) ->
     exists r, pat_make (p_in p1 ++ Ex) (p_seq p1 ++ p_seq q) (Some outs) = Ok r /\ p_in r = p_in p1 ++ Ex /\ p_seq r = p_seq p1 ++ p_seq q /\ p_out r = outs /\ good r).
  { intros outs P. unfold pat_make, reorder_output_nodes. destruct (pat_extend_new (p_in p1 ++ Ex) (p_seq p1 ++ p_seq q)) as (X1 & X2 & X3).
    destruct (outs_of_live _ _ NDI RUN) as [Y1 Y2].
    assert (PO : NoDup outs /\ forall n, In n outs <-> In n (outs_of (p_in p1 ++ Ex) (p_seq p1 ++ p_seq q))).
    { split; [eapply Permutation_NoDup; [symmetry; eauto|auto]|]. intros n. rewrite Y2, LIVE. rewrite (Permutation_in' eq_refl P), in_app_iff, filter_In, negb_true_iff. tauto. }
    rewrite X1, X2, X3, (proj2 (assert_permutation_spec _ _) PO). eexists. split; [reflexivity|]. cbn [p_in p_seq p_out]. split; auto. split; auto. split; auto.
    split; [auto|]. split; [apply check_runnability_spec; auto|]. unfold pat_wf. cbn [p_in p_seq p_out]. apply NoDup_Permutation; auto; apply PO. }
  assert (FEX : forall l, filter (fun n => negb (mem n merged)) l = filter (fun n => negb (fed p1 mapping n)) l).
  { intros l. apply filter_ext. intros n. rewrite FED; auto. }
  (* when are the outputs kept in place *)
  set (keep := preserve && (length (elems merged) =? length (p_in q))%nat && (length (p_in q) =? length (p_out q))%nat).
  assert (KEEP : keep = true <-> preserve = true /\ feeds_all p1 p2 mapping).
  { unfold keep, feeds_all. rewrite !andb_true_iff, !Nat.eqb_eq, Q1, Q3, !map_length.
    assert (PM : Permutation (elems merged) (map (rl mc) (filter (fun k => fed p1 mapping (rl mc k)) (p_in p2)))).
    { apply NoDup_Permutation; [apply elems_NoDup| |].
      - apply NoDup_map_in; [|apply NoDup_filter; auto]. intros a b A B. apply filter_In in A, B. apply RLI; left; tauto.
      - intros v. rewrite elems_spec, FED, in_map_iff. split.
        + intros F. destruct (FEDK v F) as (k & K1 & K2 & K3). exists k. assert (EV : rl mc k = v) by (unfold rl; rewrite (M2 _ _ K1); auto).
          split; auto. apply filter_In. rewrite EV. auto.
        + intros (k & <- & K). apply filter_In in K. tauto. }
    rewrite (Permutation_length PM), map_length, filter_all.
    assert (XX : (forall x, In x (p_in p2) -> fed p1 mapping (rl mc x) = true) <-> (forall k, In k (p_in p2) -> exists v, dget mapping k = Some v /\ In v (p_out p1))).
    { split; intros H k Hk.
      - specialize (H k Hk). destruct (FEDK _ H) as (k' & K1 & K2 & K3). exists (rl mc k). split; auto.
        replace k with k' at 1; auto. apply RLI; try (left; auto). unfold rl at 1. rewrite (M2 _ _ K1). auto.
      - destruct (H k Hk) as (v & V1 & V2). unfold fed, rl. rewrite (M2 _ _ V1). apply andb_true_iff. rewrite !lmem_In. split; auto. apply dvals_In. exists k. apply dget_In; auto. }
    rewrite XX. tauto. }
  assert (OUTS : exists outs, (if keep then rfold (fun acc n => if mem n merged then match dget (dupdate [] (combine (p_in q) (p_out q))) n with Some o => Ok (acc ++ [o]) | None => Err EKey end else Ok (acc ++ [n])) (p_out p1) []
      else Ok (filter (fun n => negb (mem n merged)) (p_out p1) ++ p_out q)) = Ok outs
      /\ Permutation outs (filter (fun n => negb (fed p1 mapping n)) (p_out p1) ++ p_out q)
      /\ (keep = false -> outs = filter (fun n => negb (fed p1 mapping n)) (p_out p1) ++ p_out q)
      /\ (keep = true -> Forall2 (fun v w => if fed p1 mapping v then exists i k o, nth_error (p_in p2) i = Some k /\ dget mc k = Some v /\ nth_error (p_out p2) i = Some o /\ dget mc o = Some w
                              else w = v) (p_out p1) outs)).
  { destruct keep eqn:EK.
    2:{ rewrite FEX. eexists. split; [reflexivity|]. split; auto. split; auto. discriminate. }
    destruct (proj1 KEEP eq_refl) as [_ [FA LEN]].
    assert (LQ : length (p_in q) = length (p_out q)) by (rewrite Q1, Q3, !map_length; auto).
    assert (IO : forall v w, dget (dupdate [] (combine (p_in q) (p_out q))) v = Some w <-> exists i, nth_error (p_in q) i = Some v /\ nth_error (p_out q) i = Some w).
    { intros v w. rewrite dupdate_get.
      - rewrite <- combine_get by auto. cbn [dget]. destruct (dget (combine _ _) v); tauto.
      - unfold dkeys. replace (map fst (combine (p_in q) (p_out q))) with (p_in q); auto. symmetry. clear -LQ. revert LQ. generalize (p_out q). induction (p_in q) as [|x l IH]; intros [|y m] L; cbn in *; auto; try discriminate. f_equal. apply IH. lia. }
    set (h := fun n => if mem n merged then dget (dupdate [] (combine (p_in q) (p_out q))) n else Some n).
    assert (HH : forall n, In n (p_out p1) -> h n <> None).
    { intros n Hn. unfold h. rewrite FED. destruct (fed p1 mapping n) eqn:F; [|discriminate]. destruct (FEDK n F) as (k & K1 & K2 & K3).
      assert (In n (p_in q)). { rewrite Q1. apply in_map_iff. exists k. split; auto. unfold rl. rewrite (M2 _ _ K1). auto. }
      apply In_nth_error in H. destruct H as (i & Hi). destruct (nth_error (p_out q) i) as [w|] eqn:Ew.
      - rewrite (proj2 (IO n w)); [discriminate|eauto].
      - exfalso. apply nth_error_None in Ew. assert (i < length (p_in q)) by (apply nth_error_Some; congruence). lia. }
    destruct (rfold_acc h (p_out p1) HH []) as (outs & R1 & R2). exists outs.
    split. { change ([] ++ outs) with outs in R1. rewrite <- R1. apply rfold_ext. intros acc n _. unfold h. destruct (mem n merged); auto. }
    split; [|split; [discriminate|]].
    - destruct (Forall2_Perm _ _ _ outs (partition_perm (fed p1 mapping) (p_out p1)) R2) as (outs' & P1 & P2). rewrite P1. clear P1.
      apply Forall2_app_inv_l in P2. destruct P2 as (a & b & A & B & ->).
      assert (a = filter (fun n => negb (fed p1 mapping n)) (p_out p1)) as ->.
      { assert (AL : forall n, In n (filter (fun n => negb (fed p1 mapping n)) (p_out p1)) -> h n = Some n).
        { intros n Hn. apply filter_In in Hn. unfold h. rewrite FED. destruct (fed p1 mapping n); [destruct Hn; discriminate|auto]. }
        revert AL A. generalize (filter (fun n => negb (fed p1 mapping n)) (p_out p1)). clear. intros l AL A. induction A as [|n o l a Hn A IH]; auto.
        rewrite (AL n) in Hn by (simpl; auto). injection Hn as <-. f_equal. apply IH. intros; apply AL; simpl; auto. }
      apply Permutation_app_head.
      assert (PF : Permutation (filter (fed p1 mapping) (p_out p1)) (p_in q)).
      { apply NoDup_Permutation; auto; [apply NoDup_filter; auto|]. intros v. rewrite filter_In, Q1, in_map_iff. split.
        - intros [V1 V2]. destruct (FEDK v V2) as (k & K1 & K2 & K3). exists k. split; auto. unfold rl. rewrite (M2 _ _ K1). auto.
        - intros (k & <- & Hk). destruct (FA k Hk) as (v & V1 & V2). unfold rl. rewrite (M2 _ _ V1). split; auto. unfold fed. apply andb_true_iff. rewrite !lmem_In.
          split; auto. apply dvals_In. exists k. apply dget_In; auto. }
      destruct (Forall2_Perm _ _ _ b PF B) as (b' & P1 & P2). rewrite P1.
      assert (b' = p_out q) as ->; [|auto].
      assert (MEM : forall n, In n (p_in q) -> mem n merged = true). { intros n Hn. rewrite FED. apply (Permutation_in n (Permutation_sym PF)) in Hn. apply filter_In in Hn. tauto. }
      apply nth_error_ext'. intros i. destruct (nth_error (p_in q) i) as [n|] eqn:En.
      + assert (Ei : i < length (p_out q)). { rewrite <- LQ. apply nth_error_Some. congruence. }
        assert (Ej : i < length b'). { rewrite <- (Forall2_length _ _ _ P2). apply nth_error_Some. congruence. }
        destruct (nth_error b' i) as [w|] eqn:Ew; [|apply nth_error_None in Ew; lia].
        assert (HW : h n = Some w). { clear - P2 En Ew. clearbody h. revert i En Ew. induction P2; intros [|i] En Ew; cbn in En, Ew; try discriminate; eauto. injection En as <-. injection Ew as <-. auto. }
        unfold h in HW. rewrite MEM in HW by (eapply nth_error_In; eauto). apply IO in HW. destruct HW as (j & J1 & J2).
        replace i with j; auto. apply (proj1 (NoDup_nth_error (p_in q)) Q5); [apply nth_error_Some; congruence|congruence].
      + apply nth_error_None in En. assert (length b' <= i) by (rewrite <- (Forall2_length _ _ _ P2); auto). assert (length (p_out q) <= i) by lia.
        rewrite !(proj2 (nth_error_None _ _)); auto.
    - intros _. refine (Forall2_imp _ _ _ _ _ R2). intros v w Hv. unfold h in Hv. cbv beta in Hv.
      rewrite FED in Hv. destruct (fed p1 mapping v); [|congruence]. apply IO in Hv. destruct Hv as (i & I1 & I2).
      rewrite Q1, nth_error_map in I1. rewrite Q3, nth_error_map in I2. destruct (nth_error (p_in p2) i) as [k|] eqn:Ek; [|discriminate]. destruct (nth_error (p_out p2) i) as [o|] eqn:Eo; [|discriminate].
      cbn in I1, I2. injection I1 as <-. injection I2 as <-. exists i, k, o. split; [auto|]. split; [apply RL; left; eapply nth_error_In; eauto|]. split; [auto|].
      apply RL, live_node, O2L. eapply nth_error_In; eauto. }
  destruct OUTS as (outs & EO & PO & KO1 & KO2). cbv zeta. rewrite EO. cbn [rbind].
  destruct (FIN outs PO) as (r & ER & R1 & R2 & R3 & R4). rewrite ER. cbn [rbind].
  exists r, mc. split; [auto|]. split; [auto|]. split; [auto|]. split; [auto|]. split; [auto|]. split; [auto|]. split; [auto|].
  split. { intros n. unfold node_of at 1. rewrite R1, R2. rewrite (join_node (p_in p1) (p_seq p1) (p_in q) (p_seq q) HC1 Ex HE). change (In n (p_in q) \/ prepared_in (p_seq q) n) with (node_of q n).
    rewrite Q8. split; (intros [H|(k & H)]; [left; auto|right]).
    - destruct H as [H ->]. exists k. apply RL; auto.
    - exists k. assert (K : node_of p2 k) by (apply M3'; eapply dget_is_key; eauto). split; auto. rewrite (RL k K) in H. congruence. }
  split. { rewrite R1. unfold Ex. rewrite FEX, Q1. auto. }
  split. { intros H. rewrite R3, KO1; [rewrite Q3; auto|]. destruct keep eqn:EK; auto. exfalso. destruct (proj1 KEEP eq_refl) as [K1 K2]. destruct H; [congruence|auto]. }
  split. { intros H1 H2. rewrite R3. apply KO2. apply KEEP. auto. }
  split. { destruct (node_bij p2 (rl mc) RLI) as (F & G & HFG & HF). exists F, G. split; auto. intros n Hn. rewrite HF by auto. apply RL; auto. }
  intros F G o psi HFG HF. rewrite R2, Q2, seq_ops_app, den_app.
  rewrite (reindex_ext (rl mc) F p2 HC2 HS). { apply den_reindex; auto. }
  intros n Hn. specialize (HF n Hn). rewrite (RL n Hn) in HF. congruence.
Qed.
Print Assumptions C25_compose.

(** a mapping that does not satisfy the documented conditions is rejected *)
Theorem C25_rejects : forall p1 p2 mapping preserve, good p1 -> NoDup (dkeys mapping) -> ~ mapping_ok p1 p2 mapping ->
  pat_compose p1 p2 mapping preserve = Err EPattern.
Proof.
  intros p1 p2 mapping preserve (ND1 & HC1 & W1) NDK HN. apply check_runnability_spec in HC1.
  destruct (wf_outs p1 ND1 HC1 W1) as [O1 O1L]. unfold pat_compose.
  destruct (ssub _ (pat_nodes p2)) eqn:C1; cbn [negb]; auto.
  destruct (length mapping =? _)%nat eqn:C2; cbn [negb]; auto.
  destruct (is_empty (sinter _ _)) eqn:C3; cbn [negb]; auto.
  destruct (existsb _ mapping) eqn:C4; auto. exfalso. apply HN. split; [apply vals_len; auto|].
  intros k v Hk. split.
  - apply pat_nodes_spec. apply (proj1 (ssub_spec _ _) C1). apply mem_of_list. eapply dget_is_key; eauto.
  - intros H. assert (HO : In v (p_out p1)).
    { apply mem_of_list. pose proof (is_empty_mem _ C3 v) as X. rewrite mem_sinter, mem_sdiff in X. apply pat_nodes_spec in H. rewrite H in X.
      rewrite (proj2 (mem_of_list v (dvals mapping))) in X by (apply dvals_In; exists k; apply dget_In; auto). cbn in X. apply negb_false_iff in X. auto. }
    split; auto. apply mem_of_list. destruct (mem k (of_list (p_in p2))) eqn:K; auto.
    assert (X : existsb (fun kv => mem (snd kv) (of_list (p_out p1)) && negb (mem (fst kv) (of_list (p_in p2)))) mapping = true); [|congruence].
    apply existsb_exists. exists (k, v). split; [apply dget_In; auto|]. cbn [fst snd]. rewrite K. rewrite (proj2 (mem_of_list v (p_out p1)) HO). auto.
Qed.
Print Assumptions C25_rejects.

(** Composing the empty pattern with another one, although the empty mapping
    satisfies every documented condition, raises ValueError (max of an empty
    sequence): pattern composition is not total on valid mappings. *)
Theorem C25_empty_self_refuted : exists p1 p2, good p1 /\ good p2 /\ has_no_S (p_seq p2) /\ mapping_ok p1 p2 [] /\ pat_compose p1 p2 [] false = Err EValue.
Proof.
  exists (pat_new []), (pat_extend (pat_new []) [CN 0 SPlus]). split; [|split; [|split; [|split]]].
  - split; [constructor|]. split; [reflexivity|]. constructor.
  - split; [constructor|]. split; [reflexivity|]. cbn. constructor. constructor.
  - intros n d [H|[]]; discriminate.
  - split; [constructor|]. intros k v H. discriminate.
  - reflexivity.
Qed.
Print Assumptions C25_empty_self_refuted.

(** a case: the pattern of J(a) followed by that of J(b), plugged on the output *)
Definition jpat (a : R) : pattern := pat_extend (pat_new [0]) [CN 1 SPlus; CE 0 1; CM 0 (MBloch a PXY) sempty sempty; CX 1 (sing 0)].
Example C25_case : forall a b, good (jpat a) /\ good (jpat b) /\ has_no_S (p_seq (jpat b)) /\ mapping_ok (jpat a) (jpat b) [(0, 1)]
  /\ (exists n, node_of (jpat a) n)
  /\ pat_compose (jpat a) (jpat b) [(0, 1)] true = Ok (Pat [0] [CN 1 SPlus; CE 0 1; CM 0 (MBloch a PXY) sempty sempty; CX 1 (sing 0);
       CN 2 SPlus; CE 1 2; CM 1 (MBloch b PXY) sempty sempty; CX 2 (sing 1)] [2] 3, [(0, 1); (1, 2)]).
Proof.
  intros a b. assert (G : forall x, good (jpat x)). { intros x. split; [repeat constructor; simpl; tauto|]. split; [reflexivity|]. unfold pat_wf. reflexivity. }
  split; [auto|]. split; [auto|]. split. { intros n d H. cbn in H. intuition discriminate. }
  split. { split; [repeat constructor; simpl; tauto|]. intros k v H. cbn [dget] in H. destruct (Nat.eqb_spec 0 k) as [<-|]; [|discriminate]. injection H as <-.
    split; [left; simpl; auto|]. intros _. simpl; auto. }
  split; [exists 0; left; simpl; auto|]. reflexivity.
Qed.
Example C49_case : forall a, node_mapping (jpat a) [(1, 3)] 2 (of_list [2]) sempty = Ok [(1, 3); (0, 4)]
  /\ reindex (fun n => n + 5) (jpat a) = Ok (Pat [5] [CN 6 SPlus; CE 5 6; CM 5 (MBloch a PXY) sempty sempty; CX 6 (sing 5)] [6] 2).
Proof. intros a. split; reflexivity. Qed.
