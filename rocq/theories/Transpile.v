(** Model of graphix/transpiler.py: transpilation of circuits to causal flows and
    to patterns. *)
From Coq Require Import Reals Lra Arith ZArith List Bool Lia Permutation Relations FunctionalExtensionality.
From Verif Require Import Cplx Mat2 NSet QState Fundamentals CliffordDb Clifford Measure Layer Pattern Standardize Statevec Density Circuit Swaps
  FlowSem FlowDet OpenGraph FlowSpec Flow FlowWF FlowPat TopGen Corr Space SpaceMin SpaceHeur OGMap.
Import ListNotations.

(** * The model *)
(** Python's [angle % 2] on floats (exact reals here), in units of pi *)
Definition mod2 (a : R) : R := (a - 2 * IZR (Int_part (a / 2)))%R.
(** transpiler.py:972-988 normalize_angle: [angle % 2] on floats, the angle itself
    on ints and expressions.  The model has no types of numbers: [nrm n] stands
    for the call made for node [n] and may do either *)
Definition nrm_ok (nrm : nat -> R -> R) : Prop := forall n a, nrm n a = a \/ nrm n a = mod2 a.
(** graph.add_edge(u, v); nodes are added by the caller.  Edges are kept in the
    normal form of Standardize.edge_norm; networkx lists them in the order given
    by [enum] below *)
Definition edge_add (e : nat * nat) (es : list (nat * nat)) : list (nat * nat) := if existsb (edge_eqb e) es then es else es ++ [e].
Definition node_add (n : nat) (ns : list nat) : list nat := if lmem n ns then ns else ns ++ [n].
(** the local variables of transpile_to_causalflow *)
Record tst := TS { t_idx : list (option nat); t_n : nat; t_ns : list nat; t_es : list (nat * nat);
  t_ms : dict measurement; t_x : dict nset; t_cl : dict axis }.
(** transpiler.py:442-449 *)
Definition t_init (w : nat) : tst := TS (map Some (range w)) w (range w) [] [] [] [].
(** indices[q], with the RuntimeError of lines 454-455, 461-462, 473-474 *)
Definition t_get (idx : list (option nat)) (q : nat) : res nat :=
  match nth_error idx q with None => Err EIndex | Some None => Err ERuntime | Some (Some n) => Ok n end.
(** transpiler.py:450-482 one iteration *)
Definition t_step (nrm : nat -> R -> R) (st : tst) (j : jinstr) : res tst :=
  match j with
  | JM q ax =>
      do t <- t_get (t_idx st) q;
      Ok (TS (lset (t_idx st) q None) (t_n st) (t_ns st) (t_es st) (t_ms st) (t_x st) (dset (t_cl st) t ax))
  | JJ q a =>
      do t <- t_get (t_idx st) q;
      Ok (TS (lset (t_idx st) q (Some (t_n st))) (S (t_n st)) (node_add (t_n st) (node_add t (t_ns st))) (edge_add (edge_norm (t, t_n st)) (t_es st))
             (dset (t_ms st) t (MBloch (nrm t (- a)%R) PXY)) (dset (t_x st) t (sing (t_n st))) (t_cl st))
  | JCZ u v =>
      do i <- t_get (t_idx st) u;
      do k <- t_get (t_idx st) v;
      Ok (TS (t_idx st) (t_n st) (node_add k (node_add i (t_ns st))) (edge_toggle (edge_norm (i, k)) (t_es st)) (t_ms st) (t_x st) (t_cl st))
  end.
(** transpiler.py:483 [[i for i in indices if i is not None]] *)
Definition t_outs (idx : list (option nat)) : list nat := flat_map (fun o => match o with Some n => [n] | None => [] end) idx.
(** the order in which networkx iterates over edges, and their orientation *)
Definition enumerator := list (nat * nat) -> list (nat * nat).
Definition enum_ok (en : enumerator) : Prop := forall es, Permutation (map edge_norm (en es)) (map edge_norm es).
(** transpiler.py:491-495 *)
Definition t_zcorr (og : opengraph) (x : dict nset) : res (dict nset) :=
  rfold (fun z p => do nb <- og_neighbors og (snd p); Ok (dset_ne z (fst p) (sremove (fst p) nb))) x [].
(** transpiler.py:430-496 transpile_to_causalflow: the flow and the classical outputs *)
Definition transpile_to_causalflow (it : iter) (en : enumerator) (nrm : nat -> R -> R) (c : circuit) : res (pflow * dict axis) :=
  do st <- rfold (t_step nrm) (instructions_to_jcz (c_instr c)) (t_init (c_width c));
  do og <- og_make (Graph (t_ns st) (en (t_es st))) (range (c_width c)) (t_outs (t_idx st) ++ dkeys (t_cl st)) (t_ms st) [];
  do z <- t_zcorr og (t_x st);
  do ls <- corr_layers it og (t_x st) z;
  Ok (PF og (t_x st) ls, t_cl st).
(** transpiler.py:455 command.M(target, PauliMeasurement(axis)) *)
Definition cl_cmds (cl : dict axis) : list cmd := map (fun p => CM (fst p) (MPauli (snd p) Plus) sempty sempty) cl.
(** transpiler.py:75-80 TranspiledFlow.to_pattern.  [nb st] is the order in which
    the neighbours are visited in the graph of the standardized pattern *)
Definition tflow_to_pattern (it : iter) (nb : stdp -> nat -> list nat) (f : pflow) (cl : dict axis) : res (pattern * list nat) :=
  do xz <- cf_to_xz f;
  do p <- xz_to_pattern it xz None;
  do st <- from_pattern p;
  do q <- space_opt st (nb st);
  Ok (pat_extend q (cl_cmds cl), dkeys cl).
(** transpiler.py:514-515 transpile(transpile_swaps=False) *)
Definition transpile_noswap it en nb nrm (c : circuit) : res (pattern * list nat) :=
  do r <- transpile_to_causalflow it en nrm c;
  tflow_to_pattern it nb (fst r) (snd r).
(** transpiler.py:498-518 transpile(transpile_swaps=True) *)
Definition transpile it en nb nrm (c : circuit) : res (pattern * list nat) :=
  do s <- transpile_swaps c;
  do r <- transpile_noswap it en nb nrm (fst s);
  do ns <- swap_output_nodes (snd s) (p_out (fst r));
  do p <- reorder_output_nodes (fst r) ns;
  do cl <- swap_classical_outputs (snd s) (snd r);
  Ok (p, cl).

(** * Invariant *)
Definition at_ (idx : list (option nat)) (q n : nat) : Prop := nth_error idx q = Some (Some n).
(** well-formed sequences of J, CZ and M on active qubits *)
Fixpoint jwf (act : nset) (l : list jinstr) : Prop :=
  match l with
  | [] => True
  | JJ q _ :: l' => mem q act = true /\ jwf act l'
  | JCZ u v :: l' => mem u act = true /\ mem v act = true /\ u <> v /\ jwf act l'
  | JM q _ :: l' => mem q act = true /\ jwf (sremove q act) l'
  end.
Record tinv (w : nat) (act : nset) (st : tst) : Prop := {
  ti_w : w <= t_n st;
  ti_len : length (t_idx st) = w;
  ti_act : forall q, mem q act = true <-> exists n, at_ (t_idx st) q n;
  ti_inj : forall q q' n, at_ (t_idx st) q n -> at_ (t_idx st) q' n -> q = q';
  ti_ns : t_ns st = range (t_n st);
  ti_live : forall q n, at_ (t_idx st) q n -> n < t_n st /\ ~ In n (dkeys (t_ms st)) /\ ~ In n (dkeys (t_cl st));
  ti_cov : forall n, n < t_n st -> (exists q, at_ (t_idx st) q n) \/ In n (dkeys (t_ms st)) \/ In n (dkeys (t_cl st));
  ti_msn : forall n, In n (dkeys (t_ms st)) -> n < t_n st /\ ~ In n (dkeys (t_cl st));
  ti_cln : forall n, In n (dkeys (t_cl st)) -> n < t_n st;
  ti_msN : NoDup (dkeys (t_ms st));
  ti_clN : NoDup (dkeys (t_cl st));
  ti_x : dkeys (t_x st) = dkeys (t_ms st);
  ti_es : NoDup (t_es st) /\ forall e, In e (t_es st) -> edge_norm e = e /\ fst e < snd e < t_n st;
  ti_xy : forall n m, dget (t_ms st) n = Some m -> exists a, m = MBloch a PXY;
  ti_flow : forall t s, dget (t_x st) t = Some s -> exists j, s = sing j /\ w <= j < t_n st /\ In (edge_norm (t, j)) (t_es st) /\
    pos (dkeys (t_ms st)) t < pos (dkeys (t_ms st)) j /\
    forall k, In (edge_norm (k, j)) (t_es st) -> k <> t -> pos (dkeys (t_ms st)) t < pos (dkeys (t_ms st)) k }.

Lemma lset_len {A} (l : list A) n x : length (lset l n x) = length l.
Proof. revert n. induction l as [|y l IH]; intros [|n]; cbn; auto. Qed.
Lemma lset_same {A} (l : list A) n x : n < length l -> nth_error (lset l n x) n = Some x.
Proof. revert n. induction l as [|y l IH]; intros [|n]; cbn; intros H; try lia; auto. apply IH. lia. Qed.
Lemma lset_other {A} (l : list A) n m x : m <> n -> nth_error (lset l n x) m = nth_error l m.
Proof. revert n m. induction l as [|y l IH]; intros [|n] [|m] H; cbn; auto; try congruence. Qed.
Lemma at_len idx q n : at_ idx q n -> q < length idx.
Proof. unfold at_. intros H. apply nth_error_Some. congruence. Qed.
Lemma at_get idx q n : at_ idx q n <-> t_get idx q = Ok n.
Proof. unfold at_, t_get. destruct (nth_error idx q) as [[k|]|]; split; intros H; congruence. Qed.
Lemma at_lset_None idx q q' n : at_ (lset idx q None) q' n <-> q' <> q /\ at_ idx q' n.
Proof.
  unfold at_. destruct (Nat.eq_dec q' q) as [->|N].
  - split; [|tauto]. intros H. exfalso. assert (L : q < length idx) by (rewrite <- (lset_len idx q None); apply nth_error_Some; congruence).
    rewrite lset_same in H by auto. discriminate.
  - rewrite lset_other by auto. tauto.
Qed.
Lemma at_lset_Some idx q m q' n : q < length idx -> at_ (lset idx q (Some m)) q' n <-> (q' = q /\ n = m) \/ (q' <> q /\ at_ idx q' n).
Proof.
  intros L. unfold at_. destruct (Nat.eq_dec q' q) as [->|N].
  - rewrite lset_same by auto. split; [intros [= <-]; auto|]. intros [[_ ->]|[H _]]; congruence.
  - rewrite lset_other by auto. tauto.
Qed.
Lemma dset_new {A} (d : dict A) k v : ~ In k (dkeys d) -> dset d k v = d ++ [(k, v)].
Proof.
  induction d as [|[k' v'] d IH]; cbn; intros H; auto. destruct (Nat.eqb_spec k' k) as [E|E]; [exfalso; auto|]. rewrite IH; auto.
Qed.
Lemma dkeys_app {A} (a b : dict A) : dkeys (a ++ b) = dkeys a ++ dkeys b.
Proof. apply map_app. Qed.
Lemma node_add_in n ns : In n ns -> node_add n ns = ns.
Proof. intros H. unfold node_add. rewrite (proj2 (lmem_In n ns)); auto. Qed.
Lemma range_In n k : In k (range n) <-> k < n.
Proof. unfold range. rewrite in_seq. lia. Qed.
Lemma existsb_edge e es : existsb (edge_eqb e) es = true <-> In e es.
Proof. rewrite existsb_exists. split; [intros (x & H & E); apply edge_eqb_eq in E; subst; auto|intros H; exists e; split; auto; apply edge_eqb_eq; auto]. Qed.
Lemma edge_toggle_iff e es x : In x (edge_toggle e es) <-> (x = e /\ ~ In e es) \/ (x <> e /\ In x es).
Proof.
  unfold edge_toggle. destruct (existsb (edge_eqb e) es) eqn:E.
  - apply existsb_edge in E. rewrite filter_In, negb_true_iff. split.
    + intros [H K]. right. split; auto. intros ->. assert (X : edge_eqb e e = true) by (apply edge_eqb_eq; auto). congruence.
    + intros [[_ K]|[K H]]; [tauto|]. split; auto. apply not_true_iff_false. intros X. apply edge_eqb_eq in X. congruence.
  - assert (N : ~ In e es) by (intros K; apply existsb_edge in K; congruence). rewrite in_app_iff. cbn. split.
    + intros [H|[H|[]]]; [right; split; auto; intros ->; auto|left; auto].
    + intros [[H _]|[_ H]]; auto.
Qed.
Lemma edge_add_new e es : ~ In e es -> edge_add e es = es ++ [e].
Proof. intros N. unfold edge_add. destruct (existsb (edge_eqb e) es) eqn:E; auto. apply existsb_edge in E. tauto. Qed.
Lemma enorm_lt u v : u <> v -> let e := edge_norm (u, v) in fst e < snd e.
Proof. unfold edge_norm. cbn. lia. Qed.
Lemma enorm_eq u v u' v' : edge_norm (u, v) = edge_norm (u', v') -> (u = u' /\ v = v') \/ (u = v' /\ v = u').
Proof. unfold edge_norm. cbn. intros [= A B]. lia. Qed.
Lemma enorm_bound u v n : u < n -> v < n -> snd (edge_norm (u, v)) < n.
Proof. unfold edge_norm. cbn. lia. Qed.
Lemma enorm_snd_lt u v n : snd (edge_norm (u, v)) < n -> u < n /\ v < n.
Proof. unfold edge_norm. cbn. lia. Qed.

Lemma t_init_inv w : tinv w (of_list (range w)) (t_init w).
Proof.
  assert (A : forall q n, at_ (map Some (range w)) q n <-> q = n /\ n < w).
  { intros q n. unfold at_, range. rewrite nth_error_map. destruct (nth_error (seq 0 w) q) as [k|] eqn:E.
    - assert (L : q < w) by (rewrite <- (seq_length w 0); apply nth_error_Some; congruence).
      assert (k = q). { apply (nth_error_nth _ _ 0) in E. rewrite seq_nth in E by auto. lia. } subst k. cbn. split; [intros [= <-]; auto|intros [-> _]; auto].
    - apply nth_error_None in E. rewrite seq_length in E. cbn. split; [discriminate|lia]. }
  constructor; cbn [t_init t_idx t_n t_ns t_es t_ms t_x t_cl dkeys map]; auto.
  - rewrite map_length. unfold range. apply seq_length.
  - intros q. rewrite mem_of_list, range_In. split; [intros H; exists q; apply A; auto|intros (n & H); apply A in H; lia].
  - intros q q' n H K. apply A in H, K. lia.
  - intros q n H. apply A in H. split; [lia|]. split; intros [].
  - intros n H. left. exists n. apply A. auto.
  - intros n [].
  - intros n [].
  - constructor.
  - constructor.
  - split; [constructor|]. intros e [].
  - intros n m H. discriminate.
  - intros t s H. discriminate.
Qed.

Lemma pos_snoc_le l t k : pos l k <= pos (l ++ [t]) k.
Proof. induction l as [|a l IH]; cbn; [lia|]. destruct (a =? k); lia. Qed.
Lemma pos_mono l t u k : In u l -> pos l u < pos l k -> pos (l ++ [t]) u < pos (l ++ [t]) k.
Proof. intros H L. rewrite pos_app_l by auto. pose proof (pos_snoc_le l t k). lia. Qed.
Lemma pos_new l t k : ~ In t l -> ~ In k l -> k <> t -> pos (l ++ [t]) t < pos (l ++ [t]) k.
Proof.
  induction l as [|a l IH]; cbn; intros A B N.
  - rewrite Nat.eqb_refl. destruct (Nat.eqb_spec t k); [congruence|lia].
  - destruct (Nat.eqb_spec a t); [exfalso; auto|]. destruct (Nat.eqb_spec a k); [exfalso; auto|]. apply -> Nat.succ_lt_mono. apply IH; auto.
Qed.

Lemma t_step_inv nrm w act st j : tinv w act st -> jwf act [j] ->
  exists st', t_step nrm st j = Ok st' /\ tinv w (match j with JM q _ => sremove q act | _ => act end) st'.
Proof.
  intros I H. destruct j as [q a|u v|q ax]; cbn [jwf] in H; cbn [t_step].
  - destruct H as [H _]. apply (ti_act _ _ _ I) in H. destruct H as (t & Ht). rewrite (proj1 (at_get _ _ _) Ht). cbn [rbind].
    eexists. split; [reflexivity|]. destruct (ti_live _ _ _ I _ _ Ht) as (L1 & L2 & L3).
    assert (Lq : q < length (t_idx st)) by (eapply at_len; eauto).
    assert (NE : ~ In (edge_norm (t, t_n st)) (t_es st)). { intros K. apply (ti_es _ _ _ I) in K. destruct K as (_ & _ & K). apply enorm_snd_lt in K. lia. }
    rewrite edge_add_new by auto. assert (LX : ~ In t (dkeys (t_x st))) by (rewrite (ti_x _ _ _ I); auto).
    rewrite !dset_new by auto. rewrite (node_add_in t) by (rewrite (ti_ns _ _ _ I); apply range_In; auto).
    constructor; cbn [t_idx t_n t_ns t_es t_ms t_x t_cl]; rewrite ?dkeys_app; cbn [dkeys map fst].
    + pose proof (ti_w _ _ _ I). lia.
    + rewrite lset_len. apply I.
    + intros q'. rewrite (ti_act _ _ _ I). split.
      * intros (n & K). destruct (Nat.eq_dec q' q) as [->|N]; [exists (t_n st); apply at_lset_Some; auto|exists n; apply at_lset_Some; auto].
      * intros (n & K). apply at_lset_Some in K; auto. destruct K as [[-> _]|[_ K]]; eauto.
    + intros q1 q2 n K1 K2. apply at_lset_Some in K1, K2; auto. destruct K1 as [[-> ->]|[N1 K1]], K2 as [[-> K2']|[N2 K2]]; auto.
      * destruct (ti_live _ _ _ I _ _ K2). lia.
      * subst n. destruct (ti_live _ _ _ I _ _ K1). lia.
      * eapply ti_inj; eauto.
    + rewrite (ti_ns _ _ _ I). unfold node_add. destruct (lmem (t_n st) (range (t_n st))) eqn:E; [apply lmem_In, range_In in E; lia|]. symmetry. apply range_S.
    + intros q' n K. apply at_lset_Some in K; auto. rewrite in_app_iff. cbn. destruct K as [[-> ->]|[N K]].
      * split; [lia|]. split.
        { intros [K|[K|[]]]; [|lia]. apply (ti_msn _ _ _ I) in K. lia. }
        { intros K. apply (ti_cln _ _ _ I) in K. lia. }
      * destruct (ti_live _ _ _ I _ _ K) as (A & B & D). split; [lia|]. split; auto. intros [K'|[K'|[]]]; auto. subst n. elim N. eapply ti_inj; eauto.
    + intros n K. rewrite in_app_iff. cbn. destruct (Nat.eq_dec n (t_n st)) as [->|N1]; [left; exists q; apply at_lset_Some; auto|].
      destruct (ti_cov _ _ _ I n ltac:(lia)) as [(q' & K')|[K'|K']]; auto.
      destruct (Nat.eq_dec q' q) as [->|N2]; [|left; exists q'; apply at_lset_Some; auto].
      right; left; right; left. unfold at_ in *. congruence.
    + intros n K. apply in_app_or in K. cbn in K. destruct K as [K|[<-|[]]]; [apply (ti_msn _ _ _ I) in K; split; [lia|tauto]|split; [lia|auto]].
    + intros n K. apply (ti_cln _ _ _ I) in K. lia.
    + apply NoDup_app; [apply I|repeat constructor; auto|]. intros x K [<-|[]]; auto.
    + apply I.
    + rewrite (ti_x _ _ _ I). auto.
    + destruct (ti_es _ _ _ I) as [A B]. split.
      * apply NoDup_app; [auto|repeat constructor; auto|]. intros x K [<-|[]]; auto.
      * intros e K. apply in_app_or in K. cbn in K. destruct K as [K|[<-|[]]].
        { destruct (B e K) as [B1 B2]. split; auto. lia. }
        { split; [apply edge_norm_idem|]. split; [apply enorm_lt; lia|apply enorm_bound; lia]. }
    + intros n m K. assert (ND : NoDup (dkeys (t_ms st ++ [(t, MBloch (nrm t (- a)%R) PXY)]))).
      { rewrite dkeys_app. apply NoDup_app; [apply I|repeat constructor; auto|]. intros x K' [<-|[]]; auto. }
      apply dget_In, in_app_or in K. destruct K as [K|[[= <- <-]|[]]]; [|eauto]. eapply (ti_xy _ _ _ I). apply In_dget; [apply I|eauto].
    + intros t' s K.
      assert (K2 : dget (dset (t_x st) t (sing (t_n st))) t' = Some s) by (rewrite dset_new; auto). rewrite dget_dset in K2.
      destruct (Nat.eqb_spec t t') as [E|E].
      * subst t'. injection K2 as <-. exists (t_n st). split; auto. pose proof (ti_w _ _ _ I). split; [lia|]. split; [apply in_or_app; right; left; auto|].
        assert (NN : ~ In (t_n st) (dkeys (t_ms st))) by (intros K'; apply (ti_msn _ _ _ I) in K'; lia).
        split; [apply pos_new; auto; lia|]. intros k K1 N. apply in_app_or in K1. cbn in K1. destruct K1 as [K1|[K1|[]]].
        { apply (ti_es _ _ _ I) in K1. destruct K1 as (_ & _ & K1). apply enorm_snd_lt in K1. lia. }
        { apply enorm_eq in K1. lia. }
      * destruct (ti_flow _ _ _ I _ _ K2) as (j & -> & J1 & J2 & J3 & J4). exists j. split; auto. split; [lia|]. split; [apply in_or_app; auto|].
        assert (It : In t' (dkeys (t_ms st))) by (rewrite <- (ti_x _ _ _ I); eapply dget_is_key; eauto).
        split; [apply pos_mono; auto|]. intros k K1 N. apply in_app_or in K1. cbn in K1. destruct K1 as [K1|[K1|[]]]; [apply pos_mono; auto|].
        apply enorm_eq in K1. destruct K1 as [[<- K1]|[K1 <-]]; [lia|]. subst j.
        apply pos_mono; auto. pose proof (pos_lt _ _ It). rewrite (pos_notin _ (t_n st)); auto. intros K'; apply (ti_msn _ _ _ I) in K'; lia.
  - destruct H as (Hu & Hv & Nuv & _). apply (ti_act _ _ _ I) in Hu, Hv. destruct Hu as (i & Hi), Hv as (k & Hk).
    rewrite (proj1 (at_get _ _ _) Hi), (proj1 (at_get _ _ _) Hk). cbn [rbind]. eexists. split; [reflexivity|].
    assert (Nik : i <> k) by (intros ->; apply Nuv; eapply ti_inj; eauto).
    destruct (ti_live _ _ _ I _ _ Hi) as (I1 & I2 & I3). destruct (ti_live _ _ _ I _ _ Hk) as (K1 & K2 & K3).
    rewrite (node_add_in i), (node_add_in k) by (rewrite (ti_ns _ _ _ I); apply range_In; auto).
    constructor; cbn [t_idx t_n t_ns t_es t_ms t_x t_cl]; try apply I.
    + destruct (ti_es _ _ _ I) as [A B]. split; [apply edge_toggle_NoDup; auto|]. intros e He. apply edge_toggle_iff in He. destruct He as [[-> _]|[_ He]]; auto.
      split; [apply edge_norm_idem|]. split; [apply enorm_lt; auto|apply enorm_bound; auto].
    + intros t s K. destruct (ti_flow _ _ _ I _ _ K) as (j & -> & J1 & J2 & J3 & J4). exists j. split; auto. split; auto.
      assert (It : In t (dkeys (t_ms st))) by (rewrite <- (ti_x _ _ _ I); eapply dget_is_key; eauto).
      split; [|split; auto].
      * apply edge_toggle_iff. right. split; auto. intros E. apply enorm_eq in E. destruct E as [[-> _]|[-> _]]; auto.
      * intros m Hm N. apply edge_toggle_iff in Hm. destruct Hm as [[E _]|[_ Hm]]; auto. pose proof (pos_lt _ _ It).
        apply enorm_eq in E. destruct E as [[-> _]|[-> _]]; [rewrite (pos_notin _ i)|rewrite (pos_notin _ k)]; auto.
  - destruct H as [H _]. apply (ti_act _ _ _ I) in H. destruct H as (t & Ht). rewrite (proj1 (at_get _ _ _) Ht). cbn [rbind].
    eexists. split; [reflexivity|]. destruct (ti_live _ _ _ I _ _ Ht) as (L1 & L2 & L3). rewrite dset_new by auto.
    constructor; cbn [t_idx t_n t_ns t_es t_ms t_x t_cl]; rewrite ?dkeys_app; cbn [dkeys map fst]; try apply I.
    + rewrite lset_len. apply I.
    + intros q'. rewrite mem_sremove, andb_true_iff, negb_true_iff, Nat.eqb_neq, (ti_act _ _ _ I). split.
      * intros [(n & K) N]. exists n. apply at_lset_None; auto.
      * intros (n & K). apply at_lset_None in K. destruct K. split; eauto.
    + intros q1 q2 n K1 K2. apply at_lset_None in K1, K2. eapply ti_inj; [exact I|apply K1|apply K2].
    + intros q' n K. apply at_lset_None in K. destruct K as [N K]. destruct (ti_live _ _ _ I _ _ K) as (A & B & D). split; auto. split; auto.
      rewrite in_app_iff. cbn. intros [K'|[K'|[]]]; auto. subst n. elim N. eapply ti_inj; eauto.
    + intros n K. rewrite in_app_iff. cbn. destruct (ti_cov _ _ _ I n K) as [(q' & K')|[K'|K']]; auto.
      destruct (Nat.eq_dec q' q) as [->|N2]; [right; right; right; left; unfold at_ in *; congruence|left; exists q'; apply at_lset_None; auto].
    + intros n K. rewrite in_app_iff. cbn. pose proof (ti_msn _ _ _ I n K) as [A B]. split; auto. intros [K'|[K'|[]]]; auto. subst n; auto.
    + intros n K. apply in_app_or in K. cbn in K. destruct K as [K|[<-|[]]]; auto. apply (ti_cln _ _ _ I); auto.
    + apply NoDup_app; [apply I|repeat constructor; auto|]. intros x K [<-|[]]; auto.
Qed.

(** * Meaning *)
Local Open Scope C_scope.
Definition z_ops (w : nat) (st : tst) : list op :=
  map (fun n => OPrep plus_state n) (seq w (t_n st - w)) ++ cz_ops (t_es st) ++ map (fun p => OMeas (mvec (snd p) false) (fst p)) (t_ms st).
Definition cl_ops (o : nat -> bool) (cl : dict axis) : list op := map (fun p => OMeas (mvec (MPauli (snd p) Plus) (o (fst p))) (fst p)) cl.
(** [g] gives to qubits the bits that [f] gives to the corresponding nodes *)
Definition agree (idx : list (option nat)) (f g : asg) : Prop := forall q n, at_ idx q n -> g q = f n.
Definition outcomes (o : nat -> bool) (cl : list nat) : nat -> bool := fun k => o (nth k cl 0%nat).
Definition tsem (o : nat -> bool) (w : nat) (st : tst) (done : list jinstr) : Prop :=
  jnmeas done = length (t_cl st) /\ exists c, phase c /\ forall psi, on_register w psi -> forall f g, agree (t_idx st) f g ->
  den (z_ops w st ++ cl_ops o (t_cl st)) psi f
  = c * RtoC ((/ sqrt 2) ^ length (t_ms st)) * csem (outcomes o (dkeys (t_cl st))) 0 (map of_j done) psi g.

Lemma csem_ext o o' l : forall j psi, (forall k, (j <= k < j + nmeas l)%nat -> o k = o' k) -> csem o j l psi = csem o' j l psi.
Proof.
  induction l as [|i l IH]; intros j psi H; auto. destruct i; cbn [csem]; try (apply IH; intros k Hk; apply H; unfold nmeas in *; cbn; auto).
  rewrite H by (unfold nmeas; cbn; lia). apply IH. intros k Hk. apply H. unfold nmeas in *; cbn. lia.
Qed.
Lemma jnmeas_app a b : jnmeas (a ++ b) = (jnmeas a + jnmeas b)%nat.
Proof. unfold jnmeas, nmeas. rewrite map_app, filter_app, app_length. auto. Qed.
Lemma plus_at b : vget plus_state b = RtoC (/ sqrt 2).
Proof. unfold plus_state, planar_state. rewrite cis_0. destruct b; cbn [vget v0 v1]; ring. Qed.
Lemma cis_mod2 a : cis (mod2 a) = cis a.
Proof.
  unfold mod2. replace (a - 2 * IZR (Int_part (a / 2)))%R with (a + IZR (- Int_part (a / 2)) * 2)%R by (rewrite opp_IZR; ring).
  rewrite cis_add. replace (cis (IZR (- Int_part (a / 2)) * 2)) with C1; [ring|].
  unfold cis. symmetry. apply C_eq; cbn.
  - replace (IZR (- Int_part (a / 2)) * 2 * PI)%R with (0 + 2 * IZR (- Int_part (a / 2)) * PI)%R by ring.
    destruct (- Int_part (a / 2))%Z as [|k|k].
    + rewrite Rmult_0_r, Rmult_0_l, Rplus_0_r. apply cos_0.
    + rewrite <- (positive_nat_Z k), <- INR_IZR_INZ, cos_period. apply cos_0.
    + replace (0 + 2 * IZR (Z.neg k) * PI)%R with (- (0 + 2 * IZR (Z.pos k) * PI))%R by (rewrite <- Pos2Z.opp_pos, opp_IZR; ring).
      rewrite cos_neg, <- (positive_nat_Z k), <- INR_IZR_INZ, cos_period. apply cos_0.
  - replace (IZR (- Int_part (a / 2)) * 2 * PI)%R with (0 + 2 * IZR (- Int_part (a / 2)) * PI)%R by ring.
    destruct (- Int_part (a / 2))%Z as [|k|k].
    + rewrite Rmult_0_r, Rmult_0_l, Rplus_0_r. apply sin_0.
    + rewrite <- (positive_nat_Z k), <- INR_IZR_INZ, sin_period. apply sin_0.
    + replace (0 + 2 * IZR (Z.neg k) * PI)%R with (- (0 + 2 * IZR (Z.pos k) * PI))%R by (rewrite <- Pos2Z.opp_pos, opp_IZR; ring).
      rewrite sin_neg, <- (positive_nat_Z k), <- INR_IZR_INZ, sin_period, sin_0. ring.
Qed.
Lemma nrm_cis nrm n a : nrm_ok nrm -> cis (nrm n a) = cis a.
Proof. intros H. destruct (H n a) as [E|E]; rewrite E; auto. apply cis_mod2. Qed.
Lemma mvec_xy nrm n a : nrm_ok nrm -> mvec (MBloch (nrm n (- a)%R) PXY) false = Vec2 q2 (q2 * Cconj (cis a)).
Proof.
  intros H. unfold mvec, to_bloch, planar_state. cbn [b2R]. rewrite Rplus_0_r, nrm_cis by auto. f_equal. rewrite cis_opp. auto.
Qed.
(** one J gate: the qubit moves from node [t] to the fresh node [n] *)
Lemma j_step nrm (a : R) (t n : nat) phi f : nrm_ok nrm -> t <> n ->
  den [OPrep plus_state n; OCz t n; OMeas (mvec (MBloch (nrm t (- a)%R) PXY) false) t] phi f =
  q2 * (mget (op_j a) (f n) false * phi (upd f t false) + mget (op_j a) (f n) true * phi (upd f t true)).
Proof.
  intros H N. cbn [den app_op]. rewrite mvec_xy by auto. cbn [v0 v1]. rewrite !upd_same, !(upd_other f t _ n) by auto. rewrite !plus_at.
  rewrite !Cconj_mul, !Cconj_R, Cconj_inv. unfold op_j. destruct (f n); cbn [andb sgn mget m00 m01 m10 m11]; ring.
Qed.
Lemma enorm_lt_eq u v : (u < v)%nat -> edge_norm (u, v) = (u, v).
Proof. intros. unfold edge_norm. cbn. f_equal; lia. Qed.
Lemma leq_eqd (a b : list op) (psi : state) : a ≈ b -> exists c, phase c /\ forall psi, den a psi = cscale c (den b psi).
Proof. auto. Qed.
Lemma cl_ops_app o a b : cl_ops o (a ++ b) = cl_ops o a ++ cl_ops o b.
Proof. apply map_app. Qed.
Lemma cl_nodes o cl p n : In p (cl_ops o cl) -> In n (onodes p) -> In n (dkeys cl).
Proof. intros H. apply in_map_iff in H. destruct H as ([k ax] & <- & H). cbn. intros [<-|[]]. apply (in_map fst) in H. auto. Qed.
Lemma ms_nodes (ms : dict measurement) p n : In p (map (fun p => OMeas (mvec (snd p) false) (fst p)) ms) -> In n (onodes p) -> In n (dkeys ms).
Proof. intros H. apply in_map_iff in H. destruct H as ([k ax] & <- & H). cbn. intros [<-|[]]. apply (in_map fst) in H. auto. Qed.
Lemma es_nodes w act st p n : tinv w act st -> In p (cz_ops (t_es st)) -> In n (onodes p) -> (n < t_n st)%nat.
Proof.
  intros I H. apply in_map_iff in H. destruct H as ([u v] & <- & H). apply (ti_es _ _ _ I) in H. cbn in *. destruct H as (_ & A & B). intros [<-|[<-|[]]]; lia.
Qed.
Lemma comm_l a b c : disjl a b -> a ++ b ++ c ≈ b ++ a ++ c.
Proof. intros H. rewrite !app_assoc. apply leq_app_r. apply comm_ll; auto. Qed.

Lemma t_step_sem nrm o w act st done j st' : nrm_ok nrm -> tinv w act st -> jwf act [j] -> t_step nrm st j = Ok st' ->
  tsem o w st done -> tsem o w st' (done ++ [j]).
Proof.
  intros HN I H E (Hk & c & Hc & S). destruct j as [q a|u v|q ax]; cbn [jwf] in H; cbn [t_step] in E.
  - destruct H as [H _]. apply (ti_act _ _ _ I) in H. destruct H as (t & Ht). rewrite (proj1 (at_get _ _ _) Ht) in E. cbn [rbind] in E. injection E as <-.
    destruct (ti_live _ _ _ I _ _ Ht) as (L1 & L2 & L3). assert (Lq : (q < length (t_idx st))%nat) by (eapply at_len; eauto).
    assert (NE : ~ In (edge_norm (t, t_n st)) (t_es st)). { intros K. apply (ti_es _ _ _ I) in K. destruct K as (_ & _ & K). apply enorm_snd_lt in K. lia. }
    set (K3 := [OPrep plus_state (t_n st); OCz t (t_n st); OMeas (mvec (MBloch (nrm t (- a)%R) PXY) false) t]).
    unfold tsem. cbn [t_idx t_n t_ns t_es t_ms t_x t_cl]. rewrite jnmeas_app. cbn [jnmeas]. split; [rewrite Hk; cbn; lia|].
    assert (LQ : z_ops w (TS (lset (t_idx st) q (Some (t_n st))) (Datatypes.S (t_n st)) (node_add (t_n st) (node_add t (t_ns st))) (edge_add (edge_norm (t, t_n st)) (t_es st))
        (dset (t_ms st) t (MBloch (nrm t (- a)%R) PXY)) (dset (t_x st) t (sing (t_n st))) (t_cl st)) ++ cl_ops o (t_cl st)
      ≈ (z_ops w st ++ cl_ops o (t_cl st)) ++ K3).
    { unfold z_ops. cbn [t_idx t_n t_ns t_es t_ms t_x t_cl]. rewrite edge_add_new, dset_new by auto. pose proof (ti_w _ _ _ I).
      replace (Datatypes.S (t_n st) - w)%nat with (Datatypes.S (t_n st - w)) by lia. rewrite seq_S. replace (w + (t_n st - w))%nat with (t_n st) by lia.
      unfold cz_ops at 1. rewrite !map_app. fold (cz_ops (t_es st)). rewrite enorm_lt_eq by auto. cbn [map fst snd]. rewrite <- !app_assoc.
      apply leq_app_l. cbn [app].
      set (C := cz_ops (t_es st)). set (M := map (fun p => OMeas (mvec (snd p) false) (fst p)) (t_ms st)). set (L := cl_ops o (t_cl st)).
      set (p1 := OPrep plus_state (t_n st)). set (p2 := OCz t (t_n st)). set (p3 := OMeas (mvec (MBloch (nrm t (- a)%R) PXY) false) t).
      change (p1 :: C ++ p2 :: M ++ p3 :: L) with ([p1] ++ C ++ [p2] ++ M ++ [p3] ++ L).
      transitivity (C ++ [p1; p2] ++ M ++ [p3] ++ L).
      { rewrite (comm_l [p1] C); [reflexivity|]. intros x y [<-|[]] Hy n [<-|[]] Hn. apply (es_nodes _ _ _ _ _ I Hy) in Hn. lia. }
      apply leq_app_l. rewrite comm_l.
      2:{ intros x y Hx Hy n Hn Hm. apply (ms_nodes _ _ _ Hy) in Hm. pose proof (ti_msn _ _ _ I n Hm) as [Z _]. destruct Hx as [<-|[<-|[]]]; cbn in Hn.
          - destruct Hn as [<-|[]]; lia.
          - destruct Hn as [<-|[<-|[]]]; [tauto|lia]. }
      apply leq_app_l. rewrite app_assoc. change ([p1; p2] ++ [p3]) with K3. apply comm_ll.
      intros x y Hx Hy n Hn Hm. apply (cl_nodes _ _ _ _ Hy) in Hm. pose proof (ti_cln _ _ _ I n Hm) as Z.
      destruct Hx as [<-|[<-|[<-|[]]]]; cbn in Hn; intuition (subst; auto; lia). }
    destruct LQ as (c' & Hc' & LQ). exists (c' * c). split; [apply phase_mul; auto|]. intros psi HP f g HA.
    rewrite LQ. unfold cscale. rewrite den_app. unfold K3. rewrite j_step by (auto; lia).
    assert (AG : forall b, agree (t_idx st) (upd f t b) (upd g q b)).
    { intros b q' n Hq. unfold upd. destruct (Nat.eqb_spec q' q) as [->|Nq].
      - unfold at_ in *. replace n with t by congruence. rewrite Nat.eqb_refl. auto.
      - destruct (Nat.eqb_spec n t) as [->|Nn]; [elim Nq; eapply ti_inj; eauto|]. apply HA. apply at_lset_Some; auto. }
    rewrite (S psi HP _ _ (AG false)), (S psi HP _ _ (AG true)).
    rewrite map_app, csem_app. cbn [map of_j csem gate app_op]. assert (Eg : g q = f (t_n st)) by (apply HA, at_lset_Some; auto). rewrite Eg.
    rewrite dset_new by auto. rewrite app_length. cbn [length]. rewrite Nat.add_1_r. cbn [pow]. rewrite RtoC_mul. ring.
  - destruct H as (Hu & Hv & Nuv & _). apply (ti_act _ _ _ I) in Hu, Hv. destruct Hu as (i & Hi), Hv as (k & Hkk).
    rewrite (proj1 (at_get _ _ _) Hi), (proj1 (at_get _ _ _) Hkk) in E. cbn [rbind] in E. injection E as <-.
    destruct (ti_live _ _ _ I _ _ Hi) as (I1 & I2 & I3). destruct (ti_live _ _ _ I _ _ Hkk) as (K1 & K2 & K3).
    unfold tsem. cbn [t_idx t_n t_ns t_es t_ms t_x t_cl]. rewrite jnmeas_app. split; [rewrite Hk; cbn; lia|].
    assert (LQ : z_ops w (TS (t_idx st) (t_n st) (node_add k (node_add i (t_ns st))) (edge_toggle (edge_norm (i, k)) (t_es st)) (t_ms st) (t_x st) (t_cl st)) ++ cl_ops o (t_cl st)
      ≈ (z_ops w st ++ cl_ops o (t_cl st)) ++ [OCz i k]).
    { unfold z_ops. cbn [t_idx t_n t_ns t_es t_ms t_x t_cl]. rewrite <- !app_assoc. apply leq_app_l. rewrite <- (cz_toggle i k) by apply (ti_es _ _ _ I).
      rewrite <- !app_assoc. apply leq_app_l. rewrite !app_assoc. rewrite <- app_assoc. apply comm_ll.
      intros x y [<-|[]] Hy n Hn Hm. apply in_app_or in Hy. destruct Hy as [Hy|Hy]; [apply (ms_nodes _ _ _ Hy) in Hm|apply (cl_nodes _ _ _ _ Hy) in Hm]; cbn in Hn; destruct Hn as [<-|[<-|[]]]; auto. }
    destruct LQ as (c' & Hc' & LQ). exists (c' * c). split; [apply phase_mul; auto|]. intros psi HP f g HA.
    rewrite LQ. unfold cscale. rewrite den_app. cbn [den app_op]. rewrite (S psi HP f g HA). rewrite map_app, csem_app. cbn [map of_j csem gate app_op].
    rewrite (HA u i Hi), (HA v k Hkk). ring.
  - destruct H as [H _]. apply (ti_act _ _ _ I) in H. destruct H as (t & Ht). rewrite (proj1 (at_get _ _ _) Ht) in E. cbn [rbind] in E. injection E as <-.
    destruct (ti_live _ _ _ I _ _ Ht) as (L1 & L2 & L3).
    unfold tsem. cbn [t_idx t_n t_ns t_es t_ms t_x t_cl]. rewrite dset_new by auto. rewrite jnmeas_app, app_length. split; [rewrite Hk; cbn; lia|].
    exists c. split; auto. intros psi HP f g HA. rewrite cl_ops_app, app_assoc, den_app. cbn [cl_ops map den app_op fst snd].
    change (z_ops w _ ++ cl_ops o (t_cl st)) with (z_ops w st ++ cl_ops o (t_cl st)).
    assert (AG : forall b, agree (t_idx st) (upd f t b) (upd g q b)).
    { intros b q' n Hq. unfold upd. destruct (Nat.eqb_spec q' q) as [->|Nq].
      - unfold at_ in *. replace n with t by congruence. rewrite Nat.eqb_refl. auto.
      - destruct (Nat.eqb_spec n t) as [->|Nn]; [elim Nq; eapply ti_inj; eauto|]. apply HA. apply at_lset_None; auto. }
    rewrite (S psi HP _ _ (AG false)), (S psi HP _ _ (AG true)).
    rewrite map_app, csem_app. cbn [map of_j csem cmeas app_op].
    assert (EN : nmeas (map of_j done) = length (dkeys (t_cl st))) by (unfold dkeys; rewrite map_length; exact Hk).
    rewrite (csem_ext (outcomes o (dkeys (t_cl st ++ [(t, ax)]))) (outcomes o (dkeys (t_cl st)))).
    2:{ intros k' Hk'. unfold outcomes. rewrite dkeys_app, app_nth1 by lia. auto. }
    replace (outcomes o (dkeys (t_cl st ++ [(t, ax)])) (0 + nmeas (map of_j done))) with (o t).
    2:{ unfold outcomes. cbn [Nat.add]. rewrite EN, dkeys_app. cbn [dkeys map fst]. rewrite nth_middle. auto. }
    ring.
Qed.
Lemma t_init_sem o w : tsem o w (t_init w) [].
Proof.
  split; [reflexivity|]. exists C1. split; [apply phase_1|]. intros psi HP f g HA. unfold z_ops, t_init. cbn [t_n t_es t_ms t_cl t_idx length pow map csem app cz_ops cl_ops].
  rewrite Nat.sub_diag. cbn [seq map app den]. replace (RtoC 1) with C1 by reflexivity. rewrite (HP f g); [ring|]. intros q Hq. symmetry. apply HA. unfold at_.
  cbn [t_init t_idx]. rewrite nth_error_map. unfold range. rewrite (nth_error_nth' _ 0%nat) by (rewrite seq_length; auto). rewrite seq_nth by auto. auto.
Qed.
Definition jact (act : nset) (js : list jinstr) : nset := fold_left (fun a j => match j with JM q _ => sremove q a | _ => a end) js act.
Lemma jwf_cons act j l : jwf act (j :: l) <-> jwf act [j] /\ jwf (match j with JM q _ => sremove q act | _ => act end) l.
Proof. destruct j; cbn; tauto. Qed.
Lemma t_fold nrm w js : nrm_ok nrm -> forall act st done, tinv w act st -> jwf act js -> (forall o, tsem o w st done) ->
  exists st', rfold (t_step nrm) js st = Ok st' /\ tinv w (jact act js) st' /\ forall o, tsem o w st' (done ++ js).
Proof.
  intros HN. induction js as [|j js IH]; intros act st done I W S.
  - exists st. split; auto. split; auto. rewrite app_nil_r. auto.
  - apply jwf_cons in W. destruct W as [W1 W2]. destruct (t_step_inv nrm w act st j I W1) as (st1 & E1 & I1).
    assert (S1 : forall o, tsem o w st1 (done ++ [j])) by (intros o; apply (t_step_sem nrm o w act st done j st1); auto).
    destruct (IH _ st1 (done ++ [j]) I1 W2 S1) as (st2 & E2 & I2 & S2).
    exists st2. cbn [rfold]. rewrite E1. cbn [rbind]. split; auto. split; auto. intros o. specialize (S2 o). rewrite <- app_assoc in S2. auto.
Qed.
Lemma expand_jwf act i rest : (forall q, In q (iqubits i) -> mem q act = true) -> NoDup (iqubits i) -> not_I i = true ->
  jwf (match i with IM q _ => sremove q act | _ => act end) rest -> jwf act (expand 2 i ++ rest).
Proof.
  intros A ND N W.
  destruct i; cbn [iqubits] in *; try discriminate;
   try (match goal with H : NoDup [?a; ?b; ?c] |- _ => destruct (nd3 _ _ _ H) as (? & ? & ?); pose proof (A a); pose proof (A b); pose proof (A c) end);
   try (match goal with H : NoDup [?a; ?b] |- _ => destruct (nd2 _ _ H) as (? & ?); pose proof (A a); pose proof (A b) end);
   try (match goal with H : NoDup [?a] |- _ => pose proof (A a) end); clear A ND;
   cbn [expand decompose_ccx decompose_rzz decompose_cnot decompose_swap decompose_y decompose_rx decompose_ry decompose_rz jcz app jwf In] in *;
   repeat match goal with |- _ /\ _ => split end; auto 6.
Qed.
Lemma circ_extend_cons c i l c' : circ_extend c (i :: l) = Ok c' -> add_ok (c_active c) i = true /\
  circ_extend (Circ (c_width c) (c_instr c ++ [i]) (match i with IM q _ => sremove q (c_active c) | _ => c_active c end)) l = Ok c'.
Proof.
  unfold circ_extend. cbn [rfold]. unfold circ_add at 1. destruct (add_ok (c_active c) i); cbn [rbind]; [auto|discriminate].
Qed.
Definition plain (i : instr) : Prop := NoDup (iqubits i) /\ forall q, i <> II q.
Lemma plain_notI i : plain i -> not_I i = true.
Proof. intros [_ H]. destruct i; auto. elim (H q). auto. Qed.
Lemma jact_app a l l' : jact a (l ++ l') = jact (jact a l) l'.
Proof. apply fold_left_app. Qed.
Lemma jact_nomeas l : forall a, forallb (fun j => negb (jmeas j)) l = true -> jact a l = a.
Proof. induction l as [|j l IH]; intros a H; auto. cbn [forallb] in H. apply andb_prop in H. destruct H as [H1 H2]. destruct j; try discriminate; cbn; apply IH; auto. Qed.
Lemma circuit_jwf l : Forall plain l -> forall c c', circ_extend c l = Ok c' ->
  jwf (c_active c) (instructions_to_jcz l) /\ jact (c_active c) (instructions_to_jcz l) = c_active c' /\ c_instr c' = c_instr c ++ l /\ c_width c' = c_width c.
Proof.
  induction l as [|i l IH]; intros HF c c' H.
  - cbn in H. injection H as <-. cbn. rewrite app_nil_r. auto.
  - inversion HF as [|? ? P1 P2]; subst. apply circ_extend_cons in H. destruct H as [H1 H2]. destruct (IH P2 _ _ H2) as (A & B & D & F). cbn [c_active c_instr c_width] in A, B, D, F.
    unfold instructions_to_jcz in *. rewrite jcz_cons, (plain_notI i P1). rewrite D, <- app_assoc. split; [|split; auto].
    + apply expand_jwf; auto; [|apply P1|apply plain_notI; auto]. unfold add_ok in H1. apply andb_prop in H1. destruct H1 as [H1 _]. rewrite forallb_forall in H1. auto.
    + rewrite jact_app. destruct (is_meas i) eqn:Em.
      * destruct i; try discriminate. exact B.
      * rewrite (jact_nomeas (expand 2 i)); [destruct i; try discriminate; exact B|].
        destruct i; try discriminate; try reflexivity.
Qed.
(** everything about the loop of transpile_to_causalflow *)
Theorem t_loop nrm w l c : nrm_ok nrm -> circ_make w l = Ok c -> Forall plain l ->
  exists st, rfold (t_step nrm) (instructions_to_jcz (c_instr c)) (t_init (c_width c)) = Ok st /\ tinv w (c_active c) st /\
    (forall o, tsem o w st (instructions_to_jcz l)) /\ c_instr c = l /\ c_width c = w.
Proof.
  intros HN H HF. destruct (circuit_jwf l HF _ _ H) as (A & B & D & F). cbn in A, B, D, F. rewrite D, F.
  destruct (t_fold nrm w (instructions_to_jcz l) HN _ _ [] (t_init_inv w) A (fun o => t_init_sem o w)) as (st & E & I & S).
  exists st. split; auto. split; [rewrite <- B; exact I|]. split; auto.
Qed.
