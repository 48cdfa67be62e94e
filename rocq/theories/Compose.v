(** Model of graphix/opengraph.py:653-749 OpenGraph.compose. *)
From Coq Require Import Reals Arith List Bool Lia Permutation.
From Verif Require Import Cplx Mat2 NSet Fundamentals CliffordDb Clifford Measure QState Layer Pattern Standardize OpenGraph.
Import ListNotations.

(** relabelling by a dict (nx.relabel_nodes leaves the other labels alone) *)
Definition rl (mc : dict nat) (v : nat) : nat := match dget mc v with Some u => u | None => v end.
Definition dvals {A} (d : dict A) : list A := map snd d.
Definition edge_in (e : nat * nat) (es : list (nat * nat)) : bool := existsb (fun e' => edge_eqb (edge_norm e) (edge_norm e')) es.
(** nx.relabel_nodes(g, mapping) *)
Definition g_relabel (mc : dict nat) (g : graph) : graph :=
  Graph (map (rl mc) (g_nodes g)) (map (fun e => (rl mc (fst e), rl mc (snd e))) (g_edges g)).
(** nx.compose(g, h): union of the nodes and of the edges *)
Definition g_compose (g h : graph) : graph :=
  Graph (g_nodes g ++ filter (fun n => negb (lmem n (g_nodes g))) (g_nodes h))
        (g_edges g ++ filter (fun e => negb (edge_in e (g_edges g))) (g_edges h)).
(** opengraph.py:700-716, one iteration of the loop over the mapping; [close] is
    AbstractMeasurement.isclose *)
Definition compose_step (close : measurement -> measurement -> bool) (og1 og2 : opengraph)
    (st : dict measurement * dict measurement) (vu : nat * nat) : res (dict measurement * dict measurement) :=
  let '(m1, m2) := st in
  let '(v, u) := vu in
  let vm := dget (og_meas og2) v in
  let um := dget (og_meas og1) u in
  if match vm, um with Some a, Some b => negb (close a b) | _, _ => false end then Err EOpenGraph
  else
    let m1 := match um, dget (og_cliff og2) v with Some b, Some vc => dset m1 u (meas_clifford b vc) | _, _ => m1 end in
    let m2 := match vm, dget (og_cliff og1) u with Some a, Some uc => dset m2 v (meas_clifford a uc) | _, _ => m2 end in
    Ok (m1, m2).
(** [max(l)]; ValueError on the empty sequence *)
Definition rmax (l : list nat) : res nat := match l with [] => Err EValue | a :: l => Ok (fold_left Nat.max l a) end.
(** opengraph.py:721-724 the new labels of the nodes that are not in the mapping *)
Definition sequential (nodes2 : list nat) (mapping : dict nat) (shift : nat) : dict nat :=
  let rest := elems (sdiff (of_list nodes2) (of_list (dkeys mapping))) in
  combine rest (seq shift (length rest)).
(** opengraph.py:727-732 merge_ports *)
Definition merge_ports (mc : dict nat) (merged : nset) (p1 p2 : list nat) : list nat :=
  let p2m := map (rl mc) p2 in
  filter (fun n => negb (mem n merged) || lmem n p2m) p1 ++ filter (fun n => negb (mem n merged)) p2m.
Definition compose_cliffs (mc : dict nat) (outs : list nat) (c1 c2 : dict clifford) : dict clifford :=
  fold_left (fun cl (nc : nat * clifford) =>
    let n := rl mc (fst nc) in
    if lmem n outs then dset cl n (clifford_mul (snd nc) (match dget cl n with Some c => c | None => K0 end)) else cl)
    c2 (filter (fun nc => lmem (fst nc) outs) c1).
Definition dupdate {A} (d e : dict A) : dict A := fold_left (fun d p => dset d (fst p) (snd p)) e d.
(** opengraph.py:653-749 compose *)
Definition og_compose (close : measurement -> measurement -> bool) (og1 og2 : opengraph) (mapping : dict nat) : res (opengraph * dict nat) :=
  let V1 := g_nodes (og_graph og1) in
  let V2 := g_nodes (og_graph og2) in
  if negb (ssub (of_list (dkeys mapping)) (of_list V2)) then Err EValue
  else if negb (length mapping =? length (elems (of_list (dvals mapping))))%nat then Err EValue
  else
    do ms <- rfold (compose_step close og1 og2) mapping (og_meas og1, og_meas og2);
    do mx <- rmax (V1 ++ dvals mapping);
    let mc := mapping ++ sequential V2 mapping (S mx) in
    let g := g_compose (og_graph og1) (g_relabel mc (og_graph og2)) in
    let merged := sinter (of_list (dvals mc)) (of_list V1) in
    let ins := merge_ports mc merged (og_in og1) (og_in og2) in
    let outs := merge_ports mc merged (og_out og1) (og_out og2) in
    let meas := dupdate (fst ms) (map (fun p => (rl mc (fst p), snd p)) (snd ms)) in
    let cl := compose_cliffs mc outs (og_cliff og1) (og_cliff og2) in
    do og <- og_make g ins outs meas cl;
    Ok (og, mc).

(** * Auxiliary facts *)
Lemma dupdate_get {A} (e d : dict A) k : NoDup (dkeys e) -> dget (dupdate d e) k = match dget e k with Some v => Some v | None => dget d k end.
Proof.
  revert d. induction e as [|[j v] e IH]; intros d ND; cbn [dupdate fold_left dget fst snd]; auto.
  inversion ND as [|? ? N1 N2]; subst. fold (dupdate (dset d j v) e). rewrite IH by auto. rewrite dget_dset.
  destruct (Nat.eqb_spec j k) as [->|N]; auto. rewrite (proj2 (dget_None e k)) by auto. auto.
Qed.
Lemma dupdate_keys {A} (e d : dict A) k : In k (dkeys (dupdate d e)) <-> In k (dkeys e) \/ In k (dkeys d).
Proof.
  revert d. induction e as [|[j v] e IH]; intros d; [cbn; tauto|].
  change (dupdate d ((j, v) :: e)) with (dupdate (dset d j v) e). rewrite IH, dkeys_dset. change (dkeys ((j, v) :: e)) with (j :: dkeys e). cbn [In]. intuition.
Qed.
Lemma dupdate_NoDup {A} (e d : dict A) : NoDup (dkeys d) -> NoDup (dkeys (dupdate d e)).
Proof.
  revert d. induction e as [|[j v] e IH]; intros d ND; cbn [dupdate fold_left fst snd]; auto. apply IH, dset_NoDup; auto.
Qed.
Lemma dget_app {A} (d e : dict A) k : dget (d ++ e) k = match dget d k with Some v => Some v | None => dget e k end.
Proof. induction d as [|[j v] d IH]; cbn; auto. destruct (j =? k)%nat; auto. Qed.
Lemma dget_map_keys {A} (f : nat -> nat) (d : dict A) k : (forall j, In j (dkeys d) -> f j = f k -> j = k) ->
  dget (map (fun p => (f (fst p), snd p)) d) (f k) = dget d k.
Proof.
  induction d as [|[j v] d IH]; intros H; cbn [map dget fst snd]; auto.
  destruct (Nat.eqb_spec (f j) (f k)) as [E|N].
  - rewrite (H j (or_introl eq_refl) E), Nat.eqb_refl. auto.
  - destruct (Nat.eqb_spec j k) as [->|N']; [congruence|]. apply IH. intros i Hi. apply H. right; auto.
Qed.
Lemma dget_filter {A} (P : nat -> bool) (d : dict A) k : dget (filter (fun nc => P (fst nc)) d) k = if P k then dget d k else None.
Proof.
  induction d as [|[j v] d IH]; cbn [filter dget fst]; [destruct (P k); auto|].
  destruct (P j) eqn:Pj; cbn [dget]; destruct (Nat.eqb_spec j k) as [->|N]; rewrite ?IH; auto.
  - rewrite Pj; auto.
  - rewrite Pj; auto.
Qed.
Lemma dkeys_filter {A} (P : nat * A -> bool) (d : dict A) : NoDup (dkeys d) -> NoDup (dkeys (filter P d)).
Proof.
  induction d as [|[j v] d IH]; intros ND; cbn [filter]; auto. inversion ND as [|? ? N1 N2]; subst.
  destruct (P (j, v)); auto. cbn [dkeys map fst]. constructor; auto. intros K. apply N1. apply in_map_iff in K. destruct K as (x & <- & Hx). apply filter_In in Hx.
  apply in_map. tauto.
Qed.
Lemma rmax_spec l m : rmax l = Ok m -> forall n, In n l -> n <= m.
Proof.
  destruct l as [|a l]; [discriminate|]. cbn [rmax]. intros E. injection E as <-. revert a. induction l as [|b l IH]; intros a n [<-|H]; cbn [fold_left]; auto.
  - destruct H.
  - etransitivity; [|apply IH; left; eauto]. lia.
  - destruct H as [<-|H]; [etransitivity; [|apply IH; left; eauto]; lia|apply IH; right; auto].
Qed.
Lemma edge_in_spec e es : edge_in e es = true <-> In (edge_norm e) (map edge_norm es).
Proof.
  unfold edge_in. rewrite existsb_exists, in_map_iff. split.
  - intros (x & A & B). apply edge_eqb_eq in B. eauto.
  - intros (x & A & B). exists x. split; auto. apply edge_eqb_eq; auto.
Qed.
Lemma edge_norm_inv a b c d : edge_norm (a, b) = edge_norm (c, d) -> (a = c /\ b = d) \/ (a = d /\ b = c).
Proof. unfold edge_norm; cbn. intros E. injection E. lia. Qed.
Lemma edge_norm_sw a b : edge_norm (a, b) = edge_norm (b, a).
Proof. unfold edge_norm; cbn. f_equal; lia. Qed.
Lemma adjacent_norm g a b : adjacent g a b <-> In (edge_norm (a, b)) (map edge_norm (g_edges g)).
Proof.
  unfold adjacent. rewrite in_map_iff. split.
  - intros [H|H]; [exists (a, b)|exists (b, a)]; split; auto using edge_norm_sw.
  - intros ([c d] & E & H). apply edge_norm_inv in E. destruct E as [[-> ->]|[-> ->]]; auto.
Qed.
Lemma dvals_In {A} (d : dict A) v : In v (dvals d) <-> exists k, In (k, v) d.
Proof. unfold dvals. rewrite in_map_iff. split; [intros ([k x] & <- & H); eauto|intros (k & H); exists (k, v); auto]. Qed.

(** inverse lookup *)
Definition dinv (d : dict nat) : dict nat := map (fun p => (snd p, fst p)) d.
Lemma dinv_keys d : dkeys (dinv d) = dvals d.
Proof. unfold dkeys, dinv, dvals. rewrite map_map. apply map_ext. auto. Qed.
Lemma dinv_get d v u : NoDup (dkeys d) -> NoDup (dvals d) -> (dget (dinv d) u = Some v <-> dget d v = Some u).
Proof.
  intros N1 N2. split; intros H.
  - apply dget_In in H. unfold dinv in H. apply in_map_iff in H. destruct H as ([a b] & E & K). injection E as <- <-. apply In_dget; auto.
  - apply dget_In in H. apply In_dget; [rewrite dinv_keys; auto|]. unfold dinv. apply in_map_iff. exists (v, u). auto.
Qed.

(** * The loop over the mapping *)
Section Loop.
Variables (close : measurement -> measurement -> bool) (og1 og2 : opengraph).
(** the measurements of a merged pair agree *)
Definition pair_ok (v u : nat) : Prop := forall a b, dget (og_meas og2) v = Some a -> dget (og_meas og1) u = Some b -> close a b = true.
Definition upd_cl (m : measurement) (c : option clifford) : measurement := match c with Some c => meas_clifford m c | None => m end.

Lemma loop_err l st : (exists v u, In (v, u) l /\ ~ pair_ok v u) -> rfold (compose_step close og1 og2) l st = Err EOpenGraph.
Proof.
  revert st. induction l as [|[v u] l IH]; intros [m1 m2] (v' & u' & H & N); [destruct H|]. cbn [rfold compose_step].
  destruct (dget (og_meas og2) v) as [a|] eqn:Ea, (dget (og_meas og1) u) as [b|] eqn:Eb; cbn [negb].
  1: destruct (close a b) eqn:Ec; cbn [negb]; auto.
  all: apply IH; destruct H as [H|H]; [|eauto]; injection H as <- <-; exfalso; apply N; intros x y X Y; congruence.
Qed.
Lemma loop_ok l m1 m2 : (forall v u, In (v, u) l -> pair_ok v u) -> NoDup (dkeys l) -> NoDup (dvals l) ->
  exists m1' m2', rfold (compose_step close og1 og2) l (m1, m2) = Ok (m1', m2') /\
    (forall u, dget m1' u = match dget (dinv l) u, dget (og_meas og1) u with
       | Some v, Some b => match dget (og_cliff og2) v with Some c => Some (meas_clifford b c) | None => dget m1 u end
       | _, _ => dget m1 u end) /\
    (forall v, dget m2' v = match dget l v, dget (og_meas og2) v with
       | Some u, Some a => match dget (og_cliff og1) u with Some c => Some (meas_clifford a c) | None => dget m2 v end
       | _, _ => dget m2 v end) /\
    (NoDup (dkeys m1) -> NoDup (dkeys m1')) /\ (NoDup (dkeys m2) -> NoDup (dkeys m2')).
Proof.
  revert m1 m2. induction l as [|[v u] l IH]; intros m1 m2 HP N1 N2.
  { exists m1, m2. cbn. repeat split; auto. }
  inversion N1 as [|? ? A1 A2]; subst. inversion N2 as [|? ? B1 B2]; subst. cbn [fst snd] in *.
  cbn [rfold compose_step].
  replace (match dget (og_meas og2) v with Some a => match dget (og_meas og1) u with Some b => negb (close a b) | None => false end | None => false end) with false.
  2:{ pose proof (HP v u (or_introl eq_refl)) as K. unfold pair_ok in K. destruct (dget (og_meas og2) v) as [a|], (dget (og_meas og1) u) as [b|]; auto. rewrite (K a b); auto. }
  match goal with |- exists _ _, rfold _ _ (?x, ?y) = _ /\ _ => destruct (IH x y) as (m1' & m2' & E & G1 & G2 & D1 & D2); auto end.
  { intros; apply HP; right; auto. }
  exists m1', m2'. split; [exact E|]. split; [|split; [|split]].
  - intros n. rewrite G1. cbn [dinv map fst snd dget]. fold (dinv l). destruct (Nat.eqb_spec u n) as [->|Nn].
    + rewrite (proj2 (dget_None (dinv l) n)) by (rewrite dinv_keys; auto).
      destruct (dget (og_meas og1) n) as [b|] eqn:Eb; auto. destruct (dget (og_cliff og2) v); auto. rewrite dget_dset, Nat.eqb_refl. auto.
    + assert (X : dget match dget (og_meas og1) u with Some b => match dget (og_cliff og2) v with Some vc => dset m1 u (meas_clifford b vc) | None => m1 end | None => m1 end n = dget m1 n).
      { destruct (dget (og_meas og1) u); auto. destruct (dget (og_cliff og2) v); auto. rewrite dget_dset. destruct (Nat.eqb_spec u n); [congruence|auto]. }
      rewrite X. reflexivity.
  - intros n. rewrite G2. cbn [dget]. destruct (Nat.eqb_spec v n) as [->|Nn].
    + rewrite (proj2 (dget_None l n)) by auto.
      destruct (dget (og_meas og2) n) as [b|] eqn:Eb; auto. destruct (dget (og_cliff og1) u); auto. rewrite dget_dset, Nat.eqb_refl. auto.
    + assert (X : dget match dget (og_meas og2) v with Some b => match dget (og_cliff og1) u with Some vc => dset m2 v (meas_clifford b vc) | None => m2 end | None => m2 end n = dget m2 n).
      { destruct (dget (og_meas og2) v); auto. destruct (dget (og_cliff og1) u); auto. rewrite dget_dset. destruct (Nat.eqb_spec v n); [congruence|auto]. }
      rewrite X. reflexivity.
  - intros K. apply D1. destruct (dget (og_meas og1) u); auto. destruct (dget (og_cliff og2) v); auto. apply dset_NoDup; auto.
  - intros K. apply D2. destruct (dget (og_meas og2) v); auto. destruct (dget (og_cliff og1) u); auto. apply dset_NoDup; auto.
Qed.
End Loop.

Lemma cliffs_get mc outs c2 c1 n : NoDup (map (rl mc) (dkeys c2)) ->
  dget (compose_cliffs mc outs c1 c2) n =
    (if lmem n outs then match dget (map (fun p => (rl mc (fst p), snd p)) c2) n, dget c1 n with
       | Some b, Some a => Some (clifford_mul b a) | Some b, None => Some (clifford_mul b K0) | None, r => r end else None).
Proof.
  unfold compose_cliffs. intros ND.
  assert (G : forall d, (forall k, In k (dkeys d) -> lmem k outs = true) ->
    dget (fold_left (fun cl nc => let n := rl mc (fst nc) in if lmem n outs then dset cl n (clifford_mul (snd nc) (match dget cl n with Some c => c | None => K0 end)) else cl) c2 d) n
    = if lmem n outs then match dget (map (fun p => (rl mc (fst p), snd p)) c2) n, dget d n with Some b, Some a => Some (clifford_mul b a) | Some b, None => Some (clifford_mul b K0) | None, r => r end else None).
  { revert ND. induction c2 as [|[j c] c2 IH]; intros ND d Hd; cbn [fold_left map dget fst snd].
    - destruct (lmem n outs) eqn:E; auto. destruct (dget d n) eqn:E'; auto. apply dget_is_key, Hd in E'. congruence.
    - cbn [dkeys map fst] in ND. inversion ND as [|? ? N1 N2]; subst. cbv zeta.
      assert (KN : dget (map (fun p => (rl mc (fst p), snd p)) c2) (rl mc j) = None).
      { apply dget_None. unfold dkeys. rewrite map_map. cbn [fst]. intros K. apply N1. unfold dkeys. rewrite map_map. auto. }
      destruct (lmem (rl mc j) outs) eqn:EJ.
      + rewrite (IH N2); [|intros k Hk; apply dkeys_dset in Hk; destruct Hk as [->|Hk]; auto].
        destruct (lmem n outs) eqn:EN; auto. rewrite dget_dset. destruct (Nat.eqb_spec (rl mc j) n) as [<-|NE]; auto.
        rewrite KN. destruct (dget d (rl mc j)); auto.
      + rewrite (IH N2) by auto. destruct (lmem n outs) eqn:EN; auto. destruct (Nat.eqb_spec (rl mc j) n) as [<-|NE]; auto. congruence. }
  rewrite G.
  - destruct (lmem n outs) eqn:E; auto. rewrite (dget_filter (fun k => lmem k outs)), E. auto.
  - intros k Hk. apply in_map_iff in Hk. destruct Hk as (x & <- & Hx). apply filter_In in Hx. tauto.
Qed.
Lemma cliffs_NoDup mc outs c2 c1 : NoDup (dkeys c1) -> NoDup (dkeys (compose_cliffs mc outs c1 c2)).
Proof.
  intros H. unfold compose_cliffs. assert (K : NoDup (dkeys (filter (fun nc => lmem (fst nc) outs) c1))) by (apply dkeys_filter; auto).
  revert K. generalize (filter (fun nc => lmem (fst nc) outs) c1). induction c2 as [|[j c] c2 IH]; intros d K; cbn [fold_left]; auto.
  apply IH. cbv zeta. destruct (lmem _ outs); auto. apply dset_NoDup; auto.
Qed.
