(** Model of node relabelling and composition of patterns: Pattern.nodes,
    node_mapping, reindex, compose (pattern.py:171-387, 1206-1212) and
    Command.reindex (command.py:83-301). *)
From Coq Require Import Reals Arith List Bool Lia Permutation Sorted FunctionalExtensionality.
From Verif Require Import Cplx Mat2 NSet Measure QState Pattern OpenGraph Compose.
Import ListNotations.

(** * The code *)
(** [set(map(f, d))] *)
Definition rx_set (f : nat -> nat) (d : nset) : nset := of_list (map f (elems d)).
(** command.py:83-84, 180-181, 198-200, 220-221, 241-242, 262-263, 283-284, 300-301 *)
Definition cmd_reindex (f : nat -> nat) (c : cmd) : cmd :=
  match c with
  | CN n st => CN (f n) st
  | CE u v => CE (f u) (f v)
  | CM n m s t => CM (f n) m (rx_set f s) (rx_set f t)
  | CX n d => CX (f n) (rx_set f d)
  | CZ n d => CZ (f n) (rx_set f d)
  | CC n c => CC (f n) c
  | CS n d => CS (f n) (rx_set f d)
  | CT => CT
  end.
(** pattern.py:1206-1212 nodes *)
Definition pat_nodes (p : pattern) : nset :=
  fold_left (fun s c => match c with CN n _ => sadd n s | _ => s end) (p_seq p) (of_list (p_in p)).
(** [k in d] *)
Definition dmem {A} (d : dict A) (k : nat) : bool := match dget d k with Some _ => true | None => false end.
(** pattern.py:239-240 [while candidate in used_indices: candidate += 1];
    beyond the largest element of the set no iteration is needed *)
Fixpoint next_free (fuel c : nat) (used : nset) : nat :=
  match fuel with 0 => c | S fuel => if mem c used then next_free fuel (S c) used else c end.
(** pattern.py:171-242 node_mapping.  The duplicates check is
    [_duplicates_in_mapping(result)] (pattern.py:2109-2132). *)
Definition node_mapping (p : pattern) (mapping : dict nat) (start : nat) (avoids preserves : nset) : res (dict nat) :=
  let nodes := pat_nodes p in
  if existsb (fun k => negb (mem k nodes)) (dkeys mapping) then Err EValue
  else if negb (length mapping =? length (elems (of_list (dvals mapping))))%nat then Err EValue
  else
    let used := sunion (sunion avoids (of_list (dvals mapping))) preserves in
    Ok (fst (fold_left (fun (st : dict nat * nat) n =>
          if dmem (fst st) n || mem n preserves then st
          else let c := next_free (sbound used) (snd st) used in (dset (fst st) n c, S c))
        (elems nodes) (mapping, start))).
(** pattern.py:244-287 reindex with a mapping, copy=True *)
Definition reindex (f : nat -> nat) (p : pattern) : res pattern :=
  reorder_output_nodes (pat_extend (pat_new (map f (p_in p))) (map (cmd_reindex f) (p_seq p))) (map f (p_out p)).
(** pattern.py:289-387 compose (the two warnings are not modelled) *)
Definition pat_compose (p1 p2 : pattern) (mapping : dict nat) (preserve : bool) : res (pattern * dict nat) :=
  let n1 := pat_nodes p1 in
  let n2 := pat_nodes p2 in
  let vals := of_list (dvals mapping) in
  let o1 := of_list (p_out p1) in
  let i2 := of_list (p_in p2) in
  if negb (ssub (of_list (dkeys mapping)) n2) then Err EPattern
  else if negb (length mapping =? length (elems vals))%nat then Err EPattern
  else if negb (is_empty (sinter vals (sdiff n1 o1))) then Err EPattern
  else if existsb (fun kv => mem (snd kv) o1 && negb (mem (fst kv) i2)) mapping then Err EPattern
  else
    do mx <- rmax (elems n1 ++ dvals mapping);
    do mc <- node_mapping p2 mapping (S mx) sempty sempty;
    do q <- reindex (rl mc) p2;
    let merged := sinter vals (of_list (p_out p1)) in
    let inputs := p_in p1 ++ filter (fun n => negb (mem n merged)) (p_in q) in
    let keep := preserve && (length (elems merged) =? length (p_in q))%nat && (length (p_in q) =? length (p_out q))%nat in
    do outputs <- (if keep
      then let io := dupdate [] (combine (p_in q) (p_out q)) in
           rfold (fun acc n => if mem n merged then match dget io n with Some o => Ok (acc ++ [o]) | None => Err EKey end else Ok (acc ++ [n])) (p_out p1) []
      else Ok (filter (fun n => negb (mem n merged)) (p_out p1) ++ p_out q));
    do p <- pat_make inputs (p_seq p1 ++ p_seq q) (Some outputs);
    Ok (p, mc).

(** * Specification *)
(** the nodes of a pattern *)
Definition node_of (p : pattern) (n : nat) : Prop := In n (p_in p) \/ prepared_in (p_seq p) n.
(** renaming the nodes of a state: node [F n] of the new state is node [n] of the old one *)
Definition relab (F : nat -> nat) (psi : state) : state := fun g => psi (fun n => g (F n)).
(** [F] and [G] are mutually inverse renamings *)
Definition inverses (F G : nat -> nat) : Prop := (forall n, G (F n) = n) /\ (forall n, F (G n) = n).
Definition has_no_S (l : list cmd) : Prop := forall n d, ~ In (CS n d) l.

(** * Basic facts *)
Lemma pat_nodes_spec p n : mem n (pat_nodes p) = true <-> node_of p n.
Proof.
  unfold pat_nodes, node_of. assert (H : forall l s, mem n (fold_left (fun s c => match c with CN n _ => sadd n s | _ => s end) l s) = true <-> mem n s = true \/ prepared_in l n).
  { induction l as [|c l IH]; intros s; cbn [fold_left].
    - split; auto. intros [H|(st & [])]; auto.
    - rewrite IH. assert (HP : prepared_in (c :: l) n <-> (exists st, c = CN n st) \/ prepared_in l n).
      { split; [intros (st & [->|H]); [left|right]|intros [(st & ->)|(st & H)]]; try (exists st); simpl; auto; eexists; eauto. }
      rewrite HP. destruct c; try (split; intros [H|H]; auto; destruct H as [(? & ?)|H]; [discriminate|auto]).
      rewrite mem_sadd, orb_true_iff, Nat.eqb_eq. split.
      + intros [[->|H]|H]; auto. right; left; eauto.
      + intros [H|[(st' & E)|H]]; auto. injection E as -> _; auto. }
  rewrite H, mem_of_list. tauto.
Qed.
Lemma mem_rx_set f d n : mem n (rx_set f d) = true <-> exists k, mem k d = true /\ n = f k.
Proof.
  unfold rx_set. rewrite mem_of_list, in_map_iff. split.
  - intros (k & <- & H). exists k. rewrite <- elems_spec; auto.
  - intros (k & H & ->). exists k. rewrite elems_spec; auto.
Qed.
Lemma rx_set_ext f g d : (forall n, mem n d = true -> f n = g n) -> rx_set f d = rx_set g d.
Proof. intros H. unfold rx_set. f_equal. apply map_ext_in. intros n Hn. apply H, elems_spec; auto. Qed.
Lemma parity_rx F o d : (forall a b, F a = F b -> a = b) -> parity o (rx_set F d) = parity (fun n => o (F n)) d.
Proof.
  intros HI. unfold parity.
  assert (P : Permutation (elems (rx_set F d)) (map F (elems d))).
  { apply NoDup_Permutation; [apply elems_NoDup|apply FinFun.Injective_map_NoDup; [exact HI|apply elems_NoDup]|].
    intros n. rewrite elems_spec. unfold rx_set. rewrite mem_of_list. tauto. }
  rewrite (xorsum_perm _ _ _ P). clear P. induction (elems d) as [|a l IH]; simpl; auto. rewrite IH; auto.
Qed.
(** a finite injection extends to a bijection *)
Lemma extend_bij (f : nat -> nat) (l : list nat) : NoDup l -> (forall a b, In a l -> In b l -> f a = f b -> a = b) ->
  exists F G, inverses F G /\ forall n, In n l -> F n = f n.
Proof.
  induction l as [|x l IH]; intros ND HI.
  - exists (fun n => n), (fun n => n). split; [split; auto|intros n []].
  - inversion ND as [|? ? N1 N2]; subst. destruct IH as (F & G & [FG GF] & H); auto. { intros; apply HI; simpl; auto. }
    set (sw := fun n => if (n =? F x)%nat then f x else if (n =? f x)%nat then F x else n).
    assert (SW : forall n, sw (sw n) = n).
    { intros n. unfold sw. destruct (Nat.eqb_spec n (F x)) as [->|A].
      - destruct (Nat.eqb_spec (f x) (F x)) as [->|B]; auto. rewrite Nat.eqb_refl. auto.
      - destruct (Nat.eqb_spec n (f x)) as [->|B].
        + rewrite Nat.eqb_refl. auto.
        + destruct (Nat.eqb_spec n (F x)); [congruence|]. destruct (Nat.eqb_spec n (f x)); [congruence|auto]. }
    exists (fun n => sw (F n)), (fun n => G (sw n)). split; [split|].
    + intros n. rewrite SW. auto.
    + intros n. rewrite GF. auto.
    + intros n [<-|Hn]; unfold sw.
      * rewrite Nat.eqb_refl. auto.
      * rewrite (H n Hn). destruct (Nat.eqb_spec (f n) (F x)) as [A|A].
        -- exfalso. apply N1. rewrite <- (H n Hn) in A. rewrite <- (FG n), A, FG in Hn. auto.
        -- destruct (Nat.eqb_spec (f n) (f x)) as [B|B]; auto. exfalso. apply N1. rewrite <- (HI n x); simpl; auto.
Qed.

(** * Semantics of relabelling *)
Section Sem.
  Variables F G : nat -> nat.
  Hypothesis HFG : inverses F G.
  Lemma F_inj a b : F a = F b -> a = b.
  Proof. intros H. rewrite <- (proj1 HFG a), H. apply HFG. Qed.
  Lemma F_eqb a b : (F a =? F b)%nat = (a =? b)%nat.
  Proof. destruct (Nat.eqb_spec a b) as [->|N]; [apply Nat.eqb_refl|]. apply Nat.eqb_neq. intros H; apply N, F_inj; auto. Qed.
  Definition op_reindex (p : op) : op :=
    match p with OApp1 U n => OApp1 U (F n) | OCz u v => OCz (F u) (F v) | OMeas v n => OMeas v (F n) | OPrep v n => OPrep v (F n) end.
  Lemma relab_upd (g : asg) n b : (fun k => upd g (F n) b (F k)) = upd (fun k => g (F k)) n b.
  Proof. extensionality k. unfold upd. rewrite F_eqb. auto. Qed.
  Lemma app_relab p psi : app_op (op_reindex p) (relab F psi) = relab F (app_op p psi).
  Proof. extensionality g. destruct p; cbn [op_reindex app_op relab]; unfold relab; rewrite ?relab_upd; auto. Qed.
  Lemma den_relab l psi : den (map op_reindex l) (relab F psi) = relab F (den l psi).
  Proof. revert psi; induction l as [|p l IH]; intros psi; cbn [map den]; auto. rewrite app_relab. auto. Qed.
  Lemma cmd_ops_reindex o c : cmd_ops o (cmd_reindex F c) = map op_reindex (cmd_ops (fun n => o (F n)) c).
  Proof.
    destruct c as [n st|u v|n me s t|n d|n d|n c|n d|]; cbn [cmd_reindex cmd_ops map]; auto.
    - unfold describe_measurement. rewrite !(parity_rx F o) by apply F_inj. auto.
    - rewrite (parity_rx F o) by apply F_inj. destruct (parity _ d); auto.
    - rewrite (parity_rx F o) by apply F_inj. destruct (parity _ d); auto.
  Qed.
  Lemma seq_ops_reindex o l : seq_ops o (map (cmd_reindex F) l) = map op_reindex (seq_ops (fun n => o (F n)) l).
  Proof. unfold seq_ops. induction l as [|c l IH]; cbn [map flat_map]; auto. rewrite map_app, <- IH, cmd_ops_reindex. auto. Qed.
  Lemma relab_GF psi : relab F (relab G psi) = psi.
  Proof. extensionality g. unfold relab. f_equal. extensionality n. rewrite (proj2 HFG). auto. Qed.
  Lemma den_reindex o l psi : den (seq_ops o (map (cmd_reindex F) l)) psi = relab F (den (seq_ops (fun n => o (F n)) l) (relab G psi)).
  Proof. rewrite <- (relab_GF psi) at 1. rewrite seq_ops_reindex, den_relab. auto. Qed.

  Lemma prepared_reindex l n : prepared_in (map (cmd_reindex F) l) n <-> exists k, prepared_in l k /\ n = F k.
  Proof.
    unfold prepared_in. split.
    - intros (st & H). apply in_map_iff in H. destruct H as (c & E & H). destruct c; try discriminate. injection E as <- <-. eauto.
    - intros (k & (st & H) & ->). exists st. apply in_map_iff. exists (CN k st). auto.
  Qed.
  Lemma measured_reindex l n : measured_in (map (cmd_reindex F) l) n <-> exists k, measured_in l k /\ n = F k.
  Proof.
    unfold measured_in. split.
    - intros (m & s & t & H). apply in_map_iff in H. destruct H as (c & E & H). destruct c; try discriminate. injection E as <- <- <- <-. eauto 6.
    - intros (k & (m & s & t & H) & ->). exists m, (rx_set F s), (rx_set F t). apply in_map_iff. exists (CM k m s t). auto.
  Qed.
  Lemma live_reindex inp l n : live (map F inp) (map (cmd_reindex F) l) (F n) <-> live inp l n.
  Proof.
    unfold live. rewrite prepared_reindex, measured_reindex. rewrite in_map_iff. split.
    - intros [H1 H2]. split; [|intros H; apply H2; eauto]. destruct H1 as [(k & E & H)|(k & H & E)].
      + apply F_inj in E; subst; auto.
      + apply F_inj in E; subst; auto.
    - intros [H1 H2]. split; [destruct H1; [left|right]; eauto|]. intros (k & H & E). apply F_inj in E; subst; auto.
  Qed.
End Sem.

(** nodes used by a runnable sequence *)
Lemma runnable_measured inp l : runnable inp l -> forall n, measured_in l n -> In n inp \/ prepared_in l n.
Proof.
  intros HR. pose proof (run_state_spec inp l) as RS. destruct (run_state inp l) as [[a m]|e]; [|tauto].
  destruct RS as [_ (_ & _ & HP)]. auto.
Qed.
Lemma reindex_ext f F p : runnable (p_in p) (p_seq p) -> has_no_S (p_seq p) -> (forall n, node_of p n -> f n = F n) ->
  map (cmd_reindex f) (p_seq p) = map (cmd_reindex F) (p_seq p).
Proof.
  intros HR HS H. apply map_ext_in. intros c Hc.
  assert (HO : exists pre post, p_seq p = pre ++ c :: post) by (apply in_split; auto). destruct HO as (pre & post & E).
  pose proof (HR pre c post E) as OK.
  assert (HL : forall n, live (p_in p) pre n -> f n = F n).
  { intros n [[L|L] _]; apply H; unfold node_of; auto. right. rewrite E. apply prepared_app; auto. }
  assert (HR' : runnable (p_in p) pre) by (rewrite E in HR; eapply runnable_app_l; eauto).
  assert (HM : forall n, measured_in pre n -> f n = F n).
  { intros n M. apply H. destruct (runnable_measured _ _ HR' n M); unfold node_of; auto. right. rewrite E. apply prepared_app; auto. }
  destruct c as [n st|u v|n me s t|n d|n d|n c|n d|]; cbn [cmd_reindex]; cbn [cmd_ok] in OK; auto.
  - f_equal. apply H. right. exists st; auto.
  - destruct OK. f_equal; apply HL; auto.
  - destruct OK as [O1 O2]. f_equal; [apply HL; auto|apply rx_set_ext|apply rx_set_ext]; auto.
  - destruct OK as [O1 O2]. f_equal; [apply HL; auto|apply rx_set_ext]; auto.
  - destruct OK as [O1 O2]. f_equal; [apply HL; auto|apply rx_set_ext]; auto.
  - f_equal; apply HL; auto.
  - exfalso. eapply HS; eauto.
Qed.
(** runnability is invariant under relabelling *)
Lemma cmd_ok_reindex F G inp pre c : inverses F G -> has_no_S [c] -> cmd_ok inp pre c <-> cmd_ok (map F inp) (map (cmd_reindex F) pre) (cmd_reindex F c).
Proof.
  intros HFG HS. pose proof (F_inj F G HFG) as FI.
  assert (HD : forall d, (forall k, mem k d = true -> measured_in pre k) <-> (forall k, mem k (rx_set F d) = true -> measured_in (map (cmd_reindex F) pre) k)).
  { intros d. split; intros H k Hk.
    - apply mem_rx_set in Hk. destruct Hk as (j & Hj & ->). apply measured_reindex; eauto.
    - assert (Q : measured_in (map (cmd_reindex F) pre) (F k)) by (apply H, mem_rx_set; eauto).
      apply measured_reindex in Q. destruct Q as (j & M & E). apply FI in E; subst; auto. }
  destruct c as [n st|u v|n me s t|n d|n d|n c|n d|]; cbn [cmd_reindex cmd_ok]; try tauto.
  - rewrite prepared_reindex, in_map_iff. split; intros [A B]; split.
    + intros (x & E & H). apply FI in E; subst; auto.
    + intros (x & H & E). apply FI in E; subst; auto.
    + intros H; apply A; eauto.
    + intros H; apply B; eauto.
  - rewrite !(live_reindex F G HFG). tauto.
  - rewrite (live_reindex F G HFG). pose proof (HD s) as Hs. pose proof (HD t) as Ht. split; intros [A B]; (split; [auto|]); intros k [K|K].
    + apply Hs; auto.
    + apply Ht; auto.
    + apply Hs; auto.
    + apply Ht; auto.
  - rewrite (live_reindex F G HFG), HD. tauto.
  - rewrite (live_reindex F G HFG), HD. tauto.
  - rewrite (live_reindex F G HFG). tauto.
Qed.

(** * node_mapping *)
Lemma next_free_spec fuel c used : sbound used <= fuel + c ->
  c <= next_free fuel c used /\ mem (next_free fuel c used) used = false /\ forall k, c <= k < next_free fuel c used -> mem k used = true.
Proof.
  revert c; induction fuel as [|fuel IH]; intros c H; cbn [next_free].
  - split; [lia|]. split; [|lia]. destruct (mem c used) eqn:E; auto. apply mem_bound in E. lia.
  - destruct (mem c used) eqn:E; [|split; [lia|split; [auto|lia]]].
    destruct (IH (S c)) as (I1 & I2 & I3); [lia|]. split; [lia|]. split; auto. intros k Hk.
    destruct (Nat.eq_dec k c) as [->|N]; auto. apply I3. lia.
Qed.
Lemma elems_sorted s : StronglySorted lt (elems s).
Proof.
  unfold elems. assert (H : forall b k, StronglySorted lt (filter (fun n => mem n s) (seq k b)) ).
  { induction b as [|b IH]; intros k; cbn [seq filter]; [constructor|]. destruct (mem k s); auto. constructor; auto.
    apply Forall_forall. intros x Hx. apply filter_In in Hx. destruct Hx as [Hx _]. apply in_seq in Hx. lia. }
  apply H.
Qed.
Lemma dmem_spec {A} (d : dict A) k : dmem d k = true <-> In k (dkeys d).
Proof.
  unfold dmem. destruct (dget d k) eqn:E.
  - split; auto. intros _. eapply dget_is_key; eauto.
  - split; [discriminate|]. intros H. apply dget_None in E. tauto.
Qed.
Lemma nm_loop used pres l : StronglySorted lt l -> forall (d : dict nat) c,
  let r := fst (fold_left (fun (st : dict nat * nat) n =>
          if dmem (fst st) n || mem n pres then st
          else let c := next_free (sbound used) (snd st) used in (dset (fst st) n c, S c)) l (d, c)) in
  (forall n, dmem d n = true -> dget r n = dget d n)
  /\ (forall n, dmem d n = false -> ~ In n l \/ mem n pres = true -> dget r n = None)
  /\ (forall n, In n l -> dmem d n = false -> mem n pres = false -> exists v, dget r n = Some v /\ c <= v /\ mem v used = false)
  /\ (forall a b va vb, In a l -> In b l -> dmem d a = false -> dmem d b = false -> a < b -> dget r a = Some va -> dget r b = Some vb -> va < vb)
  /\ (NoDup (dkeys d) -> NoDup (dkeys r)).
Proof.
  induction 1 as [|x l SS IH HF]; intros d c; cbn [fold_left fst snd].
  - cbn. split; [auto|]. split. { intros n Hn _. unfold dmem in Hn. destruct (dget d n); congruence. }
    split; [intros n []|]. split; [intros a b va vb []|auto].
  - destruct (dmem d x || mem x pres) eqn:E.
    + specialize (IH d c). cbv zeta in IH. destruct IH as (I1 & I2 & I3 & I4 & I5).
      match goal with |- context[fold_left ?f l (d, c)] => set (r := fst (fold_left f l (d, c))) in * end. cbv zeta.
      apply orb_true_iff in E. split; [auto|]. split; [|split; [|split]]; auto.
      * intros n Hn [K|K]; apply I2; auto. left. intros Q; apply K; right; auto.
      * intros n [<-|Hn] K1 K2; [destruct E; congruence|]. auto.
      * intros a b va vb [<-|Ha] [<-|Hb] Ka Kb L Ea Eb; try lia.
        -- destruct E as [E|E]; [congruence|]. rewrite (I2 x) in Ea; auto. discriminate.
        -- destruct E as [E|E]; [congruence|]. rewrite (I2 x) in Eb; auto. discriminate.
        -- eapply (I4 a b); eauto.
    + apply orb_false_iff in E. destruct E as [E1 E2].
      destruct (next_free_spec (sbound used) c used) as (N1 & N2 & _); [lia|]. set (v := next_free (sbound used) c used) in *.
      specialize (IH (dset d x v) (S v)). cbv zeta in IH. destruct IH as (I1 & I2 & I3 & I4 & I5).
      match goal with |- context[fold_left ?f l ?s] => set (r := fst (fold_left f l s)) in * end. cbv zeta.
      assert (DM : forall n, dmem (dset d x v) n = (x =? n)%nat || dmem d n).
      { intros n. unfold dmem. rewrite dget_dset. destruct (x =? n)%nat; auto. }
      rewrite Forall_forall in HF.
      assert (EX : dget r x = Some v). { rewrite I1 by (rewrite DM, Nat.eqb_refl; auto). rewrite dget_dset, Nat.eqb_refl. auto. }
      split; [|split; [|split; [|split]]].
      * intros n Hn. rewrite I1 by (rewrite DM, Hn, orb_true_r; auto). rewrite dget_dset. destruct (Nat.eqb_spec x n) as [->|]; auto. congruence.
      * intros n Hn K. apply I2.
        -- rewrite DM, Hn, orb_false_r. apply Nat.eqb_neq. intros ->. destruct K as [K|K]; [apply K; left; auto|congruence].
        -- destruct K as [K|K]; auto. left. intros Q; apply K; right; auto.
      * intros n [<-|Hn] K1 K2; [exists v; auto|]. destruct (I3 n Hn) as (w & W1 & W2 & W3); auto.
        -- rewrite DM, K1, orb_false_r. apply Nat.eqb_neq. specialize (HF n Hn). lia.
        -- exists w. split; auto. split; auto. lia.
      * intros a b va vb Ha Hb Ka Kb L Ea Eb.
        assert (Hb' : In b l). { destruct Hb as [<-|Hb]; auto. destruct Ha as [<-|Ha]; [lia|]. specialize (HF a Ha). lia. }
        assert (Db : dmem (dset d x v) b = false). { rewrite DM, Kb, orb_false_r. apply Nat.eqb_neq. specialize (HF b Hb'). lia. }
        destruct Ha as [<-|Ha].
        -- rewrite EX in Ea. injection Ea as <-. destruct (mem b pres) eqn:Eq; [rewrite (I2 b) in Eb; auto; discriminate|].
           destruct (I3 b Hb' Db Eq) as (w & W1 & W2 & W3). rewrite Eb in W1. injection W1 as <-. lia.
        -- apply (I4 a b); auto. rewrite DM, Ka, orb_false_r. apply Nat.eqb_neq. specialize (HF a Ha). lia.
      * intros ND. apply I5, dset_NoDup; auto.
Qed.
Lemma vals_len (d : dict nat) : (length d =? length (elems (of_list (dvals d))))%nat = true <-> NoDup (dvals d).
Proof.
  rewrite Nat.eqb_eq. replace (length d) with (length (dvals d)) by (apply map_length).
  rewrite <- len_set. split; congruence.
Qed.
(** pattern.py:171-242, as a specification *)
Lemma node_mapping_spec p mapping start avoids preserves : NoDup (dkeys mapping) ->
  match node_mapping p mapping start avoids preserves with
  | Ok mc => (forall k, In k (dkeys mapping) -> node_of p k) /\ NoDup (dvals mapping)
      /\ NoDup (dkeys mc)
      /\ (forall k v, dget mapping k = Some v -> dget mc k = Some v)
      /\ (forall n, In n (dkeys mc) <-> In n (dkeys mapping) \/ node_of p n /\ mem n preserves = false)
      /\ (forall a b v, dget mc a = Some v -> dget mc b = Some v -> a = b)
      /\ (forall n v, ~ In n (dkeys mapping) -> dget mc n = Some v -> start <= v /\ mem v avoids = false /\ mem v preserves = false /\ ~ In v (dvals mapping))
      /\ (forall a b va vb, ~ In a (dkeys mapping) -> ~ In b (dkeys mapping) -> dget mc a = Some va -> dget mc b = Some vb -> a < b -> va < vb)
  | Err e => e = EValue /\ ~ ((forall k, In k (dkeys mapping) -> node_of p k) /\ NoDup (dvals mapping))
  end.
Proof.
  intros ND. unfold node_mapping. destruct (existsb _ (dkeys mapping)) eqn:E1.
  { split; auto. intros [H _]. apply existsb_exists in E1. destruct E1 as (k & K1 & K2). apply H, pat_nodes_spec in K1. rewrite K1 in K2. discriminate. }
  assert (HK : forall k, In k (dkeys mapping) -> node_of p k).
  { intros k Hk. apply pat_nodes_spec. destruct (mem k (pat_nodes p)) eqn:E; auto. assert (X : existsb (fun k => negb (mem k (pat_nodes p))) (dkeys mapping) = true) by (apply existsb_exists; exists k; rewrite E; auto). congruence. }
  destruct (length mapping =? _)%nat eqn:E2; cbn [negb].
  2:{ split; auto. intros [_ H]. apply vals_len in H. congruence. }
  apply vals_len in E2.
  set (used := sunion (sunion avoids (of_list (dvals mapping))) preserves).
  pose proof (nm_loop used preserves (elems (pat_nodes p)) (elems_sorted _) mapping start) as L. cbv zeta in L. destruct L as (I1 & I2 & I3 & I4 & I5).
  match goal with |- context[fold_left ?f _ ?s] => set (mc := fst (fold_left f (elems (pat_nodes p)) s)) in * end.
  assert (HU : forall v, mem v used = false -> mem v avoids = false /\ mem v preserves = false /\ ~ In v (dvals mapping)).
  { intros v Hv. unfold used in Hv. rewrite !mem_sunion in Hv. apply orb_false_iff in Hv. destruct Hv as [Hv V3]. apply orb_false_iff in Hv. destruct Hv as [V1 V2].
    split; [auto|split; auto]. intros Q. apply mem_of_list in Q. congruence. }
  assert (DM : forall n, dmem mapping n = false <-> ~ In n (dkeys mapping)).
  { intros n. rewrite <- dmem_spec. destruct (dmem mapping n); split; congruence. }
  assert (NEW : forall n v, ~ In n (dkeys mapping) -> dget mc n = Some v -> In n (elems (pat_nodes p)) /\ mem n preserves = false /\ start <= v /\ mem v used = false).
  { intros n v Hn Ev. apply DM in Hn. destruct (in_dec Nat.eq_dec n (elems (pat_nodes p))) as [A|A]; [|rewrite I2 in Ev; auto; discriminate].
    destruct (mem n preserves) eqn:B; [rewrite I2 in Ev; auto; discriminate|]. destruct (I3 n A Hn B) as (w & W1 & W2 & W3). rewrite Ev in W1. injection W1 as <-. auto. }
  split; [auto|]. split; [auto|]. split; [auto|]. split; [|split; [|split; [|split]]].
  - intros k v Hk. rewrite I1; auto. unfold dmem. rewrite Hk. auto.
  - intros n. rewrite <- dmem_spec at 1. destruct (in_dec Nat.eq_dec n (dkeys mapping)) as [A|A].
    + split; auto. intros _. unfold dmem. rewrite I1 by (apply dmem_spec; auto). destruct (dget_keys _ _ A) as (v & ->). auto.
    + split.
      * intros H. unfold dmem in H. destruct (dget mc n) as [v|] eqn:E; [|discriminate]. destruct (NEW n v A E) as (B1 & B2 & _). right.
        split; auto. apply pat_nodes_spec, elems_spec; auto.
      * intros [H|[H1 H2]]; [tauto|]. apply DM in A. destruct (I3 n) as (v & Ev & _); auto. { apply elems_spec, pat_nodes_spec; auto. }
        unfold dmem. rewrite Ev. auto.
  - assert (OLD : forall n, In n (dkeys mapping) -> dget mc n = dget mapping n) by (intros n Hn; apply I1, dmem_spec; auto).
    intros a b v Ea Eb.
    destruct (in_dec Nat.eq_dec a (dkeys mapping)) as [A|A], (in_dec Nat.eq_dec b (dkeys mapping)) as [B|B].
    + rewrite OLD in Ea, Eb by auto. assert (X := proj2 (dinv_get mapping a v ND E2) Ea). rewrite (proj2 (dinv_get mapping b v ND E2) Eb) in X. congruence.
    + exfalso. destruct (NEW b v B Eb) as (_ & _ & _ & U). apply HU in U. destruct U as (_ & _ & U). apply U. rewrite OLD in Ea by auto. apply dvals_In. exists a. apply dget_In; auto.
    + exfalso. destruct (NEW a v A Ea) as (_ & _ & _ & U). apply HU in U. destruct U as (_ & _ & U). apply U. rewrite OLD in Eb by auto. apply dvals_In. exists b. apply dget_In; auto.
    + destruct (NEW a v A Ea) as (Na & _), (NEW b v B Eb) as (Nb & _). apply DM in A, B.
      destruct (lt_eq_lt_dec a b) as [[L|L]|L]; auto; exfalso.
      * specialize (I4 a b v v Na Nb A B L Ea Eb). lia.
      * specialize (I4 b a v v Nb Na B A L Eb Ea). lia.
  - intros n v Hn Ev. destruct (NEW n v Hn Ev) as (_ & _ & S1 & S2). split; auto.
  - intros a b va vb Ha Hb Ea Eb L. destruct (NEW a va Ha Ea) as (Na & _), (NEW b vb Hb Eb) as (Nb & _).
    apply DM in Ha, Hb. eapply (I4 a b); eauto.
Qed.

(** * reindex *)
Lemma runnable_reindex F G inp l : inverses F G -> has_no_S l -> (runnable inp l <-> runnable (map F inp) (map (cmd_reindex F) l)).
Proof.
  intros HFG. induction l as [|c l IH] using rev_ind; intros HS.
  - split; intros _; apply runnable_nil.
  - rewrite map_app. cbn [map]. rewrite !runnable_snoc. rewrite <- IH.
    + rewrite <- (cmd_ok_reindex F G inp l c HFG); [tauto|]. intros n d [->|[]]. apply (HS n d). apply in_or_app; simpl; auto.
    + intros n d H. apply (HS n d). apply in_or_app; auto.
Qed.
Lemma wf_outs p : NoDup (p_in p) -> runnable (p_in p) (p_seq p) -> pat_wf p -> NoDup (p_out p) /\ forall n, In n (p_out p) <-> live (p_in p) (p_seq p) n.
Proof.
  intros ND HR W. destruct (outs_of_live _ _ ND HR) as [O1 O2]. split.
  - eapply Permutation_NoDup; [symmetry; apply W|auto].
  - intros n. rewrite <- O2. split; apply Permutation_in; [|symmetry]; apply W.
Qed.
Lemma live_node p n : live (p_in p) (p_seq p) n -> node_of p n.
Proof. intros [H _]. exact H. Qed.
Lemma pat_extend_new inp l : p_in (pat_extend (pat_new inp) l) = inp /\ p_seq (pat_extend (pat_new inp) l) = l /\ p_out (pat_extend (pat_new inp) l) = outs_of inp l.
Proof. destruct (pat_extend_fields (pat_new inp) l) as (A & B & C). cbn in *. auto. Qed.
Lemma node_bij p f : (forall a b, node_of p a -> node_of p b -> f a = f b -> a = b) -> exists F G, inverses F G /\ forall n, node_of p n -> F n = f n.
Proof.
  intros HI. destruct (extend_bij f (elems (pat_nodes p))) as (F & G & HFG & H).
  - apply elems_NoDup.
  - intros a b Ha Hb. apply HI; apply pat_nodes_spec, elems_spec; auto.
  - exists F, G. split; auto. intros n Hn. apply H, elems_spec, pat_nodes_spec; auto.
Qed.
Lemma reindex_spec p f : NoDup (p_in p) -> runnable (p_in p) (p_seq p) -> pat_wf p -> has_no_S (p_seq p) ->
  (forall a b, node_of p a -> node_of p b -> f a = f b -> a = b) ->
  exists q, reindex f p = Ok q /\ p_in q = map f (p_in p) /\ p_seq q = map (cmd_reindex f) (p_seq p) /\ p_out q = map f (p_out p)
    /\ p_n q = (length (p_in p) + count_N (p_seq p))%nat
    /\ NoDup (p_in q) /\ runnable (p_in q) (p_seq q) /\ pat_wf q
    /\ (forall n, node_of q n <-> exists k, node_of p k /\ n = f k)
    /\ has_no_S (p_seq q).
Proof.
  intros ND HR W HS HI. destruct (node_bij p f HI) as (F & G & HFG & HF).
  destruct (wf_outs p ND HR W) as [O1 O2].
  assert (E1 : map f (p_in p) = map F (p_in p)). { apply map_ext_in. intros n Hn. symmetry. apply HF. left; auto. }
  assert (E2 : map (cmd_reindex f) (p_seq p) = map (cmd_reindex F) (p_seq p)). { apply reindex_ext; auto. intros n Hn. symmetry; auto. }
  assert (E3 : map f (p_out p) = map F (p_out p)). { apply map_ext_in. intros n Hn. symmetry. apply HF, live_node, O2; auto. }
  assert (ND' : NoDup (map F (p_in p))) by (apply FinFun.Injective_map_NoDup; auto; intros a b; apply (F_inj F G HFG)).
  assert (HR' : runnable (map F (p_in p)) (map (cmd_reindex F) (p_seq p))) by (apply (proj1 (runnable_reindex F G (p_in p) (p_seq p) HFG HS)); auto).
  destruct (outs_of_live _ _ ND' HR') as [Q1 Q2].
  unfold reindex, reorder_output_nodes. rewrite E1, E2, E3.
  destruct (pat_extend_new (map F (p_in p)) (map (cmd_reindex F) (p_seq p))) as (X1 & X2 & X3).
  assert (PO : NoDup (map F (p_out p)) /\ (forall n, In n (map F (p_out p)) <-> In n (outs_of (map F (p_in p)) (map (cmd_reindex F) (p_seq p))))).
  { split; [apply FinFun.Injective_map_NoDup; auto; intros a b; apply (F_inj F G HFG)|].
    intros n. rewrite Q2, <- (proj2 HFG n), (live_reindex F G HFG), in_map_iff. split.
    - intros (x & E & Hx). apply (F_inj F G HFG) in E. subst. apply O2; auto.
    - intros H. exists (G n). split; auto. apply O2; auto. }
  rewrite X1, X2, X3. rewrite (proj2 (assert_permutation_spec _ _) PO).
  eexists. split; [reflexivity|]. cbn [p_in p_seq p_out p_n]. split; [auto|]. split; [auto|]. split; [auto|]. split.
  { rewrite pat_extend_n. cbn. rewrite map_length. f_equal. unfold count_N. clear. induction (p_seq p) as [|c l IH]; auto. destruct c; cbn; auto. }
  split; [auto|]. split; [auto|]. split; [|split].
  - unfold pat_wf. cbn [p_in p_seq p_out]. apply NoDup_Permutation; auto; apply PO.
  - intros n. unfold node_of at 1. cbn [p_in p_seq]. rewrite prepared_reindex, in_map_iff. split.
    + intros [(k & <- & H)|(k & H & ->)]; exists k; (split; [unfold node_of; auto|apply HF; unfold node_of; auto]).
    + intros (k & [H|H] & ->); [left|right]; exists k; rewrite <- HF by (unfold node_of; auto); auto.
  - intros n d H. apply in_map_iff in H. destruct H as (c & E & H). destruct c; try discriminate. eapply HS; eauto.
Qed.

(** * compose *)
(** the mapping is a renaming of nodes of [p2] to distinct labels; a label that
    is a node of [p1] is an output of [p1] and is given to an input of [p2] *)
Definition mapping_ok (p1 p2 : pattern) (mapping : dict nat) : Prop :=
  NoDup (dvals mapping) /\ forall k v, dget mapping k = Some v -> node_of p2 k /\ (node_of p1 v -> In v (p_out p1) /\ In k (p_in p2)).
(** the outputs of [p1] that are fed to [p2] *)
Definition fed (p1 : pattern) (mapping : dict nat) (v : nat) : bool := lmem v (dvals mapping) && lmem v (p_out p1).

Section Join.
  Variables (I1 : list nat) (l1 : list cmd) (I2 : list nat) (l2 : list cmd).
  Let V1 n := In n I1 \/ prepared_in l1 n.
  Let V2 n := In n I2 \/ prepared_in l2 n.
  Hypothesis R1 : runnable I1 l1.
  Hypothesis R2 : runnable I2 l2.
  (** a shared node is a live node of the first pattern and an input of the second *)
  Hypothesis HS : forall n, V1 n -> V2 n -> live I1 l1 n /\ In n I2.
  Variable E : list nat.
  Hypothesis HE : forall n, In n E <-> In n I2 /\ ~ V1 n.
  Lemma V1_measured n : measured_in l1 n -> V1 n.
  Proof. apply runnable_measured; auto. Qed.
  Lemma V2_measured n : measured_in l2 n -> V2 n.
  Proof. apply runnable_measured; auto. Qed.
  Lemma join_live pre n : (exists post, l2 = pre ++ post) -> live I2 pre n -> live (I1 ++ E) (l1 ++ pre) n.
  Proof.
    intros (post & EQ) [H M]. unfold live. rewrite prepared_app, measured_app, in_app_iff.
    assert (HV : V2 n). { unfold V2. destruct H as [H|H]; auto. right. rewrite EQ. apply prepared_app; auto. }
    assert (NM : ~ measured_in l1 n). { intros Q. apply (HS n (V1_measured n Q)) in HV. destruct HV as [[_ K] _]; auto. }
    split; [|tauto]. destruct H as [H|H]; [|tauto].
    assert (DEC : V1 n \/ ~ V1 n).
    { pose proof (run_state_spec I1 l1) as RS. destruct (run_state I1 l1) as [[a m]|e]; [|tauto]. destruct RS as [_ (A1 & A2 & A3)].
      destruct (mem n a) eqn:Ea; [left; apply A1 in Ea; apply Ea|]. right. intros K.
      destruct (mem n m) eqn:Em; [apply NM, A2; auto|].
      assert (X : mem n a = true); [apply A1; split; auto|congruence]. }
    destruct DEC as [D|D]; [unfold V1 in D; tauto|]. left; right. apply HE; auto.
  Qed.
  Lemma join_runnable : runnable (I1 ++ E) (l1 ++ l2).
  Proof.
    assert (P1 : forall pre, (exists post, l1 = pre ++ post) -> runnable (I1 ++ E) pre).
    { intros pre. induction pre as [|c pre IH] using rev_ind; intros (post & EQ); [apply runnable_nil|].
      rewrite <- app_assoc in EQ. apply runnable_snoc. split; [apply IH; eauto|]. cbn in EQ. pose proof (R1 pre c post EQ) as OK.
      assert (LV : forall n, live I1 pre n -> live (I1 ++ E) pre n). { intros n [A B]. split; auto. rewrite in_app_iff. tauto. }
      destruct c as [n st|u v|n me s t|n d|n d|n c|n d|]; cbn [cmd_ok] in *; auto.
      - destruct OK as [A B]. split; auto. rewrite in_app_iff. intros [K|K]; auto. apply HE in K. apply (proj2 K). right. rewrite EQ. exists st. apply in_or_app; simpl; auto.
      - destruct OK; auto.
      - destruct OK; auto.
      - destruct OK; auto.
      - destruct OK; auto. }
    assert (P2 : forall pre, (exists post, l2 = pre ++ post) -> runnable (I1 ++ E) (l1 ++ pre)).
    { intros pre. induction pre as [|c pre IH] using rev_ind; intros (post & EQ); [rewrite app_nil_r; apply P1; exists []; rewrite app_nil_r; auto|].
      rewrite <- app_assoc in EQ. rewrite app_assoc. apply runnable_snoc. split; [apply IH; eauto|]. cbn in EQ. pose proof (R2 pre c post EQ) as OK.
      assert (LV : forall n, live I2 pre n -> live (I1 ++ E) (l1 ++ pre) n). { intros n. apply join_live. eauto. }
      assert (MV : forall n, measured_in pre n -> measured_in (l1 ++ pre) n). { intros n M. apply measured_app; auto. }
      destruct c as [n st|u v|n me s t|n d|n d|n c|n d|]; cbn [cmd_ok] in *; auto.
      - destruct OK as [A B]. assert (HV : V2 n). { right. rewrite EQ. exists st. apply in_or_app; simpl; auto. }
        assert (N1 : ~ V1 n). { intros K. apply (HS n K) in HV. tauto. } rewrite in_app_iff, prepared_app, HE. unfold V1 in *. tauto.
      - destruct OK; auto.
      - destruct OK; auto.
      - destruct OK; auto.
      - destruct OK; auto. }
    apply P2. exists []. rewrite app_nil_r; auto.
  Qed.
  Lemma join_live_iff n : live (I1 ++ E) (l1 ++ l2) n <-> (live I1 l1 n /\ ~ V2 n) \/ live I2 l2 n.
  Proof.
    split.
    - intros [H M]. rewrite prepared_app, in_app_iff in H. rewrite measured_app in M.
      assert (DEC : V2 n \/ ~ V2 n).
      { pose proof (run_state_spec I2 l2) as RS. destruct (run_state I2 l2) as [[a m]|e]; [|tauto]. destruct RS as [_ (A1 & A2 & A3)].
        destruct (mem n a) eqn:Ea; [left; apply A1 in Ea; apply Ea|]. destruct (mem n m) eqn:Em; [left; apply A3, A2; auto|]. right.
        intros K. assert (X : mem n a = true); [apply A1; split; auto|congruence]. }
      destruct DEC as [D|D].
      + right. split; auto.
      + left. split; auto. split; [|tauto]. rewrite HE in H. unfold V2 in D. tauto.
    - intros [[[H M] N]|H].
      + split; [rewrite prepared_app, in_app_iff; tauto|]. rewrite measured_app. intros [K|K]; auto. apply N, V2_measured; auto.
      + apply join_live; auto. exists []. rewrite app_nil_r; auto.
  Qed.
  Lemma join_node n : In n (I1 ++ E) \/ prepared_in (l1 ++ l2) n <-> V1 n \/ V2 n.
  Proof.
    rewrite in_app_iff, prepared_app, HE. unfold V1, V2. split; [intuition idtac|].
    assert (DEC : V1 n \/ ~ V1 n).
    { pose proof (run_state_spec I1 l1) as RS. destruct (run_state I1 l1) as [[a m]|e]; [|tauto]. destruct RS as [_ (A1 & A2 & A3)].
      destruct (mem n a) eqn:Ea; [left; apply A1 in Ea; apply Ea|]. destruct (mem n m) eqn:Em; [left; apply A3, A2; auto|]. right.
      intros K. assert (X : mem n a = true); [apply A1; split; auto; intros Q; apply A2 in Q; congruence|congruence]. }
    unfold V1 in DEC. intuition idtac.
  Qed.
End Join.
