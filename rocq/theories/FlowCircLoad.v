(** Qubit registers placed on nodes, inverses of Clifford circuits, and the fact
    that a linear map commuting with all X and Z is a scalar.  Proof
    infrastructure for C50. *)
From Coq Require Import Reals Lra Arith List Bool Lia Permutation FunctionalExtensionality.
From Verif Require Import Cplx Mat2 NSet QState Fundamentals Clifford Measure Layer Pattern Standardize Statevec Density Circuit Swaps PauliStr PauliOp Berg Ladder PropCircExt FlowCircSem NodeIndex.
Import ListNotations.
Local Open Scope list_scope.
Local Arguments app_op : simpl never.

(** * Registers on nodes *)
(** the n-qubit state [phi] carried by the nodes [ns]: qubit q is node ns[q] *)
Definition load (ns : list nat) (phi : state) : state := fun f => phi (fun q => match nth_error ns q with Some n => f n | None => false end).
Fixpoint pos (ns : list nat) (m : nat) : option nat :=
  match ns with [] => None | n :: ns => if (n =? m)%nat then Some 0%nat else option_map S (pos ns m) end.
Definition unload (ns : list nat) (chi : state) : state := fun g => chi (fun m => match pos ns m with Some q => g q | None => false end).
Definition dep (l : list nat) (chi : state) : Prop := forall f g, (forall n, In n l -> f n = g n) -> chi f = chi g.
Lemma pos_nth ns q n : NoDup ns -> nth_error ns q = Some n -> pos ns n = Some q.
Proof.
  revert q. induction ns as [|m ns IH]; intros [|q] ND H; try discriminate; inversion ND as [|? ? N1 N2]; subst; cbn [nth_error pos] in *.
  - injection H as ->. rewrite Nat.eqb_refl. auto.
  - destruct (Nat.eqb_spec m n) as [->|]; [exfalso; apply N1; eapply nth_error_In; eauto|]. rewrite (IH q) by auto. auto.
Qed.
Lemma pos_some ns q n : pos ns n = Some q -> nth_error ns q = Some n.
Proof.
  revert q. induction ns as [|m ns IH]; intros q H; [discriminate|]. cbn [pos] in H. destruct (Nat.eqb_spec m n) as [->|]; [injection H as <-; auto|].
  destruct (pos ns n); [|discriminate]. injection H as <-. cbn. auto.
Qed.
Lemma pos_none ns n : pos ns n = None -> ~ In n ns.
Proof.
  induction ns as [|m ns IH]; intros H; [auto|]. cbn [pos] in H. destruct (Nat.eqb_spec m n) as [->|N]; [discriminate|]. destruct (pos ns n); [discriminate|]. intros [K|K]; [auto|apply IH; auto].
Qed.
Lemma load_unload ns chi : NoDup ns -> dep ns chi -> load ns (unload ns chi) = chi.
Proof.
  intros ND H. extensionality f. unfold load, unload. apply H. intros n Hn. destruct (pos ns n) as [q|] eqn:E; [|apply pos_none in E; tauto].
  rewrite (pos_some _ _ _ E). auto.
Qed.
Lemma unload_reg ns chi : NoDup ns -> on_register (length ns) (unload ns chi).
Proof.
  intros ND f g H. unfold unload. f_equal. extensionality m. destruct (pos ns m) as [q|] eqn:E; auto. apply H. apply nth_error_Some. rewrite (pos_some _ _ _ E). discriminate.
Qed.
Lemma load_dep ns phi : dep ns (load ns phi).
Proof. intros f g H. unfold load. f_equal. extensionality q. destruct (nth_error ns q) as [n|] eqn:E; auto. apply H. eapply nth_error_In; eauto. Qed.
Lemma load_app1 ns U q n phi : NoDup ns -> nth_error ns q = Some n -> load ns (app_op (OApp1 U q) phi) = app_op (OApp1 U n) (load ns phi).
Proof.
  intros ND H. extensionality f. unfold load, app_op. rewrite H.
  assert (E : forall b, upd (fun k => match nth_error ns k with Some m => f m | None => false end) q b = fun k => match nth_error ns k with Some m => upd f n b m | None => false end).
  { intros b. extensionality k. unfold upd. destruct (Nat.eqb_spec k q) as [->|N]; [rewrite H, Nat.eqb_refl; auto|]. destruct (nth_error ns k) as [m|] eqn:Ek; auto.
    destruct (Nat.eqb_spec m n) as [->|]; auto. exfalso. apply N. apply (NoDup_nth_inj ns k q n); auto. }
  rewrite !E. auto.
Qed.
Lemma unload_app1 ns U q n chi : NoDup ns -> nth_error ns q = Some n -> unload ns (app_op (OApp1 U n) chi) = app_op (OApp1 U q) (unload ns chi).
Proof.
  intros ND H. extensionality g. unfold unload, app_op. rewrite (pos_nth ns q n ND H).
  assert (E : forall b, upd (fun m => match pos ns m with Some k => g k | None => false end) n b = fun m => match pos ns m with Some k => upd g q b k | None => false end).
  { intros b. extensionality m. unfold upd. destruct (Nat.eqb_spec m n) as [->|N]; [rewrite (pos_nth ns q n ND H), Nat.eqb_refl; auto|]. destruct (pos ns m) as [k|] eqn:Ek; auto.
    destruct (Nat.eqb_spec k q) as [->|]; auto. exfalso. apply N. apply pos_some in Ek. congruence. }
  rewrite !E. auto.
Qed.
Lemma load_scale ns c phi : load ns (cscale c phi) = cscale c (load ns phi).
Proof. reflexivity. Qed.
Lemma load_add ns a b : load ns (sadd_st a b) = sadd_st (load ns a) (load ns b).
Proof. reflexivity. Qed.
Lemma unload_scale ns c phi : unload ns (cscale c phi) = cscale c (unload ns phi).
Proof. reflexivity. Qed.
Lemma unload_add ns a b : unload ns (sadd_st a b) = sadd_st (unload ns a) (unload ns b).
Proof. reflexivity. Qed.
(** products of Paulis on the nodes are products on the qubits *)
Lemma unload_pprod_gen ns x z x' z' ks off chi : NoDup ns -> (forall k n, nth_error ks k = Some n -> nth_error ns (off + k)%nat = Some n) ->
  (forall q n, nth_error ns q = Some n -> x' q = x n /\ z' q = z n) -> unload ns (pprod ks x z chi) = pprod (seq off (length ks)) x' z' (unload ns chi).
Proof.
  intros ND H HB. revert off H. induction ks as [|k ks IH]; intros off H; auto. cbn [length seq].
  change (pprod (k :: ks) x z chi) with (app_op (OApp1 (pm (x k) (z k)) k) (pprod ks x z chi)).
  change (pprod (off :: seq (S off) (length ks)) x' z' ?p) with (app_op (OApp1 (pm (x' off) (z' off)) off) (pprod (seq (S off) (length ks)) x' z' p)).
  assert (K : nth_error ns off = Some k) by (rewrite <- (Nat.add_0_r off); apply H; auto). rewrite (unload_app1 ns _ off k) by auto. destruct (HB off k K) as [-> ->]. f_equal.
  apply IH. intros j n Hj. replace (S off + j)%nat with (off + S j)%nat by lia. apply H. auto.
Qed.
Lemma unload_pprod ns x z x' z' chi : NoDup ns -> (forall q n, nth_error ns q = Some n -> x' q = x n /\ z' q = z n) ->
  unload ns (pprod ns x z chi) = pprod (range (length ns)) x' z' (unload ns chi).
Proof. intros ND HB. apply (unload_pprod_gen ns x z x' z' ns 0); auto. Qed.
(** * Dependence on nodes *)
Lemma dep_sub l l' chi : (forall n, In n l -> In n l') -> dep l chi -> dep l' chi.
Proof. intros H D f g E. apply D. auto. Qed.
Lemma dep_op l p chi : (forall n, In n (onodes p) -> In n l) -> dep l chi -> dep l (app_op p chi).
Proof.
  intros H D f g E. destruct p as [U n|u v|w n|w n]; unfold app_op; cbn [onodes] in H.
  - rewrite (E n) by (apply H; left; auto). f_equal; f_equal; apply D; intros k Hk; unfold upd; destruct (k =? n)%nat; auto.
  - rewrite (E u), (E v), (D f g) by (auto; apply H; simpl; auto). auto.
  - f_equal; f_equal; apply D; intros k Hk; unfold upd; destruct (k =? n)%nat; auto.
  - rewrite (E n), (D f g) by (auto; apply H; left; auto). auto.
Qed.
Lemma dep_den l ops chi : (forall p, In p ops -> forall n, In n (onodes p) -> In n l) -> dep l chi -> dep l (den ops chi).
Proof. revert chi. induction ops as [|p ops IH]; intros chi H D; auto. cbn [den]. apply IH; [intros; eapply H; eauto; right; auto|]. apply dep_op; auto. apply H. left; auto. Qed.
Lemma dep_meas l w n chi : dep (n :: l) chi -> dep l (app_op (OMeas w n) chi).
Proof. intros D f g E. unfold app_op. f_equal; f_equal; apply D; intros k [<-|Hk]; unfold upd; rewrite ?Nat.eqb_refl; auto; destruct (k =? n)%nat; auto. Qed.
Lemma dep_mops mu ml O chi : dep (ml ++ O) chi -> dep O (den (mops mu ml) chi).
Proof. revert chi. induction ml as [|n ml IH]; intros chi D; auto. cbn [mops map den]. apply IH. apply dep_meas. auto. Qed.
(** * Clifford circuits are invertible *)
Definition inv_of (F V : state -> state) (n : nat) : Prop := (forall psi, V (F psi) = psi) /\ (forall psi, F (V psi) = psi) /\ linear V /\ (forall psi, on_register n psi -> on_register n (V psi)).
Lemma reg_dep n psi : on_register n psi <-> dep (range n) psi.
Proof. split; intros H f g E; apply H; intros q Hq; apply E; [apply in_seq; lia|apply in_seq in Hq; lia]. Qed.
Lemma app1_reg n U q psi : (q < n)%nat -> on_register n psi -> on_register n (app_op (OApp1 U q) psi).
Proof. rewrite !reg_dep. intros H. apply dep_op. intros k [<-|[]]. apply in_seq. lia. Qed.
Lemma cnot_reg n t c psi : c <> t -> (t < n)%nat -> (c < n)%nat -> on_register n psi -> on_register n (gate (ICNOT t c) psi).
Proof. intros N H1 H2 H f g E. rewrite !cnot_spec by auto. apply H. intros q Hq. rewrite (E t), (E c) by auto. unfold upd. destruct (q =? t)%nat; auto. Qed.
Lemma swap_reg n u v psi : (u < n)%nat -> (v < n)%nat -> on_register n psi -> on_register n (gate (ISWAP u v) psi).
Proof. intros H1 H2 H f g E. cbn [gate]. unfold swapst. apply H. intros q Hq. unfold upd. rewrite (E u), (E v) by auto. destruct (q =? v)%nat, (q =? u)%nat; auto. Qed.
Lemma linear_swap u v : linear (gate (ISWAP u v)).
Proof. split; reflexivity. Qed.
Lemma gate_inv n i : berg_gate i -> NoDup (iqubits i) -> (forall q, In q (iqubits i) -> (q < n)%nat) -> exists V, inv_of (gate i) V n.
Proof.
  intros B ND LT.
  assert (A1 : forall A B q, (q < n)%nat -> mmul A B = mid -> mmul B A = mid -> inv_of (app_op (OApp1 A q)) (app_op (OApp1 B q)) n).
  { intros A A' q Hq E1 E2. split; [intros; apply app1_inv; auto|]. split; [intros; apply app1_inv; auto|]. split; [apply linear_app1|]. intros. apply app1_reg; auto. }
  assert (HH : mmul op_h op_h = mid) by (symmetry; unfold op_h; trig 0%R).
  destruct i; try destruct B; cbn [iqubits] in *.
  - exists (gate (ICNOT target control)). assert (N : control <> target). { intros ->. inversion ND as [|? ? K _]; subst. apply K; left; auto. }
    split; [intros; apply cnot_cnot; auto|]. split; [intros; apply cnot_cnot; auto|]. split; [apply linear_cnot; auto|]. intros. apply cnot_reg; auto; apply LT; simpl; auto.
  - exists (gate (ISWAP u v)). assert (N : u <> v). { intros ->. inversion ND as [|? ? K _]; subst. apply K; left; auto. }
    split; [intros; apply swap_swap; auto|]. split; [intros; apply swap_swap; auto|]. split; [apply linear_swap|]. intros. apply swap_reg; auto; apply LT; simpl; auto.
  - exists (app_op (OApp1 op_h q)). apply A1; auto. apply LT; left; auto.
  - exists (app_op (OApp1 (Mat2 C1 C0 C0 (- Ci)%C) q)). apply A1; [apply LT; left; auto| |]; unfold op_s; trig 0%R.
  - exists (app_op (OApp1 mX q)). apply A1; [apply LT; left; auto| |]; apply mX_sq.
  - exists (app_op (OApp1 mY q)). apply A1; [apply LT; left; auto| |]; unfold mY; trig 0%R.
  - exists (app_op (OApp1 mZ q)). apply A1; [apply LT; left; auto| |]; apply mZ_sq.
Qed.
Lemma gates_inv n l : (forall i, In i l -> berg_gate i /\ NoDup (iqubits i) /\ forall q, In q (iqubits i) -> (q < n)%nat) -> exists V, inv_of (gates l) V n.
Proof.
  induction l as [|i l IH]; intros H.
  - exists (fun psi => psi). split; [|split; [|split; [split|]]]; auto.
  - destruct (H i (or_introl eq_refl)) as (A & B & C). destruct (gate_inv n i A B C) as (V & V1 & V2 & V3 & V4). destruct IH as (W & W1 & W2 & W3 & W4); [intros; apply H; right; auto|].
    exists (fun psi => V (W psi)). split; [|split; [|split]].
    + intros psi. change (gates (i :: l) psi) with (gates l (gate i psi)). rewrite W1. apply V1.
    + intros psi. change (gates (i :: l) ?p) with (gates l (gate i p)). rewrite V2. apply W2.
    + apply linear_comp; auto.
    + auto.
Qed.
(** * A linear map commuting with every X and Z is a scalar *)
Definition proj (i : nat) (b : bool) (phi : state) : state := cscale (RtoC (/ 2)) (sadd_st phi (cscale (sgn b) (app_op (OApp1 mZ i) phi))).
Lemma proj_at i b phi f : proj i b phi f = if eqb (f i) b then phi f else C0.
Proof.
  unfold proj, cscale, sadd_st, app_op. pose proof (upd_id f i) as E. destruct (f i) eqn:F; rewrite E; unfold mZ; cbn [mget m00 m01 m10 m11]; destruct b; cbn [sgn eqb]; apply C_eq; cbn; field.
Qed.
Fixpoint projs (k : nat) (g : asg) (phi : state) : state := match k with O => phi | S k => proj k (g k) (projs k g phi) end.
Lemma projs_at k g phi f : projs k g phi f = if forallb (fun q => eqb (f q) (g q)) (range k) then phi f else C0.
Proof.
  induction k as [|k IH]; auto. cbn [projs]. rewrite proj_at, IH. unfold range. rewrite seq_S, forallb_app. cbn [forallb Nat.add]. rewrite andb_true_r, andb_comm. destruct (eqb (f k) (g k)); auto.
Qed.
Definition basis_st (n : nat) (g : asg) : state := fun f => if forallb (fun q => eqb (f q) (g q)) (range n) then C1 else C0.
Fixpoint flips (k : nat) (g : asg) (phi : state) : state := match k with O => phi | S k => app_op (OApp1 (if g k then mX else mid) k) (flips k g phi) end.
Lemma flip_at (b : bool) q phi f : app_op (OApp1 (if b then mX else mid) q) phi f = phi (upd f q (xorb (f q) b)).
Proof. unfold app_op. pose proof (upd_id f q) as E. destruct b, (f q); unfold mX, mid; cbn [mget m00 m01 m10 m11 xorb]; ring. Qed.
Lemma flips_at k g phi f : flips k g phi f = phi (fun q => if (q <? k)%nat then xorb (f q) (g q) else f q).
Proof.
  revert f. induction k as [|k IH]; intros f; [cbn [flips]; f_equal|]. cbn [flips]. rewrite flip_at, IH. f_equal. extensionality q. unfold upd.
  destruct (Nat.eqb_spec q k) as [->|N].
  - rewrite (proj2 (Nat.ltb_ge k k)), (proj2 (Nat.ltb_lt k (S k))) by lia. auto.
  - replace (q <? S k)%nat with (q <? k)%nat; auto. destruct (Nat.ltb_spec q k), (Nat.ltb_spec q (S k)); auto; lia.
Qed.
Section Schur.
Variables (n : nat) (RR : state -> state).
Hypothesis HL : linear RR.
Hypothesis HR : forall phi, on_register n phi -> on_register n (RR phi).
Hypothesis HX : forall i phi, (i < n)%nat -> RR (app_op (OApp1 mX i) phi) = app_op (OApp1 mX i) (RR phi).
Hypothesis HZ : forall i phi, (i < n)%nat -> RR (app_op (OApp1 mZ i) phi) = app_op (OApp1 mZ i) (RR phi).
Lemma R_proj i b phi : (i < n)%nat -> RR (proj i b phi) = proj i b (RR phi).
Proof. intros Hi. unfold proj. destruct HL as [L1 L2]. rewrite L1, L2, L1, HZ by auto. auto. Qed.
Lemma R_projs k g phi : (k <= n)%nat -> RR (projs k g phi) = projs k g (RR phi).
Proof. induction k as [|k IH]; intros Hk; auto. cbn [projs]. rewrite R_proj by lia. rewrite IH by lia. auto. Qed.
Lemma R_flips k g phi : (k <= n)%nat -> RR (flips k g phi) = flips k g (RR phi).
Proof. induction k as [|k IH]; intros Hk; auto. cbn [flips]. destruct (g k); [rewrite HX by lia|rewrite !app1_mid]; rewrite IH by lia; auto. Qed.
Lemma agree_refl (g : asg) l : forallb (fun q => eqb (g q) (g q)) l = true.
Proof. apply forallb_forall. intros q _. apply eqb_reflx. Qed.
Lemma schur : exists c, forall phi, on_register n phi -> RR phi = cscale c phi.
Proof.
  exists (RR (basis_st n (fun _ => false)) (fun _ => false)). intros phi HP. extensionality g.
  assert (E1 : RR phi g = RR (projs n g phi) g). { rewrite R_projs, projs_at, agree_refl by auto. auto. }
  assert (E2 : projs n g phi = cscale (phi g) (flips n g (basis_st n (fun _ => false)))).
  { extensionality f. rewrite projs_at. unfold cscale. rewrite flips_at. unfold basis_st.
    replace (forallb (fun q => eqb (if (q <? n)%nat then xorb (f q) (g q) else f q) false) (range n)) with (forallb (fun q => eqb (f q) (g q)) (range n)).
    - destruct (forallb (fun q => eqb (f q) (g q)) (range n)) eqn:F; [|ring]. rewrite (HP f g); [ring|]. rewrite forallb_forall in F. intros q Hq. apply eqb_prop, F, in_seq. lia.
    - apply eq_true_iff_eq. rewrite !forallb_forall. split; intros H q Hq; specialize (H q Hq); apply in_seq in Hq; rewrite (proj2 (Nat.ltb_lt q n)) in * by lia; destruct (f q), (g q); auto. }
  rewrite E1, E2. destruct HL as [L1 L2]. rewrite L1. unfold cscale. rewrite R_flips, flips_at by auto.
  rewrite (HR (basis_st n (fun _ => false))) with (g := fun _ => false).
  - ring.
  - intros f f' E. unfold basis_st. replace (forallb (fun q => eqb (f q) false) (range n)) with (forallb (fun q => eqb (f' q) false) (range n)); auto.
    apply eq_true_iff_eq. rewrite !forallb_forall. split; intros H q Hq; specialize (H q Hq); apply in_seq in Hq; [rewrite E by lia|rewrite <- E by lia]; auto.
  - intros q Hq. apply Nat.ltb_lt in Hq. rewrite Hq. apply xorb_nilpotent.
Qed.
End Schur.
