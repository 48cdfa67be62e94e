(** Signed Pauli operators on a register: the algebra used for strings, tableaux
    and Clifford conjugation. *)
From Coq Require Import Reals Lra Arith List Bool Lia Permutation FunctionalExtensionality.
From Verif Require Import Cplx Mat2 NSet QState Fundamentals Clifford Measure Pattern Statevec Density Circuit PauliStr.
Import ListNotations.
Local Open Scope list_scope.
Local Open Scope C_scope.

Local Arguments app_op : simpl never.
(** the Pauli matrix of a bit pair: I, X, Z or Y *)
Definition pm (x z : bool) : mat2 := match x, z with false, false => mid | true, false => mX | false, true => mZ | true, true => mY end.
(** product over the listed qubits *)
Definition pprod (l : list nat) (x z : nat -> bool) (psi : state) : state :=
  fold_right (fun q p => app_op (OApp1 (pm (x q) (z q)) q) p) psi l.
(** the signed operator *)
Definition sgnop (s : bool) (F : state -> state) (psi : state) : state := cscale (sgn s) (F psi).

Lemma app1_mid q psi : app_op (OApp1 mid q) psi = psi.
Proof. extensionality f. unfold app_op. pose proof (upd_id f q) as E. destruct (f q); rewrite E; simpl; ring. Qed.
Lemma app1_comm A B p q psi : p <> q -> app_op (OApp1 A p) (app_op (OApp1 B q) psi) = app_op (OApp1 B q) (app_op (OApp1 A p) psi).
Proof. intros N. apply op_comm. intros k [->|[]] [->|[]]. auto. Qed.
Lemma pprod_scale l x z c psi : pprod l x z (cscale c psi) = cscale c (pprod l x z psi).
Proof. induction l as [|q l IH]; simpl; auto. unfold pprod in *. rewrite IH. apply (app_op_scale (OApp1 _ _)). Qed.
Lemma pprod_ext l x z x' z' psi : (forall q, In q l -> x q = x' q /\ z q = z' q) -> pprod l x z psi = pprod l x' z' psi.
Proof. induction l as [|q l IH]; simpl; intros H; auto. unfold pprod in *. rewrite IH by auto. destruct (H q) as [-> ->]; auto. Qed.
Lemma pprod_app a b x z psi : pprod (a ++ b) x z psi = pprod a x z (pprod b x z psi).
Proof. unfold pprod. rewrite fold_right_app. auto. Qed.
Lemma pprod_app1 l x z A q psi : ~ In q l -> pprod l x z (app_op (OApp1 A q) psi) = app_op (OApp1 A q) (pprod l x z psi).
Proof.
  induction l as [|p l IH]; simpl; intros H; auto. unfold pprod in *. rewrite IH by tauto. apply app1_comm. intros ->. tauto.
Qed.
Lemma pprod_perm l l' x z psi : NoDup l -> Permutation l l' -> pprod l x z psi = pprod l' x z psi.
Proof.
  intros ND P. revert ND. induction P; intros ND; auto.
  - inversion ND; subst. simpl. rewrite IHP; auto.
  - simpl. apply app1_comm. inversion ND; subst. simpl in *. intros ->. tauto.
  - rewrite IHP1, IHP2; auto. eapply Permutation_NoDup; eauto.
Qed.
(** bringing one or two qubits to the front *)
Lemma perm_front (l : list nat) q : NoDup l -> In q l -> exists l', Permutation l (q :: l') /\ NoDup (q :: l').
Proof.
  intros ND H. apply in_split in H. destruct H as (a & b & ->). exists (a ++ b).
  assert (P : Permutation (a ++ q :: b) (q :: a ++ b)) by (symmetry; apply Permutation_middle). split; auto. eapply Permutation_NoDup; eauto.
Qed.
Lemma perm_front2 (l : list nat) q r : NoDup l -> In q l -> In r l -> q <> r -> exists l', Permutation l (q :: r :: l') /\ NoDup (q :: r :: l').
Proof.
  intros ND H1 H2 N. destruct (perm_front l q ND H1) as (l1 & P1 & N1). inversion N1 as [|? ? A B]; subst.
  assert (In r l1). { apply (Permutation_in _ P1) in H2. destruct H2; congruence. }
  destruct (perm_front l1 r B H) as (l2 & P2 & N2). exists l2.
  assert (P : Permutation l (q :: r :: l2)) by (rewrite P1; constructor; auto). split; auto. eapply Permutation_NoDup; eauto.
Qed.

(** * Gates commute with operators elsewhere *)
Lemma cnot_app1 t c A q psi : c <> t -> q <> t -> q <> c -> gate (ICNOT t c) (app_op (OApp1 A q) psi) = app_op (OApp1 A q) (gate (ICNOT t c) psi).
Proof.
  intros N1 N2 N3. extensionality f. rewrite cnot_spec by auto. unfold app_op. rewrite !cnot_spec by auto.
  rewrite !upd_other by auto. rewrite !(upd_comm _ q t) by auto. auto.
Qed.
Lemma swap_app1 u v A q psi : q <> u -> q <> v -> gate (ISWAP u v) (app_op (OApp1 A q) psi) = app_op (OApp1 A q) (gate (ISWAP u v) psi).
Proof.
  intros N2 N3. extensionality f. cbn [gate]. unfold app_op. unfold swapst.
  rewrite !upd_other by auto. rewrite !(upd_comm _ q u), !(upd_comm _ q v) by auto. auto.
Qed.
Lemma gate_pauli_far (F : state -> state) l x z : (forall A q psi, In q l -> F (app_op (OApp1 A q) psi) = app_op (OApp1 A q) (F psi)) ->
  forall psi, F (pprod l x z psi) = pprod l x z (F psi).
Proof.
  intros H psi. induction l as [|q l IH]; simpl; auto. rewrite H by (simpl; auto). f_equal. apply IH. intros. apply H. simpl. auto.
Qed.

(** * Conjugation by one-qubit gates *)
Lemma app1_sgn A b q psi : app_op (OApp1 (mscale (sgn b) A) q) psi = cscale (sgn b) (app_op (OApp1 A q) psi).
Proof. apply app1_scale. auto. Qed.
Lemma conj1 U (x z x' z' s : bool) q psi : mmul U (pm x z) = mscale (sgn s) (mmul (pm x' z') U) ->
  app_op (OApp1 U q) (app_op (OApp1 (pm x z) q) psi) = cscale (sgn s) (app_op (OApp1 (pm x' z') q) (app_op (OApp1 U q) psi)).
Proof. intros H. rewrite !app1_app1, H. apply app1_sgn. Qed.
Lemma H_conj x z : mmul op_h (pm x z) = mscale (sgn (x && z)) (mmul (pm z x) op_h).
Proof. destruct x, z; unfold op_h, pm, mX, mY, mZ, mid, sgn; simpl; meq; ring. Qed.
Lemma S_conj x z : mmul op_s (pm x z) = mscale (sgn (x && z)) (mmul (pm x (xorb z x)) op_s).
Proof. pose proof Ci_sq as E. destruct x, z; unfold op_s, pm, mX, mY, mZ, mid, sgn; simpl; meq; ring [E].
Qed.
Lemma X_conj x z : mmul mX (pm x z) = mscale (sgn z) (mmul (pm x z) mX).
Proof. destruct x, z; unfold pm, mX, mY, mZ, mid, sgn; simpl; meq; ring. Qed.
Lemma Z_conj x z : mmul mZ (pm x z) = mscale (sgn x) (mmul (pm x z) mZ).
Proof. destruct x, z; unfold pm, mX, mY, mZ, mid, sgn; simpl; meq; ring. Qed.
Lemma Y_conj x z : mmul mY (pm x z) = mscale (sgn (xorb x z)) (mmul (pm x z) mY).
Proof. destruct x, z; unfold pm, mX, mY, mZ, mid, sgn; simpl; meq; ring. Qed.
Lemma pm_conj x z x' z' : mmul (pm x z) (pm x' z') = mscale (sgn (xorb (x && z') (z && x'))) (mmul (pm x' z') (pm x z)).
Proof. destruct x, z, x', z'; unfold pm, mX, mY, mZ, mid, sgn; simpl; meq; ring. Qed.
Lemma pm_sq x z : mmul (pm x z) (pm x z) = mid.
Proof. pose proof Ci_sq as E. destruct x, z; unfold pm, mX, mY, mZ, mid; simpl; meq; ring [E]. Qed.

Lemma sgn_xor a b : sgn (xorb a b) = sgn a * sgn b.
Proof. destruct a, b; simpl; ring. Qed.
Lemma updn_nat_same {A} (f : nat -> A) n v : (fun m => if (m =? n)%nat then v else f m) n = v.
Proof. cbv beta. rewrite Nat.eqb_refl. auto. Qed.

(** a gate on [q] conjugates the whole operator through its action at [q] *)
Lemma conj1_pauli U q l x z x' z' s psi : NoDup l -> In q l ->
  mmul U (pm (x q) (z q)) = mscale (sgn s) (mmul (pm (x' q) (z' q)) U) ->
  (forall p, In p l -> p <> q -> x' p = x p /\ z' p = z p) ->
  app_op (OApp1 U q) (pprod l x z psi) = cscale (sgn s) (pprod l x' z' (app_op (OApp1 U q) psi)).
Proof.
  intros ND I HU HE. destruct (perm_front l q ND I) as (l' & P & ND'). inversion ND' as [|? ? N1 N2]; subst.
  rewrite (pprod_perm l (q :: l') x z) by auto. rewrite (pprod_perm l (q :: l') x' z') by auto. simpl.
  rewrite (conj1 _ _ _ _ _ _ _ _ HU). f_equal. f_equal.
  rewrite pprod_app1 by auto. f_equal. apply pprod_ext. intros p Hp.
  destruct (HE p) as [-> ->]; auto. { apply (Permutation_in _ (Permutation_sym P)). simpl; auto. } intros ->; auto.
Qed.

(** * Conjugation by CNOT and SWAP *)
Lemma cnot_conj2 t c xc zc xt zt psi : c <> t ->
  gate (ICNOT t c) (app_op (OApp1 (pm xc zc) c) (app_op (OApp1 (pm xt zt) t) psi)) =
  cscale (sgn (xc && zt && negb (xorb xt zc)))
    (app_op (OApp1 (pm xc (xorb zc zt)) c) (app_op (OApp1 (pm (xorb xt xc) zt) t) (gate (ICNOT t c) psi))).
Proof.
  intros N. extensionality f. unfold cscale. rewrite cnot_spec by auto. unfold app_op.
  rewrite !cnot_spec by auto. repeat (rewrite !upd_same || rewrite !(upd_other _ t _ c) by auto || rewrite !(upd_other _ c _ t) by auto).
  rewrite !upd_upd. rewrite !(upd_comm _ c t) by auto. rewrite !upd_upd. rewrite !(upd_comm _ t c) by auto.
  set (P00 := psi (upd (upd f c false) t false)). set (P01 := psi (upd (upd f c false) t true)).
  set (P10 := psi (upd (upd f c true) t false)). set (P11 := psi (upd (upd f c true) t true)).
  assert (N' : t <> c) by auto. pose proof Ci_sq as E.
  repeat (rewrite !upd_same || rewrite !(upd_other _ t _ c) by auto || rewrite !(upd_other _ c _ t) by auto).
  rewrite !(upd_other f c _ t) by auto.
  destruct (f c), (f t), xc, zc, xt, zt; cbn [xorb andb negb sgn pm mget]; unfold mX, mY, mZ, mid; cbn [m00 m01 m10 m11];
  rewrite ?(upd_comm f t c) by auto; fold P00 P01 P10 P11; ring [E].
Qed.
Section Two.
Variables (u v : nat) (N : u <> v) (f : asg).
Definition V2 (a b : bool) : asg := upd (upd f u a) v b.
Lemma V2_f : f = V2 (f u) (f v).
Proof. unfold V2. rewrite upd_id, upd_id. auto. Qed.
Lemma V2_u a b a' : upd (V2 a b) u a' = V2 a' b.
Proof. unfold V2. rewrite (upd_comm _ v u), upd_upd by auto. auto. Qed.
Lemma V2_v a b b' : upd (V2 a b) v b' = V2 a b'.
Proof. unfold V2. apply upd_upd. Qed.
Lemma V2_gu a b : V2 a b u = a.
Proof. unfold V2. rewrite upd_other, upd_same by auto. auto. Qed.
Lemma V2_gv a b : V2 a b v = b.
Proof. unfold V2. apply upd_same. Qed.
Lemma V2_swap psi a b : swapst u v psi (V2 a b) = psi (V2 b a).
Proof. unfold swapst. rewrite V2_u, V2_v, V2_gu, V2_gv. auto. Qed.
End Two.
Lemma swap_conj2 u v A B psi : u <> v ->
  gate (ISWAP u v) (app_op (OApp1 A u) (app_op (OApp1 B v) psi)) = app_op (OApp1 B u) (app_op (OApp1 A v) (gate (ISWAP u v) psi)).
Proof.
  intros N. extensionality f. rewrite (V2_f u v f). generalize (f u) (f v). intros a b. cbn [gate]. rewrite V2_swap by auto. unfold app_op.
  repeat ((rewrite !V2_u by auto) || (rewrite !V2_v by auto) || (rewrite !V2_gu by auto) || (rewrite !V2_gv by auto)). rewrite !V2_swap by auto. ring.
Qed.
(** the whole operator *)
Lemma cnot_pprod t c l x z x' z' psi : NoDup l -> In t l -> In c l -> c <> t ->
  x' c = x c -> x' t = xorb (x t) (x c) -> z' c = xorb (z c) (z t) -> z' t = z t ->
  (forall p, In p l -> p <> c -> p <> t -> x' p = x p /\ z' p = z p) ->
  gate (ICNOT t c) (pprod l x z psi) = cscale (sgn (x c && z t && negb (xorb (x t) (z c)))) (pprod l x' z' (gate (ICNOT t c) psi)).
Proof.
  intros ND It Ic N E1 E2 E3 E4 HE. destruct (perm_front2 l c t ND Ic It N) as (l' & P & ND').
  inversion ND' as [|? ? N1 N2]; subst. inversion N2 as [|? ? N3 N4]; subst. simpl in N1.
  rewrite (pprod_perm l (c :: t :: l') x z) by auto. rewrite (pprod_perm l (c :: t :: l') x' z') by auto. cbn [pprod fold_right].
  rewrite cnot_conj2 by auto. rewrite E1, E2, E3, E4. f_equal. f_equal. f_equal.
  fold (pprod l' x z psi). rewrite gate_pauli_far by (intros; apply cnot_app1; auto; intros ->; tauto). apply pprod_ext.
  intros p Hp. destruct (HE p) as [-> ->]; auto. { apply (Permutation_in _ (Permutation_sym P)). simpl; auto. } all: intros ->; tauto.
Qed.
Lemma swap_pprod u v l x z x' z' psi : NoDup l -> In u l -> In v l -> u <> v ->
  x' u = x v -> x' v = x u -> z' u = z v -> z' v = z u ->
  (forall p, In p l -> p <> u -> p <> v -> x' p = x p /\ z' p = z p) ->
  gate (ISWAP u v) (pprod l x z psi) = pprod l x' z' (gate (ISWAP u v) psi).
Proof.
  intros ND It Ic N E1 E2 E3 E4 HE. destruct (perm_front2 l u v ND It Ic N) as (l' & P & ND').
  inversion ND' as [|? ? N1 N2]; subst. inversion N2 as [|? ? N3 N4]; subst. simpl in N1.
  rewrite (pprod_perm l (u :: v :: l') x z) by auto. rewrite (pprod_perm l (u :: v :: l') x' z') by auto. cbn [pprod fold_right].
  rewrite swap_conj2 by auto. rewrite E1, E2, E3, E4. f_equal. f_equal.
  fold (pprod l' x z psi). rewrite gate_pauli_far by (intros; apply swap_app1; intros ->; tauto). apply pprod_ext.
  intros p Hp. destruct (HE p) as [-> ->]; auto. { apply (Permutation_in _ (Permutation_sym P)). simpl; auto. } all: intros ->; tauto.
Qed.

(** * Supports *)
Lemma pprod_id l x z psi : (forall q, In q l -> x q = false /\ z q = false) -> pprod l x z psi = psi.
Proof.
  induction l as [|q l IH]; intros H; auto. cbn [pprod fold_right]. fold (pprod l x z psi). rewrite IH by (intros; apply H; simpl; auto).
  destruct (H q) as [-> ->]; [simpl; auto|]. apply app1_mid.
Qed.
Lemma pprod_one l x z q psi : NoDup l -> In q l -> (forall p, In p l -> p <> q -> x p = false /\ z p = false) ->
  pprod l x z psi = app_op (OApp1 (pm (x q) (z q)) q) psi.
Proof.
  intros ND I H. destruct (perm_front l q ND I) as (l' & P & ND'). inversion ND'; subst. rewrite (pprod_perm l (q :: l')) by auto. cbn [pprod fold_right].
  f_equal. apply pprod_id. intros p Hp. apply H. apply (Permutation_in _ (Permutation_sym P)); simpl; auto. intros ->; tauto.
Qed.
Lemma pprod_sub keys l x z psi : NoDup l -> NoDup keys -> incl keys l -> (forall p, In p l -> ~ In p keys -> x p = false /\ z p = false) ->
  pprod l x z psi = pprod keys x z psi.
Proof.
  revert l. induction keys as [|k keys IH]; intros l ND NK HI H.
  - apply pprod_id. intros q Hq. apply H; auto.
  - inversion NK as [|? ? K1 K2]; subst. destruct (perm_front l k ND) as (l' & P & ND'). { apply HI. simpl. auto. }
    inversion ND' as [|? ? L1 L2]; subst. rewrite (pprod_perm l (k :: l')) by auto. cbn [pprod fold_right]. f_equal. apply IH; auto.
    + intros p Hp. assert (In p l) by (apply HI; simpl; auto). apply (Permutation_in _ P) in H0. destruct H0; auto. subst. tauto.
    + intros p Hp Np. apply H. apply (Permutation_in _ (Permutation_sym P)); simpl; auto. intros [->|]; tauto.
Qed.
Lemma axis_pm a : axis_mat a = pm (ax_x a) (ax_z a).
Proof. destruct a; reflexivity. Qed.
Lemma axes_op_pprod l x z psi : NoDup (dkeys l) -> (forall q a, In (q, a) l -> x q = ax_x a /\ z q = ax_z a) -> axes_op l psi = pprod (dkeys l) x z psi.
Proof.
  induction l as [|[q a] l IH]; intros ND H; auto. cbn [dkeys map fst]. inversion ND; subst. cbn [axes_op fold_right pprod fst snd].
  fold (axes_op l psi). fold (dkeys l). fold (pprod (dkeys l) x z psi). rewrite IH; auto.
  - rewrite axis_pm. destruct (H q a) as [-> ->]; simpl; auto.
  - intros. apply H. simpl; auto.
Qed.
(** the operator of a string, through its bits *)
Lemma ps_op_pprod p psi : ps_ok p -> ps_op p psi = sgnop (ps_s p) (pprod (range (ps_dim p)) (ps_x p) (ps_z p)) psi.
Proof.
  intros [ND LT]. unfold ps_op, sgnop. f_equal. { unfold ps_s, sign_C, sign_R, sgn. destruct (ps_sign p); apply C_eq; cbn; ring. }
  rewrite (axes_op_pprod _ (ps_x p) (ps_z p)); auto.
  - symmetry. apply pprod_sub; auto.
    + apply seq_NoDup.
    + intros q Hq. unfold range. apply in_seq. specialize (LT q Hq). lia.
    + intros q _ N. unfold ps_x, ps_z. assert (dget (ps_axes p) q = None) as -> by (apply dget_None; auto). auto.
  - intros q a I. unfold ps_x, ps_z. rewrite (In_dget _ _ _ ND I). auto.
Qed.
