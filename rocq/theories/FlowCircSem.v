(** Pauli operators on open graph states with exact signs, and measurements that
    absorb them: the argument behind circuit extraction.  Proof infrastructure
    for C50. *)
From Coq Require Import Reals Lra Arith List Bool Lia Permutation FunctionalExtensionality.
From Verif Require Import Cplx Mat2 NSet QState Fundamentals Clifford Measure Layer Pattern Standardize Statevec Density Circuit PauliStr PauliOp FlowSem GState Ladder.
Import ListNotations.
Local Open Scope list_scope.
Local Arguments app_op : simpl never.

(** * Closed form of a product of Paulis *)
Definition shift (x : nat -> bool) (f : asg) : asg := fun n => xorb (f n) (x n).
Definition dot (l : list nat) (z : nat -> bool) (f : asg) : bool := gx (fun n => z n && f n) l.
Definition yph (l : list nat) (x z : nat -> bool) : C := fold_right (fun n c => Cmul (if x n && z n then (- Ci)%C else C1) c) C1 l.
Lemma pm_at x z q psi f : app_op (OApp1 (pm x z) q) psi f = ((if x && z then - Ci else C1) * sgn (z && f q) * psi (upd f q (xorb (f q) x)))%C.
Proof.
  unfold app_op. pose proof (upd_id f q) as E.
  destruct x, z, (f q); cbn [andb xorb sgn pm mget]; unfold mX, mY, mZ, mid; cbn [m00 m01 m10 m11]; ring.
Qed.
Lemma dot_upd l z f q b : ~ In q l -> dot l z (upd f q b) = dot l z f.
Proof. intros H. apply gx_ext. intros n Hn. rewrite upd_other; auto. intros ->; auto. Qed.
Lemma pprod_at l x z psi f : NoDup l ->
  pprod l x z psi f = (yph l x z * sgn (dot l z f) * psi (shift (fun n => x n && lmem n l) f))%C.
Proof.
  revert f. induction l as [|q l IH]; intros f ND.
  - cbn. unfold shift. replace (fun n => xorb (f n) (x n && false)) with f by (extensionality n; rewrite andb_false_r, xorb_false_r; auto). ring.
  - inversion ND as [|? ? N1 N2]; subst. change (pprod (q :: l) x z psi f) with (app_op (OApp1 (pm (x q) (z q)) q) (pprod l x z psi) f).
    rewrite pm_at, IH by auto. rewrite dot_upd by auto. cbn [yph fold_right]. fold (yph l x z).
    unfold dot at 2. cbn [gx fold_right]. fold (gx (fun n => z n && f n) l). fold (dot l z f). rewrite sgn_xor.
    replace (shift (fun n => x n && lmem n l) (upd f q (xorb (f q) (x q)))) with (shift (fun n => x n && lmem n (q :: l)) f).
    2:{ extensionality n. unfold shift, upd, lmem. cbn [existsb]. destruct (Nat.eqb_spec n q) as [->|].
        - assert (lmem q l = false) as K by (apply not_true_iff_false; rewrite lmem_In; auto). unfold lmem in K. rewrite K, andb_true_r, andb_false_r, xorb_false_r. auto.
        - auto. }
    ring.
Qed.
Lemma dot_xor l z z' f : dot l (fun n => xorb (z n) (z' n)) f = xorb (dot l z f) (dot l z' f).
Proof. unfold dot. induction l as [|n l IH]; auto. cbn [gx fold_right]. fold (gx (fun n => z n && f n) l) (gx (fun n => z' n && f n) l) (gx (fun n => xorb (z n) (z' n) && f n) l). rewrite IH.
  destruct (z n), (z' n), (f n), (gx (fun n => z n && f n) l), (gx (fun n => z' n && f n) l); auto. Qed.
Lemma gx_none {A} (l : list A) : gx (fun _ => false) l = false.
Proof. induction l as [|a l IH]; [auto|]. change (xorb false (gx (fun _ : A => false) l) = false). rewrite IH. auto. Qed.
Lemma dot_one l u b f : NoDup l -> In u l -> dot l (fun n => (n =? u)%nat && b) f = b && f u.
Proof.
  intros ND. unfold dot. induction l as [|n l IH]; [intros []|]. inversion ND as [|? ? N1 N2]; subst. intros I. cbn [gx fold_right]. fold (gx (fun n => (n =? u)%nat && b && f n) l).
  destruct (Nat.eqb_spec n u) as [->|N].
  - replace (gx (fun n => (n =? u)%nat && b && f n) l) with false; [cbn; apply xorb_false_r|]. symmetry.
    transitivity (gx (fun _ : nat => false) l); [|apply gx_none]. apply gx_ext. intros a Ha. replace (a =? u)%nat with false; auto. symmetry. apply Nat.eqb_neq. intros ->; auto.
  - cbn [andb]. rewrite xorb_false_l. apply IH; auto. destruct I; congruence.
Qed.
Lemma Qf_shift L es x f : NoDup L -> (forall e, In e es -> In (fst e) L /\ In (snd e) L) ->
  Qf es (shift x f) = xorb (Qf es f) (xorb (Qf es x) (dot L (oddp es x) f)).
Proof.
  intros ND. induction es as [|[u v] es IH]; intros H.
  - assert (D : dot L (oddp [] x) f = false) by apply gx_none. rewrite D. reflexivity.
  - destruct (H (u, v)) as [Hu Hv]; [left; auto|]. cbn [fst snd] in *. unfold Qf in *. cbn [gx fold_right]. fold (gx (eb (shift x f)) es) (gx (eb f) es) (gx (eb x) es).
    rewrite IH by (intros; apply H; right; auto).
    replace (dot L (oddp ((u, v) :: es) x) f) with (xorb (dot L (fun n => czz x u v n) f) (dot L (oddp es x) f)) by (rewrite <- dot_xor; reflexivity).
    unfold czz. rewrite dot_xor, !dot_one by auto. unfold eb, shift. cbn [fst snd].
    destruct (f u), (f v), (x u), (x v), (gx (fun e => f (fst e) && f (snd e)) es), (gx (fun e => x (fst e) && x (snd e)) es), (dot L (oddp es x) f); auto.
Qed.
Lemma shift_self x : shift x x = fun _ => false.
Proof. extensionality n. apply xorb_nilpotent. Qed.
Lemma Qf_0 es : Qf es (fun _ => false) = false.
Proof. apply gx_none. Qed.
Lemma dot_self L es x : NoDup L -> (forall e, In e es -> In (fst e) L /\ In (snd e) L) -> dot L (oddp es x) x = false.
Proof.
  intros ND H. pose proof (Qf_shift L es x x ND H) as E. rewrite shift_self, Qf_0 in E. destruct (Qf es x), (dot L (oddp es x) x); auto.
Qed.
(** the number of Y is even: the phase is a sign *)
Definition ycount (l : list nat) (x z : nat -> bool) : nat := length (filter (fun n => x n && z n) l).
Lemma odd_half_SS k : Nat.odd (S (S k) / 2) = negb (Nat.odd (k / 2)).
Proof. replace (S (S k)) with (k + 1 * 2)%nat by lia. rewrite Nat.div_add by lia. rewrite Nat.add_1_r, Nat.odd_succ, <- Nat.negb_odd. auto. Qed.
Lemma ipow k : (forall c, (Nat.iter k (fun c => - Ci * c) c = (if Nat.odd k then - Ci else C1) * sgn (Nat.odd (k / 2)) * c)%C).
Proof.
  induction k as [k IH] using lt_wf_ind. intros c. destruct k as [|[|k]].
  - cbn. ring.
  - cbn. ring.
  - cbn [Nat.iter nat_rect]. unfold Nat.iter in IH. rewrite IH by lia. rewrite odd_half_SS. replace (Nat.odd (S (S k))) with (Nat.odd k) by (rewrite Nat.odd_succ, Nat.even_succ; auto).
    pose proof Ci_sq as E. destruct (Nat.odd k), (Nat.odd (k / 2)); cbn [negb sgn]; ring [E].
Qed.
Lemma yph_count l x z : yph l x z = ((if Nat.odd (ycount l x z) then - Ci else C1) * sgn (Nat.odd (ycount l x z / 2)))%C.
Proof.
  transitivity (Nat.iter (ycount l x z) (fun c => - Ci * c) C1)%C; [|rewrite ipow; ring].
  unfold ycount. induction l as [|n l IH]; auto. cbn [yph fold_right filter]. fold (yph l x z). rewrite IH. destruct (x n && z n); cbn [length Nat.iter nat_rect]; [auto|unfold Nat.iter; ring].
Qed.
Lemma gx_odd {A} (p : A -> bool) l : gx p l = Nat.odd (length (filter p l)).
Proof. induction l as [|a l IH]; auto. cbn [gx fold_right filter]. fold (gx p l). rewrite IH. destruct (p a); cbn [length]; [rewrite Nat.odd_succ, <- Nat.negb_odd; destruct (Nat.odd _); auto|apply xorb_false_l]. Qed.
Lemma yph_sign L es x : NoDup L -> (forall e, In e es -> In (fst e) L /\ In (snd e) L) ->
  yph L x (oddp es x) = sgn (Nat.odd (ycount L x (oddp es x) / 2)).
Proof.
  intros ND H. rewrite yph_count. replace (Nat.odd (ycount L x (oddp es x))) with false; [ring|]. symmetry. unfold ycount. rewrite <- gx_odd.
  rewrite <- (dot_self L es x ND H). apply gx_ext. intros. apply andb_comm.
Qed.
(** X on a set, Z on its odd neighbourhood *)
Lemma graph_pauli L es x psi : NoDup L -> (forall e, In e es -> In (fst e) L /\ In (snd e) L) -> (forall n, x n = true -> In n L) ->
  pprod L x (oddp es x) (den (cz_ops es) psi)
  = cscale (sgn (xorb (Qf es x) (Nat.odd (ycount L x (oddp es x) / 2)))) (den (cz_ops es) (pprod L x (fun _ => false) psi)).
Proof.
  intros ND H HX. assert (SX : (fun n => x n && lmem n L) = x).
  { extensionality n. destruct (x n) eqn:E; auto. apply HX in E. cbn. apply lmem_In; auto. }
  extensionality f. rewrite den_cz, den_cz. unfold cscale. rewrite !pprod_at by auto. rewrite SX. rewrite (Qf_shift L) by auto. rewrite yph_sign by auto.
  assert (Y0 : yph L x (fun _ => false) = C1). { clear. induction L as [|n L IH]; auto. cbn [yph fold_right]. fold (yph L x (fun _ => false)). rewrite IH, andb_false_r. ring. }
  assert (D0 : dot L (fun _ => false) f = false) by apply gx_none.
  rewrite Y0, D0. cbn [sgn]. rewrite !sgn_xor. 
  assert (SS : (sgn (dot L (oddp es x) f) * sgn (dot L (oddp es x) f) = C1)%C) by (destruct (dot L (oddp es x) f); cbn; ring).
  transitivity (sgn (Nat.odd (ycount L x (oddp es x) / 2)) * sgn (Qf es f) * sgn (Qf es x) * (sgn (dot L (oddp es x) f) * sgn (dot L (oddp es x) f)) * psi (shift x f))%C; [ring|]. rewrite SS. ring.
Qed.
(** * X on independent nodes *)
Lemma X_indep n psi : indep n psi -> app_op (OApp1 mX n) psi = psi.
Proof. intros H. extensionality f. unfold app_op, mX. rewrite !H. destruct (f n); cbn; ring. Qed.
Lemma pprod_X_none l x psi : (forall n, In n l -> x n = true -> indep n psi) -> pprod l x (fun _ => false) psi = psi.
Proof.
  induction l as [|n l IH]; intros H; auto. change (pprod (n :: l) x (fun _ => false) psi) with (app_op (OApp1 (pm (x n) false) n) (pprod l x (fun _ => false) psi)).
  rewrite IH by (intros; apply H; auto; right; auto). destruct (x n) eqn:E; cbn [pm]; [apply X_indep, H; auto; left; auto|apply app1_mid].
Qed.
Lemma pprod_X_one l x i psi : NoDup l -> In i l -> x i = true -> (forall n, In n l -> x n = true -> n <> i -> indep n psi) ->
  pprod l x (fun _ => false) psi = app_op (OApp1 mX i) psi.
Proof.
  intros ND I HX H. destruct (perm_front l i ND I) as (l' & P & ND'). inversion ND' as [|? ? N1 N2]; subst. rewrite (pprod_perm l (i :: l')) by auto.
  change (pprod (i :: l') x (fun _ => false) psi) with (app_op (OApp1 (pm (x i) false) i) (pprod l' x (fun _ => false) psi)). rewrite HX. cbn [pm]. f_equal.
  apply pprod_X_none. intros n Hn HXn. apply H; auto; [apply (Permutation_in _ (Permutation_sym P)); right; auto|intros ->; auto].
Qed.
(** * Absorption by measurements *)
Definition mops (mu : nat -> vec2) (ml : list nat) : list op := map (fun n => OMeas (mu n) n) ml.
Lemma meas_pm x z n w s phi : vmul (pm x z) w = Vec2 (sgn s * v0 w)%C (sgn s * v1 w)%C ->
  app_op (OMeas w n) (app_op (OApp1 (pm x z) n) phi) = cscale (sgn s) (app_op (OMeas w n) phi).
Proof.
  intros H. assert (H0 := f_equal v0 H). assert (H1 := f_equal v1 H). cbn [v0 v1] in H0, H1.
  assert (E0 : Cconj (v0 (vmul (pm x z) w)) = (sgn s * Cconj (v0 w))%C) by (rewrite H0, Cconj_mul; destruct s; cbn [sgn]; f_equal; apply C_eq; cbn; ring).
  assert (E1 : Cconj (v1 (vmul (pm x z) w)) = (sgn s * Cconj (v1 w))%C) by (rewrite H1, Cconj_mul; destruct s; cbn [sgn]; f_equal; apply C_eq; cbn; ring).
  extensionality f. unfold app_op, cscale. rewrite !upd_same, !upd_upd.
  transitivity (Cconj (v0 (vmul (pm x z) w)) * phi (upd f n false) + Cconj (v1 (vmul (pm x z) w)) * phi (upd f n true))%C; [|rewrite E0, E1; ring].
  destruct x, z; unfold vmul, pm, mX, mY, mZ, mid; cbn [m00 m01 m10 m11 v0 v1 mget]; rewrite !Cconj_add, !Cconj_mul.
  all: try (assert (Cconj (- Ci)%C = Ci) as -> by (apply C_eq; cbn; ring)); try (assert (Cconj Ci = (- Ci)%C) as -> by (apply C_eq; cbn; ring)).
  all: try (assert (Cconj C0 = C0) as -> by (apply C_eq; cbn; ring)); try (assert (Cconj C1 = C1) as -> by (apply C_eq; cbn; ring)); try (assert (Cconj (- C1)%C = (- C1)%C) as -> by (apply C_eq; cbn; ring)); ring.
Qed.
Lemma meas_app1_comm w n U q phi : q <> n -> app_op (OMeas w n) (app_op (OApp1 U q) phi) = app_op (OApp1 U q) (app_op (OMeas w n) phi).
Proof. intros N. apply op_comm. intros k [<-|[]] [E|[]]. congruence. Qed.
Lemma mops_app1 mu ml U q phi : ~ In q ml -> den (mops mu ml) (app_op (OApp1 U q) phi) = app_op (OApp1 U q) (den (mops mu ml) phi).
Proof.
  revert phi. induction ml as [|n ml IH]; intros phi H; auto. cbn [mops map den]. fold (mops mu ml). rewrite meas_app1_comm by (intros ->; apply H; left; auto).
  apply IH. intros K. apply H. right; auto.
Qed.
Lemma mops_scale mu ml c phi : den (mops mu ml) (cscale c phi) = cscale c (den (mops mu ml) phi).
Proof. apply den_scale. Qed.
Lemma mops_pprod mu ml O x z phi : (forall q, In q O -> ~ In q ml) -> den (mops mu ml) (pprod O x z phi) = pprod O x z (den (mops mu ml) phi).
Proof.
  induction O as [|q O IH]; intros H; auto. change (pprod (q :: O) x z ?p) with (app_op (OApp1 (pm (x q) (z q)) q) (pprod O x z p)).
  rewrite mops_app1 by (apply H; left; auto). rewrite IH by (intros; apply H; right; auto). auto.
Qed.
Lemma absorb mu ml x z s phi : NoDup ml -> (forall n, In n ml -> vmul (pm (x n) (z n)) (mu n) = Vec2 (sgn (s n) * v0 (mu n))%C (sgn (s n) * v1 (mu n))%C) ->
  den (mops mu ml) (pprod ml x z phi) = cscale (sgn (gx s ml)) (den (mops mu ml) phi).
Proof.
  revert phi. induction ml as [|n ml IH]; intros phi ND H; [cbn; rewrite cscale_1; auto|]. inversion ND as [|? ? N1 N2]; subst.
  cbn [mops map den]. fold (mops mu ml). change (pprod (n :: ml) x z phi) with (app_op (OApp1 (pm (x n) (z n)) n) (pprod ml x z phi)).
  rewrite (meas_pm _ _ _ _ (s n)) by (apply H; left; auto). rewrite mops_scale.
  assert (E : app_op (OMeas (mu n) n) (pprod ml x z phi) = pprod ml x z (app_op (OMeas (mu n) n) phi)).
  { clear - N1. induction ml as [|q ml IH]; auto. change (pprod (q :: ml) x z ?p) with (app_op (OApp1 (pm (x q) (z q)) q) (pprod ml x z p)).
    rewrite meas_app1_comm by (intros ->; apply N1; left; auto). rewrite IH; auto. intros K. apply N1; right; auto. }
  rewrite E, IH by (auto; intros; apply H; right; auto). rewrite cscale_cscale. f_equal. cbn [gx fold_right]. rewrite sgn_xor. auto.
Qed.
Lemma NoDup_app_l {A} (a b : list A) : NoDup (a ++ b) -> NoDup a.
Proof. induction a as [|x a IH]; intros H; constructor; inversion H; subst; auto. intros K. apply H2, in_or_app; auto. Qed.
(** all measured nodes absorb their part of the operator *)
Lemma absorb_all mu ml O L x z s phi : Permutation L (ml ++ O) -> NoDup L -> (forall n, In n ml -> vmul (pm (x n) (z n)) (mu n) = Vec2 (sgn (s n) * v0 (mu n))%C (sgn (s n) * v1 (mu n))%C) ->
  den (mops mu ml) (pprod L x z phi) = cscale (sgn (gx s ml)) (pprod O x z (den (mops mu ml) phi)).
Proof.
  intros P ND H. rewrite (pprod_perm L (ml ++ O)) by auto. assert (ND' : NoDup (ml ++ O)) by (eapply Permutation_NoDup; eauto). rewrite pprod_app.
  rewrite (absorb mu ml x z s) by (auto; apply (NoDup_app_l _ _ ND')). f_equal. apply mops_pprod. intros q Hq Hm. clear - ND' Hq Hm.
  induction ml as [|m ml IH]; [destruct Hm|]. inversion ND'; subst. destruct Hm as [->|Hm]; [apply H1, in_or_app; auto|auto].
Qed.
(** all but [v] *)
Lemma absorb_but mu ml O L v x z s phi : Permutation L (ml ++ O) -> NoDup L -> In v ml ->
  (forall n, In n ml -> n <> v -> vmul (pm (x n) (z n)) (mu n) = Vec2 (sgn (s n) * v0 (mu n))%C (sgn (s n) * v1 (mu n))%C) -> s v = false ->
  den (mops mu ml) (pprod L x z phi) = cscale (sgn (gx s ml)) (pprod O x z (den (mops mu ml) (app_op (OApp1 (pm (x v) (z v)) v) phi))).
Proof.
  intros P ND Hv H SV. set (x' := fun n => if (n =? v)%nat then false else x n). set (z' := fun n => if (n =? v)%nat then false else z n).
  assert (HL : In v L) by (apply (Permutation_in _ (Permutation_sym P)), in_or_app; auto).
  assert (E : pprod L x z phi = pprod L x' z' (app_op (OApp1 (pm (x v) (z v)) v) phi)).
  { destruct (perm_front L v ND HL) as (l' & P' & ND'). inversion ND' as [|? ? N1 N2]; subst. rewrite !(pprod_perm L (v :: l')) by auto.
    change (pprod (v :: l') ?a ?b ?p) with (app_op (OApp1 (pm (a v) (b v)) v) (pprod l' a b p)). unfold x' at 1, z' at 1. rewrite Nat.eqb_refl. cbn [pm]. rewrite app1_mid.
    rewrite pprod_app1 by auto. f_equal. apply pprod_ext. intros q Hq. unfold x', z'. replace (q =? v)%nat with false; auto. symmetry. apply Nat.eqb_neq. intros ->; auto. }
  assert (H' : forall n, In n ml -> vmul (pm (x' n) (z' n)) (mu n) = Vec2 (sgn (s n) * v0 (mu n))%C (sgn (s n) * v1 (mu n))%C).
  { intros n Hn. unfold x', z'. destruct (Nat.eqb_spec n v) as [->|N]; [|auto]. rewrite SV. cbn [pm sgn]. rewrite vmul_1. destruct (mu v) as [a b]. cbn [v0 v1]. f_equal; ring. }
  rewrite E. rewrite (absorb_all mu ml O L x' z' s _ P ND H').
  f_equal. apply pprod_ext. intros q Hq. assert (N : q <> v). { intros ->. apply (Permutation_NoDup P) in ND. clear - ND Hv Hq.
    induction ml as [|m ml IH]; [destruct Hv|]. inversion ND; subst. destruct Hv as [->|Hv]; [apply H1, in_or_app; auto|auto]. }
  unfold x', z'. apply Nat.eqb_neq in N. rewrite N. auto.
Qed.

(** * Measurements at angle 0 and rotations *)
Definition zm (m : measurement) : measurement := match m with MBloch _ p => MBloch 0 p | m => m end.
Definition is_minus (m : measurement) : bool := match m with MPauli _ Minus => true | _ => false end.
(** the Pauli with bits (x, z) is the identity or the axis of [zm m] *)
Definition fits (m : measurement) (x z : bool) : bool :=
  match m with
  | MBloch _ PXY | MPauli AX _ => negb z
  | MBloch _ _ | MPauli AZ _ => negb x
  | MPauli AY _ => eqb x z
  end.
Lemma cis_00 : cis (0 + b2R false) = C1.
Proof. cbn [b2R]. rewrite Rplus_0_r. apply cis_0. Qed.
Lemma zm_absorb m x z : fits m x z = true ->
  vmul (pm x z) (mvec (zm m) false) = Vec2 (sgn (is_minus m && (x || z)) * v0 (mvec (zm m) false))%C (sgn (is_minus m && (x || z)) * v1 (mvec (zm m) false))%C.
Proof.
  intros F. destruct m as [a [| |]|[] []]; destruct x, z; cbn in F; try discriminate; cbn [zm is_minus andb orb sgn]; unfold mvec; cbn [to_bloch b2R]; rewrite ?Rplus_0_r; unfold planar_state;
    rewrite ?cis_0; unfold vmul, pm, mX, mY, mZ, mid; cbn [m00 m01 m10 m11 v0 v1]; f_equal; try ring.
  all: try (replace (0 * PI / 2)%R with 0%R by field; rewrite ?cos_0, ?sin_0).
  all: try (replace (1 * PI / 2)%R with (PI / 2)%R by field; rewrite ?cos_PI2, ?sin_PI2).
  all: unfold cis; try (replace (1 * PI)%R with PI by ring; rewrite ?cos_PI, ?sin_PI); try (replace (1 / 2 * PI)%R with (PI / 2)%R by field; rewrite ?cos_PI2, ?sin_PI2).
  all: try (replace (3 / 2 * PI)%R with (3 * (PI / 2))%R by field; rewrite ?cos_3PI2, ?sin_3PI2).
  all: apply C_eq; cbn; ring.
Qed.
Definition px (p : plane) : bool := match p with PXY => false | _ => true end.
Definition pz (p : plane) : bool := match p with PYZ => false | _ => true end.
Definition pneg (p : plane) : bool := match p with PYZ => true | _ => false end.
(** <m(a)| = e^{i c} <m(0)| (cos(a/2) + i sin(a/2) s P) *)
Lemma rot_meas a p : exists c, phase c /\ forall n phi,
  app_op (OMeas (mvec (MBloch a p) false) n) phi = cscale c (app_op (OMeas (mvec (MBloch 0 p) false) n)
    (exp_op (a / 2) (sgnop (pneg p) (app_op (OApp1 (pm (px p) (pz p)) n))) phi)).
Proof.
  exists (match p with PXY => cis (- (a / 2)) | _ => C1 end)%R. split; [destruct p; [apply phase_cis|apply phase_1|apply phase_1]|].
  intros n phi. extensionality f. unfold app_op, cscale, exp_op, sadd_st, sgnop, cscale. rewrite !upd_same, !upd_upd.
  unfold mvec. cbn [to_bloch b2R]. rewrite !Rplus_0_r.
  set (A := phi (upd f n false)). set (B := phi (upd f n true)). destruct A as [a1 a2], B as [b1 b2].
  destruct p; cbn [px pz pneg pm sgn]; unfold planar_state, mX, mY, mZ; cbn [v0 v1 mget m00 m01 m10 m11].
  - rewrite cis_0. unfold cis. replace (- (a / 2) * PI)%R with (- (a / 2 * PI))%R by ring. replace (a * PI)%R with (2 * (a / 2 * PI))%R by field.
    rewrite cos_2a, sin_2a, cos_neg, sin_neg. set (t := (a / 2 * PI)%R). pose proof (sin2_cos2 t) as E. unfold Rsqr in E.
    set (ct := cos t) in *. set (st := sin t) in *. set (h := (/ sqrt 2)%R).
    assert (E1 : (st * st = 1 - ct * ct)%R) by lra.
    apply C_eq; cbn; ring_simplify; replace (st ^ 2)%R with (1 - ct * ct)%R by (rewrite <- E1; ring); ring.
  - replace (a * PI / 2)%R with (a / 2 * PI)%R by field. replace (0 * PI / 2)%R with 0%R by field. rewrite cos_0, sin_0. apply C_eq; cbn; ring.
  - replace (a * PI / 2)%R with (a / 2 * PI)%R by field. replace (0 * PI / 2)%R with 0%R by field. rewrite cos_0, sin_0. apply C_eq; cbn; ring.
Qed.
Lemma mops_perm mu ml ml' phi : NoDup ml -> Permutation ml ml' -> den (mops mu ml) phi = den (mops mu ml') phi.
Proof.
  intros ND P. revert phi ND. induction P; intros phi ND; auto.
  - inversion ND; subst. cbn [mops map den]. apply IHP; auto.
  - cbn [mops map den]. f_equal. apply op_comm. intros k [<-|[]] [E|[]]. inversion ND as [|? ? K _]; subst. apply K; left; auto.
  - rewrite IHP1, IHP2; auto. eapply Permutation_NoDup; eauto.
Qed.
Lemma mops_ext mu mu' ml : (forall n, In n ml -> mu n = mu' n) -> mops mu ml = mops mu' ml.
Proof. intros H. apply map_ext_in. intros. rewrite H; auto. Qed.
Lemma den_exp l a s F phi : den l (exp_op a (sgnop s F) phi) = sadd_st (cscale (RtoC (cos (a * PI))) (den l phi)) (cscale (Ci * RtoC (sin (a * PI)) * sgn s)%C (den l (F phi))).
Proof. unfold exp_op, sgnop. rewrite den_add, !den_scale, cscale_cscale. auto. Qed.

Section Rotations.
Variables (ml O L : list nat) (meas : nat -> measurement).
Hypothesis HP : Permutation L (ml ++ O).
Hypothesis HL : NoDup L.
(** nodes of [T] keep their angle, the others are at angle 0 *)
Definition muT (T : list nat) (n : nat) : vec2 := mvec (if lmem n T then meas n else zm (meas n)) false.
(** the operator with bits (x, z) fits all measurements except that of [v];
    nodes that keep a planar angle are not touched *)
Definition fits_but (T : list nat) (v : nat) (x z : nat -> bool) : Prop := forall n, In n ml -> n <> v ->
  fits (meas n) (x n) (z n) = true /\ (lmem n T = true -> (exists a p, meas n = MBloch a p) -> x n = false /\ z n = false).
Definition msign (v : nat) (x z : nat -> bool) : bool := gx (fun n => negb (n =? v)%nat && (is_minus (meas n) && (x n || z n))) ml.
Lemma fits_absorb T v x z n : fits_but T v x z -> In n ml -> n <> v ->
  vmul (pm (x n) (z n)) (muT T n) = Vec2 (sgn (is_minus (meas n) && (x n || z n)) * v0 (muT T n))%C (sgn (is_minus (meas n) && (x n || z n)) * v1 (muT T n))%C.
Proof.
  intros H Hn Hv. destruct (H n Hn Hv) as [F K]. unfold muT. destruct (lmem n T) eqn:E; [|apply zm_absorb; auto].
  destruct (meas n) as [a p|ax s] eqn:Em; [|apply (zm_absorb (MPauli ax s)); auto].
  destruct K as [K1 K2]; eauto. rewrite K1, K2. cbn [is_minus andb sgn pm]. rewrite vmul_1. destruct (mvec (MBloch a p) false) as [c d]. cbn [v0 v1]. f_equal; ring.
Qed.
Lemma move_pauli T v x z phi : In v ml -> fits_but T v x z ->
  den (mops (muT T) ml) (pprod L x z phi) = cscale (sgn (msign v x z)) (pprod O x z (den (mops (muT T) ml) (app_op (OApp1 (pm (x v) (z v)) v) phi))).
Proof.
  intros Hv HF. unfold msign. apply absorb_but; auto.
  - intros n Hn N. rewrite (fits_absorb T v) by auto. replace (n =? v)%nat with false by (symmetry; apply Nat.eqb_neq; auto). reflexivity.
  - cbn beta. rewrite Nat.eqb_refl. auto.
Qed.
Lemma O_nodup : NoDup O.
Proof. apply (Permutation_NoDup HP) in HL. clear - HL. induction ml; auto. inversion HL; auto. Qed.
Lemma ml_nodup : NoDup ml.
Proof. apply (Permutation_NoDup HP) in HL. eapply NoDup_app_l; eauto. Qed.
(** a rotated measurement is an exponential of the operator on the outputs *)
Lemma rot_step T v a p x z e : In v ml -> meas v = MBloch a p -> ~ In v T -> x v = px p -> z v = pz p -> fits_but T v x z ->
  exists c, phase c /\ forall phi, pprod L x z phi = cscale (sgn e) phi -> den (mops (muT (T ++ [v])) ml) phi
    = cscale c (exp_op (a / 2) (sgnop (xorb (xorb e (msign v x z)) (pneg p)) (pprod O x z)) (den (mops (muT T) ml) phi)).
Proof.
  intros Hv Em HT Ex Ez HF. destruct (rot_meas a p) as (c & Hc & ER). exists c. split; auto. intros phi HK.
  pose proof ml_nodup as NM. destruct (perm_front ml v NM Hv) as (ml' & P' & ND'). inversion ND' as [|? ? N1 N2]; subst.
  assert (TV : lmem v T = false) by (apply not_true_iff_false; rewrite lmem_In; auto).
  assert (MV : muT (T ++ [v]) v = mvec (MBloch a p) false). { unfold muT. rewrite (proj2 (lmem_In v (T ++ [v]))) by (apply in_or_app; right; left; auto). rewrite Em. auto. }
  assert (MV' : muT T v = mvec (MBloch 0 p) false). { unfold muT. rewrite TV, Em. auto. }
  assert (EXT : mops (muT (T ++ [v])) ml' = mops (muT T) ml').
  { apply mops_ext. intros n Hn. unfold muT. replace (lmem n (T ++ [v])) with (lmem n T); auto. apply eq_true_iff_eq. rewrite !lmem_In, in_app_iff. split; [auto|]. intros [K|[<-|[]]]; [auto|tauto]. }
  rewrite (mops_perm _ ml (v :: ml')) by auto. cbn [mops map den]. fold (mops (muT (T ++ [v])) ml'). rewrite EXT, MV, ER, mops_scale. f_equal.
  assert (BACK : forall chi, den (mops (muT T) ml') (app_op (OMeas (mvec (MBloch 0 p) false) v) chi) = den (mops (muT T) ml) chi).
  { intros chi. rewrite (mops_perm _ ml (v :: ml')) by auto. cbn [mops map den]. rewrite MV'. auto. }
  rewrite BACK, den_exp. unfold exp_op. f_equal.
  pose proof (move_pauli T v x z phi Hv HF) as MP. rewrite HK, mops_scale in MP.
  assert (E2 : den (mops (muT T) ml) (app_op (OApp1 (pm (px p) (pz p)) v) phi) = cscale (sgn (xorb e (msign v x z))) (pprod O x z (den (mops (muT T) ml) phi))).
  { rewrite <- Ex, <- Ez. apply (f_equal (fun s => cscale (sgn (msign v x z)) (pprod O x z s))) in MP. rewrite !pprod_scale, Berg.pprod_sq in MP by apply O_nodup.
    rewrite !cscale_cscale in MP. rewrite sgn_xor. replace (sgn e * sgn (msign v x z))%C with (sgn (msign v x z) * sgn e)%C by ring. rewrite MP.
    replace (sgn (msign v x z) * sgn (msign v x z))%C with C1 by (destruct (msign v x z); cbn; ring). rewrite cscale_1. auto. }
  rewrite E2. unfold sgnop. rewrite !cscale_cscale. f_equal. rewrite (sgn_xor (xorb e (msign v x z))). ring.
Qed.
End Rotations.
