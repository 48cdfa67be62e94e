(** Pure-state semantics of sequences of elementary quantum operations on a
    register indexed by node identifiers (specification side).

    A (not necessarily normalised) pure state assigns an amplitude to every
    assignment of bits to nodes.  Nodes that are not part of the register are
    simply ignored by the function; a state of a register [l] is a function
    that only depends on the bits of [l]. *)
From Coq Require Import Reals Arith List Bool Lia FunctionalExtensionality Permutation.
From Verif Require Import Cplx Mat2.
Import ListNotations.
Local Open Scope C_scope.

Definition asg := nat -> bool.
Definition state := asg -> C.

Definition upd (f : asg) (n : nat) (b : bool) : asg := fun m => if (m =? n)%nat then b else f m.

Lemma upd_same f n b : upd f n b n = b.
Proof. unfold upd. rewrite Nat.eqb_refl; auto. Qed.
Lemma upd_other f n b m : m <> n -> upd f n b m = f m.
Proof. unfold upd. intros H. apply Nat.eqb_neq in H. rewrite H; auto. Qed.
Lemma upd_upd f n a b : upd (upd f n a) n b = upd f n b.
Proof. extensionality m. unfold upd. destruct (m =? n)%nat; auto. Qed.
Lemma upd_comm f n m a b : n <> m -> upd (upd f n a) m b = upd (upd f m b) n a.
Proof.
  intros H. extensionality k. unfold upd.
  destruct (Nat.eqb_spec k m), (Nat.eqb_spec k n); auto; congruence.
Qed.
Lemma upd_id f n : upd f n (f n) = f.
Proof. extensionality k. unfold upd. destruct (Nat.eqb_spec k n); subst; auto. Qed.

(** Elementary operations. *)
Inductive op :=
| OApp1 (U : mat2) (n : nat)   (** apply [U] to node [n] *)
| OCz (u v : nat)              (** controlled-Z *)
| OMeas (v : vec2) (n : nat)   (** project node [n] on [v] and discard it: apply <v| *)
| OPrep (v : vec2) (n : nat).  (** add the fresh node [n] in state [v] *)

Definition sgn (b : bool) : C := if b then - C1 else C1.

Definition app_op (p : op) (psi : state) : state :=
  match p with
  | OApp1 U n => fun f => mget U (f n) false * psi (upd f n false) + mget U (f n) true * psi (upd f n true)
  | OCz u v => fun f => sgn (f u && f v) * psi f
  | OMeas v n => fun f => Cconj (v0 v) * psi (upd f n false) + Cconj (v1 v) * psi (upd f n true)
  | OPrep v n => fun f => vget v (f n) * psi f
  end.

(** run a sequence of operations, first one first *)
Fixpoint den (l : list op) (psi : state) : state :=
  match l with
  | [] => psi
  | p :: l' => den l' (app_op p psi)
  end.

Definition cscale (c : C) (psi : state) : state := fun f => c * psi f.

Lemma den_app l1 l2 psi : den (l1 ++ l2) psi = den l2 (den l1 psi).
Proof. revert psi; induction l1; simpl; auto. Qed.
Lemma app_op_scale p c psi : app_op p (cscale c psi) = cscale c (app_op p psi).
Proof. extensionality f. destruct p; unfold cscale; simpl; ring. Qed.
Lemma den_scale l c psi : den l (cscale c psi) = cscale c (den l psi).
Proof. revert psi; induction l as [|p l IH]; simpl; auto. intros. rewrite app_op_scale, IH; auto. Qed.
Lemma cscale_1 psi : cscale C1 psi = psi.
Proof. extensionality f. unfold cscale. ring. Qed.
Lemma cscale_cscale c d psi : cscale c (cscale d psi) = cscale (c * d) psi.
Proof. extensionality f. unfold cscale. ring. Qed.

(** Equality of the two induced linear maps up to one global phase. *)
Definition leq (l1 l2 : list op) : Prop :=
  exists c, phase c /\ forall psi, den l1 psi = cscale c (den l2 psi).
Infix "≈" := leq (at level 70).

Lemma leq_refl l : l ≈ l.
Proof. exists C1; split; [apply phase_1|]. intros; rewrite cscale_1; auto. Qed.
Lemma leq_eq l l' : l = l' -> l ≈ l'.
Proof. intros ->; apply leq_refl. Qed.
Lemma leq_den l l' : (forall psi, den l psi = den l' psi) -> l ≈ l'.
Proof. intros H. exists C1; split; [apply phase_1|]. intros; rewrite cscale_1; auto. Qed.
Lemma leq_sym a b : a ≈ b -> b ≈ a.
Proof.
  intros (c & Hc & H). exists (Cconj c); split; [apply phase_conj; auto|].
  intros. rewrite H, cscale_cscale, phase_inv', cscale_1; auto.
Qed.
Lemma leq_trans a b d : a ≈ b -> b ≈ d -> a ≈ d.
Proof.
  intros (c & Hc & H) (e & He & H'). exists (c * e); split; [apply phase_mul; auto|].
  intros. rewrite H, H', cscale_cscale; auto.
Qed.
Lemma leq_app a b a' b' : a ≈ a' -> b ≈ b' -> a ++ b ≈ a' ++ b'.
Proof.
  intros (c & Hc & H) (d & Hd & H'). exists (c * d); split; [apply phase_mul; auto|].
  intros. rewrite !den_app, H, den_scale, H', cscale_cscale; auto.
Qed.
Lemma leq_app_l a b b' : b ≈ b' -> a ++ b ≈ a ++ b'.
Proof. intros; apply leq_app; auto using leq_refl. Qed.
Lemma leq_app_r a a' b : a ≈ a' -> a ++ b ≈ a' ++ b.
Proof. intros; apply leq_app; auto using leq_refl. Qed.
Lemma leq_cons p l l' : l ≈ l' -> p :: l ≈ p :: l'.
Proof. intros. apply (leq_app_l [p]); auto. Qed.

From Coq Require Import Setoid Morphisms.
#[export] Instance leq_equiv : Equivalence leq.
Proof. split; [exact leq_refl|exact leq_sym|exact leq_trans]. Qed.
#[export] Instance app_leq : Proper (leq ==> leq ==> leq) (@app op).
Proof. intros a a' H b b' H'. apply leq_app; auto. Qed.
#[export] Instance cons_leq : Proper (eq ==> leq ==> leq) (@cons op).
Proof. intros a a' -> b b' H'. apply leq_cons; auto. Qed.

(** ** Commutation *)
Definition onodes (p : op) : list nat :=
  match p with OApp1 _ n | OMeas _ n | OPrep _ n => [n] | OCz u v => [u; v] end.
Definition odisj (p q : op) : Prop := forall n, In n (onodes p) -> In n (onodes q) -> False.
Definition disjl (a b : list op) : Prop := forall p q, In p a -> In q b -> odisj p q.

Lemma odisj_sym p q : odisj p q -> odisj q p.
Proof. unfold odisj; intros H n H1 H2; eapply H; eauto. Qed.

Lemma op_comm p q psi : odisj p q -> app_op q (app_op p psi) = app_op p (app_op q psi).
Proof.
  intros D. extensionality f.
  destruct p as [U n|u v|w n|w n]; destruct q as [U' n'|u' v'|w' n'|w' n']; simpl;
  unfold odisj in D; simpl in D;
  repeat match goal with
  | |- context [upd ?g ?a ?b ?c] =>
      rewrite (upd_other g a b c) by (let E := fresh in intro E; apply (D c); auto)
  end;
  try (assert (Hn : n <> n') by (let E := fresh in intro E; apply (D n); auto);
       rewrite ?(upd_comm f n' n) by auto); try ring.
Qed.

Lemma comm2 p q : odisj p q -> [p; q] ≈ [q; p].
Proof. intros H. apply leq_den. intros psi; simpl. apply op_comm; auto. Qed.

Lemma comm1l p l : (forall q, In q l -> odisj p q) -> p :: l ≈ l ++ [p].
Proof.
  intros H; induction l as [|q l IH]; simpl; [reflexivity|].
  transitivity (q :: p :: l).
  - apply (leq_app_r [p;q] [q;p] l). apply comm2, H; simpl; auto.
  - apply leq_cons, IH. intros; apply H; simpl; auto.
Qed.
Lemma comm_ll a b : disjl a b -> a ++ b ≈ b ++ a.
Proof.
  intros H; induction a as [|p a IH]; simpl; [rewrite app_nil_r; reflexivity|].
  rewrite IH; [|intros x y; intros; apply H; simpl; auto].
  change (p :: b ++ a) with ((p :: b) ++ a). rewrite (comm1l p b); [|intros; apply H; simpl; auto].
  rewrite <- app_assoc; reflexivity.
Qed.

(** an operation that commutes with everything it must cross *)
Lemma den_comm_perm l l' : Permutation l l' ->
  (forall p q psi, In p l -> In q l -> app_op p (app_op q psi) = app_op q (app_op p psi)) ->
  forall psi, den l psi = den l' psi.
Proof.
  induction 1; intros HC psi; simpl; auto.
  - apply IHPermutation. intros; apply HC; simpl; auto.
  - f_equal. apply HC; simpl; auto.
  - rewrite IHPermutation1; auto. apply IHPermutation2.
    intros; apply HC; (eapply Permutation_in; [apply Permutation_sym; eauto|auto]).
Qed.

(** ** Single-node algebra *)
Lemma app1_app1 A B n psi : app_op (OApp1 B n) (app_op (OApp1 A n) psi) = app_op (OApp1 (mmul B A) n) psi.
Proof.
  extensionality f; simpl. rewrite !upd_same, !upd_upd.
  destruct (f n); simpl; ring.
Qed.
Lemma app1_fuse A B n : [OApp1 A n; OApp1 B n] ≈ [OApp1 (mmul B A) n].
Proof. apply leq_den; intros; simpl. apply app1_app1. Qed.
Lemma app1_id n : [OApp1 mid n] ≈ [].
Proof.
  apply leq_den; intros; simpl. extensionality f.
  destruct (f n) eqn:E; simpl; rewrite <- E, upd_id; ring.
Qed.
Lemma app1_meqp A B n : A ~= B -> [OApp1 A n] ≈ [OApp1 B n].
Proof.
  intros (c & Hc & ->). exists c; split; auto. intros; simpl. extensionality f; unfold cscale; simpl.
  destruct (f n); simpl; ring.
Qed.
Lemma meas_veqp v w n : v ~v w -> [OMeas v n] ≈ [OMeas w n].
Proof.
  intros (c & Hc & ->). exists (Cconj c); split; [apply phase_conj; auto|].
  intros; simpl. extensionality f; unfold cscale; simpl. rewrite !Cconj_mul; ring.
Qed.
Lemma prep_veqp v w n : v ~v w -> [OPrep v n] ≈ [OPrep w n].
Proof.
  intros (c & Hc & ->). exists c; split; auto.
  intros; simpl. extensionality f; unfold cscale; simpl. destruct (f n); simpl; ring.
Qed.
Lemma app1_meas U v n : [OApp1 U n; OMeas v n] ≈ [OMeas (vmul (mdag U) v) n].
Proof.
  apply leq_den; intros; simpl. extensionality f. rewrite !upd_same, !upd_upd; simpl.
  rewrite !Cconj_add, !Cconj_mul, !Cconj_inv. ring.
Qed.
(** nothing can be observed of a node once it has been measured *)
Definition indep (n : nat) (psi : state) : Prop := forall f b, psi (upd f n b) = psi f.
Lemma meas_indep v n psi : indep n (app_op (OMeas v n) psi).
Proof. intros f b; simpl. rewrite !upd_upd; auto. Qed.
Lemma prep_app1 U v n psi : indep n psi ->
  app_op (OApp1 U n) (app_op (OPrep v n) psi) = app_op (OPrep (vmul U v) n) psi.
Proof.
  intros H. extensionality f; simpl. rewrite !upd_same, !H. destruct (f n); simpl; ring.
Qed.
Lemma prep_meas v w n psi : indep n psi ->
  app_op (OMeas w n) (app_op (OPrep v n) psi) = cscale (vinner w v) psi.
Proof.
  intros H. extensionality f; simpl. rewrite !upd_same, !H. unfold cscale, vinner; simpl; ring.
Qed.
Lemma indep_op p n psi : ~ In n (onodes p) -> indep n psi -> indep n (app_op p psi).
Proof.
  intros Hn H f b. destruct p as [U m|u v|w m|w m]; simpl in *;
  rewrite ?upd_other by (let E := fresh in intro E; subst; tauto);
  repeat match goal with |- context [upd (upd f n b) m ?x] => rewrite (upd_comm f n m b x) by (let E := fresh in intro E; subst; tauto) end;
  rewrite ?H; reflexivity.
Qed.
Lemma indep_den l n psi : (forall p, In p l -> ~ In n (onodes p)) -> indep n psi -> indep n (den l psi).
Proof.
  revert psi; induction l as [|p l IH]; simpl; intros psi H Hi; auto.
  apply IH; [intros; apply H; auto|]. apply indep_op; auto.
Qed.

(** ** CZ algebra *)
Lemma sgn_sq b : sgn b * sgn b = C1.
Proof. destruct b; simpl; ring. Qed.
Lemma cz_sym u v psi : app_op (OCz u v) psi = app_op (OCz v u) psi.
Proof. extensionality f; simpl. rewrite andb_comm; auto. Qed.
Lemma cz_cz u v psi : app_op (OCz u v) (app_op (OCz u v) psi) = psi.
Proof.
  extensionality f; simpl. transitivity (sgn (f u && f v) * sgn (f u && f v) * psi f); [ring|].
  rewrite sgn_sq; ring.
Qed.
Lemma cz_comm u v u' v' psi : app_op (OCz u v) (app_op (OCz u' v') psi) = app_op (OCz u' v') (app_op (OCz u v) psi).
Proof. extensionality f; simpl; ring. Qed.

Definition diagonal (U : mat2) := m01 U = C0 /\ m10 U = C0.
Definition antidiagonal (U : mat2) := m00 U = C0 /\ m11 U = C0.
Lemma cz_diag U u v psi : diagonal U -> u <> v ->
  app_op (OCz u v) (app_op (OApp1 U u) psi) = app_op (OApp1 U u) (app_op (OCz u v) psi).
Proof.
  intros [H1 H2] Hne. extensionality f; simpl. rewrite !upd_same, !(upd_other f u _ v) by auto.
  destruct (f u), (f v); simpl; rewrite ?H1, ?H2; ring.
Qed.
(** CZ . (antidiagonal on u) = (antidiagonal on u) . (Z on v) . CZ *)
Lemma cz_antidiag U u v psi : antidiagonal U -> u <> v ->
  app_op (OCz u v) (app_op (OApp1 U u) psi)
  = app_op (OApp1 U u) (app_op (OApp1 mZ v) (app_op (OCz u v) psi)).
Proof.
  intros [H1 H2] Hne. extensionality f; simpl.
  rewrite !(upd_other f u _ v) by auto. rewrite !upd_same.
  rewrite !(upd_other (upd f u _) v _ u) by auto. rewrite !upd_same.
  rewrite !(upd_comm f u v) by auto.
  destruct (f u) eqn:Eu, (f v) eqn:Ev; simpl; rewrite ?H1, ?H2, <- ?Ev, ?upd_id; ring.
Qed.
Lemma cz_diag' U u v : diagonal U -> u <> v -> [OApp1 U u; OCz u v] ≈ [OCz u v; OApp1 U u].
Proof. intros; apply leq_den; intros; simpl. apply cz_diag; auto. Qed.
Lemma cz_diag'' U u v : diagonal U -> u <> v -> [OApp1 U v; OCz u v] ≈ [OCz u v; OApp1 U v].
Proof.
  intros; apply leq_den; intros; cbn [den]. rewrite !(cz_sym u v). apply cz_diag; auto.
Qed.
Lemma cz_antidiag' U u v : antidiagonal U -> u <> v ->
  [OApp1 U u; OCz u v] ≈ [OCz u v; OApp1 mZ v; OApp1 U u].
Proof. intros; apply leq_den; intros; simpl. apply cz_antidiag; auto. Qed.
Lemma cz_antidiag'' U u v : antidiagonal U -> u <> v ->
  [OApp1 U v; OCz u v] ≈ [OCz u v; OApp1 mZ u; OApp1 U v].
Proof.
  intros; apply leq_den; intros; cbn [den]. rewrite !(cz_sym u v). apply cz_antidiag; auto.
Qed.

(** ** Linearity *)
Definition sadd_st (a b : state) : state := fun f => a f + b f.
Lemma app_op_add p a b : app_op p (sadd_st a b) = sadd_st (app_op p a) (app_op p b).
Proof. extensionality f. destruct p; unfold sadd_st; simpl; ring. Qed.
Lemma den_add l a b : den l (sadd_st a b) = sadd_st (den l a) (den l b).
Proof. revert a b; induction l as [|p l IH]; simpl; auto. intros. rewrite app_op_add, IH; auto. Qed.
