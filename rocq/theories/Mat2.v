(** 2x2 complex matrices and 2-vectors (specification side). *)
From Coq Require Import Reals Lra Psatz FunctionalExtensionality Bool.
From Verif Require Import Cplx.
Local Open Scope C_scope.

Record mat2 := Mat2 { m00 : C; m01 : C; m10 : C; m11 : C }.
Record vec2 := Vec2 { v0 : C; v1 : C }.

Lemma mat2_eq A B : m00 A = m00 B -> m01 A = m01 B -> m10 A = m10 B -> m11 A = m11 B -> A = B.
Proof. destruct A, B; simpl; intros; subst; reflexivity. Qed.
Lemma vec2_eq a b : v0 a = v0 b -> v1 a = v1 b -> a = b.
Proof. destruct a, b; simpl; intros; subst; reflexivity. Qed.

(** entry (row, column); [false] is |0>, [true] is |1> *)
Definition mget (U : mat2) (r c : bool) : C :=
  match r, c with
  | false, false => m00 U | false, true => m01 U
  | true, false => m10 U | true, true => m11 U
  end.
Definition vget (v : vec2) (b : bool) : C := if b then v1 v else v0 v.

Definition mmul A B := Mat2
  (m00 A * m00 B + m01 A * m10 B) (m00 A * m01 B + m01 A * m11 B)
  (m10 A * m00 B + m11 A * m10 B) (m10 A * m01 B + m11 A * m11 B).
Definition madd A B := Mat2 (m00 A + m00 B) (m01 A + m01 B) (m10 A + m10 B) (m11 A + m11 B).
Definition mscale c A := Mat2 (c * m00 A) (c * m01 A) (c * m10 A) (c * m11 A).
Definition mdag A := Mat2 (Cconj (m00 A)) (Cconj (m10 A)) (Cconj (m01 A)) (Cconj (m11 A)).
Definition mid := Mat2 C1 C0 C0 C1.
Definition mX := Mat2 C0 C1 C1 C0.
Definition mY := Mat2 C0 (- Ci) Ci C0.
Definition mZ := Mat2 C1 C0 C0 (- C1).
Definition mtrace A := m00 A + m11 A.
Definition vmul A v := Vec2 (m00 A * v0 v + m01 A * v1 v) (m10 A * v0 v + m11 A * v1 v).
Definition vscale c v := Vec2 (c * v0 v) (c * v1 v).
Definition vinner u v := Cconj (v0 u) * v0 v + Cconj (v1 u) * v1 v.
(** |u><v| *)
Definition vouter u v := Mat2 (v0 u * Cconj (v0 v)) (v0 u * Cconj (v1 v)) (v1 u * Cconj (v0 v)) (v1 u * Cconj (v1 v)).

Ltac meq := apply mat2_eq; simpl.
Ltac veq := apply vec2_eq; simpl.

Lemma mmul_assoc A B D : mmul A (mmul B D) = mmul (mmul A B) D.
Proof. meq; ring. Qed.
Lemma mmul_1_l A : mmul mid A = A.
Proof. meq; ring. Qed.
Lemma mmul_1_r A : mmul A mid = A.
Proof. meq; ring. Qed.
Lemma mscale_mul_l c A B : mmul (mscale c A) B = mscale c (mmul A B).
Proof. meq; ring. Qed.
Lemma mscale_mul_r c A B : mmul A (mscale c B) = mscale c (mmul A B).
Proof. meq; ring. Qed.
Lemma mscale_mscale c d A : mscale c (mscale d A) = mscale (c * d) A.
Proof. meq; ring. Qed.
Lemma mscale_1 A : mscale C1 A = A.
Proof. meq; ring. Qed.
Lemma mdag_mul A B : mdag (mmul A B) = mmul (mdag B) (mdag A).
Proof. meq; rewrite ?Cconj_add, ?Cconj_mul; ring. Qed.
Lemma mdag_dag A : mdag (mdag A) = A.
Proof. meq; apply Cconj_inv. Qed.
Lemma mdag_id : mdag mid = mid.
Proof. meq; auto using Cconj_0, Cconj_1. Qed.
Lemma mdag_scale c A : mdag (mscale c A) = mscale (Cconj c) (mdag A).
Proof. meq; apply Cconj_mul. Qed.
Lemma vmul_mmul A B v : vmul A (vmul B v) = vmul (mmul A B) v.
Proof. veq; ring. Qed.
Lemma vmul_scale c A v : vmul A (vscale c v) = vscale c (vmul A v).
Proof. veq; ring. Qed.
Lemma vmul_mscale c A v : vmul (mscale c A) v = vscale c (vmul A v).
Proof. veq; ring. Qed.
Lemma vmul_1 v : vmul mid v = v.
Proof. veq; ring. Qed.
Lemma vscale_1 v : vscale C1 v = v.
Proof. veq; ring. Qed.
Lemma vscale_vscale c d v : vscale c (vscale d v) = vscale (c * d) v.
Proof. veq; ring. Qed.
Lemma vouter_mul A B u v : mmul (mmul A (vouter u v)) B = vouter (vmul A u) (vmul (mdag B) v).
Proof. meq; rewrite ?Cconj_add, ?Cconj_mul, ?Cconj_inv; ring. Qed.

Definition unitary U := mmul (mdag U) U = mid /\ mmul U (mdag U) = mid.

Lemma unitary_mul A B : unitary A -> unitary B -> unitary (mmul A B).
Proof.
  intros [H1 H2] [H3 H4]; split; rewrite mdag_mul.
  - rewrite <- mmul_assoc, (mmul_assoc (mdag A)), H1, mmul_1_l; auto.
  - rewrite <- mmul_assoc, (mmul_assoc B), H4, mmul_1_l; auto.
Qed.
Lemma unitary_dag A : unitary A -> unitary (mdag A).
Proof. intros [H1 H2]; split; rewrite mdag_dag; auto. Qed.
Lemma unitary_id : unitary mid.
Proof. split; meq; rewrite ?Cconj_0, ?Cconj_1; ring. Qed.
Lemma unitary_X : unitary mX.
Proof. split; meq; rewrite ?Cconj_0, ?Cconj_1; ring. Qed.
Lemma unitary_Z : unitary mZ.
Proof. split; meq; rewrite ?Cconj_opp, ?Cconj_0, ?Cconj_1; ring. Qed.
Lemma unitary_Y : unitary mY.
Proof.
  split; meq; rewrite ?Cconj_opp, ?Cconj_0, ?Cconj_i;
  repeat match goal with |- ?l = ?r => ceq; ring end.
Qed.

(** Equality of matrices up to a global phase. *)
Definition meqp (A B : mat2) : Prop := exists c, phase c /\ A = mscale c B.
Definition veqp (a b : vec2) : Prop := exists c, phase c /\ a = vscale c b.
Infix "~=" := meqp (at level 70).
Infix "~v" := veqp (at level 70).

Lemma meqp_refl A : A ~= A.
Proof. exists C1; split; [apply phase_1 | rewrite mscale_1; auto]. Qed.
Lemma meqp_eq A B : A = B -> A ~= B.
Proof. intros ->; apply meqp_refl. Qed.
Lemma meqp_sym A B : A ~= B -> B ~= A.
Proof.
  intros (c & Hc & ->). exists (Cconj c); split; [apply phase_conj; auto |].
  rewrite mscale_mscale, phase_inv', mscale_1; auto.
Qed.
Lemma meqp_trans A B D : A ~= B -> B ~= D -> A ~= D.
Proof.
  intros (c & Hc & ->) (d & Hd & ->). exists (c * d); split; [apply phase_mul; auto |].
  apply mscale_mscale.
Qed.
Lemma meqp_mul A B A' B' : A ~= A' -> B ~= B' -> mmul A B ~= mmul A' B'.
Proof.
  intros (c & Hc & ->) (d & Hd & ->). exists (c * d); split; [apply phase_mul; auto |].
  rewrite mscale_mul_l, mscale_mul_r, mscale_mscale; auto.
Qed.
Lemma meqp_dag A B : A ~= B -> mdag A ~= mdag B.
Proof.
  intros (c & Hc & ->). exists (Cconj c); split; [apply phase_conj; auto |]. apply mdag_scale.
Qed.
Lemma veqp_refl a : a ~v a.
Proof. exists C1; split; [apply phase_1 | rewrite vscale_1; auto]. Qed.
Lemma veqp_sym a b : a ~v b -> b ~v a.
Proof.
  intros (c & Hc & ->). exists (Cconj c); split; [apply phase_conj; auto |].
  rewrite vscale_vscale, phase_inv', vscale_1; auto.
Qed.
Lemma veqp_trans a b d : a ~v b -> b ~v d -> a ~v d.
Proof.
  intros (c & Hc & ->) (e & He & ->). exists (c * e); split; [apply phase_mul; auto |].
  apply vscale_vscale.
Qed.
Lemma veqp_vmul A B a b : A ~= B -> a ~v b -> vmul A a ~v vmul B b.
Proof.
  intros (c & Hc & ->) (d & Hd & ->). exists (c * d); split; [apply phase_mul; auto |].
  rewrite vmul_mscale, vmul_scale, vscale_vscale; auto.
Qed.

Lemma XZ_anti : mmul mX mZ = mscale (- C1) (mmul mZ mX).
Proof. meq; ring. Qed.
Lemma mX_sq : mmul mX mX = mid.
Proof. meq; ring. Qed.
Lemma mZ_sq : mmul mZ mZ = mid.
Proof. meq; ring. Qed.
Lemma mY_XZ : mY = mscale Ci (mmul mX mZ).
Proof. meq; ceq; ring. Qed.

(** Rank-one projectors determine their vector up to a phase: this is what
    makes "project with (I + v.sigma)/2 and drop the qubit" (base_backend.py
    _outcome_to_operator_matrix, project_qubit) a well-defined branch map up to
    a global phase. *)
Lemma vouter_inj_phase u v : (Cnorm2 (v0 u) + Cnorm2 (v1 u) = 1)%R -> vouter u u = vouter v v -> u ~v v.
Proof.
  intros Hn H.
  assert (E00 := f_equal m00 H). assert (E01 := f_equal m01 H).
  assert (E10 := f_equal m10 H). assert (E11 := f_equal m11 H). simpl in *.
  clear H.
  exists (vinner v u). unfold vinner.
  assert (N0 : Cnorm2 (v0 u) = Cnorm2 (v0 v)).
  { rewrite !Cnorm2_mulconj in E00. apply (f_equal re) in E00; exact E00. }
  assert (N1 : Cnorm2 (v1 u) = Cnorm2 (v1 v)).
  { rewrite !Cnorm2_mulconj in E11. apply (f_equal re) in E11; exact E11. }
  assert (S : Cconj (v0 u) * v0 u + Cconj (v1 u) * v1 u = C1).
  { replace (Cconj (v0 u) * v0 u) with (v0 u * Cconj (v0 u)) by ring.
    replace (Cconj (v1 u) * v1 u) with (v1 u * Cconj (v1 u)) by ring.
    rewrite !Cnorm2_mulconj, <- RtoC_add, Hn. reflexivity. }
  assert (K0 : v0 u = (Cconj (v0 v) * v0 u + Cconj (v1 v) * v1 u) * v0 v).
  { transitivity ((v0 v * Cconj (v0 v)) * v0 u + (v0 v * Cconj (v1 v)) * v1 u); [|ring].
    rewrite <- E00, <- E01.
    transitivity (v0 u * (Cconj (v0 u) * v0 u + Cconj (v1 u) * v1 u)); [|ring].
    rewrite S; ring. }
  assert (K1 : v1 u = (Cconj (v0 v) * v0 u + Cconj (v1 v) * v1 u) * v1 v).
  { transitivity ((v1 v * Cconj (v0 v)) * v0 u + (v1 v * Cconj (v1 v)) * v1 u); [|ring].
    rewrite <- E10, <- E11.
    transitivity (v1 u * (Cconj (v0 u) * v0 u + Cconj (v1 u) * v1 u)); [|ring].
    rewrite S; ring. }
  split.
  - unfold phase. set (c := Cconj (v0 v) * v0 u + Cconj (v1 v) * v1 u) in *.
    assert (M0 : Cnorm2 (v0 u) = (Cnorm2 c * Cnorm2 (v0 v))%R) by (rewrite K0 at 1; apply Cnorm2_mul).
    assert (M1 : Cnorm2 (v1 u) = (Cnorm2 c * Cnorm2 (v1 v))%R) by (rewrite K1 at 1; apply Cnorm2_mul).
    rewrite <- N0 in M0. rewrite <- N1 in M1.
    assert (Cnorm2 c * (Cnorm2 (v0 u) + Cnorm2 (v1 u)) = 1)%R by (rewrite Rmult_plus_distr_l, <- M0, <- M1; auto).
    rewrite Hn in H. lra.
  - veq; auto.
Qed.
