(** Model of graphix/clifford.py: group operations, Pauli conjugation,
    [commute_domains]; proofs that the tables of _db.py agree with the
    matrices. *)
From Coq Require Import Reals Lra Psatz ZArith List Bool.
From Verif Require Import Cplx Mat2 Fundamentals CliffordDb NSet.
Import ListNotations.
Local Open Scope C_scope.

(** clifford.py:79-82 matrix *)
Definition gC (g : gint) : C := mkC (IZR (fst g)) (IZR (snd g)).
Definition gmatC (m : gmat) : mat2 := Mat2 (gC (g00 m)) (gC (g01 m)) (gC (g10 m)) (gC (g11 m)).
Definition ginterp (mn : gmat * Z) : mat2 := mscale (RtoC (/ sqrt (IZR (snd mn)))) (gmatC (fst mn)).
Definition clifford_mat (c : clifford) : mat2 := ginterp (clifford_db c).
(** clifford.py:133-137 __matmul__ *)
Definition clifford_mul (a b : clifford) : clifford := nth (clifford_val b) (clifford_mul_row a) K0.
(** clifford.py:118-121 conj *)
Definition clifford_conj (c : clifford) : clifford := clifford_conj_db c.
(** clifford.py:123-126 hsz *)
Definition clifford_hsz (c : clifford) : list clifford := clifford_hsz_db c.
(** clifford.py:128-131 qasm3 *)
Definition clifford_qasm3 (c : clifford) : list clifford := clifford_qasm3_db c.
(** clifford.py:139-151 measure_axis: C^dag P C for P = +axis *)
Definition clifford_measure_axis (c : clifford) (a : axis) : pauli :=
  let '(x, y, z) := clifford_measure_db c in
  let '(s, sg) := match a with AX => x | AY => y | AZ => z end in
  Pauli (Some s) (cunit_props sg false).
(** clifford.py:153-158 measure *)
Definition clifford_measure (c : clifford) (p : pauli) : pauli :=
  match p_sym p with
  | None => p
  | Some a => pauli_scale (clifford_measure_axis c a) (p_unit p)
  end.
Definition clifford_eqb (a b : clifford) : bool := Nat.eqb (clifford_val a) (clifford_val b).

(** clifford.py:160-183 commute_domains.  [None] is the RuntimeError raised
    when the decomposition contains another gate. *)
Definition commute_step (g : clifford) (st : option (nset * nset)) : option (nset * nset) :=
  match st with
  | None => None
  | Some (s, t) =>
      match g with
      | K0 => Some (s, t)
      | K6 => Some (t, s)
      | K4 => Some (s, sxor t s)
      | K3 => Some (s, t)
      | _ => None
      end
  end.
Definition commute_domains_opt (c : clifford) (s t : nset) : option (nset * nset) :=
  fold_left (fun st g => commute_step g st) (clifford_hsz c) (Some (s, t)).
Definition commute_domains (c : clifford) (s t : nset) : nset * nset :=
  match commute_domains_opt c s t with Some p => p | None => (s, t) end.

(** * Exact arithmetic for the 24 x 24 checks *)
Definition gmulZ (a b : gint) : gint := (fst a * fst b - snd a * snd b, fst a * snd b + snd a * fst b)%Z.
Definition gaddZ (a b : gint) : gint := (fst a + fst b, snd a + snd b)%Z.
Definition gconjZ (a : gint) : gint := (fst a, - snd a)%Z.
Definition gnormZ (a : gint) : Z := (fst a * fst a + snd a * snd a)%Z.
Definition gmmul A B := GMat
  (gaddZ (gmulZ (g00 A) (g00 B)) (gmulZ (g01 A) (g10 B))) (gaddZ (gmulZ (g00 A) (g01 B)) (gmulZ (g01 A) (g11 B)))
  (gaddZ (gmulZ (g10 A) (g00 B)) (gmulZ (g11 A) (g10 B))) (gaddZ (gmulZ (g10 A) (g01 B)) (gmulZ (g11 A) (g11 B))).
Definition gmdag A := GMat (gconjZ (g00 A)) (gconjZ (g10 A)) (gconjZ (g01 A)) (gconjZ (g11 A)).
Definition gmscale g A := GMat (gmulZ g (g00 A)) (gmulZ g (g01 A)) (gmulZ g (g10 A)) (gmulZ g (g11 A)).
Definition geqb (a b : gint) : bool := (fst a =? fst b)%Z && (snd a =? snd b)%Z.
Definition gmeqb A B := geqb (g00 A) (g00 B) && geqb (g01 A) (g01 B) && geqb (g10 A) (g10 B) && geqb (g11 A) (g11 B).

Lemma gC_mul a b : gC (gmulZ a b) = gC a * gC b.
Proof. unfold gC, gmulZ; ceq; rewrite ?minus_IZR, ?plus_IZR, ?mult_IZR; ring. Qed.
Lemma gC_add a b : gC (gaddZ a b) = gC a + gC b.
Proof. unfold gC, gaddZ; ceq; rewrite plus_IZR; ring. Qed.
Lemma gC_conj a : gC (gconjZ a) = Cconj (gC a).
Proof. unfold gC, gconjZ; ceq; rewrite ?opp_IZR; ring. Qed.
Lemma gC_norm a : Cnorm2 (gC a) = IZR (gnormZ a).
Proof. unfold gC, gnormZ, Cnorm2; simpl; rewrite plus_IZR, !mult_IZR; ring. Qed.
Lemma gmatC_mul A B : gmatC (gmmul A B) = mmul (gmatC A) (gmatC B).
Proof. unfold gmatC, gmmul; meq; rewrite gC_add, !gC_mul; ring. Qed.
Lemma gmatC_dag A : gmatC (gmdag A) = mdag (gmatC A).
Proof. unfold gmatC, gmdag; meq; apply gC_conj. Qed.
Lemma gmatC_scale g A : gmatC (gmscale g A) = mscale (gC g) (gmatC A).
Proof. unfold gmatC, gmscale; meq; apply gC_mul. Qed.
Lemma geqb_eq a b : geqb a b = true -> a = b.
Proof.
  unfold geqb. rewrite andb_true_iff, !Z.eqb_eq. destruct a, b; simpl; intros [-> ->]; auto.
Qed.
Lemma gmeqb_eq A B : gmeqb A B = true -> A = B.
Proof.
  unfold gmeqb. rewrite !andb_true_iff. intros [[[H1 H2] H3] H4].
  destruct A, B; simpl in *. f_equal; apply geqb_eq; auto.
Qed.

Definition gnz (g : gint) : bool := negb (geqb g (0,0)%Z).
Definition gpivot (B A : gmat) : gint * gint :=
  if gnz (g00 B) then (g00 B, g00 A) else if gnz (g01 B) then (g01 B, g01 A)
  else if gnz (g10 B) then (g10 B, g10 A) else (g11 B, g11 A).

(** A/sqrt n equals B/sqrt m up to a phase *)
Definition geqp (a b : gmat * Z) : bool :=
  let '(A, n) := a in let '(B, m) := b in
  let '(u, w) := gpivot B A in
  gmeqb (gmscale u A) (gmscale w B) && gnz u && (0 <? n)%Z && (0 <? m)%Z
  && (gnormZ w * m =? gnormZ u * n)%Z.

Lemma sqrt_mul_inv n : (0 < n)%R -> (/ sqrt n * / sqrt n = / n)%R.
Proof.
  intros H. pose proof (sqrt_lt_R0 n H).
  rewrite <- Rinv_mult. rewrite sqrt_sqrt; lra.
Qed.

Lemma geqp_sound a b : geqp a b = true -> ginterp a ~= ginterp b.
Proof.
  destruct a as [A n], b as [B m]. unfold geqp. destruct (gpivot B A) as [u w] eqn:Ep. clear Ep.
  rewrite !andb_true_iff. intros ((((H & Hu) & Hn) & Hm) & Hw).
  apply gmeqb_eq in H. apply (f_equal gmatC) in H. rewrite !gmatC_scale in H.
  apply Z.ltb_lt in Hn, Hm. apply IZR_lt in Hn, Hm.
  apply Z.eqb_eq in Hw. apply (f_equal IZR) in Hw. rewrite !mult_IZR, <- !gC_norm in Hw.
  assert (Nu : Cnorm2 (gC u) <> 0%R).
  { intros E. rewrite gC_norm in E. apply eq_IZR in E. unfold gnz, geqb in Hu.
    assert (fst u = 0 /\ snd u = 0)%Z as [E1 E2].
    { unfold gnormZ in E. nia. }
    rewrite E1, E2 in Hu. discriminate. }
  unfold ginterp; simpl. set (sn := sqrt (IZR n)) in *. set (sm := sqrt (IZR m)) in *.
  assert (Pn : (0 < sn)%R) by (apply sqrt_lt_R0; auto).
  assert (Pm : (0 < sm)%R) by (apply sqrt_lt_R0; auto).
  assert (Qn : sn <> 0%R) by (apply Rgt_not_eq; exact Pn).
  assert (Qm : sm <> 0%R) by (apply Rgt_not_eq; exact Pm).
  assert (Rn : IZR n <> 0%R) by (apply Rgt_not_eq; exact Hn).
  set (U := gC u) in *. set (W := gC w) in *.
  (* c = (W / U) * sm / sn *)
  exists (RtoC (sm / sn / Cnorm2 U) * (W * Cconj U)). split.
  - unfold phase. rewrite !Cnorm2_mul, Cnorm2_conj.
    rewrite Cnorm2_R.
    assert (Sn : (sn * sn = IZR n)%R) by (apply sqrt_sqrt; lra).
    assert (Sm : (sm * sm = IZR m)%R) by (apply sqrt_sqrt; lra).
    transitivity ((sm * sm) * Cnorm2 W / ((sn * sn) * Cnorm2 U))%R.
    { field. auto. }
    rewrite Sn, Sm. rewrite (Rmult_comm (IZR m)), Hw.
    field. auto.
  - rewrite mscale_mscale.
    replace (RtoC (sm / sn / Cnorm2 U) * (W * Cconj U) * RtoC (/ sm)) with
      (RtoC (/ sn / Cnorm2 U) * Cconj U * W).
    2:{ transitivity (RtoC (sm / sn / Cnorm2 U) * RtoC (/ sm) * Cconj U * W); [|ring].
        rewrite <- RtoC_mul. do 3 f_equal. field. auto. }
    rewrite <- mscale_mscale, <- H, mscale_mscale.
    f_equal. transitivity (RtoC (/ sn / Cnorm2 U) * (U * Cconj U)); [|ring].
    rewrite Cnorm2_mulconj, <- RtoC_mul. f_equal. field. auto.
Qed.

Definition gprod (a b : gmat * Z) : gmat * Z := (gmmul (fst a) (fst b), (snd a * snd b)%Z).
Definition gdag (a : gmat * Z) : gmat * Z := (gmdag (fst a), snd a).
Lemma ginterp_prod a b : (0 < snd a)%Z -> (0 < snd b)%Z -> ginterp (gprod a b) = mmul (ginterp a) (ginterp b).
Proof.
  intros Ha Hb. unfold ginterp, gprod; cbn [fst snd].
  rewrite gmatC_mul, mscale_mul_l, mscale_mul_r, mscale_mscale, <- RtoC_mul. f_equal. f_equal.
  rewrite mult_IZR. apply IZR_lt in Ha, Hb. rewrite sqrt_mult by lra.
  pose proof (sqrt_lt_R0 _ Ha). pose proof (sqrt_lt_R0 _ Hb). apply Rinv_mult.
Qed.
Lemma ginterp_dag a : ginterp (gdag a) = mdag (ginterp a).
Proof. unfold ginterp, gdag; simpl. rewrite mdag_scale, gmatC_dag, Cconj_R. reflexivity. Qed.

Definition forall_clifford (p : clifford -> bool) : bool := forallb p all_cliffords.
Lemma all_cliffords_spec c : In c all_cliffords.
Proof. destruct c; simpl; tauto. Qed.
Lemma forall_clifford_spec p : forall_clifford p = true -> forall c, p c = true.
Proof. unfold forall_clifford. rewrite forallb_forall. intros H c; apply H, all_cliffords_spec. Qed.
Lemma clifford_db_pos c : (0 < snd (clifford_db c))%Z.
Proof. destruct c; reflexivity. Qed.
Lemma clifford_eqb_eq a b : clifford_eqb a b = true <-> a = b.
Proof.
  split; [|intros ->; unfold clifford_eqb; apply Nat.eqb_refl].
  unfold clifford_eqb. intros H. apply Nat.eqb_eq in H.
  assert (forall x, nth (clifford_val x) all_cliffords K0 = x) as E by (intros []; reflexivity).
  rewrite <- (E a), <- (E b), H. reflexivity.
Qed.

Lemma clifford_mul_mat a b : mmul (clifford_mat a) (clifford_mat b) ~= clifford_mat (clifford_mul a b).
Proof.
  unfold clifford_mat. rewrite <- ginterp_prod by apply clifford_db_pos. apply geqp_sound.
  assert (H : forall_clifford (fun a => forall_clifford (fun b =>
     geqp (gprod (clifford_db a) (clifford_db b)) (clifford_db (clifford_mul a b)))) = true)
    by (vm_compute; reflexivity).
  apply (forall_clifford_spec _ (forall_clifford_spec _ H a) b).
Qed.
Lemma clifford_conj_mat a : mdag (clifford_mat a) ~= clifford_mat (clifford_conj a).
Proof.
  unfold clifford_mat. rewrite <- ginterp_dag. apply geqp_sound.
  assert (H : forall_clifford (fun a => geqp (gdag (clifford_db a)) (clifford_db (clifford_conj a))) = true)
    by (vm_compute; reflexivity).
  apply (forall_clifford_spec _ H a).
Qed.
(** two of the 24 gates are never equal up to a phase *)
Definition gdist (A B : gmat * Z) : bool :=
  let m := [(g00 (fst A), g00 (fst B)); (g01 (fst A), g01 (fst B)); (g10 (fst A), g10 (fst B)); (g11 (fst A), g11 (fst B))] in
  existsb (fun p => existsb (fun q => negb (geqb (gmulZ (fst p) (snd q)) (gmulZ (fst q) (snd p)))) m) m.
Lemma gC_inj a b : gC a = gC b -> a = b.
Proof.
  intros H. pose proof (f_equal re H) as H1. pose proof (f_equal im H) as H2. simpl in *.
  apply eq_IZR in H1, H2. destruct a, b; simpl in *; subst; auto.
Qed.
Lemma gmulZ_C a b c d : gC a * gC b = gC c * gC d -> geqb (gmulZ a b) (gmulZ c d) = true.
Proof.
  intros H. rewrite <- !gC_mul in H. apply gC_inj in H. rewrite H. unfold geqb. rewrite !Z.eqb_refl. auto.
Qed.
Lemma gdist_sound a b : (0 < snd a)%Z -> (0 < snd b)%Z -> gdist a b = true -> ~ (ginterp a ~= ginterp b).
Proof.
  destruct a as [A n], b as [B m]; simpl. intros Hn Hm H (c & Hc & E).
  apply IZR_lt in Hn, Hm. pose proof (sqrt_lt_R0 _ Hn) as Pn. pose proof (sqrt_lt_R0 _ Hm) as Pm.
  unfold ginterp in E; cbn [fst snd] in E.
  set (sn := sqrt (IZR n)) in *. set (sm := sqrt (IZR m)) in *.
  assert (E' : gmatC A = mscale (c * RtoC (sn / sm)) (gmatC B)).
  { apply (f_equal (mscale (RtoC sn))) in E. rewrite !mscale_mscale in E.
    rewrite <- RtoC_mul, Rinv_r, mscale_1 in E by lra. rewrite E. f_equal.
    transitivity (c * (RtoC sn * RtoC (/ sm))); [ring|]. rewrite <- RtoC_mul. reflexivity. }
  set (k := c * RtoC (sn / sm)) in *.
  pose proof (f_equal m00 E') as E0. pose proof (f_equal m01 E') as E1.
  pose proof (f_equal m10 E') as E2. pose proof (f_equal m11 E') as E3. simpl in E0, E1, E2, E3.
  unfold gdist in H. apply existsb_exists in H. destruct H as (p & Hp & H).
  apply existsb_exists in H. destruct H as (q & Hq & H).
  assert (Kp : gC (fst p) = k * gC (snd p)).
  { simpl in Hp. destruct Hp as [<-|[<-|[<-|[<-|[]]]]]; simpl; auto. }
  assert (Kq : gC (fst q) = k * gC (snd q)).
  { simpl in Hq. destruct Hq as [<-|[<-|[<-|[<-|[]]]]]; simpl; auto. }
  rewrite gmulZ_C in H; [discriminate|]. rewrite Kp, Kq. ring.
Qed.
Lemma clifford_mat_inj a b : clifford_mat a ~= clifford_mat b -> a = b.
Proof.
  intros H.
  assert (E : forall_clifford (fun a => forall_clifford (fun b =>
     clifford_eqb a b || gdist (clifford_db a) (clifford_db b))) = true) by (vm_compute; reflexivity).
  pose proof (forall_clifford_spec _ (forall_clifford_spec _ E a) b) as E'. cbv beta in E'.
  apply orb_true_iff in E'. destruct E' as [E'|E']; [apply clifford_eqb_eq; auto|].
  exfalso. revert H. apply gdist_sound; auto using clifford_db_pos.
Qed.

Lemma ginterp_id : ginterp (GMat (1,0) (0,0) (0,0) (1,0), 1)%Z = mid.
Proof. unfold ginterp; cbn [fst snd]. rewrite sqrt_1, Rinv_1. unfold gmatC, gC; simpl. meq; ceq; ring. Qed.
Lemma clifford_mat_I : clifford_mat K0 = mid.
Proof. apply ginterp_id. Qed.
Lemma sqrt1inv : RtoC (/ sqrt (IZR 1)) = C1.
Proof. rewrite sqrt_1, Rinv_1. reflexivity. Qed.
Lemma clifford_mat_X : clifford_mat K1 = mX.
Proof. unfold clifford_mat, ginterp; cbn [fst snd clifford_db]. rewrite sqrt1inv, mscale_1. unfold gmatC, gC; simpl. meq; ceq; ring. Qed.
Lemma clifford_mat_Y : clifford_mat K2 = mY.
Proof. unfold clifford_mat, ginterp; cbn [fst snd clifford_db]. rewrite sqrt1inv, mscale_1. unfold gmatC, gC; simpl. meq; ceq; ring. Qed.
Lemma clifford_mat_Z : clifford_mat K3 = mZ.
Proof. unfold clifford_mat, ginterp; cbn [fst snd clifford_db]. rewrite sqrt1inv, mscale_1. unfold gmatC, gC; simpl. meq; ceq; ring. Qed.
Definition mS : mat2 := Mat2 C1 C0 C0 Ci.
Definition mSdg : mat2 := Mat2 C1 C0 C0 (- Ci).
Definition mH : mat2 := mscale (RtoC (/ sqrt 2)) (Mat2 C1 C1 C1 (- C1)).
Lemma clifford_mat_S : clifford_mat K4 = mS.
Proof. unfold clifford_mat, ginterp; cbn [fst snd clifford_db]. rewrite sqrt1inv, mscale_1. unfold gmatC, gC; simpl. meq; ceq; ring. Qed.
Lemma clifford_mat_Sdg : clifford_mat K5 = mSdg.
Proof. unfold clifford_mat, ginterp; cbn [fst snd clifford_db]. rewrite sqrt1inv, mscale_1. unfold gmatC, gC; simpl. meq; ceq; ring. Qed.
Lemma clifford_mat_H : clifford_mat K6 = mH.
Proof. unfold clifford_mat, ginterp, mH; cbn [fst snd clifford_db]. f_equal. unfold gmatC, gC; simpl. meq; ceq; ring. Qed.

(** unitarity, exactly *)
Definition gunit (a : gmat * Z) : bool :=
  gmeqb (gmmul (gmdag (fst a)) (fst a)) (GMat (snd a,0) (0,0) (0,0) (snd a,0))%Z
  && gmeqb (gmmul (fst a) (gmdag (fst a))) (GMat (snd a,0) (0,0) (0,0) (snd a,0))%Z && (0 <? snd a)%Z.
Lemma gmatC_scalar n : gmatC (GMat (n,0) (0,0) (0,0) (n,0))%Z = mscale (RtoC (IZR n)) mid.
Proof. unfold gmatC, gC; simpl; meq; ceq; ring. Qed.
Lemma gunit_sound a : gunit a = true -> unitary (ginterp a).
Proof.
  destruct a as [A n]. unfold gunit; cbn [fst snd]. rewrite !andb_true_iff. intros [[H1 H2] H3].
  apply gmeqb_eq in H1, H2. apply (f_equal gmatC) in H1, H2.
  rewrite gmatC_mul, gmatC_dag, gmatC_scalar in H1, H2.
  apply Z.ltb_lt, IZR_lt in H3. pose proof (sqrt_lt_R0 _ H3).
  unfold ginterp; cbn [fst snd]; split; rewrite mdag_scale, Cconj_R, mscale_mul_l, mscale_mul_r, mscale_mscale, ?H1, ?H2, mscale_mscale, <- RtoC_mul, sqrt_mul_inv, <- RtoC_mul by lra;
  rewrite Rinv_l by lra; apply mscale_1.
Qed.
Lemma clifford_unitary c : unitary (clifford_mat c).
Proof.
  apply gunit_sound.
  assert (H : forall_clifford (fun a => gunit (clifford_db a)) = true) by (vm_compute; reflexivity).
  apply (forall_clifford_spec _ H).
Qed.

(** C^dag P C, exactly *)
Definition gaxis (a : axis) : gmat :=
  match a with
  | AX => GMat (0,0) (1,0) (1,0) (0,0) | AY => GMat (0,0) (0,-1) (0,1) (0,0) | AZ => GMat (1,0) (0,0) (0,0) (-1,0)
  end%Z.
Lemma gaxis_C a : gmatC (gaxis a) = axis_mat a.
Proof. destruct a; unfold gmatC, gC; simpl; meq; ceq; ring. Qed.
Definition gsign (s : sign) : Z := match s with Plus => 1 | Minus => -1 end%Z.
Definition gconjcheck (c : clifford) (a : axis) (r : axis * sign) : bool :=
  let '(A, n) := clifford_db c in
  gmeqb (gmmul (gmdag A) (gmmul (gaxis a) A)) (gmscale (gsign (snd r) * n, 0)%Z (gaxis (fst r))).
Lemma gconjcheck_sound c a r : gconjcheck c a r = true ->
  mmul (mdag (clifford_mat c)) (mmul (axis_mat a) (clifford_mat c)) = mscale (sign_C (snd r)) (axis_mat (fst r)).
Proof.
  unfold gconjcheck, clifford_mat. pose proof (clifford_db_pos c) as Hp.
  destruct (clifford_db c) as [A n]; cbn [fst snd] in *. intros H.
  apply gmeqb_eq in H. apply (f_equal gmatC) in H.
  rewrite !gmatC_mul, gmatC_dag, gmatC_scale, !gaxis_C in H.
  unfold ginterp; cbn [fst snd]. rewrite mdag_scale, Cconj_R, mscale_mul_r, mscale_mul_l, mscale_mul_r, mscale_mscale.
  rewrite H, mscale_mscale. f_equal. apply IZR_lt in Hp.
  rewrite <- RtoC_mul, sqrt_mul_inv by auto. unfold gC, sign_C; simpl. rewrite mult_IZR.
  ceq; [|ring]. destruct (snd r); simpl; field; lra.
Qed.
Lemma pauli_mat_signed s a : pauli_mat (Pauli (Some a) (cunit_props s false)) = mscale (sign_C s) (axis_mat a).
Proof. unfold pauli_mat; simpl. rewrite cunit_props_C. f_equal. ring. Qed.
Lemma clifford_measure_axis_mat c a :
  mmul (mdag (clifford_mat c)) (mmul (axis_mat a) (clifford_mat c)) = pauli_mat (clifford_measure_axis c a).
Proof.
  unfold clifford_measure_axis.
  assert (H : forall_clifford (fun c => let '(x, y, z) := clifford_measure_db c in
     gconjcheck c AX x && gconjcheck c AY y && gconjcheck c AZ z) = true) by (vm_compute; reflexivity).
  apply (forall_clifford_spec _) with (c := c) in H.
  destruct (clifford_measure_db c) as [[x y] z]. rewrite !andb_true_iff in H. destruct H as [[Hx Hy] Hz].
  destruct a; [rewrite (gconjcheck_sound _ _ _ Hx); destruct x | rewrite (gconjcheck_sound _ _ _ Hy); destruct y
    | rewrite (gconjcheck_sound _ _ _ Hz); destruct z]; simpl; rewrite pauli_mat_signed; reflexivity.
Qed.
Lemma clifford_measure_mat c p :
  mmul (mdag (clifford_mat c)) (mmul (pauli_mat p) (clifford_mat c)) = pauli_mat (clifford_measure c p).
Proof.
  destruct p as [[a|] u]; unfold clifford_measure; cbn [p_sym p_unit].
  - rewrite pauli_scale_mat, <- clifford_measure_axis_mat. unfold pauli_mat; cbn [p_sym p_unit ixyz_mat].
    rewrite mscale_mul_l, mscale_mul_r. reflexivity.
  - unfold pauli_mat; cbn [p_sym p_unit ixyz_mat]. rewrite mscale_mul_l, mscale_mul_r, mmul_1_l.
    rewrite (proj1 (clifford_unitary c)). reflexivity.
Qed.

(** decomposition tables *)
Definition gprodl (l : list clifford) : gmat * Z :=
  fold_right (fun c acc => gprod (clifford_db c) acc) (GMat (1,0) (0,0) (0,0) (1,0), 1)%Z l.
(** matrix product of a list, leftmost factor first *)
Definition mprod (l : list mat2) : mat2 := fold_right mmul mid l.
Lemma gprodl_pos l : (0 < snd (gprodl l))%Z.
Proof.
  induction l as [|c l IH]; [reflexivity|]. unfold gprodl in *. cbn [fold_right]. unfold gprod at 1.
  cbn [snd]. apply Z.mul_pos_pos; [apply clifford_db_pos|exact IH].
Qed.
Lemma gprodl_mat l : ginterp (gprodl l) = mprod (map clifford_mat l).
Proof.
  induction l as [|c l IH]; [apply ginterp_id|].
  change (gprodl (c :: l)) with (gprod (clifford_db c) (gprodl l)).
  rewrite ginterp_prod, IH; [reflexivity|apply clifford_db_pos|apply gprodl_pos].
Qed.
Lemma clifford_hsz_mat c : mprod (map clifford_mat (clifford_hsz c)) ~= clifford_mat c.
Proof.
  rewrite <- gprodl_mat. apply geqp_sound.
  assert (H : forall_clifford (fun c => geqp (gprodl (clifford_hsz c)) (clifford_db c)) = true) by (vm_compute; reflexivity).
  apply (forall_clifford_spec _ H).
Qed.
Lemma clifford_hsz_gates c g : In g (clifford_hsz c) -> g = K0 \/ g = K3 \/ g = K4 \/ g = K6.
Proof. destruct c; simpl; intuition; subst; auto. Qed.
(** OpenQASM3 lists are in time order: the first gate is applied first *)
Lemma clifford_qasm3_mat c : mprod (map clifford_mat (rev (clifford_qasm3 c))) ~= clifford_mat c.
Proof.
  rewrite <- gprodl_mat. apply geqp_sound.
  assert (H : forall_clifford (fun c => geqp (gprodl (rev (clifford_qasm3 c))) (clifford_db c)) = true) by (vm_compute; reflexivity).
  apply (forall_clifford_spec _ H).
Qed.

(** * commute_domains *)
(** X^s Z^t as a matrix *)
Definition mpow (U : mat2) (b : bool) : mat2 := if b then U else mid.
Definition mXZ (s t : bool) : mat2 := mmul (mpow mX s) (mpow mZ t).

Lemma mpow_xor U a b : mmul U U = mid -> mmul (mpow U a) (mpow U b) = mpow U (xorb a b).
Proof. intros H; destruct a, b; simpl; rewrite ?mmul_1_l, ?mmul_1_r; auto. Qed.
Lemma mXZ_unitary s t : unitary (mXZ s t).
Proof. apply unitary_mul; [destruct s|destruct t]; simpl; auto using unitary_X, unitary_Z, unitary_id. Qed.
Ltac pm1 := first
  [ solve [exists C1; split; [apply phase_1|meq; ring]]
  | solve [exists (- C1); split; [apply phase_m1|meq; ring]] ].
Lemma mXZ_mul s t s' t' : mmul (mXZ s t) (mXZ s' t') ~= mXZ (xorb s s') (xorb t t').
Proof.
  destruct s, t, s', t'; unfold mXZ; simpl;
  pm1.
Qed.
Lemma XZ_H s t : mmul (mXZ s t) mH ~= mmul mH (mXZ t s).
Proof.
  destruct s, t; unfold mXZ, mH; simpl;
  pm1.
Qed.
Lemma XZ_S s t : mmul (mXZ s t) mS ~= mmul mS (mXZ s (xorb t s)).
Proof.
  destruct s, t; unfold mXZ, mS; simpl;
  solve [ (exists C1; split; [apply phase_1|meq; ceq; ring]) | (exists (- C1); split; [apply phase_m1|meq; ceq; ring])
        | (exists Ci; split; [apply phase_i|meq; ceq; ring]) | (exists (- Ci); split; [apply phase_mi|meq; ceq; ring])].
Qed.
Lemma XZ_Z s t : mmul (mXZ s t) mZ ~= mmul mZ (mXZ s t).
Proof.
  destruct s, t; unfold mXZ; simpl;
  pm1.
Qed.

Lemma commute_step_spec g s t s' t' o : commute_step g (Some (s, t)) = Some (s', t') ->
  mmul (mXZ (parity o s) (parity o t)) (clifford_mat g) ~= mmul (clifford_mat g) (mXZ (parity o s') (parity o t')).
Proof.
  destruct g; simpl; intros [= <- <-] || intros H; try discriminate H.
  - rewrite clifford_mat_I, mmul_1_l, mmul_1_r. apply meqp_refl.
  - rewrite clifford_mat_Z. apply XZ_Z.
  - rewrite clifford_mat_S, parity_sxor. apply XZ_S.
  - rewrite clifford_mat_H. apply XZ_H.
Qed.
Lemma commute_fold_None l : fold_left (fun st g => commute_step g st) l None = None.
Proof. induction l; simpl; auto. Qed.
Lemma commute_fold_spec l s t s' t' o :
  fold_left (fun st g => commute_step g st) l (Some (s, t)) = Some (s', t') ->
  mmul (mXZ (parity o s) (parity o t)) (mprod (map clifford_mat l))
  ~= mmul (mprod (map clifford_mat l)) (mXZ (parity o s') (parity o t')).
Proof.
  revert s t. induction l as [|g l IH]; cbn [fold_left map mprod fold_right]; intros s t H.
  - inversion H; subst. rewrite mmul_1_l, mmul_1_r. apply meqp_refl.
  - destruct (commute_step g (Some (s, t))) as [[s1 t1]|] eqn:E; [|rewrite commute_fold_None in H; discriminate].
    rewrite mmul_assoc.
    eapply meqp_trans; [apply meqp_mul; [eapply commute_step_spec; eauto|apply meqp_refl]|].
    rewrite <- mmul_assoc.
    eapply meqp_trans; [apply meqp_mul; [apply meqp_refl|apply IH; eauto]|].
    rewrite mmul_assoc. apply meqp_refl.
Qed.
Lemma commute_domains_total c s t : commute_domains_opt c s t = Some (commute_domains c s t).
Proof. unfold commute_domains. destruct c; reflexivity. Qed.
(** X^s Z^t C = C X^s' Z^t' *)
Lemma commute_domains_mat c s t s' t' o : commute_domains c s t = (s', t') ->
  mmul (mXZ (parity o s) (parity o t)) (clifford_mat c) ~= mmul (clifford_mat c) (mXZ (parity o s') (parity o t')).
Proof.
  intros H. pose proof (commute_domains_total c s t) as E. rewrite H in E.
  pose proof (commute_fold_spec _ _ _ _ _ o E) as K.
  pose proof (clifford_hsz_mat c) as HZ.
  eapply meqp_trans; [apply meqp_mul; [apply meqp_refl|apply meqp_sym, HZ]|].
  eapply meqp_trans; [exact K|]. apply meqp_mul; [exact HZ|apply meqp_refl].
Qed.
