(** Property theorems: states and numbers whose printed form is wrong (C58). *)
From Coq Require Import Reals Lra ZArith Znumtheory Zpow_facts Arith List Bool Lia FunctionalExtensionality.
From Verif Require Import Cplx Mat2 NSet Pattern Statevec Density Circuit Swaps NodeIndex Simulator DMSim DMRun Inspect PropInspect Pretty PrettySpec PropPretty PropPrettySt.
Import ListNotations.
Local Open Scope C_scope.

(** * Fractions *)
Lemma fval_inj f g : Z.gcd (fst f) (Zpos (snd f)) = 1%Z -> Z.gcd (fst g) (Zpos (snd g)) = 1%Z -> fval f = fval g -> f = g.
Proof.
  destruct f as [a b], g as [c d]. cbn [fst snd]. unfold fval. cbn [fst snd]. intros H1 H2 E. pose proof (den_pos b). pose proof (den_pos d).
  assert (K : (a * Zpos d = c * Zpos b)%Z). { apply eq_IZR. rewrite !mult_IZR. apply (Rmult_eq_reg_r (/ IZR (Zpos b) * / IZR (Zpos d))); [|apply Rmult_integral_contrapositive_currified; apply Rinv_neq_0_compat; lra]. replace (IZR a * IZR (Zpos d) * (/ IZR (Zpos b) * / IZR (Zpos d)))%R with (IZR a / IZR (Zpos b))%R by (field; lra). rewrite E. field; lra. }
  assert (D1 : (Zpos b | Zpos d)%Z) by (apply (Z.gauss _ a); [exists c; lia|rewrite Z.gcd_comm; auto]). assert (D2 : (Zpos d | Zpos b)%Z) by (apply (Z.gauss _ c); [exists a; lia|rewrite Z.gcd_comm; auto]).
  assert (BD : Zpos b = Zpos d) by (apply Z.divide_antisym_nonneg; auto; lia). injection BD as ->. f_equal. apply (Z.mul_cancel_r _ _ (Zpos d)); [lia|auto].
Qed.
Lemma lim_eq lim m f : lim_ok lim -> (Pos.to_nat (snd f) <= m)%nat -> Z.gcd (fst f) (Zpos (snd f)) = 1%Z -> lim m (fval f) = f.
Proof.
  intros HL HF HG. pose proof (Pos2Nat.is_pos (snd f)). destruct (HL m (fval f) ltac:(lia)) as (G & _). apply fval_inj; auto. apply (lim_exact lim m _ f); auto.
Qed.
(** a fraction with a larger denominator is not recognised *)
Lemma lim_neq lim m f : lim_ok lim -> (1 <= m)%nat -> (m < Pos.to_nat (snd f))%nat -> Z.gcd (fst f) (Zpos (snd f)) = 1%Z -> fval (lim m (fval f)) <> fval f.
Proof. intros HL M HF HG K. destruct (HL m (fval f) M) as (G & D & _). apply fval_inj in K; auto. rewrite K in D. lia. Qed.
Lemma pclose_00 a b : pclose 0 0 a b = true <-> a = b.
Proof.
  rewrite pclose_0 by lra. split; intros H; [|subst; unfold Rminus; rewrite Rplus_opp_r, Rabs_R0; lra]. pose proof (Rabs_pos (a - b)). destruct (Req_dec (a - b) 0) as [E|E]; [lra|]. apply Rabs_no_R0 in E. lra.
Qed.
Lemma pclose_00f a b : a <> b -> pclose 0 0 a b = false.
Proof. intros H. apply not_true_iff_false. rewrite pclose_00. auto. Qed.

(** * The powers of (3 + 4i) / 5 *)
Fixpoint gpow (n : nat) : Z * Z := match n with O => (1, 0)%Z | S k => let '(a, b) := gpow k in (3 * a - 4 * b, 4 * a + 3 * b)%Z end.
Lemma gpow_mod n : exists a b, gpow (S n) = (3 + 5 * a, 4 + 5 * b)%Z.
Proof.
  induction n as [|n (a & b & E)]; [exists 0%Z, 0%Z; reflexivity|]. change (gpow (S (S n))) with (let '(a, b) := gpow (S n) in (3 * a - 4 * b, 4 * a + 3 * b)%Z). rewrite E. exists (3 * a - 4 * b - 2)%Z, (4 * a + 3 * b + 4)%Z. f_equal; ring.
Qed.
Definition z35 : C := mkC (3 / 5) (4 / 5).
Lemma Cmod_z35 : Cmod z35 = 1%R.
Proof. unfold Cmod, Cnorm2, z35. cbn [re im]. replace (3 / 5 * (3 / 5) + 4 / 5 * (4 / 5))%R with 1%R by field. apply sqrt_1. Qed.
Definition v35 : R := (atan2 z35 / PI)%R.
Lemma cis_v35 : cis v35 = z35.
Proof. assert (NZ : z35 <> C0) by (intros K; apply (f_equal re) in K; cbn in K; lra). rewrite (atan2_polar z35 NZ) at 1. rewrite Cmod_z35. fold v35. change (RtoC 1) with C1. ring. Qed.
Lemma cis_nv n : cis (INR n * v35) = mkC (IZR (fst (gpow n)) / 5 ^ n) (IZR (snd (gpow n)) / 5 ^ n).
Proof.
  induction n as [|n IH].
  - cbn [INR]. rewrite Rmult_0_l. unfold cis. rewrite Rmult_0_l, cos_0, sin_0. cbn. apply C_eq; cbn; field.
  - rewrite S_INR. replace ((INR n + 1) * v35)%R with (INR n * v35 + v35)%R by ring. rewrite cis_add, IH, cis_v35. cbn [gpow]. destruct (gpow n) as [a b]. cbn [fst snd]. assert (5 ^ n <> 0)%R by (apply pow_nonzero; lra).
    apply C_eq; unfold Cmul, z35; cbn [re im pow]; rewrite ?minus_IZR, ?plus_IZR, !mult_IZR; field; auto.
Qed.
Lemma cis_mul k : forall w x, cis w = cis x -> cis (INR k * w) = cis (INR k * x).
Proof.
  induction k as [|k IH]; intros w x E; [cbn [INR]; rewrite !Rmult_0_l; auto|]. rewrite S_INR. replace ((INR k + 1) * w)%R with (INR k * w + w)%R by ring. replace ((INR k + 1) * x)%R with (INR k * x + x)%R by ring. rewrite !cis_add, E, (IH w x E). auto.
Qed.
Lemma irrational n w f : (1 <= n)%nat -> cis w = cis (INR n * v35) -> w <> fval f.
Proof.
  intros N E K. set (q := Pos.to_nat (snd f)). assert (Q : (1 <= q)%nat) by (unfold q; pose proof (Pos2Nat.is_pos (snd f)); lia). pose proof (cis_mul q _ _ E) as H. rewrite <- Rmult_assoc, <- mult_INR, cis_nv in H.
  assert (L : (INR q * w)%R = IZR (fst f)). { rewrite K. unfold fval, q. rewrite INR_IZR_INZ, positive_nat_Z. pose proof (den_pos (snd f)). field. lra. }
  rewrite L in H. apply (f_equal im) in H. cbn [im cis] in H. rewrite (sin_eq_0_1 (IZR (fst f) * PI)) in H by (eexists; reflexivity).
  destruct (q * n)%nat as [|k] eqn:EQ; [nia|]. destruct (gpow_mod k) as (a & b & G). rewrite G in H. cbn [snd] in H. assert (P5 : (5 ^ S k <> 0)%R) by (apply pow_nonzero; lra).
  assert (Z : IZR (4 + 5 * b) = 0%R). { apply (Rmult_eq_reg_r (/ 5 ^ S k)); [|apply Rinv_neq_0_compat; auto]. rewrite Rmult_0_l. symmetry. exact H. }
  apply eq_IZR in Z. lia.
Qed.
Lemma rec_frac lim m f : lim_ok lim -> (Pos.to_nat (snd f) <= m)%nat -> Z.gcd (fst f) (Zpos (snd f)) = 1%Z -> recognize_sqrt lim m 0 0 (fval f) = Ok (Some (fst f, 1%nat, Pos.to_nat (snd f))).
Proof.
  intros HL HF HG. unfold recognize_sqrt. cbv zeta. rewrite (lim_eq lim m f HL HF HG). replace (pclose 0 0 (fval f) (fval f)) with true by (symmetry; apply pclose_00; auto).
  destruct (Z.ltb_spec (fst f) 0); [rewrite Z.abs_neq by lia|rewrite Z.abs_eq by lia]; rewrite ?Z.opp_involutive; auto.
Qed.
Lemma fval_sq f : (fval f * fval f)%R = fval ((fst f * fst f)%Z, (snd f * snd f)%positive).
Proof. unfold fval. cbn [fst snd]. rewrite mult_IZR, Pos2Z.inj_mul, mult_IZR. pose proof (den_pos (snd f)). field. lra. Qed.
Lemma rec_none lim m f : lim_ok lim -> (1 <= m)%nat -> (m < Pos.to_nat (snd f))%nat -> Z.gcd (fst f) (Zpos (snd f)) = 1%Z -> recognize_sqrt lim m 0 0 (fval f) = Ok None.
Proof.
  intros HL M HF HG. unfold recognize_sqrt. cbv zeta. rewrite pclose_00f by (intros K; apply (lim_neq lim m f HL M HF HG); auto). rewrite fval_sq.
  rewrite pclose_00f; [reflexivity|]. intros K. apply (lim_neq lim m ((fst f * fst f)%Z, (snd f * snd f)%positive) HL M); cbn [fst snd]; auto.
  - rewrite Pos2Nat.inj_mul. nia.
  - rewrite Pos2Z.inj_mul. apply Zgcd_1_rel_prime in HG. apply Zgcd_1_rel_prime. apply rel_prime_mult; apply rel_prime_sym, rel_prime_mult; apply rel_prime_sym; auto.
Qed.
Lemma Rleb_0 x : x <> 0%R -> Rleb (Rabs x) 0 = false.
Proof. intros H. apply not_true_iff_false. rewrite Rleb_spec. apply Rabs_no_R0 in H. pose proof (Rabs_pos x). lra. Qed.
Lemma exp_none lim o m n z : (1 <= n)%nat -> z = cis (INR n * v35) -> exponential_to_str lim o m 0 0 z = Ok None.
Proof.
  intros N E. unfold exponential_to_str, recognize_angle. cbv zeta. rewrite pclose_00f; auto. apply (irrational n); auto.
  assert (M1 : Cmod z = 1%R) by (rewrite E; apply Cmod_phase, phase_cis). assert (NZ : z <> C0). { intros K. rewrite K in M1. unfold Cmod, Cnorm2, C0 in M1. cbn [re im] in M1. replace (0 * 0 + 0 * 0)%R with 0%R in M1 by ring. rewrite sqrt_0 in M1. lra. }
  rewrite <- E. rewrite (atan2_polar z NZ) at 2. rewrite M1. change (RtoC 1) with C1. ring.
Qed.

(** a decimal sum is put before the ket without parentheses: for every
    denominator limit there is a one-qubit state a|0> printed as "x+yi|0>", which
    reads as the number x plus the state yi|0> *)
Theorem C58_decimal_sum_refuted : forall lim fmtg o maxden prec, lim_ok lim -> (1 <= maxden)%nat ->
  exists s, sv_n s = 1%nat /\ normalised s /\ let a := sv_psi s 0%nat in re a <> 0%R /\ im a <> 0%R /\
    exists str, statevec_to_str lim fmtg o maxden 0 0 prec s false = Ok str /\
      str = [TDec (fmtg prec (re a)); TSig (fmtg prec (im a)); TI; TKet [false]] /\
      reads str None = RtoC (fmtg prec (re a)) /\ reads str (Some [false]) = mkC 0 (fmtg prec (im a)).
Proof.
  intros lim fmtg o m p HL M. set (z := cis (INR m * v35)). destruct m as [|m']; [lia|]. destruct (gpow_mod m') as (a & b & G). set (m := S m') in *.
  set (D := Z.to_pos (5 ^ Z.of_nat m)). assert (D0 : (0 < 5 ^ Z.of_nat m)%Z) by (apply Z.pow_pos_nonneg; lia). assert (DE : Zpos D = (5 ^ Z.of_nat m)%Z) by (apply Z2Pos.id; auto). assert (DR : IZR (Zpos D) = (5 ^ m)%R) by (rewrite DE, <- pow_IZR; auto).
  assert (DN : (m < Pos.to_nat D)%nat). { apply Nat2Z.inj_lt. rewrite positive_nat_Z, DE. apply Z.pow_gt_lin_r; lia. }
  assert (REL : forall x, rel_prime x 5 -> Z.gcd x (Zpos D) = 1%Z) by (intros x NX; rewrite DE; apply Zgcd_1_rel_prime, rel_prime_Zpower_r; auto; lia).
  set (A := (3 + 5 * a)%Z) in *. set (B := (4 + 5 * b)%Z) in *.
  assert (RA : Z.gcd A (Zpos D) = 1%Z) by (apply REL, bezout_rel_prime, (Bezout_intro _ _ _ 2%Z (- (2 * a + 1))%Z); unfold A; ring).
  assert (RB : Z.gcd B (Zpos D) = 1%Z) by (apply REL, bezout_rel_prime, (Bezout_intro _ _ _ (-1)%Z (b + 1)%Z); unfold B; ring).
  assert (ZV : z = mkC (fval (A, D)) (fval (B, D))). { unfold z. rewrite cis_nv, G. unfold fval. cbn [fst snd]. rewrite DR. auto. }
  assert (P5 : (0 < 5 ^ m)%R) by (apply pow_lt; lra). assert (NZ : forall x, x <> 0%Z -> fval (x, D) <> 0%R). { intros x Hx K. unfold fval in K. cbn [fst snd] in K. rewrite DR in K. apply Hx, eq_IZR. apply (Rmult_eq_reg_r (/ 5 ^ m)); [|apply Rinv_neq_0_compat; lra]. rewrite Rmult_0_l. exact K. }
  assert (XA : re z <> 0%R) by (rewrite ZV; apply NZ; unfold A; lia). assert (XB : im z <> 0%R) by (rewrite ZV; apply NZ; unfold B; lia). assert (MZ : Cmod z = 1%R) by (apply Cmod_phase, phase_cis).
  exists (SV (fun i => if (i =? 0)%nat then z else C0) 1). split; [reflexivity|]. split.
  { unfold normalised. cbn [sv_n sv_psi]. change (range (2 ^ 1)) with [0%nat; 1%nat]. unfold rsum, gsum. cbn [fold_right Nat.eqb]. rewrite <- Cmod_sq, MZ. unfold Cnorm2, C0. cbn [re im]. ring. }
  cbv zeta. cbn [sv_psi Nat.eqb]. split; auto. split; auto.
  assert (STR : complex_to_str lim fmtg o m 0 0 p z = Ok [TDec (fmtg p (re z)); TSig (fmtg p (im z)); TI]).
  { unfold complex_to_str. rewrite !Rleb_0 by auto. cbn [andb]. rewrite (exp_none lim o m m z) by (auto; lia). cbn [rbind]. unfold cartesian_to_str, real_to_str.
    assert (R1 : recognize_sqrt lim m 0 0 (re z) = Ok None) by (rewrite ZV; cbn [re]; apply rec_none; auto). assert (R2 : recognize_sqrt lim m 0 0 (im z) = Ok None) by (rewrite ZV; cbn [im]; apply rec_none; auto).
    rewrite R1, R2. cbn [rbind option_map or_decimal]. unfold decimal_to_str. rewrite !Rleb_0 by auto. reflexivity. }
  eexists. split; [|split; [reflexivity|]].
  - unfold statevec_to_str, to_dict, to_dict_map. cbn [sv_n sv_psi]. change (range (2 ^ 1)) with [0%nat; 1%nat]. cbn [filter Nat.eqb]. rewrite MZ.
    assert (L1 : Rleb 1 (0 + 0 * 0) = false) by (apply not_true_iff_false; rewrite Rleb_spec; lra). assert (L2 : Rleb (Cmod C0) (0 + 0 * 0) = true). { apply Rleb_spec. unfold Cmod, Cnorm2, C0. cbn [re im]. replace (0 * 0 + 0 * 0)%R with 0%R by ring. rewrite sqrt_0. lra. }
    rewrite L1, L2. cbn [negb map Nat.eqb]. change (format_encoding 1 0 false) with [false]. unfold state_to_str. cbn [factor_uniform rbind]. cbn [Swaps.rmap fst snd]. rewrite STR. cbn [rbind]. reflexivity.
  - split.
    + unfold reads, read_init. cbn [fold_left read_step tval read_end]. unfold vadd, vmul, vscal, vket. ring.
    + unfold reads, read_init. cbn [fold_left read_step tval read_end]. unfold vadd, vmul, vscal, vket. rewrite beqb_refl. apply C_eq; cbn; ring.
Qed.
Print Assumptions C58_decimal_sum_refuted.

(** in the factored form a phase that prints as a sum is put before its ket
    without parentheses: (|00> + |01> + |10> + (3+4i)/5 |11>) / 2 is printed as
    "1/2(|00> + |01> + |10> + 3/5 + 4/5i|11>)" *)
Theorem C58_phase_sum_refuted : forall lim fmtg o maxden prec, lim_ok lim -> (5 <= maxden)%nat ->
  exists s str, sv_n s = 2%nat /\ normalised s /\ sv_psi s 3%nat = mkC (3 / 10) (2 / 5) /\
    statevec_to_str lim fmtg o maxden 0 0 prec s false = Ok str /\
    reads str None = RtoC (3 / 10) /\ reads str (Some [true; true]) = mkC 0 (2 / 5).
Proof.
  intros lim fmtg o m p HL M. set (h := RtoC (/ 2)). set (psi := fun i : nat => if (i =? 3)%nat then mkC (3 / 10) (2 / 5) else h).
  assert (MH : Cmod h = (/ 2)%R) by (unfold h; rewrite Cmod_R; apply Rabs_pos_eq; lra). assert (M3 : Cmod (mkC (3 / 10) (2 / 5)) = (/ 2)%R).
  { unfold Cmod, Cnorm2. cbn [re im]. replace (3 / 10 * (3 / 10) + 2 / 5 * (2 / 5))%R with ((/ 2) * (/ 2))%R by field. apply sqrt_square. lra. }
  assert (NRM : normalised (SV psi 2)).
  { unfold normalised. cbn [sv_n sv_psi]. change (range (2 ^ 2)) with [0; 1; 2; 3]%nat. unfold rsum, gsum, psi. cbn [fold_right Nat.eqb]. rewrite <- !Cmod_sq, MH, M3. lra. }
  assert (F : forall n d x, x = (IZR n / IZR (Zpos d))%R -> (Pos.to_nat d <= 5)%nat -> Z.gcd n (Zpos d) = 1%Z -> recognize_sqrt lim m 0 0 x = Ok (Some (n, 1%nat, Pos.to_nat d))).
  { intros n d x -> Hd Hg. apply (rec_frac lim m (n, d)); auto. cbn [snd]. lia. }
  assert (S1 : complex_to_str lim fmtg o m 0 0 p C1 = Ok [TNum 1]).
  { unfold complex_to_str. change (re C1) with 1%R. change (im C1) with 0%R. rewrite (Rleb_0 1) by lra. replace (Rleb (Rabs 0) 0) with true by (symmetry; apply Rleb_spec; rewrite Rabs_R0; lra). cbn [andb]. unfold real_to_str. rewrite (F 1%Z 1%positive 1%R) by (try reflexivity; try lra; simpl; lia). reflexivity. }
  assert (SH : complex_to_str lim fmtg o m 0 0 p h = Ok (fraction_str o [TNum 1] [TNum 2])).
  { unfold complex_to_str. change (re h) with (/ 2)%R. change (im h) with 0%R. rewrite (Rleb_0 (/ 2)) by lra. replace (Rleb (Rabs 0) 0) with true by (symmetry; apply Rleb_spec; rewrite Rabs_R0; lra). cbn [andb]. unfold real_to_str. rewrite (F 1%Z 2%positive (/ 2)%R) by (try reflexivity; try lra; simpl; lia). reflexivity. }
  assert (SZ : complex_to_str lim fmtg o m 0 0 p z35 = Ok (fraction_str o [TNum 3] [TNum 5] ++ [TPlusS] ++ fraction_str o [TNum 4] [TNum 5] ++ [TI])).
  { unfold complex_to_str. change (re z35) with (3 / 5)%R. change (im z35) with (4 / 5)%R. rewrite !Rleb_0 by lra. cbn [andb]. rewrite (exp_none lim o m 1 z35) by (auto; rewrite <- cis_v35; f_equal; cbn; ring). cbn [rbind].
    unfold cartesian_to_str, real_to_str. rewrite (F 3%Z 5%positive (3 / 5)%R), (F 4%Z 5%positive (4 / 5)%R) by (try reflexivity; try lra; simpl; lia). reflexivity. }
  assert (TD : to_dict (SV psi 2) false 0 0 = [([false; false], h); ([false; true], h); ([true; false], h); ([true; true], mkC (3 / 10) (2 / 5))]).
  { unfold to_dict, to_dict_map. cbn [sv_n sv_psi]. change (range (2 ^ 2)) with [0; 1; 2; 3]%nat. unfold psi. cbn [filter Nat.eqb]. rewrite MH, M3. assert (L1 : Rleb (/ 2) (0 + 0 * 0) = false) by (apply not_true_iff_false; rewrite Rleb_spec; lra). rewrite L1. reflexivity. }
  assert (PH : h * RtoC (/ / 2) = C1) by (unfold h; rewrite <- RtoC_mul; change C1 with (RtoC 1); f_equal; field). assert (P3 : mkC (3 / 10) (2 / 5) * RtoC (/ / 2) = z35) by (apply C_eq; cbn; field).
  set (last := fraction_str o [TNum 3] [TNum 5] ++ [TPlusS] ++ fraction_str o [TNum 4] [TNum 5] ++ [TI]) in *.
  assert (ST : statevec_to_str lim fmtg o m 0 0 p (SV psi 2) false = Ok (fraction_str o [TNum 1] [TNum 2] ++ [TPar (join_terms [[TKet [false; false]]; [TKet [false; true]]; [TKet [true; false]]; last ++ [TKet [true; true]]])])).
  { unfold statevec_to_str. rewrite TD. unfold state_to_str, factor_uniform. cbn [existsb snd]. rewrite MH, M3. replace (pclose 0 0 (/ 2) (/ 2)) with true by (symmetry; apply pclose_00; auto). cbn [negb orb]. unfold Reqb at 1. destruct (Req_EM_T (/ 2) 0) as [K|K]; [lra|]. cbn [orb]. fold h. rewrite SH. cbn [rbind].
    assert (I1 : is_one (fraction_str o [TNum 1] [TNum 2]) = false) by (unfold fraction_str; destruct (is_latex o); reflexivity). rewrite I1. cbn [Swaps.rmap fst snd]. rewrite PH, P3, S1, SZ. cbn [rbind].
    assert (I2 : opt_app last [true; true] = last ++ [TKet [true; true]]) by (unfold opt_app, last, fraction_str; destruct (is_latex o); reflexivity). rewrite I2. reflexivity. }
  set (vals := [vket [false; false]; vket [false; true]; vket [true; false]; vscal (RtoC (INR 3) * RtoC (/ INR 5)); vmul (vscal (RtoC (INR 4) * RtoC (/ INR 5) * Ci)) (vket [true; true])]).
  assert (RD : reads (fraction_str o [TNum 1] [TNum 2] ++ [TPar (join_terms [[TKet [false; false]]; [TKet [false; true]]; [TKet [true; false]]; last ++ [TKet [true; true]]])]) = vmul (vscal (RtoC (INR 1) * RtoC (/ INR 2))) (vsum vals)).
  { apply chunk_reads. apply chunk_app; [apply chunkC_fraction; [lia|apply chunkC_num]|].
    assert (J : join_terms [[TKet [false; false]]; [TKet [false; true]]; [TKet [true; false]]; last ++ [TKet [true; true]]] =
                join_terms [[TKet [false; false]]; [TKet [false; true]]; [TKet [true; false]]; fraction_str o [TNum 3] [TNum 5]; (fraction_str o [TNum 4] [TNum 5] ++ [TI]) ++ [TKet [true; true]]]) by (unfold last, fraction_str; destruct (is_latex o); reflexivity).
    rewrite J, <- (join_ok [[TKet [false; false]]; [TKet [false; true]]; [TKet [true; false]]; fraction_str o [TNum 3] [TNum 5]; (fraction_str o [TNum 4] [TNum 5] ++ [TI]) ++ [TKet [true; true]]] vals); [apply chunk_par| |discriminate].
    unfold vals. repeat constructor; try apply chunk_ket.
    - apply chunkC_fraction; [lia|apply chunkC_num].
    - apply chunk_app; [|apply chunk_ket]. apply chunkC_app; [apply chunkC_fraction; [lia|apply chunkC_num]|apply chunkC_i]. }
  exists (SV psi 2). eexists. split; [reflexivity|]. split; [exact NRM|]. split; [reflexivity|]. split; [exact ST|]. rewrite RD. assert (I5 : INR 5 = 5%R) by (simpl; ring). assert (I3 : INR 3 = 3%R) by (simpl; ring). assert (I4 : INR 4 = 4%R) by (simpl; ring). assert (I2' : INR 2 = 2%R) by (simpl; ring). change (INR 1) with 1%R.
  unfold vals, vsum. cbn [fold_right]. rewrite I5, I3, I4, I2'. split.
  - unfold vadd, vmul, vscal, vket. apply C_eq; unfold Cmul, Cadd, RtoC, Ci, C0, C1; cbn [re im]; field.
  - unfold vadd, vmul, vscal, vket. cbn [beqb list_eq_dec]. unfold beqb. cbn. apply C_eq; cbn; field.
Qed.
Print Assumptions C58_phase_sum_refuted.

(** the absolute tolerance is applied to the square of the number as well: a
    number of modulus sqrt(atol), far above atol, is printed as 0 (and on the
    imaginary axis as "0i") *)
Lemma small_num m f : (Pos.to_nat (snd f) <= m)%nat -> (Rabs (fval f) * INR m < 1)%R -> fst f = 0%Z.
Proof.
  intros HD H. assert (K : (Rabs (IZR (fst f)) <= Rabs (fval f) * INR m)%R).
  { assert (E : IZR (fst f) = (fval f * IZR (Zpos (snd f)))%R) by (unfold fval; pose proof (den_pos (snd f)); field; lra). rewrite E at 1. rewrite Rabs_mult. apply Rmult_le_compat_l; [apply Rabs_pos|]. rewrite Rabs_pos_eq by (left; apply den_pos). rewrite <- positive_nat_Z, <- INR_IZR_INZ. apply le_INR. auto. }
  rewrite <- abs_IZR in K. assert (L : (IZR (Z.abs (fst f)) < 1)%R) by lra. apply lt_IZR in L. lia.
Qed.
Theorem C58_tolerance_refuted : forall lim fmtg o maxden atol prec, lim_ok lim -> (1 <= maxden)%nat -> (0 < atol < 1)%R -> ((sqrt atol + atol) * INR maxden < 1)%R ->
  let x := sqrt atol in (atol < x)%R /\
  complex_to_str lim fmtg o maxden atol 0 prec (RtoC x) = Ok [TNum 0] /\ complex_to_str lim fmtg o maxden atol 0 prec (Ci * RtoC x) = Ok [TNum 0; TI].
Proof.
  intros lim fmtg o m t p HL M HT HS x. assert (XX : (x * x = t)%R) by (apply sqrt_sqrt; lra). assert (X0 : (0 < x)%R) by (pose proof (sqrt_pos t) as K; fold x in K; destruct (Req_dec x 0) as [E|E]; [rewrite E in XX; lra|lra]). assert (XT : (t < x)%R).
  { assert (X1 : (x < 1)%R) by (destruct (Rlt_dec x 1) as [L|L]; auto; exfalso; assert (1 * 1 <= x * x)%R by (apply Rmult_le_compat; lra); lra). rewrite <- XX. rewrite <- (Rmult_1_r x) at 3. apply Rmult_lt_compat_l; auto. }
  assert (MP : (1 <= INR m)%R) by (change 1%R with (INR 1); apply le_INR; auto). fold x in HS.
  assert (SMALL : forall y f, (Rabs (y - fval f) <= t)%R -> (0 <= y <= x)%R -> (Pos.to_nat (snd f) <= m)%nat -> fst f = 0%Z).
  { intros y f H Y D. apply (small_num m); auto. assert (A : (Rabs (fval f) <= x + t)%R). { replace (fval f) with (y + - (y - fval f))%R by ring. eapply Rle_trans; [apply Rabs_triang|]. rewrite Rabs_Ropp, (Rabs_pos_eq y) by lra. lra. }
    eapply Rle_lt_trans; [|apply HS]. apply Rmult_le_compat_r; lra. }
  assert (REC : recognize_sqrt lim m t 0 x = Ok (Some (0%Z, 1%nat, 1%nat))).
  { unfold recognize_sqrt. cbv zeta. destruct (HL m x M) as (G1 & D1 & _). destruct (pclose 0 t x (fval (lim m x))) eqn:E1.
    - apply pclose_0 in E1; [|lra]. pose proof (SMALL x _ E1 ltac:(lra) D1) as N. exfalso. assert (V : fval (lim m x) = 0%R) by (unfold fval; rewrite N; unfold Rdiv; ring). rewrite V, Rminus_0_r, Rabs_pos_eq in E1 by lra. lra.
    - rewrite XX. destruct (HL m t M) as (G2 & D2 & O2). specialize (O2 (0%Z, 1%positive) M). assert (V0 : fval (0%Z, 1%positive) = 0%R) by (unfold fval; cbn [fst snd]; unfold Rdiv; ring). rewrite V0, Rminus_0_r, (Rabs_pos_eq t) in O2 by lra.
      pose proof (SMALL t _ O2 ltac:(lra) D2) as N. replace (pclose 0 t t (fval (lim m t))) with true by (symmetry; apply pclose_0; lra). cbn [negb]. rewrite N in *. rewrite Z.gcd_0_l in G2. cbn [Z.abs] in G2. injection G2 as G2. rewrite G2. destruct (Rltb x 0) eqn:L; [unfold Rltb in L; destruct (Rlt_dec x 0); [lra|discriminate]|]. reflexivity. }
  split; auto. assert (L1 : Rleb (Rabs x) t = false) by (apply not_true_iff_false; rewrite Rleb_spec, Rabs_pos_eq; lra). assert (L0 : Rleb (Rabs 0) t = true) by (apply Rleb_spec; rewrite Rabs_R0; lra). split.
  - unfold complex_to_str. change (re (RtoC x)) with x. change (im (RtoC x)) with 0%R. rewrite L1, L0. cbn [andb]. unfold real_to_str. rewrite REC. reflexivity.
  - replace (Ci * RtoC x) with (mkC 0 x) by (apply C_eq; cbn; ring). unfold complex_to_str. cbn [re im]. rewrite L1, L0. cbn [andb]. unfold imaginary_to_str. rewrite REC. reflexivity.
Qed.
Print Assumptions C58_tolerance_refuted.

(** * Examples *)
(** closest fractions in lowest terms exist *)
Definition nearest (x : R) (d : positive) : Z := (up (x * IZR (Zpos d) - / 2))%Z.
Lemma nearest_ok x d j : (Rabs (x - fval (nearest x d, d)) <= Rabs (x - fval (j, d)))%R.
Proof.
  pose proof (den_pos d) as D. set (y := (x * IZR (Zpos d))%R). assert (V : forall k, Rabs (x - fval (k, d)) = (Rabs (y - IZR k) / IZR (Zpos d))%R).
  { intros k. unfold fval, y. cbn [fst snd]. replace (x - IZR k / IZR (Zpos d))%R with ((x * IZR (Zpos d) - IZR k) * / IZR (Zpos d))%R by (field; lra). rewrite Rabs_mult, Rabs_inv, (Rabs_pos_eq (IZR (Zpos d))) by lra. auto. }
  rewrite !V. apply Rmult_le_compat_r; [left; apply Rinv_0_lt_compat; auto|]. unfold nearest. fold y. destruct (archimed (y - / 2)) as [A1 A2]. set (n := up (y - / 2)) in *.
  assert (B : (Rabs (y - IZR n) <= / 2)%R) by (apply Rabs_le; lra). destruct (Z.eq_dec j n) as [->|N]; [lra|].
  assert (C : (1 <= Rabs (IZR j - IZR n))%R). { rewrite <- minus_IZR, <- abs_IZR. apply IZR_le. lia. }
  assert (T : (Rabs (IZR j - IZR n) <= Rabs (y - IZR n) + Rabs (y - IZR j))%R). { replace (IZR j - IZR n)%R with ((y - IZR n) + - (y - IZR j))%R by ring. eapply Rle_trans; [apply Rabs_triang|]. rewrite Rabs_Ropp. lra. }
  lra.
Qed.
Fixpoint best (x : R) (m : nat) : frac :=
  match m with
  | O => (nearest x 1, 1%positive)
  | S k => let f := best x k in let d := Pos.of_nat (S m) in let g := (nearest x d, d) in if Rle_dec (Rabs (x - fval f)) (Rabs (x - fval g)) then f else g
  end.
Lemma best_ok x m : (Pos.to_nat (snd (best x m)) <= S m)%nat /\ forall f, (Pos.to_nat (snd f) <= S m)%nat -> (Rabs (x - fval (best x m)) <= Rabs (x - fval f))%R.
Proof.
  induction m as [|m (I1 & I2)].
  - split; [simpl; lia|]. intros [j d] H. cbn [snd] in H. assert (d = 1%positive) by (pose proof (Pos2Nat.is_pos d); apply Pos2Nat.inj; simpl; lia). subst d. apply nearest_ok.
  - cbn [best]. cbv zeta. set (d := Pos.of_nat (S (S m))). assert (DN : Pos.to_nat d = S (S m)) by (apply Nat2Pos.id; lia). destruct (Rle_dec (Rabs (x - fval (best x m))) (Rabs (x - fval (nearest x d, d)))) as [L|L].
    + split; [lia|]. intros [j e] H. cbn [snd] in H. destruct (Nat.eq_dec (Pos.to_nat e) (S (S m))) as [E|E]; [|apply I2; cbn [snd]; lia]. assert (e = d) by (apply Pos2Nat.inj; lia). subst e. eapply Rle_trans; [apply L|apply nearest_ok].
    + split; [cbn [snd]; lia|]. intros [j e] H. cbn [snd] in H. destruct (Nat.eq_dec (Pos.to_nat e) (S (S m))) as [E|E]; [assert (e = d) by (apply Pos2Nat.inj; lia); subst e; apply nearest_ok|]. eapply Rle_trans; [left; apply Rnot_le_lt, L|]. apply I2. cbn [snd]. lia.
Qed.
Definition reduce (f : frac) : frac := let g := Z.gcd (fst f) (Zpos (snd f)) in ((fst f / g)%Z, Z.to_pos (Zpos (snd f) / g)).
Lemma reduce_ok f : Z.gcd (fst (reduce f)) (Zpos (snd (reduce f))) = 1%Z /\ (Pos.to_nat (snd (reduce f)) <= Pos.to_nat (snd f))%nat /\ fval (reduce f) = fval f.
Proof.
  destruct f as [a b]. unfold reduce. cbn [fst snd]. set (g := Z.gcd a (Zpos b)). assert (G0 : (0 < g)%Z). { pose proof (Z.gcd_nonneg a (Zpos b)) as N. fold g in N. destruct (Z.eq_dec g 0) as [E|E]; [unfold g in E; apply Z.gcd_eq_0_r in E; discriminate|lia]. }
  destruct (Z.gcd_divide_l a (Zpos b)) as [x EX]. destruct (Z.gcd_divide_r a (Zpos b)) as [y EY]. fold g in EX, EY. assert (DX : (a / g = x)%Z) by (rewrite EX; apply Z.div_mul; lia). assert (DY : (Zpos b / g = y)%Z) by (rewrite EY; apply Z.div_mul; lia).
  assert (Y0 : (0 < y)%Z) by nia. rewrite DX, DY. assert (PY : Zpos (Z.to_pos y) = y) by (apply Z2Pos.id; auto). split; [|split].
  - rewrite PY, <- DX, <- DY. apply Z.gcd_div_gcd; [lia|reflexivity].
  - apply Nat2Z.inj_le. rewrite !positive_nat_Z, PY, EY. nia.
  - unfold fval. cbn [fst snd]. rewrite PY. rewrite EX. rewrite EY. rewrite !mult_IZR. assert (IZR g <> 0)%R by (intros K; apply eq_IZR in K; lia). assert (IZR y <> 0)%R by (intros K; apply eq_IZR in K; lia). field. auto.
Qed.
Example ex_lim : lim_ok (fun m x => reduce (best x (m - 1))).
Proof.
  intros m x M. destruct (reduce_ok (best x (m - 1))) as (R1 & R2 & R3). destruct (best_ok x (m - 1)) as (B1 & B2). split; auto. split; [lia|]. intros f H. rewrite R3. apply B2. lia.
Qed.
(** the hypotheses of the printing theorems are met with exact decimals, for
    instance by a uniform superposition, by phases that are eighths of a turn and
    by the default tolerance *)
Example ex_half : small_frac 1000 (/ 2).
Proof. exists (1%Z, 2%positive). split; [simpl; lia|]. unfold fval. cbn [fst snd]. lra. Qed.
Example ex_plus : let s := SV (fun _ => RtoC (sqrt (/ 2))) 1 in normalised s /\ (1 <= sv_n s)%nat /\ forall f, let a := sv_psi s (idx (sv_n s) f) in re a = 0%R \/ im a = 0%R.
Proof.
  cbv zeta. split; [|split; [cbn; lia|intros f; right; reflexivity]]. unfold normalised. cbn [sv_n sv_psi]. change (range (2 ^ 1)) with [0; 1]%nat. unfold rsum, gsum. cbn [fold_right]. unfold Cnorm2, RtoC. cbn [re im]. rewrite sqrt_sqrt by lra. lra.
Qed.
Example ex_tolerance : let atol := (/ 20000 * / 20000)%R in (0 < atol < 1)%R /\ ((sqrt atol + atol) * INR 1000 < 1)%R.
Proof. cbv zeta. assert (I : INR 1000 = 1000%R) by (rewrite INR_IZR_INZ; reflexivity). rewrite I, sqrt_square by lra. lra. Qed.
