(** Property theorems: printed numbers and states (C58). *)
From Coq Require Import Reals Lra ZArith Znumtheory Arith List Bool Lia FunctionalExtensionality.
From Verif Require Import Cplx Mat2 NSet Pattern Statevec Density Circuit Swaps NodeIndex Simulator DMSim DMRun Inspect PropInspect Pretty PrettySpec.
Import ListNotations.
Local Open Scope C_scope.

(** * Square-free decomposition *)
Definition sqfree (n : nat) : Prop := forall e, (2 <= e)%nat -> ~ Nat.divide (e * e) n.
Lemma sqf_inner_ok fuel : forall d o i, (2 <= d)%nat -> (0 < i)%nat -> (i < fuel)%nat ->
  exists o' i', sqf_inner fuel d o i = Ok (o', i') /\ (o' * o' * i' = o * o * i)%nat /\ (0 < i' <= i)%nat /\ ~ Nat.divide (d * d) i' /\ Nat.divide i' i.
Proof.
  induction fuel as [|k IH]; intros d o i Hd Hi Hf; [lia|]. cbn [sqf_inner]. destruct (i mod (d * d) =? 0)%nat eqn:E.
  - apply Nat.eqb_eq in E. apply Nat.mod_divide in E; [|nia]. destruct E as [q E]. assert (Q : (i / (d * d) = q)%nat) by (rewrite E; apply Nat.div_mul; nia). rewrite Q.
    assert (D4 : (4 <= d * d)%nat) by nia. assert (Q0 : (0 < q)%nat) by (destruct q; [simpl in E; lia|lia]). assert (QL : (q * 4 <= i)%nat) by (rewrite E; apply Nat.mul_le_mono_l; auto).
    destruct (IH d (o * d)%nat q Hd) as (o' & i' & H1 & H2 & H3 & H4 & H5); [auto|lia|]. exists o', i'. split; auto. split; [rewrite H2, E; ring|]. split; [lia|]. split; auto. rewrite E. apply Nat.divide_mul_l. auto.
  - apply Nat.eqb_neq in E. exists o, i. split; auto. split; auto. split; [lia|]. split; [|apply Nat.divide_refl]. intros K. apply E, Nat.mod_divide; auto. nia.
Qed.
Lemma sqf_outer_ok fuel : forall d o i, (2 <= d)%nat -> (0 < i)%nat -> (0 < fuel)%nat -> (i < fuel + d)%nat -> (forall e, (2 <= e < d)%nat -> ~ Nat.divide (e * e) i) ->
  exists o' i', sqf_outer fuel d o i = Ok (o', i') /\ (o' * o' * i' = o * o * i)%nat /\ (0 < i')%nat /\ sqfree i'.
Proof.
  induction fuel as [|k IH]; intros d o i Hd Hi H0 Hf HI; [lia|].
  cbn [sqf_outer]. destruct (d * d <=? i)%nat eqn:E.
    + destruct (sqf_inner_ok (S i) d o i Hd Hi) as (o1 & i1 & E1 & V1 & B1 & N1 & D1); [lia|]. rewrite E1. cbn [rbind].
      destruct (IH (S d) o1 i1) as (o' & i' & H1 & H2 & H3 & H4); [lia|lia|apply Nat.leb_le in E; nia|lia| |].
      * intros e He K. destruct (Nat.eq_dec e d) as [->|N]; [tauto|]. apply (HI e); [lia|]. eapply Nat.divide_trans; eauto.
      * exists o', i'. split; auto. split; [congruence|]. auto.
    + apply Nat.leb_gt in E. exists o, i. split; auto. split; auto. split; auto. intros e He K. apply (HI e); auto. split; auto.
      assert (e * e <= i)%nat by (apply Nat.divide_pos_le; auto). nia.
Qed.
Lemma squarefree_ok n : exists o i, squarefree n = Ok (o, i) /\ (o * o * i = n)%nat /\ (0 < i)%nat /\ sqfree i /\ (0 < n -> 0 < o)%nat.
Proof.
  unfold squarefree. destruct (n =? 0)%nat eqn:E.
  - apply Nat.eqb_eq in E. subst. exists 0%nat, 1%nat. split; auto. split; auto. split; [lia|]. split; [|lia]. intros e He K. apply Nat.divide_1_r in K. nia.
  - apply Nat.eqb_neq in E. destruct (sqf_outer_ok (S n) 2 1 n) as (o & i & H1 & H2 & H3 & H4); [lia|lia|lia|lia|intros; lia|]. exists o, i. split; auto. split; [lia|]. split; auto. split; auto. intros _. destruct o; lia.
Qed.


(** * Recognising square roots *)
(** Fraction.limit_denominator: a closest fraction in lowest terms *)
Definition lim_ok (lim : nat -> R -> frac) : Prop := forall m x, (1 <= m)%nat ->
  Z.gcd (fst (lim m x)) (Zpos (snd (lim m x))) = 1%Z /\ (Pos.to_nat (snd (lim m x)) <= m)%nat /\
  forall f, (Pos.to_nat (snd f) <= m)%nat -> (Rabs (x - fval (lim m x)) <= Rabs (x - fval f))%R.
Lemma den_pos q : (0 < IZR (Zpos q))%R. Proof. apply IZR_lt. reflexivity. Qed.
Lemma lim_exact lim m x f : lim_ok lim -> (Pos.to_nat (snd f) <= m)%nat -> x = fval f -> fval (lim m x) = x.
Proof.
  intros HL HF E. assert (M : (1 <= m)%nat) by (pose proof (Pos2Nat.is_pos (snd f)); lia). destruct (HL m x M) as (_ & _ & H). specialize (H f HF). rewrite <- E in H.
  unfold Rminus in H at 2. rewrite Rplus_opp_r, Rabs_R0 in H. pose proof (Rabs_pos (x - fval (lim m x))). assert (Z : Rabs (x - fval (lim m x)) = 0%R) by lra.
  destruct (Req_dec (x - fval (lim m x)) 0) as [D|D]; [lra|]. apply Rabs_no_R0 in D. tauto.
Qed.
Lemma lim_nonneg lim m x : lim_ok lim -> (1 <= m)%nat -> (0 <= x)%R -> (0 <= fst (lim m x))%Z.
Proof.
  intros HL M HX. destruct (HL m x M) as (_ & _ & H). specialize (H (0%Z, 1%positive)). cbn [fst snd] in H. assert (F0 : fval (0%Z, 1%positive) = 0%R) by (unfold fval; cbn [fst snd]; lra). rewrite F0 in H.
  destruct (Z_le_gt_dec 0 (fst (lim m x))) as [L|L]; auto. exfalso. assert (N : (fval (lim m x) < 0)%R).
  { unfold fval. apply (Rmult_lt_reg_r (IZR (Zpos (snd (lim m x))))); [apply den_pos|]. unfold Rdiv. rewrite Rmult_assoc, Rinv_l, Rmult_1_r, Rmult_0_l; [|pose proof (den_pos (snd (lim m x))); lra]. apply IZR_lt. lia. }
  assert (Pos.to_nat 1 <= m)%nat by (simpl; lia). specialize (H H0). rewrite Rminus_0_r in H. rewrite (Rabs_pos_eq x), Rabs_pos_eq in H by lra. lra.
Qed.
Lemma pclose_0 t a b : (0 <= t)%R -> (pclose 0 t a b = true <-> (Rabs (a - b) <= t)%R).
Proof.
  intros T. unfold pclose, Rleb. rewrite !Rmult_0_l, Rabs_R0. pose proof (Rabs_pos (a - b)).
  destruct (Rle_dec (Rabs (a - b)) 0); destruct (Rle_dec (Rabs (a - b)) t); cbn; split; intros; auto; try discriminate; lra.
Qed.
(** the number that (num, inner, den) stands for *)
Definition shown (r : Z * nat * nat) : R := let '(s, inner, den) := r in (IZR s * sqrt (INR inner) / INR den)%R.
Definition wf_rec (r : Z * nat * nat) : Prop := let '(s, inner, den) := r in (0 < den)%nat /\ (0 < inner)%nat /\ sqfree inner /\ Z.gcd s (Z.of_nat den) = 1%Z.
Lemma sqrt_eq_pos a b : (0 <= a)%R -> (0 <= b)%R -> (a * a = b * b)%R -> a = b.
Proof. intros. apply Rsqr_inj; auto. Qed.
Lemma INR_pos n : (0 < n)%nat -> (0 < INR n)%R. Proof. apply lt_0_INR. Qed.
Lemma gcd1_Z a b : Nat.gcd a b = 1%nat -> Z.gcd (Z.of_nat a) (Z.of_nat b) = 1%Z.
Proof.
  intros H. apply Z.divide_antisym_nonneg; [apply Z.gcd_nonneg|lia| |apply Z.divide_1_l].
  assert (G : forall x y u v : nat, (u * x = 1 + v * y)%nat -> forall g, Z.divide g (Z.of_nat x) -> Z.divide g (Z.of_nat y) -> Z.divide g 1).
  { intros x y u v E g H1 H2. replace 1%Z with (Z.of_nat u * Z.of_nat x - Z.of_nat v * Z.of_nat y)%Z by lia. apply Z.divide_sub_r; apply Z.divide_mul_r; auto. }
  destruct (Nat.gcd_bezout a b) as [B|B]; rewrite H in B; destruct B as (u & v & E); apply (G _ _ u v E); first [apply Z.gcd_divide_l|apply Z.gcd_divide_r].
Qed.
(** the square-root part of the recogniser *)
Lemma sqrt_value no ni d_o di co inner p q : (no * no * ni = p)%nat -> (d_o * d_o * di = q)%nat -> (co * co * inner = ni * di)%nat -> (0 < d_o)%nat -> (0 < di)%nat ->
  let g := Nat.gcd (no * co) (d_o * di) in
  (0 < d_o * di / g)%nat /\ Nat.gcd (no * co / g) (d_o * di / g) = 1%nat /\
  (let w := (INR (no * co / g) * sqrt (INR inner) / INR (d_o * di / g))%R in 0 <= w /\ w * w = INR p / INR q)%R.
Proof.
  intros EP EQ EC H1 H2 g. assert (D : (0 < d_o * di)%nat) by (apply Nat.mul_pos_pos; auto).
  assert (G0 : (g <> 0)%nat) by (unfold g; intros K; apply Nat.gcd_eq_0_r in K; lia).
  destruct (Nat.gcd_divide_l (no * co) (d_o * di)) as [a EA]. destruct (Nat.gcd_divide_r (no * co) (d_o * di)) as [b EB]. fold g in EA, EB.
  assert (A : (no * co / g = a)%nat) by (rewrite EA; apply Nat.div_mul; auto). assert (B : (d_o * di / g = b)%nat) by (rewrite EB; apply Nat.div_mul; auto).
  assert (B0 : (0 < b)%nat) by (destruct b; [simpl in EB; lia|lia]).
  split; [lia|]. split.
  - apply Nat.gcd_div_gcd; auto.
  - rewrite A, B. cbv zeta. assert (Hb : (0 < INR b)%R) by (apply INR_pos; auto). split.
    + apply Rmult_le_pos; [apply Rmult_le_pos; [apply pos_INR|apply sqrt_pos]|]. left. apply Rinv_0_lt_compat. auto.
    + assert (HG : (0 < INR g)%R) by (apply INR_pos; lia). assert (HQ : (0 < INR q)%R) by (apply INR_pos; rewrite <- EQ; repeat apply Nat.mul_pos_pos; auto).
      assert (SQ : (sqrt (INR inner) * sqrt (INR inner) = INR inner)%R) by (apply sqrt_sqrt, pos_INR).
      apply (Rmult_eq_reg_r (INR b * INR b * INR q)); [|apply Rgt_not_eq; apply Rmult_lt_0_compat; auto; apply Rmult_lt_0_compat; auto].
      replace (INR a * sqrt (INR inner) / INR b * (INR a * sqrt (INR inner) / INR b) * (INR b * INR b * INR q))%R with (INR a * INR a * (sqrt (INR inner) * sqrt (INR inner)) * INR q)%R by (field; lra).
      replace (INR p / INR q * (INR b * INR b * INR q))%R with (INR p * (INR b * INR b))%R by (field; lra).
      rewrite SQ, <- !mult_INR. apply f_equal. apply (Nat.mul_cancel_r _ _ (g * g)); [nia|].
      replace (a * a * inner * q * (g * g))%nat with ((a * g) * (a * g) * inner * q)%nat by ring. replace (p * (b * b) * (g * g))%nat with (p * ((b * g) * (b * g)))%nat by ring.
      rewrite <- EA, <- EB, <- EP, <- EQ. replace (no * co * (no * co) * inner * (d_o * d_o * di))%nat with (no * no * (d_o * d_o * di) * (co * co * inner))%nat by ring. rewrite EC. ring.
Qed.
(** whatever is recognised is in lowest terms with a square-free radicand, and
    either a fraction within [atol] of x or a square root of the sign of x whose
    square is within [atol] of that of x *)
Theorem C58_recognize : forall lim maxden atol x, lim_ok lim -> (1 <= maxden)%nat -> (0 <= atol)%R ->
  exists r, recognize_sqrt lim maxden atol 0 x = Ok r /\
    (forall p, r = Some p -> wf_rec p /\
       ((Rabs (x - shown p) <= atol)%R \/ (Rabs (x * x - shown p * shown p) <= atol /\ (Rabs x + Rabs (shown p)) * Rabs (x - shown p) <= atol /\ Rabs (x - shown p) <= sqrt atol)%R)) /\
    (forall f, (Pos.to_nat (snd f) <= maxden)%nat -> x = fval f \/ (x * x)%R = fval f -> r <> None).
Proof.
  intros lim m t x HL HM HT. unfold recognize_sqrt. cbv zeta. destruct (pclose 0 t x (fval (lim m x))) eqn:E1.
  - eexists. split; [reflexivity|]. split; [|discriminate]. intros p [= <-]. apply pclose_0 in E1; auto.
    assert (SG : (if (fst (lim m x) <? 0)%Z then (- Z.abs (fst (lim m x)))%Z else Z.abs (fst (lim m x))) = fst (lim m x)) by (destruct (Z.ltb_spec (fst (lim m x)) 0); lia). rewrite SG.
    assert (V : shown (fst (lim m x), 1%nat, Pos.to_nat (snd (lim m x))) = fval (lim m x)).
    { unfold shown, fval. rewrite (INR_IZR_INZ (Pos.to_nat _)), positive_nat_Z. change (INR 1) with 1%R. rewrite sqrt_1. f_equal. ring. }
    split; [|left; rewrite V; auto]. unfold wf_rec. split; [apply Pos2Nat.is_pos|]. split; [lia|]. split; [|rewrite positive_nat_Z; apply (HL m x HM)]. intros e He K. apply Nat.divide_1_r in K. nia.
  - destruct (pclose 0 t (x * x) (fval (lim m (x * x)%R))) eqn:E2; cbn [negb].
    + apply pclose_0 in E2; auto. set (f := lim m (x * x)%R) in *. assert (NN : (0 <= fst f)%Z) by (apply lim_nonneg; auto; apply Rle_0_sqr).
      destruct (squarefree_ok (Z.to_nat (fst f))) as (no & ni & S1 & V1 & P1 & _ & _). rewrite S1. cbn [rbind].
      destruct (squarefree_ok (Pos.to_nat (snd f))) as (d_o & di & S2 & V2 & P2 & _ & Q2). rewrite S2. cbn [rbind].
      destruct (squarefree_ok (ni * di)) as (co & inner & S3 & V3 & P3 & F3 & _). rewrite S3. cbn [rbind].
      eexists. split; [reflexivity|]. split; [|discriminate]. intros p [= <-].
      destruct (sqrt_value no ni d_o di co inner _ _ V1 V2 V3 (Q2 (Pos2Nat.is_pos _)) P2) as (A & B & W0 & W). cbv zeta in W0, W. set (g := Nat.gcd (no * co) (d_o * di)) in *.
      set (w := (INR (no * co / g) * sqrt (INR inner) / INR (d_o * di / g))%R) in *.
      assert (WF : (INR (Z.to_nat (fst f)) / INR (Pos.to_nat (snd f)))%R = fval f). { unfold fval. rewrite !INR_IZR_INZ, positive_nat_Z, Z2Nat.id by auto. auto. }
      rewrite WF in W. set (s := if Rltb x 0 then (- Z.of_nat (no * co / g))%Z else Z.of_nat (no * co / g)).
      assert (SV : shown (s, inner, (d_o * di / g)%nat) = if Rltb x 0 then (- w)%R else w).
      { unfold shown, s, w. destruct (Rltb x 0); rewrite ?opp_IZR, <- INR_IZR_INZ; unfold Rdiv; ring. }
      split. { unfold wf_rec. split; auto. split; auto. split; auto. unfold s. destruct (Rltb x 0); rewrite ?Z.gcd_opp_l; apply gcd1_Z; auto. }
      right. rewrite SV. assert (KEY : exists v, (if Rltb x 0 then (- w)%R else w) = v /\ (v * v = w * w)%R /\ (Rabs (x + v) = Rabs x + Rabs v)%R).
      { unfold Rltb. destruct (Rlt_dec x 0) as [L|L]; eexists; (split; [reflexivity|]); (split; [ring|]).
        - rewrite (Rabs_left1 x), (Rabs_left1 (- w)), Rabs_left1 by lra. ring.
        - rewrite (Rabs_pos_eq x), (Rabs_pos_eq w), Rabs_pos_eq by lra. ring. }
      destruct KEY as (v & -> & VV & AV). rewrite VV, W. split; auto. rewrite <- W, <- VV in E2.
      assert (M : ((Rabs x + Rabs v) * Rabs (x - v) <= t)%R). { rewrite <- AV, <- Rabs_mult. replace ((x + v) * (x - v))%R with (x * x - v * v)%R by ring. auto. }
      split; auto. rewrite <- (sqrt_square (Rabs (x - v))) by apply Rabs_pos. apply sqrt_le_1_alt. eapply Rle_trans; [|apply M]. apply Rmult_le_compat_r; [apply Rabs_pos|].
      unfold Rminus. eapply Rle_trans; [apply Rabs_triang|]. rewrite Rabs_Ropp. lra.
    + eexists. split; [reflexivity|]. split; [discriminate|]. intros f HF HX _. destruct HX as [HX|HX].
      * rewrite (lim_exact lim m x f HL HF HX) in E1. assert (K : pclose 0 t x x = true) by (apply pclose_0; auto; unfold Rminus; rewrite Rplus_opp_r, Rabs_R0; auto). congruence.
      * rewrite (lim_exact lim m (x * x) f HL HF HX) in E2. assert (K : pclose 0 t (x * x) (x * x) = true) by (apply pclose_0; auto; unfold Rminus; rewrite Rplus_opp_r, Rabs_R0; auto). congruence.
Qed.
Print Assumptions C58_recognize.

(** * Reading *)
Notation rf L ST := (fold_left (fun s t => read_step (tval t) s t) L ST).
Lemma vmul_comm a b : vmul a b = vmul b a.
Proof. apply functional_extensionality. intros [k|]; unfold vmul, vadd, vopp, vscal; ring. Qed.
Lemma vmul_assoc a b c : vmul (vmul a b) c = vmul a (vmul b c).
Proof. apply functional_extensionality. intros [k|]; unfold vmul, vadd, vopp, vscal; ring. Qed.
Lemma vmul_1_l a : vmul (vscal C1) a = a.
Proof. apply functional_extensionality. intros [k|]; unfold vmul, vadd, vopp, vscal; ring. Qed.
Lemma vmul_1_r a : vmul a (vscal C1) = a.
Proof. rewrite vmul_comm. apply vmul_1_l. Qed.
Lemma vadd_0_l a : vadd (vscal C0) a = a.
Proof. apply functional_extensionality. intros [k|]; unfold vmul, vadd, vopp, vscal; ring. Qed.
Lemma vscal_mul a b : vmul (vscal a) (vscal b) = vscal (a * b).
Proof. apply functional_extensionality. intros [k|]; unfold vmul, vadd, vopp, vscal; ring. Qed.
Lemma vscal_add a b : vadd (vscal a) (vscal b) = vscal (a + b).
Proof. apply functional_extensionality. intros [k|]; unfold vmul, vadd, vopp, vscal; ring. Qed.
Lemma vopp_mul a : vopp a = vmul a (vscal (- C1)).
Proof. apply functional_extensionality. intros [k|]; unfold vmul, vadd, vopp, vscal; ring. Qed.
Definition chunk (l : list tok) (v : vec) : Prop := forall sum acc, rf l (sum, acc, false) = (sum, vmul acc v, false).
Definition chunkC (l : list tok) (c : C) : Prop := chunk l (vscal c).
Lemma chunk_app a b u v : chunk a u -> chunk b v -> chunk (a ++ b) (vmul u v).
Proof. intros H1 H2 s acc. rewrite fold_left_app, H1, H2, vmul_assoc. auto. Qed.
Lemma chunkC_app a b u v : chunkC a u -> chunkC b v -> chunkC (a ++ b) (u * v).
Proof. intros H1 H2. unfold chunkC. rewrite <- vscal_mul. apply chunk_app; auto. Qed.
Lemma chunkC_nil : chunkC [] C1. Proof. intros s acc. cbn. rewrite vmul_1_r. auto. Qed.
Lemma chunk_reads l v : chunk l v -> reads l = v.
Proof. intros H. unfold reads, read_init. rewrite H. cbn [read_end]. rewrite vadd_0_l, vmul_1_l. auto. Qed.
Lemma chunkC_num n : chunkC [TNum n] (RtoC (INR n)). Proof. intros s acc. reflexivity. Qed.
Lemma chunkC_dec r : chunkC [TDec r] (RtoC r). Proof. intros s acc. reflexivity. Qed.
Lemma chunkC_sqrt n : chunkC [TSqrt n] (RtoC (sqrt (INR n))). Proof. intros s acc. reflexivity. Qed.
Lemma chunkC_i : chunkC [TI] Ci. Proof. intros s acc. reflexivity. Qed.
Lemma chunkC_pi : chunkC [TPi] (RtoC PI). Proof. intros s acc. reflexivity. Qed.
Lemma chunkC_minus : chunkC [TMinus] (- C1). Proof. intros s acc. cbn. rewrite vopp_mul. auto. Qed.
Lemma chunkC_mul : chunkC [TMul] C1. Proof. intros s acc. cbn. rewrite vmul_1_r. auto. Qed.
Lemma chunk_par a : chunk [TPar a] (reads a). Proof. intros s acc. reflexivity. Qed.
Lemma chunk_ket k : chunk [TKet k] (vket k). Proof. intros s acc. reflexivity. Qed.
Lemma chunkC_exp a : chunkC [TExp a] (cexp (reads a None)). Proof. intros s acc. reflexivity. Qed.
Lemma Cinv_R x : x <> 0%R -> Cinv (RtoC x) = RtoC (/ x).
Proof. intros H. unfold Cinv, Cnorm2, RtoC. cbn. apply C_eq; cbn; field; auto. Qed.
Lemma INR_nz n : (0 < n)%nat -> INR n <> 0%R. Proof. intros H. apply INR_pos in H. lra. Qed.
Lemma chunkC_fraction o num c d : (0 < d)%nat -> chunkC num c -> chunkC (fraction_str o num [TNum d]) (c * RtoC (/ INR d)).
Proof.
  intros HD H. unfold fraction_str. destruct (is_latex o).
  - intros s acc. cbn [fold_left read_step]. assert (T : tval (TFrac num [TNum d]) = vdiv (reads num) (reads [TNum d])) by reflexivity. rewrite T.
    rewrite (chunk_reads _ _ H), (chunk_reads _ _ (chunkC_num d)). unfold vdiv at 1. cbn [vscal]. rewrite Cinv_R by (apply INR_nz; auto). rewrite vscal_mul. auto.
  - change (num ++ [TSlash] ++ [TNum d]) with (num ++ [TSlash; TNum d]). apply chunkC_app; auto. intros s acc. cbn. unfold vdiv. cbn [vscal]. rewrite Cinv_R by (apply INR_nz; auto). auto.
Qed.
Lemma chunkC_sign s : chunkC (sign_str s) (if (s <? 0)%Z then - C1 else C1).
Proof. unfold sign_str. destruct (s <? 0)%Z; [apply chunkC_minus|apply chunkC_nil]. Qed.
Lemma chunkC_sqrtstr i : chunkC (sqrt_str i) (RtoC (sqrt (INR i))).
Proof. unfold sqrt_str. destruct (Nat.eqb_spec i 1) as [->|N]; [|apply chunkC_sqrt]. change (INR 1) with 1%R. rewrite sqrt_1. apply chunkC_nil. Qed.
Lemma sign_abs s : ((if (s <? 0)%Z then - C1 else C1) * RtoC (INR (Z.abs_nat s)))%C = RtoC (IZR s).
Proof.
  rewrite INR_IZR_INZ, Zabs2Nat.id_abs. destruct (Z.ltb_spec s 0) as [L|L].
  - rewrite Z.abs_neq by lia. rewrite opp_IZR, RtoC_opp. ring.
  - rewrite Z.abs_eq by lia. ring.
Qed.
Lemma chunkC_den o num c d : (0 < d)%nat -> chunkC num c -> chunkC (if (d =? 1)%nat then num else fraction_str o num [TNum d]) (c * RtoC (/ INR d)).
Proof.
  intros HD H. destruct (Nat.eqb_spec d 1) as [->|N]; [|apply chunkC_fraction; auto]. change (INR 1) with 1%R. rewrite Rinv_1. change (RtoC 1) with C1. replace (c * C1) with c by ring. auto.
Qed.
Lemma chunkC_eq l a b : chunkC l a -> a = b -> chunkC l b. Proof. intros H <-. auto. Qed.
Lemma render_real_reads o r : wf_rec r -> chunkC (render_real o r) (RtoC (shown r)).
Proof.
  destruct r as [[s i] d]. intros (HD & HI & _ & _). unfold render_real, shown. destruct (Z.eqb_spec s 0) as [->|N].
  - eapply chunkC_eq; [apply chunkC_num|]. change (INR 0) with 0%R. f_equal. unfold Rdiv. ring.
  - set (m := Z.abs_nat s). eapply chunkC_eq.
    + apply chunkC_app; [apply chunkC_sign|]. apply chunkC_den; [exact HD|].
      instantiate (1 := RtoC (INR m) * RtoC (sqrt (INR i))). destruct (Nat.eqb_spec i 1) as [->|N1].
      * eapply chunkC_eq; [apply chunkC_num|]. change (INR 1) with 1%R. rewrite sqrt_1. change (RtoC 1) with C1. ring.
      * destruct (Nat.eqb_spec m 1) as [->|N2].
        -- eapply chunkC_eq; [apply chunkC_sqrtstr|]. change (RtoC (INR 1)) with C1. ring.
        -- change (TNum m :: sqrt_str i) with ([TNum m] ++ sqrt_str i). apply chunkC_app; [apply chunkC_num|apply chunkC_sqrtstr].
    + unfold Rdiv. rewrite !RtoC_mul, <- sign_abs. fold m. ring.
Qed.
Lemma render_imag_reads o r : wf_rec r -> chunkC (render_imaginary o r) (Ci * RtoC (shown r)).
Proof.
  destruct r as [[s i] d]. intros (HD & HI & _ & _). unfold render_imaginary, shown. set (m := Z.abs_nat s). eapply chunkC_eq.
  - apply chunkC_app; [apply chunkC_sign|]. apply chunkC_den; [exact HD|].
    instantiate (1 := RtoC (INR m) * (Ci * RtoC (sqrt (INR i)))). apply chunkC_app; [|apply chunkC_app; [apply chunkC_i|apply chunkC_sqrtstr]].
    destruct (Nat.eqb_spec m 1) as [->|N2]; [apply chunkC_nil|apply chunkC_num].
  - unfold Rdiv. rewrite !RtoC_mul, <- sign_abs. fold m. ring.
Qed.

(** * Moduli and angles *)
Lemma Cmod_R x : Cmod (RtoC x) = Rabs x.
Proof. unfold Cmod. rewrite Cnorm2_R. apply sqrt_Rsqr_abs. Qed.
Lemma Cmod_iR x : Cmod (Ci * RtoC x) = Rabs x.
Proof. unfold Cmod. rewrite Cnorm2_mul, Cnorm2_R. unfold Cnorm2, Ci. cbn. replace ((0 * 0 + 1 * 1) * (x * x))%R with (Rsqr x) by (unfold Rsqr; ring). apply sqrt_Rsqr_abs. Qed.
Lemma Cmod_mul a b : Cmod (a * b) = (Cmod a * Cmod b)%R.
Proof. unfold Cmod. rewrite Cnorm2_mul. apply sqrt_mult; apply Cnorm2_nonneg. Qed.
Lemma Cmod_phase a : phase a -> Cmod a = 1%R. Proof. intros H. unfold Cmod. rewrite H. apply sqrt_1. Qed.
Lemma Cmod_add a b : (Cmod (a + b) <= Cmod a + Cmod b)%R.
Proof.
  pose proof (Cmod_nonneg a) as HA. pose proof (Cmod_nonneg b) as HB. apply Rsqr_incr_0; [|apply Cmod_nonneg|lra]. unfold Rsqr.
  rewrite Cmod_sq. replace ((Cmod a + Cmod b) * (Cmod a + Cmod b))%R with (Cmod a * Cmod a + Cmod b * Cmod b + 2 * (Cmod a * Cmod b))%R by ring. rewrite !Cmod_sq.
  assert (CS : (re a * re b + im a * im b <= Cmod a * Cmod b)%R).
  { apply Rsqr_incr_0_var; [|apply Rmult_le_pos; auto]. unfold Rsqr. replace (Cmod a * Cmod b * (Cmod a * Cmod b))%R with ((Cmod a * Cmod a) * (Cmod b * Cmod b))%R by ring. rewrite !Cmod_sq. unfold Cnorm2.
    assert (0 <= (re a * im b - im a * re b) * (re a * im b - im a * re b))%R by apply Rle_0_sqr. lra. }
  unfold Cnorm2, Cadd in *. cbn [re im]. lra.
Qed.
Lemma Cmod_opp a : Cmod (- a) = Cmod a.
Proof. unfold Cmod. f_equal. unfold Cnorm2, Copp. cbn [re im]. ring. Qed.
Lemma Cmod_tri a b c : (Cmod (a - c) <= Cmod (a - b) + Cmod (b - c))%R.
Proof. replace (a - c) with ((a - b) + (b - c)) by ring. apply Cmod_add. Qed.
Lemma Cmod_re z : (Rabs (re z) <= Cmod z)%R.
Proof. unfold Cmod. rewrite <- sqrt_Rsqr_abs. apply sqrt_le_1_alt. unfold Cnorm2, Rsqr. pose proof (Rle_0_sqr (im z)) as H. unfold Rsqr in H. lra. Qed.
Lemma Cmod_im z : (Rabs (im z) <= Cmod z)%R.
Proof. unfold Cmod. rewrite <- sqrt_Rsqr_abs. apply sqrt_le_1_alt. unfold Cnorm2, Rsqr. pose proof (Rle_0_sqr (re z)) as H. unfold Rsqr in H. lra. Qed.
Lemma Cmod_parts x y : (Cmod (mkC x y) <= Rabs x + Rabs y)%R.
Proof. replace (mkC x y) with (RtoC x + Ci * RtoC y) by (apply C_eq; cbn; ring). eapply Rle_trans; [apply Cmod_add|]. rewrite Cmod_R, Cmod_iR. lra. Qed.
Lemma Rabs_sin x : (Rabs (sin x) <= Rabs x)%R.
Proof.
  destruct (Rtotal_order x 0) as [L|[->|L]].
  - rewrite <- (Rabs_Ropp (sin x)), <- sin_neg, <- (Rabs_Ropp x). set (y := (- x)%R). assert (0 < y)%R by (unfold y; lra). rewrite (Rabs_pos_eq y) by lra. apply Rabs_le. split.
    + pose proof (SIN_bound y). destruct (Rle_dec y 1) as [L1|L1]; [|lra]. assert (0 <= sin y)%R; [|lra]. apply sin_ge_0; [lra|]. pose proof PI2_1. lra.
    + left. apply sin_lt_x. auto.
  - rewrite sin_0. lra.
  - rewrite (Rabs_pos_eq x) by lra. apply Rabs_le. split.
    + pose proof (SIN_bound x). destruct (Rle_dec x 1) as [L1|L1]; [|lra]. assert (0 <= sin x)%R; [|lra]. apply sin_ge_0; [lra|]. pose proof PI2_1. lra.
    + left. apply sin_lt_x. auto.
Qed.
(** a chord is shorter than its arc *)
Lemma chord a b : (Cmod (cis a - cis b) <= PI * Rabs (a - b))%R.
Proof.
  pose proof PI_RGT_0 as HP. replace (PI * Rabs (a - b))%R with (2 * Rabs ((a - b) * PI / 2))%R by (replace ((a - b) * PI / 2)%R with ((a - b) * (PI / 2))%R by lra; rewrite Rabs_mult, (Rabs_pos_eq (PI / 2)) by lra; lra).
  assert (E : Cmod (cis a - cis b) = (2 * Rabs (sin ((a - b) * PI / 2)))%R).
  { apply sqrt_eq_pos; [apply Cmod_nonneg|pose proof (Rabs_pos (sin ((a - b) * PI / 2))); lra|]. rewrite Cmod_sq. set (y := ((a - b) * PI / 2)%R).
    replace (2 * Rabs (sin y) * (2 * Rabs (sin y)))%R with (4 * (Rabs (sin y) * Rabs (sin y)))%R by ring. rewrite <- Rabs_mult, Rabs_pos_eq by apply Rle_0_sqr.
    assert (K : cos (a * PI - b * PI) = (1 - 2 * sin y * sin y)%R) by (rewrite <- cos_2a_sin; f_equal; unfold y; lra).
    rewrite cos_minus in K. unfold Cnorm2, cis, Csub, Cadd, Copp. cbn [re im]. pose proof (sin2_cos2 (a * PI)) as S1. pose proof (sin2_cos2 (b * PI)) as S2. unfold Rsqr in *. lra. }
  rewrite E. pose proof (Rabs_sin ((a - b) * PI / 2)). lra.
Qed.
Lemma atan2_polar z : z <> C0 -> z = RtoC (Cmod z) * cis (atan2 z / PI).
Proof.
  intros NZ. pose proof PI_RGT_0 as HP. assert (M : (0 < Cmod z)%R).
  { pose proof (Cmod_nonneg z). destruct (Req_dec (Cmod z) 0) as [E|E]; [|lra]. exfalso. apply NZ, Cnorm2_0. rewrite <- Cmod_sq, E. ring. }
  set (u := (re z / Cmod z)%R). assert (UB : (-1 <= u <= 1)%R).
  { pose proof (Cmod_re z). assert (A : (Rabs u <= 1)%R); [|revert A; unfold Rabs; destruct (Rcase_abs u); lra]. unfold u, Rdiv. rewrite Rabs_mult, Rabs_inv, (Rabs_pos_eq (Cmod z)) by lra. apply (Rmult_le_reg_r (Cmod z)); auto. rewrite Rmult_assoc, Rinv_l, Rmult_1_r by lra. lra. }
  assert (S : (Cmod z * sqrt (1 - Rsqr u) = Rabs (im z))%R).
  { apply sqrt_eq_pos; [apply Rmult_le_pos; [lra|apply sqrt_pos]|apply Rabs_pos|]. rewrite <- Rabs_mult, (Rabs_pos_eq (im z * im z)) by apply Rle_0_sqr.
    replace (Cmod z * sqrt (1 - Rsqr u) * (Cmod z * sqrt (1 - Rsqr u)))%R with ((Cmod z * Cmod z) * (sqrt (1 - Rsqr u) * sqrt (1 - Rsqr u)))%R by ring. rewrite sqrt_sqrt by (unfold Rsqr; nra).
    unfold u, Rsqr. replace (Cmod z * Cmod z * (1 - re z / Cmod z * (re z / Cmod z)))%R with (Cmod z * Cmod z - re z * re z)%R by (field; lra). rewrite Cmod_sq. unfold Cnorm2. ring. }
  assert (CT : forall t, cis (t / PI) = mkC (cos t) (sin t)) by (intros t; unfold cis; replace (t / PI * PI)%R with t by (field; lra); auto). rewrite CT.
  unfold atan2. cbv zeta. fold u. unfold Rltb. destruct (Rlt_dec (im z) 0) as [L|L].
  - rewrite cos_neg, sin_neg, cos_acos, sin_acos by auto. apply C_eq; unfold Cmul, RtoC; cbn [re im].
    + unfold u. field. lra.
    + rewrite (Rabs_left1 (im z)) in S by lra. lra.
  - rewrite cos_acos, sin_acos by auto. apply C_eq; unfold Cmul, RtoC; cbn [re im].
    + unfold u. field. lra.
    + rewrite (Rabs_pos_eq (im z)) in S by lra. lra.
Qed.

(** * Printed numbers *)
Section Numbers.
Variable lim : nat -> R -> frac.
Variable fmtg : nat -> R -> R.
Variable o : fmt.
Variable maxden : nat.
Variable t : R.
Variable prec : nat.
Variable u : R.
Hypothesis HL : lim_ok lim.
Hypothesis HM : (1 <= maxden <= 1000)%nat.
Hypothesis HT : (0 <= t <= 1)%R.
Hypothesis HG : forall x, (Rabs (x - fmtg prec x) <= u * Rabs x)%R.
Lemma sqt : (t <= sqrt t)%R.
Proof. rewrite <- (sqrt_square t) at 1 by lra. apply sqrt_le_1_alt. nra. Qed.
Lemma rec_ok x : exists r, recognize_sqrt lim maxden t 0 x = Ok r /\ forall p, r = Some p -> wf_rec p /\ (Rabs (x - shown p) <= sqrt t)%R.
Proof.
  destruct (C58_recognize lim maxden t x HL (proj1 HM) (proj1 HT)) as (r & E & H & _). exists r. split; auto. intros p Hp. destruct (H p Hp) as (W & K). split; auto.
  destruct K as [K|(_ & _ & K)]; auto. pose proof sqt. lra.
Qed.
Lemma real_ok x : exists r, real_to_str lim o maxden t 0 x = Ok r /\ forall s, r = Some s -> exists w, chunkC s (RtoC w) /\ (Rabs (x - w) <= sqrt t)%R /\ forallb exact_tok s = true.
Proof.
  unfold real_to_str. destruct (rec_ok x) as (r & E & H). rewrite E. cbn [rbind]. eexists. split; [reflexivity|]. intros s Hs. destruct r as [p|]; [|discriminate]. injection Hs as <-. destruct (H p eq_refl) as (W & B).
  exists (shown p). split; [apply render_real_reads; auto|]. split; auto. destruct p as [[s i] d]. unfold render_real, sign_str, fraction_str, sqrt_str.
  destruct (s =? 0)%Z, (s <? 0)%Z, (i =? 1)%nat, (Z.abs_nat s =? 1)%nat, (d =? 1)%nat, (is_latex o); reflexivity.
Qed.
Lemma imag_ok x : exists r, imaginary_to_str lim o maxden t 0 x = Ok r /\ forall s, r = Some s -> exists w, chunkC s (Ci * RtoC w) /\ (Rabs (x - w) <= sqrt t)%R /\ forallb exact_tok s = true.
Proof.
  unfold imaginary_to_str. destruct (rec_ok x) as (r & E & H). rewrite E. cbn [rbind]. eexists. split; [reflexivity|]. intros s Hs. destruct r as [p|]; [|discriminate]. injection Hs as <-. destruct (H p eq_refl) as (W & B).
  exists (shown p). split; [apply render_imag_reads; auto|]. split; auto. destruct p as [[s i] d]. unfold render_imaginary, sign_str, fraction_str, sqrt_str.
  destruct (s <? 0)%Z, (i =? 1)%nat, (Z.abs_nat s =? 1)%nat, (d =? 1)%nat, (is_latex o); reflexivity.
Qed.
Lemma fval_abs f : Rabs (fval f) = fval (Z.abs (fst f), snd f).
Proof. unfold fval. cbn [fst snd]. unfold Rdiv. rewrite Rabs_mult, Rabs_inv, (Rabs_pos_eq (IZR (Zpos _))) by (left; apply den_pos). rewrite <- abs_IZR. auto. Qed.
Lemma angle_ok f : (Pos.to_nat (snd f) <= 1000)%nat -> (0 <= fst f)%Z -> chunkC (angle_str lim o (fval f)) (RtoC (fval f * PI)).
Proof.
  intros HF HN. pose proof (lim_exact lim 1000 (fval f) f HL HF eq_refl) as E. assert (P0 : (0 <= fval f)%R) by (unfold fval; apply Rmult_le_pos; [apply IZR_le; auto|left; apply Rinv_0_lt_compat, den_pos]).
  assert (L1 : (1 <= 1000)%nat) by (apply Nat.leb_le; reflexivity).
  pose proof (lim_nonneg lim 1000 (fval f) HL L1 P0) as NN. unfold angle_str. destruct (lim 1000 (fval f)) as [num den]. cbn [fst snd] in *. rewrite E.
  assert (PC : pclose (/ 1000000000) 0 (fval f) (fval f) = true).
  { unfold pclose, Rminus, Rleb. rewrite Rplus_opp_r, Rabs_R0. destruct (Rle_dec 0 (Rabs (/ 1000000000 * fval f))) as [Z|Z]; auto. exfalso. apply Z, Rabs_pos. }
  rewrite PC. cbn [negb]. destruct (Z.ltb_spec num 0) as [L|L]; [lia|].
  assert (V : RtoC (fval f * PI) = RtoC (INR (Z.abs_nat num)) * RtoC PI * RtoC (/ INR (Pos.to_nat den))).
  { rewrite <- E. unfold fval. cbn [fst snd]. rewrite !INR_IZR_INZ, positive_nat_Z, Zabs2Nat.id_abs, Z.abs_eq by lia. rewrite <- !RtoC_mul. f_equal. unfold Rdiv. ring. }
  rewrite V. clear V. set (n := Z.abs_nat num). cbn [app]. destruct (Pos.eqb_spec den 1) as [->|ND].
  - change (INR (Pos.to_nat 1)) with 1%R. rewrite Rinv_1. change (RtoC 1) with C1. destruct (Nat.eqb_spec n 0) as [->|N0].
    + eapply chunkC_eq; [apply chunkC_num|]. change (INR 0) with 0%R. rewrite <- !RtoC_mul. change C1 with (RtoC 1). rewrite <- RtoC_mul. f_equal. ring.
    + destruct (Nat.eqb_spec n 1) as [->|N1].
      * eapply chunkC_eq; [apply chunkC_pi|]. change (RtoC (INR 1)) with C1. ring.
      * change [TNum n; TPi] with ([TNum n] ++ [TPi]). eapply chunkC_eq; [apply chunkC_app; [apply chunkC_num|apply chunkC_pi]|]. ring.
  - apply chunkC_fraction; [apply Pos2Nat.is_pos|]. destruct (Nat.eqb_spec n 1) as [->|N1].
    + eapply chunkC_eq; [apply chunkC_pi|]. change (RtoC (INR 1)) with C1. ring.
    + change [TNum n; TPi] with ([TNum n] ++ [TPi]). apply chunkC_app; [apply chunkC_num|apply chunkC_pi].
Qed.
Lemma is_one_val s c : is_one s = true -> chunkC s c -> c = C1.
Proof.
  intros H1 H2. assert (R : reads s = vscal C1).
  { unfold is_one in H1. destruct s as [|[n|r| | | | | | | | | | | | |] [|? ?]]; try discriminate.
    - apply Nat.eqb_eq in H1. subst. apply chunk_reads, chunkC_num.
    - unfold Reqb in H1. destruct (Req_EM_T r 1) as [->|]; [|discriminate]. apply chunk_reads, chunkC_dec. }
  rewrite (chunk_reads _ _ H2) in R. exact (f_equal (fun v => v None) R).
Qed.
Lemma exp_ok z : z <> C0 -> exists r, exponential_to_str lim o maxden t 0 z = Ok r /\
  forall s, r = Some s -> exists w, chunkC s w /\ (Cmod (z - w) <= sqrt t + PI * t * Cmod z)%R /\ forallb exact_tok s = true.
Proof.
  intros NZ. unfold exponential_to_str, recognize_angle. cbv zeta. set (v := (atan2 z / PI)%R). set (f := lim maxden v). destruct (pclose 0 t v (fval f)) eqn:EC; [|eexists; split; [reflexivity|discriminate]].
  apply pclose_0 in EC; [|lra]. destruct (Z.eqb_spec (fst f) 0) as [Z0|N0]; [eexists; split; [reflexivity|discriminate]|].
  destruct (real_ok (Cmod z)) as (r & E & H). rewrite E. cbn [rbind]. destruct r as [rs|]; [|eexists; split; [reflexivity|discriminate]]. destruct (H rs eq_refl) as (w & H1 & H2 & H3).
  eexists. split; [reflexivity|]. intros s [= <-].
  assert (BODY : chunkC [TExp (sign_str (fst f) ++ [TI] ++ match o with FUnicode => [] | _ => [TMul] end ++ angle_str lim o (Rabs (fval f)))] (cis (fval f))).
  { assert (D : (Pos.to_nat (snd f) <= 1000)%nat) by (destruct (HL maxden v (proj1 HM)) as (_ & D & _); fold f in D; lia).
    eapply chunkC_eq; [apply chunkC_exp|]. rewrite fval_abs.
    assert (CH : chunkC (sign_str (fst f) ++ [TI] ++ match o with FUnicode => [] | _ => [TMul] end ++ angle_str lim o (fval (Z.abs (fst f), snd f))) (Ci * RtoC (fval f * PI))).
    { eapply chunkC_eq; [apply chunkC_app; [apply chunkC_sign|apply chunkC_app; [apply chunkC_i|apply (chunkC_app _ _ C1); [destruct o; first [apply chunkC_mul|apply chunkC_nil]|apply angle_ok; cbn [fst snd]; auto; lia]]]|].
      assert (V : (fval f = (if (fst f <? 0)%Z then -1 else 1) * fval (Z.abs (fst f), snd f))%R). { unfold fval. cbn [fst snd]. destruct (Z.ltb_spec (fst f) 0); [rewrite Z.abs_neq, opp_IZR by lia|rewrite Z.abs_eq by lia]; unfold Rdiv; ring. }
      rewrite V. destruct (fst f <? 0)%Z; rewrite !RtoC_mul; [replace (RtoC (-1)) with (- C1) by (apply C_eq; cbn; ring)|change (RtoC 1) with C1]; ring. }
    rewrite (chunk_reads _ _ CH). cbn [vscal]. unfold cexp. assert (I : Ci * RtoC (fval f * PI) = mkC 0 (fval f * PI)) by (apply C_eq; cbn; ring). rewrite I. cbn [re im]. rewrite exp_0. change (RtoC 1) with C1.
    pose proof PI_RGT_0. replace (fval f * PI / PI)%R with (fval f) by (field; lra). ring. }
  assert (BD : (Cmod (z - RtoC w * cis (fval f)) <= sqrt t + PI * t * Cmod z)%R).
  { rewrite (atan2_polar z NZ) at 1. fold v. eapply Rle_trans; [apply (Cmod_tri _ (RtoC (Cmod z) * cis (fval f)))|].
    replace (RtoC (Cmod z) * cis v - RtoC (Cmod z) * cis (fval f)) with (RtoC (Cmod z) * (cis v - cis (fval f))) by ring.
    replace (RtoC (Cmod z) * cis (fval f) - RtoC w * cis (fval f)) with (RtoC (Cmod z - w) * cis (fval f)) by (unfold Rminus; rewrite RtoC_add, RtoC_opp; ring).
    rewrite !Cmod_mul, !Cmod_R, (Cmod_phase (cis _)) by apply phase_cis. pose proof (chord v (fval f)) as CH. pose proof (Cmod_nonneg z) as MZ. pose proof PI_RGT_0.
    rewrite (Rabs_pos_eq (Cmod z)) by auto. assert (PI * Rabs (v - fval f) <= PI * t)%R by (apply Rmult_le_compat_l; lra).
    assert (Cmod z * Cmod (cis v - cis (fval f)) <= Cmod z * (PI * t))%R by (apply Rmult_le_compat_l; lra). lra. }
  destruct (is_one rs) eqn:E1.
  - exists (cis (fval f)). split; auto. split; [|reflexivity]. apply (is_one_val rs) in H1; auto. replace (cis (fval f)) with (RtoC w * cis (fval f)); auto. rewrite H1. ring.
  - exists (RtoC w * cis (fval f)). split; [|split; auto].
    + eapply chunkC_eq; [apply chunkC_app; [apply H1|exact (chunkC_app [TMul] _ _ _ chunkC_mul BODY)]|]. ring.
    + rewrite !forallb_app, H3. reflexivity.
Qed.
(** a sum that is not one term *)
Definition bare_sum (s : list tok) : bool := needs_parentheses s || existsb (fun x => match x with TSig _ => true | _ => false end) s.
Lemma read_sum a b x y : chunkC a x -> chunkC b y -> forall neg : bool, reads (a ++ [if neg then TMinusS else TPlusS] ++ b) = vscal (x + (if neg then - y else y)).
Proof.
  intros H1 H2 neg. unfold reads, read_init. rewrite fold_left_app, H1. cbn [app fold_left]. destruct neg; cbn [read_step]; rewrite H2; cbn [read_end]; rewrite vadd_0_l, vmul_1_l, vscal_mul, vscal_add; f_equal; ring.
Qed.
Lemma cart_ok x y : exists r, cartesian_to_str lim o maxden t 0 x y = Ok r /\
  forall s, r = Some s -> needs_parentheses s = true /\ exists w, reads s = vscal w /\ (Cmod (mkC x y - w) <= 2 * sqrt t)%R.
Proof.
  unfold cartesian_to_str. destruct (real_ok x) as (r1 & E1 & H1). rewrite E1. cbn [rbind]. destruct (rec_ok y) as (r2 & E2 & H2). rewrite E2. cbn [rbind].
  destruct r1 as [rs|]; [|eexists; split; [reflexivity|discriminate]]. destruct r2 as [[[s i] d]|]; [|eexists; split; [reflexivity|discriminate]]. eexists. split; [reflexivity|]. intros l [= <-].
  destruct (H1 rs eq_refl) as (a & A1 & A2 & _). destruct (H2 _ eq_refl) as (W & B). split; [unfold needs_parentheses; rewrite !existsb_app; destruct (s <? 0)%Z; cbn; apply orb_true_r|].
  set (neg := (s <? 0)%Z). set (b := shown (Z.abs s, i, d)). assert (WA : wf_rec (Z.abs s, i, d)) by (destruct W as (W1 & W2 & W3 & W4); repeat (split; auto); rewrite Z.gcd_abs_l; auto).
  assert (SB : shown (s, i, d) = if neg then (- b)%R else b). { unfold shown, b, shown, neg. destruct (Z.ltb_spec s 0); [rewrite Z.abs_neq, opp_IZR by lia|rewrite Z.abs_eq by lia]; unfold Rdiv; ring. }
  assert (IM : chunkC (if (Z.abs s =? 1)%Z && (i =? 1)%nat && (d =? 1)%nat then [TI] else render_real o (Z.abs s, i, d) ++ [TI]) (RtoC b * Ci)).
  { destruct ((Z.abs s =? 1)%Z && (i =? 1)%nat && (d =? 1)%nat) eqn:E3; [|apply chunkC_app; [apply render_real_reads; auto|apply chunkC_i]].
    rewrite !andb_true_iff, Z.eqb_eq, !Nat.eqb_eq in E3. destruct E3 as ((K1 & K2) & K3). subst i d. unfold b, shown. rewrite K1. change (INR 1) with 1%R. rewrite sqrt_1. eapply chunkC_eq; [apply chunkC_i|]. replace (1 * 1 / 1)%R with 1%R by field. change (RtoC 1) with C1. ring. }
  exists (RtoC a + (if neg then - (RtoC b * Ci) else RtoC b * Ci)). split.
  - assert (RS := read_sum _ _ _ _ A1 IM neg). unfold neg in *. destruct (s <? 0)%Z; exact RS.
  - rewrite SB in B. replace (mkC x y - (RtoC a + (if neg then - (RtoC b * Ci) else RtoC b * Ci))) with (mkC (x - a) (y - (if neg then - b else b))).
    + eapply Rle_trans; [apply Cmod_parts|]. lra.
    + destruct neg; apply C_eq; cbn; ring.
Qed.
Lemma complex_ok z : exists s w, complex_to_str lim fmtg o maxden t 0 prec z = Ok s /\ reads s = vscal w /\ (bare_sum s = false -> chunkC s w) /\
  (forallb exact_tok s = true -> (Cmod (z - w) <= 2 * sqrt t + PI * t * Cmod z)%R) /\
  (Cmod (z - w) <= 2 * sqrt t + (PI * t + u) * Cmod z)%R.
Proof.
  pose proof sqt as SQ. pose proof (Cmod_nonneg z) as MZ. pose proof PI_RGT_0 as HP. assert (PT : (0 <= PI * t * Cmod z)%R) by (apply Rmult_le_pos; [apply Rmult_le_pos; lra|auto]).
  assert (DEC : forall x, (Rabs (x - fmtg prec x) <= u * Rabs x)%R) by apply HG.
  assert (U0 : (0 <= u * Cmod z)%R). { pose proof (HG 1) as H1. rewrite Rabs_R1 in H1. pose proof (Rabs_pos (1 - fmtg prec 1)). apply Rmult_le_pos; lra. }
  assert (UR : (u * Rabs (re z) <= u * Cmod z)%R). { destruct (Req_dec (Cmod z) 0) as [E|E]; [pose proof (Cmod_re z); pose proof (Rabs_pos (re z)); assert (K : Rabs (re z) = 0%R) by lra; rewrite K, E; lra|]. apply Rmult_le_compat_l; [|apply Cmod_re]. assert (0 < Cmod z)%R by lra. destruct (Rle_dec 0 u); auto. exfalso. assert (u * Cmod z < 0)%R by (apply Rmult_neg_pos || nra). lra. }
  assert (UI : (u * Rabs (im z) <= u * Cmod z)%R). { destruct (Req_dec (Cmod z) 0) as [E|E]; [pose proof (Cmod_im z); pose proof (Rabs_pos (im z)); assert (K : Rabs (im z) = 0%R) by lra; rewrite K, E; lra|]. apply Rmult_le_compat_l; [|apply Cmod_im]. assert (0 < Cmod z)%R by lra. destruct (Rle_dec 0 u); auto. exfalso. assert (u * Cmod z < 0)%R by (apply Rmult_neg_pos || nra). lra. }
  assert (ZP : z = mkC (re z) (im z)) by (apply C_eq; auto). set (x := re z) in *. set (y := im z) in *.
  unfold complex_to_str. fold x y. unfold Rleb at 1 2 3 4. destruct (Rle_dec (Rabs x) t) as [LX|LX]; destruct (Rle_dec (Rabs y) t) as [LY|LY]; cbn [andb].
  - exists [TNum 0], C0. split; auto. split; [rewrite (chunk_reads _ _ (chunkC_num 0)); auto|]. split; [intros _; apply chunkC_num|]. assert (B : (Cmod (z - C0) <= 2 * sqrt t)%R). { replace (z - C0) with z by ring. rewrite ZP. eapply Rle_trans; [apply Cmod_parts|]. lra. } split; [intros _|]; lra.
  - destruct (imag_ok y) as (r & E & H). rewrite E. cbn [rbind]. destruct r as [s|]; cbn [or_decimal].
    + destruct (H s eq_refl) as (w & H1 & H2 & H3). exists s, (Ci * RtoC w). split; auto. split; [apply chunk_reads, H1|]. split; [auto|].
      assert (B : (Cmod (z - Ci * RtoC w) <= 2 * sqrt t)%R). { rewrite ZP. replace (mkC x y - Ci * RtoC w) with (mkC x (y - w)) by (apply C_eq; cbn; ring). eapply Rle_trans; [apply Cmod_parts|]. lra. } split; [intros _|]; lra.
    + unfold decimal_to_str. fold x y. unfold Rleb. destruct (Rle_dec (Rabs y) t); [contradiction|]. destruct (Rle_dec (Rabs x) t); [|contradiction]. exists [TDec (fmtg prec y); TI], (RtoC (fmtg prec y) * Ci). split; auto.
      assert (CH : chunkC [TDec (fmtg prec y); TI] (RtoC (fmtg prec y) * Ci)) by (change [TDec (fmtg prec y); TI] with ([TDec (fmtg prec y)] ++ [TI]); apply chunkC_app; [apply chunkC_dec|apply chunkC_i]).
      split; [apply chunk_reads, CH|]. split; auto. split; [discriminate|]. rewrite ZP at 1. replace (mkC x y - RtoC (fmtg prec y) * Ci) with (mkC x (y - fmtg prec y)) by (apply C_eq; cbn; ring). eapply Rle_trans; [apply Cmod_parts|]. pose proof (DEC y). lra.
  - destruct (real_ok x) as (r & E & H). rewrite E. cbn [rbind]. destruct r as [s|]; cbn [or_decimal].
    + destruct (H s eq_refl) as (w & H1 & H2 & H3). exists s, (RtoC w). split; auto. split; [apply chunk_reads, H1|]. split; [auto|].
      assert (B : (Cmod (z - RtoC w) <= 2 * sqrt t)%R). { rewrite ZP. replace (mkC x y - RtoC w) with (mkC (x - w) y) by (apply C_eq; cbn; ring). eapply Rle_trans; [apply Cmod_parts|]. lra. } split; [intros _|]; lra.
    + unfold decimal_to_str. fold x y. unfold Rleb. destruct (Rle_dec (Rabs y) t); [|contradiction]. exists [TDec (fmtg prec x)], (RtoC (fmtg prec x)). split; auto.
      split; [apply chunk_reads, chunkC_dec|]. split; [intros _; apply chunkC_dec|]. split; [discriminate|]. rewrite ZP at 1. replace (mkC x y - RtoC (fmtg prec x)) with (mkC (x - fmtg prec x) y) by (apply C_eq; cbn; ring). eapply Rle_trans; [apply Cmod_parts|]. pose proof (DEC x). lra.
  - assert (NZ : z <> C0) by (intros K; apply LX; unfold x; rewrite K; cbn; rewrite Rabs_R0; lra). destruct (exp_ok z NZ) as (r & E & H). rewrite E. cbn [rbind]. destruct (cart_ok x y) as (rc & EC & HC).
    assert (CART : forall c, rc = Some c -> exists w, reads c = vscal w /\ (bare_sum c = false -> chunkC c w) /\ (forallb exact_tok c = true -> (Cmod (z - w) <= 2 * sqrt t + PI * t * Cmod z)%R) /\ (Cmod (z - w) <= 2 * sqrt t + (PI * t + u) * Cmod z)%R).
    { intros c Hc. destruct (HC c Hc) as (NP & w & W1 & W2). exists w. split; auto. split; [unfold bare_sum; rewrite NP; discriminate|]. rewrite <- ZP in W2. split; [intros _|]; lra. }
    assert (EXPO : forall e, r = Some e -> exists w, reads e = vscal w /\ (bare_sum e = false -> chunkC e w) /\ (forallb exact_tok e = true -> (Cmod (z - w) <= 2 * sqrt t + PI * t * Cmod z)%R) /\ (Cmod (z - w) <= 2 * sqrt t + (PI * t + u) * Cmod z)%R).
    { intros e He. destruct (H e He) as (w & W1 & W2 & _). exists w. split; [apply chunk_reads, W1|]. split; auto. pose proof (sqrt_pos t). split; [intros _|]; lra. }
    destruct r as [e|].
    + destruct (pclose 0 t (Cmod z) 1).
      * destruct (EXPO e eq_refl) as (w & W). exists e, w. split; auto.
      * rewrite EC. cbn [rbind]. destruct rc as [c|]; [destruct (CART c eq_refl) as (w & W); exists c, w; split; auto|destruct (EXPO e eq_refl) as (w & W); exists e, w; split; auto].
    + rewrite EC. cbn [rbind]. destruct rc as [c|]; cbn [or_decimal]; [destruct (CART c eq_refl) as (w & W); exists c, w; split; auto|].
      unfold decimal_to_str. fold x y. unfold Rleb. destruct (Rle_dec (Rabs y) t); [contradiction|]. destruct (Rle_dec (Rabs x) t); [contradiction|].
      exists [TDec (fmtg prec x); TSig (fmtg prec y); TI], (mkC (fmtg prec x) (fmtg prec y)). split; auto. split.
      * unfold reads, read_init. cbn [fold_left read_step tval]. cbn [read_end]. rewrite !vscal_mul, !vscal_add. f_equal. apply C_eq; cbn; ring.
      * split; [discriminate|]. split; [discriminate|]. replace (z - mkC (fmtg prec x) (fmtg prec y)) with (mkC (x - fmtg prec x) (y - fmtg prec y)) by (rewrite ZP; apply C_eq; cbn; ring).
        assert (B : (Cmod (mkC (x - fmtg prec x) (y - fmtg prec y)) <= u * Cmod z)%R); [|pose proof (sqrt_pos t); lra].
        assert (UP : (0 <= u)%R). { pose proof (HG 1) as H1. rewrite Rabs_R1 in H1. pose proof (Rabs_pos (1 - fmtg prec 1)). lra. }
        rewrite <- (Rabs_pos_eq u), <- Cmod_R, <- Cmod_mul by auto. unfold Cmod. apply sqrt_le_1_alt. rewrite Cnorm2_mul, Cnorm2_R. unfold Cnorm2 at 1. cbn [re im]. rewrite ZP. unfold Cnorm2. cbn [re im].
        assert (SQR : forall a b, (Rabs a <= u * Rabs b)%R -> (a * a <= u * u * (b * b))%R).
        { intros a b K. replace (u * u * (b * b))%R with ((u * Rabs b) * (u * Rabs b))%R by (replace (u * Rabs b * (u * Rabs b))%R with (u * u * (Rabs b * Rabs b))%R by ring; rewrite <- Rabs_mult, Rabs_pos_eq by apply Rle_0_sqr; auto).
          replace (a * a)%R with (Rabs a * Rabs a)%R by (rewrite <- Rabs_mult; apply Rabs_pos_eq, Rle_0_sqr). apply Rmult_le_compat; auto using Rabs_pos. }
        pose proof (SQR _ _ (DEC x)). pose proof (SQR _ _ (DEC y)). lra.
Qed.
End Numbers.
(** every number is printed; the string, read as a product of terms, is within
    2 sqrt(atol) + pi atol |z| of the number when no decimal is shown (and u |z|
    more otherwise, u being the relative rounding of the decimals); with zero
    tolerance an exact form is exact *)
Theorem C58_complex : forall lim fmtg o maxden atol prec u z, lim_ok lim -> (1 <= maxden <= 1000)%nat -> (0 <= atol <= 1)%R ->
  (forall x, Rabs (x - fmtg prec x) <= u * Rabs x)%R ->
  exists s w, complex_to_str lim fmtg o maxden atol 0 prec z = Ok s /\ reads s = vscal w /\
    (forallb exact_tok s = true -> (Cmod (z - w) <= 2 * sqrt atol + PI * atol * Cmod z)%R) /\
    (Cmod (z - w) <= 2 * sqrt atol + (PI * atol + u) * Cmod z)%R /\
    (atol = 0%R -> forallb exact_tok s = true -> w = z).
Proof.
  intros lim fmtg o m t p u z H1 H2 H3 H4. destruct (complex_ok lim fmtg o m t p u H1 H2 H3 H4 z) as (s & w & A & B & _ & D & E). exists s, w. repeat (split; auto).
  intros -> X. specialize (D X). rewrite sqrt_0, Rmult_0_r, Rmult_0_r, Rmult_0_l in D. pose proof (Cmod_nonneg (z - w)). assert (K : Cmod (z - w) = 0%R) by lra.
  assert (ZW : z - w = C0) by (apply Cnorm2_0; rewrite <- Cmod_sq, K; ring). replace z with (w + (z - w)) by ring. rewrite ZW. ring.
Qed.
Print Assumptions C58_complex.
