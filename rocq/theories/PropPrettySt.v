(** Property theorems: printed states (C58). *)
From Coq Require Import Reals Lra ZArith Znumtheory Arith List Bool Lia FunctionalExtensionality.
From Verif Require Import Cplx Mat2 NSet Pattern Statevec Density Circuit Swaps NodeIndex Simulator DMSim DMRun Inspect PropInspect Pretty PrettySpec PropPretty.
Import ListNotations.
Local Open Scope C_scope.

(** * Joining the terms *)
Lemma vopp_opp a : vopp (vopp a) = a.
Proof. apply functional_extensionality. intros k. unfold vopp. ring. Qed.
Lemma chunk_tail1 l v : chunk l v -> starts_minus l = true -> chunk (tail1 l) (vopp v).
Proof.
  intros H S. unfold starts_minus in S. destruct l as [|x l]; [discriminate|]. destruct x; try discriminate; cbn [tail1]; intros sum acc.
  - pose proof (H sum (vopp acc)) as K. cbn [fold_left read_step tval] in K |- *. replace (vmul acc (vscal (RtoC (- r)))) with (vmul (vopp acc) (vscal (RtoC r))).
    + rewrite K. f_equal. f_equal. apply functional_extensionality. intros [k|]; unfold vmul, vopp; ring.
    + apply functional_extensionality. intros [k|]; unfold vmul, vopp, vscal; rewrite RtoC_opp; ring.
  - pose proof (H sum (vopp acc)) as K. cbn [fold_left read_step] in K. rewrite vopp_opp in K. rewrite K. f_equal. f_equal. apply functional_extensionality. intros [k|]; unfold vmul, vopp; ring.
Qed.
Definition vsum (l : list vec) : vec := fold_right vadd (vscal C0) l.
Lemma vadd_assoc a b c : vadd (vadd a b) c = vadd a (vadd b c).
Proof. apply functional_extensionality. intros k. unfold vadd. ring. Qed.
Lemma vadd_0_r a : vadd a (vscal C0) = a.
Proof. apply functional_extensionality. intros [k|]; unfold vadd, vscal; ring. Qed.
Lemma join_from terms : forall vals, Forall2 chunk terms vals -> forall r v sum acc, rf r read_init = (sum, acc, false) -> vadd sum acc = v ->
  exists r' sum' acc', fold_left add_term terms (Some r) = Some r' /\ rf r' read_init = (sum', acc', false) /\ vadd sum' acc' = vadd v (vsum vals).
Proof.
  intros vals HF. induction HF as [|x w terms vals H1 HF IH]; intros r v sum acc HR HV; subst v.
  - exists r, sum, acc. split; auto. split; auto. cbn [vsum fold_right]. rewrite vadd_0_r. auto.
  - cbn [fold_left]. unfold add_term at 2. destruct (starts_minus x) eqn:S.
    + destruct (IH (r ++ [TMinusS] ++ tail1 x) (vadd (vadd sum acc) w) (vadd sum acc) w) as (r' & s' & a' & E1 & E2 & E3); auto.
      * rewrite fold_left_app, HR. cbn [app fold_left read_step]. rewrite (chunk_tail1 _ _ H1 S). f_equal. f_equal. apply functional_extensionality. intros [k|]; unfold vmul, vopp, vscal; ring.
      * exists r', s', a'. split; auto. split; auto. rewrite E3. cbn [vsum fold_right]. rewrite vadd_assoc. auto.
    + destruct (IH (r ++ [TPlusS] ++ x) (vadd (vadd sum acc) w) (vadd sum acc) w) as (r' & s' & a' & E1 & E2 & E3); auto.
      * rewrite fold_left_app, HR. cbn [app fold_left read_step]. rewrite H1. rewrite vmul_1_l. auto.
      * exists r', s', a'. split; auto. split; auto. rewrite E3. cbn [vsum fold_right]. rewrite vadd_assoc. auto.
Qed.
Lemma join_ok terms vals : Forall2 chunk terms vals -> terms <> [] -> reads (join_terms terms) = vsum vals.
Proof.
  intros HF NE. destruct HF as [|x v terms vals H HF]; [contradiction|]. unfold join_terms. cbn [fold_left]. unfold add_term at 2.
  destruct (join_from terms vals HF x v (vscal C0) v) as (r' & s' & a' & E1 & E2 & E3).
  - unfold read_init. rewrite H, vmul_1_l. auto.
  - apply vadd_0_l.
  - rewrite E1. unfold reads. rewrite E2. cbn [read_end]. rewrite E3. reflexivity.
Qed.
(** the vector with the given components *)
Definition comps (l : list (list bool * C)) : list vec := map (fun p => vmul (vscal (snd p)) (vket (fst p))) l.
Lemma beqb_refl k : beqb k k = true.
Proof. unfold beqb. destruct (list_eq_dec bool_dec k k); tauto. Qed.
Lemma beqb_neq a b : a <> b -> beqb a b = false.
Proof. intros N. unfold beqb. destruct (list_eq_dec bool_dec a b); tauto. Qed.
Lemma comps_cons k a l x : vsum (comps ((k, a) :: l)) x = vmul (vscal a) (vket k) x + vsum (comps l) x.
Proof. reflexivity. Qed.
Lemma comps_None l : vsum (comps l) None = C0.
Proof. induction l as [|[k a] l IH]; auto. rewrite comps_cons, IH. unfold vmul, vscal, vket. ring. Qed.
Lemma comps_notin l k : ~ In k (map fst l) -> vsum (comps l) (Some k) = C0.
Proof.
  induction l as [|[k0 a] l IH]; intros N; auto. cbn [map fst In] in N. rewrite comps_cons, IH by tauto. unfold vmul, vscal, vket. rewrite beqb_neq by tauto. ring.
Qed.
Lemma comps_in l k a : NoDup (map fst l) -> In (k, a) l -> vsum (comps l) (Some k) = a.
Proof.
  induction l as [|[k0 a0] l IH]; intros ND I; [destruct I|]. cbn [map fst] in ND. apply NoDup_cons_iff in ND. destruct ND as [N ND]. rewrite comps_cons. destruct I as [E|I].
  - injection E as <- <-. rewrite (comps_notin l k0 N). unfold vmul, vscal, vket. rewrite beqb_refl. ring.
  - assert (NE : k0 <> k) by (intros ->; apply N; apply (in_map fst) in I; auto). rewrite IH by auto. unfold vmul, vscal, vket. rewrite (beqb_neq k0 k) by auto. ring.
Qed.
(** rmap on a function that always succeeds *)
Lemma rmap_all {A B} (f : A -> res B) (P : A -> B -> Prop) l : (forall a, In a l -> exists b, f a = Ok b /\ P a b) -> exists l', Swaps.rmap f l = Ok l' /\ Forall2 P l l'.
Proof.
  induction l as [|a l IH]; intros H; [eexists; split; [reflexivity|constructor]|]. destruct (H a (or_introl eq_refl)) as (b & E & HP). destruct IH as (l' & E' & HF); [intros; apply H; right; auto|].
  cbn [Swaps.rmap]. rewrite E. cbn [rbind]. rewrite E'. cbn [rbind]. eexists. split; [reflexivity|]. constructor; auto.
Qed.

(** * Printed states *)
Definition is_sig (t : tok) : bool := match t with TSig _ => true | _ => false end.
Lemma is_one_reads s : is_one s = true -> reads s = vscal C1.
Proof.
  intros H. unfold is_one in H. destruct s as [|[n|r| | | | | | | | | | | | |] [|? ?]]; try discriminate.
  - apply Nat.eqb_eq in H. subst. apply chunk_reads, chunkC_num.
  - unfold Reqb in H. destruct (Req_EM_T r 1) as [->|]; [|discriminate]. apply chunk_reads, chunkC_dec.
Qed.
Lemma is_mone_reads s : is_mone s = true -> reads s = vscal (- C1).
Proof.
  intros H. unfold is_mone in H. destruct s as [|[n|r| | | | | | | | | | | | |] l]; try discriminate.
  - destruct l as [|? ?]; [|discriminate]. unfold Reqb in H. destruct (Req_EM_T r (-1)) as [->|]; [|discriminate]. replace (- C1) with (RtoC (-1)) by (apply C_eq; cbn; ring). apply chunk_reads, chunkC_dec.
  - destruct l as [|[n|r| | | | | | | | | | | | |] [|? ?]]; try discriminate. apply Nat.eqb_eq in H. subst. apply chunk_reads. change [TMinus; TNum 1] with ([TMinus] ++ [TNum 1]). eapply chunkC_eq; [apply chunkC_app; [apply chunkC_minus|apply chunkC_num]|]. change (RtoC (INR 1)) with C1. ring.
Qed.
Lemma vscal_inj a b : vscal a = vscal b -> a = b.
Proof. intros H. exact (f_equal (fun v => v None) H). Qed.
Lemma chunk_mket k : chunk [TMinus; TKet k] (vmul (vscal (- C1)) (vket k)).
Proof. change [TMinus; TKet k] with ([TMinus] ++ [TKet k]). apply chunk_app; [apply chunkC_minus|apply chunk_ket]. Qed.
(** the printed coefficients [amps'] of the listed amplitudes *)
Definition coeffs (err : C -> C -> Prop) (amps amps' : list (list bool * C)) : Prop := Forall2 (fun p p' => fst p' = fst p /\ err (snd p) (snd p')) amps amps'.
Lemma coeffs_fst err a a' : coeffs err a a' -> map fst a' = map fst a.
Proof. induction 1 as [|x y l l' [H1 _] _ IH]; auto. cbn. congruence. Qed.
Lemma coeffs_in err a a' k x : coeffs err a a' -> In (k, x) a -> exists w, In (k, w) a' /\ err x w.
Proof.
  induction 1 as [|p p' l l' [H1 H2] _ IH]; intros I; [destruct I|]. destruct I as [->|I].
  - destruct p' as [k' w]. cbn in H1, H2. subst. exists w. split; [left|]; auto.
  - destruct (IH I) as (w & W1 & W2). exists w. split; [right|]; auto.
Qed.
Lemma split_terms err (amps : list (list bool * C)) terms : Forall2 (fun p x => exists w, err (snd p) w /\ chunk x (vmul (vscal w) (vket (fst p)))) amps terms ->
  exists amps', coeffs err amps amps' /\ Forall2 chunk terms (comps amps').
Proof.
  induction 1 as [|p x l l' (w & W1 & W2) _ (amps' & A1 & A2)]; [exists []; split; constructor|]. exists ((fst p, w) :: amps'). split; constructor; auto.
Qed.
(** at least two amplitudes, of the same non-zero modulus up to the tolerance *)
Definition uniform (t : R) (amps : list (list bool * C)) : Prop :=
  (2 <= length amps)%nat /\ forall p0, hd_error amps = Some p0 -> Cmod (snd p0) <> 0%R /\ forall p, In p amps -> (Rabs (Cmod (snd p) - Cmod (snd p0)) <= t)%R.
Section States.
Variable lim : nat -> R -> frac.
Variable fmtg : nat -> R -> R.
Variable o : fmt.
Variable maxden : nat.
Variable t : R.
Variable prec : nat.
Variable u : R.
Hypothesis HL : lim_ok lim.
Hypothesis HM : (1 <= maxden <= 1000)%nat.
Hypothesis HT : (0 <= t <= 1)%R.
Hypothesis HG : forall x, (Rabs (x - fmtg prec x) <= u * Rabs x)%R.
Notation str := (complex_to_str lim fmtg o maxden t 0 prec).
Notation err x := (2 * sqrt t + (PI * t + u) * x)%R.
Lemma num_ok z : exists s w, str z = Ok s /\ reads s = vscal w /\ (bare_sum s = false -> chunkC s w) /\ (Cmod (z - w) <= err (Cmod z))%R.
Proof. destruct (complex_ok lim fmtg o maxden t prec u HL HM HT HG z) as (s & w & A & B & Cc & _ & E). exists s, w. auto. Qed.
Lemma term_ok k z : exists c x w, str z = Ok c /\
  x = (if is_one c then [TKet k] else if is_mone c then [TMinus; TKet k] else if needs_parentheses c then [TPar c; TKet k] else c ++ [TKet k]) /\
  (Cmod (z - w) <= err (Cmod z))%R /\ (existsb is_sig c = false -> chunk x (vmul (vscal w) (vket k))).
Proof.
  destruct (num_ok z) as (c & w & E & RD & CH & B). exists c. eexists. exists w. split; auto. split; [reflexivity|]. split; auto. intros NS.
  destruct (is_one c) eqn:E1; [apply is_one_reads in E1; rewrite RD in E1; apply vscal_inj in E1; subst w; rewrite vmul_1_l; apply chunk_ket|].
  destruct (is_mone c) eqn:E2; [apply is_mone_reads in E2; rewrite RD in E2; apply vscal_inj in E2; subst w; apply chunk_mket|].
  destruct (needs_parentheses c) eqn:E3.
  - rewrite <- RD. change [TPar c; TKet k] with ([TPar c] ++ [TKet k]). apply chunk_app; [apply chunk_par|apply chunk_ket].
  - apply chunk_app; [apply CH|apply chunk_ket]. unfold bare_sum. rewrite E3. exact NS.
Qed.
Lemma phase_ok k z : exists c w, str z = Ok c /\ (Cmod (z - w) <= err (Cmod z))%R /\ (bare_sum c = false -> chunk (opt_app c k) (vmul (vscal w) (vket k))).
Proof.
  destruct (num_ok z) as (c & w & E & RD & CH & B). exists c, w. split; auto. split; auto. intros NS. unfold opt_app.
  destruct (is_one c) eqn:E1; [apply is_one_reads in E1; rewrite RD in E1; apply vscal_inj in E1; subst w; rewrite vmul_1_l; apply chunk_ket|].
  destruct (is_mone c) eqn:E2; [apply is_mone_reads in E2; rewrite RD in E2; apply vscal_inj in E2; subst w; apply chunk_mket|].
  apply chunk_app; [apply CH; auto|apply chunk_ket].
Qed.
(** no coefficient is printed as a decimal sum such as 0.12+0.23i *)
Definition no_dec_sum (amps : list (list bool * C)) : Prop := forall k a c, In (k, a) amps -> str a = Ok c -> existsb is_sig c = false.
(** no phase a / |a0| is printed as a sum *)
Definition no_phase_sum (amps : list (list bool * C)) : Prop := forall p0 k a c, hd_error amps = Some p0 -> In (k, a) amps -> str (a * RtoC (/ Cmod (snd p0))) = Ok c -> bare_sum c = false.
Lemma terms_ok amps : exists terms, Swaps.rmap (fun p => do c <- str (snd p);
    Ok (if is_one c then [TKet (fst p)] else if is_mone c then [TMinus; TKet (fst p)] else if needs_parentheses c then [TPar c; TKet (fst p)] else c ++ [TKet (fst p)])) amps = Ok terms /\
  length terms = length amps /\
  (no_dec_sum amps -> exists amps', coeffs (fun a w => Cmod (a - w) <= err (Cmod a))%R amps amps' /\ Forall2 chunk terms (comps amps')).
Proof.
  destruct (rmap_all (fun p => do c <- str (snd p);
    Ok (if is_one c then [TKet (fst p)] else if is_mone c then [TMinus; TKet (fst p)] else if needs_parentheses c then [TPar c; TKet (fst p)] else c ++ [TKet (fst p)]))
    (fun p x => exists w, (Cmod (snd p - w) <= err (Cmod (snd p)))%R /\ ((forall c, str (snd p) = Ok c -> existsb is_sig c = false) -> chunk x (vmul (vscal w) (vket (fst p))))) amps) as (terms & E & HF).
  - intros [k a] I. cbn [fst snd]. destruct (term_ok k a) as (c & x & w & E1 & E2 & E3 & E4). exists x. rewrite E1. cbn [rbind]. split; [congruence|]. exists w. split; auto.
  - exists terms. split; auto. split; [symmetry; clear E; induction HF; cbn; auto|]. intros ND. apply (split_terms (fun a w => Cmod (a - w) <= err (Cmod a))%R). clear E. revert ND.
    induction HF as [|[k a] x l l' (w & W1 & W2) HF IH]; intros ND; constructor.
    + exists w. split; auto. apply W2. intros c Hc. apply (ND k a c); auto. left. auto.
    + apply IH. intros k' a' c I. apply (ND k' a' c). right. auto.
Qed.
Lemma real_str_plain x s : real_to_str lim o maxden t 0 x = Ok (Some s) -> bare_sum s = false.
Proof.
  unfold real_to_str. destruct (recognize_sqrt lim maxden t 0 x) as [r|]; cbn [rbind]; [|discriminate]. destruct r as [[[a i] d]|]; [|discriminate]. cbn [option_map]. intros [= <-].
  unfold render_real, sign_str, fraction_str, sqrt_str. destruct (a =? 0)%Z, (a <? 0)%Z, (i =? 1)%nat, (Z.abs_nat a =? 1)%nat, (d =? 1)%nat, (is_latex o); reflexivity.
Qed.
Lemma imag_str_plain x s : imaginary_to_str lim o maxden t 0 x = Ok (Some s) -> bare_sum s = false.
Proof.
  unfold imaginary_to_str. destruct (recognize_sqrt lim maxden t 0 x) as [r|]; cbn [rbind]; [|discriminate]. destruct r as [[[a i] d]|]; [|discriminate]. cbn [option_map]. intros [= <-].
  unfold render_imaginary, sign_str, fraction_str, sqrt_str. destruct (a <? 0)%Z, (i =? 1)%nat, (Z.abs_nat a =? 1)%nat, (d =? 1)%nat, (is_latex o); reflexivity.
Qed.
Lemma axis_plain z s : re z = 0%R \/ im z = 0%R -> str z = Ok s -> bare_sum s = false.
Proof.
  intros HZ. unfold complex_to_str. assert (S0 : forall x, x = 0%R -> Rleb (Rabs x) t = true) by (intros x ->; apply Rleb_spec; rewrite Rabs_R0; lra).
  destruct (Rleb (Rabs (re z)) t) eqn:E1, (Rleb (Rabs (im z)) t) eqn:E2; cbn [andb].
  - intros [= <-]. reflexivity.
  - destruct (imaginary_to_str lim o maxden t 0 (im z)) as [[s'|]|] eqn:E; cbn [rbind or_decimal]; [| |discriminate].
    + intros [= <-]. eapply imag_str_plain, E.
    + unfold decimal_to_str. rewrite E1, E2. intros [= <-]. reflexivity.
  - destruct (real_to_str lim o maxden t 0 (re z)) as [[s'|]|] eqn:E; cbn [rbind or_decimal]; [| |discriminate].
    + intros [= <-]. eapply real_str_plain, E.
    + unfold decimal_to_str. rewrite E2. intros [= <-]. reflexivity.
  - destruct HZ as [H|H]; rewrite (S0 _ H) in *; discriminate.
Qed.
Lemma vsum_scale w l : vmul (vscal w) (vsum (comps l)) = vsum (comps (map (fun p => (fst p, w * snd p)) l)).
Proof.
  induction l as [|[k a] l IH]; [apply functional_extensionality; intros [x|]; unfold vmul, vscal; cbn; ring|].
  apply functional_extensionality. intros x. cbn [map fst snd]. rewrite comps_cons, <- IH. assert (Cc : forall y, vsum (comps ((k, a) :: l)) y = vmul (vscal a) (vket k) y + vsum (comps l) y) by reflexivity.
  destruct x as [x|]; unfold vmul at 1; rewrite !Cc; unfold vmul, vscal, vket; ring.
Qed.
(** the modulus of the first amplitude is printed as 1 *)
Definition unit_modulus (amps : list (list bool * C)) : Prop := exists p0 c, hd_error amps = Some p0 /\ str (RtoC (Cmod (snd p0))) = Ok c /\ is_one c = true.
(** no coefficient is printed as a sum without parentheses *)
Definition readable (amps : list (list bool * C)) : Prop :=
  (uniform t amps -> no_phase_sum amps) /\ (~ uniform t amps \/ unit_modulus amps -> no_dec_sum amps).
Lemma factored_ok amps : exists r, factor_uniform lim fmtg o maxden t 0 prec amps = Ok r /\ (r = None -> ~ uniform t amps \/ unit_modulus amps) /\
  forall s, r = Some s -> uniform t amps /\ exists p0, hd_error amps = Some p0 /\ (0 < Cmod (snd p0))%R /\
    (no_phase_sum amps -> exists amps', let r0 := Cmod (snd p0) in
      coeffs (fun a w => Cmod (a - w) <= err r0 * (Cmod a / r0) + (r0 + err r0) * err (Cmod a / r0))%R amps amps' /\ reads s = vsum (comps amps')).
Proof.
  unfold factor_uniform. destruct amps as [|[k0 a0] [|p1 l]]; [eexists; split; [reflexivity|]; split; [intros _; left; intros [K _]; cbn in K; lia|discriminate]..|]. cbn [snd]. cbv zeta. set (amps := (k0, a0) :: p1 :: l).
  assert (UQ : uniform t amps <-> Reqb (Cmod a0) 0 || existsb (fun p => negb (pclose 0 t (Cmod (snd p)) (Cmod a0))) amps = false).
  { rewrite orb_false_iff. unfold uniform, Reqb. split.
    - intros (_ & H). destruct (H (k0, a0) eq_refl) as (H1 & H2). cbn [snd] in H1, H2. split; [destruct (Req_EM_T (Cmod a0) 0); tauto|]. apply not_true_iff_false. rewrite existsb_exists. intros (p & I & K). apply negb_true_iff in K. specialize (H2 p I). apply pclose_0 in H2; [congruence|lra].
    - intros (H1 & H2). split; [unfold amps; cbn; lia|]. intros p0 [= <-]. cbn [snd]. split; [destruct (Req_EM_T (Cmod a0) 0); [discriminate|auto]|]. intros p I. apply pclose_0; [lra|]. destruct (pclose 0 t (Cmod (snd p)) (Cmod a0)) eqn:K; auto. apply not_true_iff_false in H2. exfalso. apply H2, existsb_exists. exists p. rewrite K. auto. }
  destruct (Reqb (Cmod a0) 0 || _) eqn:EU; [eexists; split; [reflexivity|]; split; [intros _; left; rewrite UQ; discriminate|discriminate]|]. apply proj2 in UQ. specialize (UQ eq_refl). apply orb_false_iff in EU. destruct EU as [EZ _].
  assert (R0 : (0 < Cmod a0)%R). { unfold Reqb in EZ. destruct (Req_EM_T (Cmod a0) 0); [discriminate|]. pose proof (Cmod_nonneg a0). lra. }
  set (r := Cmod a0) in *. destruct (num_ok (RtoC r)) as (rs & wr & E & RD & CH & B). rewrite E. cbn [rbind]. destruct (is_one rs) eqn:E1; [eexists; split; [reflexivity|]; split; [intros _; right; exists (k0, a0), rs; auto|discriminate]|].
  destruct (rmap_all (fun p => do ph <- str (snd p * RtoC (/ r)); Ok (opt_app ph (fst p)))
    (fun p x => exists w, (Cmod (snd p * RtoC (/ r) - w) <= err (Cmod (snd p * RtoC (/ r))))%R /\ ((forall c, str (snd p * RtoC (/ r)) = Ok c -> bare_sum c = false) -> chunk x (vmul (vscal w) (vket (fst p))))) amps) as (terms & ET & HF).
  - intros [k a] I. cbn [fst snd]. destruct (phase_ok k (a * RtoC (/ r))) as (c & w & P1 & P2 & P3). exists (opt_app c k). rewrite P1. cbn [rbind]. split; auto. exists w. split; auto.
  - rewrite ET. cbn [rbind]. eexists. split; [reflexivity|]. split; [discriminate|]. intros s [= <-]. split; auto. exists (k0, a0). split; auto. cbn [snd]. split; auto. intros NS. cbv zeta. fold r.
    assert (HF2 : Forall2 (fun p x => exists w, (Cmod (snd p - w) <= err r * (Cmod (snd p) / r) + (r + err r) * err (Cmod (snd p) / r) /\ True)%R /\ exists v, w = wr * v /\ chunk x (vmul (vscal v) (vket (fst p)))) amps terms).
    { assert (NS2 : forall k a c, In (k, a) amps -> str (a * RtoC (/ r)) = Ok c -> bare_sum c = false) by (intros k a c I Hc; apply (NS (k0, a0) k a c); auto). clear NS ET UQ. revert NS2.
      induction HF as [|[k a] x am te (w & W1 & W2) HF IH]; intros NS2; constructor.
      - exists (wr * w). cbn [fst snd] in *. assert (QE : Cmod (a * RtoC (/ r)) = (Cmod a / r)%R) by (rewrite Cmod_mul, Cmod_R, Rabs_pos_eq by (left; apply Rinv_0_lt_compat; auto); reflexivity). rewrite QE in W1.
        split; [split; auto|].
        + set (z := a * RtoC (/ r)) in *. assert (AE : a = RtoC r * z). { unfold z. transitivity (a * (RtoC r * RtoC (/ r))); [|ring]. rewrite <- RtoC_mul, Rinv_r by lra. change (RtoC 1) with C1. ring. }
          rewrite Cmod_R, (Rabs_pos_eq r) in B by lra. rewrite AE at 1. eapply Rle_trans; [apply (Cmod_tri _ (wr * z))|].
          replace (RtoC r * z - wr * z) with ((RtoC r - wr) * z) by ring. replace (wr * z - wr * w) with (wr * (z - w)) by ring. rewrite !Cmod_mul, QE.
          assert (Q0 : (0 <= Cmod a / r)%R) by (apply Rmult_le_pos; [apply Cmod_nonneg|left; apply Rinv_0_lt_compat; auto]).
          assert (WR : (Cmod wr <= r + err r)%R). { replace wr with (RtoC r + - (RtoC r - wr)) by ring. eapply Rle_trans; [apply Cmod_add|]. rewrite Cmod_opp, Cmod_R, Rabs_pos_eq by lra. lra. }
          apply Rplus_le_compat; [apply Rmult_le_compat_r; auto|]. apply Rmult_le_compat; auto using Cmod_nonneg.
        + exists w. split; auto. apply W2. intros c. apply (NS2 k a c). left. auto.
      - apply IH. intros k' a' c I. apply (NS2 k' a' c). right. auto. }
    assert (SP : exists am2 : list (list bool * C), coeffs (fun a w => Cmod (a - w) <= err r * (Cmod a / r) + (r + err r) * err (Cmod a / r))%R amps (map (fun p => (fst p, wr * snd p)) am2) /\ Forall2 chunk terms (comps am2)).
    { clear - HF2. induction HF2 as [|p x am te (w & (W1 & _) & v & -> & W3) _ (am2 & A1 & A2)]; [exists []; split; constructor|]. exists ((fst p, v) :: am2). split; constructor; auto. }
    destruct SP as (am2 & S1 & S2). exists (map (fun p => (fst p, wr * snd p)) am2). split; auto.
    assert (TN : terms <> []). { intros ->. inversion HF. } assert (BS : bare_sum rs = false) by (apply (axis_plain (RtoC r)); auto).
    rewrite <- vsum_scale, <- (join_ok terms _ S2 TN). apply chunk_reads. apply chunk_app; [apply CH; auto|apply chunk_par].
Qed.
End States.

(** * States that are printed readably *)
Section Readable.
Variable lim : nat -> R -> frac.
Variable fmtg : nat -> R -> R.
Variable o : fmt.
Variable maxden : nat.
Variable t : R.
Variable prec : nat.
Hypothesis HL : lim_ok lim.
Hypothesis HM : (1 <= maxden <= 1000)%nat.
Hypothesis HT : (0 <= t <= 1)%R.
Notation str := (complex_to_str lim fmtg o maxden t 0 prec).
Lemma bare_nosig c : bare_sum c = false -> existsb is_sig c = false.
Proof. unfold bare_sum. intros H. apply orb_false_iff in H. apply H. Qed.
(** amplitudes on the axes *)
Lemma axis_readable amps : (forall k a, In (k, a) amps -> re a = 0%R \/ im a = 0%R) -> readable lim fmtg o maxden t prec amps.
Proof.
  intros H. split; intros _.
  - intros p0 k a c _ I. apply axis_plain; auto. destruct (H k a I) as [E|E]; [left|right]; unfold Cmul, RtoC; cbn [re im]; rewrite E; ring.
  - intros k a c I Hc. apply bare_nosig. eapply axis_plain; eauto.
Qed.
(** a fraction with a denominator within the limit *)
Definition small_frac (x : R) : Prop := exists f, (Pos.to_nat (snd f) <= maxden)%nat /\ x = fval f.
Lemma pclose_refl x : pclose 0 t x x = true.
Proof. apply pclose_0; [lra|]. unfold Rminus. rewrite Rplus_opp_r, Rabs_R0. lra. Qed.
Lemma real_some x : small_frac x \/ small_frac (x * x) -> exists s, real_to_str lim o maxden t 0 x = Ok (Some s).
Proof.
  intros H. destruct (C58_recognize lim maxden t x HL (proj1 HM) (proj1 HT)) as (r & E & _ & K). unfold real_to_str. rewrite E. cbn [rbind]. destruct r as [p|]; [eexists; reflexivity|]. exfalso.
  destruct H as [(f & F1 & F2)|(f & F1 & F2)]; apply (K f); auto.
Qed.
Lemma exp_some z : im z <> 0%R -> small_frac (atan2 z / PI) -> (exists s, real_to_str lim o maxden t 0 (Cmod z) = Ok (Some s)) -> exists e, exponential_to_str lim o maxden t 0 z = Ok (Some e) /\ bare_sum e = false.
Proof.
  intros NI (f & F1 & F2) (rs & ER). unfold exponential_to_str, recognize_angle. cbv zeta. rewrite (lim_exact lim maxden _ f HL F1 F2), pclose_refl.
  destruct (Z.eqb_spec (fst (lim maxden (atan2 z / PI))) 0) as [E|E].
  - exfalso. assert (V : (atan2 z / PI = 0)%R) by (rewrite <- (lim_exact lim maxden _ f HL F1 F2); unfold fval; rewrite E; unfold Rdiv; ring).
    assert (NZ : z <> C0) by (intros ->; apply NI; reflexivity). pose proof (atan2_polar z NZ) as P. rewrite V in P. apply NI. rewrite P. unfold cis. rewrite Rmult_0_l, sin_0. unfold Cmul, RtoC. cbn [re im]. ring.
  - rewrite ER. cbn [rbind]. eexists. split; [reflexivity|]. apply real_str_plain in ER. unfold bare_sum, needs_parentheses in *. apply orb_false_iff in ER. destruct ER as [R1 R2]. destruct (is_one rs); [reflexivity|]. rewrite !existsb_app, R1, R2. reflexivity.
Qed.
Lemma cart_nosig x y c : cartesian_to_str lim o maxden t 0 x y = Ok (Some c) -> existsb is_sig c = false.
Proof.
  unfold cartesian_to_str. destruct (real_to_str lim o maxden t 0 x) as [[rs|]|] eqn:ER; cbn [rbind]; [| |discriminate].
  - destruct (recognize_sqrt lim maxden t 0 y) as [[[[a i] d]|]|]; cbn [rbind]; [| |discriminate]; [|discriminate]. intros [= <-]. apply real_str_plain, bare_nosig in ER. rewrite !existsb_app, ER.
    unfold render_real, sign_str, fraction_str, sqrt_str. destruct (a <? 0)%Z, ((Z.abs a =? 1)%Z && (i =? 1)%nat && (d =? 1)%nat), (Z.abs a =? 0)%Z, (Z.abs a <? 0)%Z, (i =? 1)%nat, (Z.abs_nat (Z.abs a) =? 1)%nat, (d =? 1)%nat, (is_latex o); reflexivity.
  - destruct (recognize_sqrt lim maxden t 0 y); cbn [rbind]; discriminate.
Qed.
(** a number with a recognised modulus and angle is not printed as a decimal
    sum, and not as a sum at all on the unit circle *)
Lemma polar_str z c : small_frac (atan2 z / PI) -> small_frac (Cmod z) \/ small_frac (Cmod z * Cmod z) -> str z = Ok c ->
  existsb is_sig c = false /\ (Cmod z = 1%R -> bare_sum c = false).
Proof.
  intros HA HR HS. destruct (Rleb (Rabs (im z)) t) eqn:E2; [|destruct (Rleb (Rabs (re z)) t) eqn:E1].
  - assert (B : bare_sum c = false); [|split; [apply bare_nosig|]; auto]. revert HS. unfold complex_to_str. rewrite E2. destruct (Rleb (Rabs (re z)) t) eqn:E1; cbn [andb]; [intros [= <-]; reflexivity|].
    destruct (real_to_str lim o maxden t 0 (re z)) as [[s'|]|] eqn:E; cbn [rbind or_decimal]; [| |discriminate]; intros [= <-]; [eapply real_str_plain, E|]. unfold decimal_to_str. rewrite E2. reflexivity.
  - assert (B : bare_sum c = false); [|split; [apply bare_nosig|]; auto]. revert HS. unfold complex_to_str. rewrite E1, E2. cbn [andb].
    destruct (imaginary_to_str lim o maxden t 0 (im z)) as [[s'|]|] eqn:E; cbn [rbind or_decimal]; [| |discriminate]; intros [= <-]; [eapply imag_str_plain, E|]. unfold decimal_to_str. rewrite E1, E2. reflexivity.
  - assert (NI : im z <> 0%R). { intros K. rewrite K, Rabs_R0 in E2. apply not_true_iff_false in E2. apply E2, Rleb_spec. lra. }
    destruct (exp_some z NI HA (real_some _ HR)) as (e & EE & EB). revert HS. unfold complex_to_str. rewrite E1, E2. cbn [andb]. rewrite EE. cbn [rbind]. destruct (pclose 0 t (Cmod z) 1) eqn:PC.
    + intros [= <-]. split; auto. apply bare_nosig; auto.
    + destruct (cartesian_to_str lim o maxden t 0 (re z) (im z)) as [[c'|]|] eqn:EC; cbn [rbind]; [| |discriminate]; intros [= <-].
      * split; [eapply cart_nosig, EC|]. intros K. rewrite K, pclose_refl in PC. discriminate.
      * split; auto. apply bare_nosig; auto.
Qed.
Lemma atan2_scale z r : (0 < r)%R -> atan2 (z * RtoC r) = atan2 z.
Proof.
  intros H. unfold atan2. cbv zeta. rewrite Cmod_mul, Cmod_R, Rabs_pos_eq by lra. assert (R1 : re (z * RtoC r) = (re z * r)%R) by (unfold Cmul, RtoC; cbn [re im]; ring). assert (R2 : im (z * RtoC r) = (im z * r)%R) by (unfold Cmul, RtoC; cbn [re im]; ring). rewrite R1, R2.
  assert (Q : (re z * r / (Cmod z * r) = re z / Cmod z)%R).
  { destruct (Req_dec (Cmod z) 0) as [E|E]; [|field; lra]. rewrite E. assert (K : re z = 0%R). { pose proof (Cmod_re z) as M. rewrite E in M. pose proof (Rabs_pos (re z)). destruct (Req_dec (re z) 0) as [|N]; auto. apply Rabs_no_R0 in N. lra. } rewrite K. unfold Rdiv. ring. }
  rewrite Q. unfold Rltb. destruct (Rlt_dec (im z * r) 0) as [L|L], (Rlt_dec (im z) 0) as [L'|L']; auto; exfalso; [apply L'|apply L]; nra.
Qed.
(** amplitudes of one modulus whose square is a fraction, with angles fractions of pi *)
Lemma polar_readable amps r : (0 < r)%R -> small_frac (r * r) -> (forall k a, In (k, a) amps -> Cmod a = r /\ small_frac (atan2 a / PI)) -> readable lim fmtg o maxden t prec amps.
Proof.
  intros R0 HR H. split; intros _.
  - intros p0 k a c HD I Hc. destruct (H k a I) as (M & A). assert (M0 : Cmod (snd p0) = r). { destruct amps as [|q l]; [discriminate|]. injection HD as <-. destruct q as [k0 a0]. apply (H k0 a0). left. auto. }
    rewrite M0 in Hc. assert (RI : (0 < / r)%R) by (apply Rinv_0_lt_compat; auto). assert (M1 : Cmod (a * RtoC (/ r)) = 1%R) by (rewrite Cmod_mul, Cmod_R, M, Rabs_pos_eq by lra; field; lra).
    apply (polar_str (a * RtoC (/ r)) c); auto; [rewrite atan2_scale; auto|]. left. exists (1%Z, 1%positive). split; [exact (proj1 HM)|]. rewrite M1. unfold fval. cbn [fst snd]. lra.
  - intros k a c I Hc. destruct (H k a I) as (M & A). apply (polar_str a c); auto. rewrite M. auto.
Qed.
End Readable.

(** every state is printed; the printed vector has no scalar part, no component
    outside the listed kets, and each listed component is close to the
    amplitude, provided no coefficient is printed as a sum without parentheses *)
Theorem C58_state : forall lim fmtg o maxden atol prec u (amps : list (list bool * C)), lim_ok lim -> (1 <= maxden <= 1000)%nat -> (0 <= atol <= 1)%R ->
  (forall x, Rabs (x - fmtg prec x) <= u * Rabs x)%R -> NoDup (map fst amps) ->
  let err x := (2 * sqrt atol + (PI * atol + u) * x)%R in
  exists s, state_to_str lim fmtg o maxden atol 0 prec amps = Ok s /\
    (readable lim fmtg o maxden atol prec amps ->
     reads s None = C0 /\ (forall k, ~ In k (map fst amps) -> reads s (Some k) = C0) /\
     forall k a, In (k, a) amps -> (Cmod (a - reads s (Some k)) <= err (Cmod a))%R \/
       uniform atol amps /\ exists p0, hd_error amps = Some p0 /\ (0 < Cmod (snd p0))%R /\ let r := Cmod (snd p0) in let q := (Cmod a / r)%R in (Cmod (a - reads s (Some k)) <= err r * q + (r + err r) * err q)%R).
Proof.
  intros lim fmtg o m t p u amps HL HM HT HG ND err. assert (FIN : forall (P : C -> C -> Prop) amps' s, coeffs P amps amps' -> reads s = vsum (comps amps') ->
    reads s None = C0 /\ (forall k, ~ In k (map fst amps) -> reads s (Some k) = C0) /\ forall k a, In (k, a) amps -> P a (reads s (Some k))).
  { intros P amps' s Hc Hr. rewrite Hr. split; [apply comps_None|]. pose proof (coeffs_fst _ _ _ Hc) as F. split; [intros k N; apply comps_notin; rewrite F; auto|].
    intros k a I. destruct (coeffs_in _ _ _ _ _ Hc I) as (w & W1 & W2). rewrite (comps_in amps' k w); auto. rewrite F. auto. }
  destruct amps as [|p0 l] eqn:EA.
  - exists [TNum 0]. split; [reflexivity|]. intros _. rewrite (chunk_reads _ _ (chunkC_num 0)). split; [reflexivity|]. split; [reflexivity|]. intros k a [].
  - rewrite <- EA in *. assert (UN : state_to_str lim fmtg o m t 0 p amps = do f <- factor_uniform lim fmtg o m t 0 p amps;
      match f with Some s => Ok s | None => do terms <- Swaps.rmap (fun p0 => do c <- complex_to_str lim fmtg o m t 0 p (snd p0);
        Ok (if is_one c then [TKet (fst p0)] else if is_mone c then [TMinus; TKet (fst p0)] else if needs_parentheses c then [TPar c; TKet (fst p0)] else c ++ [TKet (fst p0)])) amps; Ok (join_terms terms) end) by (rewrite EA; reflexivity).
    rewrite UN. destruct (factored_ok lim fmtg o m t p u HL HM HT HG amps) as (r & E & HN & H). rewrite E. cbn [rbind]. destruct r as [s|].
    + destruct (H s eq_refl) as (QU & q0 & Q1 & Q2 & Q3). exists s. split; auto. intros [NP _]. specialize (NP QU). destruct (Q3 NP) as (amps' & A1 & A2). destruct (FIN _ _ _ A1 A2) as (F1 & F2 & F3). split; auto. split; auto.
      intros k a I. right. split; auto. exists q0. split; auto. split; auto. apply F3. auto.
    + destruct (terms_ok lim fmtg o m t p u HL HM HT HG amps) as (terms & E2 & LT & H2). rewrite E2. cbn [rbind]. eexists. split; [reflexivity|]. intros [_ NS]. specialize (NS (HN eq_refl)). destruct (H2 NS) as (amps' & A1 & A2).
      assert (TN : terms <> []) by (intros ->; rewrite EA in LT; discriminate). destruct (FIN _ _ _ A1 (join_ok terms _ A2 TN)) as (F1 & F2 & F3). split; [exact F1|]. split; [exact F2|]. intros k a I. left. apply F3. auto.
Qed.
Print Assumptions C58_state.

Lemma rsum_in {X} (l : list X) F j : In j l -> (forall x, 0 <= F x)%R -> (F j <= rsum l F)%R.
Proof.
  intros I H. unfold rsum, gsum. induction l as [|x l IH]; [destruct I|]. cbn [fold_right]. assert (0 <= fold_right (fun x s => F x + s) 0 l)%R by (clear - H; induction l as [|y l IH]; cbn; [lra|pose proof (H y); lra]).
  destruct I as [->|I]; [lra|]. specialize (IH I). pose proof (H x). lra.
Qed.
Lemma normalised_le s f : normalised s -> (Cmod (sv_psi s (idx (sv_n s) f)) <= 1)%R.
Proof.
  intros HN. assert (I : In (idx (sv_n s) f) (range (2 ^ sv_n s))) by (apply in_seq; pose proof (idx_lt (sv_n s) f); lia). pose proof (rsum_in _ (fun j => Cnorm2 (sv_psi s j)) _ I (fun x => Cnorm2_nonneg _)) as H. unfold normalised in HN. rewrite HN in H.
  unfold Cmod. rewrite <- sqrt_1. apply sqrt_le_1_alt. exact H.
Qed.

(** the printed state vector: every basis state has a component within the
    error of its amplitude, nothing else is printed *)
Theorem C58_statevec : forall lim fmtg o maxden atol prec u s lsb, lim_ok lim -> (1 <= maxden <= 1000)%nat -> (0 <= atol <= 1)%R -> (0 <= u)%R ->
  (forall x, Rabs (x - fmtg prec x) <= u * Rabs x)%R -> (1 <= sv_n s)%nat -> normalised s ->
  (** the amplitudes that are not dropped are on the axes, or share a modulus
      with a fractional square and have angles that are fractions of pi *)
  ((forall f, let a := sv_psi s (idx (sv_n s) f) in (atol < Cmod a)%R -> re a = 0%R \/ im a = 0%R) \/
   (exists r, (0 < r)%R /\ small_frac maxden (r * r) /\ forall f, let a := sv_psi s (idx (sv_n s) f) in (atol < Cmod a)%R -> Cmod a = r /\ small_frac maxden (atan2 a / PI))) ->
  let err x := (2 * sqrt atol + (PI * atol + u) * x)%R in
  exists str, statevec_to_str lim fmtg o maxden atol 0 prec s lsb = Ok str /\ reads str None = C0 /\
    (forall k, (forall f, k <> key (sv_n s) f lsb) -> reads str (Some k) = C0) /\
    forall f, (Cmod (sv_psi s (idx (sv_n s) f) - reads str (Some (key (sv_n s) f lsb))) <= 2 * err 1 + (1 + err 1) * err 2)%R.
Proof.
  intros lim fmtg o m t p u s lsb HL HM HT HU HG Hn HN HA err. unfold statevec_to_str. destruct (C56_to_dict s lsb 0 t Hn) as (ND & IN & _). set (amps := to_dict s lsb 0 t) in *.
  assert (RB : readable lim fmtg o m t p amps).
  { destruct HA as [HA|(r & R0 & RF & HA)].
    - apply axis_readable; auto. intros k a I. apply IN in I. destruct I as (f & _ & -> & L). apply (HA f). auto.
    - apply (polar_readable lim fmtg o m t p HL HM HT amps r); auto. intros k a I. apply IN in I. destruct I as (f & _ & -> & L). apply (HA f). auto. }
  destruct (C58_state lim fmtg o m t p u amps HL HM HT HG ND) as (str & E & H). destruct (H RB) as (N0 & NO & HB). exists str. split; auto. split; auto.
  assert (EM : forall x y, (0 <= x <= y -> err x <= err y)%R). { intros x y XY. unfold err. pose proof PI_RGT_0. assert (0 <= PI * t)%R by (apply Rmult_le_pos; lra). assert ((PI * t + u) * x <= (PI * t + u) * y)%R by (apply Rmult_le_compat_l; lra). lra. }
  assert (E0 : (t <= err 0)%R). { unfold err. pose proof (sqt t HT). pose proof (sqrt_pos t). lra. }
  assert (LE1 := fun f => normalised_le s f HN).
  split.
  - intros k NK. apply NO. intros I. apply in_map_iff in I. destruct I as ((k' & a) & <- & I). apply IN in I. destruct I as (f & -> & _). apply (NK f). auto.
  - intros f. set (a := sv_psi s (idx (sv_n s) f)). pose proof (LE1 f) as LA. fold a in LA. pose proof (EM 0%R 1%R ltac:(lra)) as EM1. pose proof (EM 1%R 2%R ltac:(lra)) as EM2. assert (PR : (0 <= err 1 * err 2)%R) by (apply Rmult_le_pos; lra).
    assert (EXP : (2 * err 1 + (1 + err 1) * err 2 = 2 * err 1 + err 2 + err 1 * err 2)%R) by ring. rewrite EXP. clear EXP.
    destruct (Rlt_dec t (Cmod a)) as [L|L].
    + assert (I : In (key (sv_n s) f lsb, a) amps) by (apply IN; exists f; auto). destruct (HB _ _ I) as [B|(UQ & p0 & P1 & P2 & B)].
      * fold (err (Cmod a)) in B. pose proof (Cmod_nonneg a). pose proof (EM (Cmod a) 1%R ltac:(lra)). lra.
      * cbv zeta in B. destruct UQ as (_ & UQ). destruct (UQ p0 P1) as (_ & UQ2). specialize (UQ2 _ I). cbn [snd] in UQ2. set (r := Cmod (snd p0)) in *.
        assert (I0 : In p0 amps) by (destruct amps; [discriminate|injection P1 as ->; left; auto]). assert (RL : (t < r <= 1)%R). { destruct p0 as [k0 a0]. apply IN in I0. destruct I0 as (f0 & _ & EA & L0). cbn [snd] in r. split; auto. unfold r. rewrite EA. apply LE1. }
        assert (QB : (0 <= Cmod a / r <= 2)%R).
        { split; [apply Rmult_le_pos; [apply Cmod_nonneg|left; apply Rinv_0_lt_compat; lra]|]. apply (Rmult_le_reg_r r); [lra|]. unfold Rdiv. rewrite Rmult_assoc, Rinv_l by lra. pose proof (Rle_abs (Cmod a - r)). lra. }
        fold (err r) (err (Cmod a / r))%R in B. pose proof (EM r 1%R ltac:(lra)) as B1. pose proof (EM _ _ QB) as B2. eapply Rle_trans; [apply B|].
        assert (ER0 : (0 <= err r)%R) by (pose proof (EM 0%R r ltac:(lra)); lra). assert (EQ0 : (0 <= err (Cmod a / r))%R) by (pose proof (EM 0%R (Cmod a / r)%R ltac:(lra)); lra).
        assert (M1 : (err r * (Cmod a / r) <= err 1 * 2)%R) by (apply Rmult_le_compat; lra). assert (M2 : ((r + err r) * err (Cmod a / r) <= (1 + err 1) * err 2)%R) by (apply Rmult_le_compat; lra). lra.
    + rewrite NO; [replace (a - C0) with a by ring; lra|]. intros I. apply in_map_iff in I. destruct I as ((k' & a') & EK & I). cbn [fst] in EK. subst k'. apply IN in I. destruct I as (g & G1 & G2 & G3). apply key_inj in G1. unfold a in L. rewrite G1 in L. rewrite G2 in G3. contradiction.
Qed.
Print Assumptions C58_statevec.
