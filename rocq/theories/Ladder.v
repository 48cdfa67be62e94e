(** Model of graphix/circ_ext/compilation.py pexp_ladder_pass and er_to_circuit. *)
From Coq Require Import Reals Lra Nsatz Arith List Bool Lia Permutation FunctionalExtensionality.
From Verif Require Import Cplx Mat2 NSet QState Fundamentals Clifford Measure Pattern Statevec Density Circuit Swaps Flow PauliStr PauliOp Berg.
Import ListNotations.
Local Open Scope list_scope.
Local Open Scope C_scope.

(** extraction.py:282-334 PauliExponential; the angle is a number in units of pi
    (parameterised angles are not modelled) *)
Record pexp := PExp { pe_angle : R; pe_ps : pstring }.
(** extraction.py:337-391 PauliExponentialDAG *)
Record pdag := PDag { pd_exp : dict pexp; pd_layers : list nset; pd_out : list nat }.

(** axes[q]; the qubits are keys of the dict, the default is never used *)
Definition axf (d : dict axis) (q : nat) : axis := match dget d q with Some a => a | None => AZ end.
(** compilation.py:158-172 add_hy *)
Definition hy (q : nat) : list instr := [IRZ q (1 / 2); IRY q (1 / 2); IRZ q (1 / 2)].
(** compilation.py:138-156 add_basis_change *)
Definition basis (a : axis) (q : nat) : list instr := match a with AX => [IH q] | AY => hy q | AZ => [] end.
(** transpiler.py:337-357 Circuit.r *)
Definition rot (q : nat) (a : axis) (angle : R) : instr := match a with AX => IRX q angle | AY => IRY q angle | AZ => IRZ q angle end.
(** itertools.pairwise *)
Fixpoint pairwise (l : list nat) : list (nat * nat) :=
  match l with a :: (b :: _) as l' => (a, b) :: pairwise l' | _ => [] end.
(** compilation.py:95-136 add_pexp: the gates added to the circuit *)
Definition add_pexp (e : pexp) : list instr :=
  if Req_EM_T (pe_angle e) 0 then []
  else
    let d := ps_axes (pe_ps e) in
    let qs := dkeys d in
    let angle := (-2 * pe_angle e * sign_R (ps_sign (pe_ps e)))%R in
    match qs with
    | [] => []
    | [q0] => [rot q0 (axf d q0) angle]
    | q0 :: _ =>
        basis (axf d q0) q0
        ++ flat_map (fun p => basis (axf d (snd p)) (snd p) ++ [ICNOT (snd p) (fst p)]) (pairwise qs)
        ++ [IRZ (last qs 0%nat) angle]
        ++ flat_map (fun p => ICNOT (fst p) (snd p) :: basis (axf d (fst p)) (fst p)) (pairwise (rev qs))
        ++ basis (axf d q0) q0
    end.
(** compilation.py:174-176: the nodes in the order of the loop; [it] is the
    iteration order of a set *)
Definition dag_order (it : nset -> list nat) (dag : pdag) : list nat := flat_map it (rev (tl (pd_layers dag))).
(** compilation.py:68-176 pexp_ladder_pass *)
Definition ladder_instrs (it : nset -> list nat) (dag : pdag) : res (list instr) :=
  do ls <- rmap (fun node => match dget (pd_exp dag) node with Some e => Ok (add_pexp e) | None => Err EKey end) (dag_order it dag);
  Ok (concat ls).
Definition pexp_ladder_pass (it : nset -> list nat) (dag : pdag) (c : circuit) : res circuit := do l <- ladder_instrs it dag; circ_extend c l.
(** compilation.py:22-65 er_to_circuit, with the default passes *)
Definition er_to_circuit (it : nset -> list nat) (dag : pdag) (cm : cmap) : res circuit :=
  if list_eq_dec Nat.eq_dec (pd_out dag) (cm_out cm) then
    do c <- cm_berg_pass cm (circ_new (length (pd_out dag)));
    pexp_ladder_pass it dag c
  else Err EValue.

(** * Specification: exp(i alpha P) for a Pauli string P *)
(** since P is an involution, exp(i a P) = cos a + i sin a P *)
Definition exp_op (a : R) (P : state -> state) (psi : state) : state :=
  sadd_st (cscale (RtoC (cos (a * PI))) psi) (cscale (Ci * RtoC (sin (a * PI))) (P psi)).
Definition pexp_op (e : pexp) : state -> state := exp_op (pe_angle e) (ps_op (pe_ps e)).

(** * The ladder *)
Definition hyM : mat2 := mmul (op_rz (1 / 2)) (mmul (op_ry (1 / 2)) (op_rz (1 / 2))).
Definition bM (a : axis) : mat2 := match a with AX => op_h | AY => hyM | AZ => mid end.
Definition bph (a : axis) : C := match a with AY => - C1 | _ => C1 end.
Lemma cis_q : cis (1 / 2 / 2) = mkC (/ sqrt 2) (/ sqrt 2).
Proof. unfold cis. replace (1 / 2 / 2 * PI)%R with (PI / 4)%R by field. rewrite cos_PI4, sin_PI4. f_equal; field; apply sqrt2_neq_0. Qed.
Lemma hyM_val : hyM = Mat2 (- (Ci * q2)) (- q2) q2 (Ci * q2).
Proof.
  unfold hyM, op_rz, op_ry. rewrite cis_opp, cis_q. replace (1 / 2 * PI / 2)%R with (PI / 4)%R by field. rewrite cos_PI4, sin_PI4.
  replace (1 / sqrt 2)%R with (/ sqrt 2)%R by (field; apply sqrt2_neq_0).
  pose proof (sqrt_mul_inv 2 ltac:(lra)) as H. set (q := (/ sqrt 2)%R) in *. assert (2 * (q * q) = 1)%R by lra. meq; apply C_eq; cbn; nsatz.
Qed.
Lemma bM_sq a : mmul (bM a) (bM a) = mscale (bph a) mid.
Proof.
  destruct a; cbn [bM bph].
  - unfold op_h. trig 0%R.
  - rewrite hyM_val. pose proof (sqrt_mul_inv 2 ltac:(lra)) as H. set (q := (/ sqrt 2)%R) in *. assert (2 * (q * q) = 1)%R by lra. meq; apply C_eq; cbn; nsatz.
  - unfold mid. meq; ring.
Qed.
Lemma bM_Z a : mmul (bM a) (mmul mZ (bM a)) = mscale (bph a) (axis_mat a).
Proof.
  destruct a; cbn [bM bph axis_mat].
  - unfold op_h, mZ, mX. trig 0%R.
  - rewrite hyM_val. unfold mY, mZ. pose proof (sqrt_mul_inv 2 ltac:(lra)) as H. set (q := (/ sqrt 2)%R) in *. assert (2 * (q * q) = 1)%R by lra. meq; apply C_eq; cbn; nsatz.
  - unfold mid, mZ. meq; ring.
Qed.
Local Arguments app_op : simpl never.
Lemma basis_gates a q psi : gates (basis a q) psi = app_op (OApp1 (bM a) q) psi.
Proof.
  destruct a; cbn [basis bM]; unfold gates, hy; cbn [fold_left gate]; auto.
  - rewrite !app1_app1. unfold hyM. rewrite mmul_assoc. auto.
  - rewrite app1_mid. auto.
Qed.
(** rotation of angle [a] about an involution *)
Definition rotn (a : R) (F : state -> state) (psi : state) : state :=
  sadd_st (cscale (RtoC (cos (a * PI / 2))) psi) (cscale (- Ci * RtoC (sin (a * PI / 2))) (F psi)).
Lemma rotn_ext a F G psi : (forall psi, F psi = G psi) -> rotn a F psi = rotn a G psi.
Proof. intros H. unfold rotn. rewrite H. auto. Qed.
Lemma gate_rz q a psi : gate (IRZ q a) psi = rotn a (app_op (OApp1 mZ q)) psi.
Proof.
  extensionality f. rewrite rz_at. unfold rotn, sadd_st, cscale, ph. unfold app_op. pose proof (upd_id f q) as E.
  destruct (f q); rewrite ?cis_opp, cis_hf; cbn [mget mZ m10 m11 m00 m01]; rewrite E; apply C_eq; cbn; ring.
Qed.
Lemma gate_rx q a psi : gate (IRX q a) psi = rotn a (app_op (OApp1 mX q)) psi.
Proof.
  extensionality f. cbn [gate]. unfold rotn, sadd_st, cscale. unfold app_op, op_rx. pose proof (upd_id f q) as E.
  destruct (f q); cbn [mget mX m10 m11 m00 m01]; rewrite ?E; apply C_eq; cbn; ring.
Qed.
Lemma gate_ry q a psi : gate (IRY q a) psi = rotn a (app_op (OApp1 mY q)) psi.
Proof.
  extensionality f. cbn [gate]. unfold rotn, sadd_st, cscale. unfold app_op, op_ry. pose proof (upd_id f q) as E.
  destruct (f q); cbn [mget mY m10 m11 m00 m01]; rewrite ?E; apply C_eq; cbn; ring.
Qed.
Lemma gate_rot q ax a psi : gate (rot q ax a) psi = rotn a (app_op (OApp1 (axis_mat ax) q)) psi.
Proof. destruct ax; [apply gate_rx|apply gate_ry|apply gate_rz]. Qed.
(** conjugating a rotation by a linear map *)
Definition linear (F : state -> state) : Prop := (forall c psi, F (cscale c psi) = cscale c (F psi)) /\ (forall a b, F (sadd_st a b) = sadd_st (F a) (F b)).
Lemma linear_app1 A q : linear (app_op (OApp1 A q)).
Proof. split; intros; [apply app_op_scale|apply app_op_add]. Qed.
Lemma linear_cnot t c : c <> t -> linear (gate (ICNOT t c)).
Proof. intros N. split; intros; [apply gate_scale|]. extensionality f. unfold sadd_st. rewrite !cnot_spec by auto. auto. Qed.
Lemma linear_comp F G : linear F -> linear G -> linear (fun psi => F (G psi)).
Proof. intros [A B] [C D]. split; intros; [rewrite C, A|rewrite D, B]; auto. Qed.
Lemma rotn_conj a L F L' c G psi : linear L -> (forall psi, L (L' psi) = cscale c psi) -> (forall psi, L (F (L' psi)) = cscale c (G psi)) ->
  L (rotn a F (L' psi)) = cscale c (rotn a G psi).
Proof.
  intros [A B] H1 H2. unfold rotn. rewrite B, !A, H1, H2. extensionality f. unfold sadd_st, cscale. ring.
Qed.
Lemma rotn_scale a F c psi : (forall c psi, F (cscale c psi) = cscale c (F psi)) -> rotn a F (cscale c psi) = cscale c (rotn a F psi).
Proof. intros H. unfold rotn. rewrite H. extensionality f. unfold sadd_st, cscale. ring. Qed.
Lemma axes_op_scale l c psi : axes_op l (cscale c psi) = cscale c (axes_op l psi).
Proof. induction l as [|e l IH]; auto. cbn [axes_op fold_right]. fold (axes_op l (cscale c psi)). fold (axes_op l psi). rewrite IH. apply app_op_scale. Qed.
Lemma axes_op_far (F : state -> state) l : (forall A q psi, In q (dkeys l) -> F (app_op (OApp1 A q) psi) = app_op (OApp1 A q) (F psi)) ->
  forall psi, F (axes_op l psi) = axes_op l (F psi).
Proof.
  intros H psi. induction l as [|[q a] l IH]; auto. cbn [axes_op fold_right fst snd]. rewrite H by (simpl; auto). f_equal. apply IH. intros. apply H. simpl. auto.
Qed.
(** nested form of the ladder below a qubit [q] already in the Z basis *)
Fixpoint lad (q : nat) (l : list (nat * axis)) (a : R) : list instr :=
  match l with
  | [] => [IRZ q a]
  | (q', ax) :: l' => basis ax q' ++ [ICNOT q' q] ++ lad q' l' a ++ [ICNOT q' q] ++ basis ax q'
  end.
Lemma gates_one i psi : gates [i] psi = gate i psi.
Proof. reflexivity. Qed.
Lemma lad_sem a l : forall q, NoDup (q :: dkeys l) -> exists c, phase c /\ forall psi,
  gates (lad q l a) psi = cscale c (rotn a (fun psi => app_op (OApp1 mZ q) (axes_op l psi)) psi).
Proof.
  induction l as [|[q' ax] l IH]; intros q ND.
  - exists C1. split; [apply phase_1|]. intros psi. rewrite cscale_1. cbn [lad]. rewrite gates_one. apply gate_rz.
  - cbn [dkeys map fst] in ND. inversion ND as [|? ? N1 N2]; subst. simpl in N1. assert (Nq : q <> q') by (intros ->; tauto).
    destruct (IH q' N2) as (c & Hc & E). inversion N2 as [|? ? N3 N4]; subst. change (map fst l) with (dkeys l) in *.
    exists (c * bph ax). split. { apply phase_mul; auto. destruct ax; [apply phase_1| |apply phase_1]. unfold phase, Cnorm2. cbn. ring. }
    intros psi. cbn [lad]. rewrite !gates_app, !gates_one, !basis_gates, E, gate_scale, app_op_scale, <- cscale_cscale. f_equal.
    set (W := OApp1 (bM ax) q'). set (CX := gate (ICNOT q' q)).
    apply (rotn_conj a (fun p => app_op W (CX p)) (fun p => app_op (OApp1 mZ q') (axes_op l p)) (fun p => CX (app_op W p)) (bph ax)
        (fun p => app_op (OApp1 mZ q) (axes_op ((q', ax) :: l) p))).
    + apply linear_comp; [apply linear_app1|apply linear_cnot; auto].
    + intros p. unfold CX. rewrite cnot_cnot by auto. unfold W. rewrite app1_app1, bM_sq. rewrite (app1_scale _ mid (bph ax)) by auto. rewrite app1_mid. auto.
    + intros p. unfold CX. rewrite <- (app1_mid q (app_op (OApp1 mZ q') _)). change mid with (pm false false). change mZ with (pm false true) at 1.
      rewrite cnot_conj2 by auto. cbn [andb xorb sgn pm]. rewrite cscale_1.
      rewrite (axes_op_far (gate (ICNOT q' q))) by (intros; apply cnot_app1; auto; intros ->; tauto). rewrite cnot_cnot by auto.
      unfold W. rewrite (app1_comm (bM ax) mZ q' q) by auto. rewrite app_op_scale || idtac. cbn [axes_op fold_right fst snd].
      fold (axes_op l p). rewrite <- app_op_scale. f_equal.
      rewrite <- (axes_op_far (app_op (OApp1 (bM ax) q'))) by (intros; apply app1_comm; intros ->; tauto).
      rewrite !app1_app1. rewrite <- (app1_scale _ _ _ _ _ (bM_Z ax)). rewrite mmul_assoc. auto.
Qed.
(** ** The flat form written by the code *)
Lemma pairwise_snoc l a b : pairwise (l ++ [a; b]) = pairwise (l ++ [a]) ++ [(a, b)].
Proof.
  induction l as [|x l IH]; auto. destruct l as [|y l]; auto. cbn [app pairwise] in *. f_equal. exact IH.
Qed.
Section Flat.
Variables (ax : nat -> axis) (a : R).
Definition fwd (qs : list nat) := flat_map (fun p => basis (ax (snd p)) (snd p) ++ [ICNOT (snd p) (fst p)]) (pairwise qs).
Definition bwd (qs : list nat) := flat_map (fun p => ICNOT (fst p) (snd p) :: basis (ax (fst p)) (fst p)) (pairwise (rev qs)).
Lemma flat_lad l : forall q, (forall e, In e l -> ax (fst e) = snd e) ->
  fwd (q :: dkeys l) ++ [IRZ (last (q :: dkeys l) 0%nat) a] ++ bwd (q :: dkeys l) = lad q l a.
Proof.
  induction l as [|[q' x] l IH]; intros q H; [reflexivity|]. 
  assert (Hx : ax q' = x) by (apply (H (q', x)); simpl; auto). cbn [dkeys map fst lad]. fold (dkeys l).
  rewrite <- (IH q') by (intros; apply H; simpl; auto). unfold fwd, bwd.
  change (pairwise (q :: q' :: dkeys l)) with ((q, q') :: pairwise (q' :: dkeys l)). cbn [flat_map fst snd]. rewrite Hx.
  change (last (q :: q' :: dkeys l) 0%nat) with (last (q' :: dkeys l) 0%nat).
  cbn [rev]. rewrite <- (app_assoc (rev (dkeys l)) [q'] [q]). cbn [app]. rewrite pairwise_snoc, flat_map_app. cbn [flat_map fst snd]. rewrite Hx.
  rewrite !app_nil_r, <- !app_assoc. reflexivity.
Qed.
End Flat.
Lemma axes_rot a l e psi : True -> rotn a (axes_op [(l, e)]) psi = rotn a (app_op (OApp1 (axis_mat e) l)) psi.
Proof. intros _. apply rotn_ext. intros p. reflexivity. Qed.
Lemma full_lad a q x l : NoDup (q :: dkeys l) -> exists c, phase c /\ forall psi,
  gates (basis x q ++ lad q l a ++ basis x q) psi = cscale c (rotn a (axes_op ((q, x) :: l)) psi).
Proof.
  intros ND. destruct (lad_sem a l q ND) as (c & Hc & E). inversion ND; subst. exists (c * bph x). split.
  { apply phase_mul; auto. destruct x; [apply phase_1| |apply phase_1]. unfold phase, Cnorm2. cbn. ring. }
  intros psi. rewrite !gates_app, !basis_gates, E, app_op_scale, <- cscale_cscale. f_equal.
  apply (rotn_conj a (app_op (OApp1 (bM x) q)) (fun p => app_op (OApp1 mZ q) (axes_op l p)) (app_op (OApp1 (bM x) q)) (bph x)).
  - apply linear_app1.
  - intros p. rewrite app1_app1, bM_sq. rewrite (app1_scale _ mid (bph x)) by auto. rewrite app1_mid. auto.
  - intros p. rewrite <- (axes_op_far (app_op (OApp1 (bM x) q))) by (intros; apply app1_comm; intros ->; tauto).
    rewrite !app1_app1. cbn [axes_op fold_right fst snd]. fold (axes_op l p). rewrite <- (app1_scale _ _ _ _ _ (bM_Z x)). rewrite mmul_assoc. auto.
Qed.
Lemma axf_in d e : NoDup (dkeys d) -> In e d -> axf d (fst e) = snd e.
Proof. intros ND H. destruct e as [q x]. unfold axf. cbn [fst snd]. rewrite (In_dget _ _ _ ND H). auto. Qed.
Lemma rotn_sign e psi : rotn (-2 * pe_angle e * sign_R (ps_sign (pe_ps e))) (axes_op (ps_axes (pe_ps e))) psi = pexp_op e psi.
Proof.
  unfold rotn, pexp_op, exp_op, ps_op. set (P := axes_op _ psi). extensionality f. unfold sadd_st, cscale.
  unfold sign_C, sign_R. destruct (ps_sign (pe_ps e)).
  - replace (-2 * pe_angle e * 1 * PI / 2)%R with (- (pe_angle e * PI))%R by field. rewrite cos_neg, sin_neg. apply C_eq; cbn; ring.
  - replace (-2 * pe_angle e * -1 * PI / 2)%R with (pe_angle e * PI)%R by field. apply C_eq; cbn; ring.
Qed.
Lemma phase_cis a : phase (cis a).
Proof. unfold phase, cis, Cnorm2. cbn. pose proof (sin2_cos2 (a * PI)) as H. unfold Rsqr in H. lra. Qed.
Theorem add_pexp_sem e : NoDup (dkeys (ps_axes (pe_ps e))) -> exists c, phase c /\ forall psi, gates (add_pexp e) psi = cscale c (pexp_op e psi).
Proof.
  intros ND. unfold add_pexp. destruct (Req_EM_T (pe_angle e) 0) as [Z|NZ].
  { exists C1. split; [apply phase_1|]. intros psi. rewrite cscale_1. unfold pexp_op, exp_op. rewrite Z, Rmult_0_l, cos_0, sin_0. cbn [gates fold_left].
    extensionality f. unfold sadd_st, cscale. unfold gates. cbn [fold_left]. set (Q := ps_op _ _ _). apply C_eq; cbn; ring. }
  cbv zeta. set (d := ps_axes (pe_ps e)) in *. set (al := (-2 * pe_angle e * sign_R (ps_sign (pe_ps e)))%R).
  assert (RS : forall psi, rotn al (axes_op d) psi = pexp_op e psi) by (intros; apply rotn_sign).
  destruct d as [|[q0 x0] d'] eqn:Ed; cbn [dkeys map fst].
  - (* identity: a global phase *)
    exists (cis (al / 2)). split; [apply phase_cis|]. intros psi. rewrite <- RS. unfold gates. cbn [fold_left].
    extensionality f. unfold rotn, sadd_st, cscale. cbn [axes_op fold_right]. rewrite cis_hf.
    pose proof (sin2_cos2 (al * PI / 2)) as H. unfold Rsqr in H. set (c := cos _) in *. set (s := sin _) in *.
    replace (mkC c s * (RtoC c * psi f + - Ci * RtoC s * psi f)) with (RtoC (s * s + c * c) * psi f) by (apply C_eq; cbn; ring).
    rewrite H. apply C_eq; cbn; ring.
  - fold (dkeys d'). assert (HA : axf ((q0, x0) :: d') q0 = x0) by (apply (axf_in _ (q0, x0)); simpl; auto).
    destruct d' as [|e1 d''] eqn:Ed'.
    + cbn [dkeys map]. rewrite HA. exists C1. split; [apply phase_1|]. intros psi. rewrite cscale_1, gates_one, gate_rot, <- RS. reflexivity.
    + rewrite <- Ed' in *.
      assert (EQ : match dkeys d' with [] => [rot q0 (axf ((q0, x0) :: d') q0) al] | _ :: _ =>
         basis (axf ((q0, x0) :: d') q0) q0 ++ flat_map (fun p => basis (axf ((q0, x0) :: d') (snd p)) (snd p) ++ [ICNOT (snd p) (fst p)]) (pairwise (q0 :: dkeys d'))
          ++ [IRZ (last (q0 :: dkeys d') 0%nat) al] ++ flat_map (fun p => ICNOT (fst p) (snd p) :: basis (axf ((q0, x0) :: d') (fst p)) (fst p)) (pairwise (rev (q0 :: dkeys d')))
          ++ basis (axf ((q0, x0) :: d') q0) q0 end = basis x0 q0 ++ lad q0 d' al ++ basis x0 q0).
      { assert (dkeys d' <> []) by (rewrite Ed'; discriminate). destruct (dkeys d') as [|k ks] eqn:EK; [congruence|]. rewrite <- EK in *. rewrite HA. f_equal.
        rewrite <- (flat_lad (axf ((q0, x0) :: d')) al d' q0). 2:{ intros e' He'. apply axf_in; auto. simpl; auto. }
        unfold fwd, bwd. rewrite <- !app_assoc. auto. }
      rewrite EQ. destruct (full_lad al q0 x0 d') as (c & Hc & E); [exact ND|]. exists c. split; auto. intros psi. rewrite E, RS. auto.
Qed.
(** ** The whole DAG *)
Definition dag_ops (it : nset -> list nat) (dag : pdag) : list pexp := flat_map (fun v => match dget (pd_exp dag) v with Some e => [e] | None => [] end) (dag_order it dag).
(** the exponentials one after the other *)
Definition exps (l : list pexp) (psi : state) : state := fold_left (fun p e => pexp_op e p) l psi.
Lemma pexp_op_scale e c psi : pexp_op e (cscale c psi) = cscale c (pexp_op e psi).
Proof. unfold pexp_op, exp_op, ps_op. rewrite axes_op_scale. extensionality f. unfold sadd_st, cscale. ring. Qed.
Lemma exps_scale l : forall c psi, exps l (cscale c psi) = cscale c (exps l psi).
Proof. induction l as [|e l IH]; intros c psi; auto. unfold exps in *. cbn [fold_left]. rewrite pexp_op_scale. apply IH. Qed.
Lemma ladder_list es : (forall e, In e es -> NoDup (dkeys (ps_axes (pe_ps e)))) -> exists c, phase c /\ forall psi, gates (concat (map add_pexp es)) psi = cscale c (exps es psi).
Proof.
  induction es as [|e es IH]; intros H.
  - exists C1. split; [apply phase_1|]. intros. rewrite cscale_1. auto.
  - destruct IH as (c & Hc & E). { intros. apply H. simpl; auto. } destruct (add_pexp_sem e) as (c' & Hc' & E'). { apply H. simpl; auto. }
    exists (c' * c). split; [apply phase_mul; auto|]. intros psi. cbn [map concat]. rewrite gates_app, E', gates_scale, E, cscale_cscale. auto.
Qed.
Lemma ladder_instrs_spec it dag : (forall v, In v (dag_order it dag) -> dget (pd_exp dag) v <> None) -> ladder_instrs it dag = Ok (concat (map add_pexp (dag_ops it dag))).
Proof.
  unfold ladder_instrs, dag_ops. generalize (dag_order it dag). induction l as [|v l IH]; intros H; auto. cbn [rmap flat_map].
  specialize (IH ltac:(intros; apply H; simpl; auto)). destruct (dget (pd_exp dag) v) eqn:E; [|exfalso; apply (H v); simpl; auto]. cbn [rbind].
  destruct (rmap _ l) eqn:E2; [|discriminate]. cbn [rbind] in *. injection IH as IH. rewrite map_app, concat_app, <- IH. cbn [map concat]. rewrite app_nil_r. reflexivity.
Qed.
Lemma basis_ok n a q i : (q < n)%nat -> In i (basis a q) -> instr_ok n i.
Proof. intros Hq. destruct a; simpl; intuition; subst; (split; [auto|]; split; [apply nodup1|]; intros j [<-|[]]; auto). Qed.
Lemma pairwise_in l p : In p (pairwise l) -> In (fst p) l /\ In (snd p) l.
Proof.
  induction l as [|a l IH]; [simpl; tauto|]. destruct l as [|b l]; [simpl; tauto|]. change (pairwise (a :: b :: l)) with ((a, b) :: pairwise (b :: l)).
  intros [<-|H]; [simpl; auto|]. apply IH in H. simpl in *. tauto.
Qed.
Lemma pairwise_neq l p : NoDup l -> In p (pairwise l) -> fst p <> snd p.
Proof.
  induction l as [|a l IH]; [simpl; tauto|]. destruct l as [|b l]; [simpl; tauto|]. change (pairwise (a :: b :: l)) with ((a, b) :: pairwise (b :: l)).
  intros ND. inversion ND as [|? ? N1 N2]; subst. intros [<-|H]; [simpl in *; intros ->; tauto|]. apply IH; auto.
Qed.
Lemma add_pexp_ok n e : ps_ok (pe_ps e) -> ps_dim (pe_ps e) = n -> forall i, In i (add_pexp e) -> instr_ok n i.
Proof.
  intros [ND LT] D i. unfold add_pexp. destruct (Req_EM_T (pe_angle e) 0); [simpl; tauto|]. cbv zeta. rewrite D in LT. set (d := ps_axes (pe_ps e)) in *.
  assert (G1 : forall p, In p (pairwise (dkeys d)) -> (fst p < n)%nat /\ (snd p < n)%nat /\ fst p <> snd p).
  { intros p Hp. pose proof (pairwise_in _ _ Hp). pose proof (pairwise_neq _ _ ND Hp). intuition. }
  assert (G2 : forall p, In p (pairwise (rev (dkeys d))) -> (fst p < n)%nat /\ (snd p < n)%nat /\ fst p <> snd p).
  { intros p Hp. pose proof (pairwise_in _ _ Hp) as [A B]. apply in_rev in A, B. assert (NR : NoDup (rev (dkeys d))) by (apply NoDup_rev; auto). pose proof (pairwise_neq _ _ NR Hp). intuition. }
  assert (CN : forall u v, (u < n)%nat -> (v < n)%nat -> u <> v -> instr_ok n (ICNOT u v)).
  { intros u v Hu Hv N. split; [auto|]. split; [apply nodup2; auto|]. intros j [<-|[<-|[]]]; auto. }
  destruct (dkeys d) as [|q0 [|q1 qs]] eqn:EK; [simpl; tauto| |].
  - assert (q0 < n)%nat by (apply LT; simpl; auto). intros [<-|[]]. destruct (axf d q0); (split; [auto|]; split; [apply nodup1|]; intros j [<-|[]]; auto).
  - assert (Q0 : (q0 < n)%nat) by (apply LT; simpl; auto). rewrite !in_app_iff, !in_flat_map.
    intros [H|[(p & P & H)|[[<-|[]]|[(p & P & H)|H]]]].
    + apply (basis_ok n _ _ i Q0 H).
    + destruct (G1 p P) as (A & B & N). apply in_app_iff in H. destruct H as [H|[<-|[]]]; [apply (basis_ok n _ _ i B H)|]. apply CN; auto.
    + split; [auto|]; split; [apply nodup1|]; intros j [<-|[]]. apply LT. destruct (exists_last (l := q0 :: q1 :: qs)) as (l' & z & E); [discriminate|]. rewrite E, last_last. apply in_or_app. simpl. auto.
    + destruct (G2 p P) as (A & B & N). destruct H as [<-|H]; [apply CN; auto|]. apply (basis_ok n _ _ i A H).
    + apply (basis_ok n _ _ i Q0 H).
Qed.
Lemma circ_extend_ok n l : (forall i, In i l -> instr_ok n i) -> forall c, c_width c = n -> c_active c = of_list (range n) ->
  circ_extend c l = Ok (Circ n (c_instr c ++ l) (of_list (range n))).
Proof.
  intros H. unfold circ_extend. induction l as [|i l IH]; intros c W A.
  - cbn. destruct c; cbn in *. subst. rewrite app_nil_r. auto.
  - destruct (H i) as (M & ND & LT); [simpl; auto|]. cbn [rfold]. unfold circ_add at 1. 
    assert (add_ok (c_active c) i = true) as ->.
    { unfold add_ok. apply andb_true_intro. split.
      - apply forallb_forall. intros q Hq. rewrite A. apply mem_of_list. apply in_seq. specialize (LT q Hq). lia.
      - destruct i; auto; apply ndb_spec; auto. }
    rewrite IH.
    + cbn [c_instr c_width c_active]. rewrite <- app_assoc. auto.
    + intros. apply H. simpl; auto.
    + auto.
    + cbn [c_active]. destruct i; auto. discriminate.
Qed.
