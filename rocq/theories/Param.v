(** Model of affine parameter expressions (graphix/parameter.py:146-334).
    Simplification: Python floats are real numbers. *)
From Coq Require Import Reals Lra List Bool Arith.
From Verif Require Import NSet.
Import ListNotations.
Open Scope R_scope.

(** a Python value that can be used as an angle: a number, or an
    [AffineExpression] a*x+b; parameters have identities (parameter.py:325-330:
    two placeholders are equal iff they are the same object), modelled by [nat].
    [Placeholder(name)] is 1*x+0 (parameter.py:298-307). *)
Inductive val := VNum (r : R) | VAff (a : R) (x : nat) (b : R).
Definition placeholder (x : nat) : val := VAff 1 x 0.
Inductive perr := PlaceholderOp | ZeroDiv | TypeErr.
Inductive pres (A : Type) := POk (a : A) | PErr (e : perr).
Arguments POk {A} a. Arguments PErr {A} e.
Definition is0 (r : R) : bool := if Req_EM_T r 0 then true else false.
(** parameter.py:156-158 offset *)
Definition offset (a : R) (x : nat) (b d : R) : val := VAff a x (b + d).
(** parameter.py:160-173 scale_non_null *)
Definition scale_non_null (a : R) (x : nat) (b k : R) : val := VAff (k * a) x (k * b).
(** parameter.py:175-179 scale *)
Definition scale (a : R) (x : nat) (b k : R) : val := if is0 k then VNum 0 else scale_non_null a x b k.
(** number addition, or __add__ (parameter.py:209-214), __radd__ (210-214) *)
Definition vadd (v w : val) : pres val :=
  match v, w with
  | VNum r, VNum s => POk (VNum (r + s))
  | VAff a x b, VNum s => POk (offset a x b s)
  | VNum r, VAff a x b => POk (offset a x b r)
  | VAff a x b, VAff a' x' b' =>
      if (x' =? x)%nat then (if is0 (a + a') then POk (VNum 0) else POk (VAff (a + a') x (b + b')))
      else PErr PlaceholderOp
  end.
(** number negation, or __neg__ (parameter.py:233-235) *)
Definition vneg (v : val) : val :=
  match v with VNum r => VNum (- r) | VAff a x b => scale_non_null a x b (-1) end.
(** number subtraction, or __sub__ (parameter.py:225-230), __rsub__ (226-230) *)
Definition vsub (v w : val) : pres val :=
  match v, w with
  | VNum r, VNum s => POk (VNum (r - s))
  | VAff a x b, VAff a' x' b' => vadd v (vneg w)
  | VAff a x b, VNum s => vadd v (VNum (- s))
  | VNum r, VAff a x b =>
      match scale_non_null a x b (-1) with VAff a' x' b' => POk (offset a' x' b' r) | VNum s => POk (VNum (s + r)) end
  end.
(** number multiplication, or __mul__ / __rmul__ (parameter.py:182-193); the
    product of two expressions is a TypeError *)
Definition vmul (v w : val) : pres val :=
  match v, w with
  | VNum r, VNum s => POk (VNum (r * s))
  | VAff a x b, VNum s => POk (scale a x b s)
  | VNum r, VAff a x b => POk (scale a x b r)
  | VAff _ _ _, VAff _ _ _ => PErr TypeErr
  end.
(** number division, or __truediv__ (parameter.py:238-242) *)
Definition vdiv (v w : val) : pres val :=
  match w with
  | VNum s => if is0 s then PErr ZeroDiv else
      match v with VNum r => POk (VNum (r / s)) | VAff a x b => POk (scale a x b (1 / s)) end
  | VAff _ _ _ => PErr TypeErr
  end.
(** parameter.py:256-260 evaluate: self.a * value + self.b *)
Definition evaluate (a b : R) (v : val) : pres val :=
  match v with
  | VNum r => POk (VNum (a * r + b))
  | _ => match vmul (VNum a) v with POk u => vadd u (VNum b) | PErr e => PErr e end
  end.
(** parameter.py:263-269 with_parameter; numbers are left unchanged
    (parameter.py:385-409, substitution in a non-expression) *)
Definition with_parameter (v : val) (x : nat) (s : val) : pres val :=
  match v with
  | VNum r => POk v
  | VAff a y b => if (x =? y)%nat then evaluate a b s else POk v
  end.
(** parameter.py:272-278 with_parameters *)
Definition with_parameters (v : val) (asg : list (nat * val)) : pres val :=
  match v with
  | VNum r => POk v
  | VAff a y b => match dget asg y with Some s => evaluate a b s | None => POk v end
  end.

(** * Specification: the value denoted under an assignment of reals *)
Definition denote (rho : nat -> R) (v : val) : R :=
  match v with VNum r => r | VAff a x b => a * rho x + b end.
(** arithmetic expressions a user can write *)
Inductive aexp := ANum (r : R) | APar (x : nat) | AAdd (e f : aexp) | ASub (e f : aexp) | AMul (e f : aexp)
  | ADiv (e f : aexp) | ANeg (e : aexp).
Fixpoint aeval (rho : nat -> R) (e : aexp) : R :=
  match e with
  | ANum r => r | APar x => rho x
  | AAdd e f => aeval rho e + aeval rho f | ASub e f => aeval rho e - aeval rho f
  | AMul e f => aeval rho e * aeval rho f | ADiv e f => aeval rho e / aeval rho f
  | ANeg e => - aeval rho e
  end.
Definition pbind2 (f : val -> val -> pres val) (v w : pres val) : pres val :=
  match v, w with POk v, POk w => f v w | PErr e, _ => PErr e | _, PErr e => PErr e end.
(** what Python computes for it *)
Fixpoint acomp (e : aexp) : pres val :=
  match e with
  | ANum r => POk (VNum r) | APar x => POk (placeholder x)
  | AAdd e f => pbind2 vadd (acomp e) (acomp f) | ASub e f => pbind2 vsub (acomp e) (acomp f)
  | AMul e f => pbind2 vmul (acomp e) (acomp f) | ADiv e f => pbind2 vdiv (acomp e) (acomp f)
  | ANeg e => match acomp e with POk v => POk (vneg v) | PErr e => PErr e end
  end.
(** two expressions in the same parameter whose coefficients cancel while their
    constants do not *)
Definition cancels (v w : val) : Prop :=
  match v, w with VAff a x b, VAff a' x' b' => x = x' /\ a + a' = 0 /\ b + b' <> 0 | _, _ => False end.
Fixpoint no_cancel (e : aexp) : Prop :=
  match e with
  | ANum _ | APar _ => True
  | AAdd e f => no_cancel e /\ no_cancel f /\
      match acomp e, acomp f with POk v, POk w => ~ cancels v w | _, _ => True end
  | ASub e f => no_cancel e /\ no_cancel f /\
      match acomp e, acomp f with POk v, POk w => ~ cancels v (vneg w) | _, _ => True end
  | AMul e f | ADiv e f => no_cancel e /\ no_cancel f
  | ANeg e => no_cancel e
  end.

(** the parameters occurring in an expression *)
Fixpoint params (e : aexp) : list nat :=
  match e with
  | ANum _ => [] | APar x => [x]
  | AAdd e f | ASub e f | AMul e f | ADiv e f => params e ++ params f
  | ANeg e => params e
  end.

Lemma is0_spec r : is0 r = true <-> r = 0.
Proof. unfold is0. destruct (Req_EM_T r 0); split; auto; discriminate. Qed.
Lemma scale_denote rho a x b k : denote rho (scale a x b k) = k * (a * rho x + b).
Proof.
  unfold scale. destruct (is0 k) eqn:E; simpl; [apply is0_spec in E; subst|]; ring.
Qed.
Lemma vneg_denote rho v : denote rho (vneg v) = - denote rho v.
Proof. destruct v; simpl; ring. Qed.
Lemma vadd_denote rho v w u : vadd v w = POk u -> ~ cancels v w -> denote rho u = denote rho v + denote rho w.
Proof.
  destruct v as [r|a x b], w as [s|a' x' b']; cbn [vadd]; intros H NC; try (injection H as <-; simpl; ring).
  destruct (Nat.eqb_spec x' x); [subst|discriminate]. destruct (is0 (a + a')) eqn:E; injection H as <-; simpl; [|ring].
  apply is0_spec in E. simpl in NC. destruct (Req_EM_T (b + b') 0); [|tauto].
  replace a' with (- a) by lra. lra.
Qed.
Lemma vsub_denote rho v w u : vsub v w = POk u -> ~ cancels v (vneg w) -> denote rho u = denote rho v - denote rho w.
Proof.
  destruct v as [r|a x b], w as [s|a' x' b']; intros H NC; try (injection H as <-; simpl; ring).
  change (vadd (VAff a x b) (vneg (VAff a' x' b')) = POk u) in H.
  rewrite (vadd_denote rho _ _ _ H NC), vneg_denote. ring.
Qed.
Lemma vmul_denote rho v w u : vmul v w = POk u -> denote rho u = denote rho v * denote rho w.
Proof.
  destruct v as [r|a x b], w as [s|a' x' b']; cbn [vmul]; intros H; try discriminate H; injection H as <-;
    rewrite ?scale_denote; simpl; ring.
Qed.
Lemma vdiv_denote rho v w u : vdiv v w = POk u -> denote rho w <> 0 /\ denote rho u = denote rho v / denote rho w.
Proof.
  destruct w as [s|]; cbn [vdiv]; [|discriminate]. destruct (is0 s) eqn:E; [discriminate|].
  assert (s <> 0) by (intros ->; destruct (proj2 (is0_spec 0) eq_refl); rewrite (proj2 (is0_spec 0) eq_refl) in E; discriminate).
  destruct v as [r|a x b]; intros H'; injection H' as <-; rewrite ?scale_denote; simpl; split; auto; field; auto.
Qed.
Lemma evaluate_denote rho a b v u : evaluate a b v = POk u -> denote rho u = a * denote rho v + b.
Proof.
  destruct v as [r|a' x b']; cbn [evaluate]; intros H; [injection H as <-; reflexivity|].
  destruct (vmul (VNum a) (VAff a' x b')) as [w|] eqn:E; [|discriminate].
  apply (vmul_denote rho) in E. apply (vadd_denote rho) in H; [|destruct w; simpl; tauto]. rewrite H, E. reflexivity.
Qed.
Definition vparam (v : val) : list nat := match v with VNum _ => [] | VAff _ x _ => [x] end.
Lemma op_params (f : val -> val -> pres val) v w u : f = vadd \/ f = vsub \/ f = vmul \/ f = vdiv ->
  f v w = POk u -> incl (vparam u) (vparam v ++ vparam w).
Proof.
  intros HF H x Hx. destruct HF as [->|[->|[->| ->]]]; destruct v as [r|a y b], w as [s|a' y' b']; simpl in H; try discriminate H;
    unfold scale, scale_non_null, offset in H; repeat match goal with
    | H : context [if ?c then _ else _] |- _ => destruct c eqn:?; try discriminate H end; injection H as <-; simpl in *; try tauto.
Qed.
Lemma acomp_params e v : acomp e = POk v -> incl (vparam v) (params e).
Proof.
  revert v; induction e as [r|x|e IHe f IHf|e IHe f IHf|e IHe f IHf|e IHe f IHf|e IHe]; intros v H; cbn [acomp params] in *.
  1,2: injection H as <-; simpl; intros y Hy; simpl in *; tauto.
  1-4: destruct (acomp e) as [v1|], (acomp f) as [v2|]; try discriminate H; cbn [pbind2] in H; intros y Hy;
    eapply op_params in Hy; [|clear Hy|exact H]; [|tauto]; apply in_app_or in Hy; apply in_or_app; destruct Hy as [K|K];
    [left; eapply IHe|right; eapply IHf]; eauto.
  destruct (acomp e) as [v1|]; [|discriminate H]. injection H as <-. destruct v1; simpl; [|apply (IHe _ eq_refl)]; intros y [].
Qed.
