(** Property theorems: affine parameter expressions (C26). *)
From Coq Require Import Reals Lra List Bool Arith.
From Verif Require Import NSet Param.
Import ListNotations.
Open Scope R_scope.

(** The full property is false: (x + 1) - x is computed as 0. *)
Theorem C26_refuted : exists e v rho, acomp e = POk v /\ denote rho v <> aeval rho e.
Proof.
  exists (ASub (AAdd (APar 0) (ANum 1)) (APar 0)), (VNum 0), (fun _ => 0).
  split; [|simpl; lra]. cbn [acomp pbind2 placeholder vadd vsub vneg offset scale_non_null Nat.eqb].
  assert (is0 (1 + -1 * 1) = true) as -> by (apply is0_spec; ring). reflexivity.
Qed.
Print Assumptions C26_refuted.

(** It holds for every arithmetic expression none of whose additions or
    subtractions cancels the parameter while leaving a non-zero constant. *)
Theorem C26_arithmetic_partial : forall e v, acomp e = POk v -> no_cancel e -> forall rho, denote rho v = aeval rho e.
Proof.
  induction e as [r|x|e IHe f IHf|e IHe f IHf|e IHe f IHf|e IHe f IHf|e IHe]; intros v H NC rho; cbn [acomp aeval] in *.
  - injection H as <-. reflexivity.
  - injection H as <-. simpl. ring.
  - destruct NC as (N1 & N2 & N3). destruct (acomp e) as [v1|], (acomp f) as [v2|]; try discriminate H.
    rewrite <- (IHe v1), <- (IHf v2) by auto. apply vadd_denote; auto.
  - destruct NC as (N1 & N2 & N3). destruct (acomp e) as [v1|], (acomp f) as [v2|]; try discriminate H.
    rewrite <- (IHe v1), <- (IHf v2) by auto. apply vsub_denote; auto.
  - destruct NC as (N1 & N2). destruct (acomp e) as [v1|], (acomp f) as [v2|]; try discriminate H.
    rewrite <- (IHe v1), <- (IHf v2) by auto. apply vmul_denote; auto.
  - destruct NC as (N1 & N2). destruct (acomp e) as [v1|], (acomp f) as [v2|]; try discriminate H.
    rewrite <- (IHe v1), <- (IHf v2) by auto. apply vdiv_denote; auto.
  - destruct (acomp e) as [v1|]; [|discriminate H]. injection H as <-. rewrite <- (IHe v1) by auto. apply vneg_denote.
Qed.
Print Assumptions C26_arithmetic_partial.

(** and the exception is exact: an addition is wrong only in that case *)
Theorem C26_add_exact : forall v w u, vadd v w = POk u ->
  ((forall rho, denote rho u = denote rho v + denote rho w) <-> ~ cancels v w).
Proof.
  intros v w u H. split; [|intros NC rho; apply vadd_denote; auto].
  intros HD HC. destruct v as [r|a x b], w as [s|a' x' b']; simpl in HC; try tauto. destruct HC as (-> & HA & HB).
  cbn [vadd] in H. rewrite Nat.eqb_refl, (proj2 (is0_spec _) HA) in H. injection H as <-.
  specialize (HD (fun _ => 0)). simpl in HD. lra.
Qed.
Print Assumptions C26_add_exact.

(** substitution of a number or an expression for one parameter *)
Theorem C26_with_parameter : forall v x s u, with_parameter v x s = POk u ->
  forall rho, denote rho u = denote (fun y => if (x =? y)%nat then denote rho s else rho y) v.
Proof.
  intros [r|a y b] x s u H rho; cbn [with_parameter] in H; [injection H as <-; reflexivity|].
  simpl. destruct (Nat.eqb_spec x y); [apply evaluate_denote; auto|injection H as <-; reflexivity].
Qed.
Print Assumptions C26_with_parameter.
(** parallel substitution *)
Theorem C26_with_parameters : forall v asg u, with_parameters v asg = POk u ->
  forall rho, denote rho u = denote (fun y => match dget asg y with Some s => denote rho s | None => rho y end) v.
Proof.
  intros [r|a y b] asg u H rho; cbn [with_parameters] in H; [injection H as <-; reflexivity|].
  simpl. destruct (dget asg y); [apply evaluate_denote; auto|injection H as <-; reflexivity].
Qed.
Print Assumptions C26_with_parameters.
(** substitution never fails *)
Theorem C26_substitution_total : forall v x s asg, (exists u, with_parameter v x s = POk u) /\ (exists u, with_parameters v asg = POk u).
Proof.
  assert (E : forall a b s, exists u, evaluate a b s = POk u).
  { intros a b [r|a' x b']; cbn [evaluate vmul]; eauto. unfold scale. destruct (is0 a); simpl; eauto. }
  intros [r|a y b] x s asg; split; cbn [with_parameter with_parameters]; eauto.
  - destruct (x =? y)%nat; eauto.
  - destruct (dget asg y); eauto.
Qed.
Print Assumptions C26_substitution_total.
(** arithmetic then substitution of numbers for all parameters = arithmetic on
    the numbers *)
Theorem C26_subst_commutes_partial : forall e v vals, acomp e = POk v -> no_cancel e ->
  (forall x, In x (params e) -> exists r, dget vals x = Some (VNum r)) ->
  with_parameters v vals = POk (VNum (aeval (fun x => match dget vals x with Some (VNum r) => r | _ => 0 end) e)).
Proof.
  intros e v vals H NC Hv. rewrite <- (C26_arithmetic_partial e v H NC).
  destruct v as [r|a x b]; [reflexivity|].
  cbn [with_parameters denote]. destruct (Hv x) as [r ->]; [|reflexivity]. apply (acomp_params e _ H). simpl; auto.
Qed.
Print Assumptions C26_subst_commutes_partial.

(** 2*(x/4 - 3) + x is computed as 1.5 x - 6 *)
Example C26_case : exists e v, acomp e = POk v /\ no_cancel e /\ forall r, denote (fun _ => r) v = 3 / 2 * r - 6.
Proof.
  set (e := AAdd (AMul (ANum 2) (ASub (ADiv (APar 0) (ANum 4)) (ANum 3))) (APar 0)).
  assert (N : forall r, r <> 0 -> is0 r = false) by (intros r Hr; destruct (is0 r) eqn:E; auto; apply is0_spec in E; lra).
  assert (H : acomp e = POk (VAff (2 * (1 / 4 * 1) + 1) 0 (2 * (1 / 4 * 0 + - (3)) + 0))).
  { unfold e. cbn [acomp pbind2 placeholder vdiv]. rewrite ?N by lra. cbn [pbind2 vsub]. unfold scale. rewrite ?N by lra.
    cbn [pbind2 vsub vadd scale_non_null offset vmul]. unfold scale. rewrite ?N by lra. cbn [scale_non_null pbind2 vadd placeholder Nat.eqb]. rewrite ?N by lra. reflexivity. }
  exists e, (VAff (2 * (1 / 4 * 1) + 1) 0 (2 * (1 / 4 * 0 + - (3)) + 0)). split; [exact H|]. split.
  - unfold e. cbn [no_cancel acomp pbind2 placeholder vdiv]. rewrite ?N by lra. cbn [pbind2 vsub]. unfold scale. rewrite ?N by lra.
    cbn [pbind2 vsub vadd scale_non_null offset vmul vneg]. unfold scale. rewrite ?N by lra. cbn [scale_non_null cancels]. repeat split; simpl; try tauto; lra.
  - intros r. simpl. field.
Qed.
