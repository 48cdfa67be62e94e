(** Focused flows: specification, and model of PauliFlow.is_focused. *)
From Coq Require Import Reals Arith List Bool Lia.
From Verif Require Import NSet Fundamentals Measure Pattern OpenGraph FlowSpec Flow FlowWF.
Import ListNotations.

(** * Specification (Simmons 2021, definition 4.3) *)
Record focused (og : opengraph) (cf : dict nset) : Prop := {
  fo_1 : forall i s j l, dget cf i = Some s -> i <> j -> labelled og j l -> mem j s = true -> l = LPlane PXY \/ l = LAxis AX \/ l = LAxis AY;
  fo_2 : forall i s j l, dget cf i = Some s -> i <> j -> labelled og j l -> odd_nb (og_graph og) s j -> l = LPlane PXZ \/ l = LPlane PYZ \/ l = LAxis AY \/ l = LAxis AZ;
  fo_3 : forall i s j, dget cf i = Some s -> i <> j -> labelled og j (LAxis AY) -> (mem j s = true <-> odd_nb (og_graph og) s j) }.

(** * The model *)
Definition lab_f1 (l : label) : bool := match l with LPlane PXY | LAxis AX | LAxis AY => true | _ => false end.
Definition lab_f2 (l : label) : bool := match l with LPlane PXZ | LPlane PYZ | LAxis AY | LAxis AZ => true | _ => false end.
Definition lab_Y (l : label) : bool := match l with LAxis AY => true | _ => false end.
(** flow/core.py:934-941 the tests for one other measured node *)
Definition focused_at (s odd : nset) (j : nat) (l : label) : bool :=
  negb (mem j s && negb (lab_f1 l)) && negb (mem j odd && negb (lab_f2 l)) && negb (lab_Y l && mem j (sxor odd s)).
(** flow/core.py:914-943 is_focused.  [odd_neighbors] may raise; the loop order
    over [oc_set - {corrected_node}] does not matter for the boolean result *)
Definition is_focused (f : pflow) : res bool :=
  let og := pf_og f in
  rfold (fun acc p =>
    if negb acc then Ok false else
    do odd <- og_odd og (snd p);
    Ok (forallb (fun e => (fst e =? fst p)%nat || focused_at (snd p) odd (fst e) (mlabel (snd e))) (og_meas og)))
    (pf_cf f) true.

(** * Correctness *)
Lemma focused_at_spec og s j l odd : (forall v, mem v odd = true <-> odd_nb (og_graph og) s v) ->
  focused_at s odd j l = true <->
  (mem j s = true -> l = LPlane PXY \/ l = LAxis AX \/ l = LAxis AY) /\
  (odd_nb (og_graph og) s j -> l = LPlane PXZ \/ l = LPlane PYZ \/ l = LAxis AY \/ l = LAxis AZ) /\
  (l = LAxis AY -> (mem j s = true <-> odd_nb (og_graph og) s j)).
Proof.
  intros HO. rewrite <- (HO j). unfold focused_at. rewrite mem_sxor.
  destruct (mem j s), (mem j odd), l as [[]|[]]; cbn; split; intros H; try discriminate; auto; try (repeat split; intros; auto; try discriminate; tauto);
    destruct H as (A & B & C); try (destruct (A eq_refl) as [?|[?|?]]; discriminate); try (destruct (B eq_refl) as [?|[?|[?|?]]]; discriminate); try (specialize (C eq_refl); intuition discriminate).
Qed.
Lemma is_focused_gen og l b : NoDup (dkeys (og_meas og)) -> (forall p, In p l -> forall n, mem n (snd p) = true -> In n (g_nodes (og_graph og))) ->
  exists r, rfold (fun acc p =>
    if negb acc then Ok false else
    do odd <- og_odd og (snd p);
    Ok (forallb (fun e => (fst e =? fst p)%nat || focused_at (snd p) odd (fst e) (mlabel (snd e))) (og_meas og))) l b = Ok r /\
  (r = true <-> b = true /\ forall p, In p l -> forall j lb, fst p <> j -> labelled og j lb ->
     (mem j (snd p) = true -> lb = LPlane PXY \/ lb = LAxis AX \/ lb = LAxis AY) /\
     (odd_nb (og_graph og) (snd p) j -> lb = LPlane PXZ \/ lb = LPlane PYZ \/ lb = LAxis AY \/ lb = LAxis AZ) /\
     (lb = LAxis AY -> (mem j (snd p) = true <-> odd_nb (og_graph og) (snd p) j))).
Proof.
  intros HN. revert b. induction l as [|p l IH]; intros b H; cbn [rfold].
  - exists b. split; auto. split; [intros ->; split; [auto|intros p []]|tauto].
  - destruct b; cbn [negb].
    + destruct (og_odd_nb og (snd p)) as (odd & Eo & Ho); [apply H; left; auto|]. rewrite Eo. cbn [rbind].
      set (b1 := forallb _ (og_meas og)). destruct (IH b1) as (r & E & K); [intros q Hq; apply H; right; auto|]. exists r. split; auto. rewrite K. clear K E IH.
      assert (B : b1 = true <-> forall j lb, fst p <> j -> labelled og j lb ->
        (mem j (snd p) = true -> lb = LPlane PXY \/ lb = LAxis AX \/ lb = LAxis AY) /\
        (odd_nb (og_graph og) (snd p) j -> lb = LPlane PXZ \/ lb = LPlane PYZ \/ lb = LAxis AY \/ lb = LAxis AZ) /\
        (lb = LAxis AY -> (mem j (snd p) = true <-> odd_nb (og_graph og) (snd p) j))).
      { unfold b1. rewrite forallb_forall. split.
        - intros F j lb Hj (me & Em & <-). apply (focused_at_spec og (snd p) j (mlabel me) odd Ho). assert (X := F (j, me) (dget_In _ _ _ Em)). cbn [fst snd] in X.
          apply orb_true_iff in X. destruct X as [X|X]; auto. apply Nat.eqb_eq in X. congruence.
        - intros F [j me] I. cbn [fst snd]. destruct (Nat.eqb_spec j (fst p)); auto. cbn [orb]. apply (focused_at_spec og (snd p) j (mlabel me) odd Ho).
          apply F; auto. exists me. split; auto. apply In_dget; auto. }
      rewrite B. split.
      * intros (X & Y). split; auto. intros q [<-|Hq]; auto.
      * intros (_ & Y). split; [apply (Y p); left; auto|]. intros q Hq. apply Y; right; auto.
    + destruct (IH false) as (r & E & K); [intros q Hq; apply H; right; auto|]. exists r. split; auto. rewrite K. split; intros [? _]; discriminate.
Qed.
Lemma is_focused_decides f : NoDup (dkeys (og_meas (pf_og f))) -> NoDup (dkeys (pf_cf f)) -> (forall i s n, dget (pf_cf f) i = Some s -> mem n s = true -> In n (g_nodes (og_graph (pf_og f)))) ->
  (is_focused f = Ok true /\ focused (pf_og f) (pf_cf f)) \/ (is_focused f = Ok false /\ ~ focused (pf_og f) (pf_cf f)).
Proof.
  intros H1 H2 H3. destruct (is_focused_gen (pf_og f) (pf_cf f) true H1) as (r & E & K).
  { intros [i s] I n. cbn [snd]. apply (H3 i). apply In_dget; auto. }
  unfold is_focused. cbv zeta. rewrite E.
  assert (X : r = true <-> focused (pf_og f) (pf_cf f)).
  { rewrite K. split.
    - intros (_ & F). assert (G : forall i s, dget (pf_cf f) i = Some s -> In (i, s) (pf_cf f)) by (intros; apply dget_In; auto).
      split; intros i s j; [intros l|intros l|]; intros Hs Hj L; specialize (F (i, s) (G _ _ Hs) j _ Hj L); cbn [snd] in F; tauto.
    - intros [F1 F2 F3]. split; auto. intros [i s] I j lb Hj L. cbn [fst snd] in *. assert (Hs : dget (pf_cf f) i = Some s) by (apply In_dget; auto).
      split; [intros; eapply F1; eauto|]. split; [intros; eapply F2; eauto|]. intros ->. eapply F3; eauto. }
  destruct r; [left|right]; split; auto; [apply X; auto|]. intros F. apply X in F. discriminate.
Qed.
