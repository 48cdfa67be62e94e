(** Determinism of measurement sequences whose corrections come from a flow
    (general form, for C18). *)
From Coq Require Import Reals Lra Arith List Bool Lia Permutation FunctionalExtensionality Setoid Morphisms.
From Verif Require Import Cplx Mat2 NSet QState Fundamentals CliffordDb Clifford Measure Layer Pattern Standardize FlowSem.
Import ListNotations.

Section Det.
Context (meas : nat -> measurement) (xc zc : nat -> list nat).
(** flow/core.py:195-202 the loop of to_pattern over measured nodes *)
Definition corr_cmds (u : nat) : list cmd := map (fun v => CZ v (sing u)) (zc u) ++ map (fun v => CX v (sing u)) (xc u).
Definition flow_seq (ms : list nat) : list cmd := flat_map (fun u => CM u (meas u) sempty sempty :: corr_cmds u) ms.

Definition targets_ok (u : nat) (done : list nat) : Prop := forall v, In v (xc u) \/ In v (zc u) -> ~ In v done.
(** no correction targets a node already measured *)
Fixpoint ord_ok (done ms : list nat) : Prop :=
  match ms with [] => True | u :: b => targets_ok u (u :: done) /\ ord_ok (u :: done) b end.

Lemma ord_ok_in done ms : ord_ok done ms -> forall w, In w ms -> targets_ok w done.
Proof.
  revert done. induction ms as [|u ms IH]; intros done; cbn; [tauto|]. intros [H1 H2] w [->|Hw].
  - intros v Hv K. apply (H1 v Hv). right; auto.
  - intros v Hv K. apply (IH _ H2 w Hw v Hv). right; auto.
Qed.

Lemma corr_player o u L : NoDup L -> NoDup (xc u) -> NoDup (zc u) -> (forall v, In v (xc u) \/ In v (zc u) -> In v L) ->
  seq_ops o (corr_cmds u) ≈ player L (fun v => o u && lmem v (xc u)) (fun v => o u && lmem v (zc u)).
Proof.
  intros NL NX NZ HL. unfold corr_cmds. rewrite seq_ops_app.
  assert (Z : forall l, NoDup l -> (forall v, In v l -> In v L) ->
    seq_ops o (map (fun v => CZ v (sing u)) l) ≈ layer L (fun v => mpow mZ (o u && lmem v l))).
  { intros l Nl Hl. transitivity (layer l (fun v => mpow mZ (o u && lmem v l))).
    - assert (E : layer l (fun v => mpow mZ (o u && lmem v l)) = layer l (fun _ => mpow mZ (o u))).
      { apply layer_eq. intros n Hn. apply lmem_In in Hn. rewrite Hn, andb_true_r. auto. }
      rewrite E. clear. induction l as [|x l IH]; [reflexivity|]. cbn [map seq_ops flat_map cmd_ops layer]. fold (seq_ops o (map (fun v => CZ v (sing u)) l)).
      fold (layer l (fun _ => mpow mZ (o u))). rewrite IH, parity_sing. destruct (o u); cbn [app mpow]; [reflexivity|].
      symmetry. apply (leq_app_r [OApp1 mid x] []). apply app1_id.
    - apply layer_weaken; auto. intros n _ Hn. destruct (lmem n l) eqn:K; [apply lmem_In in K; tauto|]. rewrite andb_false_r. auto. }
  assert (X : forall l, NoDup l -> (forall v, In v l -> In v L) ->
    seq_ops o (map (fun v => CX v (sing u)) l) ≈ layer L (fun v => mpow mX (o u && lmem v l))).
  { intros l Nl Hl. transitivity (layer l (fun v => mpow mX (o u && lmem v l))).
    - assert (E : layer l (fun v => mpow mX (o u && lmem v l)) = layer l (fun _ => mpow mX (o u))).
      { apply layer_eq. intros n Hn. apply lmem_In in Hn. rewrite Hn, andb_true_r. auto. }
      rewrite E. clear. induction l as [|x l IH]; [reflexivity|]. cbn [map seq_ops flat_map cmd_ops layer]. fold (seq_ops o (map (fun v => CX v (sing u)) l)).
      fold (layer l (fun _ => mpow mX (o u))). rewrite IH, parity_sing. destruct (o u); cbn [app mpow]; [reflexivity|].
      symmetry. apply (leq_app_r [OApp1 mid x] []). apply app1_id.
    - apply layer_weaken; auto. intros n _ Hn. destruct (lmem n l) eqn:K; [apply lmem_In in K; tauto|]. rewrite andb_false_r. auto. }
  rewrite Z, X by auto. rewrite layer_fuse by auto. reflexivity.
Qed.

Definition m0 (u : nat) : op := OMeas (mvec (meas u) false) u.
(** exponents accumulated by a measurement sequence in branch [o] *)
Definition accx (o : nat -> bool) (ms : list nat) (v : nat) : bool :=
  fold_right (fun u b => xorb (xorb (o u && lmem v (xc u)) ((v =? u)%nat && o u && sigx (meas u))) b) false ms.
Definition accz (o : nat -> bool) (ms : list nat) (v : nat) : bool :=
  fold_right (fun u b => xorb (xorb (o u && lmem v (zc u)) ((v =? u)%nat && o u && sigz (meas u))) b) false ms.

Lemma app1_player L ex ez n x z : NoDup L -> In n L ->
  player L ex ez ++ [OApp1 (mXZ x z) n] ≈ player L (fun v => xorb (ex v) ((v =? n)%nat && x)) (fun v => xorb (ez v) ((v =? n)%nat && z)).
Proof.
  intros NL Hn. unfold player. rewrite layer_absorb_r by auto. apply layer_ext. intros k _. unfold fupd.
  destruct (Nat.eqb_spec k n); subst; cbn [andb]; [|rewrite !xorb_false_r; apply meqp_refl].
  rewrite (xorb_comm (ex n)), (xorb_comm (ez n)). apply mXZ_mul.
Qed.
Lemma corr_nodes o u p n : In p (seq_ops o (corr_cmds u)) -> In n (onodes p) -> In n (xc u) \/ In n (zc u).
Proof.
  unfold corr_cmds. rewrite seq_ops_app, in_app_iff. intros [H|H]; apply in_flat_map in H; destruct H as (c & H & K);
  apply in_map_iff in H; destruct H as (v & <- & Hv); cbn [cmd_ops] in K; destruct (parity o (sing u)); (destruct K as [<-|[]] || destruct K); cbn [onodes]; intros [<-|[]]; auto.
Qed.

Lemma flow_norm o L ms : NoDup L -> forall done ex ez, NoDup ms -> (forall u, In u ms -> In u L) -> ord_ok done ms ->
  (forall u, In u ms -> NoDup (xc u) /\ NoDup (zc u) /\ forall v, In v (xc u) \/ In v (zc u) -> In v L) ->
  player L ex ez ++ seq_ops o (flow_seq ms) ≈
  player L (fun v => xorb (ex v) (accx o ms v)) (fun v => xorb (ez v) (accz o ms v)) ++ map m0 ms.
Proof.
  intros NL. induction ms as [|u ms IH]; intros done ex ez ND Hin HO HC.
  - cbn. rewrite !app_nil_r. apply leq_eq, player_ext; intros n _; cbn; rewrite xorb_false_r; auto.
  - inversion ND; subst. destruct HO as [HT HO]. destruct (HC u) as (NX & NZ & HL); [left; auto|].
    assert (Eq : seq_ops o (flow_seq (u :: ms)) = [OMeas (mvec (meas u) (o u)) u] ++ seq_ops o (corr_cmds u) ++ seq_ops o (flow_seq ms)).
    { unfold flow_seq. cbn [flat_map]. rewrite seq_ops_app. cbn [app]. change (seq_ops o (CM u (meas u) sempty sempty :: corr_cmds u)) with
        ([OMeas (mvec (describe_measurement o (meas u) sempty sempty) (o u)) u] ++ seq_ops o (corr_cmds u)).
      unfold describe_measurement. rewrite parity_empty. cbn [app]. reflexivity. }
    rewrite Eq, meas_flip. clear Eq. cbn [app]. fold (m0 u).
    (* the corrections of u come before its measurement *)
    assert (C1 : [m0 u] ++ seq_ops o (corr_cmds u) ≈ seq_ops o (corr_cmds u) ++ [m0 u]).
    { apply comm_ll. intros p q [<-|[]] Hq n [<-|[]] Hn. apply (corr_nodes o u q u) in Hn; auto. apply (HT u Hn). left; auto. }
    assert (C2 : [m0 u] ++ seq_ops o (flow_seq ms) ≈ seq_ops o (flow_seq ms) ++ [m0 u]).
    { apply comm_ll. intros p q [<-|[]] Hq n [<-|[]] Hn. unfold seq_ops, flow_seq in Hq. apply in_flat_map in Hq. destruct Hq as (c & Hc & Hq).
      apply in_flat_map in Hc. destruct Hc as (w & Hw & [<-|Hc]).
      - cbn in Hq. destruct Hq as [<-|[]]. destruct Hn as [->|[]]. auto.
      - assert (K : In q (seq_ops o (corr_cmds w))) by (apply in_flat_map; exists c; auto).
        apply (corr_nodes o w q u) in K; auto. apply (ord_ok_in _ _ HO w Hw u K). left; auto. }
    assert (C3 : [m0 u] ++ map m0 ms ≈ map m0 ms ++ [m0 u]).
    { apply comm_ll. intros p q [<-|[]] Hq n [<-|[]] Hn. apply in_map_iff in Hq. destruct Hq as (w & <- & Hw). destruct Hn as [->|[]]. auto. }
    set (ex1 := fun v => xorb (ex v) ((v =? u)%nat && (o u && sigx (meas u)))). set (ez1 := fun v => xorb (ez v) ((v =? u)%nat && (o u && sigz (meas u)))).
    transitivity (player L ex1 ez1 ++ seq_ops o (corr_cmds u) ++ seq_ops o (flow_seq ms) ++ [m0 u]).
    { change (?a :: ?b :: ?l) with ([a] ++ [b] ++ l). rewrite app_assoc, app1_player by (auto; apply Hin; left; auto).
      apply leq_app_l. rewrite app_assoc, C1, <- app_assoc, C2. reflexivity. }
    rewrite (corr_player o u L) by auto. rewrite app_assoc, player_fuse by auto.
    rewrite app_assoc, (IH (u :: done)); auto; [|intros; apply Hin; right; auto|intros; apply HC; right; auto].
    rewrite <- app_assoc, <- C3. cbn [map app].
    apply leq_app_r, leq_eq, player_ext; intros n _; unfold ex1, ez1; cbn [accx accz fold_right]; fold (accx o ms n) (accz o ms n);
    destruct (n =? u)%nat, (o u); cbn [andb xorb]; try destruct (sigx (meas u)); try destruct (sigz (meas u));
    try destruct (lmem n (xc u)); try destruct (lmem n (zc u)); try destruct (ex n); try destruct (ez n); try destruct (accx o ms n); try destruct (accz o ms n); try reflexivity.
Qed.

Lemma accx_false ms v : accx (fun _ => false) ms v = false.
Proof. induction ms as [|u ms IH]; auto. cbn [accx fold_right]. fold (accx (fun _ => false) ms v). rewrite IH. rewrite andb_false_r. reflexivity. Qed.
Lemma accz_false ms v : accz (fun _ => false) ms v = false.
Proof. induction ms as [|u ms IH]; auto. cbn [accz fold_right]. fold (accz (fun _ => false) ms v). rewrite IH. rewrite andb_false_r. reflexivity. Qed.

(** Paulis absorbed by the measurements that follow *)
Lemma player_absorb L ms ex ez : NoDup L -> NoDup ms -> (forall u, In u ms -> In u L) ->
  (forall v, In v L -> ~ In v ms -> ex v = false /\ ez v = false) ->
  (forall v, In v ms -> inG (meas v) (ex v) (ez v) = true) ->
  player L ex ez ++ map m0 ms ≈ map m0 ms.
Proof.
  intros NL NM HL HO HG.
  assert (W : player ms ex ez ≈ player L ex ez).
  { apply layer_weaken; auto. intros n Hn Hn'. destruct (HO n Hn Hn') as [-> ->]. unfold mXZ; cbn [mpow]. apply mmul_1_l. }
  rewrite <- W. clear W HO HL L NL. induction ms as [|u ms IH]; [reflexivity|]. inversion NM; subst.
  unfold player in *. cbn [layer map]. fold (layer ms (fun n => mXZ (ex n) (ez n))).
  assert (C1 : layer ms (fun n => mXZ (ex n) (ez n)) ++ [m0 u] ≈ [m0 u] ++ layer ms (fun n => mXZ (ex n) (ez n))).
  { symmetry. apply layer_comm_notin. intros n [<-|[]]. auto. }
  change (m0 u :: map m0 ms) with ([m0 u] ++ map m0 ms). cbn [app]. change (?a :: ?l ++ m0 u :: ?r) with ([a] ++ l ++ [m0 u] ++ r).
  rewrite (app_assoc (layer _ _)), C1, <- app_assoc, IH; auto; [|intros; apply HG; right; auto].
  rewrite app_assoc. unfold m0 at 1. cbn [app].
  change (OApp1 ?a ?b :: OMeas ?c ?d :: ?r) with ([OApp1 a b; OMeas c d] ++ r). rewrite meas_absorb by (apply HG; left; auto). reflexivity.
Qed.

(** * The general theorem *)
Section Main.
Context (L N : list nat) (es : list (nat * nat)) (ms : list nat) (p : nat -> nat -> bool).
Hypothesis NL : NoDup L.
Hypothesis NN : NoDup N.
Hypothesis HN : forall n, In n N -> In n L.
Hypothesis HE : forall e, In e es -> In (fst e) L /\ In (snd e) L /\ fst e <> snd e.
Hypothesis NM : NoDup ms.
Hypothesis HM : forall u, In u ms -> In u L.
Hypothesis HO : ord_ok [] ms.
Hypothesis HC : forall u, In u ms -> NoDup (xc u) /\ NoDup (zc u) /\ forall v, In v (xc u) \/ In v (zc u) -> In v L.
Hypothesis HP : forall u v, In u ms -> p u v = true -> In v N.
(** outside the corrections, the stabiliser of u is absorbed by the measurements *)
Hypothesis Hout : forall u v, In u ms -> In v L -> ~ In v ms -> p u v = lmem v (xc u) /\ oddp es (p u) v = lmem v (zc u).
Hypothesis Hmeas : forall u v, In u ms -> In v ms -> v <> u ->
  inG (meas v) (xorb (p u v) (lmem v (xc u))) (xorb (oddp es (p u) v) (lmem v (zc u))) = true.
Hypothesis Hself : forall u, In u ms -> inG (meas u) (xorb (p u u) (sigx (meas u))) (xorb (oddp es (p u) u) (sigz (meas u))) = true.

Definition stab (o : nat -> bool) (l : list nat) (v : nat) : bool := fold_right (fun u b => xorb (o u && p u v) b) false l.
Lemma stab_odd o l v : oddp es (stab o l) v = fold_right (fun u b => xorb (o u && oddp es (p u) v) b) false l.
Proof.
  induction l as [|u l IH]; cbn [stab fold_right]; [apply oddp_false|].
  change (fun v => ?a v) with a. rewrite (oddp_ext es _ (fun k => xorb (o u && p u k) (stab o l k)) v) by auto.
  rewrite oddp_xor, IH. f_equal. destruct (o u); cbn [andb]; [apply oddp_ext; auto|apply oddp_false].
Qed.
Lemma self_notin u : In u ms -> lmem u (xc u) = false /\ lmem u (zc u) = false.
Proof.
  intros Hu. assert (K : forall d, ord_ok d ms -> targets_ok u [u]).
  { clear - Hu. induction ms as [|w l IH]; [destruct Hu|]. intros d [H1 H2]. destruct Hu as [->|Hu].
    - intros v Hv [<-|[]]. apply (H1 u Hv). left; auto.
    - eapply IH; eauto. }
  specialize (K [] HO). split; destruct (lmem u _) eqn:E; auto; apply lmem_In in E; exfalso; apply (K u); auto; left; auto.
Qed.

Lemma absorbed o l : (forall u, In u l -> In u ms) -> NoDup l -> forall v, In v ms ->
  inG (meas v) (xorb (stab o l v) (accx o l v)) (xorb (fold_right (fun u b => xorb (o u && oddp es (p u) v) b) false l) (accz o l v)) = true.
Proof.
  intros Hl NDl v Hv. induction l as [|u l IH]; cbn [stab accx accz fold_right]; [apply inG_00|]. inversion NDl; subst.
  fold (stab o l v) (accx o l v) (accz o l v). set (q := fold_right _ false l) in *.
  assert (T : inG (meas v) (xorb (o u && p u v) (xorb (o u && lmem v (xc u)) ((v =? u)%nat && o u && sigx (meas u))))
     (xorb (o u && oddp es (p u) v) (xorb (o u && lmem v (zc u)) ((v =? u)%nat && o u && sigz (meas u)))) = true).
  { destruct (o u); cbn [andb]; [|rewrite !andb_false_r; apply inG_00].
    destruct (Nat.eqb_spec v u) as [->|Ne]; cbn [andb].
    - destruct (self_notin u) as [-> ->]; auto. rewrite !xorb_false_l. apply Hself; auto.
    - rewrite !xorb_false_r. apply Hmeas; auto. apply Hl; left; auto. }
  specialize (IH (fun w K => Hl w (or_intror K)) ltac:(auto)). pose proof (inG_xor _ _ _ _ _ T IH) as R.
  replace (xorb (xorb (o u && p u v) (stab o l v)) _) with (xorb (xorb (o u && p u v) (xorb (o u && lmem v (xc u)) ((v =? u)%nat && o u && sigx (meas u)))) (xorb (stab o l v) (accx o l v))).
  2:{ generalize (o u && p u v), (o u && lmem v (xc u)), ((v =? u)%nat && o u && sigx (meas u)), (stab o l v), (accx o l v). intros [] [] [] [] []; auto. }
  replace (xorb (xorb (o u && oddp es (p u) v) q) _) with (xorb (xorb (o u && oddp es (p u) v) (xorb (o u && lmem v (zc u)) ((v =? u)%nat && o u && sigz (meas u)))) (xorb q (accz o l v))).
  2:{ generalize (o u && oddp es (p u) v), (o u && lmem v (zc u)), ((v =? u)%nat && o u && sigz (meas u)), q, (accz o l v). intros [] [] [] [] []; auto. }
  exact R.
Qed.

Theorem flow_det0 o : leq_on (fun psi => forall n, In n N -> indep n psi)
  (prep_ops (map (fun n => (n, SPlus)) N) ++ cz_ops es ++ seq_ops o (flow_seq ms))
  (prep_ops (map (fun n => (n, SPlus)) N) ++ cz_ops es ++ map m0 ms).
Proof.
  set (PC := prep_ops (map (fun n => (n, SPlus)) N) ++ cz_ops es).
  rewrite !(app_assoc _ (cz_ops es)). fold PC.
  set (g := stab o ms).
  assert (ST : leq_on (fun psi => forall n, In n N -> indep n psi) PC (PC ++ player L g (oddp es g))).
  { apply leq_on_sym. unfold PC. rewrite <- app_assoc. apply graph_state_stab; auto.
    intros n. unfold g. assert (K : forall l, (forall u, In u l -> In u ms) -> stab o l n = true -> In n N).
    { induction l as [|u l IH]; cbn [stab fold_right]; [discriminate|]. intros Hl. fold (stab o l n).
      destruct (stab o l n) eqn:E; [intros _; apply IH; auto; intros; apply Hl; right; auto|].
      rewrite xorb_false_r. intros Q. apply andb_prop in Q. apply (HP u); [apply Hl; left; auto|tauto]. }
    apply K; auto. }
  eapply leq_on_trans; [apply leq_on_app; [exact ST|reflexivity]|].
  rewrite <- app_assoc. apply leq_leq_on, leq_app_l.
  rewrite (flow_norm o L ms NL []) by auto.
  apply player_absorb; auto.
  - intros v Hv Hv'. unfold g. rewrite stab_odd.
    assert (K : forall l, (forall u, In u l -> In u ms) -> xorb (stab o l v) (accx o l v) = false /\
      xorb (fold_right (fun u b => xorb (o u && oddp es (p u) v) b) false l) (accz o l v) = false).
    { induction l as [|u l IH]; cbn [stab accx accz fold_right]; auto. intros Hl. fold (stab o l v) (accx o l v) (accz o l v). set (q := fold_right _ false l) in *.
      destruct (IH (fun w K => Hl w (or_intror K))) as [I1 I2].
      assert (Hu : In u ms) by (apply Hl; left; auto). destruct (Hout u v Hu Hv Hv') as [E1 E2].
      replace (v =? u)%nat with false by (symmetry; apply Nat.eqb_neq; intros ->; auto). cbn [andb]. rewrite !xorb_false_r, E1, E2.
      split; [destruct (o u && lmem v (xc u)), (stab o l v), (accx o l v); auto|destruct (o u && lmem v (zc u)), q, (accz o l v); auto]. }
    apply K; auto.
  - intros v Hv. unfold g. rewrite stab_odd. apply absorbed; auto.
Qed.
End Main.
End Det.
