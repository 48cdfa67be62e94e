(** Why corrections given by a flow make a pattern deterministic: the general
    argument (stabilisers of the open graph state), on command sequences of the
    form produced by XZCorrections.to_pattern.  Proof infrastructure for C18. *)
From Coq Require Import Reals Lra Arith List Bool Lia Permutation FunctionalExtensionality Setoid Morphisms.
From Verif Require Import Cplx Mat2 NSet QState Fundamentals CliffordDb Clifford Measure Layer Pattern Standardize.
Import ListNotations.

(** * Equality of operation sequences on a class of states *)
Definition leq_on (P : state -> Prop) (l1 l2 : list op) : Prop :=
  exists c, phase c /\ forall psi, P psi -> den l1 psi = cscale c (den l2 psi).
Lemma leq_on_refl P l : leq_on P l l.
Proof. exists C1. split; [apply phase_1|]. intros; rewrite cscale_1; auto. Qed.
Lemma leq_leq_on P l1 l2 : l1 ≈ l2 -> leq_on P l1 l2.
Proof. intros (c & Hc & H). exists c; auto. Qed.
Lemma leq_on_sym P a b : leq_on P a b -> leq_on P b a.
Proof.
  intros (c & Hc & H). exists (Cconj c). split; [apply phase_conj; auto|]. intros psi Hp. rewrite (H psi Hp), cscale_cscale.
  rewrite phase_inv' by auto. symmetry; apply cscale_1.
Qed.
Lemma leq_on_trans P a b d : leq_on P a b -> leq_on P b d -> leq_on P a d.
Proof.
  intros (c & Hc & H) (e & He & K). exists (c * e)%C. split; [apply phase_mul; auto|]. intros psi Hp.
  rewrite (H psi Hp), (K psi Hp), cscale_cscale; auto.
Qed.
Lemma leq_on_app P a b a' b' : leq_on P a a' -> b ≈ b' -> leq_on P (a ++ b) (a' ++ b').
Proof.
  intros (c & Hc & H) (e & He & K). exists (c * e)%C. split; [apply phase_mul; auto|]. intros psi Hp.
  rewrite !den_app, (H psi Hp), K, den_scale, cscale_cscale. f_equal. ring.
Qed.

(** * Layers of Pauli operators *)
Definition player (L : list nat) (ex ez : nat -> bool) : list op := layer L (fun n => mXZ (ex n) (ez n)).
Lemma player_ext L ex ez ex' ez' : (forall n, In n L -> ex n = ex' n) -> (forall n, In n L -> ez n = ez' n) -> player L ex ez = player L ex' ez'.
Proof. intros H K. apply layer_eq. intros n Hn. rewrite H, K; auto. Qed.
Lemma player_fuse L ex ez ex' ez' : NoDup L -> player L ex ez ++ player L ex' ez' ≈ player L (fun n => xorb (ex n) (ex' n)) (fun n => xorb (ez n) (ez' n)).
Proof.
  intros ND. unfold player. rewrite layer_fuse by auto. apply layer_ext. intros n _.
  rewrite (xorb_comm (ex n)), (xorb_comm (ez n)). apply mXZ_mul.
Qed.
Lemma player_id L ex ez : (forall n, In n L -> ex n = false) -> (forall n, In n L -> ez n = false) -> player L ex ez ≈ [].
Proof. intros H K. apply layer_id. intros n Hn. rewrite H, K by auto. unfold mXZ; simpl. apply mmul_1_l. Qed.

Definition czz (ex : nat -> bool) (u v n : nat) : bool := xorb ((n =? u)%nat && ex v) ((n =? v)%nat && ex u).
Lemma player_cz L ex ez u v : NoDup L -> In u L -> In v L -> u <> v ->
  player L ex ez ++ [OCz u v] ≈ OCz u v :: player L ex (fun n => xorb (ez n) (czz ex u v n)).
Proof.
  intros NL Hu Hv Hne.
  set (F := fun n => mXZ (ex n) (ez n)). set (G := fun n => mXZ (ex n) (xorb (ez n) (czz ex u v n))).
  change (layer L F ++ [OCz u v] ≈ OCz u v :: layer L G).
  assert (DU : da (ex u) (F u)) by apply da_XZ. assert (DV : da (ex v) (F v)) by apply da_XZ.
  assert (GEN : forall n b, mXZ (ex n) (xorb (ez n) b) ~= mmul (mpow mZ b) (F n)).
  { intros n b. eapply meqp_trans; [|apply meqp_sym, (da_Z_comm (ex n)); apply da_XZ]. apply meqp_eq. unfold F, mXZ.
    rewrite <- mmul_assoc. f_equal. symmetry. apply mpow_xor, mZ_sq. }
  assert (EU : G u ~= mmul (mpow mZ (ex v)) (F u)).
  { unfold G, czz. rewrite Nat.eqb_refl. replace (u =? v)%nat with false by (symmetry; apply Nat.eqb_neq; auto). cbn [andb]. rewrite xorb_false_r. apply GEN. }
  assert (EV : G v ~= mmul (mpow mZ (ex u)) (F v)).
  { unfold G, czz. rewrite Nat.eqb_refl. replace (v =? u)%nat with false by (symmetry; apply Nat.eqb_neq; auto). cbn [andb]. rewrite xorb_false_l. apply GEN. }
  assert (EO : forall k, k <> u -> k <> v -> G k = F k).
  { intros k K1 K2. unfold G, czz. apply Nat.eqb_neq in K1, K2. rewrite K1, K2. cbn [andb xorb]. rewrite xorb_false_r. reflexivity. }
  set (F0 := fupd (fupd F v mid) u mid).
  assert (X1 : layer L F ≈ layer L F0 ++ [OApp1 (F u) u; OApp1 (F v) v]).
  { rewrite (layer_split_r L F v) by auto. rewrite (layer_split_r L (fupd F v mid) u) by auto.
    rewrite fupd_other by auto. rewrite <- app_assoc. reflexivity. }
  assert (X2 : layer L G ≈ layer L F0 ++ [OApp1 (mmul (mpow mZ (ex v)) (F u)) u; OApp1 (mmul (mpow mZ (ex u)) (F v)) v]).
  { rewrite (layer_ext L G (fupd (fupd F v (mmul (mpow mZ (ex u)) (F v))) u (mmul (mpow mZ (ex v)) (F u)))).
    - rewrite (layer_split_r L _ v) by auto. rewrite (layer_split_r L (fupd _ v mid) u) by auto.
      rewrite (fupd_other _ u _ v), fupd_same by auto. rewrite (fupd_other _ v _ u), fupd_same by auto.
      rewrite <- app_assoc. cbn [app]. erewrite layer_eq; [reflexivity|].
      intros k _. unfold F0, fupd. destruct (k =? u)%nat, (k =? v)%nat; auto.
    - intros k _. unfold fupd. destruct (Nat.eqb_spec k u); [subst; auto|]. destruct (Nat.eqb_spec k v); [subst; auto|].
      rewrite EO by auto. apply meqp_refl. }
  rewrite X1, X2, <- app_assoc. cbn [app]. rewrite (cz_da _ _ _ _ _ _ DU DV Hne).
  change (layer L F0 ++ OCz u v :: ?l) with (layer L F0 ++ [OCz u v] ++ l). rewrite app_assoc.
  rewrite <- (layer_comm L F0 (OCz u v)); [reflexivity|].
  intros k _ Hk. unfold F0, fupd. destruct Hk as [<-|[<-|[]]]; rewrite Nat.eqb_refl; auto. destruct (v =? u)%nat; auto.
Qed.
(** odd neighbourhood of [g] with respect to a list of edges *)
Definition oddp (es : list (nat * nat)) (g : nat -> bool) (n : nat) : bool :=
  fold_right (fun e b => xorb (czz g (fst e) (snd e) n) b) false es.
Lemma oddp_xor es g h n : oddp es (fun k => xorb (g k) (h k)) n = xorb (oddp es g n) (oddp es h n).
Proof.
  induction es as [|[u v] es IH]; cbn [oddp fold_right fst snd]; auto. fold (oddp es (fun k => xorb (g k) (h k)) n) (oddp es g n) (oddp es h n).
  rewrite IH. unfold czz. destruct (n =? u)%nat, (n =? v)%nat, (g u), (g v), (h u), (h v), (oddp es g n), (oddp es h n); reflexivity.
Qed.
Lemma oddp_ext es g h n : (forall k, g k = h k) -> oddp es g n = oddp es h n.
Proof.
  intros H. induction es as [|[u v] es IH]; cbn [oddp fold_right fst snd]; auto. fold (oddp es g n) (oddp es h n).
  rewrite IH. unfold czz. rewrite !H. auto.
Qed.
Lemma oddp_false es n : oddp es (fun _ => false) n = false.
Proof.
  induction es as [|[u v] es IH]; cbn [oddp fold_right fst snd]; auto. fold (oddp es (fun _ => false) n). rewrite IH. unfold czz.
  rewrite !andb_false_r. reflexivity.
Qed.
Lemma player_czs L es ex ez : NoDup L -> (forall e, In e es -> In (fst e) L /\ In (snd e) L /\ fst e <> snd e) ->
  player L ex ez ++ cz_ops es ≈ cz_ops es ++ player L ex (fun n => xorb (ez n) (oddp es ex n)).
Proof.
  intros ND. revert ez. induction es as [|[u v] es IH]; intros ez H.
  - cbn [cz_ops map app]. rewrite app_nil_r. apply leq_eq, player_ext; auto. intros n _. cbn. rewrite xorb_false_r; auto.
  - destruct (H (u, v)) as (A & B & D); [left; auto|]. cbn [fst snd] in *.
    change (cz_ops ((u, v) :: es)) with ([OCz u v] ++ cz_ops es). rewrite app_assoc, player_cz by auto.
    cbn [app]. apply leq_cons. rewrite IH by (intros; apply H; right; auto). apply leq_app_l. apply leq_eq, player_ext; auto.
    intros n _. cbn [oddp fold_right fst snd]. rewrite xorb_assoc. reflexivity.
Qed.

(** X fixes |+> *)
Lemma plus_X b : vmul (mXZ b false) plus_state = plus_state.
Proof.
  destruct b; unfold mXZ; simpl; [|rewrite mmul_1_l; apply vmul_1]. unfold plus_state, planar_state. rewrite cis_0. veq; ring.
Qed.
Lemma prep_player N ex psi : NoDup N -> (forall n, In n N -> indep n psi) ->
  den (prep_ops (map (fun n => (n, SPlus)) N) ++ player N ex (fun _ => false)) psi = den (prep_ops (map (fun n => (n, SPlus)) N)) psi.
Proof.
  revert psi. induction N as [|n N IH]; intros psi ND HI; auto. inversion ND; subst.
  cbn [map prep_ops snd nstate_vec fst]. fold (prep_ops (map (fun n => (n, SPlus)) N)).
  unfold player. cbn [layer map]. fold (layer N (fun n0 => mXZ (ex n0) false)). fold (player N ex (fun _ => false)).
  cbn [app]. cbn [den]. rewrite den_app. cbn [den]. set (psi1 := app_op (OPrep plus_state n) psi).
  assert (C : app_op (OApp1 (mXZ (ex n) false) n) (den (prep_ops (map (fun k => (k, SPlus)) N)) psi1)
     = den (prep_ops (map (fun k => (k, SPlus)) N)) (app_op (OApp1 (mXZ (ex n) false) n) psi1)).
  { generalize psi1. clear - H1. induction N as [|k N IH]; intros psi1; auto. cbn [map prep_ops snd fst nstate_vec den].
    fold (prep_ops (map (fun n => (n, SPlus)) N)). rewrite IH by (intros K; apply H1; right; auto). f_equal.
    apply op_comm. intros x [<-|[]] [<-|[]]. apply H1. left; auto. }
  rewrite C. replace (app_op (OApp1 (mXZ (ex n) false) n) psi1) with psi1.
  2:{ unfold psi1. rewrite prep_app1 by (apply HI; left; auto). rewrite plus_X. auto. }
  rewrite <- den_app. apply IH; auto. intros k Hk. unfold psi1. apply indep_op; [|apply HI; right; auto].
  intros [->|[]]; auto.
Qed.
(** the open graph state is stabilised by X on g and Z on Odd(g), for every set
    g of prepared nodes *)
Lemma graph_state_stab L N es g : NoDup L -> NoDup N -> (forall n, In n N -> In n L) ->
  (forall e, In e es -> In (fst e) L /\ In (snd e) L /\ fst e <> snd e) ->
  (forall n, g n = true -> In n N) ->
  leq_on (fun psi => forall n, In n N -> indep n psi)
    (prep_ops (map (fun n => (n, SPlus)) N) ++ cz_ops es ++ player L g (oddp es g))
    (prep_ops (map (fun n => (n, SPlus)) N) ++ cz_ops es).
Proof.
  intros NL NN HN HE HG.
  eapply leq_on_trans with (b := (prep_ops (map (fun n => (n, SPlus)) N) ++ player N g (fun _ => false)) ++ cz_ops es).
  - apply leq_leq_on. rewrite <- app_assoc. apply leq_app_l.
    assert (W : player N g (fun _ => false) ≈ player L g (fun _ => false)).
    { apply layer_weaken; auto. intros n _ Hn. destruct (g n) eqn:E; [apply HG in E; tauto|]. unfold mXZ; simpl. apply mmul_1_l. }
    rewrite W, player_czs by auto. apply leq_app_l, leq_eq, player_ext; auto. intros n _. destruct (oddp es g n); auto.
  - apply leq_on_app; [|reflexivity]. exists C1. split; [apply phase_1|]. intros psi Hp. rewrite cscale_1. apply prep_player; auto.
Qed.

(** * Outcome 1 is outcome 0 after a Pauli *)
Definition sigx (m : measurement) : bool :=
  match m with MBloch _ PXY => false | MBloch _ _ => true | MPauli AZ _ => true | MPauli _ _ => false end.
Definition sigz (m : measurement) : bool :=
  match m with MBloch _ PYZ => false | MBloch _ _ => true | MPauli AZ _ => false | MPauli _ _ => true end.
(** the Paulis X^x Z^z that a measurement absorbs (up to phase) *)
Definition inG (m : measurement) (x z : bool) : bool :=
  match m with
  | MBloch _ _ => negb x && negb z
  | MPauli AX _ => negb z | MPauli AZ _ => negb x | MPauli AY _ => eqb x z
  end.
Lemma inG_xor m x z x' z' : inG m x z = true -> inG m x' z' = true -> inG m (xorb x x') (xorb z z') = true.
Proof. destruct m as [a p|[] s]; destruct x, z, x', z'; cbn; auto. Qed.
Lemma inG_00 m : inG m false false = true.
Proof. destruct m as [a p|[] s]; auto. Qed.

Lemma vouter_vmul U v : vouter (vmul U v) (vmul U v) = mmul U (mmul (vouter v v) (mdag U)).
Proof. rewrite mmul_assoc, vouter_mul, mdag_dag. reflexivity. Qed.
Lemma meas_flip m b n : [OMeas (mvec m b) n] ≈ [OApp1 (mXZ (b && sigx m) (b && sigz m)) n; OMeas (mvec m false) n].
Proof.
  rewrite app1_meas. apply meas_veqp. apply vouter_inj_phase; [apply mvec_norm|].
  rewrite vouter_vmul, !mvec_proj.
  destruct b; cbn [andb].
  - destruct m as [a p|ax s].
    + unfold meas_proj; cbn [to_bloch]. rewrite !outcome_axes. destruct p; cbn [sigx sigz plane_cos plane_sin axis_mat]; unfold mXZ, rsign; cbn [mpow];
      meq; ceq; field.
    + rewrite !to_bloch_pauli. destruct ax; cbn [sigx sigz axis_mat]; unfold mXZ, rsign; cbn [mpow]; generalize (sign_C s); intros c; meq; ceq; field.
  - unfold mXZ; cbn [mpow]. rewrite ?mmul_1_l, ?mdag_id, ?mmul_1_l, ?mmul_1_r. reflexivity.
Qed.
Lemma meas_absorb m x z n : inG m x z = true -> [OApp1 (mXZ x z) n; OMeas (mvec m false) n] ≈ [OMeas (mvec m false) n].
Proof.
  intros H. rewrite app1_meas. apply meas_veqp, veqp_sym. apply vouter_inj_phase; [apply mvec_norm|].
  rewrite vouter_vmul, !mvec_proj.
  destruct m as [a p|ax s].
  - cbn in H. destruct x, z; try discriminate. unfold mXZ; cbn [mpow]. rewrite ?mmul_1_l, ?mdag_id, ?mmul_1_l, ?mmul_1_r. reflexivity.
  - rewrite !to_bloch_pauli. destruct ax, x, z; try discriminate; cbn [axis_mat]; unfold mXZ, rsign; cbn [mpow]; generalize (sign_C s); intros c; meq; ceq; field.
Qed.
