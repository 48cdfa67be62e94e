(** Some branch of a runnable pattern has a non-zero state. *)
From Coq Require Import Reals Lra Arith List Bool Lia Permutation Setoid Morphisms FunctionalExtensionality.
From Verif Require Import Cplx Mat2 Fundamentals CliffordDb Clifford NSet Measure QState Pattern Layer Standardize Shift.
Import ListNotations.
Local Arguments app_op : simpl never.

Definition zero_state : state := fun _ => C0.
Lemma Cmul_zero (a b : C) : (a * b = C0)%C -> a = C0 \/ b = C0.
Proof. intros E. assert (N : Cnorm2 (a * b) = 0%R) by (rewrite E; unfold Cnorm2; cbn; ring). rewrite Cnorm2_mul in N. apply Rmult_integral in N. destruct N as [N|N]; apply Cnorm2_0 in N; auto. Qed.
Lemma meas_zero m (x y : C) : (forall b, (Cconj (v0 (mvec m b)) * x + Cconj (v1 (mvec m b)) * y = C0)%C) -> x = C0 /\ y = C0.
Proof.
  intros H. assert (P : (Cnorm2 (Cconj (v0 (mvec m false)) * x + Cconj (v1 (mvec m false)) * y) + Cnorm2 (Cconj (v0 (mvec m true)) * x + Cconj (v1 (mvec m true)) * y) = Cnorm2 x + Cnorm2 y)%R).
  { assert (Q : forall v, Cnorm2 (Cconj (v0 v) * x + Cconj (v1 v) * y) =
      re (Cconj x * (m00 (vouter v v) * x + m01 (vouter v v) * y) + Cconj y * (m10 (vouter v v) * x + m11 (vouter v v) * y))).
    { intros [[a b] [c d]]. destruct x, y. unfold Cnorm2. simpl. ring. }
    rewrite !Q, !mvec_proj. unfold meas_proj. destruct (to_bloch m) as [a p]. destruct (plane_polar p a) as [[vx vy] vz]. destruct x, y. unfold Cnorm2. simpl. field. }
  rewrite !H in P. replace (Cnorm2 C0) with 0%R in P by (unfold Cnorm2; cbn; ring). pose proof (Cnorm2_nonneg x). pose proof (Cnorm2_nonneg y). split; apply Cnorm2_0; lra.
Qed.
Lemma app1_zero U n psi : mmul (mdag U) U = mid -> app_op (OApp1 U n) psi = zero_state -> psi = zero_state.
Proof.
  intros HU H. pose proof (f_equal (app_op (OApp1 (mdag U) n)) H) as E. rewrite app1_app1, HU in E.
  assert (Q : app_op (OApp1 mid n) psi = psi). { extensionality f. unfold app_op. destruct (f n) eqn:Z; cbn; rewrite <- Z, upd_id; ring. }
  rewrite Q in E. rewrite E. extensionality f. unfold app_op, zero_state. ring.
Qed.
Lemma seq_onodes inp l o n : runnable inp l -> (exists p, In p (seq_ops o l) /\ In n (onodes p)) -> In n inp \/ prepared_in l n.
Proof.
  induction l as [|c l IH] using rev_ind; intros HR (p & Hp & Hn); [destruct Hp|]. apply runnable_snoc in HR. destruct HR as [HR HC]. rewrite seq_ops_app in Hp. apply in_app_or in Hp. rewrite prepared_app.
  destruct Hp as [Hp|Hp]; [destruct (IH HR) as [A|A]; eauto|]. assert (LV : forall k, live inp l k -> In k inp \/ prepared_in l k) by (intros k [A _]; exact A).
  cbn [seq_ops flat_map] in Hp. rewrite app_nil_r in Hp. destruct c as [k st|u v|k m s t|k d|k d|k c|k d|]; cbn [cmd_ops] in Hp.
  - destruct Hp as [<-|[]]. destruct Hn as [<-|[]]. right. right. exists st. left; auto.
  - destruct Hp as [<-|[]]. destruct HC as [H1 H2]. destruct Hn as [<-|[<-|[]]]; [apply LV in H1|apply LV in H2]; tauto.
  - destruct Hp as [<-|[]]. destruct Hn as [<-|[]]. destruct HC as [H1 _]. apply LV in H1. tauto.
  - destruct (parity o d); [|destruct Hp]. destruct Hp as [<-|[]]. destruct Hn as [<-|[]]. destruct HC as [H1 _]. apply LV in H1. tauto.
  - destruct (parity o d); [|destruct Hp]. destruct Hp as [<-|[]]. destruct Hn as [<-|[]]. destruct HC as [H1 _]. apply LV in H1. tauto.
  - destruct Hp as [<-|[]]. destruct Hn as [<-|[]]. apply LV in HC. tauto.
  - destruct Hp.
  - destruct Hp.
Qed.
(** all branches zero: the input state is zero *)
Lemma all_zero inp l psi : runnable inp l -> sem_ok l = true -> (forall n s, In (CN n s) l -> exists b, vget (nstate_vec s) b <> C0) -> (forall n, prepared_in l n -> indep n psi) ->
  (forall o, den (seq_ops o l) psi = zero_state) -> psi = zero_state.
Proof.
  induction l as [|c l IH] using rev_ind; intros HR HS HV HI HZ; [exact (HZ (fun _ => false))|]. pose proof HR as HR'. apply runnable_snoc in HR. destruct HR as [HR HC].
  unfold sem_ok in HS. rewrite forallb_app in HS. apply andb_true_iff in HS. destruct HS as [S1 S2]. apply IH; auto.
  { intros n s Hn. eapply HV. apply in_or_app; eauto. } { intros n Hn. apply HI. apply prepared_app; auto. }
  assert (HZ' : forall o, den (cmd_ops o c) (den (seq_ops o l) psi) = zero_state). { intros o. rewrite <- den_app. specialize (HZ o). rewrite seq_ops_app in HZ. cbn [seq_ops flat_map] in HZ. rewrite app_nil_r in HZ. exact HZ. }
  intros o. pose proof (HZ' o) as Z. destruct c as [k st|u v|k m s t|k d|k d|k c|k d|]; cbn [cmd_ops den] in Z; auto.
  - destruct (HV k st) as (b & Hb); [apply in_or_app; simpl; auto|]. destruct HC as [N1 N2].
    assert (ID : indep k (den (seq_ops o l) psi)).
    { apply indep_den; [|apply HI, prepared_app; right; exists st; left; auto]. intros p Hp Hk. destruct (seq_onodes inp l o k HR) as [A|A]; eauto. }
    extensionality f. assert (E := f_equal (fun g => g (upd f k b)) Z). cbn in E. unfold app_op, zero_state in E. rewrite upd_same in E. apply Cmul_zero in E. destruct E as [E|E]; [congruence|]. rewrite ID in E. auto.
  - extensionality f. assert (E := f_equal (fun g => g f) Z). cbn in E. unfold app_op, zero_state in E. apply Cmul_zero in E. destruct E as [E|E]; auto. exfalso. unfold sgn in E. destruct (_ && _); apply (f_equal re) in E; cbn in E; lra.
  - destruct HC as [HL HD]. extensionality f. set (phi := den (seq_ops o l) psi).
    assert (NK : forall d, (forall j, mem j d = true -> mem j s = true \/ mem j t = true) -> mem k d = false). { intros d Hd. destruct (mem k d) eqn:E; auto. exfalso. apply Hd, HD in E. apply HL in E. auto. }
    assert (Q : forall b, (Cconj (v0 (mvec (describe_measurement o m s t) b)) * phi (upd f k false) + Cconj (v1 (mvec (describe_measurement o m s t) b)) * phi (upd f k true) = C0)%C).
    { intros b. pose proof (HZ' (fun j => if (j =? k)%nat then b else o j)) as Y. cbn [cmd_ops den] in Y. unfold describe_measurement in Y. rewrite !parity_upd_notin in Y by (apply NK; auto). rewrite Nat.eqb_refl in Y.
      assert (ES : seq_ops (fun j => if (j =? k)%nat then b else o j) l = seq_ops o l).
      { apply (seq_ops_ext inp); auto. intros j Hj. destruct (Nat.eqb_spec j k) as [->|]; auto. exfalso. apply HL in Hj. auto. }
      rewrite ES in Y. assert (E := f_equal (fun g => g f) Y). exact E. }
    apply meas_zero in Q. destruct Q as [Q1 Q2]. change (phi f = C0). rewrite <- (upd_id f k). destruct (f k); auto.
  - destruct (parity o d); cbn [den] in Z; auto. eapply app1_zero; [|exact Z]. apply unitary_X.
  - destruct (parity o d); cbn [den] in Z; auto. eapply app1_zero; [|exact Z]. apply unitary_Z.
  - eapply app1_zero; [|exact Z]. apply clifford_unitary.
Qed.
