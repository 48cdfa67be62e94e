(** Proofs about the density-matrix simulation: refinement of the matrices held
    by the backend to operators on the live nodes. *)
From Coq Require Import Reals Lra Arith List Bool Lia Permutation FunctionalExtensionality.
From Verif Require Import Cplx Mat2 Fundamentals CliffordDb Clifford NSet Measure QState Pattern NodeIndex Statevec Density Simulator Noise DMSim.
Import ListNotations.
Local Open Scope C_scope.

(** [rho] on [n] qubits, read on the nodes [l], is [k] times [R] *)
Definition lifts (n : nat) (rho : cmat) (l : list nat) (k : C) (R : dop) : Prop :=
  forall f g, drep n rho (pull l f) (pull l g) = k * R f g.
Lemma asum_lift n l (F G : asg -> C) : n = length l -> NoDup l -> (forall c, F c = G (putf l c (fun _ => false))) ->
  cbsum n F = asum l G (fun _ => false).
Proof. intros -> ND H. rewrite asum_put by auto. apply cbsum_ext. auto. Qed.
Lemma pull_put l c f i : NoDup l -> (i < length l)%nat -> pull l (putf l c f) i = c i.
Proof. intros. unfold pull. apply putf_get; auto. Qed.
Lemma trace_lift n rho l k R : n = length l -> NoDup l -> lifts n rho l k R -> dm_trace n rho = k * dtr l R.
Proof.
  intros En ND H. rewrite trace_drep. unfold dtr. rewrite <- asum_mul. apply asum_lift; auto. intros c. rewrite <- H.
  apply drep_ext; intros i Hi; symmetry; apply pull_put; auto; lia.
Qed.
Lemma dtr_perm l l' R : NoDup l -> Permutation l l' -> dtr l R = dtr l' R.
Proof. intros. apply asum_perm; auto. Qed.
Lemma ldel_perm {A} (l : list A) q a : nth_error l q = Some a -> Permutation l (ldel q l ++ [a]).
Proof.
  intros H. destruct (ldel_split _ _ _ H) as (x & y & -> & _ & ->). rewrite <- app_assoc. apply Permutation_app_head. apply Permutation_cons_append.
Qed.
Lemma ptrace_drep s q f g : (q < dm_n s)%nat ->
  drep (dm_n (dm_ptrace s q)) (dm_rho (dm_ptrace s q)) f g = drep (dm_n s) (dm_rho s) (ins q false f) (ins q false g) + drep (dm_n s) (dm_rho s) (ins q true f) (ins q true g).
Proof.
  intros Hq. unfold drep at 1, dm_ptrace. cbn [dm_n dm_rho]. unfold csum. cbn [fold_right].
  assert (E : forall c h, idx (dm_n s) (ins q c (bits (dm_n s - 1) (idx (dm_n s - 1) h))) = idx (dm_n s) (ins q c h)).
  { intros c h. apply idx_ext. intros i Hi. unfold ins. destruct (Nat.ltb_spec i q); [apply bits_idx; lia|]. destruct (Nat.eqb_spec i q); auto. apply bits_idx; lia. }
  simpl. rewrite !E. unfold drep. ring.
Qed.
Lemma conj1_proj v n R f g c : conj1 (vouter v v) n R (upd f n c) (upd g n c) = RtoC (Cnorm2 (vget v c)) * dapp (OMeas v n) R f g.
Proof.
  unfold conj1. cbn [dapp]. rewrite !upd_same, <- Cnorm2_mulconj.
  assert (E : forall h b, upd (upd h n c) n b = upd h n b) by (intros; apply upd_upd). rewrite !E.
  destruct c; cbn [mget vouter m00 m01 m10 m11 vget]; rewrite !Cconj_mul, !Cconj_inv; ring.
Qed.
Lemma evolve1_lift s U q l node k R : dm_n s = length l -> NoDup l -> nth_error l q = Some node -> lifts (dm_n s) (dm_rho s) l k R ->
  exists s', dm_evolve_single s U q = Ok s' /\ dm_n s' = dm_n s /\ lifts (dm_n s') (dm_rho s') l k (conj1 U node R).
Proof.
  intros En ND Hq H. unfold dm_evolve_single. pose proof (nth_error_lt _ _ _ Hq) as Lq.
  replace (q <? dm_n s)%nat with true by (symmetry; apply Nat.ltb_lt; lia).
  eexists. split; [reflexivity|]. cbn [dm_n dm_rho]. split; auto. intros f g. rewrite <- channel_map1. rewrite <- conjk_1, <- dchan1.
  apply (chan_lift (dm_n s) (dm_rho s) l [node] [q] [(C1, m2 U)] R k En ND); auto.
Qed.
Lemma meas_lift s v q l node k R : dm_n s = length l -> NoDup l -> nth_error l q = Some node -> vnorm2 v = 1%R -> lifts (dm_n s) (dm_rho s) l k R ->
  exists s1, dm_evolve_single s (vouter v v) q = Ok s1 /\ dm_n (dm_ptrace s1 q) = length (ldel q l)
   /\ lifts (dm_n (dm_ptrace s1 q)) (dm_rho (dm_ptrace s1 q)) (ldel q l) k (dapp (OMeas v node) R).
Proof.
  intros En ND Hq HV H. destruct (evolve1_lift s (vouter v v) q l node k R En ND Hq H) as (s1 & E1 & N1 & H1).
  pose proof (nth_error_lt _ _ _ Hq) as Lq.
  exists s1. split; auto. split.
  - unfold dm_ptrace. cbn [dm_n]. rewrite (ldel_length _ _ node) by auto. lia.
  - intros f g. rewrite ptrace_drep by lia.
    assert (E : forall c, drep (dm_n s1) (dm_rho s1) (ins q c (pull (ldel q l) f)) (ins q c (pull (ldel q l) g)) = k * conj1 (vouter v v) node R (upd f node c) (upd g node c)).
    { intros c. rewrite <- H1. apply drep_ext; intros i Hi; apply pull_ins; auto; lia. }
    rewrite !E, !conj1_proj. unfold vnorm2 in HV.
    transitivity (k * ((RtoC (Cnorm2 (v0 v)) + RtoC (Cnorm2 (v1 v))) * dapp (OMeas v node) R f g)); [cbn [vget]; ring|].
    rewrite <- RtoC_add, HV. change (RtoC 1) with C1. ring.
Qed.
Lemma Cinv_r t : t <> C0 -> t * Cinv t = C1.
Proof.
  intros H. destruct t as [a b]. assert (N : (a * a + b * b <> 0)%R).
  { intros E. apply H. assert (a = 0 /\ b = 0)%R as [-> ->] by nra. reflexivity. }
  apply C_eq; unfold Cinv, Cnorm2; cbn; field; auto.
Qed.
Lemma Ceq0_spec a : Ceq0 a = true <-> a = C0.
Proof.
  unfold Ceq0. destruct a as [x y]. cbn. destruct (Req_EM_T x 0) as [->|N]; [destruct (Req_EM_T y 0) as [->|N]|]; split; auto; try discriminate; intros E; injection E; intros; subst; exfalso; auto.
Qed.
Lemma Cinv_1 : Cinv C1 = C1.
Proof. apply C_eq; unfold Cinv, Cnorm2; cbn; field. Qed.
Lemma normalize_1 s : dm_trace (dm_n s) (dm_rho s) = C1 -> dm_normalize s = Ok s.
Proof.
  intros H. unfold dm_normalize. rewrite H. destruct (Ceq0 C1) eqn:E; [apply Ceq0_spec in E; injection E; lra|].
  destruct s as [rho n]. do 2 f_equal. extensionality i. extensionality j. cbn. rewrite Cinv_1. ring.
Qed.
Lemma trace_scale n rho c : dm_trace n (fun i j => rho i j * c) = dm_trace n rho * c.
Proof. transitivity (c * dm_trace n rho); [|ring]. unfold dm_trace. rewrite <- csum_mul. apply csum_ext. intros. ring. Qed.
Lemma normalize_lift s l k R : dm_n s = length l -> NoDup l -> lifts (dm_n s) (dm_rho s) l k R -> k <> C0 ->
  match dm_normalize s with
  | Ok s' => dm_n s' = dm_n s /\ dm_trace (dm_n s') (dm_rho s') = C1 /\ exists k', lifts (dm_n s') (dm_rho s') l k' R
  | Err e => e = ENan /\ dtr l R = C0
  end.
Proof.
  intros En ND H Hk. unfold dm_normalize. set (t := dm_trace (dm_n s) (dm_rho s)). destruct (Ceq0 t) eqn:E.
  - split; auto. apply Ceq0_spec in E. unfold t in E. rewrite (trace_lift _ _ _ _ _ En ND H) in E.
    transitivity (k * Cinv k * dtr l R); [rewrite Cinv_r by auto; ring|]. transitivity (Cinv k * (k * dtr l R)); [ring|]. rewrite E. ring.
  - cbn [dm_n dm_rho]. split; auto. split.
    + rewrite trace_scale. fold t. apply Cinv_r. intros K. apply Ceq0_spec in K. congruence.
    + exists (k * Cinv t). intros f g. unfold drep. transitivity (drep (dm_n s) (dm_rho s) (pull l f) (pull l g) * Cinv t); [reflexivity|]. rewrite H. ring.
Qed.
(** the expectation of |v><v| *)
Lemma expect_lift s v q l node k R : dm_n s = length l -> NoDup l -> nth_error l q = Some node -> dm_trace (dm_n s) (dm_rho s) = C1 ->
  lifts (dm_n s) (dm_rho s) l k R -> dm_expectation s (vouter v v) q = Ok (k * dtr (ldel q l) (dapp (OMeas v node) R)).
Proof.
  intros En ND Hq HT H. unfold dm_expectation. pose proof (nth_error_lt _ _ _ Hq) as Lq.
  replace (q <? dm_n s)%nat with true by (symmetry; apply Nat.ltb_lt; lia). rewrite normalize_1 by auto. cbn [rbind]. f_equal.
  rewrite csum_cbsum.
  set (G := fun f => mget (vouter v v) (f node) false * R (upd f node false) f + mget (vouter v v) (f node) true * R (upd f node true) f).
  transitivity (k * asum l G (fun _ => false)).
  - rewrite <- asum_mul. apply asum_lift; auto. intros c. rewrite sub_idx by (auto; intros x [<-|[]]; lia).
    change (range 2) with (range (2 ^ 1)). rewrite csum_cbsum. unfold cbsum. cbn [bsum]. rewrite !putb_idx by auto. rewrite !putf1, !upd_same.
    unfold G. set (c' := putf l c (fun _ => false)).
    assert (EC : forall i, (i < dm_n s)%nat -> c i = pull l c' i) by (intros i Hi; symmetry; apply pull_put; auto; lia).
    assert (EN : c q = c' node) by (rewrite EC by lia; unfold pull; rewrite (nth_nth_error _ _ _ _ Hq); auto).
    assert (ED : forall b, dm_rho s (idx (dm_n s) (upd c q b)) (idx (dm_n s) c) = k * R (upd c' node b) c').
    { intros b. rewrite <- H. unfold drep. f_equal; apply idx_ext; [|intros; apply EC; auto]. intros i Hi. rewrite <- (pull_upd l c' q node b i) by (auto; lia).
      unfold upd. destruct (i =? q)%nat; auto. }
    rewrite !ED. cbn [idx nth length]. rewrite !upd_same. rewrite m2_b0, m2_b1, EN. ring.
  - f_equal. unfold dtr. rewrite (asum_perm l (ldel q l ++ [node])) by (auto; apply ldel_perm; auto). rewrite asum_snoc. apply asum_ext. intros f.
    unfold G. rewrite !upd_same. assert (E : forall c b, upd (upd f node c) node b = upd f node b) by (intros; apply upd_upd). rewrite !E.
    cbn [dapp mget vouter m00 m01 m10 m11]. ring.
Qed.
Lemma permute_lift s outs l : dm_n s = length l -> NoDup l -> Permutation outs l ->
  exists s', dm_permute s (map (fun x => pos_of x l) outs) = Ok s' /\ dm_n s' = dm_n s
   /\ forall f g, drep (dm_n s') (dm_rho s') (pull outs f) (pull outs g) = drep (dm_n s) (dm_rho s) (pull l f) (pull l g).
Proof.
  intros En ND HP. set (perm := map (fun x => pos_of x l) outs). pose proof (Permutation_length HP) as EL.
  assert (NDo : NoDup outs) by (eapply Permutation_NoDup; [apply Permutation_sym; exact HP|auto]).
  assert (PP0 : Permutation perm (range (dm_n s))).
  { apply NoDup_Permutation_bis.
    - apply NoDup_map_in; auto. intros x y Hx Hy Exy. apply (Permutation_in _ HP) in Hx, Hy.
      rewrite <- (proj2 (pos_of_nth l x 0%nat Hx)), <- (proj2 (pos_of_nth l y 0%nat Hy)). congruence.
    - unfold perm, range. rewrite seq_length, map_length. lia.
    - intros x Hx. apply in_map_iff in Hx. destruct Hx as (y & <- & Hy). apply (Permutation_in _ HP) in Hy.
      apply in_seq. pose proof (pos_of_nth l y 0%nat Hy). lia. }
  assert (PP : check_permutation perm (dm_n s) = true) by (apply check_permutation_iff; auto).
  unfold dm_permute. rewrite PP. eexists. split; [reflexivity|]. cbn [dm_n dm_rho]. split; auto. intros f g. unfold drep.
  assert (E : forall h, idx (dm_n s) (fun a => bits (dm_n s) (idx (dm_n s) (pull outs h)) (pos_of a perm)) = idx (dm_n s) (pull l h)).
  { intros h. apply idx_ext. intros a Ha.
    assert (Ia : In a perm) by (eapply Permutation_in; [apply Permutation_sym; exact PP0|apply in_seq; lia]).
    destruct (pos_of_nth perm a 0%nat Ia) as [P1 P2]. unfold perm in P1 at 2. rewrite map_length in P1.
    rewrite bits_idx by lia. unfold pull. f_equal. set (j := pos_of a perm) in *.
    unfold perm in P2. rewrite (nth_indep _ 0%nat (pos_of 0%nat l)) in P2 by (rewrite map_length; auto). rewrite (map_nth (fun x => pos_of x l)) in P2.
    assert (In (nth j outs 0%nat) l) as J by (eapply Permutation_in; [exact HP|apply nth_In; auto]).
    rewrite <- (proj2 (pos_of_nth l _ 0%nat J)). rewrite P2. auto. }
  rewrite !E. auto.
Qed.
(** * Hermitian operators *)
Lemma herm_conjk op qs R : herm R -> herm (conjk op qs R).
Proof.
  intros H f g. unfold conjk. rewrite cbsum_conj. rewrite cbsum_swap. apply cbsum_ext. intros a. rewrite cbsum_conj. apply cbsum_ext. intros b.
  rewrite !Cconj_mul, <- H, Cconj_inv. ring.
Qed.
Lemma csum_conj {X} (l : list X) F : Cconj (csum l F) = csum l (fun x => Cconj (F x)).
Proof. unfold csum. induction l as [|x l IH]; simpl; [apply C_eq; cbn; ring|]. rewrite Cconj_add. f_equal; auto. Qed.
Lemma herm_dchan data ns R : herm R -> herm (dchan data ns R).
Proof.
  intros H f g. unfold dchan. rewrite csum_conj. apply csum_ext. intros d _. rewrite (herm_conjk _ _ _ H f g). rewrite !Cconj_mul, !Cconj_inv. ring.
Qed.
Lemma sgn_conj b : Cconj (sgn b) = sgn b.
Proof. destruct b; apply C_eq; cbn; ring. Qed.
Lemma herm_dapp p R : herm R -> herm (dapp p R).
Proof.
  intros H. destruct p as [U n|a b|v n|v n].
  - change (herm (conj1 U n R)). rewrite <- conjk_1. apply herm_conjk; auto.
  - intros f g. cbn. rewrite (H f g), !Cconj_mul, !sgn_conj. ring.
  - intros f g. cbn. rewrite !Cconj_add, !Cconj_mul, !Cconj_inv, <- !H. ring.
  - intros f g. cbn. rewrite (H f g), !Cconj_mul, !Cconj_inv. ring.
Qed.
Lemma herm_dapps ps : forall R, herm R -> herm (fold_left (fun R p => dapp p R) ps R).
Proof. induction ps as [|p ps IH]; simpl; auto. intros R H. apply IH, herm_dapp; auto. Qed.
Lemma herm_nden user o w l : forall R, herm R -> herm (nden user o w l R).
Proof.
  induction l as [|c l IH]; simpl; auto. intros R H. apply IH. destruct c as [c|a]; simpl.
  - destruct c; try (apply (herm_dapps (cmd_ops o _)); auto). apply (herm_dapp (OMeas _ _)). auto.
  - destruct (match an_dom a with None => true | Some d => parity o d end); auto. apply herm_dchan; auto.
Qed.
Lemma herm_dtr l R : herm R -> im (dtr l R) = 0%R.
Proof.
  intros H. unfold dtr. generalize (fun _ : nat => false). induction l as [|x l IH]; intros f; simpl.
  - specialize (H f f). destruct (R f f) as [a b]. apply (f_equal im) in H. cbn in *. lra.
  - rewrite !IH. ring.
Qed.

(** * One command *)
(** the noise has a valid channel: it preserves the trace *)
Definition noise_ok (user : nat -> list kraus) (a : noise) : Prop :=
  match a with
  | Dep1 p | Dep2 p | Damp1 p | Damp2 p => (0 <= p <= 1)%R
  | NUser i k => kcomplete k (user i)
  end.
Lemma noise_ok_spec user a : noise_ok user a -> noise_channel user a = Ok (noise_data user a) /\ kcomplete (noise_nqubits a) (noise_data user a).
Proof.
  destruct a; cbn [noise_ok noise_channel noise_data noise_nqubits]; intros H; split; auto using depolarising_complete, two_depolarising_complete, ad_complete, two_ad_complete;
  apply kraus_new_ok; auto using depolarising_complete, two_depolarising_complete, ad_complete, two_ad_complete; try discriminate; simpl; lia.
Qed.
(** commands the density-matrix backend accepts *)
Definition simple (c : cmd) : Prop :=
  match c with CE u v => u <> v | CS _ _ => False | CN _ (SVec v) => vnorm2 v = 1%R | _ => True end.
Section Step.
Variables (close1 : R -> bool) (psdb : nat -> cmat -> bool) (user : nat -> list kraus) (sel : selector) (g : rng) (u : nat -> R) (nm : option nmodel).
Variables (inp : list nat) (R0 : dop).
Hypothesis Hinp : NoDup inp.
Hypothesis Hherm : herm R0.
Definition ncmd_ok (pre : list ncmd) (c : ncmd) : Prop :=
  match c with
  | NC c => cmd_ok inp (strip pre) c /\ simple c
  | NA a => (forall n, In n (an_nodes a) -> live inp (strip pre) n) /\ NoDup (an_nodes a) /\ length (an_nodes a) = noise_nqubits (an_noise a) /\
      (forall d k, an_dom a = Some d -> mem k d = true -> measured_in (strip pre) k) /\ noise_ok user (an_noise a)
  end.
Definition nrunnable (l : list ncmd) : Prop := forall pre c post, l = pre ++ c :: post -> ncmd_ok pre c.
Lemma nrunnable_snoc l c : nrunnable (l ++ [c]) -> nrunnable l /\ ncmd_ok l c.
Proof.
  intros H. split; [|apply (H l c []); auto]. intros pre x post E. apply (H pre x (post ++ [c])). rewrite E, <- app_assoc. reflexivity.
Qed.
Lemma nrunnable_strip l : nrunnable l -> runnable inp (strip l).
Proof.
  induction l as [|c l IH] using rev_ind; [intros _ pre c post E; destruct pre; discriminate|]. intros H. apply nrunnable_snoc in H as [H HC]. rewrite strip_app.
  destruct c as [c|a]; simpl; [|rewrite app_nil_r; auto]. intros pre x post E. destruct (@exists_last _ (x :: post)) as (q & y & Eq); [discriminate|].
  rewrite Eq in E. rewrite app_assoc in E. apply app_inj_tail in E as [E1 <-]. destruct q as [|z q].
  - injection Eq as -> ->. rewrite app_nil_r in E1. rewrite <- E1. apply HC.
  - injection Eq as -> _. apply (IH H pre z q). auto.
Qed.
(** probability [p0] of outcome 0 of the measurement [c] of node [n] *)
Definition dprob0 (pre : list ncmd) (c : ncmd) (o w : nat -> bool) (n : nat) (p0 : R) : Prop :=
  RtoC p0 * dtr (outs_of inp (strip pre)) (nden user o w pre R0) = dtr (outs_of inp (strip (pre ++ [c]))) (nden user o (with_out w n false) (pre ++ [c]) R0).
(** the outcomes [w] chosen by the selector and the outcomes [o] recorded, after
    [k] draws *)
Inductive nselected : list ncmd -> (nat -> bool) -> (nat -> bool) -> nat -> Prop :=
| ns_nil o w : nselected [] o w 0
| ns_other l c o w k : nselected l o w k -> (forall n m s t, c <> NC (CM n m s t)) -> nselected (l ++ [c]) o w k
| ns_meas l n m s t o w k p0 k1 k2 : nselected l o w k -> dprob0 l (NC (CM n m s t)) o w n p0 ->
    sel_measure sel g k n p0 = Ok (w n, k1) -> conf_opt u nm (w n, k1) = (o n, k2) -> nselected (l ++ [NC (CM n m s t)]) o w k2.
(** a run fails at a measurement: the selector fails, or the outcome it selects
    has probability zero *)
Definition nfails (l : list ncmd) (e : err) : Prop :=
  exists a n m s t b o w k p0, l = a ++ NC (CM n m s t) :: b /\ nselected a o w k /\ dprob0 a (NC (CM n m s t)) o w n p0 /\
    (sel_measure sel g k n p0 = Err e \/
     (e = ENan /\ exists x k', sel_measure sel g k n p0 = Ok (x, k') /\
        dtr (outs_of inp (strip (a ++ [NC (CM n m s t)]))) (nden user o (with_out w n x) (a ++ [NC (CM n m s t)]) R0) = C0)).
Record DInv (pre : list ncmd) (w : nat -> bool) (st : dsim) : Prop := {
  di_ni : ni_inv (d_ni st);
  di_perm : Permutation (ni_list (d_ni st)) (outs_of inp (strip pre));
  di_n : dm_n (d_dm st) = length (ni_list (d_ni st));
  di_res : forall k, (exists b, dget (d_res st) k = Some b) <-> measured_in (strip pre) k;
  di_tr : dm_trace (dm_n (d_dm st)) (dm_rho (d_dm st)) = C1;
  di_den : exists k, lifts (dm_n (d_dm st)) (dm_rho (d_dm st)) (ni_list (d_ni st)) k (nden user (outc (d_res st)) w pre R0) }.
Lemma nden_app o w a b R : nden user o w (a ++ b) R = nden user o w b (nden user o w a R).
Proof. apply fold_left_app. Qed.
Lemma nstep_ext pre c o o' w w' R : ncmd_ok pre c -> (forall n, measured_in (strip pre) n -> o n = o' n) ->
  (forall n m s t, c = NC (CM n m s t) -> w n = w' n) -> nstep user o w c R = nstep user o' w' c R.
Proof.
  intros HC HO HW. destruct c as [c|a].
  - destruct HC as [HC _].
    assert (P : forall d, (forall k, mem k d = true -> measured_in (strip pre) k) -> parity o d = parity o' d).
    { intros d Hd. apply parity_ext. auto. }
    destruct c as [n st|a b|n m s t|n d|n d|n c|n d|]; simpl in *; auto.
    + unfold describe_measurement. rewrite (P s), (P t) by (intros; apply HC; auto). rewrite (HW n m s t eq_refl). auto.
    + rewrite (P d); auto. apply HC.
    + rewrite (P d); auto. apply HC.
  - destruct HC as (_ & _ & _ & HD & _). simpl. destruct (an_dom a) as [d|] eqn:E; auto. rewrite (parity_ext o o' d); auto. intros; eapply HO, HD; eauto.
Qed.
Lemma smeasured_snoc l c n : measured_in (strip l) n -> measured_in (strip (l ++ [c])) n.
Proof. rewrite strip_app, measured_app. auto. Qed.
Lemma smeasured_M l n m s t : measured_in (strip (l ++ [NC (CM n m s t)])) n.
Proof. rewrite strip_app, measured_app. right. apply measured_one. eauto. Qed.
Lemma nden_ext l : forall o o' w w' R, nrunnable l -> (forall n, measured_in (strip l) n -> o n = o' n) -> (forall n, measured_in (strip l) n -> w n = w' n) ->
  nden user o w l R = nden user o' w' l R.
Proof.
  induction l as [|c l IH] using rev_ind; auto. intros o o' w w' R HR HO HW. apply nrunnable_snoc in HR as [HR HC]. rewrite !nden_app.
  rewrite (IH o o' w w') by (auto using smeasured_snoc). cbn [nden fold_left]. apply nstep_ext with (pre := l); auto using smeasured_snoc.
  intros n m s t ->. apply HW, smeasured_M.
Qed.
Lemma dprob0_ext l n m s t o o' w w' p0 : nrunnable (l ++ [NC (CM n m s t)]) -> (forall k, measured_in (strip l) k -> o k = o' k) -> (forall k, measured_in (strip l) k -> w k = w' k) ->
  dprob0 l (NC (CM n m s t)) o w n p0 -> dprob0 l (NC (CM n m s t)) o' w' n p0.
Proof.
  intros HR HO HW H. apply nrunnable_snoc in HR as [HR HC]. unfold dprob0 in *.
  rewrite (nden_ext l o o' w w' R0 HR HO HW) in H. rewrite H. rewrite !nden_app. f_equal.
  assert (K : forall v, (forall k, measured_in (strip l) k -> with_out v n false k = v k)).
  { intros v k Hk. unfold with_out. destruct (Nat.eqb_spec n k) as [E|]; auto. subst k. destruct HC as [[[_ HC] _] _]. tauto. }
  rewrite (nden_ext l o o' (with_out w n false) (with_out w' n false) R0); auto.
  - cbn [nden fold_left]. apply nstep_ext with (pre := l); auto. intros ? ? ? ? E. injection E as <- _ _ _. unfold with_out. rewrite Nat.eqb_refl. auto.
  - intros k Hk. rewrite !K by auto. auto.
Qed.
Lemma nselected_ext l o w k : nselected l o w k -> nrunnable l -> forall o' w', (forall n, measured_in (strip l) n -> o n = o' n) -> (forall n, measured_in (strip l) n -> w n = w' n) -> nselected l o' w' k.
Proof.
  induction 1 as [o w|l c o w k HS IH HC|l n m s t o w k p0 k1 k2 HS IH HP HM HF]; intros HR o' w' HO HW; pose proof HR as HR0.
  - constructor.
  - apply nrunnable_snoc in HR. constructor; auto. apply IH; [apply HR| |]; intros; [apply HO|apply HW]; apply smeasured_snoc; auto.
  - apply nrunnable_snoc in HR. eapply ns_meas with (p0 := p0) (k1 := k1).
    + apply IH; [apply HR| |]; intros; [apply HO|apply HW]; apply smeasured_snoc; auto.
    + eapply dprob0_ext; [exact HR0| | |exact HP]; intros; [apply HO|apply HW]; apply smeasured_snoc; auto.
    + rewrite <- HW; eauto using smeasured_M.
    + rewrite <- HW, <- HO; eauto using smeasured_M.
Qed.
Lemma live_listed_d pre w st n : DInv pre w st -> nrunnable pre -> live inp (strip pre) n -> In n (ni_list (d_ni st)).
Proof.
  intros HI HR HL. eapply Permutation_in; [apply Permutation_sym, (di_perm _ _ _ HI)|]. apply (outs_of_live inp (strip pre) Hinp); auto. apply nrunnable_strip; auto.
Qed.
Lemma outs_snoc pre c : outs_of inp (strip (pre ++ [NC c])) = outs_of inp (strip pre ++ [c]).
Proof. rewrite strip_app. reflexivity. Qed.
Lemma nodupb_spec l : NoDup l -> nodupb l = true.
Proof. induction 1; simpl; auto. rewrite IHNoDup, andb_true_r. apply negb_true_iff, lmem_false. auto. Qed.
Lemma evolve_ok_true n k qs (l ns : list nat) : n = length l -> NoDup l -> NoDup ns -> length ns = k -> Forall2 (fun q x => nth_error l q = Some x) qs ns -> evolve_ok n k qs = true /\ NoDup qs /\ (forall q, In q qs -> (q < n)%nat) /\ length qs = k.
Proof.
  intros -> NDl NDn EL HF. assert (EQ : length qs = k) by (rewrite (Forall2_len _ _ _ HF); auto).
  assert (HB : forall q, In q qs -> (q < length l)%nat).
  { intros q Hq. clear -HF Hq. induction HF; [destruct Hq|]. destruct Hq as [->|Hq]; auto. eapply nth_error_lt; eauto. }
  assert (ND : NoDup qs).
  { clear -HF NDn. induction HF as [|q x qs ns H HF IH]; constructor; inversion NDn; subst; auto. intros K. apply H2. clear -HF K H.
    induction HF as [|q' x' qs ns H' HF IH]; [destruct K|]. destruct K as [->|K]; [left; congruence|right; auto]. }
  repeat split; auto. unfold evolve_ok. rewrite EQ, Nat.eqb_refl, (nodupb_spec qs ND), andb_true_r. simpl. apply forallb_forall. intros q Hq. apply Nat.ltb_lt; auto.
Qed.
Lemma indices_ok ni ns : ni_inv ni -> incl ns (ni_list ni) -> forall acc, exists qs,
  rfold (fun acc n => do i <- ni_index ni n; Ok (acc ++ [i])) ns acc = Ok (acc ++ qs) /\ Forall2 (fun q n => nth_error (ni_list ni) q = Some n) qs ns.
Proof.
  intros HI. induction ns as [|x ns IH]; intros HN acc; [exists []; simpl; rewrite app_nil_r; auto|].
  destruct (ni_index_ok _ x HI (HN x (or_introl eq_refl))) as (i & Ei & Hi). cbn [rfold]. rewrite Ei. cbn [rbind].
  destruct (IH (fun y Hy => HN y (or_intror Hy)) (acc ++ [i])) as (qs & E & F). exists (i :: qs). rewrite E, <- app_assoc. auto.
Qed.

Lemma dm_step_inv pre w c st : close1 1%R = true -> nrunnable (pre ++ [c]) -> DInv pre w st ->
  match dm_step close1 psdb user sel g u nm st c with
  | Ok st' =>
      ((forall n m s t, c <> NC (CM n m s t)) /\ DInv (pre ++ [c]) w st' /\ d_res st' = d_res st /\ d_rng st' = d_rng st) \/
      exists n m s t p0 b k1, c = NC (CM n m s t) /\ dprob0 pre c (outc (d_res st)) w n p0 /\ sel_measure sel g (d_rng st) n p0 = Ok (b, k1) /\
        DInv (pre ++ [c]) (with_out w n b) st' /\ d_res st' = dset (d_res st) n (fst (conf_opt u nm (b, k1))) /\ d_rng st' = snd (conf_opt u nm (b, k1))
  | Err e => exists n m s t p0, c = NC (CM n m s t) /\ dprob0 pre c (outc (d_res st)) w n p0 /\
      (sel_measure sel g (d_rng st) n p0 = Err e \/
       (e = ENan /\ exists x k', sel_measure sel g (d_rng st) n p0 = Ok (x, k') /\
          dtr (outs_of inp (strip (pre ++ [c]))) (nden user (outc (d_res st)) (with_out w n x) (pre ++ [c]) R0) = C0))
  end.
Proof.
  intros HC1 HR HI. pose proof HR as HR0. apply nrunnable_snoc in HR. destruct HR as [HR HC].
  pose proof (nrunnable_strip _ HR) as HRs.
  pose proof HI as [I1 I2 I3 I4 I5 (k & I6)]. pose proof (proj1 I1) as ND.
  set (o := outc (d_res st)) in *. set (l := ni_list (d_ni st)) in *.
  assert (K0 : k <> C0).
  { intros ->. rewrite (trace_lift _ _ _ _ _ I3 ND I6) in I5. apply (f_equal re) in I5. revert I5. cbn. intros. lra. }
  assert (DOM : forall d, (forall k, mem k d = true -> measured_in (strip pre) k) -> res_parity (d_res st) d = Ok (parity o d)).
  { intros d Hd. apply res_parity_ok. intros j Hj. apply I4, Hd; auto. }
  (* commands that keep the register, the outcomes and the generator *)
  assert (KEEP : forall s', (forall n m s t, c <> NC (CM n m s t)) -> (forall n s, c <> NC (CN n s)) -> dm_n s' = dm_n (d_dm st) ->
    dm_trace (dm_n s') (dm_rho s') = C1 -> lifts (dm_n s') (dm_rho s') l k (nstep user o w c (nden user o w pre R0)) -> DInv (pre ++ [c]) w (set_dm st s')).
  { intros s' N1 N2 E1 E2 E3.
    assert (SO : outs_of inp (strip (pre ++ [c])) = outs_of inp (strip pre)).
    { rewrite strip_app, outs_of_app. destruct c as [c|a]; simpl; auto. destruct c; simpl; auto; [destruct (N2 _ _ eq_refl)|destruct (N1 _ _ _ _ eq_refl)]. }
    constructor; cbn [set_dm d_dm d_ni d_res d_rng]; auto.
    - rewrite SO. auto.
    - fold l. congruence.
    - intros j. rewrite I4, strip_app, measured_app. split; auto. intros [K|K]; auto. destruct c as [c|a]; [|destruct K as (? & ? & ? & [])].
      apply measured_one in K. destruct K as (? & ? & ? & E). congruence.
    - exists k. fold o. fold l. rewrite nden_app. auto. }
  assert (SAME : (forall n m s t, c <> NC (CM n m s t)) -> (forall n s, c <> NC (CN n s)) -> nstep user o w c (nden user o w pre R0) = nden user o w pre R0 -> DInv (pre ++ [c]) w st).
  { intros N1 N2 E. assert (EQ : st = set_dm st (d_dm st)) by (destruct st; auto). rewrite EQ. apply KEEP; auto. rewrite E. auto. }
  assert (CHAN : forall ns qs data, (forall n m s t, c <> NC (CM n m s t)) -> (forall n s, c <> NC (CN n s)) -> NoDup ns -> Forall2 (fun q x => nth_error l q = Some x) qs ns ->
    kcomplete (length ns) data -> nstep user o w c (nden user o w pre R0) = dchan data ns (nden user o w pre R0) ->
    evolve_ok (dm_n (d_dm st)) (length ns) qs = true /\
    DInv (pre ++ [c]) w (set_dm st (DM (channel_map (dm_n (d_dm st)) (length ns) data qs (dm_rho (d_dm st))) (dm_n (d_dm st)))) /\
    dm_trace (dm_n (d_dm st)) (channel_map (dm_n (d_dm st)) (length ns) data qs (dm_rho (d_dm st))) = C1).
  { intros ns qs data N1 N2 NDn HF HK E.
    destruct (evolve_ok_true (dm_n (d_dm st)) (length ns) qs l ns I3 ND NDn eq_refl HF) as (OK & NDq & HB & EL).
    assert (TR : dm_trace (dm_n (d_dm st)) (channel_map (dm_n (d_dm st)) (length ns) data qs (dm_rho (d_dm st))) = C1)
      by (rewrite <- EL, channel_trace; auto; rewrite EL; auto).
    split; auto. split; auto. apply KEEP; auto. rewrite E. intros f h. cbn [dm_n dm_rho]. apply chan_lift; auto. }
  assert (ONE : forall n U, (forall n m s t, c <> NC (CM n m s t)) -> (forall n s, c <> NC (CN n s)) -> live inp (strip pre) n -> unitary U ->
    nstep user o w c (nden user o w pre R0) = conj1 U n (nden user o w pre R0) -> exists st', dbk_single st n U = Ok st' /\ DInv (pre ++ [c]) w st' /\ d_res st' = d_res st /\ d_rng st' = d_rng st).
  { intros n U N1 N2 HL HU E. destruct (ni_index_ok _ _ I1 (live_listed_d _ _ _ _ HI HR HL)) as (i & Ei & Hi).
    pose proof (nth_error_lt _ _ _ Hi) as Li. fold l in Li.
    unfold dbk_single. rewrite Ei. cbn [rbind]. unfold dm_evolve_single. replace (i <? dm_n (d_dm st))%nat with true by (symmetry; apply Nat.ltb_lt; lia). cbn [rbind].
    eexists. split; [reflexivity|]. split; [|split; reflexivity]. destruct (CHAN [n] [i] [(C1, m2 U)]) as (_ & D & _); auto.
    - repeat constructor; auto.
    - apply complete1; auto.
    - rewrite E, dchan1, conjk_1. auto.
    - rewrite <- channel_map1. auto. }
  destruct c as [[n s|a b|n m s t|n d|n d|n cl|n d|]|a]; cbn [dm_step].
  - (* N *) destruct HC as [[HC2 HC3] HS].
    assert (NL : ~ In n l).
    { intros K. eapply Permutation_in in K; [|exact I2]. apply (outs_of_live inp (strip pre) Hinp HRs) in K. destruct K as [[K|K] _]; tauto. }
    assert (ND' : NoDup (l ++ [n])).
    { apply NoDup_app'; auto; [repeat constructor; auto|]. intros x Hx [->|[]]. auto. }
    unfold dm_add_nodes, dm_make. cbn [sv_make rbind sv_psi sv_n repeat kron_states fold_left].
    assert (VN : vnorm2 (nstate_vec s) = 1%R) by (destruct s; [apply vnorm2_plus|apply HS]).
    left. split; [discriminate|]. split; [|split; reflexivity]. constructor; cbn [d_dm d_ni d_res d_rng].
    + apply ni_extend_inv; auto.
    + unfold ni_extend. cbn [ni_list]. rewrite outs_snoc, outs_of_app. simpl. apply Permutation_app_tail; auto.
    + unfold ni_extend. cbn [ni_list dm_n dm_tensor]. rewrite app_length. fold l. rewrite I3. reflexivity.
    + intros j. rewrite I4, strip_app, measured_app. split; auto. intros [K|K]; auto. apply measured_one in K. destruct K as (? & ? & ? & E). discriminate.
    + cbn [dm_n dm_tensor]. rewrite prep_trace; auto.
    + exists k. unfold ni_extend. cbn [ni_list]. rewrite nden_app. intros f h.
      apply (prep_lift (d_dm st) s l n (nden user o w pre R0) k I3 I6).
  - (* E *) destruct HC as [[Hu Hv] HS]. simpl in HS.
    destruct (ni_index_ok _ _ I1 (live_listed_d _ _ _ _ HI HR Hu)) as (i & Ei & Hi). destruct (ni_index_ok _ _ I1 (live_listed_d _ _ _ _ HI HR Hv)) as (j & Ej & Hj).
    rewrite Ei, Ej. cbn [rbind]. unfold dm_entangle, dm_evolve_chk.
    destruct (CHAN [a; b] [i; j] [(C1, czm)]) as (OK & D & _); auto; try discriminate.
    + repeat constructor; simpl; intuition.
    + apply complete_cz.
    + rewrite dchan1. rewrite conjk_cz by auto. reflexivity.
    + cbn [length] in OK. rewrite OK. cbn [rbind]. rewrite channel_map1 in D. left. split; [discriminate|]. auto.
  - (* M *) pose proof HC as HC0. destruct HC as [[HL HD] _]. rewrite !DOM by (intros; apply HD; auto). cbn [rbind].
    set (m' := describe_measurement o m s t).
    change (if parity o t then meas_clifford (if parity o s then meas_clifford m K1 else m) K3 else if parity o s then meas_clifford m K1 else m) with m'.
    destruct (ni_index_ok _ _ I1 (live_listed_d _ _ _ _ HI HR HL)) as (i & Ei & Hi). fold l in Hi.
    unfold dbk_measure. rewrite Ei. cbn [rbind].
    assert ((if sel_calls sel n then dm_normalize (d_dm st) else Ok (d_dm st)) = Ok (d_dm st)) as -> by (rewrite normalize_1 by auto; destruct (sel_calls sel n); auto).
    cbn [rbind]. rewrite <- mvec_proj, (expect_lift _ _ _ _ n k _ I3 ND Hi I5 I6). cbn [rbind].
    set (Rp := nden user o w pre R0) in *. set (ev := k * dtr (ldel i l) (dapp (OMeas (mvec m' false) n) Rp)).
    assert (NMn : ~ measured_in (strip pre) n) by apply HL.
    assert (OE : forall (v : nat -> bool) b j, measured_in (strip pre) j -> v j = with_out v n b j).
    { intros v b j Hj. unfold with_out. destruct (Nat.eqb_spec n j); auto. subst; tauto. }
    assert (On : forall (v : nat -> bool) b, with_out v n b n = b) by (intros v b; unfold with_out; rewrite Nat.eqb_refl; auto).
    assert (DE : forall o' b, (forall j, measured_in (strip pre) j -> o j = o' j) -> nden user o' (with_out w n b) (pre ++ [NC (CM n m s t)]) R0 = dapp (OMeas (mvec m' b) n) Rp).
    { intros o' b HO. rewrite nden_app. rewrite <- (nden_ext pre o o' w (with_out w n b) R0); auto. cbn [nden fold_left].
      rewrite <- (nstep_ext pre (NC (CM n m s t)) o o' (with_out w n b) (with_out w n b) _ HC0 HO); auto. simpl. rewrite On. reflexivity. }
    assert (PL : Permutation (ldel i l) (outs_of inp (strip (pre ++ [NC (CM n m s t)])))).
    { rewrite outs_snoc, outs_of_app. simpl. destruct (ldel_split _ _ _ Hi) as (a & c & EL & _ & ED). rewrite ED.
      rewrite EL in I2, ND. eapply perm_trans; [|apply lremove_Permutation; exact I2].
      apply Permutation_cons_inv with (a := n). eapply perm_trans; [apply Permutation_middle|]. apply lremove_perm. apply in_or_app; simpl; auto. }
    pose proof (ldel_NoDup _ _ _ ND Hi) as NDd.
    assert (KD : k * dtr l Rp = C1) by (rewrite <- (trace_lift _ _ _ _ _ I3 ND I6); auto).
    assert (HRp : herm Rp) by (apply herm_nden; auto).
    assert (EVr : ev * dtr l Rp = dtr (ldel i l) (dapp (OMeas (mvec m' false) n) Rp)).
    { unfold ev. transitivity (k * dtr l Rp * dtr (ldel i l) (dapp (OMeas (mvec m' false) n) Rp)); [ring|]. rewrite KD. ring. }
    assert (EVi : RtoC (re ev) = ev).
    { pose proof (herm_dtr l Rp HRp) as H1. pose proof (herm_dtr (ldel i l) _ (herm_dapp (OMeas (mvec m' false) n) Rp HRp)) as H2. rewrite <- EVr in H2.
      destruct (dtr l Rp) as [x y] eqn:Ex. cbn in H1. subst y. destruct ev as [p q]. cbn in H2. apply C_eq; cbn; auto.
      assert (x <> 0)%R. { intros ->. apply (f_equal re) in KD. revert KD. cbn. intros; lra. }
      assert (q * x = 0)%R by lra. destruct (Rmult_integral _ _ H0); lra. }
    assert (PR0 : dprob0 pre (NC (CM n m s t)) o w n (re ev)).
    { unfold dprob0. rewrite DE by auto. fold Rp. rewrite EVi. rewrite <- (dtr_perm _ _ _ NDd PL), <- (dtr_perm _ _ Rp ND I2). auto. }
    destruct (sel_measure sel g (d_rng st) n (re ev)) as [[b k1]|e] eqn:ES; cbn [rbind];
      [|exists n, m, s, t, (re ev); repeat split; auto].
    cbn [fst snd]. unfold dm_project. rewrite <- mvec_proj.
    destruct (meas_lift (d_dm st) (mvec m' b) i l n k Rp I3 ND Hi (mvec_norm m' b) I6) as (s1 & E1 & N1 & L1). rewrite E1. cbn [rbind].
    pose proof (normalize_lift _ _ _ _ N1 NDd L1 K0) as NZ. destruct (dm_normalize (dm_ptrace s1 i)) as [s2|e]; cbn [rbind].
    + destruct NZ as (N2 & T2 & k' & L2). destruct (ni_remove (d_ni st) n) as [ni'|e] eqn:ER; cbn [rbind].
      * destruct (ni_remove_inv _ _ _ I1 ER) as (I1' & a & c & EL & EL'). fold l in EL.
        assert (ELd : ni_list ni' = ldel i l).
        { destruct (ldel_split _ _ _ Hi) as (a2 & c2 & EL2 & La2 & ->). rewrite EL'. rewrite EL in EL2, ND, Hi.
          assert (length a = length a2).
          { rewrite La2. eapply NoDup_nth_inj; [exact ND| |exact Hi]. rewrite nth_error_app2, Nat.sub_diag by lia. reflexivity. }
          assert (a = a2 /\ n :: c = n :: c2) as [-> E2] by (apply app_inj_len; auto). injection E2 as ->. reflexivity. }
        destruct (conf_opt u nm (b, k1)) as [b' k2] eqn:EC. cbn [fst snd].
        right. exists n, m, s, t, (re ev), b, k1. rewrite EC. do 3 (split; [auto; fail|]). split; [|split; reflexivity].
        constructor; cbn [d_dm d_ni d_res d_rng]; auto.
        -- rewrite ELd; auto.
        -- rewrite ELd; congruence.
        -- intros j. rewrite strip_app, measured_app, <- I4. rewrite dget_dset. split.
           ++ intros [x Hx]. destruct (Nat.eqb_spec n j) as [E0|E0]; [right; rewrite <- E0; apply measured_one; eauto|left; eauto].
           ++ intros [[x Hx]|K]; [destruct (Nat.eqb_spec n j); eauto|]. apply measured_one in K. destruct K as (? & ? & ? & K). injection K as -> _ _ _. rewrite Nat.eqb_refl. eauto.
        -- rewrite outc_dset. fold o. exists k'. rewrite ELd. rewrite DE by auto. auto.
      * exfalso. unfold ni_remove in ER. pose proof (proj2 (proj2 I1 n i) Hi) as Ed. rewrite Ed in ER. fold l in ER. pose proof (nth_error_lt _ _ _ Hi).
        replace (i <? length l)%nat with true in ER by (symmetry; apply Nat.ltb_lt; lia). discriminate.
    + destruct NZ as [-> NZ]. exists n, m, s, t, (re ev). repeat split; auto. right. split; auto. exists b, k1. split; auto.
      rewrite DE by auto. rewrite <- (dtr_perm _ _ _ NDd PL). auto.
  - (* X *) destruct HC as [[HL HD] _]. rewrite DOM by auto. cbn [rbind]. destruct (parity o d) eqn:EP.
    + destruct (ONE n mX) as (st' & E & D & D2 & D3); auto using unitary_X; try discriminate; [simpl; rewrite EP; reflexivity|]. rewrite E. left. split; [discriminate|]. auto.
    + left. split; [discriminate|]. split; auto. apply SAME; try discriminate. simpl. rewrite EP. auto.
  - (* Z *) destruct HC as [[HL HD] _]. rewrite DOM by auto. cbn [rbind]. destruct (parity o d) eqn:EP.
    + destruct (ONE n mZ) as (st' & E & D & D2 & D3); auto using unitary_Z; try discriminate; [simpl; rewrite EP; reflexivity|]. rewrite E. left. split; [discriminate|]. auto.
    + left. split; [discriminate|]. split; auto. apply SAME; try discriminate. simpl. rewrite EP. auto.
  - (* C *) destruct HC as [HL _]. destruct (ONE n (clifford_mat cl)) as (st' & E & D & D2 & D3); auto using clifford_unitary; try discriminate. rewrite E. left. split; [discriminate|]. auto.
  - destruct HC as [_ []].
  - left. split; [discriminate|]. split; auto. apply SAME; try discriminate. reflexivity.
  - (* noise *) destruct HC as (HL & HN & HK & HD & HO). destruct (noise_ok_spec _ _ HO) as [NO NK].
    assert (match an_dom a with None => Ok true | Some d => res_parity (d_res st) d end = Ok (match an_dom a with None => true | Some d => parity o d end)) as ->.
    { destruct (an_dom a) as [d|] eqn:E; auto. apply DOM. intros; eapply HD; eauto. }
    cbn [rbind]. destruct (match an_dom a with None => true | Some d => parity o d end) eqn:EP.
    + destruct (indices_ok (d_ni st) (an_nodes a) I1 (fun x Hx => live_listed_d _ _ _ _ HI HR (HL x Hx)) []) as (qs & EQ & HF). rewrite EQ. cbn [rbind app].
      unfold dm_apply_noise. rewrite NO. cbn [rbind]. rewrite <- HK.
      destruct (CHAN (an_nodes a) qs (noise_data user (an_noise a))) as (OK & D & TR); auto; try discriminate.
      * rewrite HK. auto.
      * simpl. rewrite EP. auto.
      * rewrite OK. unfold apply_channel. rewrite TR, isclose_refl. cbn [rbind]. left. split; [discriminate|]. auto.
    + left. split; [discriminate|]. split; auto. apply SAME; try discriminate. simpl. rewrite EP. auto.
Qed.
Lemma dm_fold st0 w0 l : close1 1%R = true -> DInv [] w0 st0 -> d_rng st0 = 0%nat -> nrunnable l ->
  match rfold (dm_step close1 psdb user sel g u nm) l st0 with
  | Ok st => exists w, DInv l w st /\ nselected l (outc (d_res st)) w (d_rng st)
  | Err e => nfails l e
  end.
Proof.
  intros HC H0 K0. induction l as [|c l IH] using rev_ind; intros HR; [simpl; exists w0; split; auto; rewrite K0; constructor|].
  pose proof HR as HR0. apply nrunnable_snoc in HR as [HR HCc]. specialize (IH HR). rewrite rfold_app.
  destruct (rfold (dm_step close1 psdb user sel g u nm) l st0) as [st|e].
  - destruct IH as (w & HI & HS). cbn [rfold]. pose proof (dm_step_inv l w c st HC HR0 HI) as S. destruct (dm_step close1 psdb user sel g u nm st c) as [st'|e].
    + destruct S as [(N & HI' & E1 & E2)|(n & m & s & t & p0 & b & k1 & -> & P & M & HI' & E1 & E2)].
      * exists w. split; auto. rewrite E1, E2. constructor; auto.
      * exists (with_out w n b). split; auto. rewrite E1, E2, outc_dset.
        assert (NMn : ~ measured_in (strip l) n) by apply HCc.
        assert (OE : forall (v : nat -> bool) b j, measured_in (strip l) j -> v j = with_out v n b j).
        { intros v b' j Hj. unfold with_out. destruct (Nat.eqb_spec n j); auto. subst; tauto. }
        assert (On : forall (v : nat -> bool) b, with_out v n b n = b) by (intros v b'; unfold with_out; rewrite Nat.eqb_refl; auto).
        eapply ns_meas with (p0 := p0) (k1 := k1) (k := d_rng st).
        -- eapply nselected_ext; eauto.
        -- eapply dprob0_ext; [exact HR0| | |exact P]; auto.
        -- rewrite On. auto.
        -- rewrite !On. destruct (conf_opt u nm (b, k1)); auto.
    + destruct S as (n & m & s & t & p0 & -> & P & K). exists l, n, m, s, t, [], (outc (d_res st)), w, (d_rng st), p0. auto.
  - destruct IH as (a & n & m & s & t & b & o & w & k & p0 & -> & H). exists a, n, m, s, t, (b ++ [c]), o, w, k, p0. rewrite <- app_assoc. auto.
Qed.
End Step.

(** * Mixtures of pure states *)
Definition mixture (R : dop) : Prop := exists L : list state, forall f g, R f g = csum L (fun P => P f * Cconj (P g)).
Definition outer (P : state) : dop := fun f g => P f * Cconj (P g).
Lemma csum_app {X} (a b : list X) F : csum (a ++ b) F = csum a F + csum b F.
Proof. unfold csum. induction a as [|x a IH]; simpl; [ring|]. rewrite IH. ring. Qed.
Lemma csum_map {X Y} (h : X -> Y) l F : csum (map h l) F = csum l (fun x => F (h x)).
Proof. unfold csum. induction l as [|x l IH]; simpl; auto. rewrite IH. auto. Qed.
Lemma csum_flat {X Y} (h : X -> list Y) l F : csum (flat_map h l) F = csum l (fun x => csum (h x) F).
Proof. induction l as [|x l IH]; [auto|]. simpl flat_map. rewrite csum_app, IH. reflexivity. Qed.
Lemma csum_add {X} (l : list X) F G : csum l (fun x => F x + G x) = csum l F + csum l G.
Proof. unfold csum. induction l as [|x l IH]; simpl; [ring|]. rewrite IH. ring. Qed.
Lemma csum_mulr {X} (l : list X) c F : csum l (fun x => F x * c) = csum l F * c.
Proof. transitivity (c * csum l F); [|ring]. rewrite <- csum_mul. apply csum_ext. intros; ring. Qed.
Lemma csum_swap {X Y} (l : list X) (l' : list Y) F : csum l (fun x => csum l' (F x)) = csum l' (fun y => csum l (fun x => F x y)).
Proof.
  induction l as [|x l IH].
  - unfold csum at 1. simpl. symmetry. transitivity (csum l' (fun _ => C0 * C0)); [apply csum_ext; intros; unfold csum; simpl; ring|]. rewrite csum_mul. ring.
  - transitivity (csum l' (F x) + csum l (fun x => csum l' (F x))); [reflexivity|]. rewrite IH, <- csum_add. apply csum_ext. intros. reflexivity.
Qed.
(** the Kraus operator [op] on [ns] *)
Definition kapp (op : cmat) (ns : list nat) (P : state) : state := fun f =>
  cbsum (length ns) (fun a => op (idx (length ns) (fun t => f (nth t ns 0%nat))) (idx (length ns) a) * P (putf ns a f)).
Lemma cbsum_prod n m F G : cbsum n (fun a => cbsum m (fun b => F a * G b)) = cbsum n F * cbsum m G.
Proof. transitivity (cbsum m G * cbsum n F); [|ring]. rewrite <- cbsum_mul. apply cbsum_ext. intros a. rewrite cbsum_mul. ring. Qed.
Lemma conjk_outer op ns P : conjk op ns (outer P) = outer (kapp op ns P).
Proof.
  extensionality f. extensionality g. unfold conjk, outer, kapp. rewrite cbsum_conj, <- cbsum_prod.
  apply cbsum_ext. intros a. apply cbsum_ext. intros b. rewrite !Cconj_mul. ring.
Qed.
Lemma conjk_sum {X} op ns (L : list X) (h : X -> dop) : conjk op ns (fun f g => csum L (fun x => h x f g)) = (fun f g => csum L (fun x => conjk op ns (h x) f g)).
Proof.
  extensionality f. extensionality g. unfold conjk. rewrite csum_cbsum_swap. apply cbsum_ext. intros a. rewrite csum_cbsum_swap. apply cbsum_ext. intros b.
  rewrite <- csum_mul, <- csum_mulr. apply csum_ext. intros; ring.
Qed.
Lemma dapp_outer p P : dapp p (outer P) = outer (app_op p P).
Proof.
  extensionality f. extensionality g. destruct p as [U n|a b|v n|v n]; unfold outer; cbn [dapp app_op]; unfold conj1.
  - rewrite Cconj_add, !Cconj_mul. ring.
  - rewrite Cconj_mul, sgn_conj. ring.
  - rewrite Cconj_add, !Cconj_mul, !Cconj_inv. ring.
  - rewrite Cconj_mul. ring.
Qed.
Lemma dapp_sum {X} p (L : list X) (h : X -> dop) : dapp p (fun f g => csum L (fun x => h x f g)) = (fun f g => csum L (fun x => dapp p (h x) f g)).
Proof.
  extensionality f. extensionality g. destruct p as [U n|a b|v n|v n].
  - change (conj1 U n (fun f g => csum L (fun x => h x f g)) f g = csum L (fun x => conj1 U n (h x) f g)).
    rewrite <- conjk_1, conjk_sum. apply csum_ext. intros. rewrite conjk_1. auto.
  - cbn [dapp]. rewrite <- csum_mul, <- csum_mulr. apply csum_ext. intros; ring.
  - cbn [dapp]. rewrite <- !csum_mul, <- !csum_mulr, <- !csum_add. apply csum_ext. intros; ring.
  - cbn [dapp]. rewrite <- csum_mul, <- csum_mulr. apply csum_ext. intros; ring.
Qed.
Lemma mixture_dapp p R : mixture R -> mixture (dapp p R).
Proof.
  intros (L & H). exists (map (app_op p) L). intros f g.
  assert (R = fun f g => csum L (fun P => outer P f g)) as -> by (extensionality a; extensionality b; apply H).
  rewrite dapp_sum, csum_map. apply csum_ext. intros P _. rewrite dapp_outer. reflexivity.
Qed.
Lemma mixture_dchan data ns R : mixture R -> mixture (dchan data ns R).
Proof.
  intros (L & H). exists (flat_map (fun d => map (fun P f => fst d * kapp (snd d) ns P f) L) data). intros f g.
  assert (R = fun f g => csum L (fun P => outer P f g)) as -> by (extensionality a; extensionality b; apply H).
  unfold dchan. rewrite csum_flat. apply csum_ext. intros d _. rewrite csum_map, conjk_sum, <- csum_mul. apply csum_ext. intros P _.
  rewrite conjk_outer. unfold outer. rewrite Cconj_mul. ring.
Qed.
Lemma mixture_dapps ps : forall R, mixture R -> mixture (fold_left (fun R p => dapp p R) ps R).
Proof. induction ps as [|p ps IH]; simpl; auto. intros R H. apply IH, mixture_dapp; auto. Qed.
Lemma mixture_nden user o w l : forall R, mixture R -> mixture (nden user o w l R).
Proof.
  induction l as [|c l IH]; simpl; auto. intros R H. apply IH. destruct c as [c|a]; simpl.
  - destruct c; try (apply (mixture_dapps (cmd_ops o _)); auto). apply (mixture_dapp (OMeas _ _)). auto.
  - destruct (match an_dom a with None => true | Some d => parity o d end); auto. apply mixture_dchan; auto.
Qed.
Lemma mixture_herm R : mixture R -> herm R.
Proof. intros (L & H) f g. rewrite !H, csum_conj. apply csum_ext. intros. rewrite Cconj_mul, Cconj_inv. ring. Qed.
Lemma mixture_dtr l R : mixture R -> exists r, (0 <= r)%R /\ dtr l R = RtoC r.
Proof.
  intros (L & H). unfold dtr. generalize (fun _ : nat => false). induction l as [|x l IH]; intros f; simpl.
  - rewrite H. clear H. induction L as [|P L IH]; [exists 0%R; split; [lra|reflexivity]|]. destruct IH as (r & Hr & E).
    exists (Cnorm2 (P f) + r)%R. split; [pose proof (Cnorm2_nonneg (P f)); lra|]. rewrite RtoC_add, <- E, <- Cnorm2_mulconj. reflexivity.
  - destruct (IH (upd f x false)) as (a & Ha & ->). destruct (IH (upd f x true)) as (b & Hb & ->). exists (a + b)%R. split; [lra|]. rewrite RtoC_add. auto.
Qed.
Lemma outer_mixture P : mixture (outer P).
Proof. exists [P]. intros f g. unfold csum, outer. simpl. ring. Qed.
(** the trace of a pure state is its squared norm *)
Lemma place_putf l c : NoDup l -> place l c = putf l c (fun _ => false).
Proof. intros. extensionality n. unfold place, putf. auto. Qed.
Lemma dtr_outer l P : NoDup l -> dtr l (outer P) = RtoC (wt l P).
Proof.
  intros ND. unfold dtr. rewrite asum_put by auto. unfold wt, sqnorm, rbsum. rewrite <- bsum_RtoC. unfold cbsum. apply bsum_ext. intros c.
  rewrite place_putf by auto. unfold outer. apply Cnorm2_mulconj.
Qed.
(** without noise the state stays pure *)
Lemma dapps_outer ps : forall P, fold_left (fun R p => dapp p R) ps (outer P) = outer (den ps P).
Proof. induction ps as [|p ps IH]; intros P; simpl; auto. rewrite dapp_outer. apply IH. Qed.
Lemma nden_pure user o w l P : (forall n, measured_in l n -> w n = o n) -> nden user o w (map NC l) (outer P) = outer (den (seq_ops o l) P).
Proof.
  induction l as [|c l IH] using rev_ind; intros H; [reflexivity|]. rewrite map_app. unfold nden. rewrite fold_left_app. fold (nden user o w (map NC l) (outer P)).
  rewrite IH by (intros; apply H, measured_snoc; auto). rewrite seq_ops_app, den_app. cbn [map fold_left].
  assert (E : seq_ops o [c] = cmd_ops o c) by (simpl; apply app_nil_r). rewrite E, <- (dapps_outer (cmd_ops o c)).
  destruct c as [n0 s0|a0 b0|n0 m0 s0 t0|n0 d0|n0 d0|n0 c0|n0 d0|]; try reflexivity. cbn [nstep cmd_ops fold_left]. rewrite (H n0); auto. apply measured_app. right. apply measured_one. eauto.
Qed.

(** * A whole run *)
Lemma dinput_mixture psdb inp d : ddata_ok psdb d (length inp) -> mixture (dinput inp d).
Proof.
  destruct d as [d|k rho]; simpl.
  - intros _. apply (outer_mixture (input_state inp d)).
  - intros (-> & _ & _ & L & H). exists (map (fun (P : arr) f => P (idx (length inp) (pull inp f))) L). intros f g. rewrite csum_map. apply H; apply idx_lt.
Qed.
Lemma init_dinv close1 psdb user inp d w : NoDup inp -> close1 1%R = true -> ddata_ok psdb d (length inp) ->
  exists s, dm_add_nodes close1 psdb dm_init (length inp) d = Ok s /\ DInv user inp (dinput inp d) [] w (DSim s (ni_extend ni_clear inp) [] 0).
Proof.
  intros ND HC HD.
  assert (G : exists m, dm_make close1 psdb d (length inp) = Ok m /\ dm_n m = length inp /\ dm_trace (length inp) (dm_rho m) = C1
     /\ lifts (length inp) (dm_rho m) inp C1 (dinput inp d)).
  { destruct d as [d|k rho]; simpl in HD |- *.
    - destruct (sv_make_ok close1 d (length inp) HC HD) as (psi & E & N & A). rewrite E. cbn [rbind sv_psi sv_n]. eexists. split; [reflexivity|]. cbn [dm_n dm_rho].
      split; auto. split.
      + rewrite trace_drep. unfold sqnorm, rbsum in N. change C1 with (RtoC 1). rewrite <- N, <- bsum_RtoC. unfold cbsum. apply bsum_ext. intros f. apply Cnorm2_mulconj.
      + intros f g. unfold drep, couter. change (psi (idx (length inp) ?x)) with (rep (length inp) psi x). rewrite !A by auto. rewrite Cconj_mul, Cconj_1. unfold dinput. ring.
    - destruct HD as (-> & T & P & _). rewrite Nat.eqb_refl, T, isclose_refl, P. eexists. split; [reflexivity|]. cbn [dm_n dm_rho]. repeat split; auto.
      intros f g. unfold drep, dinput. ring. }
  destruct G as (m & E & N & T & L). unfold dm_add_nodes. rewrite E. cbn [rbind]. eexists. split; [reflexivity|].
  assert (D : forall f g, drep (length inp) (dm_rho (dm_tensor dm_init m)) f g = drep (length inp) (dm_rho m) f g).
  { intros f g. pose proof (tensor_drep dm_init m f g) as TD. rewrite N in TD. cbn [dm_n dm_init Nat.add] in TD. rewrite TD. unfold drep at 1. cbn [dm_rho].
    change (shiftn 0 f) with f. change (shiftn 0 g) with g. unfold drep. cbn [dm_rho dm_init]. ring. }
  assert (NN : dm_n (dm_tensor dm_init m) = length inp) by (simpl; auto).
  assert (LL : ni_list (ni_extend ni_clear inp) = inp) by reflexivity.
  constructor; cbn [d_dm d_ni d_res d_rng]; rewrite ?LL, ?NN; auto.
  - apply ni_extend_inv; [split; [constructor|]|auto]; simpl. intros n i. unfold dget. simpl. split; [discriminate|destruct i; discriminate].
  - intros k. split; [intros (b & Hb); discriminate|]. intros (? & ? & ? & []).
  - rewrite <- T, !trace_drep. apply cbsum_ext. intros. apply D.
  - exists C1. intros f g. rewrite D. apply L.
Qed.
Lemma dfinalize_ok st outs : ni_inv (d_ni st) -> Permutation outs (ni_list (d_ni st)) -> dm_n (d_dm st) = length (ni_list (d_ni st)) ->
  exists s, dbk_finalize st outs = Ok (DSim s (ni_extend ni_clear outs) (d_res st) (d_rng st)) /\ dm_n s = length outs
  /\ forall f g, drep (length outs) (dm_rho s) (pull outs f) (pull outs g) = drep (dm_n (d_dm st)) (dm_rho (d_dm st)) (pull (ni_list (d_ni st)) f) (pull (ni_list (d_ni st)) g).
Proof.
  intros HI HP EN. pose proof (proj1 HI) as ND. set (l := ni_list (d_ni st)) in *.
  assert (F : forall o acc, incl o l -> rfold (fun acc n => do i <- ni_index (d_ni st) n; Ok (acc ++ [i])) o acc = Ok (acc ++ map (fun x => pos_of x l) o)).
  { induction o as [|x o IH]; intros acc Ho; simpl; [rewrite app_nil_r; auto|].
    destruct (ni_index_ok _ x HI (Ho x (or_introl eq_refl))) as (i & Ei & Hi). rewrite Ei. cbn [rbind].
    rewrite IH by (intros y Hy; apply Ho; simpl; auto). rewrite <- app_assoc. simpl. do 3 f_equal.
    fold l in Hi. pose proof (nth_error_lt _ _ _ Hi). rewrite <- (nth_nth_error _ _ 0%nat _ Hi). symmetry. apply pos_of_nth'; auto. }
  unfold dbk_finalize. rewrite F by (intros x Hx; eapply Permutation_in; eauto). cbn [rbind app].
  destruct (permute_lift (d_dm st) outs l EN ND HP) as (s' & E & N & L). rewrite E. cbn [rbind]. exists s'.
  assert (dm_n s' = length outs) as N' by (rewrite N, EN; symmetry; apply Permutation_length; auto). rewrite N' in L. auto.
Qed.
(** run on a sequence of commands and noise *)
Lemma dm_exec_spec close1 psdb user sel g u nm inp d l outs : NoDup inp -> close1 1%R = true -> ddata_ok psdb d (length inp) -> nrunnable user inp l ->
  Permutation outs (outs_of inp (strip l)) ->
  exists s0, dm_add_nodes close1 psdb dm_init (length inp) d = Ok s0 /\
  match rfold (dm_step close1 psdb user sel g u nm) l (DSim s0 (ni_extend ni_clear inp) [] 0) with
  | Ok st1 => exists s w k, dbk_finalize st1 outs = Ok (DSim s (ni_extend ni_clear outs) (d_res st1) (d_rng st1)) /\
      DInv user inp (dinput inp d) l w st1 /\ nselected user sel g u nm inp (dinput inp d) l (outc (d_res st1)) w (d_rng st1) /\
      dm_n s = length outs /\ dm_trace (length outs) (dm_rho s) = C1 /\
      k * dtr outs (nden user (outc (d_res st1)) w l (dinput inp d)) = C1 /\
      lifts (length outs) (dm_rho s) outs k (nden user (outc (d_res st1)) w l (dinput inp d))
  | Err e => nfails user sel g u nm inp (dinput inp d) l e
  end.
Proof.
  intros ND HC HD HR HP. destruct (init_dinv close1 psdb user inp d (fun _ => false) ND HC HD) as (s0 & E & HI). exists s0. split; auto.
  pose proof (dm_fold close1 psdb user sel g u nm inp (dinput inp d) ND (mixture_herm _ (dinput_mixture _ _ _ HD)) _ _ l HC HI eq_refl HR) as F.
  destruct (rfold _ l _) as [st|e]; auto. destruct F as (w & HI' & HS). pose proof HI' as [I1 I2 I3 I4 I5 (k & I6)].
  assert (PM : Permutation outs (ni_list (d_ni st))) by (eapply perm_trans; [exact HP|apply Permutation_sym; auto]).
  destruct (dfinalize_ok st outs I1 PM I3) as (s & Ef & Nf & Lf). exists s, w, k. split; auto. split; auto. split; auto. split; auto.
  assert (L : lifts (length outs) (dm_rho s) outs k (nden user (outc (d_res st)) w l (dinput inp d))) by (intros f h; rewrite Lf; apply I6).
  assert (NDo : NoDup outs) by (eapply Permutation_NoDup; [apply Permutation_sym; exact PM|apply I1]).
  assert (T : k * dtr outs (nden user (outc (d_res st)) w l (dinput inp d)) = C1).
  { rewrite (dtr_perm _ _ _ NDo PM). rewrite <- (trace_lift _ _ _ _ _ I3 (proj1 I1) I6). auto. }
  rewrite (trace_lift _ _ _ _ _ eq_refl NDo L). auto.
Qed.
